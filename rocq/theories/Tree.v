(** The tree object: construction, updates, copy and move. *)
From Coq Require Import List Arith ZArith NArith Bool Permutation.
From Verif Require Import Base Config Morton Build TreeSpec FOps Disc NodeProps.
Import ListNotations.
Local Open Scope nat_scope.

(** Compile-time configuration and platform. *)
Record env := mkEnv {
  e_cfg : cfg;
  e_mac : mac;
  e_simd : option nat;     (* SIMD batch size *)
  e_ncrit : nat;           (* default_ncrit, tree.hpp 589-595: 128 or 256 *)
  e_rocm : bool;           (* RAKAU_WITH_ROCM and an accelerator is available *)
  e_hadd : list (nat * nat) (* order of the additions in xsimd::hadd *)
}.

(** tree.hpp 584. *)
Definition default_max_leaf_n : nat := 16.

Section Tree.

Context {F : Type}.
Variable O : fops F.

Notation nodes_t := (list (node (props F))).

(** tree.hpp 3840-3884: the data members. [t_parts] is [m_parts]: NDim arrays of coordinates and
    the array of masses. [t_view] stands for [m_rocm]: the data the device views
    were created from. *)
Record tree := mkTree {
  t_box : F;
  t_ded : bool;
  t_mln : nat;
  t_ncrit : nat;
  t_parts : list (list F);
  t_codes : list N;
  t_perm : list nat;
  t_last : list nat;
  t_inv : list nat;
  t_nodes : nodes_t;
  t_crit : list cnode;
  t_view : option (list (list F) * list N * nodes_t)
}.

(** What the environment decides during one operation: the shape of the parallel reduction, the
    result of the (unstable, parallel) sort, the task splitting threshold and the publication
    orders of the parallel build, and which allocations succeed. *)
Record sched := mkSched {
  s_red : nat -> red;
  s_sort : list N -> list nat;
  s_split : nat;
  s_t : list nodes_t -> list nodes_t;
  s_c : list (list cnode) -> list (list cnode);
  s_alloc : nat -> bool
}.

Definition sched_ok (s : sched) : Prop :=
  (forall n, spans (s_red s n) 0 n) /\
  (forall codes, Permutation (s_sort s codes) (seq 0 (length codes)) /\
                 sorted_codes (map (fun i => nth i codes 0%N) (s_sort s codes))) /\
  reorders (s_t s) /\ reorders (s_c s).

Definition alloc (s : sched) (k : nat) : outcome unit :=
  if s_alloc s k then Ok tt else Throw BadAlloc.

Variable E : env.
Let c := e_cfg E.
Let zero := fofZ O 0%Z.

(** tree.hpp 3834-3837, [nparts]. *)
Definition nparts (t : tree) : nat := length (hd [] (t_parts t)).

(** tree.hpp 1495-1508, [rocm_init_state]: the views refer to the current data. The conversion of
    the sizes to [int] is not modelled. *)
Definition rocm_init (t : tree) : tree :=
  mkTree (t_box t) (t_ded t) (t_mln t) (t_ncrit t) (t_parts t) (t_codes t) (t_perm t) (t_last t)
         (t_inv t) (t_nodes t) (t_crit t)
         (if e_rocm E then Some (t_parts t, t_codes t, t_nodes t) else None).

(** tree.hpp 1511-1519, [rocm_reset_state]. *)
Definition rocm_reset (t : tree) : tree :=
  mkTree (t_box t) (t_ded t) (t_mln t) (t_ncrit t) (t_parts t) (t_codes t) (t_perm t) (t_last t)
         (t_inv t) (t_nodes t) (t_crit t) None.

(** tree.hpp 1523-1526, default constructor. *)
Definition default_tree : tree :=
  rocm_init (mkTree zero false default_max_leaf_n (e_ncrit E) (repeat [] (dim c + 1))
                    [] [] [] [] [] [] None).

(** tree.hpp 1883-1904, [clear]. *)
Definition clear (t : tree) : tree :=
  rocm_init (mkTree zero false default_max_leaf_n (e_ncrit E) (map (fun _ => []) (t_parts t))
                    [] [] [] [] [] [] None).

(** tree.hpp 493-507, [apply_isort]. *)
Definition apply_isort {A} (values : list A) (perm : list nat) : outcome (list A) :=
  if length values =? length perm then mapM (rd values) perm else UB.

(** tree.hpp 1248-1262, [perm_to_inv_perm]. *)
Definition perm_to_inv_perm (perm inv : list nat) : outcome (list nat) :=
  foldM (fun inv '(i, p) => wr inv p i) (combine (seq 0 (length perm)) perm) inv.

(** Coordinates of particle [i]. *)
Definition coords (cols : list (list F)) (i : nat) : outcome (list F) :=
  mapM (fun col => rd col i) (firstn (dim c) cols).

(** tree.hpp 1441-1450, 3694-3701: Morton encoding of all the particles. *)
Definition encode_all (cols : list (list F)) (inv_box_size : F) (n : nat) : outcome (list N) :=
  mapM (fun i => do xs <- coords cols i; particle_code O c xs inv_box_size) (seq 0 n).

(** The particles, row by row, as seen by [determine_box_size]. *)
Definition rows (cols : list (list F)) (n : nat) : outcome (list (list F)) :=
  mapM (coords cols) (seq 0 n).

(** Node properties for a given tree content. *)
Definition cnp (cols : list (list F)) (box : F) : nat -> nat -> N -> N -> outcome (props F) :=
  compute_node_properties O c (e_mac E) (e_simd E) (e_hadd E) cols box.

(** Particle data given to the constructor: vectors that are moved, or iterators into sequences
    and a number of particles. *)
Inductive pdata :=
| Moved (cols : list (list F))
| Iters (cols : list (list F)) (n : nat).

(** tree.hpp 1364-1418: data movement. Reading past the end of an input sequence is undefined. *)
Definition load (d : pdata) : outcome (list (list F)) :=
  match d with
  | Moved cols => Ok cols
  | Iters cols n =>
    do _ <- it_diff_check n;                                                 (* 1404 *)
    mapM (fun col => if length col <? n then UB else Ok (firstn n col)) cols
  end.

(** tree.hpp 1329-1487, [construct_impl], followed by 1731, [rocm_init_state]. *)
Definition construct (s : sched) (box_size : F) (ded : bool) (d : pdata) (max_leaf_n ncrit : nat)
    : outcome tree :=
  if negb (ffin O box_size) || flt O box_size zero then Throw InvalidArgument (* 1350 *)
  else if max_leaf_n =? 0 then Throw InvalidArgument                         (* 1355 *)
  else if ncrit =? 0 then Throw InvalidArgument                              (* 1359 *)
  else
    do _ <- alloc s 0;                                                       (* 1377, 1391-1394 *)
    do parts <- load d;
    let np := length (hd [] parts) in                                        (* 1387 *)
    let perm0 := seq 0 np in                                                 (* 1421-1426 *)
    do box <- (if ded then do rs <- rows parts np; determine_box_size O (dim c) rs (s_red s np)
               else Ok box_size);                                            (* 1430-1433 *)
    let inv_box_size := fdiv O (fofZ O 1%Z) box in                           (* 1436 *)
    do codes0 <- encode_all parts inv_box_size np;
    let perm := s_sort s codes0 in                                           (* 1453: sorts perm0 *)
    do _ <- alloc s 1;
    do codes <- apply_isort codes0 perm;                                     (* 1463 *)
    do parts' <- mapM (fun col => apply_isort col perm) parts;               (* 1468 *)
    do inv <- perm_to_inv_perm perm (repeat 0 np);                           (* 1471 *)
    do _ <- alloc s 2;
    do r <- build_tree c codes max_leaf_n ncrit (cnp parts' box) (s_split s) (s_t s) (s_c s);
    Ok (rocm_init (mkTree box ded max_leaf_n ncrit parts' codes perm perm inv (fst r) (snd r) None)).

(** tree.hpp 1571-1733, generic constructor, run-time part. [None] for the box size means that the
    keyword argument is absent. Ranges: all sizes must agree with the size of the first
    one. *)
Inductive input :=
| RangesMoved (cols : list (list F))         (* rvalue f_vectors *)
| Ranges (cols : list (list F))
| Iterators (cols : list (list F)) (n : nat).

Definition ranges_check (cols : list (list F)) : outcome nat :=
  do c0 <- rd cols 0;
  let candidate := length c0 in                                              (* 1662 *)
  if existsb (fun col => negb (length col =? candidate)) (slice cols 1 (dim c)) (* 1665-1674 *)
  then Throw InvalidArgument
  else do ms <- rd cols (dim c);
       if length ms =? candidate then Ok candidate else Throw InvalidArgument. (* 1675-1683 *)

Definition generic_ctor (s : sched) (box_size : option F) (inp : input)
    (max_leaf_n ncrit : option nat) : outcome tree :=
  let '(box, ded) := match box_size with Some b => (b, false) | None => (zero, true) end in
  let mln := match max_leaf_n with Some k => k | None => default_max_leaf_n end in
  let nc := match ncrit with Some k => k | None => e_ncrit E end in
  match inp with
  | RangesMoved cols => do _ <- ranges_check cols; construct s box ded (Moved cols) mln nc
  | Ranges cols => do n <- ranges_check cols; construct s box ded (Iters cols n) mln nc
  | Iterators cols n => construct s box ded (Iters cols n) mln nc
  end.

(** tree.hpp 3678-3743, [sync]: the data of [t] with the positions already updated. *)
Definition sync (s : sched) (t0 : tree) : outcome tree :=
  let t := rocm_reset t0 in                                                  (* 3681 *)
  let np := nparts t in
  do box <- (if t_ded t then do rs <- rows (t_parts t) np; determine_box_size O (dim c) rs (s_red s np)
             else Ok (t_box t));                                             (* 3686-3688 *)
  let inv_box_size := fdiv O (fofZ O 1%Z) box in                             (* 3691 *)
  do codes0 <- encode_all (t_parts t) inv_box_size np;                       (* 3694-3701 *)
  let last := s_sort s codes0 in                                             (* 3704-3711 *)
  do _ <- alloc s 0;
  do codes <- apply_isort codes0 last;                                       (* 3718 *)
  do parts <- mapM (fun col => apply_isort col last) (t_parts t);            (* 3723 *)
  do perm <- apply_isort (t_perm t) last;                                    (* 3727 *)
  do inv <- perm_to_inv_perm perm (t_inv t);                                 (* 3731 *)
  do _ <- alloc s 1;
  do r <- build_tree c codes (t_mln t) (t_ncrit t) (cnp parts box) (s_split s) (s_t s) (s_c s);
  Ok (rocm_init (mkTree box (t_ded t) (t_mln t) (t_ncrit t) parts codes perm last inv (fst r) (snd r)
                        None)).

(** tree.hpp 3621-3635: what the iterators given to the user show; [ordered] selects
    [ord_p_its_impl]. Permutation iterators dereference [data[inv_perm[i]]]. *)
Definition view_cols (ordered : bool) (t : tree) : outcome (list (list F)) :=
  if ordered then
    do _ <- it_diff_check (nparts t);                                        (* 3628 *)
    mapM (fun col => mapM (rd col) (t_inv t)) (t_parts t)
  else Ok (t_parts t).

(** Writing through the iterators: element [i] of the view is [data[inv_perm[i]]]. *)
Definition scatter {A} (inv : list nat) (new old : list A) : outcome (list A) :=
  foldM (fun col '(k, v) => wr col k v) (combine inv new) old.

Definition write_back (ordered : bool) (inv : list nat) (old new : list F) : outcome (list F) :=
  if ordered then scatter inv new old else Ok new.

(** The user functor writes through iterators, it cannot change the number of elements. *)
Definition shape (cols : list (list F)) : list nat := map (@length F) cols.
Definition same_shape (a b : list (list F)) : outcome unit :=
  if list_eq_dec Nat.eq_dec (shape a) (shape b) then Ok tt else UB.

Definition set_parts (t : tree) (parts : list (list F)) : tree :=
  mkTree (t_box t) (t_ded t) (t_mln t) (t_ncrit t) parts (t_codes t) (t_perm t) (t_last t)
         (t_inv t) (t_nodes t) (t_crit t) (t_view t).

(** catch (...) { clear(); throw; }: the resulting object and the exception that propagates. *)
Definition guarded (t : tree) (r : outcome tree) : outcome (tree * option exn) :=
  match r with
  | Ok t' => Ok (t', None)
  | Throw e => Ok (clear t, Some e)
  | UB => UB
  end.

(** tree.hpp 3746-3765, [update_particles_dispatch]. *)
Definition update_particles (s : sched) (ordered : bool)
    (f : list (list F) -> outcome (list (list F))) (t : tree) : outcome (tree * option exn) :=
  guarded t
    (do v <- view_cols ordered t;
     do v' <- f v;
     do _ <- same_shape v v';
     do parts <- mapM (fun '(old, new) => write_back ordered (t_inv t) old new)
                      (combine (t_parts t) v');
     sync s (set_parts t parts)).

(** tree.hpp 3782-3805, [update_masses_dispatch]. The nodes are processed in parallel; all the
    failures are the same exception. *)
Definition update_masses (ordered : bool) (f : list F -> outcome (list F)) (t : tree)
    : outcome (tree * option exn) :=
  guarded t
    (do v <- view_cols ordered t;
     do mv <- rd v (dim c);
     do mv' <- f mv;
     do _ <- same_shape [mv] [mv'];
     do old <- rd (t_parts t) (dim c);
     do ms <- write_back ordered (t_inv t) old mv';
     do parts <- wr (t_parts t) (dim c) ms;
     do nodes <- mapM (fun nd =>
        do p <- cnp parts (t_box t) (n_begin nd) (n_end nd) (n_code nd) (n_level nd);
        Ok (mkNode (n_begin nd) (n_end nd) (n_children nd) (n_code nd) (n_level nd) p)) (t_nodes t);
     Ok (mkTree (t_box t) (t_ded t) (t_mln t) (t_ncrit t) parts (t_codes t) (t_perm t) (t_last t)
                (t_inv t) nodes (t_crit t) (t_view t))).

(** tree.hpp 1735-1743, copy constructor. *)
Definition copy_ctor (other : tree) : tree :=
  rocm_init (mkTree (t_box other) (t_ded other) (t_mln other) (t_ncrit other) (t_parts other)
    (t_codes other) (t_perm other) (t_last other) (t_inv other) (t_nodes other) (t_crit other) None).

(** tree.hpp 1745-1766, move constructor: the new tree and what is left in [other]. A moved-from
    vector is left in some unspecified state; [other.clear()] follows. *)
Definition move_ctor (other : tree) : tree * tree := (copy_ctor other, clear other).

(** tree.hpp 1767-1800, copy assignment between distinct objects. [fail = Some k]: the [k]-th member
    assignment throws; the members assigned before are already changed. *)
Definition assign_members (other : tree) : list (tree -> tree) :=
  [ (fun t => mkTree (t_box other) (t_ded t) (t_mln t) (t_ncrit t) (t_parts t) (t_codes t) (t_perm t) (t_last t) (t_inv t) (t_nodes t) (t_crit t) (t_view t));
    (fun t => mkTree (t_box t) (t_ded other) (t_mln t) (t_ncrit t) (t_parts t) (t_codes t) (t_perm t) (t_last t) (t_inv t) (t_nodes t) (t_crit t) (t_view t));
    (fun t => mkTree (t_box t) (t_ded t) (t_mln other) (t_ncrit t) (t_parts t) (t_codes t) (t_perm t) (t_last t) (t_inv t) (t_nodes t) (t_crit t) (t_view t));
    (fun t => mkTree (t_box t) (t_ded t) (t_mln t) (t_ncrit other) (t_parts t) (t_codes t) (t_perm t) (t_last t) (t_inv t) (t_nodes t) (t_crit t) (t_view t));
    (fun t => mkTree (t_box t) (t_ded t) (t_mln t) (t_ncrit t) (t_parts other) (t_codes t) (t_perm t) (t_last t) (t_inv t) (t_nodes t) (t_crit t) (t_view t));
    (fun t => mkTree (t_box t) (t_ded t) (t_mln t) (t_ncrit t) (t_parts t) (t_codes other) (t_perm t) (t_last t) (t_inv t) (t_nodes t) (t_crit t) (t_view t));
    (fun t => mkTree (t_box t) (t_ded t) (t_mln t) (t_ncrit t) (t_parts t) (t_codes t) (t_perm other) (t_last t) (t_inv t) (t_nodes t) (t_crit t) (t_view t));
    (fun t => mkTree (t_box t) (t_ded t) (t_mln t) (t_ncrit t) (t_parts t) (t_codes t) (t_perm t) (t_last other) (t_inv t) (t_nodes t) (t_crit t) (t_view t));
    (fun t => mkTree (t_box t) (t_ded t) (t_mln t) (t_ncrit t) (t_parts t) (t_codes t) (t_perm t) (t_last t) (t_inv other) (t_nodes t) (t_crit t) (t_view t));
    (fun t => mkTree (t_box t) (t_ded t) (t_mln t) (t_ncrit t) (t_parts t) (t_codes t) (t_perm t) (t_last t) (t_inv t) (t_nodes other) (t_crit t) (t_view t));
    (fun t => mkTree (t_box t) (t_ded t) (t_mln t) (t_ncrit t) (t_parts t) (t_codes t) (t_perm t) (t_last t) (t_inv t) (t_nodes t) (t_crit other) (t_view t)) ].

Definition copy_assign (fail : option nat) (this other : tree) : tree * option exn :=
  let steps := assign_members other in
  let run l := fold_left (fun t f => f t) l (rocm_reset this) in
  match fail with
  | Some k => (clear (run (firstn k steps)), Some BadAlloc)
  | None => (rocm_init (run steps), None)
  end.

(** tree.hpp 1801-1827, move assignment between distinct objects: new value of [this] and
    of [other]. *)
Definition move_assign (this other : tree) : tree * tree :=
  (rocm_init (fold_left (fun t f => f t) (assign_members other) (rocm_reset this)), clear other).

(** A program: a sequence of operations on a growing set of tree objects, named by their position
    in the list. *)
Inductive op :=
| ODefault
| OConstruct (s : sched) (box_size : option F) (inp : input) (max_leaf_n ncrit : option nat)
| OCopy (src : nat)
| OMove (src : nat)
| OAssign (dst src : nat) (fail : option nat)
| OMoveAssign (dst src : nat)
| OClear (i : nat)
| OUpdateParticles (i : nat) (s : sched) (ordered : bool) (f : list (list F) -> outcome (list (list F)))
| OUpdateMasses (i : nat) (ordered : bool) (f : list F -> outcome (list F)).

Definition world := list tree.

(** The new world and the exception thrown by the operation, if any. Naming an object that does not
    exist is undefined. *)
Definition step (w : world) (o : op) : outcome (world * option exn) :=
  match o with
  | ODefault => Ok (w ++ [default_tree], None)
  | OConstruct s b inp mln nc =>
    match generic_ctor s b inp mln nc with
    | Ok t => Ok (w ++ [t], None)
    | Throw e => Ok (w, Some e)
    | UB => UB
    end
  | OCopy i => do t <- rd w i; Ok (w ++ [copy_ctor t], None)
  | OMove i => do t <- rd w i;
               let '(new, old) := move_ctor t in
               do w' <- wr w i old; Ok (w' ++ [new], None)
  | OAssign i j fail =>
    do this <- rd w i; do other <- rd w j;
    if i =? j then Ok (w, None)                                              (* 1770 *)
    else let '(t, e) := copy_assign fail this other in
         do w' <- wr w i t; Ok (w', e)
  | OMoveAssign i j =>
    do this <- rd w i; do other <- rd w j;
    if i =? j then Ok (w, None)                                              (* 1803 *)
    else let '(t, o) := move_assign this other in
         do w1 <- wr w i t; do w2 <- wr w1 j o; Ok (w2, None)
  | OClear i => do t <- rd w i; do w' <- wr w i (clear t); Ok (w', None)
  | OUpdateParticles i s ord f =>
    do t <- rd w i; do r <- update_particles s ord f t;
    do w' <- wr w i (fst r); Ok (w', snd r)
  | OUpdateMasses i ord f =>
    do t <- rd w i; do r <- update_masses ord f t;
    do w' <- wr w i (fst r); Ok (w', snd r)
  end.

(** Exceptions are caught by the program, which goes on. *)
Definition run (ops : list op) (w : world) : outcome world :=
  foldM (fun w o => do r <- step w o; Ok (fst r)) ops w.

End Tree.
