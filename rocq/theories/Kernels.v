(** Acceleration/potential kernels and the traversal of the tree. *)
From Coq Require Import List Arith ZArith NArith Bool.
From Verif Require Import Base Config Morton Build FOps NodeProps.
Import ListNotations.
Local Open Scope nat_scope.

(** The template parameter [Q] (tree.hpp 1964-1967): accelerations, potentials, or both. *)
Inductive quant := QAcc | QPot | QBoth.
Definition has_acc (q : quant) : bool := match q with QPot => false | _ => true end.
Definition has_pot (q : quant) : bool := match q with QAcc => false | _ => true end.

(** What depends on the platform. [k_rsqrt]: the hardware approximation of the inverse square root
    on a batch lane, when [use_fast_inv_sqrt] holds (tree.hpp 568-577). [k_ovs]: the result of [code >> amount] when the amount is not smaller than the
    width; undefined in C++, see [strict_shift] and [masked_shift]. *)
Record platform (F : Type) := mkPlatform {
  k_rsqrt : option (F -> F);
  k_ovs : N -> N -> outcome N
}.
Arguments mkPlatform {F} _ _. Arguments k_rsqrt {F} _. Arguments k_ovs {F} _.

(** The C++ standard: undefined. *)
Definition strict_shift (x s : N) : outcome N := UB.
(** x86 and the default code generation of compilers: the amount modulo the width. *)
Definition masked_shift (w x s : N) : outcome N := Ok (N.shiftr x (s mod w)).

Section Kernels.

Context {F : Type}.
Variable O : fops F.
Variable c : cfg.
Variable m : mac.
(** SIMD batch size, [None] if SIMD is disabled. *)
Variable simd : option nat.
Variable K : platform F.

Let zero := fofZ O 0%Z.

Notation nodes_t := (list (node (props F))).

(** Coordinates and mass of a particle. *)
Definition prow : Type := list F * F.

(** The results for one particle: the accelerations ([NDim] values or none) and the potential (one
    value or none), tree.hpp 1984-1989. The temporary buffers are arrays of coordinates; they are
    always accessed at the same index, so they are represented row by row. *)
Definition rrow : Type := list F * list F.
Definition row0 (q : quant) : rrow :=
  (if has_acc q then repeat zero (dim c) else [], if has_pot q then [zero] else []).

(** The vector code paths are taken if SIMD is enabled and [NDim == 3], tree.hpp 2077, 2336, 2484,
    2647. The scalar code paths have the same loops with a step of one. *)
Definition vectorised : bool := match simd, dim c with Some _, 3 => true | _, _ => false end.
Definition batch : nat := match simd, dim c with Some bw, 3 => bw | _, _ => 1 end.

(** Indices at which the batches start: [for (i = 0; i < tgt_size; i += batch_size)]. *)
Definition starts (bw n : nat) : list nat := map (fun q => q * bw) (seq 0 ((n + bw - 1) / bw)).

(** [batch_type(ptr + i)], and [.store(ptr + i)]. *)
Definition load_batch {A} (l : list A) (i bw : nat) : outcome (list A) := mapM (rd l) (seq i bw).
Definition store_batch {A} (l : list A) (i : nat) (v : list A) : outcome (list A) :=
  foldM (fun l '(k, x) => wr l k x) (combine (seq i (length v)) v) l.

(** Aligned accesses: the buffers are aligned to the size of a batch, so the offset must be a
    multiple of the batch size. *)
Definition load_aligned {A} (l : list A) (i bw : nat) : outcome (list A) :=
  if i mod bw =? 0 then load_batch l i bw else UB.
Definition store_aligned {A} (l : list A) (i bw : nat) (v : list A) : outcome (list A) :=
  if i mod bw =? 0 then store_batch l i v else UB.

(** * Arithmetic of one lane *)

Definition diffs (x2 x1 : list F) : list F := map (fun '(a, b) => fsub O a b) (combine x2 x1).

(** tree.hpp 2271-2276, 2430-2434 (scalar). *)
Definition dist2_s (eps2 : F) (ds : list F) : F := fold_left (fun s d => ffma O d d s) ds eps2.
(** 2013, 2033, 2049, 2111 (vector): [dx*dx + dy*dy + fma(dz, dz, eps2)]. *)
Definition dist2_v (eps2 : F) (ds : list F) : F :=
  match ds with
  | [dx; dy; dz] => fadd O (fadd O (fmul O dx dx) (fmul O dy dy)) (ffma O dz dz eps2)
  | _ => dist2_s eps2 ds
  end.

(** [xsimd_fnma(x, y, z)] = -x*y + z. *)
Definition fnma (x y z : F) : F := ffma O (fopp O x) y z.

(** detail/simd.hpp 75-83, [inv_sqrt_newton_iter]. *)
Definition newton_iter (y0 x : F) : F :=
  let xy0 := fmul O x y0 in
  let half_y0 := fmul O y0 (fdiv O (fofZ O 1%Z) (fofZ O 2%Z)) in
  let three_minus_muls := fnma xy0 y0 (fofZ O 3%Z) in
  fmul O half_y0 three_minus_muls.

(** detail/simd.hpp 88-98, 110-116, [inv_sqrt], when it is used. *)
Definition fast_inv_sqrt : option (F -> F) :=
  match k_rsqrt K with Some rsqrt => Some (fun x => newton_iter (rsqrt x) x) | None => None end.

(** detail/simd.hpp 100-104, 118-122, [inv_sqrt_3]. *)
Definition cube (x : F) : F := fmul O (fmul O x x) x.

(** acc[j] = fma(diff[j], k, acc[j]) *)
Definition axpy (ds : list F) (k : F) (acc : list F) : list F :=
  map (fun '(d, a) => ffma O d k a) (combine ds acc).

(** tree.hpp 2267-2305 (scalar) and 2103-2144, 2158-2184, 2198-2238 (vector): the interaction of the
    particles 1 and 2 of the target; [a1] accumulates the result for 1, [r2] is the result
    of 2. *)
Definition self_pair (q : quant) (eps2 : F) (p1 p2 : prow) (a1 r2 : rrow) : rrow * rrow :=
  let ds := diffs (fst p2) (fst p1) in
  let m1 := snd p1 in let m2 := snd p2 in
  if negb vectorised then
    let dist2 := dist2_s eps2 ds in
    let dist := fsqrt O dist2 in
    let dist3 := fmul O dist2 dist in
    let m2_dist3 := fdiv O m2 dist3 in let m1_dist3 := fdiv O m1 dist3 in
    let mut_pot := fmul O (fdiv O m1 dist) m2 in
    ((map (fun '(d, a) => ffma O m2_dist3 d a) (combine ds (fst a1)),
      map (fun p => fsub O p mut_pot) (snd a1)),
     (map (fun '(d, a) => ffma O m1_dist3 (fopp O d) a) (combine ds (fst r2)),
      map (fun p => fsub O p mut_pot) (snd r2)))
  else
    let dist2 := dist2_v eps2 ds in
    let '(m1_dist, m1_dist3, m2_dist3) :=
      match fast_inv_sqrt with
      | Some inv_sqrt =>
        let tmp := inv_sqrt dist2 in
        let tmp3 := cube tmp in
        (fmul O m1 tmp, fmul O m1 tmp3, fmul O m2 tmp3)
      | None =>
        let dist := fsqrt O dist2 in
        let dist3 := fmul O dist dist2 in
        (fdiv O m1 dist, fdiv O m1 dist3, fdiv O m2 dist3)
      end in
    let mut_pot := fmul O m1_dist m2 in
    ((axpy ds m2_dist3 (fst a1), map (fun p => fsub O p mut_pot) (snd a1)),
     (map (fun '(d, a) => fnma d m1_dist3 a) (combine ds (fst r2)),
      map (fun p => fsub O p mut_pot) (snd r2))).

(** tree.hpp 2429-2452 (scalar) and 2007-2072, the functions batch_batch_3d_... (vector): result [r]
    of the target particle [p1] after adding the interaction with the source particle [p2]. *)
Definition leaf_pair (q : quant) (eps2 : F) (p1 p2 : prow) (r : rrow) : rrow :=
  let ds := diffs (fst p2) (fst p1) in
  let m1 := snd p1 in let m2 := snd p2 in
  if negb vectorised then
    let dist2 := dist2_s eps2 ds in
    let dist := fsqrt O dist2 in
    let m_dist3 := fdiv O m2 (fmul O dist dist2) in
    (axpy ds m_dist3 (fst r), map (fun p => ffma O (fopp O m1) (fdiv O m2 dist) p) (snd r))
  else
    let dist2 := dist2_v eps2 ds in
    match q with
    | QAcc =>                                                                (* 2007-2025 *)
      let m2_dist3 := match fast_inv_sqrt with
                      | Some inv_sqrt => fmul O m2 (cube (inv_sqrt dist2))
                      | None => fdiv O m2 (fmul O (fsqrt O dist2) dist2)
                      end in
      (axpy ds m2_dist3 (fst r), snd r)
    | QPot =>                                                                (* 2029-2041 *)
      let m1_dist := match fast_inv_sqrt with
                     | Some inv_sqrt => fmul O m1 (inv_sqrt dist2)
                     | None => fdiv O m1 (fsqrt O dist2)
                     end in
      (fst r, map (fun p => fsub O p (fmul O m1_dist m2)) (snd r))
    | QBoth =>                                                               (* 2044-2069 *)
      let '(m2_dist, m2_dist3) :=
        match fast_inv_sqrt with
        | Some inv_sqrt => let tmp := inv_sqrt dist2 in (fmul O m2 tmp, fmul O m2 (cube tmp))
        | None => let dist := fsqrt O dist2 in
                  (fdiv O m2 dist, fdiv O m2 (fmul O dist2 dist))
        end in
      (axpy ds m2_dist3 (fst r), map (fun p => fnma m1 m2_dist p) (snd r))
    end.

(** Temporary data of the acceptance check for one target particle (tree.hpp 1971-1983): the
    differences, and the (inverse) cube and value of the distance. Only those needed for [Q]
    are stored by the code. *)
Record tmp_t := mkTmp { tmp_diffs : list F; tmp_dist3 : F; tmp_dist : F }.

(** tree.hpp 2556-2585 (scalar), 2484-2554 (vector): interaction with the centre of mass. *)
Definition com_pair (m_src : F) (p1 : prow) (tmp : tmp_t) (r : rrow) : rrow :=
  if negb vectorised then
    (axpy (tmp_diffs tmp) (fdiv O m_src (tmp_dist3 tmp)) (fst r),
     map (fun p => ffma O (fopp O (snd p1)) (fdiv O m_src (tmp_dist tmp)) p) (snd r))
  else
    let quot x := match fast_inv_sqrt with Some _ => fmul O m_src x | None => fdiv O m_src x end in
    (axpy (tmp_diffs tmp) (quot (tmp_dist3 tmp)) (fst r),
     map (fun p => fnma (snd p1) (quot (tmp_dist tmp)) p) (snd r)).

(** tree.hpp 2631-2643: left-hand side of the check. The kind of data stored in the nodes is that
    of the MAC, by typing. *)
Definition mac_lh (p : props F) (mac_value : F) : F :=
  match p_mac p with
  | DBh dim2 => fmul O dim2 mac_value
  | DGeom dm delta => let tmp := ffma O dm mac_value delta in fmul O tmp tmp
  end.

(** Squared distance without softening: 2741-2751 (scalar), 2666 and so on (vector). *)
Definition mac_dist2 (ds : list F) : F :=
  if negb vectorised then fold_left (fun s d => ffma O d d s) ds zero
  else match ds with
       | [dx; dy; dz] => fadd O (fadd O (fmul O dx dx) (fmul O dy dy)) (fmul O dz dz)
       | _ => fold_left (fun s d => ffma O d d s) ds zero
       end.

(** One lane of the check: squared distance and temporary data. 2759-2776 (scalar), 2673-2684,
    2702-2708, 2723-2735 (vector). *)
Definition mac_lane (eps2 : F) (com : list F) (p1 : prow) : F * tmp_t :=
  let ds := diffs com (fst p1) in
  let d2 := mac_dist2 ds in
  let dist2 := fadd O d2 eps2 in
  let t :=
    match vectorised, fast_inv_sqrt with
    | true, Some inv_sqrt => let inv := inv_sqrt dist2 in mkTmp ds (cube inv) inv
    | _, _ => let dist := fsqrt O dist2 in mkTmp ds (fmul O dist dist2) dist
    end in
  (d2, t).

(** The check on the batches starting at the given indices: the temporary data, or [None] if some
    particle fails. [lh >= dist2] is [dist2 <= lh]; both are false on NaN. *)
Fixpoint mac_loop (lh eps2 : F) (com : list F) (tgt : list prow) (is : list nat) (tmp : list tmp_t)
    : outcome (option (list tmp_t)) :=
  match is with
  | [] => Ok (Some tmp)
  | i :: is' =>
    do ps <- load_aligned tgt i batch;
    let lanes := map (mac_lane eps2 com) ps in
    if existsb (fun l => fle O (fst l) lh) lanes then Ok None
    else mac_loop lh eps2 com tgt is' (tmp ++ map snd lanes)
  end.

(** A loop over the batches that updates the results lane by lane. *)
Definition batch_map {A} (bw : nat) (f : nat -> A -> outcome A) (is : list nat) (res : list A)
    : outcome (list A) :=
  foldM (fun res i =>
    do rs <- load_aligned res i bw;
    do rs' <- mapM (fun '(k, r) => f (i + k) r) (combine (seq 0 bw) rs);
    store_aligned res i bw rs') is res.

(** The particle [i] of the tree. *)
Definition particle (cols : list (list F)) (i : nat) : outcome prow :=
  do xs <- mapM (fun col => rd col i) (firstn (dim c) cols);
  do mcol <- rd cols (dim c);
  do ms <- rd mcol i;
  Ok (xs, ms).

(** tree.hpp 2477-2590, [tree_acc_pot_src_com]. *)
Definition src_com (m_src : F) (tgt_size : nat) (tgt : list prow) (tmp : list tmp_t) (res : list rrow)
    : outcome (list rrow) :=
  batch_map batch (fun k r => do p1 <- rd tgt k; do t <- rd tmp k; Ok (com_pair m_src p1 t r))
    (starts batch tgt_size) res.

(** tree.hpp 2327-2471, [tree_acc_pot_leaf]. *)
Definition acc_pot_leaf (q : quant) (eps2 : F) (cols : list (list F)) (src : node (props F))
    (tgt_size : nat) (tgt : list prow) (res : list rrow) : outcome (list rrow) :=
  batch_map batch (fun k r =>
      do p1 <- rd tgt k;
      foldM (fun r i2 => do p2 <- particle cols i2; Ok (leaf_pair q eps2 p1 p2 r))
            (seq (n_begin src) (n_end src - n_begin src)) r)
    (starts batch tgt_size) res.

(** tree.hpp 2073-2321, [tree_self_interactions]. *)
Definition self_inner (q : quant) (eps2 : F) (tgt : list prow) (p1s : list prow)
    (st : list rrow * list rrow) (i2 : nat) : outcome (list rrow * list rrow) :=
  let '(a1s, res) := st in
  do p2s <- load_batch tgt i2 batch;
  do r2s <- load_batch res i2 batch;
  let outs := map (fun '(p1, p2, (a1, r2)) => self_pair q eps2 p1 p2 a1 r2)
                  (combine (combine p1s p2s) (combine a1s r2s)) in
  do res' <- store_batch res i2 (map snd outs);
  Ok (map fst outs, res').

Definition add_rows (r a : rrow) : rrow :=
  (map (fun '(x, y) => fadd O x y) (combine (fst r) (fst a)),
   map (fun '(x, y) => fadd O x y) (combine (snd r) (snd a))).

Definition self_interactions (q : quant) (eps2 : F) (tgt_size : nat) (tgt : list prow) (res : list rrow)
    : outcome (list rrow) :=
  foldM (fun res i1 =>
    do p1s <- load_aligned tgt i1 batch;
    do st <- foldM (self_inner q eps2 tgt p1s) (seq (i1 + 1) (tgt_size - (i1 + 1)))
                   (repeat (row0 q) batch, res);
    let '(a1s, res1) := st in
    do r1s <- load_aligned res1 i1 batch;
    store_aligned res1 i1 batch (map (fun '(r, a) => add_rows r a) (combine r1s a1s)))
    (starts batch tgt_size) res.

(** tree.hpp 2828: [tgt_code >> ((tgt_level - src_level) * NDim)]. The subtraction has the type of
    the codes, the product is a [std::size_t] (64 bits). *)
Definition shifted_code (tgt_code tgt_level src_level : N) : outcome N :=
  let w := width c in
  let amount := wrap 64 (usub w tgt_level src_level * dimN c) in
  if (amount <? w)%N then Ok (N.shiftr tgt_code amount) else k_ovs K tgt_code amount.

(** tree.hpp 2813-2844, the loop over the source nodes, with the call to
    [tree_acc_pot_mac_check] left open: it takes the index of the source node and the state, and
    returns the index of the next one. Running out of fuel is reported as [UB]. *)
Fixpoint traverse {S} (check : nat -> node (props F) -> S -> outcome (nat * S)) (nodes : nodes_t)
    (tgt_code : N) (fuel : nat) (i : nat) (s : S) : outcome S :=
  if length nodes <=? i then Ok s
  else match fuel with
  | 0 => UB
  | S fuel' =>
    do src <- rd nodes i;
    let tgt_level := tree_level (width c) (dimN c) tgt_code in
    do s_tgt_code <- shifted_code tgt_code tgt_level (n_level src);
    if (s_tgt_code =? n_code src)%N then
      traverse check nodes tgt_code fuel'
        (i + 1 + (if (n_code src =? tgt_code)%N then n_children src else 0)) s
    else
      do r <- check i src s;
      traverse check nodes tgt_code fuel' (fst r) (snd r)
  end.

(** tree.hpp 2597-2793, [tree_acc_pot_mac_check]. *)
Definition mac_check (q : quant) (mac_value eps2 : F) (cols : list (list F)) (tgt_size : nat)
    (tgt : list prow) (i : nat) (src : node (props F)) (res : list rrow) : outcome (nat * list rrow) :=
  do flag <- mac_loop (mac_lh (n_props src) mac_value) eps2 (p_com (n_props src)) tgt
                      (starts batch tgt_size) [];
  match flag with
  | Some tmp =>
    do res' <- src_com (p_mass (n_props src)) tgt_size tgt tmp res;          (* 2777 *)
    Ok (i + n_children src + 1, res')
  | None =>
    do res' <- (if n_children src =? 0 then acc_pot_leaf q eps2 cols src tgt_size tgt res
                else Ok res);                                                (* 2785-2788 *)
    Ok (i + 1, res')
  end.

(** tree.hpp 2798-2849, [tree_acc_pot]. *)
Definition tree_acc_pot (q : quant) (mac_value eps2 : F) (cols : list (list F)) (nodes : nodes_t)
    (tgt_code : N) (tgt_size : nat) (tgt : list prow) (res : list rrow) : outcome (list rrow) :=
  do res' <- traverse (mac_check q mac_value eps2 cols tgt_size tgt) nodes tgt_code (length nodes) 0 res;
  self_interactions q eps2 tgt_size tgt res'.

End Kernels.
