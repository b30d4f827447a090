(** Collision detection: the graph of the overlaps between axis-aligned cubes around the particles. *)
From Coq Require Import List Arith ZArith NArith Bool.
From Verif Require Import Base Config Morton Build FOps Disc NodeProps Tree Kernels.
Import ListNotations.
Local Open Scope nat_scope.

(** [std::sort] on indices, as called at detail/tree_coll.hpp 491 and 578: insertion sort; the sorted
    sequence is unique. *)
Fixpoint ninsert (x : nat) (l : list nat) : list nat :=
  match l with
  | [] => [x]
  | y :: t => if x <=? y then x :: l else y :: ninsert x t
  end.
Fixpoint nsort (l : list nat) : list nat := match l with [] => [] | x :: t => ninsert x (nsort t) end.
(** [std::unique], as called at detail/tree_coll.hpp 492 and 579: removes all but the first of consecutive equal elements. *)
Fixpoint nunique (l : list nat) : list nat :=
  match l with
  | x :: ((y :: _) as t) => if x =? y then nunique t else x :: nunique t
  | _ => l
  end.

(** [std::lower_bound] and [std::upper_bound], as called at detail/tree_coll.hpp 401-416 (the halving algorithm of the implementations): the
    end of the part of [first, first + len) on which [before] holds. *)
Fixpoint bsearch (before : nat -> outcome bool) (fuel first len : nat) : outcome nat :=
  if len =? 0 then Ok first
  else match fuel with
  | 0 => UB
  | S fuel' =>
    let half := len / 2 in
    do b <- before (first + half);
    if b then bsearch before fuel' (first + half + 1) (len - half - 1)
    else bsearch before fuel' first half
  end.

Section Coll.

Context {F : Type}.
Variable O : fops F.
Variable E : env.
Variable K : platform F.

Notation c := (e_cfg E).
Notation zero := (fofZ O 0%Z).
Notation half := (fdiv O (fofZ O 1%Z) (fofZ O 2%Z)).
Notation w := (width c).
Notation d := (dimN c).
Notation cb := (cbitsc c).
Notation nd_t := (node (props F)).

(** detail/tree_coll.hpp 46-74, [tree_coll_size_to_level]. *)
Fixpoint level_loop (fuel : nat) (retval : N) (s cur_node_size : F) : N :=
  match fuel with
  | 0 => retval
  | S fuel' =>
    let next_node_size := fmul O cur_node_size half in
    if fle O next_node_size s then retval
    else level_loop fuel' (retval + 1)%N s next_node_size
  end.
Definition size_to_level (s box_size : F) : N := level_loop (N.to_nat cb) 0%N s box_size.

(** detail/tree_coll.hpp 99-120: the extent of the cube in each dimension. *)
Definition min_max (aabb_size : F) (p_pos : list F) : outcome (list (F * F)) :=
  let h := fmul O aabb_size half in
  mapM (fun x =>
    let min_c := fsub O x h in
    let max_c := fadd O x h in
    if negb (ffin O min_c) || negb (ffin O max_c) || flt O max_c min_c then Throw InvalidArgument
    else Ok (min_c, max_c)) p_pos.

(** detail/tree_coll.hpp 79-153, [tree_coll_get_aabb_codes]. *)
Definition aabb_codes (p_pos : list F) (aabb_size inv_box_size : F) : outcome (list N) :=
  do mm <- min_max aabb_size p_pos;
  mapM (fun i =>
    do ds <- mapM (fun '(j, (mn, mx)) =>
                disc_single_coord O c true (if N.testbit (N.of_nat i) (N.of_nat j) then mx else mn) inv_box_size)
              (combine (seq 0 (length mm)) mm);
    morton_encode c ds) (seq 0 (2 ^ dim c)).

(** detail/tree_coll.hpp 159-175, [tree_coll_node_range]. The level is at most [cbits]. The
    right shift of line 172 is by the full width if the level is [cbits]. *)
Definition node_range (code level : N) : outcome (N * N) :=
  let shift_amount := ((cb - level) * d)%N in
  do mn <- shl w code shift_amount;
  let amount := (w - shift_amount)%N in
  let ones := (2 ^ w - 1)%N in
  do fill <- (if (amount <? w)%N then Ok (N.shiftr ones amount) else k_ovs K ones amount);
  Ok (mn, wrap w (mn + fill)).

(** detail/tree_coll.hpp 182-208, [coll_leaves_permutation]; the leaves themselves instead of their indices. *)
Definition coll_leaves (nodes : list nd_t) : list nd_t := filter (fun n => n_children n =? 0) nodes.

(** detail/tree_coll.hpp 395-418: the leaves whose range overlaps the one of the node [s_code]. *)
Definition find_leaves (leaves : list nd_t) (s_code level : N) : outcome (nat * nat) :=
  do s_range <- node_range s_code level;
  let len := length leaves in
  do l_begin <- bsearch (fun k => do n <- rd leaves k; do r <- node_range (n_code n) (n_level n);
                                  Ok (snd r <? fst s_range)%N) (len + 1) 0 len;
  do l_end <- bsearch (fun k => do n <- rd leaves k; do r <- node_range (n_code n) (n_level n);
                                Ok (negb (snd s_range <? fst r)%N)) (len + 1) l_begin (len - l_begin);
  Ok (l_begin, l_end).

(** detail/tree_coll.hpp 371-428: the loop on the levels for one vertex. [None]: the node fits in the
    original leaf. The loop is not expected to go beyond level zero (assertion 427);
    if it does the level wraps around, which is reported as [UB]. *)
Fixpoint zoom (leaves : list nd_t) (lcode llevel vcode : N) (fuel : nat) (al : N) : outcome (option (nat * nat)) :=
  do a <- shr w vcode ((cb - al) * d);
  do one <- shl w 1 (al * d);
  let s_code := wrap w (a + one) in
  do fits <- (if (llevel <=? al)%N then do x <- shr w s_code ((al - llevel) * d); Ok (x =? lcode)%N else Ok false);
  if fits then Ok None
  else
    do r <- find_leaves leaves s_code al;
    if fst r =? snd r then
      match fuel with 0 => UB | S fuel' => zoom leaves lcode llevel vcode fuel' (al - 1)%N end
    else Ok (Some r).

Section Graph.

Variable ordered : bool.
Variable t : @tree F.
(** What the iterator [it] gives access to. *)
Variable sizes : list F.

(** detail/tree_coll.hpp 292, 510, 531: [Ordered ? *(it + m_perm[pidx]) : *(it + pidx)]. *)
Definition label (pidx : nat) : outcome nat := if ordered then rd (t_perm t) pidx else Ok pidx.
Definition aabb_of (pidx : nat) : outcome F := do i <- label pidx; rd sizes i.

(** detail/tree_coll.hpp 308-311. *)
Definition position (pidx : nat) : outcome (list F) := mapM (fun col => rd col pidx) (firstn (dim c) (t_parts t)).

(** detail/tree_coll.hpp 319-334. *)
Definition straddles (llevel pcode : N) (codes : list N) : outcome bool :=
  let shift_amount := ((cb - llevel) * d)%N in
  do common_prefix <- shr w pcode shift_amount;
  do ps <- mapM (fun v => shr w v shift_amount) codes;
  Ok (existsb (fun p => negb (p =? common_prefix)%N) ps).

(** detail/tree_coll.hpp 288-448: one particle of the leaf [lnode]; the list of the additions to
    [v_add]: position of a leaf, index of the particle. *)
Definition extra (leaves : list nd_t) (lnode : nd_t) (pidx : nat) : outcome (list (nat * nat)) :=
  do aabb_size <- aabb_of pidx;
  if negb (ffin O aabb_size) || flt O aabb_size zero then Throw InvalidArgument
  else if feq O aabb_size zero then Ok []
  else
    do p_pos <- position pidx;
    do codes <- aabb_codes p_pos aabb_size (fdiv O (fofZ O 1%Z) (t_box t));
    do pcode <- rd (t_codes t) pidx;
    do st <- straddles (n_level lnode) pcode codes;
    if negb st then Ok []
    else
      let aabb_level := size_to_level aabb_size (t_box t) in
      do l <- mapM (fun v =>
        do z <- zoom leaves (n_code lnode) (n_level lnode) v (N.to_nat aabb_level) aabb_level;
        match z with
        | None => Ok []
        | Some (b, e) =>
          do ks <- mapM (fun k => do n <- rd leaves k; Ok (k, n_code n)) (seq b (e - b));
          Ok (map (fun k => (fst k, pidx)) (filter (fun k => negb (snd k =? n_code lnode)%N) ks))
        end) codes;
      Ok (concat l).

(** detail/tree_coll.hpp 274-451: the loop on the leaves and on their particles. *)
Definition extras (leaves : list nd_t) : outcome (list (nat * nat)) :=
  do l <- mapM (fun lnode => mapM (extra leaves lnode) (seq (n_begin lnode) (n_end lnode - n_begin lnode))) leaves;
  Ok (concat (map (@concat _) l)).

(** detail/tree_coll.hpp 518-522, 542-543: extent of the cube of a particle, by multiply-add. *)
Definition extent (s : F) (xs : list F) : list (F * F) :=
  map (fun x => (ffma O s (fdiv O (fopp O (fofZ O 1%Z)) (fofZ O 2%Z)) x, ffma O s half x)) xs.

(** detail/tree_coll.hpp 539-553: closed cubes. *)
Definition overlap (e1 e2 : list (F * F)) : bool :=
  forallb (fun '((min1, max1), (min2, max2)) => fle O min2 max1 && fle O min1 max2) (combine e1 e2).

(** detail/tree_coll.hpp 484-566: the pairs of a leaf and its extra particles [va]; additions to the graph. *)
Definition pair_events (idx1 idx2 : nat) : outcome (list (nat * nat)) :=
  do s1 <- aabb_of idx1;
  if feq O s1 zero then Ok []
  else
    do s2 <- aabb_of idx2;
    if feq O s2 zero then Ok []
    else
      do x1 <- position idx1;
      do x2 <- position idx2;
      if overlap (extent s1 x1) (extent s2 x2) then
        do i1 <- label idx1;
        do i2 <- label idx2;
        Ok [(i1, i2); (i2, i1)]
      else Ok [].
Fixpoint pairs (l : list nat) : list (nat * nat) :=
  match l with [] => [] | x :: t => map (fun y => (x, y)) t ++ pairs t end.
Definition leaf_events (lnode : nd_t) (va : list nat) : outcome (list (nat * nat)) :=
  let node_indices := seq (n_begin lnode) (n_end lnode - n_begin lnode) ++ nunique (nsort va) in
  do l <- mapM (fun '(i1, i2) => pair_events i1 i2) (pairs node_indices);
  Ok (concat l).

(** detail/tree_coll.hpp 445, 557-563: concurrent [push_back] of the additions [ev], in some order, to [n] vectors; undefined behaviour if
    a vector does not exist. *)
Definition append (ev : list (nat * nat)) (k : nat) : list nat := map snd (filter (fun e => fst e =? k) ev).
Definition all_below (n : nat) (ev : list (nat * nat)) : outcome unit := if forallb (fun e => fst e <? n) ev then Ok tt else UB.

(** detail/tree_coll.hpp 210-601, [compute_cgraph_impl]. [sch1] and [sch2]: the order of the concurrent
    additions in the two parallel loops. [old]: the previous contents of the graph; the rows are
    cleared (232-250). The check of line 576 on the length of a row before the removal of the
    duplicates is left out: no row that fits in memory fails it. *)
Definition compute_cgraph (sch1 sch2 : list (nat * nat) -> list (nat * nat)) (old : list (list nat)) : outcome (list (list nat)) :=
  do _ <- it_diff_check (nparts t);                                          (* 219 *)
  let rows := map (fun _ => @nil nat) (firstn (nparts t) old) ++ repeat [] (nparts t - length old) in
  let leaves := coll_leaves (t_nodes t) in
  do _ <- it_diff_check (length (t_nodes t));                                (* 266 *)
  do ev1 <- extras leaves;
  let ev1 := sch1 ev1 in
  do _ <- all_below (length leaves) ev1;
  do ev2 <- mapM (fun '(k, lnode) => leaf_events lnode (append ev1 k)) (combine (seq 0 (length leaves)) leaves);
  let ev2 := sch2 (concat ev2) in
  do _ <- all_below (length rows) ev2;
  Ok (map (fun '(i, row) => nunique (nsort (row ++ append ev2 i))) (combine (seq 0 (length rows)) rows)).  (* 570-583 *)

End Graph.

End Coll.
