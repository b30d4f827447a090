(** Tree construction: nodes, serial and parallel builders. *)
From Coq Require Import List Arith NArith ZArith Lia Bool.
From Verif Require Import Base Config Morton.
Import ListNotations.
Local Open Scope nat_scope.

(** detail/tree_fwd.hpp 77-116, [base_tree_node_t]/[tree_node_t]. [P] is the type of the
    floating-point payload (centre of mass, mass and MAC data), see NodeProps.v. *)
Record node (P : Type) := mkNode {
  n_begin : nat;
  n_end : nat;
  n_children : nat;
  n_code : N;
  n_level : N;
  n_props : P
}.
Arguments mkNode {P} _ _ _ _ _ _.
Arguments n_begin {P} _. Arguments n_end {P} _. Arguments n_children {P} _.
Arguments n_code {P} _. Arguments n_level {P} _. Arguments n_props {P} _.

(** detail/tree_fwd.hpp 119-125, [tree_cnode_t]. *)
Record cnode := mkCnode { c_code : N; c_begin : nat; c_end : nat }.

(** Largest value of [size_type] ([std::size_t] on the 64-bit platforms considered) and of its
    signed counterpart. *)
Definition size_max : N := 2 ^ 64 - 1.
Definition diff_max : N := 2 ^ 63 - 1.

(** tree.hpp 510-528, [checked_uinc]. The code tests [out > max - add]; [add] is a [size_type], so
    this is the same as [out + add > max]. *)
Definition checked_uinc (out add : nat) : outcome nat :=
  if (size_max <? N.of_nat out + N.of_nat add)%N then Throw OverflowError else Ok (out + add).

(** tree.hpp 533-554, [it_diff_check]. *)
Definition it_diff_check (n : nat) : outcome unit :=
  if (diff_max <? N.of_nat n)%N then Throw OverflowError else Ok tt.

(** [std::lower_bound]/[std::upper_bound] on [codes[first, first+len)], each code being shifted
    right by [shift] first ([code_shifter], tree.hpp 704-714, through a transform iterator).
    The loop is the classical halving loop of the standard library. [upper] selects
    [upper_bound]. The fuel is never exhausted (it starts at [len]). *)
Fixpoint bsearch (upper : bool) (codes : list N) (shift v : N) (fuel first len : nat) : outcome nat :=
  match fuel with
  | O => Ok first
  | S fuel' =>
    if len =? 0 then Ok first
    else
      let half := len / 2 in
      let mid := first + half in
      do x <- rd codes mid;
      let sx := N.shiftr x shift in
      if (if upper then negb (v <? sx)%N else (sx <? v)%N)
      then bsearch upper codes shift v fuel' (mid + 1) (len - half - 1)
      else bsearch upper codes shift v fuel' first half
  end.

(** [std::equal_range(t_begin, t_end, v)], tree.hpp 763-764, 861-862: the standard specifies the
    result as the pair (lower_bound, upper_bound). *)
Definition equal_range (codes : list N) (shift v : N) (b e : nat) : outcome (nat * nat) :=
  do lo <- bsearch false codes shift v (e - b) b (e - b);
  do hi <- bsearch true codes shift v (e - b) b (e - b);
  Ok (lo, hi).

Section Builder.

Variable c : cfg.
(** Sorted particle codes, [m_codes]. *)
Variable codes : list N.
(** [m_max_leaf_n], [m_ncrit]. *)
Variables max_leaf_n ncrit : nat.
Variable P : Type.
(** [compute_node_properties] on a node with the given begin, end, code and level. *)
Variable cnp : nat -> nat -> N -> N -> outcome P.

Let w := width c.
Let d := dimN c.
Let cb := cbitsc c.

(** tree[i].n_children = v, tree.hpp 819, 913, 917, 977. *)
Definition set_children (t : list (node P)) (i v : nat) : outcome (list (node P)) :=
  do nd <- rd t i;
  wr t i (mkNode (n_begin nd) (n_end nd) v (n_code nd) (n_level nd) (n_props nd)).

(** tree.hpp 801-803, 887-889. [plevel] is [ParentLevel]. *)
Definition critical_node (crit_ancestor : bool) (npart : nat) (plevel : N) : bool :=
  negb crit_ancestor &&
  ((npart <=? ncrit) || (npart <=? max_leaf_n) || (plevel + 1 =? cb)%N).

(** tree.hpp 723-833, [build_tree_ser_impl<ParentLevel>]: [rem] is [cbits - ParentLevel]. Returns
    the extended [tree], the extended [crit_nodes] and the returned children count. *)
Fixpoint build_ser (rem : nat) (tree : list (node P)) (crit : list cnode) (parent_code : N)
    (b e : nat) (crit_ancestor : bool) : outcome (list (node P) * list cnode * nat) :=
  match rem with
  | O => Ok (tree, crit, 0) (* 828-832 *)
  | S rem' =>
    let plevel := (cb - N.of_nat rem)%N in
    do one <- shl w 1 (plevel * d);
    let node_prefix := usub w parent_code one in                             (* 745 *)
    let shift := ((cb - plevel - 1) * d)%N in                                (* 750 *)
    foldM (fun st i =>                                                       (* 754 *)
      let '(tree, crit, retval) := st in
      do pre <- shl w node_prefix d;
      do r <- equal_range codes shift (wrap w (pre + i)) b e;                (* 763-764 *)
      let '(it_start, it_end) := r in
      let npart := it_end - it_start in
      if npart =? 0 then Ok (tree, crit, retval)                             (* 769 *)
      else
        do pc <- shl w parent_code d;
        let cur_code := wrap w (pc + i) in                                   (* 772 *)
        do props <- cnp it_start it_end cur_code (plevel + 1)%N;             (* 786 *)
        let tree1 := tree ++ [mkNode it_start it_end 0 cur_code (plevel + 1)%N props] in
        let tree_size := length tree1 in
        let critical := critical_node crit_ancestor npart plevel in          (* 801 *)
        let crit1 := if critical then crit ++ [mkCnode cur_code it_start it_end] else crit in
        do tc <- (if max_leaf_n <? npart                                     (* 808 *)
                  then
                    do r <- build_ser rem' tree1 crit1 cur_code it_start it_end
                              (critical || crit_ancestor);
                    let '(tree2, crit2, children_count) := r in
                    do tree3 <- set_children tree2 (tree_size - 1) children_count;
                    Ok (tree3, crit2)
                  else Ok (tree1, crit1));
        let '(tree4, crit4) := tc in
        do nd <- rd tree4 (tree_size - 1);
        do retval1 <- checked_uinc retval (n_children nd);                   (* 823 *)
        do retval2 <- checked_uinc retval1 1;                                (* 824 *)
        Ok (tree4, crit4, retval2))
      (upto (N.to_nat (2 ^ d))) (tree, crit, 0)
  end.

(** Number of particles below which a parallel task switches to the serial builder,
    tree.hpp 903. A parameter here so that the theorems cover every value. *)
Variable split_nparts : nat.

(** tree.hpp 841-931, [build_tree_par_impl<ParentLevel>]. [trees] and [crits] are the concurrent
    containers; this function describes their content for the schedule that runs the tasks in
    index order. Other schedules publish the same elements in another order, see
    [build_tree]. *)
Fixpoint build_par (rem : nat) (trees : list (list (node P))) (crits : list (list cnode))
    (parent_code : N) (b e : nat) (crit_ancestor : bool)
    : outcome (list (list (node P)) * list (list cnode) * nat) :=
  match rem with
  | O => Ok (trees, crits, 0) (* 928-930 *)
  | S rem' =>
    let plevel := (cb - N.of_nat rem)%N in
    do one <- shl w 1 (plevel * d);
    let node_prefix := usub w parent_code one in                             (* 853 *)
    let shift := ((cb - plevel - 1) * d)%N in                                (* 854 *)
    foldM (fun st i =>                                                       (* 857-860 *)
      let '(trees, crits, retval) := st in
      do pre <- shl w node_prefix d;
      do r <- equal_range codes shift (wrap w (pre + i)) b e;                (* 861-862 *)
      let '(it_start, it_end) := r in
      let npart := it_end - it_start in
      if npart =? 0 then Ok (trees, crits, retval)                           (* 865 *)
      else
        do pc <- shl w parent_code d;
        let cur_code := wrap w (pc + i) in                                   (* 866 *)
        do props <- cnp it_start it_end cur_code (plevel + 1)%N;             (* 876 *)
        let new_tree := [mkNode it_start it_end 0 cur_code (plevel + 1)%N props] in
        let critical := critical_node crit_ancestor npart plevel in          (* 887 *)
        let new_crit := if critical then [mkCnode cur_code it_start it_end] else [] in
        let k := length trees in                                             (* 870 *)
        let kc := length crits in                                            (* 893-896 *)
        do tc <- (if max_leaf_n <? npart                                     (* 897 *)
                  then
                    if npart <? split_nparts                                 (* 904 *)
                    then
                      do r <- build_ser rem' new_tree new_crit cur_code it_start it_end
                                (critical || crit_ancestor);
                      let '(t2, c2, children_count) := r in
                      do t3 <- set_children t2 0 children_count;             (* 913 *)
                      Ok (trees ++ [t3], crits ++ [c2])
                    else
                      do r <- build_par rem' (trees ++ [new_tree]) (crits ++ [new_crit])
                                cur_code it_start it_end (critical || crit_ancestor);
                      let '(ts2, cs2, children_count) := r in
                      do t2 <- rd ts2 k;
                      do t3 <- set_children t2 0 children_count;             (* 917 *)
                      do ts3 <- wr ts2 k t3;
                      Ok (ts3, cs2)
                  else Ok (trees ++ [new_tree], crits ++ [new_crit]));
        let '(trees4, crits4) := tc in
        do t4 <- rd trees4 k;
        do nd <- rd t4 0;
        do retval1 <- checked_uinc retval (n_children nd);                   (* 922 *)
        do retval2 <- checked_uinc retval1 1;                                (* 923 *)
        Ok (trees4, crits4, retval2))
      (upto (N.to_nat (2 ^ d))) (trees, crits, 0)
  end.

(** Insertion sort with a comparison that may fail, standing for [std::sort]. On the lists sorted
    below the comparison is a strict total order up to equal elements, so every correct sorting
    algorithm returns the same list (see [sorted_perm_unique] in BuildProofs.v). *)
Fixpoint insM {A} (lt : A -> A -> outcome bool) (x : A) (l : list A) : outcome (list A) :=
  match l with
  | [] => Ok [x]
  | y :: t => do b <- lt y x; if b then (do r <- insM lt x t; Ok (y :: r)) else Ok (x :: y :: t)
  end.
Fixpoint sortM {A} (lt : A -> A -> outcome bool) (l : list A) : outcome (list A) :=
  match l with
  | [] => Ok []
  | x :: t => do r <- sortM lt t; insM lt x r
  end.

(** tree.hpp 989-992, comparison of partial trees by the code of their first node. *)
Definition trees_lt (t1 t2 : list (node P)) : outcome bool :=
  do n1 <- rd t1 0; do n2 <- rd t2 0; node_compare w d (n_code n1) (n_code n2).

(** tree.hpp 1023-1035, comparison of partial lists of critical nodes. *)
Definition crits_lt (v1 v2 : list cnode) : outcome bool :=
  match v1, v2 with
  | [], [] => Ok false
  | [], _ => Ok true
  | _, [] => Ok false
  | x :: _, y :: _ => Ok (c_begin x <? c_begin y)
  end.

(** tree.hpp 994-1001, 1037-1042: overflow-checked cumulative sizes. *)
Definition cum_check {A} (start : nat) (ls : list (list A)) : outcome nat :=
  foldM (fun acc l => checked_uinc acc (length l)) ls start.

(** tree.hpp 932-1111, [build_tree]. [sched_t] and [sched_c] give the order in which the elements
    of the two concurrent vectors were published (any permutation, see the theorems). *)
Definition build_tree (sched_t : list (list (node P)) -> list (list (node P)))
    (sched_c : list (list cnode) -> list (list cnode)) : outcome (list (node P) * list cnode) :=
  let n := length codes in
  if n =? 0 then Ok ([], [])                                                 (* 939-941 *)
  else
    do _ <- it_diff_check n;                                                 (* 945 *)
    do props <- cnp 0 n 1%N 0%N;                                             (* 966 *)
    let root_is_crit := (n <=? ncrit) || (n <=? max_leaf_n) in               (* 970 *)
    let crits0 := if root_is_crit then [[mkCnode 1 0 n]] else [] in          (* 973 *)
    do r <- (if max_leaf_n <? n                                              (* 976 *)
             then build_par (N.to_nat cb) [] crits0 1%N 0 n root_is_crit
             else Ok ([], crits0, 0));
    let '(trees, crits, n_ch) := r in
    do strees <- sortM trees_lt (sched_t trees);                             (* 989 *)
    do tsize <- cum_check 1 strees;                                          (* 994-1001 *)
    do scrits <- sortM crits_lt (sched_c crits);                             (* 1023 *)
    do csize <- cum_check 0 scrits;                                          (* 1037-1042 *)
    (* 1003-1018, 1044-1058: concatenation. The checks of 1103-1110 are implied by the
       checked sums. *)
    Ok (mkNode 0 n n_ch 1%N 0%N props :: concat strees, concat scrits).

End Builder.

Arguments build_ser c codes max_leaf_n ncrit {P} cnp rem tree crit parent_code b e crit_ancestor.
Arguments build_par c codes max_leaf_n ncrit {P} cnp split_nparts rem trees crits parent_code b e crit_ancestor.
Arguments build_tree c codes max_leaf_n ncrit {P} cnp split_nparts sched_t sched_c.
Arguments set_children {P} t i v.
Arguments trees_lt c {P} t1 t2.
