(** The recursive parallel construction of the nodes as a program with shared memory, concurrent vectors and atomic counters (tree.hpp 841-983). Only the accesses to what the
    construction writes are steps; codes and particles are constant then. *)
From Coq Require Import List Arith NArith ZArith Bool Lia Permutation.
From Verif Require Import Base Config Morton Build ParBag.
Import ListNotations.
Local Open Scope nat_scope.

(** The shared objects. A task is identified by the child numbers on the way from its node to the root. [BTree], [BCrit]: the partial tree and the list of critical nodes that a
    task added (tree.hpp 870, 893-896; references to elements of concurrent vectors stay valid). [BCount]: its counter (tree.hpp 850). [BTrees], [BCrits]: the concurrent vectors
    (tree.hpp 953, 956), here as lists of tasks. [BRoot], [BProps]: the number of children and the properties of the root (tree.hpp 966, 977). *)
Inductive barr := BTree | BCrit | BCount | BTrees | BCrits | BRoot | BProps.

Definition bloc : Type := barr * list nat.

Definition bloc_eq : forall a b : bloc, {a = b} + {a <> b}.
Proof. decide equality; [apply (list_eq_dec Nat.eq_dec)|decide equality]. Defined.

Section Prog.

Variable c : cfg.
Variable codes : list N.
Variables max_leaf_n ncrit : nat.
Context {P : Type}.
Variable cnp : nat -> nat -> N -> N -> outcome P.
Variable split_nparts : nat.
Notation w := (width c).
Notation d := (dimN c).
Notation cb := (cbitsc c).

Inductive bval := YT (t : list (node P)) | YK (l : list cnode) | YC (n : nat) | YB (l : list (list nat)) | YP (x : P).

Notation prog := (cmd bloc bval).

(** [push_back] (tree.hpp 870, 893-896, 973) and [fetch_add] (tree.hpp 521-528); vectors are alike if they have the same elements in any order. The overflow check of the
    atomic addition is left out, see [build_par]. *)
Definition bop (v x : bval) : bval := match v, x with YB i, YB l => YB (l ++ i) | YC a, YC b => YC (b + a) | _, _ => x end.
Definition balike (x y : bval) : Prop := match x, y with YB a, YB b => Permutation a b | _, _ => x = y end.

(** What a task finds for the child [i] (tree.hpp 861-918): no particles, a leaf, a node whose descendants are built serially (with the result), or in parallel. *)
Inductive child :=
| NoChild
| Leaf (t : list (node P)) (l : list cnode)
| Serial (t : list (node P)) (l : list cnode) (t' : list (node P)) (l' : list cnode)
| Parallel (t : list (node P)) (l : list cnode) (code : N) (b e : nat) (crit_ancestor : bool).

Definition child_of (rem : nat) (parent_code : N) (b e : nat) (crit_ancestor : bool) (i : N) : outcome child :=
  let plevel := (cb - N.of_nat (S rem))%N in
  do one <- shl w 1 (plevel * d);
  do pre <- shl w (usub w parent_code one) d;                                (* 853 *)
  do r <- equal_range codes ((cb - plevel - 1) * d)%N (wrap w (pre + i)) b e;  (* 861-862 *)
  let '(it_start, it_end) := r in
  let npart := it_end - it_start in
  if npart =? 0 then Ok NoChild                                              (* 865 *)
  else
    do pc <- shl w parent_code d;
    let cur_code := wrap w (pc + i) in                                       (* 866 *)
    do props <- cnp it_start it_end cur_code (plevel + 1)%N;                 (* 876 *)
    let t := [mkNode it_start it_end 0 cur_code (plevel + 1)%N props] in
    let critical := critical_node c max_leaf_n ncrit crit_ancestor npart plevel in
    let l := if critical then [mkCnode cur_code it_start it_end] else [] in  (* 893-896 *)
    if max_leaf_n <? npart then                                              (* 897 *)
      if npart <? split_nparts then                                          (* 904 *)
        do r <- build_ser c codes max_leaf_n ncrit cnp rem t l cur_code it_start it_end (critical || crit_ancestor);
        let '(t2, l2, children_count) := r in
        do t3 <- set_children t2 0 children_count;                           (* 913 *)
        Ok (Serial t l t3 l2)
      else Ok (Parallel t l cur_code it_start it_end (critical || crit_ancestor))
    else Ok (Leaf t l).

(** tree.hpp 870-896: a new partial tree and a new list of critical nodes. *)
Definition publish (id : list nat) (t : list (node P)) (l : list cnode) (k : prog) : prog :=
  Wr (BTree, id) (YT []) (At (BTrees, []) (YB [id]) (Wr (BTree, id) (YT t) (Wr (BCrit, id) (YK l) (At (BCrits, []) (YB [id]) k)))).

(** tree.hpp 922-923. *)
Definition add_count (p id : list nat) : prog :=
  Rd (BTree, id) (fun v => match v with YT (nd :: _) => At (BCount, p) (YC (n_children nd)) (At (BCount, p) (YC 1) Ret) | _ => Ret end).

(** tree.hpp 917: the number of children is that of the counter of the recursive call. *)
Definition take_count (p id : list nat) : prog :=
  Rd (BCount, id) (fun v => match v with
    | YC n => Rd (BTree, id) (fun v => match v with
        | YT t => match set_children t 0 n with Ok t' => Wr (BTree, id) (YT t') (add_count p id) | _ => Ret end
        | _ => Ret end)
    | _ => Ret end).

(** tree.hpp 857-927, one iteration of the loop. The serial construction changes only objects that no other task knows; it is one write of each here. *)
Definition child_prog (sub : list nat -> N -> nat -> nat -> bool -> prog -> Prop) (rem : nat) (p : list nat) (parent_code : N) (b e : nat) (crit_ancestor : bool) (i : nat)
    (q : prog) : Prop :=
  let id := i :: p in
  match child_of rem parent_code b e crit_ancestor (N.of_nat i) with
  | Ok (Leaf t l) => q = publish id t l (add_count p id)
  | Ok (Serial t l t' l') => q = publish id t l (Wr (BTree, id) (YT t') (Wr (BCrit, id) (YK l') (add_count p id)))
  | Ok (Parallel t l code b' e' ca) => exists q0, sub id code b' e' ca q0 /\ q = publish id t l (app bloc bval q0 (take_count p id))
  | _ => q = Ret
  end.

(** tree.hpp 841-931, [build_tree_par_impl]; the loop may be divided among threads in any way, at every level of the recursion. *)
Fixpoint par_prog (rem : nat) (p : list nat) (parent_code : N) (b e : nat) (crit_ancestor : bool) (q : prog) : Prop :=
  match rem with
  | O => q = Wr (BCount, p) (YC 0) Ret
  | S rem => exists body q1, (forall i, i < N.to_nat (2 ^ d) -> child_prog (par_prog rem) rem p parent_code b e crit_ancestor i (body i)) /\
      pfor bloc bval body 0 (N.to_nat (2 ^ d)) q1 /\ q = Wr (BCount, p) (YC 0) q1
  end.

(** tree.hpp 964-980: the properties of the root are computed by another task. *)
Definition build_prog (q : prog) : Prop :=
  let n := length codes in
  let root_is_crit := (n <=? ncrit) || (n <=? max_leaf_n) in
  let crit k := if root_is_crit then Wr (BCrit, []) (YK [mkCnode 1 0 n]) (At (BCrits, []) (YB [[]]) k) else k in
  let rest q0 := app bloc bval q0 (Rd (BCount, []) (fun v => match v with YC k => Wr (BRoot, []) (YC k) Ret | _ => Ret end)) in
  exists props q0, cnp 0 n 1%N 0%N = Ok props /\
    (if max_leaf_n <? n then par_prog (N.to_nat cb) [] 1%N 0 n root_is_crit q0 else q0 = Ret) /\
    q = Fork (Wr (BProps, []) (YP props) Ret) (crit (if max_leaf_n <? n then rest q0 else Ret)) Ret.

(** tree.hpp 984-1058, after the tasks: the partial trees and the lists of critical nodes, in the order of the vectors, are sorted and copied behind the root. *)
Definition built (m : bloc -> bval) (nodes : list (node P)) (crit : list cnode) : Prop :=
  exists ids cids ts cs sts scs props n_ch,
    m (BTrees, []) = YB ids /\ Forall2 (fun id t => m (BTree, id) = YT t) ids ts /\ sortM (trees_lt c) ts = Ok sts /\
    m (BCrits, []) = YB cids /\ Forall2 (fun id l => m (BCrit, id) = YK l) cids cs /\ sortM crits_lt cs = Ok scs /\
    m (BProps, []) = YP props /\ m (BRoot, []) = YC n_ch /\
    nodes = mkNode 0 (length codes) n_ch 1%N 0%N props :: concat sts /\ crit = concat scs.

End Prog.

Arguments bval P : clear implicits.
