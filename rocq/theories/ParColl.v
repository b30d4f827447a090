(** The collision graph as a program with shared memory and concurrent vectors (detail/tree_coll.hpp 210-585). *)
From Coq Require Import List Arith NArith ZArith Bool Lia Permutation.
From Verif Require Import Base Config Morton Build FOps Disc NodeProps Tree Kernels Coll ParBag.
From Verif Require ParTree.
Import ListNotations.
Local Open Scope nat_scope.

(** The shared arrays: particles, permutation, codes and nodes of the tree, the sizes given by the user, the vectors of additional particles of the leaves ([v_add],
    detail/tree_coll.hpp 226) and the vectors of the graph. *)
Inductive carr := CPart (j : nat) | CPerm | CCodes | CNodes | CSizes | CAdd | CRow.

Definition carr_eq : forall a b : carr, {a = b} + {a <> b}.
Proof. decide equality; apply Nat.eq_dec. Defined.

Definition cloc : Type := carr * nat.

Definition cloc_eq : forall a b : cloc, {a = b} + {a <> b}.
Proof. decide equality; [apply Nat.eq_dec|apply carr_eq]. Defined.

Section Prog.

Context {F : Type}.
Variable O : fops F.
Variable E : env.
Variable K : platform F.
Notation c := (e_cfg E).

(** [XL]: a concurrent vector; [XR]: a row of the graph after the removal of the duplicates. *)
Inductive cval := XF (x : F) | XI (i : nat) | XU (x : N) | XN (x : node (props F)) | XL (l : list nat) | XR (l : list nat).

Notation prog := (cmd cloc cval).

(** [tbb::concurrent_vector::push_back], detail/tree_coll.hpp 445, 557-563; two vectors are alike if they have the same elements in any order. *)
Definition cop (v x : cval) : cval := match v, x with XI i, XL l => XL (l ++ [i]) | _, _ => x end.
Definition alike (x y : cval) : Prop := match x, y with XL a, XL b => Permutation a b | _, _ => x = y end.

(** Reads of several locations, then the rest of the task; appends to several vectors (detail/tree_coll.hpp 435-446, 555-564). *)
Fixpoint ccollect (ls : list cloc) (k : list cval -> prog) : prog :=
  match ls with
  | [] => k []
  | l :: r => Rd l (fun v => ccollect r (fun vs => k (v :: vs)))
  end.
Fixpoint pushes (a : carr) (ev : list (nat * nat)) : prog :=
  match ev with
  | [] => Ret
  | (i, x) :: r => At (a, i) (XI x) (pushes a r)
  end.

(** What a task of a leaf reads (detail/tree_coll.hpp 281-420, 472-545): no more than all the particles, nodes, indices, codes and sizes. Simplified: here it reads all of
    them. [seen]: the tree as far as the task needs it. *)
Definition range (a : carr) (n : nat) : list cloc := map (fun i => (a, i)) (seq 0 n).
Definition coll_reads (n nn ns : nat) : list cloc :=
  flat_map (fun j => range (CPart j) n) (seq 0 (dim c + 1)) ++ range CNodes nn ++ range CPerm n ++ range CCodes n ++ range CSizes ns.
Definition xfloats (vs : list cval) : list F := flat_map (fun v => match v with XF x => [x] | _ => [] end) vs.
Definition xnodes (vs : list cval) : list (node (props F)) := flat_map (fun v => match v with XN x => [x] | _ => [] end) vs.
Definition xindices (vs : list cval) : list nat := flat_map (fun v => match v with XI x => [x] | _ => [] end) vs.
Definition xcodes (vs : list cval) : list N := flat_map (fun v => match v with XU x => [x] | _ => [] end) vs.
Definition seen (box : F) (n : nat) (vs : list cval) : @tree F :=
  mkTree box false 0 0 (ParTree.chunks (dim c + 1) n (xfloats vs)) (xcodes vs) (xindices vs) [] [] (xnodes vs) [] None.
Definition seen_sizes (n : nat) (vs : list cval) : list F := skipn ((dim c + 1) * n) (xfloats vs).

(** detail/tree_coll.hpp 244-248: a row is cleared. *)
Definition clear_body (i : nat) : prog := Wr (CRow, i) (XL []) Ret.

(** detail/tree_coll.hpp 278-450: the additional particles from the leaf [k]. *)
Definition extras_body (ordered : bool) (box : F) (n nn ns k : nat) : prog :=
  ccollect (coll_reads n nn ns) (fun vs =>
    let t := seen box n vs in
    let leaves := coll_leaves (t_nodes t) in
    match nth_error leaves k with
    | Some lnode =>
      match mapM (extra O E K ordered t (seen_sizes n vs) leaves lnode) (seq (n_begin lnode) (n_end lnode - n_begin lnode)) with
      | Ok l => pushes CAdd (concat l)
      | _ => Ret
      end
    | None => Ret
    end).

(** detail/tree_coll.hpp 480-566: the vector of the leaf [k] is sorted, used and cleared; the pairs of the leaf are added to the graph. *)
Definition pairs_task (ordered : bool) (box : F) (n nn ns k : nat) (va : list nat) : prog :=
  Wr (CAdd, k) (XL [])
    (ccollect (coll_reads n nn ns) (fun vs =>
      let t := seen box n vs in
      match nth_error (coll_leaves (t_nodes t)) k with
      | Some lnode => match leaf_events O E ordered t (seen_sizes n vs) lnode va with Ok ev => pushes CRow ev | _ => Ret end
      | None => Ret
      end)).
Definition pairs_body (ordered : bool) (box : F) (n nn ns k : nat) : prog :=
  Rd (CAdd, k) (fun v => match v with XL va => pairs_task ordered box n nn ns k (nsort va) | _ => Ret end).

(** detail/tree_coll.hpp 574-581. *)
Definition dedup_body (i : nat) : prog := Rd (CRow, i) (fun v => match v with XL row => Wr (CRow, i) (XR (nunique (nsort row))) Ret | _ => Ret end).

(** detail/tree_coll.hpp 231-583: two tasks, the second one with a loop on the leaves and the first one with a loop on the rows unless the graph was empty; then two loops. *)
Definition coll_prog (was_empty ordered : bool) (box : F) (n nn ns nl : nat) (q : prog) : Prop :=
  exists q1 q2 q3 q4, (if was_empty then q1 = Ret else pfor cloc cval clear_body 0 n q1) /\
    pfor cloc cval (extras_body ordered box n nn ns) 0 nl q2 /\ pfor cloc cval (pairs_body ordered box n nn ns) 0 nl q3 /\ pfor cloc cval dedup_body 0 n q4 /\
    q = app cloc cval (Fork q1 q2 Ret) (app cloc cval q3 q4).

End Prog.

Arguments cval F : clear implicits.
