(** The parallel parts of the library as programs with shared memory. Every array is a set of locations, a program does the reads
    and the writes of the elements one at a time. *)
From Coq Require Import List Arith NArith ZArith Bool Lia.
From Verif Require Import Base Config Morton Build FOps Disc NodeProps Tree Par.
Import ListNotations.
Local Open Scope nat_scope.

(** The shared arrays: data members of the tree (tree.hpp 3851-3881), the vector [values_new] of a call of [apply_isort] (tree.hpp
    497), the elements of the two concurrent vectors of [build_tree] (tree.hpp 951-954), the node properties (members of each node,
    tree_fwd.hpp 93-118) and the output arrays. *)
Inductive arr :=
| Codes | Perm | Inv | Last | Part (j : nat) | Fresh (a : arr)
| Nodes | Crits | SubTree (i : nat) | SubCrit (i : nat) | Props | Out (j : nat).

Definition arr_eq : forall a b : arr, {a = b} + {a <> b}.
Proof. decide equality; apply Nat.eq_dec. Defined.

Definition loc : Type := arr * nat.

Definition loc_eq : forall a b : loc, {a = b} + {a <> b}.
Proof. decide equality; [apply Nat.eq_dec|apply arr_eq]. Defined.

Section Prog.

Context {F : Type}.
Variable O : fops F.
Variable E : env.
Notation c := (e_cfg E).

Inductive val := VU (x : N) | VI (i : nat) | VF (x : F) | VN (x : node (props F)) | VC (x : cnode) | VP (x : props F).

Notation prog := (cmd loc val).

(** Reads, and a function of what was read; writes. *)
Fixpoint collect (ls : list loc) (k : list val -> prog) : prog :=
  match ls with
  | [] => k []
  | l :: r => Rd l (fun v => collect r (fun vs => k (v :: vs)))
  end.
Fixpoint writes (ws : list (loc * val)) : prog :=
  match ws with
  | [] => Ret
  | (l, v) :: r => Wr l v (writes r)
  end.

(** The statements of a loop executed in order by one thread. *)
Definition inorder (body : nat -> prog) (n : nat) : prog := fold_right app Ret (map body (seq 0 n)).

(** tree.hpp 499-505, 506, [apply_isort]: the loop and the move of the new vector, the latter as a copy of the elements. *)
Definition isort_body (a p : arr) (i : nat) : prog :=
  Rd (p, i) (fun v => match v with VI k => Rd (a, k) (fun x => Wr (Fresh a, i) x Ret) | _ => Ret end).
Definition move_body (a : arr) (i : nat) : prog := Rd (Fresh a, i) (fun x => Wr (a, i) x Ret).
Definition isort (a p : arr) (n : nat) (q : prog) : Prop :=
  exists loop, pfor (isort_body a p) 0 n loop /\ q = app loop (inorder (move_body a) n).

(** tree.hpp 1248-1262, [perm_to_inv_perm]. *)
Definition inv_body (i : nat) : prog := Rd (Perm, i) (fun v => match v with VI k => Wr (Inv, k) (VI i) Ret | _ => Ret end).

(** tree.hpp 1421-1426, 3704-3709: iota; 1476-1483: copy of [m_perm]. *)
Definition iota_body (p : arr) (i : nat) : prog := Wr (p, i) (VI i) Ret.
Definition copy_body (a b : arr) (i : nat) : prog := Rd (a, i) (fun x => Wr (b, i) x Ret).

(** tree.hpp 1441-1450, 3694-3701: Morton codes. A coordinate that cannot be discretised throws, here: nothing is written. *)
Definition floats (vs : list val) : list F := flat_map (fun v => match v with VF x => [x] | _ => [] end) vs.
Definition code_body (inv_box_size : F) (i : nat) : prog :=
  collect (map (fun j => (Part j, i)) (seq 0 (dim c))) (fun vs =>
    match particle_code O c (floats vs) inv_box_size with Ok x => Wr (Codes, i) (VU x) Ret | _ => Ret end).

(** tree.hpp 1453, 3711, [indirect_code_sort], by one thread (the parallel sort of TBB is not modelled): [sort] gives the sorted indices. *)
Definition code_vals (vs : list val) : list N := flat_map (fun v => match v with VU x => [x] | _ => [] end) vs.
Definition sort_prog (sort : list N -> list nat) (p : arr) (n : nat) : prog :=
  collect (map (fun i => (Codes, i)) (seq 0 n)) (fun vs => writes (map (fun '(i, k) => ((p, i), VI k)) (combine (seq 0 n) (sort (code_vals vs))))).

(** tree.hpp 1461-1485: the tasks of the constructor. *)
Definition ctor_tasks (n : nat) : list (prog -> Prop) :=
  isort Codes Perm n :: map (fun j => isort (Part j) Perm n) (seq 0 (dim c + 1)) ++ [pfor inv_body 0 n; pfor (copy_body Perm Last) 0 n].

(** tree.hpp 3714-3733: the tasks of [sync]. *)
Definition sync_tasks (n : nat) : list (prog -> Prop) :=
  isort Codes Last n :: map (fun j => isort (Part j) Last n) (seq 0 (dim c + 1)) ++
  [fun q => exists q1 q2, isort Perm Last n q1 /\ pfor inv_body 0 n q2 /\ q = app q1 q2].

Definition tasks_of (specs : list (prog -> Prop)) (q : prog) : Prop := exists qs, Forall2 (fun s x => s x) specs qs /\ q = group qs.

(** tree.hpp 1421-1482, [construct_impl] after the data movement and with the box size known: identity permutation, codes, sort, group. *)
Definition ctor_prog (sort : list N -> list nat) (inv_box_size : F) (n : nat) (q : prog) : Prop :=
  exists q1 q2 q3, pfor (iota_body Perm) 0 n q1 /\ pfor (code_body inv_box_size) 0 n q2 /\ tasks_of (ctor_tasks n) q3 /\
    q = app q1 (app q2 (app (sort_prog sort Perm n) q3)).

(** tree.hpp 3694-3733, [sync]. *)
Definition sync_prog (sort : list N -> list nat) (inv_box_size : F) (n : nat) (q : prog) : Prop :=
  exists q1 q2 q3, pfor (code_body inv_box_size) 0 n q1 /\ pfor (iota_body Last) 0 n q2 /\ tasks_of (sync_tasks n) q3 /\
    q = app q1 (app q2 (app (sort_prog sort Last n) q3)).

(** tree.hpp 1003-1018, 1044-1058: the vectors are copied to consecutive places, in two nested parallel loops. [off i] is [cum_sizes[i]]. *)
Definition merge_loop (src : nat -> arr) (dstA : arr) (sizes : list nat) (start : nat) (q : prog) : Prop :=
  exists body, (forall i, i < length sizes ->
      pfor (fun k => Rd (src i, k) (fun x => Wr (dstA, start + list_sum (firstn i sizes) + k) x Ret)) 0 (nth i sizes 0) (body i)) /\
    pfor body 0 (length sizes) q.
Definition merge_prog (tsizes csizes : list nat) (q : prog) : Prop :=
  tasks_of [merge_loop SubTree Nodes tsizes 1; merge_loop SubCrit Crits csizes 0] q.

(** tree.hpp 3795-3799: properties of the nodes after an update of the masses. The task of a node reads the node, and no more than all
    the particles. *)
Fixpoint chunks {A} (k n : nat) (l : list A) : list (list A) :=
  match k with
  | 0 => []
  | S k => firstn n l :: chunks k n (skipn n l)
  end.
Definition particle_locs (n : nat) : list loc := flat_map (fun j => map (fun i => (Part j, i)) (seq 0 n)) (seq 0 (dim c + 1)).
Definition props_body (box : F) (n : nat) (k : nat) : prog :=
  Rd (Nodes, k) (fun v => match v with
    | VN nd => collect (particle_locs n) (fun vs =>
        match cnp O E (chunks (dim c + 1) n (floats vs)) box (n_begin nd) (n_end nd) (n_code nd) (n_level nd) with
        | Ok p => Wr (Props, k) (VP p) Ret
        | _ => Ret
        end)
    | _ => Ret
    end).

(** tree.hpp 2923-3022: the task of a critical node reads some locations, computes, and writes the results of its particles. *)
Definition force_writes (zero : F) (dest : nat -> nat) (nv b e : nat) (res : list (list F)) : list (loc * val) :=
  flat_map (fun j => map (fun i => ((Out j, dest i), VF (nth (dest i) (nth j res []) zero))) (seq b (e - b))) (seq 0 nv).
Definition force_body (ls : nat -> list loc) (f : nat -> list val -> list (loc * val)) (k : nat) : prog := collect (ls k) (fun vs => writes (f k vs)).

End Prog.

Arguments val F : clear implicits.
