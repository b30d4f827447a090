(** Property C74: the size of a tree. *)
From Coq Require Import List Arith NArith ZArith Bool.
From Flocq Require Import Core BinarySingleNaN.
From Verif Require Import Base Config Morton Build FOps Disc NodeProps Tree TreeInv TreeEx UniqueColl Size.
Import ListNotations.
Local Open Scope nat_scope.

(** C74. *)
Theorem C74_size_of_trees :
  forall (F : Type) (O : fops F) (E : env) (t : tree) (HE : env_ok E) (Ht : reachable O E t),
  let n := length (t_codes t) in
  let levels := N.to_nat (cbitsc (e_cfg E)) in
  length (filter (fun nd => n_children nd =? 0) (t_nodes t)) <= n /\
  length (t_crit t) <= n /\
  length (t_nodes t) <= 1 + levels * n /\
  (t_mln t + 1) * (length (t_nodes t) - 1) <= 2 ^ dim (e_cfg E) * levels * n /\
  (forall nd, In nd (t_nodes t) -> N.to_nat (n_level nd) <= levels).
Proof.
  intros F O E t HE Ht. destruct (tree_size O E t HE Ht) as (H1 & H2 & H3 & H4 & H5).
  exact (conj H1 (conj H2 (conj H3 (conj H4 (fun nd Hnd => proj1 (N_le_nat _ _) (H5 nd Hnd)))))).
Qed.
Print Assumptions C74_size_of_trees.

(** Five particles, two of them coincident. With one particle per leaf the tree has a branch that reaches the last level. *)
Definition ex74_op : @op (binary_float 24 128) := OConstruct (ex_sched false) (Some (F32 1 0)) (Ranges ex_cols) (Some 1) None.
Definition ex74_tree := ex_obj false [ex74_op].
Example C74_ex : reachable exO (exE false) ex_tree /\ length (t_codes ex_tree) = 5 /\ length (t_nodes ex_tree) = 6 /\ t_mln ex_tree = 2 /\ length (t_crit ex_tree) = 1 /\
  cbitsc C2_32 = 15%N /\ t_mln ex74_tree = 1 /\ length (t_codes ex74_tree) = 5 /\ length (t_nodes ex74_tree) = 19 /\
  fold_right N.max 0%N (map (fun nd => n_level nd) (t_nodes ex74_tree)) = 15%N.
Proof. split; [exact tree_reachable|]. repeat split; vm_compute; reflexivity. Qed.
