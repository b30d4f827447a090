(** Property C78: the recursive construction of the nodes by concurrent tasks is free of data races, and all the interleavings give the same tree. *)
From Coq Require Import List Arith NArith ZArith Bool Lia Permutation.
From Flocq Require Import Core BinarySingleNaN.
From Verif Require Import Base Config Morton Build TreeSpec FOps Disc NodeProps Tree TreeInv TreeEx Kernels Coll CollEx CollWit ParBag ParCollEx ParBuild ParBuildProofs ParBuildEx TreeProofs.
Import ListNotations.
Local Open Scope nat_scope.

(** C78. For every threshold between serial and parallel construction, every way of dividing the loops of the recursive calls among threads and every interleaving of the
    accesses: no two tasks access the same location at the same time unless both read, both append or both add to a counter; all the executions end; and the nodes and critical
    nodes that are assembled from what the tasks left behind are those of the tree. *)
Theorem C78_construction_interleavings :
  forall (F : Type) (O : fops F) (E : env) (t : @tree F) (split_nparts : nat) (q : cmd bloc (bval (props F))) (m : bloc -> bval (props F))
    (HE : env_ok E) (Ht : reachable O E t) (Hne : t_codes t <> [])
    (Htrees : m (BTrees, []) = YB []) (Hcrits : m (BCrits, []) = YB []) (Hroot : m (BRoot, []) = YC 0)
    (Hq : build_prog (e_cfg E) (t_codes t) (t_mln t) (t_ncrit t) (cnp O E (t_parts t) (t_box t)) split_nparts q),
  all_runs bloc (bval (props F)) bloc_eq bop q m (fun m' => built (e_cfg E) (t_codes t) m' (t_nodes t) (t_crit t)).
Proof.
  intros F O E t split_nparts q m HE Ht Hne H1 H2 H3 Hq.
  exact (build_runs _ _ _ _ _ _ _ _ q m Hne (inv_nodes O E t (reachable_inv O E HE t Ht) split_nparts) H1 H2 H3 Hq).
Qed.
Print Assumptions C78_construction_interleavings.

(** Six particles, all the recursive calls parallel, all loops divided up to single iterations; two interleavings that publish the partial trees in different orders. *)
Example C78_ex :
  reachable exCO exCE ex78_T /\ length (t_codes ex78_T) = 6 /\ length (t_nodes ex78_T) = 10 /\
  build_prog (e_cfg exCE) (t_codes ex78_T) (t_mln ex78_T) (t_ncrit ex78_T) ex78_cnp 2 (ex78_prog 2) /\
  (forall f, exec bloc (bval (props f32)) bloc_eq bop (fst (ex78_end 2 f)) (build_mem (YC 77)) (ex78_prog 2) (fst (snd (ex78_end 2 f))) (snd (snd (ex78_end 2 f)))) /\
  bis_ret (snd (snd (ex78_end 2 (fun k => k mod 13)))) = true /\ bis_ret (snd (snd (ex78_end 2 (fun k => k mod 17)))) = true /\
  ex78_trees (ex78_end 2 (fun k => k mod 13)) = [[3]; [1]; [2]; [0]; [0; 3]; [1; 0; 3]; [1; 1; 0; 3]; [2; 1; 0; 3]; [1; 3]] /\
  ex78_trees (ex78_end 2 (fun k => k mod 17)) = [[1]; [2]; [0]; [3]; [0; 3]; [1; 0; 3]; [1; 1; 0; 3]; [2; 1; 0; 3]; [1; 3]].
Proof.
  split; [exact ex_span_reachable|]. split; [now vm_compute|]. split; [now vm_compute|]. split; [exact ex78_prog_ok|]. split; [intros f; exact (bdrive_exec bloc_eq bop 3000 f _ _)|].
  split; [now vm_compute|]. split; [now vm_compute|]. split; now vm_compute.
Qed.

(** Races are possible in the model: two tasks that use the same partial tree. *)
Definition ex78_mix : cmd bloc (bval (props f32)) := Fork (publish [0] [] [] (add_count [] [0])) (publish [0] [] [] (add_count [] [0])) Ret.
Example C78_race_ex : exists n m' c', exec bloc (bval (props f32)) bloc_eq bop n (build_mem (YC 77)) ex78_mix m' c' /\ racing bloc (bval (props f32)) c'.
Proof. exists 0, (build_mem (YC 77)), ex78_mix. split; [constructor|]. eapply r_now; [apply p_wr|apply p_wr|reflexivity]. Qed.
