(** Counts of particles and iterator differences. *)
From Coq Require Import List Arith NArith ZArith Lia Bool Permutation.
From Verif Require Import Base Config Morton Build TreeSpec FOps Disc NodeProps Tree TreeInv TreeProofs.
Import ListNotations.
Local Open Scope nat_scope.

Section Counts.

Context {F : Type}.
Variable O : fops F.
Variable E : env.
Hypothesis HE : env_ok E.

Lemma reachable_counts : forall t, reachable O E t -> (N.of_nat (length (t_codes t)) <= diff_max)%N.
Proof.
  intros t Ht. apply (reachable_inv O E HE) in Ht.
  pose proof (inv_nodes O E t Ht 1 (fun l => l) (fun l => l) (fun A => Permutation_refl A) (fun A => Permutation_refl A)) as Hn.
  unfold build_tree in Hn. destruct (Nat.eqb_spec (length (t_codes t)) 0) as [Z|_]; [rewrite Z; vm_compute; discriminate|].
  apply bind_Ok in Hn as (u & Hu & _). unfold it_diff_check in Hu. destruct (N.ltb_spec diff_max (N.of_nat (length (t_codes t)))); [discriminate|assumption].
Qed.

Lemma count_rejected : forall s box cols n mln nc, (diff_max < N.of_nat n)%N ->
  match box with Some b => ffin O b = true /\ flt O b (fofZ O 0%Z) = false | None => ffin O (fofZ O 0%Z) = true /\ flt O (fofZ O 0%Z) (fofZ O 0%Z) = false end ->
  (forall k, mln = Some k -> 0 < k) -> (forall k, nc = Some k -> 0 < k) -> s_alloc s 0 = true ->
  generic_ctor O E s box (Iterators cols n) mln nc = Throw OverflowError.
Proof.
  intros s box cols n mln nc Hn Hb Hm Hc Ha. unfold generic_ctor.
  assert (Hm' : (match mln with Some k => k | None => default_max_leaf_n end =? 0) = false).
  { apply Nat.eqb_neq. destruct mln as [k|]; [specialize (Hm k eq_refl); lia|]. vm_compute. discriminate. }
  assert (Hc' : (match nc with Some k => k | None => e_ncrit E end =? 0) = false).
  { apply Nat.eqb_neq. destruct nc as [k|]; [specialize (Hc k eq_refl); lia|]. destruct HE as [H1 _]. lia. }
  assert (HL : forall cols', load (Iters cols' n : @pdata F) = Throw OverflowError).
  { intros cols'. unfold load, it_diff_check. destruct (N.ltb_spec diff_max (N.of_nat n)); [reflexivity|lia]. }
  destruct box as [b|]; destruct Hb as [H1 H2]; unfold construct; rewrite H1, H2, Hm', Hc'; cbn [negb orb]; unfold alloc; rewrite Ha; cbn [bind]; rewrite HL; reflexivity.
Qed.

End Counts.
