(** Rounding errors of sums of interactions. *)
From Coq Require Import List Arith ZArith NArith Reals Bool Lra Lia Psatz Permutation.
From Flocq Require Import Core BinarySingleNaN Relative Plus_error.
From Verif Require Import Base Config FOps FOpsProofs NodeProps RSum Kernels SelfSum SelfShape Round RoundFin RoundNear RoundKern.
Import ListNotations.
Local Open Scope nat_scope.

Section IEEE.

Variables prec emax : Z.
Context (Hprec : Prec_gt_0 prec).
Context (Hemax : Prec_lt_emax prec emax).
Variable fused : bool.
Hypothesis Hp8 : (8 <= prec)%Z.

Notation bf := (binary_float prec emax).
Notation O := (Bops prec emax Hprec Hemax fused).
Notation fexp := (SpecFloat.fexp prec emax).
Notation rnd := (round radix2 fexp ZnearestE).
Notation zero := (fofZ O 0%Z).
Notation g := (gR prec).
Notation eta := (etaR prec emax).
Notation u := (uR prec).
Notation bnd := (bnd prec emax).
Notation approx := (approx prec emax).
Notation near := (near prec).
Notation astep := (astep prec emax Hprec Hemax fused).
Notation Hp2 := (Hp2 prec Hp8).

Local Instance valid_fexp_rs : Valid_exp fexp.
Proof. exact (@FLT_exp_valid (3 - emax - prec) prec Hprec). Qed.

Local Open Scope R_scope.

(** A sum of terms that are near [T a], with [d] operations. *)
Inductive csum {A} (cc : nat) (T : A -> R) : bf -> list A -> nat -> Prop :=
| csum_0 : csum cc T zero [] 0
| csum_step : forall s s' t a l d, csum cc T s l d -> astep s s' t -> near cc t (T a) -> csum cc T s' (a :: l) (S d)
| csum_add : forall s l d s' l' d', csum cc T s l d -> csum cc T s' l' d' -> csum cc T (fadd O s s') (l' ++ l) (S (d + d')).

Lemma approx_eta : forall e q x S a h, approx e q x S a -> Rabs h <= eta -> approx e (q + 1) (x + h) S a.
Proof.
  unfold Round.approx. intros e q x S a h H Hh. replace (x + h - S) with ((x - S) + h) by ring. eapply Rle_trans; [apply Rabs_triang|].
  pose proof (g_pow1 prec Hp2 e) as G. assert (0 < eta) by apply bpow_gt_0. nra.
Qed.

Lemma near_round : forall cc t T, near cc t T -> approx (S cc) 1 (rnd t) T (Rabs T).
Proof.
  intros cc t T N. destruct (any_err prec emax Hprec t) as (d & h & Hd & Hh & ->). replace 1 with (0 + 1) at 1 by ring. apply approx_eta; [|exact Hh].
  pose proof (near_approx prec emax Hp8 cc t T N) as A.
  assert (Z : approx cc 0 0 0 0) by (unfold Round.approx; rewrite Rminus_0_r, Rabs_R0; lra).
  pose proof (approx_plus prec emax Hp2 cc 0 0 t T (Rabs T) 0 0 0 d A Z ltac:(lra) ltac:(rewrite Rabs_R0; lra) ltac:(lra) ltac:(lra) Hd) as X.
  now rewrite !Rplus_0_r in X.
Qed.

Lemma lt_emax : forall y, Rabs y <= bpow radix2 (emax - 2) -> Rabs y < bpow radix2 emax.
Proof. intros y H. eapply Rle_lt_trans; [exact H|]. apply bpow_lt. lia. Qed.

(** The bound that excludes overflow. *)
Definition bound (cc d : nat) (A : R) : Prop := g ^ (cc + 1 + d) * (A + INR d * eta) <= bpow radix2 (emax - 2).

Lemma bound_mono : forall cc d d' A A', bound cc d' A' -> (d <= d')%nat -> 0 <= A <= A' -> bound cc d A.
Proof.
  unfold bound. intros cc d d' A A' H Hd HA. eapply Rle_trans; [|exact H]. assert (0 < eta) by apply bpow_gt_0. pose proof (pos_INR d). pose proof (le_INR d d' Hd).
  apply Rmult_le_compat; [pose proof (g_pow1 prec Hp2 (cc + 1 + d)); lra|nra|apply (g_mono prec Hp2); lia|nra].
Qed.

Lemma csum_approx : forall A cc (T : A -> R) s l d, csum cc T s l d -> bound cc d (rsum (fun a => Rabs (T a)) l) ->
  is_finite s = true /\ approx (cc + 1 + d) (INR d) (B2R s) (rsum T l) (rsum (fun a => Rabs (T a)) l).
Proof.
  intros A cc T s l d H. induction H as [|s s' t a l d H IH Hs Hn|s l d s' l' d' H1 IH1 H2 IH2]; intros HB.
  - split; [reflexivity|]. rewrite !rsum_nil. rewrite (B2R_zero prec emax Hprec Hemax fused). unfold Round.approx. rewrite Rminus_0_r, Rabs_R0. cbn [INR]. lra.
  - rewrite !rsum_cons in *. assert (PA : 0 <= rsum (fun a => Rabs (T a)) l) by (apply rsum_nonneg; intros; apply Rabs_pos). set (B := rsum (fun a => Rabs (T a)) l) in *.
    pose proof (Rabs_pos (T a)) as PT. pose proof (rsum_abs _ T l) as HA. fold B in HA.
    destruct IH as [F AP]; [eapply bound_mono; [exact HB|lia|lra]|].
    pose proof (pos_INR d) as PD.
    assert (E1 : approx (cc + 1 + d) 0 t (T a) (Rabs (T a))).
    { eapply (approx_mono prec emax Hp2); [apply (near_approx prec emax Hp8); exact Hn|lia|lra|exact PT]. }
    assert (ABS : forall x q, approx (cc + 1 + S d) q x (rsum T l + T a) (B + Rabs (T a)) -> 0 <= q <= INR (S d) -> Rabs x <= bpow radix2 (emax - 2)).
    { intros x q HX Hq. apply (fun H => approx_abs prec emax _ _ _ _ _ H (Rle_trans _ _ _ (Rabs_triang _ _) (Rplus_le_compat_r _ _ _ HA))) in HX.
      eapply Rle_trans; [exact HX|]. unfold bound in HB. eapply Rle_trans; [|exact HB]. assert (0 < eta) by apply bpow_gt_0.
      apply Rmult_le_compat_l; [pose proof (g_pow1 prec Hp2 (cc + 1 + S d)); lra|]. nra. }
    replace (T a + rsum T l) with (rsum T l + T a) by ring. replace (Rabs (T a) + B) with (B + Rabs (T a)) by ring.
    destruct Hs as [(x & -> & Fx & ->)|(x & y & -> & Fx & Fy & ->)].
    + destruct (plus_rel prec emax Hprec Hp2 s (Bopp x)) as (dd & Hdd & E). rewrite B2R_Bopp in E.
      pose proof (approx_plus prec emax Hp2 (cc + 1 + d) (INR d) 0 _ _ _ _ _ _ dd AP E1 HA ltac:(lra) PD ltac:(lra) Hdd) as X.
      rewrite <- E in X. replace (S (cc + 1 + d)) with (cc + 1 + S d)%nat in X by lia. rewrite Rplus_0_r in X.
      pose proof (Bminus_correct prec emax Hprec Hemax mode_NE s x F Fx) as C. change (round_mode mode_NE) with ZnearestE in C.
      change (B2R s - B2R x) with (B2R s + - B2R x) in C.
      rewrite Rlt_bool_true in C by (apply lt_emax; eapply ABS; [exact X|rewrite S_INR; lra]). destruct C as (V & FF & _). split; [exact FF|]. cbn [fsub Bops]. rewrite V.
      eapply (approx_mono prec emax Hp2); [exact X|lia|rewrite S_INR; lra|lra].
    + pose proof (near_round cc _ _ Hn) as NR.
      assert (RT : Rabs (rnd (B2R x * B2R y)) <= bpow radix2 (emax - 2)).
      { apply (fun H => approx_abs prec emax _ _ _ _ _ H (Rle_refl _)) in NR. eapply Rle_trans; [exact NR|]. unfold bound in HB. eapply Rle_trans; [|exact HB].
        assert (0 < eta) by apply bpow_gt_0. apply Rmult_le_compat; [pose proof (g_pow1 prec Hp2 (S cc)); lra|nra|apply (g_mono prec Hp2); lia|]. rewrite S_INR. nra. }
      assert (X : approx (cc + 1 + S d) (INR (S d)) (fma_val prec emax fused (B2R x) (B2R y) (B2R s)) (rsum T l + T a) (B + Rabs (T a))).
      { unfold fma_val. destruct fused.
        - destruct (any_err prec emax Hprec (B2R x * B2R y + B2R s)) as (dd & h & Hdd & Hh & ->). rewrite S_INR. apply approx_eta; [|exact Hh].
          replace (cc + 1 + S d)%nat with (S (cc + 1 + d)) by lia. replace (B2R x * B2R y + B2R s) with (B2R s + B2R x * B2R y) by ring.
          replace (INR d) with (INR d + 0) by ring. apply (approx_plus prec emax Hp2); auto; lra.
        - assert (FP : is_finite (Bmult mode_NE x y) = true) by (apply mult_finite; auto; now apply lt_emax).
          destruct (mult_fin prec emax Hprec Hemax _ _ FP) as (_ & _ & VP). rewrite <- VP. rewrite Rplus_comm.
          destruct (plus_rel prec emax Hprec Hp2 s (Bmult mode_NE x y)) as (dd & Hdd & ->). rewrite VP.
          replace (cc + 1 + S d)%nat with (S (cc + 1 + d)) by lia. rewrite S_INR. apply (approx_plus prec emax Hp2); auto; try lra.
          eapply (approx_mono prec emax Hp2); [exact NR|lia|lra|exact PT]. }
      assert (FF : is_finite (ffma O x y s) = true).
      { apply fma_finite; auto; [now apply lt_emax|]. apply lt_emax. eapply ABS; [exact X|]. pose proof (pos_INR (S d)). lra. }
      split; [exact FF|]. destruct (fma_fin prec emax Hprec Hemax fused _ _ _ FF) as (_ & _ & _ & ->). exact X.
  - rewrite !rsum_app in *. assert (P1 : 0 <= rsum (fun a => Rabs (T a)) l) by (apply rsum_nonneg; intros; apply Rabs_pos).
    assert (P2 : 0 <= rsum (fun a => Rabs (T a)) l') by (apply rsum_nonneg; intros; apply Rabs_pos).
    pose proof (rsum_abs _ T l) as HA1. pose proof (rsum_abs _ T l') as HA2.
    destruct IH1 as [F1 A1]; [eapply bound_mono; [exact HB|lia|lra]|]. destruct IH2 as [F2 A2]; [eapply bound_mono; [exact HB|lia|lra]|].
    pose proof (pos_INR d) as PD1. pose proof (pos_INR d') as PD2.
    assert (A1' : approx (cc + 1 + (d + d')) (INR d) (B2R s) (rsum T l) (rsum (fun a => Rabs (T a)) l)) by (eapply (approx_mono prec emax Hp2); [exact A1|lia|lra|lra]).
    assert (A2' : approx (cc + 1 + (d + d')) (INR d') (B2R s') (rsum T l') (rsum (fun a => Rabs (T a)) l')) by (eapply (approx_mono prec emax Hp2); [exact A2|lia|lra|lra]).
    destruct (plus_rel prec emax Hprec Hp2 s s') as (dd & Hdd & E).
    pose proof (approx_plus prec emax Hp2 _ _ _ _ _ _ _ _ _ dd A1' A2' HA1 HA2 PD1 PD2 Hdd) as X. rewrite <- E in X.
    replace (S (cc + 1 + (d + d'))) with (cc + 1 + S (d + d'))%nat in X by lia. rewrite <- plus_INR in X.
    rewrite (Rplus_comm (rsum T l')), (Rplus_comm (rsum _ l')). rewrite (Rplus_comm (rsum _ l')) in HB.
    assert (HAB : Rabs (rsum T l + rsum T l') <= rsum (fun a => Rabs (T a)) l + rsum (fun a => Rabs (T a)) l') by (eapply Rle_trans; [apply Rabs_triang|]; lra).
    assert (FF : is_finite (Bplus mode_NE s s') = true).
    { apply plus_finite; auto. apply lt_emax. pose proof (approx_abs prec emax _ _ _ _ _ X HAB) as Y. eapply Rle_trans; [exact Y|]. unfold bound in HB. eapply Rle_trans; [|exact HB].
      assert (0 < eta) by apply bpow_gt_0. apply Rmult_le_compat_l; [pose proof (g_pow1 prec Hp2 (cc + 1 + S (d + d'))); lra|]. rewrite S_INR. nra. }
    split; [exact FF|]. destruct (plus_fin prec emax Hprec Hemax _ _ FF) as (_ & _ & V). cbn [fadd Bops]. rewrite V.
    eapply (approx_mono prec emax Hp2); [exact X|lia| |lra]. rewrite S_INR. pose proof (pos_INR (d + d')). lra.
Qed.

(** Terms of moderate size. *)
Lemma bound_ok : forall A cc (T : A -> R) l d b, (forall a, In a l -> Rabs (T a) <= bpow radix2 b) -> (0 <= b)%Z ->
  (Z.of_nat (length l) <= 2 ^ (prec - 1))%Z -> (Z.of_nat (cc + 1 + d) <= 2 ^ (prec - 1))%Z -> (prec + b + 4 <= emax)%Z -> bound cc d (rsum (fun a => Rabs (T a)) l).
Proof.
  intros A cc T l d b HT Hb Hl Hd He. unfold bound. pose proof (small_le prec Hp8 (cc + 1 + d) Hd) as S. unfold small in S.
  assert (HS : rsum (fun a => Rabs (T a)) l <= bpow radix2 (prec - 1 + b)).
  { eapply Rle_trans; [apply (rsum_le _ _ (fun _ => bpow radix2 b)); exact HT|]. rewrite rsum_const, bpow_plus. apply Rmult_le_compat_r; [apply bpow_ge_0|].
    rewrite INR_IZR_INZ, <- (IZR_Zpower radix2) by lia. now apply IZR_le. }
  assert (HD : INR d * eta <= bpow radix2 (prec - 1 + b)).
  { assert (INR d <= bpow radix2 (prec - 1)). { rewrite INR_IZR_INZ, <- (IZR_Zpower radix2) by lia. apply IZR_le. change (Z.pow radix2 (prec - 1)) with (2 ^ (prec - 1))%Z. lia. }
    rewrite bpow_plus. apply Rmult_le_compat; [apply pos_INR|apply bpow_ge_0|assumption|]. apply bpow_le. lia. }
  pose proof (g_pow1 prec Hp2 (cc + 1 + d)) as G. assert (PA : 0 <= rsum (fun a => Rabs (T a)) l) by (apply rsum_nonneg; intros; apply Rabs_pos).
  apply Rle_trans with (2 * bpow radix2 (prec - 1 + b + 1)).
  - apply Rmult_le_compat; [lra| |lra|]. { pose proof (pos_INR d). assert (0 < eta) by apply bpow_gt_0. nra. } rewrite bpow_double. lra.
  - change 2 with (bpow radix2 1). rewrite <- bpow_plus. apply bpow_le. lia.
Qed.

(** * The results of a particle *)

Variable k : Z.
Hypothesis Hk0 : (0 <= k)%Z.
Hypothesis Hk5 : (5 * k + 16 <= emax)%Z.
Variable n : nat.
Hypothesis Hn3 : (n <= 3)%nat.
Variable e2 : R.
Variable eps2 : bf.
Hypothesis He2 : 0 <= e2 <= bpow radix2 (2 * k).
Hypothesis Heps : val prec emax 1 eps2 e2.
Variable c : Morton.cfg.
Variable simd : option nat.
Variable K : platform bf.
Hypothesis Hdim : Morton.dim c = n.
Variable r : nat.
Hypothesis Hr : (r <= 32)%nat.
Hypothesis Hfast : fast_ok prec emax Hprec Hemax fused k K r.

Notation pair_ok := (pair_ok prec emax Hprec Hemax fused k n e2).
Notation Tpot := (Tpot prec emax Hprec Hemax fused n e2).
Notation Tacc := (Tacc prec emax Hprec Hemax fused n e2).
Notation shp := (shp prec emax n).
Notation cpot := (cpot r).
Notation cacc := (cacc r).

Definition row_sums (q : quant) (p1 : @prow bf) (a : @rrow bf) (l : list (@prow bf)) (d : nat) : Prop :=
  shp q a /\
  (has_acc q = true -> forall j, (j < n)%nat -> csum cacc (Tacc j p1) (nth j (fst a) zero) l d) /\
  (has_pot q = true -> csum cpot (Tpot p1) (nth 0 (snd a) zero) l d).

Lemma rstep_sums : forall q p1 p2 a a' l d, row_sums q p1 a l d -> rstep prec emax Hprec Hemax fused n e2 r q p1 p2 a a' -> row_sums q p1 a' (p2 :: l) (S d).
Proof.
  intros q p1 p2 a a' l d (S1 & S2 & S3) (R1 & R2 & R3). split; [exact R1|]. split.
  - intros Hq j Hj. destruct (R2 Hq j Hj) as (t & A & N). eapply csum_step; eauto.
  - intros Hq. destruct (R3 Hq) as (t & A & N). eapply csum_step; eauto.
Qed.

Lemma racc_sums : forall q p1 a l d, racc O c simd K q eps2 p1 a l d -> (forall p2, In p2 l -> pair_ok p1 p2) -> row_sums q p1 a l d.
Proof.
  intros q p1 a l d H. induction H as [|p2 a b l d H IH|p2 a b l d H IH|p2 a l d H IH|com ms a l d H IH|a l d b l' d' H1 IH1 H2 IH2]; intros HP.
  - split; [|split].
    + unfold row0, RoundKern.shp. cbn [fst snd]. rewrite Hdim. destruct (has_acc q), (has_pot q); cbn [length]; rewrite ?repeat_length; auto.
    + intros Hq j Hj. unfold row0. cbn [fst]. rewrite Hq, nth_repeat. constructor.
    + intros Hq. unfold row0. cbn [snd]. rewrite Hq. cbn [nth]. constructor.
  - specialize (IH (fun p Hp => HP p (or_intror Hp))). eapply rstep_sums; [exact IH|].
    apply (self_step prec emax Hprec Hemax fused Hp8 k Hk0 Hk5 n Hn3 e2 eps2 He2 Heps c simd K Hdim r Hr Hfast q p1 p2 a b); [apply HP; now left|apply IH].
  - specialize (IH (fun p Hp => HP p (or_intror Hp))). eapply rstep_sums; [exact IH|].
    apply (self_step prec emax Hprec Hemax fused Hp8 k Hk0 Hk5 n Hn3 e2 eps2 He2 Heps c simd K Hdim r Hr Hfast q p2 p1 a b); [|apply IH].
    apply pair_sym. apply HP. now left.
  - specialize (IH (fun p Hp => HP p (or_intror Hp))). eapply rstep_sums; [exact IH|].
    apply (leaf_step prec emax Hprec Hemax fused Hp8 k Hk0 Hk5 n Hn3 e2 eps2 He2 Heps c simd K Hdim r Hr Hfast q p1 p2 a); [apply HP; now left|apply IH].
  - specialize (IH (fun p Hp => HP p (or_intror Hp))). eapply rstep_sums; [exact IH|].
    apply (com_step prec emax Hprec Hemax fused Hp8 k Hk0 Hk5 n Hn3 e2 eps2 He2 Heps c simd K Hdim r Hr Hfast q p1 com ms a); [apply HP; now left|apply IH].
  - destruct (IH1 (fun p Hp => HP p (in_or_app _ _ _ (or_intror Hp)))) as ((A1 & A2) & A3 & A4).
    destruct (IH2 (fun p Hp => HP p (in_or_app _ _ _ (or_introl Hp)))) as ((B1 & B2) & B3 & B4).
    unfold add_rows. split; [|split].
    + split; cbn [fst snd]; rewrite map_length, combine_length; lia.
    + intros Hq j Hj. cbn [fst]. rewrite Hq in *. rewrite nth_zip_map with (d1 := zero) (d2 := zero) by lia. apply csum_add; auto.
    + intros Hq. cbn [snd]. rewrite Hq in *. rewrite nth_zip_map with (d1 := zero) (d2 := zero) by lia. apply csum_add; auto.
Qed.

(** ** Size of the terms *)

Lemma Tpot_le : forall p1 p2, pair_ok p1 p2 -> Rabs (Tpot p1 p2) <= bpow radix2 (3 * k).
Proof.
  intros p1 p2 HP. unfold RoundKern.Tpot. rewrite Rabs_Ropp. pose proof HP as ((_ & _ & R1) & (_ & _ & R2) & _).
  pose proof (rng_le _ _ _ (rng_div _ _ _ _ _ _ (rng_mul _ _ _ _ _ _ R1 R2) (D_rng prec emax Hprec Hemax fused k n Hn3 e2 He2 c Hdim r Hr p1 p2 HP))) as H.
  eapply Rle_trans; [exact H|]. apply bpow_le. lia.
Qed.

Lemma del_dst : forall p1 p2 j, pair_ok p1 p2 -> (j < n)%nat -> Rabs (del prec emax Hprec Hemax fused (fst p2) (fst p1) j) <= dst prec emax Hprec Hemax fused n e2 p1 p2.
Proof.
  intros p1 p2 j HP Hj. rewrite <- sqrt_Rsqr_abs. apply sqrt_le_1_alt. unfold sqd, Rsqr.
  assert (S : forall L, In j L -> del prec emax Hprec Hemax fused (fst p2) (fst p1) j * del prec emax Hprec Hemax fused (fst p2) (fst p1) j <=
    rsum (fun j => del prec emax Hprec Hemax fused (fst p2) (fst p1) j * del prec emax Hprec Hemax fused (fst p2) (fst p1) j) L).
  { induction L as [|i L IH]; intros I; [destruct I|]. rewrite rsum_cons.
    assert (P : 0 <= rsum (fun j => del prec emax Hprec Hemax fused (fst p2) (fst p1) j * del prec emax Hprec Hemax fused (fst p2) (fst p1) j) L) by (apply rsum_nonneg; intros; apply Rle_0_sqr).
    destruct I as [->|I]; [lra|]. specialize (IH I). assert (0 <= del prec emax Hprec Hemax fused (fst p2) (fst p1) i * del prec emax Hprec Hemax fused (fst p2) (fst p1) i) by apply Rle_0_sqr. lra. }
  specialize (S (seq 0 n) (proj2 (in_seq n 0 j) ltac:(lia))). lra.
Qed.

Lemma Tacc_le : forall j p1 p2, pair_ok p1 p2 -> (j < n)%nat -> Rabs (Tacc j p1 p2) <= bpow radix2 (3 * k).
Proof.
  intros j p1 p2 HP Hj. unfold RoundKern.Tacc. pose proof (D_pos prec emax Hprec Hemax fused k n e2 p1 p2 HP) as PD. pose proof (del_dst p1 p2 j HP Hj) as LD.
  pose proof (D_rng prec emax Hprec Hemax fused k n Hn3 e2 He2 c Hdim r Hr p1 p2 HP) as RD. pose proof HP as ((_ & _ & R1) & (_ & _ & R2) & _).
  set (D := dst prec emax Hprec Hemax fused n e2 p1 p2) in *. set (dl := del prec emax Hprec Hemax fused (fst p2) (fst p1) j) in *.
  replace (B2R (snd p2) * dl / (D * D * D)) with (B2R (snd p2) / (D * D) * (dl / D)) by (field; lra). rewrite Rabs_mult.
  pose proof (rng_le _ _ _ (rng_div _ _ _ _ _ _ R2 (rng_mul _ _ _ _ _ _ RD RD))) as H.
  assert (Q : Rabs (dl / D) <= 1). { unfold Rdiv. rewrite Rabs_mult, Rabs_inv, (Rabs_right D) by lra. apply Rmult_le_reg_r with D; [exact PD|]. rewrite Rmult_assoc, Rinv_l by lra. lra. }
  apply Rle_trans with (bpow radix2 (k - (- k + - k)) * 1); [apply Rmult_le_compat; auto using Rabs_pos|]. rewrite Rmult_1_r. apply bpow_le. lia.
Qed.

End IEEE.
