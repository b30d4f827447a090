(** Absence of overflow: bounds by powers of two, sums of a node. *)
From Coq Require Import List Arith ZArith NArith Reals Bool Lra Lia Psatz Permutation.
From Flocq Require Import Core BinarySingleNaN Relative Plus_error.
From Verif Require Import Base Config Morton Build FOps FOpsProofs Disc NodeProps RSum BoxAccept Round.
Import ListNotations.
Local Open Scope nat_scope.

Section IEEE.

Variables prec emax : Z.
Context (Hprec : Prec_gt_0 prec).
Context (Hemax : Prec_lt_emax prec emax).
Variable fused : bool.
Hypothesis Hp2 : (2 <= prec)%Z.

Notation bf := (binary_float prec emax).
Notation O := (Bops prec emax Hprec Hemax fused).
Notation fexp := (SpecFloat.fexp prec emax).
Notation rnd := (round radix2 fexp ZnearestE).
Notation zero := (fofZ O 0%Z).
Notation g := (gR prec).
Notation eta := (etaR prec emax).
Notation u := (uR prec).
Notation nthR := (nthR prec emax Hprec Hemax fused).
Notation fin_at := (fin_at prec emax).
Notation emin := (3 - emax - prec)%Z.

Local Instance valid_fexp_rf : Valid_exp fexp.
Proof. exact (@FLT_exp_valid (3 - emax - prec) prec Hprec). Qed.

Local Open Scope R_scope.

(** Finite and at most [2^k] in absolute value. *)
Definition bnd (x : bf) (k : Z) : Prop := is_finite x = true /\ Rabs (B2R x) <= bpow radix2 k.

Lemma rnd_bnd : forall y k, (emin <= k)%Z -> Rabs y <= bpow radix2 k -> Rabs (rnd y) <= bpow radix2 k.
Proof. intros y k Hk H. apply abs_round_le_generic; auto with typeclass_instances. now apply (format_pow prec emax Hprec Hp2). Qed.

Lemma bnd_mono : forall x a b, bnd x a -> (a <= b)%Z -> bnd x b.
Proof. intros x a b [H1 H2] H. split; [exact H1|]. eapply Rle_trans; [exact H2|]. now apply bpow_le. Qed.

Lemma bpow_lt_emax : forall y k, Rabs y <= bpow radix2 k -> (k < emax)%Z -> Rabs y < bpow radix2 emax.
Proof. intros y k H Hk. eapply Rle_lt_trans; [exact H|]. now apply bpow_lt. Qed.

Lemma bnd_mul : forall x y a b k, bnd x a -> bnd y b -> (a + b <= k)%Z -> (emin <= k < emax)%Z -> bnd (fmul O x y) k.
Proof.
  intros x y a b k [F1 H1] [F2 H2] Hk Hr.
  assert (Hb : Rabs (rnd (B2R x * B2R y)) <= bpow radix2 k).
  { apply rnd_bnd; [lia|]. rewrite Rabs_mult. apply Rle_trans with (bpow radix2 (a + b)); [|now apply bpow_le].
    rewrite bpow_plus. apply Rmult_le_compat; auto using Rabs_pos. }
  assert (HF : is_finite (Bmult mode_NE x y) = true) by (apply mult_finite; auto; eapply bpow_lt_emax; [exact Hb|lia]).
  split; [exact HF|]. destruct (mult_fin prec emax Hprec Hemax _ _ HF) as (_ & _ & V). cbn [fmul Bops]. rewrite V. exact Hb.
Qed.

Lemma bpow_double : forall k, bpow radix2 (k + 1) = bpow radix2 k + bpow radix2 k.
Proof. intros k. rewrite bpow_plus. change (bpow radix2 1) with 2. lra. Qed.

Lemma bnd_add : forall x y k, bnd x k -> bnd y k -> (emin <= k + 1 < emax)%Z -> bnd (fadd O x y) (k + 1).
Proof.
  intros x y k [F1 H1] [F2 H2] Hr.
  assert (Hb : Rabs (rnd (B2R x + B2R y)) <= bpow radix2 (k + 1)).
  { apply rnd_bnd; [lia|]. rewrite bpow_double. eapply Rle_trans; [apply Rabs_triang|]. lra. }
  assert (HF : is_finite (Bplus mode_NE x y) = true) by (apply plus_finite; auto; eapply bpow_lt_emax; [exact Hb|lia]).
  split; [exact HF|]. destruct (plus_fin prec emax Hprec Hemax _ _ HF) as (_ & _ & V). cbn [fadd Bops]. rewrite V. exact Hb.
Qed.

Lemma bnd_sub : forall x y k, bnd x k -> bnd y k -> (emin <= k + 1 < emax)%Z -> bnd (fsub O x y) (k + 1).
Proof.
  intros x y k [F1 H1] [F2 H2] Hr.
  assert (Hb : Rabs (rnd (B2R x - B2R y)) <= bpow radix2 (k + 1)).
  { apply rnd_bnd; [lia|]. rewrite bpow_double. unfold Rminus. eapply Rle_trans; [apply Rabs_triang|]. rewrite Rabs_Ropp. lra. }
  pose proof (Bminus_correct prec emax Hprec Hemax mode_NE x y F1 F2) as C.
  change (round_mode mode_NE) with ZnearestE in C. rewrite Rlt_bool_true in C by (eapply bpow_lt_emax; [exact Hb|lia]).
  destruct C as (V & F & _). split; [exact F|]. cbn [fsub Bops]. rewrite V. exact Hb.
Qed.

Lemma bnd_fma : forall x y z a b k, bnd x a -> bnd y b -> bnd z k -> (a + b <= k)%Z -> (emin <= k /\ k + 1 < emax)%Z -> bnd (ffma O x y z) (k + 1).
Proof.
  intros x y z a b k [F1 H1] [F2 H2] [F3 H3] Hk Hr.
  assert (Hp : Rabs (B2R x * B2R y) <= bpow radix2 k).
  { rewrite Rabs_mult. apply Rle_trans with (bpow radix2 (a + b)); [|now apply bpow_le]. rewrite bpow_plus. apply Rmult_le_compat; auto using Rabs_pos. }
  assert (Hq : Rabs (rnd (B2R x * B2R y)) <= bpow radix2 k) by (apply rnd_bnd; [lia|exact Hp]).
  assert (Hb : Rabs (fma_val prec emax fused (B2R x) (B2R y) (B2R z)) <= bpow radix2 (k + 1)).
  { unfold fma_val. destruct fused; (apply rnd_bnd; [lia|]; rewrite bpow_double; eapply Rle_trans; [apply Rabs_triang|]; lra). }
  assert (HF : is_finite (ffma O x y z) = true).
  { apply fma_finite; auto; [eapply bpow_lt_emax; [exact Hq|lia]|eapply bpow_lt_emax; [exact Hb|lia]]. }
  split; [exact HF|]. destruct (fma_fin prec emax Hprec Hemax fused _ _ _ HF) as (_ & _ & _ & V). rewrite V. exact Hb.
Qed.

Lemma bnd_div : forall x y a b k, bnd x a -> bpow radix2 b <= Rabs (B2R y) -> (a - b <= k)%Z -> (emin <= k < emax)%Z ->
  bnd (fdiv O x y) k /\ B2R (fdiv O x y) = rnd (B2R x / B2R y).
Proof.
  intros x y a b k [F1 H1] Hy Hk Hr. pose proof (bpow_gt_0 radix2 b) as Pb.
  assert (Ny : B2R y <> 0) by (intros Z; rewrite Z, Rabs_R0 in Hy; lra).
  assert (Hb : Rabs (rnd (B2R x / B2R y)) <= bpow radix2 k).
  { apply rnd_bnd; [lia|]. unfold Rdiv. rewrite Rabs_mult, Rabs_inv. apply Rle_trans with (bpow radix2 (a - b)); [|now apply bpow_le].
    unfold Zminus. rewrite bpow_plus, bpow_opp. apply Rmult_le_compat; auto using Rabs_pos; [left; apply Rinv_0_lt_compat; lra|].
    apply Rinv_le_contravar; assumption. }
  destruct (div_finite prec emax Hprec Hemax x y F1 Ny) as [A B]; [eapply bpow_lt_emax; [exact Hb|lia]|].
  split; [split; [exact A|]|exact B]. cbn [fdiv Bops]. rewrite B. exact Hb.
Qed.

Lemma bnd_ofZ : forall m k, (0 <= m <= 2 ^ k)%Z -> (0 <= k < emax)%Z -> bnd (fofZ O m) k.
Proof.
  intros m k Hm Hk. cbn [fofZ Bops]. pose proof (binary_normalize_correct prec emax Hprec Hemax mode_NE m 0 false) as C. cbv zeta in C.
  simpl round_mode in C. assert (EF : F2R (Float radix2 m 0) = IZR m) by (unfold F2R; cbn [Fnum Fexp bpow]; lra). rewrite EF in C.
  assert (Hb : Rabs (rnd (IZR m)) <= bpow radix2 k).
  { apply rnd_bnd; [lia|]. rewrite Rabs_right by (apply Rle_ge, IZR_le; lia). rewrite <- (IZR_Zpower radix2 k) by lia. apply IZR_le. apply Hm. }
  rewrite Rlt_bool_true in C by (eapply bpow_lt_emax; [exact Hb|lia]). destruct C as (V & F & _). split; [exact F|]. now rewrite V.
Qed.

(** ** Sums *)

Lemma approx_abs : forall e k s S a, approx prec emax e k s S a -> Rabs S <= a -> Rabs s <= g ^ e * (a + k * eta).
Proof.
  unfold approx. intros e k s S a H HS. replace s with (S + (s - S)) by ring. eapply Rle_trans; [apply Rabs_triang|]. lra.
Qed.

Lemma rel_bound : forall x d b, Rabs x <= b -> Rabs d <= u -> 0 <= b -> Rabs (x * (1 + d)) <= g * b.
Proof.
  intros x d b H Hd Hb. rewrite Rabs_mult, Rmult_comm. destruct (gR_facts prec Hp2) as (G1 & _ & _).
  apply Rmult_le_compat; auto using Rabs_pos. eapply Rle_trans; [apply Rabs_triang|]. rewrite Rabs_R1. lra.
Qed.

Lemma small_lt : forall y, Rabs y <= bpow radix2 (emax - 1) -> Rabs y < bpow radix2 emax.
Proof. intros y H. eapply bpow_lt_emax; [exact H|lia]. Qed.

Lemma mass_finite : forall mcol s l d, gsum O (mstep O mcol) s l d -> (forall i, In i l -> fin_at mcol i) ->
  g ^ d * rsum (fun i => Rabs (nthR mcol i)) l <= bpow radix2 (emax - 1) -> is_finite s = true.
Proof.
  intros mcol s l d H. destruct (gR_facts prec Hp2) as (G1 & G2 & G3).
  induction H as [|s l d i s' H IH (m & Hm & ->)|s1 l1 d1 s2 l2 d2 H1 IH1 H2 IH2]; intros Hfin Hb.
  - apply (ofZ_0 prec emax Hprec Hemax fused).
  - pose proof (g_pow1 prec Hp2 d) as Pd. rewrite rsum_cons, (nthR_some _ _ Hprec Hemax fused mcol i m Hm) in Hb. cbn [pow] in Hb.
    pose proof (Rabs_pos (B2R m)) as Pm. assert (PS : 0 <= rsum (fun i => Rabs (nthR mcol i)) l) by (apply rsum_nonneg; intros; apply Rabs_pos).
    set (A := rsum _ l) in *. assert (Fs : is_finite s = true).
    { apply IH; [intros k Hk; apply Hfin; now right|]. eapply Rle_trans; [|exact Hb].
      apply Rle_trans with (1 * (g ^ d * A)); [lra|]. replace (g * g ^ d * (Rabs (B2R m) + A)) with (g * (g ^ d * (Rabs (B2R m) + A))) by ring.
      apply Rmult_le_compat; try lra; [apply Rmult_le_pos; lra|]. apply Rmult_le_compat_l; lra. }
    assert (Fm : is_finite m = true). { destruct (Hfin i (or_introl eq_refl)) as (m' & E & F). rewrite Hm in E. now injection E as <-. }
    apply plus_finite; auto. apply small_lt. eapply Rle_trans; [|exact Hb]. destruct (plus_rel prec emax Hprec Hp2 s m) as (dd & Hd & ->).
    destruct (mass_approx prec emax Hprec Hemax fused Hp2 mcol s l d H Fs) as (_ & AP & _). apply (fun H => approx_abs _ _ _ _ _ H (rsum_abs _ _ _)) in AP. fold A in AP.
    rewrite Rmult_assoc. apply rel_bound; [|exact Hd|apply Rmult_le_pos; lra]. eapply Rle_trans; [apply Rabs_triang|].
    assert (1 * Rabs (B2R m) <= g ^ d * Rabs (B2R m)) by (apply Rmult_le_compat_r; lra). lra.
  - rewrite rsum_app in Hb. assert (P1 : 0 <= rsum (fun i => Rabs (nthR mcol i)) l1) by (apply rsum_nonneg; intros; apply Rabs_pos).
    assert (P2 : 0 <= rsum (fun i => Rabs (nthR mcol i)) l2) by (apply rsum_nonneg; intros; apply Rabs_pos).
    set (A1 := rsum _ l1) in *. set (A2 := rsum _ l2) in *. set (d := Nat.max d1 d2) in *. cbn [pow] in Hb.
    pose proof (g_pow1 prec Hp2 d) as P. pose proof (g_pow1 prec Hp2 d1) as Q1. pose proof (g_pow1 prec Hp2 d2) as Q2. pose proof (g_mono prec Hp2 d1 d ltac:(lia)) as M1. pose proof (g_mono prec Hp2 d2 d ltac:(lia)) as M2.
    assert (B : g ^ d * A1 + g ^ d * A2 <= bpow radix2 (emax - 1)).
    { eapply Rle_trans; [|exact Hb]. rewrite <- Rmult_plus_distr_l. replace (g * g ^ d * (A1 + A2)) with (g * (g ^ d * (A1 + A2))) by ring.
      apply Rle_trans with (1 * (g ^ d * (A1 + A2))); [lra|]. apply Rmult_le_compat_r; [apply Rmult_le_pos; lra|lra]. }
    assert (C1 : g ^ d1 * A1 <= g ^ d * A1) by (apply Rmult_le_compat_r; lra). assert (C2 : g ^ d2 * A2 <= g ^ d * A2) by (apply Rmult_le_compat_r; lra).
    assert (D1 : 0 <= g ^ d * A1) by (apply Rmult_le_pos; lra). assert (D2 : 0 <= g ^ d * A2) by (apply Rmult_le_pos; lra).
    assert (F1 : is_finite s1 = true) by (apply IH1; [intros k Hk; apply Hfin, in_or_app; now left|fold A1; lra]).
    assert (F2 : is_finite s2 = true) by (apply IH2; [intros k Hk; apply Hfin, in_or_app; now right|fold A2; lra]).
    apply plus_finite; auto. apply small_lt. eapply Rle_trans; [|exact Hb]. destruct (plus_rel prec emax Hprec Hp2 s1 s2) as (dd & Hd & ->).
    destruct (mass_approx prec emax Hprec Hemax fused Hp2 mcol s1 l1 d1 H1 F1) as (_ & AP1 & _). apply (fun H => approx_abs _ _ _ _ _ H (rsum_abs _ _ _)) in AP1. fold A1 in AP1.
    destruct (mass_approx prec emax Hprec Hemax fused Hp2 mcol s2 l2 d2 H2 F2) as (_ & AP2 & _). apply (fun H => approx_abs _ _ _ _ _ H (rsum_abs _ _ _)) in AP2. fold A2 in AP2.
    rewrite Rmult_assoc. apply rel_bound; [|exact Hd|apply Rmult_le_pos; lra]. eapply Rle_trans; [apply Rabs_triang|]. lra.
Qed.

Lemma com_finite : forall mcol col s l d, gsum O (cstep O mcol col) s l d -> (forall i, In i l -> fin_at mcol i /\ fin_at col i) ->
  g ^ S d * (rsum (fun i => Rabs (nthR mcol i * nthR col i)) l + INR (length l) * eta) <= bpow radix2 (emax - 1) -> is_finite s = true.
Proof.
  intros mcol col s l d H. destruct (gR_facts prec Hp2) as (G1 & G2 & G3). assert (PE : 0 < eta) by apply bpow_gt_0.
  induction H as [|s l d i s' H IH (m & x & Hm & Hx & ->)|s1 l1 d1 s2 l2 d2 H1 IH1 H2 IH2]; intros Hfin Hb.
  - apply (ofZ_0 prec emax Hprec Hemax fused).
  - pose proof (g_pow1 prec Hp2 (S d)) as Pd. rewrite rsum_cons, (nthR_some _ _ Hprec Hemax fused mcol i m Hm), (nthR_some _ _ Hprec Hemax fused col i x Hx) in Hb.
    cbn [length] in Hb. rewrite S_INR in Hb. change (g ^ S (S d)) with (g * g ^ S d) in Hb.
    pose proof (Rabs_pos (B2R m * B2R x)) as Pm. assert (PS : 0 <= rsum (fun i => Rabs (nthR mcol i * nthR col i)) l) by (apply rsum_nonneg; intros; apply Rabs_pos).
    set (A := rsum _ l) in *. set (w := Rabs (B2R m * B2R x)) in *. pose proof (pos_INR (length l)) as PN. set (n := INR (length l)) in *.
    assert (PNE : 0 <= n * eta) by (apply Rmult_le_pos; lra).
    assert (B : g ^ S d * (w + A + (n + 1) * eta) <= bpow radix2 (emax - 1)).
    { eapply Rle_trans; [|exact Hb]. rewrite Rmult_assoc. apply Rle_trans with (1 * (g ^ S d * (w + A + (n + 1) * eta))); [lra|].
      apply Rmult_le_compat_r; [apply Rmult_le_pos; lra|lra]. }
    assert (Fs : is_finite s = true).
    { apply IH; [intros k Hk; apply Hfin; now right|]. eapply Rle_trans; [|exact B]. apply Rmult_le_compat_l; lra. }
    destruct (Hfin i (or_introl eq_refl)) as [(m' & E & Fm) (x' & E' & Fx)]. rewrite Hm in E. rewrite Hx in E'. injection E as <-. injection E' as <-.
    apply fma_finite; auto.
    + apply small_lt. eapply Rle_trans; [|exact B]. destruct (any_err prec emax Hprec (B2R m * B2R x)) as (dd & h & Hd & Hh & ->).
      eapply Rle_trans; [apply Rabs_triang|]. apply Rle_trans with (g * w + eta).
      { apply Rplus_le_compat; [|exact Hh]. apply rel_bound; [unfold w; lra|exact Hd|exact Pm]. }
      assert (g <= g ^ S d). { cbn [pow]. pose proof (g_pow1 prec Hp2 d). assert (g * 1 <= g * g ^ d) by (apply Rmult_le_compat_l; lra). lra. }
      assert (g * w <= g ^ S d * w) by (apply Rmult_le_compat_r; lra).
      assert (1 * eta <= g ^ S d * eta) by (apply Rmult_le_compat_r; lra).
      assert (0 <= g ^ S d * (A + n * eta)) by (apply Rmult_le_pos; lra). lra.
    + apply small_lt. eapply Rle_trans; [|exact Hb].
      destruct (com_approx prec emax Hprec Hemax fused Hp2 mcol col s l d H Fs) as (_ & AP).
      pose proof (approx_fma prec emax Hprec fused Hp2 d n (B2R m) (B2R x) (B2R s) _ _ s eq_refl AP (rsum_abs _ _ l) PN) as AF.
      eapply Rle_trans; [eapply approx_abs; [exact AF|]|].
      2:{ change (g ^ S (S d)) with (g * g ^ S d). fold A w. right. ring. }
      eapply Rle_trans; [apply Rabs_triang|]. pose proof (rsum_abs _ (fun i => nthR mcol i * nthR col i) l). lra.
  - rewrite rsum_app, app_length, plus_INR in Hb. assert (P1 : 0 <= rsum (fun i => Rabs (nthR mcol i * nthR col i)) l1) by (apply rsum_nonneg; intros; apply Rabs_pos).
    assert (P2 : 0 <= rsum (fun i => Rabs (nthR mcol i * nthR col i)) l2) by (apply rsum_nonneg; intros; apply Rabs_pos).
    set (A1 := rsum _ l1) in *. set (A2 := rsum _ l2) in *. set (d := Nat.max d1 d2) in *. change (g ^ S (S d)) with (g * g ^ S d) in Hb.
    pose proof (g_pow1 prec Hp2 (S d)) as P. pose proof (g_pow1 prec Hp2 (S d1)) as Q1. pose proof (g_pow1 prec Hp2 (S d2)) as Q2. pose proof (g_mono prec Hp2 (S d1) (S d) ltac:(lia)) as M1. pose proof (g_mono prec Hp2 (S d2) (S d) ltac:(lia)) as M2.
    assert (PN1 : 0 <= INR (length l1) * eta) by (apply Rmult_le_pos; [apply pos_INR|lra]). assert (PN2 : 0 <= INR (length l2) * eta) by (apply Rmult_le_pos; [apply pos_INR|lra]).
    set (B1 := A1 + INR (length l1) * eta) in *. set (B2 := A2 + INR (length l2) * eta) in *.
    assert (EB : A1 + A2 + (INR (length l1) + INR (length l2)) * eta = B1 + B2) by (unfold B1, B2; ring). rewrite EB in Hb.
    assert (0 <= B1) by (unfold B1; lra). assert (0 <= B2) by (unfold B2; lra).
    assert (B : g ^ S d * B1 + g ^ S d * B2 <= bpow radix2 (emax - 1)).
    { eapply Rle_trans; [|exact Hb]. rewrite <- Rmult_plus_distr_l. rewrite Rmult_assoc.
      apply Rle_trans with (1 * (g ^ S d * (B1 + B2))); [lra|]. apply Rmult_le_compat_r; [apply Rmult_le_pos; lra|lra]. }
    assert (C1 : g ^ S d1 * B1 <= g ^ S d * B1) by (apply Rmult_le_compat_r; lra). assert (C2 : g ^ S d2 * B2 <= g ^ S d * B2) by (apply Rmult_le_compat_r; lra).
    assert (D1 : 0 <= g ^ S d * B1) by (apply Rmult_le_pos; lra). assert (D2 : 0 <= g ^ S d * B2) by (apply Rmult_le_pos; lra).
    assert (F1 : is_finite s1 = true) by (apply IH1; [intros k Hk; apply Hfin, in_or_app; now left|fold A1; fold B1; lra]).
    assert (F2 : is_finite s2 = true) by (apply IH2; [intros k Hk; apply Hfin, in_or_app; now right|fold A2; fold B2; lra]).
    apply plus_finite; auto. apply small_lt. eapply Rle_trans; [|exact Hb]. destruct (plus_rel prec emax Hprec Hp2 s1 s2) as (dd & Hd & ->).
    destruct (com_approx prec emax Hprec Hemax fused Hp2 mcol col s1 l1 d1 H1 F1) as (_ & AP1). apply (fun H => approx_abs _ _ _ _ _ H (rsum_abs _ _ _)) in AP1. change (Rabs (B2R s1) <= g ^ S d1 * B1) in AP1.
    destruct (com_approx prec emax Hprec Hemax fused Hp2 mcol col s2 l2 d2 H2 F2) as (_ & AP2). apply (fun H => approx_abs _ _ _ _ _ H (rsum_abs _ _ _)) in AP2. change (Rabs (B2R s2) <= g ^ S d2 * B2) in AP2.
    rewrite Rmult_assoc. apply rel_bound; [|exact Hd|apply Rmult_le_pos; lra]. eapply Rle_trans; [apply Rabs_triang|]. lra.
Qed.

(** Few roundings at most double a value. *)
Lemma g_pow2 : forall n, INR n * u <= / 2 -> g ^ n <= 2.
Proof.
  intros n H. destruct (gR_facts prec Hp2) as (G1 & G2 & G3). pose proof (uR_bounds prec Hp2) as U.
  assert (B : forall n, 1 - INR n * u <= (1 - u) ^ n).
  { induction n0 as [|k IH]; [cbn; lra|]. rewrite S_INR. cbn [pow]. pose proof (pos_INR k).
    destruct (Rle_dec (1 - INR k * u) 0) as [N|N].
    - assert (0 <= (1 - u) * (1 - u) ^ k) by (apply Rmult_le_pos; [lra|apply pow_le; lra]). nra.
    - apply Rle_trans with ((1 - u) * (1 - INR k * u)); [nra|]. apply Rmult_le_compat_l; lra. }
  specialize (B n). unfold gR. rewrite pow_inv. apply Rmult_le_reg_l with ((1 - u) ^ n); [lra|]. rewrite Rinv_r by lra. lra.
Qed.

End IEEE.
