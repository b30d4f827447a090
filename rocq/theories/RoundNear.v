(** Relative errors: values within a number of rounding errors of an exact one. *)
From Coq Require Import List Arith ZArith Reals Bool Lra Lia Psatz Permutation.
From Flocq Require Import Core BinarySingleNaN Relative Plus_error.
From Verif Require Import Base FOps FOpsProofs RSum Round RoundFin.
Import ListNotations.
Local Open Scope nat_scope.

Section IEEE.

Variables prec emax : Z.
Context (Hprec : Prec_gt_0 prec).
Context (Hemax : Prec_lt_emax prec emax).
Variable fused : bool.
Hypothesis Hp8 : (8 <= prec)%Z.

Lemma Hp2 : (2 <= prec)%Z.
Proof. lia. Qed.

Notation bf := (binary_float prec emax).
Notation O := (Bops prec emax Hprec Hemax fused).
Notation fexp := (SpecFloat.fexp prec emax).
Notation rnd := (round radix2 fexp ZnearestE).
Notation zero := (fofZ O 0%Z).
Notation g := (gR prec).
Notation eta := (etaR prec emax).
Notation u := (uR prec).
Notation bnd := (bnd prec emax).
Notation approx := (approx prec emax).

Local Instance valid_fexp_rn : Valid_exp fexp.
Proof. exact (@FLT_exp_valid (3 - emax - prec) prec Hprec). Qed.

Local Open Scope R_scope.

Lemma g_pos : forall n, 0 < g ^ n.
Proof. intros n. pose proof (g_pow1 prec Hp2 n). lra. Qed.

Lemma u_small : 0 < u <= / 256.
Proof.
  split; [apply bpow_gt_0|]. unfold uR. change (/ 256) with (bpow radix2 (-8)). apply bpow_le. lia.
Qed.

(** [x] is [X] up to [d] rounding errors. *)
Definition near (d : nat) (x X : R) : Prop := exists f, x = X * f /\ / g ^ d <= f <= g ^ d.

Lemma near_refl : forall d x, near d x x.
Proof.
  intros d x. exists 1. pose proof (g_pow1 prec Hp2 d). split; [ring|]. split; [|lra].
  rewrite <- Rinv_1. apply Rinv_le_contravar; lra.
Qed.

Lemma near_mono : forall d e x X, near d x X -> (d <= e)%nat -> near e x X.
Proof.
  intros d e x X (f & E & H) Hd. exists f. split; [exact E|]. pose proof (g_mono prec Hp2 d e Hd). pose proof (g_pos d).
  split; [|lra]. eapply Rle_trans; [|apply H]. apply Rinv_le_contravar; lra.
Qed.

Lemma near_trans : forall a b x y z, near a x y -> near b y z -> near (a + b) x z.
Proof.
  intros a b x y z (f & E & H) (h & E' & H'). exists (h * f). split; [rewrite E, E'; ring|]. rewrite pow_add. pose proof (g_pos a). pose proof (g_pos b).
  assert (0 < / g ^ a) by (now apply Rinv_0_lt_compat). assert (0 < / g ^ b) by (now apply Rinv_0_lt_compat).
  rewrite Rinv_mult, (Rmult_comm (/ g ^ a)), (Rmult_comm (g ^ a)). split; apply Rmult_le_compat; lra.
Qed.

Lemma near_mul : forall a b x X y Y, near a x X -> near b y Y -> near (a + b) (x * y) (X * Y).
Proof.
  intros a b x X y Y (f & E & H) (h & E' & H'). exists (f * h). split; [rewrite E, E'; ring|]. rewrite pow_add. pose proof (g_pos a). pose proof (g_pos b).
  assert (0 < / g ^ a) by (now apply Rinv_0_lt_compat). assert (0 < / g ^ b) by (now apply Rinv_0_lt_compat).
  rewrite Rinv_mult. split; apply Rmult_le_compat; lra.
Qed.

Lemma near_inv : forall a x X, near a x X -> near a (/ x) (/ X).
Proof.
  intros a x X (f & E & H). exists (/ f). split; [rewrite E; apply Rinv_mult|]. pose proof (g_pos a) as P.
  assert (0 < / g ^ a) by (now apply Rinv_0_lt_compat). split.
  - apply Rinv_le_contravar; lra.
  - rewrite <- (Rinv_inv (g ^ a)). apply Rinv_le_contravar; lra.
Qed.

Lemma near_div : forall a b x X y Y, near a x X -> near b y Y -> near (a + b) (x / y) (X / Y).
Proof. intros. unfold Rdiv. apply near_mul; [assumption|now apply near_inv]. Qed.

Lemma near_opp : forall a x X, near a x X -> near a (- x) (- X).
Proof. intros a x X (f & E & H). exists f. split; [rewrite E; ring|exact H]. Qed.

Lemma near_sqrt : forall a x X, near (2 * a) x X -> 0 <= X -> near a (sqrt x) (sqrt X).
Proof.
  intros a x X (f & E & H) HX. pose proof (g_pos a) as P. pose proof (g_pos (2 * a)) as P2. assert (0 < / g ^ (2 * a)) by (now apply Rinv_0_lt_compat).
  exists (sqrt f). split; [rewrite E; apply sqrt_mult; lra|].
  replace (2 * a)%nat with (a + a)%nat in H by lia. rewrite pow_add in H.
  split.
  - rewrite <- (sqrt_square (/ g ^ a)) by (left; now apply Rinv_0_lt_compat). apply sqrt_le_1_alt. rewrite Rinv_mult in H. lra.
  - rewrite <- (sqrt_square (g ^ a)) by lra. apply sqrt_le_1_alt. lra.
Qed.

Lemma near_sum : forall a x X y Y, near a x X -> near a y Y -> 0 <= X -> 0 <= Y -> near a (x + y) (X + Y).
Proof.
  intros a x X y Y (f & E & H) (h & E' & H') HX HY. destruct (Req_dec (X + Y) 0) as [Z|N].
  - assert (X = 0) by lra. assert (Y = 0) by lra. subst. rewrite !Rmult_0_l, Rplus_0_l. apply near_refl.
  - exists ((X * f + Y * h) / (X + Y)). split; [rewrite E, E'; field; lra|]. assert (P : 0 < X + Y) by lra. pose proof (g_pos a) as G. split.
    + apply Rmult_le_reg_r with (X + Y); [exact P|]. replace ((X * f + Y * h) / (X + Y) * (X + Y)) with (X * f + Y * h) by (field; lra). nra.
    + apply Rmult_le_reg_r with (X + Y); [exact P|]. replace ((X * f + Y * h) / (X + Y) * (X + Y)) with (X * f + Y * h) by (field; lra). nra.
Qed.

Lemma near_bounds : forall a x X, near a x X -> Rabs X * / g ^ a <= Rabs x <= Rabs X * g ^ a.
Proof.
  intros a x X (f & -> & H). pose proof (g_pos a). assert (0 < / g ^ a) by (now apply Rinv_0_lt_compat). rewrite Rabs_mult, (Rabs_right f) by lra.
  pose proof (Rabs_pos X). split; apply Rmult_le_compat_l; lra.
Qed.

Lemma near_approx : forall a x X, near a x X -> approx a 0 x X (Rabs X).
Proof.
  intros a x X (f & -> & H). unfold Round.approx. replace (X * f - X) with (X * (f - 1)) by ring. rewrite Rabs_mult. rewrite !Rmult_0_l, Rplus_0_r, Rmult_comm.
  apply Rmult_le_compat_r; [apply Rabs_pos|]. pose proof (g_pow1 prec Hp2 a) as G. apply Rabs_le.
  assert (2 - g ^ a <= / g ^ a); [|lra]. apply Rmult_le_reg_r with (g ^ a); [lra|]. rewrite Rinv_l by lra. pose proof (Rle_0_sqr (g ^ a - 1)) as S. unfold Rsqr in S. lra.
Qed.

(** Error factors up to 2. *)
Definition small (d : nat) : Prop := g ^ d <= 2.

Lemma bernoulli : forall n, 1 - INR n * u <= (1 - u) ^ n.
Proof.
  pose proof u_small as U. induction n as [|n IH]; [cbn; lra|]. rewrite S_INR. cbn [pow].
  assert (H : 0 <= (1 - u) ^ n <= 1). { split; [apply pow_le; lra|]. apply Rle_trans with (1 ^ n); [apply pow_incr; lra|rewrite pow1; lra]. }
  nra.
Qed.

Lemma g_inv : forall n, / g ^ n = (1 - u) ^ n.
Proof. intros n. unfold gR. rewrite pow_inv, Rinv_inv. reflexivity. Qed.

Lemma g_le : forall n x, 0 < x -> INR n * u <= 1 - / x -> g ^ n <= x.
Proof.
  intros n x Hx H. destruct (Rle_dec (g ^ n) x) as [L|L]; [exact L|]. exfalso. apply Rnot_le_lt in L.
  assert (I : / g ^ n < / x) by (apply Rinv_lt_contravar; [apply Rmult_lt_0_compat; [exact Hx|apply g_pos]|exact L]).
  rewrite g_inv in I. pose proof (bernoulli n). lra.
Qed.

Lemma small_le : forall n, (Z.of_nat n <= 2 ^ (prec - 1))%Z -> small n.
Proof.
  intros n H. apply g_le; [lra|]. rewrite INR_IZR_INZ. unfold uR.
  apply Rle_trans with (IZR (2 ^ (prec - 1)) * bpow radix2 (- prec)).
  - apply Rmult_le_compat_r; [apply bpow_ge_0|]. now apply IZR_le.
  - rewrite (IZR_Zpower radix2) by lia. rewrite <- bpow_plus. replace (prec - 1 + - prec)%Z with (-1)%Z by lia. cbn. lra.
Qed.

Lemma small_128 : forall n, (n <= 128)%nat -> small n.
Proof.
  intros n H. apply small_le. apply Z.le_trans with (2 ^ 7)%Z; [lia|]. apply Z.pow_le_mono_r; lia.
Qed.

Lemma small_mono : forall a b, small b -> (a <= b)%nat -> small a.
Proof. intros a b H L. unfold small in *. pose proof (g_mono prec Hp2 a b L). lra. Qed.

Lemma near_rnd : forall y, y = 0 \/ bpow radix2 (2 - emax) <= Rabs y -> near 1 (rnd y) y.
Proof.
  intros y [->|H]; [rewrite round_0 by auto with typeclass_instances; apply near_refl|].
  pose proof (normal_err prec emax Hprec y H) as N. pose proof (bpow_gt_0 radix2 (2 - emax)) as P.
  assert (Y : y <> 0) by (intros ->; rewrite Rabs_R0 in H; lra). exists (rnd y / y). split; [field; exact Y|].
  destruct (gR_facts prec Hp2) as (G1 & _ & G3). rewrite !pow_1. rewrite <- G3. pose proof u_small.
  replace (rnd y / y) with (1 + (rnd y - y) / y) by (field; exact Y).
  assert (Rabs ((rnd y - y) / y) <= u).
  { unfold Rdiv. rewrite Rabs_mult, Rabs_inv. apply Rmult_le_reg_r with (Rabs y); [lra|]. rewrite Rmult_assoc, Rinv_l by lra. lra. }
  apply Rabs_le_inv in H1. lra.
Qed.

(** * Operations *)

(** A finite number near an exact value. *)
Definition val (d : nat) (x : bf) (X : R) : Prop := is_finite x = true /\ near d (B2R x) X.

(** Neither overflow nor underflow, with a margin. *)
Definition okr (X : R) : Prop := X = 0 \/ bpow radix2 (3 - emax) <= Rabs X <= bpow radix2 (emax - 3).

Lemma val_mono : forall a b x X, val a x X -> (a <= b)%nat -> val b x X.
Proof. intros a b x X [F N] H. split; [exact F|]. now apply near_mono with a. Qed.

Lemma val_self : forall d (x : bf), is_finite x = true -> val d x (B2R x).
Proof. intros d x F. split; [exact F|apply near_refl]. Qed.

Lemma okr_near : forall d x X, near d x X -> small d -> okr X -> x = 0 \/ bpow radix2 (2 - emax) <= Rabs x <= bpow radix2 (emax - 2).
Proof.
  intros d x X N S [->|[L H]].
  - left. destruct N as (f & -> & _). ring.
  - right. destruct (near_bounds d x X N) as [B1 B2]. unfold small in S. pose proof (g_pow1 prec Hp2 d) as G.
    assert (I : / 2 <= / g ^ d) by (apply Rinv_le_contravar; lra). pose proof (Rabs_pos X) as PX. split.
    + replace (2 - emax)%Z with ((3 - emax) + -1)%Z by lia. rewrite bpow_plus. change (bpow radix2 (-1)) with (/ 2).
      eapply Rle_trans; [|exact B1]. apply Rmult_le_compat; try lra. apply bpow_ge_0.
    + replace (emax - 2)%Z with ((emax - 3) + 1)%Z by lia. rewrite bpow_plus. change (bpow radix2 1) with 2.
      eapply Rle_trans; [exact B2|]. apply Rmult_le_compat; lra.
Qed.

Lemma okr_rnd : forall d x X, near d x X -> small d -> okr X -> near (S d) (rnd x) X /\ Rabs (rnd x) < bpow radix2 emax.
Proof.
  intros d x X N S H. pose proof (okr_near d x X N S H) as B. split.
  - replace (Datatypes.S d) with (1 + d)%nat by lia. apply near_trans with x; [|exact N]. apply near_rnd. destruct B as [B|[B _]]; auto.
  - assert (A : Rabs x <= bpow radix2 (emax - 2)). { destruct B as [->|[_ B]]; [rewrite Rabs_R0; apply bpow_ge_0|exact B]. }
    apply Rle_lt_trans with (bpow radix2 (emax - 2)); [|apply bpow_lt; lia]. apply (rnd_bnd prec emax Hprec Hp2); [|exact A].
    pose proof Hemax as HE. unfold Prec_lt_emax in HE. lia.
Qed.

Lemma val_mul : forall a b x X y Y, val a x X -> val b y Y -> small (a + b) -> okr (X * Y) -> val (S (a + b)) (fmul O x y) (X * Y).
Proof.
  intros a b x X y Y [F1 N1] [F2 N2] S H. destruct (okr_rnd (a + b) (B2R x * B2R y) (X * Y)) as [N B]; auto using near_mul.
  assert (HF : is_finite (Bmult mode_NE x y) = true) by (now apply mult_finite). split; [exact HF|].
  destruct (mult_fin prec emax Hprec Hemax _ _ HF) as (_ & _ & V). cbn [fmul Bops]. now rewrite V.
Qed.

Lemma val_div : forall a b x X y Y, val a x X -> val b y Y -> Y <> 0 -> small (a + b) -> okr (X / Y) -> val (S (a + b)) (fdiv O x y) (X / Y).
Proof.
  intros a b x X y Y [F1 N1] [F2 N2] HY S H. destruct (okr_rnd (a + b) (B2R x / B2R y) (X / Y)) as [N B]; auto using near_div.
  assert (Ny : B2R y <> 0).
  { destruct N2 as (f & -> & Hf). pose proof (g_pos b). assert (0 < / g ^ b) by (now apply Rinv_0_lt_compat). apply Rmult_integral_contrapositive_currified; lra. }
  destruct (div_finite prec emax Hprec Hemax x y F1 Ny B) as [A V]. split; [exact A|]. cbn [fdiv Bops]. now rewrite V.
Qed.

Lemma val_sqrt : forall a x X, val (2 * a) x X -> 0 < X -> small (2 * a) -> okr X -> val (S a) (fsqrt O x) (sqrt X).
Proof.
  intros a x X [F N] HX S H. pose proof (near_sqrt a _ _ N ltac:(lra)) as NS.
  destruct (okr_near _ _ _ N S H) as [Z|[B1 B2]].
  { destruct N as (f & E & Hf). pose proof (g_pos (2 * a)). assert (0 < / g ^ (2 * a)) by (now apply Rinv_0_lt_compat). assert (0 < X * f) by (apply Rmult_lt_0_compat; lra). lra. }
  assert (P : 0 < B2R x).
  { destruct N as (f & -> & Hf). pose proof (g_pos (2 * a)). assert (0 < / g ^ (2 * a)) by (now apply Rinv_0_lt_compat). apply Rmult_lt_0_compat; lra. }
  destruct (Bsqrt_correct prec emax Hprec Hemax mode_NE x) as (V & FS & _). cbn [fsqrt Bops]. split.
  - rewrite FS. destruct x as [s|s| |[|] m ex Hx]; try reflexivity; try discriminate. exfalso.
    assert (B2R (B754_finite true m ex Hx) < 0) by (apply F2R_lt_0; reflexivity). lra.
  - change (round_mode mode_NE) with ZnearestE in V. rewrite V. replace (Datatypes.S a) with (1 + a)%nat by lia. apply near_trans with (sqrt (B2R x)); [|exact NS].
    apply near_rnd. right. rewrite Rabs_right by (apply Rle_ge, sqrt_pos). rewrite Rabs_right in B1 by lra.
    pose proof Hemax as HE. unfold Prec_lt_emax in HE.
    destruct (Rle_dec 1 (B2R x)) as [L|L].
    + apply Rle_trans with 1; [|rewrite <- sqrt_1; now apply sqrt_le_1_alt]. change 1 with (bpow radix2 0). apply bpow_le. lia.
    + eapply Rle_trans; [exact B1|]. rewrite <- (sqrt_square (B2R x)) at 1 by lra. apply sqrt_le_1_alt. nra.
Qed.

Lemma val_sub : forall x y : bf, is_finite x = true -> is_finite y = true -> Rabs (B2R x - B2R y) <= bpow radix2 (emax - 2) ->
  val 1 (fsub O x y) (B2R x - B2R y).
Proof.
  intros x y F1 F2 H. pose proof (Bminus_correct prec emax Hprec Hemax mode_NE x y F1 F2) as C. change (round_mode mode_NE) with ZnearestE in C.
  pose proof Hemax as HE. unfold Prec_lt_emax in HE.
  assert (B : Rabs (rnd (B2R x - B2R y)) < bpow radix2 emax).
  { apply Rle_lt_trans with (bpow radix2 (emax - 2)); [|apply bpow_lt; lia]. apply (rnd_bnd prec emax Hprec Hp2); [lia|exact H]. }
  rewrite Rlt_bool_true in C by exact B. destruct C as (V & F & _). split; [exact F|]. cbn [fsub Bops]. rewrite V.
  destruct (plus_rel prec emax Hprec Hp2 x (Bopp y)) as (d & Hd & E). rewrite B2R_Bopp in E.
  exists (1 + d). split; [exact E|]. destruct (gR_facts prec Hp2) as (G1 & _ & G3). rewrite !pow_1, <- G3. apply Rabs_le_inv in Hd. lra.
Qed.

Lemma val_opp : forall d x X, val d x X -> val d (fopp O x) (- X).
Proof.
  intros d x X [F N]. split; [cbn [fopp Bops]; now rewrite is_finite_Bopp|]. cbn [fopp Bops]. rewrite B2R_Bopp. now apply near_opp.
Qed.

(** From absolute to relative errors. *)
Lemma approx_near : forall e k s S, approx e k s S S -> 0 < S -> k * eta <= u * S -> (e <= 6)%nat -> near (e + 2) s S.
Proof.
  unfold Round.approx. intros e k s S H HS Hk He. pose proof u_small as U. destruct (gR_facts prec Hp2) as (G1 & G2 & _).
  pose proof (g_pow1 prec Hp2 e) as Ge. set (h := g ^ (e + 1)).
  assert (Eh : h = g ^ e * g) by (unfold h; rewrite pow_add, pow_1; reflexivity).
  assert (D : Rabs (s - S) <= (h - 1) * S).
  { eapply Rle_trans; [exact H|]. rewrite Eh. assert (k * eta * g ^ e <= u * S * g ^ e) by (apply Rmult_le_compat_r; lra).
    assert (u * S * g ^ e <= (g - 1) * S * g ^ e) by (apply Rmult_le_compat_r; [lra|]; apply Rmult_le_compat_r; lra). lra. }
  assert (Hh : 1 <= h <= 1 + 14 * u).
  { split; [unfold h; apply (g_pow1 prec Hp2)|]. pose proof (bernoulli (e + 1)) as B. rewrite <- g_inv in B. fold h in B.
    assert (Hh1 : 1 <= h) by (unfold h; apply (g_pow1 prec Hp2)).
    assert (I : INR (e + 1) <= 7) by (replace 7 with (INR 7) by (cbn; lra); apply le_INR; lia).
    assert (B' : 1 - 7 * u <= / h) by nra.
    assert (B2 : (1 - 7 * u) * h <= 1) by (apply Rmult_le_reg_r with (/ h); [apply Rinv_0_lt_compat; lra|]; rewrite Rmult_assoc, Rinv_r by lra; lra).
    assert (h <= 2) by nra. nra. }
  exists (s / S). split; [field; lra|]. replace (s / S) with (1 + (s - S) / S) by (field; lra).
  assert (Q : Rabs ((s - S) / S) <= h - 1).
  { unfold Rdiv. rewrite Rabs_mult, Rabs_inv, (Rabs_right S) by lra. apply Rmult_le_reg_r with S; [lra|]. rewrite Rmult_assoc, Rinv_l by lra. lra. }
  apply Rabs_le_inv in Q. replace (e + 2)%nat with (Datatypes.S (e + 1))%nat by lia. cbn [pow]. fold h. split.
  - apply Rle_trans with (2 - h); [|lra]. apply Rmult_le_reg_r with (g * h); [nra|]. rewrite Rinv_l by nra.
    assert ((2 - h) * h >= 1 - 196 * (u * u)) by nra. assert (g * (1 - u) = 1) by (unfold gR; field; lra). nra.
  - assert (1 * h <= g * h) by (apply Rmult_le_compat_r; lra). lra.
Qed.

End IEEE.
