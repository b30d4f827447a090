(** The Newton iteration for the inverse square root (detail/simd.hpp 75-83) in IEEE arithmetic. *)
From Coq Require Import ZArith Reals Bool Lra Lia Psatz.
From Flocq Require Import Core BinarySingleNaN Relative Plus_error.
From Verif Require Import Base Config FOps FOpsProofs Kernels Round RoundFin RoundNear RoundKern.
Local Open Scope nat_scope.

Section IEEE.

Variables prec emax : Z.
Context (Hprec : Prec_gt_0 prec).
Context (Hemax : Prec_lt_emax prec emax).
Variable fused : bool.
Hypothesis Hp8 : (8 <= prec)%Z.

Notation bf := (binary_float prec emax).
Notation O := (Bops prec emax Hprec Hemax fused).
Notation fexp := (SpecFloat.fexp prec emax).
Notation rnd := (round radix2 fexp ZnearestE).
Notation g := (gR prec).
Notation u := (uR prec).
Notation near := (near prec).
Notation val := (val prec emax).
Notation okr := (okr emax).
Notation Hp2 := (Hp2 prec Hp8).

Local Open Scope R_scope.

Variable k : Z.
Hypothesis Hk0 : (0 <= k)%Z.
Hypothesis Hk5 : (5 * k + 16 <= emax)%Z.

(** The approximation given by the instruction is finite, and its relative error at most 2^(1 - prec/2): 2^-11 in single precision. *)
Definition rsqrt_ok (K : platform bf) : Prop := forall f, k_rsqrt K = Some f -> forall x : bf, is_finite x = true ->
  bpow radix2 (- (2 * k) - 1) <= B2R x <= bpow radix2 (2 * k + 5) ->
  is_finite (f x) = true /\ (B2R (f x) * sqrt (B2R x) - 1) * (B2R (f x) * sqrt (B2R x) - 1) <= bpow radix2 (2 - prec).

Lemma newton_factor : forall e f, e * e <= 4 * u -> / g ^ 2 <= f <= g ^ 2 ->
  / g ^ 8 <= (1 + e) * (3 - (1 + e) * (1 + e) * f) / 2 <= g ^ 8 /\ - / 8 <= e <= / 8 /\ 1 <= 3 - (1 + e) * (1 + e) * f <= 4.
Proof.
  intros e f He Hf. pose proof (u_small prec Hp8) as U.
  assert (E8 : - / 8 <= e <= / 8) by (split; nra).
  rewrite !(g_inv prec) in *. destruct (gR_facts prec Hp2) as (G1 & G2 & _).
  assert (GU : g * (1 - u) = 1) by (unfold gR; field; lra).
  assert (Gu : g <= 1 + 1.004 * u) by nra.
  assert (F1 : g ^ 2 - 1 <= 2.02 * u) by (cbn [pow]; nra).
  assert (F2 : - (2 * u) <= (1 - u) ^ 2 - 1) by (cbn [pow]; nra).
  set (p := f - 1). assert (P : - (2.02 * u) <= p <= 2.02 * u) by (unfold p; lra).
  replace f with (1 + p) by (unfold p; ring).
  set (c3 := (1 + e) * (1 + e) * (1 + e)).
  assert (C2 : 49 / 64 <= (1 + e) * (1 + e) <= 81 / 64) by (split; nra).
  assert (C3 : 0 <= c3 <= 1.43) by (unfold c3; split; nra).
  replace ((1 + e) * (3 - (1 + e) * (1 + e) * (1 + p)) / 2) with (1 - 3 / 2 * (e * e) - e * (e * e) / 2 - c3 * p / 2) by (unfold c3; field).
  assert (Q1 : 0 <= e * e) by nra.
  assert (Q2 : - (u / 2) <= e * (e * e) <= u / 2) by (split; nra).
  assert (Q3 : - (2.9 * u) <= c3 * p <= 2.9 * u) by (split; nra).
  split; [|split; [exact E8|]].
  - split.
    + assert (B : (1 - u) ^ 8 <= 1 - 7.85 * u).
      { assert (B2 : (1 - u) ^ 2 <= 1 - (2 - / 256) * u) by (cbn [pow]; nra). replace ((1 - u) ^ 8) with (((1 - u) ^ 2) * ((1 - u) ^ 2) * (((1 - u) ^ 2) * ((1 - u) ^ 2))) by ring.
        assert (P2 : 0 <= (1 - u) ^ 2) by (apply pow_le; lra). set (h := (1 - u) ^ 2) in *.
        assert (B4 : h * h <= 1 - (4 - 6 / 256) * u) by nra. assert (P4 : 0 <= h * h) by nra. set (h2 := h * h) in *. nra. }
      lra.
    + assert (B : 1 + 8 * u <= g ^ 8).
      { assert (B2 : 1 + 2 * u <= g ^ 2) by (cbn [pow]; nra). replace (g ^ 8) with ((g ^ 2 * g ^ 2) * (g ^ 2 * g ^ 2)) by ring. set (h := g ^ 2) in *.
        assert (B4 : 1 + 4 * u <= h * h) by nra. set (h2 := h * h) in *. nra. }
      lra.
  - assert (Z : - (81 / 64 * (2.02 / 256)) <= (1 + e) * (1 + e) * p <= 81 / 64 * (2.02 / 256)) by (split; nra). lra.
Qed.

Ltac sm := apply (small_128 prec Hp8); lia.

Lemma newton_ok : forall y x : bf, is_finite y = true -> is_finite x = true -> bpow radix2 (- (2 * k) - 1) <= B2R x <= bpow radix2 (2 * k + 5) ->
  (B2R y * sqrt (B2R x) - 1) * (B2R y * sqrt (B2R x) - 1) <= bpow radix2 (2 - prec) ->
  val 11 (newton_iter O y x) (/ sqrt (B2R x)).
Proof.
  intros y x Fy Fx Hx Hy. pose proof (bpow_gt_0 radix2 (- (2 * k) - 1)) as P0. set (s := sqrt (B2R x)) in *.
  assert (Ps : 0 < s) by (apply sqrt_lt_R0; lra).
  assert (Es : s * s = B2R x) by (apply sqrt_sqrt; lra).
  set (e := B2R y * s - 1) in *. assert (Ey : B2R y = (1 + e) * / s) by (unfold e; field; lra).
  replace (2 - prec)%Z with (2 + - prec)%Z in Hy by lia. rewrite bpow_plus in Hy. change (bpow radix2 2) with 4 in Hy. fold (uR prec) in Hy.
  assert (Rs : RoundKern.rng (- k - 1) (k + 3) s).
  { right. rewrite Rabs_right by lra. assert (E : forall a, sqrt (bpow radix2 (2 * a)) = bpow radix2 a).
    { intros b. replace (2 * b)%Z with (b + b)%Z by lia. rewrite bpow_plus. apply sqrt_square, bpow_ge_0. }
    split; [rewrite <- (E (- k - 1)%Z)|rewrite <- (E (k + 3)%Z)]; apply sqrt_le_1_alt.
    - eapply Rle_trans; [|apply Hx]. apply bpow_le. lia.
    - eapply Rle_trans; [apply Hx|]. apply bpow_le. lia. }
  assert (E8 : - / 8 <= e <= / 8) by (pose proof (u_small prec Hp8); split; nra).
  assert (R1 : RoundKern.rng (-1) 1 (1 + e)).
  { right. rewrite Rabs_right by lra. change (bpow radix2 (-1)) with (/ 2). change (bpow radix2 1) with 2. lra. }
  assert (Ry : RoundKern.rng (-1 - (k + 3)) (1 - (- k - 1)) (B2R y)) by (rewrite Ey; exact (rng_div _ _ _ _ _ _ R1 Rs)).
  assert (Rxy : RoundKern.rng (- k - 1 + -1) (k + 3 + 1) (B2R x * B2R y)).
  { replace (B2R x * B2R y) with (s * (1 + e)) by (rewrite Ey, <- Es; field; lra). now apply rng_mul. }
  unfold newton_iter. cbv zeta.
  destruct (half_exact prec emax Hprec Hemax fused Hp2) as [Vh Fh]. set (half := fdiv O (fofZ O 1%Z) (fofZ O 2%Z)) in *. cbv zeta in Vh, Fh.
  assert (VH : val 1 (fmul O y half) (B2R y * / 2)).
  { rewrite <- Vh. apply (val_mul prec emax Hprec Hemax fused Hp8 0 0); [now apply val_self|now apply val_self|sm|].
    rewrite Vh. apply (rng_okr emax) with (-1 - (k + 3) + -1)%Z (1 - (- k - 1) + 0)%Z; [|lia|lia]. apply rng_mul; [exact Ry|]. right. rewrite Rabs_right by lra. cbn. lra. }
  assert (VX : val 1 (fmul O x y) (B2R x * B2R y)).
  { apply (val_mul prec emax Hprec Hemax fused Hp8 0 0); [now apply val_self|now apply val_self|sm|]. eapply (rng_okr emax); [exact Rxy|lia|lia]. }
  destruct (ofZ_exact prec emax Hprec Hemax fused Hp2 3) as [V3 F3].
  { cbn [Z.abs]. apply Z.lt_le_trans with (2 ^ 2)%Z; [lia|]. apply Z.pow_le_mono_r; lia. }
  set (w := fmul O x y) in *. set (three := fofZ O 3%Z) in *.
  (* the product x*y*y *)
  assert (Rp : RoundKern.rng (-2) 2 (B2R x * B2R y * B2R y)).
  { replace (B2R x * B2R y * B2R y) with ((1 + e) * (1 + e)) by (rewrite Ey, <- Es; field; lra). apply (rng_mul (-1) 1 _ (-1) 1); assumption. }
  assert (VP : val 2 (fmul O w y) (B2R x * B2R y * B2R y)).
  { apply (val_mul prec emax Hprec Hemax fused Hp8 1 0); [exact VX|now apply val_self|sm|]. eapply (rng_okr emax); [exact Rp|lia|lia]. }
  assert (NP : near 1 (B2R w * B2R y) (B2R x * B2R y * B2R y)).
  { apply (near_mul prec Hp8 1 0); [apply VX|apply (near_refl prec Hp8)]. }
  assert (VT : exists f, / g ^ 2 <= f <= g ^ 2 /\ val 1 (fnma O w y three) (3 - (1 + e) * (1 + e) * f)).
  { unfold fnma. assert (Fw : is_finite (fopp O w) = true) by (cbn [fopp Bops]; rewrite is_finite_Bopp; apply VX).
    assert (OW : B2R (fopp O w) = - B2R w) by (cbn [fopp Bops]; apply B2R_Bopp).
    assert (X : exists f, / g ^ 2 <= f <= g ^ 2 /\ fma_val prec emax fused (B2R (fopp O w)) (B2R y) (B2R three) = rnd (3 - (1 + e) * (1 + e) * f)).
    { rewrite V3. replace ((1 + e) * (1 + e)) with (B2R x * B2R y * B2R y) by (rewrite Ey, <- Es; field; lra). unfold fma_val. rewrite OW. destruct fused.
      - apply (near_mono prec Hp8 1 2) in NP; [|lia]. destruct NP as (f & EF & Hf). exists f. split; [exact Hf|]. rewrite <- EF. f_equal. ring.
      - destruct VP as [FP (f & EF & Hf)]. exists f. split; [exact Hf|]. rewrite <- EF. cbn [fmul Bops] in *.
        destruct (mult_fin prec emax Hprec Hemax _ _ FP) as (_ & _ & V). rewrite V. replace (- B2R w * B2R y) with (- (B2R w * B2R y)) by ring. rewrite round_NE_opp. f_equal. ring. }
    destruct X as (f & Hf & EQ). exists f. split; [exact Hf|]. destruct (newton_factor e f Hy Hf) as (_ & _ & H3).
    assert (N : near 1 (rnd (3 - (1 + e) * (1 + e) * f)) (3 - (1 + e) * (1 + e) * f)).
    { apply (near_rnd prec emax Hprec Hp8). right. rewrite Rabs_right by lra. apply Rle_trans with (bpow radix2 0); [apply bpow_le; lia|change (bpow radix2 0) with 1; lra]. }
    assert (B : Rabs (rnd (3 - (1 + e) * (1 + e) * f)) < bpow radix2 emax).
    { apply Rle_lt_trans with (bpow radix2 2); [|apply bpow_lt; lia]. apply (rnd_bnd prec emax Hprec Hp2); [unfold Prec_gt_0 in *; lia|]. rewrite Rabs_right by lra. change (bpow radix2 2) with 4. lra. }
    assert (FF : is_finite (ffma O (fopp O w) y three) = true).
    { apply fma_finite; auto; [|rewrite EQ; exact B]. rewrite OW. replace (- B2R w * B2R y) with (- (B2R w * B2R y)) by ring. rewrite round_NE_opp, Rabs_Ropp.
      destruct VP as [FP NN]. cbn [fmul Bops] in *. destruct (mult_fin prec emax Hprec Hemax _ _ FP) as (_ & _ & V). rewrite <- V. apply abs_B2R_lt_emax. }
    split; [exact FF|]. destruct (fma_fin prec emax Hprec Hemax fused _ _ _ FF) as (_ & _ & _ & V). rewrite V, EQ. exact N. }
  destruct VT as (f & Hf & VT). destruct (newton_factor e f Hy Hf) as (W & _ & H3). set (T := 3 - (1 + e) * (1 + e) * f) in *.
  apply (val_mono prec emax Hp8) with (3 + 8)%nat; [|lia].
  assert (VF : val 3 (fmul O (fmul O y half) (fnma O w y three)) (B2R y * / 2 * T)).
  { apply (val_mul prec emax Hprec Hemax fused Hp8 1 1); [exact VH|exact VT|sm|]. apply (rng_okr emax) with (-1 - (k + 3) + -1 + 0)%Z (1 - (- k - 1) + 0 + 2)%Z; [|lia|lia].
    apply rng_mul; [apply rng_mul; [exact Ry|]|]; right; rewrite Rabs_right by lra; cbn; lra. }
  destruct VF as [FF NF]. split; [exact FF|]. apply (near_trans prec Hp8) with (B2R y * / 2 * T); [exact NF|].
  exists ((1 + e) * T / 2). split; [rewrite Ey; field; lra|exact W].
Qed.

Lemma rsqrt_fast : forall K, rsqrt_ok K -> fast_ok prec emax Hprec Hemax fused k K 11.
Proof.
  intros K H f Hf x Fx Hx. unfold fast_inv_sqrt in Hf. destruct (k_rsqrt K) as [f0|] eqn:E; [|discriminate]. injection Hf as <-.
  destruct (H f0 E x Fx Hx) as [F1 F2]. now apply newton_ok.
Qed.

(** The rounded value of 1 / sqrt x meets the assumption. *)
Lemma rsqrt_rounded : forall sh, rsqrt_ok (mkPlatform (Some (fun x => fdiv O (fofZ O 1%Z) (fsqrt O x))) sh).
Proof.
  intros sh f Hf x F B. assert (SI : forall A (a b : A), Some a = Some b -> a = b) by congruence. cbn [k_rsqrt] in Hf. apply (SI _ _ _) in Hf. subst f. clear SI.
  assert (X0 : 0 < B2R x) by (pose proof (bpow_gt_0 radix2 (- (2 * k) - 1)); lra).
  assert (RX : rng (- (2 * k) - 1) (2 * k + 5) (B2R x)) by (right; rewrite Rabs_right by lra; exact B).
  assert (V1 : val 1 (fsqrt O x) (sqrt (B2R x))).
  { apply (val_sqrt prec emax Hprec Hemax fused Hp8 0); [now apply val_self|exact X0|apply (small_128 prec Hp8); lia|eapply rng_okr; [exact RX|lia|lia]]. }
  assert (S0 : 0 < sqrt (B2R x)) by (now apply sqrt_lt_R0).
  assert (RS : rng (- k - 1) (k + 3) (sqrt (B2R x))).
  { right. rewrite Rabs_right by lra. split.
    - rewrite <- (sqrt_square (bpow radix2 (- k - 1))) by apply bpow_ge_0. apply sqrt_le_1_alt. rewrite <- bpow_plus. eapply Rle_trans; [|apply B]. apply bpow_le. lia.
    - rewrite <- (sqrt_square (bpow radix2 (k + 3))) by apply bpow_ge_0. apply sqrt_le_1_alt. rewrite <- bpow_plus. eapply Rle_trans; [apply B|]. apply bpow_le. lia. }
  assert (One : val 0 (fofZ O 1%Z) 1).
  { destruct (ofZ_pow prec emax Hprec Hemax fused Hp2 0 ltac:(lia)) as [P1 P2]. split; [exact P2|]. change (2 ^ 0)%Z with 1%Z in P1. change (bpow radix2 0) with 1 in P1. rewrite P1. apply (near_refl prec Hp8). }
  assert (V2 : val 2 (fdiv O (fofZ O 1%Z) (fsqrt O x)) (1 / sqrt (B2R x))).
  { apply (val_div prec emax Hprec Hemax fused Hp8 0 1); [exact One|exact V1|lra|apply (small_128 prec Hp8); lia|].
    assert (R1 : rng 0 0 1) by (right; rewrite Rabs_R1; cbn; lra). eapply rng_okr; [exact (rng_div _ _ _ _ _ _ R1 RS)|lia|lia]. }
  destruct V2 as [F2 (h & Eh & Bh)]. split; [exact F2|]. rewrite Eh. replace (1 / sqrt (B2R x) * h * sqrt (B2R x)) with h by (field; lra).
  pose proof (u_small prec Hp8) as U. rewrite (g_inv prec) in Bh. destruct (gR_facts prec Hp2) as (G1 & G2 & _).
  assert (GU : g * (1 - u) = 1) by (unfold gR; field; lra).
  assert (Gu : g <= 1 + 1.004 * u) by nra.
  assert (F1 : g ^ 2 - 1 <= 2.02 * u) by (cbn [pow]; nra).
  assert (F3 : - (2 * u) <= (1 - u) ^ 2 - 1) by (cbn [pow]; nra).
  replace (bpow radix2 (2 - prec)) with (4 * u) by (unfold uR; replace (2 - prec)%Z with (2 + - prec)%Z by lia; rewrite bpow_plus; reflexivity).
  assert (H1 : - (2.02 * u) <= h - 1 <= 2.02 * u) by lra. set (e := h - 1) in *. assert (e * e <= 2.02 * u * (2.02 * u)) by nra. nra.
Qed.

End IEEE.
