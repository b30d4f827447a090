(** Which coordinates are accepted with IEEE arithmetic. *)
From Coq Require Import List Arith ZArith NArith Reals Bool Lia Lra Psatz.
From Flocq Require Import Core BinarySingleNaN Relative.
From Verif Require Import Base Config Morton Build FOps Disc FOpsProofs DiscProofs BoxProofs.
Import ListNotations.
Local Open Scope R_scope.

Lemma Rabs_def2b : forall x a, Rabs x <= a -> - a <= x <= a.
Proof. intros. apply Rabs_le_inv. assumption. Qed.

(** Multiplication by a power of two is exact if the result stays normal. *)
Lemma mult_bpow_exact_FLT : forall emin prec, Prec_gt_0 prec -> forall x e,
  generic_format radix2 (FLT_exp emin prec) x -> (0 <= e \/ emin + prec - mag radix2 x <= e)%Z ->
  generic_format radix2 (FLT_exp emin prec) (x * bpow radix2 e).
Proof.
  intros emin prec Hp x e Hx He.
  destruct (Req_dec x 0) as [->|Hnz]; [rewrite Rmult_0_l; apply generic_format_0|].
  set (m := Ztrunc (scaled_mantissa radix2 (FLT_exp emin prec) x)).
  set (k := cexp radix2 (FLT_exp emin prec) x).
  assert (Ex : x = IZR m * bpow radix2 k) by exact Hx.
  assert (Hk : k = Z.max (mag radix2 x - prec) emin) by reflexivity.
  assert (Hm : (Z.abs m < 2 ^ prec)%Z).
  { apply lt_IZR. rewrite abs_IZR. change 2%Z with (radix_val radix2). rewrite IZR_Zpower by (unfold Prec_gt_0 in Hp; lia).
    apply Rmult_lt_reg_r with (bpow radix2 k); [apply bpow_gt_0|].
    rewrite <- bpow_plus. rewrite <- (Rabs_pos_eq (bpow radix2 k)) at 1 by apply bpow_ge_0.
    rewrite <- Rabs_mult, <- Ex.
    apply Rlt_le_trans with (bpow radix2 (mag radix2 x)); [now apply bpow_mag_gt|].
    apply bpow_le. lia. }
  rewrite Ex at 1. rewrite Rmult_assoc, <- bpow_plus.
  apply generic_format_FLT.
  exists (Float radix2 m (k + e)); simpl; [reflexivity|exact Hm|]. destruct He; lia.
Qed.

Section IEEE.

Variables prec emax : Z.
Context (Hprec : Prec_gt_0 prec).
Context (Hemax : Prec_lt_emax prec emax).
Variable fused : bool.
Hypothesis Hp8 : (8 <= prec)%Z.
Hypothesis Hrange : (prec + 4 <= emax)%Z.
Variable c : cfg.
Hypothesis Hcb : (Z.of_N (cbitsc c) < emax)%Z.

Notation bf := (binary_float prec emax).
Notation O := (Bops prec emax Hprec Hemax fused).
Notation fexp := (SpecFloat.fexp prec emax).
Notation rnd := (round radix2 fexp ZnearestE).
Notation cb := (cbitsc c).
Notation pw := (bpow radix2 (Z.of_N cb)).
Notation scaled := (scaled prec emax Hprec Hemax fused c).
Notation fma_val := (fma_val prec emax fused).

Local Instance valid_fexp' : Valid_exp fexp.
Proof. exact (@FLT_exp_valid (3 - emax - prec) prec Hprec). Qed.

Let Hp2 : (2 <= prec)%Z. Proof. lia. Qed.

Lemma bpow_prec8 : 256 <= bpow radix2 prec.
Proof. change 256 with (bpow radix2 8). apply bpow_le. lia. Qed.

Lemma bpow_mprec8 : 0 < bpow radix2 (- prec) <= / 256.
Proof.
  split; [apply bpow_gt_0|]. change (/ 256) with (bpow radix2 (-8)). apply bpow_le. lia.
Qed.

(** k/128 is representable. *)
Lemma format_128 : forall k e, (Z.abs k < 256)%Z -> (3 - emax - prec <= e)%Z ->
  generic_format radix2 fexp (IZR k * bpow radix2 e).
Proof.
  intros k e Hk He. apply (format_small prec emax); auto.
  apply Z.lt_le_trans with (1 := Hk). change 256%Z with (2 ^ 8)%Z. apply Z.pow_le_mono_r; lia.
Qed.

Lemma rnd_between : forall k1 k2 e y, (Z.abs k1 < 256)%Z -> (Z.abs k2 < 256)%Z -> (3 - emax - prec <= e)%Z ->
  IZR k1 * bpow radix2 e <= y <= IZR k2 * bpow radix2 e ->
  IZR k1 * bpow radix2 e <= rnd y <= IZR k2 * bpow radix2 e.
Proof.
  intros k1 k2 e y H1 H2 He [Hl Hu]. split.
  - apply round_ge_generic; auto with typeclass_instances. now apply format_128.
  - apply round_le_generic; auto with typeclass_instances. now apply format_128.
Qed.

(** A coordinate well inside of the box is accepted. *)
Lemma disc_accept : forall x inv : bf, is_finite x = true -> is_finite inv = true ->
  Rabs (B2R x * B2R inv) <= 63 / 128 -> exists k, disc_single_coord O c false x inv = Ok k.
Proof.
  intros x inv Fx Fi H. apply Rabs_def2b in H.
  assert (Eb : bpow radix2 (-7) = / 128) by reflexivity.
  assert (Hlarge : 1 < bpow radix2 emax).
  { change 1 with (bpow radix2 0). apply bpow_lt. lia. }
  assert (Hprod : -(63 / 128) <= rnd (B2R x * B2R inv) <= 63 / 128).
  { pose proof (rnd_between (-63) 63 (-7) (B2R x * B2R inv)) as R. rewrite Eb in R.
    destruct R; try lia; try lra. }
  assert (Hfma : / 128 <= fma_val (B2R x) (B2R inv) (/ 2) <= 127 / 128).
  { unfold FOpsProofs.fma_val. destruct fused.
    - pose proof (rnd_between 1 127 (-7) (B2R x * B2R inv + / 2)) as R. rewrite Eb in R.
      destruct R; try lia; try lra.
    - pose proof (rnd_between 1 127 (-7) (rnd (B2R x * B2R inv) + / 2)) as R. rewrite Eb in R.
      destruct R; try lia; try lra. }
  destruct (half_exact prec emax Hprec Hemax fused Hp2) as [Hh1 Hh2]. cbv zeta in Hh1, Hh2.
  set (h := fdiv O (fofZ O 1%Z) (fofZ O 2%Z)) in *.
  assert (F1 : is_finite (ffma O x inv h) = true).
  { apply (fma_finite prec emax Hprec Hemax fused); auto.
    - apply Rabs_def1; lra.
    - rewrite Hh1. apply Rabs_def1; lra. }
  destruct (fma_fin prec emax Hprec Hemax fused _ _ _ F1) as (_ & _ & _ & V1). rewrite Hh1 in V1.
  destruct (fac_val prec emax Hprec Hemax fused Hp2 c Hcb) as [Vf Ff].
  assert (Hpw : 0 < pw) by apply bpow_gt_0.
  assert (Hr : / 128 * pw <= rnd (fma_val (B2R x) (B2R inv) (/ 2) * pw) <= 127 / 128 * pw).
  { pose proof (rnd_between 1 127 (-7 + Z.of_N cb) (fma_val (B2R x) (B2R inv) (/ 2) * pw)) as R.
    rewrite bpow_plus, Eb in R. destruct R; try lia; nra. }
  assert (Hmax : pw <= bpow radix2 emax) by (apply bpow_le; lia).
  assert (F2 : is_finite (scaled x inv) = true).
  { unfold DiscProofs.scaled. fold h. apply (mult_finite prec emax Hprec Hemax); auto.
    rewrite V1, Vf. apply Rabs_def1; lra. }
  destruct (scaled_fin prec emax Hprec Hemax fused Hp2 c Hcb x inv F2) as (_ & _ & V2).
  rewrite (disc_eq prec emax Hprec Hemax fused Hp2 c Hcb), F2. rewrite V2.
  destruct (Rlt_dec _ _) as [L|_]; [exfalso; lra|]. destruct (Rle_dec _ _) as [L|_]; [exfalso; lra|].
  eauto.
Qed.

(** A box size that, with its inverse, is far from underflow and overflow. *)
Definition comfortable (b : bf) : Prop :=
  is_finite b = true /\ bpow radix2 (10 - emax) <= B2R b <= bpow radix2 (emax - 2).

Definition invb (b : bf) : bf := fdiv O (fofZ O 1%Z) b.

Lemma rel_err : forall y, bpow radix2 (2 - emax) <= Rabs y ->
  Rabs (rnd y - y) <= bpow radix2 (- prec) * Rabs y.
Proof.
  intros y Hy.
  pose proof (relative_error_N_FLT radix2 (3 - emax - prec) prec Hprec (fun x => negb (Z.even x)) y) as R.
  replace (bpow radix2 (- prec)) with (/ 2 * bpow radix2 (- prec + 1)).
  - apply R. replace (3 - emax - prec + prec - 1)%Z with (2 - emax)%Z by lia. exact Hy.
  - rewrite bpow_plus. change (bpow radix2 1) with 2. lra.
Qed.

Lemma inv_val : forall b, comfortable b ->
  is_finite (invb b) = true /\ B2R (invb b) = rnd (1 / B2R b) /\
  Rabs (B2R (invb b) - 1 / B2R b) <= bpow radix2 (- prec) * (1 / B2R b).
Proof.
  intros b (Fb & Hl & Hu). pose proof (bpow_gt_0 radix2 (10 - emax)) as Hp.
  assert (Hb : 0 < B2R b) by lra.
  destruct (ofZ_exact prec emax Hprec Hemax fused Hp2 1) as [V1 F1].
  { change (Z.abs 1) with (2 ^ 0)%Z. apply Z.pow_lt_mono_r; lia. }
  assert (Hlo : bpow radix2 (2 - emax) <= 1 / B2R b).
  { replace (2 - emax)%Z with (- (emax - 2))%Z by lia. rewrite bpow_opp.
    unfold Rdiv. rewrite Rmult_1_l. apply Rinv_le; [exact Hb|exact Hu]. }
  assert (Hhi : 1 / B2R b <= bpow radix2 (emax - 10)).
  { replace (emax - 10)%Z with (- (10 - emax))%Z by lia. rewrite bpow_opp.
    unfold Rdiv. rewrite Rmult_1_l. apply Rinv_le; [exact Hp|exact Hl]. }
  assert (Hpos : 0 < 1 / B2R b) by (pose proof (bpow_gt_0 radix2 (2 - emax)); lra).
  destruct (div_finite prec emax Hprec Hemax (fofZ O 1%Z) b F1) as [A B]; [lra| |].
  - rewrite V1. assert (0 <= rnd (1 / B2R b) <= bpow radix2 (emax - 10)).
    { split.
      - apply round_ge_generic; auto with typeclass_instances; [apply generic_format_0|lra].
      - apply round_le_generic; auto with typeclass_instances.
        apply (format_pow prec emax Hprec Hp2). lia. }
    apply Rabs_def1; pose proof (bpow_lt radix2 (emax - 10) emax ltac:(lia)); lra.
  - rewrite V1 in B. split; [exact A|]. split; [exact B|].
    change (B2R (invb b)) with (B2R (Bdiv mode_NE (fofZ O 1%Z) b)). rewrite B.
    pose proof (rel_err (1 / B2R b)) as R. rewrite (Rabs_pos_eq (1 / B2R b)) in R by lra.
    now apply R.
Qed.

(** The deduced box size is at least 2.0625 times the largest coordinate, less one rounding. *)
Lemma deduced_ge : forall M b, good prec emax M -> 
  b = ffma O (fmul O M (fofZ O 2%Z)) (fdiv O (fofZ O 1%Z) (fofZ O 20%Z)) (fmul O M (fofZ O 2%Z)) ->
  comfortable b -> (33 / 16) * B2R M * (1 - bpow radix2 (- prec)) <= B2R b.
Proof.
  intros M b [FM SM] Eb (Fb & Hl & Hu).
  assert (FB : is_finite b = true) by exact Fb. rewrite Eb in FB.
  destruct (fma_fin prec emax Hprec Hemax fused _ _ _ FB) as (F2 & Fc & _ & V). rewrite <- Eb in V.
  destruct (mult_fin prec emax Hprec Hemax _ _ F2) as (_ & _ & V2).
  change (B2R (Bmult mode_NE M (fofZ O 2%Z))) with (B2R (fmul O M (fofZ O 2%Z))) in V2.
  destruct (ofZ_pow prec emax Hprec Hemax fused Hp2 1) as [E2 _]; [lia|].
  change (2 ^ 1)%Z with 2%Z in E2. change (bpow radix2 1) with 2 in E2. rewrite E2 in V2.
  assert (HM0 : 0 <= B2R M).
  { destruct M as [s| | |s m e Hm]; simpl in *; try lra; try discriminate.
    subst s. apply F2R_ge_0. simpl. lia. }
  assert (V2' : B2R (fmul O M (fofZ O 2%Z)) = B2R M * 2).
  { rewrite V2. apply round_generic; auto with typeclass_instances.
    replace (B2R M * 2) with (B2R M * bpow radix2 1) by reflexivity.
    apply (mult_bpow_exact_FLT (3 - emax - prec) prec Hprec _ 1); [apply (generic_format_B2R prec emax M)|lia]. }
  set (twoM := fmul O M (fofZ O 2%Z)) in *.
  destruct (ofZ_exact prec emax Hprec Hemax fused Hp2 1) as [W1 G1].
  { change (Z.abs 1) with (2 ^ 0)%Z. apply Z.pow_lt_mono_r; lia. }
  destruct (ofZ_exact prec emax Hprec Hemax fused Hp2 20) as [W20 G20].
  { apply Z.lt_le_trans with (2 ^ 8)%Z; [reflexivity|]. apply Z.pow_le_mono_r; lia. }
  destruct (div_fin prec emax Hprec Hemax _ _ Fc) as [_ Vc]; [rewrite W20; lra|].
  rewrite W1, W20 in Vc. change (B2R (Bdiv mode_NE (fofZ O 1%Z) (fofZ O 20%Z)))
    with (B2R (fdiv O (fofZ O 1%Z) (fofZ O 20%Z))) in Vc.
  assert (Hc : / 32 <= B2R (fdiv O (fofZ O 1%Z) (fofZ O 20%Z)) <= / 16).
  { rewrite Vc. pose proof (rnd_between 1 2 (-5) (1 / 20)) as R.
    change (bpow radix2 (-5)) with (/ 32) in R. destruct R; try lia; try lra. }
  set (cc := B2R (fdiv O (fofZ O 1%Z) (fofZ O 20%Z))) in *. rewrite V2' in V.
  (* b <= 4M, so M is far from underflow *)
  assert (G4 : generic_format radix2 fexp (B2R M * 4) /\ generic_format radix2 fexp (B2R M * 2)).
  { pose proof (generic_format_B2R prec emax M) as G.
    assert (Hx : forall e, (0 <= e)%Z -> generic_format radix2 fexp (B2R M * bpow radix2 e)).
    { intros e He. apply (mult_bpow_exact_FLT (3 - emax - prec) prec Hprec _ e); [exact G|lia]. }
    split; [apply (Hx 2%Z)|apply (Hx 1%Z)]; lia. }
  destruct G4 as [G4 G2].
  assert (Hb4 : B2R b <= B2R M * 4).
  { rewrite V. unfold FOpsProofs.fma_val. destruct fused.
    - apply round_le_generic; auto with typeclass_instances. nra.
    - apply round_le_generic; auto with typeclass_instances.
      assert (rnd (B2R M * 2 * cc) <= B2R M * 2).
      { apply round_le_generic; auto with typeclass_instances. nra. }
      lra. }
  assert (HMlo : bpow radix2 (8 - emax) <= B2R M).
  { replace (10 - emax)%Z with (2 + (8 - emax))%Z in Hl by lia. rewrite bpow_plus in Hl.
    change (bpow radix2 2) with 4 in Hl. lra. }
  pose proof (bpow_gt_0 radix2 (8 - emax)) as Hpos8.
  assert (Hpr : forall y, (33 / 16) * B2R M <= y ->
    (33 / 16) * B2R M * (1 - bpow radix2 (- prec)) <= rnd y).
  { intros y Hy. apply Rle_trans with (rnd ((33 / 16) * B2R M)); [|now apply rnd_le].
    pose proof (rel_err ((33 / 16) * B2R M)) as R.
    rewrite (Rabs_pos_eq (33 / 16 * B2R M)) in R by lra.
    assert (bpow radix2 (2 - emax) <= bpow radix2 (8 - emax)) by (apply bpow_le; lia).
    specialize (R ltac:(lra)). apply Rabs_def2b in R. lra. }
  rewrite V. unfold FOpsProofs.fma_val. destruct fused.
  - apply Hpr. nra.
  - apply Hpr.
    assert (B2R M * / 16 <= rnd (B2R M * 2 * cc)); [|lra].
    apply Rle_trans with (rnd (B2R M * / 16)).
    + rewrite round_generic; auto with typeclass_instances; [lra|].
      change (/ 16) with (bpow radix2 (-4)).
      apply (mult_bpow_exact_FLT (3 - emax - prec) prec Hprec _ (-4)).
      * apply (generic_format_B2R prec emax M).
      * destruct (mag radix2 (B2R M)) as [e1 He1]. cbn [mag_val]. specialize (He1 ltac:(lra)). destruct He1 as [_ He1].
        rewrite Rabs_pos_eq in He1 by lra.
        assert (Hlt : bpow radix2 (8 - emax) < bpow radix2 e1) by lra. apply lt_bpow in Hlt. lia.
    + apply rnd_le; [exact Hprec|]. nra.
Qed.

(** C09, IEEE part: with a comfortable deduced box size every particle is accepted. *)
Lemma deduced_accepts : forall ndim parts r b, (0 < ndim)%nat ->
  Forall (fun p => length p = ndim) parts -> spans r 0 (length parts) ->
  determine_box_size O ndim parts r = Ok b -> comfortable b ->
  forall p x, In p parts -> In x p -> exists k, disc_single_coord O c false x (invb b) = Ok k.
Proof.
  intros ndim parts r b Hn HF Hs Hd Hc p x Hp Hx.
  pose proof (box_value prec emax Hprec Hemax fused ndim parts r Hn HF Hs) as B. rewrite Hd in B.
  destruct B as (Hfin & M & GM & EM & Eb & Fb).
  pose proof (deduced_ge M b GM Eb Hc) as HM.
  destruct (inv_val b Hc) as (Fi & _ & Hi). pose proof Hc as (_ & Hl & Hu).
  pose proof (bpow_gt_0 radix2 (10 - emax)) as Hp10.
  pose proof bpow_mprec8 as Hu8. set (u := bpow radix2 (- prec)) in *.
  assert (Fx : is_finite x = true).
  { unfold all_fin in Hfin. rewrite Forall_forall in Hfin. specialize (Hfin p Hp). rewrite Forall_forall in Hfin. auto. }
  assert (HxM : Rabs (B2R x) <= B2R M).
  { rewrite EM. apply max_abs_In. apply in_map. apply in_concat. eauto. }
  apply disc_accept; auto.
  assert (Hb : 0 < B2R b) by lra.
  assert (Hib : 0 < 1 / B2R b) by (apply Rdiv_lt_0_compat; lra).
  assert (Ebi : B2R b * (1 / B2R b) = 1) by (field; lra).
  set (ib := 1 / B2R b) in *. apply Rabs_def2b in Hi.
  assert (Hinv : 0 <= B2R (invb b) <= ib * (1 + u)) by nra.
  rewrite Rabs_mult, (Rabs_pos_eq (B2R (invb b))) by lra.
  assert (HM0 : 0 <= B2R M) by (pose proof (Rabs_pos (B2R x)); lra).
  apply Rle_trans with (B2R M * (ib * (1 + u))).
  { apply Rmult_le_compat; try lra. apply Rabs_pos. }
  (* M * ib <= 16/33 / (1-u) *)
  assert (H1 : B2R M * ib * (33 / 16 * (1 - u)) <= 1) by nra.
  assert (H2 : 0 <= B2R M * ib) by (apply Rmult_le_pos; lra).
  replace (B2R M * (ib * (1 + u))) with (B2R M * ib * (1 + u)) by ring.
  set (q := B2R M * ib) in *. clearbody q. clear - H1 H2 Hu8.
  assert (q * (33 / 16 * (1 - / 256)) <= 1) by nra.
  nra.
Qed.

(** ** Containment of accepted coordinates *)

Lemma accepted_bounds : forall x inv k, disc_single_coord O c false x inv = Ok k ->
  is_finite x = true /\ is_finite inv = true /\ 0 <= rnd (fma_val (B2R x) (B2R inv) (/ 2) * pw) < pw.
Proof.
  intros x inv k H. rewrite (disc_eq prec emax Hprec Hemax fused Hp2 c Hcb) in H.
  destruct (is_finite (scaled x inv)) eqn:F; [|discriminate].
  destruct (scaled_fin prec emax Hprec Hemax fused Hp2 c Hcb x inv F) as (F1 & F2 & V). rewrite V in H.
  destruct (Rlt_dec _ _) in H; [discriminate|]. destruct (Rle_dec _ _) in H; [discriminate|]. 
  repeat split; auto; lra.
Qed.

(** The scaled value is non-negative only if the fma is, and below [2^cbits] only if the fma is
    below 1. *)
Lemma fma_bounds : forall x inv k, disc_single_coord O c false x inv = Ok k ->
  is_finite x = true /\ is_finite inv = true /\
  (forall e, (3 - emax - prec <= e)%Z -> ~ fma_val (B2R x) (B2R inv) (/ 2) <= - bpow radix2 e) /\
  fma_val (B2R x) (B2R inv) (/ 2) < 1.
Proof.
  intros x inv k H. destruct (accepted_bounds x inv k H) as (F1 & F2 & H1 & H2).
  assert (Hpw : 0 < pw) by apply bpow_gt_0.
  split; [exact F1|]. split; [exact F2|]. split.
  - intros e He Hle.
    assert (Hr : rnd (fma_val (B2R x) (B2R inv) (/ 2) * pw) <= - (bpow radix2 (e + Z.of_N cb))).
    { apply round_le_generic; auto with typeclass_instances.
      - apply generic_format_opp. apply (format_pow prec emax Hprec Hp2). lia.
      - rewrite bpow_plus. pose proof (bpow_gt_0 radix2 e). nra. }
    pose proof (bpow_gt_0 radix2 (e + Z.of_N cb)). lra.
  - apply Rnot_le_lt. intros Hle.
    assert (pw <= rnd (fma_val (B2R x) (B2R inv) (/ 2) * pw)); [|lra].
    apply round_ge_generic; auto with typeclass_instances.
    + apply (format_pow prec emax Hprec Hp2). lia.
    + nra.
Qed.

(** Up to two units of relative rounding, an accepted coordinate is inside of the box. *)
Lemma accepted_near_box : forall x b k, comfortable b ->
  disc_single_coord O c false x (invb b) = Ok k ->
  - (B2R b / 2) * (1 + bpow radix2 (2 - prec)) < B2R x < B2R b / 2 * (1 + bpow radix2 (2 - prec)).
Proof.
  intros x b k Hc H. destruct (fma_bounds x (invb b) k H) as (Fx & Fi & Hlo & Hhi).
  destruct (inv_val b Hc) as (_ & _ & Hi). destruct Hc as (_ & Hl & Hu).
  pose proof (bpow_gt_0 radix2 (10 - emax)) as Hp10. assert (Hb : 0 < B2R b) by lra.
  assert (Hib : 0 < 1 / B2R b) by (apply Rdiv_lt_0_compat; lra).
  assert (Ebi : B2R b * (1 / B2R b) = 1) by (field; lra).
  pose proof bpow_mprec8 as Hu8.
  assert (E4 : bpow radix2 (2 - prec) = 4 * bpow radix2 (- prec)).
  { replace (2 - prec)%Z with (2 + - prec)%Z by lia. rewrite bpow_plus. reflexivity. }
  rewrite E4. apply Rabs_def2b in Hi.
  set (u := bpow radix2 (- prec)) in *. set (ib := 1 / B2R b) in *.
  assert (Hinv : ib * (1 - u) <= B2R (invb b)) by lra.
  (* 1/2 + u is representable *)
  assert (Hf : generic_format radix2 fexp (/ 2 + u)).
  { replace (/ 2 + u) with (IZR (2 ^ (prec - 1) + 1) * bpow radix2 (- prec)).
    - apply (format_small prec emax).
      + rewrite Z.abs_eq by (pose proof (Z.pow_nonneg 2 (prec - 1)); lia).
        replace prec with (prec - 1 + 1)%Z at 2 by lia. rewrite Z.pow_add_r by lia.
        change (2 ^ 1)%Z with 2%Z.
        assert (2 ^ 1 <= 2 ^ (prec - 1))%Z by (apply Z.pow_le_mono_r; lia). lia.
      + lia.
    - rewrite plus_IZR. change (2 ^ (prec - 1))%Z with (radix_val radix2 ^ (prec - 1))%Z. rewrite IZR_Zpower by lia.
      rewrite Rmult_plus_distr_r, <- bpow_plus. replace (prec - 1 + - prec)%Z with (-1)%Z by lia.
      change (bpow radix2 (-1)) with (/ 2). fold u. lra. }
  assert (Hfu : generic_format radix2 fexp u) by (apply (format_pow prec emax Hprec Hp2); lia).
  assert (Hbig : forall t, B2R b / 2 * (1 + 4 * u) <= t -> / 2 + u <= t * B2R (invb b)).
  { intros t Ht. apply Rle_trans with (B2R b / 2 * (1 + 4 * u) * (ib * (1 - u))).
    - replace (B2R b / 2 * (1 + 4 * u) * (ib * (1 - u)))
        with ((B2R b * ib) * / 2 * ((1 + 4 * u) * (1 - u))) by field.
      rewrite Ebi. nra.
    - apply Rmult_le_compat; nra. }
  assert (H1u : generic_format radix2 fexp 1).
  { change 1 with (bpow radix2 0). apply (format_pow prec emax Hprec Hp2). lia. }
  split; apply Rnot_le_lt; intros Hle.
  - specialize (Hbig (- B2R x) ltac:(lra)).
    apply (Hlo (- prec)%Z ltac:(lia)). fold u. unfold FOpsProofs.fma_val. destruct fused.
    + apply round_le_generic; auto with typeclass_instances; [now apply generic_format_opp|lra].
    + apply round_le_generic; auto with typeclass_instances; [now apply generic_format_opp|].
      assert (rnd (B2R x * B2R (invb b)) <= - (/ 2 + u)).
      { apply round_le_generic; auto with typeclass_instances; [now apply generic_format_opp|lra]. }
      lra.
  - specialize (Hbig (B2R x) Hle).
    assert (1 <= fma_val (B2R x) (B2R (invb b)) (/ 2)); [|lra].
    unfold FOpsProofs.fma_val. destruct fused.
    + apply round_ge_generic; auto with typeclass_instances. lra.
    + apply round_ge_generic; auto with typeclass_instances.
      assert (/ 2 + u <= rnd (B2R x * B2R (invb b))).
      { apply round_ge_generic; auto with typeclass_instances. }
      lra.
Qed.

(** With a fused multiply-add an accepted coordinate is exactly inside of the box. *)
Lemma accepted_in_box_fused : fused = true -> forall x b k, comfortable b ->
  disc_single_coord O c false x (invb b) = Ok k -> - (B2R b / 2) <= B2R x < B2R b / 2.
Proof.
  intros Hfu x b k Hc H. destruct (fma_bounds x (invb b) k H) as (Fx & Fi & Hlo & Hhi).
  destruct (inv_val b Hc) as (_ & Ei & _). destruct Hc as (_ & Hl & Hu).
  pose proof (bpow_gt_0 radix2 (10 - emax)) as Hp10. assert (Hb : 0 < B2R b) by lra.
  unfold FOpsProofs.fma_val in Hlo, Hhi. rewrite Hfu in Hlo, Hhi.
  (* b = m * 2^e with 2^(prec-1) <= m < 2^prec *)
  set (g := mag_val radix2 (B2R b) (mag radix2 (B2R b))).
  assert (Hg1 : bpow radix2 (g - 1) <= B2R b).
  { pose proof (bpow_mag_le radix2 (B2R b)) as G. rewrite Rabs_pos_eq in G by lra. apply G. lra. }
  assert (Hg2 : B2R b < bpow radix2 g).
  { pose proof (bpow_mag_gt radix2 (B2R b)) as G. rewrite Rabs_pos_eq in G by lra. exact G. }
  assert (Hg3 : (11 - emax <= g)%Z).
  { assert (bpow radix2 (10 - emax) < bpow radix2 g) by lra. apply lt_bpow in H0. lia. }
  assert (Hg4 : (g <= emax - 1)%Z).
  { assert (bpow radix2 (g - 1) <= bpow radix2 (emax - 2)) by lra. apply le_bpow in H0. lia. }
  set (e := (g - prec)%Z).
  set (m := Ztrunc (scaled_mantissa radix2 fexp (B2R b))).
  assert (Ee : cexp radix2 fexp (B2R b) = e).
  { unfold cexp. change (fexp (mag radix2 (B2R b))) with (Z.max (g - prec) (3 - emax - prec)). unfold e. lia. }
  assert (Eb : B2R b = IZR m * bpow radix2 e).
  { rewrite <- Ee. exact (generic_format_B2R prec emax b). }
  assert (He0 : 0 < bpow radix2 e) by apply bpow_gt_0.
  assert (HP : bpow radix2 g = bpow radix2 prec * bpow radix2 e).
  { rewrite <- bpow_plus. f_equal. unfold e. lia. }
  set (P := bpow radix2 prec) in *.
  assert (HP256 : 256 <= P) by apply bpow_prec8.
  assert (Hm1 : IZR m + 1 <= P).
  { assert (Hlt : IZR m < P) by nra. unfold P in *. rewrite <- IZR_Zpower in * by lia.
    apply lt_IZR in Hlt. rewrite <- plus_IZR. apply IZR_le. lia. }
  assert (Hm0 : 0 < IZR m) by nra.
  assert (HP2 : bpow radix2 (g - 1) = P / 2 * bpow radix2 e).
  { replace (g - 1)%Z with (g + -1)%Z by lia. rewrite bpow_plus, HP. change (bpow radix2 (-1)) with (/ 2). field. }
  assert (Hm2 : P / 2 <= IZR m) by nra.
  (* the inverse is at least 1/b - 2^(-2p-e) *)
  set (ee := bpow radix2 (- e)).
  assert (Eee : bpow radix2 e * ee = 1) by (unfold ee; rewrite <- bpow_plus; replace (e + - e)%Z with 0%Z by lia; reflexivity).
  set (Q := bpow radix2 (- prec)).
  assert (EQ : P * Q = 1) by (unfold P, Q; rewrite <- bpow_plus; replace (prec + - prec)%Z with 0%Z by lia; reflexivity).
  assert (Hee : 0 < ee) by apply bpow_gt_0. assert (HQ : 0 < Q) by apply bpow_gt_0.
  assert (Eib : 1 / B2R b = / IZR m * ee).
  { rewrite Eb. apply Rmult_eq_reg_r with (IZR m * bpow radix2 e); [|nra]. 
    replace (/ IZR m * ee * (IZR m * bpow radix2 e)) with ((/ IZR m * IZR m) * (bpow radix2 e * ee)) by ring.
    rewrite Eee. field. split; apply Rgt_not_eq; [exact Hm0|exact He0] || (split; apply Rgt_not_eq; [exact He0|exact Hm0]). }
  assert (Hinv : / IZR m * ee - Q * Q * ee <= B2R (invb b)).
  { rewrite Ei, Eib.
    assert (Hmi : / IZR m * IZR m = 1) by (field; lra).
    assert (Hmi0 : 0 < / IZR m) by (apply Rinv_0_lt_compat; lra).
    destruct (Rle_lt_or_eq_dec _ _ Hm2) as [Hgt|Heq].
    - (* not a power of two *)
      assert (Hg5 : (g <= emax - 2)%Z).
      { assert (Hlt : bpow radix2 (g - 1) < bpow radix2 (emax - 2)) by nra. apply lt_bpow in Hlt. lia. }
      assert (Hmag : mag_val radix2 (/ IZR m * ee) (mag radix2 (/ IZR m * ee)) = (1 - prec - e)%Z).
      { apply mag_unique_pos. split.
        - replace (1 - prec - e - 1)%Z with (- prec + - e)%Z by lia. rewrite bpow_plus. fold Q ee.
          apply Rmult_le_compat_r; [lra|]. apply Rmult_le_reg_r with (IZR m); nra.
        - replace (1 - prec - e)%Z with (1 + - prec + - e)%Z by lia. rewrite !bpow_plus. fold Q ee.
          change (bpow radix2 1) with 2. apply Rmult_lt_compat_r; [lra|]. apply Rmult_lt_reg_r with (IZR m); nra. }
      pose proof (error_le_half_ulp radix2 fexp (fun x => negb (Z.even x)) (/ IZR m * ee)) as Er.
      assert (Hul : ulp radix2 fexp (/ IZR m * ee) = 2 * (Q * Q * ee)).
      { assert (Hpos : 0 < / IZR m * ee) by (apply Rmult_lt_0_compat; lra).
        rewrite ulp_neq_0 by lra. unfold cexp.
        replace (fexp (mag radix2 (/ IZR m * ee))) with (1 + (- prec + (- prec + - e)))%Z.
        - rewrite !bpow_plus. change (bpow radix2 1) with 2. fold Q ee. ring.
        - change (fexp (mag radix2 (/ IZR m * ee))) with
            (Z.max (mag_val radix2 (/ IZR m * ee) (mag radix2 (/ IZR m * ee)) - prec) (3 - emax - prec)).
          rewrite Hmag. unfold e. lia. }
      rewrite Hul in Er. apply Rabs_def2b in Er. lra.
    - rewrite round_generic; auto with typeclass_instances; [nra|].
      assert (E : / IZR m = 2 * Q). { rewrite <- Heq. apply Rmult_eq_reg_r with P; [|lra]. field_simplify; [|lra]. nra. }
      rewrite E. unfold Q, ee. change 2 with (bpow radix2 1). rewrite <- !bpow_plus.
      apply (format_pow prec emax Hprec Hp2). unfold e. lia. }
  assert (Hmi : / IZR m * IZR m = 1) by (field; lra).
  assert (Hmi0 : 0 < / IZR m) by (apply Rinv_0_lt_compat; lra).
  split; apply Rnot_lt_le || apply Rnot_le_lt; intros Hlt.
  - (* x < -b/2 *)
    assert (Hh : generic_format radix2 fexp (B2R b / 2)).
    { unfold Rdiv. change (/ 2) with (bpow radix2 (-1)).
      apply (mult_bpow_exact_FLT (3 - emax - prec) prec Hprec _ (-1)); [apply (generic_format_B2R prec emax b)|].
      right. fold g. lia. }
    assert (Hs : succ radix2 fexp (B2R b / 2) <= - B2R x).
    { apply succ_le_lt; auto with typeclass_instances; [|lra].
      apply generic_format_opp. apply generic_format_B2R. }
    rewrite succ_eq_pos in Hs by lra.
    assert (Hul : ulp radix2 fexp (B2R b / 2) = bpow radix2 e / 2).
    { rewrite ulp_neq_0 by lra. unfold cexp.
      assert (Hmag : mag_val radix2 (B2R b / 2) (mag radix2 (B2R b / 2)) = (g - 1)%Z).
      { unfold Rdiv. change (/ 2) with (bpow radix2 (-1)). rewrite mag_mult_bpow by lra. fold g. lia. }
      change (fexp (mag radix2 (B2R b / 2))) with
         (Z.max (mag_val radix2 (B2R b / 2) (mag radix2 (B2R b / 2)) - prec) (3 - emax - prec)).
      rewrite Hmag. replace (Z.max (g - 1 - prec) (3 - emax - prec)) with (e + -1)%Z by (unfold e; lia).
      rewrite bpow_plus. reflexivity. }
    rewrite Hul, Eb in Hs.
    assert (Hprod : (IZR m + 1) / 2 * (/ IZR m - Q * Q) <= - B2R x * B2R (invb b)).
    { apply Rle_trans with ((IZR m + 1) / 2 * bpow radix2 e * (/ IZR m * ee - Q * Q * ee)).
      - replace ((IZR m + 1) / 2 * bpow radix2 e * (/ IZR m * ee - Q * Q * ee))
          with ((IZR m + 1) / 2 * (/ IZR m - Q * Q) * (bpow radix2 e * ee)) by ring. rewrite Eee. lra.
      - assert (HmQ : 0 <= / IZR m - Q * Q). { assert (Q <= / IZR m) by (apply Rmult_le_reg_r with (IZR m); nra). nra. }
        apply Rmult_le_compat; nra. }
    apply (Hlo (- prec + (- prec + -1))%Z ltac:(lia)).
    apply round_le_generic; auto with typeclass_instances.
    + apply generic_format_opp. apply (format_pow prec emax Hprec Hp2). lia.
    + rewrite !bpow_plus. fold Q. change (bpow radix2 (-1)) with (/ 2).
      assert (Hkey : Q * Q <= / IZR m - (IZR m + 1) * (Q * Q)).
      { apply Rmult_le_reg_r with (IZR m); [lra|].
        replace ((/ IZR m - (IZR m + 1) * (Q * Q)) * IZR m)
          with (/ IZR m * IZR m - (IZR m + 1) * IZR m * (Q * Q)) by ring. rewrite Hmi.
        assert (Hq1 : (IZR m + 1) * Q <= 1) by nra.
        assert (0 <= (IZR m + 1) * Q) by nra.
        assert (((IZR m + 1) * Q) * ((IZR m + 1) * Q) <= 1) by nra. nra. }
      nra.
  - (* x >= b/2 *)
    assert (Hx : B2R b / 2 <= B2R x) by lra.
    assert (1 <= rnd (B2R x * B2R (invb b) + / 2)); [|lra].
    apply round_N_ge_midp; auto with typeclass_instances.
    { change 1 with (bpow radix2 0). apply (format_pow prec emax Hprec Hp2). lia. }
    assert (Hpred : pred radix2 fexp 1 = 1 - Q).
    { change 1 with (bpow radix2 0) at 1. rewrite pred_bpow; auto with typeclass_instances.
      replace (fexp 0) with (- prec)%Z; [reflexivity|].
      change (fexp 0) with (Z.max (0 - prec) (3 - emax - prec)). lia. }
    rewrite Hpred.
    assert (Hprod : / 2 - IZR m / 2 * (Q * Q) <= B2R x * B2R (invb b)).
    { apply Rle_trans with (IZR m / 2 * bpow radix2 e * (/ IZR m * ee - Q * Q * ee)).
      - replace (IZR m / 2 * bpow radix2 e * (/ IZR m * ee - Q * Q * ee))
          with ((/ IZR m * IZR m / 2 - IZR m / 2 * (Q * Q)) * (bpow radix2 e * ee)) by (unfold Rdiv; ring).
        rewrite Eee, Hmi. lra.
      - assert (HmQ : 0 <= / IZR m - Q * Q). { assert (Q <= / IZR m) by (apply Rmult_le_reg_r with (IZR m); nra). nra. }
        apply Rmult_le_compat; nra. }
    assert (IZR m * Q < 1) by nra. nra.
Qed.

End IEEE.
