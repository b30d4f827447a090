(** Collision detection in floating point: an extent spans at most two cells of its level. *)
From Coq Require Import List Arith ZArith NArith Bool Lia Permutation Sorted Reals Lra.
From Flocq Require Import Core BinarySingleNaN.
From Verif Require Import Base Config Morton MortonProofs CodesProofs Build TreeSpec FOps FOpsProofs Disc DiscProofs BoxAccept NodeProps Tree TreeInv TreeProofs NodeGeom Kernels Coll CollSearch CollProofs CollCover CollR CollProps.
Import ListNotations.
Local Open Scope R_scope.

Section IEEE.

Variables prec emax : Z.
Context (Hprec : Prec_gt_0 prec).
Context (Hemax : Prec_lt_emax prec emax).
Variable fused : bool.
Hypothesis Hp8 : (8 <= prec)%Z.
Hypothesis Hrange : (prec + 4 <= emax)%Z.
Variable E : env.
Notation c := (e_cfg E).
Notation cb := (cbitsc c).
Hypothesis Hcb : (Z.of_N cb < emax)%Z.

Notation bf := (binary_float prec emax).
Notation O := (Bops prec emax Hprec Hemax fused).
Notation fexp := (SpecFloat.fexp prec emax).
Notation rnd := (round radix2 fexp ZnearestE).
Notation pw := (bpow radix2 (Z.of_N cb)).
Notation u := (bpow radix2 (- prec)).
Notation scaled := (scaled prec emax Hprec Hemax fused c).
Notation fma_val := (fma_val prec emax fused).
Notation halfF := (fdiv O (fofZ O 1%Z) (fofZ O 2%Z)).
Notation mhalfF := (fdiv O (fopp O (fofZ O 1%Z)) (fofZ O 2%Z)).

Local Instance valid_fexp'' : Valid_exp fexp.
Proof. exact (@FLT_exp_valid (3 - emax - prec) prec Hprec). Qed.

Let Hp2 : (2 <= prec)%Z. Proof. lia. Qed.

Lemma abs_err : forall y M, Rabs y <= M -> bpow radix2 (2 - emax) <= M -> Rabs (rnd y - y) <= u * M.
Proof.
  intros y M HM Hm. destruct (Rle_lt_dec (bpow radix2 (2 - emax)) (Rabs y)) as [H|H].
  - eapply Rle_trans; [apply (rel_err prec emax Hprec c); exact H|]. apply Rmult_le_compat_l; [apply bpow_ge_0|exact HM].
  - eapply Rle_trans; [apply error_le_half_ulp; exact _|].
    change fexp with (FLT_exp (3 - emax - prec) prec). rewrite ulp_FLT_small; [|exact Hprec|].
    + replace (3 - emax - prec)%Z with (1 + (- prec + (2 - emax)))%Z by lia. rewrite !bpow_plus.
      change (bpow radix2 1) with 2. pose proof (bpow_gt_0 radix2 (- prec)). nra.
    + eapply Rlt_trans; [exact H|]. apply bpow_lt. lia.
Qed.

Lemma minus_fin : forall x y : bf, is_finite (fsub O x y) = true ->
  is_finite x = true /\ is_finite y = true /\ B2R (fsub O x y) = rnd (B2R x - B2R y).
Proof.
  intros x y. cbn [fsub Bops]. intros H.
  assert (Hx : is_finite x = true) by (destruct x as [| | |], y as [|sy| |]; try reflexivity; try discriminate;
    simpl in H; destruct (Bool.eqb _ _) in H; discriminate).
  assert (Hy : is_finite y = true) by (destruct x as [| | |], y as [|sy| |]; try reflexivity; try discriminate;
    simpl in H; destruct (Bool.eqb _ _) in H; discriminate).
  split; [exact Hx|]. split; [exact Hy|].
  pose proof (Bminus_correct prec emax _ _ mode_NE x y Hx Hy) as C.
  destruct (Rlt_bool _ _) in C; [tauto|].
  destruct C as [C _]. apply (overflow_not_finite prec emax) in C. congruence.
Qed.

Lemma mhalf_exact : B2R mhalfF = - / 2 /\ is_finite mhalfF = true.
Proof.
  destruct (ofZ_exact prec emax Hprec Hemax fused Hp2 1) as [V1 F1].
  { change (Z.abs 1) with (2 ^ 0)%Z. apply Z.pow_lt_mono_r; lia. }
  destruct (ofZ_exact prec emax Hprec Hemax fused Hp2 2) as [V2 F2].
  { change (Z.abs 2) with (2 ^ 1)%Z. apply Z.pow_lt_mono_r; lia. }
  assert (Vm : B2R (fopp O (fofZ O 1%Z)) = -1) by (cbn [fopp Bops]; rewrite B2R_Bopp; rewrite V1; lra).
  assert (Fm : is_finite (fopp O (fofZ O 1%Z)) = true) by (cbn [fopp Bops]; rewrite is_finite_Bopp; exact F1).
  assert (Er : rnd (-1 / 2) = - / 2).
  { replace (-1 / 2) with (- / 2) by lra. apply round_generic; [exact _|]. apply generic_format_opp.
    change (/ 2) with (bpow radix2 (-1)). apply (format_pow prec emax Hprec Hp2). lia. }
  destruct (div_finite prec emax Hprec Hemax (fopp O (fofZ O 1%Z)) (fofZ O 2%Z) Fm) as [A B].
  - rewrite V2. lra.
  - rewrite Vm, V2, Er. rewrite Rabs_Ropp, Rabs_pos_eq by lra.
    assert (bpow radix2 0 < bpow radix2 emax) by (apply bpow_lt; lia). change (bpow radix2 0) with 1 in H. lra.
  - rewrite Vm, V2, Er in B. split; [exact B|exact A].
Qed.

(** Sizes that can be halved exactly. *)
Definition normal_size (s : bf) : Prop := is_finite s = true /\ bpow radix2 (3 - emax) <= B2R s.

Lemma format_div : forall (x : bf) k, (0 <= k)%Z -> bpow radix2 (2 - emax + k) <= B2R x -> generic_format radix2 fexp (B2R x * bpow radix2 (- k)).
Proof.
  intros x k Hk Hx. apply (mult_bpow_exact_FLT (3 - emax - prec) prec Hprec); [apply generic_format_B2R|].
  right. assert (2 - emax + k + 1 <= mag radix2 (B2R x))%Z.
  { apply mag_ge_bpow. replace (2 - emax + k + 1 - 1)%Z with (2 - emax + k)%Z by lia. rewrite Rabs_pos_eq; [exact Hx|].
    pose proof (bpow_gt_0 radix2 (2 - emax + k)). lra. }
  lia.
Qed.

Lemma halve : forall s, normal_size s -> is_finite (fmul O s halfF) = true /\ B2R (fmul O s halfF) = B2R s / 2.
Proof.
  intros s [Fs Hs]. destruct (half_exact prec emax Hprec Hemax fused Hp2) as [Hh1 Hh2]. cbv zeta in Hh1, Hh2.
  pose proof (bpow_gt_0 radix2 (3 - emax)).
  assert (Er : rnd (B2R s * B2R halfF) = B2R s / 2).
  { rewrite Hh1. change (/ 2) with (bpow radix2 (- (1))). rewrite round_generic; [reflexivity|exact _|].
    apply format_div; [lia|]. replace (2 - emax + 1)%Z with (3 - emax)%Z by lia. exact Hs. }
  assert (F : is_finite (fmul O s halfF) = true).
  { apply (mult_finite prec emax Hprec Hemax); auto. rewrite Er. pose proof (abs_B2R_lt_emax prec emax s) as A.
    rewrite Rabs_pos_eq in A by lra. rewrite Rabs_pos_eq by lra. lra. }
  split; [exact F|]. destruct (mult_fin prec emax Hprec Hemax _ _ F) as (_ & _ & V). cbn [fmul Bops]. now rewrite V, Er.
Qed.

(** The extents of the overlap test are those of the vertices. *)
Lemma extent_eq : forall s x, normal_size s ->
  is_finite (fsub O x (fmul O s halfF)) = true -> is_finite (fadd O x (fmul O s halfF)) = true ->
  is_finite (ffma O s mhalfF x) = true /\ B2R (ffma O s mhalfF x) = rnd (B2R x - B2R s / 2) /\
  is_finite (ffma O s halfF x) = true /\ B2R (ffma O s halfF x) = rnd (B2R x + B2R s / 2) /\
  B2R (fsub O x (fmul O s halfF)) = rnd (B2R x - B2R s / 2) /\ B2R (fadd O x (fmul O s halfF)) = rnd (B2R x + B2R s / 2).
Proof.
  intros s x Hs F1 F2. destruct (halve s Hs) as [Fh Vh].
  destruct (minus_fin _ _ F1) as (Fx & _ & V1). destruct (plus_fin prec emax Hprec Hemax _ _ F2) as (_ & _ & V2).
  change (B2R (fadd O x (fmul O s halfF)) = rnd (B2R x + B2R (fmul O s halfF))) in V2. rewrite Vh in V1, V2.
  destruct (half_exact prec emax Hprec Hemax fused Hp2) as [Hh1 Hh2]. cbv zeta in Hh1, Hh2.
  destruct mhalf_exact as [Hm1 Hm2]. destruct Hs as [Fs Hs]. pose proof (bpow_gt_0 radix2 (3 - emax)) as Hb.
  assert (Hr : rnd (B2R s * / 2) = B2R s / 2).
  { change (/ 2) with (bpow radix2 (- (1))) at 1. rewrite round_generic; [reflexivity|exact _|].
    apply format_div; [lia|]. replace (2 - emax + 1)%Z with (3 - emax)%Z by lia. exact Hs. }
  assert (Hr' : rnd (B2R s * - / 2) = - (B2R s / 2)) by (rewrite Ropp_mult_distr_r_reverse, round_NE_opp, Hr; reflexivity).
  assert (Hv1 : fma_val (B2R s) (B2R mhalfF) (B2R x) = rnd (B2R x - B2R s / 2)).
  { unfold FOpsProofs.fma_val. rewrite Hm1. destruct fused; [f_equal; lra|]. rewrite Hr'. f_equal. lra. }
  assert (Hv2 : fma_val (B2R s) (B2R halfF) (B2R x) = rnd (B2R x + B2R s / 2)).
  { unfold FOpsProofs.fma_val. rewrite Hh1. destruct fused; [f_equal; lra|]. rewrite Hr. f_equal. lra. }
  assert (Hsm : Rabs (B2R s / 2) < bpow radix2 emax).
  { pose proof (abs_B2R_lt_emax prec emax s) as A. rewrite Rabs_pos_eq in A by lra. rewrite Rabs_pos_eq by lra. lra. }
  assert (G1 : is_finite (ffma O s mhalfF x) = true).
  { apply (fma_finite prec emax Hprec Hemax fused); auto.
    - rewrite Hm1, Hr', Rabs_Ropp. exact Hsm.
    - rewrite Hv1, <- V1. apply abs_B2R_lt_emax. }
  assert (G2 : is_finite (ffma O s halfF x) = true).
  { apply (fma_finite prec emax Hprec Hemax fused); auto.
    - rewrite Hh1, Hr. exact Hsm.
    - rewrite Hv2, <- V2. apply abs_B2R_lt_emax. }
  destruct (fma_fin prec emax Hprec Hemax fused _ _ _ G1) as (_ & _ & _ & W1).
  destruct (fma_fin prec emax Hprec Hemax fused _ _ _ G2) as (_ & _ & _ & W2).
  rewrite Hv1 in W1. rewrite Hv2 in W2. auto 10.
Qed.

(** ** Levels *)

(** The halvings of the box down to the smallest cells are exact. *)
Definition deep (b : bf) : Prop := is_finite b = true /\ bpow radix2 (2 - emax + Z.of_N cb) <= B2R b.

Lemma level_B : forall b s, deep b -> is_finite s = true ->
  forall fuel k cur, (Z.of_nat fuel + k <= Z.of_N cb)%Z -> (0 <= k)%Z -> is_finite cur = true -> B2R cur = B2R b * bpow radix2 (- k) ->
  forall r, let al := level_loop O fuel r s cur in
  al = r \/ B2R s < B2R b * bpow radix2 (- (k + Z.of_N (al - r))).
Proof.
  intros b s [Fb Hb] Fs. induction fuel as [|fuel IH]; intros k cur Hk Hk0 Fc Vc r; cbn [level_loop]; [now left|].
  destruct (half_exact prec emax Hprec Hemax fused Hp2) as [Hh1 Hh2]. cbv zeta in Hh1, Hh2.
  assert (Er : rnd (B2R cur * B2R halfF) = B2R b * bpow radix2 (- (k + 1))).
  { rewrite Hh1, Vc. change (/ 2) with (bpow radix2 (-1)). rewrite Rmult_assoc, <- bpow_plus.
    replace (- k + -1)%Z with (- (k + 1))%Z by lia. apply round_generic; [exact _|]. apply format_div; [lia|].
    eapply Rle_trans; [|exact Hb]. apply bpow_le. lia. }
  assert (Hb0 : 0 < B2R b) by (pose proof (bpow_gt_0 radix2 (2 - emax + Z.of_N cb)); lra).
  assert (F : is_finite (fmul O cur halfF) = true).
  { apply (mult_finite prec emax Hprec Hemax); auto. rewrite Er. pose proof (abs_B2R_lt_emax prec emax b) as A.
    rewrite Rabs_pos_eq in A by lra.
    assert (bpow radix2 (- (k + 1)) <= 1) by (change 1 with (bpow radix2 0); apply bpow_le; lia).
    pose proof (bpow_gt_0 radix2 (- (k + 1))). rewrite Rabs_pos_eq by nra. nra. }
  destruct (mult_fin prec emax Hprec Hemax _ _ F) as (_ & _ & V).
  change (B2R (fmul O cur halfF) = rnd (B2R cur * B2R halfF)) in V. rewrite Er in V.
  destruct (fle O (fmul O cur halfF) s) eqn:B; [now left|]. right.
  assert (Hlt : B2R s < B2R b * bpow radix2 (- (k + 1))).
  { rewrite <- V. apply Rnot_le_lt. intros Hle. apply (leb_le prec emax) in Hle; auto. cbn [fle Bops] in B. congruence. }
  pose proof (level_le O fuel (r + 1)%N s (fmul O cur halfF)) as _.
  destruct (IH (k + 1)%Z (fmul O cur halfF) ltac:(lia) ltac:(lia) F V (r + 1)%N) as [Heq|Hlt'].
  - rewrite Heq. replace (Z.of_N (r + 1 - r)) with 1%Z by lia. exact Hlt.
  - assert (Hge : (r + 1 <= level_loop O fuel (r + 1) s (fmul O cur halfF))%N).
    { clear. generalize (fmul O cur halfF) as x, (r + 1)%N as q. induction fuel as [|fuel IH]; intros x q; cbn [level_loop]; [lia|].
      destruct (fle O _ s); [lia|]. specialize (IH (fmul O x halfF) (q + 1)%N). lia. }
    replace (k + Z.of_N (level_loop O fuel (r + 1) s (fmul O cur halfF) - r))%Z with
      (k + 1 + Z.of_N (level_loop O fuel (r + 1) s (fmul O cur halfF) - (r + 1)))%Z by lia. exact Hlt'.
Qed.

Lemma size_to_level_B : forall s b, deep b -> is_finite s = true -> let al := size_to_level O E s b in
  al = 0%N \/ B2R s < B2R b * bpow radix2 (- Z.of_N al).
Proof.
  intros s b Hb Fs. unfold size_to_level.
  destruct (level_B b s Hb Fs (N.to_nat cb) 0 b) with (r := 0%N) as [->|H]; [lia|lia|apply Hb|cbn; lra|now left|right].
  rewrite N.sub_0_r in H. exact H.
Qed.

(** ** The span of an extent *)

(** The size is not just below a power-of-two fraction of the box. *)
Definition roomy (b s : bf) : Prop := forall l, (1 <= l <= cb)%N ->
  B2R s < B2R b * bpow radix2 (- Z.of_N l) -> B2R s + 8 * u * B2R b <= B2R b * bpow radix2 (- Z.of_N l).

Lemma fma_err : forall a v, Rabs (a * v) <= 4 / 5 -> Rabs (fma_val a v (/ 2) - (a * v + / 2)) <= u * (43 / 20).
Proof.
  intros a v H. pose proof (bpow_mprec8 prec Hp8 c) as Hu. pose proof H as H'. apply Rabs_def2b in H'.
  assert (Hsm : bpow radix2 (2 - emax) <= / 4). { change (/ 4) with (bpow radix2 (-2)). apply bpow_le. lia. }
  unfold FOpsProofs.fma_val. destruct fused.
  - eapply Rle_trans; [apply (abs_err _ (13 / 10)); [apply Rabs_le; lra|lra]|]. nra.
  - pose proof (abs_err (a * v) (4 / 5) H ltac:(lra)) as E1. apply Rabs_def2b in E1.
    assert (Hb : Rabs (rnd (a * v) + / 2) <= 27 / 20) by (apply Rabs_le; nra).
    pose proof (abs_err _ _ Hb ltac:(lra)) as E2. apply Rabs_def2b in E2. apply Rabs_le. lra.
Qed.

Lemma scaled_exact : forall x inv, is_finite (scaled x inv) = true ->
  B2R (scaled x inv) = fma_val (B2R x) (B2R inv) (/ 2) * pw.
Proof.
  intros x inv H. destruct (scaled_fin prec emax Hprec Hemax fused Hp2 c Hcb x inv H) as (_ & _ & ->).
  apply round_generic; [exact _|]. apply (mult_bpow_exact_FLT (3 - emax - prec) prec Hprec); [|left; lia].
  unfold FOpsProofs.fma_val. destruct fused; apply generic_format_round; exact _.
Qed.

Lemma clamp_lip : forall v v', v <= v' -> DiscProofs.clampR prec emax Hprec Hemax fused c v' - DiscProofs.clampR prec emax Hprec Hemax fused c v <= v' - v.
Proof.
  intros v v' H. unfold DiscProofs.clampR. destruct (pred_fac prec emax Hprec Hemax fused Hp2 c Hcb) as [_ [P0 _]].
  set (p := B2R (fpred O (fofZ O (Z.of_N (2 ^ cb))))) in *. clearbody p.
  unfold Rmin, Rmax. repeat destruct (Rle_dec _ _); lra.
Qed.

Lemma span_B : forall x b s r k, comfortable prec emax b -> deep b -> normal_size s -> roomy b s ->
  disc_single_coord O c false x (invb prec emax Hprec Hemax fused b) = Ok k ->
  disc_extent O E x s (invb prec emax Hprec Hemax fused b) r ->
  let sh := (cb - size_to_level O E s b)%N in (N.shiftr (snd r) sh <= N.shiftr (fst r) sh + 1)%N.
Proof.
  intros x b s [lo hi] k Hcomf Hdeep Hsn Hroom Hacc (H1 & H2) sh. cbn [fst snd] in *.
  pose proof (size_to_level_le O E s b) as Hal.
  assert (Llo : (lo < 2 ^ cb)%N) by exact (disc_lt O c true _ _ _ H1).
  assert (Lhi : (hi < 2 ^ cb)%N) by exact (disc_lt O c true _ _ _ H2).
  destruct (size_to_level_B s b Hdeep (proj1 Hsn)) as [H0|Hlt].
  { unfold sh. rewrite H0, N.sub_0_r, !N.shiftr_div_pow2. rewrite !N.div_small by assumption. lia. }
  destruct (N.eq_dec (size_to_level O E s b) 0) as [H0|Hn0].
  { unfold sh. rewrite H0, N.sub_0_r, !N.shiftr_div_pow2. rewrite !N.div_small by assumption. lia. }
  set (al := size_to_level O E s b) in *.
  pose proof (Hroom al ltac:(lia) Hlt) as Hr8.
  pose proof (accepted_near_box prec emax Hprec Hemax fused Hp8 Hrange c Hcb x b k Hcomf Hacc) as Hx.
  destruct (inv_val prec emax Hprec Hemax fused Hp8 Hrange c b Hcomf) as (Fi & _ & Hi).
  set (inv := invb prec emax Hprec Hemax fused b) in *.
  rewrite (disc_clamp_eq prec emax Hprec Hemax fused Hp2 c Hcb) in H1, H2.
  set (a := fsub O x (fmul O s halfF)) in *. set (z := fadd O x (fmul O s halfF)) in *.
  destruct (is_finite (scaled a inv)) eqn:Fa; [|discriminate]. destruct (is_finite (scaled z inv)) eqn:Fz; [|discriminate].
  injection H1 as H1. injection H2 as H2.
  destruct (scaled_fin prec emax Hprec Hemax fused Hp2 c Hcb a inv Fa) as (Fa' & _ & _).
  destruct (scaled_fin prec emax Hprec Hemax fused Hp2 c Hcb z inv Fz) as (Fz' & _ & _).
  destruct (extent_eq s x Hsn Fa' Fz') as (_ & _ & _ & _ & Va & Vz). fold a in Va. fold z in Vz.
  rewrite scaled_exact in H1 by exact Fa. rewrite scaled_exact in H2 by exact Fz.
  destruct Hcomf as (_ & Hbl & _). pose proof (bpow_gt_0 radix2 (10 - emax)) as Hp10.
  set (B := B2R b) in *. set (S := B2R s) in *. set (X := B2R x) in *. set (I := B2R inv) in *.
  assert (HB : 0 < B) by lra.
  pose proof (bpow_mprec8 prec Hp8 c) as Hu8.
  assert (E4 : bpow radix2 (2 - prec) = 4 * u).
  { replace (2 - prec)%Z with (2 + - prec)%Z by lia. rewrite bpow_plus. reflexivity. }
  rewrite E4 in Hx. pose proof abs_err as AE. pose proof fma_err as FE. set (uu := u) in *. clearbody uu.
  assert (HS0 : 0 < S). { destruct Hsn as [_ Hsn]. fold S in Hsn. pose proof (bpow_gt_0 radix2 (3 - emax)). lra. }
  assert (Hal2 : B * bpow radix2 (- Z.of_N al) <= B / 2).
  { apply Rmult_le_compat_l; [lra|]. change (/ 2) with (bpow radix2 (-1)). apply bpow_le. lia. }
  assert (HS2 : S < B / 2) by lra.
  assert (Hsmall : bpow radix2 (2 - emax) <= B / 100).
  { assert (bpow radix2 (2 - emax) * 256 = bpow radix2 (10 - emax)).
    { change 256 with (bpow radix2 8). rewrite <- bpow_plus. f_equal. lia. }
    pose proof (bpow_gt_0 radix2 (2 - emax)). lra. }
  assert (HX : - (26 / 50 * B) <= X <= 26 / 50 * B) by nra.
  (* the extents *)
  assert (Ea : Rabs (B2R a - (X - S / 2)) <= uu * (77 / 100 * B)).
  { rewrite Va. apply AE; [apply Rabs_le; lra|lra]. }
  assert (Ez : Rabs (B2R z - (X + S / 2)) <= uu * (77 / 100 * B)).
  { rewrite Vz. apply AE; [apply Rabs_le; lra|lra]. }
  set (A := B2R a) in *. set (Z0 := B2R z) in *. clearbody A Z0.
  apply Rabs_def2b in Ea. apply Rabs_def2b in Ez.
  assert (HuB : 0 < uu * B <= B / 256) by nra.
  assert (HA : - (78 / 100 * B) <= A <= 78 / 100 * B) by lra.
  assert (HZ : - (78 / 100 * B) <= Z0 <= 78 / 100 * B) by lra.
  (* the inverse *)
  set (ib := 1 / B) in *. assert (Hib : B * ib = 1) by (unfold ib; field; lra). assert (Hib0 : 0 < ib) by (apply Rdiv_lt_0_compat; lra).
  apply Rabs_def2b in Hi. assert (HI : ib * (1 - uu) <= I <= ib * (1 + uu)) by lra.
  assert (HBI : 0 <= B * I <= 1 + uu) by nra.
  assert (HAI : Rabs (A * I) <= 4 / 5).
  { apply Rabs_le. assert (0 <= I) by nra. nra. }
  assert (HZI : Rabs (Z0 * I) <= 4 / 5).
  { apply Rabs_le. assert (0 <= I) by nra. nra. }
  pose proof (FE A I HAI) as Fe1. pose proof (FE Z0 I HZI) as Fe2. clear AE FE.
  apply Rabs_def2b in Fe1. apply Rabs_def2b in Fe2.
  assert (HSI : S * I <= S * ib + uu / 2).
  { assert (S * ib <= / 2) by nra. assert (S * I <= S * (ib * (1 + uu))) by (apply Rmult_le_compat_l; lra). nra. }
  assert (HD : fma_val Z0 I (/ 2) - fma_val A I (/ 2) <= S * ib + 8 * uu).
  { assert (HI0 : 0 <= I) by nra. assert ((Z0 - A) * I <= (S + 154 / 100 * (uu * B)) * I) by (apply Rmult_le_compat_r; lra).
    assert (uu * (B * I) <= uu * (1 + uu)) by (apply Rmult_le_compat_l; lra).
    assert (uu * (1 + uu) <= uu * (257 / 256)) by (apply Rmult_le_compat_l; lra). lra. }
  assert (Hpal : S * ib + 8 * uu <= bpow radix2 (- Z.of_N al)).
  { apply Rmult_le_reg_l with B; [exact HB|]. replace (B * (S * ib + 8 * uu)) with (S * (B * ib) + 8 * uu * B) by ring. rewrite Hib. lra. }
  assert (Hmono : fma_val A I (/ 2) <= fma_val Z0 I (/ 2)).
  { apply fma_val_le; [exact Hprec|nra|]. rewrite Va, Vz. apply (rnd_le prec emax Hprec). lra. }
  assert (Hpow : pw = bpow radix2 (Z.of_N al) * bpow radix2 (Z.of_N sh)) by (rewrite <- bpow_plus; f_equal; unfold sh; lia).
  assert (Hinvp : bpow radix2 (- Z.of_N al) * bpow radix2 (Z.of_N al) = 1).
  { rewrite <- bpow_plus. replace (- Z.of_N al + Z.of_N al)%Z with 0%Z by lia. reflexivity. }
  assert (Hps : 0 < bpow radix2 (Z.of_N sh)) by apply bpow_gt_0. assert (Hpa : 0 < bpow radix2 (Z.of_N al)) by apply bpow_gt_0.
  assert (Hpp : 0 < pw) by apply bpow_gt_0.
  assert (HW : fma_val Z0 I (/ 2) * pw - fma_val A I (/ 2) * pw <= bpow radix2 (Z.of_N sh)).
  { rewrite <- Rmult_minus_distr_r. rewrite Hpow, <- Rmult_assoc. rewrite <- (Rmult_1_l (bpow radix2 (Z.of_N sh))) at 2.
    apply Rmult_le_compat_r; [lra|]. rewrite <- Hinvp. apply Rmult_le_compat_r; lra. }
  pose proof (clamp_lip (fma_val A I (/ 2) * pw) (fma_val Z0 I (/ 2) * pw) ltac:(apply Rmult_le_compat_r; lra)) as HCL.
  set (ca := DiscProofs.clampR prec emax Hprec Hemax fused c (fma_val A I (/ 2) * pw)) in *.
  set (cz := DiscProofs.clampR prec emax Hprec Hemax fused c (fma_val Z0 I (/ 2) * pw)) in *.
  destruct (pred_fac prec emax Hprec Hemax fused Hp2 c Hcb) as [_ [P0 _]].
  assert (Ca : 0 <= ca) by (unfold ca, DiscProofs.clampR; apply Rmin_glb; [apply Rmax_r|exact P0]).
  assert (Cz : 0 <= cz) by (unfold cz, DiscProofs.clampR; apply Rmin_glb; [apply Rmax_r|exact P0]).
  assert (HI2 : (hi <= lo + 2 ^ sh)%N).
  { apply N2Z.inj_le. rewrite N2Z.inj_add, ZofN_pow. rewrite <- H1, <- H2. rewrite !Z2N.id by (apply Ztrunc_nonneg; assumption).
    rewrite !Ztrunc_floor by assumption.
    pose proof (Zfloor_lb cz). pose proof (Zfloor_ub ca).
    assert (IZR (Zfloor cz) < IZR (Zfloor ca + 1 + 2 ^ Z.of_N sh)).
    { rewrite !plus_IZR. change (2 ^ Z.of_N sh)%Z with (radix_val radix2 ^ Z.of_N sh)%Z. rewrite IZR_Zpower by lia. lra. }
    apply lt_IZR in H3. lia. }
  rewrite !N.shiftr_div_pow2. assert (P : (2 ^ sh <> 0)%N) by (apply N.pow_nonzero; lia).
  replace (lo / 2 ^ sh + 1)%N with ((lo + 1 * 2 ^ sh) / 2 ^ sh)%N by (apply N.div_add; exact P).
  apply N.div_le_mono; [exact P|]. lia.
Qed.


(** ** Common cells *)

Lemma extent_fin : forall x s inv r, disc_extent O E x s inv r ->
  is_finite (fsub O x (fmul O s halfF)) = true /\ is_finite (fadd O x (fmul O s halfF)) = true /\ is_finite inv = true.
Proof.
  intros x s inv r (H1 & H2). rewrite (disc_clamp_eq prec emax Hprec Hemax fused Hp2 c Hcb) in H1, H2.
  destruct (is_finite (scaled (fsub O x (fmul O s halfF)) inv)) eqn:Fa; [|discriminate].
  destruct (is_finite (scaled (fadd O x (fmul O s halfF)) inv)) eqn:Fz; [|discriminate].
  destruct (scaled_fin prec emax Hprec Hemax fused Hp2 c Hcb _ inv Fa) as (Fa' & Fi & _).
  destruct (scaled_fin prec emax Hprec Hemax fused Hp2 c Hcb _ inv Fz) as (Fz' & _ & _). auto.
Qed.

(** What the overlap test compares, as real numbers. *)
Definition touch (s1 s2 x1 x2 : bf) : Prop :=
  rnd (B2R x2 - B2R s2 / 2) <= rnd (B2R x1 + B2R s1 / 2) /\ rnd (B2R x1 - B2R s1 / 2) <= rnd (B2R x2 + B2R s2 / 2).

Lemma touch_test : forall s1 s2 x1 x2 inv r1 r2, normal_size s1 -> normal_size s2 -> disc_extent O E x1 s1 inv r1 -> disc_extent O E x2 s2 inv r2 ->
  (fle O (ffma O s2 mhalfF x2) (ffma O s1 halfF x1) && fle O (ffma O s1 mhalfF x1) (ffma O s2 halfF x2) = true <-> touch s1 s2 x1 x2).
Proof.
  intros s1 s2 x1 x2 inv r1 r2 N1 N2 D1 D2. destruct (extent_fin _ _ _ _ D1) as (A1 & A2 & _). destruct (extent_fin _ _ _ _ D2) as (B1 & B2 & _).
  destruct (extent_eq s1 x1 N1 A1 A2) as (F1 & V1 & F1' & V1' & _). destruct (extent_eq s2 x2 N2 B1 B2) as (F2 & V2 & F2' & V2' & _).
  rewrite andb_true_iff. cbn [fle Bops]. unfold touch. rewrite <- V1, <- V1', <- V2, <- V2'.
  rewrite !(leb_le prec emax) by assumption. reflexivity.
Qed.

Lemma overlap_touch : forall s1 s2 inv x1 x2 rs1 rs2, normal_size s1 -> normal_size s2 ->
  Forall2 (fun x r => disc_extent O E x s1 inv r) x1 rs1 -> Forall2 (fun x r => disc_extent O E x s2 inv r) x2 rs2 -> length x1 = length x2 ->
  (overlap O (extent O s1 x1) (extent O s2 x2) = true <-> Forall2 (touch s1 s2) x1 x2).
Proof.
  intros s1 s2 inv x1 x2 rs1 rs2 N1 N2 D1. revert x2 rs2. induction D1 as [|a r x1 rs1 Ha D1 IH]; intros x2 rs2 D2 HL.
  - destruct x2; [|discriminate]. split; [constructor|reflexivity].
  - inversion D2 as [|b r' x2' rs2' Hb D2' E1 E2]; subst; [discriminate|]. cbn in HL. injection HL as HL.
    cbn [extent map combine overlap forallb]. rewrite andb_true_iff.
    change (forallb (fun '(p0, p1) => let '(min1, max1) := p0 in let '(min2, max2) := p1 in fle O min2 max1 && fle O min1 max2) (combine (extent O s1 x1) (extent O s2 x2')) = true) with (overlap O (extent O s1 x1) (extent O s2 x2') = true).
    rewrite (IH x2' rs2' D2' HL), (touch_test s1 s2 a b inv r r' N1 N2 Ha Hb). split.
    + intros [H1 H2]. now constructor.
    + intros H. inversion H; subst. auto.
Qed.

Lemma inv_pos : forall b, comfortable prec emax b -> flt O (fofZ O 0%Z) (invb prec emax Hprec Hemax fused b) = true.
Proof.
  intros b Hb. destruct (inv_val prec emax Hprec Hemax fused Hp8 Hrange c b Hb) as (Fi & _ & Hi). apply Rabs_def2b in Hi.
  destruct Hb as (_ & Hl & _). pose proof (bpow_gt_0 radix2 (10 - emax)). assert (0 < 1 / B2R b) by (apply Rdiv_lt_0_compat; lra).
  pose proof (bpow_mprec8 prec Hp8 c). cbn [flt Bops]. apply (ltb_lt prec emax); [reflexivity|exact Fi|].
  change (B2R (fofZ O 0%Z)) with 0. nra.
Qed.

Lemma common_cell : forall s1 s2 b x1 x2 rs1 rs2, comfortable prec emax b -> normal_size s1 -> normal_size s2 ->
  Forall2 (fun x r => disc_extent O E x s1 (invb prec emax Hprec Hemax fused b) r) x1 rs1 -> Forall2 (fun x r => disc_extent O E x s2 (invb prec emax Hprec Hemax fused b) r) x2 rs2 ->
  Forall2 (touch s1 s2) x1 x2 ->
  exists dc, Forall2 (fun k r => (fst r <= k <= snd r)%N) dc rs1 /\ Forall2 (fun k r => (fst r <= k <= snd r)%N) dc rs2.
Proof.
  intros s1 s2 b x1 x2 rs1 rs2 Hb N1 N2 D1. pose proof (inv_pos b Hb) as Hip. set (inv := invb prec emax Hprec Hemax fused b) in *.
  revert x2 rs2. induction D1 as [|a r x1 rs1 Ha D1 IH]; intros x2 rs2 D2 HT; inversion HT as [|? z ? x2' T1 T2]; subst.
  - inversion D2; subst. exists []. split; constructor.
  - inversion D2 as [|? r' ? rs2' Hz D2' E1 E2]; subst. destruct (IH x2' rs2' D2' T2) as (dc & C1 & C2).
    destruct (extent_fin _ _ _ _ Ha) as (A1 & A2 & _). destruct (extent_fin _ _ _ _ Hz) as (B1 & B2 & _).
    destruct (extent_eq s1 a N1 A1 A2) as (_ & _ & _ & _ & V1 & V1'). destruct (extent_eq s2 z N2 B1 B2) as (_ & _ & _ & _ & V2 & V2').
    destruct Ha as (P1 & P2). destruct Hz as (Q1 & Q2). destruct T1 as [T1 T1'].
    assert (HS : forall s, normal_size s -> 0 < B2R s). { intros s [_ Hs]. pose proof (bpow_gt_0 radix2 (3 - emax)). lra. }
    assert (M : forall x y kx ky, is_finite x = true -> is_finite y = true -> B2R x <= B2R y ->
      disc_single_coord O c true x inv = Ok kx -> disc_single_coord O c true y inv = Ok ky -> (kx <= ky)%N).
    { intros x y kx ky Fx Fy Hxy Hkx Hky. eapply (disc_mono prec emax Hprec Hemax fused Hp2 c Hcb true x y inv); eauto. apply (leb_le prec emax); auto. }
    pose proof (HS s1 N1). pose proof (HS s2 N2).
    assert (fst r <= snd r)%N by (eapply M; [exact A1|exact A2| |exact P1|exact P2]; rewrite V1, V1'; apply (rnd_le prec emax Hprec); lra).
    assert (fst r' <= snd r')%N by (eapply M; [exact B1|exact B2| |exact Q1|exact Q2]; rewrite V2, V2'; apply (rnd_le prec emax Hprec); lra).
    assert (fst r <= snd r')%N by (eapply M; [exact A1|exact B2| |exact P1|exact Q2]; rewrite V1, V2'; exact T1').
    assert (fst r' <= snd r)%N by (eapply M; [exact B1|exact A2| |exact Q1|exact P2]; rewrite V2, V1'; exact T1).
    exists (N.max (fst r) (fst r') :: dc). split; constructor; auto; lia.
Qed.

Variable K : platform bf.
Variable t : @tree bf.
Hypothesis Hinv : tree_inv O E t.
Notation n := (length (t_codes t)).
Notation leaves := (coll_leaves (t_nodes t)).
Notation box := (t_box t).

Lemma accepted_all : forall p xs, (p < n)%nat -> row (firstn (dim c) (t_parts t)) p xs ->
  Forall (fun x => exists k, disc_single_coord O c false x (invb prec emax Hprec Hemax fused box) = Ok k) xs.
Proof.
  intros p xs Hp Hrow. destruct (nth_error (t_codes t) p) as [k|] eqn:Hk; [|apply nth_error_None in Hk; lia].
  destruct (inv_codes _ _ _ Hinv p k Hk) as (xs' & Hrow' & Hcode).
  assert (xs' = xs).
  { unfold row in *. clear - Hrow Hrow'. revert xs Hrow. induction Hrow'; intros xs HH; inversion HH; subst; [reflexivity|]. f_equal; [congruence|auto]. }
  subst xs'. unfold particle_code in Hcode. apply bind_Ok in Hcode as (ks & Hks & _). apply mapM_Ok in Hks. destruct Hks as [HL HA].
  apply Forall_forall. intros x Hx. apply In_nth_error in Hx. destruct Hx as (i & Hi).
  destruct (HA i x Hi) as (kk & HK). exists kk. apply HK.
Qed.

(** C35 in floating point. *)
Theorem float_graph : forall ordered sizes sch1 sch2 old g, comfortable prec emax box -> deep box -> shift_ok E K leaves ->
  reorders sch1 -> reorders sch2 -> (n <= length sizes)%nat ->
  compute_cgraph O E K ordered t sizes sch1 sch2 old = Ok g ->
  forall p q i j s1 s2 x1 x2 r, p <> q -> (p < n)%nat -> (q < n)%nat -> vertex t ordered p i -> vertex t ordered q j ->
  nth_error sizes i = Some s1 -> nth_error sizes j = Some s2 -> normal_size s1 -> normal_size s2 -> roomy box s1 -> roomy box s2 ->
  row (firstn (dim c) (t_parts t)) p x1 -> row (firstn (dim c) (t_parts t)) q x2 ->
  nth_error g i = Some r ->
  (In j r <-> Forall2 (touch s1 s2) x1 x2).
Proof.
  intros ordered sizes sch1 sch2 old g Hcomf Hdeep HK R1 R2 Hs Hg p q i j s1 s2 x1 x2 r Hne Hp Hq Vp Vq S1 S2 N1 N2 M1 M2 X1 X2 Hr.

  assert (Hnz : forall s, normal_size s -> feq O s (fofZ O 0%Z) = false).
  { intros s [Fs Hsz]. pose proof (bpow_gt_0 radix2 (3 - emax)). cbn [feq Bops].
    rewrite (Beqb_correct prec emax) by (auto; reflexivity). apply Req_bool_false. change (B2R (fofZ O 0%Z)) with 0. lra. }
  pose proof (Hnz s1 N1) as Z1. pose proof (Hnz s2 N2) as Z2.
  destruct (extents_exist O E K t Hinv ordered sizes sch1 sch2 old g HK R1 R2 Hs Hg p i s1 x1 Hp Vp S1 Z1 X1) as (L1 & rs1 & D1).
  destruct (extents_exist O E K t Hinv ordered sizes sch1 sch2 old g HK R1 R2 Hs Hg q j s2 x2 Hq Vq S2 Z2 X2) as (L2 & rs2 & D2).
  pose proof (overlap_touch s1 s2 _ x1 x2 rs1 rs2 N1 N2 D1 D2 ltac:(congruence)) as HT. split.
  - intros Hj. destruct (structure O E K t Hinv ordered sizes sch1 sch2 old g R1 R2 Hs Hg) as [_ HST].
    destruct (proj2 (HST i r Hr) j Hj) as (_ & _ & p' & q' & s1' & s2' & x1' & x2' & Vp' & Vq' & S1' & S2' & _ & _ & X1' & X2' & OV).
    apply vertex_label in Vp. apply vertex_label in Vp'. apply vertex_label in Vq. apply vertex_label in Vq'.
    pose proof (label_inj O E t Hinv ordered p p' i Vp Vp') as <-. pose proof (label_inj O E t Hinv ordered q q' j Vq Vq') as <-.
    rewrite S1 in S1'. injection S1' as <-. rewrite S2 in S2'. injection S2' as <-.
    rewrite <- (row_unique p _ _ _ X1 X1') in OV. rewrite <- (row_unique q _ _ _ X2 X2') in OV. now apply HT.
  - intros Htouch. destruct (common_cell s1 s2 box x1 x2 rs1 rs2 Hcomf N1 N2 D1 D2 Htouch) as (dc & C1 & C2).
    assert (SP : forall x s rs, normal_size s -> roomy box s -> Forall (fun x => exists k, disc_single_coord O c false x (invb prec emax Hprec Hemax fused box) = Ok k) x ->
      Forall2 (fun x r => disc_extent O E x s (invb prec emax Hprec Hemax fused box) r) x rs ->
      Forall (fun r => let sh := (cb - size_to_level O E s box)%N in (N.shiftr (snd r) sh <= N.shiftr (fst r) sh + 1)%N) rs).
    { clear - Hcomf Hdeep Hp8 Hrange Hcb Hp2. intros x s rs HN HM HA HD. induction HD as [|a r x rs Hd HD IH]; constructor.
      - inversion HA as [|? ? (k & Hk) HA']; subst. exact (span_B a box s r k Hcomf Hdeep HN HM Hk Hd).
      - inversion HA; subst. auto. }
    eapply (complete_any O E K t Hinv ordered sizes sch1 sch2 old g HK R1 R2 Hs Hg p q i j s1 s2 x1 x2 rs1 rs2 dc r); eauto.
    + now apply HT.
    + apply (SP x1 s1); auto. exact (accepted_all p x1 Hp X1).
    + apply (SP x2 s2); auto. exact (accepted_all q x2 Hq X2).
Qed.

(** In particular no overlap of the exact cubes is missed. *)
Corollary float_graph_exact : forall s1 s2 x1 x2,
  Forall2 (fun a b => Rabs (B2R a - B2R b) <= (B2R s1 + B2R s2) / 2) x1 x2 -> Forall2 (touch s1 s2) x1 x2.
Proof.
  intros s1 s2 x1 x2 H. induction H as [|a b x1 x2 H HH IH]; constructor; [|exact IH]. apply Rabs_def2b in H.
  split; apply (rnd_le prec emax Hprec); lra.
Qed.

End IEEE.
