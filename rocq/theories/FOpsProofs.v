(** Facts about the IEEE instance of the floating-point interface. *)
From Coq Require Import List ZArith NArith Reals Bool Lia Lra Psatz.
From Flocq Require Import Core BinarySingleNaN.
From Verif Require Import Base FOps.
Local Open Scope R_scope.

Lemma Rltb_lt : forall x y, Rltb x y = true <-> x < y.
Proof. intros. unfold Rltb. destruct (Rlt_dec x y); split; intros; auto; discriminate. Qed.
Lemma Rleb_le : forall x y, Rleb x y = true <-> x <= y.
Proof. intros. unfold Rleb. destruct (Rle_dec x y); split; intros; auto; discriminate. Qed.
Lemma Reqb_eq : forall x y, Reqb x y = true <-> x = y.
Proof. intros. unfold Reqb. destruct (Req_EM_T x y); split; intros; auto; discriminate. Qed.
Lemma Rltb_ge : forall x y, Rltb x y = false <-> y <= x.
Proof. intros. unfold Rltb. destruct (Rlt_dec x y); split; intros; auto; try discriminate; lra. Qed.
Lemma Rleb_gt : forall x y, Rleb x y = false <-> y < x.
Proof. intros. unfold Rleb. destruct (Rle_dec x y); split; intros; auto; try discriminate; lra. Qed.

Section IEEE.

Variables prec emax : Z.
Context (Hprec : Prec_gt_0 prec).
Context (Hemax : Prec_lt_emax prec emax).
Variable fused : bool.
Hypothesis Hp2 : (2 <= prec)%Z.

Notation bf := (binary_float prec emax).
Notation O := (Bops prec emax Hprec Hemax fused).
Notation fexp := (SpecFloat.fexp prec emax).
Notation rnd := (round radix2 fexp ZnearestE).

Local Instance valid_fexp : Valid_exp fexp.
Proof. exact (@FLT_exp_valid (3 - emax - prec) prec Hprec). Qed.

Lemma emax_gt : (prec < emax)%Z.
Proof. exact Hemax. Qed.

Lemma overflow_not_finite : forall (x : bf) s,
  B2SF x = binary_overflow prec emax mode_NE s -> is_finite x = false.
Proof. intros x s H. destruct x; try reflexivity; discriminate. Qed.

Lemma mult_fin : forall x y : bf, is_finite (Bmult mode_NE x y) = true ->
  is_finite x = true /\ is_finite y = true /\ B2R (Bmult mode_NE x y) = rnd (B2R x * B2R y).
Proof.
  intros x y H. pose proof (Bmult_correct prec emax _ _ mode_NE x y) as C.
  destruct (Rlt_bool _ _) in C.
  - destruct C as (C1 & C2 & _). rewrite H in C2. symmetry in C2. apply andb_prop in C2. tauto.
  - apply overflow_not_finite in C. congruence.
Qed.

Lemma mult_finite : forall x y : bf, is_finite x = true -> is_finite y = true ->
  Rabs (rnd (B2R x * B2R y)) < bpow radix2 emax -> is_finite (Bmult mode_NE x y) = true.
Proof.
  intros x y Hx Hy H. pose proof (Bmult_correct prec emax _ _ mode_NE x y) as C.
  rewrite Rlt_bool_true in C by exact H. destruct C as (_ & -> & _). now rewrite Hx, Hy.
Qed.

Lemma plus_fin : forall x y : bf, is_finite (Bplus mode_NE x y) = true ->
  is_finite x = true /\ is_finite y = true /\ B2R (Bplus mode_NE x y) = rnd (B2R x + B2R y).
Proof.
  intros x y H.
  assert (Hx : is_finite x = true) by (destruct x as [| | |], y as [|sy| |]; try reflexivity; try discriminate;
    simpl in H; destruct (Bool.eqb _ _) in H; discriminate).
  assert (Hy : is_finite y = true) by (destruct x as [| | |], y as [|sy| |]; try reflexivity; try discriminate).
  split; [exact Hx|]. split; [exact Hy|].
  pose proof (Bplus_correct prec emax _ _ mode_NE x y Hx Hy) as C.
  destruct (Rlt_bool _ _) in C; [tauto|].
  destruct C as [C _]. apply overflow_not_finite in C. congruence.
Qed.

Lemma plus_finite : forall x y : bf, is_finite x = true -> is_finite y = true ->
  Rabs (rnd (B2R x + B2R y)) < bpow radix2 emax -> is_finite (Bplus mode_NE x y) = true.
Proof.
  intros x y Hx Hy H. pose proof (Bplus_correct prec emax _ _ mode_NE x y Hx Hy) as C.
  rewrite Rlt_bool_true in C by exact H. tauto.
Qed.

Lemma fma_fin1 : forall x y z : bf, is_finite (Bfma mode_NE x y z) = true ->
  is_finite x = true /\ is_finite y = true /\ is_finite z = true /\
  B2R (Bfma mode_NE x y z) = rnd (B2R x * B2R y + B2R z).
Proof.
  intros x y z H.
  assert (Hx : is_finite x = true) by (destruct x as [| | |], y as [|sy| |], z; try reflexivity; try discriminate;
    simpl in H; destruct (Bool.eqb _ _) in H; discriminate).
  assert (Hy : is_finite y = true) by (destruct x as [| | |], y as [|sy| |], z; try reflexivity; try discriminate;
    simpl in H; destruct (Bool.eqb _ _) in H; discriminate).
  assert (Hz : is_finite z = true) by (destruct x as [| | |], y as [|sy| |], z; try reflexivity; try discriminate).
  split; [exact Hx|]. split; [exact Hy|]. split; [exact Hz|].
  pose proof (Bfma_correct prec emax _ _ mode_NE x y z Hx Hy Hz) as C. cbv zeta in C.
  destruct (Rlt_bool _ _) in C; [tauto|].
  apply overflow_not_finite in C. congruence.
Qed.

(** What [fma_wrap] computes on finite data. *)
Definition fma_val (x y z : R) : R :=
  if fused then rnd (x * y + z) else rnd (rnd (x * y) + z).

Lemma fma_fin : forall x y z : bf, is_finite (ffma O x y z) = true ->
  is_finite x = true /\ is_finite y = true /\ is_finite z = true /\
  B2R (ffma O x y z) = fma_val (B2R x) (B2R y) (B2R z).
Proof.
  intros x y z. cbn [ffma Bops]. unfold b_fma, fma_val. destruct fused; intros H.
  - now apply fma_fin1.
  - apply plus_fin in H as (H1 & H2 & H3). apply mult_fin in H1 as (H4 & H5 & H6).
    rewrite H6 in H3. auto.
Qed.

Lemma fma_finite : forall x y z : bf,
  is_finite x = true -> is_finite y = true -> is_finite z = true ->
  Rabs (rnd (B2R x * B2R y)) < bpow radix2 emax ->
  Rabs (fma_val (B2R x) (B2R y) (B2R z)) < bpow radix2 emax ->
  is_finite (ffma O x y z) = true.
Proof.
  intros x y z Hx Hy Hz H1 H2. cbn [ffma Bops]. unfold b_fma, fma_val in *. destruct fused.
  - pose proof (Bfma_correct prec emax _ _ mode_NE x y z Hx Hy Hz) as C. cbv zeta in C.
    rewrite Rlt_bool_true in C by exact H2. tauto.
  - pose proof (mult_finite x y Hx Hy H1) as Hm. apply plus_finite; auto.
    destruct (mult_fin x y Hm) as (_ & _ & ->). exact H2.
Qed.

Lemma rnd_le : forall x y, x <= y -> rnd x <= rnd y.
Proof. intros. apply round_le; auto with typeclass_instances. Qed.

Lemma rnd_B2R : forall x : bf, rnd (B2R x) = B2R x.
Proof. intros. apply round_generic; auto with typeclass_instances. apply generic_format_B2R. Qed.

Lemma rnd_0 : rnd 0 = 0.
Proof. apply round_0. auto with typeclass_instances. Qed.

Lemma format_pow : forall k, (3 - emax - prec <= k)%Z -> generic_format radix2 fexp (bpow radix2 k).
Proof.
  intros k Hk. apply generic_format_bpow. unfold SpecFloat.fexp, SpecFloat.emin.
  assert (0 < prec)%Z by exact Hprec. lia.
Qed.

(** Numbers with a mantissa of at most [prec] bits are representable. *)
Lemma format_small : forall m k, (Z.abs m < 2 ^ prec)%Z -> (3 - emax - prec <= k)%Z ->
  generic_format radix2 fexp (IZR m * bpow radix2 k).
Proof.
  intros m k Hm Hk. apply (generic_format_FLT radix2 (3 - emax - prec) prec).
  apply (FLT_spec _ _ _ _ (Float radix2 m k)); simpl; auto.
Qed.

Lemma ofZ_exact : forall m, (Z.abs m < 2 ^ prec)%Z ->
  B2R (fofZ O m) = IZR m /\ is_finite (fofZ O m) = true.
Proof.
  intros m Hm. cbn [fofZ Bops].
  pose proof (binary_normalize_correct prec emax _ _ mode_NE m 0 false) as C. cbv zeta in C.
  assert (E : F2R (Float radix2 m 0) = IZR m) by (unfold F2R; simpl; lra).
  assert (Hr : rnd (F2R (Float radix2 m 0)) = IZR m).
  { rewrite E. apply round_generic; auto with typeclass_instances.
    replace (IZR m) with (IZR m * bpow radix2 0) by (simpl; lra). apply format_small; auto.
    pose proof emax_gt. lia. }
  simpl round_mode in C. rewrite Hr in C. rewrite Rlt_bool_true in C; [tauto|].
  rewrite <- abs_IZR. apply Rlt_le_trans with (IZR (2 ^ prec)); [now apply IZR_lt|].
  replace (IZR (2 ^ prec)) with (bpow radix2 prec) by (rewrite <- IZR_Zpower by lia; reflexivity).
  apply bpow_le. pose proof emax_gt. lia.
Qed.

Lemma ofZ_pow : forall k, (0 <= k < emax)%Z ->
  B2R (fofZ O (2 ^ k)) = bpow radix2 k /\ is_finite (fofZ O (2 ^ k)) = true.
Proof.
  intros k Hk. cbn [fofZ Bops].
  pose proof (binary_normalize_correct prec emax _ _ mode_NE (2 ^ k) 0 false) as C. cbv zeta in C.
  assert (E : F2R (Float radix2 (2 ^ k) 0) = bpow radix2 k).
  { unfold F2R; simpl Fnum; simpl Fexp. rewrite (IZR_Zpower radix2) by lia. simpl; lra. }
  assert (Hr : rnd (F2R (Float radix2 (2 ^ k) 0)) = bpow radix2 k).
  { rewrite E. apply round_generic; auto with typeclass_instances.
    apply format_pow. pose proof emax_gt. lia. }
  simpl round_mode in C. rewrite Hr in C. rewrite Rlt_bool_true in C; [tauto|].
  rewrite Rabs_pos_eq by apply bpow_ge_0. apply bpow_lt. lia.
Qed.

Lemma ofZ_0 : B2R (fofZ O 0) = 0 /\ is_finite (fofZ O 0) = true.
Proof. split; reflexivity. Qed.

Lemma div_finite : forall x y : bf, is_finite x = true -> B2R y <> 0 ->
  Rabs (rnd (B2R x / B2R y)) < bpow radix2 emax ->
  is_finite (Bdiv mode_NE x y) = true /\ B2R (Bdiv mode_NE x y) = rnd (B2R x / B2R y).
Proof.
  intros x y Hx Hy H. pose proof (Bdiv_correct prec emax _ _ mode_NE x y Hy) as C.
  rewrite Rlt_bool_true in C by exact H. rewrite Hx in C. tauto.
Qed.

Lemma div_fin : forall x y : bf, is_finite (Bdiv mode_NE x y) = true -> B2R y <> 0 ->
  is_finite x = true /\ B2R (Bdiv mode_NE x y) = rnd (B2R x / B2R y).
Proof.
  intros x y H Hy. pose proof (Bdiv_correct prec emax _ _ mode_NE x y Hy) as C.
  destruct (Rlt_bool _ _) in C.
  - destruct C as (C1 & C2 & _). rewrite H in C2. auto.
  - apply overflow_not_finite in C. congruence.
Qed.

(** F(1) / F(2) is exact. *)
Lemma half_exact : let h := fdiv O (fofZ O 1) (fofZ O 2) in B2R h = / 2 /\ is_finite h = true.
Proof.
  intros h. pose proof emax_gt.
  destruct (ofZ_pow 0) as [A1 A2]; [lia|]. destruct (ofZ_pow 1) as [B1 B2]; [lia|].
  change (2 ^ 0)%Z with 1%Z in *. change (2 ^ 1)%Z with 2%Z in *. change (bpow radix2 0) with 1 in A1. change (bpow radix2 1) with 2 in B1.
  assert (Hr : rnd (1 / 2) = / 2).
  { replace (1 / 2) with (bpow radix2 (-1)) by (simpl; lra).
    rewrite round_generic by (auto with typeclass_instances; apply format_pow; lia).
    simpl; lra. }
  destruct (div_finite (fofZ O 1) (fofZ O 2)) as [D1 D2]; auto.
  - rewrite B1. lra.
  - rewrite A1, B1, Hr. rewrite Rabs_pos_eq by lra.
    apply Rlt_le_trans with (bpow radix2 0); [simpl; lra|]. apply bpow_le. lia.
  - split; [|exact D1]. unfold h. cbn [fdiv Bops]. rewrite D2, A1, B1. exact Hr.
Qed.

Lemma trunc_val : forall x : bf, Btrunc x = Ztrunc (B2R x).
Proof.
  intros x. apply eq_IZR. rewrite (Btrunc_correct prec emax Hemax).
  unfold round, scaled_mantissa, F2R, cexp, FIX_exp. simpl. now rewrite !Rmult_1_r.
Qed.

Lemma ltb_lt : forall x y : bf, is_finite x = true -> is_finite y = true ->
  (Bltb x y = true <-> B2R x < B2R y).
Proof. intros x y Hx Hy. rewrite Bltb_correct by auto. case Rlt_bool_spec; split; intros; auto; try discriminate; lra. Qed.

Lemma leb_le : forall x y : bf, is_finite x = true -> is_finite y = true ->
  (Bleb x y = true <-> B2R x <= B2R y).
Proof. intros x y Hx Hy. rewrite Bleb_correct by auto. case Rle_bool_spec; split; intros; auto; try discriminate; lra. Qed.

Lemma fma_val_le : forall x1 x2 y z, 0 <= y -> x1 <= x2 -> fma_val x1 y z <= fma_val x2 y z.
Proof.
  intros. unfold fma_val. destruct fused; apply rnd_le.
  - nra.
  - apply Rplus_le_compat_r. apply rnd_le. nra.
Qed.

(** Error of rounding a value whose result is at least [2^-emax] in absolute value. *)
Lemma rnd_error : forall y, bpow radix2 (- emax) <= Rabs (rnd y) ->
  Rabs (rnd y - y) <= bpow radix2 (3 - prec) * Rabs (rnd y).
Proof.
  intros y H. pose proof (error_le_ulp_round radix2 fexp ZnearestE y) as E.
  apply Rle_trans with (1 := E).
  assert (Hnz : rnd y <> 0). { intros H0. rewrite H0, Rabs_R0 in H. pose proof (bpow_gt_0 radix2 (- emax)). lra. }
  rewrite ulp_neq_0 by exact Hnz. unfold cexp.
  match goal with |- bpow _ ?e <= _ => change e with (Z.max (mag_val radix2 (rnd y) (mag radix2 (rnd y)) - prec) (3 - emax - prec)) end.
  set (m := mag_val radix2 (rnd y) (mag radix2 (rnd y))). destruct (Z.max_spec (m - prec) (3 - emax - prec)) as [[_ ->]|[_ ->]].
  - replace (3 - emax - prec)%Z with ((3 - prec) + - emax)%Z by lia. rewrite bpow_plus.
    apply Rmult_le_compat_l; [apply bpow_ge_0|exact H].
  - assert (bpow radix2 (m - 1) <= Rabs (rnd y)).
    { unfold m. apply bpow_mag_le. exact Hnz. }
    replace (m - prec)%Z with ((1 - prec) + (m - 1))%Z by lia. rewrite bpow_plus.
    apply Rmult_le_compat; try apply bpow_ge_0; auto. apply bpow_le. lia.
Qed.

End IEEE.
