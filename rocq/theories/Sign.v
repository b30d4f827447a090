(** Signs of the potentials, and particles without mass, in floating-point arithmetic. *)
From Coq Require Import List Arith ZArith NArith Reals Bool Lia Lra Permutation.
From Flocq Require Import Core BinarySingleNaN.
From Verif Require Import Base Config Morton Build BuildProps TreeSpec FOps FOpsProofs Disc NodeProps Tree TreeInv TreeProofs TreeSafe Kernels TravProofs KernLoops SelfShape TreeShape Force ForceGen ForceOut ForceRTop ForceTop RoundSrc RoundExact BuildProofs Coincide RoundNode.
Import ListNotations.
Local Open Scope nat_scope.

Section C.

Variables prec emax : Z.
Context (Hprec : Prec_gt_0 prec).
Context (Hemax : Prec_lt_emax prec emax).
Variable fused : bool.
Notation bf := (binary_float prec emax).
Notation O := (Bops prec emax Hprec Hemax fused).
Notation zero := (fofZ O 0%Z).

(** Not negative, or NaN. *)
Definition nn (x : bf) : Prop := match x with B754_infinity s | B754_finite s _ _ _ => s = false | _ => True end.
(** Not positive, or NaN. *)
Definition np (x : bf) : Prop := match x with B754_infinity s | B754_finite s _ _ _ => s = true | _ => True end.
(** Zero or NaN. *)
Definition zn (x : bf) : Prop := match x with B754_infinity _ | B754_finite _ _ _ _ => False | _ => True end.

(** The sign is not set, or NaN. *)
Definition sp (x : bf) : Prop := match x with B754_zero s | B754_infinity s | B754_finite s _ _ _ => s = false | _ => True end.

Ltac ops := cbn [fadd fsub fmul fdiv ffma fsqrt fopp fofZ Bops].
Ltac cases := repeat match goal with |- context [if ?b then _ else _] => destruct b end.
Ltac yes_no := cbn; split; [intros [H|H]; first [exact I|reflexivity|discriminate H]|intros H; first [discriminate H|contradiction H|left; reflexivity|right; reflexivity]].

Lemma nn_of : forall x : bf, (is_nan x = true \/ fle O zero x = true) <-> nn x.
Proof. change (fofZ O 0%Z) with (@B754_zero prec emax false). intros [[]|[]| |[] m e B]; yes_no. Qed.
Lemma np_of : forall x : bf, (is_nan x = true \/ fle O x zero = true) <-> np x.
Proof. change (fofZ O 0%Z) with (@B754_zero prec emax false). intros [[]|[]| |[] m e B]; yes_no. Qed.
Lemma zn_of : forall x : bf, (is_nan x = true \/ feq O x zero = true) <-> zn x.
Proof. change (fofZ O 0%Z) with (@B754_zero prec emax false). intros [[]|[]| |[] m e B]; yes_no. Qed.

Lemma fin_nn : forall x : bf, is_finite x = true -> (0 <= B2R x)%R -> nn x.
Proof.
  intros [s|s| |[] m e H] F P; try exact I; try discriminate; [|reflexivity]. exfalso. cbn in P. apply (Rle_not_lt _ _ P), F2R_lt_0. reflexivity.
Qed.
Lemma nn_opp : forall x, np x <-> nn (fopp O x).
Proof. intros [s|[]| |[] m e H]; cbn; tauto || (split; intros; congruence). Qed.
Lemma np_opp : forall x, nn x <-> np (fopp O x).
Proof. intros [s|[]| |[] m e H]; cbn; tauto || (split; intros; congruence). Qed.
Lemma zn_nn : forall x, zn x -> nn x.
Proof. intros [s|s| |s m e H]; cbn; tauto. Qed.

Lemma over_nn : forall x : bf, B2SF x = binary_overflow prec emax mode_NE false -> nn x.
Proof. intros [s|s| |s m e H] Q; try exact I; inversion Q; reflexivity. Qed.
Lemma over_np : forall x : bf, B2SF x = binary_overflow prec emax mode_NE true -> np x.
Proof. intros [s|s| |s m e H] Q; try exact I; inversion Q; reflexivity. Qed.
Lemma over_sp : forall x : bf, B2SF x = binary_overflow prec emax mode_NE false -> sp x.
Proof. intros [s|s| |s m e H] Q; try exact I; inversion Q; reflexivity. Qed.
Lemma sp_sign : forall x : bf, is_nan x = false -> sp x -> Bsign x = false.
Proof. intros [s|s| |s m e H] N S; cbn in *; congruence. Qed.

Lemma add_nn : forall x y, nn x -> nn y -> nn (fadd O x y).
Proof.
  intros x y Hx Hy. cbn [fadd Bops]. pose proof (Bplus_correct prec emax Hprec Hemax mode_NE x y) as H.
  destruct x as [s|s| |s m e B], y as [s'|s'| |s' m' e' B']; try exact I; cbn in Hx, Hy; subst; try exact I; try reflexivity; try (cbn; cases; exact I).
  specialize (H eq_refl eq_refl). destruct (Rlt_bool _ _).
  - destruct H as (H1 & H2 & _). apply fin_nn; [exact H2|]. rewrite H1. rewrite <- (round_0 radix2 (SpecFloat.fexp prec emax) (round_mode mode_NE)). apply round_le; [now apply fexp_correct|apply valid_rnd_N|].
    apply Rplus_le_le_0_compat; apply F2R_ge_0; cbn; lia.
  - destruct H as [H _]. now apply over_nn.
Qed.

Lemma add_np : forall x y, np x -> np y -> np (fadd O x y).
Proof.
  intros x y Hx Hy. cbn [fadd Bops]. pose proof (Bplus_correct prec emax Hprec Hemax mode_NE x y) as H.
  destruct x as [s|s| |s m e B], y as [s'|s'| |s' m' e' B']; try exact I; cbn in Hx, Hy; subst; try exact I; try reflexivity; try (cbn; cases; exact I).
  specialize (H eq_refl eq_refl). destruct (Rlt_bool _ _); [apply nn_opp|].
  - destruct H as (H1 & H2 & _). cbn [fopp Bops]. apply fin_nn; [now rewrite is_finite_Bopp|]. rewrite B2R_Bopp, H1. apply Ropp_0_ge_le_contravar, Rle_ge.
    rewrite <- (round_0 radix2 (SpecFloat.fexp prec emax) (round_mode mode_NE)). apply round_le; [now apply fexp_correct|apply valid_rnd_N|].
    rewrite <- (Rplus_0_l 0). apply Rplus_le_compat; apply F2R_le_0; cbn; lia.
  - destruct H as [H _]. now apply over_np.
Qed.

Lemma mul_nn : forall x y, nn x -> nn y -> nn (fmul O x y).
Proof.
  intros x y Hx Hy. cbn [fmul Bops]. pose proof (Bmult_correct prec emax Hprec Hemax mode_NE x y) as H.
  destruct x as [s|s| |s m e B], y as [s'|s'| |s' m' e' B']; try exact I; cbn in Hx, Hy; subst; try exact I; try reflexivity.
  destruct (Rlt_bool _ _).
  - destruct H as (H1 & H2 & _). apply fin_nn; [exact H2|]. rewrite H1. rewrite <- (round_0 radix2 (SpecFloat.fexp prec emax) (round_mode mode_NE)). apply round_le; [now apply fexp_correct|apply valid_rnd_N|].
    apply Rmult_le_pos; apply F2R_ge_0; cbn; lia.
  - now apply over_nn.
Qed.

Lemma mul_np : forall x y, np x -> nn y -> np (fmul O x y).
Proof.
  intros x y Hx Hy. cbn [fmul Bops]. pose proof (Bmult_correct prec emax Hprec Hemax mode_NE x y) as H.
  destruct x as [s|s| |s m e B], y as [s'|s'| |s' m' e' B']; try exact I; cbn in Hx, Hy; subst; try exact I; try reflexivity.
  match type of H with if Rlt_bool ?a ?b then _ else _ => destruct (Rlt_bool_spec a b) as [LT|LT] end; [apply nn_opp|].
  - destruct H as (H1 & H2 & _). cbn [fopp Bops]. apply fin_nn; [now rewrite is_finite_Bopp|]. rewrite B2R_Bopp, H1. apply Ropp_0_ge_le_contravar, Rle_ge.
    rewrite <- (round_0 radix2 (SpecFloat.fexp prec emax) (round_mode mode_NE)). apply round_le; [now apply fexp_correct|apply valid_rnd_N|].
    rewrite <- (Rmult_0_l 0). apply Ropp_le_cancel. rewrite Rmult_0_l, Ropp_0, Ropp_mult_distr_l. apply Rmult_le_pos; [|apply F2R_ge_0; cbn; lia]. apply Ropp_0_ge_le_contravar, Rle_ge, F2R_le_0. cbn. lia.
  - now apply over_np.
Qed.

Lemma div_nn : forall x y, nn x -> sp y -> nn (fdiv O x y).
Proof.
  intros x y Hx Hy. cbn [fdiv Bops]. pose proof (Bdiv_correct prec emax Hprec Hemax mode_NE x y) as H.
  destruct x as [s|s| |s m e B], y as [s'|s'| |s' m' e' B']; try exact I; cbn in Hx, Hy; subst; try exact I; try reflexivity.
  assert (N : B2R (B754_finite false m' e' B') <> 0%R) by (apply Rgt_not_eq, F2R_gt_0; reflexivity). specialize (H N). destruct (Rlt_bool _ _).
  - destruct H as (H1 & H2 & _). apply fin_nn; [exact H2|]. rewrite H1. rewrite <- (round_0 radix2 (SpecFloat.fexp prec emax) (round_mode mode_NE)). apply round_le; [now apply fexp_correct|apply valid_rnd_N|].
    apply Rmult_le_pos; [apply F2R_ge_0; cbn; lia|]. apply Rlt_le, Rinv_0_lt_compat, F2R_gt_0. reflexivity.
  - now apply over_nn.
Qed.

Lemma sqrt_sp : forall x, sp x -> sp (fsqrt O x).
Proof.
  intros x Hx. cbn [fsqrt Bops]. pose proof (Bsqrt_correct prec emax Hprec Hemax mode_NE x) as (_ & _ & H).
  destruct x as [s|s| |s m e B]; cbn in Hx; subst; try exact I; try reflexivity.
  destruct (Bsqrt _ _) as [s|s| |s m0 e0 B0]; cbn in *; auto.
Qed.

Lemma sp_nn : forall x, sp x -> nn x.
Proof. intros [s|s| |s m e H]; cbn; tauto. Qed.

Lemma nn_sign : forall x : bf, nn x -> (is_nan x = false -> Bsign x = false) -> sp x.
Proof. intros [s|s| |s m e H] N S; cbn in *; auto. Qed.

Lemma mul_sp : forall x y, sp x -> sp y -> sp (fmul O x y).
Proof.
  intros x y Hx Hy. apply nn_sign; [apply mul_nn; now apply sp_nn|]. cbn [fmul Bops]. pose proof (Bmult_correct prec emax Hprec Hemax mode_NE x y) as H. intros N.
  destruct x as [s|s| |s m e B], y as [s'|s'| |s' m' e' B']; cbn in Hx, Hy; subst; try reflexivity.
  destruct (Rlt_bool _ _); [apply H, N|]. apply sp_sign; [exact N|now apply over_sp].
Qed.

Lemma sq_sp : forall x, sp (fmul O x x).
Proof.
  intros x. cbn [fmul Bops]. pose proof (Bmult_correct prec emax Hprec Hemax mode_NE x x) as H. rewrite xorb_nilpotent in H.
  destruct x as [[]|[]| |s m e B]; try exact I; try reflexivity.
  destruct (Rlt_bool _ _); [|now apply over_sp]. destruct H as (H1 & H2 & H3).
  assert (N : is_nan (Bmult mode_NE (B754_finite s m e B) (B754_finite s m e B)) = false) by (destruct (Bmult _ _ _); reflexivity || discriminate H2).
  specialize (H3 N). destruct (Bmult _ _ _) as [s'|s'| |s' m' e' B']; try exact I; exact H3.
Qed.

Lemma add_sp : forall x y, sp x -> sp y -> sp (fadd O x y).
Proof.
  intros x y Hx Hy. apply nn_sign; [apply add_nn; now apply sp_nn|]. cbn [fadd Bops]. pose proof (Bplus_correct prec emax Hprec Hemax mode_NE x y) as H. intros N.
  destruct x as [s|s| |s m e B], y as [s'|s'| |s' m' e' B']; cbn in Hx, Hy; subst; try reflexivity; try discriminate N.
  specialize (H eq_refl eq_refl). destruct (Rlt_bool _ _).
  - destruct H as (_ & _ & ->). rewrite Rcompare_Gt; [reflexivity|]. apply Rplus_lt_0_compat; apply F2R_gt_0; reflexivity.
  - destruct H as [H _]. apply sp_sign; [exact N|now apply over_sp].
Qed.

Lemma fma_sp : forall x z, sp z -> sp (ffma O x x z).
Proof.
  intros x z Hz. cbn [ffma Bops]. unfold b_fma. destruct fused eqn:Ef; [|apply (add_sp (fmul O x x)); [apply sq_sp|exact Hz]].
  pose proof (Bfma_correct prec emax Hprec Hemax mode_NE x x z) as H.
  destruct (is_finite x) eqn:Fx.
  2: { destruct x as [s|[]| |s m e B]; try discriminate; destruct z as [s'|[]| |s' m' e' B']; cbn in *; try exact I; try reflexivity; try discriminate. }
  destruct (is_finite z) eqn:Fz.
  2: { destruct x as [[]|s| |[] m e B]; try discriminate; destruct z as [s'|[]| |s' m' e' B']; cbn in *; try exact I; try reflexivity; try discriminate. }
  specialize (H eq_refl eq_refl eq_refl). cbv zeta in H.
  assert (G : (0 <= B2R x * B2R x + B2R z)%R).
  { apply Rplus_le_le_0_compat; [apply Rle_0_sqr|]. destruct z as [s'|[]| |[] m' e' B']; cbn in *; try discriminate; try apply Rle_refl. apply F2R_ge_0. cbn. lia. }
  assert (Sz : Bsign z = false) by (destruct z as [s'|[]| |[] m' e' B']; cbn in *; congruence).
  destruct (Rlt_bool _ _).
  - destruct H as (H1 & H2 & H3). apply nn_sign.
    + apply fin_nn; [exact H2|]. rewrite H1. rewrite <- (round_0 radix2 (SpecFloat.fexp prec emax) (round_mode mode_NE)). apply round_le; [now apply fexp_correct|apply valid_rnd_N|exact G].
    + intros _. rewrite H3. destruct (Rcompare_spec (B2R x * B2R x + B2R z) 0); [lra| |reflexivity]. unfold Bfma_szero. rewrite Sz. now destruct (Bsign x).
  - rewrite Rlt_bool_false in H by exact G. now apply over_sp.
Qed.

Lemma fma_np : forall x y z, np x -> nn y -> np z -> np (ffma O x y z).
Proof.
  intros x y z Hx Hy Hz. cbn [ffma Bops]. unfold b_fma. destruct fused eqn:Ef; [|apply (add_np (fmul O x y)); [now apply mul_np|exact Hz]].
  pose proof (Bfma_correct prec emax Hprec Hemax mode_NE x y z) as H.
  destruct (is_finite x) eqn:Fx.
  2: { destruct x as [s|[]| |s m e B]; try discriminate; destruct y as [s2|[]| |[] m2 e2 B2]; destruct z as [s'|[]| |[] m' e' B']; cbn in *; try exact I; try reflexivity; try discriminate. }
  destruct (is_finite y) eqn:Fy.
  2: { destruct y as [s|[]| |s m e B]; try discriminate; destruct x as [s2|[]| |[] m2 e2 B2]; destruct z as [s'|[]| |[] m' e' B']; cbn in *; try exact I; try reflexivity; try discriminate. }
  destruct (is_finite z) eqn:Fz.
  2: { destruct z as [s'|[]| |s' m' e' B']; try discriminate; destruct x as [s|[]| |[] m e B]; try discriminate; destruct y as [s2|[]| |[] m2 e2 B2]; cbn in *; try exact I; try reflexivity; try discriminate. }
  specialize (H eq_refl eq_refl eq_refl). cbv zeta in H.
  assert (G : (B2R x * B2R y + B2R z <= 0)%R).
  { assert (X : (B2R x <= 0)%R) by (destruct x as [s'|[]| |[] m' e' B']; cbn in *; try discriminate; try apply Rle_refl; apply F2R_le_0; cbn; lia).
    assert (Z : (B2R z <= 0)%R) by (destruct z as [s'|[]| |[] m' e' B']; cbn in *; try discriminate; try apply Rle_refl; apply F2R_le_0; cbn; lia).
    assert (Y : (0 <= B2R y)%R) by (destruct y as [s'|[]| |[] m' e' B']; cbn in *; try discriminate; try apply Rle_refl; apply F2R_ge_0; cbn; lia). nra. }
  match type of H with if Rlt_bool ?a ?b then _ else _ => destruct (Rlt_bool_spec a b) as [LT|LT] end; [apply nn_opp|].
  - destruct H as (H1 & H2 & _). cbn [fopp Bops]. apply fin_nn; [now rewrite is_finite_Bopp|]. rewrite B2R_Bopp, H1. apply Ropp_0_ge_le_contravar, Rle_ge.
    rewrite <- (round_0 radix2 (SpecFloat.fexp prec emax) (round_mode mode_NE)). apply round_le; [now apply fexp_correct|apply valid_rnd_N|exact G].
  - destruct (Rlt_bool_spec (B2R x * B2R y + B2R z) 0) as [L|L].
    + now apply over_np.
    + exfalso. replace (B2R x * B2R y + B2R z)%R with 0%R in LT by lra. rewrite round_0, Rabs_R0 in LT by apply valid_rnd_N. pose proof (bpow_gt_0 radix2 emax). lra.
Qed.

(** Zero or NaN. *)
Lemma add_zn : forall x y, zn x -> zn y -> zn (fadd O x y).
Proof. intros x y Hx Hy. ops. destruct x as [[]|s| |s m e B], y as [[]|s'| |s' m' e' B']; try contradiction; exact I. Qed.
Lemma sub_zn : forall x y, zn x -> zn y -> zn (fsub O x y).
Proof. intros x y Hx Hy. ops. destruct x as [[]|s| |s m e B], y as [[]|s'| |s' m' e' B']; try contradiction; exact I. Qed.
Lemma opp_zn : forall x, zn x -> zn (fopp O x).
Proof. intros x Hx. ops. destruct x; try contradiction; exact I. Qed.
Lemma mul_zn_l : forall x y, zn x -> zn (fmul O x y).
Proof. intros x y Hx. ops. destruct x as [s|s| |s m e B], y as [s'|s'| |s' m' e' B']; try contradiction; exact I. Qed.
Lemma mul_zn_r : forall x y, zn y -> zn (fmul O x y).
Proof. intros x y Hx. ops. destruct x as [s|s| |s m e B], y as [s'|s'| |s' m' e' B']; try contradiction; exact I. Qed.
Lemma div_zn : forall x y, zn x -> zn (fdiv O x y).
Proof. intros x y Hx. ops. destruct x as [s|s| |s m e B], y as [s'|s'| |s' m' e' B']; try contradiction; exact I. Qed.
Lemma fma_zn_x : forall x y z, zn x -> zn z -> zn (ffma O x y z).
Proof.
  intros x y z Hx Hz. ops. unfold b_fma. destruct fused; [|apply (add_zn (fmul O x y)); [now apply mul_zn_l|exact Hz]].
  destruct x as [[]|s| |s m e B], y as [[]|s'| |[] m' e' B'], z as [[]|s2| |s2 m2 e2 B2]; try contradiction; exact I.
Qed.
Lemma fma_zn_y : forall x y z, zn y -> zn z -> zn (ffma O x y z).
Proof.
  intros x y z Hx Hz. ops. unfold b_fma. destruct fused; [|apply (add_zn (fmul O x y)); [now apply mul_zn_r|exact Hz]].
  destruct y as [[]|s| |s m e B], x as [[]|s'| |[] m' e' B'], z as [[]|s2| |s2 m2 e2 B2]; try contradiction; exact I.
Qed.

Lemma sub_np : forall x y, np x -> nn y -> np (fsub O x y).
Proof.
  intros x y Hx Hy. replace (fsub O x y) with (fadd O x (fopp O y)); [apply add_np; [exact Hx|now apply np_opp]|].
  ops. destruct x as [[]|[]| |s m e B], y as [[]|[]| |s' m' e' B']; try reflexivity.
Qed.

Lemma zero_zn : zn zero. Proof. exact I. Qed.
Lemma zero_np : np zero. Proof. exact I. Qed.
Lemma zero_sp : sp zero. Proof. reflexivity. Qed.
Lemma one_nn : nn (fofZ O 1%Z).
Proof.
  cbn [fofZ Bops]. pose proof (binary_normalize_correct prec emax Hprec Hemax mode_NE 1 0 false) as H. cbv zeta in H. destruct (Rlt_bool _ _).
  - destruct H as (H1 & H2 & _). apply fin_nn; [exact H2|]. rewrite H1. rewrite <- (round_0 radix2 (SpecFloat.fexp prec emax) (round_mode mode_NE)). apply round_le; [now apply fexp_correct|apply valid_rnd_N|]. apply F2R_ge_0. cbn. lia.
  - apply over_nn. rewrite H. f_equal. apply Rlt_bool_false. apply F2R_ge_0. cbn. lia.
Qed.

Lemma dist2_s_sp : forall ds e, sp e -> sp (dist2_s O e ds).
Proof. unfold dist2_s. induction ds as [|d ds IH]; intros e He; cbn [fold_left]; [exact He|]. apply IH. now apply fma_sp. Qed.
Lemma dist2_v_sp : forall ds e, sp e -> sp (dist2_v O e ds).
Proof.
  intros ds e He. pose proof (dist2_s_sp ds e He) as S. unfold dist2_v. destruct ds as [|x [|y [|z [|? ?]]]]; try exact S.
  apply add_sp; [apply add_sp; apply sq_sp|now apply fma_sp].
Qed.
Lemma mac_sp : forall c simd ds, sp (mac_dist2 O c simd ds).
Proof.
  intros c simd ds. pose proof (dist2_s_sp ds _ zero_sp) as S. unfold dist2_s in S. unfold mac_dist2. destruct (negb _); [exact S|]. destruct ds as [|x [|y [|z [|? ?]]]]; try exact S.
  apply add_sp; [apply add_sp; apply sq_sp|apply sq_sp].
Qed.

(** * The results of one particle *)

Section Row.

Variable c : cfg.
Variable simd : option nat.
Variable K : platform bf.
Variables (q : quant) (eps2 : bf).

Notation racc := (racc O c simd K q eps2).

Lemma map_np : forall w l, nn w -> Forall np l -> Forall np (map (fun p => fsub O p w) l).
Proof. intros w l Hw H. apply Forall_map. eapply Forall_impl; [|exact H]. intros x Hx. now apply sub_np. Qed.
Lemma map_fma_np : forall m w l, nn m -> nn w -> Forall np l -> Forall np (map (fun p => ffma O (fopp O m) w p) l).
Proof. intros m w l Hm Hw H. apply Forall_map. eapply Forall_impl; [|exact H]. intros x Hx. apply fma_np; [now apply np_opp|exact Hw|exact Hx]. Qed.
Lemma zip_both : forall (Q : bf -> Prop) (f : bf * bf -> bf) l acc, (forall d a, Q d -> Q a -> Q (f (d, a))) -> Forall Q l -> Forall Q acc -> Forall Q (map f (combine l acc)).
Proof.
  intros Q f l acc Hf H H'. apply Forall_map, Forall_forall. intros [d a] Hin. rewrite Forall_forall in H, H'. apply Hf; [exact (H _ (in_combine_l _ _ _ _ Hin))|exact (H' _ (in_combine_r _ _ _ _ Hin))].
Qed.

Lemma row0_snd : Forall np (snd (row0 O c q)) /\ Forall zn (snd (row0 O c q)) /\ Forall zn (fst (row0 O c q)).
Proof.
  unfold row0. cbn [fst snd]. split; [destruct (has_pot q); repeat constructor|split; [destruct (has_pot q); repeat constructor|]].
  destruct (has_acc q); [|constructor]. apply Forall_forall. intros x Hx. apply repeat_spec in Hx. subst. exact I.
Qed.

(** Potentials of particles without negative masses. *)
Section Sign.

Hypothesis He : sp eps2.
Hypothesis Hk : forall f z, fast_inv_sqrt O K = Some f -> sp z -> nn (f z).

Lemma racc_np : forall p1 r l d, racc p1 r l d -> nn (snd p1) -> (forall p2, In p2 l -> nn (snd p2)) -> Forall np (snd r).
Proof.
  intros p1 r l d H. induction H as [|p2 a r l d H IH|p2 a r l d H IH|p2 r l d H IH|com ms r l d H IH|r l d a l' d' H IH H' IH']; intros H1 HL.
  - apply row0_snd.
  - specialize (IH H1 (fun p2 Hp => HL p2 (or_intror Hp))). pose proof (HL _ (or_introl eq_refl)) as H2.
    unfold self_pair. cbv zeta. pose proof (sqrt_sp _ (dist2_s_sp (diffs O (fst p2) (fst p1)) _ He)) as S1. pose proof (dist2_v_sp (diffs O (fst p2) (fst p1)) _ He) as S2. pose proof (sqrt_sp _ S2) as S3.
    destruct (negb _); [|destruct (fast_inv_sqrt O K) as [f|] eqn:Ef]; cbn [fst snd]; apply map_np; auto; apply mul_nn; auto using div_nn, mul_nn.
  - specialize (IH H1 (fun p2 Hp => HL p2 (or_intror Hp))). pose proof (HL _ (or_introl eq_refl)) as H2.
    unfold self_pair. cbv zeta. pose proof (sqrt_sp _ (dist2_s_sp (diffs O (fst p1) (fst p2)) _ He)) as S1. pose proof (dist2_v_sp (diffs O (fst p1) (fst p2)) _ He) as S2. pose proof (sqrt_sp _ S2) as S3.
    destruct (negb _); [|destruct (fast_inv_sqrt O K) as [f|] eqn:Ef]; cbn [fst snd]; apply map_np; auto; apply mul_nn; auto using div_nn, mul_nn.
  - specialize (IH H1 (fun p2 Hp => HL p2 (or_intror Hp))). pose proof (HL _ (or_introl eq_refl)) as H2.
    unfold leaf_pair. cbv zeta. pose proof (sqrt_sp _ (dist2_s_sp (diffs O (fst p2) (fst p1)) _ He)) as S1. pose proof (dist2_v_sp (diffs O (fst p2) (fst p1)) _ He) as S2. pose proof (sqrt_sp _ S2) as S3.
    destruct (negb _); [|destruct q; try destruct (fast_inv_sqrt O K) as [f|] eqn:Ef]; cbn [fst snd]; auto; try (apply map_np; auto; apply mul_nn; auto using div_nn); try (unfold fnma; apply map_fma_np; auto using div_nn).
    + apply mul_nn; [exact H1|]. now apply (Hk f).
    + apply mul_nn; [exact H2|]. now apply (Hk f).
  - specialize (IH H1 (fun p2 Hp => HL p2 (or_intror Hp))). pose proof (HL _ (or_introl eq_refl)) as H2. cbn [snd] in H2.
    unfold com_pair, mac_lane. cbv zeta. pose proof (add_sp _ _ (mac_sp c simd (diffs O com (fst p1))) He) as S1. pose proof (sqrt_sp _ S1) as S2.
    destruct (vectorised c simd); cbn [negb]; [destruct (fast_inv_sqrt O K) as [f|] eqn:Ef|]; cbn [fst snd tmp_dist]; unfold fnma; apply map_fma_np; auto using div_nn.
    apply mul_nn; [exact H2|]. now apply (Hk f).
  - unfold add_rows. cbn [snd]. apply zip_both; [|apply IH; auto|apply IH'; auto]. { intros x y. apply add_np. } all: intros p2 Hp; apply HL, in_or_app; auto.
Qed.

End Sign.

(** The potential of a particle without mass. *)
Lemma map_zn : forall w l, zn w -> Forall zn l -> Forall zn (map (fun p => fsub O p w) l).
Proof. intros w l Hw H. apply Forall_map. eapply Forall_impl; [|exact H]. intros x Hx. now apply sub_zn. Qed.
Lemma map_fma_zn : forall m w l, zn m -> Forall zn l -> Forall zn (map (fun p => ffma O (fopp O m) w p) l).
Proof. intros m w l Hm H. apply Forall_map. eapply Forall_impl; [|exact H]. intros x Hx. apply fma_zn_x; [now apply opp_zn|exact Hx]. Qed.

Lemma racc_target : forall p1 r l d, racc p1 r l d -> zn (snd p1) -> Forall zn (snd r).
Proof.
  intros p1 r l d H. induction H as [|p2 a r l d H IH|p2 a r l d H IH|p2 r l d H IH|com ms r l d H IH|r l d a l' d' H IH H' IH']; intros H1.
  - apply row0_snd.
  - specialize (IH H1). unfold self_pair. cbv zeta. destruct (negb _); [|destruct (fast_inv_sqrt O K) as [f|] eqn:Ef]; cbn [fst snd]; apply map_zn; auto using mul_zn_l, div_zn.
  - specialize (IH H1). unfold self_pair. cbv zeta. destruct (negb _); [|destruct (fast_inv_sqrt O K) as [f|] eqn:Ef]; cbn [fst snd]; apply map_zn; auto using mul_zn_r.
  - specialize (IH H1). unfold leaf_pair. cbv zeta. destruct (negb _); [|destruct q; try destruct (fast_inv_sqrt O K) as [f|] eqn:Ef]; cbn [fst snd]; auto; try (apply map_zn; auto using mul_zn_l, div_zn); unfold fnma; now apply map_fma_zn.
  - specialize (IH H1). unfold com_pair. cbv zeta. destruct (negb _); cbn [fst snd]; unfold fnma; now apply map_fma_zn.
  - unfold add_rows. cbn [snd]. apply zip_both; [|apply IH; auto|apply IH'; auto]. intros x y. apply add_zn.
Qed.

(** The accelerations by sources without mass. *)
Lemma axpy_zn : forall ds k acc, zn k -> Forall zn acc -> Forall zn (axpy O ds k acc).
Proof. intros ds k acc Hk H. unfold axpy. apply (zip_r prec emax zn); [|exact H]. intros d a Ha. now apply fma_zn_y. Qed.

Lemma racc_sources : forall p1 r l d, racc p1 r l d -> (forall p2, In p2 l -> zn (snd p2)) -> Forall zn (fst r).
Proof.
  intros p1 r l d H. induction H as [|p2 a r l d H IH|p2 a r l d H IH|p2 r l d H IH|com ms r l d H IH|r l d a l' d' H IH H' IH']; intros HL.
  - apply row0_snd.
  - specialize (IH (fun p2 Hp => HL p2 (or_intror Hp))). pose proof (HL _ (or_introl eq_refl)) as H2. unfold self_pair. cbv zeta.
    destruct (negb _); [|destruct (fast_inv_sqrt O K) as [f|] eqn:Ef]; cbn [fst snd]; try (apply axpy_zn; auto using mul_zn_l, div_zn).
    apply (zip_r prec emax zn); [|exact IH]. intros x a0 Ha. apply fma_zn_x; auto using div_zn.
  - specialize (IH (fun p2 Hp => HL p2 (or_intror Hp))). pose proof (HL _ (or_introl eq_refl)) as H2. unfold self_pair. cbv zeta.
    destruct (negb _); [|destruct (fast_inv_sqrt O K) as [f|] eqn:Ef]; cbn [fst snd]; apply (zip_r prec emax zn); try exact IH; intros x a0 Ha; unfold fnma;
      first [apply fma_zn_x; [auto using div_zn; fail|exact Ha]|apply fma_zn_y; [auto using div_zn, mul_zn_l|exact Ha]].
  - specialize (IH (fun p2 Hp => HL p2 (or_intror Hp))). pose proof (HL _ (or_introl eq_refl)) as H2. unfold leaf_pair. cbv zeta.
    destruct (negb _); [|destruct q; try destruct (fast_inv_sqrt O K) as [f|] eqn:Ef]; cbn [fst snd]; auto; apply axpy_zn; auto using mul_zn_l, div_zn.
  - specialize (IH (fun p2 Hp => HL p2 (or_intror Hp))). pose proof (HL _ (or_introl eq_refl)) as H2. cbn [snd] in H2. unfold com_pair. cbv zeta.
    destruct (negb _); [|destruct (fast_inv_sqrt O K) as [f|] eqn:Ef]; cbn [fst snd]; apply axpy_zn; auto using mul_zn_l, div_zn.
  - unfold add_rows. cbn [fst]. apply zip_both; [|apply IH; auto|apply IH'; auto]. { intros x y. apply add_zn. } all: intros p2 Hp; apply HL, in_or_app; auto.
Qed.

End Row.

(** * The masses of the nodes *)

Section Sums.

Variable Q : bf -> Prop.
Hypothesis Q0 : Q zero.
Hypothesis Qadd : forall x y, Q x -> Q y -> Q (fadd O x y).

Lemma hadd_pred : forall pl l, Forall Q l -> Q (hadd O pl l).
Proof.
  assert (FL : forall l x, Q x -> Forall Q l -> Q (fold_left (fadd O) l x)).
  { induction l as [|y l IH]; intros x Hx Hl; cbn [fold_left]; [exact Hx|]. apply IH; [apply Qadd; [exact Hx|exact (Forall_inv Hl)]|exact (Forall_inv_tail Hl)]. }
  assert (PK : forall k l, Forall Q l -> l <> [] -> Q (fst (pick O k l)) /\ Forall Q (snd (pick O k l))).
  { intros k l Hl Hn. pose proof (pick_perm O k l Hn) as P. pose proof (Permutation_Forall P Hl) as R. split; [exact (Forall_inv R)|exact (Forall_inv_tail R)]. }
  induction pl as [|[i j] pl IH]; intros l Hl; cbn [hadd].
  - destruct l as [|x l]; [exact Q0|]. apply FL; [exact (Forall_inv Hl)|exact (Forall_inv_tail Hl)].
  - destruct l as [|x [|y l]]; [exact Q0|exact (Forall_inv Hl)|].
    destruct (PK i (x :: y :: l) Hl ltac:(discriminate)) as [A B]. pose proof (pick_perm O i (x :: y :: l) ltac:(discriminate)) as P. apply Permutation_length in P. cbn [length] in P.
    destruct (pick O i (x :: y :: l)) as [a l1]. cbn [fst snd] in A, B, P.
    destruct (PK j l1 B ltac:(destruct l1; [discriminate|discriminate])) as [A' B']. destruct (pick O j l1) as [b l2]. cbn [fst snd] in A', B'.
    apply IH. constructor; [now apply Qadd|exact B'].
Qed.

Lemma step_pred : forall ccols mcol a k a', Forall Q mcol -> acc_step O ccols mcol a k = Ok a' -> Q (fst a) -> Q (fst a').
Proof.
  intros ccols mcol a k a' Hm H Ha. unfold acc_step in H. unfold rd in H at 1. destruct (nth_error mcol k) as [x|] eqn:Ex; [|discriminate]. cbn [bind] in H.
  destruct (mapM _ _); try discriminate. cbn [bind] in H. injection H as <-. cbn [fst]. apply Qadd; [exact Ha|]. rewrite Forall_forall in Hm. exact (Hm x (nth_error_In _ _ Ex)).
Qed.

Lemma steps_pred : forall ccols mcol, Forall Q mcol -> forall ks a a', foldM (acc_step O ccols mcol) ks a = Ok a' -> Q (fst a) -> Q (fst a').
Proof.
  intros ccols mcol Hm. induction ks as [|k ks IH]; intros a a' H Ha; cbn [foldM] in H; [now injection H as <-|].
  destruct (acc_step O ccols mcol a k) as [a1| |] eqn:E1; try discriminate. cbn [bind] in H. apply (IH a1 a'); [exact H|]. exact (step_pred ccols mcol a k a1 Hm E1 Ha).
Qed.

Lemma vecs_pred : forall ccols mcol, Forall Q mcol -> forall ks l l', foldM (vec_step O ccols mcol) ks l = Ok l' -> Forall Q (map fst l) -> Forall Q (map fst l').
Proof.
  intros ccols mcol Hm. induction ks as [|k ks IH]; intros l l' H Hl; cbn [foldM] in H; [now injection H as <-|].
  destruct (vec_step O ccols mcol l k) as [l1| |] eqn:E1; try discriminate. cbn [bind] in H. apply (IH l1 l'); [exact H|]. clear IH H. unfold vec_step in E1.
  revert l1 E1 Hl. generalize 0 at 1. induction l as [|a l IH]; intros s l1 E1 Hl; cbn [length seq combine mapM] in E1; [injection E1 as <-; constructor|].
  destruct (acc_step O ccols mcol a (k + s)) as [a1| |] eqn:Ea; try discriminate. cbn [bind] in E1. destruct (mapM _ _) as [l2| |] eqn:Em; try discriminate. cbn [bind] in E1. injection E1 as <-.
  cbn [map] in *. constructor; [exact (step_pred _ _ _ _ _ Hm Ea (Forall_inv Hl))|]. exact (IH (Datatypes.S s) l2 Em (Forall_inv_tail Hl)).
Qed.

Lemma node_sums_pred : forall c simd pl ccols mcol b e s, Forall Q mcol -> node_sums O c simd pl ccols mcol b e = Ok s -> Q (fst s).
Proof.
  intros c simd pl ccols mcol b e s Hm H. unfold node_sums in H. cbv zeta in H.
  assert (A : foldM (acc_step O ccols mcol) (seq b (e - b)) (zero_acc O c) = Ok s -> Q (fst s)) by (intros X; exact (steps_pred _ _ Hm _ _ _ X Q0)).
  destruct simd as [bw|]; [|exact (A H)]. destruct (dim c) as [|[|[|[|d]]]] eqn:Ed; try exact (A H).
  destruct (foldM (vec_step _ _ _) _ _) as [lanes| |] eqn:Ev; try discriminate. cbn [bind] in H.
  refine (steps_pred _ _ Hm _ _ _ H _). cbn [fst]. apply hadd_pred. refine (vecs_pred _ _ Hm _ _ _ Ev _).
  apply Forall_map, Forall_forall. intros x Hx. apply repeat_spec in Hx. subst x. exact Q0.
Qed.

End Sums.

(** * Calls *)

Section Tree.

Variables (E : env) (K : platform bf).
Hypothesis HE : env_ok E.
Notation c := (e_cfg E).
Variables (t : @tree bf) (P : nat -> @prow bf).
Hypothesis Ht : tree_inv O E t.
Notation n := (length (t_codes t)).
Hypothesis HP : forall i, i < n -> row (t_parts t) i (fst (P i) ++ [snd (P i)]).

Lemma masses : forall (Q : bf -> Prop) mcol, rd (t_parts t) (dim c) = Ok mcol -> (forall i, i < n -> Q (snd (P i))) -> Forall Q mcol.
Proof.
  intros Q mcol Hc HQ. unfold rd in Hc. destruct (nth_error (t_parts t) (dim c)) as [col|] eqn:Ec; [|discriminate]. injection Hc as ->.
  apply Forall_forall. intros x Hx. apply In_nth_error in Hx as [k Hk].
  assert (Hlt : k < n).
  { destruct (inv_table O E t Ht) as [_ T]. rewrite Forall_forall in T. pose proof (T _ (nth_error_In _ _ Ec)) as L. assert (k < length mcol) by (apply nth_error_Some; congruence). lia. }
  destruct (particle_gen O E t _ _ k Ht (HP k Hlt)) as [_ Lx]. pose proof (HP k Hlt) as R. unfold row in R.
  destruct (BuildProps.Forall2_nth _ _ _ (dim c) _ R Ec) as (y & Y1 & Y2). rewrite nth_error_app2 in Y1 by lia. rewrite Lx, Nat.sub_diag in Y1. injection Y1 as <-. rewrite Hk in Y2. injection Y2 as ->. now apply HQ.
Qed.

Lemma node_pred : forall (Q : bf -> Prop), Q zero -> (forall x y, Q x -> Q y -> Q (fadd O x y)) -> (forall i, i < n -> Q (snd (P i))) ->
  forall a, In a (t_nodes t) -> Q (p_mass (n_props a)).
Proof.
  intros Q Q0 Qadd HQ a Ha. destruct (node_payload_gen O E t a Ht Ha) as [_ H]. unfold cnp, compute_node_properties in H.
  destruct (rd _ _) as [mcol| |] eqn:Em; try discriminate. cbn [bind] in H. destruct (node_sums _ _ _ _ _ _ _ _) as [[m0 c0]| |] eqn:Es; try discriminate. cbn [bind] in H.
  pose proof (node_sums_pred Q Q0 Qadd _ _ _ _ _ _ _ _ (masses Q mcol Em HQ) Es) as R. cbn [fst] in R.
  destruct (get_node_centre _ _ _ _) as [geo| |]; try discriminate. cbn [bind] in H. cbv zeta in H.
  match type of H with (if ?b then _ else _) = _ => destruct b; [discriminate|] end. match type of H with (if ?b then _ else _) = _ => destruct b; [discriminate|] end.
  destruct (e_mac E); repeat match type of H with (if ?b then _ else _) = _ => destruct b; try discriminate end; injection H as <-; exact R.
Qed.

Variables (q : quant) (mv G eps2 : bf).
Hypothesis HK : benign_shift K.

(** What the results of a call are made of. *)
Lemma result_pred : forall (QA QP : bf -> Prop) (M : bf -> Prop) i, i < n -> room E t ->
  M zero -> (forall x y, M x -> M y -> M (fadd O x y)) -> (forall k, k < n -> M (snd (P k))) ->
  (forall r l d, racc O c (e_simd E) K q eps2 (P i) r l d -> (forall p2, In p2 l -> M (snd p2)) -> Forall QA (fst r) /\ Forall QP (snd r)) ->
  (forall x, QA x -> QA (fmul O x G)) -> (forall x, QP x -> QP (fmul O x G)) ->
  exists a p, result_row O E K q t mv G eps2 i = a ++ p /\ length a = (if has_acc q then dim c else 0) /\ length (a ++ p) = nvecs_res E q /\ Forall QA a /\ Forall QP p.
Proof.
  intros QA QP M i Hi Hrm M0 Madd HM HR HA HB. destruct (tiles_find (fun x : cnode => (c_begin x, c_end x)) _ _ _ i (crit_tiles O E t Ht) ltac:(lia)) as (cn & Hcn & Hr). cbn [fst snd] in Hr.
  destruct (crit_node O E t cn Ht Hcn) as (_ & _ & _ & _ & _ & N5).
  destruct (psize_total E n Hrm (c_end cn - c_begin cn) ltac:(lia)) as [psize Hsz].
  destruct (crit_shape O E K HE HK q t P Ht HP mv G eps2 (pad_coord O E (t_box t) mv) cn psize Hcn Hsz) as (A & Dl & PD & HAcc & res & R1 & R2).
  destruct (R2 i Hr) as (r & src & d & m & V1 & V2 & V3 & _ & _ & V4).
  assert (L : Forall QA (fst r) /\ Forall QP (snd r)).
  { apply (HR r src d V3). intros p2 Hp. apply (Permutation_in _ V4) in Hp. apply in_app_or in Hp as [Hp|Hp]; [|apply in_app_or in Hp as [Hp|Hp]].
    - apply in_map_iff in Hp as (k & <- & Hk). apply HM. assert (In k (seq 0 n)); [|apply in_seq in H; lia]. apply (Permutation_in _ PD). apply in_app_or in Hk as [Hk|Hk].
      + apply in_or_app. left. unfold others in Hk. apply filter_In in Hk as [Hk _]. exact Hk.
      + apply in_or_app. right. apply in_or_app. now left.
    - apply in_map_iff in Hp as (a & <- & Ha). cbn [snd]. destruct (HAcc a Ha) as (Ha' & _). exact (node_pred M M0 Madd HM a Ha').
    - apply repeat_spec in Hp. subst p2. exact M0. }
  set (r' := if feq O G (fofZ O 1%Z) then r else scale_row O G r) in *.
  assert (L' : Forall QA (fst r') /\ Forall QP (snd r') /\ length (fst r') = length (fst r) /\ length (snd r') = length (snd r)).
  { unfold r'. destruct L as [L1 L2]. destruct (feq O G (fofZ O 1%Z)); [auto|]. unfold scale_row. cbn [fst snd]. rewrite !map_length. split; [|split; [|auto]].
    - apply Forall_map. eapply Forall_impl; [|exact L1]. exact HA.
    - apply Forall_map. eapply Forall_impl; [|exact L2]. exact HB. }
  destruct L' as (L1 & L2 & L3 & L4). exists (fst r'), (snd r'). split; [|split; [|split; [|split; assumption]]].
  - unfold result_row. replace i with (c_begin cn + (i - c_begin cn)) by lia. apply (row_at_crit O E K q t Ht mv G eps2 _ cn res (i - c_begin cn) r'); auto. lia.
  - rewrite L3. exact (proj1 V2).
  - rewrite app_length, L3, L4, <- app_length. now apply shape_length.
Qed.

End Tree.

Section Call.

Variables (E : env) (K : platform bf).
Hypothesis HE : env_ok E.
Notation c := (e_cfg E).
Variables (t : @tree bf) (P : nat -> @prow bf).
Hypothesis Ht : tree_inv O E t.
Notation n := (length (t_codes t)).
Hypothesis HP : forall i, i < n -> row (t_parts t) i (fst (P i) ++ [snd (P i)]).

Definition pot_col (q : quant) (j : nat) : Prop := q <> QAcc /\ j = nvecs_res E q - 1.

Lemma eps_sp : forall eps eps2, compute_eps2 O eps = Ok eps2 -> sp eps2.
Proof.
  intros eps eps2 C. unfold compute_eps2 in C. destruct (negb (ffin O eps) || _); [discriminate|]. cbv zeta in C.
  destruct (_ || _); [discriminate|]. injection C as <-. apply sq_sp.
Qed.

Lemma dispatch_pred : forall {D} (OD : fops D) ord ordered q theta G eps (split : list D) out out' (QA QP M : bf -> Prop) i,
  benign_shift K -> room E t -> reorders ord -> out_ok n (nvecs_res E q) out ->
  acc_pot_dispatch O OD E K ord ordered q t theta G eps split out = Ok out' -> i < n ->
  M zero -> (forall x y, M x -> M y -> M (fadd O x y)) -> (forall k, k < n -> M (snd (P k))) ->
  (forall eps2 r l d, sp eps2 -> racc O c (e_simd E) K q eps2 (P i) r l d -> (forall p2, In p2 l -> M (snd p2)) -> Forall QA (fst r) /\ Forall QP (snd r)) ->
  (forall x, QA x -> QA (fmul O x G)) -> (forall x, QP x -> QP (fmul O x G)) ->
  forall j, j < nvecs_res E q -> exists v, nth_error (nth j out' []) (dst ordered t i) = Some v /\ (pot_col q j -> QP v) /\ (~ pot_col q j -> QA v).
Proof.
  intros D OD ord ordered q theta G eps split out out' QA QP M i HK Hrm Hord Ho HD Hi M0 Madd HM HR HA HB j Hj.
  destruct (params_dec O OD E t theta G eps split) as [(mv & eps2 & Hp)|Hn].
  2: { destruct (dispatch_not_params O OD E K t theta G eps split Ht Hrm Hn) as (e & _ & X). rewrite X in HD. discriminate. }
  assert (Z : sp eps2) by (destruct Hp as (_ & C & _); exact (eps_sp _ _ C)).
  destruct (dispatch_ok O OD E K HE HK ord ordered q t theta G eps split mv eps2 out Ht Hrm Hord Hp Ho) as (o & D1 & _ & D3 & _).
  rewrite HD in D1. injection D1 as <-. rewrite (D3 j i Hj Hi).
  destruct (result_pred E K HE t P Ht HP q mv G eps2 HK QA QP M i Hi Hrm M0 Madd HM (fun r l d => HR eps2 r l d Z) HA HB) as (a & p & -> & A1 & A2 & A3 & A4).
  destruct (nth_error (a ++ p) j) as [v|] eqn:Ev; [|apply nth_error_None in Ev; lia]. exists v. split; [reflexivity|].
  assert (NV : nvecs_res E q = length a + (if has_pot q then 1 else 0)) by (rewrite A1; unfold nvecs_res; destruct q; cbn [has_acc has_pot]; lia).
  destruct (Nat.lt_ge_cases j (length a)) as [La|La].
  - rewrite nth_error_app1 in Ev by exact La. apply nth_error_In in Ev. rewrite Forall_forall in A3. specialize (A3 v Ev). split; [|auto]. intros [Q1 Q2]. exfalso. destruct q; cbn [has_pot] in NV; [congruence|lia|lia].
  - rewrite nth_error_app2 in Ev by exact La. apply nth_error_In in Ev. rewrite Forall_forall in A4. split; [intros _; exact (A4 v Ev)|]. intros NP. exfalso. apply NP. destruct q; cbn [has_pot] in NV; [lia| |]; (split; [discriminate|lia]).
Qed.

Lemma call_np : forall {D} (OD : fops D) ord ordered q theta G eps (split : list D) out out' i,
  (forall f z, fast_inv_sqrt O K = Some f -> sp z -> nn (f z)) ->
  benign_shift K -> room E t -> reorders ord -> out_ok n (nvecs_res E q) out ->
  (forall k, k < n -> fle O zero (snd (P k)) = true) -> fle O zero G = true ->
  acc_pot_dispatch O OD E K ord ordered q t theta G eps split out = Ok out' -> i < n -> q <> QAcc ->
  exists v, nth_error (nth (nvecs_res E q - 1) out' []) (dst ordered t i) = Some v /\ (is_nan v = true \/ fle O v zero = true).
Proof.
  intros D OD ord ordered q theta G eps split out out' i Hk HK Hrm Hord Ho HM HG HD Hi Hq.
  assert (MN : forall k, k < n -> nn (snd (P k))) by (intros k Hk0; apply nn_of; right; auto).
  assert (LT : nvecs_res E q - 1 < nvecs_res E q) by (unfold nvecs_res; destruct q; [congruence|lia|lia]).
  destruct (dispatch_pred OD ord ordered q theta G eps split out out' (fun _ => True) np nn i HK Hrm Hord Ho HD Hi) with (j := nvecs_res E q - 1) as (v & V1 & V2 & _); auto.
  - exact I.
  - exact add_nn.
  - intros eps2 r l d S R HL. split; [apply Forall_forall; auto|]. exact (racc_np c (e_simd E) K q eps2 S Hk (P i) r l d R (MN i Hi) HL).
  - intros x Hx. apply mul_np; [exact Hx|]. apply nn_of. now right.
  - exists v. split; [exact V1|]. apply np_of, V2. split; auto.
Qed.

Lemma call_target : forall {D} (OD : fops D) ord ordered q theta G eps (split : list D) out out' i,
  benign_shift K -> room E t -> reorders ord -> out_ok n (nvecs_res E q) out ->
  acc_pot_dispatch O OD E K ord ordered q t theta G eps split out = Ok out' -> i < n -> feq O (snd (P i)) zero = true -> q <> QAcc ->
  exists v, nth_error (nth (nvecs_res E q - 1) out' []) (dst ordered t i) = Some v /\ (is_nan v = true \/ feq O v zero = true).
Proof.
  intros D OD ord ordered q theta G eps split out out' i HK Hrm Hord Ho HD Hi HM Hq.
  assert (LT : nvecs_res E q - 1 < nvecs_res E q) by (unfold nvecs_res; destruct q; [congruence|lia|lia]).
  destruct (dispatch_pred OD ord ordered q theta G eps split out out' (fun _ => True) zn (fun _ => True) i HK Hrm Hord Ho HD Hi) with (j := nvecs_res E q - 1) as (v & V1 & V2 & _); auto.
  - intros eps2 r l d S R HL. split; [apply Forall_forall; auto|]. apply (racc_target c (e_simd E) K q eps2 (P i) r l d R). apply zn_of. now right.
  - intros x Hx. now apply mul_zn_l.
  - exists v. split; [exact V1|]. apply zn_of, V2. split; auto.
Qed.

Lemma call_sources : forall {D} (OD : fops D) ord ordered q theta G eps (split : list D) out out' i,
  benign_shift K -> room E t -> reorders ord -> out_ok n (nvecs_res E q) out ->
  (forall k, k < n -> feq O (snd (P k)) zero = true) ->
  acc_pot_dispatch O OD E K ord ordered q t theta G eps split out = Ok out' -> i < n ->
  forall j, j < nvecs_res E q -> exists v, nth_error (nth j out' []) (dst ordered t i) = Some v /\ (is_nan v = true \/ feq O v zero = true).
Proof.
  intros D OD ord ordered q theta G eps split out out' i HK Hrm Hord Ho HM HD Hi j Hj.
  assert (MN : forall k, k < n -> zn (snd (P k))) by (intros k Hk0; apply zn_of; right; auto).
  destruct (dispatch_pred OD ord ordered q theta G eps split out out' zn zn zn i HK Hrm Hord Ho HD Hi) with (j := j) as (v & V1 & V2 & V3); auto.
  - exact I.
  - exact add_zn.
  - intros eps2 r l d S R HL. split; [exact (racc_sources c (e_simd E) K q eps2 (P i) r l d R HL)|exact (racc_target c (e_simd E) K q eps2 (P i) r l d R (MN i Hi))].
  - intros x Hx. now apply mul_zn_l.
  - intros x Hx. now apply mul_zn_l.
  - exists v. split; [exact V1|]. apply zn_of. assert (pot_col q j \/ ~ pot_col q j) as [X|X]; [|auto|auto]. unfold pot_col. destruct (Nat.eq_dec j (nvecs_res E q - 1)), q; (left; split; [discriminate|assumption]) || (right; intros [A B]; congruence).
Qed.

(** The sums over all the particles. *)
Lemma exact_pred : forall (ordered : bool) q o G eps r (QA QP : bf -> Prop) i, (if ordered then nth_error (t_inv t) o else Some o) = Some i -> i < n ->
  exact_acc_pot O E ordered q t o G eps = Ok r -> QA zero -> QP zero ->
  (forall k w ds, k < n -> k <> i -> sp w -> let u := fmul O (fmul O G (snd (P k))) (fdiv O (fofZ O 1%Z) w) in
    (forall l, Forall QA l -> Forall QA (axpy O ds (fmul O (fmul O (fdiv O (fofZ O 1%Z) w) (fdiv O (fofZ O 1%Z) w)) u) l)) /\ (forall x, QP x -> QP (ffma O (fopp O u) (snd (P i)) x))) ->
  forall j, j < nvecs_res E q -> exists v, nth_error r j = Some v /\ (pot_col q j -> QP v) /\ (~ pot_col q j -> QA v).
Proof.
  intros ordered q o G eps r QA QP i Ho Hi H QA0 QP0 ST. unfold exact_acc_pot in H.
  destruct (compute_eps2 O eps) as [eps2| |] eqn:C; try discriminate. cbn [bind] in H. destruct (check_G_const O G); try discriminate. cbn [bind] in H.
  assert (X : (if ordered then rd (t_inv t) o else Ok o) = Ok i) by (destruct ordered; [unfold rd; now rewrite Ho|congruence]). rewrite X in H. cbn [bind] in H.
  pose proof (eps_sp _ _ C) as Z.
  assert (FL : forall ks (r0 r1 : @rrow bf), Forall (fun k => k < n) ks -> foldM (exact_step O E G eps2 (t_parts t) i) ks r0 = Ok r1 ->
    length (fst r0) = (if has_acc q then dim c else 0) -> length (snd r0) = (if has_pot q then 1 else 0) -> Forall QA (fst r0) -> Forall QP (snd r0) ->
    length (fst r1) = (if has_acc q then dim c else 0) /\ length (snd r1) = (if has_pot q then 1 else 0) /\ Forall QA (fst r1) /\ Forall QP (snd r1)).
  { induction ks as [|k ks IH]; intros r0 r1 Hks HF L1 L2 A1 A2; cbn [foldM] in HF.
    - injection HF as <-. auto.
    - pose proof (Forall_inv Hks) as Hk1. pose proof (Forall_inv_tail Hks) as Hks1. destruct (Nat.eq_dec k i) as [->|Hki].
      + assert (EI : exact_step O E G eps2 (t_parts t) i r0 i = Ok r0) by (unfold exact_step; now rewrite Nat.eqb_refl). rewrite EI in HF. cbn [bind] in HF. exact (IH r0 r1 Hks1 HF L1 L2 A1 A2).
      + destruct (particle_gen O E t _ _ k Ht (HP k Hk1)) as [PK LK]. destruct (particle_gen O E t _ _ i Ht (HP i Hi)) as [PI LI].
        unfold exact_step in HF at 1. rewrite (proj2 (Nat.eqb_neq k i) Hki), PK, PI in HF. cbn [bind fst snd] in HF. cbv zeta in HF.
        destruct (ST k _ (diffs O (fst (P k)) (fst (P i))) Hk1 Hki (sqrt_sp _ (dist2_s_sp (diffs O (fst (P k)) (fst (P i))) _ Z))) as [S1 S2].
        refine (IH _ r1 Hks1 HF _ _ _ _); cbn [fst snd].
        * unfold axpy, diffs. rewrite map_length, combine_length, map_length, combine_length, LK, LI, L1. destruct (has_acc q); lia.
        * now rewrite map_length.
        * now apply S1.
        * apply Forall_map. eapply Forall_impl; [|exact A2]. exact S2. }
  destruct (foldM _ _ _) as [r1| |] eqn:HF; try discriminate. cbn [bind] in H. injection H as <-.
  pose proof (nparts_codes O E t Ht) as Nn.
  assert (HS : Forall (fun k => k < n) (seq 0 (nparts t))) by (apply Forall_forall; intros k Hk0; apply in_seq in Hk0; lia).
  destruct (FL _ _ _ HS HF) as (A & B & D1 & D2).
  { unfold row0. cbn [fst]. destruct (has_acc q); [apply repeat_length|reflexivity]. }
  { unfold row0. cbn [snd]. destruct (has_pot q); reflexivity. }
  { unfold row0. cbn [fst]. destruct (has_acc q); [|constructor]. apply Forall_forall. intros x Hx. apply repeat_spec in Hx. now subst. }
  { unfold row0. cbn [snd]. destruct (has_pot q); repeat constructor. exact QP0. }
  intros j Hj. assert (LN : length (fst r1 ++ snd r1) = nvecs_res E q) by (apply shape_length; split; assumption).
  destruct (nth_error (fst r1 ++ snd r1) j) as [v|] eqn:Ev; [|apply nth_error_None in Ev; lia]. exists v. split; [reflexivity|].
  assert (NV : nvecs_res E q = length (fst r1) + (if has_pot q then 1 else 0)) by (rewrite A; unfold nvecs_res; destruct q; cbn [has_acc has_pot]; lia).
  destruct (Nat.lt_ge_cases j (length (fst r1))) as [La|La].
  - rewrite nth_error_app1 in Ev by exact La. apply nth_error_In in Ev. rewrite Forall_forall in D1. specialize (D1 v Ev). split; [|auto]. intros [Q1 Q2]. exfalso. destruct q; cbn [has_pot] in NV; [congruence|lia|lia].
  - rewrite nth_error_app2 in Ev by exact La. apply nth_error_In in Ev. rewrite Forall_forall in D2. split; [intros _; exact (D2 v Ev)|]. intros NP. exfalso. apply NP. destruct q; cbn [has_pot] in NV; [lia| |]; (split; [discriminate|lia]).
Qed.

Lemma exact_signs : forall (ordered : bool) q o G eps r i, (if ordered then nth_error (t_inv t) o else Some o) = Some i -> i < n ->
  exact_acc_pot O E ordered q t o G eps = Ok r ->
  ((forall k, k < n -> fle O zero (snd (P k)) = true) -> fle O zero G = true -> q <> QAcc -> exists v, nth_error r (nvecs_res E q - 1) = Some v /\ (is_nan v = true \/ fle O v zero = true)) /\
  (feq O (snd (P i)) zero = true -> q <> QAcc -> exists v, nth_error r (nvecs_res E q - 1) = Some v /\ (is_nan v = true \/ feq O v zero = true)) /\
  ((forall k, k < n -> feq O (snd (P k)) zero = true) -> forall j, j < nvecs_res E q -> exists v, nth_error r j = Some v /\ (is_nan v = true \/ feq O v zero = true)).
Proof.
  intros ordered q o G eps r i Ho Hi H.
  assert (LT : q <> QAcc -> nvecs_res E q - 1 < nvecs_res E q) by (intros Hq; unfold nvecs_res; destruct q; [congruence|lia|lia]).
  split; [|split].
  - intros HM HG Hq. assert (MN : forall k, k < n -> nn (snd (P k))) by (intros k Hk0; apply nn_of; right; auto). assert (GN : nn G) by (apply nn_of; now right).
    destruct (exact_pred ordered q o G eps r (fun _ => True) np i Ho Hi H I zero_np) with (j := nvecs_res E q - 1) as (v & V1 & V2 & _); auto.
    + intros k w ds Hk Hki Hw u. split; [intros; apply Forall_forall; auto|]. intros x Hx. apply fma_np; [|auto|exact Hx]. apply np_opp. apply mul_nn; [apply mul_nn; auto|]. apply div_nn; [apply one_nn|exact Hw].
    + exists v. split; [exact V1|]. apply np_of, V2. split; auto.
  - intros HM Hq. assert (MN : zn (snd (P i))) by (apply zn_of; right; auto).
    destruct (exact_pred ordered q o G eps r (fun _ => True) zn i Ho Hi H I zero_zn) with (j := nvecs_res E q - 1) as (v & V1 & V2 & _); auto.
    + intros k w ds Hk Hki Hw u. split; [intros; apply Forall_forall; auto|]. intros x Hx. now apply fma_zn_y.
    + exists v. split; [exact V1|]. apply zn_of, V2. split; auto.
  - intros HM j Hj. assert (MN : forall k, k < n -> zn (snd (P k))) by (intros k Hk0; apply zn_of; right; auto).
    destruct (exact_pred ordered q o G eps r zn zn i Ho Hi H zero_zn zero_zn) with (j := j) as (v & V1 & V2 & V3); auto.
    + intros k w ds Hk Hki Hw u. assert (U : zn u) by (apply mul_zn_l, mul_zn_r; auto). split.
      * intros l Hl. apply axpy_zn; [now apply mul_zn_r|exact Hl].
      * intros x Hx. apply fma_zn_x; [now apply opp_zn|exact Hx].
    + exists v. split; [exact V1|]. apply zn_of. assert (pot_col q j \/ ~ pot_col q j) as [X|X]; [|auto|auto]. unfold pot_col. destruct (Nat.eq_dec j (nvecs_res E q - 1)), q; (left; split; [discriminate|assumption]) || (right; intros [A B]; congruence).
Qed.

End Call.

Lemma platform_signs : forall K : platform bf,
  (forall f z, k_rsqrt K = Some f -> Bsign z = false -> let y := newton_iter O (f z) z in is_nan y = true \/ fle O zero y = true) ->
  forall f z, fast_inv_sqrt O K = Some f -> sp z -> nn (f z).
Proof.
  intros K H f z Hf Hz. unfold fast_inv_sqrt in Hf. destruct (k_rsqrt K) as [g|] eqn:Eg; [|discriminate]. injection Hf as <-. apply nn_of. apply (H g z eq_refl).
  destruct z; cbn in *; auto.
Qed.

End C.

Lemma sf_inj : forall prec emax (l l' : list (binary_float prec emax)), map B2SF l = map B2SF l' -> l = l'.
Proof. intros prec emax. induction l as [|x l IH]; intros [|y l'] H; try discriminate H; [reflexivity|]. cbn [map] in H. injection H as H1 H2. f_equal; [now apply B2SF_inj|now apply IH]. Qed.
Lemma sf_inj2 : forall prec emax (l l' : list (list (binary_float prec emax))), map (map B2SF) l = map (map B2SF) l' -> l = l'.
Proof. intros prec emax. induction l as [|x l IH]; intros [|y l'] H; try discriminate H; [reflexivity|]. cbn [map] in H. injection H as H1 H2. f_equal; [now apply sf_inj|now apply IH]. Qed.
