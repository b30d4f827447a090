(** Particles at the same place without softening, in floating-point arithmetic: the accelerations of both are NaN and the potentials are not finite. *)
From Coq Require Import List Arith ZArith NArith Reals Bool Lia Lra Permutation.
From Flocq Require Import Core BinarySingleNaN.
From Verif Require Import Base Config Morton Build BuildProps TreeSpec FOps FOpsProofs Disc NodeProps Tree TreeInv TreeProofs Kernels TravProofs KernLoops SelfShape TreeShape Force ForceGen ForceOut ForceRTop ForceTop RoundSrc RoundExact BuildProofs.
Import ListNotations.
Local Open Scope nat_scope.

Section C.

Variables prec emax : Z.
Context (Hprec : Prec_gt_0 prec).
Context (Hemax : Prec_lt_emax prec emax).
Variable fused : bool.
Notation bf := (binary_float prec emax).
Notation O := (Bops prec emax Hprec Hemax fused).

Definition bad (x : bf) : Prop := is_finite x = false.
Definition isnan (x : bf) : Prop := is_nan x = true.
Definition isz (x : bf) : Prop := exists s, x = B754_zero s.

Lemma nan_bad : forall x, isnan x -> bad x.
Proof. now intros []. Qed.

Lemma nan_eq : forall x, isnan x -> x = B754_nan.
Proof. now intros []. Qed.

Lemma isz_of : forall x : bf, is_finite x = true -> B2R x = 0%R -> isz x.
Proof.
  intros [s|s| |s m e H] F Z; try discriminate; [now exists s|]. exfalso. cbn in Z. revert Z.
  destruct s; cbn [cond_Zopp]; [apply Rlt_not_eq, F2R_lt_0; reflexivity|apply Rgt_not_eq, F2R_gt_0; reflexivity].
Qed.

Ltac ops := cbn [fadd fsub fmul fdiv ffma fsqrt fopp fofZ Bops].
Ltac cases := repeat match goal with |- context [if ?b then _ else _] => destruct b end.

Lemma add_nan_l : forall x y, isnan x -> isnan (fadd O x y).
Proof. intros x y H. rewrite (nan_eq x H). ops. now destruct y. Qed.
Lemma add_nan_r : forall x y, isnan y -> isnan (fadd O x y).
Proof. intros x y H. rewrite (nan_eq y H). ops. now destruct x. Qed.
Lemma mul_nan_l : forall x y, isnan x -> isnan (fmul O x y).
Proof. intros x y H. rewrite (nan_eq x H). ops. now destruct y. Qed.
Lemma mul_nan_r : forall x y, isnan y -> isnan (fmul O x y).
Proof. intros x y H. rewrite (nan_eq y H). ops. now destruct x. Qed.
Lemma sub_nan_r : forall x y, isnan y -> isnan (fsub O x y).
Proof. intros x y H. rewrite (nan_eq y H). ops. now destruct x. Qed.
Lemma fma_nan_z : forall x y z, isnan z -> isnan (ffma O x y z).
Proof. intros x y z H. rewrite (nan_eq z H). ops. unfold b_fma. destruct fused; destruct x, y; reflexivity || (cbn; destruct (binary_round_aux _ _ _ _ _ _); reflexivity) || (apply add_nan_r; reflexivity). Qed.

Lemma add_bad_l : forall x y, bad x -> bad (fadd O x y).
Proof. intros x y H. ops. destruct x, y; try discriminate H; try reflexivity; cbn; cases; reflexivity. Qed.
Lemma add_bad_r : forall x y, bad y -> bad (fadd O x y).
Proof. intros x y H. ops. destruct x, y; try discriminate H; try reflexivity; cbn; cases; reflexivity. Qed.
Lemma sub_bad_l : forall x y, bad x -> bad (fsub O x y).
Proof. intros x y H. ops. destruct x, y; try discriminate H; try reflexivity; cbn; cases; reflexivity. Qed.
Lemma sub_bad_r : forall x y, bad y -> bad (fsub O x y).
Proof. intros x y H. ops. destruct x, y; try discriminate H; try reflexivity; cbn; cases; reflexivity. Qed.
Lemma mul_bad_l : forall x y, bad x -> bad (fmul O x y).
Proof. intros x y H. ops. destruct x, y; try discriminate H; reflexivity. Qed.
Lemma mul_bad_r : forall x y, bad y -> bad (fmul O x y).
Proof. intros x y H. ops. destruct x, y; try discriminate H; reflexivity. Qed.
Lemma opp_bad : forall x, bad x -> bad (fopp O x).
Proof. intros x H. ops. destruct x; try discriminate H; reflexivity. Qed.
Lemma fma_bad_z : forall x y z, bad z -> bad (ffma O x y z).
Proof.
  intros x y z H. ops. unfold b_fma. destruct fused; [|now apply add_bad_r]. destruct x, y, z; try discriminate H; try reflexivity; cbn; cases; reflexivity.
Qed.
Lemma fma_bad_x : forall x y z, bad x -> bad (ffma O x y z).
Proof.
  intros x y z H. ops. unfold b_fma. destruct fused; [|apply add_bad_l; now apply mul_bad_l]. destruct x, y, z; try discriminate H; try reflexivity; cbn; cases; reflexivity.
Qed.
Lemma fma_bad_y : forall x y z, bad y -> bad (ffma O x y z).
Proof.
  intros x y z H. ops. unfold b_fma. destruct fused; [|apply add_bad_l; now apply mul_bad_r]. destruct x, y, z; try discriminate H; try reflexivity; cbn; cases; reflexivity.
Qed.

(** Zero times something that is not finite. *)
Lemma mul_zero_bad : forall x y, isz x -> bad y -> isnan (fmul O x y).
Proof. intros x y (s & ->) H. ops. destruct y; try discriminate H; reflexivity. Qed.
Lemma fma_zero_bad : forall x y z, isz x -> bad y -> isnan (ffma O x y z).
Proof.
  intros x y z (s & ->) H. ops. unfold b_fma. destruct fused; [|apply add_nan_l, (mul_zero_bad _ _ (ex_intro _ s eq_refl) H)]. destruct y, z; try discriminate H; reflexivity.
Qed.
Lemma fma_bad_zero : forall x y z, bad x -> isz y -> isnan (ffma O x y z).
Proof.
  intros x y z H (s & ->). ops. unfold b_fma. destruct fused; [destruct x, z; try discriminate H; reflexivity|]. apply add_nan_l. ops. destruct x; try discriminate H; reflexivity.
Qed.

Lemma opp_zero : forall x, isz x -> isz (fopp O x).
Proof. intros x (s & ->). eexists. reflexivity. Qed.
Lemma sqrt_zero : forall x, isz x -> isz (fsqrt O x).
Proof. intros x (s & ->). eexists. reflexivity. Qed.
Lemma mul_zero : forall x y, isz x -> isz y -> isz (fmul O x y).
Proof. intros x y (s & ->) (s' & ->). eexists. reflexivity. Qed.
Lemma add_zero : forall x y, isz x -> isz y -> isz (fadd O x y).
Proof. intros x y (s & ->) (s' & ->). ops. cbn. destruct (Bool.eqb s s'); eexists; reflexivity. Qed.
Lemma fma_zero : forall x y z, isz x -> isz y -> isz z -> isz (ffma O x y z).
Proof.
  intros x y z (s & ->) (s' & ->) (s2 & ->). ops. unfold b_fma. destruct fused; cbn; destruct (Bool.eqb _ _) || idtac; eexists; reflexivity.
Qed.
Lemma div_zero : forall x y, isz y -> bad (fdiv O x y).
Proof. intros x y (s & ->). ops. destruct x; reflexivity. Qed.

Lemma sub_same : forall x y, is_finite x = true -> is_finite y = true -> B2R x = B2R y -> isz (fsub O x y).
Proof.
  intros x y Fx Fy E. pose proof (Bminus_correct prec emax Hprec Hemax mode_NE x y Fx Fy) as H. rewrite E in H. rewrite Rminus_diag_eq, round_0, Rabs_R0 in H by (reflexivity || apply valid_rnd_N).
  rewrite Rlt_bool_true in H by apply bpow_gt_0. destruct H as (H1 & H2 & _). now apply isz_of.
Qed.

(** Lists. *)
Lemma zip_nan_r : forall (f : bf * bf -> bf) l acc, (forall d a, isnan a -> isnan (f (d, a))) -> Forall isnan acc -> Forall isnan (map f (combine l acc)).
Proof.
  intros f l acc Hf H. apply Forall_map, Forall_forall. intros [d a] Hin. apply Hf. rewrite Forall_forall in H. exact (H _ (in_combine_r _ _ _ _ Hin)).
Qed.
Lemma zip_l : forall (Q R : bf -> Prop) (f : bf * bf -> bf) l acc, (forall d a, Q d -> R (f (d, a))) -> Forall Q l -> Forall R (map f (combine l acc)).
Proof.
  intros Q R f l acc Hf H. apply Forall_map, Forall_forall. intros [d a] Hin. apply Hf. rewrite Forall_forall in H. exact (H _ (in_combine_l _ _ _ _ Hin)).
Qed.
Lemma zip_r : forall (Q R : bf -> Prop) (f : bf * bf -> bf) l acc, (forall d a, Q a -> R (f (d, a))) -> Forall Q acc -> Forall R (map f (combine l acc)).
Proof.
  intros Q R f l acc Hf H. apply Forall_map, Forall_forall. intros [d a] Hin. apply Hf. rewrite Forall_forall in H. exact (H _ (in_combine_r _ _ _ _ Hin)).
Qed.
Lemma map_bad : forall (f : bf -> bf) l, (forall x, bad x -> bad (f x)) -> Forall bad l -> Forall bad (map f l).
Proof. intros f l Hf H. apply Forall_map. eapply Forall_impl; [|exact H]. exact Hf. Qed.
Lemma map_all : forall (f : bf -> bf) l, (forall x, bad (f x)) -> Forall bad (map f l).
Proof. intros f l Hf. apply Forall_map, Forall_forall. intros x _. apply Hf. Qed.

(** Places with the same coordinates. *)
Definition same (x y : list bf) : Prop := Forall2 (fun a b => is_finite a = true /\ is_finite b = true /\ B2R a = B2R b) x y.

Lemma same_sym : forall x y, same x y -> same y x.
Proof. intros x y H. induction H as [|a b x y (A & B & C) H IH]; constructor; [now rewrite C|exact IH]. Qed.

Lemma diffs_zero : forall x y, same x y -> Forall isz (diffs O x y).
Proof. intros x y H. induction H as [|a b x y (A & B & C) H IH]; cbn; constructor; [now apply sub_same|exact IH]. Qed.

Lemma dist2_s_zero : forall ds e, Forall isz ds -> isz e -> isz (dist2_s O e ds).
Proof. unfold dist2_s. induction ds as [|d ds IH]; intros e H He; cbn [fold_left]; [exact He|]. pose proof (Forall_inv H). apply IH; [exact (Forall_inv_tail H)|now apply fma_zero]. Qed.

Lemma dist2_v_zero : forall ds e, Forall isz ds -> isz e -> isz (dist2_v O e ds).
Proof.
  intros ds e H He. pose proof (dist2_s_zero ds e H He) as S. unfold dist2_v. destruct ds as [|x [|y [|z [|? ?]]]]; try exact S.
  pose proof (Forall_inv H) as Hx. pose proof (Forall_inv_tail H) as H1. pose proof (Forall_inv H1) as Hy. pose proof (Forall_inv (Forall_inv_tail H1)) as Hz.
  apply add_zero; [apply add_zero; now apply mul_zero|now apply fma_zero].
Qed.

Section Row.

Variable c : cfg.
Variable simd : option nat.
Variable K : platform bf.
Variables (q : quant) (eps2 : bf).
Hypothesis He : isz eps2.
Hypothesis Hk : forall f z, k_rsqrt K = Some f -> isz z -> bad (f z).

Notation racc := (racc O c simd K q eps2).

Lemma mac_zero : forall ds, Forall isz ds -> isz (mac_dist2 O c simd ds).
Proof.
  intros ds H. assert (Z0 : isz (fofZ O 0%Z)) by (exists false; reflexivity). pose proof (dist2_s_zero ds _ H Z0) as S. unfold dist2_s in S.
  unfold mac_dist2. destruct (negb _); [exact S|]. destruct ds as [|x [|y [|z [|? ?]]]]; try exact S.
  pose proof (Forall_inv H) as Hx. pose proof (Forall_inv_tail H) as H1. pose proof (Forall_inv H1) as Hy. pose proof (Forall_inv (Forall_inv_tail H1)) as Hz.
  apply add_zero; [apply add_zero|]; now apply mul_zero.
Qed.

Lemma fma_nan_x : forall x y z, isnan x -> isnan (ffma O x y z).
Proof. intros x y z H. rewrite (nan_eq x H). ops. unfold b_fma. destruct fused; [destruct y, z; reflexivity|]. apply (add_nan_l (fmul O B754_nan y) z), mul_nan_l. reflexivity. Qed.

Lemma opp_nan : forall x, isnan x -> isnan (fopp O x).
Proof. intros x H. rewrite (nan_eq x H). reflexivity. Qed.

Lemma inv_nan : forall f z, fast_inv_sqrt O K = Some f -> isz z -> isnan (f z).
Proof.
  intros f z H Z. unfold fast_inv_sqrt in H. destruct (k_rsqrt K) as [g|] eqn:Eg; [|discriminate]. injection H as <-.
  pose proof (Hk g z eq_refl Z) as B. unfold newton_iter. cbv zeta. apply mul_nan_r. unfold fnma. apply fma_nan_x.
  apply opp_nan. now apply mul_zero_bad.
Qed.

Lemma cube_nan : forall x, isnan x -> isnan (cube O x).
Proof. intros x H. unfold cube. now apply mul_nan_r. Qed.

Lemma axpy_bad : forall ds k acc, Forall isz ds -> bad k -> Forall isnan (axpy O ds k acc).
Proof. intros ds k acc H B. unfold axpy. apply (zip_l isz); [|exact H]. intros d a Hd. now apply fma_zero_bad. Qed.

Lemma axpy_keep : forall ds k acc, Forall isnan acc -> Forall isnan (axpy O ds k acc).
Proof. intros ds k acc H. unfold axpy. apply zip_nan_r; [|exact H]. intros d a Ha. now apply fma_nan_z. Qed.

Definition lost (r : @rrow bf) : Prop := Forall isnan (fst r) /\ Forall bad (snd r).
Definition fits (r : @rrow bf) : Prop := (has_acc q = false -> fst r = []) /\ (has_pot q = false -> snd r = []).

(** The interaction with a source at the same place. *)
Lemma pair_lost : forall p1 p2 a r, same (fst p2) (fst p1) -> lost (fst (self_pair O c simd K q eps2 p1 p2 a r)) /\ lost (snd (self_pair O c simd K q eps2 p1 p2 a r)).
Proof.
  intros p1 p2 a r H. pose proof (diffs_zero _ _ H) as D. pose proof (dist2_s_zero _ _ D He) as S. pose proof (dist2_v_zero _ _ D He) as V.
  unfold self_pair. cbv zeta. destruct (negb _).
  - pose proof (div_zero (snd p1) _ (sqrt_zero _ S)) as B1. pose proof (fun m => div_zero m _ (mul_zero _ _ S (sqrt_zero _ S))) as B3.
    unfold lost. cbn [fst snd]. repeat split; try (apply map_all; intros x; apply sub_bad_r, mul_bad_l; exact B1).
    + apply (zip_l isz); [|exact D]. intros d x Hd. now apply fma_bad_zero.
    + apply (zip_l isz); [|exact D]. intros d x Hd. apply fma_bad_zero; [apply B3|now apply opp_zero].
  - assert (G : forall k1 k2 k3, bad k1 -> bad k2 -> bad k3 -> lost (axpy O (diffs O (fst p2) (fst p1)) k3 (fst a), map (fun p => fsub O p (fmul O k1 (snd p2))) (snd a)) /\
        lost (map (fun '(d, x) => fnma O d k2 x) (combine (diffs O (fst p2) (fst p1)) (fst r)), map (fun p => fsub O p (fmul O k1 (snd p2))) (snd r))).
    { intros k1 k2 k3 B1 B2 B3. unfold lost. cbn [fst snd]. repeat split; try (apply map_all; intros x; apply sub_bad_r, mul_bad_l; exact B1).
      - now apply axpy_bad.
      - apply (zip_l isz); [|exact D]. intros d x Hd. unfold fnma. apply fma_zero_bad; [now apply opp_zero|exact B2]. }
    destruct (fast_inv_sqrt O K) as [f|] eqn:Ef; cbn [fst snd].
    + pose proof (inv_nan f _ Ef V) as N1. pose proof (cube_nan _ N1) as N3.
      apply G; apply mul_bad_r, nan_bad; assumption.
    + pose proof (sqrt_zero _ V) as V1. apply G; apply div_zero; auto; now apply mul_zero.
Qed.

Lemma leaf_lost : forall p1 p2 r, same (fst p2) (fst p1) -> fits r -> lost (leaf_pair O c simd K q eps2 p1 p2 r).
Proof.
  intros p1 p2 r H [W1 W2]. pose proof (diffs_zero _ _ H) as D. pose proof (dist2_s_zero _ _ D He) as S. pose proof (dist2_v_zero _ _ D He) as V.
  pose proof (sqrt_zero _ S) as S1. pose proof (sqrt_zero _ V) as V1.
  unfold leaf_pair. cbv zeta. destruct (negb _).
  - split; cbn [fst snd]; [apply axpy_bad; [exact D|apply div_zero; now apply mul_zero]|]. apply map_all. intros x. apply fma_bad_y. now apply div_zero.
  - destruct q; cbn [has_acc has_pot] in *.
    + split; cbn [fst snd]; [|rewrite W2 by reflexivity; constructor]. apply axpy_bad; [exact D|]. destruct (fast_inv_sqrt O K) as [f|] eqn:Ef.
      * apply mul_bad_r, nan_bad, cube_nan. now apply inv_nan.
      * apply div_zero. now apply mul_zero.
    + split; cbn [fst snd]; [rewrite W1 by reflexivity; constructor|]. apply map_all. intros x. apply sub_bad_r, mul_bad_l. destruct (fast_inv_sqrt O K) as [f|] eqn:Ef.
      * apply mul_bad_r, nan_bad. now apply inv_nan.
      * now apply div_zero.
    + destruct (fast_inv_sqrt O K) as [f|] eqn:Ef; cbn [fst snd]; split; cbn [fst snd].
      * apply axpy_bad; [exact D|]. apply mul_bad_r, nan_bad, cube_nan. now apply inv_nan.
      * apply map_all. intros x. unfold fnma. apply fma_bad_y. apply mul_bad_r, nan_bad. now apply inv_nan.
      * apply axpy_bad; [exact D|]. apply div_zero. now apply mul_zero.
      * apply map_all. intros x. unfold fnma. apply fma_bad_y. now apply div_zero.
Qed.

Lemma com_lost : forall com ms p1 r, same com (fst p1) -> lost (com_pair O c simd K ms p1 (snd (mac_lane O c simd K eps2 com p1)) r).
Proof.
  intros com ms p1 r H. pose proof (diffs_zero _ _ H) as D. pose proof (add_zero _ _ (mac_zero _ D) He) as S. pose proof (sqrt_zero _ S) as S1. pose proof (mul_zero _ _ S1 S) as S3.
  unfold com_pair, mac_lane. cbv zeta. destruct (vectorised c simd); cbn [negb].
  - destruct (fast_inv_sqrt O K) as [f|] eqn:Ef; cbn [snd tmp_diffs tmp_dist3 tmp_dist]; split; cbn [fst snd].
    + apply axpy_bad; [exact D|]. apply mul_bad_r, nan_bad, cube_nan. now apply inv_nan.
    + apply map_all. intros x. unfold fnma. apply fma_bad_y. apply mul_bad_r, nan_bad. now apply inv_nan.
    + apply axpy_bad; [exact D|]. now apply div_zero.
    + apply map_all. intros x. unfold fnma. apply fma_bad_y. now apply div_zero.
  - cbn [snd tmp_diffs tmp_dist3 tmp_dist]; split; cbn [fst snd].
    + apply axpy_bad; [exact D|]. now apply div_zero.
    + apply map_all. intros x. apply fma_bad_y. now apply div_zero.
Qed.

(** What is lost stays lost. *)
Lemma pair_keep : forall p1 p2 a r, (lost a -> lost (fst (self_pair O c simd K q eps2 p1 p2 a r))) /\ (lost r -> lost (snd (self_pair O c simd K q eps2 p1 p2 a r))).
Proof.
  intros p1 p2 a r. unfold self_pair. cbv zeta.
  destruct (negb _); [|destruct (fast_inv_sqrt O K) as [f|]]; split; intros [H1 H2]; split; cbn [fst snd];
    try (apply map_bad; [|exact H2]; intros x Hx; now apply sub_bad_l); try now apply axpy_keep.
  all: apply zip_nan_r; [|exact H1]; intros d x Hx; unfold fnma; now apply fma_nan_z.
Qed.

Lemma leaf_keep : forall p1 p2 r, lost r -> lost (leaf_pair O c simd K q eps2 p1 p2 r).
Proof.
  intros p1 p2 r [H1 H2]. unfold leaf_pair. cbv zeta.
  destruct (negb _); [|destruct q; try destruct (fast_inv_sqrt O K) as [f|]]; split; cbn [fst snd]; auto; try now apply axpy_keep.
  all: apply map_bad; [|exact H2]; intros x Hx; unfold fnma; (now apply fma_bad_z) || now apply sub_bad_l.
Qed.

Lemma com_keep : forall ms p1 tmp r, lost r -> lost (com_pair O c simd K ms p1 tmp r).
Proof.
  intros ms p1 tmp r [H1 H2]. unfold com_pair. cbv zeta.
  destruct (negb _); split; cbn [fst snd]; auto; try now apply axpy_keep.
  all: apply map_bad; [|exact H2]; intros x Hx; unfold fnma; now apply fma_bad_z.
Qed.

Lemma add_keep : forall r a, lost r \/ lost a -> lost (add_rows O r a).
Proof.
  intros r a H. unfold add_rows. destruct H as [[H1 H2]|[H1 H2]]; split; cbn [fst snd].
  - apply (zip_l isnan); [|exact H1]. intros d x Hd. now apply add_nan_l.
  - apply (zip_l bad); [|exact H2]. intros d x Hd. now apply add_bad_l.
  - apply (zip_r isnan); [|exact H1]. intros d x Hd. now apply add_nan_r.
  - apply (zip_r bad); [|exact H2]. intros d x Hd. now apply add_bad_r.
Qed.

(** The parts which are not computed are empty. *)
Lemma zip_nil : forall (f : bf * bf -> bf) l acc, acc = [] -> map f (combine l acc) = [].
Proof. intros f l acc ->. now destruct l. Qed.
Lemma map_nil : forall (f : bf -> bf) l, l = [] -> map f l = [].
Proof. now intros f l ->. Qed.

Lemma racc_fits : forall p1 r l d, racc p1 r l d -> fits r.
Proof.
  intros p1 r l d H. induction H as [|p2 a r l d H [I1 I2]|p2 a r l d H [I1 I2]|p2 r l d H [I1 I2]|com ms r l d H [I1 I2]|r l d a l' d' H [I1 I2] H' [J1 J2]].
  - unfold fits, row0. cbn [fst snd]. destruct q; cbn [has_acc has_pot]; split; intros; reflexivity || discriminate.
  - unfold self_pair. cbv zeta. destruct (negb _); [|destruct (fast_inv_sqrt O K) as [f|]]; split; cbn [fst snd]; intros X; try (apply zip_nil; now apply I1); try (apply map_nil; now apply I2).
  - unfold self_pair. cbv zeta. destruct (negb _); [|destruct (fast_inv_sqrt O K) as [f|]]; split; cbn [fst snd]; intros X; try (apply zip_nil; now apply I1); try (apply map_nil; now apply I2).
  - clear H. unfold leaf_pair, fits. cbv zeta. destruct (negb _); [|destruct q; try destruct (fast_inv_sqrt O K) as [f|]]; split; cbn [fst snd]; intros X;
      try (apply zip_nil; now apply I1); try (apply map_nil; now apply I2); try (now apply I1); try (now apply I2).
  - unfold com_pair. cbv zeta. destruct (negb _); split; cbn [fst snd]; intros X; try (apply zip_nil; now apply I1); try (apply map_nil; now apply I2).
  - unfold add_rows. split; cbn [fst snd]; intros X; [rewrite (I1 X)|rewrite (I2 X)]; reflexivity.
Qed.

Lemma racc_lost : forall p1 r l d, racc p1 r l d -> (exists p2, In p2 l /\ same (fst p2) (fst p1)) -> lost r.
Proof.
  intros p1 r l d H. induction H as [|p2 a r l d H IH|p2 a r l d H IH|p2 r l d H IH|com ms r l d H IH|r l d a l' d' H IH H' IH']; intros (s & Hin & Hs).
  - destruct Hin.
  - destruct Hin as [<-|Hin]; [now apply (pair_lost p1 p2 a r)|]. apply (proj1 (pair_keep p1 p2 a r)). apply IH. eauto.
  - destruct Hin as [<-|Hin]; [apply (pair_lost p2 p1 a r); now apply same_sym|]. apply (proj2 (pair_keep p2 p1 a r)). apply IH. eauto.
  - destruct Hin as [<-|Hin]; [apply leaf_lost; [exact Hs|exact (racc_fits _ _ _ _ H)]|]. apply leaf_keep. apply IH. eauto.
  - destruct Hin as [<-|Hin]; [now apply com_lost|]. apply com_keep. apply IH. eauto.
  - apply add_keep. apply in_app_or in Hin as [Hin|Hin]; [right; apply IH'|left; apply IH]; eauto.
Qed.

End Row.

(** Equal values, with signed zeros identified. *)
Definition sim (x y : bf) : Prop := x = y \/ isz x /\ isz y.

Lemma sim_of : forall x y : bf, is_finite x = true -> is_finite y = true -> B2R x = B2R y -> sim x y.
Proof.
  intros x y Fx Fy H. destruct (is_finite_strict x) eqn:Sx; [destruct (is_finite_strict y) eqn:Sy|].
  - left. now apply B2R_inj.
  - assert (Zy : isz y) by (destruct y; try discriminate; eexists; reflexivity). right. split; [|exact Zy]. apply isz_of; [exact Fx|]. rewrite H. destruct Zy as (s & ->). reflexivity.
  - assert (Zx : isz x) by (destruct x; try discriminate; eexists; reflexivity). right. split; [exact Zx|]. apply isz_of; [exact Fy|]. rewrite <- H. destruct Zx as (s & ->). reflexivity.
Qed.

Ltac zz := first [left; reflexivity|right; split; eexists; reflexivity].

Lemma sim_fma : forall x y a b, sim x y -> sim (ffma O x a b) (ffma O y a b).
Proof.
  intros x y a b [->|[(s & ->) (s' & ->)]]; [now left|]. ops. unfold b_fma. destruct fused, a, b, s, s'; cbn; cases; zz.
Qed.
Lemma sim_mul : forall x y a, sim x y -> sim (fmul O x a) (fmul O y a).
Proof. intros x y a [->|[(s & ->) (s' & ->)]]; [now left|]. ops. destruct a; cbn; zz. Qed.

Lemma disc_sim : forall c x y i, sim x y -> disc_single_coord O c false x i = disc_single_coord O c false y i.
Proof.
  intros c x y i H. unfold disc_single_coord. cbv zeta.
  match goal with |- context [fmul O (ffma O x i ?h) ?f] => pose proof (sim_mul _ _ f (sim_fma x y i h H)) as T; revert T; generalize (fmul O (ffma O x i h) f) (fmul O (ffma O y i h) f) end.
  intros u v [->|[(s & ->) (s' & ->)]]; [reflexivity|].
  match goal with |- context [fle O ?ff] => generalize ff end. intros ff.
  assert (L : forall z, fle O ff (B754_zero z) = fle O ff (B754_zero s)) by (intros z; destruct z, s, ff as [[]|[]| |[] ? ? ?]; reflexivity).
  assert (M : forall z, flt O (B754_zero z) (fofZ O 0%Z) = false) by (intros []; reflexivity).
  rewrite (L s'), !M. change (ffin O (B754_zero s)) with true. change (ffin O (B754_zero s')) with true. cbn [negb orb].
  destruct (fle O ff (B754_zero s)); [reflexivity|]. reflexivity.
Qed.

Lemma disc_finite : forall c x i d, disc_single_coord O c false x i = Ok d -> is_finite x = true.
Proof.
  intros c x i d H. unfold disc_single_coord in H. cbv zeta in H. destruct (is_finite x) eqn:F; [reflexivity|]. exfalso.
  match type of H with context [ffin O ?t] => assert (B : ffin O t = false) by (apply mul_bad_l, fma_bad_x; exact F); rewrite B in H end. discriminate.
Qed.

Lemma code_finite : forall c xs i x, particle_code O c xs i = Ok x -> Forall (fun a => is_finite a = true) xs.
Proof.
  intros c xs i x H. unfold particle_code in H. destruct (mapM _ xs) as [ds| |] eqn:Em; try discriminate. apply mapM_Ok in Em as [_ Em]. clear H.
  apply Forall_forall. intros a Ha. apply In_nth_error in Ha as [k Hk]. destruct (Em k a Hk) as (d & _ & Hd). exact (disc_finite _ _ _ _ Hd).
Qed.

Lemma same_of : forall xs ys, Forall (fun a : bf => is_finite a = true) xs -> Forall (fun a : bf => is_finite a = true) ys -> map B2R xs = map B2R ys -> same xs ys.
Proof.
  induction xs as [|x xs IH]; intros [|y ys] Hx Hy H; try discriminate; [constructor|]. injection H as H1 H2. inversion Hx; inversion Hy; subst. constructor; [auto|]. now apply IH.
Qed.

Lemma code_same : forall c xs ys i, same xs ys -> particle_code O c xs i = particle_code O c ys i.
Proof.
  intros c xs ys i H. unfold particle_code. f_equal. induction H as [|a b xs ys (A & B & C) H IH]; [reflexivity|]. cbn [mapM]. rewrite (disc_sim c a b i (sim_of a b A B C)), IH. reflexivity.
Qed.

Section Tree.

Variables (E : env) (K : platform bf).
Hypothesis HE : env_ok E.
Notation c := (e_cfg E).
Variables (t : @tree bf) (P : nat -> @prow bf).
Hypothesis Ht : tree_inv O E t.
Notation n := (length (t_codes t)).
Hypothesis HP : forall i, i < n -> row (t_parts t) i (fst (P i) ++ [snd (P i)]).
Variables i l : nat.
Hypothesis Hi : i < n.
Hypothesis Hl : l < n.
Hypothesis Hil : i <> l.
Hypothesis Hsame : map B2R (fst (P i)) = map B2R (fst (P l)).

Lemma row_code : forall k x, nth_error (t_codes t) k = Some x -> particle_code O c (fst (P k)) (fdiv O (fofZ O 1%Z) (t_box t)) = Ok x.
Proof.
  intros k x Hk. assert (k < n) as Hlt by (apply nth_error_Some; congruence). destruct (inv_codes _ _ _ Ht k x Hk) as (xs & Hr & Hc).
  destruct (particle_gen O E t _ _ k Ht (HP k Hlt)) as [_ Lx].
  assert (HR : row (firstn (dim c) (t_parts t)) k (fst (P k))).
  { pose proof (HP k Hlt) as H. unfold row in *. apply Forall2_app_inv_r in H as (ca & cb & H1 & H2 & EQ). rewrite EQ. rewrite <- Lx, <- (Forall2_len _ _ _ H1). rewrite firstn_app, Nat.sub_diag, firstn_all. cbn [firstn]. now rewrite app_nil_r. }
  now rewrite (row_fun _ _ _ _ _ HR Hr).
Qed.

Lemma places : same (fst (P l)) (fst (P i)).
Proof.
  destruct (nth_error (t_codes t) i) as [x|] eqn:Ex; [|apply nth_error_None in Ex; lia].
  destruct (nth_error (t_codes t) l) as [y|] eqn:Ey; [|apply nth_error_None in Ey; lia].
  apply same_of; [exact (code_finite _ _ _ _ (row_code l y Ey))|exact (code_finite _ _ _ _ (row_code i x Ex))|now symmetry].
Qed.

Lemma together : forall cn, In cn (t_crit t) -> c_begin cn <= i < c_end cn -> c_begin cn <= l < c_end cn.
Proof.
  intros cn Hcn Hr. destruct (crit_node O E t cn Ht Hcn) as (nd & Hnd & _ & Hb & He & _).
  assert (R : forall A, reorders (fun l : list A => l)) by (intros A l0; apply Permutation_refl).
  pose proof (inv_nodes _ _ _ Ht 0 _ _ (R _) (R _)) as HB.
  destruct (node_ranges c (t_codes t) (t_mln t) (t_ncrit t) _ _ (inv_valid_codes O E t Ht) 0 _ _ _ _ (R _) (R _) HB nd Hnd) as (p & _ & _ & _ & _ & H).
  destruct (nth_error (t_codes t) i) as [x|] eqn:Ex; [|apply nth_error_None in Ex; lia].
  destruct (nth_error (t_codes t) l) as [y|] eqn:Ey; [|apply nth_error_None in Ey; lia].
  assert (Ok x = Ok y) as [= <-] by (rewrite <- (row_code i x Ex), <- (row_code l y Ey); symmetry; apply code_same, places).
  rewrite <- Hb, <- He in *. apply (H l x Ey). now apply (H i x Ex).
Qed.

Section Tot.

Hypothesis Hk : forall f z, k_rsqrt K = Some f -> isz z -> bad (f z).
Hypothesis HK : benign_shift K.
Variables (q : quant) (mv G eps2 : bf).
Hypothesis He : isz eps2.

Lemma result_lost : room E t -> exists a p, result_row O E K q t mv G eps2 i = a ++ p /\ length a = (if has_acc q then dim c else 0) /\
  length (a ++ p) = nvecs_res E q /\ Forall isnan a /\ Forall bad p.
Proof.
  intros Hrm. destruct (tiles_find (fun x : cnode => (c_begin x, c_end x)) _ _ _ i (crit_tiles O E t Ht) ltac:(lia)) as (cn & Hcn & Hr). cbn [fst snd] in Hr.
  destruct (crit_node O E t cn Ht Hcn) as (_ & _ & _ & _ & _ & N5).
  destruct (psize_total E n Hrm (c_end cn - c_begin cn) ltac:(lia)) as [psize Hsz].
  destruct (crit_shape O E K HE HK q t P Ht HP mv G eps2 (pad_coord O E (t_box t) mv) cn psize Hcn Hsz) as (A & Dl & _ & _ & res & R1 & R2).
  destruct (R2 i Hr) as (r & src & d & m & V1 & V2 & V3 & _ & _ & V4).
  assert (L : lost r).
  { apply (racc_lost c (e_simd E) K q eps2 He Hk (P i) r src d V3). exists (P l). split; [|exact places].
    apply (Permutation_in _ (Permutation_sym V4)). apply in_or_app. left. apply in_map. apply in_or_app. left. unfold others. apply filter_In. pose proof (together cn Hcn Hr). split.
    - apply in_seq. lia.
    - apply negb_true_iff, Nat.eqb_neq. congruence. }
  set (r' := if feq O G (fofZ O 1%Z) then r else scale_row O G r) in *.
  assert (L' : lost r' /\ length (fst r') = length (fst r) /\ length (snd r') = length (snd r)).
  { unfold r'. destruct (feq O G (fofZ O 1%Z)); [auto|]. unfold scale_row. cbn [fst snd]. rewrite !map_length. split; [|auto]. destruct L as [L1 L2]. split; cbn [fst snd].
    - apply Forall_map. eapply Forall_impl; [|exact L1]. intros x. apply mul_nan_l.
    - apply Forall_map. eapply Forall_impl; [|exact L2]. intros x. apply mul_bad_l. }
  destruct L' as ((L1 & L2) & L3 & L4). exists (fst r'), (snd r'). split; [|split; [|split; [|split; assumption]]].
  - unfold result_row. replace i with (c_begin cn + (i - c_begin cn)) by lia. apply (row_at_crit O E K q t Ht mv G eps2 _ cn res (i - c_begin cn) r'); auto. lia.
  - rewrite L3. exact (proj1 V2).
  - rewrite app_length, L3, L4, <- app_length. now apply shape_length.
Qed.

End Tot.

Definition acc_col (q : quant) (j : nat) : Prop := q <> QPot /\ j < dim c.

(** The functions which compute the accelerations and the potentials. *)
Lemma dispatch_lost : forall {D} (OD : fops D) ord ordered q theta G eps (split : list D) out out',
  (forall f z, k_rsqrt K = Some f -> isz z -> bad (f z)) -> benign_shift K -> room E t -> reorders ord ->
  B2R (fmul O eps eps) = 0%R -> out_ok n (nvecs_res E q) out ->
  acc_pot_dispatch O OD E K ord ordered q t theta G eps split out = Ok out' ->
  forall j, j < nvecs_res E q -> exists v, nth_error (nth j out' []) (dst ordered t i) = Some v /\ bad v /\ (acc_col q j -> isnan v).
Proof.
  intros D OD ord ordered q theta G eps split out out' Hk HK Hrm Hord He Ho HD j Hj.
  destruct (params_dec O OD E t theta G eps split) as [(mv & eps2 & Hp)|Hn].
  2: { destruct (dispatch_not_params O OD E K t theta G eps split Ht Hrm Hn) as (e & _ & X). rewrite X in HD. discriminate. }
  assert (Z : isz eps2).
  { destruct Hp as (_ & C & _). unfold compute_eps2 in C. destruct (negb (ffin O eps) || _); [discriminate|]. cbv zeta in C.
    destruct (ffin O (fmul O eps eps)) eqn:F; [|discriminate]. destruct (negb true || _); [discriminate|]. injection C as <-. now apply isz_of. }
  destruct (dispatch_ok O OD E K HE HK ord ordered q t theta G eps split mv eps2 out Ht Hrm Hord Hp Ho) as (o & D1 & _ & D3 & _).
  rewrite HD in D1. injection D1 as <-. rewrite (D3 j i Hj Hi).
  destruct (result_lost Hk HK q mv G eps2 Z Hrm) as (a & p & -> & A1 & A2 & A3 & A4).
  destruct (nth_error (a ++ p) j) as [v|] eqn:Ev; [|apply nth_error_None in Ev; lia]. exists v. split; [reflexivity|].
  destruct (Nat.lt_ge_cases j (length a)) as [La|La].
  - rewrite nth_error_app1 in Ev by exact La. apply nth_error_In in Ev. rewrite Forall_forall in A3. specialize (A3 v Ev). split; [now apply nan_bad|auto].
  - rewrite nth_error_app2 in Ev by exact La. apply nth_error_In in Ev. rewrite Forall_forall in A4. split; [exact (A4 v Ev)|]. intros [Q1 Q2]. exfalso. destruct q; cbn [has_acc] in A1; [|congruence|]; lia.
Qed.

(** The sums over all the particles. *)
Lemma exact_lost : forall (ordered : bool) q o G eps r, B2R (fmul O eps eps) = 0%R -> (if ordered then nth_error (t_inv t) o else Some o) = Some i ->
  exact_acc_pot O E ordered q t o G eps = Ok r ->
  forall j, j < nvecs_res E q -> exists v, nth_error r j = Some v /\ bad v /\ (acc_col q j -> isnan v).
Proof.
  intros ordered q o G eps r He Ho H. unfold exact_acc_pot in H.
  destruct (compute_eps2 O eps) as [eps2| |] eqn:C; try discriminate. cbn [bind] in H. destruct (check_G_const O G); try discriminate. cbn [bind] in H.
  assert (X : (if ordered then rd (t_inv t) o else Ok o) = Ok i) by (destruct ordered; [unfold rd; now rewrite Ho|congruence]). rewrite X in H. cbn [bind] in H.
  assert (Z : isz eps2).
  { unfold compute_eps2 in C. destruct (negb (ffin O eps) || _); [discriminate|]. cbv zeta in C.
    destruct (ffin O (fmul O eps eps)) eqn:F; [|discriminate]. destruct (negb true || _); [discriminate|]. injection C as <-. now apply isz_of. }
  assert (ST : forall k, k < n -> k <> i -> forall r0 : @rrow bf, let ds := diffs O (fst (P k)) (fst (P i)) in
    exists u w, exact_step O E G eps2 (t_parts t) i r0 k = Ok (axpy O ds u (fst r0), map (fun p => ffma O (fopp O w) (snd (P i)) p) (snd r0)) /\ (same (fst (P k)) (fst (P i)) -> bad u /\ bad w)).
  { intros k Hk0 Hki r0 ds. unfold exact_step. rewrite (proj2 (Nat.eqb_neq k i) Hki). rewrite (proj1 (particle_gen O E t _ _ k Ht (HP k Hk0))), (proj1 (particle_gen O E t _ _ i Ht (HP i Hi))). cbn [bind fst snd]. cbv zeta.
    eexists _, _. split; [reflexivity|]. intros S. pose proof (div_zero (fofZ O 1%Z) _ (sqrt_zero _ (dist2_s_zero _ _ (diffs_zero _ _ S) Z))) as B. split; repeat apply mul_bad_r; exact B. }
  assert (FL : forall ks (r0 r1 : @rrow bf), Forall (fun k => k < n) ks -> foldM (exact_step O E G eps2 (t_parts t) i) ks r0 = Ok r1 ->
    length (fst r0) = (if has_acc q then dim c else 0) -> length (snd r0) = (if has_pot q then 1 else 0) ->
    length (fst r1) = (if has_acc q then dim c else 0) /\ length (snd r1) = (if has_pot q then 1 else 0) /\ (lost r0 \/ In l ks -> lost r1)).
  { induction ks as [|k ks IH]; intros r0 r1 Hks HF L1 L2; cbn [foldM] in HF.
    - injection HF as <-. split; [exact L1|]. split; [exact L2|]. intros [X1|[]]. exact X1.
    - pose proof (Forall_inv Hks) as Hk1. pose proof (Forall_inv_tail Hks) as Hks1. destruct (Nat.eq_dec k i) as [->|Hki].
      + assert (EI : exact_step O E G eps2 (t_parts t) i r0 i = Ok r0) by (unfold exact_step; now rewrite Nat.eqb_refl). rewrite EI in HF. cbn [bind] in HF. destruct (IH r0 r1 Hks1 HF L1 L2) as (A & B & D). split; [exact A|]. split; [exact B|]. intros [X1|[X1|X1]]; [auto|congruence|auto].
      + destruct (ST k Hk1 Hki r0) as (u & w & E1 & E2). rewrite E1 in HF. cbn [bind] in HF. 
        destruct (particle_gen O E t _ _ k Ht (HP k Hk1)) as [_ LK]. destruct (particle_gen O E t _ _ i Ht (HP i Hi)) as [_ LI].
        destruct (IH _ r1 Hks1 HF) as (A & B & D).
        { cbn [fst]. unfold axpy, diffs. rewrite map_length, combine_length, map_length, combine_length, LK, LI, L1. destruct (has_acc q); lia. }
        { cbn [snd]. now rewrite map_length. }
        split; [exact A|]. split; [exact B|]. intros HL. apply D. destruct HL as [[X1 X2]|[->|X1]]; [| |now right]; left; split; cbn [fst snd].
        * now apply axpy_keep.
        * apply map_bad; [|exact X2]. intros x Hx. now apply fma_bad_z.
        * apply axpy_bad; [apply diffs_zero, places|apply E2, places].
        * apply map_all. intros x. apply fma_bad_x, opp_bad. apply E2, places. }
  destruct (foldM _ _ _) as [r1| |] eqn:HF; try discriminate. cbn [bind] in H. injection H as <-.
  pose proof (nparts_codes O E t Ht) as Nn.
  assert (HS : Forall (fun k => k < n) (seq 0 (nparts t))) by (apply Forall_forall; intros k Hk0; apply in_seq in Hk0; lia).
  destruct (FL _ _ _ HS HF) as (A & B & D).
  { unfold row0. cbn [fst]. destruct (has_acc q); [apply repeat_length|reflexivity]. }
  { unfold row0. cbn [snd]. destruct (has_pot q); reflexivity. }
  destruct D as [D1 D2]. { right. apply in_seq. lia. }
  intros j Hj. assert (LN : length (fst r1 ++ snd r1) = nvecs_res E q) by (apply shape_length; split; assumption).
  destruct (nth_error (fst r1 ++ snd r1) j) as [v|] eqn:Ev; [|apply nth_error_None in Ev; lia]. exists v. split; [reflexivity|].
  destruct (Nat.lt_ge_cases j (length (fst r1))) as [La|La].
  - rewrite nth_error_app1 in Ev by exact La. apply nth_error_In in Ev. rewrite Forall_forall in D1. specialize (D1 v Ev). split; [now apply nan_bad|auto].
  - rewrite nth_error_app2 in Ev by exact La. apply nth_error_In in Ev. rewrite Forall_forall in D2. split; [exact (D2 v Ev)|]. intros [Q1 Q2]. exfalso. destruct q; cbn [has_acc] in A; [|congruence|]; lia.
Qed.

End Tree.

End C.
