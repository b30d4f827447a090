(** The interaction of a thread with its own particle, in floating-point arithmetic. *)
From Coq Require Import List Arith NArith ZArith Lia Bool Reals Lra.
From Flocq Require Import Core BinarySingleNaN.
From Verif Require Import Base FOps FOpsProofs Disc NodeProps Kernels Force Gpu.
Import ListNotations.
Local Open Scope R_scope.

Section Self.

Variables prec emax : Z.
Context (Hprec : Prec_gt_0 prec).
Context (Hemax : Prec_lt_emax prec emax).
Variable fused : bool.
Hypothesis Hp2 : (2 <= prec)%Z.
Hypothesis He : (prec + 2 <= emax)%Z.

Notation bf := (binary_float prec emax).
Notation O := (Bops prec emax Hprec Hemax fused).
Notation fexp := (SpecFloat.fexp prec emax).
Notation rnd := (round radix2 fexp ZnearestE).

Local Instance valid_fexp'' : Valid_exp fexp := valid_fexp prec emax Hprec.

(** Finite, with the same value. *)
Definition keeps (x y : bf) : Prop := is_finite y = true /\ B2R y = B2R x.

Lemma emax_pos : 0 < bpow radix2 emax. Proof. apply bpow_gt_0. Qed.

Lemma sub_self : forall x : bf, is_finite x = true -> is_finite (fsub O x x) = true /\ B2R (fsub O x x) = 0.
Proof.
  intros x Hx. cbn [fsub Bops]. pose proof (Bminus_correct prec emax _ _ mode_NE x x Hx Hx) as C. cbn [round_mode] in C.
  rewrite Rminus_diag_eq in C by reflexivity. rewrite rnd_0, Rabs_R0, Rlt_bool_true in C by apply emax_pos. tauto.
Qed.

Lemma fma_zero : forall d k a : bf, is_finite d = true -> B2R d = 0 -> is_finite k = true -> is_finite a = true -> keeps a (ffma O d k a).
Proof.
  intros d k a Fd Vd Fk Fa.
  assert (V : fma_val prec emax fused (B2R d) (B2R k) (B2R a) = B2R a).
  { unfold fma_val. rewrite Vd, Rmult_0_l. destruct fused; rewrite ?rnd_0, Rplus_0_l; apply rnd_B2R. }
  assert (F : is_finite (ffma O d k a) = true).
  { apply fma_finite; [exact Fd|exact Fk|exact Fa| |].
    - rewrite Vd, Rmult_0_l, rnd_0, Rabs_R0. apply emax_pos.
    - rewrite V. apply abs_B2R_lt_emax. }
  split; [exact F|]. destruct (fma_fin prec emax Hprec Hemax fused d k a F) as (_ & _ & _ & ->). exact V.
Qed.

Lemma mul_zero : forall x y : bf, is_finite x = true -> is_finite y = true -> B2R x = 0 -> is_finite (fmul O x y) = true /\ B2R (fmul O x y) = 0.
Proof.
  intros x y Fx Fy Vx. cbn [fmul Bops].
  assert (F : is_finite (Bmult mode_NE x y) = true). { apply mult_finite; auto. rewrite Vx, Rmult_0_l, rnd_0, Rabs_R0. apply emax_pos. }
  split; [exact F|]. destruct (mult_fin prec emax Hprec Hemax x y F) as (_ & _ & ->). now rewrite Vx, Rmult_0_l, rnd_0.
Qed.

Lemma rnd_1 : rnd 1 = 1.
Proof.
  apply round_generic; [apply valid_rnd_N|]. change 1 with (bpow radix2 0). apply (format_pow prec emax Hprec Hp2). assert (0 < prec)%Z by exact Hprec. lia.
Qed.

Lemma max_value : forall x : bf, B2R x <= pred radix2 fexp (bpow radix2 emax).
Proof.
  intros x. apply pred_ge_gt; [exact valid_fexp''|apply generic_format_B2R| |].
  - apply (format_pow prec emax Hprec Hp2). assert (0 < prec)%Z by exact Hprec. lia.
  - pose proof (abs_B2R_lt_emax prec emax x) as A. apply Rabs_def2 in A. tauto.
Qed.

(** Adding one to a finite value does not overflow. *)
Lemma plus_one : forall x : bf, is_finite x = true -> 0 <= B2R x -> is_finite (fadd O x (fofZ O 1)) = true /\ 1 <= B2R (fadd O x (fofZ O 1)).
Proof.
  intros x Fx Px. destruct (ofZ_exact prec emax Hprec Hemax fused Hp2 1) as [V1 F1].
  { cbn [Z.abs]. apply Z.lt_le_trans with (2 ^ 1)%Z; [lia|]. apply Z.pow_le_mono_r; lia. }
  cbn [fadd Bops].
  assert (HF : generic_format radix2 fexp (bpow radix2 emax)).
  { apply (format_pow prec emax Hprec Hp2). assert (0 < prec)%Z by exact Hprec. lia. }
  assert (L : Rabs (rnd (B2R x + B2R (fofZ O 1))) < bpow radix2 emax).
  { rewrite V1. rewrite Rabs_pos_eq by (rewrite <- (rnd_0 prec emax); apply rnd_le; [exact Hprec|lra]).
    set (u := pred radix2 fexp (bpow radix2 emax)).
    assert (Fu : generic_format radix2 fexp u) by (apply generic_format_pred; [exact valid_fexp''|exact HF]).
    assert (Eu : succ radix2 fexp u = bpow radix2 emax) by (apply succ_pred; [exact valid_fexp''|exact HF]).
    apply Rle_lt_trans with u.
    - apply round_N_le_midp; [exact valid_fexp''|exact Fu|]. rewrite Eu.
      assert (U : bpow radix2 emax - u = bpow radix2 (emax - prec)).
      { unfold u. rewrite pred_eq_pos by apply bpow_ge_0. unfold pred_pos. rewrite mag_bpow.
        replace (emax + 1 - 1)%Z with emax by lia. rewrite Req_bool_true by reflexivity. unfold SpecFloat.fexp, SpecFloat.emin.
        replace (Z.max (emax - prec) (3 - emax - prec)) with (emax - prec)%Z by (assert (0 < prec)%Z by exact Hprec; lia). lra. }
      assert (4 <= bpow radix2 (emax - prec)). { change 4 with (bpow radix2 2). apply bpow_le. lia. }
      pose proof (max_value x). fold u in H0. lra.
    - rewrite <- Eu. apply succ_gt_id. pose proof (max_value (fofZ O 1)) as M. fold u in M. rewrite V1 in M. lra. }
  pose proof (plus_finite prec emax Hprec Hemax x (fofZ O 1) Fx F1 L) as F. split; [exact F|].
  destruct (plus_fin prec emax Hprec Hemax _ _ F) as (_ & _ & ->). rewrite V1. apply Rle_trans with (rnd 1); [rewrite rnd_1; lra|]. apply rnd_le; [exact Hprec|lra].
Qed.

Lemma sqrt_ge1 : forall x : bf, is_finite x = true -> 1 <= B2R x -> is_finite (fsqrt O x) = true /\ 1 <= B2R (fsqrt O x).
Proof.
  intros x Fx Px. cbn [fsqrt Bops]. destruct (Bsqrt_correct prec emax _ _ mode_NE x) as (V & F & _). split.
  - rewrite F. destruct x as [s|s| |s m e Bd]; try discriminate; [reflexivity|]. destruct s; [|reflexivity]. exfalso.
    assert (B2R (B754_finite true m e Bd) < 0) by (apply F2R_lt_0; reflexivity). lra.
  - rewrite V. cbn [round_mode]. rewrite <- rnd_1. apply rnd_le; [exact Hprec|]. rewrite <- sqrt_1. now apply sqrt_le_1_alt.
Qed.

(** Dividing by a product of factors that are at least one gives a finite value, even if the product overflows. *)
Lemma div_ge1 : forall m x y : bf, is_finite m = true -> is_finite x = true -> is_finite y = true -> 1 <= B2R x -> 1 <= B2R y ->
  is_finite (fdiv O m (fmul O x y)) = true.
Proof.
  intros m x y Fm Fx Fy Px Py. cbn [fdiv fmul Bops].
  pose proof (Bmult_correct prec emax _ _ mode_NE x y) as C. cbn [round_mode] in C. destruct (Rlt_bool _ _).
  - destruct C as (V & F & _). assert (G : 1 <= B2R (Bmult mode_NE x y)). { rewrite V, <- rnd_1. apply rnd_le; [exact Hprec|nra]. }
    apply (div_finite prec emax Hprec Hemax); [exact Fm|lra|].
    apply Rle_lt_trans with (Rabs (B2R m)); [|apply abs_B2R_lt_emax].
    set (z := B2R (Bmult mode_NE x y)) in *. assert (L : Rabs (B2R m / z) <= Rabs (B2R m)).
    { unfold Rdiv. rewrite Rabs_mult. rewrite <- (Rmult_1_r (Rabs (B2R m))) at 2. apply Rmult_le_compat_l; [apply Rabs_pos|].
      rewrite Rabs_pos_eq by (left; apply Rinv_0_lt_compat; lra). rewrite <- Rinv_1. apply Rinv_le_contravar; lra. }
    apply abs_round_le_generic; [exact valid_fexp''|apply valid_rnd_N|apply generic_format_abs, generic_format_B2R|exact L].
  - cbn [binary_overflow] in C. destruct (Bmult mode_NE x y); try discriminate. destruct m; try discriminate; reflexivity.
Qed.

(** A thread's own particle contributes nothing. *)
Lemma lane_self : forall (eps2 : bf) (i : nat) (code : N) (xs : list bf) (m : bf) (r : @rrow bf),
  is_finite eps2 = true -> 0 <= B2R eps2 -> Forall (fun x => is_finite x = true) xs -> is_finite m = true ->
  Forall (fun x => is_finite x = true) (fst r ++ snd r) -> (length (fst r) <= length xs)%nat ->
  let r' := lane_leaf O eps2 (mkLane i code (xs, m)) i (xs, m) r in
  Forall2 keeps (fst r) (fst r') /\ Forall2 keeps (snd r) (snd r').
Proof.
  intros eps2 i code xs m r Fe Pe Fxs Fm Fr Lr r'. unfold r', lane_leaf. clear r'. cbn [l_idx l_p fst snd]. rewrite Nat.eqb_refl.
  destruct (plus_one eps2 Fe Pe) as [F1 P1]. set (d0 := fadd O eps2 (fofZ O 1)) in *. clearbody d0.
  assert (HD : Forall (fun d => is_finite d = true /\ B2R d = 0) (diffs O xs xs) /\ length (diffs O xs xs) = length xs).
  { clear Lr. unfold diffs. induction Fxs as [|x xs Hx Fxs IH]; [split; [constructor|reflexivity]|]. cbn [combine map length]. destruct IH as [IH1 IH2].
    split; [constructor; [now apply sub_self|exact IH1]|]. now rewrite IH2. }
  destruct HD as [HD LD]. set (ds := diffs O xs xs) in *. clearbody ds. rewrite <- LD in Lr. clear xs Fxs LD.
  assert (H2 : is_finite (fold_left (fun s d => ffma O d d s) ds d0) = true /\ 1 <= B2R (fold_left (fun s d => ffma O d d s) ds d0)).
  { clear Lr. revert d0 F1 P1. induction HD as [|d ds [Fd Vd] HD IH]; intros d0 F1 P1; cbn [fold_left]; [auto|].
    destruct (fma_zero d d d0 Fd Vd Fd F1) as [F2 V2]. apply IH; [exact F2|]. now rewrite V2. }
  destruct H2 as [F2 P2]. set (d2 := fold_left _ ds d0) in *. clearbody d2. clear d0 F1 P1.
  destruct (sqrt_ge1 d2 F2 P2) as [F3 P3]. set (d1 := fsqrt O d2) in *. clearbody d1.
  apply Forall_app in Fr as [Fa Fp]. split.
  - pose proof (div_ge1 m d1 d2 Fm F3 F2 P3 P2) as F4. set (k := fdiv O m (fmul O d1 d2)) in *. clearbody k. unfold axpy.
    revert Lr. generalize dependent (fst r). intros acc Fa. revert acc Fa. induction HD as [|d ds [Fd Vd] HD IH]; intros acc Fa La.
    + destruct acc; [constructor|cbn in La; lia].
    + destruct Fa as [|a acc Fx Fa]; [constructor|]. cbn [combine map]. cbn [length] in La. constructor; [now apply fma_zero|]. apply IH; [exact Fa|lia].
  - destruct (mul_zero (fofZ O 0) m eq_refl Fm eq_refl) as [G1 V1]. destruct (mul_zero _ m G1 Fm V1) as [G2 V2].
    destruct (div_finite prec emax Hprec Hemax (fmul O (fmul O (fofZ O 0) m) m) d1 G2) as [G3 V3].
    { lra. } { rewrite V2. unfold Rdiv. rewrite Rmult_0_l, rnd_0, Rabs_R0. apply emax_pos. }
    rewrite V2 in V3. unfold Rdiv in V3. rewrite Rmult_0_l, rnd_0 in V3.
    induction Fp as [|x l Fx Fp IH]; cbn [map]; constructor; [|exact IH].
    pose proof (Bminus_correct prec emax _ _ mode_NE x _ Fx G3) as C. cbn [round_mode] in C. rewrite V3, Rminus_0_r, rnd_B2R, Rlt_bool_true in C by apply abs_B2R_lt_emax.
    split; [apply C|apply C].
Qed.

End Self.
