(** Rounding errors of the threads of the device kernels. *)
From Coq Require Import List Arith ZArith NArith Reals Bool Lra Lia Psatz Permutation.
From Flocq Require Import Core BinarySingleNaN Relative Plus_error.
From Verif Require Import Base Config Morton Build TreeSpec FOps FOpsProofs Disc NodeProps Tree TreeInv TreeProofs TreeSafe RSum Kernels KernR SelfSum SelfShape Force TravProofs KernLoops
  ForceGen ForceOut ForceR ForceTop ForceRTop ForceMore Gpu GpuKernel GpuR Round RoundFin RoundNear RoundKern RoundSum RoundExact RoundMac TreeShape RoundTree.
Import ListNotations.
Local Open Scope nat_scope.

Lemma one32 : 1 <= 32.
Proof. lia. Qed.

Section IEEE.

Variables prec emax : Z.
Context (Hprec : Prec_gt_0 prec).
Context (Hemax : Prec_lt_emax prec emax).
Variable fused : bool.
Hypothesis Hp8 : (8 <= prec)%Z.

Notation bf := (binary_float prec emax).
Notation O := (Bops prec emax Hprec Hemax fused).
Notation fexp := (SpecFloat.fexp prec emax).
Notation rnd := (round radix2 fexp ZnearestE).
Notation zero := (fofZ O 0%Z).
Notation one := (fofZ O 1%Z).
Notation g := (gR prec).
Notation eta := (etaR prec emax).
Notation approx := (approx prec emax).
Notation val := (val prec emax).
Notation near := (near prec).
Notation bnd := (bnd prec emax).
Notation csum := (csum prec emax Hprec Hemax fused).
Notation astep := (astep prec emax Hprec Hemax fused).
Notation Hp2 := (Hp2 prec Hp8).
Notation prow := (@prow bf).
Notation rrow := (@rrow bf).
Notation realp := (realp prec emax).

Local Instance valid_fexp_rl : Valid_exp fexp.
Proof. exact (@FLT_exp_valid (3 - emax - prec) prec Hprec). Qed.

Local Open Scope R_scope.

Ltac sm := apply (small_128 prec Hp8); lia.

Lemma B2R0 : B2R zero = 0.
Proof. apply (B2R_zero prec emax Hprec Hemax fused). Qed.

Lemma val0 : val 0 zero 0.
Proof. rewrite <- B2R0. apply val_self; [exact Hp8|reflexivity]. Qed.

Lemma val1 : val 0 one 1.
Proof. assert (Z : (0 <= 0 < emax)%Z) by (pose proof Hemax; unfold Prec_lt_emax, Prec_gt_0 in *; lia). exact (val_ofZ_pow prec emax Hprec Hemax fused Hp8 0 Z). Qed.

Lemma B2R_fix : forall x : bf, rnd (B2R x) = B2R x.
Proof. intros x. apply round_generic; [typeclasses eauto|apply generic_format_B2R]. Qed.

Variable k : Z.
Hypothesis Hk0 : (0 <= k)%Z.
Hypothesis Hk5 : (5 * k + 16 <= emax)%Z.
Variable n : nat.
Hypothesis Hn3 : (n <= 3)%nat.
Variable e2 : R.
Variable eps2 : bf.
Hypothesis He2 : 0 <= e2 <= bpow radix2 (2 * k).
Hypothesis Heps : val 1 eps2 e2.
Variable c : Morton.cfg.
Hypothesis Hdim : Morton.dim c = n.

Notation pair_ok := (pair_ok prec emax Hprec Hemax fused k n e2).
Notation pok := (pok prec emax k n).
Notation shp := (shp prec emax n).
Notation rstep := (rstep prec emax Hprec Hemax fused n e2 1).
Notation sqd := (sqd prec emax Hprec Hemax fused n e2).
Notation dst := (RoundKern.dst prec emax Hprec Hemax fused n e2).
Notation del := (del prec emax Hprec Hemax fused).

(** The code adds zero to the square of the softening length. *)
Lemma eps_zero : val 1 (fadd O eps2 zero) e2.
Proof.
  destruct Heps as [F N]. cbn [fadd Bops].
  assert (FF : is_finite (Bplus mode_NE eps2 zero) = true).
  { apply plus_finite; auto. rewrite B2R0, Rplus_0_r, B2R_fix. apply abs_B2R_lt_emax. }
  destruct (plus_fin prec emax Hprec Hemax _ _ FF) as (_ & _ & V). split; [exact FF|]. now rewrite V, B2R0, Rplus_0_r, B2R_fix.
Qed.

Lemma quot_pot : forall p1 p2 d2 a m, pair_ok p1 p2 -> val 10 d2 (sqd (fst p2) (fst p1)) -> val a m (B2R (snd p1) * B2R (snd p2)) -> (a <= 2)%nat ->
  forall v, exists t, astep v (fsub O v (fdiv O m (fsqrt O d2))) t /\ near (cpot 1) t (Tpot prec emax Hprec Hemax fused n e2 p1 p2).
Proof.
  intros p1 p2 d2 a m HP Hd Hm Ha v.
  pose proof (dist_ok prec emax Hprec Hemax fused Hp8 k Hk0 Hk5 n Hn3 e2 He2 c Hdim 1 one32 p1 p2 HP d2 Hd) as Vs.
  pose proof (D_pos prec emax Hprec Hemax fused k n e2 p1 p2 HP) as DP. pose proof (D_rng prec emax Hprec Hemax fused k n Hn3 e2 He2 c Hdim 1 one32 p1 p2 HP) as DR.
  assert (V : val (S (a + 6)) (fdiv O m (fsqrt O d2)) (B2R (snd p1) * B2R (snd p2) / dst p1 p2)).
  { apply (val_div prec emax Hprec Hemax fused Hp8); [exact Hm|exact Vs|lra|sm|].
    destruct HP as ((_ & _ & R1) & (_ & _ & R2) & _). eapply rng_okr; [apply rng_div; [apply rng_mul; [exact R1|exact R2]|exact DR]|lia|lia]. }
  exists (- B2R (fdiv O m (fsqrt O d2))). split; [left; eexists; split; [reflexivity|]; split; [apply V|reflexivity]|].
  apply (near_mono prec Hp8) with (S (a + 6)); [|unfold cpot; lia]. unfold Tpot. apply (near_opp prec). apply V.
Qed.

Lemma mm_val : forall p1 p2, pair_ok p1 p2 -> forall a m, val a m (B2R (snd p1)) -> (a <= 1)%nat -> val (S (a + 0)) (fmul O m (snd p2)) (B2R (snd p1) * B2R (snd p2)).
Proof.
  intros p1 p2 HP a m Hm Ha. apply (val_mul prec emax Hprec Hemax fused Hp8); [exact Hm|exact (m2_val prec emax Hprec Hemax fused Hp8 k n e2 p1 p2 HP)|sm|].
  destruct HP as ((_ & _ & R1) & (_ & _ & R2) & _). eapply rng_okr; [apply rng_mul; [exact R1|exact R2]|lia|lia].
Qed.

Lemma lane_com_step : forall q (a : node (props bf)) l r, pair_ok (l_p l) (p_com (n_props a), p_mass (n_props a)) -> shp q r ->
  rstep q (l_p l) (p_com (n_props a), p_mass (n_props a)) r (lane_com O eps2 a l r).
Proof.
  intros q a l r HP Sh. unfold lane_com. cbv zeta. set (p1 := l_p l) in *. generalize dependent (p_com (n_props a)). intros com HP. generalize dependent (p_mass (n_props a)). intros ms HP.
  pose proof HP as ((C1 & Om1) & (C2 & Om2) & HD). cbn [fst snd] in C2, Om2, HD.
  pose proof (mac_dist2_ok prec emax Hprec Hemax fused Hp8 k Hk0 Hk5 n Hn3 e2 eps2 He2 Heps c None com (fst p1) C2 C1 HD) as Vm.
  assert (EM : mac_dist2 O c None (diffs O com (fst p1)) = lane_dist2 O com p1).
  { unfold mac_dist2, vectorised. destruct c; reflexivity. }
  rewrite EM in Vm. set (d2 := fadd O (lane_dist2 O com p1) eps2) in *. unfold axpy.
  apply (rstep_make prec emax Hprec Hemax fused n Hn3 e2 eps2 c Hdim 1 one32); [exact Sh|exact (diffs_length prec emax Hprec Hemax fused k n Hn3 com (fst p1) C2 C1)| |].
  - intros j v Hj. apply (acc_fma1 prec emax Hprec Hemax fused Hp8 n Hn3 e2 c Hdim 1 one32 p1 (com, ms) j v _ _ 18); [|unfold cacc; lia|].
    + exact (proj1 (quot3_ok prec emax Hprec Hemax fused Hp8 k Hk0 Hk5 n Hn3 e2 He2 c Hdim 1 one32 p1 (com, ms) HP d2 Vm ms Om2)).
    + exact (proj1 (diffs_val prec emax Hprec Hemax fused Hp8 k Hk0 Hk5 n Hn3 com (fst p1) j C2 C1 Hj)).
  - apply (quot_pot p1 (com, ms) d2 1 _ HP Vm); [|lia]. exact (mm_val p1 (com, ms) HP 0 _ (m1_val prec emax Hprec Hemax fused Hp8 k n e2 p1 (com, ms) HP) ltac:(lia)).
Qed.

Lemma lane_leaf_step : forall q l i p2 r, pair_ok (l_p l) p2 -> l_idx l <> i -> shp q r -> rstep q (l_p l) p2 r (lane_leaf O eps2 l i p2 r).
Proof.
  intros q l i p2 r HP Hi Sh. unfold lane_leaf. cbv zeta. apply Nat.eqb_neq in Hi. rewrite Hi. set (p1 := l_p l) in *.
  pose proof HP as ((C1 & Om1) & (C2 & Om2) & HD).
  pose proof (dist2_s_ok prec emax Hprec Hemax fused Hp8 k Hk0 Hk5 n Hn3 e2 (fadd O eps2 zero) He2 eps_zero (fst p2) (fst p1) C2 C1 HD) as Vm. unfold dist2_s in Vm.
  set (d2 := fold_left _ _ _) in *. unfold axpy.
  apply (rstep_make prec emax Hprec Hemax fused n Hn3 e2 eps2 c Hdim 1 one32); [exact Sh|exact (diffs_length prec emax Hprec Hemax fused k n Hn3 (fst p2) (fst p1) C2 C1)| |].
  - intros j v Hj. apply (acc_fma1 prec emax Hprec Hemax fused Hp8 n Hn3 e2 c Hdim 1 one32 p1 p2 j v _ _ 18); [|unfold cacc; lia|].
    + exact (proj1 (quot3_ok prec emax Hprec Hemax fused Hp8 k Hk0 Hk5 n Hn3 e2 He2 c Hdim 1 one32 p1 p2 HP d2 Vm (snd p2) Om2)).
    + exact (proj1 (diffs_val prec emax Hprec Hemax fused Hp8 k Hk0 Hk5 n Hn3 (fst p2) (fst p1) j C2 C1 Hj)).
  - apply (quot_pot p1 p2 d2 2 _ HP Vm); [|lia]. apply (mm_val p1 p2 HP 1); [|lia].
    assert (V : val (S (0 + 0)) (fmul O one (snd p1)) (1 * B2R (snd p1))).
    { apply (val_mul prec emax Hprec Hemax fused Hp8); [exact val1|exact (m1_val prec emax Hprec Hemax fused Hp8 k n e2 p1 p2 HP)|sm|].
      rewrite Rmult_1_l. destruct Om1 as [_ R1]. eapply rng_okr; [exact R1|lia|lia]. }
    now rewrite Rmult_1_l in V.
Qed.

(** ** The particle of the thread itself *)

Lemma diffs_self : forall x, Forall (fun v : bf => is_finite v = true) x -> Forall (fun d => is_finite d = true /\ B2R d = 0) (diffs O x x).
Proof.
  intros x H. induction H as [|v x Hv H IH]; [constructor|]. unfold diffs in *. cbn [combine map]. constructor; [|exact IH].
  cbn [fsub Bops]. pose proof (Bminus_correct prec emax Hprec Hemax mode_NE v v Hv Hv) as C. rewrite Rminus_eq_0, round_0, Rabs_R0 in C by typeclasses eauto.
  rewrite Rlt_bool_true in C by apply bpow_gt_0. destruct C as (V & F & _). auto.
Qed.

Lemma fold_self : forall ds (v : bf), Forall (fun d : bf => is_finite d = true /\ B2R d = 0) ds -> is_finite v = true ->
  is_finite (fold_left (fun s d => ffma O d d s) ds v) = true /\ B2R (fold_left (fun s d => ffma O d d s) ds v) = B2R v.
Proof.
  intros ds v H. revert v. induction H as [|d ds [Fd Vd] H IH]; intros v Fv; [auto|]. cbn [fold_left].
  assert (FV : fma_val prec emax fused (B2R d) (B2R d) (B2R v) = B2R v).
  { unfold fma_val. rewrite Vd, Rmult_0_l. destruct fused; [now rewrite Rplus_0_l, B2R_fix|]. rewrite round_0 by typeclasses eauto. now rewrite Rplus_0_l, B2R_fix. }
  assert (FF : is_finite (ffma O d d v) = true).
  { apply fma_finite; auto; [rewrite Vd, Rmult_0_l, round_0, Rabs_R0 by typeclasses eauto; apply bpow_gt_0|]. rewrite FV. apply abs_B2R_lt_emax. }
  destruct (fma_fin prec emax Hprec Hemax fused _ _ _ FF) as (_ & _ & _ & V). destruct (IH _ FF) as [I1 I2]. split; [exact I1|]. now rewrite I2, V, FV.
Qed.

Definition ghost (p : prow) : prow := (fst p, zero).

Lemma lane_self_step : forall q l r, pok (l_p l) -> shp q r -> rstep q (l_p l) (ghost (l_p l)) r (lane_leaf O eps2 l (l_idx l) (l_p l) r).
Proof.
  intros q l r [C1 Om] Sh. unfold lane_leaf. cbv zeta. rewrite Nat.eqb_refl. set (p1 := l_p l) in *.
  assert (HD : Forall (fun d => is_finite d = true /\ B2R d = 0) (diffs O (fst p1) (fst p1))).
  { apply diffs_self. destruct C1 as [_ C1]. eapply Forall_impl; [|exact C1]. intros v Hv. apply Hv. }
  assert (E1 : 1 <= bpow radix2 (2 * k)) by (change 1 with (bpow radix2 0); apply bpow_le; lia).
  assert (EO : rng 0 (2 * k + 1) (e2 + 1)).
  { right. rewrite Rabs_right by lra. change (bpow radix2 0) with 1. rewrite bpow_double. lra. }
  assert (V2 : val 2 (fadd O eps2 one) (e2 + 1)).
  { apply (val_add prec emax Hprec Hemax fused Hp8); [exact Heps|apply (val_mono prec emax Hp8) with 0%nat; [exact val1|lia]|lra|lra|sm|]. eapply rng_okr; [exact EO|lia|lia]. }
  destruct (fold_self (diffs O (fst p1) (fst p1)) (fadd O eps2 one) HD (proj1 V2)) as [F2 B2].
  set (d2 := fold_left _ _ _) in *. assert (Vd : val 2 d2 (e2 + 1)) by (split; [exact F2|rewrite B2; apply V2]).
  assert (Vs : val 2 (fsqrt O d2) (sqrt (e2 + 1))).
  { apply (val_sqrt prec emax Hprec Hemax fused Hp8 1); [exact Vd|lra|sm|]. eapply rng_okr; [exact EO|lia|lia]. }
  assert (S1 : 1 <= sqrt (e2 + 1)) by (rewrite <- sqrt_1 at 1; apply sqrt_le_1_alt; lra).
  assert (SR : rng 0 (k + 1) (sqrt (e2 + 1))).
  { right. rewrite Rabs_right by lra. split; [exact S1|]. replace (bpow radix2 (k + 1)) with (sqrt (bpow radix2 (k + 1) * bpow radix2 (k + 1))) by (apply sqrt_square, bpow_ge_0).
    apply sqrt_le_1_alt. rewrite <- bpow_plus. replace (k + 1 + (k + 1))%Z with (2 * k + 2)%Z by lia. replace (2 * k + 2)%Z with (2 * k + 1 + 1)%Z by lia. rewrite !bpow_double. lra. }
  assert (V3 : val 5 (fmul O (fsqrt O d2) d2) (sqrt (e2 + 1) * (e2 + 1))).
  { apply (val_mul prec emax Hprec Hemax fused Hp8 2 2); [exact Vs|exact Vd|sm|]. eapply rng_okr; [apply rng_mul; [exact SR|exact EO]|lia|lia]. }
  destruct Om as [Fm Rm].
  assert (Vq : val 6 (fdiv O (snd p1) (fmul O (fsqrt O d2) d2)) (B2R (snd p1) / (sqrt (e2 + 1) * (e2 + 1)))).
  { apply (val_div prec emax Hprec Hemax fused Hp8 0 5); [now apply val_self|exact V3|nra|sm|]. eapply rng_okr; [apply rng_div; [exact Rm|apply rng_mul; [exact SR|exact EO]]|lia|lia]. }
  assert (Z1 : val 1 (fmul O zero (snd p1)) (0 * B2R (snd p1))).
  { apply (val_mul prec emax Hprec Hemax fused Hp8 0 0); [exact val0|now apply val_self|sm|]. left. ring. }
  rewrite Rmult_0_l in Z1.
  assert (Z2 : val 2 (fmul O (fmul O zero (snd p1)) (snd p1)) (0 * B2R (snd p1))).
  { apply (val_mul prec emax Hprec Hemax fused Hp8 1 0); [exact Z1|now apply val_self|sm|]. left. ring. }
  rewrite Rmult_0_l in Z2.
  assert (Z3 : val 5 (fdiv O (fmul O (fmul O zero (snd p1)) (snd p1)) (fsqrt O d2)) (0 / sqrt (e2 + 1))).
  { apply (val_div prec emax Hprec Hemax fused Hp8 2 2); [exact Z2|exact Vs|lra|sm|]. left. unfold Rdiv. ring. }
  unfold axpy.
  apply (rstep_make prec emax Hprec Hemax fused n Hn3 e2 eps2 c Hdim 1 one32); [exact Sh|exact (diffs_length prec emax Hprec Hemax fused k n Hn3 (fst p1) (fst p1) C1 C1)| |].
  - intros j v Hj. assert (Dj : is_finite (nth j (diffs O (fst p1) (fst p1)) zero) = true /\ B2R (nth j (diffs O (fst p1) (fst p1)) zero) = 0).
    { rewrite Forall_forall in HD. apply HD, nth_In. now rewrite (diffs_length prec emax Hprec Hemax fused k n Hn3 (fst p1) (fst p1) C1 C1). }
    eexists. split; [right; eexists _, _; split; [reflexivity|]; split; [apply Dj|split; [apply Vq|reflexivity]]|].
    unfold Tacc, ghost. cbn [fst snd]. rewrite B2R0, (proj2 Dj), !Rmult_0_l. unfold Rdiv. rewrite Rmult_0_l. apply (near_refl prec Hp8).
  - intros v. eexists. split; [left; eexists; split; [reflexivity|]; split; [apply Z3|reflexivity]|].
    unfold Tpot, ghost. cbn [fst snd]. rewrite B2R0, Rmult_0_r. apply (near_opp prec). apply (near_mono prec Hp8) with 5%nat; [|unfold cpot; lia].
    destruct Z3 as [_ Z3]. replace (0 / RoundKern.dst prec emax Hprec Hemax fused n e2 p1 (fst p1, zero)) with (0 / sqrt (e2 + 1)) by (unfold Rdiv; ring). exact Z3.
Qed.

End IEEE.

(** * The results of a thread *)

Lemma flat_len : forall {A} (f : A -> list nat) l, (forall a, In a l -> 1 <= length (f a)) -> length l <= length (flat_map f l).
Proof. intros A f l. induction l as [|a l IH]; intros H; [cbn; lia|]. cbn [flat_map length]. rewrite app_length. specialize (IH (fun x Hx => H x (or_intror Hx))). specialize (H a (or_introl eq_refl)). lia. Qed.

Section Lane.

Variables prec emax : Z.
Context (Hprec : Prec_gt_0 prec).
Context (Hemax : Prec_lt_emax prec emax).
Variable fused : bool.
Hypothesis Hp8 : (8 <= prec)%Z.

Notation bf := (binary_float prec emax).
Notation O := (Bops prec emax Hprec Hemax fused).
Notation zero := (fofZ O 0%Z).
Notation g := (gR prec).
Notation eta := (etaR prec emax).
Notation approx := (approx prec emax).
Notation csum := (csum prec emax Hprec Hemax fused).
Notation Hp2 := (Hp2 prec Hp8).
Notation prow := (@prow bf).
Notation rrow := (@rrow bf).
Notation realp := (realp prec emax).

Local Open Scope R_scope.

Variable k : Z.
Hypothesis Hk0 : (0 <= k)%Z.
Hypothesis Hk5 : (5 * k + 16 <= emax)%Z.
Hypothesis Hroom : (prec + 4 * k + 4 <= emax)%Z.
Variable G : bf.
Hypothesis FG : is_finite G = true.
Hypothesis HG : Rabs (B2R G) <= bpow radix2 k.
Variable E : env.
Notation c := (e_cfg E).
Notation ndim := (dim c).
Variable e2 : R.
Variable eps2 : bf.
Hypothesis He2 : 0 <= e2 <= bpow radix2 (2 * k).
Hypothesis Heps : val prec emax 1 eps2 e2.

Notation pair_ok := (pair_ok prec emax Hprec Hemax fused k ndim e2).
Notation pok := (pok prec emax k ndim).
Notation row_sums := (row_sums prec emax Hprec Hemax fused ndim e2 1).
Notation ghost := (ghost prec emax Hprec Hemax fused).
Notation fexp := (SpecFloat.fexp prec emax).
Notation rnd := (round radix2 fexp ZnearestE).

(** The devices multiply by [G] in any case. *)
Lemma mul_approx : forall (v : bf) e q S A, is_finite v = true -> approx e q (B2R v) S A -> Rabs (B2R v) <= bpow radix2 (prec + 3 * k + 1) -> Rabs S <= A -> 0 <= q ->
  is_finite (fmul O G v) = true /\ approx (Datatypes.S e) (q * Rabs (B2R G) + 1) (B2R (fmul O G v)) (B2R G * S) (Rabs (B2R G) * A).
Proof.
  intros v e q S A Fv AP Hv HS Hq. assert (PA : 0 <= A) by (pose proof (Rabs_pos S); lra).
  assert (Fm : is_finite (fmul O G v) = true).
  { cbn [fmul Bops]. apply mult_finite; auto. apply Rle_lt_trans with (bpow radix2 (emax - 2)); [|apply bpow_lt; lia].
    apply (rnd_bnd prec emax Hprec Hp2); [unfold Prec_gt_0 in *; lia|]. rewrite Rabs_mult.
    apply Rle_trans with (bpow radix2 k * bpow radix2 (prec + 3 * k + 1)); [apply Rmult_le_compat; auto using Rabs_pos|]. rewrite <- bpow_plus. apply bpow_le. lia. }
  split; [exact Fm|]. cbn [fmul Bops] in *. destruct (mult_fin prec emax Hprec Hemax _ _ Fm) as (_ & _ & ->).
  destruct (any_err prec emax Hprec (B2R G * B2R v)) as (d & h & Hd & Hh & ->). apply approx_eta; [exact Hp8| |exact Hh].
  assert (AG : approx e (q * Rabs (B2R G)) (B2R G * B2R v) (B2R G * S) (Rabs (B2R G) * A)).
  { unfold Round.approx in *. replace (B2R G * B2R v - B2R G * S) with (B2R G * (B2R v - S)) by ring. rewrite Rabs_mult.
    pose proof (Rabs_pos (B2R G)). nra. }
  assert (Z : approx e 0 0 0 0) by (unfold Round.approx; rewrite Rminus_0_r, Rabs_R0; lra).
  pose proof (Rabs_pos (B2R G)) as PG.
  assert (Hs : Rabs (B2R G * S) <= Rabs (B2R G) * A) by (rewrite Rabs_mult; now apply Rmult_le_compat_l).
  pose proof (approx_plus prec emax Hp2 e _ 0 _ _ _ 0 0 0 d AG Z Hs ltac:(rewrite Rabs_R0; lra) ltac:(nra) ltac:(lra) Hd) as X.
  now rewrite !Rplus_0_r in X.
Qed.

Variables (t : @tree bf) (P : nat -> prow).
Hypothesis Ht : tree_inv O E t.
Notation n := (length (t_codes t)).
Notation srcP a := (p_com (n_props a), p_mass (n_props a)).
Notation ps := (map P (seq 0 n)).
Variable mv : bf.
Hypothesis Hfew : (Z.of_nat (n + cacc 1 + 1) <= 2 ^ (prec - 1))%Z.
Hypothesis Hpp : forall i l, (i < n)%nat -> (l < n)%nat -> i <> l -> pair_ok (P i) (P l).
Hypothesis Hpok : forall i, (i < n)%nat -> pok (P i).

Lemma ps_nth : forall i d, (i < n)%nat -> nth i ps d = P i.
Proof. intros i d Hi. rewrite (nth_indep _ d (P 0%nat)) by (rewrite map_length, seq_length; exact Hi). rewrite (map_nth P). f_equal. now rewrite seq_nth. Qed.

Section One.

Variables (q : quant) (i : nat).
Hypothesis Hi : (i < n)%nat.
Notation src l := (if (l =? i)%nat then ghost (P i) else P l).

Lemma row0_sums : row_sums q (P i) (row0 O c q) [] 0.
Proof.
  split; [|split].
  - unfold row0, RoundKern.shp. cbn [fst snd]. destruct (has_acc q), (has_pot q); cbn [length]; rewrite ?repeat_length; auto.
  - intros Hq j Hj. unfold row0. cbn [fst]. rewrite Hq, nth_repeat. constructor.
  - intros Hq. unfold row0. cbn [snd]. rewrite Hq. cbn [nth]. constructor.
Qed.

Lemma leaf_sums : forall idx r l d, (forall m, In m idx -> (m < n)%nat) -> row_sums q (P i) r l d ->
  exists S, Permutation S (map (fun m => src m) idx) /\
    row_sums q (P i) (fold_left (fun r m => lane_leaf O eps2 (lane_of O t ps i) m (nth m ps ([], zero)) r) idx r) (S ++ l) (length S + d).
Proof.
  induction idx as [|m idx IH]; intros r l d Hx HR; [exists []; split; [constructor|exact HR]|]. cbn [fold_left map].
  assert (Hm : (m < n)%nat) by (apply Hx; now left).
  assert (LP : l_p (lane_of O t ps i) = P i) by (cbn [lane_of l_p]; now apply ps_nth).
  assert (ST : row_sums q (P i) (lane_leaf O eps2 (lane_of O t ps i) m (nth m ps ([], zero)) r) (src m :: l) (S d)).
  { eapply rstep_sums; [exact HR|]. rewrite ps_nth by exact Hm. rewrite <- LP at 1. destruct (Nat.eqb_spec m i) as [->|N].
    - rewrite <- LP. change i with (l_idx (lane_of O t ps i)) at 4.
      apply (lane_self_step prec emax Hprec Hemax fused Hp8 k Hk0 Hk5 ndim (dim3 c) e2 eps2 He2 Heps c eq_refl); [rewrite LP; now apply Hpok|apply HR].
    - apply (lane_leaf_step prec emax Hprec Hemax fused Hp8 k Hk0 Hk5 ndim (dim3 c) e2 eps2 He2 Heps c eq_refl); [rewrite LP; apply Hpp; auto|cbn [lane_of l_idx]; auto|apply HR]. }
  destruct (IH _ _ _ (fun x Hx' => Hx x (or_intror Hx')) ST) as (S & S1 & S2). exists (S ++ [src m]). split.
  - eapply perm_trans; [apply Permutation_app_comm|]. cbn [app]. now apply perm_skip.
  - rewrite <- app_assoc. cbn [app]. rewrite app_length. cbn [length]. replace (length S + 1 + d)%nat with (length S + Datatypes.S d)%nat by lia. exact S2.
Qed.

Lemma event_sums : forall evs r l d, Forall (fun e => In (ev_node e) (t_nodes t)) evs -> (forall a, In a (approxs evs) -> pair_ok (P i) (srcP a)) -> row_sums q (P i) r l d ->
  exists S, Permutation S (map (fun m => src m) (flat_map node_idx (directs evs)) ++ map (fun a => srcP a) (approxs evs)) /\
    row_sums q (P i) (fold_left (lane_act O ps eps2 (lane_of O t ps i)) evs r) (S ++ l) (length S + d).
Proof.
  intros evs. induction evs as [|e evs IH]; intros r l d Hev HA HR; [exists []; split; [constructor|exact HR]|].
  pose proof (Forall_inv Hev) as He. pose proof (Forall_inv_tail Hev) as Hev'.
  assert (LP : l_p (lane_of O t ps i) = P i) by (cbn [lane_of l_p]; now apply ps_nth).
  destruct e as [a|a]; cbn [fold_left lane_act approxs directs flat_map app]; fold (approxs evs) (directs evs).
  - assert (ST : row_sums q (P i) (lane_com O eps2 a (lane_of O t ps i) r) (srcP a :: l) (S d)).
    { eapply rstep_sums; [exact HR|]. rewrite <- LP.
      apply (lane_com_step prec emax Hprec Hemax fused Hp8 k Hk0 Hk5 ndim (dim3 c) e2 eps2 He2 Heps c eq_refl); [rewrite LP; apply HA; now left|apply HR]. }
    destruct (IH _ _ _ Hev' (fun x Hx => HA x (or_intror Hx)) ST) as (S & S1 & S2). exists (S ++ [srcP a]). split.
    + cbn [map]. eapply perm_trans; [apply Permutation_app_comm|]. cbn [app]. eapply perm_trans; [apply perm_skip; exact S1|]. apply Permutation_middle.
    + rewrite <- app_assoc. cbn [app]. rewrite app_length. cbn [length]. replace (length S + 1 + d)%nat with (length S + Datatypes.S d)%nat by lia. exact S2.
  - cbn [ev_node] in He. pose proof (node_bounds O E t Ht a He) as NB.
    destruct (leaf_sums (node_idx a) r l d) as (S0 & P0 & R0); [intros m Hm; apply in_seq in Hm; lia|exact HR|].
    destruct (IH _ _ _ Hev' HA R0) as (S & S1 & S2). exists (S ++ S0). split.
    + cbn [flat_map]. rewrite map_app, <- app_assoc. eapply perm_trans; [apply Permutation_app_comm|]. now apply Permutation_app.
    + rewrite <- app_assoc, app_length. replace (length S + length S0 + d)%nat with (length S + (length S0 + d))%nat by lia. exact S2.
Qed.

End One.

Lemma lane_F : forall q idxs i rw, In i idxs -> (forall m, In m idxs -> (m < n)%nat) -> lane_result O E t ps mv eps2 q G idxs i rw ->
  (forall a, In a (t_nodes t) -> vote O mv a (lane_of O t ps i) = true -> pair_ok (P i) (srcP a)) ->
  exists A Dl, Permutation (seq i (i + 1 - i) ++ Dl ++ flat_map node_idx A) (seq 0 n) /\
    (forall a, In a A -> In a (t_nodes t) /\ (forall m, In m idxs -> vote O mv a (lane_of O t ps m) = true)) /\
    length (fst rw ++ snd rw) = nvecs_res E q /\
    forall j, (j < nvecs_res E q)%nat -> let v := nth j (fst rw ++ snd rw) zero in let Dr := others i (i + 1) i ++ Dl in
      is_finite v = true /\
      approx (n + cacc 1 + 2) (INR n * Rabs (B2R G) + 1) (B2R v) (B2R G * tsum prec emax E e2 P (fun x => x) q j i Dr A) (Rabs (B2R G) * tsum prec emax E e2 P Rabs q j i Dr A).
Proof.
  intros q idxs i rw Hin Hidx (evs & HT & Hev & ->) Hvote. pose proof (Hidx i Hin) as Hi.
  assert (HevN : Forall (fun e => In (ev_node e) (t_nodes t)) evs). { eapply Forall_impl; [|exact Hev]. intros e [H _]. exact H. }
  assert (SQ : Permutation (flat_map node_idx (directs evs) ++ flat_map node_idx (approxs evs)) (seq 0 n)).
  { destruct (tiles_seq _ _ _ HT) as [_ S1].
    assert (FM : forall l : list (@event bf), flat_map (fun x => seq (fst x) (snd x - fst x)) (map ev_range l) = flat_map (fun e => node_idx (ev_node e)) l).
    { induction l as [|e l IH]; [reflexivity|]. cbn [map flat_map]. rewrite IH. destruct e; reflexivity. }
    rewrite FM, Nat.sub_0_r in S1. rewrite <- S1. apply Permutation_sym, events_perm. }
  assert (HA : forall a, In a (approxs evs) -> In a (t_nodes t) /\ (forall m, In m idxs -> vote O mv a (lane_of O t ps m) = true)).
  { intros a Ha. unfold approxs in Ha. apply in_flat_map in Ha as (e & He & Ha). destruct e as [a'|a']; [|destruct Ha]. destruct Ha as [->|[]].
    rewrite Forall_forall in Hev. destruct (Hev _ He) as [Hn Hv]. cbn [ev_node] in *. split; [exact Hn|]. intros m Hm. apply Hv, in_map, Hm. }
  assert (NI : forall a, In a (approxs evs) -> ~ In i (node_idx a)).
  { intros a Ha H. destruct (HA a Ha) as [_ V]. specialize (V i Hin). unfold vote in V. apply andb_true_iff in V as [V _]. apply negb_true_iff in V. cbn [lane_of l_idx] in V.
    apply in_seq in H. unfold inside in V. apply andb_false_iff in V as [V|V]; [apply Nat.leb_gt in V|apply Nat.ltb_ge in V]; lia. }
  set (Dl := filter (fun m => negb (m =? i)%nat) (flat_map node_idx (directs evs))).
  assert (ND : NoDup (flat_map node_idx (directs evs))).
  { assert (N0 : NoDup (flat_map node_idx (directs evs) ++ flat_map node_idx (approxs evs))) by (eapply Permutation_NoDup; [apply Permutation_sym, SQ|apply seq_NoDup]).
    clear - N0. induction (flat_map node_idx (directs evs)) as [|x l IH]; [constructor|]. cbn [app] in N0. inversion N0; subst. constructor; [|auto].
    intros H. apply H1. apply in_or_app. now left. }
  assert (PD : Permutation (i :: Dl) (flat_map node_idx (directs evs))).
  { apply remove_one; [exact ND|]. assert (Hs : In i (seq 0 n)) by (apply in_seq; lia). apply (Permutation_in _ (Permutation_sym SQ)), in_app_or in Hs as [Hs|Hs]; [exact Hs|].
    exfalso. apply in_flat_map in Hs as (a & Ha & Hs). now apply (NI a Ha). }
  assert (Eo : others i (i + 1) i = []).
  { unfold others. replace (i + 1 - i)%nat with 1%nat by lia. cbn [seq filter]. now rewrite Nat.eqb_refl. }
  assert (S0 : length (fst (lane_scale O G (fold_left (lane_act O ps eps2 (lane_of O t ps i)) evs (row0 O c q))) ++ snd (lane_scale O G (fold_left (lane_act O ps eps2 (lane_of O t ps i)) evs (row0 O c q)))) = nvecs_res E q
    /\ exists S, Permutation S (ghost (P i) :: map P Dl ++ map (fun a => srcP a) (approxs evs)) /\ row_sums q (P i) (fold_left (lane_act O ps eps2 (lane_of O t ps i)) evs (row0 O c q)) S (length S)).
  { destruct (event_sums q i Hi evs _ _ _ HevN (fun a Ha => Hvote a (proj1 (HA a Ha)) (proj2 (HA a Ha) i Hin)) (row0_sums q i)) as (S & S1 & S2).
    rewrite app_nil_r, Nat.add_0_r in S2. split.
    - destruct S2 as ((L1 & L2) & _). unfold lane_scale. cbn [fst snd]. rewrite app_length, !map_length, L1, L2. unfold nvecs_res. destruct q; cbn; lia.
    - exists S. split; [|exact S2]. eapply perm_trans; [exact S1|]. rewrite app_comm_cons. apply Permutation_app_tail.
      eapply perm_trans; [apply Permutation_map, Permutation_sym, PD|]. cbn [map]. rewrite Nat.eqb_refl.
      replace (map (fun m => if (m =? i)%nat then ghost (P i) else P m) Dl) with (map P Dl); [apply Permutation_refl|].
      apply map_ext_in. intros m Hm. unfold Dl in Hm. apply filter_In in Hm as [_ Hm]. apply negb_true_iff in Hm. now rewrite Hm. }
  destruct S0 as (SL & S & S1 & S2).
  exists (approxs evs), Dl. split; [|split; [exact HA|split; [exact SL|]]].
  - replace (i + 1 - i)%nat with 1%nat by lia. cbn [seq app]. eapply perm_trans; [|exact SQ]. rewrite app_comm_cons. now apply Permutation_app_tail.
  - intros j Hj v Dr. unfold Dr. rewrite Eo. cbn [app]. clear Dr.
    assert (Hd : (length S <= n)%nat).
    { rewrite (Permutation_length S1). cbn [length]. rewrite app_length, !map_length. apply Permutation_length in SQ. rewrite app_length, seq_length in SQ.
      apply Permutation_length in PD. cbn [length] in PD.
      assert (length (approxs evs) <= length (flat_map node_idx (approxs evs)))%nat; [|lia]. apply flat_len. intros a Ha. unfold node_idx. rewrite seq_length.
      pose proof (node_bounds O E t Ht a (proj1 (HA a Ha))). lia. }
    assert (PO : forall p2, In p2 (map P Dl ++ map (fun a => srcP a) (approxs evs)) -> pair_ok (P i) p2).
    { intros p2 Hp. apply in_app_or in Hp as [Hp|Hp].
      - apply in_map_iff in Hp as (x & <- & Hx). unfold Dl in Hx. apply filter_In in Hx as [Hx N]. apply negb_true_iff, Nat.eqb_neq in N.
        apply Hpp; auto. assert (Hs : In x (seq 0 n)) by (apply (Permutation_in _ SQ), in_or_app; now left). apply in_seq in Hs. lia.
      - apply in_map_iff in Hp as (a & <- & Ha). destruct (HA a Ha) as [I1 I2]. now apply Hvote, I2. }
    destruct S2 as ((L1 & L2) & S3 & S4).
    set (r0 := fold_left (lane_act O ps eps2 (lane_of O t ps i)) evs (row0 O c q)) in *.
    assert (LR : length (fst r0 ++ snd r0) = nvecs_res E q) by (rewrite app_length, L1, L2; unfold nvecs_res; destruct q; cbn; lia).
    set (v0 := nth j (fst r0 ++ snd r0) zero).
    assert (EV : v = fmul O G v0).
    { unfold v, v0, lane_scale. cbn [fst snd]. rewrite <- map_app. rewrite (nth_indep _ zero (fmul O G zero)) by (rewrite map_length; lia). now rewrite (map_nth (fun x => fmul O G x)). }
    assert (FIN : forall cc (T : prow -> R), (cc <= cacc 1)%nat -> csum cc T v0 S (length S) -> T (ghost (P i)) = 0 ->
      (forall p2, pair_ok (P i) p2 -> Rabs (T p2) <= bpow radix2 (3 * k)) -> (forall p2, pair_ok (P i) p2 -> pull ndim q e2 j (realp (P i)) (realp p2) = T p2) ->
      is_finite v = true /\ approx (n + cacc 1 + 2) (INR n * Rabs (B2R G) + 1) (B2R v) (B2R G * tsum prec emax E e2 P (fun x => x) q j i Dl (approxs evs)) (Rabs (B2R G) * tsum prec emax E e2 P Rabs q j i Dl (approxs evs))).
    { intros cc T Hcc HC HT0 HT3 HTP. destruct (csum_parts prec emax Hprec Hemax fused Hp8 k Hk0 Hk5 Hroom _ cc T v0 S (length S) _ HC S1) as (F0 & A0 & B0).
      - intros p2 [<-|Hp]; [rewrite HT0, Rabs_R0; apply bpow_ge_0|]. apply HT3, PO, Hp.
      - lia.
      - lia.
      - assert (ES : forall f : R -> R, f 0 = 0 -> rsum (fun p => f (T p)) (ghost (P i) :: map P Dl ++ map (fun a => srcP a) (approxs evs)) = tsum prec emax E e2 P f q j i Dl (approxs evs)).
        { intros f Hf. rewrite rsum_cons, HT0, Hf, Rplus_0_l, rsum_app, !rsum_map. unfold tsum.
          f_equal; apply rsum_ext; intros x Hx; rewrite HTP; auto; apply PO; apply in_or_app; [left|right]; apply in_map_iff; eauto. }
        assert (A0' : approx (cc + 1 + length S) (INR (length S)) (B2R v0) (tsum prec emax E e2 P (fun x => x) q j i Dl (approxs evs)) (tsum prec emax E e2 P Rabs q j i Dl (approxs evs)))
          by (rewrite <- (ES (fun x => x) eq_refl), <- (ES Rabs Rabs_R0); exact A0).
        assert (TS : Rabs (tsum prec emax E e2 P (fun x => x) q j i Dl (approxs evs)) <= tsum prec emax E e2 P Rabs q j i Dl (approxs evs)).
        { unfold tsum. eapply Rle_trans; [apply Rabs_triang|]. apply Rplus_le_compat; apply rsum_abs. }
        rewrite EV. destruct (mul_approx v0 _ _ _ _ F0 A0' B0 TS (pos_INR (length S))) as [F1 A1]. split; [exact F1|].
        pose proof (Rabs_pos (B2R G)) as PG. pose proof (pos_INR (length S)) as Pd. assert (INR (length S) <= INR n) by (apply le_INR; lia).
        eapply (approx_mono prec emax Hp2); [exact A1|lia| |].
        + split; [nra|]. apply Rplus_le_compat_r. apply Rmult_le_compat_r; lra.
        + apply Rmult_le_pos; [exact PG|]. pose proof (Rabs_pos (tsum prec emax E e2 P (fun x => x) q j i Dl (approxs evs))). lra. }
    assert (M0 : B2R (snd (ghost (P i))) = 0) by (apply (B2R_zero prec emax Hprec Hemax fused)).
    destruct (is_acc ndim q j) eqn:IA.
    + pose proof IA as IA'. unfold is_acc in IA'. apply andb_true_iff in IA' as [Hq Hjn]. apply Nat.ltb_lt in Hjn.
      apply FIN with (cacc 1) (Tacc prec emax Hprec Hemax fused ndim e2 j (P i)).
      * lia.
      * unfold v0. rewrite app_nth1 by (rewrite L1, Hq; exact Hjn). now apply S3.
      * unfold Tacc. rewrite M0. unfold Rdiv. ring.
      * intros p2 Hp. apply (Tacc_le prec emax Hprec Hemax fused k ndim (dim3 c) e2 He2 c eq_refl 1 one32); auto.
      * intros p2 ((C1 & _) & (C2 & _) & _). apply real_acc; auto; [apply C2|apply C1].
    + assert (HJ : has_pot q = true /\ j = length (fst r0)).
      { unfold is_acc in IA. rewrite L1. unfold nvecs_res in Hj. destruct q; cbn [has_acc has_pot andb negb] in *; rewrite ?Nat.ltb_ge in IA; split; try reflexivity; try lia. }
      destruct HJ as [Hq HJ].
      apply FIN with (cpot 1) (Tpot prec emax Hprec Hemax fused ndim e2 (P i)).
      * unfold cpot, cacc. lia.
      * unfold v0. rewrite app_nth2 by lia. rewrite HJ, Nat.sub_diag. now apply S4.
      * unfold Tpot. rewrite M0. unfold Rdiv. ring.
      * intros p2 Hp. apply (Tpot_le prec emax Hprec Hemax fused k ndim (dim3 c) e2 He2 c eq_refl 1 one32); auto.
      * intros p2 ((C1 & _) & (C2 & _) & _). apply real_pot; auto; [apply C2|apply C1].
Qed.

End Lane.
