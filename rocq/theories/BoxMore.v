(** Box size deduction: exact arithmetic, and the degenerate case of all-zero coordinates. *)
From Coq Require Import List Arith ZArith NArith Reals Bool Lia Lra Psatz.
From Flocq Require Import Core BinarySingleNaN.
From Verif Require Import Base Config Morton MortonProofs Build FOps Disc FOpsProofs DiscProofs BoxProofs BoxAccept.
Import ListNotations.
Local Open Scope R_scope.

(** ** Exact arithmetic *)
Definition colR (j : nat) (ps : list (list R)) : list R := map (fun p => nth j p 0) ps.
Definition stR (ndim : nat) (ps : list (list R)) (v : list R) : Prop :=
  length v = ndim /\ forall j x, nth_error v j = Some x -> x = max_abs (colR j ps).

Lemma fmaxR : forall a b, fmax Rops a b = Rmax a b.
Proof.
  intros a b. unfold fmax. cbn [flt Rops]. destruct (Rltb a b) eqn:E.
  - apply Rltb_lt in E. now rewrite Rmax_right by lra.
  - apply Rltb_ge in E. now rewrite Rmax_left by lra.
Qed.

Lemma max_stepR : forall ndim ps v p, length p = ndim -> stR ndim ps v ->
  exists w, max_step Rops v p = Ok w /\ stR ndim (ps ++ [p]) w.
Proof.
  intros ndim ps v p Hp [Hl Hv]. unfold max_step.
  set (g := fun '(m, x) => Rmax m (Rabs x)).
  exists (map g (combine v p)). split.
  - apply mapM_map. intros [m x] _. cbn [fabs ffin Rops]. unfold g. now rewrite fmaxR.
  - split; [rewrite map_length, combine_length; lia|].
    intros j x Hj. rewrite nth_error_map, nth_error_combine in Hj.
    destruct (nth_error v j) as [m|] eqn:Em; [|discriminate].
    destruct (nth_error p j) as [y|] eqn:Ey; [|discriminate]. injection Hj as <-.
    rewrite (Hv j m Em). unfold colR. rewrite map_app, max_abs_app. simpl. f_equal.
    erewrite nth_error_nth by exact Ey. rewrite Rmax_left; [reflexivity|apply Rabs_pos].
Qed.

Lemma fold_stepR : forall ndim qs ps v, Forall (fun p => length p = ndim) qs -> stR ndim ps v ->
  exists w, foldM (max_step Rops) qs v = Ok w /\ stR ndim (ps ++ qs) w.
Proof.
  induction qs as [|q qs IH]; intros ps v HF Hv; simpl.
  - exists v. rewrite app_nil_r. auto.
  - destruct (max_stepR ndim ps v q (Forall_inv HF) Hv) as (w & -> & Hw). simpl.
    destruct (IH (ps ++ [q]) w (Forall_inv_tail HF) Hw) as (w' & -> & Hw').
    exists w'. split; [reflexivity|]. now rewrite <- app_assoc in Hw'.
Qed.

Lemma run_redR : forall ndim parts, Forall (fun p => length p = ndim) parts ->
  forall r b e, spans r b e -> (e <= length parts)%nat ->
  exists w, run_red Rops ndim parts r = Ok w /\ stR ndim (slice parts b e) w.
Proof.
  intros ndim parts HF. induction r as [|r IH m e'|l IHl r IHr]; simpl; intros b e Hs He.
  - subst. unfold slice. rewrite Nat.sub_diag. simpl. eexists. split; [reflexivity|].
    split; [apply repeat_length|].
    intros j x Hj. apply nth_error_In, repeat_spec in Hj. subst. reflexivity.
  - destruct Hs as (-> & Hm & Hs). pose proof (spans_le _ _ _ Hs).
    destruct (IH b m Hs ltac:(lia)) as (v & -> & Hv). rewrite (slice_split parts b m e) by lia. simpl.
    now apply fold_stepR; [apply Forall_slice|].
  - destruct Hs as (m & Hl & Hr). pose proof (spans_le _ _ _ Hl). pose proof (spans_le _ _ _ Hr).
    destruct (IHl b m Hl ltac:(lia)) as (a & -> & A1 & A2).
    destruct (IHr m e Hr He) as (w & -> & B1 & B2). rewrite (slice_split parts b m e) by lia. simpl.
    eexists. split; [reflexivity|]. split; [rewrite map_length, combine_length; lia|].
    intros j x Hj. rewrite nth_error_map, nth_error_combine in Hj.
    destruct (nth_error a j) as [xa|] eqn:Ea; [|discriminate].
    destruct (nth_error w j) as [xb|] eqn:Eb; [|discriminate]. injection Hj as <-.
    rewrite fmaxR, (A2 j xa Ea), (B2 j xb Eb). unfold colR. now rewrite map_app, max_abs_app.
Qed.

Lemma max_elementR : forall l m, max_element Rops m l = fold_left Rmax l m.
Proof.
  induction l as [|x l IH]; intros m; simpl; [reflexivity|].
  change (if Rltb m x then x else m) with (fmax Rops m x). now rewrite fmaxR, IH.
Qed.

Lemma fold_Rmax : forall l m, m <= fold_left Rmax l m /\ (forall x, In x l -> x <= fold_left Rmax l m) /\
  (fold_left Rmax l m = m \/ In (fold_left Rmax l m) l).
Proof.
  induction l as [|y l IH]; intros m; simpl; [repeat split; auto; try lra; tauto|].
  destruct (IH (Rmax m y)) as (I1 & I2 & I3). split; [|split].
  - eapply Rle_trans; [apply Rmax_l|exact I1].
  - intros x [->|Hx]; [|now apply I2]. eapply Rle_trans; [apply Rmax_r|exact I1].
  - destruct I3 as [->|I3]; [|auto]. unfold Rmax. destruct (Rle_dec m y); auto.
Qed.

(** Deduced box size, exactly: 2.1 times the largest absolute coordinate. *)
Lemma boxR : forall ndim parts r, (0 < ndim)%nat -> Forall (fun p => length p = ndim) parts ->
  spans r 0 (length parts) -> (N.of_nat (length parts) <= diff_max)%N ->
  determine_box_size Rops ndim parts r = Ok (21 / 10 * max_abs (concat parts)).
Proof.
  intros ndim parts r Hn HF Hs Hd. unfold determine_box_size, it_diff_check.
  destruct (N.ltb_spec diff_max (N.of_nat (length parts))); [lia|]. cbn [bind].
  destruct (run_redR ndim parts HF r _ _ Hs (le_n _)) as (v & -> & Hl & Hv). rewrite slice_all in Hv.
  cbn [bind]. destruct v as [|m0 mt]; [simpl in Hl; lia|].
  cbv zeta. cbn [ffin fmul ffma fdiv fofZ Rops]. f_equal. rewrite max_elementR.
  assert (E : fold_left Rmax mt m0 = max_abs (concat parts)); [|rewrite E; lra].
  destruct (fold_Rmax mt m0) as (G0 & G1 & G2).
  apply Rle_antisym.
  - assert (Hall : forall x, In x (m0 :: mt) -> x <= max_abs (concat parts)).
    { intros x Hx. apply In_nth_error in Hx as [j Hj]. rewrite (Hv j x Hj).
      apply max_abs_le; [apply max_abs_ge0|]. intros y Hy. apply max_abs_In.
      unfold colR in Hy. apply in_map_iff in Hy as (p & <- & Hp).
      apply in_concat. exists p. split; [exact Hp|]. apply nth_In.
      rewrite Forall_forall in HF. rewrite (HF p Hp). rewrite <- Hl. eapply nth_error_lt; eauto. }
    apply Hall. destruct G2 as [->|G2]; [now left|now right].
  - apply max_abs_le.
    + assert (0 <= m0); [|lra]. rewrite (Hv 0%nat m0 eq_refl). apply max_abs_ge0.
    + intros x Hx. apply in_concat in Hx as (p & Hp & Hx).
      apply In_nth_error in Hx as [j Hj].
      assert (Hjl : (j < length (m0 :: mt))%nat).
      { rewrite Hl. rewrite Forall_forall in HF. rewrite <- (HF p Hp). eapply nth_error_lt; eauto. }
      destruct (nth_error (m0 :: mt) j) as [m|] eqn:Em; [|apply nth_error_None in Em; lia].
      apply Rle_trans with m.
      * rewrite (Hv j m Em). apply max_abs_In. unfold colR. apply in_map_iff. exists p.
        split; [|exact Hp]. now apply nth_error_nth.
      * apply nth_error_In in Em. destruct Em as [->|Em]; [exact G0|now apply G1].
Qed.

Lemma boxR_accepts : forall c parts x, (exists p, In p parts /\ In x p) -> 0 < max_abs (concat parts) ->
  exists k, disc_single_coord Rops c false x (1 / (21 / 10 * max_abs (concat parts))) = Ok k.
Proof.
  intros c parts x (p & Hp & Hx) Hm.
  assert (HxM : Rabs x <= max_abs (concat parts)) by (apply max_abs_In, in_concat; eauto).
  set (M := max_abs (concat parts)) in *. clearbody M.
  pose proof (disc_R_accept c x (21 / 10 * M) ltac:(lra)) as A. apply Rabs_def2b in HxM.
  destruct (disc_single_coord Rops c false x (1 / (21 / 10 * M))) as [k|e|]; [eauto| |destruct A].
  destruct A as [_ A]. exfalso. apply A. lra.
Qed.

(** ** All coordinates zero *)
Section Zero.

Variables prec emax : Z.
Context (Hprec : Prec_gt_0 prec).
Context (Hemax : Prec_lt_emax prec emax).
Variable fused : bool.
Hypothesis Hp8 : (8 <= prec)%Z.
Variable c : cfg.
Hypothesis Hcb : (Z.of_N (cbitsc c) < emax)%Z.

Notation bf := (binary_float prec emax).
Notation O := (Bops prec emax Hprec Hemax fused).
Notation fexp := (SpecFloat.fexp prec emax).
Notation rnd := (round radix2 fexp ZnearestE).

Let Hp2 : (2 <= prec)%Z. Proof. lia. Qed.

Lemma zero_form : forall x : bf, is_finite x = true -> B2R x = 0 -> exists s, x = B754_zero s.
Proof.
  intros x Hf Hx. destruct x as [s| | |s m e H]; try discriminate; [eauto|].
  exfalso. simpl in Hx. apply eq_0_F2R in Hx. simpl in Hx. destruct s; discriminate.
Qed.

Lemma zero_box_throws : forall b x : bf, is_finite b = true -> B2R b = 0 -> B2R x = 0 ->
  disc_single_coord O c false x (fdiv O (fofZ O 1%Z) b) = Throw InvalidArgument.
Proof.
  intros b x Fb Eb Ex. destruct (zero_form b Fb Eb) as [s ->].
  destruct (ofZ_exact prec emax Hprec Hemax fused Hp2 1) as [V1 F1].
  { change (Z.abs 1) with (2 ^ 0)%Z. apply Z.pow_lt_mono_r; lia. }
  assert (Hi : exists s', fdiv O (fofZ O 1%Z) (B754_zero s) = B754_infinity s').
  { cbn [fdiv Bops]. destruct (fofZ O 1%Z) as [s1| | |s1 m e H]; simpl in V1; try lra; try discriminate.
    simpl. eauto. }
  destruct Hi as [s' ->].
  rewrite (disc_eq prec emax Hprec Hemax fused Hp2 c Hcb).
  destruct (is_finite (scaled _ _ _ _ _ c x (B754_infinity s'))) eqn:F; [|reflexivity].
  destruct (scaled_fin prec emax Hprec Hemax fused Hp2 c Hcb x _ F) as (_ & F2 & _). discriminate.
Qed.

Lemma all_zero_throws : forall parts r,
  Forall (fun p => length p = dim c) parts -> spans r 0 (length parts) ->
  (N.of_nat (length parts) <= diff_max)%N ->
  Forall (Forall (fun x => is_finite x = true /\ B2R x = 0)) parts ->
  exists b, determine_box_size O (dim c) parts r = Ok b /\ B2R b = 0 /\
    forall p, In p parts -> particle_code O c p (fdiv O (fofZ O 1%Z) b) = Throw InvalidArgument.
Proof.
  intros parts r HF Hs Hd Hz.
  assert (Hn : (0 < dim c)%nat) by (destruct c; simpl; lia).
  (* determine_box_size does not fail *)
  assert (Hb : exists b, determine_box_size O (dim c) parts r = Ok b /\ is_finite b = true /\ B2R b = 0).
  { unfold determine_box_size, it_diff_check.
    destruct (N.ltb_spec diff_max (N.of_nat (length parts))); [lia|]. cbn [bind].
    pose proof (run_red_ok prec emax Hprec Hemax fused (dim c) parts HF r _ _ Hs (le_n _)) as A.
    rewrite slice_all in A.
    destruct (run_red O (dim c) parts r) as [v|e|]; cbn [bind].
    - destruct A as [_ A2]. destruct v as [|m0 mt]; [destruct A2 as [A2 _]; simpl in A2; lia|].
      destruct (max_of_state prec emax Hprec Hemax fused (dim c) parts m0 mt HF A2) as [G R]. cbv zeta.
      set (M := max_element O m0 mt) in *.
      assert (EM : B2R M = 0).
      { rewrite R. apply Rle_antisym; [|apply max_abs_ge0]. apply max_abs_le; [lra|].
        intros y Hy. apply in_map_iff in Hy as (x & <- & Hx). apply in_concat in Hx as (p & Hp & Hx).
        rewrite Forall_forall in Hz. specialize (Hz p Hp). rewrite Forall_forall in Hz.
        destruct (Hz x Hx) as [_ ->]. rewrite Rabs_R0. lra. }
      destruct (zero_form M (proj1 G) EM) as [s Es]. rewrite Es.
      destruct (ofZ_pow prec emax Hprec Hemax fused Hp2 1) as [V2 F2].
      { pose proof (emax_gt prec emax Hemax). lia. }
      change (2 ^ 1)%Z with 2%Z in V2, F2.
      assert (H2 : is_finite (fmul O (B754_zero s) (fofZ O 2%Z)) = true /\ B2R (fmul O (B754_zero s) (fofZ O 2%Z)) = 0).
      { assert (F : is_finite (Bmult mode_NE (B754_zero s) (fofZ O 2%Z)) = true).
        { apply mult_finite; auto. simpl B2R. rewrite Rmult_0_l, round_0, Rabs_R0 by auto with typeclass_instances.
          apply bpow_gt_0. }
        split; [exact F|]. apply mult_fin in F as (_ & _ & F). cbn [fmul Bops]. rewrite F.
        simpl B2R. rewrite Rmult_0_l. apply round_0. auto with typeclass_instances. }
      destruct H2 as [F2M E2M]. set (tM := fmul O (B754_zero s) (fofZ O 2%Z)) in *.
      destruct (ofZ_exact prec emax Hprec Hemax fused Hp2 1) as [W1 G1].
      { change (Z.abs 1) with (2 ^ 0)%Z. apply Z.pow_lt_mono_r; lia. }
      destruct (ofZ_exact prec emax Hprec Hemax fused Hp2 20) as [W20 G20].
      { apply Z.lt_le_trans with (2 ^ 8)%Z; [reflexivity|]. apply Z.pow_le_mono_r; lia. }
      assert (Fc : is_finite (fdiv O (fofZ O 1%Z) (fofZ O 20%Z)) = true).
      { apply (div_finite prec emax Hprec Hemax); auto; [rewrite W20; lra|]. rewrite W1, W20.
        assert (Hle : 0 <= rnd (1 / 20) <= 1).
        { split.
          - apply round_ge_generic; auto with typeclass_instances.
            + exact (@FLT_exp_valid (3 - emax - prec) prec Hprec).
            + apply generic_format_0.
            + lra.
          - apply round_le_generic; auto with typeclass_instances.
            + exact (@FLT_exp_valid (3 - emax - prec) prec Hprec).
            + change 1 with (bpow radix2 0). apply (format_pow prec emax Hprec Hp2).
              pose proof (emax_gt prec emax Hemax). lia.
            + lra. }
        apply Rabs_def1; [|pose proof (bpow_gt_0 radix2 emax); lra].
        apply Rle_lt_trans with 1; [lra|]. change 1 with (bpow radix2 0). apply bpow_lt.
        pose proof (emax_gt prec emax Hemax). lia. }
      set (cc := fdiv O (fofZ O 1%Z) (fofZ O 20%Z)) in *.
      assert (Hv0 : fma_val prec emax fused (B2R tM) (B2R cc) (B2R tM) = 0).
      { rewrite E2M. unfold fma_val. rewrite Rmult_0_l. destruct fused.
        - rewrite Rplus_0_l. apply round_0. auto with typeclass_instances.
        - rewrite !round_0 by auto with typeclass_instances. rewrite Rplus_0_l.
          apply round_0. auto with typeclass_instances. }
      assert (Fr : is_finite (ffma O tM cc tM) = true).
      { apply (fma_finite prec emax Hprec Hemax fused); auto.
        - rewrite E2M, Rmult_0_l, round_0, Rabs_R0 by auto with typeclass_instances. apply bpow_gt_0.
        - rewrite Hv0, Rabs_R0. apply bpow_gt_0. }
      exists (ffma O tM cc tM). change (ffin O (ffma O tM cc tM)) with (is_finite (ffma O tM cc tM)).
      rewrite Fr. split; [reflexivity|]. split; [reflexivity|].
      destruct (fma_fin prec emax Hprec Hemax fused _ _ _ Fr) as (_ & _ & _ & ->). exact Hv0.
    - exfalso. destruct A as [_ A]. apply A. unfold all_fin.
      eapply Forall_impl; [|exact Hz]. intros p Hp. eapply Forall_impl; [|exact Hp]. intros x Hx. apply Hx.
    - destruct A. }
  destruct Hb as (b & Hb & Fb & Eb). exists b. split; [exact Hb|]. split; [exact Eb|].
  intros p Hp. unfold particle_code.
  rewrite Forall_forall in Hz, HF. specialize (Hz p Hp). specialize (HF p Hp).
  destruct p as [|x p]; [destruct c; discriminate|]. cbn [mapM].
  rewrite zero_box_throws; auto. apply (Forall_inv Hz).
Qed.

End Zero.
