(** Rounding errors of the results of the tree computation. *)
From Coq Require Import List Arith ZArith NArith Reals Bool Lra Lia Psatz Permutation.
From Flocq Require Import Core BinarySingleNaN Relative Plus_error.
From Verif Require Import Base Config Morton Build TreeSpec FOps FOpsProofs Disc NodeProps Tree TreeInv TreeProofs TreeSafe RSum Kernels KernR SelfSum SelfShape Force TravProofs KernLoops
  ForceGen ForceOut ForceR ForceTop ForceRTop Round RoundFin RoundNear RoundKern RoundSum RoundExact TreeShape.
Import ListNotations.
Local Open Scope nat_scope.

Lemma racc_len : forall F (O : fops F) c simd K q eps2 p1 a l d, racc O c simd K q eps2 p1 a l d -> length l <= d.
Proof. intros F O c simd K q eps2 p1 a l d H. induction H; cbn [length]; rewrite ?app_length; lia. Qed.

Section IEEE.

Variables prec emax : Z.
Context (Hprec : Prec_gt_0 prec).
Context (Hemax : Prec_lt_emax prec emax).
Variable fused : bool.
Hypothesis Hp8 : (8 <= prec)%Z.

Notation bf := (binary_float prec emax).
Notation O := (Bops prec emax Hprec Hemax fused).
Notation fexp := (SpecFloat.fexp prec emax).
Notation rnd := (round radix2 fexp ZnearestE).
Notation zero := (fofZ O 0%Z).
Notation one := (fofZ O 1%Z).
Notation g := (gR prec).
Notation eta := (etaR prec emax).
Notation approx := (approx prec emax).
Notation csum := (csum prec emax Hprec Hemax fused).
Notation Hp2 := (Hp2 prec Hp8).
Notation prow := (@prow bf).
Notation rrow := (@rrow bf).
Notation realp := (realp prec emax).

Local Open Scope R_scope.

Variable k : Z.
Hypothesis Hk0 : (0 <= k)%Z.
Hypothesis Hk5 : (5 * k + 16 <= emax)%Z.
Hypothesis Hroom : (prec + 4 * k + 4 <= emax)%Z.

Lemma csum_parts : forall A cc (T : A -> R) v l d L, csum cc T v l d -> Permutation l L -> (forall a, In a L -> Rabs (T a) <= bpow radix2 (3 * k)) ->
  (length l <= d)%nat -> (Z.of_nat (cc + 1 + d) <= 2 ^ (prec - 1))%Z ->
  is_finite v = true /\ approx (cc + 1 + d) (INR d) (B2R v) (rsum T L) (rsum (fun a => Rabs (T a)) L) /\ Rabs (B2R v) <= bpow radix2 (prec + 3 * k + 1).
Proof.
  intros A cc T v l d L HC HL HT Hl Hd.
  assert (HT' : forall a, In a l -> Rabs (T a) <= bpow radix2 (3 * k)) by (intros a Ha; apply HT; eapply Permutation_in; eauto).
  destruct (csum_approx prec emax Hprec Hemax fused Hp8 _ _ _ _ _ _ HC) as [F AP].
  { apply (bound_ok prec emax Hp8) with (3 * k)%Z; auto; lia. }
  rewrite (rsum_perm _ T l L HL), (rsum_perm _ (fun a => Rabs (T a)) l L HL) in AP. split; [exact F|]. split; [exact AP|].
  pose proof (approx_abs prec emax _ _ _ _ _ AP (rsum_abs _ T L)) as B. eapply Rle_trans; [exact B|].
  pose proof (small_le prec Hp8 (cc + 1 + d) Hd) as S. unfold small in S. pose proof (g_pow1 prec Hp2 (cc + 1 + d)) as G1.
  assert (LL : length L = length l) by (now rewrite (Permutation_length HL)).
  assert (HD : INR d <= bpow radix2 (prec - 1)).
  { rewrite INR_IZR_INZ, <- (IZR_Zpower radix2) by lia. apply IZR_le. change (Z.pow radix2 (prec - 1)) with (2 ^ (prec - 1))%Z. lia. }
  assert (HS : rsum (fun a => Rabs (T a)) L <= bpow radix2 (prec - 1) * bpow radix2 (3 * k)).
  { eapply Rle_trans; [apply (rsum_le _ _ (fun _ => bpow radix2 (3 * k))); exact HT|]. rewrite rsum_const. apply Rmult_le_compat_r; [apply bpow_ge_0|].
    eapply Rle_trans; [|exact HD]. apply le_INR. lia. }
  assert (HE : INR d * eta <= bpow radix2 (prec - 1) * bpow radix2 (3 * k)).
  { apply Rmult_le_compat; [apply pos_INR|apply bpow_ge_0|exact HD|]. unfold etaR. apply bpow_le. unfold Prec_gt_0 in *. lia. }
  assert (PA : 0 <= rsum (fun a => Rabs (T a)) L) by (apply rsum_nonneg; intros; apply Rabs_pos).
  replace (prec + 3 * k + 1)%Z with ((prec - 1) + 3 * k + 2)%Z by lia. rewrite !bpow_plus. change (bpow radix2 2) with 4.
  assert (0 <= INR d * eta) by (apply Rmult_le_pos; [apply pos_INR|apply bpow_ge_0]).
  apply Rle_trans with (2 * (rsum (fun a => Rabs (T a)) L + INR d * eta)); [apply Rmult_le_compat_r; lra|]. lra.
Qed.

Variable G : bf.
Hypothesis FG : is_finite G = true.
Hypothesis HG : Rabs (B2R G) <= bpow radix2 k.

Lemma scale_approx : forall (v : bf) e q S A, is_finite v = true -> approx e q (B2R v) S A -> Rabs (B2R v) <= bpow radix2 (prec + 3 * k + 1) -> Rabs S <= A -> 0 <= q ->
  let v' := if feq O G one then v else fmul O v G in
  is_finite v' = true /\ approx (Datatypes.S e) (q * Rabs (B2R G) + 1) (B2R v') (B2R G * S) (Rabs (B2R G) * A).
Proof.
  intros v e q S A Fv AP Hv HS Hq. assert (PA : 0 <= A) by (pose proof (Rabs_pos S); lra).
  assert (O1 : is_finite one = true /\ B2R one = 1).
  { destruct (ofZ_pow prec emax Hprec Hemax fused Hp2 0 ltac:(pose proof Hemax; unfold Prec_lt_emax in *; lia)) as [A' B']. change (2 ^ 0)%Z with 1%Z in A', B'. auto. }
  cbv zeta. cbn [feq Bops]. rewrite Beqb_correct by (auto; apply O1). rewrite (proj2 O1). destruct (Req_bool_spec (B2R G) 1) as [E1|N1].
  - split; [exact Fv|]. rewrite E1, Rabs_R1, !Rmult_1_l, Rmult_1_r. eapply (approx_mono prec emax Hp2); [exact AP|lia|lra|exact PA].
  - assert (Fm : is_finite (fmul O v G) = true).
    { cbn [fmul Bops]. apply mult_finite; auto. apply Rle_lt_trans with (bpow radix2 (emax - 2)); [|apply bpow_lt; lia].
      apply (rnd_bnd prec emax Hprec Hp2); [unfold Prec_gt_0 in *; lia|]. rewrite Rabs_mult.
      apply Rle_trans with (bpow radix2 (prec + 3 * k + 1) * bpow radix2 k); [apply Rmult_le_compat; auto using Rabs_pos|]. rewrite <- bpow_plus. apply bpow_le. lia. }
    split; [exact Fm|]. cbn [fmul Bops] in *. destruct (mult_fin prec emax Hprec Hemax _ _ Fm) as (_ & _ & ->).
    destruct (any_err prec emax Hprec (B2R v * B2R G)) as (d & h & Hd & Hh & ->). apply approx_eta; [exact Hp8| |exact Hh].
    assert (AG : approx e (q * Rabs (B2R G)) (B2R v * B2R G) (B2R G * S) (Rabs (B2R G) * A)).
    { unfold Round.approx in *. replace (B2R v * B2R G - B2R G * S) with (B2R G * (B2R v - S)) by ring. rewrite Rabs_mult.
      pose proof (Rabs_pos (B2R G)). nra. }
    assert (Z : approx e 0 0 0 0) by (unfold Round.approx; rewrite Rminus_0_r, Rabs_R0; lra).
    pose proof (Rabs_pos (B2R G)) as PG.
    assert (Hs : Rabs (B2R G * S) <= Rabs (B2R G) * A) by (rewrite Rabs_mult; now apply Rmult_le_compat_l).
    pose proof (approx_plus prec emax Hp2 e _ 0 _ _ _ 0 0 0 d AG Z Hs ltac:(rewrite Rabs_R0; lra) ltac:(nra) ltac:(lra) Hd) as X.
    now rewrite !Rplus_0_r in X.
Qed.

Variable E : env.
Hypothesis HE : env_ok E.
Notation c := (e_cfg E).
Notation bw := (batch c (e_simd E)).
Notation ndim := (dim c).
Variable K : platform bf.
Hypothesis HK : benign_shift K.
Variable e2 : R.
Variable eps2 : bf.
Hypothesis He2 : 0 <= e2 <= bpow radix2 (2 * k).
Hypothesis Heps : val prec emax 1 eps2 e2.
Variable r : nat.
Hypothesis Hr : (r <= 32)%nat.
Hypothesis Hfast : fast_ok prec emax Hprec Hemax fused k K r.

Notation pair_ok := (pair_ok prec emax Hprec Hemax fused k ndim e2).

Variables (t : @tree bf) (P : nat -> prow).
Hypothesis Ht : tree_inv O E t.
Hypothesis HP : forall i, (i < length (t_codes t))%nat -> row (t_parts t) i (fst (P i) ++ [snd (P i)]).
Notation n := (length (t_codes t)).
Notation srcP a := (p_com (n_props a), p_mass (n_props a)).
Variables mac_value pad : bf.
Hypothesis Hfew : (Z.of_nat (n + bw + cacc r + 1) <= 2 ^ (prec - 1))%Z.
Hypothesis Hpp : forall i l, (i < n)%nat -> (l < n)%nat -> i <> l -> pair_ok (P i) (P l).
Hypothesis Hpad : forall i, (i < n)%nat -> pair_ok (P i) (pad_row O E pad).

(** The exact sum for the particle [i]. *)
Definition tsum (f : R -> R) (q : quant) (j i : nat) (Dr : list nat) (A : list (node (props bf))) : R :=
  rsum (fun l => f (pull ndim q e2 j (realp (P i)) (realp (P l)))) Dr + rsum (fun a => f (pull ndim q e2 j (realp (P i)) (realp (srcP a)))) A.

Lemma crit_F : forall q cn psize, In cn (t_crit t) -> pdata_size E (c_end cn - c_begin cn) = Ok psize ->
  let acc := accept O c (e_simd E) K mac_value eps2 (c_end cn - c_begin cn) (tgt_rows O E (map P (seq 0 n)) pad cn psize) in
  (forall a i, In a (t_nodes t) -> acc a = true -> (c_begin cn <= i < c_end cn)%nat -> pair_ok (P i) (srcP a)) ->
  exists A Dl,
    Permutation (seq (c_begin cn) (c_end cn - c_begin cn) ++ Dl ++ flat_map node_idx A) (seq 0 n) /\
    (forall a, In a A -> In a (t_nodes t) /\ acc a = true /\ (n_end a <= c_begin cn \/ c_end cn <= n_begin a)%nat) /\
    exists res, crit_rows O E K q t mac_value G eps2 pad cn = Ok res /\
    forall i, (c_begin cn <= i < c_end cn)%nat -> exists rw, nth_error res (i - c_begin cn) = Some rw /\ length (fst rw ++ snd rw) = nvecs_res E q /\
      forall j, (j < nvecs_res E q)%nat -> let v := nth j (fst rw ++ snd rw) zero in let Dr := others (c_begin cn) (c_end cn) i ++ Dl in
        is_finite v = true /\
        approx (n + bw + cacc r + 2) (INR (n + bw) * Rabs (B2R G) + 1) (B2R v) (B2R G * tsum (fun x => x) q j i Dr A) (Rabs (B2R G) * tsum Rabs q j i Dr A).
Proof.
  intros q cn psize Hcn Hsz acc Hnode.
  destruct (crit_shape O E K HE HK q t P Ht HP mac_value G eps2 pad cn psize Hcn Hsz) as (A & Dl & H1 & H2 & res & H3 & H4).
  fold acc in H2. exists A, Dl. split; [exact H1|]. split; [exact H2|]. exists res. split; [exact H3|]. intros i Hi.
  destruct (crit_node O E t cn Ht Hcn) as (_ & _ & _ & _ & _ & N5). assert (Hin : (i < n)%nat) by lia.
  destruct (H4 i Hi) as (r0 & l & d & m & R1 & R2 & R3 & R4 & R5 & R6).
  pose proof (racc_len _ _ _ _ _ _ _ _ _ _ _ R3) as Ll. set (Dr := others (c_begin cn) (c_end cn) i ++ Dl) in *.
  assert (HDr : forall x, In x Dr -> (x < n)%nat /\ x <> i).
  { intros x Hx. assert (S : In x (seq 0 n) /\ x <> i).
    { unfold Dr in Hx. apply in_app_or in Hx as [Hx|Hx].
      - unfold others in Hx. apply filter_In in Hx as [Hx N]. split; [eapply Permutation_in; [exact H1|]; apply in_or_app; now left|]. intros ->. rewrite Nat.eqb_refl in N. discriminate.
      - split; [eapply Permutation_in; [exact H1|]; apply in_or_app; right; apply in_or_app; now left|]. intros ->.
        assert (ND : NoDup (seq (c_begin cn) (c_end cn - c_begin cn) ++ Dl ++ flat_map node_idx A)) by (eapply Permutation_NoDup; [apply Permutation_sym; exact H1|apply seq_NoDup]).
        apply in_split in Hx as (D1 & D2 & ->).
        assert (Hs : In i (seq (c_begin cn) (c_end cn - c_begin cn))) by (apply in_seq; lia). apply in_split in Hs as (S1 & S2 & Es). rewrite Es in ND.
        rewrite <- !app_assoc in ND. cbn [app] in ND. apply NoDup_remove_2 in ND. apply ND. apply in_or_app. right. apply in_or_app. right. apply in_or_app. right. now left. }
    destruct S as [S N]. apply in_seq in S. split; [lia|exact N]. }
  assert (PO : forall p2, In p2 (map P Dr ++ map (fun a => srcP a) A ++ repeat (pad_row O E pad) m) -> pair_ok (P i) p2).
  { intros p2 Hp. apply in_app_or in Hp as [Hp|Hp]; [|apply in_app_or in Hp as [Hp|Hp]].
    - apply in_map_iff in Hp as (x & <- & Hx). destruct (HDr x Hx). apply Hpp; auto.
    - apply in_map_iff in Hp as (a & <- & Ha). destruct (H2 a Ha) as (I1 & I2 & _). now apply Hnode.
    - apply repeat_spec in Hp as ->. now apply Hpad. }
  destruct (racc_sums prec emax Hprec Hemax fused Hp8 k Hk0 Hk5 ndim (dim3 c) e2 eps2 He2 Heps c (e_simd E) K eq_refl r Hr Hfast q (P i) r0 l d R3) as ((S1 & S2) & S3 & S4).
  { intros p2 Hp. apply PO. eapply Permutation_in; eauto. }
  assert (Lr : length (fst r0 ++ snd r0) = nvecs_res E q) by (rewrite app_length, S1, S2; unfold nvecs_res; destruct q; cbn; lia).
  match type of R1 with _ = Some ?x => set (rw := x) in R1; exists rw end. split; [exact R1|].
  assert (RW : fst rw ++ snd rw = map (fun v => if feq O G one then v else fmul O v G) (fst r0 ++ snd r0)).
  { unfold rw. destruct (feq O G one); [now rewrite map_id|]. unfold scale_row. cbn [fst snd]. now rewrite map_app. }
  rewrite RW, map_length. split; [exact Lr|]. intros j Hj v Dr'.
  set (v0 := nth j (fst r0 ++ snd r0) zero).
  assert (EV : v = if feq O G one then v0 else fmul O v0 G).
  { unfold v. rewrite (nth_indep _ zero ((fun v => if feq O G one then v else fmul O v G) zero)) by (rewrite map_length; lia). now rewrite (map_nth (fun v => if feq O G one then v else fmul O v G)). }
  (* the sums *)
  assert (FIN : forall cc (T : prow -> R), (cc <= cacc r)%nat -> csum cc T v0 l d -> T (pad_row O E pad) = 0 ->
    (forall p2, pair_ok (P i) p2 -> Rabs (T p2) <= bpow radix2 (3 * k)) -> (forall p2, pair_ok (P i) p2 -> pull ndim q e2 j (realp (P i)) (realp p2) = T p2) ->
    is_finite v = true /\ approx (n + bw + cacc r + 2) (INR (n + bw) * Rabs (B2R G) + 1) (B2R v) (B2R G * tsum (fun x => x) q j i Dr A) (Rabs (B2R G) * tsum Rabs q j i Dr A)).
  { intros cc T Hcc HC HT0 HT3 HTP. destruct (csum_parts _ cc T v0 l d _ HC R6) as (F0 & A0 & B0).
    - intros p2 Hp. apply HT3, PO, Hp.
    - exact Ll.
    - lia.
    - assert (ES : forall f : R -> R, f 0 = 0 -> rsum (fun p => f (T p)) (map P Dr ++ map (fun a => srcP a) A ++ repeat (pad_row O E pad) m) = tsum f q j i Dr A).
      { intros f Hf. rewrite !rsum_app, !rsum_map. unfold tsum.
        assert (Z : rsum (fun p => f (T p)) (repeat (pad_row O E pad) m) = 0). { rewrite <- (rsum_0 _ (repeat (pad_row O E pad) m)). apply rsum_ext. intros p Hp. apply repeat_spec in Hp as ->. now rewrite HT0. }
        match goal with |- _ + (_ + ?z) = _ => replace z with 0 by (symmetry; exact Z) end. rewrite Rplus_0_r. f_equal; apply rsum_ext; intros x Hx; rewrite HTP; auto; apply PO; apply in_or_app; [left|right; apply in_or_app; left]; apply in_map_iff; eauto. }
      assert (A0' : approx (cc + 1 + d) (INR d) (B2R v0) (tsum (fun x => x) q j i Dr A) (tsum Rabs q j i Dr A)) by (rewrite <- (ES (fun x => x) eq_refl), <- (ES Rabs Rabs_R0); exact A0).
      assert (TS : Rabs (tsum (fun x => x) q j i Dr A) <= tsum Rabs q j i Dr A).
      { unfold tsum. eapply Rle_trans; [apply Rabs_triang|]. apply Rplus_le_compat; apply rsum_abs. }
      rewrite EV. destruct (scale_approx v0 _ _ _ _ F0 A0' B0 TS (pos_INR d)) as [F1 A1]. split; [exact F1|].
      pose proof (Rabs_pos (B2R G)) as PG. pose proof (pos_INR d) as Pd. assert (INR d <= INR (n + bw)) by (apply le_INR; lia).
      eapply (approx_mono prec emax Hp2); [exact A1|lia| |].
      + split; [nra|]. apply Rplus_le_compat_r. apply Rmult_le_compat_r; lra.
      + apply Rmult_le_pos; [exact PG|]. pose proof (Rabs_pos (tsum (fun x => x) q j i Dr A)). lra. }
  assert (M0 : B2R (snd (pad_row O E pad)) = 0) by (apply (B2R_zero prec emax Hprec Hemax fused)).
  destruct (is_acc ndim q j) eqn:IA.
  - pose proof IA as IA'. unfold is_acc in IA'. apply andb_true_iff in IA' as [Hq Hjn]. apply Nat.ltb_lt in Hjn.
    apply FIN with (cacc r) (Tacc prec emax Hprec Hemax fused ndim e2 j (P i)).
    + lia.
    + unfold v0. rewrite app_nth1 by (rewrite S1, Hq; exact Hjn). now apply S3.
    + unfold Tacc. rewrite M0. unfold Rdiv. ring.
    + intros p2 Hp. apply (Tacc_le prec emax Hprec Hemax fused k ndim (dim3 c) e2 He2 c eq_refl r Hr); auto.
    + intros p2 ((C1 & _) & (C2 & _) & _). apply real_acc; auto; [apply C2|apply C1].
  - assert (HJ : has_pot q = true /\ j = length (fst r0)).
    { unfold is_acc in IA. rewrite S1. unfold nvecs_res in Hj. destruct q; cbn [has_acc has_pot andb negb] in *; rewrite ?Nat.ltb_ge in IA; split; try reflexivity; try lia. }
    destruct HJ as [Hq HJ].
    apply FIN with (cpot r) (Tpot prec emax Hprec Hemax fused ndim e2 (P i)).
    + unfold cpot, cacc. lia.
    + unfold v0. rewrite app_nth2 by lia. rewrite HJ, Nat.sub_diag. now apply S4.
    + unfold Tpot. rewrite M0. unfold Rdiv. ring.
    + intros p2 Hp. apply (Tpot_le prec emax Hprec Hemax fused k ndim (dim3 c) e2 He2 c eq_refl r Hr); auto.
    + intros p2 ((C1 & _) & (C2 & _) & _). apply real_pot; auto; [apply C2|apply C1].
Qed.

End IEEE.
