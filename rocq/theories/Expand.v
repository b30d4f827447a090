(** A cloud of point masses replaced by one point mass that is only approximately its centre of mass. *)
From Coq Require Import List Arith ZArith NArith Reals Bool Lra Lia Psatz.
From Verif Require Import Base Config Kernels RSum KernR NodesR Geometry ForceRTop ForceMore ForceAcc.
Import ListNotations.
Local Open Scope R_scope.

Section Expand.

Variables (dd : nat) (q : quant) (eps : R) (p1 : @prow R) (y : list R) (idx : list nat) (p : nat -> @prow R) (Mf gm dl kp : R).
Notation x := (fst p1).
Notation A := (sqrt (sep2 y x + eps * eps)).
Notation Bl := (fun l => sqrt (sep2 (fst (p l)) x + eps * eps)).
Notation T := (rsum (fun l => snd (p l)) idx).
Hypothesis Hx : length x = dd.
Hypothesis Hy : length y = dd.
Hypothesis Hm1 : 0 <= snd p1.
Hypothesis Hgm : 0 <= gm.
Hypothesis Hdl : 0 <= dl.
Hypothesis Hkp : 0 <= kp.
Hypothesis HA : 0 < A.
Hypothesis HM : Rabs (Mf - T) <= gm * T.
Hypothesis Hl : forall l, In l idx -> length (fst (p l)) = dd /\ 0 <= snd (p l) /\ 0 < Bl l /\ distance (fst (p l)) y <= kp * A.
Hypothesis Hc : forall j, (j < dd)%nat -> Rabs (rsum (fun l => snd (p l) * (nth j (fst (p l)) 0 - nth j y 0)) idx) <= T * dl.

Lemma T_nonneg : 0 <= T.
Proof. apply rsum_nonneg. intros l Hin. apply (Hl l Hin). Qed.

Lemma z_le : forall j, (j < dd)%nat -> Rabs (nth j y 0 - nth j x 0) <= A.
Proof.
  intros j Hj. eapply Rle_trans; [exact (sep2_coord _ _ _ j Hy Hx Hj)|]. apply sqrt_le_1_alt. nra.
Qed.

Lemma one_source : forall l, In l idx -> let d := distance (fst (p l)) y in
  0 <= d /\ Bl l * Bl l = A * A + 2 * prod dd x y (fst (p l)) + d * d /\ Rabs (Bl l - A) <= d /\
  (forall j, (j < dd)%nat -> Rabs (nth j (fst (p l)) 0 - nth j y 0) <= d) /\ Bl l <= (1 + kp) * A.
Proof.
  intros l Hin d. destruct (Hl l Hin) as (Ll & _ & PB & Hd). fold d in Hd.
  assert (AB : Rabs (Bl l - A) <= d).
  { set (r := distance (fst (p l)) x). set (e := distance y x). assert (BE : Bl l = sqrt (r * r + eps * eps)) by (unfold r; now rewrite <- sep2_dist).
    assert (AE : A = sqrt (e * e + eps * eps)) by (unfold e; now rewrite <- sep2_dist). rewrite BE, AE.
    pose proof (soft_lipschitz eps r e) as L1. pose proof (soft_lipschitz eps e r) as L2. rewrite (Rabs_minus_sym e r) in L2.
    assert (RD : Rabs (r - e) <= d).
    { unfold r, e, d. pose proof (triangle (fst (p l)) y x ltac:(lia) ltac:(lia)). pose proof (triangle y (fst (p l)) x ltac:(lia) ltac:(lia)) as T2.
      rewrite (distance_sym y (fst (p l))) in T2. apply Rabs_le. lra. }
    apply Rabs_le. lra. }
  split; [apply distance_nonneg|]. split; [|split; [exact AB|split]].
  - unfold d. rewrite !sqrt_sqrt by (pose proof (sep2_nonneg (fst (p l)) x); pose proof (sep2_nonneg y x); nra).
    rewrite <- sep2_dist, (sep2_expand dd x (fst (p l)) y) by assumption. ring.
  - intros j Hj. unfold d. rewrite distance_sep2. now apply (sep2_coord dd).
  - apply Rabs_le_inv in AB. lra.
Qed.

(** The first moments. *)
Lemma moment_prod : Rabs (rsum (fun l => snd (p l) * prod dd x y (fst (p l))) idx) <= INR dd * (T * dl * A).
Proof.
  replace (rsum (fun l => snd (p l) * prod dd x y (fst (p l))) idx) with
    (rsum (fun j => (nth j y 0 - nth j x 0) * rsum (fun l => snd (p l) * (nth j (fst (p l)) 0 - nth j y 0)) idx) (seq 0 dd)).
  - eapply Rle_trans; [apply rsum_abs|]. rewrite <- (seq_length dd 0) at 2. rewrite <- rsum_const. apply rsum_le. intros j Hj. apply in_seq in Hj.
    rewrite Rabs_mult, Rmult_comm. apply Rmult_le_compat; auto using Rabs_pos; [apply Hc; lia|apply z_le; lia].
  - unfold prod. transitivity (rsum (fun j => rsum (fun l => snd (p l) * ((nth j y 0 - nth j x 0) * (nth j (fst (p l)) 0 - nth j y 0))) idx) (seq 0 dd)).
    + apply rsum_ext. intros j _. rewrite <- rsum_scal. apply rsum_ext. intros; ring.
    + rewrite rsum_swap. apply rsum_ext. intros l _. now rewrite rsum_scal.
Qed.

(** The mass divided by the distance, or by its square. *)
Lemma mass_over : T / A <= (1 + kp) * rsum (fun l => snd (p l) / Bl l) idx.
Proof.
  unfold Rdiv at 1. rewrite Rmult_comm, <- !rsum_scal. apply rsum_le. intros l Hin. destruct (one_source l Hin) as (_ & _ & _ & _ & BL). destruct (Hl l Hin) as (_ & Ml & PB & _).
  replace ((1 + kp) * (snd (p l) / Bl l)) with (snd (p l) * ((1 + kp) / Bl l)) by (unfold Rdiv; ring). rewrite Rmult_comm. apply Rmult_le_compat_l; [exact Ml|].
  apply Rmult_le_reg_r with (A * Bl l); [now apply Rmult_lt_0_compat|]. replace (/ A * (A * Bl l)) with (Bl l) by (field; lra). replace ((1 + kp) / Bl l * (A * Bl l)) with ((1 + kp) * A) by (field; lra). exact BL.
Qed.

Lemma mass_over2 : T / (A * A) <= (1 + kp) * (1 + kp) * rsum (fun l => strength eps p1 (p l)) idx.
Proof.
  unfold Rdiv at 1. rewrite Rmult_comm, <- !rsum_scal. apply rsum_le. intros l Hin. destruct (one_source l Hin) as (_ & _ & _ & _ & BL). destruct (Hl l Hin) as (_ & Ml & PB & _).
  unfold strength. assert (B2 : sep2 (fst (p l)) x + eps * eps = Bl l * Bl l) by (symmetry; apply sqrt_sqrt; pose proof (sep2_nonneg (fst (p l)) x); nra). rewrite B2.
  replace ((1 + kp) * (1 + kp) * (snd (p l) / (Bl l * Bl l))) with (snd (p l) * (((1 + kp) * (1 + kp)) / (Bl l * Bl l))) by (unfold Rdiv; ring). rewrite Rmult_comm. apply Rmult_le_compat_l; [exact Ml|].
  set (b := Bl l) in *. set (a := A) in *. clearbody a b.
  apply Rmult_le_reg_r with (a * a * (b * b)); [repeat apply Rmult_lt_0_compat; lra|]. replace (/ (a * a) * (a * a * (b * b))) with (b * b) by (field; lra).
  replace ((1 + kp) * (1 + kp) / (b * b) * (a * a * (b * b))) with (((1 + kp) * a) * ((1 + kp) * a)) by (field; lra). apply Rmult_le_compat; lra.
Qed.

Lemma Mf_le : Rabs Mf <= (1 + gm) * T.
Proof.
  replace Mf with (T + (Mf - T)) by ring. eapply Rle_trans; [apply Rabs_triang|]. rewrite (Rabs_right T) by (apply Rle_ge, T_nonneg). lra.
Qed.

Lemma cloud_pot : forall j, is_acc dd q j = false ->
  let S := rsum (fun l => - pull dd q (eps * eps) j p1 (p l)) idx in
  Rabs (pull dd q (eps * eps) j p1 (y, Mf) - rsum (fun l => pull dd q (eps * eps) j p1 (p l)) idx) <= (pot_factor kp + (1 + kp) * (gm + INR dd * dl / A)) * S /\
  Rabs (pull dd q (eps * eps) j p1 (y, Mf)) <= (1 + gm) * (1 + kp) * S.
Proof.
  intros j Hj S.
  assert (ES : S = snd p1 * rsum (fun l => snd (p l) / Bl l) idx).
  { unfold S. rewrite <- rsum_scal. apply rsum_ext. intros l _. unfold pull. rewrite Hj. unfold Rdiv. ring. }
  pose proof mass_over as MO. pose proof moment_prod as MP. pose proof Mf_le as ML. pose proof T_nonneg as T0.
  assert (TS : snd p1 * (T / A) <= (1 + kp) * S) by (rewrite ES; replace ((1 + kp) * (snd p1 * rsum (fun l => snd (p l) / Bl l) idx)) with (snd p1 * ((1 + kp) * rsum (fun l => snd (p l) / Bl l) idx)) by ring; now apply Rmult_le_compat_l).
  set (a := A) in *. set (T' := T) in *.
  split.
  - assert (EQ : pull dd q (eps * eps) j p1 (y, Mf) - rsum (fun l => pull dd q (eps * eps) j p1 (p l)) idx =
      rsum (fun l => snd p1 * snd (p l) * (/ Bl l - / a + prod dd x y (fst (p l)) / (a * a * a))) idx
      - snd p1 / (a * a * a) * rsum (fun l => snd (p l) * prod dd x y (fst (p l))) idx - snd p1 * (Mf - T') / a).
    { replace (snd p1 * (Mf - T') / a) with (snd p1 * Mf / a - rsum (fun l => snd p1 / a * snd (p l)) idx) by (rewrite rsum_scal; fold T'; field; lra).
      rewrite <- rsum_scal. unfold pull at 1. rewrite Hj. cbn [fst snd]. fold a.
      replace (rsum (fun l => pull dd q (eps * eps) j p1 (p l)) idx) with (rsum (fun l => - (snd p1 * snd (p l)) / Bl l) idx) by (apply rsum_ext; intros l _; unfold pull; now rewrite Hj).
      transitivity (- (snd p1 * Mf) / a + (rsum (fun l => snd p1 * snd (p l) * (/ Bl l - / a + prod dd x y (fst (p l)) / (a * a * a))
        - snd p1 / (a * a * a) * (snd (p l) * prod dd x y (fst (p l))) + snd p1 / a * snd (p l)) idx)).
      - unfold Rminus at 1. f_equal. transitivity (rsum (fun l => -1 * (- (snd p1 * snd (p l)) / Bl l)) idx); [rewrite rsum_scal; ring|]. apply rsum_ext. intros l Hin. destruct (Hl l Hin) as (_ & _ & PB & _). field. split; lra.
      - rewrite rsum_plus, rsum_minus. unfold Rdiv. ring. }
    rewrite EQ. clear EQ. set (S1 := rsum (fun l => snd p1 * snd (p l) * (/ Bl l - / a + prod dd x y (fst (p l)) / (a * a * a))) idx).
    set (S2 := rsum (fun l => snd (p l) * prod dd x y (fst (p l))) idx) in *.
    assert (X1 : Rabs S1 <= pot_factor kp * S).
    { unfold S1, S. eapply Rle_trans; [apply rsum_abs|]. rewrite <- rsum_scal. apply rsum_le. intros l Hin.
      destruct (one_source l Hin) as (D0 & HBB & HBA & _). destruct (Hl l Hin) as (_ & Ml & PB & HdA). cbv zeta in HBB, HBA.
      pose proof (Rmult_le_pos _ _ Hm1 Ml) as M3. pose proof (pot_scalar a (Bl l) _ _ kp HA PB D0 Hkp HBB HBA HdA) as S3.
      rewrite Rabs_mult, (Rabs_right (snd p1 * snd (p l))) by lra. unfold pull. rewrite Hj.
      replace (pot_factor kp * - (- (snd p1 * snd (p l)) / Bl l)) with ((snd p1 * snd (p l)) * (pot_factor kp * / Bl l)) by (unfold Rdiv; ring).
      now apply Rmult_le_compat_l. }
    assert (X2 : Rabs (snd p1 / (a * a * a) * S2) <= INR dd * dl / a * (snd p1 * (T' / a))).
    { assert (P3 : 0 < a * a * a) by (repeat apply Rmult_lt_0_compat; lra). assert (0 <= snd p1 / (a * a * a)) by (unfold Rdiv; apply Rmult_le_pos; [exact Hm1|left; now apply Rinv_0_lt_compat]).
      rewrite Rabs_mult, (Rabs_right (snd p1 / _)) by lra. replace (INR dd * dl / a * (snd p1 * (T' / a))) with (snd p1 / (a * a * a) * (INR dd * (T' * dl * a))) by (field; lra).
      apply Rmult_le_compat_l; assumption. }
    assert (X3 : Rabs (snd p1 * (Mf - T') / a) <= gm * (snd p1 * (T' / a))).
    { unfold Rdiv. rewrite !Rabs_mult, (Rabs_right (/ a)), (Rabs_right (snd p1)) by (try (apply Rle_ge; exact Hm1); left; now apply Rinv_0_lt_compat).
      replace (gm * (snd p1 * (T' * / a))) with (snd p1 * (gm * T') * / a) by ring. apply Rmult_le_compat_r; [left; now apply Rinv_0_lt_compat|]. now apply Rmult_le_compat_l. }
    assert (D0 : 0 <= INR dd * dl / a). { unfold Rdiv. apply Rmult_le_pos; [apply Rmult_le_pos; [apply pos_INR|exact Hdl]|left; now apply Rinv_0_lt_compat]. }
    apply Rle_trans with (Rabs S1 + Rabs (snd p1 / (a * a * a) * S2) + Rabs (snd p1 * (Mf - T') / a)).
    { unfold Rminus. eapply Rle_trans; [apply Rabs_triang|]. rewrite Rabs_Ropp. apply Rplus_le_compat_r. eapply Rle_trans; [apply Rabs_triang|]. rewrite Rabs_Ropp. lra. }
    set (w := INR dd * dl / a) in *. clearbody w.
    assert (Y : (gm + w) * (snd p1 * (T' / a)) <= (gm + w) * ((1 + kp) * S)) by (apply Rmult_le_compat_l; lra). lra.
  - unfold pull. rewrite Hj. cbn [fst snd]. fold a. unfold Rdiv. rewrite Rabs_mult, Rabs_Ropp, Rabs_mult, (Rabs_right (/ a)), (Rabs_right (snd p1)) by (try (apply Rle_ge; exact Hm1); left; now apply Rinv_0_lt_compat).
    apply Rle_trans with ((1 + gm) * (snd p1 * (T' / a))).
    + unfold Rdiv. replace ((1 + gm) * (snd p1 * (T' * / a))) with (snd p1 * ((1 + gm) * T') * / a) by ring. apply Rmult_le_compat_r; [left; now apply Rinv_0_lt_compat|]. now apply Rmult_le_compat_l.
    + rewrite Rmult_assoc. apply Rmult_le_compat_l; lra.
Qed.

Lemma cloud_acc : forall j, is_acc dd q j = true -> kp < 1 ->
  let S := rsum (fun l => strength eps p1 (p l)) idx in
  Rabs (pull dd q (eps * eps) j p1 (y, Mf) - rsum (fun l => pull dd q (eps * eps) j p1 (p l)) idx) <= (acc_factor kp + (1 + kp) * (1 + kp) * (gm + (1 + 3 * INR dd) * dl / A)) * S /\
  Rabs (pull dd q (eps * eps) j p1 (y, Mf)) <= (1 + gm) * ((1 + kp) * (1 + kp)) * S.
Proof.
  intros j Hj Hk1 S. assert (Ej : (j < dd)%nat) by (unfold is_acc in Hj; apply andb_true_iff in Hj as [_ Hj]; now apply Nat.ltb_lt).
  pose proof mass_over2 as MO. fold S in MO. pose proof moment_prod as MP. pose proof (Hc j Ej) as MC. pose proof Mf_le as ML. pose proof T_nonneg as T0. pose proof (z_le j Ej) as Hz.
  set (a := A) in *. set (T' := T) in *. set (z := nth j y 0 - nth j x 0) in *.
  assert (P2 : 0 < a * a) by (apply Rmult_lt_0_compat; lra). assert (P3 : 0 < a * a * a) by (apply Rmult_lt_0_compat; lra). assert (P5 : 0 < a * a * a * a * a) by (apply Rmult_lt_0_compat; [apply Rmult_lt_0_compat|]; lra).
  assert (I3 : 0 < / (a * a * a)) by (now apply Rinv_0_lt_compat). assert (I5 : 0 < / (a * a * a * a * a)) by (now apply Rinv_0_lt_compat).
  assert (PU : pull dd q (eps * eps) j p1 (y, Mf) = Mf * z / (a * a * a)) by (unfold pull; rewrite Hj; reflexivity).
  assert (Z3 : Rabs (z * / (a * a * a)) <= / (a * a)).
  { rewrite Rabs_mult, (Rabs_right (/ _)) by lra. apply Rle_trans with (a * / (a * a * a)); [apply Rmult_le_compat_r; lra|]. apply Req_le. field. lra. }
  split.
  - assert (EQ : pull dd q (eps * eps) j p1 (y, Mf) - rsum (fun l => pull dd q (eps * eps) j p1 (p l)) idx =
      rsum (fun l => - snd (p l) * (let w := nth j (fst (p l)) 0 - nth j y 0 in let b := Bl l in
         (z + w) / (b * b * b) - z / (a * a * a) - (w / (a * a * a) - 3 * prod dd x y (fst (p l)) * z / (a * a * a * a * a)))) idx
      - / (a * a * a) * rsum (fun l => snd (p l) * (nth j (fst (p l)) 0 - nth j y 0)) idx
      + 3 * z / (a * a * a * a * a) * rsum (fun l => snd (p l) * prod dd x y (fst (p l))) idx + (Mf - T') * (z * / (a * a * a))).
    { replace ((Mf - T') * (z * / (a * a * a))) with (Mf * z / (a * a * a) - rsum (fun l => z * / (a * a * a) * snd (p l)) idx) by (rewrite rsum_scal; fold T'; unfold Rdiv; ring).
      rewrite PU, <- !rsum_scal.
      match goal with |- ?l - ?r = ?s1 - ?s2 + ?s3 + (?l' - ?s4) => enough (r = - s1 + s2 - s3 + s4) by lra end.
      transitivity (rsum (fun l => -1 * (- snd (p l) * (let w := nth j (fst (p l)) 0 - nth j y 0 in let b := Bl l in
         (z + w) / (b * b * b) - z / (a * a * a) - (w / (a * a * a) - 3 * prod dd x y (fst (p l)) * z / (a * a * a * a * a))))
         + / (a * a * a) * (snd (p l) * (nth j (fst (p l)) 0 - nth j y 0)) - 3 * z / (a * a * a * a * a) * (snd (p l) * prod dd x y (fst (p l))) + z * / (a * a * a) * snd (p l)) idx).
      - apply rsum_ext. intros l Hin. unfold pull. rewrite Hj. cbv zeta. replace (nth j (fst (p l)) 0 - nth j x 0) with (z + (nth j (fst (p l)) 0 - nth j y 0)) by (unfold z; ring).
        unfold Rdiv. ring.
      - rewrite rsum_plus, rsum_minus, rsum_plus, rsum_scal. ring. }
    rewrite EQ. clear EQ.
    match goal with |- context [rsum ?f idx - / (a * a * a) * ?m1 + ?kk * ?m2 + ?r] => set (S1 := rsum f idx); set (M1 := m1) in *; set (M2 := m2) in * end.
    assert (X1 : Rabs S1 <= acc_factor kp * S).
    { unfold S1, S. eapply Rle_trans; [apply rsum_abs|]. rewrite <- rsum_scal. apply rsum_le. intros l Hin.
      destruct (one_source l Hin) as (D0 & HBB & HBA & Hw & _). destruct (Hl l Hin) as (_ & Ml & PB & HdA). cbv zeta in *.
      pose proof (acc_scalar a (Bl l) _ _ kp _ _ HA PB D0 (conj Hkp Hk1) HBB HBA HdA Hz (Hw j Ej)) as S3.
      assert (B2 : strength eps p1 (p l) = snd (p l) / (Bl l * Bl l)). { unfold strength. f_equal. symmetry; apply sqrt_sqrt; pose proof (sep2_nonneg (fst (p l)) x); nra. }
      rewrite Rabs_mult, Rabs_Ropp, (Rabs_right (snd (p l))) by lra. rewrite B2.
      replace (acc_factor kp * (snd (p l) / (Bl l * Bl l))) with (snd (p l) * (acc_factor kp * / (Bl l * Bl l))) by (unfold Rdiv; ring).
      apply Rmult_le_compat_l; [exact Ml|exact S3]. }
    assert (X2 : Rabs (/ (a * a * a) * M1) <= dl / a * (T' / (a * a))).
    { rewrite Rabs_mult, (Rabs_right (/ _)) by lra. replace (dl / a * (T' / (a * a))) with (/ (a * a * a) * (T' * dl)) by (field; lra). apply Rmult_le_compat_l; [lra|exact MC]. }
    assert (X3 : Rabs (3 * z / (a * a * a * a * a) * M2) <= 3 * INR dd * dl / a * (T' / (a * a))).
    { unfold Rdiv at 1. rewrite !Rabs_mult, (Rabs_right 3), (Rabs_right (/ _)) by lra. apply Rle_trans with (3 * a * / (a * a * a * a * a) * (INR dd * (T' * dl * a))).
      - apply Rmult_le_compat; [| |apply Rmult_le_compat_r; [lra|apply Rmult_le_compat_l; lra]|exact MP]; [|apply Rabs_pos].
        apply Rmult_le_pos; [apply Rmult_le_pos; [lra|apply Rabs_pos]|lra].
      - apply Req_le. field. lra. }
    assert (X4 : Rabs ((Mf - T') * (z * / (a * a * a))) <= gm * (T' / (a * a))).
    { rewrite Rabs_mult. unfold Rdiv. rewrite <- Rmult_assoc. apply Rmult_le_compat; auto using Rabs_pos. }
    assert (D0 : 0 <= dl / a). { unfold Rdiv. apply Rmult_le_pos; [exact Hdl|left; now apply Rinv_0_lt_compat]. }
    apply Rle_trans with (Rabs S1 + Rabs (/ (a * a * a) * M1) + Rabs (3 * z / (a * a * a * a * a) * M2) + Rabs ((Mf - T') * (z * / (a * a * a)))).
    { eapply Rle_trans; [apply Rabs_triang|]. apply Rplus_le_compat_r. eapply Rle_trans; [apply Rabs_triang|]. apply Rplus_le_compat_r. unfold Rminus. eapply Rle_trans; [apply Rabs_triang|]. rewrite Rabs_Ropp. lra. }
    replace (3 * INR dd * dl / a) with (3 * INR dd * (dl / a)) in X3 by (unfold Rdiv; ring). replace ((1 + 3 * INR dd) * dl / a) with ((1 + 3 * INR dd) * (dl / a)) by (unfold Rdiv; ring).
    pose proof (pos_INR dd) as PD. set (w := dl / a) in *. clearbody w. assert (W : 0 <= gm + (1 + 3 * INR dd) * w) by nra.
    assert (Y : (gm + (1 + 3 * INR dd) * w) * (T' / (a * a)) <= (gm + (1 + 3 * INR dd) * w) * ((1 + kp) * (1 + kp) * S)) by (apply Rmult_le_compat_l; lra). lra.
  - rewrite PU. unfold Rdiv. rewrite Rmult_assoc, Rabs_mult. apply Rle_trans with ((1 + gm) * (T' / (a * a))).
    + unfold Rdiv. rewrite <- Rmult_assoc. apply Rmult_le_compat; auto using Rabs_pos.
    + rewrite Rmult_assoc. apply Rmult_le_compat_l; lra.
Qed.

End Expand.
