(** Second-order error bounds of potentials and accelerations: the first-order terms cancel because nodes are expanded about their centre of mass. *)
From Coq Require Import List Arith NArith ZArith Lia Bool Reals Lra Permutation.
From Verif Require Import Base Config Morton Build TreeSpec FOps FOpsProofs Disc NodeProps Tree TreeInv TreeProofs TreeSafe Kernels Force
  TravProofs KernLoops RSum NodeGeom NodesR SelfSum KernR ForceGen ForceOut ForceR ForceTop ForceRTop Geometry ForceMore.
Import ListNotations.
Local Open Scope nat_scope.

(** * One source *)

(** The factors of the bounds; [k] is the opening angle times the square root of the number of dimensions. *)
Definition pot_factor (k : R) : R := (k * k * (3 + k) / 2)%R.
Definition acc_factor (k : R) : R := (k * k * (3 / 2 * ((1 + k) * (1 + k)) + 4 * (1 + k) + 3 + 2 / (1 - k)))%R.

Local Open Scope R_scope.

Lemma sq_le : forall x y, Rabs x <= y -> x * x <= y * y.
Proof. intros x y H. pose proof (Rabs_pos x). pose proof (Rsqr_abs x) as Q. unfold Rsqr in Q. rewrite Q. nra. Qed.

Lemma Rabs_le_inv : forall x y, Rabs x <= y -> - y <= x <= y.
Proof. intros x y H. unfold Rabs in H. destruct (Rcase_abs x); lra. Qed.

Lemma pot_scalar : forall A B p dl k, 0 < A -> 0 < B -> 0 <= dl -> 0 <= k -> B * B = A * A + 2 * p + dl * dl -> Rabs (B - A) <= dl -> dl <= k * A ->
  Rabs (/ B - / A + p / (A * A * A)) <= pot_factor k * / B.
Proof.
  intros A B p dl k HA HB Hd Hk HBB HBA HdA.
  assert (E : / B - / A + p / (A * A * A) = ((B - A) * (B - A) * (B + 2 * A) - dl * dl * B) / (2 * (A * A * A) * B)).
  { replace p with ((B * B - A * A - dl * dl) / 2) by lra. field. lra. }
  pose proof (sq_le _ _ HBA) as S. assert (S0 : 0 <= (B - A) * (B - A)) by exact (Rle_0_sqr (B - A)).
  assert (D2 : dl * dl <= k * A * (k * A)) by (apply Rmult_le_compat; assumption).
  assert (N : Rabs ((B - A) * (B - A) * (B + 2 * A) - dl * dl * B) <= dl * dl * (B + 2 * A)) by (apply Rabs_le; split; nra).
  assert (PD : 0 < 2 * (A * A * A) * B) by (repeat apply Rmult_lt_0_compat; lra).
  rewrite E. unfold Rdiv. rewrite Rabs_mult, (Rabs_right (/ (2 * (A * A * A) * B))) by (left; now apply Rinv_0_lt_compat).
  apply Rle_trans with (k * A * (k * A) * ((3 + k) * A) * / (2 * (A * A * A) * B)).
  - apply Rmult_le_compat_r; [left; now apply Rinv_0_lt_compat|]. eapply Rle_trans; [exact N|].
    assert (BA : B + 2 * A <= (3 + k) * A). { apply Rabs_le_inv in HBA. lra. }
    apply Rmult_le_compat; try assumption; [exact (Rle_0_sqr dl)|lra].
  - apply Req_le. unfold pot_factor. field. lra.
Qed.

Lemma acc_scalar : forall A B p dl k z w, 0 < A -> 0 < B -> 0 <= dl -> 0 <= k < 1 -> B * B = A * A + 2 * p + dl * dl -> Rabs (B - A) <= dl -> dl <= k * A ->
  Rabs z <= A -> Rabs w <= dl ->
  Rabs ((z + w) / (B * B * B) - z / (A * A * A) - (w / (A * A * A) - 3 * p * z / (A * A * A * A * A))) <= acc_factor k * / (B * B).
Proof.
  intros A B p dl k z w HA HB Hd [Hk Hk1] HBB HBA HdA Hz Hw.
  pose proof (sq_le _ _ HBA) as S. assert (S0 : 0 <= (B - A) * (B - A)) by exact (Rle_0_sqr (B - A)).
  assert (D2 : dl * dl <= k * A * (k * A)) by (apply Rmult_le_compat; assumption).
  set (Q := 3 * (B * B * B) + 6 * A * (B * B) + 4 * (A * A) * B + 2 * (A * A * A)).
  set (h := / (B * B * B) - / (A * A * A) + 3 * p / (A * A * A * A * A)).
  set (g := / (B * B * B) - / (A * A * A)).
  assert (E0 : (z + w) / (B * B * B) - z / (A * A * A) - (w / (A * A * A) - 3 * p * z / (A * A * A * A * A)) = z * h + w * g) by (unfold h, g; field; lra).
  assert (PA2 : 0 < A * A) by nra. assert (PB2 : 0 < B * B) by nra. assert (PA3 : 0 < A * A * A) by nra. assert (PB3 : 0 < B * B * B) by nra.
  assert (PA5 : 0 < A * A * A * A * A) by (repeat apply Rmult_lt_0_compat; lra). assert (PAB : 0 < A * B) by nra.
  assert (PQ : 3 * (B * B * B) <= Q /\ 0 < Q) by (unfold Q; split; nra).
  assert (Eh : h = ((B - A) * (B - A) * Q - dl * dl * (3 * (B * B * B))) * / (2 * (A * A * A * A * A) * (B * B * B))).
  { unfold h, Q. replace p with ((B * B - A * A - dl * dl) / 2) by lra. field. lra. }
  assert (PD : 0 < 2 * (A * A * A * A * A) * (B * B * B)) by (repeat apply Rmult_lt_0_compat; lra).
  assert (PI : 0 < / (2 * (A * A * A * A * A) * (B * B * B))) by (now apply Rinv_0_lt_compat).
  assert (Hh : Rabs h <= k * A * (k * A) * Q * / (2 * (A * A * A * A * A) * (B * B * B))).
  { rewrite Eh, Rabs_mult, (Rabs_right (/ _)) by lra. apply Rmult_le_compat_r; [lra|].
    apply Rle_trans with (dl * dl * Q); [|apply Rmult_le_compat_r; lra]. apply Rabs_le. pose proof (Rle_0_sqr dl) as D0. unfold Rsqr in D0.
    assert (X1 : (B - A) * (B - A) * Q <= dl * dl * Q) by (apply Rmult_le_compat_r; lra).
    assert (X2 : dl * dl * (3 * (B * B * B)) <= dl * dl * Q) by (apply Rmult_le_compat_l; lra).
    assert (X3 : 0 <= (B - A) * (B - A) * Q) by (apply Rmult_le_pos; lra). assert (X4 : 0 <= dl * dl * (3 * (B * B * B))) by (apply Rmult_le_pos; lra). lra. }
  assert (Eg : g = (A - B) * (A * A + A * B + B * B) * / (A * A * A * (B * B * B))) by (unfold g; field; lra).
  assert (PJ : 0 < / (A * A * A * (B * B * B))) by (apply Rinv_0_lt_compat, Rmult_lt_0_compat; lra).
  assert (Hg : Rabs g <= dl * (A * A + A * B + B * B) * / (A * A * A * (B * B * B))).
  { rewrite Eg, !Rabs_mult, (Rabs_right (/ _)) by lra. apply Rmult_le_compat_r; [lra|]. rewrite (Rabs_right (A * A + A * B + B * B)) by lra.
    apply Rmult_le_compat_r; [lra|]. now rewrite Rabs_minus_sym. }
  rewrite E0. eapply Rle_trans; [apply Rabs_triang|]. rewrite !Rabs_mult.
  apply Rle_trans with (A * (k * A * (k * A) * Q * / (2 * (A * A * A * A * A) * (B * B * B))) + (k * A) * ((k * A) * (A * A + A * B + B * B) * / (A * A * A * (B * B * B)))).
  - apply Rplus_le_compat.
    + apply Rmult_le_compat; auto using Rabs_pos.
    + apply Rmult_le_compat; auto using Rabs_pos; [lra|]. eapply Rle_trans; [exact Hg|]. apply Rmult_le_compat_r; [lra|]. apply Rmult_le_compat_r; lra.
  - set (b := B / A). assert (PB : 0 < b) by (now apply Rdiv_lt_0_compat). assert (BE : B = b * A) by (unfold b; field; lra).
    apply Rabs_le_inv in HBA. assert (L1 : 1 - k <= b) by (apply Rmult_le_reg_r with A; [exact HA|rewrite <- BE; lra]). assert (L2 : b <= 1 + k) by (apply Rmult_le_reg_r with A; [exact HA|rewrite <- BE; lra]).
    apply Rle_trans with (k * k * (3 / 2 * (b * b) + 4 * b + 3 + 2 / b) * / (B * B)).
    + apply Req_le. unfold Q. rewrite BE. field. lra.
    + apply Rmult_le_compat_r; [left; now apply Rinv_0_lt_compat|]. unfold acc_factor. apply Rmult_le_compat_l; [exact (Rle_0_sqr k)|].
      assert (b * b <= (1 + k) * (1 + k)) by (apply Rmult_le_compat; lra). assert (2 / b <= 2 / (1 - k)) by (unfold Rdiv; apply Rmult_le_compat_l; [lra|]; apply Rinv_le_contravar; lra). lra.
Qed.

(** * Coordinates *)

Lemma sep2_nth : forall n x y, length x = n -> length y = n -> sep2 x y = rsum (fun j => (nth j x 0 - nth j y 0) * (nth j x 0 - nth j y 0)) (seq 0 n).
Proof.
  unfold sep2. induction n as [|n IH]; intros [|a x] [|b y] L1 L2; try discriminate; [reflexivity|]. cbn [combine seq]. rewrite !rsum_cons. cbn [nth]. f_equal.
  rewrite <- seq_shift, rsum_map. rewrite (IH x y) by (cbn in L1, L2; lia). reflexivity.
Qed.

Lemma sep2_coord : forall n x y j, length x = n -> length y = n -> (j < n)%nat -> Rabs (nth j x 0 - nth j y 0) <= sqrt (sep2 x y).
Proof.
  intros n x y j L1 L2 Hj. rewrite (sep2_nth n) by assumption. rewrite <- (sqrt_Rsqr_abs (nth j x 0 - nth j y 0)). apply sqrt_le_1_alt. unfold Rsqr.
  assert (I : In j (seq 0 n)) by (apply in_seq; lia). apply in_split in I as (l1 & l2 & ->). rewrite rsum_app, rsum_cons.
  assert (P : forall l, 0 <= rsum (fun i => (nth i x 0 - nth i y 0) * (nth i x 0 - nth i y 0)) l) by (intros l; apply rsum_nonneg; intros i _; exact (Rle_0_sqr (nth i x 0 - nth i y 0))).
  pose proof (P l1). pose proof (P l2). lra.
Qed.

(** The product of the vectors from [x] to [z] and from [z] to [y]. *)
Definition prod (n : nat) (x z y : list R) : R := rsum (fun j => (nth j z 0 - nth j x 0) * (nth j y 0 - nth j z 0)) (seq 0 n).

Lemma sep2_expand : forall n x y z, length x = n -> length y = n -> length z = n -> sep2 y x = sep2 z x + 2 * prod n x z y + sep2 y z.
Proof.
  intros n x y z L1 L2 L3. rewrite !(sep2_nth n) by assumption. unfold prod. rewrite <- rsum_scal, <- !rsum_plus. apply rsum_ext. intros j _. ring.
Qed.

Local Open Scope nat_scope.

Section Acc.

Context {D : Type}.
Variable OD : fops D.
Variable E : env.
Variable K : platform R.
Hypothesis HE : env_ok E.
Hypothesis HK : benign_shift K.
Hypothesis HX : exact_rsqrt K.
Notation c := (e_cfg E).

(** The masses about the centre of mass. *)
Lemma moments : forall t P a, tree_inv Rops E t -> particles_of t P -> masses_nonneg t P -> In a (t_nodes t) -> (forall k, In k (node_idx a) -> k < length (t_codes t)) ->
  forall j, j < dim c -> rsum (fun k => snd (P k) * (nth j (fst (P k)) 0 - nth j (p_com (n_props a)) 0))%R (node_idx a) = 0%R.
Proof.
  intros t P a Ht HP HM Ha Hn j Hj. destruct (node_monopole E HE t P a Ht HP Ha) as [M1 M2].
  destruct (Req_dec (p_mass (n_props a)) 0) as [Z|NZ].
  - rewrite Z in M1. assert (Z0 : forall k, In k (node_idx a) -> snd (P k) = 0%R).
    { clear M2. revert M1. induction (node_idx a) as [|i l IH]; intros M1 k []; rewrite rsum_cons in M1.
      all: assert (P1 : (0 <= snd (P i))%R) by (apply HM, Hn; now left).
      all: assert (P2 : (0 <= rsum (fun k => snd (P k)) l)%R) by (apply rsum_nonneg; intros k' Hk'; apply HM, Hn; now right).
      - subst. lra.
      - apply IH; auto; [intros k' Hk'; apply Hn; now right|lra]. }
    etransitivity; [|exact (rsum_0 _ (node_idx a))]. apply rsum_ext. intros k Hk. rewrite (Z0 k Hk). ring.
  - specialize (M2 NZ j Hj). transitivity (rsum (fun k => snd (P k) * nth j (fst (P k)) 0)%R (node_idx a) - nth j (p_com (n_props a)) 0 * rsum (fun k => snd (P k)) (node_idx a))%R.
    + rewrite <- rsum_scal, <- rsum_minus. apply rsum_ext. intros; ring.
    + rewrite <- M1, <- M2. ring.
Qed.

(** What is known of an accepted node. *)
Lemma node_setting : forall t P theta eps a i, reachable Rops E t -> particles_of t P -> masses_nonneg t P -> (0 < t_box t)%R -> (0 < theta)%R -> (0 <= eps)%R ->
  In a (t_nodes t) -> i < length (t_codes t) -> ~ (n_begin a <= i < n_end a) -> separated E t theta a (fst (P i)) ->
  apart eps P (length (t_codes t)) ->
  let x := fst (P i) in let com := p_com (n_props a) in let A := sqrt (sep2 com x + eps * eps) in let kp := (theta * sqrt (INR (dim c)))%R in
  length x = dim c /\ length com = dim c /\ (0 < A)%R /\ (0 <= kp)%R /\
  (forall j, j < dim c -> (Rabs (nth j com 0 - nth j x 0) <= A)%R) /\
  p_mass (n_props a) = rsum (fun k => snd (P k)) (node_idx a) /\
  (forall j, j < dim c -> rsum (fun k => snd (P k) * (nth j (fst (P k)) 0 - nth j com 0))%R (node_idx a) = 0%R) /\
  (rsum (fun k => snd (P k) * prod (dim c) x com (fst (P k)))%R (node_idx a) = 0%R) /\
  forall k, In k (node_idx a) -> k < length (t_codes t) /\ (0 <= snd (P k))%R /\
    let B := sqrt (sep2 (fst (P k)) x + eps * eps) in let dl := distance (fst (P k)) com in
    (0 < B)%R /\ (0 <= dl)%R /\ (B * B = A * A + 2 * prod (dim c) x com (fst (P k)) + dl * dl)%R /\ (Rabs (B - A) <= dl)%R /\ (dl <= kp * A)%R /\
    (forall j, j < dim c -> (Rabs (nth j (fst (P k)) 0 - nth j com 0) <= dl)%R).
Proof.
  intros t P theta eps a i Hreach HP HM Hb Hth He Ha Hi Hout Hsep Hap x com A kp. pose proof (reachable_inv Rops E HE t Hreach) as Ht.
  destruct (node_geometry E HE t P a Hreach HP HM Hb Ha) as (qc & Lq & Fq & _ & Hr & Hcom & Hk).
  destruct (node_monopole E HE t P a Ht HP Ha) as [Hmass _]. fold com in Hcom.
  set (d := distance com x). set (s := (t_box t / pow2R (n_level a))%R) in *.
  assert (Lx : length x = dim c) by (apply (particle_P E t P i Ht HP Hi)).
  assert (Lc : length com = dim c) by (rewrite (cell_length _ _ _ _ Hcom); exact Lq).
  assert (Hsd : (s < theta * d)%R).
  { unfold separated in Hsep. fold com x d s in Hsep. destruct (e_mac E); [exact Hsep|]. destruct Hsep as (centre & _ & H).
    pose proof (distance_nonneg com centre). nra. }
  assert (S0 : (0 < s)%R) by (apply Rdiv_lt_0_compat; [exact Hb|apply pow2R_pos]).
  assert (D0 : (0 < d)%R) by (destruct (distance_nonneg com x) as [|Z]; [assumption|unfold d in *; rewrite <- Z in Hsd; lra]).
  assert (NI : forall k, In k (node_idx a) -> k < length (t_codes t)) by (intros k Hkk; apply in_seq in Hkk; lia).
  assert (AE : A = sqrt (d * d + eps * eps)) by (unfold A, d; now rewrite sep2_dist).
  assert (PV : (0 < d * d + eps * eps)%R) by nra. assert (PA : (0 < A)%R) by (rewrite AE; now apply sqrt_lt_R0).
  assert (DA : (d <= A)%R). { rewrite AE. rewrite <- (sqrt_square d) at 1 by lra. apply sqrt_le_1_alt. nra. }
  assert (K0 : (0 <= kp)%R) by (apply Rmult_le_pos; [lra|apply sqrt_pos]).
  pose proof (moments t P a Ht HP HM Ha NI) as MO. fold com in MO.
  split; [exact Lx|]. split; [exact Lc|]. split; [exact PA|]. split; [exact K0|]. split; [|split; [exact Hmass|split; [exact MO|split]]].
  - intros j Hj. eapply Rle_trans; [exact (sep2_coord _ _ _ j Lc Lx Hj)|]. rewrite <- distance_sep2. exact DA.
  - unfold prod. transitivity (rsum (fun j => (nth j com 0 - nth j x 0) * rsum (fun k => snd (P k) * (nth j (fst (P k)) 0 - nth j com 0)) (node_idx a))%R (seq 0 (dim c))).
    + transitivity (rsum (fun k => rsum (fun j => (nth j com 0 - nth j x 0) * (snd (P k) * (nth j (fst (P k)) 0 - nth j com 0)))%R (seq 0 (dim c))) (node_idx a)).
      * apply rsum_ext. intros k _. rewrite <- rsum_scal. apply rsum_ext. intros; ring.
      * rewrite rsum_swap. apply rsum_ext. intros j _. now rewrite rsum_scal.
    + etransitivity; [|exact (rsum_0 _ (seq 0 (dim c)))]. apply rsum_ext. intros j Hj. apply in_seq in Hj. rewrite MO by lia. ring.
  - intros k Hkk. pose proof (NI k Hkk) as Hkn. split; [exact Hkn|]. split; [now apply HM|]. intros B dl. apply in_seq in Hkk. specialize (Hk k ltac:(lia)).
    assert (Lk : length (fst (P k)) = dim c) by (apply (particle_P E t P k Ht HP Hkn)).
    set (r := distance (fst (P k)) x).
    assert (Hdiam : (dl <= sqrt (INR (dim c)) * s)%R) by (rewrite <- Lq; now apply cell_diam).
    assert (BE : B = sqrt (r * r + eps * eps)) by (unfold B, r; now rewrite sep2_dist).
    assert (PU : (0 < r * r + eps * eps)%R).
    { pose proof (Rle_0_sqr r) as R0. unfold Rsqr in R0. destruct (Hap i k Hi Hkn ltac:(lia)) as [P0|P0]; [nra|]. assert (0 < r)%R by (apply distance_pos; [lia|]; intros Z; apply P0; now symmetry). nra. }
    split; [rewrite BE; now apply sqrt_lt_R0|]. split; [apply distance_nonneg|]. split; [|split; [|split]].
    + unfold B, A, dl. rewrite !sqrt_sqrt by (pose proof (sep2_nonneg (fst (P k)) x); pose proof (sep2_nonneg com x); nra).
      rewrite <- sep2_dist, (sep2_expand (dim c) x (fst (P k)) com) by assumption. ring.
    + rewrite BE, AE. pose proof (soft_lipschitz eps r d) as L1. pose proof (soft_lipschitz eps d r) as L2. rewrite (Rabs_minus_sym d r) in L2.
      assert (RD : (Rabs (r - d) <= dl)%R).
      { unfold r, d, dl. pose proof (triangle (fst (P k)) com x ltac:(lia) ltac:(lia)). pose proof (triangle com (fst (P k)) x ltac:(lia) ltac:(lia)) as T2.
        rewrite (distance_sym com (fst (P k))) in T2. apply Rabs_le. lra. }
      apply Rabs_le. lra.
    + eapply Rle_trans; [exact Hdiam|]. unfold kp. rewrite (Rmult_comm theta), Rmult_assoc. apply Rmult_le_compat_l; [apply sqrt_pos|]. nra.
    + intros j Hj. unfold dl. rewrite distance_sep2. now apply (sep2_coord (dim c)).
Qed.

(** The attraction of a source, without its direction. *)
Definition strength (eps : R) (p1 p2 : @prow R) : R := (snd p2 / (sep2 (fst p2) (fst p1) + eps * eps))%R.

Lemma node_error2 : forall q t P theta eps a i j, reachable Rops E t -> particles_of t P -> masses_nonneg t P -> (0 < t_box t)%R -> (0 < theta)%R -> (0 <= eps)%R ->
  In a (t_nodes t) -> i < length (t_codes t) -> ~ (n_begin a <= i < n_end a) -> separated E t theta a (fst (P i)) ->
  apart eps P (length (t_codes t)) ->
  (is_acc (dim c) q j = false ->
   (Rabs (pull (dim c) q (eps * eps) j (P i) (p_com (n_props a), p_mass (n_props a)) - rsum (fun k => pull (dim c) q (eps * eps) j (P i) (P k)) (node_idx a))
    <= pot_factor (theta * sqrt (INR (dim c))) * rsum (fun k => - pull (dim c) q (eps * eps) j (P i) (P k)) (node_idx a))%R) /\
  (is_acc (dim c) q j = true -> (theta * sqrt (INR (dim c)) < 1)%R ->
   (Rabs (pull (dim c) q (eps * eps) j (P i) (p_com (n_props a), p_mass (n_props a)) - rsum (fun k => pull (dim c) q (eps * eps) j (P i) (P k)) (node_idx a))
    <= acc_factor (theta * sqrt (INR (dim c))) * rsum (fun k => strength eps (P i) (P k)) (node_idx a))%R).
Proof.
  intros q t P theta eps a i j Hreach HP HM Hb Hth He Ha Hi Hout Hsep Hap.
  destruct (node_setting t P theta eps a i Hreach HP HM Hb Hth He Ha Hi Hout Hsep Hap) as (Lx & Lc & PA & K0 & Hz & Hmass & MO & MP & Hk).
  set (x := fst (P i)) in *. set (com := p_com (n_props a)) in *. set (A := sqrt (sep2 com x + eps * eps)) in *. set (kp := (theta * sqrt (INR (dim c)))%R) in *.
  split.
  - intros Hj.
    assert (EQ : (pull (dim c) q (eps * eps) j (P i) (com, p_mass (n_props a)) - rsum (fun k => pull (dim c) q (eps * eps) j (P i) (P k)) (node_idx a) =
      rsum (fun k => snd (P i) * snd (P k) * (/ sqrt (sep2 (fst (P k)) x + eps * eps) - / A + prod (dim c) x com (fst (P k)) / (A * A * A))) (node_idx a))%R).
    { transitivity (rsum (fun k => snd (P i) * snd (P k) * (/ sqrt (sep2 (fst (P k)) x + eps * eps) - / A + prod (dim c) x com (fst (P k)) / (A * A * A))) (node_idx a)
        - snd (P i) / (A * A * A) * rsum (fun k => snd (P k) * prod (dim c) x com (fst (P k))) (node_idx a))%R; [|rewrite MP; ring].
      rewrite <- rsum_scal, <- rsum_minus. unfold pull. rewrite Hj. cbn [fst snd]. fold x A. rewrite Hmass.
      replace (- (snd (P i) * rsum (fun k => snd (P k)) (node_idx a)) / A)%R with (rsum (fun k => (- (snd (P i) / A) * snd (P k))%R) (node_idx a)) by (rewrite rsum_scal; field; lra).
      rewrite <- rsum_minus. apply rsum_ext. intros k _. unfold Rdiv. ring. }
    rewrite EQ. eapply Rle_trans; [apply rsum_abs|]. rewrite <- rsum_scal. apply rsum_le. intros k Hkk.
    destruct (Hk k Hkk) as (Hkn & Mk & PB & Pdl & HBB & HBA & HdA & _). set (B := sqrt (sep2 (fst (P k)) x + eps * eps)) in *.
    pose proof (HM i Hi) as M1. pose proof (Rmult_le_pos _ _ M1 Mk) as M3.
    pose proof (pot_scalar A B _ _ kp PA PB Pdl K0 HBB HBA HdA) as S.
    rewrite Rabs_mult, (Rabs_right (snd (P i) * snd (P k))) by lra. unfold pull. rewrite Hj. fold x B.
    replace (pot_factor kp * - (- (snd (P i) * snd (P k)) / B))%R with ((snd (P i) * snd (P k)) * (pot_factor kp * / B))%R by (unfold Rdiv; ring).
    now apply Rmult_le_compat_l.
  - intros Hj Hk1. assert (Ej : j < dim c) by (unfold is_acc in Hj; apply andb_true_iff in Hj as [_ Hj]; now apply Nat.ltb_lt).
    assert (EQ : (pull (dim c) q (eps * eps) j (P i) (com, p_mass (n_props a)) - rsum (fun k => pull (dim c) q (eps * eps) j (P i) (P k)) (node_idx a) =
      rsum (fun k => - snd (P k) * (let z := nth j com 0 - nth j x 0 in let w := nth j (fst (P k)) 0 - nth j com 0 in let B := sqrt (sep2 (fst (P k)) x + eps * eps) in
         (z + w) / (B * B * B) - z / (A * A * A) - (w / (A * A * A) - 3 * prod (dim c) x com (fst (P k)) * z / (A * A * A * A * A)))) (node_idx a))%R).
    { cbv zeta. set (z := (nth j com 0 - nth j x 0)%R).
      transitivity (rsum (fun k => - snd (P k) * ((z + (nth j (fst (P k)) 0 - nth j com 0)) / (sqrt (sep2 (fst (P k)) x + eps * eps) * sqrt (sep2 (fst (P k)) x + eps * eps) * sqrt (sep2 (fst (P k)) x + eps * eps))
          - z / (A * A * A) - ((nth j (fst (P k)) 0 - nth j com 0) / (A * A * A) - 3 * prod (dim c) x com (fst (P k)) * z / (A * A * A * A * A)))) (node_idx a)
        - / (A * A * A) * rsum (fun k => snd (P k) * (nth j (fst (P k)) 0 - nth j com 0)) (node_idx a)
        + 3 * z / (A * A * A * A * A) * rsum (fun k => snd (P k) * prod (dim c) x com (fst (P k))) (node_idx a))%R; [|rewrite MP, (MO j Ej); ring].
      rewrite <- !rsum_scal, <- rsum_minus, <- rsum_plus. unfold pull. rewrite Hj. cbn [fst snd]. fold x A z. rewrite Hmass.
      replace (rsum (fun k => snd (P k)) (node_idx a) * z / (A * A * A))%R with (rsum (fun k => (z / (A * A * A) * snd (P k))%R) (node_idx a)) by (rewrite rsum_scal; field; lra).
      rewrite <- rsum_minus. apply rsum_ext. intros k _. unfold Rdiv. replace (nth j (fst (P k)) 0 - nth j x 0)%R with (z + (nth j (fst (P k)) 0 - nth j com 0))%R by (unfold z; ring). ring. }
    rewrite EQ. eapply Rle_trans; [apply rsum_abs|]. rewrite <- rsum_scal. apply rsum_le. intros k Hkk.
    destruct (Hk k Hkk) as (Hkn & Mk & PB & Pdl & HBB & HBA & HdA & Hw). cbv zeta. unfold strength. fold x. set (B := sqrt (sep2 (fst (P k)) x + eps * eps)) in *.
    pose proof (acc_scalar A B _ _ kp _ _ PA PB Pdl (conj K0 Hk1) HBB HBA HdA (Hz j Ej) (Hw j Ej)) as S.
    rewrite Rabs_mult, Rabs_Ropp, (Rabs_right (snd (P k))) by lra.
    assert (B2 : (sep2 (fst (P k)) x + eps * eps = B * B)%R) by (symmetry; apply sqrt_sqrt; pose proof (sep2_nonneg (fst (P k)) x); nra).
    rewrite B2. replace (acc_factor kp * (snd (P k) / (B * B)))%R with (snd (P k) * (acc_factor kp * / (B * B)))%R by (unfold Rdiv; ring).
    now apply Rmult_le_compat_l.
Qed.

(** Sum over the accepted nodes. *)
Lemma bh_error2 : forall q t P theta eps cn A Dl i j (f : nat -> R) kf, sources E t theta P cn A Dl -> c_begin cn <= i < c_end cn -> c_end cn <= length (t_codes t) ->
  (forall k, k < length (t_codes t) -> (0 <= f k)%R) -> (0 <= kf)%R ->
  (forall a, In a A -> (Rabs (pull (dim c) q (eps * eps) j (P i) (p_com (n_props a), p_mass (n_props a)) - rsum (fun k => pull (dim c) q (eps * eps) j (P i) (P k)) (node_idx a)) <= kf * rsum f (node_idx a))%R) ->
  (Rabs (bh_sum E q eps P i (others (c_begin cn) (c_end cn) i ++ Dl) A j - direct E q eps P (length (t_codes t)) i j) <= kf * rsum f (others 0 (length (t_codes t)) i))%R.
Proof.
  intros q t P theta eps cn A Dl i j f kf S Hi Hn Hf Hkf HA.
  rewrite (bh_minus_direct E q t theta P eps cn A Dl i j S Hi Hn). pose proof S as [SP SA].
  eapply Rle_trans; [apply rsum_abs|]. eapply Rle_trans; [apply rsum_le; intros a Ha; exact (HA a Ha)|]. rewrite rsum_scal. apply Rmult_le_compat_l; [exact Hkf|].
  rewrite <- (sources_sum E t theta P cn A Dl i f S Hi Hn).
  assert (Z : (0 <= rsum f (others (c_begin cn) (c_end cn) i ++ Dl))%R); [|lra]. apply rsum_nonneg. intros k Hk. apply Hf.
  assert (Hk2 : In k (seq (c_begin cn) (c_end cn - c_begin cn) ++ Dl ++ flat_map node_idx A)).
  { apply in_app_or in Hk as [Hk|Hk]; [apply in_or_app; left; now apply filter_In in Hk|apply in_or_app; right; apply in_or_app; now left]. }
  apply (Permutation_in _ SP) in Hk2. apply in_seq in Hk2. lia.
Qed.

Lemma strength_nonneg : forall eps p1 p2, (0 <= snd p2)%R -> (0 <= strength eps p1 p2)%R.
Proof.
  intros eps p1 p2 H. unfold strength. pose proof (sep2_nonneg (fst p2) (fst p1)). assert (Q : (0 <= sep2 (fst p2) (fst p1) + eps * eps)%R) by nra.
  unfold Rdiv. apply Rmult_le_pos; [exact H|]. destruct Q as [Q|<-]; [left; now apply Rinv_0_lt_compat|rewrite Rinv_0; lra].
Qed.

(** A value computed from separated sources. *)
Definition second_order (q : quant) (t : @tree R) (P : nat -> @prow R) (theta G eps : R) (i j : nat) (v : R) : Prop :=
  (is_acc (dim c) q j = false ->
   (Rabs (v - G * direct E q eps P (length (t_codes t)) i j) <= pot_factor (theta * sqrt (INR (dim c))) * Rabs (G * direct E q eps P (length (t_codes t)) i j))%R) /\
  (is_acc (dim c) q j = true -> (theta * sqrt (INR (dim c)) < 1)%R ->
   (Rabs (v - G * direct E q eps P (length (t_codes t)) i j) <= acc_factor (theta * sqrt (INR (dim c))) * (Rabs G * rsum (fun k => strength eps (P i) (P k)) (others 0 (length (t_codes t)) i)))%R).

Lemma value_error2 : forall q t P theta G eps cn A Dl i j, reachable Rops E t -> particles_of t P ->
  (0 < theta)%R -> (0 <= eps)%R -> masses_nonneg t P -> (0 < t_box t)%R -> apart eps P (length (t_codes t)) ->
  sources E t theta P cn A Dl -> c_begin cn <= i < c_end cn -> c_end cn <= length (t_codes t) ->
  second_order q t P theta G eps i j (G * bh_sum E q eps P i (others (c_begin cn) (c_end cn) i ++ Dl) A j)%R.
Proof.
  intros q t P theta G eps cn A Dl i j Hreach HP Hth Heps HM Hb Hap S Hci He. assert (Hi : i < length (t_codes t)) by lia.
  assert (K0 : (0 <= theta * sqrt (INR (dim c)))%R) by (apply Rmult_le_pos; [lra|apply sqrt_pos]).
  pose proof S as [_ SA]. split.
  - intros Hpot. rewrite <- Rmult_minus_distr_l, !Rabs_mult.
    replace (pot_factor (theta * sqrt (INR (dim c))) * (Rabs G * Rabs (direct E q eps P (length (t_codes t)) i j)))%R
      with (Rabs G * (pot_factor (theta * sqrt (INR (dim c))) * Rabs (direct E q eps P (length (t_codes t)) i j)))%R by ring.
    apply Rmult_le_compat_l; [apply Rabs_pos|].
    assert (NP : forall k, k < length (t_codes t) -> (0 <= - pull (dim c) q (eps * eps) j (P i) (P k))%R).
    { intros k Hk. pose proof (pull_nonpos E q t P eps i k j HM Hi Hk Hpot). lra. }
    assert (AD : Rabs (direct E q eps P (length (t_codes t)) i j) = rsum (fun k => - pull (dim c) q (eps * eps) j (P i) (P k))%R (others 0 (length (t_codes t)) i)).
    { assert (Z : rsum (fun k => - pull (dim c) q (eps * eps) j (P i) (P k))%R (others 0 (length (t_codes t)) i) = (- direct E q eps P (length (t_codes t)) i j)%R).
      { unfold direct. transitivity (-1 * rsum (fun k => pull (dim c) q (eps * eps) j (P i) (P k)) (others 0 (length (t_codes t)) i))%R; [|lra]. rewrite <- rsum_scal. apply rsum_ext. intros; lra. }
      rewrite Z. apply Rabs_left1. assert (0 <= rsum (fun k => - pull (dim c) q (eps * eps) j (P i) (P k)) (others 0 (length (t_codes t)) i))%R; [|lra].
      apply rsum_nonneg. intros k Hk. unfold others in Hk. apply filter_In in Hk as [Hk _]. apply in_seq in Hk. apply NP. lia. }
    rewrite AD. apply (bh_error2 q t P theta eps cn A Dl i j _ _ S Hci He NP).
    + unfold pot_factor. apply Rmult_le_pos; [|lra]. apply Rmult_le_pos; [exact (Rle_0_sqr _)|lra].
    + intros a Ha. destruct (SA a Ha) as (Hin & Hdis & Hsp & _).
      exact (proj1 (node_error2 q t P theta eps a i j Hreach HP HM Hb Hth Heps Hin ltac:(lia) ltac:(lia) (Hsp i Hci) Hap) Hpot).
  - intros Hacc Hk1. rewrite <- Rmult_minus_distr_l, !Rabs_mult.
    match goal with |- (_ <= acc_factor ?k * (Rabs G * ?S0))%R => replace (acc_factor k * (Rabs G * S0))%R with (Rabs G * (acc_factor k * S0))%R by ring end.
    apply Rmult_le_compat_l; [apply Rabs_pos|].
    apply (bh_error2 q t P theta eps cn A Dl i j (fun k => strength eps (P i) (P k)) _ S Hci He).
    + intros k Hk. apply strength_nonneg. now apply HM.
    + unfold acc_factor. assert (0 <= 2 / (1 - theta * sqrt (INR (dim c))))%R by (apply Rlt_le, Rdiv_lt_0_compat; lra). set (kk := (theta * sqrt (INR (dim c)))%R) in *.
      apply Rmult_le_pos; [exact (Rle_0_sqr _)|]. pose proof (Rle_0_sqr (1 + kk)) as Q. unfold Rsqr in Q. lra.
    + intros a Ha. destruct (SA a Ha) as (Hin & Hdis & Hsp & _).
      exact (proj2 (node_error2 q t P theta eps a i j Hreach HP HM Hb Hth Heps Hin ltac:(lia) ltac:(lia) (Hsp i Hci) Hap) Hacc Hk1).
Qed.

(** Every call. *)
Lemma dispatch_error2 : forall ord ordered q t P theta G eps split out, reachable Rops E t -> room E t -> reorders ord -> particles_of t P ->
  (0 < theta)%R -> (0 <= eps)%R -> check_split OD split = Ok tt -> length split <= 1 ->
  out_ok (length (t_codes t)) (nvecs_res E q) out -> masses_nonneg t P -> (0 < t_box t)%R -> apart eps P (length (t_codes t)) ->
  exists out', acc_pot_dispatch Rops OD E K ord ordered q t theta G eps split out = Ok out' /\
    forall i j, i < length (t_codes t) -> j < nvecs_res E q ->
      exists v, nth_error (nth j out' []) (dst ordered t i) = Some v /\
        second_order q t P theta G eps i j v.
Proof.
  intros ord ordered q t P theta G eps split out Hreach Hroom Hord HP Hth Heps Hs1 Hs2 Ho HM Hb Hap.
  pose proof (reachable_inv Rops E HE t Hreach) as Ht.
  destruct (dispatch_R OD E K HE HK HX ord ordered q t P theta G eps split out Hreach Hroom Hord HP Hth Heps Hs1 Hs2 Ho) as (out' & E1 & O1 & V).
  exists out'. split; [exact E1|]. intros i j Hi Hj.
  destruct (crit_of E t i Ht Hi) as (cn & Hcn & Hci & He). destruct (V cn Hcn) as (A & Dl & S & R). eexists. split; [now apply R|].
  now apply value_error2.
Qed.

End Acc.
