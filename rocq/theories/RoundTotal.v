(** The accelerations and potentials computed in floating point, compared with the exact sums over all the particles. *)
From Coq Require Import List Arith ZArith NArith Reals Bool Lra Lia Psatz Permutation.
From Flocq Require Import Core BinarySingleNaN.
From Verif Require Import Base Config Morton Build TreeSpec BuildSpec BuildProofs BuildProps FOps FOpsProofs Disc DiscProofs NodeProps NodeGeom NodesR Geometry Tree TreeInv TreeProofs TreeSafe TreeProps RSum Kernels KernR TravProofs
  RoundKern RoundSum Force ForceR ForceOut ForceTop ForceRTop ForceMore ForceAcc Round RoundNode RoundCtor RoundNear RoundExact RoundRsqrt RoundTree RoundSrc RoundMac RoundForce RoundCell Expand.
Import ListNotations.
Local Open Scope R_scope.

Section IEEE.

Variables prec emax : Z.
Context (Hprec : Prec_gt_0 prec).
Context (Hemax : Prec_lt_emax prec emax).
Variable fused : bool.
Hypothesis Hp8 : (8 <= prec)%Z.

Notation bf := (binary_float prec emax).
Notation O := (Bops prec emax Hprec Hemax fused).
Notation zero := (fofZ O 0%Z).
Notation g := (gR prec).
Notation u := (uR prec).
Notation eta := (etaR prec emax).
Notation Hp2 := (Hp2 prec Hp8).
Notation prow := (@prow bf).
Notation realp := (realp prec emax).
Notation nthR := (nthR prec emax Hprec Hemax fused).

Variable k : Z.
Hypothesis Hk5 : (5 * k + 16 <= emax)%Z.
Hypothesis Hroom : (prec + 4 * k + 4 <= emax)%Z.
Hypothesis He : (64 <= emax)%Z.
Variable E : env.
Hypothesis HE : env_ok E.
Notation c := (e_cfg E).
Notation w := (match e_simd E with Some b => b | None => 1%nat end).

Variables (t : @tree bf) (P : nat -> prow).
Hypothesis Ht : tree_inv O E t.
Notation n := (length (t_codes t)).
Hypothesis HP : forall i, (i < n)%nat -> row (t_parts t) i (fst (P i) ++ [snd (P i)]).
Hypothesis Hbf : is_finite (t_box t) = true.
Hypothesis Hbox : bpow radix2 (3 - k) <= B2R (t_box t) <= bpow radix2 (k - 3).
Hypothesis Hmass : forall i, (i < n)%nat -> is_finite (snd (P i)) = true /\ (B2R (snd (P i)) = 0 \/ bpow radix2 (1 - k) <= B2R (snd (P i))).
Hypothesis Htotal : rsum (fun i => B2R (snd (P i))) (seq 0 n) <= bpow radix2 (k - 1).
Hypothesis Hfew : (2 * Z.of_nat (n + w) + 56 <= 2 ^ (prec - 1))%Z.
Notation B := (B2R (t_box t)).
Notation reals := (map (@B2R prec emax)).
Notation N0 := (INR (n + w)).

Lemma g_lin2 : forall m, (Z.of_nat m <= 2 ^ (prec - 1))%Z -> g ^ m - 1 <= 2 * INR m * u.
Proof.
  intros m Hm. assert (X : g ^ m <= 1 + 2 * INR m * u); [|lra]. pose proof (u_small prec Hp8) as U. pose proof (pos_INR m) as PM.
  assert (MU : INR m * u <= / 2).
  { rewrite INR_IZR_INZ. apply Rle_trans with (IZR (2 ^ (prec - 1)) * u); [apply Rmult_le_compat_r; [lra|now apply IZR_le]|].
    rewrite (IZR_Zpower radix2) by lia. unfold uR. rewrite <- bpow_plus. replace (prec - 1 + - prec)%Z with (-1)%Z by lia. cbn. lra. }
  apply (g_le prec Hp8); [nra|]. set (y := INR m * u) in *. replace (1 + 2 * INR m * u) with (1 + 2 * y) by (unfold y; ring).
  assert (0 <= y) by (unfold y; nra). apply Rmult_le_reg_r with (1 + 2 * y); [lra|]. rewrite Rmult_minus_distr_r, Rinv_l by lra. nra.
Qed.

Lemma lanes_w : (lanes_of (e_simd E) <= w)%nat.
Proof. unfold lanes_of. destruct (e_simd E); lia. Qed.

Lemma Hfew3 : (2 * Z.of_nat (n + lanes_of (e_simd E)) + 3 <= 2 ^ (prec - 1))%Z.
Proof. pose proof lanes_w. lia. Qed.

Lemma nth_reals : forall xs j, nth j (reals xs) 0 = B2R (nth j xs zero).
Proof. intros xs j. rewrite <- (B2R_zero prec emax Hprec Hemax fused) at 1. apply map_nth. Qed.

Section Node.
Variable a : node (props bf).
Hypothesis Ha : In a (t_nodes t).
Notation idx := (node_idx a).
Notation T := (rsum (fun l => B2R (snd (P l))) idx).
Notation com := (reals (p_com (n_props a))).
Notation s := (B / bpow radix2 (Z.of_N (n_level a))).
Notation dlt := (4 * (N0 + 2) * (u * B)).

Lemma idx_n : forall l, In l idx -> (l < n)%nat /\ (n_begin a <= l < n_end a)%nat.
Proof. intros l Hl. destruct (node_payload_gen O E t a Ht Ha) as [Hb _]. apply in_seq in Hl. lia. Qed.

Lemma mass_0 : forall l, In l idx -> 0 <= B2R (snd (P l)).
Proof. intros l Hl. apply (mass_nonneg prec emax k t P Hmass). now apply idx_n. Qed.

Lemma T_0 : 0 <= T.
Proof. apply rsum_nonneg. exact mass_0. Qed.

(** Mass of the node. *)
Lemma mass_close : Rabs (B2R (p_mass (n_props a)) - T) <= 2 * N0 * u * T.
Proof.
  destruct (node_round prec emax Hprec Hemax fused Hp2 E HE t a Ht Ha) as (mcol & Hm & _ & _ & HM & _). cbv zeta in HM. fold idx in HM.
  change (seq (n_begin a) (n_end a - n_begin a)) with idx in HM.
  assert (EI : forall i, In i idx -> nthR mcol i = B2R (snd (P i))) by (intros i Hi; apply (mass_col prec emax Hprec Hemax fused E t P Ht HP); [exact Hm|now apply idx_n]).
  rewrite (rsum_ext _ (nthR mcol) (fun i => B2R (snd (P i))) idx EI) in HM. specialize (HM ltac:(intros i Hi; rewrite EI by exact Hi; now apply mass_0)).
  destruct (node_payload_gen O E t a Ht Ha) as [Hb _]. pose proof lanes_w as LW. pose proof T_0 as T0. set (T' := T) in *.
  assert (D : (depth E (length idx) <= n + w)%nat) by (unfold depth, node_idx; rewrite seq_length; lia).
  set (d := depth E (length idx)) in *. pose proof (g_pow1 prec Hp2 d) as G1. pose proof (g_mono prec Hp2 d (n + w) D) as GM.
  pose proof (g_lin2 (n + w) ltac:(lia)) as GL.
  assert (I1 : 1 - (g ^ d - 1) <= / g ^ d). { apply Rmult_le_reg_r with (g ^ d); [lra|]. rewrite Rinv_l by lra. nra. }
  apply Rabs_le. split; nra.
Qed.

Lemma tiny_eta : forall X, bpow radix2 (1 - k) <= X -> INR (length idx) * eta * 2 / X + eta <= u * B.
Proof.
  intros X HX. pose proof (k3 prec emax k t Hbox) as K3. pose proof (bpow_gt_0 radix2 (1 - k)) as PK.
  assert (N1 : INR (length idx) <= bpow radix2 (prec - 1)).
  { destruct (node_payload_gen O E t a Ht Ha) as [Hb _]. unfold node_idx. rewrite seq_length. rewrite INR_IZR_INZ, <- (IZR_Zpower radix2) by lia. apply IZR_le. change (Z.pow radix2 (prec - 1)) with (2 ^ (prec - 1))%Z. lia. }
  assert (N2 : / X <= bpow radix2 (k - 1)). { replace (k - 1)%Z with (- (1 - k))%Z by lia. rewrite bpow_opp. apply Rinv_le_contravar; lra. }
  assert (IX : 0 < / X) by (apply Rinv_0_lt_compat; lra). pose proof (pos_INR (length idx)) as PI. assert (PE : 0 < eta) by apply bpow_gt_0.
  assert (X1 : INR (length idx) * eta * 2 / X <= u * B / 2).
  { unfold Rdiv at 1. apply Rle_trans with (bpow radix2 (prec - 1) * eta * 2 * bpow radix2 (k - 1)).
    - apply Rmult_le_compat; [|lra| |exact N2]; [apply Rmult_le_pos; [apply Rmult_le_pos; lra|lra]|]. apply Rmult_le_compat_r; [lra|]. apply Rmult_le_compat_r; lra.
    - apply Rle_trans with (bpow radix2 (- prec) * bpow radix2 (3 - k) * / 2).
      + unfold etaR. replace (bpow radix2 (prec - 1) * bpow radix2 (3 - emax - prec) * 2 * bpow radix2 (k - 1)) with (bpow radix2 (prec - 1) * bpow radix2 (3 - emax - prec) * bpow radix2 1 * bpow radix2 (k - 1)) by (change (bpow radix2 1) with 2; ring). change (/ 2) with (bpow radix2 (-1)). rewrite <- !bpow_plus. apply bpow_le. lia.
      + unfold Rdiv. apply Rmult_le_compat_r; [lra|]. apply Rmult_le_compat_l; [apply bpow_ge_0|apply Hbox]. }
  assert (X2 : eta <= u * B / 2).
  { apply Rle_trans with (bpow radix2 (- prec) * bpow radix2 (3 - k) * / 2).
    + unfold etaR. change (/ 2) with (bpow radix2 (-1)). rewrite <- !bpow_plus. apply bpow_le. lia.
    + unfold Rdiv. apply Rmult_le_compat_r; [lra|]. apply Rmult_le_compat_l; [apply bpow_ge_0|apply Hbox]. }
  lra.
Qed.

(** Centre of mass of the node. *)
Lemma com_close : 0 < T -> length com = dim c /\ forall j, (j < dim c)%nat ->
  Rabs (nth j com 0 - rsum (fun l => B2R (snd (P l)) * nth j (reals (fst (P l))) 0) idx / T) <= dlt.
Proof.
  intros PT. destruct (node_com_bnd prec emax Hprec Hemax fused Hp8 k Hk5 Hroom He E HE t P Ht HP Hbf Hbox Hmass Htotal Hfew3 a Ha) as [Lc _].
  split; [rewrite map_length; exact Lc|]. intros j Hj.
  destruct (node_mass prec emax Hprec Hemax fused Hp8 k E HE t P Ht HP Hmass Htotal Hfew3 a Ha) as [[_ RM] PM].
  pose proof mass_close as MC. destruct (node_round prec emax Hprec Hemax fused Hp2 E HE t a Ht Ha) as (mcol & Hm & _ & _ & _ & HC). cbv zeta in HC.
  change (seq (n_begin a) (n_end a - n_begin a)) with idx in HC.
  assert (EI : forall i, In i idx -> nthR mcol i = B2R (snd (P i))) by (intros i Hi; apply (mass_col prec emax Hprec Hemax fused E t P Ht HP); [exact Hm|now apply idx_n]).
  pose proof (k3 prec emax k t Hbox) as K3. pose proof (box_pos prec emax k t Hbox) as BP. pose proof (u_small prec Hp8) as U. pose proof (pos_INR (n + w)) as PN.
  assert (NU : 2 * N0 * u < 1).
  { apply Rle_lt_trans with (IZR (2 ^ (prec - 1)) * u - 56 * u); [|rewrite (IZR_Zpower radix2) by lia; unfold uR; rewrite <- bpow_plus; replace (prec - 1 + - prec)%Z with (-1)%Z by lia; cbn; pose proof (bpow_gt_0 radix2 (- prec)); lra].
    rewrite <- Rmult_minus_distr_r. apply Rmult_le_compat_r; [lra|]. rewrite INR_IZR_INZ, <- mult_IZR, <- minus_IZR. apply IZR_le. lia. }
  assert (NZ : B2R (p_mass (n_props a)) <> 0). { intros Z. rewrite Z in MC. apply Rabs_le_inv in MC. nra. }
  destruct (nth_error (t_parts t) j) as [col|] eqn:Ecol; [|apply nth_error_None in Ecol; rewrite (inv_ncols _ _ _ Ht) in Ecol; lia].
  destruct (HC NZ j col Hj Ecol) as [_ HC']. clear HC.
  assert (ECx : forall i, In i idx -> nthR col i = nth j (reals (fst (P i))) 0).
  { intros i Hi. rewrite nth_reals. apply (coord_col prec emax Hprec Hemax fused E t P Ht HP); auto. now apply idx_n. }
  specialize (HC' ltac:(intros i Hi; rewrite EI by exact Hi; now apply mass_0)).
  assert (M1 : B2R (p_mass (n_props a)) <= bpow radix2 (emax - 2)).
  { pose proof (rng_le _ _ _ RM) as R1. rewrite Rabs_right in R1 by lra. eapply Rle_trans; [exact R1|]. apply bpow_le. lia. }
  specialize (HC' M1). rewrite nth_reals. rewrite (rsum_ext _ (nthR mcol) (fun i => B2R (snd (P i))) idx EI) in HC'.
  rewrite (rsum_ext _ (fun i => nthR mcol i * nthR col i) (fun l => B2R (snd (P l)) * nth j (reals (fst (P l))) 0) idx) in HC' by (intros i Hi; now rewrite EI, ECx).
  rewrite (rsum_ext _ (fun i => nthR mcol i * Rabs (nthR col i)) (fun l => B2R (snd (P l)) * Rabs (nth j (reals (fst (P l))) 0)) idx) in HC' by (intros i Hi; now rewrite EI, ECx).
  eapply Rle_trans; [exact HC'|]. clear HC'.
  destruct (node_payload_gen O E t a Ht Ha) as [Hb _]. pose proof lanes_w as LW.
  assert (D : (2 * depth E (length idx) + 3 <= 2 * (n + w) + 3)%nat) by (unfold depth, node_idx; rewrite seq_length; lia).
  pose proof (g_mono prec Hp2 _ _ D) as GM. pose proof (g_lin2 (2 * (n + w) + 3) ltac:(lia)) as GL. pose proof (small_le prec Hp8 (2 * (n + w) + 3) ltac:(lia)) as GS. unfold small in GS.
  pose proof (g_pow1 prec Hp2 (2 * depth E (length idx) + 3)) as G1. set (gg := g ^ (2 * depth E (length idx) + 3)) in *.
  rewrite (plus_INR (2 * (n + w))), (mult_INR 2) in GL. replace (INR 2) with 2 in GL by (cbn; lra). replace (INR 3) with 3 in GL by (cbn; lra).
  assert (TP : bpow radix2 (1 - k) <= T).
  { destruct (range_sum prec emax Hp8 k E t P HP Hmass Htotal Hfew3 (n_begin a) (n_end a) ltac:(lia)) as [[T1|T1] _]; [|exact T1]. unfold node_idx in PT. cbv zeta in T1. lra. }
  assert (AT : 0 <= rsum (fun l => B2R (snd (P l)) * Rabs (nth j (reals (fst (P l))) 0)) idx / T <= 33 / 64 * B).
  { assert (AB : 0 <= rsum (fun l => B2R (snd (P l)) * Rabs (nth j (reals (fst (P l))) 0)) idx <= 33 / 64 * B * T).
    { split; [apply rsum_nonneg; intros i Hi; apply Rmult_le_pos; [now apply mass_0|apply Rabs_pos]|].
      rewrite <- rsum_scal. apply rsum_le. intros i Hi. rewrite (Rmult_comm (33 / 64 * B)). apply Rmult_le_compat_l; [now apply mass_0|]. rewrite nth_reals.
      destruct (part_near prec emax Hprec Hemax fused Hp8 k Hk5 Hroom He E t P Ht HP Hbf Hbox i) as [LL FF]; [now apply idx_n|]. rewrite Forall_forall in FF. apply FF. apply nth_In. lia. }
    assert (IT : 0 < / T) by (apply Rinv_0_lt_compat; lra). unfold Rdiv at 1 2. split; [apply Rmult_le_pos; lra|].
    apply Rmult_le_reg_r with T; [lra|]. rewrite (Rmult_assoc _ (/ T)), Rinv_l by lra. lra. }
  set (AT' := rsum (fun l => B2R (snd (P l)) * Rabs (nth j (reals (fst (P l))) 0)) idx / T) in *. pose proof (tiny_eta T TP) as TE.
  assert (TE' : INR (length idx) * eta * gg / T + eta <= u * B).
  { eapply Rle_trans; [|exact TE]. apply Rplus_le_compat_r. unfold Rdiv. apply Rmult_le_compat_r; [left; now apply Rinv_0_lt_compat|]. apply Rmult_le_compat_l; [|lra].
    apply Rmult_le_pos; [apply pos_INR|apply bpow_ge_0]. }
  assert (X : (gg - 1) * AT' <= 2 * (2 * N0 + 3) * u * (33 / 64 * B)) by (apply Rmult_le_compat; lra).
  rewrite Rplus_assoc. assert (UB : 0 < u * B) by nra. set (ub := u * B) in *. assert (X' : (gg - 1) * AT' <= (33 / 64) * (2 * (2 * N0 + 3)) * ub) by (unfold ub; lra). nra.
Qed.

(** The particles are near the centre of mass. *)
Lemma cell_near_nth : forall l q xs j, near_cell prec emax t l q xs -> (j < length q)%nat ->
  length xs = length q /\ - B / 2 + IZRN (nth j q 0%N) * (B / pow2R l) - 3 * u * B <= nth j xs 0 <= - B / 2 + (IZRN (nth j q 0%N) + 1) * (B / pow2R l) + 3 * u * B.
Proof.
  intros l q xs j (ys & H1 & H2) Hj. pose proof (Forall2_length_eq _ _ _ H1) as L1. pose proof (cell_length _ _ _ _ H2) as L2. split; [lia|].
  pose proof (cell_nth _ _ _ _ j H2 Hj) as C.
  assert (D : Rabs (nth j xs 0 - nth j ys 0) <= 3 * u * B).
  { assert (Hx : (j < length xs)%nat) by lia. clear - H1 Hx. revert j Hx. induction H1 as [|x y xs ys H H1 IH]; intros j Hj; [cbn in Hj; lia|].
    destruct j as [|j]; [exact H|]. cbn [nth]. apply IH. cbn in Hj. lia. }
  apply Rabs_le_inv in D. lra.
Qed.

Lemma part_com : 0 < T -> forall l, In l idx -> forall j, (j < dim c)%nat -> Rabs (nth j (reals (fst (P l))) 0 - nth j com 0) <= s + 6 * (u * B) + dlt.
Proof.
  intros PT l Hl j Hj. destruct (com_close PT) as [Lc CC]. specialize (CC j Hj).
  destruct (node_near_cell prec emax Hprec Hemax fused Hp8 k Hk5 Hroom He E t P Ht HP Hbf Hbox a Ha) as (q & Q1 & _ & _ & Q4).
  assert (CL : forall i, In i idx -> - B / 2 + IZRN (nth j q 0%N) * (B / pow2R (n_level a)) - 3 * u * B <= nth j (reals (fst (P i))) 0 <= - B / 2 + (IZRN (nth j q 0%N) + 1) * (B / pow2R (n_level a)) + 3 * u * B).
  { intros i Hi. apply (cell_near_nth (n_level a) q); [|lia]. apply Q4. now apply idx_n. }
  assert (ES : B / pow2R (n_level a) = s) by (rewrite bpowN; reflexivity). rewrite ES in CL.
  set (lo := - B / 2 + IZRN (nth j q 0%N) * s - 3 * u * B) in *. set (hi := - B / 2 + (IZRN (nth j q 0%N) + 1) * s + 3 * u * B) in *.
  assert (HL : hi - lo = s + 6 * (u * B)) by (unfold hi, lo; ring).
  set (W := rsum (fun l => B2R (snd (P l)) * nth j (reals (fst (P l))) 0) idx) in *.
  assert (WB : lo * T <= W <= hi * T).
  { unfold W. rewrite <- !rsum_scal. split; apply rsum_le; intros i Hi; rewrite (Rmult_comm (B2R _)); apply Rmult_le_compat_r; try (now apply mass_0); now apply CL. }
  assert (WT : lo <= W / T <= hi).
  { assert (W = W / T * T) as EW by (field; lra). rewrite EW in WB. split; (apply Rmult_le_reg_r with T; [exact PT|]); lra. }
  specialize (CL l Hl). apply Rabs_le_inv in CC. apply Rabs_le. lra.
Qed.

Lemma com_moment : 0 < T -> forall j, (j < dim c)%nat -> Rabs (rsum (fun l => B2R (snd (P l)) * (nth j (reals (fst (P l))) 0 - nth j com 0)) idx) <= T * dlt.
Proof.
  intros PT j Hj. destruct (com_close PT) as [_ CC]. specialize (CC j Hj). set (W := rsum (fun l => B2R (snd (P l)) * nth j (reals (fst (P l))) 0) idx) in *.
  replace (rsum (fun l => B2R (snd (P l)) * (nth j (reals (fst (P l))) 0 - nth j com 0)) idx) with (- (T * (nth j com 0 - W / T))).
  - rewrite Rabs_Ropp, Rabs_mult, (Rabs_right T) by lra. apply Rmult_le_compat_l; [lra|exact CC].
  - transitivity (W - nth j com 0 * T); [field; lra|]. unfold W. rewrite <- rsum_scal, <- rsum_minus. apply rsum_ext. intros; ring.
Qed.

End Node.

(** * Accepted nodes *)

Variables theta eps : bf.
Notation TH := (B2R theta).
Notation e2 := (B2R eps * B2R eps).
Variable zeta : R.
Hypothesis Hth0 : 0 < TH.
Hypothesis Hz0 : 0 <= zeta <= 1 / 4.
Hypothesis Hz : forall a, In a (t_nodes t) -> 4 * (N0 + 27) * u * bpow radix2 (Z.of_N (n_level a)) <= zeta.
Notation kp := (TH * sqrt (INR (dim c)) * (1 + 4 * zeta)).
Hypothesis Hth3 : TH <= 3.
Hypothesis Hapart : forall i l, (i < n)%nat -> (l < n)%nat -> i <> l -> 0 < sep2 (fst (realp (P l))) (fst (realp (P i))) + e2.

Lemma dim_bounds : 1 <= sqrt (INR (dim c)) <= 2 /\ sqrt (INR (dim c)) * sqrt (INR (dim c)) = INR (dim c) /\ 1 + 3 * INR (dim c) <= 6 * sqrt (INR (dim c)).
Proof.
  assert (D : INR (dim c) = 2 \/ INR (dim c) = 3). { destruct c; cbn; lra. }
  assert (SS : sqrt (INR (dim c)) * sqrt (INR (dim c)) = INR (dim c)) by (apply sqrt_sqrt, pos_INR). pose proof (sqrt_pos (INR (dim c))) as S0.
  set (r := sqrt (INR (dim c))) in *. split; [|split; [exact SS|]]; destruct D as [D|D]; rewrite D in *; nra.
Qed.

Lemma kp_0 : 0 <= kp.
Proof. destruct dim_bounds as [[D1 _] _]. apply Rmult_le_pos; [apply Rmult_le_pos|]; lra. Qed.

Section Accepted.
Variables (a : node (props bf)) (i : nat).
Hypothesis Ha : In a (t_nodes t).
Hypothesis Hi : (i < n)%nat.
Hypothesis Hout : ~ (n_begin a <= i < n_end a)%nat.
Hypothesis Hsep : rsep prec emax E t theta a (fst (P i)).
Notation idx := (node_idx a).
Notation T := (rsum (fun l => B2R (snd (P l))) idx).
Notation com := (reals (p_com (n_props a))).
Notation s := (B / bpow radix2 (Z.of_N (n_level a))).
Notation dlt := (4 * (N0 + 2) * (u * B)).
Notation d := (distance com (fst (realp (P i)))).
Notation A := (sqrt (sep2 com (fst (realp (P i))) + B2R eps * B2R eps)).

(** The criterion, the size of the node and the errors. *)
Lemma size_facts : 0 < s /\ 0 <= dlt /\ dlt + 6 * (u * B) <= zeta * s /\ (1 + zeta) * (sqrt (INR (dim c)) * s) <= kp * d /\ 0 < d.
Proof.
  pose proof (box_pos prec emax k t Hbox) as BP. pose proof (u_small prec Hp8) as U. pose proof (pos_INR (n + w)) as PN. pose proof (Hz a Ha) as HZ.
  set (b := bpow radix2 (Z.of_N (n_level a))) in *. assert (Pb : 0 < b) by apply bpow_gt_0.
  assert (S0 : 0 < (B / b)) by (now apply Rdiv_lt_0_compat). assert (BS : B = (B / b) * b) by (unfold Rdiv; rewrite Rmult_assoc, Rinv_l by lra; ring). assert (UB : u * B = u * b * (B / b)) by (rewrite BS at 1; ring).
  assert (Pub : 0 < u * b) by (apply Rmult_lt_0_compat; lra).
  assert (Z1 : 4 * (N0 + 27) * (u * B) <= zeta * (B / b)).
  { rewrite UB. replace (4 * (N0 + 27) * (u * b * (B / b))) with (4 * (N0 + 27) * u * b * (B / b)) by ring. apply Rmult_le_compat_r; lra. }
  assert (PuB : 0 < u * B) by (apply Rmult_lt_0_compat; lra).
  split; [exact S0|]. split; [apply Rmult_le_pos; lra|]. split; [clear - Z1 PuB PN; revert Z1 PuB PN; generalize (u * B) (B / b) N0; intros ub S1 N1; intros; nra|].
  assert (B1 : 1 <= b). { change 1 with (bpow radix2 0). apply bpow_le. lia. }
  assert (U1 : 108 * u <= zeta). { eapply Rle_trans; [|exact HZ]. assert (108 * u <= 4 * (N0 + 27) * u) by (apply Rmult_le_compat_r; nra). assert (4 * (N0 + 27) * u * 1 <= 4 * (N0 + 27) * u * b) by (apply Rmult_le_compat_l; nra). lra. }
  pose proof (distance_nonneg com (fst (realp (P i)))) as D0.
  assert (X : (B / b) * (1 - zeta) <= TH * (g ^ 15 * d)).
  { unfold rsep in Hsep. cbv zeta in Hsep. change (map (@B2R prec emax) (fst (P i))) with (fst (realp (P i))) in Hsep. fold b in Hsep. destruct (e_mac E).
    - pose proof (g_mono prec Hp2 11 15 ltac:(lia)) as GM. apply Rle_trans with (B / b); [nra|]. eapply Rle_trans; [exact Hsep|]. apply Rmult_le_compat_l; [lra|]. now apply Rmult_le_compat_r.
    - destruct Hsep as (centre & _ & H). pose proof (distance_nonneg com centre) as D1.
      assert (TH * (32 * u * B) <= zeta * (B / b)). { apply Rle_trans with (3 * (32 * u * B)); [apply Rmult_le_compat_r; nra|]. nra. } nra. }
  assert (G15 : g ^ 15 <= 1 + 30 * u). { pose proof (g_lin2 15) as G. assert ((Z.of_nat 15 <= 2 ^ (prec - 1))%Z) by (apply Z.le_trans with (2 ^ 7)%Z; [cbn; lia|apply Z.pow_le_mono_r; lia]). specialize (G H). replace (INR 15) with 15 in G by (cbn; lra). lra. }
  assert (X2 : (B / b) * (1 - zeta) <= (1 + 30 * u) * (TH * d)). { eapply Rle_trans; [exact X|]. replace (TH * (g ^ 15 * d)) with (g ^ 15 * (TH * d)) by ring. apply Rmult_le_compat_r; [apply Rmult_le_pos; lra|exact G15]. }
  assert (X3 : (1 + zeta) * (B / b) <= (1 + 4 * zeta) * (TH * d)).
  { set (y := TH * d) in *. assert (Y0 : 0 <= y) by (unfold y; apply Rmult_le_pos; lra).
    assert (C : (1 + zeta) * (1 + 30 * u) <= (1 + 4 * zeta) * (1 - zeta)) by nra.
    apply Rmult_le_reg_r with (1 - zeta); [lra|]. apply Rle_trans with ((1 + zeta) * ((1 + 30 * u) * y)); [|nra].
    replace ((1 + zeta) * (B / b) * (1 - zeta)) with ((1 + zeta) * ((B / b) * (1 - zeta))) by ring. apply Rmult_le_compat_l; lra. }
  split.
  - destruct dim_bounds as [[D1 _] _]. replace (kp * d) with (sqrt (INR (dim c)) * ((1 + 4 * zeta) * (TH * d))) by ring. replace ((1 + zeta) * (sqrt (INR (dim c)) * (B / b))) with (sqrt (INR (dim c)) * ((1 + zeta) * (B / b))) by ring.
    apply Rmult_le_compat_l; lra.
  - destruct D0 as [D0|D0]; [exact D0|]. rewrite <- D0 in X2. nra.
Qed.

Lemma A_d : d <= A /\ 0 < A.
Proof.
  destruct size_facts as (_ & _ & _ & _ & D0). assert (X : d <= A); [|lra]. rewrite sep2_dist. rewrite <- (sqrt_square d) at 1 by lra. apply sqrt_le_1_alt.
  pose proof (Rle_0_sqr (B2R eps)) as E0. unfold Rsqr in E0. lra.
Qed.

Lemma idx_i : forall l, In l idx -> (l < n)%nat /\ l <> i.
Proof. intros l Hl. destruct (idx_n a Ha l Hl). split; [assumption|]. intros ->. contradiction. Qed.

Lemma realp_len : forall l, (l < n)%nat -> length (fst (realp (P l))) = dim c.
Proof.
  intros l Hl. cbn [fst]. unfold RoundExact.realp. cbn [fst]. rewrite map_length. apply (part_near prec emax Hprec Hemax fused Hp8 k Hk5 Hroom He E t P Ht HP Hbf Hbox l Hl).
Qed.

Lemma near_com : 0 < T -> forall l, In l idx -> distance (fst (realp (P l))) com <= kp * A.
Proof.
  intros PT l Hl. destruct size_facts as (S0 & DL & HZ & KD & D0). destruct A_d as [AD A0]. destruct (com_close a Ha PT) as [Lc _].
  destruct (idx_i l Hl) as [Hn _]. pose proof (realp_len l Hn) as Ll. destruct dim_bounds as [[D1 _] _]. pose proof kp_0 as K0.
  apply Rle_trans with (kp * d); [|now apply Rmult_le_compat_l]. eapply Rle_trans; [|exact KD].
  eapply Rle_trans; [apply (distance_le _ _ ((1 + zeta) * s)); [apply Rmult_le_pos; lra|lia|]|].
  - intros j Hj. rewrite Ll in Hj. eapply Rle_trans; [exact (part_com a Ha PT l Hl j Hj)|]. lra.
  - rewrite Ll. apply Req_le. ring.
Qed.

(** Error of an accepted node. *)
Lemma node_total : forall q j, let p1 := realp (P i) in let src := realp (p_com (n_props a), p_mass (n_props a)) in
  (is_acc (dim c) q j = false -> let S := rsum (fun l => - pull (dim c) q e2 j p1 (realp (P l))) idx in
     Rabs (pull (dim c) q e2 j p1 src - rsum (fun l => pull (dim c) q e2 j p1 (realp (P l))) idx) <= (pot_factor kp + (1 + kp) * (1 / 2 + 2 * kp) * zeta) * S /\
     Rabs (pull (dim c) q e2 j p1 src) <= (1 + zeta / 2) * (1 + kp) * S) /\
  (is_acc (dim c) q j = true -> kp < 1 -> let S := rsum (fun l => strength (B2R eps) p1 (realp (P l))) idx in
     Rabs (pull (dim c) q e2 j p1 src - rsum (fun l => pull (dim c) q e2 j p1 (realp (P l))) idx) <= (acc_factor kp + (1 + kp) * (1 + kp) * (1 / 2 + 6 * kp) * zeta) * S /\
     Rabs (pull (dim c) q e2 j p1 src) <= (1 + zeta / 2) * ((1 + kp) * (1 + kp)) * S).
Proof.
  intros q j p1 src. pose proof (T_0 a Ha) as T0. pose proof (mass_close a Ha) as MC. destruct size_facts as (S0 & DL & HZ & KD & D0). destruct A_d as [AD A0].
  pose proof kp_0 as K0. pose proof (pos_INR (n + w)) as PN. pose proof (u_small prec Hp8) as U.
  assert (GM : 2 * N0 * u <= zeta / 2).
  { pose proof (Hz a Ha) as Z1. set (b := bpow radix2 (Z.of_N (n_level a))) in *. assert (B1 : 1 <= b). { change 1 with (bpow radix2 0). apply bpow_le. lia. }
    assert (4 * (N0 + 27) * u * 1 <= 4 * (N0 + 27) * u * b) by (apply Rmult_le_compat_l; [apply Rmult_le_pos; lra|lra]). nra. }
  assert (MC2 : Rabs (snd src - T) <= zeta / 2 * T). { eapply Rle_trans; [exact MC|]. now apply Rmult_le_compat_r. }
  assert (Mi : 0 <= snd p1) by (apply (mass_nonneg prec emax k t P Hmass i Hi)).
  assert (PBl : forall l, In l idx -> 0 < sqrt (sep2 (fst (realp (P l))) (fst p1) + e2)).
  { intros l Hl. destruct (idx_i l Hl) as [Hn Hne]. apply sqrt_lt_R0. apply Hapart; auto. }
  destruct T0 as [PT|T0].
  - destruct (com_close a Ha PT) as [Lc _]. destruct dim_bounds as ([D1 D2] & D3 & D4).
    assert (DA : INR (dim c) * dlt / A <= 2 * kp * zeta /\ (1 + 3 * INR (dim c)) * dlt / A <= 6 * kp * zeta).
    { assert (RS : sqrt (INR (dim c)) * s <= kp * A).
      { apply Rle_trans with (kp * d); [|now apply Rmult_le_compat_l]. eapply Rle_trans; [|exact KD]. assert (0 <= sqrt (INR (dim c)) * s) by (apply Rmult_le_pos; lra). nra. }
      assert (RD : sqrt (INR (dim c)) * dlt <= zeta * (kp * A)).
      { apply Rle_trans with (zeta * (sqrt (INR (dim c)) * s)); [|apply Rmult_le_compat_l; lra]. replace (zeta * (sqrt (INR (dim c)) * s)) with (sqrt (INR (dim c)) * (zeta * s)) by ring.
        apply Rmult_le_compat_l; [lra|]. assert (0 <= u * B) by (pose proof (box_pos prec emax k t Hbox); apply Rmult_le_pos; lra). lra. }
      set (kk := kp) in *. set (r := sqrt (INR (dim c))) in *. set (dl := dlt) in *. set (y := A) in *. clearbody dl y.
      split; (apply Rmult_le_reg_r with y; [exact A0|]); unfold Rdiv; rewrite (Rmult_assoc _ (/ y)), Rinv_l, Rmult_1_r by lra.
      - rewrite <- D3. assert (r * (r * dl) <= 2 * (zeta * (kk * y))); [|lra]. apply Rmult_le_compat; try lra. apply Rmult_le_pos; lra.
      - apply Rle_trans with (6 * r * dl); [apply Rmult_le_compat_r; lra|]. lra. }
    destruct DA as [DA1 DA2]. fold p1 in DA1, DA2.
    assert (HL : forall l, In l idx -> length (fst (realp (P l))) = dim c /\ 0 <= snd (realp (P l)) /\ 0 < sqrt (sep2 (fst (realp (P l))) (fst p1) + e2) /\ distance (fst (realp (P l))) com <= kp * A).
    { intros l Hl. destruct (idx_i l Hl) as [Hn _]. split; [now apply realp_len|]. split; [apply (mass_nonneg prec emax k t P Hmass l Hn)|]. split; [now apply PBl|now apply near_com]. }
    split; [intros Hj S|intros Hj K1].
    + destruct (cloud_pot (dim c) q (B2R eps) p1 com idx (fun l => realp (P l)) (snd src) (zeta / 2) dlt kp (realp_len i Hi) Lc Mi ltac:(lra) DL K0 A0 MC2 HL (com_moment a Ha PT) j Hj) as [C1 C2].
      assert (SN : 0 <= S).
      { unfold S. apply rsum_nonneg. intros l Hl. unfold pull. rewrite Hj. destruct (HL l Hl) as (_ & Ml & PB & _). pose proof (Rmult_le_pos _ _ Mi Ml) as M3. apply Rinv_0_lt_compat in PB. unfold Rdiv. nra. }
      split; [|exact C2]. eapply Rle_trans; [exact C1|]. apply Rmult_le_compat_r; [exact SN|]. apply Rplus_le_compat_l. set (kk := kp) in *. rewrite (Rmult_assoc (1 + kk)). apply Rmult_le_compat_l; lra.
    + intros S. destruct (cloud_acc (dim c) q (B2R eps) p1 com idx (fun l => realp (P l)) (snd src) (zeta / 2) dlt kp (realp_len i Hi) Lc ltac:(lra) DL K0 A0 MC2 HL (com_moment a Ha PT) j Hj K1) as [C1 C2].
      assert (SN : 0 <= S). { unfold S. apply rsum_nonneg. intros l Hl. apply strength_nonneg. apply (HL l Hl). }
      split; [|exact C2]. eapply Rle_trans; [exact C1|]. apply Rmult_le_compat_r; [exact SN|]. apply Rplus_le_compat_l. set (kk := kp) in *. rewrite (Rmult_assoc ((1 + kk) * (1 + kk))). apply Rmult_le_compat_l; [apply Rmult_le_pos|]; lra.
  - assert (MZ : snd src = 0). { rewrite <- T0, Rmult_0_r, Rminus_0_r in MC2. apply Rabs_le_inv in MC2. lra. }
    assert (Z0 : forall l, In l idx -> snd (realp (P l)) = 0).
    { assert (NN : forall l, In l idx -> 0 <= B2R (snd (P l))) by (intros l Hl; exact (mass_0 a Ha l Hl)). clear - T0 NN. revert T0 NN. induction idx as [|h r IH]; intros T0 NN l []; rewrite rsum_cons in T0.
      all: assert (P1 : 0 <= B2R (snd (P h))) by (apply NN; now left).
      all: assert (P2 : 0 <= rsum (fun l => B2R (snd (P l))) r) by (apply rsum_nonneg; intros l' Hl'; apply NN; now right).
      - subst. cbn [snd RoundExact.realp]. unfold RoundExact.realp. cbn [snd]. lra.
      - apply IH; auto; [lra|intros l' Hl'; apply NN; now right]. }
    assert (PZ : pull (dim c) q e2 j p1 src = 0). { unfold pull. rewrite MZ. destruct (is_acc _ _ _); unfold Rdiv; ring. }
    assert (PL : rsum (fun l => pull (dim c) q e2 j p1 (realp (P l))) idx = 0).
    { rewrite <- (rsum_0 _ idx). apply rsum_ext. intros l Hl. unfold pull. rewrite (Z0 l Hl). destruct (is_acc _ _ _); unfold Rdiv; ring. }
    rewrite PZ, PL, Rminus_0_r, Rabs_R0. split; [intros Hj S|intros Hj K1 S].
    + assert (ES : S = 0). { unfold S. transitivity (-1 * rsum (fun l => pull (dim c) q e2 j p1 (realp (P l))) idx); [rewrite <- rsum_scal; apply rsum_ext; intros; ring|rewrite PL; ring]. } rewrite ES, !Rmult_0_r. lra.
    + assert (ES : S = 0). { unfold S. rewrite <- (rsum_0 _ idx). apply rsum_ext. intros l Hl. unfold strength. rewrite (Z0 l Hl). unfold Rdiv. ring. } rewrite ES, !Rmult_0_r. lra.
Qed.

End Accepted.
End IEEE.
