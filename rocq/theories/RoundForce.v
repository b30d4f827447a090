(** Rounding errors of the force functions. *)
From Coq Require Import List Arith ZArith NArith Reals Bool Lra Lia Psatz Permutation.
From Flocq Require Import Core BinarySingleNaN Relative Plus_error.
From Verif Require Import Base Config Morton Build TreeSpec BuildSpec BuildProofs BuildProps FOps FOpsProofs Disc DiscProofs NodeProps NodeGeom NodesR Geometry Tree TreeInv TreeProofs TreeSafe TreeProps RSum Kernels KernR TravProofs SelfSum
  Force KernLoops ForceGen ForceR ForceOut ForceTop ForceRTop Round RoundFin RoundNode RoundCtor RoundNear RoundKern RoundSum RoundExact RoundRsqrt RoundTree RoundSrc RoundMac RoundGeo.
Import ListNotations.
Local Open Scope nat_scope.

Section IEEE.

Variables prec emax : Z.
Context (Hprec : Prec_gt_0 prec).
Context (Hemax : Prec_lt_emax prec emax).
Variable fused : bool.
Hypothesis Hp8 : (8 <= prec)%Z.

Notation bf := (binary_float prec emax).
Notation O := (Bops prec emax Hprec Hemax fused).
Notation zero := (fofZ O 0%Z).
Notation g := (gR prec).
Notation u := (uR prec).
Notation eta := (etaR prec emax).
Notation bnd := (bnd prec emax).
Notation approx := (approx prec emax).
Notation Hp2 := (Hp2 prec Hp8).
Notation prow := (@prow bf).
Notation realp := (realp prec emax).

Local Open Scope R_scope.

Variable k : Z.
Hypothesis Hk5 : (5 * k + 16 <= emax)%Z.
Hypothesis Hroom : (prec + 4 * k + 4 <= emax)%Z.
Hypothesis He : (64 <= emax)%Z.
Variable E : env.
Hypothesis HE : env_ok E.
Notation c := (e_cfg E).
Notation bw := (batch c (e_simd E)).
Notation w := (match e_simd E with Some b => b | None => 1%nat end).
Variable K : platform bf.
Hypothesis HK : benign_shift K.
Hypothesis Hrsqrt : rsqrt_ok prec emax k K.

Variables (t : @tree bf) (P : nat -> prow).
Hypothesis Ht : tree_inv O E t.
Notation n := (length (t_codes t)).
Hypothesis HP : forall i, (i < n)%nat -> row (t_parts t) i (fst (P i) ++ [snd (P i)]).
Hypothesis Hbf : is_finite (t_box t) = true.
Hypothesis Hbox : bpow radix2 (3 - k) <= B2R (t_box t) <= bpow radix2 (k - 3).
Hypothesis Hmass : forall i, (i < n)%nat -> is_finite (snd (P i)) = true /\ (B2R (snd (P i)) = 0 \/ bpow radix2 (1 - k) <= B2R (snd (P i))).
Hypothesis Htotal : rsum (fun i => B2R (snd (P i))) (seq 0 n) <= bpow radix2 (k - 1).
Hypothesis Hfew : (2 * Z.of_nat (n + w) + 56 <= 2 ^ (prec - 1))%Z.
Notation B := (B2R (t_box t)).

Variables theta G eps : bf.
Hypothesis Hth : is_finite theta = true.
Hypothesis Htheta : bpow radix2 (- k) <= B2R theta <= bpow radix2 k.
Hypothesis Hratio : B <= B2R theta * bpow radix2 (k - 3).
Hypothesis HG : is_finite G = true /\ Rabs (B2R G) <= bpow radix2 k.
Hypothesis Heps : is_finite eps = true /\ (B2R eps = 0 \/ bpow radix2 (- k) <= B2R eps <= bpow radix2 k).
Notation e2 := (B2R eps * B2R eps).

(** The node is not too small for the value of [theta]. *)
Definition large (a : node (props bf)) : Prop := B2R theta * bpow radix2 (Z.of_N (n_level a)) * bpow radix2 (3 - k) <= B.
Hypothesis Hsoft : bpow radix2 (- k) <= B2R eps \/ forall a, In a (t_nodes t) -> large a.
Hypothesis Hapart : forall i l, (i < n)%nat -> (l < n)%nat -> i <> l -> bpow radix2 (- (2 * k)) <= sep2 (fst (realp (P l))) (fst (realp (P i))) + e2.

(** The criterion with the rounding errors. *)
Definition rsep (a : node (props bf)) (x : list bf) : Prop :=
  let s := B / bpow radix2 (Z.of_N (n_level a)) in
  let com := map (@B2R prec emax) (p_com (n_props a)) in
  let d := distance com (map (@B2R prec emax) x) in
  match e_mac E with
  | Bh => s <= B2R theta * (g ^ 11 * d)
  | BhGeom => exists centre, get_node_centre Rops c (n_code a) B = Ok centre /\ s <= B2R theta * (g ^ 15 * d - distance com centre + 32 * u * B)
  end.

Lemma K3 : (3 <= k)%Z.
Proof. destruct (Z.le_gt_cases 3 k) as [H|H]; [exact H|exfalso]. assert (bpow radix2 (k - 3) < bpow radix2 (3 - k)) by (apply bpow_lt; lia). lra. Qed.

Lemma BP : 0 < B.
Proof. pose proof (bpow_gt_0 radix2 (3 - k)). lra. Qed.

Lemma TP : 0 < B2R theta.
Proof. pose proof (bpow_gt_0 radix2 (- k)). lra. Qed.

Local Ltac pos := pose proof K3 as K3; pose proof BP as BP; pose proof TP as TP.

Lemma bw_w : (bw <= w)%nat.
Proof.
  pos.
  unfold batch. pose proof (proj2 HE) as S. destruct (e_simd E) as [b|]; [|lia]. specialize (S b eq_refl). destruct (dim c) as [|[|[|[|?]]]]; lia.
Qed.

Lemma Hfew' : (2 * Z.of_nat (n + lanes_of (e_simd E)) + 3 <= 2 ^ (prec - 1))%Z.
Proof. assert (lanes_of (e_simd E) <= w)%nat by (unfold lanes_of; destruct (e_simd E); lia). lia. Qed.

Let PN := part_near prec emax Hprec Hemax fused Hp8 k Hk5 Hroom He E t P Ht HP Hbf Hbox.
Let PC := part_cok prec emax Hprec Hemax fused Hp8 k Hk5 Hroom He E t P Ht HP Hbf Hbox.

Lemma part_pok : forall i, (i < n)%nat -> pok prec emax k (dim c) (P i).
Proof.
  pos.
  intros i Hi. split; [now apply PC|]. destruct (Hmass i Hi) as [F M]. split; [exact F|]. destruct M as [M|M]; [now left|right].
  pose proof (bpow_gt_0 radix2 (1 - k)) as P1. rewrite Rabs_right by lra. split; [eapply Rle_trans; [|exact M]; apply bpow_le; lia|].
  destruct (range_sum prec emax Hp8 k E t P HP Hmass Htotal Hfew' i (S i) ltac:(lia)) as [_ T]. replace (S i - i)%nat with 1%nat in T by lia. cbn [seq] in T. rewrite rsum_cons, rsum_nil, Rplus_0_r in T.
  eapply Rle_trans; [exact T|]. apply bpow_le. lia.
Qed.

Let NP := node_pok prec emax Hprec Hemax fused Hp8 k Hk5 Hroom He E HE t P Ht HP Hbf Hbox Hmass Htotal Hfew'.
Let NB := node_com_bnd prec emax Hprec Hemax fused Hp8 k Hk5 Hroom He E HE t P Ht HP Hbf Hbox Hmass Htotal Hfew'.
Notation sqd := (sqd prec emax Hprec Hemax fused (dim c)).
Notation pair_ok := (pair_ok prec emax Hprec Hemax fused k (dim c) e2).

Lemma sqd_e2 : forall x2 x1, sqd e2 x2 x1 = sqd 0 x2 x1 + e2.
Proof. intros x2 x1. unfold RoundKern.sqd. ring. Qed.

Lemma sqd0_nonneg : forall x2 x1, 0 <= sqd 0 x2 x1.
Proof. intros x2 x1. unfold RoundKern.sqd. rewrite Rplus_0_r. apply rsum_nonneg. intros j _. nra. Qed.

Lemma sqrt_sqd : forall x2 x1 : list bf, length x2 = dim c -> length x1 = dim c -> sqrt (sqd 0 x2 x1) = distance (map (@B2R prec emax) x2) (map (@B2R prec emax) x1).
Proof. intros x2 x1 L2 L1. rewrite (real_sqd prec emax Hprec Hemax fused (dim c) 0 x2 x1 L2 L1), Rplus_0_r. reflexivity. Qed.

Section Value.

Variable mv : bf.
Hypothesis Hmv : val prec emax 2 mv (macX prec emax E theta).

(** An accepted node is away from the particle. *)
Lemma accept_node : forall simd a x, In a (t_nodes t) -> large a -> cok prec emax k (dim c) x ->
  fle O (mac_dist2 O c simd (diffs O (p_com (n_props a)) x)) (mac_lh O (n_props a) mv) = false ->
  bpow radix2 (- (2 * k)) <= sqd 0 (p_com (n_props a)) x /\ rsep a x.
Proof.
  pos.
  intros simd a x Hin Hl Hx HF. destruct (node_code_gen O E t a Ht Hin) as (p & Lv & Hp & Hcode).
  destruct (node_props_gen O E t a HE Ht Hin) as (geo & Hgeo & _ & _ & _ & _ & HM). cbv zeta in HM.
  destruct (NB a Hin) as [Lc Bc]. pose proof (NP a Hin) as [Cc _]. cbn [fst] in Cc.
  destruct (centre_err prec emax Hprec Hemax fused Hp8 k Hk5 He E (t_box t) Hbf Hbox (n_level a) Lv p Hp) as (geo' & cc & G1 & G2 & G3 & G4 & G5 & G6).
  rewrite <- Hcode in G1, G2.
  assert (EG : geo' = geo) by congruence. subst geo'.
  assert (DC : 0 <= B2R (fsqrt O (dist2 O (p_com (n_props a)) geo)) /\ bnd (fsqrt O (dist2 O (p_com (n_props a)) geo)) (k + 4) /\
    distance (map (@B2R prec emax) (p_com (n_props a))) cc <= g ^ 4 * B2R (fsqrt O (dist2 O (p_com (n_props a)) geo)) + 32 * u * B).
  { destruct (delta_err prec emax Hprec Hemax fused Hp8 k Hk5 Hroom He E (t_box t) Hbox (n_level a) Lv (p_com (n_props a)) geo Lc G4 Bc G3) as (D1 & D2 & _).
    split; [exact D2|]. split; [exact D1|].
    exact (delta_centre prec emax Hprec Hemax fused Hp8 k Hk5 Hroom He E (t_box t) Hbox (n_level a) Lv (p_com (n_props a)) geo cc Lc G4 G5 Bc G3 G6). }
  destruct DC as (D0 & DB & DD).
  set (dl := fsqrt O (dist2 O (p_com (n_props a)) geo)) in *.
  assert (Hmac : match e_mac E with
    | Bh => exists d2, p_mac (n_props a) = DBh d2 /\ d2 = fmul O (get_node_dim O (n_level a) (t_box t)) (get_node_dim O (n_level a) (t_box t))
    | BhGeom => exists dl, p_mac (n_props a) = DGeom (get_node_dim O (n_level a) (t_box t)) dl /\ bnd dl (k + 4) /\ 0 <= B2R dl
    end).
  { destruct (e_mac E); destruct HM as [HM _]; eauto. }
  destruct (accept_far prec emax Hprec Hemax fused Hp8 k Hk5 He E theta (t_box t) Htheta Hbf Hbox Hratio mv Hmv a Lv Hl Hmac simd (p_com (n_props a)) x Cc Hx HF) as [A1 A2].
  split; [exact A1|]. rewrite (sqrt_sqd _ _ Lc (proj1 Hx)) in A2. unfold rsep. cbv zeta.
  set (d := distance (map (@B2R prec emax) (p_com (n_props a))) (map (@B2R prec emax) x)) in *.
  set (S := B / bpow radix2 (Z.of_N (n_level a))) in *.
  assert (ES : S = B2R theta * (S / B2R theta)) by (field; lra).
  unfold reach in A2. fold S in A2. destruct (e_mac E); destruct HM as [HM _]; rewrite HM in A2.
  - rewrite ES. apply Rmult_le_compat_l; lra.
  - exists cc. split; [exact G2|]. rewrite ES. apply Rmult_le_compat_l; [lra|].
    assert (G15 : g ^ 15 = g ^ 4 * g ^ 11) by ring. rewrite G15.
    assert (G0 : 1 <= g ^ 4) by (apply (g_pow1 prec Hp2)).
    assert (SP : 0 <= S / B2R theta). { unfold S. apply Rmult_le_pos; [|left; now apply Rinv_0_lt_compat]. apply Rmult_le_pos; [lra|]. left. apply Rinv_0_lt_compat, bpow_gt_0. }
    assert (g ^ 4 * (S / B2R theta + B2R dl) <= g ^ 4 * (g ^ 11 * d)) by (apply Rmult_le_compat_l; [lra|exact A2]).
    assert (1 * (S / B2R theta) <= g ^ 4 * (S / B2R theta)) by (apply Rmult_le_compat_r; lra).
    lra.
Qed.

(** The padding is away from the particles. *)
Lemma pad_pair : forall i, (i < n)%nat -> pair_ok (P i) (pad_row O E (pad_coord O E (t_box t) mv)).
Proof.
  pos.
  intros i Hi. destruct (pad_ok prec emax Hprec Hemax fused Hp8 k Hk5 He E theta (t_box t) Htheta Hbf Hbox Hratio mv Hmv) as [FP [P1 P2]].
  set (pad := pad_coord O E (t_box t) mv) in *. pose proof (dim_pos c) as D3.
  split; [now apply part_pok|]. unfold pad_row. split.
  - split; cbn [fst snd].
    + split; [apply repeat_length|]. apply Forall_forall. intros y Hy. apply repeat_spec in Hy. subst y. split; [exact FP|]. rewrite Rabs_right by lra. exact P2.
    + split; [reflexivity|]. left. apply (B2R_zero prec emax Hprec Hemax fused).
  - cbn [fst]. rewrite sqd_e2. assert (E0 : 0 <= e2) by nra. destruct (PN i Hi) as [L F].
    assert (X : Rabs (B2R (nth 0 (fst (P i)) zero)) <= 33 / 64 * B). { rewrite Forall_forall in F. apply F. apply nth_In. lia. }
    apply Rabs_le_inv in X.
    assert (Q : bpow radix2 (- k) * 3 <= B2R pad - B2R (nth 0 (fst (P i)) zero)).
    { assert (bpow radix2 (3 - k) = 8 * bpow radix2 (- k)) by (replace (3 - k)%Z with (3 + - k)%Z by lia; rewrite bpow_plus; reflexivity).
      pose proof (bpow_gt_0 radix2 (- k)). lra. }
    pose proof (bpow_gt_0 radix2 (- k)) as PK.
    assert (bpow radix2 (- (2 * k)) = bpow radix2 (- k) * bpow radix2 (- k)) by (rewrite <- bpow_plus; f_equal; lia).
    assert (B2R pad - B2R (nth 0 (fst (P i)) zero) = del prec emax Hprec Hemax fused (repeat pad (dim c)) (fst (P i)) 0).
    { unfold del. rewrite (nth_indep (repeat pad (dim c)) zero pad) by (rewrite repeat_length; lia). now rewrite nth_repeat. }
    assert (bpow radix2 (- (2 * k)) <= sqd 0 (repeat pad (dim c)) (fst (P i))); [|lra].
    unfold RoundKern.sqd. rewrite Rplus_0_r. replace (seq 0 (dim c)) with (0%nat :: seq 1 (dim c - 1)) by (replace (dim c) with (S (dim c - 1)) at 2 by lia; reflexivity). rewrite rsum_cons.
    match goal with |- _ <= _ + ?r => assert (0 <= r) end.
    { apply rsum_nonneg. intros j _. nra. }
    nra.
Qed.

Notation eps2 := (fmul O eps eps).
Let pad := pad_coord O E (t_box t) mv.

Lemma Hk0 : (0 <= k)%Z.
Proof. pos. lia. Qed.

Lemma Em : mok prec emax k eps /\ 0 <= B2R eps.
Proof.
  pos.
  destruct Heps as [F [Z|R]].
  - split; [|lra]. split; [exact F|now left].
  - pose proof (bpow_gt_0 radix2 (- k)). split; [|lra]. split; [exact F|right]. rewrite Rabs_right by lra. exact R.
Qed.

Lemma crit_force : forall q cn, room E t -> In cn (t_crit t) ->
  exists A Dl, Permutation (seq (c_begin cn) (c_end cn - c_begin cn) ++ Dl ++ flat_map node_idx A) (seq 0 n) /\
    (forall a, In a A -> In a (t_nodes t) /\ (n_end a <= c_begin cn \/ c_end cn <= n_begin a)%nat /\
      (large a -> forall i, (c_begin cn <= i < c_end cn)%nat -> rsep a (fst (P i)))) /\
    forall i, (c_begin cn <= i < c_end cn)%nat -> length (result_row O E K q t mv G eps2 i) = nvecs_res E q /\
      forall j, (j < nvecs_res E q)%nat -> let Dr := others (c_begin cn) (c_end cn) i ++ Dl in
        exists v, nth_error (result_row O E K q t mv G eps2 i) j = Some v /\ is_finite v = true /\
          approx (n + w + 54) (INR (n + w) * Rabs (B2R G) + 1) (B2R v) (B2R G * tsum prec emax E e2 P (fun x => x) q j i Dr A) (Rabs (B2R G) * tsum prec emax E e2 P Rabs q j i Dr A).
Proof.
  pos.
  intros q cn Hrm Hcn. destruct (crit_node O E t cn Ht Hcn) as (_ & _ & _ & _ & _ & N5).
  destruct (psize_total E n Hrm (c_end cn - c_begin cn) ltac:(lia)) as [psize Hsz].
  destruct (eps2_ok prec emax Hprec Hemax fused Hp8 k Hk0 Hk5 eps (proj1 Em) (proj2 Em)) as (_ & V2 & B2).
  pose proof bw_w as BW.
  assert (HF : (Z.of_nat (n + bw + cacc 11 + 1) <= 2 ^ (prec - 1))%Z).
  { assert (C : cacc 11 = 52%nat) by reflexivity. rewrite C. lia. }
  assert (ACC : forall a i, In a (t_nodes t) -> accept O c (e_simd E) K mv eps2 (c_end cn - c_begin cn) (tgt_rows O E (map P (seq 0 n)) pad cn psize) a = true ->
    (c_begin cn <= i < c_end cn)%nat -> fle O (mac_dist2 O c (e_simd E) (diffs O (p_com (n_props a)) (fst (P i)))) (mac_lh O (n_props a) mv) = false).
  { intros a i Hin Hacc Hi. unfold accept, passes in Hacc. apply negb_true_iff in Hacc.
    destruct (fle O (mac_dist2 O c (e_simd E) (diffs O (p_com (n_props a)) (fst (P i)))) (mac_lh O (n_props a) mv)) eqn:EF; [|reflexivity]. exfalso.
    assert (C1 := proj1 (covered_bounds bw (c_end cn - c_begin cn) (batch_pos c (e_simd E) (simd_pos E HE)))).
    assert (X : existsb (fun p => fle O (fst (mac_lane O c (e_simd E) K eps2 (p_com (n_props a)) p)) (mac_lh O (n_props a) mv))
      (firstn (covered bw (c_end cn - c_begin cn)) (tgt_rows O E (map P (seq 0 n)) pad cn psize)) = true); [|rewrite X in Hacc; discriminate].
    apply existsb_exists. exists (P i). split; [|exact EF].
    assert (Ek : P i = nth (i - c_begin cn) (slice (map P (seq 0 n)) (c_begin cn) (c_end cn)) (P 0%nat)).
    { rewrite nth_slice by lia. rewrite (map_nth P). f_equal. rewrite seq_nth by lia. lia. }
    rewrite Ek. unfold tgt_rows. rewrite firstn_app. apply in_or_app. left.
    assert (SL : length (slice (map P (seq 0 n)) (c_begin cn) (c_end cn)) = (c_end cn - c_begin cn)%nat) by (apply slice_length; rewrite map_length, seq_length; lia).
    rewrite firstn_all2 by (rewrite SL; lia). apply nth_In. unfold prow in *. rewrite SL. lia. }
  destruct (crit_F prec emax Hprec Hemax fused Hp8 k Hk0 Hk5 Hroom G (proj1 HG) (proj2 HG) E HE K HK e2 eps2 B2 V2 11 ltac:(lia) (rsqrt_fast prec emax Hprec Hemax fused Hp8 k Hk0 Hk5 K Hrsqrt)
    t P Ht HP mv pad HF) with (q := q) (cn := cn) (psize := psize) as (A & Dl & H1 & H2 & res & H3 & H4).
  - intros i l Hi Hl Hil. split; [now apply part_pok|]. split; [now apply part_pok|].
    rewrite (real_sqd prec emax Hprec Hemax fused (dim c) e2 _ _ (proj1 (PN l Hl)) (proj1 (PN i Hi))). now apply Hapart.
  - intros i Hi. now apply pad_pair.
  - exact Hcn.
  - exact Hsz.
  - intros a i Hin Hacc Hi. split; [apply part_pok; lia|]. split; [now apply NP|]. cbn [fst].
    rewrite sqd_e2. pose proof (sqd0_nonneg (p_com (n_props a)) (fst (P i))) as S0. destruct Hsoft as [Hs|Hs].
    + assert (bpow radix2 (- (2 * k)) = bpow radix2 (- k) * bpow radix2 (- k)) by (rewrite <- bpow_plus; f_equal; lia).
      pose proof (bpow_gt_0 radix2 (- k)). nra.
    + destruct (accept_node (e_simd E) a (fst (P i)) Hin (Hs a Hin)) as [X _]; [apply PC; lia|now apply ACC|]. lra.
  - exists A, Dl. split; [exact H1|]. split.
    + intros a Ha. destruct (H2 a Ha) as (I1 & I2 & I3). split; [exact I1|]. split; [exact I3|]. intros Hl i Hi.
      apply (accept_node (e_simd E) a (fst (P i)) I1 Hl); [apply PC; lia|now apply ACC].
    + intros i Hi. destruct (H4 i Hi) as (rw & R1 & R2 & R3).
      assert (RR : result_row O E K q t mv G eps2 i = fst rw ++ snd rw).
      { unfold result_row. replace i with (c_begin cn + (i - c_begin cn))%nat by lia.
        apply (row_at_crit O E K q t Ht mv G eps2 pad cn res (i - c_begin cn) rw); auto. lia. }
      rewrite RR. split; [exact R2|]. intros j Hj Dr. exists (nth j (fst rw ++ snd rw) zero). split; [apply nth_error_nth'; lia|].
      destruct (R3 j Hj) as [F AP]. split; [exact F|].
      eapply (approx_mono prec emax Hp2); [exact AP| | |].
      * assert (C : cacc 11 = 52%nat) by reflexivity. rewrite C. lia.
      * pose proof (Rabs_pos (B2R G)) as PG. split; [pose proof (Rmult_le_pos _ _ (pos_INR (n + bw)) PG); lra|].
        apply Rplus_le_compat_r. apply Rmult_le_compat_r; [exact PG|]. apply le_INR. lia.
      * apply Rmult_le_pos; [apply Rabs_pos|]. unfold tsum. apply Rplus_le_le_0_compat; apply rsum_nonneg; intros; apply Rabs_pos.
Qed.

End Value.

(** The functions which compute the accelerations and the potentials. *)
Lemma force_F : forall {D} (OD : fops D) ord ordered q (split : list D) out,
  reachable O E t -> room E t -> reorders ord -> check_split OD split = Ok tt -> (length split <= 1)%nat ->
  out_ok n (nvecs_res E q) out ->
  exists out', acc_pot_dispatch O OD E K ord ordered q t theta G eps split out = Ok out' /\ out_ok n (nvecs_res E q) out' /\
    forall cn, In cn (t_crit t) ->
    exists A Dl, Permutation (seq (c_begin cn) (c_end cn - c_begin cn) ++ Dl ++ flat_map node_idx A) (seq 0 n) /\
      (forall a, In a A -> In a (t_nodes t) /\ (n_end a <= c_begin cn \/ c_end cn <= n_begin a)%nat /\
        (large a -> forall i, (c_begin cn <= i < c_end cn)%nat -> rsep a (fst (P i)))) /\
      forall i j, (c_begin cn <= i < c_end cn)%nat -> (j < nvecs_res E q)%nat -> let Dr := others (c_begin cn) (c_end cn) i ++ Dl in
        exists v, nth_error (nth j out' []) (ForceTop.dst ordered t i) = Some v /\ is_finite v = true /\
          approx (n + w + 54) (INR (n + w) * Rabs (B2R G) + 1) (B2R v) (B2R G * tsum prec emax E e2 P (fun x => x) q j i Dr A) (Rabs (B2R G) * tsum prec emax E e2 P Rabs q j i Dr A).
Proof.
  pos. intros D OD ord ordered q split out Hr Hrm Hord Hs Hs1 Ho.
  destruct (mac_value_ok prec emax Hprec Hemax fused Hp8 k Hk5 He E theta (t_box t) Hth Htheta Hbox) as (mv & M1 & M2).
  destruct (eps2_ok prec emax Hprec Hemax fused Hp8 k Hk0 Hk5 eps (proj1 Em) (proj2 Em)) as (E1 & _ & _).
  assert (Hp : params O OD E t theta G eps split mv (fmul O eps eps)).
  { split; [exact M1|]. split; [exact E1|]. split; [|split; [exact Hs|split; [exact Hs1|]]].
    - unfold check_G_const. change (ffin O G) with (is_finite G). now rewrite (proj1 HG).
    - exact (proj1 (pad_ok prec emax Hprec Hemax fused Hp8 k Hk5 He E theta (t_box t) Htheta Hbf Hbox Hratio mv M2)). }
  destruct (dispatch_ok O OD E K HE HK ord ordered q t theta G eps split mv (fmul O eps eps) out Ht Hrm Hord Hp Ho) as (out' & D1 & D2 & D3 & _).
  exists out'. split; [exact D1|]. split; [exact D2|]. intros cn Hcn.
  destruct (crit_force mv M2 q cn Hrm Hcn) as (A & Dl & H1 & H2 & H3). exists A, Dl. split; [exact H1|]. split; [exact H2|].
  intros i j Hi Hj Dr. destruct (crit_node O E t cn Ht Hcn) as (_ & _ & _ & _ & _ & N5). rewrite (D3 j i Hj) by lia. destruct (H3 i Hi) as [_ V]. apply (V j Hj).
Qed.

(** The same with the sums over the list of all the sources. *)
Lemma forces_F : forall {D} (OD : fops D) ord ordered q (split : list D) out,
  reachable O E t -> room E t -> reorders ord -> check_split OD split = Ok tt -> (length split <= 1)%nat ->
  out_ok n (nvecs_res E q) out ->
  exists out', acc_pot_dispatch O OD E K ord ordered q t theta G eps split out = Ok out' /\ out_ok n (nvecs_res E q) out' /\
    forall cn, In cn (t_crit t) -> exists A Dl,
      let own := seq (c_begin cn) (c_end cn - c_begin cn) in
      Permutation (own ++ Dl ++ flat_map (fun a => seq (n_begin a) (n_end a - n_begin a)) A) (seq 0 n) /\
      (forall a, In a A -> In a (t_nodes t) /\ forall i, In i own -> large a -> rsep a (fst (P i))) /\
      forall i j, In i own -> (j < nvecs_res E q)%nat ->
        let T p := B2R G * pull (dim c) q e2 j (realp (P i)) (realp p) in
        let L := map P (filter (fun l => negb (l =? i)%nat) own ++ Dl) ++ map (fun a => (p_com (n_props a), p_mass (n_props a))) A in
        exists v, nth_error (nth j out' []) (ForceTop.dst ordered t i) = Some v /\ is_finite v = true /\
          Rabs (B2R v - rsum T L) <= (g ^ (n + w + 54) - 1) * rsum (fun p => Rabs (T p)) L + (INR (n + w) * Rabs (B2R G) + 1) * eta * g ^ (n + w + 54).
Proof.
  intros D OD ord ordered q split out Hr Hrm Hord Hs Hs1 Ho.
  destruct (force_F OD ord ordered q split out Hr Hrm Hord Hs Hs1 Ho) as (out' & E1 & O1 & V). exists out'. split; [exact E1|]. split; [exact O1|].
  intros cn Hcn. destruct (V cn Hcn) as (A & Dl & H1 & H2 & H3). exists A, Dl. intros own. split; [exact H1|]. split.
  - intros a Ha. destruct (H2 a Ha) as (I1 & _ & I3). split; [exact I1|]. intros i Hi Hl. apply I3; [exact Hl|]. apply in_seq in Hi. lia.
  - intros i j Hi Hj T L. apply in_seq in Hi. destruct (H3 i j ltac:(lia) Hj) as (v & V1 & V2 & V3). exists v. split; [exact V1|]. split; [exact V2|].
    assert (ES : forall f, rsum (fun p => f (pull (dim c) q e2 j (realp (P i)) (realp p))) L = tsum prec emax E e2 P f q j i (others (c_begin cn) (c_end cn) i ++ Dl) A).
    { intros f. unfold tsum, L. rewrite rsum_app, !rsum_map. reflexivity. }
    assert (E2 : rsum T L = B2R G * tsum prec emax E e2 P (fun x => x) q j i (others (c_begin cn) (c_end cn) i ++ Dl) A).
    { unfold T. rewrite rsum_scal. f_equal. exact (ES (fun x => x)). }
    assert (E3 : rsum (fun p => Rabs (T p)) L = Rabs (B2R G) * tsum prec emax E e2 P Rabs q j i (others (c_begin cn) (c_end cn) i ++ Dl) A).
    { rewrite <- (ES Rabs), <- rsum_scal. apply rsum_ext. intros p _. unfold T. apply Rabs_mult. }
    rewrite E2, E3. exact V3.
Qed.

End IEEE.
