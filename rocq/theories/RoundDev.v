(** Rounding errors of the results of the calls with accelerators. *)
From Coq Require Import List Arith ZArith NArith Reals Bool Lra Lia Psatz Permutation.
From Flocq Require Import Core BinarySingleNaN.
From Verif Require Import Base Config Morton Build TreeSpec BuildSpec BuildProofs BuildProps FOps FOpsProofs Disc DiscProofs NodeProps NodeGeom NodesR Geometry Tree TreeInv TreeProofs TreeSafe TreeProps RSum Kernels KernR TravProofs
  RoundKern RoundSum Force ForceGen ForceR ForceOut ForceTop ForceRTop ForceMore ForceAcc Gpu GpuKernel GpuOut GpuTop GpuSplit GpuMain Round RoundNode RoundCtor RoundNear RoundExact RoundRsqrt RoundTree RoundSrc RoundMac RoundForce RoundCell
  Expand RoundTotal RoundAll RoundLane TreeShape.
Import ListNotations.
Local Open Scope R_scope.

Section IEEE.

Variables prec emax : Z.
Context (Hprec : Prec_gt_0 prec).
Context (Hemax : Prec_lt_emax prec emax).
Variable fused : bool.
Hypothesis Hp8 : (8 <= prec)%Z.

Notation bf := (binary_float prec emax).
Notation O := (Bops prec emax Hprec Hemax fused).
Notation zero := (fofZ O 0%Z).
Notation g := (gR prec).
Notation eta := (etaR prec emax).
Notation u := (uR prec).
Notation prow := (@prow bf).
Notation realp := (realp prec emax).
Notation approx := (approx prec emax).
Notation Hp2 := (Hp2 prec Hp8).

(** Strictly less is not greater or equal. *)
Lemma flt_fle : forall x y : bf, flt O x y = true -> fle O y x = false.
Proof.
  intros x y H. change (Bltb x y = true) in H. change (Bleb y x = false). 
  assert (S : Bcompare y x = match Bcompare x y with Some c => Some (CompOpp c) | None => None end) by apply Bcompare_swap.
  change (match Bcompare x y with Some Lt => true | _ => false end = true) in H.
  change (match Bcompare y x with Some Lt | Some Eq => true | _ => false end = false).
  rewrite S. destruct (Bcompare x y) as [[]|]; cbn; congruence.
Qed.

Variable k : Z.
Hypothesis Hk5 : (5 * k + 16 <= emax)%Z.
Hypothesis Hroom : (prec + 4 * k + 4 <= emax)%Z.
Hypothesis He : (64 <= emax)%Z.
Variable E : env.
Hypothesis HE : env_ok E.
Notation c := (e_cfg E).
Notation w := (match e_simd E with Some b => b | None => 1%nat end).
Variable K : platform bf.
Hypothesis HK : benign_shift K.
Hypothesis Hrsqrt : rsqrt_ok prec emax k K.

Variables (t : @tree bf) (P : nat -> prow).
Hypothesis Ht : tree_inv O E t.
Notation n := (length (t_codes t)).
Hypothesis HP : forall i, (i < n)%nat -> row (t_parts t) i (fst (P i) ++ [snd (P i)]).
Hypothesis Hbf : is_finite (t_box t) = true.
Hypothesis Hbox : bpow radix2 (3 - k) <= B2R (t_box t) <= bpow radix2 (k - 3).
Hypothesis Hmass : forall i, (i < n)%nat -> is_finite (snd (P i)) = true /\ (B2R (snd (P i)) = 0 \/ bpow radix2 (1 - k) <= B2R (snd (P i))).
Hypothesis Htotal : rsum (fun i => B2R (snd (P i))) (seq 0 n) <= bpow radix2 (k - 1).
Hypothesis Hfew : (2 * Z.of_nat (n + w) + 56 <= 2 ^ (prec - 1))%Z.
Notation B := (B2R (t_box t)).
Notation N0 := (INR (n + w)).

Variables theta G eps : bf.
Hypothesis Hth : is_finite theta = true.
Hypothesis Htheta : bpow radix2 (- k) <= B2R theta <= bpow radix2 k.
Hypothesis Hratio : B <= B2R theta * bpow radix2 (k - 3).
Hypothesis HG : is_finite G = true /\ Rabs (B2R G) <= bpow radix2 k.
Hypothesis Heps : is_finite eps = true /\ (B2R eps = 0 \/ bpow radix2 (- k) <= B2R eps <= bpow radix2 k).
Notation e2 := (B2R eps * B2R eps).
Notation large := (large prec emax k t theta).
Notation rsep := (rsep prec emax E t theta).
Hypothesis Hsoft : bpow radix2 (- k) <= B2R eps \/ forall a, In a (t_nodes t) -> large a.
Hypothesis Hapart : forall i l, (i < n)%nat -> (l < n)%nat -> i <> l -> bpow radix2 (- (2 * k)) <= sep2 (fst (realp (P l))) (fst (realp (P i))) + e2.
Notation ps := (map P (seq 0 n)).
Notation eps2 := (fmul O eps eps).

Let PC := part_cok prec emax Hprec Hemax fused Hp8 k Hk5 Hroom He E t P Ht HP Hbf Hbox.
Let PN := part_near prec emax Hprec Hemax fused Hp8 k Hk5 Hroom He E t P Ht HP Hbf Hbox.

Lemma lane_nth : forall i, (i < n)%nat -> l_p (lane_of O t ps i) = P i.
Proof.
  intros i Hi. cbn [lane_of l_p]. apply nth_error_nth with (x := P i). rewrite (map_nth_error P i (seq 0 n) (d := i)); [reflexivity|].
  now rewrite nth_error_seq by exact Hi.
Qed.

(** The vote of a thread for a node. *)
Lemma vote_away : forall mv a i, val prec emax 2 mv (macX prec emax E theta) -> In a (t_nodes t) -> (i < n)%nat -> vote O mv a (lane_of O t ps i) = true ->
  (i < n_begin a \/ n_end a <= i)%nat /\
  (large a -> bpow radix2 (- (2 * k)) <= sqd prec emax Hprec Hemax fused (dim c) 0 (p_com (n_props a)) (fst (P i)) /\ rsep a (fst (P i))).
Proof.
  intros mv a i Hmv Ha Hi V. unfold vote in V. apply andb_true_iff in V as [V1 V2]. apply negb_true_iff in V1. rewrite (lane_nth i Hi) in V2. cbn [lane_of l_idx] in V1. split.
  - unfold inside in V1. apply andb_false_iff in V1 as [V1|V1]; [apply Nat.leb_gt in V1|apply Nat.ltb_ge in V1]; lia.
  - intros Hl. apply flt_fle in V2.
    apply (accept_node prec emax Hprec Hemax fused Hp8 k Hk5 Hroom He E HE t P Ht HP Hbf Hbox Hmass Htotal Hfew theta G eps Htheta Hratio Hapart mv Hmv None a (fst (P i)) Ha Hl (PC i Hi)).
    replace (mac_dist2 O c None (diffs O (p_com (n_props a)) (fst (P i)))) with (lane_dist2 O (p_com (n_props a)) (P i)); [exact V2|].
    reflexivity.
Qed.

Lemma hetero_F : forall {D} (OD : fops D) npF gp ord order ordered q (split : list D) out out', (0 < g_warp gp)%nat ->
  reachable O E t -> room E t -> copies_fresh E gp t -> reorders ord -> reorders order -> out_ok n (nvecs_res E q) out ->
  hetero_dispatch O OD npF E K gp ord order ordered q t theta G eps split out = Ok out' ->
  out_ok n (nvecs_res E q) out' /\
  forall i, (i < n)%nat -> exists b e A Dl, (b <= i < e)%nat /\ (e <= n)%nat /\
    Permutation (seq b (e - b) ++ Dl ++ flat_map node_idx A) (seq 0 n) /\
    (forall a, In a A -> In a (t_nodes t) /\ (i < n_begin a \/ n_end a <= i)%nat /\ (large a -> rsep a (fst (P i)))) /\
    forall j, (j < nvecs_res E q)%nat -> let Dr := others b e i ++ Dl in
      exists v, nth_error (nth j out' []) (ForceTop.dst ordered t i) = Some v /\ is_finite v = true /\
        approx (n + w + 54) (INR (n + w) * Rabs (B2R G) + 1) (B2R v) (B2R G * tsum prec emax E e2 P (fun x => x) q j i Dr A) (Rabs (B2R G) * tsum prec emax E e2 P Rabs q j i Dr A).
Proof.
  intros D OD npF gp ord order ordered q split out out' Hw Hr Hrm Hcopy Hord Horder Ho Hd.
  destruct (mac_value_ok prec emax Hprec Hemax fused Hp8 k Hk5 He E theta (t_box t) Hth Htheta Hbox) as (mv & M1 & M2).
  assert (K3 : (3 <= k)%Z). { destruct (Z.le_gt_cases 3 k) as [H|H]; [exact H|exfalso]. assert (bpow radix2 (k - 3) < bpow radix2 (3 - k)) by (apply bpow_lt; lia). lra. }
  assert (Hk0 : (0 <= k)%Z) by lia.
  assert (Em : mok prec emax k eps /\ 0 <= B2R eps).
  { destruct Heps as [F [Z|R]].
    - split; [|lra]. split; [exact F|now left].
    - pose proof (bpow_gt_0 radix2 (- k)). split; [|lra]. split; [exact F|right]. rewrite Rabs_right by lra. exact R. }
  destruct (eps2_ok prec emax Hprec Hemax fused Hp8 k Hk0 Hk5 eps (proj1 Em) (proj2 Em)) as (E1 & V2 & B2).
  destruct (hetero_covers O OD npF E K gp HE HK Hw ord order ordered q t ps theta G eps split out out' Hr Hrm Hcopy (rows_P O E t P Ht HP) Hord Horder Ho Hd)
    as (mv' & ep & b & vals & C1 & C2 & C3 & C4 & C5 & C6 & C7 & _).
  assert (EM : mv' = mv) by congruence. subst mv'. assert (EE : ep = eps2) by congruence. subst ep.
  split; [exact C6|]. intros i Hi. destruct (Nat.lt_ge_cases i b) as [Hb|Hb].
  - destruct (tiles_find _ _ _ _ i (crit_tiles O E t Ht) ltac:(lia)) as (cn & Hcn & Hr'). cbn [fst snd] in Hr'.
    destruct (crit_node O E t cn Ht Hcn) as (_ & _ & _ & _ & _ & N5).
    destruct (crit_force prec emax Hprec Hemax fused Hp8 k Hk5 Hroom He E HE K HK Hrsqrt t P Ht HP Hbf Hbox Hmass Htotal Hfew theta G eps Htheta Hratio HG Heps Hsoft Hapart mv M2 q cn Hrm Hcn)
      as (A & Dl & H1 & H2 & H3).
    exists (c_begin cn), (c_end cn), A, Dl. split; [exact Hr'|]. split; [lia|]. split; [exact H1|]. split.
    + intros a Ha. destruct (H2 a Ha) as (I1 & I2 & I3). split; [exact I1|]. split; [lia|]. intros Hl. now apply I3.
    + intros j Hj Dr. rewrite (C7 j i Hj Hi), (C4 i Hb). destruct (H3 i Hr') as [_ V]. exact (V j Hj).
  - destruct (C5 i (conj Hb Hi)) as (idxs & r & J1 & J2 & J3 & J4).
    assert (HF2 : (2 * Z.of_nat (n + lanes_of (e_simd E)) + 3 <= 2 ^ (prec - 1))%Z) by (assert (lanes_of (e_simd E) <= w)%nat by (unfold lanes_of; destruct (e_simd E); lia); lia).
    assert (HF : (Z.of_nat (n + cacc 1 + 1) <= 2 ^ (prec - 1))%Z). { assert (C : cacc 1 = 22%nat) by reflexivity. rewrite C. lia. }
    destruct (lane_F prec emax Hprec Hemax fused Hp8 k Hk0 Hk5 Hroom G (proj1 HG) (proj2 HG) E e2 eps2 B2 V2 t P Ht mv HF) with (q := q) (idxs := idxs) (i := i) (rw := r) as (A & Dl & H1 & H2 & H3 & H4).
    + intros i' l Hi' Hl Hil.
      split; [now apply (part_pok prec emax Hprec Hemax fused Hp8 k Hk5 Hroom He E t P Ht HP Hbf Hbox Hmass Htotal Hfew theta G eps Htheta Hapart)|].
      split; [now apply (part_pok prec emax Hprec Hemax fused Hp8 k Hk5 Hroom He E t P Ht HP Hbf Hbox Hmass Htotal Hfew theta G eps Htheta Hapart)|].
      rewrite (real_sqd prec emax Hprec Hemax fused (dim c) e2 _ _ (proj1 (PN l Hl)) (proj1 (PN i' Hi'))). now apply Hapart.
    + intros i' Hi'. now apply (part_pok prec emax Hprec Hemax fused Hp8 k Hk5 Hroom He E t P Ht HP Hbf Hbox Hmass Htotal Hfew theta G eps Htheta Hapart).
    + exact J1.
    + intros m Hm. apply J2, Hm.
    + exact J3.
    + intros a Ha Hv. destruct (vote_away mv a i M2 Ha Hi Hv) as [_ W].
      split; [now apply (part_pok prec emax Hprec Hemax fused Hp8 k Hk5 Hroom He E t P Ht HP Hbf Hbox Hmass Htotal Hfew theta G eps Htheta Hapart)|].
      split; [apply (node_pok prec emax Hprec Hemax fused Hp8 k Hk5 Hroom He E HE t P Ht HP Hbf Hbox Hmass Htotal HF2 a Ha)|]. cbn [fst].
      assert (SE : sqd prec emax Hprec Hemax fused (dim c) e2 (p_com (n_props a)) (fst (P i)) = sqd prec emax Hprec Hemax fused (dim c) 0 (p_com (n_props a)) (fst (P i)) + e2) by (unfold RoundKern.sqd; ring).
      assert (S0 : 0 <= sqd prec emax Hprec Hemax fused (dim c) 0 (p_com (n_props a)) (fst (P i))) by (unfold RoundKern.sqd; rewrite Rplus_0_r; apply rsum_nonneg; intros j _; nra).
      rewrite SE. destruct Hsoft as [Hs|Hs].
      * assert (bpow radix2 (- (2 * k)) = bpow radix2 (- k) * bpow radix2 (- k)) by (rewrite <- bpow_plus; f_equal; lia).
        pose proof (bpow_gt_0 radix2 (- k)). nra.
      * destruct (W (Hs a Ha)) as [X _]. assert (0 <= e2) by nra. lra.
    + exists i, (i + 1)%nat, A, Dl. split; [lia|]. split; [lia|]. split; [exact H1|]. split.
      * intros a Ha. destruct (H2 a Ha) as [I1 I2]. destruct (vote_away mv a i M2 I1 Hi (I2 i J1)) as [I3 I4]. split; [exact I1|]. split; [exact I3|]. intros Hl. now apply I4.
      * intros j Hj Dr. rewrite (C7 j i Hj Hi), J4. exists (nth j (fst r ++ snd r) zero). split; [apply nth_error_nth'; lia|].
        destruct (H4 j Hj) as [F AP]. split; [exact F|]. eapply (approx_mono prec emax Hp2); [exact AP| | |].
        { assert (C : cacc 1 = 22%nat) by reflexivity. rewrite C. lia. }
        { pose proof (Rabs_pos (B2R G)) as PG. split; [pose proof (Rmult_le_pos _ _ (pos_INR n) PG); lra|].
          apply Rplus_le_compat_r. apply Rmult_le_compat_r; [exact PG|]. apply le_INR. lia. }
        { apply Rmult_le_pos; [apply Rabs_pos|]. unfold tsum. apply Rplus_le_le_0_compat; apply rsum_nonneg; intros; apply Rabs_pos. }
Qed.

(** The same with the sums over the list of all the sources. *)
Lemma heteros_F : forall {D} (OD : fops D) npF gp ord order ordered q (split : list D) out out', (0 < g_warp gp)%nat ->
  reachable O E t -> room E t -> copies_fresh E gp t -> reorders ord -> reorders order -> out_ok n (nvecs_res E q) out ->
  hetero_dispatch O OD npF E K gp ord order ordered q t theta G eps split out = Ok out' ->
  out_ok n (nvecs_res E q) out' /\
  forall i, (i < n)%nat -> exists A Dl,
    Permutation (i :: Dl ++ flat_map (fun a => seq (n_begin a) (n_end a - n_begin a)) A) (seq 0 n) /\
    (forall a, In a A -> In a (t_nodes t) /\ (large a -> rsep a (fst (P i)))) /\
    forall j, (j < nvecs_res E q)%nat ->
      let T p := B2R G * pull (dim c) q e2 j (realp (P i)) (realp p) in
      let L := map P Dl ++ map (fun a => (p_com (n_props a), p_mass (n_props a))) A in
      exists v, nth_error (nth j out' []) (ForceTop.dst ordered t i) = Some v /\ is_finite v = true /\
        Rabs (B2R v - rsum T L) <= (g ^ (n + w + 54) - 1) * rsum (fun p => Rabs (T p)) L + (INR (n + w) * Rabs (B2R G) + 1) * eta * g ^ (n + w + 54).
Proof.
  intros D OD npF gp ord order ordered q split out out' Hw Hr Hrm Hcopy Hord Horder Ho Hd.
  destruct (hetero_F OD npF gp ord order ordered q split out out' Hw Hr Hrm Hcopy Hord Horder Ho Hd) as [O1 V]. split; [exact O1|].
  intros i Hi. destruct (V i Hi) as (b & e & A & Dl & Hb & Hn & H1 & H2 & H3). exists A, (others b e i ++ Dl). split; [|split].
  - eapply perm_trans; [|exact H1]. pose proof (filter_out b (e - b) (i - b) ltac:(lia)) as F1. replace (b + (i - b))%nat with i in F1 by lia.
    rewrite <- app_assoc, app_comm_cons. apply Permutation_app_tail. now apply Permutation_sym.
  - intros a Ha. destruct (H2 a Ha) as (I1 & _ & I3). auto.
  - intros j Hj T L. destruct (H3 j Hj) as (v & V1 & V2 & V3). exists v. split; [exact V1|]. split; [exact V2|].
    assert (ES : forall f, rsum (fun p => f (pull (dim c) q e2 j (realp (P i)) (realp p))) L = tsum prec emax E e2 P f q j i (others b e i ++ Dl) A).
    { intros f. unfold tsum, L. rewrite rsum_app, !rsum_map. reflexivity. }
    assert (E2 : rsum T L = B2R G * tsum prec emax E e2 P (fun x => x) q j i (others b e i ++ Dl) A).
    { unfold T. rewrite rsum_scal. f_equal. exact (ES (fun x => x)). }
    assert (E3 : rsum (fun p => Rabs (T p)) L = Rabs (B2R G) * tsum prec emax E e2 P Rabs q j i (others b e i ++ Dl) A).
    { rewrite <- (ES Rabs), <- rsum_scal. apply rsum_ext. intros p _. unfold T. apply Rabs_mult. }
    rewrite E2, E3. exact V3.
Qed.

End IEEE.

Section Total.

Variables prec emax : Z.
Context (Hprec : Prec_gt_0 prec).
Context (Hemax : Prec_lt_emax prec emax).
Variable fused : bool.
Hypothesis Hp8 : (8 <= prec)%Z.
Notation bf := (binary_float prec emax).
Notation O := (Bops prec emax Hprec Hemax fused).
Notation u := (uR prec).
Notation eta := (etaR prec emax).
Notation prow := (@prow bf).
Notation realp := (realp prec emax).
Variable k : Z.
Hypothesis Hk5 : (5 * k + 16 <= emax)%Z.
Hypothesis Hroom : (prec + 4 * k + 4 <= emax)%Z.
Hypothesis He : (64 <= emax)%Z.
Variable E : env.
Hypothesis HE : env_ok E.
Notation c := (e_cfg E).
Notation w := (match e_simd E with Some b => b | None => 1%nat end).
Variable K : platform bf.
Hypothesis HK : benign_shift K.
Hypothesis Hrsqrt : rsqrt_ok prec emax k K.
Variables (t : @tree bf) (P : nat -> prow).
Hypothesis Ht : tree_inv O E t.
Notation n := (length (t_codes t)).
Hypothesis HP : forall i, (i < n)%nat -> row (t_parts t) i (fst (P i) ++ [snd (P i)]).
Hypothesis Hbf : is_finite (t_box t) = true.
Hypothesis Hbox : bpow radix2 (3 - k) <= B2R (t_box t) <= bpow radix2 (k - 3).
Hypothesis Hmass : forall i, (i < n)%nat -> is_finite (snd (P i)) = true /\ (B2R (snd (P i)) = 0 \/ bpow radix2 (1 - k) <= B2R (snd (P i))).
Hypothesis Htotal : rsum (fun i => B2R (snd (P i))) (seq 0 n) <= bpow radix2 (k - 1).
Hypothesis Hfew : (2 * Z.of_nat (n + w) + 56 <= 2 ^ (prec - 1))%Z.
Notation B := (B2R (t_box t)).
Notation N0 := (INR (n + w)).
Variables theta G eps : bf.
Hypothesis Hth : is_finite theta = true.
Hypothesis Htheta : bpow radix2 (- k) <= B2R theta <= bpow radix2 k.
Hypothesis Hratio : B <= B2R theta * bpow radix2 (k - 3).
Hypothesis HG : is_finite G = true /\ Rabs (B2R G) <= bpow radix2 k.
Hypothesis Heps : is_finite eps = true /\ (B2R eps = 0 \/ bpow radix2 (- k) <= B2R eps <= bpow radix2 k).
Notation e2 := (B2R eps * B2R eps).
Hypothesis Hlarge : forall a, In a (t_nodes t) -> B2R theta * bpow radix2 (Z.of_N (n_level a)) * bpow radix2 (3 - k) <= B.
Hypothesis Hapart : forall i l, (i < n)%nat -> (l < n)%nat -> i <> l -> bpow radix2 (- (2 * k)) <= sep2 (fst (realp (P l))) (fst (realp (P i))) + e2.
Variable zeta : R.
Hypothesis Hz0 : zeta <= 1 / 4.
Hypothesis Hz : forall a, In a (t_nodes t) -> 4 * (N0 + 27) * u * bpow radix2 (Z.of_N (n_level a)) <= zeta.
Notation kp := (B2R theta * sqrt (INR (dim c)) * (1 + 4 * zeta)).
Hypothesis Hth3 : B2R theta <= 3.

Lemma hetero_total : forall {D} (OD : fops D) npF gp ord order ordered q (split : list D) out out', (0 < g_warp gp)%nat ->
  reachable O E t -> room E t -> copies_fresh E gp t -> reorders ord -> reorders order -> out_ok n (nvecs_res E q) out ->
  hetero_dispatch O OD npF E K gp ord order ordered q t theta G eps split out = Ok out' ->
  out_ok n (nvecs_res E q) out' /\
  forall i j, (i < n)%nat -> (j < nvecs_res E q)%nat ->
      let d := rsum (fun l => pull (dim c) q e2 j (realp (P i)) (realp (P l))) (others 0 n i) in
      exists v, nth_error (nth j out' []) (ForceTop.dst ordered t i) = Some v /\ is_finite v = true /\
        (is_acc (dim c) q j = false -> Rabs (B2R v - B2R G * d) <= (pot_factor kp + 2 * (1 + kp) ^ 2 * zeta) * Rabs (B2R G * d) + 2 * (N0 * Rabs (B2R G) + 1) * eta) /\
        (is_acc (dim c) q j = true -> kp < 1 ->
          Rabs (B2R v - B2R G * d) <= (acc_factor kp + (1 + kp) ^ 2 * (2 + 6 * kp) * zeta) * (Rabs (B2R G) * rsum (fun l => strength (B2R eps) (realp (P i)) (realp (P l))) (others 0 n i))
            + 2 * (N0 * Rabs (B2R G) + 1) * eta).
Proof.
  intros D OD npF gp ord order ordered q split out out' Hw Hr Hrm Hcopy Hord Horder Ho Hd.
  destruct (hetero_F prec emax Hprec Hemax fused Hp8 k Hk5 Hroom He E HE K HK Hrsqrt t P Ht HP Hbf Hbox Hmass Htotal Hfew theta G eps Hth Htheta Hratio HG Heps (or_intror Hlarge) Hapart
    OD npF gp ord order ordered q split out out' Hw Hr Hrm Hcopy Hord Horder Ho Hd) as [O1 V]. split; [exact O1|].
  intros i j Hi Hj d. destruct (V i Hi) as (b & e & A & Dl & Hb & Hn & H1 & H2 & H3). destruct (H3 j Hj) as (v & V1 & V2 & V3). exists v. split; [exact V1|]. split; [exact V2|].
  apply (value_total prec emax Hprec Hemax fused Hp8 k Hk5 Hroom He E HE t P Ht HP Hbf Hbox Hmass Htotal Hfew theta G eps Htheta HG Heps Hlarge Hapart zeta Hz0 Hz Hth3 q j i v b e A Dl Hi Hb Hn H1); [|exact V3].
  intros a Ha. destruct (H2 a Ha) as (I1 & I2 & I3). split; [exact I1|]. split; [exact I2|]. exact (I3 (Hlarge a I1)).
Qed.

End Total.
