(** Property C72: errors of the calls which divide the work between the CPU and the accelerators. Notation and assumptions as in C70 and C71;
    [copies_fresh]: the copies of the data on a ROCm device are up to date (see C55). *)
From Coq Require Import List Arith ZArith NArith Reals Bool Lra Lia Permutation.
From Flocq Require Import Core BinarySingleNaN.
From Verif Require Import Base Config Morton Build TreeSpec FOps FOpsProofs Disc NodeProps NodesR Tree TreeInv TreeProofs TreeSafe TreeEx RSum Kernels KernR TravProofs Force ForceOut ForceTop ForceRTop ForceEx
  Gpu GpuMain GpuEx RoundEx RoundDevEx RoundExact RoundRsqrt RoundDev.
Import ListNotations.
Local Open Scope R_scope.

(** C72. Whenever the call returns: each particle is attracted by the particles [Dl] and by the nodes [A]; nothing is left out or counted twice. The nodes meet the criterion
    of the code up to a few rounding errors, unless they are extremely small. The results are the exact sums of these interactions up to rounding errors. *)
Theorem C72_split_rounding :
  forall (D : Type) (OD : fops D) (npF : N -> D) (gp : gpu) (prec emax k : Z) (Hprec : Prec_gt_0 prec) (Hemax : Prec_lt_emax prec emax) (fused : bool)
    (Hprec8 : (8 <= prec)%Z) (Hemax64 : (64 <= emax)%Z) (Hk5 : (5 * k + 16 <= emax)%Z) (Hk4 : (prec + 4 * k + 4 <= emax)%Z)
    (E : env) (K : platform (binary_float prec emax)) (ord : list cnode -> list cnode) (order : list (@task (binary_float prec emax)) -> list (@task (binary_float prec emax))) (ordered : bool) (q : quant)
    (t : @tree (binary_float prec emax)) (Q : nat -> @prow (binary_float prec emax))
    (theta G eps : binary_float prec emax) (split : list D) (out out' : list (list (binary_float prec emax))),
  let O := Bops prec emax Hprec Hemax fused in
  let u := bpow radix2 (- prec) in let g := / (1 - u) in let eta := bpow radix2 (3 - emax - prec) in
  let reals := map (@B2R prec emax) in
  let real (p : @prow (binary_float prec emax)) := (reals (fst p), B2R (snd p)) in
  let lanes := match e_simd E with Some b => b | None => 1%nat end in
  let n := length (t_codes t) in let B := B2R (t_box t) in let e2 := B2R eps * B2R eps in
  let large (a : node (props (binary_float prec emax))) := B2R theta * bpow radix2 (Z.of_N (n_level a)) * bpow radix2 (3 - k) <= B in
  forall (HE : env_ok E) (HK : benign_shift K) (HX : rsqrt_ok prec emax k K) (Ht : reachable O E t) (Hroom : room E t) (Hwarp : (0 < g_warp gp)%nat) (Hcopy : copies_fresh E gp t)
    (Hord : reorders ord) (Horder : reorders order) (Hout : out_ok n (nvecs_res E q) out)
    (HQ : forall l, (l < n)%nat -> row (t_parts t) l (fst (Q l) ++ [snd (Q l)]))
    (Hbf : is_finite (t_box t) = true) (Hbox : bpow radix2 (3 - k) <= B <= bpow radix2 (k - 3))
    (Hth : is_finite theta = true) (Htheta : bpow radix2 (- k) <= B2R theta <= bpow radix2 k) (Hratio : B <= B2R theta * bpow radix2 (k - 3))
    (Hmass : forall l, (l < n)%nat -> is_finite (snd (Q l)) = true /\ (B2R (snd (Q l)) = 0 \/ bpow radix2 (1 - k) <= B2R (snd (Q l))))
    (Htotal : rsum (fun l => B2R (snd (Q l))) (seq 0 n) <= bpow radix2 (k - 1))
    (HG : is_finite G = true /\ Rabs (B2R G) <= bpow radix2 k)
    (Heps : is_finite eps = true /\ (B2R eps = 0 \/ bpow radix2 (- k) <= B2R eps <= bpow radix2 k))
    (Hsoft : bpow radix2 (- k) <= B2R eps \/ forall a, In a (t_nodes t) -> large a)
    (Hapart : forall i l, (i < n)%nat -> (l < n)%nat -> i <> l -> bpow radix2 (- (2 * k)) <= sep2 (fst (real (Q l))) (fst (real (Q i))) + e2)
    (Hfew : (2 * Z.of_nat (n + lanes) + 56 <= 2 ^ (prec - 1))%Z)
    (Hcall : hetero_dispatch O OD npF E K gp ord order ordered q t theta G eps split out = Ok out'),
  out_ok n (nvecs_res E q) out' /\
  forall i, (i < n)%nat -> exists A Dl,
    Permutation (i :: Dl ++ flat_map (fun a => seq (n_begin a) (n_end a - n_begin a)) A) (seq 0 n) /\
    (forall a, In a A -> In a (t_nodes t) /\
      (large a ->
        let s := B / bpow radix2 (Z.of_N (n_level a)) in let com := reals (p_com (n_props a)) in let d := distance com (fst (real (Q i))) in
        match e_mac E with
        | Bh => s <= B2R theta * (g ^ 11 * d)
        | BhGeom => exists centre, get_node_centre Rops (e_cfg E) (n_code a) B = Ok centre /\ s <= B2R theta * (g ^ 15 * d - distance com centre + 32 * u * B)
        end)) /\
    forall j, (j < nvecs_res E q)%nat ->
      let T p := B2R G * pull (dim (e_cfg E)) q e2 j (real (Q i)) (real p) in
      let L := map Q Dl ++ map (fun a => (p_com (n_props a), p_mass (n_props a))) A in
      exists v, nth_error (nth j out' []) (dst ordered t i) = Some v /\ is_finite v = true /\
        Rabs (B2R v - rsum T L) <= (g ^ (n + lanes + 54) - 1) * rsum (fun p => Rabs (T p)) L + (INR (n + lanes) * Rabs (B2R G) + 1) * eta * g ^ (n + lanes + 54).
Proof.
  intros D OD npF gp prec emax k Hprec Hemax fused Hprec8 Hemax64 Hk5 Hk4 E K ord order ordered q t Q theta G eps split out out' O u g eta reals real lanes n B e2 large
    HE HK HX Ht Hroom Hwarp Hcopy Hord Horder Hout HQ Hbf Hbox Hth Htheta Hratio Hmass Htotal HG Heps Hsoft Hapart Hfew Hcall.
  exact (heteros_F prec emax Hprec Hemax fused Hprec8 k Hk5 Hk4 Hemax64 E HE K HK HX t Q (reachable_inv O E HE t Ht) HQ Hbf Hbox Hmass Htotal Hfew theta G eps Hth Htheta Hratio HG Heps Hsoft Hapart
    OD npF gp ord order ordered q split out out' Hwarp Ht Hroom Hcopy Hord Horder Hout Hcall).
Qed.
Print Assumptions C72_split_rounding.

(** The results are as close to the exact sums over all the other particles as those of the CPU (C71), with the same bounds. *)
Theorem C72_split_total_error :
  forall (D : Type) (OD : fops D) (npF : N -> D) (gp : gpu) (prec emax k : Z) (Hprec : Prec_gt_0 prec) (Hemax : Prec_lt_emax prec emax) (fused : bool)
    (Hprec8 : (8 <= prec)%Z) (Hemax64 : (64 <= emax)%Z) (Hk5 : (5 * k + 16 <= emax)%Z) (Hk4 : (prec + 4 * k + 4 <= emax)%Z)
    (E : env) (K : platform (binary_float prec emax)) (ord : list cnode -> list cnode) (order : list (@task (binary_float prec emax)) -> list (@task (binary_float prec emax))) (ordered : bool) (q : quant)
    (t : @tree (binary_float prec emax)) (Q : nat -> @prow (binary_float prec emax))
    (theta G eps : binary_float prec emax) (zeta : R) (split : list D) (out out' : list (list (binary_float prec emax))),
  let O := Bops prec emax Hprec Hemax fused in
  let u := bpow radix2 (- prec) in let eta := bpow radix2 (3 - emax - prec) in
  let real (p : @prow (binary_float prec emax)) := (map (@B2R prec emax) (fst p), B2R (snd p)) in
  let lanes := match e_simd E with Some b => b | None => 1%nat end in
  let n := length (t_codes t) in let N := INR (n + lanes) in let B := B2R (t_box t) in let e2 := B2R eps * B2R eps in
  let kp := B2R theta * sqrt (INR (dim (e_cfg E))) * (1 + 4 * zeta) in
  forall (HE : env_ok E) (HK : benign_shift K) (HX : rsqrt_ok prec emax k K) (Ht : reachable O E t) (Hroom : room E t) (Hwarp : (0 < g_warp gp)%nat) (Hcopy : copies_fresh E gp t)
    (Hord : reorders ord) (Horder : reorders order) (Hout : out_ok n (nvecs_res E q) out)
    (HQ : forall l, (l < n)%nat -> row (t_parts t) l (fst (Q l) ++ [snd (Q l)]))
    (Hbf : is_finite (t_box t) = true) (Hbox : bpow radix2 (3 - k) <= B <= bpow radix2 (k - 3))
    (Hth : is_finite theta = true) (Htheta : bpow radix2 (- k) <= B2R theta <= bpow radix2 k) (Hratio : B <= B2R theta * bpow radix2 (k - 3))
    (Hmass : forall l, (l < n)%nat -> is_finite (snd (Q l)) = true /\ (B2R (snd (Q l)) = 0 \/ bpow radix2 (1 - k) <= B2R (snd (Q l))))
    (Htotal : rsum (fun l => B2R (snd (Q l))) (seq 0 n) <= bpow radix2 (k - 1))
    (HG : is_finite G = true /\ Rabs (B2R G) <= bpow radix2 k)
    (Heps : is_finite eps = true /\ (B2R eps = 0 \/ bpow radix2 (- k) <= B2R eps <= bpow radix2 k))
    (Hlarge : forall a, In a (t_nodes t) -> B2R theta * bpow radix2 (Z.of_N (n_level a)) * bpow radix2 (3 - k) <= B)
    (Hapart : forall i l, (i < n)%nat -> (l < n)%nat -> i <> l -> bpow radix2 (- (2 * k)) <= sep2 (fst (real (Q l))) (fst (real (Q i))) + e2)
    (Hfew : (2 * Z.of_nat (n + lanes) + 56 <= 2 ^ (prec - 1))%Z)
    (Hzeta : zeta <= 1 / 4) (Hlevels : forall a, In a (t_nodes t) -> 4 * (N + 27) * u * bpow radix2 (Z.of_N (n_level a)) <= zeta)
    (Htheta3 : B2R theta <= 3)
    (Hcall : hetero_dispatch O OD npF E K gp ord order ordered q t theta G eps split out = Ok out'),
  out_ok n (nvecs_res E q) out' /\
    forall i j, (i < n)%nat -> (j < nvecs_res E q)%nat ->
      let d := rsum (fun l => pull (dim (e_cfg E)) q e2 j (real (Q i)) (real (Q l))) (others 0 n i) in
      exists v, nth_error (nth j out' []) (dst ordered t i) = Some v /\ is_finite v = true /\
        (is_acc (dim (e_cfg E)) q j = false ->
          Rabs (B2R v - B2R G * d) <= (kp * kp * (3 + kp) / 2 + 2 * (1 + kp) ^ 2 * zeta) * Rabs (B2R G * d) + 2 * (N * Rabs (B2R G) + 1) * eta) /\
        (is_acc (dim (e_cfg E)) q j = true -> kp < 1 ->
          Rabs (B2R v - B2R G * d) <=
            (kp * kp * (3 / 2 * ((1 + kp) * (1 + kp)) + 4 * (1 + kp) + 3 + 2 / (1 - kp)) + (1 + kp) ^ 2 * (2 + 6 * kp) * zeta) *
              (Rabs (B2R G) * rsum (fun l => snd (real (Q l)) / (sep2 (fst (real (Q l))) (fst (real (Q i))) + e2)) (others 0 n i))
            + 2 * (N * Rabs (B2R G) + 1) * eta).
Proof.
  intros D OD npF gp prec emax k Hprec Hemax fused Hprec8 Hemax64 Hk5 Hk4 E K ord order ordered q t Q theta G eps zeta split out out' O u eta real lanes n N B e2 kp
    HE HK HX Ht Hroom Hwarp Hcopy Hord Horder Hout HQ Hbf Hbox Hth Htheta Hratio Hmass Htotal HG Heps Hlarge Hapart Hfew Hzeta Hlevels Htheta3 Hcall.
  exact (hetero_total prec emax Hprec Hemax fused Hprec8 k Hk5 Hk4 Hemax64 E HE K HK HX t Q (reachable_inv O E HE t Ht) HQ Hbf Hbox Hmass Htotal Hfew theta G eps Hth Htheta Hratio HG Heps Hlarge Hapart
    zeta Hzeta Hlevels Htheta3 OD npF gp ord order ordered q split out out' Hwarp Ht Hroom Hcopy Hord Horder Hout Hcall).
Qed.
Print Assumptions C72_split_total_error.

(** Six particles in single precision, half of them on a ROCm device; theta = 1/4, G = 1, no softening: the computed potentials are within 45 % of the exact ones. *)
Example C72_ex :
  let real (p : @prow (binary_float 24 128)) := (map (@B2R 24 128) (fst p), B2R (snd p)) in
  exists out', hetero_dispatch exFO ODx np_float (exrE Bh) (exFK false) ex_rocm (fun l => l) (fun l => l) true QBoth exr_tree (F32 1 (-2)) (F32 1 0) (F32 0 0) exr_split exr_out = Ok out' /\
  forall i, (i < 6)%nat -> let d := rsum (fun l => pull 3 QBoth 0 3 (real (exF_part (Some 2%nat) i)) (real (exF_part (Some 2%nat) l))) (others 0 6 i) in
    exists v, nth_error (nth 3 out' []) (dst true exr_tree i) = Some v /\ is_finite v = true /\ Rabs (B2R v - d) <= 45 / 100 * Rabs d + bpow radix2 (-144).
Proof.
  intros real. destruct exr_reachable as (R & VF & RM' & L & _).
  pose proof exr14_ok as CL. unfold exr14_run in CL.
  assert (TB : t_box exr_tree = F32 1 0).
  { apply B2SF_inj. vm_compute. reflexivity. }
  assert (LV : forall a, In a (t_nodes exr_tree) -> (n_level a <= 10)%N).
  { intros a Ha. assert (X : forallb (fun a => (n_level a <=? 10)%N) (t_nodes exr_tree) = true) by (vm_compute; reflexivity). rewrite forallb_forall in X. apply N.leb_le, X, Ha. }
  destruct theta14 as [T1 T2]. destruct zero0 as [Z1 Z2]. destruct box1 as [B1 B2].
  assert (P0 : bpow radix2 (-17) = / 131072) by reflexivity. assert (P1 : bpow radix2 17 = 131072) by reflexivity. assert (P2 : bpow radix2 20 = 1048576) by reflexivity.
  assert (P3 : bpow radix2 (-20) = / 1048576) by reflexivity. assert (P4 : bpow radix2 (-19) = / 524288) by reflexivity. assert (P5 : bpow radix2 19 = 524288) by reflexivity.
  pose proof exr_parts as HQ. pose proof exF_unit as HU. pose proof exF_apart as HA.
  assert (BM : benign_shift (exFK false)) by apply masked_benign.
  assert (RM : rsqrt_ok 24 128 20 (exFK false)) by (intros f X; discriminate).
  assert (SQ : 1 <= sqrt (INR 3) <= 1.74).
  { split; [rewrite <- sqrt_1; apply sqrt_le_1_alt; cbn [INR]; lra|]. rewrite <- (sqrt_square 1.74) by lra. apply sqrt_le_1_alt. cbn [INR]. lra. }
  revert R VF RM' L CL TB LV HQ HU HA. unfold exr_out. generalize (exF_part (Some 2%nat)). generalize exr_tree. intros t Q R VF RM' L CL TB LV HQ HU HA.
  revert CL T1 T2 Z1 Z2 B1 B2 TB. generalize (F32 1 (-2)) (F32 0 0) (F32 1 0). intros th z one CL T1 T2 Z1 Z2 B1 B2 TB.
  destruct CL as (out' & E1).
  destruct (C72_split_total_error _ ODx np_float ex_rocm 24 128 20 prec32 emax32 true ltac:(lia) ltac:(lia) ltac:(lia) ltac:(lia) (exrE Bh) (exFK false) (fun l => l) (fun l => l) true QBoth t Q
    th one z (1 / 100) exr_split (repeat (repeat z 6) 4) out' (exrE_ok Bh)) as (_ & V); try rewrite L; try rewrite TB; rewrite ?B2, ?T2, ?Z2.
  - exact BM.
  - exact RM.
  - exact R.
  - exact RM'.
  - cbn. lia.
  - intros _. exact VF.
  - intros l. apply Permutation_refl.
  - intros l. apply Permutation_refl.
  - split; [reflexivity|]. repeat constructor.
  - intros l Hl. now apply HQ.
  - exact B1.
  - change (3 - 20)%Z with (-17)%Z. change (20 - 3)%Z with 17%Z. lra.
  - exact T1.
  - change (- (20))%Z with (-20)%Z. lra.
  - change (20 - 3)%Z with 17%Z. lra.
  - intros l Hl. destruct (HQ l Hl) as (_ & _ & F & _). split; [exact F|]. right. destruct (HU l Hl) as [M _]. change (1 - 20)%Z with (-19)%Z. lra.
  - apply Rle_trans with (rsum (fun _ : nat => 2) (seq 0 6)); [apply rsum_le; intros l Hl; apply in_seq in Hl; apply HU; lia|]. rewrite rsum_const. cbn [length seq INR]. change (20 - 1)%Z with 19%Z. lra.
  - split; [exact B1|]. rewrite Rabs_R1. lra.
  - split; [exact Z1|now left].
  - intros a Ha. specialize (LV a Ha). assert (bpow radix2 (Z.of_N (n_level a)) <= bpow radix2 10) by (apply bpow_le; lia). change (bpow radix2 10) with 1024 in *. change (3 - 20)%Z with (-17)%Z.
    pose proof (bpow_gt_0 radix2 (Z.of_N (n_level a))). rewrite P0. nra.
  - intros i l Hi Hl Hil. pose proof (HA i l Hi Hl Hil) as X. cbn [fst] in *. assert (bpow radix2 (- (2 * 20)) <= bpow radix2 (-10)) by (apply bpow_le; lia). change (bpow radix2 (-10)) with (/ 1024) in *. lra.
  - vm_compute. discriminate.
  - lra.
  - intros a Ha. specialize (LV a Ha). assert (bpow radix2 (Z.of_N (n_level a)) <= bpow radix2 10) by (apply bpow_le; lia). change (bpow radix2 10) with 1024 in *.
    pose proof (bpow_gt_0 radix2 (Z.of_N (n_level a))). change (bpow radix2 (- (24))) with (/ 16777216). cbn [e_simd exrE Nat.add INR]. lra.
  - lra.
  - exact E1.
  - exists out'. split; [exact E1|]. intros i Hi. set (d := rsum (fun l => pull 3 QBoth 0 3 (real (Q i)) (real (Q l))) (others 0 6 i)). rewrite L in V. destruct (V i 3%nat Hi ltac:(cbn; lia)) as (v & V1 & V2 & V3 & _). exists v. split; [exact V1|]. split; [exact V2|].
    specialize (V3 eq_refl). rewrite B2, T2, Z2, Rabs_R1, !Rmult_1_l, !Rmult_1_r, Rmult_0_l in V3. change (dim (e_cfg (exrE Bh))) with 3%nat in V3. fold real in V3.
    change (rsum (fun l => pull 3 QBoth 0 3 (real (Q i)) (real (Q l))) (others 0 6 i)) with d in V3. eapply Rle_trans; [exact V3|].
    set (kp := 1 / 4 * sqrt (INR 3) * (1 + 4 * (1 / 100))). assert (KP : 0 <= kp <= 46 / 100) by (unfold kp; lra).
    apply Rplus_le_compat.
    + apply Rmult_le_compat_r; [apply Rabs_pos|]. clearbody kp. assert (kp * kp <= 46 / 100 * (46 / 100)) by (apply Rmult_le_compat; lra). assert (0 <= kp * kp) by nra. nra.
    + change (3 - 128 - 24)%Z with (-149)%Z. replace (bpow radix2 (-144)) with (32 * bpow radix2 (-149)) by (change 32 with (bpow radix2 5); rewrite <- bpow_plus; reflexivity).
      apply Rmult_le_compat_r; [apply bpow_ge_0|]. cbn [e_simd exrE Nat.add INR]. lra.
Qed.
