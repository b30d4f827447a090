(** Property C71: errors of the accelerations and potentials computed in floating point, relative to the exact direct sums.
    Notation as in C70. [pull] is the exact contribution of a particle to the component [j] of the result of another one;
    [others 0 n i] are the indices of all the particles but [i]. *)
From Coq Require Import List Arith ZArith NArith Reals Bool Lra Lia Permutation.
From Flocq Require Import Core BinarySingleNaN.
From Verif Require Import Base Config Morton Build TreeSpec FOps FOpsProofs Disc NodeProps NodesR Tree TreeInv TreeProofs TreeSafe TreeEx RSum Kernels KernR TravProofs Force ForceOut ForceTop ForceRTop ForceEx
  RoundEx RoundExact RoundRsqrt RoundAll.
Import ListNotations.
Local Open Scope R_scope.

(** C71. Data of moderate size as in C70, all nodes large enough for the value of theta, and [zeta] (at most 1/4) an upper bound of the rounding errors of N + 27 operations,
    N the number of particles plus that of the lanes, relative to the sizes of the nodes.
    With kp = theta sqrt(dim) (1 + 4 zeta), less than 1 for the accelerations, each result differs from G times the exact sum over all the other particles by a term of second order in kp,
    plus a term of first order in zeta, plus the possible underflows. The potentials have this error relative to the exact potential,
    the components of the accelerations relative to the sum of the strengths of all the attractions. *)
Theorem C71_total_error :
  forall (D : Type) (OD : fops D) (prec emax k : Z) (Hprec : Prec_gt_0 prec) (Hemax : Prec_lt_emax prec emax) (fused : bool)
    (Hprec8 : (8 <= prec)%Z) (Hemax64 : (64 <= emax)%Z) (Hk5 : (5 * k + 16 <= emax)%Z) (Hk4 : (prec + 4 * k + 4 <= emax)%Z)
    (E : env) (K : platform (binary_float prec emax)) (ord : list cnode -> list cnode) (ordered : bool) (q : quant)
    (t : @tree (binary_float prec emax)) (Q : nat -> @prow (binary_float prec emax))
    (theta G eps : binary_float prec emax) (zeta : R) (split : list D) (out : list (list (binary_float prec emax))),
  let O := Bops prec emax Hprec Hemax fused in
  let u := bpow radix2 (- prec) in let eta := bpow radix2 (3 - emax - prec) in
  let real (p : @prow (binary_float prec emax)) := (map (@B2R prec emax) (fst p), B2R (snd p)) in
  let lanes := match e_simd E with Some b => b | None => 1%nat end in
  let n := length (t_codes t) in let N := INR (n + lanes) in let B := B2R (t_box t) in let e2 := B2R eps * B2R eps in
  let kp := B2R theta * sqrt (INR (dim (e_cfg E))) * (1 + 4 * zeta) in
  forall (HE : env_ok E) (HK : benign_shift K) (HX : rsqrt_ok prec emax k K) (Ht : reachable O E t) (Hroom : room E t) (Hord : reorders ord)
    (Hsplit : check_split OD split = Ok tt) (Hcpu : (length split <= 1)%nat) (Hout : out_ok n (nvecs_res E q) out)
    (HQ : forall l, (l < n)%nat -> row (t_parts t) l (fst (Q l) ++ [snd (Q l)]))
    (Hbf : is_finite (t_box t) = true) (Hbox : bpow radix2 (3 - k) <= B <= bpow radix2 (k - 3))
    (Hth : is_finite theta = true) (Htheta : bpow radix2 (- k) <= B2R theta <= bpow radix2 k) (Hratio : B <= B2R theta * bpow radix2 (k - 3))
    (Hmass : forall l, (l < n)%nat -> is_finite (snd (Q l)) = true /\ (B2R (snd (Q l)) = 0 \/ bpow radix2 (1 - k) <= B2R (snd (Q l))))
    (Htotal : rsum (fun l => B2R (snd (Q l))) (seq 0 n) <= bpow radix2 (k - 1))
    (HG : is_finite G = true /\ Rabs (B2R G) <= bpow radix2 k)
    (Heps : is_finite eps = true /\ (B2R eps = 0 \/ bpow radix2 (- k) <= B2R eps <= bpow radix2 k))
    (Hlarge : forall a, In a (t_nodes t) -> B2R theta * bpow radix2 (Z.of_N (n_level a)) * bpow radix2 (3 - k) <= B)
    (Hapart : forall i l, (i < n)%nat -> (l < n)%nat -> i <> l -> bpow radix2 (- (2 * k)) <= sep2 (fst (real (Q l))) (fst (real (Q i))) + e2)
    (Hfew : (2 * Z.of_nat (n + lanes) + 56 <= 2 ^ (prec - 1))%Z)
    (Hzeta : zeta <= 1 / 4) (Hlevels : forall a, In a (t_nodes t) -> 4 * (N + 27) * u * bpow radix2 (Z.of_N (n_level a)) <= zeta)
    (Htheta3 : B2R theta <= 3),
  exists out', acc_pot_dispatch O OD E K ord ordered q t theta G eps split out = Ok out' /\ out_ok n (nvecs_res E q) out' /\
    forall i j, (i < n)%nat -> (j < nvecs_res E q)%nat ->
      let d := rsum (fun l => pull (dim (e_cfg E)) q e2 j (real (Q i)) (real (Q l))) (others 0 n i) in
      exists v, nth_error (nth j out' []) (dst ordered t i) = Some v /\ is_finite v = true /\
        (is_acc (dim (e_cfg E)) q j = false ->
          Rabs (B2R v - B2R G * d) <= (kp * kp * (3 + kp) / 2 + 2 * (1 + kp) ^ 2 * zeta) * Rabs (B2R G * d) + 2 * (N * Rabs (B2R G) + 1) * eta) /\
        (is_acc (dim (e_cfg E)) q j = true -> kp < 1 ->
          Rabs (B2R v - B2R G * d) <=
            (kp * kp * (3 / 2 * ((1 + kp) * (1 + kp)) + 4 * (1 + kp) + 3 + 2 / (1 - kp)) + (1 + kp) ^ 2 * (2 + 6 * kp) * zeta) *
              (Rabs (B2R G) * rsum (fun l => snd (real (Q l)) / (sep2 (fst (real (Q l))) (fst (real (Q i))) + e2)) (others 0 n i))
            + 2 * (N * Rabs (B2R G) + 1) * eta).
Proof.
  intros D OD prec emax k Hprec Hemax fused Hprec8 Hemax64 Hk5 Hk4 E K ord ordered q t Q theta G eps zeta split out O u eta real lanes n N B e2 kp
    HE HK HX Ht Hroom Hord Hsplit Hcpu Hout HQ Hbf Hbox Hth Htheta Hratio Hmass Htotal HG Heps Hlarge Hapart Hfew Hzeta Hlevels Htheta3.
  exact (total_F prec emax Hprec Hemax fused Hprec8 k Hk5 Hk4 Hemax64 E HE K HK HX t Q (reachable_inv O E HE t Ht) HQ Hbf Hbox Hmass Htotal Hfew theta G eps Hth Htheta Hratio HG Heps Hlarge Hapart
    zeta Hzeta Hlevels Htheta3 OD ord ordered q split out Ht Hroom Hord Hsplit Hcpu Hout).
Qed.
Print Assumptions C71_total_error.

(** Six particles in single precision, theta = 1/4, G = 1, no softening: the computed potentials are within 45 % of the exact ones. *)
Example C71_ex :
  let K := mkPlatform (Some (fun x => fdiv exFO (fofZ exFO 1%Z) (fsqrt exFO x))) (masked_shift 64) in
  let real (p : @prow (binary_float 24 128)) := (map (@B2R 24 128) (fst p), B2R (snd p)) in
  exists out', acc_pot_dispatch exFO exFD (ex3E Bh (Some 2%nat)) K (@rev cnode) true QBoth (exF_tree (Some 2%nat)) (F32 1 (-2)) (F32 1 0) (F32 0 0) [] (repeat (repeat (F32 0 0) 6) 4) = Ok out' /\
  forall i, (i < 6)%nat -> let d := rsum (fun l => pull 3 QBoth 0 3 (real (exF_part (Some 2%nat) i)) (real (exF_part (Some 2%nat) l))) (others 0 6 i) in
    exists v, nth_error (nth 3 out' []) (dst true (exF_tree (Some 2%nat)) i) = Some v /\ is_finite v = true /\ Rabs (B2R v - d) <= 45 / 100 * Rabs d + bpow radix2 (-144).
Proof.
  intros K real. destruct (exF_reachable (Some 2%nat) (or_intror eq_refl)) as (R & L & _).
  assert (TB : t_box (exF_tree (Some 2%nat)) = F32 1 0).
  { apply B2SF_inj. vm_compute. reflexivity. }
  assert (LV : forall a, In a (t_nodes (exF_tree (Some 2%nat))) -> (n_level a <= 10)%N).
  { intros a Ha. assert (X : forallb (fun a => (n_level a <=? 10)%N) (t_nodes (exF_tree (Some 2%nat))) = true) by (vm_compute; reflexivity). rewrite forallb_forall in X. apply N.leb_le, X, Ha. }
  destruct theta14 as [T1 T2]. destruct zero0 as [Z1 Z2]. destruct box1 as [B1 B2].
  assert (P0 : bpow radix2 (-17) = / 131072) by reflexivity. assert (P1 : bpow radix2 17 = 131072) by reflexivity. assert (P2 : bpow radix2 20 = 1048576) by reflexivity.
  assert (P3 : bpow radix2 (-20) = / 1048576) by reflexivity. assert (P4 : bpow radix2 (-19) = / 524288) by reflexivity. assert (P5 : bpow radix2 19 = 524288) by reflexivity.
  pose proof exF_parts as HQ. pose proof exF_unit as HU. pose proof exF_apart as HA.
  assert (BM : benign_shift K) by apply masked_benign.
  assert (RM : rsqrt_ok 24 128 20 K) by apply (rsqrt_rounded 24 128 prec32 emax32 true ltac:(lia) 20 ltac:(lia) ltac:(lia)).
  assert (SQ : 1 <= sqrt (INR 3) <= 1.74).
  { split; [rewrite <- sqrt_1; apply sqrt_le_1_alt; cbn [INR]; lra|]. rewrite <- (sqrt_square 1.74) by lra. apply sqrt_le_1_alt. cbn [INR]. lra. }
  revert R L TB LV HQ HU HA. generalize (exF_part (Some 2%nat)). generalize (exF_tree (Some 2%nat)). intros t Q R L TB LV HQ HU HA. clearbody K.
  revert T1 T2 Z1 Z2 B1 B2 TB. generalize (F32 1 (-2)) (F32 0 0) (F32 1 0). intros th z one T1 T2 Z1 Z2 B1 B2 TB.
  destruct (C71_total_error _ exFD 24 128 20 prec32 emax32 true ltac:(lia) ltac:(lia) ltac:(lia) ltac:(lia) (ex3E Bh (Some 2%nat)) K (@rev cnode) true QBoth t Q
    th one z (1 / 100) [] (repeat (repeat z 6) 4) (ex3E_ok Bh 2 ltac:(lia))) as (out' & E1 & _ & V); try rewrite L; try rewrite TB; rewrite ?B2, ?T2, ?Z2.
  - exact BM.
  - exact RM.
  - exact R.
  - unfold room. rewrite L. vm_compute. discriminate.
  - intros l. apply Permutation_sym, Permutation_rev.
  - reflexivity.
  - cbn. lia.
  - split; [reflexivity|]. repeat constructor.
  - intros l Hl. now apply HQ.
  - exact B1.
  - change (3 - 20)%Z with (-17)%Z. change (20 - 3)%Z with 17%Z. lra.
  - exact T1.
  - change (- (20))%Z with (-20)%Z. lra.
  - change (20 - 3)%Z with 17%Z. lra.
  - intros l Hl. destruct (HQ l Hl) as (_ & _ & F & _). split; [exact F|]. right. destruct (HU l Hl) as [M _]. change (1 - 20)%Z with (-19)%Z. lra.
  - apply Rle_trans with (rsum (fun _ : nat => 2) (seq 0 6)); [apply rsum_le; intros l Hl; apply in_seq in Hl; apply HU; lia|]. rewrite rsum_const. cbn [length seq INR]. change (20 - 1)%Z with 19%Z. lra.
  - split; [exact B1|]. rewrite Rabs_R1. lra.
  - split; [exact Z1|now left].
  - intros a Ha. specialize (LV a Ha). assert (bpow radix2 (Z.of_N (n_level a)) <= bpow radix2 10) by (apply bpow_le; lia). change (bpow radix2 10) with 1024 in *. change (3 - 20)%Z with (-17)%Z.
    pose proof (bpow_gt_0 radix2 (Z.of_N (n_level a))). rewrite P0. nra.
  - intros i l Hi Hl Hil. pose proof (HA i l Hi Hl Hil) as X. cbn [fst] in *. assert (bpow radix2 (- (2 * 20)) <= bpow radix2 (-10)) by (apply bpow_le; lia). change (bpow radix2 (-10)) with (/ 1024) in *. lra.
  - vm_compute. discriminate.
  - lra.
  - intros a Ha. specialize (LV a Ha). assert (bpow radix2 (Z.of_N (n_level a)) <= bpow radix2 10) by (apply bpow_le; lia). change (bpow radix2 10) with 1024 in *.
    pose proof (bpow_gt_0 radix2 (Z.of_N (n_level a))). change (bpow radix2 (- (24))) with (/ 16777216). cbn [e_simd ex3E Nat.add INR]. lra.
  - lra.
  - exists out'. split; [exact E1|]. intros i Hi d. rewrite L in V. destruct (V i 3%nat Hi ltac:(cbn; lia)) as (v & V1 & V2 & V3 & _). exists v. split; [exact V1|]. split; [exact V2|].
    specialize (V3 eq_refl). rewrite B2, T2, Z2, Rabs_R1, !Rmult_1_l, !Rmult_1_r, Rmult_0_l in V3. change (dim (e_cfg (ex3E Bh (Some 2%nat)))) with 3%nat in V3. fold real in V3.
    change (rsum (fun l => pull 3 QBoth 0 3 (real (Q i)) (real (Q l))) (others 0 6 i)) with d in V3. eapply Rle_trans; [exact V3|].
    set (kp := 1 / 4 * sqrt (INR 3) * (1 + 4 * (1 / 100))). assert (KP : 0 <= kp <= 46 / 100) by (unfold kp; lra).
    apply Rplus_le_compat.
    + apply Rmult_le_compat_r; [apply Rabs_pos|]. clearbody kp. assert (kp * kp <= 46 / 100 * (46 / 100)) by (apply Rmult_le_compat; lra). assert (0 <= kp * kp) by nra. nra.
    + change (3 - 128 - 24)%Z with (-149)%Z. replace (bpow radix2 (-144)) with (32 * bpow radix2 (-149)) by (change 32 with (bpow radix2 5); rewrite <- bpow_plus; reflexivity).
      apply Rmult_le_compat_r; [apply bpow_ge_0|]. cbn [e_simd ex3E Nat.add INR]. lra.
Qed.
