(** Property C70: rounding errors of the accelerations and potentials.
    Notation as in C69: [B2R] is the real value of a floating-point number, [u] the relative error of one operation, [g] is 1 / (1 - u), [eta] the smallest positive number;
    [pull] is the exact interaction of a particle with a point mass.
    [rsqrt_ok] is the assumption on the vectorised reciprocal square root before its correction by one step: for arguments between 2^(-2k-1) and 2^(2k+5) its square error
    (f(x) sqrt(x) - 1)^2 is at most 2^(2-prec). *)
From Coq Require Import List Arith ZArith NArith Reals Bool Lra Lia Permutation.
From Flocq Require Import Core BinarySingleNaN.
From Verif Require Import Base Config Morton Build TreeSpec FOps FOpsProofs Disc NodeProps NodesR Tree TreeInv TreeProofs TreeSafe TreeEx RSum Kernels KernR TravProofs Force ForceOut ForceTop ForceEx
  RoundEx RoundExact RoundRsqrt RoundForce.
Import ListNotations.
Local Open Scope R_scope.

(** C70. Data of moderate size: the box, theta, the masses, G, eps, the total mass and the softened distances are between about 2^-k and 2^k (the masses and eps may be zero).
    The particles of a critical node [cn] are attracted by the others in [cn], by the particles [Dl] and by the nodes [A]; nothing is left out or counted twice.
    The nodes of [A] meet the criterion of the code up to a few rounding errors, unless they are extremely small.
    Each result is the exact sum of these interactions up to the errors of a sum of this length. *)
Theorem C70_forces_rounding :
  forall (D : Type) (OD : fops D) (prec emax k : Z) (Hprec : Prec_gt_0 prec) (Hemax : Prec_lt_emax prec emax) (fused : bool)
    (Hprec8 : (8 <= prec)%Z) (Hemax64 : (64 <= emax)%Z) (Hk5 : (5 * k + 16 <= emax)%Z) (Hk4 : (prec + 4 * k + 4 <= emax)%Z)
    (E : env) (K : platform (binary_float prec emax)) (ord : list cnode -> list cnode) (ordered : bool) (q : quant)
    (t : @tree (binary_float prec emax)) (Q : nat -> @prow (binary_float prec emax))
    (theta G eps : binary_float prec emax) (split : list D) (out : list (list (binary_float prec emax))),
  let O := Bops prec emax Hprec Hemax fused in
  let u := bpow radix2 (- prec) in let g := / (1 - u) in let eta := bpow radix2 (3 - emax - prec) in
  let reals := map (@B2R prec emax) in
  let real (p : @prow (binary_float prec emax)) := (reals (fst p), B2R (snd p)) in
  let lanes := match e_simd E with Some b => b | None => 1%nat end in
  let n := length (t_codes t) in let B := B2R (t_box t) in let e2 := B2R eps * B2R eps in
  let large (a : node (props (binary_float prec emax))) := B2R theta * bpow radix2 (Z.of_N (n_level a)) * bpow radix2 (3 - k) <= B in
  forall (HE : env_ok E) (HK : benign_shift K) (HX : rsqrt_ok prec emax k K) (Ht : reachable O E t) (Hroom : room E t) (Hord : reorders ord)
    (Hsplit : check_split OD split = Ok tt) (Hcpu : (length split <= 1)%nat) (Hout : out_ok n (nvecs_res E q) out)
    (HQ : forall l, (l < n)%nat -> row (t_parts t) l (fst (Q l) ++ [snd (Q l)]))
    (Hbf : is_finite (t_box t) = true) (Hbox : bpow radix2 (3 - k) <= B <= bpow radix2 (k - 3))
    (Hth : is_finite theta = true) (Htheta : bpow radix2 (- k) <= B2R theta <= bpow radix2 k) (Hratio : B <= B2R theta * bpow radix2 (k - 3))
    (Hmass : forall l, (l < n)%nat -> is_finite (snd (Q l)) = true /\ (B2R (snd (Q l)) = 0 \/ bpow radix2 (1 - k) <= B2R (snd (Q l))))
    (Htotal : rsum (fun l => B2R (snd (Q l))) (seq 0 n) <= bpow radix2 (k - 1))
    (HG : is_finite G = true /\ Rabs (B2R G) <= bpow radix2 k)
    (Heps : is_finite eps = true /\ (B2R eps = 0 \/ bpow radix2 (- k) <= B2R eps <= bpow radix2 k))
    (Hsoft : bpow radix2 (- k) <= B2R eps \/ forall a, In a (t_nodes t) -> large a)
    (Hapart : forall i l, (i < n)%nat -> (l < n)%nat -> i <> l -> bpow radix2 (- (2 * k)) <= sep2 (fst (real (Q l))) (fst (real (Q i))) + e2)
    (Hfew : (2 * Z.of_nat (n + lanes) + 56 <= 2 ^ (prec - 1))%Z),
  exists out', acc_pot_dispatch O OD E K ord ordered q t theta G eps split out = Ok out' /\ out_ok n (nvecs_res E q) out' /\
    forall cn, In cn (t_crit t) -> exists A Dl,
      let own := seq (c_begin cn) (c_end cn - c_begin cn) in
      Permutation (own ++ Dl ++ flat_map (fun a => seq (n_begin a) (n_end a - n_begin a)) A) (seq 0 n) /\
      (forall a, In a A -> In a (t_nodes t) /\
        forall i, In i own -> large a ->
          let s := B / bpow radix2 (Z.of_N (n_level a)) in let com := reals (p_com (n_props a)) in let d := distance com (fst (real (Q i))) in
          match e_mac E with
          | Bh => s <= B2R theta * (g ^ 11 * d)
          | BhGeom => exists centre, get_node_centre Rops (e_cfg E) (n_code a) B = Ok centre /\ s <= B2R theta * (g ^ 15 * d - distance com centre + 32 * u * B)
          end) /\
      forall i j, In i own -> (j < nvecs_res E q)%nat ->
        let T p := B2R G * pull (dim (e_cfg E)) q e2 j (real (Q i)) (real p) in
        let L := map Q (filter (fun l => negb (l =? i)%nat) own ++ Dl) ++ map (fun a => (p_com (n_props a), p_mass (n_props a))) A in
        exists v, nth_error (nth j out' []) (dst ordered t i) = Some v /\ is_finite v = true /\
          Rabs (B2R v - rsum T L) <= (g ^ (n + lanes + 54) - 1) * rsum (fun p => Rabs (T p)) L + (INR (n + lanes) * Rabs (B2R G) + 1) * eta * g ^ (n + lanes + 54).
Proof.
  intros D OD prec emax k Hprec Hemax fused Hprec8 Hemax64 Hk5 Hk4 E K ord ordered q t Q theta G eps split out O u g eta reals real lanes n B e2 large
    HE HK HX Ht Hroom Hord Hsplit Hcpu Hout HQ Hbf Hbox Hth Htheta Hratio Hmass Htotal HG Heps Hsoft Hapart Hfew.
  exact (forces_F prec emax Hprec Hemax fused Hprec8 k Hk5 Hk4 Hemax64 E HE K HK HX t Q (reachable_inv O E HE t Ht) HQ Hbf Hbox Hmass Htotal Hfew theta G eps Hth Htheta Hratio HG Heps Hsoft Hapart
    OD ord ordered q split out Ht Hroom Hord Hsplit Hcpu Hout).
Qed.
Print Assumptions C70_forces_rounding.

(** Six particles in single precision, k = 20, theta = 3/4, G = 1, no softening; the reciprocal square root of the platform is the rounded value of 1 / sqrt x. *)
Example C70_ex :
  let K := mkPlatform (Some (fun x => fdiv exFO (fofZ exFO 1%Z) (fsqrt exFO x))) (masked_shift 64) in
  exists out', acc_pot_dispatch exFO exFD (ex3E Bh (Some 2%nat)) K (@rev cnode) true QBoth (exF_tree (Some 2%nat)) (F32 3 (-2)) (F32 1 0) (F32 0 0) [] (repeat (repeat (F32 0 0) 6) 4) = Ok out' /\
  forall cn i j, In cn (t_crit (exF_tree (Some 2%nat))) -> In i (seq (c_begin cn) (c_end cn - c_begin cn)) -> (j < 4)%nat ->
    exists v, nth_error (nth j out' []) (dst true (exF_tree (Some 2%nat)) i) = Some v /\ is_finite v = true.
Proof.
  intros K. destruct (exF_reachable (Some 2%nat) (or_intror eq_refl)) as (R & L & _).
  assert (TB : t_box (exF_tree (Some 2%nat)) = F32 1 0).
  { apply B2SF_inj. vm_compute. reflexivity. }
  assert (LV : forall a, In a (t_nodes (exF_tree (Some 2%nat))) -> (n_level a <= 10)%N).
  { intros a Ha. assert (X : forallb (fun a => (n_level a <=? 10)%N) (t_nodes (exF_tree (Some 2%nat))) = true) by (vm_compute; reflexivity). rewrite forallb_forall in X. apply N.leb_le, X, Ha. }
  destruct theta34 as [T1 T2]. destruct zero0 as [Z1 Z2]. destruct box1 as [B1 B2].
  assert (P0 : bpow radix2 (-17) = / 131072) by reflexivity. assert (P1 : bpow radix2 17 = 131072) by reflexivity. assert (P2 : bpow radix2 20 = 1048576) by reflexivity.
  assert (P3 : bpow radix2 (-20) = / 1048576) by reflexivity. assert (P4 : bpow radix2 (-19) = / 524288) by reflexivity. assert (P5 : bpow radix2 19 = 524288) by reflexivity.
  pose proof exF_parts as HQ. pose proof exF_unit as HU. pose proof exF_apart as HA.
  assert (BM : benign_shift K) by apply masked_benign.
  assert (RM : rsqrt_ok 24 128 20 K) by apply (rsqrt_rounded 24 128 prec32 emax32 true ltac:(lia) 20 ltac:(lia) ltac:(lia)).
  revert R L TB LV HQ HU HA. generalize (exF_part (Some 2%nat)). generalize (exF_tree (Some 2%nat)). intros t Q R L TB LV HQ HU HA. clearbody K.
  revert T1 T2 Z1 Z2 B1 B2 TB. generalize (F32 3 (-2)) (F32 0 0) (F32 1 0). intros th z one T1 T2 Z1 Z2 B1 B2 TB.
  destruct (C70_forces_rounding _ exFD 24 128 20 prec32 emax32 true ltac:(lia) ltac:(lia) ltac:(lia) ltac:(lia) (ex3E Bh (Some 2%nat)) K (@rev cnode) true QBoth t Q
    th one z [] (repeat (repeat z 6) 4) (ex3E_ok Bh 2 ltac:(lia))) as (out' & E1 & _ & V); try rewrite L; try rewrite TB; rewrite ?B2, ?T2, ?Z2.
  - exact BM.
  - exact RM.
  - exact R.
  - unfold room. rewrite L. vm_compute. discriminate.
  - intros l. apply Permutation_sym, Permutation_rev.
  - reflexivity.
  - cbn. lia.
  - split; [reflexivity|]. repeat constructor.
  - intros l Hl. now apply HQ.
  - exact B1.
  - change (3 - 20)%Z with (-17)%Z. change (20 - 3)%Z with 17%Z. lra.
  - exact T1.
  - change (- (20))%Z with (-20)%Z. lra.
  - change (20 - 3)%Z with 17%Z. lra.
  - intros l Hl. destruct (HQ l Hl) as (_ & _ & F & _). split; [exact F|]. right. destruct (HU l Hl) as [M _]. change (1 - 20)%Z with (-19)%Z. lra.
  - apply Rle_trans with (rsum (fun _ : nat => 2) (seq 0 6)); [apply rsum_le; intros l Hl; apply in_seq in Hl; apply HU; lia|]. rewrite rsum_const. cbn [length seq INR]. change (20 - 1)%Z with 19%Z. lra.
  - split; [exact B1|]. rewrite Rabs_R1. lra.
  - split; [exact Z1|now left].
  - right. intros a Ha. specialize (LV a Ha). assert (bpow radix2 (Z.of_N (n_level a)) <= bpow radix2 10) by (apply bpow_le; lia). change (bpow radix2 10) with 1024 in *. change (3 - 20)%Z with (-17)%Z.
    pose proof (bpow_gt_0 radix2 (Z.of_N (n_level a))). rewrite P0. nra.
  - intros i l Hi Hl Hil. pose proof (HA i l Hi Hl Hil) as X. cbn [fst] in *. assert (bpow radix2 (- (2 * 20)) <= bpow radix2 (-10)) by (apply bpow_le; lia). change (bpow radix2 (-10)) with (/ 1024) in *. lra.
  - vm_compute. discriminate.
  - exists out'. split; [exact E1|]. intros cn i j Hcn Hi Hj. destruct (V cn Hcn) as (A & Dl & _ & _ & W). destruct (W i j Hi Hj) as (v & V1 & V2 & _). exists v. exact (conj V1 V2).
Qed.
