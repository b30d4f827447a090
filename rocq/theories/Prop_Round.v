(** Properties C66 and C67: rounding errors of node properties, acceptance of data in floating-point arithmetic.
    C66: rounding errors of the masses and of the centres of mass of the nodes.
    [B2R] is the real value of a floating-point number; [prec] is the number of bits of the significand (24 or 53), [emax] the bound of the
    exponents (128 or 1024); [lanes_of (e_simd E)] is the number of values of a vector, 0 without vector instructions. The relative error of one operation is at
    most u = 2^-prec, and [g] is 1 / (1 - u); [eta] is the smallest positive number. *)
From Coq Require Import List Arith ZArith NArith Reals Bool Lra Lia.
From Flocq Require Import Core BinarySingleNaN.
From Verif Require Import Base Config Morton Build TreeSpec FOps FOpsProofs Disc NodeProps Tree TreeInv TreeProofs TreeSafe TreeEx RSum NodesR Kernels Force ForceGen ForceEx Round RoundNode RoundFin RoundCtor RoundEx.
Import ListNotations.
Local Open Scope R_scope.

(** C66. The mass of a node is the sum of the masses of its particles up to rounding. *)
Theorem C66_node_mass_rounding :
  forall (prec emax : Z) (Hprec : Prec_gt_0 prec) (Hemax : Prec_lt_emax prec emax) (fused : bool) (Hp2 : (2 <= prec)%Z)
    (E : env) (t : @tree (binary_float prec emax)) (nd : node (props (binary_float prec emax))),
  let O := Bops prec emax Hprec Hemax fused in
  forall (HE : env_ok E) (Ht : reachable O E t) (Hnd : In nd (t_nodes t)),
  let g := / (1 - bpow radix2 (- prec)) in
  let val (col : list (binary_float prec emax)) i := B2R (nth i col (fofZ O 0%Z)) in
  exists mcol, nth_error (t_parts t) (dim (e_cfg E)) = Some mcol /\
    let idx := seq (n_begin nd) (n_end nd - n_begin nd) in
    let N := (length idx + lanes_of (e_simd E))%nat in
    let M := B2R (p_mass (n_props nd)) in let T := rsum (val mcol) idx in
    (forall i, In i idx -> exists m, nth_error mcol i = Some m /\ is_finite m = true) /\
    Rabs (M - T) <= (g ^ N - 1) * rsum (fun i => Rabs (val mcol i)) idx /\
    ((forall i, In i idx -> 0 <= val mcol i) -> T * / g ^ N <= M <= T * g ^ N).
Proof.
  intros prec emax Hprec Hemax fused Hp2 E t nd O HE Ht Hnd g val.
  destruct (node_round prec emax Hprec Hemax fused Hp2 E HE t nd (reachable_inv O E HE t Ht) Hnd) as (mcol & H1 & H2 & H3 & H4 & _).
  exists mcol. exact (conj H1 (conj H2 (conj H3 H4))).
Qed.
Print Assumptions C66_node_mass_rounding.

(** C66. With non-negative masses whose total is neither zero nor close to overflow, every coordinate of the centre of mass of a node is that of the exact
    centre of mass up to rounding. *)
Theorem C66_node_centre_rounding :
  forall (prec emax : Z) (Hprec : Prec_gt_0 prec) (Hemax : Prec_lt_emax prec emax) (fused : bool) (Hp2 : (2 <= prec)%Z)
    (E : env) (t : @tree (binary_float prec emax)) (nd : node (props (binary_float prec emax))),
  let O := Bops prec emax Hprec Hemax fused in
  let g := / (1 - bpow radix2 (- prec)) in let eta := bpow radix2 (3 - emax - prec) in
  let val (col : list (binary_float prec emax)) i := B2R (nth i col (fofZ O 0%Z)) in
  let idx := seq (n_begin nd) (n_end nd - n_begin nd) in
  forall mcol j col (HE : env_ok E) (Ht : reachable O E t) (Hnd : In nd (t_nodes t))
    (Hm : nth_error (t_parts t) (dim (e_cfg E)) = Some mcol) (Hj : (j < dim (e_cfg E))%nat) (Hcol : nth_error (t_parts t) j = Some col)
    (Hmass : forall i, In i idx -> 0 <= val mcol i) (Hpos : 0 < B2R (p_mass (n_props nd)) <= bpow radix2 (emax - 2)),
  let n := length idx in let N := (n + lanes_of (e_simd E))%nat in let T := rsum (val mcol) idx in
  (forall i, In i idx -> exists x, nth_error col i = Some x /\ is_finite x = true) /\
  exists v, nth_error (p_com (n_props nd)) j = Some v /\
  Rabs (B2R v - rsum (fun i => val mcol i * val col i) idx / T) <=
    (g ^ (2 * N + 3) - 1) * (rsum (fun i => val mcol i * Rabs (val col i)) idx / T) + INR n * eta * g ^ (2 * N + 3) / T + eta.
Proof.
  intros prec emax Hprec Hemax fused Hp2 E t nd O g eta val idx mcol j col HE Ht Hnd Hm Hj Hcol Hmass Hpos n N T.
  pose proof (reachable_inv O E HE t Ht) as Hi.
  destruct (node_round prec emax Hprec Hemax fused Hp2 E HE t nd Hi Hnd) as (mcol' & H1 & _ & _ & _ & H5).
  rewrite Hm in H1. injection H1 as <-. destruct (H5 ltac:(lra) j col Hj Hcol) as [H6 H7].
  split; [exact H6|]. destruct (nth_error (p_com (n_props nd)) j) as [v|] eqn:Hv.
  2:{ apply nth_error_None in Hv. rewrite (com_length O E t nd Hi Hnd) in Hv. lia. }
  exists v. split; [reflexivity|].
  rewrite <- (nth_error_nth _ _ (fofZ O 0%Z) Hv). exact (H7 Hmass (proj2 Hpos)).
Qed.
Print Assumptions C66_node_centre_rounding.

(** The root of a tree of six particles in single precision, with vectors of two values. *)
Example C66_ex : exists nd mcol, In nd (t_nodes (exF_tree (Some 2%nat))) /\ reachable exFO (ex3E Bh (Some 2%nat)) (exF_tree (Some 2%nat)) /\
  (n_begin nd, n_end nd) = (0, 6)%nat /\ nth_error (t_parts (exF_tree (Some 2%nat))) 3 = Some mcol /\
  (forall i, In i (seq 0 6) -> 0 <= B2R (nth i mcol (fofZ exFO 0%Z))) /\ 0 < B2R (p_mass (n_props nd)) <= bpow radix2 (128 - 2).
Proof.
  assert (X : match t_nodes (exF_tree (Some 2%nat)), nth_error (t_parts (exF_tree (Some 2%nat))) 3 with
    | nd :: _, Some mcol => (n_begin nd =? 0)%nat && (n_end nd =? 6)%nat && forallb (fun i => small_pos (nth i mcol (fofZ exFO 0%Z))) (seq 0 6) &&
        small_pos (p_mass (n_props nd))
    | _, _ => false end = true) by (vm_compute; reflexivity).
  destruct (t_nodes (exF_tree (Some 2%nat))) as [|nd l] eqn:N; [discriminate|]. destruct (nth_error (t_parts (exF_tree (Some 2%nat))) 3) as [mcol|] eqn:M; [|discriminate].
  rewrite !andb_true_iff in X. destruct X as (((X1 & X2) & X3) & X4). apply Nat.eqb_eq in X1, X2.
  exists nd, mcol. split; [now left|]. split; [apply exF_reachable; now right|]. split; [now rewrite X1, X2|]. split; [reflexivity|].
  rewrite forallb_forall in X3. split.
  - intros i Hi. destruct (small_pos_B2R _ (X3 i Hi)) as (_ & P & _). lra.
  - destruct (small_pos_B2R _ X4) as (_ & P & _ & B). split; [exact P|]. eapply Rle_trans; [exact B|]. apply bpow_le. lia.
Qed.

(** C67. Data of moderate size are accepted: the masses are zero or at least 2^(4-emax) and their sum is at most 2^(emax/2); fewer than 2^(prec-1) particles;
    the coordinates are within 31/64 of a given box whose size is between 2^(10-emax) and 2^(emax/2-7), or, if the box is deduced, at most
    2^(emax/2-9) and not all below 2^(9-emax). *)
Theorem C67_moderate_data_accepted :
  forall (prec emax : Z) (Hprec : Prec_gt_0 prec) (Hemax : Prec_lt_emax prec emax) (fused : bool)
    (Hprec8 : (8 <= prec)%Z) (Hrange : (prec + 4 <= emax)%Z) (Hwide : (64 <= emax)%Z)
    (E : env) (s : sched) (inp : input) (mln nc : option nat) (n : nat) (mcol : list (binary_float prec emax))
    (HE : env_ok E) (Hs : sched_ok s) (Ha : forall k, s_alloc s k = true)
    (Hcols : length (given inp) = (dim (e_cfg E) + 1)%nat) (Hlen : Forall (fun col => length col = n) (given inp))
    (Hit : match inp with Iterators cols m => m = n /\ Forall (fun col => (m <= length col)%nat) cols | _ => True end)
    (Hdiff : (N.of_nat n <= diff_max)%N) (Hnodes : (N.of_nat n * cbitsc (e_cfg E) < 2 ^ 64 - 1)%N)
    (Hmln : mln <> Some 0%nat) (Hnc : nc <> Some 0%nat)
    (Hm : nth_error (given inp) (dim (e_cfg E)) = Some mcol)
    (Hmass : forall m, In m mcol -> is_finite m = true /\ (B2R m = 0 \/ bpow radix2 (4 - emax) <= B2R m))
    (Htotal : rsum (@B2R prec emax) mcol <= bpow radix2 (emax / 2))
    (Hfew : (Z.of_nat (n + lanes_of (e_simd E)) < 2 ^ (prec - 1))%Z),
  let O := Bops prec emax Hprec Hemax fused in
  let coords x := exists col, In col (firstn (dim (e_cfg E)) (given inp)) /\ In x col in
  (* given box *)
  (forall b, is_finite b = true -> bpow radix2 (10 - emax) <= B2R b <= bpow radix2 (emax / 2 - 7) ->
    (forall x, coords x -> is_finite x = true /\ Rabs (B2R x) <= 31 / 64 * B2R b) ->
    exists t, generic_ctor O E s (Some b) inp mln nc = Ok t) /\
  (* deduced box *)
  ((forall x, coords x -> is_finite x = true /\ Rabs (B2R x) <= bpow radix2 (emax / 2 - 7 - 2)) ->
   (exists x, coords x /\ bpow radix2 (9 - emax) <= Rabs (B2R x)) ->
   exists t, generic_ctor O E s None inp mln nc = Ok t).
Proof.
  intros prec emax Hprec Hemax fused Hprec8 Hrange Hwide E s inp mln nc n mcol HE Hs Ha Hcols Hlen Hit Hdiff Hnodes Hmln Hnc Hm Hmass Htotal Hfew O coords.
  assert (Hg : given_table E inp n) by exact (conj (conj Hcols Hlen) Hit).
  destruct (ctor_F prec emax Hprec Hemax fused Hprec8 Hrange Hwide E HE s inp mln nc n mcol Hs Ha Hg Hdiff Hnodes Hmln Hnc Hm Hmass Htotal Hfew) as [H1 H2].
  split.
  - intros b Fb Hb Hx. apply (H1 b Fb Hb). intros col x Hc Hin. apply Hx. now exists col.
  - intros Hx (x & (col & Hc & Hin) & Hb). apply H2; [|now exists col, x]. intros col' x' Hc' Hin'. apply Hx. now exists col'.
Qed.
Print Assumptions C67_moderate_data_accepted.

(** Six particles, single precision, vectors of two values. *)
Example C67_ex : exists t, generic_ctor exFO (ex3E BhGeom (Some 2%nat)) (ex_sched false) (Some (F32 1 0)) (Ranges exF_cols) (Some 1%nat) None = Ok t.
Proof.
  destruct (nth_error exF_cols 3) as [mcol|] eqn:M; [|discriminate]. destruct (exF_masses mcol M) as (M1 & M2 & _).
  destruct (C67_moderate_data_accepted 24 128 prec32 emax32 true ltac:(lia) ltac:(lia) ltac:(lia) (ex3E BhGeom (Some 2%nat)) (ex_sched false) (Ranges exF_cols) (Some 1%nat) None 6 mcol
    (ex3E_ok BhGeom 2 ltac:(lia)) (ex_sched_ok _ false) (fun _ => eq_refl) eq_refl ltac:(repeat constructor) I ltac:(vm_compute; discriminate) ltac:(vm_compute; reflexivity)
    ltac:(discriminate) ltac:(discriminate) M M1 M2 ltac:(vm_compute; reflexivity)) as [H _].
  apply (H (F32 1 0) (proj1 box1)).
  - rewrite (proj2 box1). split; [change 1 with (bpow radix2 0); apply bpow_le; lia|]. change 1 with (bpow radix2 0). apply bpow_le. vm_compute. discriminate.
  - intros x (col & Hc & Hx). rewrite (proj2 box1), Rmult_1_r. exact (exF_coords col x Hc Hx).
Qed.

(** C67. Positive masses can be rejected. Two particles in single precision, in a box of size 1; the first mass is the smallest positive number: its inverse overflows and the
    constructor throws, though the same data are accepted in exact arithmetic (C60). The size of a box can also be too large: 2^64 is rejected. *)
Theorem C67_small_masses_refuted :
  exists (m : binary_float 24 128) (cols : list (list (binary_float 24 128))) (big : binary_float 24 128),
    (is_finite m = true /\ 0 < B2R m) /\ is_finite big = true /\
    cols = [[F32 1 (-2); F32 (-1) (-2)]; [F32 1 (-3); F32 (-3) (-3)]; [m; F32 1 0]] /\
    generic_ctor (F32ops true) (mkEnv C2_64 Bh None 128 false []) (ex_sched false) (Some (F32 1 0)) (Ranges cols) (Some 1%nat) None = Throw InvalidArgument /\
    generic_ctor (F32ops true) (mkEnv C2_64 Bh None 128 false []) (ex_sched false) (Some big) (Ranges [[F32 1 (-2)]; [F32 1 (-3)]; [F32 1 0]]) None None = Throw InvalidArgument.
Proof.
  exists (F32 1 (-149)), [[F32 1 (-2); F32 (-1) (-2)]; [F32 1 (-3); F32 (-3) (-3)]; [F32 1 (-149); F32 1 0]], (F32 1 64).
  split; [split; [vm_compute; reflexivity|exact tiny_pos]|]. split; [vm_compute; reflexivity|]. split; [reflexivity|]. split; vm_compute; reflexivity.
Qed.
Print Assumptions C67_small_masses_refuted.
