(** The errors of the results computed in floating point, relative to the exact sums over all the particles. *)
From Coq Require Import List Arith ZArith NArith Reals Bool Lra Lia Psatz Permutation.
From Flocq Require Import Core BinarySingleNaN.
From Verif Require Import Base Config Morton Build TreeSpec BuildSpec BuildProofs BuildProps FOps FOpsProofs Disc DiscProofs NodeProps NodeGeom NodesR Geometry Tree TreeInv TreeProofs TreeSafe TreeProps RSum Kernels KernR TravProofs
  RoundKern RoundSum Force ForceGen ForceR ForceOut ForceTop ForceRTop ForceMore ForceAcc Round RoundNode RoundCtor RoundNear RoundExact RoundRsqrt RoundTree RoundSrc RoundMac RoundForce RoundCell Expand RoundTotal.
Import ListNotations.
Local Open Scope R_scope.

(** The sources of one particle, partitioned. *)
Lemma parts_sum : forall n b e i (Dl : list nat) {A} (g : A -> list nat) (L : list A) (f : nat -> R),
  Permutation (seq b (e - b) ++ Dl ++ flat_map g L) (seq 0 n) -> (b <= i < e)%nat -> (e <= n)%nat ->
  rsum f (others b e i ++ Dl) + rsum (fun a => rsum f (g a)) L = rsum f (others 0 n i).
Proof.
  intros n b e i Dl A g L f S Hi Hn. apply rsum_perm with (f := f) in S. rewrite !rsum_app, rsum_flat_map in S. rewrite rsum_app.
  pose proof (filter_out b (e - b) (i - b) ltac:(lia)) as F1.
  pose proof (filter_out 0 n i ltac:(lia)) as F2. replace (b + (i - b))%nat with i in F1 by lia. rewrite Nat.add_0_l in F2.
  apply rsum_perm with (f := f) in F1, F2. rewrite rsum_cons in F1, F2. unfold others. rewrite Nat.sub_0_r. lra.
Qed.

(** Errors of the parts and of the whole. *)
Lemma assemble : forall n b e i (Dl : list nat) {A} (g : A -> list nat) (L : list A) (p : nat -> R) (s : A -> R) (f : nat -> R) kf kg,
  Permutation (seq b (e - b) ++ Dl ++ flat_map g L) (seq 0 n) -> (b <= i < e)%nat -> (e <= n)%nat ->
  (forall l, In l (others b e i ++ Dl) -> Rabs (p l) <= f l) -> 0 <= kf -> 1 <= kg ->
  (forall a, In a L -> Rabs (s a - rsum p (g a)) <= kf * rsum f (g a) /\ Rabs (s a) <= kg * rsum f (g a)) ->
  Rabs (rsum p (others b e i ++ Dl) + rsum s L - rsum p (others 0 n i)) <= kf * rsum f (others 0 n i) /\
  rsum (fun l => Rabs (p l)) (others b e i ++ Dl) + rsum (fun a => Rabs (s a)) L <= kg * rsum f (others 0 n i).
Proof.
  intros n b e i Dl A g L p s f kf kg S Hi Hn Hd K0 K1 HL.
  pose proof (parts_sum n b e i Dl g L p S Hi Hn) as Sp. pose proof (parts_sum n b e i Dl g L f S Hi Hn) as Sf.
  assert (D0 : rsum (fun l => Rabs (p l)) (others b e i ++ Dl) <= rsum f (others b e i ++ Dl)) by (apply rsum_le; exact Hd).
  assert (D1 : 0 <= rsum (fun l => Rabs (p l)) (others b e i ++ Dl)) by (apply rsum_nonneg; intros; apply Rabs_pos).
  rewrite <- Sp, <- Sf. set (x := rsum f (others b e i ++ Dl)) in *. split.
  - replace (rsum p (others b e i ++ Dl) + rsum s L - (rsum p (others b e i ++ Dl) + rsum (fun a => rsum p (g a)) L)) with (rsum (fun a => s a - rsum p (g a)) L) by (rewrite rsum_minus; ring).
    eapply Rle_trans; [apply rsum_abs|]. rewrite Rmult_plus_distr_l. apply Rle_trans with (kf * rsum (fun a => rsum f (g a)) L).
    + rewrite <- rsum_scal. apply rsum_le. intros a Ha. apply (HL a Ha).
    + assert (0 <= kf * x) by (apply Rmult_le_pos; lra). lra.
  - rewrite Rmult_plus_distr_l. apply Rplus_le_compat.
    + nra.
    + rewrite <- rsum_scal. apply rsum_le. intros a Ha. apply (HL a Ha).
Qed.

Lemma pull_strength : forall d q eps j p1 p2, is_acc d q j = true -> (j < d)%nat -> length (fst p1) = d -> length (fst p2) = d -> 0 <= snd p2 -> 0 < sep2 (fst p2) (fst p1) + eps * eps ->
  Rabs (pull d q (eps * eps) j p1 p2) <= strength eps p1 p2.
Proof.
  intros d q eps j p1 p2 Ha Hj L1 L2 M PB. unfold pull, strength. rewrite Ha.
  pose proof (sep2_coord d _ _ j L2 L1 Hj) as C. set (x := nth j (fst p2) 0 - nth j (fst p1) 0) in *. set (s := sep2 (fst p2) (fst p1)) in *.
  assert (XR : Rabs x <= sqrt (s + eps * eps)). { eapply Rle_trans; [exact C|]. apply sqrt_le_1_alt. nra. }
  pose proof (sqrt_lt_R0 _ PB) as R0. pose proof (sqrt_sqrt (s + eps * eps) ltac:(lra)) as RR. set (r := sqrt (s + eps * eps)) in *. rewrite <- RR.
  unfold Rdiv. rewrite !Rabs_mult, (Rabs_pos_eq (snd p2)) by exact M. rewrite (Rabs_pos_eq (/ (r * r * r))) by (apply Rlt_le, Rinv_0_lt_compat; repeat apply Rmult_lt_0_compat; lra).
  replace (snd p2 * / (r * r)) with (snd p2 * r * / (r * r * r)) by (field; lra).
  apply Rmult_le_compat_r; [apply Rlt_le, Rinv_0_lt_compat; repeat apply Rmult_lt_0_compat; lra|]. now apply Rmult_le_compat_l.
Qed.

Section IEEE.

Variables prec emax : Z.
Context (Hprec : Prec_gt_0 prec).
Context (Hemax : Prec_lt_emax prec emax).
Variable fused : bool.
Hypothesis Hp8 : (8 <= prec)%Z.

Notation bf := (binary_float prec emax).
Notation O := (Bops prec emax Hprec Hemax fused).
Notation g := (gR prec).
Notation u := (uR prec).
Notation eta := (etaR prec emax).
Notation prow := (@prow bf).
Notation realp := (realp prec emax).

Variable k : Z.
Hypothesis Hk5 : (5 * k + 16 <= emax)%Z.
Hypothesis Hroom : (prec + 4 * k + 4 <= emax)%Z.
Hypothesis He : (64 <= emax)%Z.
Variable E : env.
Hypothesis HE : env_ok E.
Notation c := (e_cfg E).
Notation w := (match e_simd E with Some b => b | None => 1%nat end).
Variable K : platform bf.
Hypothesis HK : benign_shift K.
Hypothesis Hrsqrt : rsqrt_ok prec emax k K.

Variables (t : @tree bf) (P : nat -> prow).
Hypothesis Ht : tree_inv O E t.
Notation n := (length (t_codes t)).
Hypothesis HP : forall i, (i < n)%nat -> row (t_parts t) i (fst (P i) ++ [snd (P i)]).
Hypothesis Hbf : is_finite (t_box t) = true.
Hypothesis Hbox : bpow radix2 (3 - k) <= B2R (t_box t) <= bpow radix2 (k - 3).
Hypothesis Hmass : forall i, (i < n)%nat -> is_finite (snd (P i)) = true /\ (B2R (snd (P i)) = 0 \/ bpow radix2 (1 - k) <= B2R (snd (P i))).
Hypothesis Htotal : rsum (fun i => B2R (snd (P i))) (seq 0 n) <= bpow radix2 (k - 1).
Hypothesis Hfew : (2 * Z.of_nat (n + w) + 56 <= 2 ^ (prec - 1))%Z.
Notation B := (B2R (t_box t)).
Notation N0 := (INR (n + w)).

Variables theta G eps : bf.
Hypothesis Hth : is_finite theta = true.
Hypothesis Htheta : bpow radix2 (- k) <= B2R theta <= bpow radix2 k.
Hypothesis Hratio : B <= B2R theta * bpow radix2 (k - 3).
Hypothesis HG : is_finite G = true /\ Rabs (B2R G) <= bpow radix2 k.
Hypothesis Heps : is_finite eps = true /\ (B2R eps = 0 \/ bpow radix2 (- k) <= B2R eps <= bpow radix2 k).
Notation e2 := (B2R eps * B2R eps).
Hypothesis Hlarge : forall a, In a (t_nodes t) -> B2R theta * bpow radix2 (Z.of_N (n_level a)) * bpow radix2 (3 - k) <= B.
Hypothesis Hapart : forall i l, (i < n)%nat -> (l < n)%nat -> i <> l -> bpow radix2 (- (2 * k)) <= sep2 (fst (realp (P l))) (fst (realp (P i))) + e2.
Variable zeta : R.
Hypothesis Hz0 : zeta <= 1 / 4.
Hypothesis Hz : forall a, In a (t_nodes t) -> 4 * (N0 + 27) * u * bpow radix2 (Z.of_N (n_level a)) <= zeta.
Notation kp := (B2R theta * sqrt (INR (dim c)) * (1 + 4 * zeta)).
Hypothesis Hth3 : B2R theta <= 3.

(** The error of a value, from the error relative to its sources. *)
Lemma value_total : forall q j i (v : bf) b e A Dl, (i < n)%nat -> (b <= i < e)%nat -> (e <= n)%nat ->
  Permutation (seq b (e - b) ++ Dl ++ flat_map node_idx A) (seq 0 n) ->
  (forall a, In a A -> In a (t_nodes t) /\ (i < n_begin a \/ n_end a <= i)%nat /\ rsep prec emax E t theta a (fst (P i))) ->
  approx prec emax (n + w + 54) (N0 * Rabs (B2R G) + 1) (B2R v) (B2R G * tsum prec emax E e2 P (fun x => x) q j i (others b e i ++ Dl) A) (Rabs (B2R G) * tsum prec emax E e2 P Rabs q j i (others b e i ++ Dl) A) ->
  let d := rsum (fun l => pull (dim c) q e2 j (realp (P i)) (realp (P l))) (others 0 n i) in
  (is_acc (dim c) q j = false -> Rabs (B2R v - B2R G * d) <= (pot_factor kp + 2 * (1 + kp) ^ 2 * zeta) * Rabs (B2R G * d) + 2 * (N0 * Rabs (B2R G) + 1) * eta) /\
  (is_acc (dim c) q j = true -> kp < 1 ->
    Rabs (B2R v - B2R G * d) <= (acc_factor kp + (1 + kp) ^ 2 * (2 + 6 * kp) * zeta) * (Rabs (B2R G) * rsum (fun l => strength (B2R eps) (realp (P i)) (realp (P l))) (others 0 n i))
      + 2 * (N0 * Rabs (B2R G) + 1) * eta).
Proof.
  intros q j i v b e A Dl Hi Hb Hen H1 H2 V3 d.
  destruct (tiles_find _ _ _ _ i (crit_tiles O E t Ht) ltac:(lia)) as (cn & Hcn & _).
  destruct (crit_node O E t cn Ht Hcn) as (nd & Hnd & _). clear cn Hcn.
  assert (PN : 0 <= N0) by apply pos_INR. pose proof (u_small prec Hp8) as U. assert (U0 : 0 < u) by apply bpow_gt_0.
  assert (HZ1 : 4 * (N0 + 27) * u <= zeta).
  { pose proof (Hz nd Hnd) as Z1. set (bb := bpow radix2 (Z.of_N (n_level nd))) in *. assert (B1 : 1 <= bb). { change 1 with (bpow radix2 0). apply bpow_le. lia. }
    assert (4 * (N0 + 27) * u * 1 <= 4 * (N0 + 27) * u * bb) by (apply Rmult_le_compat_l; [apply Rmult_le_pos; lra|lra]). lra. }
  assert (HZ : 0 <= zeta <= 1 / 4) by (split; [nra|exact Hz0]).
  assert (TH0 : 0 < B2R theta) by (pose proof (bpow_gt_0 radix2 (- k)); lra).
  assert (Hap : forall i l, (i < n)%nat -> (l < n)%nat -> i <> l -> 0 < sep2 (fst (realp (P l))) (fst (realp (P i))) + e2).
  { intros i' l' J1 J2 J3. eapply Rlt_le_trans; [apply bpow_gt_0|exact (Hapart i' l' J1 J2 J3)]. }
  assert (K0 : 0 <= kp) by (apply Rmult_le_pos; [apply Rmult_le_pos; [lra|apply sqrt_pos]|lra]).
  assert (GN : g ^ (n + w + 54) - 1 <= zeta).
  { eapply Rle_trans; [apply (g_lin2 prec emax Hp8 k E t P HP Hmass Hfew); lia|]. eapply Rle_trans; [|exact HZ1]. replace (INR (n + w + 54)) with (N0 + 54) by (rewrite (plus_INR (n + w)); change (INR 54) with (INR (Z.to_nat 54)); rewrite (INR_IZR_INZ (Z.to_nat 54)); reflexivity). nra. }
  assert (LN : forall l, In l (others b e i ++ Dl) -> (l < n)%nat /\ l <> i).
  { intros l Hl. assert (F0 : In l (others 0 n i)).
    { pose proof (parts_sum n b e i Dl node_idx A (fun _ => 0) H1 Hb Hen) as _.
      pose proof (filter_out b (e - b) (i - b) ltac:(lia)) as F1. replace (b + (i - b))%nat with i in F1 by lia.
      pose proof (filter_out 0 n i ltac:(lia)) as F2. rewrite Nat.add_0_l in F2.
      assert (PP : Permutation (i :: (others b e i ++ Dl) ++ flat_map node_idx A) (i :: others 0 n i)).
      { unfold others at 2. rewrite Nat.sub_0_r. eapply perm_trans; [|exact F2]. eapply perm_trans; [|exact H1]. rewrite <- app_assoc. rewrite app_comm_cons. apply Permutation_app_tail. now apply Permutation_sym. }
      apply Permutation_cons_inv in PP. apply (Permutation_in _ PP). apply in_or_app. now left. }
    unfold others in F0. apply filter_In in F0 as [F1 F2]. apply in_seq in F1. apply negb_true_iff, Nat.eqb_neq in F2. split; [lia|exact F2]. }
  assert (NT : forall a, In a A -> _) by (intros a Ha; exact (node_total prec emax Hprec Hemax fused Hp8 k Hk5 Hroom He E HE t P Ht HP Hbf Hbox Hmass Htotal Hfew theta eps zeta TH0 HZ Hz Hth3 Hap a i
    (proj1 (H2 a Ha)) Hi ltac:(destruct (H2 a Ha) as (_ & Z & _); lia) (proj2 (proj2 (H2 a Ha))) q j)).
  assert (MN : forall l, (l < n)%nat -> 0 <= snd (realp (P l))) by (intros l Hl; apply (mass_nonneg prec emax k t P Hmass l Hl)).
  assert (FIN : forall F kf kg kt, 0 <= F -> 0 <= kf -> 0 <= kg -> kf + zeta * kg <= kt ->
    Rabs (tsum prec emax E e2 P (fun x => x) q j i (others b e i ++ Dl) A - d) <= kf * F ->
    tsum prec emax E e2 P Rabs q j i (others b e i ++ Dl) A <= kg * F ->
    Rabs (B2R v - B2R G * d) <= kt * (Rabs (B2R G) * F) + 2 * (N0 * Rabs (B2R G) + 1) * eta).
  { intros F kf kg kt F0 K2 K3 KT T1 T2. unfold approx in V3. set (x := tsum prec emax E e2 P (fun x => x) q j i (others b e i ++ Dl) A) in *.
    set (y := tsum prec emax E e2 P Rabs q j i (others b e i ++ Dl) A) in *. pose proof (Rabs_pos (B2R G)) as G0. set (ag := Rabs (B2R G)) in *.
    replace (B2R v - B2R G * d) with ((B2R v - B2R G * x) + B2R G * (x - d)) by ring. eapply Rle_trans; [apply Rabs_triang|]. rewrite Rabs_mult. fold ag.
    assert (Q1 : ag * Rabs (x - d) <= ag * (kf * F)) by now apply Rmult_le_compat_l.
    assert (Y0 : 0 <= y) by (unfold y, tsum; apply Rplus_le_le_0_compat; apply rsum_nonneg; intros; apply Rabs_pos).
    assert (Q2 : (g ^ (n + w + 54) - 1) * (ag * y) <= zeta * (ag * (kg * F))).
    { apply Rle_trans with (zeta * (ag * y)); [apply Rmult_le_compat_r; [now apply Rmult_le_pos|exact GN]|]. apply Rmult_le_compat_l; [lra|]. now apply Rmult_le_compat_l. }
    assert (Q3 : (N0 * ag + 1) * eta * g ^ (n + w + 54) <= (N0 * ag + 1) * eta * 2).
    { apply Rmult_le_compat_l; [|lra]. apply Rmult_le_pos; [|apply bpow_ge_0]. pose proof (Rmult_le_pos _ _ PN G0). lra. }
    assert (Q4 : (kf + zeta * kg) * (ag * F) <= kt * (ag * F)) by (apply Rmult_le_compat_r; [now apply Rmult_le_pos|exact KT]).
    replace ((kf + zeta * kg) * (ag * F)) with (ag * (kf * F) + zeta * (ag * (kg * F))) in Q4 by ring. lra. }
  split; [intros Hq|intros Hq Hk1].
  - set (f := fun l => - pull (dim c) q e2 j (realp (P i)) (realp (P l))).
    assert (F0 : forall l, (l < n)%nat -> 0 <= f l).
    { intros l Hl. unfold f, pull. rewrite Hq. pose proof (Rmult_le_pos _ _ (MN i Hi) (MN l Hl)) as M3. set (r := sqrt _). assert (R0 : 0 <= r) by apply sqrt_pos.
      assert (0 <= / r) by (destruct R0 as [R0|<-]; [left; now apply Rinv_0_lt_compat|rewrite Rinv_0; lra]). unfold Rdiv. nra. }
    assert (FD : rsum f (others 0 n i) = - d). { unfold f, d. transitivity (-1 * rsum (fun l => pull (dim c) q e2 j (realp (P i)) (realp (P l))) (others 0 n i)); [rewrite <- rsum_scal; apply rsum_ext; intros; ring|ring]. }
    assert (FP : 0 <= rsum f (others 0 n i)). { apply rsum_nonneg. intros l Hl. apply F0. unfold others in Hl. apply filter_In in Hl as [Hl _]. apply in_seq in Hl. lia. }
    rewrite Rabs_mult. replace (Rabs d) with (rsum f (others 0 n i)) by (rewrite FD; rewrite Rabs_left1; [reflexivity|lra]).
    set (kk := kp) in *. assert (PF : 0 <= pot_factor kk). { unfold pot_factor. assert (0 <= kk * kk) by nra. nra. }
    destruct (assemble n b e i Dl node_idx A (fun l => pull (dim c) q e2 j (realp (P i)) (realp (P l)))
      (fun a => pull (dim c) q e2 j (realp (P i)) (realp (p_com (n_props a), p_mass (n_props a)))) f (pot_factor kk + (1 + kk) * (1 / 2 + 2 * kk) * zeta) ((1 + zeta / 2) * (1 + kk)) H1 Hb Hen) as [T1 T2].
    + intros l Hl. destruct (LN l Hl) as [L1 _]. pose proof (F0 l L1) as F1. unfold f in *. rewrite Rabs_left1; lra.
    + assert (0 <= (1 + kk) * (1 / 2 + 2 * kk)) by nra. nra.
    + nra.
    + intros a Ha. exact (proj1 (NT a Ha) Hq).
    + refine (FIN _ _ _ _ FP _ _ _ T1 T2).
      * assert (0 <= (1 + kk) * (1 / 2 + 2 * kk)) by nra. nra.
      * nra.
      * assert (X : (1 + kk) * zeta * (1 / 2 + 2 * kk + (1 + zeta / 2)) <= (1 + kk) * zeta * (2 + 2 * kk)) by (apply Rmult_le_compat_l; [apply Rmult_le_pos|]; lra). lra.
  - set (f := fun l => strength (B2R eps) (realp (P i)) (realp (P l))).
    assert (FP : 0 <= rsum f (others 0 n i)). { apply rsum_nonneg. intros l Hl. apply strength_nonneg, MN. unfold others in Hl. apply filter_In in Hl as [Hl _]. apply in_seq in Hl. lia. }
    set (kk := kp) in *. assert (AF : 0 <= acc_factor kk).
    { unfold acc_factor. assert (0 <= 2 / (1 - kk)) by (apply Rlt_le, Rdiv_lt_0_compat; lra). apply Rmult_le_pos; [exact (Rle_0_sqr _)|]. pose proof (Rle_0_sqr (1 + kk)) as Q. unfold Rsqr in Q. lra. }
    destruct (assemble n b e i Dl node_idx A (fun l => pull (dim c) q e2 j (realp (P i)) (realp (P l)))
      (fun a => pull (dim c) q e2 j (realp (P i)) (realp (p_com (n_props a), p_mass (n_props a)))) f (acc_factor kk + (1 + kk) * (1 + kk) * (1 / 2 + 6 * kk) * zeta) ((1 + zeta / 2) * ((1 + kk) * (1 + kk))) H1 Hb Hen) as [T1 T2].
    + intros l Hl. destruct (LN l Hl) as [L1 L2]. apply pull_strength; auto.
      * unfold is_acc in Hq. apply andb_true_iff in Hq. now apply Nat.ltb_lt.
      * now apply (realp_len prec emax Hprec Hemax fused Hp8 k Hk5 Hroom He E t P Ht HP Hbf Hbox).
      * now apply (realp_len prec emax Hprec Hemax fused Hp8 k Hk5 Hroom He E t P Ht HP Hbf Hbox).
    + assert (0 <= (1 + kk) * (1 + kk) * (1 / 2 + 6 * kk)) by (apply Rmult_le_pos; nra). nra.
    + nra.
    + intros a Ha. exact (proj2 (NT a Ha) Hq Hk1).
    + refine (FIN _ _ _ _ FP _ _ _ T1 T2).
      * assert (0 <= (1 + kk) * (1 + kk) * (1 / 2 + 6 * kk)) by (apply Rmult_le_pos; nra). nra.
      * apply Rmult_le_pos; nra.
      * assert (X : (1 + kk) * (1 + kk) * zeta * (1 / 2 + 6 * kk + (1 + zeta / 2)) <= (1 + kk) * (1 + kk) * zeta * (2 + 6 * kk)) by (apply Rmult_le_compat_l; [repeat apply Rmult_le_pos; lra|lra]). lra.
Qed.


Lemma total_F : forall {D} (OD : fops D) ord ordered q (split : list D) out,
  reachable O E t -> room E t -> reorders ord -> check_split OD split = Ok tt -> (length split <= 1)%nat ->
  out_ok n (nvecs_res E q) out ->
  exists out', acc_pot_dispatch O OD E K ord ordered q t theta G eps split out = Ok out' /\ out_ok n (nvecs_res E q) out' /\
    forall i j, (i < n)%nat -> (j < nvecs_res E q)%nat ->
      let d := rsum (fun l => pull (dim c) q e2 j (realp (P i)) (realp (P l))) (others 0 n i) in
      exists v, nth_error (nth j out' []) (ForceTop.dst ordered t i) = Some v /\ is_finite v = true /\
        (is_acc (dim c) q j = false -> Rabs (B2R v - B2R G * d) <= (pot_factor kp + 2 * (1 + kp) ^ 2 * zeta) * Rabs (B2R G * d) + 2 * (N0 * Rabs (B2R G) + 1) * eta) /\
        (is_acc (dim c) q j = true -> kp < 1 ->
          Rabs (B2R v - B2R G * d) <= (acc_factor kp + (1 + kp) ^ 2 * (2 + 6 * kp) * zeta) * (Rabs (B2R G) * rsum (fun l => strength (B2R eps) (realp (P i)) (realp (P l))) (others 0 n i))
            + 2 * (N0 * Rabs (B2R G) + 1) * eta).
Proof.
  intros D OD ord ordered q split out Hr Hrm Hord Hs Hs1 Ho.
  destruct (force_F prec emax Hprec Hemax fused Hp8 k Hk5 Hroom He E HE K HK Hrsqrt t P Ht HP Hbf Hbox Hmass Htotal Hfew theta G eps Hth Htheta Hratio HG Heps (or_intror Hlarge) Hapart
    OD ord ordered q split out Hr Hrm Hord Hs Hs1 Ho) as (out' & E1 & O1 & V). exists out'. split; [exact E1|]. split; [exact O1|].
  intros i j Hi Hj d.
  destruct (tiles_find _ _ _ _ i (crit_tiles O E t Ht) ltac:(lia)) as (cn & Hcn & Hb). cbn [fst snd] in Hb.
  destruct (crit_node O E t cn Ht Hcn) as (nd & Hnd & _ & _ & _ & N5).
  destruct (V cn Hcn) as (A & Dl & H1 & H2 & H3). destruct (H3 i j Hb Hj) as (v & V1 & V2 & V3). exists v. split; [exact V1|]. split; [exact V2|].
  apply (value_total q j i v (c_begin cn) (c_end cn) A Dl Hi Hb (proj2 N5) H1); [|exact V3].
  intros a Ha. destruct (H2 a Ha) as (I1 & I2 & I3). split; [exact I1|]. split; [lia|]. exact (I3 (Hlarge a I1) i Hb).
Qed.

End IEEE.
