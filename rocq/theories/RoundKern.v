(** Rounding errors of the interaction of two particles. *)
From Coq Require Import List Arith ZArith NArith Reals Bool Lra Lia Psatz Permutation.
From Flocq Require Import Core BinarySingleNaN Relative Plus_error.
From Verif Require Import Base Config FOps FOpsProofs NodeProps RSum Kernels SelfSum Round RoundFin RoundNear.
Import ListNotations.
Local Open Scope nat_scope.

Lemma rsum_nth : forall A (f : A -> R) (d : A) l, rsum f l = rsum (fun j => f (nth j l d)) (seq 0 (length l)).
Proof.
  intros A f d l. rewrite <- (rsum_map _ _ (fun j => nth j l d) f). f_equal. induction l as [|a l IH]; [reflexivity|].
  cbn [length seq map nth]. f_equal. rewrite <- seq_shift, map_map. exact IH.
Qed.

Section IEEE.

Variables prec emax : Z.
Context (Hprec : Prec_gt_0 prec).
Context (Hemax : Prec_lt_emax prec emax).
Variable fused : bool.
Hypothesis Hp8 : (8 <= prec)%Z.

Notation bf := (binary_float prec emax).
Notation O := (Bops prec emax Hprec Hemax fused).
Notation fexp := (SpecFloat.fexp prec emax).
Notation rnd := (round radix2 fexp ZnearestE).
Notation zero := (fofZ O 0%Z).
Notation g := (gR prec).
Notation eta := (etaR prec emax).
Notation u := (uR prec).
Notation bnd := (bnd prec emax).
Notation approx := (approx prec emax).
Notation near := (near prec).
Notation val := (val prec emax).
Notation okr := (okr emax).
Notation small := (small prec).
Notation Hp2 := (Hp2 prec Hp8).

Local Instance valid_fexp_rk : Valid_exp fexp.
Proof. exact (@FLT_exp_valid (3 - emax - prec) prec Hprec). Qed.

Local Open Scope R_scope.

(** * Ranges *)

(** Zero, or between two powers of two. *)
Definition rng (a b : Z) (X : R) : Prop := X = 0 \/ bpow radix2 a <= Rabs X <= bpow radix2 b.

Lemma rng_okr : forall a b X, rng a b X -> (3 - emax <= a)%Z -> (b <= emax - 3)%Z -> okr X.
Proof.
  intros a b X [->|[H1 H2]] Ha Hb; [now left|right]. split; [eapply Rle_trans; [|exact H1]|eapply Rle_trans; [exact H2|]]; now apply bpow_le.
Qed.

Lemma rng_mul : forall a b X a' b' Y, rng a b X -> rng a' b' Y -> rng (a + a') (b + b') (X * Y).
Proof.
  intros a b X a' b' Y [->|[H1 H2]] [->|[H3 H4]]; try (left; ring). right. rewrite Rabs_mult, !bpow_plus.
  split; apply Rmult_le_compat; auto using bpow_ge_0, Rabs_pos.
Qed.

Lemma rng_inv : forall a b X, rng a b X -> rng (- b) (- a) (/ X).
Proof.
  intros a b X [->|[H1 H2]]; [left; apply Rinv_0|]. right. rewrite Rabs_inv, !bpow_opp. pose proof (bpow_gt_0 radix2 a).
  split; apply Rinv_le_contravar; lra.
Qed.

Lemma rng_div : forall a b X a' b' Y, rng a b X -> rng a' b' Y -> rng (a - b') (b - a') (X / Y).
Proof. intros. unfold Rdiv, Zminus. apply rng_mul; [assumption|now apply rng_inv]. Qed.

Lemma rng_opp : forall a b X, rng a b X -> rng a b (- X).
Proof. intros a b X [->|H]; [left; ring|right; now rewrite Rabs_Ropp]. Qed.

Lemma rng_mono : forall a b a' b' X, rng a b X -> (a' <= a)%Z -> (b <= b')%Z -> rng a' b' X.
Proof.
  intros a b a' b' X [->|[H1 H2]] Ha Hb; [now left|right]. split; [eapply Rle_trans; [|exact H1]|eapply Rle_trans; [exact H2|]]; now apply bpow_le.
Qed.

Lemma rng_le : forall a b X, rng a b X -> Rabs X <= bpow radix2 b.
Proof. intros a b X [->|[_ H]]; [rewrite Rabs_R0; apply bpow_ge_0|exact H]. Qed.

(** * Distances *)

(** The coordinates are at most [2^k], the distances at least [2^-k]. *)
Variable k : Z.
Hypothesis Hk0 : (0 <= k)%Z.
Hypothesis Hk5 : (5 * k + 16 <= emax)%Z.

Lemma prec_emax : (prec < emax)%Z.
Proof. exact Hemax. Qed.

Lemma fold_fma : forall ds (v : bf) e q S b, Forall (fun d => bnd d (k + 1)) ds -> bnd v b -> (2 * k + 2 <= b)%Z -> (b + Z.of_nat (length ds) < emax)%Z ->
  approx (Datatypes.S e) q (B2R v) S S -> 0 <= S -> 0 <= q ->
  let s := fold_left (fun s d => ffma O d d s) ds v in
  bnd s (b + Z.of_nat (length ds)) /\ approx (Datatypes.S (e + length ds)) (q + INR (length ds)) (B2R s) (S + rsum (fun d => B2R d * B2R d) ds) (S + rsum (fun d => B2R d * B2R d) ds).
Proof.
  pose proof prec_emax as PE. induction ds as [|d ds IH]; intros v e q S b HF Hv Hb Hl HA HS Hq s.
  - cbn [fold_left length] in *. rewrite rsum_nil, Rplus_0_r, Nat.add_0_r. cbn [INR]. rewrite Rplus_0_r. split; [|exact HA]. now rewrite Z.add_0_r.
  - unfold s. cbn [fold_left length] in *. pose proof (Forall_inv HF) as Hd. pose proof (Forall_inv_tail HF) as HF'. rewrite rsum_cons.
    assert (B : bnd (ffma O d d v) (b + 1)) by (apply (bnd_fma prec emax Hprec Hemax fused Hp2) with (k + 1)%Z (k + 1)%Z; auto; lia).
    destruct (fma_fin prec emax Hprec Hemax fused _ _ _ (proj1 B)) as (_ & _ & _ & V).
    pose proof (approx_fma prec emax Hprec fused Hp2 e q (B2R d) (B2R d) (B2R v) S S v eq_refl HA ltac:(rewrite Rabs_right; lra) Hq) as A.
    assert (P : 0 <= B2R d * B2R d) by (apply Rle_0_sqr). rewrite (Rabs_right (B2R d * B2R d)) in A by lra. rewrite <- V in A.
    destruct (IH (ffma O d d v) (Datatypes.S e) (q + 1) (S + B2R d * B2R d) (b + 1)%Z HF' B) as [R1 R2]; auto; try lra; try lia.
    split.
    + replace (b + Z.of_nat (Datatypes.S (length ds)))%Z with (b + 1 + Z.of_nat (length ds))%Z by lia. exact R1.
    + rewrite S_INR. replace (Datatypes.S (e + Datatypes.S (length ds))) with (Datatypes.S (Datatypes.S e + length ds)) by lia.
      replace (q + (INR (length ds) + 1)) with (q + 1 + INR (length ds)) by ring. rewrite <- Rplus_assoc. exact R2.
Qed.

Lemma approx_prod : forall (d : bf), bnd d (k + 1) -> bnd (fmul O d d) (2 * k + 2) /\ approx 1 1 (B2R (fmul O d d)) (B2R d * B2R d) (B2R d * B2R d).
Proof.
  intros d Hd. pose proof prec_emax as PE.
  assert (B : bnd (fmul O d d) (2 * k + 2)) by (apply (bnd_mul prec emax Hprec Hemax fused Hp2) with (k + 1)%Z (k + 1)%Z; auto; lia).
  split; [exact B|]. destruct (mult_fin prec emax Hprec Hemax _ _ (proj1 B)) as (_ & _ & V). cbn [fmul Bops] in *. rewrite V.
  destruct (any_err prec emax Hprec (B2R d * B2R d)) as (dd & h & Hd1 & Hh & ->). assert (P : 0 <= B2R d * B2R d) by (apply Rle_0_sqr).
  unfold Round.approx. replace (B2R d * B2R d * (1 + dd) + h - B2R d * B2R d) with (B2R d * B2R d * dd + h) by ring.
  eapply Rle_trans; [apply Rabs_triang|]. destruct (gR_facts prec Hp2) as (G1 & G2 & _). rewrite pow_1. assert (0 < eta) by apply bpow_gt_0.
  rewrite Rabs_mult, (Rabs_right (B2R d * B2R d)) by lra. nra.
Qed.

Lemma approx_add : forall e k1 k2 (x y : bf) X Y b, bnd x b -> bnd y b -> (3 - emax - prec <= b + 1 < emax)%Z ->
  approx e k1 (B2R x) X X -> approx e k2 (B2R y) Y Y -> 0 <= X -> 0 <= Y -> 0 <= k1 -> 0 <= k2 ->
  bnd (fadd O x y) (b + 1) /\ approx (S e) (k1 + k2) (B2R (fadd O x y)) (X + Y) (X + Y).
Proof.
  intros e k1 k2 x y X Y b Hx Hy Hb AX AY PX PY K1 K2.
  assert (B : bnd (fadd O x y) (b + 1)) by (now apply (bnd_add prec emax Hprec Hemax fused Hp2)).
  split; [exact B|]. destruct (plus_fin prec emax Hprec Hemax _ _ (proj1 B)) as (_ & _ & V). cbn [fadd Bops] in *. rewrite V.
  destruct (plus_rel prec emax Hprec Hp2 x y) as (d & Hd & ->).
  apply (approx_plus prec emax Hp2); auto; rewrite Rabs_right; lra.
Qed.

(** The exact squared distance. *)
Definition del (x2 x1 : list bf) (j : nat) : R := B2R (nth j x2 zero) - B2R (nth j x1 zero).
Variable n : nat.
Hypothesis Hn3 : (n <= 3)%nat.
Variable e2 : R.
Variable eps2 : bf.
Hypothesis He2 : 0 <= e2 <= bpow radix2 (2 * k).
Hypothesis Heps : val 1 eps2 e2.
Definition sqd (x2 x1 : list bf) : R := rsum (fun j => del x2 x1 j * del x2 x1 j) (seq 0 n) + e2.

Definition cok (x : list bf) : Prop := length x = n /\ Forall (fun v => bnd v k) x.

Lemma cok_nth : forall x j, cok x -> bnd (nth j x zero) k.
Proof.
  intros x j [_ H]. destruct (nth_in_or_default j x zero) as [I|E]; [rewrite Forall_forall in H; auto|]. rewrite E. split; [reflexivity|].
  rewrite (B2R_zero prec emax Hprec Hemax fused), Rabs_R0. apply bpow_ge_0.
Qed.

Lemma del_le : forall x2 x1 j, cok x2 -> cok x1 -> Rabs (del x2 x1 j) <= bpow radix2 (k + 1).
Proof.
  intros x2 x1 j H2 H1. unfold del. destruct (cok_nth x2 j H2) as [_ A]. destruct (cok_nth x1 j H1) as [_ B]. rewrite bpow_double.
  unfold Rminus. eapply Rle_trans; [apply Rabs_triang|]. rewrite Rabs_Ropp. lra.
Qed.

Lemma diffs_length : forall x2 x1, cok x2 -> cok x1 -> length (diffs O x2 x1) = n.
Proof. intros x2 x1 [H2 _] [H1 _]. unfold diffs. rewrite map_length, combine_length. lia. Qed.

Lemma diffs_nth : forall x2 x1 j, cok x2 -> cok x1 -> (j < n)%nat -> nth j (diffs O x2 x1) zero = fsub O (nth j x2 zero) (nth j x1 zero).
Proof.
  intros x2 x1 j [H2 _] [H1 _] Hj. unfold diffs. rewrite nth_zip_map with (d1 := zero) (d2 := zero) by lia. reflexivity.
Qed.

Lemma diffs_val : forall x2 x1 j, cok x2 -> cok x1 -> (j < n)%nat ->
  val 1 (nth j (diffs O x2 x1) zero) (del x2 x1 j) /\ bnd (nth j (diffs O x2 x1) zero) (k + 1).
Proof.
  intros x2 x1 j H2 H1 Hj. pose proof prec_emax as PE. rewrite diffs_nth by assumption. destruct (cok_nth x2 j H2) as [F2 A]. destruct (cok_nth x1 j H1) as [F1 B]. split.
  - apply (val_sub prec emax Hprec Hemax fused Hp8); auto. eapply Rle_trans; [exact (del_le x2 x1 j H2 H1)|]. apply bpow_le. lia.
  - apply (bnd_sub prec emax Hprec Hemax fused Hp2); try (split; assumption). lia.
Qed.

Lemma diffs_bnd : forall x2 x1, cok x2 -> cok x1 -> Forall (fun d => bnd d (k + 1)) (diffs O x2 x1).
Proof.
  intros x2 x1 H2 H1. apply Forall_forall. intros d Hd. apply In_nth with (d := zero) in Hd as (j & Hj & <-). rewrite diffs_length in Hj by assumption.
  now apply diffs_val.
Qed.

Lemma sqd_sym : forall x2 x1, sqd x2 x1 = sqd x1 x2.
Proof. intros x2 x1. unfold sqd. f_equal. apply rsum_ext. intros j _. unfold del. ring. Qed.

Lemma sqd_le : forall x2 x1, cok x2 -> cok x1 -> sqd x2 x1 <= bpow radix2 (2 * k + 4).
Proof.
  intros x2 x1 H2 H1. unfold sqd.
  assert (S : rsum (fun j => del x2 x1 j * del x2 x1 j) (seq 0 n) <= rsum (fun _ => bpow radix2 (2 * k + 2)) (seq 0 n)).
  { apply rsum_le. intros j _. pose proof (del_le x2 x1 j H2 H1) as B. replace (2 * k + 2)%Z with ((k + 1) + (k + 1))%Z by lia. rewrite bpow_plus.
    rewrite <- (Rabs_right (del x2 x1 j * del x2 x1 j)) by (apply Rle_ge, Rle_0_sqr). rewrite Rabs_mult. apply Rmult_le_compat; auto using Rabs_pos. }
  rewrite rsum_const, seq_length in S. assert (I : INR n <= 3) by (replace 3 with (INR 3) by (cbn; lra); apply le_INR; exact Hn3).
  replace (2 * k + 4)%Z with (2 + (2 * k + 2))%Z by lia. rewrite bpow_plus. change (bpow radix2 2) with 4.
  assert (bpow radix2 (2 * k) <= bpow radix2 (2 * k + 2)) by (apply bpow_le; lia). pose proof (bpow_gt_0 radix2 (2 * k + 2)). nra.
Qed.

(** The squared distance of the computed differences. *)
Definition sqh (ds : list bf) : R := B2R eps2 + rsum (fun d => B2R d * B2R d) ds.

Lemma eps_pos : 0 <= B2R eps2.
Proof. destruct Heps as [_ (f & -> & Hf)]. pose proof (g_pos prec Hp8 1). assert (0 < / g ^ 1) by (now apply Rinv_0_lt_compat). apply Rmult_le_pos; lra. Qed.

Lemma eps_bnd : bnd eps2 (2 * k + 1).
Proof.
  destruct Heps as [F N]. split; [exact F|]. destruct (near_bounds prec Hp8 _ _ _ N) as [_ B]. eapply Rle_trans; [exact B|].
  rewrite bpow_double. rewrite (Rabs_right e2) by lra. pose proof (small_128 prec Hp8 1 ltac:(lia)) as S. unfold RoundNear.small in S. pose proof (g_pos prec Hp8 1). nra.
Qed.

Lemma sqh_near : forall x2 x1, cok x2 -> cok x1 -> near 2 (sqh (diffs O x2 x1)) (sqd x2 x1).
Proof.
  intros x2 x1 H2 H1. unfold sqh, sqd. rewrite Rplus_comm. rewrite (rsum_nth _ _ zero), (diffs_length x2 x1 H2 H1).
  apply (near_sum prec Hp8); [|apply (near_mono prec Hp8) with 1%nat; [apply Heps|lia]| |apply He2].
  - assert (I : forall L, (forall j, In j L -> (j < n)%nat) -> near 2 (rsum (fun j => B2R (nth j (diffs O x2 x1) zero) * B2R (nth j (diffs O x2 x1) zero)) L) (rsum (fun j => del x2 x1 j * del x2 x1 j) L)).
    { induction L as [|j L IH]; intros HL; [apply (near_refl prec Hp8)|]. rewrite !rsum_cons. apply (near_sum prec Hp8).
      - destruct (diffs_val x2 x1 j H2 H1 (HL j (or_introl eq_refl))) as [[_ N] _]. exact (near_mul prec Hp8 1 1 _ _ _ _ N N).
      - apply IH. intros i Hi. apply HL. now right.
      - apply Rle_0_sqr.
      - apply rsum_nonneg. intros. apply Rle_0_sqr. }
    apply I. intros j Hj. apply in_seq in Hj. lia.
  - apply rsum_nonneg. intros. apply Rle_0_sqr.
Qed.

(** A computed squared distance. *)
Lemma dist_val : forall x2 x1 (s : bf), cok x2 -> cok x1 -> bpow radix2 (- (2 * k)) <= sqd x2 x1 -> is_finite s = true ->
  approx 5 3 (B2R s) (sqh (diffs O x2 x1)) (sqh (diffs O x2 x1)) -> val 10 s (sqd x2 x1).
Proof.
  intros x2 x1 s H2 H1 HD F A. split; [exact F|]. pose proof (sqh_near x2 x1 H2 H1) as N. pose proof (bpow_gt_0 radix2 (- (2 * k))) as P.
  destruct (near_bounds prec Hp8 _ _ _ N) as [B _]. pose proof (small_128 prec Hp8 2 ltac:(lia)) as S2. unfold RoundNear.small in S2.
  pose proof (g_pos prec Hp8 2) as G2. assert (I2 : / 2 <= / g ^ 2) by (apply Rinv_le_contravar; lra).
  assert (PH : 0 <= sqh (diffs O x2 x1)). { unfold sqh. apply Rplus_le_le_0_compat; [apply eps_pos|]. apply rsum_nonneg. intros. apply Rle_0_sqr. }
  rewrite (Rabs_right (sqh _)), (Rabs_right (sqd _ _)) in B by lra.
  assert (B' : bpow radix2 (- (2 * k) - 1) <= sqh (diffs O x2 x1)).
  { unfold Zminus. rewrite bpow_plus. change (bpow radix2 (-(1))) with (/ 2). nra. }
  apply (near_mono prec Hp8) with ((5 + 2) + 2)%nat; [|lia]. apply (near_trans prec Hp8) with (sqh (diffs O x2 x1)); [|exact N].
  apply (approx_near prec emax Hp8) with 3; auto.
  - pose proof (bpow_gt_0 radix2 (- (2 * k) - 1)). lra.
  - apply Rle_trans with (u * bpow radix2 (- (2 * k) - 1)); [|apply Rmult_le_compat_l; [apply bpow_ge_0|exact B']].
    unfold uR, etaR. rewrite <- bpow_plus. apply Rle_trans with (bpow radix2 2 * bpow radix2 (3 - emax - prec)).
    + apply Rmult_le_compat_r; [apply bpow_ge_0|]. change (bpow radix2 2) with 4. lra.
    + rewrite <- bpow_plus. apply bpow_le. lia.
Qed.

Lemma approx_self : forall e x, 0 <= x -> approx e 0 x x x.
Proof.
  intros e x Hx. unfold Round.approx. rewrite Rminus_eq_0, Rabs_R0. pose proof (g_pow1 prec Hp2 e). assert (0 < eta) by apply bpow_gt_0. nra.
Qed.

Lemma sqh_pos : forall ds : list bf, 0 <= rsum (fun d => B2R d * B2R d) ds.
Proof. intros. apply rsum_nonneg. intros. apply Rle_0_sqr. Qed.

Lemma approx_le : forall e q e' q' s S, approx e q s S S -> (e <= e')%nat -> 0 <= q <= q' -> 0 <= S -> approx e' q' s S S.
Proof. intros. eapply (approx_mono prec emax Hp2); eauto. Qed.

(** ** The expressions used by the code *)

Lemma dist2_s_ok : forall x2 x1, cok x2 -> cok x1 -> bpow radix2 (- (2 * k)) <= sqd x2 x1 -> val 10 (dist2_s O eps2 (diffs O x2 x1)) (sqd x2 x1).
Proof.
  intros x2 x1 H2 H1 HD. pose proof (diffs_bnd x2 x1 H2 H1) as HB. pose proof (diffs_length x2 x1 H2 H1) as HL. unfold dist2_s.
  destruct (fold_fma (diffs O x2 x1) eps2 0 0 (B2R eps2) (2 * k + 2)%Z) as [A1 A2]; auto.
  - eapply bnd_mono; [apply eps_bnd|lia].
  - lia.
  - lia.
  - apply approx_self, eps_pos.
  - apply eps_pos.
  - lra.
  - apply dist_val; auto; [apply A1|]. eapply approx_le; [exact A2|lia| |].
    + rewrite HL. pose proof (pos_INR n). assert (INR n <= 3) by (replace 3 with (INR 3) by (cbn; lra); apply le_INR; exact Hn3). lra.
    + pose proof (sqh_pos (diffs O x2 x1)). pose proof eps_pos. unfold sqh. lra.
Qed.

Lemma dist2_v_ok : forall x2 x1, cok x2 -> cok x1 -> bpow radix2 (- (2 * k)) <= sqd x2 x1 -> val 10 (dist2_v O eps2 (diffs O x2 x1)) (sqd x2 x1).
Proof.
  intros x2 x1 H2 H1 HD. pose proof (dist2_s_ok x2 x1 H2 H1 HD) as S. pose proof (diffs_bnd x2 x1 H2 H1) as HB. pose proof prec_emax as PE.
  assert (V : forall s, is_finite s = true -> approx 5 3 (B2R s) (sqh (diffs O x2 x1)) (sqh (diffs O x2 x1)) -> val 10 s (sqd x2 x1)) by (intros; now apply dist_val).
  destruct (diffs O x2 x1) as [|dx [|dy [|dz [|? ?]]]]; try exact S. clear S. cbn [dist2_v].
  inversion HB as [|? ? Bx HB1]; subst. inversion HB1 as [|? ? By HB2]; subst. inversion HB2 as [|? ? Bz _]; subst.
  destruct (approx_prod dx Bx) as [Px Ax]. destruct (approx_prod dy By) as [Py Ay].
  assert (Qx : 0 <= B2R dx * B2R dx) by (apply Rle_0_sqr). assert (Qy : 0 <= B2R dy * B2R dy) by (apply Rle_0_sqr). pose proof eps_pos as Qe. assert (Qz : 0 <= B2R dz * B2R dz) by (apply Rle_0_sqr).
  destruct (approx_add 1 1 1 _ _ _ _ (2 * k + 2)%Z Px Py ltac:(lia) Ax Ay Qx Qy ltac:(lra) ltac:(lra)) as [Pxy Axy].
  destruct (fold_fma [dz] eps2 0 0 (B2R eps2) (2 * k + 2)%Z) as [Pz Az]; auto; try lia; try lra.
  { eapply bnd_mono; [apply eps_bnd|lia]. } { cbn [length]. lia. } { now apply approx_self. }
  cbn [fold_left length] in Pz, Az. rewrite rsum_cons, rsum_nil, Rplus_0_r in Az. cbn [INR Nat.add] in Az.
  destruct (approx_add 2 (1 + 1) (0 + 1) _ _ _ _ (2 * k + 2 + 1)%Z Pxy Pz ltac:(lia) Axy Az ltac:(lra) ltac:(lra) ltac:(lra) ltac:(lra)) as [P A].
  apply V; [apply P|]. unfold sqh. rewrite !rsum_cons, rsum_nil.
  replace (B2R eps2 + (B2R dx * B2R dx + (B2R dy * B2R dy + (B2R dz * B2R dz + 0)))) with (B2R dx * B2R dx + B2R dy * B2R dy + (B2R eps2 + B2R dz * B2R dz)) by ring.
  eapply approx_le; [exact A|lia|lra|lra].
Qed.

Lemma mac_dist2_ok : forall c simd x2 x1, cok x2 -> cok x1 -> bpow radix2 (- (2 * k)) <= sqd x2 x1 ->
  val 10 (fadd O (mac_dist2 O c simd (diffs O x2 x1)) eps2) (sqd x2 x1).
Proof.
  intros c simd x2 x1 H2 H1 HD. pose proof (diffs_bnd x2 x1 H2 H1) as HB. pose proof (diffs_length x2 x1 H2 H1) as HL. pose proof prec_emax as PE. pose proof eps_pos as Qe.
  assert (V : forall s, is_finite s = true -> approx 5 3 (B2R s) (sqh (diffs O x2 x1)) (sqh (diffs O x2 x1)) -> val 10 s (sqd x2 x1)) by (intros; now apply dist_val).
  assert (S : val 10 (fadd O (fold_left (fun s d => ffma O d d s) (diffs O x2 x1) zero) eps2) (sqd x2 x1)).
  { assert (In : 0 <= INR n <= 3) by (split; [apply pos_INR|replace 3 with (INR 3) by (cbn; lra); apply le_INR; exact Hn3]).
    destruct (fold_fma (diffs O x2 x1) zero 0 0 0 (2 * k + 2)%Z) as [A1 A2]; auto; try lia; try lra.
    - split; [reflexivity|]. rewrite (B2R_zero prec emax Hprec Hemax fused), Rabs_R0. apply bpow_ge_0.
    - rewrite (B2R_zero prec emax Hprec Hemax fused). apply approx_self. lra.
    - rewrite !Rplus_0_l in A2. pose proof (sqh_pos (diffs O x2 x1)) as Q. rewrite HL in A1, A2.
      pose proof (approx_le _ _ 4 3 _ _ A2 ltac:(lia) ltac:(lra) Q) as A2'.
      destruct (approx_add 4 3 0 _ eps2 _ (B2R eps2) (2 * k + 5)%Z (bnd_mono _ _ _ _ (2 * k + 5)%Z A1 ltac:(lia)) (bnd_mono _ _ _ _ (2 * k + 5)%Z eps_bnd ltac:(lia)) ltac:(lia)
        A2' (approx_self 4 _ Qe) Q Qe ltac:(lra) ltac:(lra)) as [P A].
      apply V; [apply P|]. unfold sqh. rewrite Rplus_comm. eapply approx_le; [exact A|lia|lra|lra]. }
  unfold mac_dist2. destruct (negb _); [exact S|].
  destruct (diffs O x2 x1) as [|dx [|dy [|dz [|? ?]]]]; try exact S. clear S.
  inversion HB as [|? ? Bx HB1]; subst. inversion HB1 as [|? ? By HB2]; subst. inversion HB2 as [|? ? Bz _]; subst.
  destruct (approx_prod dx Bx) as [Px Ax]. destruct (approx_prod dy By) as [Py Ay]. destruct (approx_prod dz Bz) as [Pz Az].
  assert (Qx : 0 <= B2R dx * B2R dx) by (apply Rle_0_sqr). assert (Qy : 0 <= B2R dy * B2R dy) by (apply Rle_0_sqr). assert (Qz : 0 <= B2R dz * B2R dz) by (apply Rle_0_sqr).
  destruct (approx_add 1 1 1 _ _ _ _ (2 * k + 2)%Z Px Py ltac:(lia) Ax Ay Qx Qy ltac:(lra) ltac:(lra)) as [Pxy Axy].
  pose proof (approx_le _ _ 2 1 _ _ Az ltac:(lia) ltac:(lra) Qz) as Az'.
  destruct (approx_add 2 (1 + 1) 1 _ _ _ _ (2 * k + 2 + 1)%Z Pxy (bnd_mono _ _ _ _ (2 * k + 2 + 1)%Z Pz ltac:(lia)) ltac:(lia) Axy Az' ltac:(lra) ltac:(lra) ltac:(lra) ltac:(lra)) as [P A].
  destruct (approx_add 3 (1 + 1 + 1) 0 _ eps2 _ (B2R eps2) (2 * k + 2 + 1 + 1)%Z P (bnd_mono _ _ _ _ (2 * k + 2 + 1 + 1)%Z eps_bnd ltac:(lia)) ltac:(lia) A (approx_self 3 _ Qe) ltac:(lra) ltac:(lra) ltac:(lra) ltac:(lra)) as [P' A'].
  apply V; [apply P'|]. unfold sqh. rewrite !rsum_cons, rsum_nil.
  replace (B2R eps2 + (B2R dx * B2R dx + (B2R dy * B2R dy + (B2R dz * B2R dz + 0)))) with (B2R dx * B2R dx + B2R dy * B2R dy + B2R dz * B2R dz + B2R eps2) by ring.
  eapply approx_le; [exact A'|lia|lra|lra].
Qed.

(** * Interactions *)

Variable c : Morton.cfg.
Variable simd : option nat.
Variable K : platform bf.
Hypothesis Hdim : Morton.dim c = n.
(** The inverse square root of the vector instructions, when it is used: at most [r] rounding errors. *)
Variable r : nat.
Hypothesis Hr : (r <= 32)%nat.
Definition fast_ok : Prop := forall f, fast_inv_sqrt O K = Some f -> forall x : bf, is_finite x = true ->
  bpow radix2 (- (2 * k) - 1) <= B2R x <= bpow radix2 (2 * k + 5) -> val r (f x) (/ sqrt (B2R x)).
Hypothesis Hfast : fast_ok.

Notation prow := (@prow bf).
Notation rrow := (@rrow bf).

Definition mok (m : bf) : Prop := is_finite m = true /\ rng (- k) k (B2R m).
Definition pok (p : prow) : Prop := cok (fst p) /\ mok (snd p).
Definition pair_ok (p1 p2 : prow) : Prop := pok p1 /\ pok p2 /\ bpow radix2 (- (2 * k)) <= sqd (fst p2) (fst p1).

(** The exact potential energy and acceleration of the particle 1 due to 2. *)
Definition dst (p1 p2 : prow) : R := sqrt (sqd (fst p2) (fst p1)).
Definition Tpot (p1 p2 : prow) : R := - (B2R (snd p1) * B2R (snd p2) / dst p1 p2).
Definition Tacc (j : nat) (p1 p2 : prow) : R := B2R (snd p2) * del (fst p2) (fst p1) j / (dst p1 p2 * dst p1 p2 * dst p1 p2).

(** One addition to a result: by a subtraction or by a multiplication and addition. *)
Definition astep (p p' : bf) (t : R) : Prop :=
  (exists x, p' = fsub O p x /\ is_finite x = true /\ t = - B2R x) \/
  (exists a b, p' = ffma O a b p /\ is_finite a = true /\ is_finite b = true /\ t = B2R a * B2R b).

Lemma pair_sym : forall p1 p2, pair_ok p1 p2 -> pair_ok p2 p1.
Proof. intros p1 p2 (H1 & H2 & H). split; [exact H2|]. split; [exact H1|]. now rewrite sqd_sym. Qed.

Lemma dst_sym : forall p1 p2, dst p1 p2 = dst p2 p1.
Proof. intros. unfold dst. now rewrite sqd_sym. Qed.

Section Pair.

Variables p1 p2 : prow.
Hypothesis HP : pair_ok p1 p2.

Notation D2 := (sqd (fst p2) (fst p1)).
Notation D := (dst p1 p2).
Notation M1 := (B2R (snd p1)).
Notation M2 := (B2R (snd p2)).

Lemma D2_pos : 0 < D2.
Proof. destruct HP as (_ & _ & H). pose proof (bpow_gt_0 radix2 (- (2 * k))). lra. Qed.

Lemma D_pos : 0 < D.
Proof. apply sqrt_lt_R0, D2_pos. Qed.

Lemma D_sq : D * D = D2.
Proof. apply sqrt_sqrt. pose proof D2_pos. lra. Qed.

Lemma D2_rng : rng (- (2 * k)) (2 * k + 4) D2.
Proof.
  destruct HP as ([H1 _] & [H2 _] & H). right. rewrite Rabs_right by (pose proof D2_pos; lra). split; [exact H|]. now apply sqd_le.
Qed.

Lemma D_rng : rng (- k) (k + 2) D.
Proof.
  right. rewrite Rabs_right by (pose proof D_pos; lra). destruct D2_rng as [Z|[A B]]; [pose proof D2_pos; lra|].
  rewrite Rabs_right in A, B by (pose proof D2_pos; lra). unfold dst.
  assert (E : forall a, sqrt (bpow radix2 (2 * a)) = bpow radix2 a).
  { intros a. replace (2 * a)%Z with (a + a)%Z by lia. rewrite bpow_plus. apply sqrt_square, bpow_ge_0. }
  split; [rewrite <- (E (- k)%Z)|rewrite <- (E (k + 2)%Z)]; apply sqrt_le_1_alt.
  - now replace (2 * - k)%Z with (- (2 * k))%Z by lia.
  - now replace (2 * (k + 2))%Z with (2 * k + 4)%Z by lia.
Qed.

Ltac rg := eapply rng_okr; [repeat first [apply rng_mul|apply rng_div|apply rng_inv|apply rng_opp|exact D_rng|exact D2_rng|eassumption]|lia|lia].
Ltac sm := apply (small_128 prec Hp8); lia.

Variable d2 : bf.
Hypothesis Hd2 : val 10 d2 D2.

Lemma m1_rng : rng (- k) k M1.
Proof. apply HP. Qed.
Lemma m2_rng : rng (- k) k M2.
Proof. apply HP. Qed.
Lemma m1_val : val 0 (snd p1) M1.
Proof. apply val_self; [exact Hp8|]. apply HP. Qed.
Lemma m2_val : val 0 (snd p2) M2.
Proof. apply val_self; [exact Hp8|]. apply HP. Qed.

Lemma dist_ok : val 6 (fsqrt O d2) D.
Proof. apply (val_sqrt prec emax Hprec Hemax fused Hp8 5); [exact Hd2|apply D2_pos|sm|rg]. Qed.

Lemma dist3_ok : val 17 (fmul O (fsqrt O d2) d2) (D * D * D) /\ val 17 (fmul O d2 (fsqrt O d2)) (D * D * D).
Proof.
  pose proof dist_ok as S. rewrite D_sq. split.
  - rewrite Rmult_comm. replace (D2 * D) with (D * D2) by ring. apply (val_mul prec emax Hprec Hemax fused Hp8 6 10); auto; [sm|rg].
  - apply (val_mul prec emax Hprec Hemax fused Hp8 10 6); auto; [sm|rg].
Qed.

Lemma inv_ok : forall f, fast_inv_sqrt O K = Some f -> val (r + 5) (f d2) (/ D).
Proof.
  intros f Hf. destruct Hd2 as [F N].
  destruct D2_rng as [Z|[A B]]; [pose proof D2_pos; lra|]. rewrite Rabs_right in A, B by (pose proof D2_pos; lra).
  destruct (near_bounds prec Hp8 _ _ _ N) as [B1 B2]. rewrite (Rabs_right D2) in B1, B2 by (pose proof D2_pos; lra).
  pose proof (small_128 prec Hp8 10 ltac:(lia)) as S. unfold RoundNear.small in S. pose proof (g_pos prec Hp8 10) as G. assert (I : / 2 <= / g ^ 10) by (apply Rinv_le_contravar; lra).
  assert (P : 0 < B2R d2).
  { destruct N as (h & -> & Hh). apply Rmult_lt_0_compat; [apply D2_pos|lra]. }
  rewrite (Rabs_right (B2R d2)) in B1, B2 by lra. pose proof D2_pos as P2.
  destruct (Hfast f Hf d2 F) as [F' N'].
  - split.
    + unfold Zminus. rewrite bpow_plus. change (bpow radix2 (-(1))) with (/ 2). eapply Rle_trans; [|exact B1]. apply Rmult_le_compat; try lra. apply bpow_ge_0.
    + replace (2 * k + 5)%Z with (2 * k + 4 + 1)%Z by lia. rewrite bpow_plus. change (bpow radix2 1) with 2. eapply Rle_trans; [exact B2|]. apply Rmult_le_compat; lra.
  - split; [exact F'|]. apply (near_trans prec Hp8) with (/ sqrt (B2R d2)); [exact N'|]. apply (near_inv prec Hp8). apply (near_sqrt prec Hp8); [exact N|lra].
Qed.

Lemma iD_rng : rng (- (k + 2)) k (/ D).
Proof. replace k with (- - k)%Z at 2 by lia. apply rng_inv. apply D_rng. Qed.

Lemma cube_ok : forall f, fast_inv_sqrt O K = Some f -> val (3 * r + 17) (cube O (f d2)) (/ D * / D * / D).
Proof.
  intros f Hf. pose proof (inv_ok f Hf) as V. pose proof iD_rng as R. unfold cube.
  replace (3 * r + 17)%nat with (S ((S ((r + 5) + (r + 5))) + (r + 5))) by lia.
  apply (val_mul prec emax Hprec Hemax fused Hp8); [apply (val_mul prec emax Hprec Hemax fused Hp8)| | |]; auto; try (sm).
  - eapply rng_okr; [apply rng_mul; exact R|lia|lia].
  - eapply rng_okr; [apply rng_mul; [apply rng_mul|]; exact R|lia|lia].
Qed.

(** Quotients of a mass and (the cube of) the distance. *)
Lemma quot_ok : forall (m : bf), mok m -> val 7 (fdiv O m (fsqrt O d2)) (B2R m / D).
Proof.
  intros m [F R]. apply (val_div prec emax Hprec Hemax fused Hp8 0 6); [now apply val_self|apply dist_ok|pose proof D_pos; lra|sm|].
  rg.
Qed.

Lemma D3_rng : rng (- (3 * k)) (3 * k + 6) (D * D * D).
Proof. eapply rng_mono; [apply rng_mul; [apply rng_mul|]; exact D_rng|lia|lia]. Qed.

Lemma quot3_ok : forall (m : bf), mok m ->
  val 18 (fdiv O m (fmul O (fsqrt O d2) d2)) (B2R m / (D * D * D)) /\ val 18 (fdiv O m (fmul O d2 (fsqrt O d2))) (B2R m / (D * D * D)).
Proof.
  intros m [F R]. destruct dist3_ok as [A B]. pose proof D_pos as P. assert (N : D * D * D <> 0) by (assert (0 < D * D * D) by (repeat apply Rmult_lt_0_compat; exact P); lra).
  assert (Q : okr (B2R m / (D * D * D))) by (eapply rng_okr; [apply rng_div; [exact R|exact D3_rng]|lia|lia]).
  split; apply (val_div prec emax Hprec Hemax fused Hp8 0 17); auto; try sm; now apply val_self.
Qed.

Lemma quotf_ok : forall f (m : bf), fast_inv_sqrt O K = Some f -> mok m -> val (r + 6) (fmul O m (f d2)) (B2R m / D).
Proof.
  intros f m Hf [F R]. replace (r + 6)%nat with (S (0 + (r + 5))) by lia.
  apply (val_mul prec emax Hprec Hemax fused Hp8); [now apply val_self|now apply inv_ok|sm|]. fold (B2R m / D). rg.
Qed.

Lemma quotf3_ok : forall f (m : bf), fast_inv_sqrt O K = Some f -> mok m -> val (3 * r + 18) (fmul O m (cube O (f d2))) (B2R m / (D * D * D)).
Proof.
  intros f m Hf [F R]. replace (3 * r + 18)%nat with (S (0 + (3 * r + 17))) by lia.
  assert (E : B2R m / (D * D * D) = B2R m * (/ D * / D * / D)) by (pose proof D_pos; field; lra). rewrite E.
  apply (val_mul prec emax Hprec Hemax fused Hp8); [now apply val_self|now apply cube_ok|sm|]. rewrite <- E.
  eapply rng_okr; [apply rng_div; [exact R|exact D3_rng]|lia|lia].
Qed.

(** Steps. *)
Definition cpot : nat := 8 + r.
Definition cacc : nat := 19 + 3 * r.

Lemma pot_sub : forall (p x : bf) a q m, val a q (B2R m / D) -> is_finite m = true -> mok m -> rng (- k) k M2 -> (a <= r + 7)%nat ->
  M1 = B2R m -> x = fmul O q (snd p2) -> exists t, astep p (fsub O p x) t /\ near cpot t (Tpot p1 p2).
Proof.
  intros p x a q m Vq Fm Hm R2 Ha E1 ->. exists (- B2R (fmul O q (snd p2))).
  assert (V : val (S (a + 0)) (fmul O q (snd p2)) (B2R m / D * M2)).
  { apply (val_mul prec emax Hprec Hemax fused Hp8); [exact Vq|apply m2_val|sm|]. destruct Hm as [_ Hm]. eapply rng_okr; [apply rng_mul; [apply rng_div; [exact Hm|exact D_rng]|exact R2]|lia|lia]. }
  split; [left; eexists; split; [reflexivity|]; split; [apply V|reflexivity]|].
  apply (near_mono prec Hp8) with (S (a + 0)); [|unfold cpot; lia].
  unfold Tpot. apply (near_opp prec). destruct V as [_ V]. replace (M1 * M2 / D) with (B2R m / D * M2) by (rewrite E1; unfold Rdiv; ring). exact V.
Qed.

Lemma pot_fma : forall (p q : bf) a, val a q (M2 / D) -> (a <= cpot)%nat -> exists t, astep p (ffma O (fopp O (snd p1)) q p) t /\ near cpot t (Tpot p1 p2).
Proof.
  intros p q a Vq Ha. exists (B2R (fopp O (snd p1)) * B2R q). split.
  - right. eexists _, _. split; [reflexivity|]. split; [|split; [apply Vq|reflexivity]]. cbn [fopp Bops]. rewrite is_finite_Bopp. apply m1_val.
  - apply (near_mono prec Hp8) with a; [|exact Ha]. unfold Tpot. cbn [fopp Bops]. rewrite B2R_Bopp. rewrite Ropp_mult_distr_l_reverse. apply (near_opp prec).
    destruct Vq as [_ N]. replace (M1 * M2 / D) with (M1 * (M2 / D)) by (unfold Rdiv; ring). exact (near_mul prec Hp8 0 a _ _ _ _ (near_refl prec Hp8 0 _) N).
Qed.

Lemma acc_fma : forall j (p d q : bf) a, val a q (M2 / (D * D * D)) -> (S a <= cacc)%nat -> val 1 d (del (fst p2) (fst p1) j) ->
  (exists t, astep p (ffma O d q p) t /\ near cacc t (Tacc j p1 p2)) /\ (exists t, astep p (ffma O q d p) t /\ near cacc t (Tacc j p1 p2)).
Proof.
  intros j p d q a Vq Ha Vd.
  assert (N : near cacc (B2R q * B2R d) (Tacc j p1 p2)).
  { apply (near_mono prec Hp8) with (a + 1)%nat; [|lia]. unfold Tacc.
    replace (M2 * del (fst p2) (fst p1) j / (D * D * D)) with (M2 / (D * D * D) * del (fst p2) (fst p1) j) by (unfold Rdiv; ring).
    apply (near_mul prec Hp8); [apply Vq|apply Vd]. }
  split.
  - exists (B2R d * B2R q). split; [right; eexists _, _; split; [reflexivity|]; split; [apply Vd|split; [apply Vq|reflexivity]]|]. now rewrite Rmult_comm.
  - exists (B2R q * B2R d). split; [right; eexists _, _; split; [reflexivity|]; split; [apply Vq|split; [apply Vd|reflexivity]]|]. exact N.
Qed.

Lemma acc_fma1 : forall j (p d q : bf) a, val a q (M2 / (D * D * D)) -> (S a <= cacc)%nat -> val 1 d (del (fst p2) (fst p1) j) ->
  exists t, astep p (ffma O d q p) t /\ near cacc t (Tacc j p1 p2).
Proof. intros j p d q a H1 H2 H3. exact (proj1 (acc_fma j p d q a H1 H2 H3)). Qed.

Lemma acc_fma2 : forall j (p d q : bf) a, val a q (M2 / (D * D * D)) -> (S a <= cacc)%nat -> val 1 d (del (fst p2) (fst p1) j) ->
  exists t, astep p (ffma O q d p) t /\ near cacc t (Tacc j p1 p2).
Proof. intros j p d q a H1 H2 H3. exact (proj2 (acc_fma j p d q a H1 H2 H3)). Qed.

End Pair.

(** The results have [n] accelerations, or none, and one potential, or none. *)
Definition shp (q : quant) (a : rrow) : Prop := length (fst a) = (if has_acc q then n else 0%nat) /\ length (snd a) = (if has_pot q then 1%nat else 0%nat).

(** [a'] is [a] with the interaction of [p1] with [p2] added. *)
Definition rstep (q : quant) (p1 p2 : prow) (a a' : rrow) : Prop :=
  shp q a' /\
  (has_acc q = true -> forall j, (j < n)%nat -> exists t, astep (nth j (fst a) zero) (nth j (fst a') zero) t /\ near cacc t (Tacc j p1 p2)) /\
  (has_pot q = true -> exists t, astep (nth 0 (snd a) zero) (nth 0 (snd a') zero) t /\ near cpot t (Tpot p1 p2)).

Lemma rstep_make : forall q p1 p2 a f h ds, shp q a -> length ds = n ->
  (forall j v, (j < n)%nat -> exists t, astep v (f (nth j ds zero, v)) t /\ near cacc t (Tacc j p1 p2)) ->
  (forall v, exists t, astep v (h v) t /\ near cpot t (Tpot p1 p2)) ->
  rstep q p1 p2 a (map f (combine ds (fst a)), map h (snd a)).
Proof.
  intros q p1 p2 a f h ds [S1 S2] L Hf Hh. split; [|split].
  - split; cbn [fst snd]; [rewrite map_length, combine_length, S1; destruct (has_acc q); lia|now rewrite map_length].
  - intros Hq j Hj. rewrite Hq in S1. cbn [fst]. rewrite nth_zip_map with (d1 := zero) (d2 := zero) by lia. now apply Hf.
  - intros Hq. rewrite Hq in S2. cbn [snd]. rewrite (nth_indep (map h (snd a)) zero (h zero)) by (rewrite map_length; lia). rewrite map_nth. apply Hh.
Qed.

Lemma dist2_cases : forall p1 p2, pair_ok p1 p2 -> val 10 (dist2_s O eps2 (diffs O (fst p2) (fst p1))) (sqd (fst p2) (fst p1)) /\
  val 10 (dist2_v O eps2 (diffs O (fst p2) (fst p1))) (sqd (fst p2) (fst p1)).
Proof. intros p1 p2 ([H1 _] & [H2 _] & H). split; [now apply dist2_s_ok|now apply dist2_v_ok]. Qed.

Lemma opp_diff : forall p1 p2 j, pair_ok p1 p2 -> (j < n)%nat -> val 1 (fopp O (nth j (diffs O (fst p2) (fst p1)) zero)) (del (fst p1) (fst p2) j).
Proof.
  intros p1 p2 j ([H1 _] & [H2 _] & _) Hj. replace (del (fst p1) (fst p2) j) with (- del (fst p2) (fst p1) j) by (unfold del; ring).
  apply (val_opp prec emax Hprec Hemax fused). now apply diffs_val.
Qed.

Lemma self_step : forall q p1 p2 a b, pair_ok p1 p2 ->
  (shp q a -> rstep q p1 p2 a (fst (self_pair O c simd K q eps2 p1 p2 a b))) /\
  (shp q b -> rstep q p2 p1 b (snd (self_pair O c simd K q eps2 p1 p2 a b))).
Proof.
  intros q p1 p2 a b HP. destruct (dist2_cases p1 p2 HP) as [Vs Vv]. pose proof (pair_sym p1 p2 HP) as HP'. pose proof HP as ((C1 & Om1) & (C2 & Om2) & _).
  pose proof (diffs_length (fst p2) (fst p1) C2 C1) as L.
  assert (Vd : forall j, (j < n)%nat -> val 1 (nth j (diffs O (fst p2) (fst p1)) zero) (del (fst p2) (fst p1) j)) by (intros; now apply diffs_val).
  assert (R1 : rng (- k) k (B2R (snd p1))) by apply Om1. assert (R2 : rng (- k) k (B2R (snd p2))) by apply Om2.
  assert (Fm : is_finite (snd p1) = true) by apply Om1.
  assert (ET : Tpot p2 p1 = Tpot p1 p2) by (unfold Tpot; rewrite (dst_sym p2 p1); unfold Rdiv; ring).
  unfold self_pair. destruct (negb _) eqn:Ev; cbv zeta.
  - set (ds := diffs O (fst p2) (fst p1)) in *. set (d2 := dist2_s O eps2 ds) in *. cbn [fst snd]. split; intros Sh; apply rstep_make; auto.
    + intros j v Hj. apply (acc_fma2 p1 p2 j v _ _ 18); auto; [|unfold cacc; lia]. now apply (quot3_ok p1 p2 HP d2 Vs).
    + intros v. apply (pot_sub p1 p2 HP v _ 7 (fdiv O (snd p1) (fsqrt O d2)) (snd p1)); auto; [|lia]. now apply (quot_ok p1 p2 HP d2 Vs).
    + intros j v Hj. apply (acc_fma2 p2 p1 j v _ _ 18); [|unfold cacc; lia|now apply opp_diff].
      rewrite (dst_sym p2 p1). now apply (quot3_ok p1 p2 HP d2 Vs).
    + intros v. rewrite ET. apply (pot_sub p1 p2 HP v _ 7 (fdiv O (snd p1) (fsqrt O d2)) (snd p1)); auto; [|lia]. now apply (quot_ok p1 p2 HP d2 Vs).
  - set (ds := diffs O (fst p2) (fst p1)) in *. set (d2 := dist2_v O eps2 ds) in *.
    assert (FN : forall j v x, (j < n)%nat -> val (18 + 3 * r) x (B2R (snd p1) / (dst p2 p1 * dst p2 p1 * dst p2 p1)) ->
      exists t, astep v (fnma O (nth j ds zero) x v) t /\ near cacc t (Tacc j p2 p1)).
    { intros j v x Hj Vx. unfold fnma. apply (acc_fma1 p2 p1 j v _ _ (18 + 3 * r)); [exact Vx|unfold cacc; lia|now apply opp_diff]. }
    destruct (fast_inv_sqrt O K) as [f|] eqn:Ef; cbn [fst snd]; unfold axpy; split; intros Sh; apply rstep_make; auto.
    + intros j v Hj. apply (acc_fma1 p1 p2 j v _ _ (3 * r + 18)); auto; [|unfold cacc; lia]. now apply (quotf3_ok p1 p2 HP d2 Vv).
    + intros v. apply (pot_sub p1 p2 HP v _ (r + 6) (fmul O (snd p1) (f d2)) (snd p1)); auto; [|lia]. now apply (quotf_ok p1 p2 HP d2 Vv).
    + intros j v Hj. apply FN; [exact Hj|]. rewrite (dst_sym p2 p1). replace (18 + 3 * r)%nat with (3 * r + 18)%nat by lia. now apply (quotf3_ok p1 p2 HP d2 Vv).
    + intros v. rewrite ET. apply (pot_sub p1 p2 HP v _ (r + 6) (fmul O (snd p1) (f d2)) (snd p1)); auto; [|lia]. now apply (quotf_ok p1 p2 HP d2 Vv).
    + intros j v Hj. apply (acc_fma1 p1 p2 j v _ _ 18); auto; [|unfold cacc; lia]. now apply (quot3_ok p1 p2 HP d2 Vv).
    + intros v. apply (pot_sub p1 p2 HP v _ 7 (fdiv O (snd p1) (fsqrt O d2)) (snd p1)); auto; [|lia]. now apply (quot_ok p1 p2 HP d2 Vv).
    + intros j v Hj. apply FN; [exact Hj|]. apply val_mono with 18%nat; [exact Hp8| |lia]. rewrite (dst_sym p2 p1). now apply (quot3_ok p1 p2 HP d2 Vv).
    + intros v. rewrite ET. apply (pot_sub p1 p2 HP v _ 7 (fdiv O (snd p1) (fsqrt O d2)) (snd p1)); auto; [|lia]. now apply (quot_ok p1 p2 HP d2 Vv).
Qed.

Lemma leaf_step : forall q p1 p2 a, pair_ok p1 p2 -> shp q a -> rstep q p1 p2 a (leaf_pair O c simd K q eps2 p1 p2 a).
Proof.
  intros q p1 p2 a HP Sh. destruct (dist2_cases p1 p2 HP) as [Vs Vv]. pose proof HP as ((C1 & Om1) & (C2 & Om2) & _).
  pose proof (diffs_length (fst p2) (fst p1) C2 C1) as L.
  assert (Vd : forall j, (j < n)%nat -> val 1 (nth j (diffs O (fst p2) (fst p1)) zero) (del (fst p2) (fst p1) j)) by (intros; now apply diffs_val).
  assert (R1 : rng (- k) k (B2R (snd p1))) by apply Om1. assert (R2 : rng (- k) k (B2R (snd p2))) by apply Om2.
  assert (Fm : is_finite (snd p1) = true) by apply Om1.
  unfold leaf_pair. destruct (negb _) eqn:Ev; cbv zeta; set (ds := diffs O (fst p2) (fst p1)) in *.
  - set (d2 := dist2_s O eps2 ds) in *. unfold axpy. apply rstep_make; auto.
    + intros j v Hj. apply (acc_fma1 p1 p2 j v _ _ 18); auto; [|unfold cacc; lia]. now apply (quot3_ok p1 p2 HP d2 Vs).
    + intros v. apply (pot_fma p1 p2 HP v _ 7); [|unfold cpot; lia]. now apply (quot_ok p1 p2 HP d2 Vs).
  - set (d2 := dist2_v O eps2 ds) in *. pose proof Sh as [S1 S2]. destruct q.
    + assert (X : rstep QAcc p1 p2 a (axpy O ds (match fast_inv_sqrt O K with Some inv_sqrt => fmul O (snd p2) (cube O (inv_sqrt d2)) | None => fdiv O (snd p2) (fmul O (fsqrt O d2) d2) end) (fst a),
        map (fun p => ffma O (fopp O (snd p1)) (fdiv O (snd p2) (fsqrt O d2)) p) (snd a))).
      { unfold axpy. apply rstep_make; auto.
        - intros j v Hj. apply (acc_fma1 p1 p2 j v _ _ (18 + 3 * r)); [|unfold cacc; lia|auto].
          destruct (fast_inv_sqrt O K) as [f|] eqn:Ef; [replace (18 + 3 * r)%nat with (3 * r + 18)%nat by lia; now apply (quotf3_ok p1 p2 HP d2 Vv)|].
          apply val_mono with 18%nat; [exact Hp8| |lia]. now apply (quot3_ok p1 p2 HP d2 Vv).
        - intros v. apply (pot_fma p1 p2 HP v _ 7); [|unfold cpot; lia]. now apply (quot_ok p1 p2 HP d2 Vv). }
      cbn [has_pot] in S2. destruct (snd a) as [|? ?] eqn:Es; [|discriminate]. exact X.
    + cbn [has_acc] in S1. destruct a as [[|? ?] b]; [|discriminate]. cbn [fst snd] in *.
      assert (EN : forall A (f : bf * bf -> A), [] = map f (combine ds [])) by (intros A f; destruct ds; reflexivity).
      rewrite (EN _ (fun '(d, v) => ffma O d (fdiv O (snd p2) (fmul O (fsqrt O d2) d2)) v)) at 2.
      apply (rstep_make QPot p1 p2 ([], b) (fun '(d, v) => ffma O d (fdiv O (snd p2) (fmul O (fsqrt O d2) d2)) v) _ ds); auto.
      * intros j v Hj. apply (acc_fma1 p1 p2 j v _ _ 18); auto; [|unfold cacc; lia]. now apply (quot3_ok p1 p2 HP d2 Vv).
      * intros v. destruct (fast_inv_sqrt O K) as [f|] eqn:Ef.
        -- apply (pot_sub p1 p2 HP v _ (r + 6) (fmul O (snd p1) (f d2)) (snd p1)); auto; [|lia]. now apply (quotf_ok p1 p2 HP d2 Vv).
        -- apply (pot_sub p1 p2 HP v _ 7 (fdiv O (snd p1) (fsqrt O d2)) (snd p1)); auto; [|lia]. now apply (quot_ok p1 p2 HP d2 Vv).
    + destruct (fast_inv_sqrt O K) as [f|] eqn:Ef; unfold axpy; apply rstep_make; auto.
      * intros j v Hj. apply (acc_fma1 p1 p2 j v _ _ (3 * r + 18)); auto; [|unfold cacc; lia]. now apply (quotf3_ok p1 p2 HP d2 Vv).
      * intros v. apply (pot_fma p1 p2 HP v _ (r + 6)); [|unfold cpot; lia]. now apply (quotf_ok p1 p2 HP d2 Vv).
      * intros j v Hj. apply (acc_fma1 p1 p2 j v _ _ 18); auto; [|unfold cacc; lia]. now apply (quot3_ok p1 p2 HP d2 Vv).
      * intros v. apply (pot_fma p1 p2 HP v _ 7); [|unfold cpot; lia]. now apply (quot_ok p1 p2 HP d2 Vv).
Qed.

Lemma com_step : forall q p1 com ms a, pair_ok p1 (com, ms) -> shp q a ->
  rstep q p1 (com, ms) a (com_pair O c simd K ms p1 (snd (mac_lane O c simd K eps2 com p1)) a).
Proof.
  intros q p1 com ms a HP Sh. pose proof HP as ((C1 & Om1) & (C2 & Om2) & HD). cbn [fst snd] in C2, Om2, HD.
  pose proof (mac_dist2_ok c simd com (fst p1) C2 C1 HD) as Vm.
  pose proof (diffs_length com (fst p1) C2 C1) as L.
  assert (Vd : forall j, (j < n)%nat -> val 1 (nth j (diffs O com (fst p1)) zero) (del com (fst p1) j)) by (intros; now apply diffs_val).
  unfold com_pair, mac_lane. cbv zeta. cbn [snd]. set (ds := diffs O com (fst p1)) in *. set (d2 := fadd O (mac_dist2 O c simd ds) eps2) in *.
  assert (Q7 : val 7 (fdiv O ms (fsqrt O d2)) (B2R (snd (com, ms)) / dst p1 (com, ms))) by (now apply (quot_ok p1 (com, ms) HP d2 Vm)).
  assert (Q18 : val 18 (fdiv O ms (fmul O (fsqrt O d2) d2)) (B2R (snd (com, ms)) / (dst p1 (com, ms) * dst p1 (com, ms) * dst p1 (com, ms)))) by (now apply (quot3_ok p1 (com, ms) HP d2 Vm)).
  assert (X : forall f h, (forall j v, (j < n)%nat -> exists t, astep v (f (nth j ds zero, v)) t /\ near cacc t (Tacc j p1 (com, ms))) ->
    (forall v, exists t, astep v (h v) t /\ near cpot t (Tpot p1 (com, ms))) -> rstep q p1 (com, ms) a (map f (combine ds (fst a)), map h (snd a))).
  { intros f h. now apply rstep_make. }
  destruct (vectorised c simd); [destruct (fast_inv_sqrt O K) as [f|] eqn:Ef|]; cbn [negb tmp_diffs tmp_dist3 tmp_dist]; unfold axpy, fnma; apply X.
  - intros j v Hj. apply (acc_fma1 p1 (com, ms) j v _ _ (3 * r + 18)); auto; [|unfold cacc; lia]. now apply (quotf3_ok p1 (com, ms) HP d2 Vm).
  - intros v. apply (pot_fma p1 (com, ms) HP v _ (r + 6)); [|unfold cpot; lia]. now apply (quotf_ok p1 (com, ms) HP d2 Vm).
  - intros j v Hj. apply (acc_fma1 p1 (com, ms) j v _ _ 18); auto. unfold cacc; lia.
  - intros v. apply (pot_fma p1 (com, ms) HP v _ 7); [exact Q7|unfold cpot; lia].
  - intros j v Hj. apply (acc_fma1 p1 (com, ms) j v _ _ 18); auto. unfold cacc; lia.
  - intros v. apply (pot_fma p1 (com, ms) HP v _ 7); [exact Q7|unfold cpot; lia].
Qed.

End IEEE.
