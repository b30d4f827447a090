(** Data of the examples of the properties C66 and C67; models no code. *)
From Coq Require Import List Arith ZArith NArith Reals Bool Lra Lia.
From Flocq Require Import Core BinarySingleNaN.
From Verif Require Import Base Config Morton Build FOps FOpsProofs Disc NodeProps Tree TreeInv TreeProofs TreeSafe TreeEx RSum NodesR Kernels KernR Force ForceEx.
Import ListNotations.
Local Open Scope R_scope.

(** A positive number between 2^-100 and 2^24. *)
Definition small_pos (x : binary_float 24 128) : bool :=
  match B2SF x with SpecFloat.S754_finite false m e => (Z.pos m <? 2 ^ 24)%Z && (-100 <=? e)%Z && (e <? 0)%Z | _ => false end.
Lemma small_pos_B2R : forall x, small_pos x = true -> is_finite x = true /\ 0 < B2R x /\ bpow radix2 (-100) <= B2R x <= bpow radix2 24.
Proof.
  intros [|[|]| |[|] m e B]; unfold small_pos; cbn [B2SF]; try discriminate. intros H. apply andb_true_iff in H as [H1 H2]. apply andb_true_iff in H1 as [H1 H3].
  apply Z.ltb_lt in H1, H2. apply Z.leb_le in H3. cbn [B2R cond_Zopp]. split; [reflexivity|]. split; [apply F2R_gt_0; reflexivity|]. unfold F2R. cbn [Fnum Fexp]. split.
  - rewrite <- (Rmult_1_l (bpow radix2 (-100))). apply Rmult_le_compat; [lra|apply bpow_ge_0|apply IZR_le; lia|apply bpow_le; lia].
  - apply Rle_trans with (bpow radix2 (24 + 0)); [|apply bpow_le; lia]. rewrite bpow_plus.
    apply Rmult_le_compat; [apply IZR_le; lia|apply bpow_ge_0| |apply bpow_le; lia]. change (bpow radix2 24) with (IZR (2 ^ 24)). apply IZR_le. lia.
Qed.

Lemma box1 : is_finite (F32 1 0) = true /\ B2R (F32 1 0) = 1.
Proof.
  destruct (ofZ_pow 24 128 prec32 emax32 true ltac:(lia) 0 ltac:(lia)) as [A B]. split; [exact B|]. exact A.
Qed.

(** The coordinates are at most 3/8. *)
Lemma exF_coords : forall col x, In col (firstn 3 exF_cols) -> In x col -> is_finite x = true /\ Rabs (B2R x) <= 31 / 64.
Proof.
  intros col x Hc Hx.
  assert (X : forallb (forallb (fun x => is_finite x && Bleb (Babs x) (F32 31 (-6)))) (firstn 3 exF_cols) = true) by (vm_compute; reflexivity).
  rewrite forallb_forall in X. specialize (X col Hc). rewrite forallb_forall in X. specialize (X x Hx). apply andb_true_iff in X as [F L]. split; [exact F|].
  assert (E31 : B2R (F32 31 (-6)) = 31 / 64).
  { assert (S : B2SF (F32 31 (-6)) = SpecFloat.S754_finite false 16252928 (-25)) by (vm_compute; reflexivity).
    destruct (F32 31 (-6)) as [| | |[|] m e B]; try discriminate. cbn [B2SF] in S. injection S as -> ->. unfold B2R, F2R, cond_Zopp. cbn [Fnum Fexp]. change (bpow radix2 (-25)) with (/ 33554432). lra. }
  rewrite <- E31, <- B2R_Babs. apply (leb_le 24 128); [now rewrite is_finite_Babs|vm_compute; reflexivity|exact L].
Qed.

Lemma exF_masses : forall mcol, nth_error exF_cols 3 = Some mcol ->
  (forall m, In m mcol -> is_finite m = true /\ (B2R m = 0 \/ bpow radix2 (4 - 128) <= B2R m)) /\ rsum (@B2R 24 128) mcol <= bpow radix2 (128 / 2) /\ length mcol = 6%nat.
Proof.
  intros mcol Hm.
  assert (X : match nth_error exF_cols 3 with Some l => forallb small_pos l && (length l =? 6)%nat | None => false end = true) by (vm_compute; reflexivity).
  rewrite Hm in X. apply andb_true_iff in X as [X L]. apply Nat.eqb_eq in L. rewrite forallb_forall in X. split; [|split; [|exact L]].
  - intros m Hin. destruct (small_pos_B2R m (X m Hin)) as (F & _ & B & _). split; [exact F|]. right. eapply Rle_trans; [|exact B]. apply bpow_le. lia.
  - apply Rle_trans with (rsum (fun _ : binary_float 24 128 => bpow radix2 24) mcol); [apply rsum_le; intros m Hin; apply (small_pos_B2R m (X m Hin))|].
    rewrite rsum_const, L. apply Rle_trans with (bpow radix2 3 * bpow radix2 24); [apply Rmult_le_compat_r; [apply bpow_ge_0|]; cbn [INR]; change (bpow radix2 3) with 8; lra|].
    rewrite <- bpow_plus. apply bpow_le. vm_compute. discriminate.
Qed.

Lemma tiny_pos : 0 < B2R (F32 1 (-149)).
Proof.
  assert (S : B2SF (F32 1 (-149)) = SpecFloat.S754_finite false 1 (-149)) by (vm_compute; reflexivity).
  destruct (F32 1 (-149)) as [| | |[|] m e B]; try discriminate. apply F2R_gt_0. reflexivity.
Qed.

(** Bounds of numbers by comparison with powers of two. *)
Lemma p20 : is_finite (F32 1 20) = true /\ B2R (F32 1 20) = bpow radix2 20 /\ is_finite (F32 1 (-20)) = true /\ B2R (F32 1 (-20)) = bpow radix2 (-20).
Proof.
  assert (S1 : B2SF (F32 1 20) = SpecFloat.S754_finite false 8388608 (-3)) by (vm_compute; reflexivity).
  assert (S2 : B2SF (F32 1 (-20)) = SpecFloat.S754_finite false 8388608 (-43)) by (vm_compute; reflexivity).
  assert (E : 8388608 = bpow radix2 23) by (cbn; lra).
  destruct (F32 1 20) as [| | |[|] m e B]; try discriminate. destruct (F32 1 (-20)) as [| | |[|] m' e' B']; try discriminate.
  cbn [B2SF] in S1, S2. injection S1 as -> ->. injection S2 as -> ->. unfold B2R, F2R, cond_Zopp. cbn [Fnum Fexp]. rewrite E, <- !bpow_plus. auto.
Qed.

Definition mid (x : binary_float 24 128) : bool := is_finite x && Bleb (Babs x) (F32 1 20).
Definition midpos (x : binary_float 24 128) : bool := is_finite x && Bleb (F32 1 (-20)) (Babs x) && Bleb (Babs x) (F32 1 20).

Lemma mid_ok : forall x, mid x = true -> is_finite x = true /\ Rabs (B2R x) <= bpow radix2 20.
Proof.
  intros x H. apply andb_true_iff in H as [F L]. destruct p20 as (F1 & E1 & _). split; [exact F|]. rewrite <- E1, <- B2R_Babs.
  apply (leb_le 24 128); [now rewrite is_finite_Babs|exact F1|exact L].
Qed.

Lemma midpos_ok : forall x, midpos x = true -> is_finite x = true /\ bpow radix2 (-20) <= Rabs (B2R x) <= bpow radix2 20.
Proof.
  intros x H. apply andb_true_iff in H as [H L]. apply andb_true_iff in H as [F L']. destruct p20 as (F1 & E1 & F2 & E2). split; [exact F|].
  rewrite <- E1, <- E2, <- B2R_Babs. split; apply (leb_le 24 128); auto; now rewrite is_finite_Babs.
Qed.

(** The particles of the tree. *)
Definition exF_part (simd : option nat) (i : nat) : list (binary_float 24 128) * binary_float 24 128 :=
  (map (fun col => nth i col (fofZ exFO 0%Z)) (firstn 3 (t_parts (exF_tree simd))), nth i (nth 3 (t_parts (exF_tree simd)) []) (fofZ exFO 0%Z)).

Lemma exF_parts : forall i, (i < 6)%nat -> row (t_parts (exF_tree (Some 2%nat))) i (fst (exF_part (Some 2%nat) i) ++ [snd (exF_part (Some 2%nat) i)]) /\
  Forall (fun x => is_finite x = true /\ Rabs (B2R x) <= bpow radix2 20) (fst (exF_part (Some 2%nat) i)) /\
  is_finite (snd (exF_part (Some 2%nat) i)) = true /\ bpow radix2 (-20) <= Rabs (B2R (snd (exF_part (Some 2%nat) i))) <= bpow radix2 20.
Proof.
  intros i Hi. unfold exF_part.
  assert (X : match t_parts (exF_tree (Some 2%nat)) with [a; b; c; m] => (length a =? 6)%nat && (length b =? 6)%nat && (length c =? 6)%nat && (length m =? 6)%nat &&
      forallb mid a && forallb mid b && forallb mid c && forallb midpos m | _ => false end = true) by (vm_compute; reflexivity).
  destruct (t_parts (exF_tree (Some 2%nat))) as [|a [|b [|c [|m [|? ?]]]]]; try discriminate. cbn [firstn map nth fst snd app].
  rewrite !andb_true_iff, !Nat.eqb_eq in X. destruct X as (((((((L1 & L2) & L3) & L4) & X1) & X2) & X3) & X4). rewrite forallb_forall in X1, X2, X3, X4.
  split; [|split].
  - repeat constructor; apply nth_error_nth'; lia.
  - apply Forall_cons; [apply mid_ok, X1, nth_In; lia|]. apply Forall_cons; [apply mid_ok, X2, nth_In; lia|]. apply Forall_cons; [apply mid_ok, X3, nth_In; lia|]. constructor.
  - apply midpos_ok, X4, nth_In. lia.
Qed.

(** The coordinates are multiples of 1/32. *)
Definition q32 (x : binary_float 24 128) : Z := match B2SF x with SpecFloat.S754_finite s m e => (cond_Zopp s (Z.pos m) * 32 / 2 ^ (- e))%Z | _ => 0%Z end.
Definition q32_ok (x : binary_float 24 128) : bool :=
  match B2SF x with SpecFloat.S754_finite s m e => (e <? 0)%Z && (q32 x * 2 ^ (- e) =? cond_Zopp s (Z.pos m) * 32)%Z | SpecFloat.S754_zero _ => true | _ => false end.
Lemma q32_B2R : forall x, q32_ok x = true -> B2R x = IZR (q32 x) * / 32.
Proof.
  intros [s|s| |s m e B] H; unfold q32_ok in H; cbn [B2SF] in H; try discriminate; [unfold q32; cbn; lra|]. apply andb_true_iff in H as [H1 H2]. apply Z.ltb_lt in H1. apply Z.eqb_eq in H2.
  set (q := q32 (B754_finite s m e B)) in *. cbn [B2R]. unfold F2R. cbn [Fnum Fexp]. apply (f_equal IZR) in H2. rewrite !mult_IZR in H2.
  change (2 ^ (- e))%Z with (radix2 ^ (- e))%Z in H2. rewrite (IZR_Zpower radix2) in H2 by lia. rewrite bpow_opp in H2. pose proof (bpow_gt_0 radix2 e) as P.
  assert (X : IZR q = IZR (cond_Zopp s (Z.pos m)) * 32 * bpow radix2 e). { rewrite <- H2. field. lra. }
  rewrite X. field.
Qed.

(** The particles are at least 1/32 apart. *)
Lemma exF_apart : forall i l, (i < 6)%nat -> (l < 6)%nat -> i <> l ->
  / 1024 <= sep2 (map (@B2R 24 128) (fst (exF_part (Some 2%nat) l))) (map (@B2R 24 128) (fst (exF_part (Some 2%nat) i))).
Proof.
  set (zs := fun i => map q32 (fst (exF_part (Some 2%nat) i))).
  assert (X : forallb (fun i => forallb q32_ok (fst (exF_part (Some 2%nat) i)) && forallb (fun l => (i =? l)%nat || existsb (fun '(a, b) => negb (a =? b)%Z) (combine (zs l) (zs i))) (seq 0 6)) (seq 0 6) = true)
    by (vm_compute; reflexivity).
  rewrite forallb_forall in X.
  assert (C : forall i, (i < 6)%nat -> map (@B2R 24 128) (fst (exF_part (Some 2%nat) i)) = map (fun z => IZR z * / 32) (zs i)).
  { intros i Hi. specialize (X i). rewrite in_seq in X. specialize (X ltac:(lia)). apply andb_true_iff in X as [X _]. rewrite forallb_forall in X. unfold zs. rewrite map_map. apply map_ext_in. intros x Hx. apply q32_B2R, X, Hx. }
  intros i l Hi Hl Hil. rewrite (C i Hi), (C l Hl). specialize (X i). rewrite in_seq in X. specialize (X ltac:(lia)). apply andb_true_iff in X as [_ X].
  rewrite forallb_forall in X. specialize (X l). rewrite in_seq in X. specialize (X ltac:(lia)). apply orb_true_iff in X as [X|X]; [apply Nat.eqb_eq in X; lia|].
  clear C. revert X. generalize (zs l) (zs i). clear. intros xs ys X. apply existsb_exists in X as [[a b] [H1 H2]]. apply negb_true_iff, Z.eqb_neq in H2.
  unfold sep2. assert (EC : combine (map (fun z => IZR z * / 32) xs) (map (fun z => IZR z * / 32) ys) = map (fun '(a, b) => (IZR a * / 32, IZR b * / 32)) (combine xs ys)).
  { clear. revert ys. induction xs as [|x xs IH]; intros [|y ys]; cbn [map combine]; [reflexivity..|]. now rewrite IH. }
  rewrite EC, rsum_map. apply in_split in H1 as (l1 & l2 & ->). rewrite rsum_app, rsum_cons.
  match goal with |- _ <= ?u + (_ + ?v) => assert (0 <= u /\ 0 <= v) by (split; apply rsum_nonneg; intros [p q] _; exact (Rle_0_sqr (IZR p * / 32 - IZR q * / 32))) end.
  assert (D : 1 <= (IZR a - IZR b) * (IZR a - IZR b)).
  { rewrite <- minus_IZR, <- mult_IZR. apply IZR_le. nia. }
  nra.
Qed.

(** The masses are between 1/2 and 2. *)
Definition unit_mass (x : binary_float 24 128) : bool := match B2SF x with SpecFloat.S754_finite false m e => (2 ^ 23 <=? Z.pos m)%Z && (Z.pos m <? 2 ^ 24)%Z && (-24 <=? e)%Z && (e <=? -23)%Z | _ => false end.
Lemma exF_unit : forall i, (i < 6)%nat -> / 2 <= B2R (snd (exF_part (Some 2%nat) i)) <= 2.
Proof.
  intros i Hi. assert (X : forallb (fun i => unit_mass (snd (exF_part (Some 2%nat) i))) (seq 0 6) = true) by (vm_compute; reflexivity).
  rewrite forallb_forall in X. specialize (X i). rewrite in_seq in X. specialize (X ltac:(lia)). revert X. generalize (snd (exF_part (Some 2%nat) i)). clear.
  intros [s|s| |[|] m e B] X; try discriminate. unfold unit_mass in X. cbn [B2SF] in X. rewrite !andb_true_iff, !Z.leb_le, Z.ltb_lt in X. destruct X as (((X1 & X2) & X3) & X4).
  cbn [B2R cond_Zopp]. unfold F2R. cbn [Fnum Fexp]. apply IZR_le in X1. assert (X2' : (Z.pos m <= 2 ^ 24)%Z) by lia. apply IZR_le in X2'.
  assert (L1 : bpow radix2 (-24) <= bpow radix2 e) by (apply bpow_le; lia). assert (L2 : bpow radix2 e <= bpow radix2 (-23)) by (apply bpow_le; lia).
  change (bpow radix2 (-24)) with (/ 16777216) in L1. change (bpow radix2 (-23)) with (/ 8388608) in L2.
  change (IZR (2 ^ 23)) with 8388608 in X1. change (IZR (2 ^ 24)) with 16777216 in X2'. split; nra.
Qed.

Lemma theta34 : is_finite (F32 3 (-2)) = true /\ B2R (F32 3 (-2)) = 3 / 4.
Proof.
  assert (S : B2SF (F32 3 (-2)) = SpecFloat.S754_finite false 12582912 (-24)) by (vm_compute; reflexivity).
  destruct (F32 3 (-2)) as [| | |[|] m e Bd]; try discriminate. cbn [B2SF] in S. injection S as -> ->. split; [reflexivity|].
  unfold B2R, F2R, cond_Zopp. cbn [Fnum Fexp]. change (bpow radix2 (-24)) with (/ 16777216). lra.
Qed.

Lemma theta14 : is_finite (F32 1 (-2)) = true /\ B2R (F32 1 (-2)) = 1 / 4.
Proof.
  assert (S : B2SF (F32 1 (-2)) = SpecFloat.S754_finite false 8388608 (-25)) by (vm_compute; reflexivity).
  destruct (F32 1 (-2)) as [| | |[|] m e Bd]; try discriminate. cbn [B2SF] in S. injection S as -> ->. split; [reflexivity|].
  unfold B2R, F2R, cond_Zopp. cbn [Fnum Fexp]. change (bpow radix2 (-25)) with (/ 33554432). lra.
Qed.

Lemma zero0 : is_finite (F32 0 0) = true /\ B2R (F32 0 0) = 0.
Proof.
  assert (S : B2SF (F32 0 0) = SpecFloat.S754_zero false) by (vm_compute; reflexivity). destruct (F32 0 0) as [| | |]; try discriminate. split; reflexivity.
Qed.
