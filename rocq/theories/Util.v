(** Small utilities with machine integers: checked additions, the aligned allocator, and the use of both by the containers.
    [w] is the number of bits of [std::size_t]. *)
From Coq Require Import List Arith NArith ZArith Lia Bool Permutation.
From Verif Require Import Base Build.
Import ListNotations.
Local Open Scope N_scope.

Section Words.

Variable w : N.

(** Largest value of an unsigned type, and conversion of the result of an operation to the type. *)
Definition umax : N := 2 ^ w - 1.
Definition wrap (n : N) : N := n mod 2 ^ w.

(** tree.hpp 510-518, [checked_uinc]. *)
Definition uinc (out add : N) : outcome N :=
  if umax - add <? out then Throw OverflowError                              (* 514 *)
  else Ok (wrap (out + add)).                                                (* 517 *)

(** tree.hpp 520-528, [checked_uinc] for atomics: new value of the counter, and whether the call throws. *)
Definition atomic_uinc (out add : N) : N * bool :=
  (wrap (out + add), umax - add <? out).                                     (* 524, 525 *)

(** Several threads, each of them adding something; [adds] in the order in which the atomic additions take effect. A thread that throws does not
    undo its addition and does not stop the others. *)
Fixpoint atomic_run (out : N) (adds : list N) : N * list bool :=
  match adds with
  | [] => (out, [])
  | a :: t => let '(v, thrown) := atomic_uinc out a in let '(v', l) := atomic_run v t in (v', thrown :: l)
  end.

(** di_aligned_allocator.hpp 51-58, [max_size]. [sz] is [sizeof(value_type)]. *)
Definition max_size (alignment sz : N) : N := (umax - alignment) / sz.

(** Calls to the allocation functions of the C library. *)
Inductive request :=
| Malloc (size : N)
| AlignedAlloc (alignment size : N).

(** di_aligned_allocator.hpp 60-101, [allocate]: the request (not the Apple code path). *)
Definition allocate (alignment sz n : N) : request :=
  let size := wrap (n * sz) in                                               (* 64 *)
  if alignment =? 0 then Malloc size                                         (* 66-67 *)
  else
    let rem := size mod alignment in                                         (* 88 *)
    if negb (rem =? 0) then AlignedAlloc alignment (wrap (size + (alignment - rem))) (* 90 *)
    else AlignedAlloc alignment size.                                        (* 92 *)

Definition requested (r : request) : N := match r with Malloc s | AlignedAlloc _ s => s end.

(** di_aligned_allocator.hpp 32-36, the static assertion on the template parameters. *)
Definition valid_alignment (alignment natural : N) : bool :=
  (alignment =? 0) || ((natural <=? alignment) && (N.land alignment (wrap (alignment + (2 ^ w - 1))) =? 0)).

(** A [std::vector] refuses sizes above [max_size()] of its allocator ([std::length_error], counted among the failed allocations), and asks the allocator otherwise. *)
Definition vector_alloc (alignment sz n : N) : outcome request :=
  if max_size alignment sz <? n then Throw BadAlloc else Ok (allocate alignment sz n).

(** * Proofs *)

Lemma pow_pos : 0 < 2 ^ w.
Proof. apply N.neq_0_lt_0, N.pow_nonzero. discriminate. Qed.

Lemma wrap_small : forall n, n <= umax -> wrap n = n.
Proof. intros n H. pose proof pow_pos. apply N.mod_small. unfold umax in H. lia. Qed.

Lemma uinc_spec : forall out add, out <= umax -> add <= umax ->
  uinc out add = if out + add <=? umax then Ok (out + add) else Throw OverflowError.
Proof.
  intros out add Ho Ha. unfold uinc. destruct (N.ltb_spec (umax - add) out), (N.leb_spec (out + add) umax); try lia; [reflexivity|].
  now rewrite wrap_small.
Qed.

Lemma atomic_no_overflow : forall adds out, out + fold_right N.add 0 adds <= umax ->
  atomic_run out adds = (out + fold_right N.add 0 adds, repeat false (length adds)).
Proof.
  induction adds as [|a adds IH]; intros out H; cbn [atomic_run fold_right length repeat] in *; [now rewrite N.add_0_r|].
  unfold atomic_uinc. rewrite wrap_small by lia. rewrite IH by lia. f_equal; [lia|]. f_equal. apply N.ltb_ge. lia.
Qed.

Lemma atomic_overflow : forall adds out, out <= umax -> Forall (fun a => a <= umax) adds -> umax < out + fold_right N.add 0 adds ->
  In true (snd (atomic_run out adds)).
Proof.
  induction adds as [|a adds IH]; intros out Ho HF H; cbn [atomic_run fold_right] in *; [lia|].
  inversion_clear HF as [|? ? Ha HF']. unfold atomic_uinc. destruct (N.ltb_spec (umax - a) out) as [L|L].
  - destruct (atomic_run _ adds) as [v l]. now left.
  - rewrite wrap_small by lia. specialize (IH (out + a) ltac:(lia) HF' ltac:(lia)). destruct (atomic_run (out + a) adds) as [v l]. now right.
Qed.

Lemma sum_perm : forall l l', Permutation l l' -> fold_right N.add 0 l = fold_right N.add 0 l'.
Proof. induction 1; cbn [fold_right]; lia. Qed.

Lemma allocate_spec : forall alignment sz n, 0 < sz -> alignment <= umax -> n <= max_size alignment sz ->
  let r := requested (allocate alignment sz n) in
  n * sz <= r /\ r <= umax /\ (alignment <> 0 -> r mod alignment = 0 /\ r < n * sz + alignment) /\ (alignment = 0 -> r = n * sz).
Proof.
  intros A sz n Hs HA Hn. unfold max_size in Hn.
  assert (Hb : n * sz + A <= umax).
  { pose proof (N.mul_div_le (umax - A) sz ltac:(lia)). assert (n * sz <= (umax - A) / sz * sz) by (apply N.mul_le_mono_r; exact Hn). lia. }
  unfold allocate. rewrite (wrap_small (n * sz)) by lia. destruct (N.eqb_spec A 0) as [->|HA0]; cbn [requested].
  { repeat split; try lia; intros Z; now elim Z. }
  pose proof (N.mod_upper_bound (n * sz) A HA0) as Hr. pose proof (N.div_mod (n * sz) A HA0) as Hd.
  set (r := (n * sz) mod A) in *. set (q := (n * sz) / A) in *. set (m := n * sz) in *.
  assert (E : r = m mod A) by reflexivity. clearbody r q m.
  destruct (N.eqb_spec r 0) as [H0|H0]; cbn [negb requested].
  - rewrite <- E. repeat split; lia.
  - assert (Hs' : m + (A - r) <= umax) by lia. rewrite (wrap_small _ Hs').
    assert (Hm : m + (A - r) = (q + 1) * A) by (rewrite N.mul_add_distr_r, N.mul_1_l, (N.mul_comm q A); lia).
    repeat split; try lia. rewrite Hm. now apply N.mod_mul.
Qed.

Lemma allocate_aligned : forall alignment sz n, alignment <> 0 -> exists s, allocate alignment sz n = AlignedAlloc alignment s.
Proof. intros A sz n H. unfold allocate. destruct (N.eqb_spec A 0); [now elim H|]. destruct (negb _); eauto. Qed.

Lemma power_of_two : forall a, a <> 0 -> (N.land a (a - 1) = 0 <-> exists k, a = 2 ^ k).
Proof.
  intros a Ha. split.
  - intros H. exists (N.log2 a). destruct (N.eq_dec a (2 ^ N.log2 a)) as [E|E]; [exact E|exfalso].
    pose proof (N.log2_spec a ltac:(lia)) as [L1 L2].
    assert (B1 : N.testbit a (N.log2 a) = true) by (apply N.bit_log2; exact Ha).
    assert (E2 : N.log2 (a - 1) = N.log2 a) by (apply N.log2_unique; [lia|split; lia]).
    assert (B2 : N.testbit (a - 1) (N.log2 a) = true) by (rewrite <- E2; apply N.bit_log2; pose proof (N.pow_nonzero 2 (N.log2 a)); lia).
    assert (B : N.testbit (N.land a (a - 1)) (N.log2 a) = true) by (now rewrite N.land_spec, B1, B2).
    rewrite H, N.bits_0 in B. discriminate.
  - intros [k ->]. replace (2 ^ k - 1) with (N.ones k) by (rewrite N.ones_equiv; lia). rewrite N.land_ones. apply N.mod_same, N.pow_nonzero. discriminate.
Qed.

Lemma valid_alignment_spec : forall alignment natural, alignment <= umax ->
  valid_alignment alignment natural = true <-> alignment = 0 \/ natural <= alignment /\ exists k, alignment = 2 ^ k.
Proof.
  intros A nat HA. unfold valid_alignment. destruct (N.eqb_spec A 0) as [->|H0]; cbn [orb]; [split; auto|].
  assert (Hw : wrap (A + (2 ^ w - 1)) = A - 1).
  { pose proof pow_pos. unfold wrap. replace (A + (2 ^ w - 1)) with ((A - 1) + 1 * 2 ^ w) by lia. rewrite N.mod_add by lia. apply N.mod_small. unfold umax in HA. lia. }
  rewrite Hw, andb_true_iff, N.leb_le, N.eqb_eq, (power_of_two A H0). split; [auto|]. intros [H|H]; [now elim H0|exact H].
Qed.

End Words.

(** With 64 bits, [uinc] is the function used in the model of the construction. *)
Lemma uinc_build : forall a b : nat, N.of_nat a <= size_max -> N.of_nat b <= size_max ->
  uinc 64 (N.of_nat a) (N.of_nat b) = match checked_uinc a b with Ok n => Ok (N.of_nat n) | Throw e => Throw e | UB => UB end.
Proof.
  intros a b Ha Hb. rewrite uinc_spec by assumption. unfold checked_uinc, umax, size_max in *.
  destruct (N.ltb_spec (2 ^ 64 - 1) (N.of_nat a + N.of_nat b)), (N.leb_spec (N.of_nat a + N.of_nat b) (2 ^ 64 - 1)); try lia; [reflexivity|]. now rewrite Nat2N.inj_add.
Qed.
