(** The interactions within the target node: every pair of particles exactly once. *)
From Coq Require Import List Arith NArith ZArith Lia Bool Reals Lra Permutation.
From Verif Require Import Base Config Morton Build FOps NodeProps Kernels TravProofs KernLoops RSum.
Import ListNotations.
Local Open Scope nat_scope.

Lemma nth_slice : forall {A} (l : list A) b e k d, k < e - b -> nth k (slice l b e) d = nth (b + k) l d.
Proof.
  intros A l b e k d H. pose proof (nth_error_slice l b e k) as E. destruct (Nat.ltb_spec k (e - b)); [|lia].
  destruct (nth_error l (b + k)) eqn:N.
  - rewrite (nth_error_nth _ _ d E), (nth_error_nth _ _ d N). reflexivity.
  - rewrite nth_overflow by (now apply nth_error_None). rewrite nth_overflow by (now apply nth_error_None). reflexivity.
Qed.

Lemma nth_of_error : forall {A} (l l' : list A) k k' d, nth_error l k = nth_error l' k' -> nth k l d = nth k' l' d.
Proof.
  intros A l l' k k' d E. destruct (nth_error l' k') eqn:N.
  - rewrite (nth_error_nth _ _ d E), (nth_error_nth _ _ d N). reflexivity.
  - rewrite nth_overflow by (now apply nth_error_None). rewrite nth_overflow by (now apply nth_error_None). reflexivity.
Qed.

Lemma nth_zip_map : forall {A B C} (f : A * B -> C) (l1 : list A) (l2 : list B) k d1 d2 d,
  k < length l1 -> k < length l2 -> nth k (map f (combine l1 l2)) d = f (nth k l1 d1, nth k l2 d2).
Proof.
  intros A B C f l1 l2 k d1 d2 d H1 H2.
  rewrite nth_indep with (d' := f (d1, d2)) by (rewrite map_length, combine_length; lia).
  rewrite map_nth. f_equal. revert l2 k H1 H2. induction l1 as [|a l1 IH]; intros l2 k H1 H2; [cbn in H1; lia|].
  destruct l2 as [|b l2]; [cbn in H2; lia|]. destruct k as [|k]; [reflexivity|]. cbn [combine nth length] in *. apply IH; lia.
Qed.

Section Self.

Context {F : Type}.
Variable O : fops F.
Variable c : cfg.
Variable simd : option nat.
Variable K : platform F.
Hypothesis Hbw : match simd with Some bw => 0 < bw | None => True end.
Variables (q : quant) (eps2 : F).

Notation bw := (batch c simd).
Notation pair := (self_pair O c simd K q eps2).
Notation addr := (add_rows O).
Notation r0 := (row0 O c q).
Notation row := (@rrow F).

(** A value of the results that the interaction of two particles changes by [T]. *)
Variable wfp : @prow F -> Prop.
Variable wfr : row -> Prop.
Variable V : row -> R.
Variable T : @prow F -> @prow F -> R.
Variable p0 : @prow F.
Hypothesis wf0 : wfr r0.
Hypothesis V0 : V r0 = 0%R.
Hypothesis Hpair : forall p1 p2 a r, wfp p1 -> wfp p2 -> wfr a -> wfr r ->
  wfr (fst (pair p1 p2 a r)) /\ wfr (snd (pair p1 p2 a r)) /\
  V (fst (pair p1 p2 a r)) = (V a + T p1 p2)%R /\ V (snd (pair p1 p2 a r)) = (V r + T p2 p1)%R.
Hypothesis Hadd : forall r a, wfr r -> wfr a -> wfr (addr r a) /\ V (addr r a) = (V r + V a)%R.

Variable tgt : list (@prow F).
Hypothesis Hwfp : Forall wfp tgt.
Hypothesis wfp0 : wfp p0.

Let t (k : nat) : @prow F := nth k tgt p0.

Lemma wft : forall k, wfp (t k).
Proof.
  intros k. unfold t. destruct (nth_in_or_default k tgt p0) as [H| ->]; [|exact wfp0].
  rewrite Forall_forall in Hwfp. auto.
Qed.

Lemma wfn : forall l k, Forall wfr l -> wfr (nth k l r0).
Proof.
  intros l k H. destruct (nth_in_or_default k l r0) as [I| ->]; [|exact wf0]. rewrite Forall_forall in H. auto.
Qed.

Notation Vn l k := (V (nth k l r0)).

Definition win (i k : nat) : bool := (i <=? k) && (k <? i + bw).

Lemma forall_nth : forall (l : list row), (forall k, k < length l -> wfr (nth k l r0)) -> Forall wfr l.
Proof.
  intros l H. apply Forall_forall. intros x Hx. destruct (In_nth l x r0 Hx) as (k & Hk & <-). auto.
Qed.

Lemma self_inner_step : forall i1 a1s res i2, i1 + bw <= length tgt -> i2 + bw <= length tgt -> length res = length tgt ->
  length a1s = bw -> Forall wfr a1s -> Forall wfr res ->
  exists a1s' res', self_inner O c simd K q eps2 tgt (slice tgt i1 (i1 + bw)) (a1s, res) i2 = Ok (a1s', res') /\
    length a1s' = bw /\ length res' = length tgt /\ Forall wfr a1s' /\ Forall wfr res' /\
    (forall l, l < bw -> Vn a1s' l = (Vn a1s l + T (t (i1 + l)) (t (i2 + l)))%R) /\
    (forall k, Vn res' k = (Vn res k + if win i2 k then T (t k) (t (i1 + (k - i2))) else 0)%R).
Proof.
  intros i1 a1s res i2 H1 H2 Hl Ha Wa Wr. unfold self_inner. cbv zeta.
  rewrite load_batch_Ok by exact H2. cbn [bind]. rewrite load_batch_Ok by lia. cbn [bind].
  set (f := fun '(p1, p2, (a1, r2)) => pair p1 p2 a1 r2).
  set (outs := map f _).
  assert (L1 : length (slice tgt i1 (i1 + bw)) = bw) by (rewrite slice_length; lia).
  assert (L2 : length (slice tgt i2 (i2 + bw)) = bw) by (rewrite slice_length; lia).
  assert (L3 : length (slice res i2 (i2 + bw)) = bw) by (rewrite slice_length; lia).
  assert (Lo : length outs = bw) by (unfold outs; rewrite map_length, !combine_length; lia).
  assert (No : forall l d, l < bw -> nth l outs d = pair (t (i1 + l)) (t (i2 + l)) (nth l a1s r0) (nth (i2 + l) res r0)).
  { intros l d Hlt. unfold outs. rewrite nth_zip_map with (d1 := (p0, p0)) (d2 := (r0, r0)) by (rewrite combine_length; lia).
    rewrite !combine_nth by lia. unfold f. cbn. rewrite !nth_slice by lia. reflexivity. }
  assert (Lm : length (map snd outs) = bw) by (now rewrite map_length).
  rewrite store_batch_Ok by lia. cbn [bind]. eexists _, _. split; [reflexivity|].
  assert (Nr : forall k, nth k (firstn i2 res ++ map snd outs ++ skipn (i2 + length (map snd outs)) res) r0 =
     if win i2 k then snd (pair (t (i1 + (k - i2))) (t k) (nth (k - i2) a1s r0) (nth k res r0)) else nth k res r0).
  { intros k. pose proof (stored_nth (map snd outs) res i2 k ltac:(lia)) as S. rewrite Lm in S at 2. fold (win i2 k) in S.
    destruct (win i2 k) eqn:W.
    - rewrite (nth_of_error _ _ _ _ r0 S). rewrite nth_indep with (d' := snd (r0, r0)).
      + rewrite map_nth. unfold win in W. apply andb_prop in W as [W1 W2]. apply Nat.leb_le in W1. apply Nat.ltb_lt in W2.
        rewrite No by lia. now replace (i2 + (k - i2)) with k by lia.
      + unfold win in W. apply andb_prop in W as [W1 W2]. apply Nat.leb_le in W1. apply Nat.ltb_lt in W2. lia.
    - now apply nth_of_error. }
  split; [now rewrite map_length|]. split; [rewrite stored_length by lia; exact Hl|].
  split; [|split; [|split]].
  - apply forall_nth. rewrite map_length. intros k Hk. rewrite nth_indep with (d' := fst (r0, r0)) by (now rewrite map_length).
    rewrite map_nth, No by lia. apply Hpair; auto using wft, wfn.
  - apply forall_nth. intros k _. rewrite Nr. destruct (win i2 k); [|auto using wfn]. apply Hpair; auto using wft, wfn.
  - intros l Hlt. rewrite nth_indep with (d' := fst (r0, r0)) by (rewrite map_length; lia).
    rewrite map_nth, No by lia. apply Hpair; auto using wft, wfn.
  - intros k. rewrite Nr. destruct (win i2 k); [|lra]. apply Hpair; auto using wft, wfn.
Qed.

Lemma self_inner_loop : forall i1 L a1s res, i1 + bw <= length tgt -> (forall i2, In i2 L -> i2 + bw <= length tgt) ->
  length res = length tgt -> length a1s = bw -> Forall wfr a1s -> Forall wfr res ->
  exists a1s' res', foldM (self_inner O c simd K q eps2 tgt (slice tgt i1 (i1 + bw))) L (a1s, res) = Ok (a1s', res') /\
    length a1s' = bw /\ length res' = length tgt /\ Forall wfr a1s' /\ Forall wfr res' /\
    (forall l, l < bw -> Vn a1s' l = (Vn a1s l + rsum (fun i2 => T (t (i1 + l)) (t (i2 + l))) L)%R) /\
    (forall k, Vn res' k = (Vn res k + rsum (fun i2 => if win i2 k then T (t k) (t (i1 + (k - i2))) else 0%R) L)%R).
Proof.
  intros i1. induction L as [|i2 L IH]; intros a1s res H1 H2 Hl Ha Wa Wr; cbn [foldM].
  - exists a1s, res. split; [reflexivity|]. repeat split; auto; intros; rewrite rsum_nil; lra.
  - destruct (self_inner_step i1 a1s res i2) as (a1 & r1 & -> & A1 & A2 & A3 & A4 & A5 & A6); auto.
    { apply H2. now left. }
    cbn [bind]. destruct (IH a1 r1) as (a' & r' & -> & B1 & B2 & B3 & B4 & B5 & B6); auto.
    { intros i Hi. apply H2. now right. }
    exists a', r'. split; [reflexivity|]. repeat split; auto.
    + intros l Hlt. rewrite rsum_cons, B5, A5 by exact Hlt. lra.
    + intros k. rewrite rsum_cons, B6, A6. lra.
Qed.

Variable n : nat.
Hypothesis Hn : n + bw - 1 <= length tgt.

(** What the iteration of the outer loop for the batch [i1] adds to the particle [k]. *)
Definition contrib (i1 k : nat) : R :=
  ((if win i1 k then rsum (fun i2 => T (t k) (t (i2 + (k - i1)))) (seq (i1 + 1) (n - (i1 + 1))) else 0) +
   rsum (fun i2 => if win i2 k then T (t k) (t (i1 + (k - i2))) else 0) (seq (i1 + 1) (n - (i1 + 1))))%R.

Lemma self_outer : forall L res, (forall i1, In i1 L -> i1 mod bw = 0 /\ i1 < n) -> length res = length tgt -> Forall wfr res ->
  exists res', foldM (fun res i1 =>
    do p1s <- load_aligned tgt i1 bw;
    do st <- foldM (self_inner O c simd K q eps2 tgt p1s) (seq (i1 + 1) (n - (i1 + 1))) (repeat r0 bw, res);
    let '(a1s, res1) := st in
    do r1s <- load_aligned res1 i1 bw;
    store_aligned res1 i1 bw (map (fun '(r, a) => addr r a) (combine r1s a1s))) L res = Ok res' /\
  length res' = length tgt /\ Forall wfr res' /\ forall k, Vn res' k = (Vn res k + rsum (fun i1 => contrib i1 k) L)%R.
Proof.
  assert (Bp : 0 < bw) by (exact (batch_pos c simd Hbw)).
  induction L as [|i1 L IH]; intros res HL Hl Wr; cbn [foldM].
  - exists res. split; [reflexivity|]. repeat split; auto. intros. rewrite rsum_nil. lra.
  - destruct (HL i1 (or_introl eq_refl)) as [M Lt].
    unfold load_aligned at 1. rewrite M. cbn [Nat.eqb]. rewrite load_batch_Ok by lia. cbn [bind].
    destruct (self_inner_loop i1 (seq (i1 + 1) (n - (i1 + 1))) (repeat r0 bw) res) as (a' & r' & -> & B1 & B2 & B3 & B4 & B5 & B6); auto.
    { lia. } { intros i2 Hi. apply in_seq in Hi. lia. } { apply repeat_length. }
    { apply Forall_forall. intros x Hx. apply repeat_spec in Hx. now subst. }
    cbn [bind]. unfold load_aligned at 1. rewrite M. cbn [Nat.eqb]. rewrite load_batch_Ok by lia. cbn [bind].
    unfold store_aligned at 1. rewrite M. cbn [Nat.eqb]. set (v := map _ _).
    assert (Lv : length v = bw) by (unfold v; rewrite map_length, combine_length, slice_length by lia; lia).
    rewrite store_batch_Ok by lia. cbn [bind].
    assert (Nr : forall k, nth k (firstn i1 r' ++ v ++ skipn (i1 + length v) r') r0 =
       if win i1 k then addr (nth k r' r0) (nth (k - i1) a' r0) else nth k r' r0).
    { intros k. pose proof (stored_nth v r' i1 k ltac:(lia)) as S. rewrite Lv in S at 2. fold (win i1 k) in S.
      destruct (win i1 k) eqn:W.
      - rewrite (nth_of_error _ _ _ _ r0 S). unfold win in W. apply andb_prop in W as [W1 W2]. apply Nat.leb_le in W1. apply Nat.ltb_lt in W2.
        unfold v. rewrite nth_zip_map with (d1 := r0) (d2 := r0) by (rewrite ?slice_length; lia).
        rewrite nth_slice by lia. now replace (i1 + (k - i1)) with k by lia.
      - now apply nth_of_error. }
    destruct (IH (firstn i1 r' ++ v ++ skipn (i1 + length v) r')) as (res' & -> & C1 & C2 & C3).
    { intros i Hi. apply HL. now right. }
    { rewrite stored_length by lia. exact B2. }
    { apply forall_nth. intros k _. rewrite Nr. destruct (win i1 k); [|auto using wfn]. apply Hadd; auto using wfn. }
    exists res'. split; [reflexivity|]. repeat split; auto. intros k. rewrite C3, Nr, rsum_cons. unfold contrib at 2.
    destruct (win i1 k) eqn:W.
    + destruct (Hadd (nth k r' r0) (nth (k - i1) a' r0)) as [_ ->]; auto using wfn.
      unfold win in W. apply andb_prop in W as [W1 W2]. apply Nat.leb_le in W1. apply Nat.ltb_lt in W2.
      rewrite B5, B6 by lia. rewrite nth_repeat, V0.
      replace (i1 + (k - i1)) with k by lia. lra.
    + rewrite B6. lra.
Qed.

(** The particles of the padding have no effect. *)
Hypothesis Hpad : forall k k', n <= k' -> T (t k) (t k') = 0%R.

Lemma flat_starts : forall m, flat_map (fun i => seq i bw) (map (fun j => j * bw) (seq 0 m)) = seq 0 (m * bw).
Proof.
  induction m as [|m IH]; [reflexivity|].
  rewrite seq_S, map_app, flat_map_app, IH. cbn [map flat_map Nat.add]. rewrite app_nil_r.
  replace (S m * bw) with (m * bw + bw) by lia. now rewrite seq_app.
Qed.

Lemma rsum_filter : forall {A} (P : A -> bool) (f : A -> R) l, rsum f (filter P l) = rsum (fun a => if P a then f a else 0%R) l.
Proof.
  induction l as [|a l IH]; [reflexivity|]. cbn [filter]. rewrite rsum_cons. destruct (P a); [rewrite rsum_cons|]; rewrite IH; lra.
Qed.

Lemma contrib_sum : forall k, k < n ->
  rsum (fun i1 => contrib i1 k) (starts bw n) = rsum (fun k' => T (t k) (t k')) (filter (fun k' => negb (k' =? k)) (seq 0 n)).
Proof.
  intros k Hk.
  assert (Bp : 0 < bw) by (exact (batch_pos c simd Hbw)).
  destruct (covered_bounds bw n Bp) as [Cv1 Cv2].
  (* the particles after [k], seen from the batch of [k] *)
  assert (S1 : forall i1, In i1 (starts bw n) ->
     (if win i1 k then rsum (fun i2 => T (t k) (t (i2 + (k - i1)))) (seq (i1 + 1) (n - (i1 + 1))) else 0%R) =
     rsum (fun k1 => if k1 =? k then rsum (fun k' => T (t k) (t k')) (seq (k + 1) (n - (k + 1))) else 0%R) (seq i1 bw)).
  { intros i1 Hi. destruct (win i1 k) eqn:W.
    - unfold win in W. apply andb_prop in W as [W1 W2]. apply Nat.leb_le in W1. apply Nat.ltb_lt in W2.
      transitivity (rsum (fun k' => T (t k) (t k')) (seq (k + 1) (n - (k + 1)))).
      + transitivity (rsum (fun k' => T (t k) (t k')) (seq (k + 1) (n - (i1 + 1)))).
        * clear - W1. replace (k + 1) with (i1 + 1 + (k - i1)) by lia. generalize (i1 + 1) as b, (n - (i1 + 1)) as len, (k - i1) as s.
          intros b len s. revert b. induction len as [|len IH]; intros b; [reflexivity|]. cbn [seq]. rewrite !rsum_cons. f_equal. apply (IH (S b)).
        * replace (n - (i1 + 1)) with ((n - (k + 1)) + (k - i1)) by lia. rewrite seq_app, rsum_app.
          rewrite (rsum_ext _ _ (fun _ => 0%R) (seq _ (k - i1))); [rewrite rsum_0; lra|].
          intros k' Hk'. apply in_seq in Hk'. apply Hpad. lia.
      + generalize (rsum (fun k' => T (t k) (t k')) (seq (k + 1) (n - (k + 1)))). intros X.
        rewrite <- (rsum_filter (fun k1 => k1 =? k) (fun _ => X)).
        assert (Pm : Permutation (filter (fun k1 => k1 =? k) (seq i1 bw)) [k]).
        { apply NoDup_Permutation.
          - apply NoDup_filter, seq_NoDup.
          - constructor; [intros []|constructor].
          - intros x. rewrite filter_In, in_seq, Nat.eqb_eq. cbn. lia. }
        rewrite (rsum_perm _ _ _ _ Pm), rsum_cons, rsum_nil. lra.
    - symmetry. rewrite (rsum_ext _ _ (fun _ => 0%R)); [apply rsum_0|]. intros x Hx. apply in_seq in Hx.
      destruct (Nat.eqb_spec x k) as [->|]; [|reflexivity]. exfalso. unfold win in W.
      destruct (Nat.leb_spec i1 k); [|lia]. destruct (Nat.ltb_spec k (i1 + bw)); [discriminate|lia]. }
  (* the particles before [k] *)
  assert (S2 : forall i1, In i1 (starts bw n) ->
     rsum (fun i2 => if win i2 k then T (t k) (t (i1 + (k - i2))) else 0%R) (seq (i1 + 1) (n - (i1 + 1))) =
     rsum (fun k' => if k' <? k then T (t k) (t k') else 0%R) (seq i1 bw)).
  { intros i1 Hi. rewrite <- (rsum_filter (fun i2 => win i2 k)). rewrite <- (rsum_filter (fun k' => k' <? k)).
    rewrite <- (rsum_map _ _ (fun i2 => i1 + (k - i2)) (fun k' => T (t k) (t k'))).
    apply rsum_perm. apply NoDup_Permutation.
    - assert (Inj : forall l, NoDup l -> (forall x, In x l -> x <= k) -> NoDup (map (fun i2 => i1 + (k - i2)) l)).
      { induction l as [|x l IHl]; intros ND B; cbn [map]; [constructor|]. inversion ND; subst. constructor.
        - rewrite in_map_iff. intros (y & Ey & Hy). pose proof (B x (or_introl eq_refl)). pose proof (B y (or_intror Hy)).
          assert (x = y) by lia. subst. contradiction.
        - apply IHl; auto. intros y Hy. apply B. now right. }
      apply Inj; [apply NoDup_filter, seq_NoDup|]. intros x Hx. apply filter_In in Hx as [_ W]. unfold win in W.
      apply andb_prop in W as [W1 _]. now apply Nat.leb_le.
    - apply NoDup_filter, seq_NoDup.
    - intros k'. rewrite in_map_iff, filter_In, in_seq, Nat.ltb_lt. unfold win. split.
      + intros (i2 & <- & H). apply filter_In in H as [Hs W]. apply in_seq in Hs. apply andb_prop in W as [W1 W2].
        apply Nat.leb_le in W1. apply Nat.ltb_lt in W2. lia.
      + intros [B1 B2]. exists (i1 + k - k'). split; [lia|]. apply filter_In. split; [apply in_seq; lia|].
        apply andb_true_intro. split; [apply Nat.leb_le|apply Nat.ltb_lt]; lia. }
  unfold contrib. rewrite rsum_plus. rewrite (rsum_ext _ _ _ _ S1), (rsum_ext _ _ _ _ S2).
  rewrite <- !rsum_flat_map. unfold starts. rewrite flat_starts. change ((n + bw - 1) / bw * bw) with (covered bw n).
  rewrite <- rsum_plus, rsum_filter.
  replace (covered bw n) with (n + (covered bw n - n)) by lia. rewrite seq_app, rsum_app. cbn [Nat.add].
  rewrite (rsum_ext _ _ (fun _ => 0%R) (seq n _)).
  2:{ intros x Hx. apply in_seq in Hx. destruct (Nat.eqb_spec x k); [lia|]. destruct (Nat.ltb_spec x k); [lia|]. lra. }
  rewrite rsum_0, Rplus_0_r.
  assert (Sn : seq 0 n = seq 0 k ++ k :: seq (k + 1) (n - (k + 1))).
  { replace n with (k + (1 + (n - (k + 1)))) at 1 by lia. rewrite !seq_app. reflexivity. }
  set (X := rsum (fun k' => T (t k) (t k')) (seq (k + 1) (n - (k + 1)))).
  rewrite Sn, !rsum_app, !rsum_cons. rewrite Nat.eqb_refl. cbn [negb]. destruct (Nat.ltb_spec k k); [lia|].
  rewrite (rsum_ext _ (fun a => if negb (a =? k) then T (t k) (t a) else 0%R) (fun a => T (t k) (t a)) (seq (k + 1) _)).
  2:{ intros x Hx. apply in_seq in Hx. destruct (Nat.eqb_spec x k); [lia|]. reflexivity. }
  rewrite (rsum_ext _ _ (fun _ => 0%R) (seq (k + 1) _)).
  2:{ intros x Hx. apply in_seq in Hx. destruct (Nat.eqb_spec x k); [lia|]. destruct (Nat.ltb_spec x k); [lia|]. lra. }
  rewrite rsum_0.
  rewrite (rsum_ext _ _ (fun a => T (t k) (t a)) (seq 0 k)).
  2:{ intros x Hx. apply in_seq in Hx. destruct (Nat.eqb_spec x k); [lia|]. destruct (Nat.ltb_spec x k); [|lia]. lra. }
  rewrite (rsum_ext _ (fun a => if negb (a =? k) then T (t k) (t a) else 0%R) (fun a => T (t k) (t a)) (seq 0 k)).
  2:{ intros x Hx. apply in_seq in Hx. destruct (Nat.eqb_spec x k); [lia|]. reflexivity. }
  unfold X. lra.
Qed.

Lemma self_sum : forall res, length res = length tgt -> Forall wfr res ->
  exists res', self_interactions O c simd K q eps2 n tgt res = Ok res' /\ length res' = length tgt /\ Forall wfr res' /\
  forall k, k < n -> Vn res' k = (Vn res k + rsum (fun k' => T (t k) (t k')) (filter (fun k' => negb (k' =? k)) (seq 0 n)))%R.
Proof.
  intros res Hl Wr. destruct (self_outer (starts bw n) res) as (res' & E & L & W & H); auto.
  - intros i1 Hi. unfold starts in Hi. apply in_map_iff in Hi as (j & <- & Hj). apply in_seq in Hj.
    pose proof (batch_pos c simd Hbw) as Bp. split; [apply Nat.mod_mul; lia|].
    pose proof (Nat.mul_div_le (n + bw - 1) bw ltac:(lia)) as D. generalize dependent ((n + bw - 1) / bw). intros. nia.
  - exists res'. split; [exact E|]. repeat split; auto. intros k Hk. now rewrite H, contrib_sum.
Qed.

End Self.
