(** How the result of a particle is accumulated, for every arithmetic: the interactions that are added up, and the number of
    operations on the accumulated value. *)
From Coq Require Import List Arith NArith ZArith Lia Bool Permutation.
From Verif Require Import Base Config Morton Build FOps NodeProps Kernels TravProofs KernLoops SelfSum.
Import ListNotations.
Local Open Scope nat_scope.

Section Shape.

Context {F : Type}.
Variable O : fops F.
Variable c : cfg.
Variable simd : option nat.
Variable K : platform F.
Hypothesis Hbw : match simd with Some bw => 0 < bw | None => True end.
Variables (q : quant) (eps2 : F).

Notation bw := (batch c simd).
Notation pair := (self_pair O c simd K q eps2).
Notation addr := (add_rows O).
Notation r0 := (row0 O c q).
Notation row := (@rrow F).
Notation prow := (@prow F).

(** [racc p1 r l d]: the results [r] of the particle [p1] are made of the interactions with the sources [l] by [d] steps. *)
Inductive racc (p1 : prow) : row -> list prow -> nat -> Prop :=
| racc_0 : racc p1 r0 [] 0
| racc_first : forall p2 a r l d, racc p1 a l d -> racc p1 (fst (pair p1 p2 a r)) (p2 :: l) (S d)
| racc_second : forall p2 a r l d, racc p1 r l d -> racc p1 (snd (pair p2 p1 a r)) (p2 :: l) (S d)
| racc_leaf : forall p2 r l d, racc p1 r l d -> racc p1 (leaf_pair O c simd K q eps2 p1 p2 r) (p2 :: l) (S d)
| racc_com : forall com ms r l d, racc p1 r l d ->
    racc p1 (com_pair O c simd K ms p1 (snd (mac_lane O c simd K eps2 com p1)) r) ((com, ms) :: l) (S d)
| racc_add : forall r l d a l' d', racc p1 r l d -> racc p1 a l' d' -> racc p1 (addr r a) (l' ++ l) (S (d + d')).

Variable p0 : prow.
Variable tgt : list prow.
Let t (k : nat) : prow := nth k tgt p0.

Notation At l k := (nth k l r0).

(** The row of the particle [k] has changed: the interactions with the targets [ks] were added in [e] steps. *)
Definition grown (k : nat) (r r' : row) (ks : list nat) (e : nat) : Prop :=
  forall l d, racc (t k) r l d -> exists l', racc (t k) r' l' (e + d) /\ Permutation l' (map t ks ++ l).

Lemma grown_refl : forall k r, grown k r r [] 0.
Proof. intros k r l d H. exists l. split; [exact H|reflexivity]. Qed.

Lemma grown_trans : forall k r r' r'' a b e f, grown k r r' a e -> grown k r' r'' b f -> grown k r r'' (b ++ a) (f + e).
Proof.
  intros k r r' r'' a b e f H1 H2 l d H. destruct (H1 l d H) as (l1 & R1 & P1). destruct (H2 l1 _ R1) as (l2 & R2 & P2).
  exists l2. split; [now replace (f + e + d) with (f + (e + d)) by lia|]. rewrite P2, P1, map_app, <- app_assoc. reflexivity.
Qed.

Lemma grown_perm : forall k r r' a b e, grown k r r' a e -> Permutation a b -> grown k r r' b e.
Proof.
  intros k r r' a b e H P l d R. destruct (H l d R) as (l' & R' & P'). exists l'. split; [exact R'|].
  rewrite P'. apply Permutation_app_tail. now apply Permutation_map.
Qed.

Lemma inner_step : forall i1 a1s res i2, i1 + bw <= length tgt -> i2 + bw <= length tgt -> length res = length tgt -> length a1s = bw ->
  exists a1s' res', self_inner O c simd K q eps2 tgt (slice tgt i1 (i1 + bw)) (a1s, res) i2 = Ok (a1s', res') /\
    length a1s' = bw /\ length res' = length tgt /\
    (forall l, l < bw -> grown (i1 + l) (At a1s l) (At a1s' l) [i2 + l] 1) /\
    (forall k, let ks := if win c simd i2 k then [i1 + (k - i2)] else [] in grown k (At res k) (At res' k) ks (length ks)).
Proof.
  intros i1 a1s res i2 H1 H2 Hl Ha. unfold self_inner. cbv zeta.
  rewrite load_batch_Ok by exact H2. cbn [bind]. rewrite load_batch_Ok by lia. cbn [bind].
  set (f := fun '(p1, p2, (a1, r2)) => pair p1 p2 a1 r2).
  set (outs := map f _).
  assert (L1 : length (slice tgt i1 (i1 + bw)) = bw) by (rewrite slice_length; lia).
  assert (L2 : length (slice tgt i2 (i2 + bw)) = bw) by (rewrite slice_length; lia).
  assert (L3 : length (slice res i2 (i2 + bw)) = bw) by (rewrite slice_length; lia).
  assert (Lo : length outs = bw) by (unfold outs; rewrite map_length, !combine_length; lia).
  assert (No : forall l d, l < bw -> nth l outs d = pair (t (i1 + l)) (t (i2 + l)) (nth l a1s r0) (nth (i2 + l) res r0)).
  { intros l d Hlt. unfold outs. rewrite nth_zip_map with (d1 := (p0, p0)) (d2 := (r0, r0)) by (rewrite combine_length; lia).
    rewrite !combine_nth by lia. unfold f. cbn. rewrite !nth_slice by lia. reflexivity. }
  assert (Lm : length (map snd outs) = bw) by (now rewrite map_length).
  rewrite store_batch_Ok by lia. cbn [bind]. eexists _, _. split; [reflexivity|].
  assert (Nr : forall k, nth k (firstn i2 res ++ map snd outs ++ skipn (i2 + length (map snd outs)) res) r0 =
     if win c simd i2 k then snd (pair (t (i1 + (k - i2))) (t k) (nth (k - i2) a1s r0) (nth k res r0)) else nth k res r0).
  { intros k. pose proof (stored_nth (map snd outs) res i2 k ltac:(lia)) as S. rewrite Lm in S at 2. fold (win c simd i2 k) in S.
    destruct (win c simd i2 k) eqn:W.
    - rewrite (nth_of_error _ _ _ _ r0 S). unfold win in W. apply andb_prop in W as [W1 W2]. apply Nat.leb_le in W1. apply Nat.ltb_lt in W2.
      rewrite nth_indep with (d' := snd (r0, r0)) by lia. rewrite map_nth.
      rewrite No by lia. now replace (i2 + (k - i2)) with k by lia.
    - now apply nth_of_error. }
  split; [now rewrite map_length|]. split; [rewrite stored_length by lia; exact Hl|]. split.
  - intros l Hlt. unfold grown. intros sl d R. rewrite nth_indep with (d' := fst (r0, r0)) by (rewrite map_length; lia). rewrite map_nth, No by lia.
    exists (t (i2 + l) :: sl). split; [now apply racc_first|reflexivity].
  - intros k. unfold grown. intros sl d R. rewrite Nr. destruct (win c simd i2 k).
    + exists (t (i1 + (k - i2)) :: sl). split; [now apply racc_second|reflexivity].
    + exists sl. split; [exact R|reflexivity].
Qed.

(** What the iteration [i1] of the outer loop adds to the result of [k] through the second particle of the pairs. *)
Definition seconds (i1 k : nat) (L : list nat) : list nat := flat_map (fun i2 => if win c simd i2 k then [i1 + (k - i2)] else []) L.

Lemma inner_loop : forall i1 L a1s res, i1 + bw <= length tgt -> (forall i2, In i2 L -> i2 + bw <= length tgt) ->
  length res = length tgt -> length a1s = bw ->
  exists a1s' res', foldM (self_inner O c simd K q eps2 tgt (slice tgt i1 (i1 + bw))) L (a1s, res) = Ok (a1s', res') /\
    length a1s' = bw /\ length res' = length tgt /\
    (forall l, l < bw -> grown (i1 + l) (At a1s l) (At a1s' l) (map (fun i2 => i2 + l) L) (length L)) /\
    (forall k, grown k (At res k) (At res' k) (seconds i1 k L) (length (seconds i1 k L))).
Proof.
  intros i1. induction L as [|i2 L IH]; intros a1s res H1 H2 Hl Ha; cbn [foldM].
  - exists a1s, res. split; [reflexivity|]. repeat split; auto; intros; apply grown_refl.
  - destruct (inner_step i1 a1s res i2) as (a1 & r1 & -> & A1 & A2 & A3 & A4); auto.
    { apply H2. now left. }
    cbn [bind]. destruct (IH a1 r1) as (a' & r' & -> & B1 & B2 & B3 & B4); auto.
    { intros i Hi. apply H2. now right. }
    exists a', r'. split; [reflexivity|]. repeat split; auto.
    + intros l Hlt. cbn [map length]. replace (S (length L)) with (length L + 1) by lia.
      eapply grown_perm; [exact (grown_trans _ _ _ _ _ _ _ _ (A3 l Hlt) (B3 l Hlt))|]. rewrite Permutation_app_comm. reflexivity.
    + intros k. unfold seconds. cbn [flat_map]. fold (seconds i1 k L). rewrite app_length, (Nat.add_comm (length _) (length (seconds i1 k L))).
      eapply grown_perm; [exact (grown_trans _ _ _ _ _ _ _ _ (A4 k) (B4 k))|]. apply Permutation_app_comm.
Qed.

Variable n : nat.
Hypothesis Hn : n + bw - 1 <= length tgt.

Definition inner_idx (i1 : nat) : list nat := seq (i1 + 1) (n - (i1 + 1)).

(** The targets whose interaction with [k] is added by the iteration [i1]. *)
Definition added (i1 k : nat) : list nat :=
  (if win c simd i1 k then map (fun i2 => i2 + (k - i1)) (inner_idx i1) else []) ++ seconds i1 k (inner_idx i1).

Definition add_steps (i1 k : nat) : nat := length (added i1 k) + (if win c simd i1 k then 1 else 0).

Lemma outer_loop : forall L res, (forall i1, In i1 L -> i1 mod bw = 0 /\ i1 < n) -> length res = length tgt ->
  exists res', foldM (fun res i1 =>
    do p1s <- load_aligned tgt i1 bw;
    do st <- foldM (self_inner O c simd K q eps2 tgt p1s) (seq (i1 + 1) (n - (i1 + 1))) (repeat r0 bw, res);
    let '(a1s, res1) := st in
    do r1s <- load_aligned res1 i1 bw;
    store_aligned res1 i1 bw (map (fun '(r, a) => addr r a) (combine r1s a1s))) L res = Ok res' /\
  length res' = length tgt /\ forall k, grown k (At res k) (At res' k) (flat_map (fun i1 => added i1 k) L) (list_sum (map (fun i1 => add_steps i1 k) L)).
Proof.
  assert (Bp : 0 < bw) by (exact (batch_pos c simd Hbw)).
  induction L as [|i1 L IH]; intros res HL Hl; cbn [foldM].
  - exists res. split; [reflexivity|]. repeat split; auto. intros. apply grown_refl.
  - destruct (HL i1 (or_introl eq_refl)) as [M Lt].
    unfold load_aligned at 1. rewrite M. cbn [Nat.eqb]. rewrite load_batch_Ok by lia. cbn [bind].
    destruct (inner_loop i1 (seq (i1 + 1) (n - (i1 + 1))) (repeat r0 bw) res) as (a' & r' & -> & B1 & B2 & B3 & B4); auto.
    { lia. } { intros i2 Hi. apply in_seq in Hi. lia. } { apply repeat_length. }
    cbn [bind]. unfold load_aligned at 1. rewrite M. cbn [Nat.eqb]. rewrite load_batch_Ok by lia. cbn [bind].
    unfold store_aligned at 1. rewrite M. cbn [Nat.eqb]. set (v := map _ _).
    assert (Lv : length v = bw) by (unfold v; rewrite map_length, combine_length, slice_length by lia; lia).
    rewrite store_batch_Ok by lia. cbn [bind].
    assert (Nr : forall k, nth k (firstn i1 r' ++ v ++ skipn (i1 + length v) r') r0 =
       if win c simd i1 k then addr (nth k r' r0) (nth (k - i1) a' r0) else nth k r' r0).
    { intros k. pose proof (stored_nth v r' i1 k ltac:(lia)) as S. rewrite Lv in S at 2. fold (win c simd i1 k) in S.
      destruct (win c simd i1 k) eqn:W.
      - rewrite (nth_of_error _ _ _ _ r0 S). unfold win in W. apply andb_prop in W as [W1 W2]. apply Nat.leb_le in W1. apply Nat.ltb_lt in W2.
        unfold v. rewrite nth_zip_map with (d1 := r0) (d2 := r0) by (rewrite ?slice_length; lia).
        rewrite nth_slice by lia. now replace (i1 + (k - i1)) with k by lia.
      - now apply nth_of_error. }
    destruct (IH (firstn i1 r' ++ v ++ skipn (i1 + length v) r')) as (res' & -> & C1 & C2).
    { intros i Hi. apply HL. now right. }
    { rewrite stored_length by lia. exact B2. }
    exists res'. split; [reflexivity|]. repeat split; auto. intros k. cbn [flat_map map].
    change (list_sum (add_steps i1 k :: map (fun i1 => add_steps i1 k) L)) with (add_steps i1 k + list_sum (map (fun i1 => add_steps i1 k) L)).
    rewrite (Nat.add_comm (add_steps i1 k)). eapply grown_perm; [|apply Permutation_app_comm]. refine (grown_trans _ _ _ _ _ _ _ _ _ (C2 k)). rewrite Nr. unfold added, add_steps.
    pose proof (B4 k) as G. fold (inner_idx i1) in G.
    unfold added. destruct (win c simd i1 k) eqn:W.
    + unfold win in W. apply andb_prop in W as [W1 W2]. apply Nat.leb_le in W1. apply Nat.ltb_lt in W2.
      intros sl d R. destruct (G sl d R) as (l1 & R1 & P1). specialize (B3 (k - i1) ltac:(lia)).
      replace (i1 + (k - i1)) with k in B3 by lia. destruct (B3 [] 0) as (l2 & R2 & P2).
      { rewrite nth_repeat. constructor. }
      exists (l2 ++ l1). fold (inner_idx i1) in R2, P2. split.
      * eapply eq_ind; [apply racc_add; [exact R1|exact R2]|]. rewrite app_length, map_length. lia.
      * rewrite P2, P1, app_nil_r, map_app, <- app_assoc. reflexivity.
    + cbn [app]. rewrite Nat.add_0_r. exact G.
Qed.

Lemma seconds_perm : forall i1 k, In i1 (starts bw n) -> k < n ->
  Permutation (seconds i1 k (inner_idx i1)) (filter (fun k' => k' <? k) (seq i1 bw)).
Proof.
  intros i1 k Hi Hk. unfold seconds.
  assert (E : forall L, flat_map (fun i2 => if win c simd i2 k then [i1 + (k - i2)] else []) L = map (fun i2 => i1 + (k - i2)) (filter (fun i2 => win c simd i2 k) L)).
  { induction L as [|i2 L IH]; [reflexivity|]. cbn [flat_map filter]. rewrite IH. destruct (win c simd i2 k); reflexivity. }
  rewrite E. apply NoDup_Permutation.
  - assert (Inj : forall l, NoDup l -> (forall x, In x l -> x <= k) -> NoDup (map (fun i2 => i1 + (k - i2)) l)).
    { induction l as [|x l IHl]; intros ND B; cbn [map]; [constructor|]. inversion ND; subst. constructor.
      - rewrite in_map_iff. intros (y & Ey & Hy). pose proof (B x (or_introl eq_refl)). pose proof (B y (or_intror Hy)).
        assert (x = y) by lia. subst. contradiction.
      - apply IHl; auto. intros y Hy. apply B. now right. }
    apply Inj; [apply NoDup_filter, seq_NoDup|]. intros x Hx. apply filter_In in Hx as [_ W]. unfold win in W.
    apply andb_prop in W as [W1 _]. now apply Nat.leb_le.
  - apply NoDup_filter, seq_NoDup.
  - intros k'. unfold inner_idx. rewrite in_map_iff, filter_In, in_seq, Nat.ltb_lt. unfold win. split.
    + intros (i2 & <- & H). apply filter_In in H as [Hs W]. apply in_seq in Hs. apply andb_prop in W as [W1 W2].
      apply Nat.leb_le in W1. apply Nat.ltb_lt in W2. lia.
    + intros [B1 B2]. exists (i1 + k - k'). split; [lia|]. apply filter_In. split; [apply in_seq; lia|].
      apply andb_true_intro. split; [apply Nat.leb_le|apply Nat.ltb_lt]; lia.
Qed.

(** All the targets whose interactions with [k] are added: the others, and [pads] of the padding. *)
Definition pads (k : nat) : nat := k - k / bw * bw.

Lemma added_perm : forall k, k < n ->
  Permutation (flat_map (fun i1 => added i1 k) (starts bw n)) (filter (fun k' => negb (k' =? k)) (seq 0 n) ++ seq n (pads k)) /\
  list_sum (map (fun i1 => add_steps i1 k) (starts bw n)) = n + pads k.
Proof.
  intros k Hk. assert (Bp : 0 < bw) by (exact (batch_pos c simd Hbw)).
  destruct (covered_bounds bw n Bp) as [Cv1 Cv2].
  pose proof (Nat.div_mod k bw ltac:(lia)) as Dk. pose proof (Nat.mod_upper_bound k bw ltac:(lia)) as Mk. set (i0 := k / bw * bw).
  assert (Ei0 : bw * (k / bw) = i0) by (unfold i0; lia). rewrite Ei0 in Dk.
  assert (I0 : i0 <= k < i0 + bw) by lia.
  assert (W : forall j, win c simd (j * bw) k = (j =? k / bw)).
  { intros j. unfold win. destruct (Nat.eqb_spec j (k / bw)) as [->|Hne].
    - fold i0. destruct (Nat.leb_spec i0 k), (Nat.ltb_spec k (i0 + bw)); try lia; reflexivity.
    - destruct (Nat.leb_spec (j * bw) k), (Nat.ltb_spec k (j * bw + bw)); try reflexivity. exfalso. apply Hne.
      unfold i0 in *. clear - H H0 Dk Mk Bp Ei0. nia. }
  assert (Hj : k / bw < (n + bw - 1) / bw).
  { pose proof (Nat.div_mod (n + bw - 1) bw ltac:(lia)) as D2. pose proof (Nat.mod_upper_bound (n + bw - 1) bw ltac:(lia)) as M2.
    clear - Hk Dk Mk Bp Ei0 D2 M2. nia. }
  (* the particles after [k] *)
  assert (S1 : forall J, (forall j, In j (seq 0 J) -> In (j * bw) (starts bw n)) ->
     Permutation (flat_map (fun i1 => added i1 k) (map (fun j => j * bw) (seq 0 J)))
      ((if k / bw <? J then seq (k + 1) (n - (k + 1)) ++ seq n (pads k) else []) ++ filter (fun k' => k' <? k) (seq 0 (J * bw)))).
  { induction J as [|J IHJ]; intros HJ; [reflexivity|].
    rewrite seq_S, map_app, flat_map_app. cbn [map flat_map Nat.add]. rewrite app_nil_r. rewrite IHJ.
    2:{ intros j Hj'. apply HJ. apply in_seq in Hj'. apply in_seq. lia. }
    replace (S J * bw) with (J * bw + bw) by lia. rewrite seq_app, filter_app. cbn [Nat.add].
    unfold added. rewrite W. rewrite (seconds_perm (J * bw) k) by (auto; apply HJ; apply in_seq; lia).
    assert (X : Permutation (if J =? k / bw then map (fun i2 => i2 + (k - J * bw)) (inner_idx (J * bw)) else [])
       (if J =? k / bw then seq (k + 1) (n - (k + 1)) ++ seq n (pads k) else [])).
    { destruct (Nat.eqb_spec J (k / bw)) as [->|]; [|reflexivity]. fold i0. unfold inner_idx, pads. fold i0.
      replace (map (fun i2 => i2 + (k - i0)) (seq (i0 + 1) (n - (i0 + 1)))) with (seq (k + 1) (n - (i0 + 1))).
      - replace (n - (i0 + 1)) with ((n - (k + 1)) + (k - i0)) by lia. rewrite seq_app. replace (k + 1 + (n - (k + 1))) with n by lia. apply Permutation_refl.
      - replace (k + 1) with (i0 + 1 + (k - i0)) by lia. generalize (i0 + 1) as b0, (n - (i0 + 1)) as len, (k - i0) as s.
        intros b0 len s. revert b0. induction len as [|len IH]; intros b0; [reflexivity|]. cbn [seq map]. f_equal. apply (IH (S b0)). }
    rewrite X. clear X IHJ.
    assert (Y : Permutation ((if k / bw <? J then seq (k + 1) (n - (k + 1)) ++ seq n (pads k) else []) ++ (if J =? k / bw then seq (k + 1) (n - (k + 1)) ++ seq n (pads k) else []))
       (if k / bw <? S J then seq (k + 1) (n - (k + 1)) ++ seq n (pads k) else [])).
    { destruct (Nat.ltb_spec (k / bw) J), (Nat.eqb_spec J (k / bw)), (Nat.ltb_spec (k / bw) (S J)); try lia; rewrite ?app_nil_r; reflexivity. }
    rewrite <- Y. set (P1 := if k / bw <? J then _ else _). set (P2 := if J =? k / bw then _ else _). set (Q1 := filter _ (seq 0 _)). set (Q2 := filter _ (seq (J * bw) bw)).
    rewrite <- !app_assoc. apply Permutation_app_head. rewrite !app_assoc. apply Permutation_app_tail. apply Permutation_app_comm. }
  assert (P : Permutation (flat_map (fun i1 => added i1 k) (starts bw n)) (filter (fun k' => negb (k' =? k)) (seq 0 n) ++ seq n (pads k))).
  { unfold starts. rewrite S1.
    2:{ intros j Hj'. unfold starts. apply in_map_iff. exists j. auto. }
    destruct (Nat.ltb_spec (k / bw) ((n + bw - 1) / bw)); [|lia]. change ((n + bw - 1) / bw * bw) with (covered bw n).
    assert (Sn : seq 0 n = seq 0 k ++ k :: seq (k + 1) (n - (k + 1))).
    { replace n with (k + (1 + (n - (k + 1)))) at 1 by lia. rewrite !seq_app. reflexivity. }
    assert (F1 : filter (fun k' => k' <? k) (seq 0 (covered bw n)) = seq 0 k).
    { replace (covered bw n) with (k + (covered bw n - k)) by lia. rewrite seq_app, filter_app. cbn [Nat.add].
      assert (A1 : forall l, (forall x, In x l -> x < k) -> filter (fun k' => k' <? k) l = l).
      { induction l as [|x l IH]; intros B; [reflexivity|]. cbn [filter]. pose proof (B x (or_introl eq_refl)). destruct (Nat.ltb_spec x k); [|lia].
        f_equal. apply IH. intros y Hy. apply B. now right. }
      assert (A2 : forall l, (forall x, In x l -> k <= x) -> filter (fun k' => k' <? k) l = []).
      { induction l as [|x l IH]; intros B; [reflexivity|]. cbn [filter]. pose proof (B x (or_introl eq_refl)). destruct (Nat.ltb_spec x k); [lia|].
        apply IH. intros y Hy. apply B. now right. }
      rewrite A1, A2, app_nil_r; [reflexivity| |]; intros x Hx; apply in_seq in Hx; lia. }
    assert (F2 : filter (fun k' => negb (k' =? k)) (seq 0 n) = seq 0 k ++ seq (k + 1) (n - (k + 1))).
    { rewrite Sn, filter_app. cbn [filter]. rewrite Nat.eqb_refl. cbn [negb].
      assert (A1 : forall l, (forall x, In x l -> x <> k) -> filter (fun k' => negb (k' =? k)) l = l).
      { induction l as [|x l IH]; intros B; [reflexivity|]. cbn [filter]. pose proof (B x (or_introl eq_refl)). destruct (Nat.eqb_spec x k); [lia|].
        cbn [negb]. f_equal. apply IH. intros y Hy. apply B. now right. }
      rewrite !A1; [reflexivity| |]; intros x Hx; apply in_seq in Hx; lia. }
    rewrite F1, F2. rewrite (Permutation_app_comm _ (seq 0 k)), app_assoc. reflexivity. }
  split; [exact P|].
  assert (Hs : forall L, list_sum (map (fun i1 => add_steps i1 k) L) =
     length (flat_map (fun i1 => added i1 k) L) + list_sum (map (fun i1 => if win c simd i1 k then 1 else 0) L)).
  { induction L as [|i1 L IH]; [reflexivity|].
    change (add_steps i1 k + list_sum (map (fun i1 => add_steps i1 k) L) =
      length (added i1 k ++ flat_map (fun i1 => added i1 k) L) + ((if win c simd i1 k then 1 else 0) + list_sum (map (fun i1 => if win c simd i1 k then 1 else 0) L))).
    rewrite app_length. unfold add_steps at 1. lia. }
  rewrite Hs. rewrite (Permutation_length P), app_length, seq_length.
  assert (H1 : forall J, list_sum (map (fun i1 => if win c simd i1 k then 1 else 0) (map (fun j => j * bw) (seq 0 J))) = if k / bw <? J then 1 else 0).
  { induction J as [|J IHJ]; [reflexivity|]. rewrite seq_S, !map_app, list_sum_app, IHJ. cbn [map Nat.add]. rewrite W.
    change (list_sum [if J =? k / bw then 1 else 0]) with ((if J =? k / bw then 1 else 0) + 0).
    destruct (Nat.ltb_spec (k / bw) J), (Nat.eqb_spec J (k / bw)), (Nat.ltb_spec (k / bw) (S J)); lia. }
  unfold starts. rewrite H1. destruct (Nat.ltb_spec (k / bw) ((n + bw - 1) / bw)); [|lia].
  assert (Ln : length (filter (fun k' => negb (k' =? k)) (seq 0 n)) + 1 = n).
  { replace (seq 0 n) with (seq 0 k ++ k :: seq (k + 1) (n - (k + 1))).
    2:{ replace n with (k + (1 + (n - (k + 1)))) at 2 by lia. rewrite !seq_app. reflexivity. }
    rewrite filter_app, app_length. cbn [filter]. rewrite Nat.eqb_refl. cbn [negb].
    assert (A1 : forall l, (forall x, In x l -> x <> k) -> length (filter (fun k' => negb (k' =? k)) l) = length l).
    { induction l as [|x l IH]; intros B; [reflexivity|]. cbn [filter]. pose proof (B x (or_introl eq_refl)). destruct (Nat.eqb_spec x k); [lia|].
      cbn [negb length]. f_equal. apply IH. intros y Hy. apply B. now right. }
    rewrite !A1, !seq_length; [lia| |]; intros x Hx; apply in_seq in Hx; lia. }
  lia.
Qed.

Lemma self_shape_sum : forall res, length res = length tgt ->
  exists res', self_interactions O c simd K q eps2 n tgt res = Ok res' /\ length res' = length tgt /\
  forall k l d, k < n -> racc (t k) (At res k) l d -> exists l',
    racc (t k) (At res' k) l' (n + pads k + d) /\
    Permutation l' (map t (filter (fun k' => negb (k' =? k)) (seq 0 n)) ++ map t (seq n (pads k)) ++ l).
Proof.
  intros res Hl. destruct (outer_loop (starts bw n) res) as (res' & E & L & H); auto.
  - intros i1 Hi. unfold starts in Hi. apply in_map_iff in Hi as (j & <- & Hj). apply in_seq in Hj.
    pose proof (batch_pos c simd Hbw) as Bp. split; [apply Nat.mod_mul; lia|].
    pose proof (Nat.mul_div_le (n + bw - 1) bw ltac:(lia)) as D. generalize dependent ((n + bw - 1) / bw). intros. nia.
  - exists res'. split; [exact E|]. split; [exact L|]. intros k l d Hk R. destruct (added_perm k Hk) as [P S]. specialize (H k). rewrite S in H.
    destruct (H l d R) as (l' & R' & P'). exists l'. split; [exact R'|]. rewrite P', P, map_app, <- app_assoc. reflexivity.
Qed.

Lemma pads_lt : forall k, pads k < bw.
Proof.
  intros k. assert (Bp : 0 < bw) by (exact (batch_pos c simd Hbw)). unfold pads.
  pose proof (Nat.div_mod k bw ltac:(lia)). pose proof (Nat.mod_upper_bound k bw ltac:(lia)). lia.
Qed.

End Shape.
