(** The loops over batches: loads, stores, the acceptance test and the update of the results, for
    every arithmetic. *)
From Coq Require Import List Arith NArith ZArith Lia Bool.
From Verif Require Import Base Config Morton Build FOps NodeProps Kernels TravProofs.
Import ListNotations.
Local Open Scope nat_scope.

(** * Loads and stores *)

Lemma nth_error_zip : forall {A B} (l1 : list A) (l2 : list B) i,
  nth_error (combine l1 l2) i = match nth_error l1 i, nth_error l2 i with Some a, Some b => Some (a, b) | _, _ => None end.
Proof.
  induction l1 as [|a l1 IH]; intros l2 [|i]; cbn [combine nth_error]; try reflexivity;
    destruct l2 as [|b l2]; cbn [nth_error]; try reflexivity.
  - now destruct (nth_error l1 i).
  - apply IH.
Qed.

Lemma nth_error_seq : forall b len i, nth_error (seq b len) i = if i <? len then Some (b + i) else None.
Proof.
  intros b len i. destruct (Nat.ltb_spec i len).
  - rewrite nth_error_nth' with (d := 0) by (now rewrite seq_length). now rewrite seq_nth.
  - apply nth_error_None. now rewrite seq_length.
Qed.

Lemma load_batch_Ok : forall {A} bw (l : list A) i, i + bw <= length l ->
  load_batch l i bw = Ok (slice l i (i + bw)).
Proof.
  intros A bw l i H. unfold load_batch. apply mapM_Ok. rewrite slice_length, seq_length by exact H.
  split; [lia|]. intros k a Hk.
  assert (k < bw) by (apply nth_error_lt in Hk; now rewrite seq_length in Hk).
  assert (a = i + k) as -> by (rewrite nth_error_nth' with (d := 0) in Hk by (now rewrite seq_length); rewrite seq_nth in Hk by lia; congruence).
  destruct (rd_lt l (i + k) ltac:(lia)) as [b Hb]. exists b. split; [|exact Hb].
  rewrite nth_error_slice. apply rd_Ok in Hb. rewrite Hb. destruct (Nat.ltb_spec k (i + bw - i)); [reflexivity|lia].
Qed.

Lemma store_batch_Ok : forall {A} (v l : list A) i, i + length v <= length l ->
  store_batch l i v = Ok (firstn i l ++ v ++ skipn (i + length v) l).
Proof.
  intros A. induction v as [|x v IH]; intros l i H; unfold store_batch; cbn [length seq combine foldM app] in *.
  - rewrite Nat.add_0_r. now rewrite firstn_skipn.
  - unfold wr at 1. destruct (Nat.ltb_spec i (length l)); [|lia]. cbn [bind].
    change (store_batch (set_nth l i x) (S i) v = Ok (firstn i l ++ x :: v ++ skipn (i + S (length v)) l)).
    rewrite IH by (rewrite set_nth_length; lia). f_equal.
    assert (E : set_nth l i x = firstn i l ++ x :: skipn (S i) l).
    { apply list_ext. intros j. rewrite nth_error_set_nth. destruct (Nat.ltb_spec i (length l)); [|lia]. rewrite andb_true_r.
      destruct (Nat.eqb_spec i j) as [->|N].
      - rewrite nth_error_app2 by (rewrite firstn_length; lia). rewrite firstn_length. replace (j - Nat.min j (length l)) with 0 by lia. reflexivity.
      - destruct (Nat.lt_ge_cases j i).
        + rewrite nth_error_app1 by (rewrite firstn_length; lia). rewrite nth_error_firstn. destruct (Nat.ltb_spec j i); [reflexivity|lia].
        + rewrite nth_error_app2 by (rewrite firstn_length; lia). rewrite firstn_length.
          replace (j - Nat.min i (length l)) with (S (j - S i)) by lia. cbn [nth_error]. rewrite nth_error_skipn. f_equal. lia. }
    assert (L : length (firstn i l) = i) by (rewrite firstn_length; lia).
    rewrite E. replace (S i) with (length (firstn i l ++ [x])) at 1 by (rewrite app_length; cbn; lia).
    replace (firstn i l ++ x :: skipn (S i) l) with ((firstn i l ++ [x]) ++ skipn (S i) l) by (rewrite <- app_assoc; reflexivity).
    rewrite firstn_app, Nat.sub_diag, firstn_O, app_nil_r, firstn_all.
    rewrite <- app_assoc. cbn [app]. f_equal. f_equal. f_equal.
    rewrite skipn_app. rewrite (skipn_all2 (firstn i l ++ [x])) by (rewrite app_length; cbn; lia). cbn [app].
    rewrite app_length, L. cbn [length]. rewrite <- (firstn_skipn (S i) l) at 2. rewrite skipn_app.
    rewrite (skipn_all2 (firstn (S i) l)) by (rewrite firstn_length; lia). cbn [app]. f_equal. rewrite firstn_length. lia.
Qed.

Lemma stored_nth : forall {A} (v l : list A) i k, i + length v <= length l ->
  nth_error (firstn i l ++ v ++ skipn (i + length v) l) k =
  if (i <=? k) && (k <? i + length v) then nth_error v (k - i) else nth_error l k.
Proof.
  intros A v l i k H.
  assert (L : length (firstn i l) = i) by (rewrite firstn_length; lia).
  destruct (Nat.leb_spec i k) as [I|I].
  - rewrite nth_error_app2 by lia. rewrite L. destruct (Nat.ltb_spec k (i + length v)); cbn [andb].
    + now rewrite nth_error_app1 by lia.
    + rewrite nth_error_app2 by lia. rewrite nth_error_skipn. f_equal. lia.
  - cbn [andb]. rewrite nth_error_app1 by lia. rewrite nth_error_firstn. destruct (Nat.ltb_spec k i); [reflexivity|lia].
Qed.

Lemma stored_length : forall {A} (v l : list A) i, i + length v <= length l ->
  length (firstn i l ++ v ++ skipn (i + length v) l) = length l.
Proof. intros. rewrite !app_length, firstn_length, skipn_length. lia. Qed.

(** * Loops over batches *)

(** Number of elements covered by the batches: the number of elements rounded up. *)
Definition covered (bw n : nat) : nat := (n + bw - 1) / bw * bw.

Lemma covered_bounds : forall bw n, 0 < bw -> n <= covered bw n /\ covered bw n <= n + bw - 1.
Proof.
  intros bw n H. unfold covered. pose proof (Nat.div_mod (n + bw - 1) bw ltac:(lia)) as D.
  pose proof (Nat.mod_upper_bound (n + bw - 1) bw ltac:(lia)). generalize dependent ((n + bw - 1) / bw). generalize dependent ((n + bw - 1) mod bw).
  clear. intros. rewrite (Nat.mul_comm n1 bw). lia.
Qed.

Lemma mul_mod0 : forall q bw, 0 < bw -> (q * bw) mod bw =? 0 = true.
Proof. intros. apply Nat.eqb_eq. apply Nat.mod_mul. lia. Qed.

Lemma batch_map_from : forall {A} bw (f : nat -> A -> outcome A) (g : nat -> A -> A) nb q0 (res : list A), 0 < bw ->
  (q0 + nb) * bw <= length res ->
  (forall k r, q0 * bw <= k < (q0 + nb) * bw -> nth_error res k = Some r -> f k r = Ok (g k r)) ->
  exists res', batch_map bw f (map (fun q => q * bw) (seq q0 nb)) res = Ok res' /\ length res' = length res /\
    forall k, nth_error res' k = if (q0 * bw <=? k) && (k <? (q0 + nb) * bw) then option_map (g k) (nth_error res k) else nth_error res k.
Proof.
  intros A bw f g. induction nb as [|nb IH]; intros q0 res Hbw Hlen Hf; unfold batch_map; cbn [seq map foldM].
  - exists res. split; [reflexivity|]. split; [reflexivity|]. intros k. rewrite Nat.add_0_r.
    destruct (Nat.leb_spec (q0 * bw) k); destruct (Nat.ltb_spec k (q0 * bw)); cbn [andb]; try reflexivity. lia.
  - unfold load_aligned at 1, store_aligned at 1. rewrite mul_mod0 by exact Hbw.
    rewrite load_batch_Ok by nia. cbn [bind].
    set (i := q0 * bw) in *.
    assert (M : mapM (fun '(k, r) => f (i + k) r) (combine (seq 0 bw) (slice res i (i + bw))) =
                Ok (map (fun '(k, r) => g (i + k) r) (combine (seq 0 bw) (slice res i (i + bw))))).
    { apply mapM_map. intros [k r] Hin. apply In_nth_error in Hin as [j Hj].
      assert (Lj : j < bw). { apply nth_error_lt in Hj. rewrite combine_length, seq_length in Hj. lia. }
      assert (Hj1 : nth_error (seq 0 bw) j = Some k /\ nth_error (slice res i (i + bw)) j = Some r).
      { rewrite nth_error_zip in Hj. destruct (nth_error (seq 0 bw) j); [|discriminate].
        destruct (nth_error (slice res i (i + bw)) j); [|discriminate]. injection Hj as -> ->. auto. }
      destruct Hj1 as [H1 H2].
      assert (k = j) as -> by (rewrite nth_error_nth' with (d := 0) in H1 by (now rewrite seq_length); rewrite seq_nth in H1 by lia; cbn in H1; congruence).
      apply Hf; [nia|]. rewrite nth_error_slice in H2. destruct (Nat.ltb_spec j (i + bw - i)); [exact H2|lia]. }
    rewrite M. cbn [bind]. set (v := map _ _).
    assert (Lv : length v = bw). { unfold v. rewrite map_length, combine_length, seq_length, slice_length by nia. lia. }
    rewrite store_batch_Ok by nia. cbn [bind].
    set (res1 := firstn i res ++ v ++ skipn (i + length v) res).
    assert (Nv : forall j, j < bw -> nth_error v j = option_map (g (i + j)) (nth_error res (i + j))).
    { intros j Hj. unfold v. destruct (nth_error res (i + j)) as [r|] eqn:Hr; [|apply nth_error_None in Hr; nia].
      cbn [option_map]. erewrite map_nth_error with (d := (j, r)); [reflexivity|].
      assert (S1 : nth_error (seq 0 bw) j = Some j) by (rewrite nth_error_nth' with (d := 0) by (now rewrite seq_length); now rewrite seq_nth).
      assert (S2 : nth_error (slice res i (i + bw)) j = Some r) by (rewrite nth_error_slice; destruct (Nat.ltb_spec j (i + bw - i)); [exact Hr|lia]).
      rewrite nth_error_zip, S1, S2. reflexivity. }
    assert (N1 : forall k, nth_error res1 k = if (i <=? k) && (k <? i + bw) then option_map (g k) (nth_error res k) else nth_error res k).
    { intros k. unfold res1. rewrite stored_nth by nia. rewrite Lv. destruct (Nat.leb_spec i k); [|reflexivity].
      destruct (Nat.ltb_spec k (i + bw)); [|reflexivity]. cbn [andb]. rewrite Nv by lia. now replace (i + (k - i)) with k by lia. }
    assert (L1 : length res1 = length res) by (unfold res1; apply stored_length; nia).
    destruct (IH (S q0) res1 Hbw) as (res' & E & L & N).
    { nia. }
    { intros k r Hk Hr. rewrite N1 in Hr. unfold i in Hr. destruct (Nat.leb_spec (q0 * bw) k); [|nia].
      destruct (Nat.ltb_spec k (q0 * bw + bw)); [nia|]. cbn [andb] in Hr. apply Hf; [nia|exact Hr]. }
    exists res'. split; [exact E|]. split; [lia|]. intros k. rewrite N, N1. unfold i.
    replace ((S q0 + nb) * bw) with ((q0 + S nb) * bw) by lia.
    destruct (Nat.leb_spec (S q0 * bw) k), (Nat.leb_spec (q0 * bw) k), (Nat.ltb_spec k (q0 * bw + bw)),
      (Nat.ltb_spec k ((q0 + S nb) * bw)); cbn [andb]; try reflexivity; nia.
Qed.

Lemma batch_map_Ok : forall {A} bw (f : nat -> A -> outcome A) (g : nat -> A -> A) n (res : list A), 0 < bw ->
  covered bw n <= length res ->
  (forall k r, k < covered bw n -> nth_error res k = Some r -> f k r = Ok (g k r)) ->
  exists res', batch_map bw f (starts bw n) res = Ok res' /\ length res' = length res /\
    forall k, nth_error res' k = if k <? covered bw n then option_map (g k) (nth_error res k) else nth_error res k.
Proof.
  intros A bw f g n res Hbw Hl Hf. unfold starts, covered in *.
  destruct (batch_map_from bw f g ((n + bw - 1) / bw) 0 res Hbw) as (res' & E & L & N); [exact Hl| |].
  { intros k r [_ Hk]. apply Hf. exact Hk. }
  exists res'. split; [exact E|]. split; [exact L|]. intros k. rewrite N. reflexivity.
Qed.

Section Loops.

Context {F : Type}.
Variable O : fops F.
Variable c : cfg.
Variable simd : option nat.
Variable K : platform F.
Hypothesis Hbw : match simd with Some bw => 0 < bw | None => True end.

Notation bw := (batch c simd).
Notation cov := (covered bw).
Notation lane := (mac_lane O c simd K).

Lemma batch_pos : 0 < bw.
Proof. unfold batch. destruct simd as [b|]; [destruct (dim c) as [|[|[|[|?]]]]; (exact Hbw || lia)|lia]. Qed.

(** The particles [0, n) of the target pass the test. *)
Definition passes (lh eps2 : F) (com : list F) (ps : list prow) : bool :=
  negb (existsb (fun p => fle O (fst (lane eps2 com p)) lh) ps).

Lemma mac_loop_from : forall lh eps2 com (tgt : list (@prow F)) nb q0 tmp, (q0 + nb) * bw <= length tgt ->
  mac_loop O c simd K lh eps2 com tgt (map (fun q => q * bw) (seq q0 nb)) tmp =
  Ok (if passes lh eps2 com (slice tgt (q0 * bw) ((q0 + nb) * bw))
      then Some (tmp ++ map (fun p => snd (lane eps2 com p)) (slice tgt (q0 * bw) ((q0 + nb) * bw))) else None).
Proof.
  intros lh eps2 com tgt. induction nb as [|nb IH]; intros q0 tmp H; cbn [seq map mac_loop].
  - rewrite Nat.add_0_r. unfold slice. rewrite Nat.sub_diag, firstn_O. cbn. now rewrite app_nil_r.
  - unfold load_aligned. rewrite mul_mod0 by apply batch_pos. rewrite load_batch_Ok by nia. cbn [bind].
    assert (S : slice tgt (q0 * bw) ((q0 + S nb) * bw) = slice tgt (q0 * bw) (q0 * bw + bw) ++ slice tgt (S q0 * bw) ((S q0 + nb) * bw)).
    { unfold slice. replace (S q0 * bw) with (q0 * bw + bw) by lia.
      replace ((q0 + S nb) * bw - q0 * bw) with (bw + nb * bw) by lia.
      replace (q0 * bw + bw - q0 * bw) with bw by lia. replace ((S q0 + nb) * bw - (q0 * bw + bw)) with (nb * bw) by lia.
      rewrite <- (firstn_skipn bw (skipn (q0 * bw) tgt)) at 1. rewrite firstn_app.
      rewrite firstn_firstn. replace (Nat.min (bw + nb * bw) bw) with bw by lia.
      rewrite firstn_length, skipn_length. replace (bw + nb * bw - Nat.min bw (length tgt - q0 * bw)) with (nb * bw) by nia.
      f_equal. f_equal. clear. revert q0. generalize bw as b. intros b q0. generalize (q0 * b). intros m.
      rewrite (Nat.add_comm m b). revert b tgt. induction m as [|m IHm]; intros b tgt; [now rewrite Nat.add_0_r|].
      destruct tgt as [|x tgt]; [now rewrite !skipn_nil|]. rewrite Nat.add_succ_r. cbn [skipn]. apply IHm. }
    rewrite S. unfold passes at 1. rewrite existsb_app, negb_orb.
    assert (X : existsb (fun l => fle O (fst l) lh) (map (lane eps2 com) (slice tgt (q0 * bw) (q0 * bw + bw))) =
                existsb (fun p => fle O (fst (lane eps2 com p)) lh) (slice tgt (q0 * bw) (q0 * bw + bw))).
    { generalize (slice tgt (q0 * bw) (q0 * bw + bw)). clear. induction l as [|y l IHl]; cbn; [reflexivity|]. now rewrite IHl. }
    rewrite X. destruct (existsb _ (slice tgt (q0 * bw) (q0 * bw + bw))); [reflexivity|]. cbn [negb andb].
    rewrite IH by nia. unfold passes. destruct (negb _); [|reflexivity].
    rewrite map_app, map_map, app_assoc. reflexivity.
Qed.

Lemma mac_loop_Ok : forall lh eps2 com (tgt : list (@prow F)) n, cov n <= length tgt ->
  mac_loop O c simd K lh eps2 com tgt (starts bw n) [] =
  Ok (if passes lh eps2 com (firstn (cov n) tgt) then Some (map (fun p => snd (lane eps2 com p)) (firstn (cov n) tgt)) else None).
Proof.
  intros lh eps2 com tgt n H. unfold starts. rewrite (mac_loop_from lh eps2 com tgt _ 0 []) by exact H.
  cbn [app Nat.add Nat.mul]. unfold slice. now rewrite Nat.sub_0_r.
Qed.

(** * Effect of the events on the results *)

Variables (q : quant) (mac_value eps2 : F) (cols : list (list F)) (n : nat) (parts : list (@prow F)).
Hypothesis Hparts : mapM (particle c cols) (seq 0 n) = Ok parts.
Variables (tgt_size : nat) (tgt : list (@prow F)).
Hypothesis Htgt : cov tgt_size <= length tgt.

Lemma particle_nth : forall i, i < n -> exists p, particle c cols i = Ok p /\ nth_error parts i = Some p.
Proof.
  intros i Hi. apply mapM_Ok in Hparts as [_ H]. destruct (H i i) as (p & H1 & H2); [|eauto].
  rewrite nth_error_nth' with (d := 0) by (now rewrite seq_length). now rewrite seq_nth.
Qed.

Lemma slice_cons : forall {A} (l : list A) b e x, b < e -> nth_error l b = Some x -> slice l b e = x :: slice l (S b) e.
Proof.
  intros A l b e x H Hx. apply list_ext. intros i. rewrite nth_error_slice. destruct i as [|i]; cbn [nth_error].
  - destruct (Nat.ltb_spec 0 (e - b)); [|lia]. now rewrite Nat.add_0_r.
  - rewrite nth_error_slice. replace (e - S b) with (e - b - 1) by lia.
    destruct (Nat.ltb_spec (S i) (e - b)), (Nat.ltb_spec i (e - b - 1)); try lia; try reflexivity. f_equal. lia.
Qed.

Lemma foldM_particles : forall {S} (h : S -> @prow F -> S) b e s, e <= n ->
  foldM (fun r i2 => do p2 <- particle c cols i2; Ok (h r p2)) (seq b (e - b)) s = Ok (fold_left h (slice parts b e) s).
Proof.
  intros S h b e s He. remember (e - b) as k eqn:Ek. revert b s Ek. induction k as [|k IH]; intros b s Ek.
  - unfold slice. rewrite <- Ek. reflexivity.
  - cbn [seq foldM]. destruct (particle_nth b ltac:(lia)) as (p & -> & Hp). cbn [bind].
    rewrite (slice_cons parts b e p) by (auto; lia). cbn [fold_left]. apply IH. lia.
Qed.

(** The test for a source node. *)
Definition accept (src : node (props F)) : bool :=
  passes (mac_lh O (n_props src) mac_value) eps2 (p_com (n_props src)) (firstn (cov tgt_size) tgt).

(** The result of the target particle [p1] after an event. *)
Definition row_act (p1 : @prow F) (r : @rrow F) (e : event) : @rrow F :=
  match e with
  | Approx a => com_pair O c simd K (p_mass (n_props a)) p1 (snd (lane eps2 (p_com (n_props a)) p1)) r
  | Direct a => fold_left (fun r p2 => leaf_pair O c simd K q eps2 p1 p2 r) (slice parts (n_begin a) (n_end a)) r
  end.

Definition ev_act (res : list (@rrow F)) (e : event) : outcome (list (@rrow F)) :=
  match e with
  | Approx a => src_com O c simd K (p_mass (n_props a)) tgt_size tgt
                  (map (fun p => snd (lane eps2 (p_com (n_props a)) p)) (firstn (cov tgt_size) tgt)) res
  | Direct a => acc_pot_leaf O c simd K q eps2 cols a tgt_size tgt res
  end.

Lemma mac_check_events : forall i src res,
  mac_check O c simd K q mac_value eps2 cols tgt_size tgt i src res =
  if accept src then do s' <- ev_act res (Approx src); Ok (i + n_children src + 1, s')
  else do s' <- (if n_children src =? 0 then ev_act res (Direct src) else Ok res); Ok (i + 1, s').
Proof.
  intros i src res. unfold mac_check. rewrite mac_loop_Ok by exact Htgt. cbn [bind]. unfold accept.
  destruct (passes _ _ _ _); reflexivity.
Qed.

Lemma ev_act_Ok : forall e res, n_end (ev_node e) <= n -> cov tgt_size <= length res ->
  exists res', ev_act res e = Ok res' /\ length res' = length res /\
  (forall k p1 r, k < cov tgt_size -> nth_error tgt k = Some p1 -> nth_error res k = Some r ->
    nth_error res' k = Some (row_act p1 r e)) /\
  (forall k, cov tgt_size <= k -> nth_error res' k = nth_error res k).
Proof.
  intros e res He Hres.
  set (g := fun k r => match nth_error tgt k with Some p1 => row_act p1 r e | None => r end).
  assert (X : exists res', ev_act res e = Ok res' /\ length res' = length res /\
    forall k, nth_error res' k = if k <? cov tgt_size then option_map (g k) (nth_error res k) else nth_error res k).
  { destruct e as [a|a]; cbn [ev_act ev_node] in *; unfold src_com, acc_pot_leaf;
      apply batch_map_Ok; try exact Hres; try apply batch_pos; intros k r Hk Hr; unfold g;
      destruct (rd_lt tgt k ltac:(lia)) as [p1 Hp]; rewrite Hp; cbn [bind]; apply rd_Ok in Hp; rewrite Hp.
    - unfold rd. rewrite (map_nth_error _ k (firstn (cov tgt_size) tgt) (d := p1)).
      + reflexivity.
      + rewrite nth_error_firstn. destruct (Nat.ltb_spec k (cov tgt_size)); [exact Hp|lia].
    - cbn [row_act]. now apply foldM_particles. }
  destruct X as (res' & E & L & N). exists res'. split; [exact E|]. split; [exact L|].
  split.
  - intros k p1 r Hk Hp Hr. rewrite N. destruct (Nat.ltb_spec k (cov tgt_size)); [|lia]. rewrite Hr. cbn [option_map]. unfold g. now rewrite Hp.
  - intros k Hk. rewrite N. destruct (Nat.ltb_spec k (cov tgt_size)); [lia|reflexivity].
Qed.

Lemma ev_acts_Ok : forall evs res, Forall (fun e => n_end (ev_node e) <= n) evs -> cov tgt_size <= length res ->
  exists res', foldM ev_act evs res = Ok res' /\ length res' = length res /\
  (forall k p1 r, k < cov tgt_size -> nth_error tgt k = Some p1 -> nth_error res k = Some r ->
    nth_error res' k = Some (fold_left (row_act p1) evs r)) /\
  (forall k, cov tgt_size <= k -> nth_error res' k = nth_error res k).
Proof.
  induction evs as [|e evs IH]; intros res Hall Hres; cbn [foldM fold_left].
  - exists res. auto.
  - inversion Hall as [|? ? He Hall']; subst.
    destruct (ev_act_Ok e res He Hres) as (res1 & -> & L1 & N1 & U1). cbn [bind].
    destruct (IH res1 Hall') as (res' & -> & L & N & U); [lia|].
    exists res'. split; [reflexivity|]. split; [lia|]. split.
    + intros k p1 r Hk Hp Hr. apply N; auto.
    + intros k Hk. now rewrite U, U1.
Qed.

(** The traversal of the tree is given by its events. *)
Lemma traverse_rows : forall nodes code evs res,
  traverse c K (ev_check accept) nodes code (length nodes) 0 [] = Ok evs ->
  Forall (fun e => n_end (ev_node e) <= n) evs -> cov tgt_size <= length res ->
  exists res', traverse c K (mac_check O c simd K q mac_value eps2 cols tgt_size tgt) nodes code (length nodes) 0 res = Ok res' /\
  length res' = length res /\
  (forall k p1 r, k < cov tgt_size -> nth_error tgt k = Some p1 -> nth_error res k = Some r ->
    nth_error res' k = Some (fold_left (row_act p1) evs r)) /\
  (forall k, cov tgt_size <= k -> nth_error res' k = nth_error res k).
Proof.
  intros nodes code evs res Ht Hall Hres.
  destruct (traverse_events c K (mac_check O c simd K q mac_value eps2 cols tgt_size tgt) accept ev_act nodes code) with
    (fuel := length nodes) (i := 0) (evs0 := @nil (@event F)) (evs := evs) (s := res) as (new & E1 & E2).
  - intros i src s _. apply mac_check_events.
  - exact Ht.
  - cbn [app] in E1. subst new. rewrite E2. now apply ev_acts_Ok.
Qed.

End Loops.
