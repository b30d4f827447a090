(** The results do not depend on the contents of the work buffers. *)
From Coq Require Import List Arith NArith ZArith Lia Bool Permutation.
From Verif Require Import Base Config Morton Build TreeSpec FOps NodeProps Tree TreeInv TreeProofs TreeSafe Kernels Force TravProofs KernLoops ForceGen ForceOut ForceTop Scratch.
Import ListNotations.
Local Open Scope nat_scope.

(** * Arrays *)
Section Rows.

Context {F : Type}.
Notation buf := (@buf F).
Notation bufs := (@bufs F).

Definition shaped (nv n : nat) (bs : bufs) : Prop := length bs = nv /\ Forall (fun b : buf => length b = n) bs.

Lemma bget_set : forall (b : buf) k x j, k < length b -> bget (set_nth b k (Some x)) j = if k =? j then Ok x else bget b j.
Proof.
  intros b k x j Hk. unfold bget, rd. rewrite nth_error_set_nth. destruct (Nat.ltb_spec k (length b)); [|lia]. rewrite andb_true_r.
  destruct (k =? j); reflexivity.
Qed.

Lemma put_row_spec : forall n (bs : bufs) k row, shaped (length row) n bs -> k < n ->
  exists bs', put_row bs k row = Ok bs' /\ shaped (length row) n bs' /\
    forall j, get_row bs' j = if k =? j then Ok row else get_row bs j.
Proof.
  intros n bs k row [L S] Hk. unfold put_row. rewrite L, Nat.eqb_refl. revert row L.
  induction S as [|b bs Hb S IH]; intros [|x row] L; try discriminate L; cbn [combine mapM].
  - exists []. split; [reflexivity|]. split; [split; constructor|]. intros j. destruct (k =? j); reflexivity.
  - injection L as L. destruct (IH row L) as (bs' & E1 & [L' S'] & G). unfold wr at 1.
    destruct (Nat.ltb_spec k (length b)); [|lia]. cbn [bind]. rewrite E1. cbn [bind]. eexists. split; [reflexivity|]. split.
    + split; [cbn [length]; congruence|]. constructor; [now rewrite set_nth_length|exact S'].
    + intros j. unfold get_row. cbn [mapM]. rewrite bget_set by lia. fold (get_row bs' j). rewrite G. destruct (k =? j); reflexivity.
Qed.

(** The first elements of the arrays hold the rows [rows]. *)
Definition holds (nv n : nat) (bs : bufs) (rows : list (list F)) : Prop :=
  shaped nv n bs /\ Forall (fun r => length r = nv) rows /\ length rows <= n /\
  forall k r, nth_error rows k = Some r -> get_row bs k = Ok r.

Lemma holds_get : forall nv n bs rows k r, holds nv n bs rows -> rd rows k = Ok r -> get_row bs k = Ok r.
Proof. intros nv n bs rows k r (_ & _ & _ & H) E. apply rd_Ok in E. auto. Qed.

Lemma holds_put : forall nv n bs rows k r rows', holds nv n bs rows -> length r = nv -> wr rows k r = Ok rows' ->
  exists bs', put_row bs k r = Ok bs' /\ holds nv n bs' rows'.
Proof.
  intros nv n bs rows k r rows' (S & L & Ln & H) Hr E. unfold wr in E. destruct (Nat.ltb_spec k (length rows)) as [Hk|]; [|discriminate E].
  injection E as <-. subst nv. destruct (put_row_spec n bs k r S ltac:(lia)) as (bs' & E1 & S' & G). exists bs'. split; [exact E1|].
  split; [exact S'|]. split.
  - apply Forall_forall. intros x Hx. apply In_nth_error in Hx as [j Hj]. rewrite nth_error_set_nth in Hj.
    destruct ((k =? j) && (k <? length rows)); [now injection Hj as <-|]. rewrite Forall_forall in L. apply L. eapply nth_error_In; eauto.
  - split; [now rewrite set_nth_length|]. intros j x Hj. rewrite nth_error_set_nth in Hj. rewrite G.
    destruct (Nat.ltb_spec k (length rows)); [|lia]. rewrite andb_true_r in Hj. destruct (k =? j); [congruence|auto].
Qed.

Lemma holds_load : forall nv n bs rows i w rs, holds nv n bs rows -> load_batch rows i w = Ok rs -> get_rows bs i w = Ok rs.
Proof.
  intros nv n bs rows i w rs H. unfold load_batch, get_rows. revert rs. induction (seq i w) as [|k l IH]; intros rs E; cbn [mapM] in *; [exact E|].
  apply bind_Ok in E as (r & E1 & E). apply bind_Ok in E as (rs' & E2 & E). injection E as <-.
  rewrite (holds_get _ _ _ _ _ _ H E1). cbn [bind]. now rewrite (IH _ E2).
Qed.

Lemma holds_load_al : forall nv n bs rows i w rs, holds nv n bs rows -> load_aligned rows i w = Ok rs -> get_rows_al bs i w = Ok rs.
Proof. intros nv n bs rows i w rs H. unfold load_aligned, get_rows_al. destruct (_ =? _); [|discriminate]. now apply holds_load with (1 := H). Qed.

Lemma load_in : forall {A} (rows : list A) i w rs, load_batch rows i w = Ok rs -> forall r, In r rs -> In r rows.
Proof.
  intros A rows i w. unfold load_batch. induction (seq i w) as [|k l IH]; intros rs E r Hr; cbn [mapM] in E; [injection E as <-; destruct Hr|].
  apply bind_Ok in E as (r0 & E1 & E). apply bind_Ok in E as (rs' & E2 & E). injection E as <-. destruct Hr as [<-|Hr]; [|eauto].
  apply rd_Ok in E1. eapply nth_error_In; eauto.
Qed.

Lemma load_al_in : forall {A} (rows : list A) i w rs, load_aligned rows i w = Ok rs -> forall r, In r rs -> In r rows.
Proof. intros A rows i w rs. unfold load_aligned. destruct (_ =? _); [|discriminate]. apply load_in. Qed.

Lemma holds_store : forall nv n rs bs rows i rows', holds nv n bs rows -> Forall (fun r => length r = nv) rs -> store_batch rows i rs = Ok rows' ->
  exists bs', put_rows bs i rs = Ok bs' /\ holds nv n bs' rows'.
Proof.
  intros nv n. unfold store_batch, put_rows. induction rs as [|r rs IH]; intros bs rows i rows' H L E; cbn [length seq combine foldM] in *.
  - injection E as <-. eauto.
  - apply bind_Ok in E as (rows1 & E1 & E). destruct (holds_put _ _ _ _ _ _ _ H (Forall_inv L) E1) as (bs1 & B1 & H1).
    rewrite B1. cbn [bind]. exact (IH bs1 rows1 (S i) rows' H1 (Forall_inv_tail L) E).
Qed.

Lemma holds_store_al : forall nv n w rs bs rows i rows', holds nv n bs rows -> Forall (fun r => length r = nv) rs -> store_aligned rows i w rs = Ok rows' ->
  exists bs', put_rows_al bs i w rs = Ok bs' /\ holds nv n bs' rows'.
Proof. intros nv n w rs bs rows i rows' H L. unfold store_aligned, put_rows_al. destruct (_ =? _); [|discriminate]. now apply holds_store. Qed.

(** Loads and stores of images of rows. *)
Lemma mapM_image : forall {A} (f : A -> list F) (rows : list A) (l : list nat) rs, mapM (rd rows) l = Ok rs -> mapM (rd (map f rows)) l = Ok (map f rs).
Proof.
  intros A f rows. induction l as [|k l IH]; intros rs E; cbn [mapM] in *; [now injection E as <-|].
  apply bind_Ok in E as (r & E1 & E). apply bind_Ok in E as (rs' & E2 & E). injection E as <-.
  apply rd_Ok in E1. unfold rd at 1. rewrite (map_nth_error f _ _ E1). cbn [bind]. now rewrite (IH _ E2).
Qed.

Lemma load_image : forall {A} (f : A -> list F) (rows : list A) i w rs, load_batch rows i w = Ok rs -> load_batch (map f rows) i w = Ok (map f rs).
Proof. intros A f rows i w rs. apply mapM_image. Qed.

Lemma load_al_image : forall {A} (f : A -> list F) (rows : list A) i w rs, load_aligned rows i w = Ok rs -> load_aligned (map f rows) i w = Ok (map f rs).
Proof. intros A f rows i w rs. unfold load_aligned. destruct (_ =? _); [|discriminate]. apply load_image. Qed.

Lemma set_nth_map : forall {A B} (f : A -> B) l k x, map f (set_nth l k x) = set_nth (map f l) k (f x).
Proof. intros A B f. induction l as [|a l IH]; intros [|k] x; cbn; [reflexivity..|]. now rewrite IH. Qed.

Lemma store_image : forall {A} (f : A -> list F) rs (rows : list A) i rows', store_batch rows i rs = Ok rows' ->
  store_batch (map f rows) i (map f rs) = Ok (map f rows').
Proof.
  intros A f. unfold store_batch. induction rs as [|r rs IH]; intros rows i rows' E; cbn [length map seq combine foldM] in *; [now injection E as <-|].
  apply bind_Ok in E as (rows1 & E1 & E). unfold wr in E1 |- * at 1. rewrite map_length. destruct (i <? length rows); [|discriminate E1]. injection E1 as <-.
  cbn [bind]. rewrite <- set_nth_map. now apply IH.
Qed.

Lemma store_al_image : forall {A} (f : A -> list F) w rs (rows : list A) i rows', store_aligned rows i w rs = Ok rows' ->
  store_aligned (map f rows) i w (map f rs) = Ok (map f rows').
Proof. intros A f w rs rows i rows'. unfold store_aligned. destruct (_ =? _); [|discriminate]. apply store_image. Qed.

Lemma store_in : forall {A} rs (rows : list A) i rows', store_batch rows i rs = Ok rows' -> forall r, In r rows' -> In r rows \/ In r rs.
Proof.
  intros A. unfold store_batch. induction rs as [|r0 rs IH]; intros rows i rows' E r Hr; cbn [length seq combine foldM] in *; [injection E as <-; auto|].
  apply bind_Ok in E as (rows1 & E1 & E). unfold wr in E1. destruct (i <? length rows); [|discriminate E1]. injection E1 as <-.
  destruct (IH _ _ _ E r Hr) as [H|H]; [|now right; right]. apply In_nth_error in H as [j Hj]. rewrite nth_error_set_nth in Hj.
  destruct (_ && _); [injection Hj as <-; now right; left|]. left. eapply nth_error_In; eauto.
Qed.

Lemma store_al_in : forall {A} w rs (rows : list A) i rows', store_aligned rows i w rs = Ok rows' -> forall r, In r rows' -> In r rows \/ In r rs.
Proof. intros A w rs rows i rows'. unfold store_aligned. destruct (_ =? _); [|discriminate]. apply store_in. Qed.

(** Filling. *)
Lemma vresize_length : forall n (b : buf), length (vresize n b) = n.
Proof. intros n b. unfold vresize. rewrite app_length, firstn_length, repeat_length. lia. Qed.

Lemma vfill_spec : forall x m i (b : buf), i + m <= length b ->
  exists b', vfill i m x b = Ok b' /\ length b' = length b /\ forall k, bget b' k = if (i <=? k) && (k <? i + m) then Ok x else bget b k.
Proof.
  intros x. unfold vfill. induction m as [|m IH]; intros i b H; cbn [seq foldM].
  - exists b. split; [reflexivity|]. split; [reflexivity|]. intros k. destruct (Nat.leb_spec i k), (Nat.ltb_spec k (i + 0)); try reflexivity; lia.
  - unfold wr at 1. destruct (Nat.ltb_spec i (length b)); [|lia]. cbn [bind]. destruct (IH (S i) (set_nth b i (Some x))) as (b' & E & L & G); [rewrite set_nth_length; lia|].
    exists b'. split; [exact E|]. split; [now rewrite L, set_nth_length|]. intros k. rewrite G, bget_set by lia.
    destruct (Nat.leb_spec (S i) k), (Nat.leb_spec i k), (Nat.ltb_spec k (S i + m)), (Nat.ltb_spec k (i + S m)), (Nat.eqb_spec i k); cbn [andb]; try reflexivity; lia.
Qed.

Lemma vcopy_spec : forall (src : list F) i m (b : buf), m <= length b -> i + m <= length src ->
  exists b', vcopy src i m b = Ok b' /\ length b' = length b /\ forall k, bget b' k = if k <? m then rd src (i + k) else bget b k.
Proof.
  intros src i m b. unfold vcopy.
  assert (X : forall m s b, s + m <= length b -> i + (s + m) <= length src ->
    exists b', foldM (fun b k => do x <- rd src (i + k); wr b k (Some x)) (seq s m) b = Ok b' /\ length b' = length b /\
      forall k, bget b' k = if (s <=? k) && (k <? s + m) then rd src (i + k) else bget b k).
  { clear. induction m as [|m IH]; intros s b H H'; cbn [seq foldM].
    - exists b. split; [reflexivity|]. split; [reflexivity|]. intros k. destruct (Nat.leb_spec s k), (Nat.ltb_spec k (s + 0)); try reflexivity; lia.
    - destruct (rd_lt src (i + s) ltac:(lia)) as [x Hx]. rewrite Hx. cbn [bind]. unfold wr at 1. destruct (Nat.ltb_spec s (length b)); [|lia]. cbn [bind].
      destruct (IH (S s) (set_nth b s (Some x))) as (b' & E & L & G); [rewrite set_nth_length; lia|lia|].
      exists b'. split; [exact E|]. split; [now rewrite L, set_nth_length|]. intros k. rewrite G, bget_set by lia.
      destruct (Nat.leb_spec (S s) k), (Nat.leb_spec s k), (Nat.ltb_spec k (S s + m)), (Nat.ltb_spec k (s + S m)), (Nat.eqb_spec s k); cbn [andb]; try reflexivity; try lia; subst; congruence. }
  intros H H'. destruct (X m 0 b ltac:(lia) ltac:(lia)) as (b' & E & L & G). exists b'. split; [exact E|]. split; [exact L|]. intros k. rewrite G. reflexivity.
Qed.

End Rows.

(** * The kernels *)
Section Sim.

Context {F : Type}.
Variable O : fops F.
Variable E : env.
Variable K : platform F.
Variable q : quant.
(** Size of the padded arrays. *)
Variable n : nat.

Notation c := (e_cfg E).
Notation simd := (e_simd E).
Notation bw := (batch c (e_simd E)).
Notation bufs := (@bufs F).
Notation okr := (shape_ok (F := F) E q).
Notation okp := (p_ok (F := F) E).
Hypothesis Hbw : match simd with Some b => 0 < b | None => True end.

Lemma res_row_len : forall r, okr r -> length (res_row r) = nvecs_res E q.
Proof. exact (shape_length E q). Qed.

Lemma res_back : forall r, okr r -> res_of E q (res_row r) = r.
Proof.
  intros [a p] [A P]. cbn [fst snd] in *. unfold res_row, res_of. cbn [fst snd]. destruct q; cbn [has_acc has_pot] in *.
  - destruct p; [|discriminate P]. now rewrite app_nil_r.
  - destruct a; [reflexivity|discriminate A].
  - rewrite <- A, firstn_app, Nat.sub_diag, firstn_O, app_nil_r, firstn_all, skipn_app, Nat.sub_diag, skipn_all. reflexivity.
Qed.

Lemma tgt_back : forall p, okp p -> tgt_of O E (tgt_row p) = p.
Proof.
  intros [x m] P. unfold p_ok in P. cbn [fst] in P. unfold tgt_of, tgt_row. cbn [fst snd].
  rewrite <- P, firstn_app, Nat.sub_diag, firstn_O, app_nil_r, firstn_all, nth_middle. reflexivity.
Qed.

Lemma com_pair_tmp : forall m_src p t r, okr r -> length (tmp_diffs t) = dim c ->
  com_pair O c simd K m_src p (tmp_of O E q (tmp_row q t)) r = com_pair O c simd K m_src p t r.
Proof.
  intros m_src p [ds d3 d] [a v] [A P] L. cbn [fst snd tmp_diffs] in *.
  assert (H1 : forall l, firstn (dim c) (ds ++ l) = ds) by (intros l; rewrite <- L, firstn_app, Nat.sub_diag, firstn_O, app_nil_r, firstn_all; reflexivity).
  assert (H2 : forall x l, nth (dim c) (ds ++ x :: l) (fofZ O 0%Z) = x) by (intros x l; rewrite <- L; apply nth_middle).
  assert (H3 : forall x y l, nth (dim c + 1) (ds ++ x :: y :: l) (fofZ O 0%Z) = y).
  { intros x y l. rewrite <- L. rewrite app_nth2 by lia. replace (length ds + 1 - length ds) with 1 by lia. reflexivity. }
  destruct q; unfold tmp_row, tmp_of; cbn [tmp_diffs tmp_dist3 tmp_dist has_acc has_pot] in *; rewrite ?H1, ?H2, ?H3.
  - destruct v; [|discriminate P]. unfold com_pair. cbn [fst snd tmp_diffs tmp_dist3 tmp_dist map]. reflexivity.
  - destruct a; [|discriminate A]. unfold com_pair, axpy. cbn [fst snd tmp_diffs tmp_dist3 tmp_dist map combine nth].
    destruct ds; reflexivity.
  - reflexivity.
Qed.

Definition Rres (res : list (@rrow F)) (bs : bufs) : Prop := holds (nvecs_res E q) n bs (map res_row res) /\ Forall okr res.
Definition Rtgt (tgt : list (@prow F)) (bs : bufs) : Prop := holds (dim c + 1) n bs (map tgt_row tgt) /\ Forall okp tgt /\ length tgt = n.

Lemma okr_rows : forall rs, Forall okr rs -> Forall (fun r => length r = nvecs_res E q) (map res_row rs).
Proof. intros rs H. apply Forall_forall. intros x Hx. apply in_map_iff in Hx as (r & <- & Hr). apply res_row_len. rewrite Forall_forall in H. auto. Qed.

Lemma store_Rres : forall res bs i rs res', Rres res bs -> Forall okr rs -> store_batch res i rs = Ok res' ->
  exists bs', put_rows bs i (map res_row rs) = Ok bs' /\ Rres res' bs'.
Proof.
  intros res bs i rs res' [H S] Hr X. destruct (holds_store _ _ _ _ _ _ _ H (okr_rows rs Hr) (store_image res_row _ _ _ _ X)) as (bs' & B & H').
  exists bs'. split; [exact B|]. split; [exact H'|]. rewrite Forall_forall in *. intros r I. destruct (store_in _ _ _ _ X r I); auto.
Qed.

Lemma store_al_Rres : forall w res bs i rs res', Rres res bs -> Forall okr rs -> store_aligned res i w rs = Ok res' ->
  exists bs', put_rows_al bs i w (map res_row rs) = Ok bs' /\ Rres res' bs'.
Proof. intros w res bs i rs res' H L. unfold store_aligned, put_rows_al. destruct (_ =? _); [|discriminate]. now apply store_Rres. Qed.

Lemma Rtgt_get : forall tgt bs k p, Rtgt tgt bs -> rd tgt k = Ok p -> get_row bs k = Ok (tgt_row p) /\ okp p.
Proof.
  intros tgt bs k p (H & S & _) X. apply rd_Ok in X. split.
  - apply (holds_get _ _ _ _ _ _ H). apply rd_Ok. now apply map_nth_error.
  - rewrite Forall_forall in S. apply S. eapply nth_error_In; eauto.
Qed.

Lemma batch_sim : forall w (f : nat -> @rrow F -> outcome (@rrow F)) g is res bs res', Rres res bs ->
  (forall k r r', okr r -> f k r = Ok r' -> okr r' /\ g k (res_row r) = Ok (res_row r')) ->
  batch_map w f is res = Ok res' -> exists bs', bbatch_map w g is bs = Ok bs' /\ Rres res' bs'.
Proof.
  intros w f g is res bs res' R Hf. unfold batch_map, bbatch_map. revert res bs R. induction is as [|i is IH]; intros res bs R X; cbn [foldM] in *.
  - injection X as <-. eauto.
  - apply bind_Ok in X as (res1 & X1 & X). apply bind_Ok in X1 as (rs & A1 & X1). apply bind_Ok in X1 as (rs' & A2 & A3).
    rewrite (holds_load_al _ _ _ _ _ _ _ (proj1 R) (load_al_image res_row _ _ _ _ A1)). cbn [bind].
    assert (S : Forall okr rs) by (apply Forall_forall; intros r Hr; pose proof (proj2 R) as S; rewrite Forall_forall in S; exact (S r (load_al_in _ _ _ _ A1 r Hr))).
    assert (M : mapM (fun '(k, r) => g (i + k) r) (combine (seq 0 w) (map res_row rs)) = Ok (map res_row rs') /\ Forall okr rs').
    { clear - Hf S A2. revert rs' A2. generalize (seq 0 w). intros l. revert l. induction S as [|r rs Hr S IH]; intros [|k l] rs' A2; cbn [map combine mapM] in *;
        try (injection A2 as <-; split; [reflexivity|constructor]).
      apply bind_Ok in A2 as (r' & B1 & A2). apply bind_Ok in A2 as (rs1 & B2 & A2). injection A2 as <-.
      destruct (Hf _ _ _ Hr B1) as [H1 H2]. destruct (IH _ _ B2) as [H3 H4]. rewrite H2. cbn [bind]. rewrite H3. cbn [bind map]. split; [reflexivity|now constructor]. }
    destruct M as [M S']. rewrite M. cbn [bind]. destruct (store_al_Rres _ _ _ _ _ _ R S' A3) as (bs1 & B1 & R1). rewrite B1. cbn [bind]. now apply (IH res1).
Qed.

(** The acceptance check. *)
Lemma diffs_lane : forall eps2 com p, length com = dim c -> okp p -> length (tmp_diffs (snd (mac_lane O c simd K eps2 com p))) = dim c.
Proof.
  intros eps2 com p Lc P. assert (L : length (diffs O com (fst p)) = dim c) by (apply (diffs_len O E); assumption).
  unfold mac_lane. cbn [snd]. destruct (vectorised c simd); [destruct (fast_inv_sqrt O K)|]; exact L.
Qed.

Lemma tmp_row_len : forall t : @tmp_t F, length (tmp_diffs t) = dim c -> length (tmp_row q t) = nvecs_tmp E q.
Proof. intros t L. unfold tmp_row, nvecs_tmp. destruct q; rewrite ?app_length, ?L; reflexivity. Qed.

Lemma put_rows_spec : forall (rows : list (list F)) nv (bs : bufs) i, shaped nv n bs -> Forall (fun r => length r = nv) rows -> i + length rows <= n ->
  exists bs', put_rows bs i rows = Ok bs' /\ shaped nv n bs' /\
    forall k, get_row bs' k = if (i <=? k) && (k <? i + length rows) then rd rows (k - i) else get_row bs k.
Proof.
  unfold put_rows. induction rows as [|r rows IH]; intros nv bs i S L H; cbn [length seq combine foldM] in *.
  - exists bs. split; [reflexivity|]. split; [exact S|]. intros k. destruct (Nat.leb_spec i k), (Nat.ltb_spec k (i + 0)); try reflexivity; lia.
  - pose proof (Forall_inv L) as Lr. cbn beta in Lr. subst nv. destruct (put_row_spec n bs i r S ltac:(lia)) as (bs1 & E1 & S1 & G1). rewrite E1. cbn [bind].
    destruct (IH _ bs1 (Datatypes.S i) S1 (Forall_inv_tail L) ltac:(lia)) as (bs' & E2 & S2 & G2). exists bs'. split; [exact E2|]. split; [exact S2|].
    intros k. rewrite G2, G1.
    destruct (Nat.leb_spec (Datatypes.S i) k), (Nat.leb_spec i k), (Nat.ltb_spec k (Datatypes.S i + length rows)), (Nat.ltb_spec k (i + Datatypes.S (length rows))), (Nat.eqb_spec i k); cbn [andb];
      try reflexivity; try lia.
    + replace (k - i) with (Datatypes.S (k - Datatypes.S i)) by lia. reflexivity.
    + subst k. now rewrite Nat.sub_diag.
Qed.

Lemma put_diffs_shape : forall (tmp : bufs) i ds, shaped (nvecs_tmp E q) n tmp -> length ds = dim c -> i < n ->
  exists tmp', put_diffs E q tmp i ds = Ok tmp' /\ shaped (nvecs_tmp E q) n tmp'.
Proof.
  intros tmp i ds [L S] Hd Hi. unfold put_diffs. destruct (negb (vectorised c simd) && has_acc q) eqn:G; [|exists tmp; repeat split; assumption].
  apply andb_prop in G as [_ G].
  assert (Hn : dim c <= nvecs_tmp E q) by (unfold nvecs_tmp; destruct q; try discriminate G; lia).
  assert (Sf : shaped (length ds) n (firstn (dim c) tmp)).
  { split; [rewrite firstn_length; lia|]. apply Forall_forall. intros b Hb. apply firstn_In in Hb. rewrite Forall_forall in S. auto. }
  destruct (put_row_spec n _ i ds Sf Hi) as (a & E1 & [La Sa] & _). rewrite E1. cbn [bind]. eexists. split; [reflexivity|]. split.
  - rewrite app_length, skipn_length. lia.
  - apply Forall_app. split; [exact Sa|]. apply Forall_forall. intros b Hb. apply skipn_In in Hb. rewrite Forall_forall in S. auto.
Qed.

Lemma mac_sim : forall lh eps2 com tgt tb, Rtgt tgt tb -> length com = dim c -> forall nb q0 tmp (tmpb : bufs) flag,
  shaped (nvecs_tmp E q) n tmpb -> length tmp = q0 * bw ->
  (forall k t, nth_error tmp k = Some t -> length (tmp_diffs t) = dim c /\ get_row tmpb k = Ok (tmp_row q t)) ->
  mac_loop O c simd K lh eps2 com tgt (map (fun q => q * bw) (seq q0 nb)) tmp = Ok flag ->
  exists tmpb', bmac_loop O E K q lh eps2 com tb (map (fun q => q * bw) (seq q0 nb)) tmpb = Ok (match flag with Some _ => true | None => false end, tmpb') /\
    shaped (nvecs_tmp E q) n tmpb' /\
    match flag with Some tmp' => forall k t, nth_error tmp' k = Some t -> length (tmp_diffs t) = dim c /\ get_row tmpb' k = Ok (tmp_row q t) | None => True end.
Proof.
  intros lh eps2 com tgt tb R Lc. pose proof (batch_pos c simd Hbw) as Bp. induction nb as [|nb IH]; intros q0 tmp tmpb flag S Lt Ht X; cbn [seq map mac_loop bmac_loop] in *.
  - injection X as <-. exists tmpb. auto.
  - apply bind_Ok in X as (ps & X1 & X). pose proof R as (H & Sp & Ln).
    rewrite (holds_load_al _ _ _ _ _ _ _ H (load_al_image tgt_row _ _ _ _ X1)). cbn [bind].
    assert (Sps : Forall okp ps) by (apply Forall_forall; intros p Hp; rewrite Forall_forall in Sp; exact (Sp p (load_al_in _ _ _ _ X1 p Hp))).
    assert (EM : map (fun p => mac_lane O c simd K eps2 com (tgt_of O E p)) (map tgt_row ps) = map (mac_lane O c simd K eps2 com) ps).
    { rewrite map_map. apply map_ext_in. intros p Hp. rewrite Forall_forall in Sps. now rewrite (tgt_back p (Sps p Hp)). }
    rewrite EM. clear EM.
    assert (Lps : length ps = bw /\ q0 * bw + bw <= n).
    { unfold load_aligned in X1. destruct (_ =? _); [|discriminate X1]. unfold load_batch in X1. apply mapM_Ok in X1 as [L N]. rewrite seq_length in L. split; [exact L|].
      destruct (Nat.le_gt_cases (q0 * bw + bw) n) as [C|C]; [exact C|]. exfalso.
      destruct (N (bw - 1) (q0 * bw + (bw - 1))) as (p & _ & P); [rewrite nth_error_seq; destruct (Nat.ltb_spec (bw - 1) bw); [reflexivity|lia]|].
      apply rd_Ok, nth_error_lt in P. lia. }
    destruct Lps as [Lps Hn].
    destruct (existsb _ _).
    + injection X as <-.
      assert (Y : forall ls (tmpb : bufs), Forall (fun l : F * tmp_t => length (tmp_diffs (snd l)) = dim c) ls -> shaped (nvecs_tmp E q) n tmpb ->
        exists tmp', foldM (fun tmp l => put_diffs E q tmp (q0 * bw) (tmp_diffs (snd l))) ls tmpb = Ok tmp' /\ shaped (nvecs_tmp E q) n tmp').
      { induction ls as [|l ls IHl]; intros tb0 Fl S0; cbn [foldM]; [eauto|].
        destruct (put_diffs_shape tb0 (q0 * bw) _ S0 (Forall_inv Fl) ltac:(lia)) as (tb1 & E1 & S1). rewrite E1. cbn [bind]. exact (IHl tb1 (Forall_inv_tail Fl) S1). }
      destruct (Y (map (mac_lane O c simd K eps2 com) ps) tmpb) as (tmp' & E1 & S1); [|exact S|].
      * apply Forall_forall. intros l Hl. apply in_map_iff in Hl as (p & <- & Hp). apply diffs_lane; [exact Lc|]. rewrite Forall_forall in Sps. auto.
      * rewrite E1. cbn [bind]. exists tmp'. auto.
    + set (rows := map (fun l => tmp_row q (snd l)) (map (mac_lane O c simd K eps2 com) ps)) in *.
      assert (Lr : length rows = bw) by (unfold rows; rewrite !map_length; exact Lps).
      destruct (put_rows_spec rows (nvecs_tmp E q) tmpb (q0 * bw) S) as (tmpb1 & E1 & S1 & G1).
      { apply Forall_forall. intros r Hr. unfold rows in Hr. rewrite map_map in Hr. apply in_map_iff in Hr as (p & <- & Hp). apply tmp_row_len, diffs_lane; [exact Lc|]. rewrite Forall_forall in Sps. auto. }
      { lia. }
      unfold put_rows_al. rewrite mul_mod0 by exact Bp. rewrite E1. cbn [bind].
      apply (IH (Datatypes.S q0) (tmp ++ map snd (map (mac_lane O c simd K eps2 com) ps)) tmpb1 flag S1); [rewrite app_length, !map_length; lia| |exact X].
      intros k t Hk. rewrite G1, Lr. destruct (Nat.lt_ge_cases k (length tmp)) as [C|C].
      * rewrite nth_error_app1 in Hk by exact C. destruct (Nat.leb_spec (q0 * bw) k); [lia|]. cbn [andb]. auto.
      * rewrite nth_error_app2 in Hk by exact C. rewrite map_map, nth_error_map in Hk. destruct (nth_error ps (k - length tmp)) as [p|] eqn:Hp; [|discriminate Hk].
        injection Hk as <-. split; [apply diffs_lane; [exact Lc|]; rewrite Forall_forall in Sps; apply Sps; eapply nth_error_In; eauto|].
        pose proof (nth_error_lt _ _ _ Hp). destruct (Nat.leb_spec (q0 * bw) k); [|lia]. destruct (Nat.ltb_spec k (q0 * bw + bw)); [|lia]. cbn [andb].
        unfold rows. apply rd_Ok. rewrite map_map, nth_error_map. rewrite <- Lt, Hp. reflexivity.
Qed.

(** The loops that add interactions. *)
Lemma com_sim : forall m_src size tgt tb tmp tmpb res bs res', Rtgt tgt tb -> Rres res bs ->
  (forall k t, nth_error tmp k = Some t -> length (tmp_diffs t) = dim c /\ get_row tmpb k = Ok (tmp_row q t)) ->
  src_com O c simd K m_src size tgt tmp res = Ok res' ->
  exists bs', bsrc_com O E K q m_src size tb tmpb bs = Ok bs' /\ Rres res' bs'.
Proof.
  intros m_src size tgt tb tmp tmpb res bs res' R Rr Ht. unfold src_com, bsrc_com. apply batch_sim; [exact Rr|].
  intros k r r' Hr X. apply bind_Ok in X as (p & X1 & X). apply bind_Ok in X as (t & X2 & X). injection X as <-.
  destruct (Rtgt_get _ _ _ _ R X1) as [G P]. apply rd_Ok in X2. destruct (Ht _ _ X2) as [L T]. rewrite G, T. cbn [bind].
  rewrite (tgt_back p P), (res_back r Hr), (com_pair_tmp m_src p t r Hr L). split; [|reflexivity].
  destruct Hr as [A B]. unfold com_pair. destruct (negb _); unfold shape_ok; cbn [fst snd]; unfold axpy; rewrite !map_length, combine_length; destruct (has_acc q); lia.
Qed.

Variable cols : list (list F).
Hypothesis Hcols : length cols = dim c + 1.

Lemma particle_okp : forall i p, particle c cols i = Ok p -> okp p.
Proof.
  intros i p X. unfold particle in X. apply bind_Ok in X as (xs & X1 & X). apply bind_Ok in X as (mc & _ & X). apply bind_Ok in X as (ms & _ & X).
  injection X as <-. unfold p_ok. cbn [fst]. apply mapM_Ok in X1 as [L _]. rewrite L, firstn_length. lia.
Qed.

Lemma leaf_sim : forall eps2 src size tgt tb res bs res', Rtgt tgt tb -> Rres res bs ->
  acc_pot_leaf O c simd K q eps2 cols src size tgt res = Ok res' ->
  exists bs', bleaf O E K q eps2 cols src size tb bs = Ok bs' /\ Rres res' bs'.
Proof.
  intros eps2 src size tgt tb res bs res' R Rr. unfold acc_pot_leaf, bleaf. apply batch_sim; [exact Rr|].
  intros k r r' Hr X. apply bind_Ok in X as (p & X1 & X). destruct (Rtgt_get _ _ _ _ R X1) as [G P]. rewrite G. cbn [bind].
  rewrite (tgt_back p P), (res_back r Hr), X. cbn [bind]. split; [|reflexivity].
  revert r Hr X. induction (seq (n_begin src) (n_end src - n_begin src)) as [|i l IH]; intros r Hr X; cbn [foldM] in X; [injection X as <-; exact Hr|].
  apply bind_Ok in X as (r1 & X2 & X). apply bind_Ok in X2 as (p2 & X3 & X2). injection X2 as <-. apply (IH _ (leaf_shape O E K q eps2 p p2 r P (particle_okp i p2 X3) Hr) X).
Qed.

Lemma check_sim : forall mac_value eps2 size tgt tb i src res tmpb bs r, Rtgt tgt tb -> Rres res bs -> length tmpb = nvecs_tmp E q ->
  length (p_com (n_props src)) = dim c ->
  mac_check O c simd K q mac_value eps2 cols size tgt i src res = Ok r ->
  exists tmpb' bs', bmac_check O E K q mac_value eps2 cols size tb i src (tmpb, bs) = Ok (fst r, (tmpb', bs')) /\ Rres (snd r) bs' /\ length tmpb' = nvecs_tmp E q.
Proof.
  intros mac_value eps2 size tgt tb i src res tmpb bs r R Rr Lt Lc X. unfold mac_check in X. apply bind_Ok in X as (flag & X1 & X). unfold bmac_check. cbn [fst snd].
  pose proof (proj1 (proj1 R)) as [Lb Sb].
  destruct (rd_lt tb 0 ltac:(lia)) as [v0 V0]. rewrite V0. cbn [bind]. apply rd_Ok, nth_error_In in V0. rewrite Forall_forall in Sb. rewrite (Sb v0 V0).
  unfold starts in X1 |- *.
  edestruct (mac_sim (mac_lh O (n_props src) mac_value) eps2 (p_com (n_props src)) tgt tb R Lc ((size + bw - 1) / bw) 0 [] (map (vresize n) tmpb) flag) as (tmpb' & B & S & T).
  { split; [now rewrite map_length|]. apply Forall_forall. intros b Hb. apply in_map_iff in Hb as (b0 & <- & _). apply vresize_length. }
  { reflexivity. }
  { intros k t Hk. destruct k; discriminate Hk. }
  { exact X1. }
  rewrite B. cbn [bind fst snd]. destruct flag as [tmp|].
  - apply bind_Ok in X as (res' & X2 & X). injection X as <-. destruct (com_sim _ _ _ _ _ tmpb' _ _ _ R Rr T X2) as (bs' & B' & R'). rewrite B'. cbn [bind].
    exists tmpb', bs'. split; [reflexivity|]. split; [exact R'|apply S].
  - apply bind_Ok in X as (res' & X2 & X). injection X as <-. destruct (n_children src =? 0).
    + destruct (leaf_sim _ _ _ _ _ _ _ _ R Rr X2) as (bs' & B' & R'). rewrite B'. cbn [bind]. exists tmpb', bs'. split; [reflexivity|]. split; [exact R'|apply S].
    + injection X2 as <-. cbn [bind]. exists tmpb', bs. split; [reflexivity|]. split; [exact Rr|apply S].
Qed.

Lemma traverse_sim : forall mac_value eps2 size tgt tb nodes code, Rtgt tgt tb -> Forall (fun nd => length (p_com (n_props nd)) = dim c) nodes ->
  forall fuel i res tmpb bs res', Rres res bs -> length tmpb = nvecs_tmp E q ->
  traverse c K (mac_check O c simd K q mac_value eps2 cols size tgt) nodes code fuel i res = Ok res' ->
  exists tmpb' bs', traverse c K (bmac_check O E K q mac_value eps2 cols size tb) nodes code fuel i (tmpb, bs) = Ok (tmpb', bs') /\
    Rres res' bs' /\ length tmpb' = nvecs_tmp E q.
Proof.
  intros mac_value eps2 size tgt tb nodes code R Hn. induction fuel as [|fuel IH]; intros i res tmpb bs res' Rr Lt X; cbn [traverse] in *.
  - destruct (length nodes <=? i); [|discriminate X]. injection X as <-. eauto.
  - destruct (length nodes <=? i); [injection X as <-; eauto|]. apply bind_Ok in X as (src & X1 & X). rewrite X1. cbn [bind].
    apply bind_Ok in X as (sc & X2 & X). rewrite X2. cbn [bind]. destruct (sc =? n_code src)%N; [exact (IH _ _ _ _ _ Rr Lt X)|].
    apply bind_Ok in X as (r & X3 & X). apply rd_Ok, nth_error_In in X1. rewrite Forall_forall in Hn.
    destruct (check_sim _ _ _ _ _ _ _ _ _ _ _ R Rr Lt (Hn src X1) X3) as (tmpb1 & bs1 & B & R1 & L1). rewrite B. cbn [bind fst snd]. exact (IH _ _ _ _ _ R1 L1 X).
Qed.

(** Interactions within the target. *)
Lemma outs_same : forall eps2 (p1s p2s : list (@prow F)) (a1s r2s : list (@rrow F)), Forall okp p2s -> Forall okr r2s ->
  map (fun '(p1, p2, (a1, r2)) => self_pair O c simd K q eps2 p1 (tgt_of O E p2) a1 (res_of E q r2)) (combine (combine p1s (map tgt_row p2s)) (combine a1s (map res_row r2s))) =
  map (fun '(p1, p2, (a1, r2)) => self_pair O c simd K q eps2 p1 p2 a1 r2) (combine (combine p1s p2s) (combine a1s r2s)).
Proof.
  intros eps2. induction p1s as [|p1 p1s IH]; intros [|p2 p2s] [|a1 a1s] [|r2 r2s] H1 H2; cbn [map combine]; try reflexivity.
  f_equal; [|exact (IH _ _ _ (Forall_inv_tail H1) (Forall_inv_tail H2))]. now rewrite (tgt_back p2 (Forall_inv H1)), (res_back r2 (Forall_inv H2)).
Qed.

Lemma outs_shape : forall eps2 (p1s p2s : list (@prow F)) (a1s r2s : list (@rrow F)), Forall okp p1s -> Forall okp p2s -> Forall okr a1s -> Forall okr r2s ->
  Forall (fun o => okr (fst o) /\ okr (snd o))
    (map (fun '(p1, p2, (a1, r2)) => self_pair O c simd K q eps2 p1 p2 a1 r2) (combine (combine p1s p2s) (combine a1s r2s))).
Proof.
  intros eps2. induction p1s as [|p1 p1s IH]; intros [|p2 p2s] [|a1 a1s] [|r2 r2s] H1 H2 H3 H4; cbn [map combine]; try (now constructor).
  constructor; [exact (self_shape O E K q eps2 p1 p2 a1 r2 (Forall_inv H1) (Forall_inv H2) (Forall_inv H3) (Forall_inv H4))|].
  exact (IH _ _ _ (Forall_inv_tail H1) (Forall_inv_tail H2) (Forall_inv_tail H3) (Forall_inv_tail H4)).
Qed.

Lemma inner_sim : forall eps2 tgt tb p1s a1s res bs i2 st, Rtgt tgt tb -> Rres res bs -> Forall okp p1s -> Forall okr a1s ->
  self_inner O c simd K q eps2 tgt p1s (a1s, res) i2 = Ok st ->
  exists bs', bself_inner O E K q eps2 tb p1s (a1s, bs) i2 = Ok (fst st, bs') /\ Rres (snd st) bs' /\ Forall okr (fst st).
Proof.
  intros eps2 tgt tb p1s a1s res bs i2 st R Rr P A X. unfold self_inner in X. unfold bself_inner.
  apply bind_Ok in X as (p2s & X1 & X). apply bind_Ok in X as (r2s & X2 & X). apply bind_Ok in X as (res' & X3 & X). injection X as <-.
  pose proof R as (H & Sp & _).
  rewrite (holds_load _ _ _ _ _ _ _ H (load_image tgt_row _ _ _ _ X1)). cbn [bind].
  rewrite (holds_load _ _ _ _ _ _ _ (proj1 Rr) (load_image res_row _ _ _ _ X2)). cbn [bind].
  assert (S2 : Forall okp p2s) by (apply Forall_forall; intros p Hp; rewrite Forall_forall in Sp; exact (Sp p (load_in _ _ _ _ X1 p Hp))).
  assert (Sr : Forall okr r2s) by (apply Forall_forall; intros p Hp; pose proof (proj2 Rr) as Sq; rewrite Forall_forall in Sq; exact (Sq p (load_in _ _ _ _ X2 p Hp))).
  rewrite (outs_same eps2 p1s p2s a1s r2s S2 Sr). pose proof (outs_shape eps2 p1s p2s a1s r2s P S2 A Sr) as W.
  set (outs := map _ (combine (combine p1s p2s) (combine a1s r2s))) in *. cbv zeta.
  assert (W2 : Forall okr (map snd outs)) by (apply Forall_map; eapply Forall_impl; [|exact W]; intros o w; apply w).
  destruct (store_Rres _ _ _ _ _ Rr W2 X3) as (bs' & B & R').
  rewrite map_map in B. rewrite B. cbn [bind fst snd]. exists bs'. split; [reflexivity|]. split; [exact R'|]. apply Forall_map. eapply Forall_impl; [|exact W]. intros o w. apply w.
Qed.

Lemma self_sim : forall eps2 size tgt tb res bs res', Rtgt tgt tb -> Rres res bs ->
  self_interactions O c simd K q eps2 size tgt res = Ok res' ->
  exists bs', bself_interactions O E K q eps2 size tb bs = Ok bs' /\ Rres res' bs'.
Proof.
  intros eps2 size tgt tb res bs res' R. unfold self_interactions, bself_interactions. revert res bs. induction (starts bw size) as [|i1 is IH]; intros res bs Rr X; cbn [foldM] in *.
  - injection X as <-. eauto.
  - apply bind_Ok in X as (res2 & X1 & X). apply bind_Ok in X1 as (p1s & A1 & X1). apply bind_Ok in X1 as ([a1s res1] & A2 & X1). apply bind_Ok in X1 as (r1s & A3 & A4).
    pose proof R as (H & Sp & _).
    rewrite (holds_load_al _ _ _ _ _ _ _ H (load_al_image tgt_row _ _ _ _ A1)). cbn [bind].
    assert (S1 : Forall okp p1s) by (apply Forall_forall; intros p Hp; rewrite Forall_forall in Sp; exact (Sp p (load_al_in _ _ _ _ A1 p Hp))).
    assert (EP : map (tgt_of O E) (map tgt_row p1s) = p1s).
    { rewrite map_map. rewrite <- (map_id p1s) at 2. apply map_ext_in. intros p Hp. rewrite Forall_forall in S1. exact (tgt_back p (S1 p Hp)). }
    rewrite EP.
    assert (Y : forall l a res bs a' res', Rres res bs -> Forall okr a -> foldM (self_inner O c simd K q eps2 tgt p1s) l (a, res) = Ok (a', res') ->
      exists bs', foldM (bself_inner O E K q eps2 tb p1s) l (a, bs) = Ok (a', bs') /\ Rres res' bs' /\ Forall okr a').
    { clear - R S1. induction l as [|i2 l IH]; intros a res bs a' res' Rr A X; cbn [foldM] in *; [injection X as <- <-; eauto|].
      apply bind_Ok in X as ([a2 res2] & X1 & X). destruct (inner_sim _ _ _ _ _ _ _ _ _ R Rr S1 A X1) as (bs2 & B2 & R2 & A2). cbn [fst snd] in *. rewrite B2. cbn [bind]. eauto. }
    destruct (Y _ _ _ _ _ _ Rr (proj2 (Forall_forall okr _) (fun r Hr => eq_ind_r okr (shape0 O E q) (repeat_spec _ _ _ Hr))) A2) as (bs1 & B1 & R1 & A1').
    rewrite B1. cbn [bind]. rewrite (holds_load_al _ _ _ _ _ _ _ (proj1 R1) (load_al_image res_row _ _ _ _ A3)). cbn [bind].
    assert (Sr : Forall okr r1s) by (apply Forall_forall; intros p Hp; pose proof (proj2 R1) as Sq; rewrite Forall_forall in Sq; exact (Sq p (load_al_in _ _ _ _ A3 p Hp))).
    assert (Z : map (fun '(r, a) => res_row (add_rows O (res_of E q r) a)) (combine (map res_row r1s) a1s) = map res_row (map (fun '(r, a) => add_rows O r a) (combine r1s a1s)) /\
      Forall okr (map (fun '(r, a) => add_rows O r a) (combine r1s a1s))).
    { clear - Sr A1'. revert a1s A1'. induction Sr as [|r r1s Hr Sr IH]; intros [|a a1s] A; cbn [map combine]; try (split; [reflexivity|constructor]).
      destruct (IH a1s (Forall_inv_tail A)) as [I1 I2]. rewrite (res_back r Hr), I1. split; [reflexivity|]. constructor; [|exact I2]. apply (add_shape O E q r a Hr (Forall_inv A)). }
    destruct Z as [Z1 Z2]. rewrite Z1. destruct (store_al_Rres _ _ _ _ _ _ R1 Z2 A4) as (bs2 & B2 & R2). rewrite B2. cbn [bind]. exact (IH _ _ R2 X).
Qed.

Lemma scale_sim : forall G size res bs res', Rres res bs -> scale_G O E G size res = Ok res' ->
  exists bs', bscale_G O E q G size bs = Ok bs' /\ Rres res' bs'.
Proof.
  intros G size res bs res' Rr. unfold scale_G, bscale_G. destruct (feq O G _); [intros X; injection X as <-; eauto|]. apply batch_sim; [exact Rr|].
  intros k r r' Hr X. injection X as <-. rewrite (res_back r Hr). split; [now apply scale_shape|reflexivity].
Qed.

(** Writing the results. *)
Lemma row_col : forall nv (bs : bufs) rows k r j v, holds nv n bs rows -> nth_error rows k = Some r -> nth_error bs j = Some v ->
  exists x, nth_error r j = Some x /\ bget v k = Ok x.
Proof.
  intros nv bs rows k r j v (_ & _ & _ & H) Hr Hv. pose proof (H k r Hr) as G. unfold get_row in G. apply mapM_Ok in G as [_ G]. destruct (G j v Hv) as (x & X1 & X2). eauto.
Qed.

Lemma write_same : forall dest b size res bs out, Rres res bs -> size <= length res ->
  bwrite_out dest b size (nvecs_res E q) bs out = write_out dest b size (nvecs_res E q) res out.
Proof.
  intros dest b size res bs out [H S] Hs. unfold bwrite_out, write_out. destruct (diff_max <? N.of_nat b)%N; [reflexivity|]. cbn [bind].
  pose proof (proj1 (proj1 H)) as Lb.
  assert (X : forall l, (forall j, In j l -> j < nvecs_res E q) -> 
    mapM (fun j => do col <- rd out j; do v <- rd bs j; foldM (fun col k => do x <- bget v k; do i <- dest (b + k); wr col i x) (seq 0 size) col) l =
    mapM (fun j => do col <- rd out j; foldM (fun col k => do r <- rd res k; do x <- rd (fst r ++ snd r) j; do i <- dest (b + k); wr col i x) (seq 0 size) col) l).
  { induction l as [|j l IH]; intros Hl; [reflexivity|]. cbn [mapM]. rewrite IH by (intros j' Hj'; apply Hl; now right).
    destruct (rd_lt bs j ltac:(specialize (Hl j (or_introl eq_refl)); lia)) as [v Hv]. rewrite Hv. cbn [bind]. apply rd_Ok in Hv.
    destruct (rd out j) as [col| |]; cbn [bind]; try reflexivity. f_equal.
    assert (Y : forall l col, (forall k, In k l -> k < size) -> foldM (fun col k => do x <- bget v k; do i <- dest (b + k); wr col i x) l col =
      foldM (fun col k => do r <- rd res k; do x <- rd (fst r ++ snd r) j; do i <- dest (b + k); wr col i x) l col).
    { clear - H Hs Hv. induction l as [|k l IH]; intros col Hl; [reflexivity|]. cbn [foldM].
      destruct (rd_lt res k ltac:(specialize (Hl k (or_introl eq_refl)); lia)) as [r Hr]. rewrite Hr. cbn [bind]. apply rd_Ok in Hr.
      destruct (row_col _ _ _ _ _ _ _ H (map_nth_error res_row _ _ Hr) Hv) as (x & X1 & X2). rewrite X2. unfold res_row in X1. unfold rd at 1. rewrite X1. cbn [bind].
      destruct (dest (b + k)) as [i| |]; cbn [bind]; try reflexivity. destruct (wr col i x); cbn [bind]; try reflexivity. apply IH. intros k' Hk'. apply Hl. now right. }
    apply Y. intros k Hk. apply in_seq in Hk. lia. }
  apply X. intros j Hj. apply in_seq in Hj. lia.
Qed.

(** Preparation of the buffers. *)
Lemma init_res : forall bs : bufs, length bs = nvecs_res E q ->
  exists bs', mapM (fun v => vfill 0 n (fofZ O 0%Z) (vresize n v)) bs = Ok bs' /\ Rres (repeat (row0 O c q) n) bs'.
Proof.
  intros bs L.
  assert (X : forall bs : bufs, exists bs', mapM (fun v => vfill 0 n (fofZ O 0%Z) (vresize n v)) bs = Ok bs' /\ shaped (length bs) n bs' /\
    forall k, k < n -> get_row bs' k = Ok (repeat (fofZ O 0%Z) (length bs))).
  { clear. induction bs as [|v bs IH]; cbn [mapM]; [exists []; repeat split; constructor|].
    destruct (vfill_spec (fofZ O 0%Z) n 0 (vresize n v)) as (v' & E1 & L1 & G1); [rewrite vresize_length; lia|]. rewrite E1. cbn [bind].
    destruct IH as (bs' & E2 & [L2 S2] & G2). rewrite E2. cbn [bind]. exists (v' :: bs'). split; [reflexivity|]. rewrite vresize_length in L1. split.
    - split; [cbn [length]; congruence|now constructor].
    - intros k Hk. unfold get_row. cbn [mapM]. rewrite G1. destruct (Nat.ltb_spec k (0 + n)); [|lia]. cbn [Nat.leb andb bind]. fold (get_row bs' k). rewrite G2 by exact Hk. reflexivity. }
  destruct (X bs) as (bs' & E1 & S & G). exists bs'. split; [exact E1|]. rewrite L in *.
  assert (Z : res_row (row0 O c q) = repeat (fofZ O 0%Z) (nvecs_res E q)).
  { unfold res_row, row0, nvecs_res. cbn [fst snd]. destruct q; cbn [has_acc has_pot app]; rewrite ?app_nil_r; try reflexivity. now rewrite repeat_app. }
  split; [|apply Forall_forall; intros r Hr; apply repeat_spec in Hr; subst r; apply shape0].
  split; [exact S|]. split; [apply okr_rows, Forall_forall; intros r Hr; apply repeat_spec in Hr; subst r; apply shape0|].
  split; [now rewrite map_length, repeat_length|]. intros k r Hk. rewrite nth_error_map in Hk. destruct (nth_error (repeat _ n) k) as [r0|] eqn:Hr; [|discriminate Hk].
  injection Hk as <-. pose proof (nth_error_lt _ _ _ Hr) as Lk. rewrite repeat_length in Lk. apply nth_error_In, repeat_spec in Hr. subst r0. rewrite Z. auto.
Qed.

Lemma init_tgt : forall pad b size (bs : bufs) tgt N, length bs = dim c + 1 -> Forall (fun col => length col = N) cols -> b + size <= N -> size <= n ->
  target_data O E cols pad b size n = Ok tgt ->
  exists bs', bfill_target O E cols pad b size n bs = Ok bs' /\ Rtgt tgt bs'.
Proof.
  intros pad b size bs tgt N L HN Hb Hs X. unfold target_data in X. apply bind_Ok in X as (ps & X1 & X). injection X as <-.
  assert (Y : forall (bs : bufs) (cs : list (list F)) s, (forall j, j < length bs -> nth_error cols (s + j) = nth_error cs j) -> length cs = length bs -> Forall (fun col => length col = N) cs ->
    exists bs', mapM (fun '(j, v) => do col <- rd cols j; do v' <- vcopy col b size (vresize n v); vfill size (n - size) (if j <? dim c then pad else fofZ O 0%Z) v')
      (combine (seq s (length bs)) bs) = Ok bs' /\ shaped (length bs) n bs' /\
    forall j v, nth_error bs' j = Some v -> exists col, nth_error cs j = Some col /\ forall k, k < n -> bget v k = if k <? size then rd col (b + k) else Ok (if s + j <? dim c then pad else fofZ O 0%Z)).
  { clear - Hb Hs. induction bs as [|v bs IH]; intros [|col cs] s Hc Lc HN; try discriminate Lc; cbn [length seq combine mapM].
    - exists []. repeat split; try constructor. intros [|j] v Hv; discriminate Hv.
    - pose proof (Hc 0 ltac:(cbn; lia)) as H0. rewrite Nat.add_0_r in H0. cbn [nth_error] in H0. apply rd_Ok in H0. rewrite H0. cbn [bind].
      pose proof (Forall_inv HN) as Lcol. cbn beta in Lcol.
      destruct (vcopy_spec col b size (vresize n v)) as (v1 & E1 & L1 & G1); [rewrite vresize_length; lia|lia|]. rewrite E1. cbn [bind]. rewrite vresize_length in L1.
      destruct (vfill_spec (if s <? dim c then pad else fofZ O 0%Z) (n - size) size v1 ltac:(lia)) as (v2 & E2 & L2 & G2). rewrite E2. cbn [bind].
      destruct (IH cs (Datatypes.S s)) as (bs' & E3 & [L3 S3] & G3); [|now injection Lc|exact (Forall_inv_tail HN)|].
      { intros j Hj. specialize (Hc (Datatypes.S j) ltac:(cbn; lia)). cbn [nth_error] in Hc. rewrite <- Hc. f_equal. lia. }
      rewrite E3. cbn [bind]. exists (v2 :: bs'). split; [reflexivity|]. split; [split; [cbn [length]; congruence|constructor; [congruence|exact S3]]|].
      intros [|j] w Hw; cbn [nth_error] in *.
      + injection Hw as <-. exists col. split; [reflexivity|]. intros k Hk. rewrite G2, G1, Nat.add_0_r.
        destruct (Nat.ltb_spec k size), (Nat.leb_spec size k), (Nat.ltb_spec k (size + (n - size))); cbn [andb]; try reflexivity; lia.
      + destruct (G3 j w Hw) as (col' & C1 & C2). exists col'. split; [exact C1|]. intros k Hk. rewrite (C2 k Hk). replace (Datatypes.S s + j) with (s + Datatypes.S j) by lia. reflexivity. }
  destruct (Y bs cols 0) as (bs' & E1 & S & G); [intros j _; reflexivity|lia|exact HN|]. exists bs'. split; [exact E1|]. rewrite L in S.
  apply mapM_Ok in X1 as [L1 X1]. rewrite seq_length in L1.
  assert (Sp : Forall okp (ps ++ repeat (repeat pad (dim c), fofZ O 0%Z) (n - size))).
  { apply Forall_app. split; apply Forall_forall; intros p Hp.
    - apply In_nth_error in Hp as [k Hk]. pose proof (nth_error_lt _ _ _ Hk) as Lk. destruct (X1 k (b + k)) as (p' & P1 & P2); [rewrite nth_error_seq; destruct (Nat.ltb_spec k size); [reflexivity|lia]|].
      rewrite Hk in P1. injection P1 as <-. exact (particle_okp _ _ P2).
    - apply repeat_spec in Hp. subst p. unfold p_ok. cbn [fst]. apply repeat_length. }
  assert (Lt : length (ps ++ repeat (repeat pad (dim c), fofZ O 0%Z) (n - size)) = n) by (rewrite app_length, repeat_length; lia).
  split; [|split; [exact Sp|exact Lt]].
  assert (Lrow : forall p, okp p -> length (tgt_row p) = dim c + 1) by (intros p P; unfold tgt_row; rewrite app_length, P; reflexivity).
  split; [exact S|]. split.
  { apply Forall_forall. intros r Hr. apply in_map_iff in Hr as (p & <- & Hp). apply Lrow. rewrite Forall_forall in Sp. auto. }
  split; [rewrite map_length; lia|]. intros k r Hk. rewrite nth_error_map in Hk. destruct (nth_error (ps ++ _) k) as [p|] eqn:Hp; [|discriminate Hk]. injection Hk as <-.
  pose proof (nth_error_lt _ _ _ Hp) as Lk. rewrite Lt in Lk.
  assert (P : okp p) by (rewrite Forall_forall in Sp; apply Sp; eapply nth_error_In; eauto).
  unfold get_row. apply mapM_Ok. split; [rewrite (Lrow p P); symmetry; apply S|]. intros j v Hv. destruct (G j v Hv) as (col & C1 & C2). rewrite (C2 k Lk). rewrite Nat.add_0_l.
  destruct (Nat.ltb_spec k size) as [C|C].
  - rewrite nth_error_app1 in Hp by lia. destruct (X1 k (b + k)) as (p' & P1 & P2); [rewrite nth_error_seq; destruct (Nat.ltb_spec k size); [reflexivity|lia]|].
    rewrite Hp in P1. injection P1 as <-. unfold particle in P2. apply bind_Ok in P2 as (xs & A1 & P2). apply bind_Ok in P2 as (mc & A2 & P2). apply bind_Ok in P2 as (ms & A3 & P2). injection P2 as <-.
    unfold tgt_row. cbn [fst snd]. apply rd_Ok in A2. unfold p_ok in P. cbn [fst] in P. apply nth_error_lt in Hv. rewrite (proj1 S) in Hv.
    destruct (Nat.lt_ge_cases j (dim c)) as [J|J].
    + rewrite nth_error_app1 by lia. apply mapM_Ok in A1 as [_ A1]. destruct (A1 j col) as (x & Y1 & Y2); [rewrite nth_error_firstn; destruct (Nat.ltb_spec j (dim c)); [exact C1|lia]|]. eauto.
    + assert (j = dim c) as -> by lia. rewrite nth_error_app2 by lia. rewrite P, Nat.sub_diag. rewrite A2 in C1. injection C1 as <-. exists ms. auto.
  - rewrite nth_error_app2 in Hp by lia. apply nth_error_In, repeat_spec in Hp. subst p. unfold tgt_row. cbn [fst snd]. apply nth_error_lt in Hv. rewrite (proj1 S) in Hv.
    destruct (Nat.ltb_spec j (dim c)) as [J|J].
    + rewrite nth_error_app1 by (rewrite repeat_length; exact J). exists pad. split; [now apply nth_error_repeat|reflexivity].
    + rewrite nth_error_app2 by (rewrite repeat_length; exact J). rewrite repeat_length. replace (j - dim c) with 0 by lia. exists (fofZ O 0%Z). auto.
Qed.

End Sim.

(** * Whole calls *)
Section Calls.

Context {F : Type}.
Variable O : fops F.
Context {D : Type}.
Variable OD : fops D.
Variable E : env.
Variable K : platform F.
Hypothesis HE : env_ok E.
Hypothesis HK : benign_shift K.

Notation c := (e_cfg E).

Lemma crit_sim : forall q t mac_value G eps2 pad dest s out cn, tree_inv O E t -> In cn (t_crit t) -> scratch_ok E s ->
  exists s', scratch_ok E s' /\
    bcrit_run O E K q t mac_value G eps2 pad dest s out cn = do o <- crit_run O E K q t mac_value G eps2 pad dest out cn; Ok (s', o).
Proof.
  intros q t mac_value G eps2 pad dest s out cn Ht Hcn Hs. unfold bcrit_run, crit_run. cbv zeta. set (size := c_end cn - c_begin cn).
  destruct (pdata_size E size) as [n|e|] eqn:Hn; cbn [bind]; [|exists s; auto|exists s; auto].
  destruct (crit_rows_ok O E K HE HK q t mac_value G eps2 pad cn n Ht Hcn Hn) as (res3 & X & L3 & _).
  destruct (psize_ok E HE _ _ Hn) as (_ & Sn & _). fold size in Sn.
  destruct (crit_node O E t cn Ht Hcn) as (_ & _ & _ & _ & _ & Hr).
  pose proof (inv_table O E t Ht) as [Tc Tl].
  pose proof (simd_pos E HE) as Hbw.
  unfold crit_rows in X. cbv zeta in X. fold size in X. rewrite Hn in X. cbn [bind] in X.
  apply bind_Ok in X as (tgt & X1 & X). apply bind_Ok in X as (res2 & X2 & X4). unfold tree_acc_pot in X2. apply bind_Ok in X2 as (res1 & X2 & X3).
  destruct Hs as (H1 & H2 & H3).
  destruct (init_res O E q n (sc_res s q) (H2 q)) as (rb & B1 & R1). rewrite B1. cbn [bind].
  destruct (init_tgt O E n (t_parts t) Tc pad (c_begin cn) size (sc_tgt s) tgt (length (t_codes t)) H3 Tl ltac:(unfold size; lia) Sn X1) as (tb & B2 & R2). rewrite B2. cbn [bind].
  assert (Hcom : Forall (fun nd => length (p_com (n_props nd)) = dim c) (t_nodes t)) by (apply Forall_forall; intros nd Hnd; exact (com_length O E t nd Ht Hnd)).
  destruct (traverse_sim O E K q n Hbw (t_parts t) Tc mac_value eps2 size tgt tb (t_nodes t) (c_code cn) R2 Hcom _ _ _ (sc_tmp s q) rb _ R1 (H1 q) X2) as (tmpb & rb1 & B3 & R3 & L).
  match goal with |- context [@traverse ?F0 ?a ?b ?S ?chk ?nd ?cd ?fu ?i ?st] => replace (@traverse F0 a b S chk nd cd fu i st) with (@Ok S (tmpb, rb1)) by (symmetry; exact B3) end.
  cbn [bind fst snd].
  destruct (self_sim O E K q n eps2 size tgt tb res1 rb1 res2 R2 R3 X3) as (rb2 & B4 & R4). rewrite B4. cbn [bind].
  destruct (scale_sim O E q n G size res2 rb2 res3 R4 X4) as (rb3 & B5 & R5). rewrite B5. cbn [bind].
  rewrite (write_same E q n (t_parts t) Tc dest (c_begin cn) size res3 rb3 out R5) by lia.
  rewrite X1. cbn [bind]. unfold tree_acc_pot. rewrite X2. cbn [bind]. rewrite X3. cbn [bind]. rewrite X4. cbn [bind].
  eexists. split; [|reflexivity]. pose proof (proj1 (proj1 (proj1 R5))) as L5. pose proof (proj1 (proj1 (proj1 R2))) as L2.
  split; [|split; [|exact L2]]; intros q'; cbn [sc_tmp sc_res]; destruct q, q'; auto.
Qed.

Lemma nodes_sim : forall q t mac_value G eps2 pad dest l mem out, tree_inv O E t -> (forall x, In x l -> In (snd x) (t_crit t)) -> (forall i, scratch_ok E (mem i)) ->
  exists mem', (forall i, scratch_ok E (mem' i)) /\
    foldM (fun '(mem, out) '(i, cn) => do r <- bcrit_run O E K q t mac_value G eps2 pad dest (mem i) out cn; Ok (set_mem mem i (fst r), snd r)) l (mem, out) =
    do o <- foldM (crit_run O E K q t mac_value G eps2 pad dest) (map snd l) out; Ok (mem', o).
Proof.
  intros q t mac_value G eps2 pad dest. induction l as [|[i cn] l IH]; intros mem out Ht Hl Hm; cbn [foldM map snd].
  - exists mem. auto.
  - destruct (crit_sim q t mac_value G eps2 pad dest (mem i) out cn Ht (Hl (i, cn) (or_introl eq_refl)) (Hm i)) as (s' & S' & E1). rewrite E1.
    destruct (crit_run O E K q t mac_value G eps2 pad dest out cn) as [o|e|]; cbn [bind fst snd]; [|exists mem; auto|exists mem; auto].
    apply IH; [exact Ht|intros x Hx; apply Hl; now right|]. intros j. unfold set_mem. destruct (j =? i); [exact S'|apply Hm].
Qed.

Lemma call_sim : forall work ordered q t theta G eps split mem out, tree_inv O E t -> reorders (fun l => map snd (work l)) -> (forall i, scratch_ok E (mem i)) ->
  exists mem', (forall i, scratch_ok E (mem' i)) /\
    bacc_pot O OD E K work ordered q t theta G eps split mem out =
    do o <- acc_pot_dispatch O OD E K (fun l => map snd (work l)) ordered q t theta G eps split out; Ok (mem', o).
Proof.
  intros work ordered q t theta G eps split mem out Ht Hw Hm. unfold bacc_pot, acc_pot_dispatch.
  destruct (mac_value_of O E theta) as [mv|e|]; cbn [bind]; [|exists mem; auto|exists mem; auto].
  destruct (compute_eps2 O eps) as [eps2|e|]; cbn [bind]; [|exists mem; auto|exists mem; auto].
  destruct (check_G_const O G) as [u|e|]; cbn [bind]; [|exists mem; auto|exists mem; auto].
  assert (I : forall dest, exists mem', (forall i, scratch_ok E (mem' i)) /\
    bacc_pot_impl O OD E K work q t mv G eps2 split dest mem out =
    do o <- acc_pot_impl O OD E K (fun l => map snd (work l)) q t mv G eps2 split dest out; Ok (mem', o)).
  { intros dest. unfold bacc_pot_impl, acc_pot_impl. destruct (check_split OD split) as [u'|e|]; cbn [bind]; [|exists mem; auto|exists mem; auto].
    destruct (1 <? length split); [exists mem; auto|]. unfold bcpu_run, cpu_run. cbv zeta. destruct (negb _); [exists mem; auto|].
    apply nodes_sim; [exact Ht| |exact Hm]. intros x Hx. apply (in_map snd) in Hx. apply (Permutation_in _ (Hw _)) in Hx.
    unfold slice in Hx. apply firstn_In, skipn_In in Hx. exact Hx. }
  destruct ordered; [|apply I]. destruct (it_diff_check (nparts t)) as [u'|e|]; cbn [bind]; [apply I|exists mem; auto|exists mem; auto].
Qed.

(** The form of the property: never undefined, and the outcome is that of the computation without work buffers. *)
Lemma call_same : forall work ordered q t theta G eps split mem out, tree_inv O E t -> reorders (fun l => map snd (work l)) -> (forall i, scratch_ok E (mem i)) ->
  exists mem', (forall i, scratch_ok E (mem' i)) /\
    bacc_pot O OD E K work ordered q t theta G eps split mem out =
    match acc_pot_dispatch O OD E K (fun l => map snd (work l)) ordered q t theta G eps split out with Ok o => Ok (mem', o) | Throw e => Throw e | UB => UB end.
Proof.
  intros work ordered q t theta G eps split mem out Ht Hw Hm. destruct (call_sim work ordered q t theta G eps split mem out Ht Hw Hm) as (mem' & H1 & H2).
  exists mem'. split; [exact H1|]. rewrite H2. now destruct (acc_pot_dispatch _ _ _ _ _ _ _ _ _ _ _ _ _).
Qed.

Lemma call_safe : forall work ordered q t theta G eps split mem out, tree_inv O E t -> reorders (fun l => map snd (work l)) -> (forall i, scratch_ok E (mem i)) ->
  out_ok (length (t_codes t)) (nvecs_res E q) out -> bacc_pot O OD E K work ordered q t theta G eps split mem out <> UB.
Proof.
  intros work ordered q t theta G eps split mem out Ht Hw Hm Ho. destruct (call_same work ordered q t theta G eps split mem out Ht Hw Hm) as (mem' & _ & ->).
  pose proof (dispatch_safe O OD E K HE HK (fun l => map snd (work l)) ordered q t theta G eps split out Ht Hw Ho) as S. now destruct (acc_pot_dispatch _ _ _ _ _ _ _ _ _ _ _ _ _).
Qed.

End Calls.
