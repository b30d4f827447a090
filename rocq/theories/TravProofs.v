(** The traversal of the tree: coverage of the particles, for every outcome of the acceptance
    test. *)
From Coq Require Import List Arith NArith ZArith Lia Bool.
From Verif Require Import Base Config Morton MortonProofs CodesProofs Build TreeSpec BuildSpec BuildProofs BuildProps FOps NodeProps Kernels TreeSafe.
Import ListNotations.
Local Open Scope nat_scope.

Lemma tiles_split : forall l1 l2 b e, tiles b (l1 ++ l2) e -> exists m, tiles b l1 m /\ tiles m l2 e.
Proof.
  induction l1 as [|[x y] l1 IH]; intros l2 b e H; cbn [app tiles] in *; [eauto|].
  destruct H as (-> & Hxy & H). destruct (IH _ _ _ H) as (m & H1 & H2). exists m. auto.
Qed.
Lemma tiles_end : forall l b e e', tiles b l e -> tiles b l e' -> e = e'.
Proof.
  induction l as [|[x y] l IH]; intros b e e' H1 H2; cbn [tiles] in *; [congruence|].
  destruct H1 as (_ & _ & H1), H2 as (_ & _ & H2). eauto.
Qed.
Lemma tiles_start : forall l b b' e e', l <> [] -> tiles b l e -> tiles b' l e' -> b = b' /\ e = e'.
Proof.
  intros [|[x y] l] b b' e e' Hne H1 H2; [congruence|]. cbn [tiles] in *.
  destruct H1 as (-> & _ & H1), H2 as (-> & _ & H2). split; [reflexivity|]. eapply tiles_end; eauto.
Qed.

(** * Positions in the tree and particles *)
Section Walk.

Variable c : cfg.
Variable codes : list N.
Variables max_leaf_n ncrit : nat.
Variable P : Type.
Variable cnp : nat -> nat -> N -> N -> outcome P.
Hypothesis Hv : valid_codes c codes.
Variables (split : nat) (st : list (list (node P)) -> list (list (node P))) (sc : list (list cnode) -> list (list cnode)).
Variables (tree : list (node P)) (crit : list cnode).
Hypothesis Hst : reorders st.
Hypothesis Hsc : reorders sc.
Hypothesis Hbuilt : build_tree c codes max_leaf_n ncrit cnp split st sc = Ok (tree, crit).

Notation all_cells := (all_cells c codes max_leaf_n).
Notation leaf := (is_leaf c codes max_leaf_n).
Notation rng := (crange c codes).
Notation descs := (desc c codes max_leaf_n).

Lemma leaves_below : codes <> [] -> forall l p, In (l, p) all_cells ->
  map rng (filter leaf ((l, p) :: descs (l, p))) <> [] /\
  tiles (clt c codes l p) (map rng (filter leaf ((l, p) :: descs (l, p)))) (clt c codes l (p + 1)).
Proof.
  intros Hne l p Hin. apply (in_all_cells c codes max_leaf_n ncrit P cnp Hv Hne) in Hin. destruct Hin as (H1 & H2 & H3 & H4).
  cbn [filter]. assert (Lf : leaf (l, p) = match descs (l, p) with [] => true | _ => false end) by reflexivity.
  rewrite Lf. clear Lf. destruct (descs (l, p)) as [|y t] eqn:D.
  - cbn [filter]. rewrite clt_succ. split; [discriminate|].
    unfold crange. cbn [map tiles fst snd]. rewrite clt_succ. lia.
  - assert (T : tiles (clt c codes l p) (map rng (filter leaf (y :: t))) (clt c codes l (p + 1))).
    { unfold desc in D. cbn [fst snd] in D. destruct (max_leaf_n <? count c codes l p); [|discriminate].
      rewrite <- D. apply desc_tiles; [lia|].
      destruct (N.eq_dec l (cbitsc c)) as [->|]; [|lia]. rewrite N.sub_diag in D. discriminate. }
    split; [|exact T]. intros Z. rewrite Z in T. cbn [tiles] in T. rewrite clt_succ in T. lia.
Qed.

(** First particle of the node at a position; the end of the particles past the last node. *)
Definition next_begin (i : nat) : nat :=
  match nth_error tree i with Some nd => n_begin nd | None => length codes end.

Lemma cells_position : codes <> [] -> forall i l p, nth_error all_cells i = Some (l, p) ->
  tiles 0 (map rng (filter leaf (firstn i all_cells))) (clt c codes l p) /\
  tiles 0 (map rng (filter leaf (firstn (i + length (descs (l, p)) + 1) all_cells))) (clt c codes l (p + 1)) /\
  i + length (descs (l, p)) + 1 <= length all_cells.
Proof.
  intros Hne i l p Hi.
  destruct (desc_contiguous c codes max_leaf_n P cnp i (l, p) Hi) as (pre & post & Heq & Hpre).
  pose proof (all_leaves_tiles c codes max_leaf_n ncrit P cnp Hv Hne) as T.
  destruct (leaves_below Hne l p (nth_error_In _ _ Hi)) as [L1 L2].
  rewrite Heq in T |- *.
  change (pre ++ (l, p) :: descs (l, p) ++ post) with (pre ++ ((l, p) :: descs (l, p)) ++ post) in *.
  rewrite !filter_app, !map_app in T.
  apply tiles_split in T as (m1 & T1 & T2). apply tiles_split in T2 as (m2 & T2 & T3).
  destruct (tiles_start _ _ _ _ _ L1 L2 T2) as [<- <-].
  assert (F1 : firstn i (pre ++ ((l, p) :: descs (l, p)) ++ post) = pre).
  { rewrite firstn_app, <- Hpre, Nat.sub_diag, firstn_O, app_nil_r. apply firstn_all. }
  assert (F2 : firstn (i + length (descs (l, p)) + 1) (pre ++ ((l, p) :: descs (l, p)) ++ post) = pre ++ (l, p) :: descs (l, p)).
  { rewrite app_assoc. rewrite firstn_app.
    replace (i + length (descs (l, p)) + 1) with (length (pre ++ (l, p) :: descs (l, p))) by (rewrite app_length; cbn [length]; lia).
    rewrite Nat.sub_diag, firstn_O, app_nil_r. apply firstn_all. }
  rewrite F1, F2. split; [exact T1|]. split.
  - rewrite filter_app, map_app. eapply tiles_app; eauto.
  - rewrite !app_length. cbn [length].
    unfold cell in *. lia.
Qed.

Lemma walk_facts : tree <> [] ->
  codes <> [] /\ next_begin 0 = 0 /\
  forall i a, nth_error tree i = Some a ->
    i + n_children a + 1 <= length tree /\
    next_begin (i + n_children a + 1) = n_end a /\
    (n_children a <> 0 -> next_begin (i + 1) = n_begin a).
Proof.
  intros Htree.
  destruct (built c codes max_leaf_n ncrit P cnp Hv _ _ _ _ _ Hst Hsc Hbuilt) as [(_ & -> & _)|(Hne & HF & _)]; [congruence|].
  split; [exact Hne|].
  assert (Hlen : length tree = length all_cells) by (eapply Forall2_len; exact HF).
  (* where the position [i] starts *)
  assert (Pos : forall i, i <= length tree ->
    tiles 0 (map rng (filter leaf (firstn i all_cells))) (next_begin i)).
  { intros i Hi. unfold next_begin. destruct (nth_error tree i) as [a|] eqn:Ha.
    - destruct (Forall2_nth _ _ _ _ _ HF Ha) as ([l p] & Hx & (A1 & _)). cbn [fst snd] in A1. rewrite A1.
      apply (cells_position Hne i l p Hx).
    - apply nth_error_None in Ha. rewrite firstn_all2 by lia. now apply (all_leaves_tiles c codes max_leaf_n ncrit P cnp Hv). }
  split.
  { specialize (Pos 0 ltac:(lia)). cbn in Pos. auto. }
  intros i a Ha. destruct (Forall2_nth _ _ _ _ _ HF Ha) as ([l p] & Hx & (A1 & A2 & A3 & _)). cbn [fst snd] in *.
  destruct (cells_position Hne i l p Hx) as (C1 & C2 & C3). rewrite <- A3 in *.
  split; [lia|]. split.
  - rewrite A2. eapply tiles_end; [apply Pos; lia|exact C2].
  - intros Hc. rewrite A1. eapply tiles_end; [apply Pos; lia|].
    enough (Q : filter leaf (firstn (i + 1) all_cells) = filter leaf (firstn i all_cells)) by (rewrite Q; exact C1).
    assert (FS : firstn (i + 1) all_cells = firstn i all_cells ++ [(l, p)]).
    { clear - Hx. revert i Hx. generalize all_cells. induction l0 as [|y t IH]; intros [|i] H; try discriminate.
      - cbn in H. injection H as ->. reflexivity.
      - cbn [Nat.add firstn app]. f_equal. now apply IH. }
    rewrite FS, filter_app. cbn [filter]. assert (Lf : leaf (l, p) = false) by (unfold is_leaf; destruct (descs (l, p)); [cbn in A3; congruence|reflexivity]).
    rewrite Lf. apply app_nil_r.
Qed.

End Walk.

(** * Events of a traversal *)
Section Events.

Context {F : Type}.
Variable c : cfg.
Variable K : platform F.
Notation nd_t := (node (props F)).

(** What the traversal does with a source node: treat it as a point mass, or compute its particles
    one by one. *)
Inductive event := Approx (nd : nd_t) | Direct (nd : nd_t).
Definition ev_node (e : event) : nd_t := match e with Approx nd | Direct nd => nd end.
Definition ev_range (e : event) : nat * nat := (n_begin (ev_node e), n_end (ev_node e)).

(** tree.hpp 2777-2792 with the outcome of the acceptance test given by [accept], recording what is
    done. *)
Definition ev_check (accept : nd_t -> bool) (i : nat) (src : nd_t) (evs : list event)
    : outcome (nat * list event) :=
  Ok (if accept src then (i + n_children src + 1, evs ++ [Approx src])
      else (i + 1, if n_children src =? 0 then evs ++ [Direct src] else evs)).

(** A traversal that acts on a state is the traversal that records events, followed by
    the actions. *)
Lemma traverse_events : forall {S} (check : nat -> nd_t -> S -> outcome (nat * S)) (accept : nd_t -> bool)
    (act : S -> event -> outcome S) (nodes : list nd_t) code,
  (forall i src s, nth_error nodes i = Some src -> check i src s =
     if accept src then do s' <- act s (Approx src); Ok (i + n_children src + 1, s')
     else do s' <- (if n_children src =? 0 then act s (Direct src) else Ok s); Ok (i + 1, s')) ->
  forall fuel i evs0 evs s,
  traverse c K (ev_check accept) nodes code fuel i evs0 = Ok evs ->
  exists new, evs = evs0 ++ new /\ traverse c K check nodes code fuel i s = foldM act new s.
Proof.
  intros S check accept act nodes code Hc. induction fuel as [|fuel IH]; intros i evs0 evs s H; cbn [traverse] in *.
  - destruct (length nodes <=? i); [|discriminate]. injection H as <-. exists []. now rewrite app_nil_r.
  - destruct (length nodes <=? i). { injection H as <-. exists []. now rewrite app_nil_r. }
    unfold rd in *. destruct (nth_error nodes i) as [src|] eqn:Hs; [|discriminate]. cbn [bind] in *.
    destruct (shifted_code _ _ _ _ _) as [sc|e|]; try discriminate. cbn [bind] in *.
    destruct (sc =? n_code src)%N; [now apply IH|].
    unfold ev_check at 1 in H. cbn [bind] in H. rewrite (Hc i src s Hs). destruct (accept src); cbn [fst snd] in H.
    + destruct (act s (Approx src)) as [s'|e|] eqn:A; cbn [bind fst snd].
      * destruct (IH _ _ _ s' H) as (new & -> & ->). exists (Approx src :: new). rewrite <- app_assoc. cbn [foldM]. now rewrite A.
      * destruct (IH _ _ _ s H) as (new & -> & _). exists (Approx src :: new). rewrite <- app_assoc. cbn [foldM]. now rewrite A.
      * destruct (IH _ _ _ s H) as (new & -> & _). exists (Approx src :: new). rewrite <- app_assoc. cbn [foldM]. now rewrite A.
    + destruct (n_children src =? 0).
      * destruct (act s (Direct src)) as [s'|e|] eqn:A; cbn [bind fst snd].
        -- destruct (IH _ _ _ s' H) as (new & -> & ->). exists (Direct src :: new). rewrite <- app_assoc. cbn [foldM]. now rewrite A.
        -- destruct (IH _ _ _ s H) as (new & -> & _). exists (Direct src :: new). rewrite <- app_assoc. cbn [foldM]. now rewrite A.
        -- destruct (IH _ _ _ s H) as (new & -> & _). exists (Direct src :: new). rewrite <- app_assoc. cbn [foldM]. now rewrite A.
      * cbn [bind fst snd]. destruct (IH _ _ _ s H) as (new & -> & ->). exists new. auto.
Qed.

(** The result of an oversized shift is some value that is not larger than the shifted one: this
    holds if the amount is reduced modulo the width, and if the result is zero. *)
Definition benign_shift : Prop := forall x s, exists y, k_ovs K x s = Ok y /\ (y <= x)%N.

End Events.

Lemma masked_benign : forall F (r : option (F -> F)) w, benign_shift (mkPlatform r (masked_shift w)).
Proof.
  intros F r w x s. cbn [k_ovs]. unfold masked_shift. eexists. split; [reflexivity|].
  rewrite N.shiftr_div_pow2. apply N.div_le_upper_bound; [apply N.pow_nonzero; lia|].
  assert (0 < 2 ^ (s mod w))%N by (apply N.neq_0_lt_0, N.pow_nonzero; lia). nia.
Qed.

(** * Coverage *)
Section Coverage.

Context {F : Type}.
Variable c : cfg.
Variable K : platform F.
Variable codes : list N.
Variables max_leaf_n ncrit : nat.
Notation P := (props F).
Variable cnp : nat -> nat -> N -> N -> outcome P.
Hypothesis Hv : valid_codes c codes.
Variables (split : nat) (st : list (list (node P)) -> list (list (node P))) (sc : list (list cnode) -> list (list cnode)).
Variables (tree : list (node P)) (crit : list cnode).
Hypothesis Hst : reorders st.
Hypothesis Hsc : reorders sc.
Hypothesis Hbuilt : build_tree c codes max_leaf_n ncrit cnp split st sc = Ok (tree, crit).
Hypothesis HK : benign_shift K.


Lemma cell_facts : forall i a, nth_error tree i = Some a -> exists p,
  (n_level a <= cbitsc c)%N /\ (p < 2 ^ (dimN c * n_level a))%N /\ n_code a = nodal (dimN c) (n_level a) p /\
  n_begin a < n_end a <= length codes.
Proof.
  intros i a Ha.
  destruct (node_ranges c codes max_leaf_n ncrit P cnp Hv _ _ _ _ _ Hst Hsc Hbuilt a (nth_error_In _ _ Ha)) as (p & H1 & H2 & H3 & H4 & _).
  exists p. repeat split; try assumption; apply H4.
Qed.

Lemma level_of_node : forall i a, nth_error tree i = Some a -> tree_level (width c) (dimN c) (n_code a) = n_level a.
Proof.
  intros i a Ha. destruct (cell_facts i a Ha) as (p & H1 & H2 & -> & _).
  apply tree_level_nodal; [apply dimN_pos|rewrite N.mul_comm; now apply level_shift|exact H2].
Qed.

(** The shifted code of the target [t] is the code of [a] exactly if [a] is [t] or an
    ancestor of it. *)
Lemma shifted_code_spec : forall i a j t, nth_error tree i = Some a -> nth_error tree j = Some t ->
  exists s, shifted_code c K (n_code t) (n_level t) (n_level a) = Ok s /\
    (s = n_code a <-> ((n_level a <= n_level t)%N /\ (n_code t / 2 ^ (dimN c * (n_level t - n_level a)))%N = n_code a)).
Proof.
  intros i a j t Ha Ht.
  destruct (cell_facts i a Ha) as (p & A1 & A2 & A3 & _). destruct (cell_facts j t Ht) as (q & B1 & B2 & B3 & _).
  pose proof (level_shift c (n_level t) B1) as S1. pose proof (level_shift c (n_level a) A1) as S2.
  assert (W : (width c <= 64 /\ 3 <= width c /\ 2 * width c <= 2 ^ width c /\ 2 ^ width c <= 2 ^ 64)%N)
    by (destruct c; vm_compute; repeat split; discriminate).
  assert (D : (2 <= dimN c <= 3)%N) by (destruct c; vm_compute; split; discriminate).
  unfold shifted_code. cbv zeta. destruct (N.le_gt_cases (n_level a) (n_level t)) as [L|L].
  - assert (U : usub (width c) (n_level t) (n_level a) = (n_level t - n_level a)%N).
    { unfold usub, wrap. replace (n_level t + 2 ^ width c - n_level a)%N with ((n_level t - n_level a) + 1 * 2 ^ width c)%N by lia.
      rewrite N.mod_add by (apply N.pow_nonzero; lia). apply N.mod_small. nia. }
    rewrite U.
    assert (V : wrap 64 ((n_level t - n_level a) * dimN c) = ((n_level t - n_level a) * dimN c)%N).
    { unfold wrap. apply N.mod_small. nia. }
    rewrite V. replace ((n_level t - n_level a) * dimN c <? width c)%N with true by (symmetry; apply N.ltb_lt; nia).
    eexists. split; [reflexivity|]. rewrite N.shiftr_div_pow2, (N.mul_comm _ (dimN c)). tauto.
  - assert (U : usub (width c) (n_level t) (n_level a) = (2 ^ width c - (n_level a - n_level t))%N).
    { unfold usub, wrap. replace (n_level t + 2 ^ width c - n_level a)%N with (2 ^ width c - (n_level a - n_level t))%N by nia.
      apply N.mod_small. nia. }
    rewrite U. set (k := (n_level a - n_level t)%N) in *.
    assert (V : (width c <= wrap 64 ((2 ^ width c - k) * dimN c))%N).
    { assert (Kb : (k * dimN c < width c)%N) by (unfold k; nia). unfold wrap.
      assert (Wc : (width c = 32 \/ width c = 64)%N) by (destruct c; vm_compute; auto).
      destruct Wc as [-> | ->].
      - rewrite N.mod_small by (change (2 ^ 32)%N with 4294967296%N; change (2 ^ 64)%N with 18446744073709551616%N; nia).
        change (2 ^ 32)%N with 4294967296%N. nia.
      - replace ((2 ^ 64 - k) * dimN c)%N with ((2 ^ 64 - k * dimN c) + (dimN c - 1) * 2 ^ 64)%N
          by (change (2 ^ 64)%N with 18446744073709551616%N; nia).
        rewrite N.mod_add by (apply N.pow_nonzero; lia). rewrite N.mod_small by (change (2 ^ 64)%N with 18446744073709551616%N; nia).
        change (2 ^ 64)%N with 18446744073709551616%N. nia. }
    apply N.ltb_ge in V. rewrite V. destruct (HK (n_code t) (wrap 64 ((2 ^ width c - k) * dimN c))) as (y & -> & Hy).
    exists y. split; [reflexivity|]. split; [|lia]. intros ->. exfalso.
    rewrite A3, B3 in Hy. unfold nodal in Hy.
    assert (2 * 2 ^ (dimN c * n_level t) <= 2 ^ (dimN c * n_level a))%N.
    { rewrite <- N.pow_succ_r'. apply N.pow_le_mono_r; nia. }
    lia.
Qed.

Notation nb := (next_begin codes P tree).

Lemma tiles_snoc : forall l b m e, tiles b l m -> m < e -> tiles b (l ++ [(m, e)]) e.
Proof. intros l b m e H L. eapply tiles_app; [exact H|]. cbn. auto. Qed.


(** [a] is [t] or an ancestor of [t]. *)
Definition above (t a : node P) : Prop :=
  (n_level a <= n_level t)%N /\ (n_code t / 2 ^ (dimN c * (n_level t - n_level a)))%N = n_code a.

(** What an event may be: a node of the tree that is neither the target node [t] nor an ancestor
    of it, with the outcome of the test that leads to the event; only leaves are computed
    particle by particle. *)
Definition ev_ok (accept : node P -> bool) (t : node P) (e : event) : Prop :=
  In (ev_node e) tree /\ ~ above t (ev_node e) /\
  match e with Approx a => accept a = true | Direct a => accept a = false /\ n_children a = 0 end.

Lemma above_index : forall i a j t, nth_error tree i = Some a -> nth_error tree j = Some t ->
  above t a -> i <= j <= i + n_children a.
Proof.
  intros i a j t Ha Ht [L H].
  destruct (N.eq_dec (n_level a) (n_level t)) as [E|E].
  - rewrite E, N.sub_diag, N.mul_0_r in H. change (2 ^ 0)%N with 1%N in H. rewrite N.div_1_r in H.
    destruct (which_nodes c codes max_leaf_n ncrit P cnp Hv _ _ _ _ _ Hst Hsc Hbuilt) as [_ ND].
    assert (i = j); [|lia].
    eapply (NoDup_nth_error (map (fun nd => n_code nd) tree)); [exact ND| |].
    + rewrite map_length. exact (nth_error_lt _ _ _ Ha).
    + rewrite (map_nth_error _ _ _ Ha), (map_nth_error _ _ _ Ht). congruence.
  - destruct (depth_first c codes max_leaf_n ncrit P cnp Hv _ _ _ _ _ Hst Hsc Hbuilt i a Ha) as [_ D].
    destruct (D j t Ht) as [[_ D1] _]. assert (i < j <= i + n_children a); [|lia]. apply D1. split; [lia|exact H].
Qed.

Lemma index_above : forall i a j t, nth_error tree i = Some a -> nth_error tree j = Some t ->
  i <= j <= i + n_children a -> above t a.
Proof.
  intros i a j t Ha Ht L. unfold above. destruct (Nat.eq_dec i j) as [<-|E].
  - rewrite Ha in Ht. injection Ht as <-. split; [lia|]. rewrite N.sub_diag, N.mul_0_r. change (2 ^ 0)%N with 1%N. apply N.div_1_r.
  - destruct (depth_first c codes max_leaf_n ncrit P cnp Hv _ _ _ _ _ Hst Hsc Hbuilt i a Ha) as [_ D].
    destruct (D j t Ht) as [[D1 _] _]. destruct D1 as [D1 D2]; [lia|]. split; [lia|exact D2].
Qed.

(** After the target node has been passed. *)
Lemma traverse_after : forall accept T t, nth_error tree T = Some t ->
  forall fuel i evs0, length tree - i <= fuel -> T < i <= length tree ->
  exists evs, traverse c K (ev_check accept) tree (n_code t) fuel i evs0 = Ok (evs0 ++ evs) /\
    tiles (nb i) (map ev_range evs) (length codes) /\ Forall (ev_ok accept t) evs.
Proof.
  intros accept T t Ht.
  assert (Hne : tree <> []) by (intros Z; rewrite Z in Ht; destruct T; discriminate).
  destruct (walk_facts c codes max_leaf_n ncrit P cnp Hv _ _ _ _ _ Hst Hsc Hbuilt Hne) as (_ & _ & W).
  assert (stop : forall i, length tree <= i -> forall evs0, exists evs, Ok evs0 = Ok (evs0 ++ evs) /\
     tiles (nb i) (map ev_range evs) (length codes) /\ Forall (ev_ok accept t) evs).
  { intros i Hi evs0. exists []. rewrite app_nil_r. split; [reflexivity|]. split; [|constructor].
    unfold next_begin. apply nth_error_None in Hi. rewrite Hi. reflexivity. }
  induction fuel as [|fuel IH]; intros i evs0 Hf Hi; cbn [traverse].
  - destruct (Nat.leb_spec (length tree) i); [now apply stop|lia].
  - destruct (Nat.leb_spec (length tree) i) as [|Hlt]; [now apply stop|].
    destruct (rd_lt tree i Hlt) as [a Ha]. rewrite Ha. cbn [bind]. apply rd_Ok in Ha.
    rewrite (level_of_node T t Ht).
    destruct (shifted_code_spec i a T t Ha Ht) as (s & -> & Hs). cbn [bind].
    assert (NA : ~ above t a) by (intros A; pose proof (above_index i a T t Ha Ht A); lia).
    destruct (N.eqb_spec s (n_code a)) as [E|_]; [exfalso; apply NA; now apply Hs|].
    unfold ev_check at 1. cbn [bind]. destruct (W i a Ha) as (W1 & W2 & W3).
    destruct (cell_facts i a Ha) as (_ & _ & _ & _ & Hr).
    assert (NBi : nb i = n_begin a) by (unfold next_begin; now rewrite Ha).
    destruct (accept a) eqn:Acc; cbn [fst snd].
    + destruct (IH (i + n_children a + 1) (evs0 ++ [Approx a])) as (evs & -> & Ht1 & Hok); [lia|lia|].
      exists (Approx a :: evs). rewrite <- app_assoc. split; [reflexivity|].
      split.
      * cbn [map tiles]. unfold ev_range at 1. cbn [ev_node]. rewrite W2 in Ht1. rewrite NBi. split; [reflexivity|]. split; [lia|exact Ht1].
      * constructor; [|exact Hok]. split; [eapply nth_error_In; exact Ha|]. split; [exact NA|exact Acc].
    + destruct (Nat.eqb_spec (n_children a) 0) as [Z|Z].
      * destruct (IH (i + 1) (evs0 ++ [Direct a])) as (evs & -> & Ht1 & Hok); [lia|lia|].
        exists (Direct a :: evs). rewrite <- app_assoc. split; [reflexivity|].
        rewrite Z, Nat.add_0_r in W2. split.
        -- cbn [map tiles]. unfold ev_range at 1. cbn [ev_node]. rewrite W2 in Ht1. rewrite NBi. split; [reflexivity|]. split; [lia|exact Ht1].
        -- constructor; [|exact Hok]. split; [eapply nth_error_In; exact Ha|]. split; [exact NA|]. auto.
      * destruct (IH (i + 1) evs0) as (evs & -> & Ht1 & Hok); [lia|lia|].
        exists evs. rewrite W3 in Ht1 by exact Z. rewrite NBi. auto.
Qed.

(** Before the target node has been reached. *)
Lemma traverse_before : forall accept T t, nth_error tree T = Some t ->
  forall fuel i evs0, length tree - i <= fuel -> i <= T ->
  exists pre post, traverse c K (ev_check accept) tree (n_code t) fuel i evs0 = Ok (evs0 ++ pre ++ post) /\
    tiles (nb i) (map ev_range pre) (n_begin t) /\ tiles (n_end t) (map ev_range post) (length codes) /\
    Forall (ev_ok accept t) (pre ++ post).
Proof.
  intros accept T t Ht.
  assert (Hne : tree <> []) by (intros Z; rewrite Z in Ht; destruct T; discriminate).
  destruct (walk_facts c codes max_leaf_n ncrit P cnp Hv _ _ _ _ _ Hst Hsc Hbuilt Hne) as (_ & _ & W).
  pose proof (nth_error_lt _ _ _ Ht) as HT.
  induction fuel as [|fuel IH]; intros i evs0 Hf Hi; cbn [traverse]; [lia|].
  destruct (Nat.leb_spec (length tree) i) as [|Hlt]; [lia|].
  destruct (rd_lt tree i Hlt) as [a Ha]. rewrite Ha. cbn [bind]. apply rd_Ok in Ha.
  rewrite (level_of_node T t Ht).
  destruct (shifted_code_spec i a T t Ha Ht) as (s & -> & Hs). cbn [bind].
  destruct (W i a Ha) as (W1 & W2 & W3).
  destruct (cell_facts i a Ha) as (_ & _ & _ & _ & Hr).
  assert (NBi : nb i = n_begin a) by (unfold next_begin; now rewrite Ha).
  destruct (N.eqb_spec s (n_code a)) as [E|NE].
  - apply Hs in E. destruct (N.eqb_spec (n_code a) (n_code t)) as [Q|Q].
    + assert (i = T).
      { destruct (which_nodes c codes max_leaf_n ncrit P cnp Hv _ _ _ _ _ Hst Hsc Hbuilt) as [_ ND].
        eapply (NoDup_nth_error (map (fun nd => n_code nd) tree)); [exact ND| |].
        - rewrite map_length. lia.
        - rewrite (map_nth_error _ _ _ Ha), (map_nth_error _ _ _ Ht). congruence. }
      subst T. rewrite Ha in Ht. injection Ht as <-.
      destruct (traverse_after accept i a Ha fuel (i + 1 + n_children a) evs0) as (evs & -> & Ht1 & Hok); [lia|lia|].
      exists [], evs. split; [reflexivity|]. split; [cbn; exact NBi|]. split; [|exact Hok].
      replace (i + 1 + n_children a) with (i + n_children a + 1) in Ht1 by lia. now rewrite W2 in Ht1.
    + rewrite Nat.add_0_r. pose proof (above_index i a T t Ha Ht E) as X.
      assert (i <> T) by (intros ->; rewrite Ha in Ht; injection Ht as <-; congruence).
      destruct (IH (i + 1) evs0) as (pre & post & -> & Ht1 & Hok); [lia|lia|].
      exists pre, post. rewrite W3 in Ht1 by lia. rewrite NBi. auto.
  - assert (NA : ~ above t a) by (intros A; apply NE, Hs, A).
    assert (X : ~ (i <= T <= i + n_children a)) by (intros X; apply NA; eapply index_above; eauto).
    unfold ev_check at 1. cbn [bind]. destruct (accept a) eqn:Acc; cbn [fst snd].
    + destruct (IH (i + n_children a + 1) (evs0 ++ [Approx a])) as (pre & post & -> & Ht1 & Ht2 & Hok); [lia|lia|].
      exists (Approx a :: pre), post. rewrite <- app_assoc. split; [reflexivity|].
      split; [|split; [exact Ht2|]].
      * cbn [map tiles]. unfold ev_range at 1. cbn [ev_node]. rewrite W2 in Ht1. rewrite NBi. split; [reflexivity|]. split; [lia|exact Ht1].
      * cbn [app]. constructor; [|exact Hok]. split; [eapply nth_error_In; exact Ha|]. split; [exact NA|exact Acc].
    + destruct (Nat.eqb_spec (n_children a) 0) as [Z|Z].
      * destruct (IH (i + 1) (evs0 ++ [Direct a])) as (pre & post & -> & Ht1 & Ht2 & Hok); [lia|lia|].
        exists (Direct a :: pre), post. rewrite <- app_assoc. split; [reflexivity|].
        rewrite Z, Nat.add_0_r in W2. split; [|split; [exact Ht2|]].
        -- cbn [map tiles]. unfold ev_range at 1. cbn [ev_node]. rewrite W2 in Ht1. rewrite NBi. split; [reflexivity|]. split; [lia|exact Ht1].
        -- cbn [app]. constructor; [|exact Hok]. split; [eapply nth_error_In; exact Ha|]. split; [exact NA|]. auto.
      * destruct (IH (i + 1) evs0) as (pre & post & -> & Ht1 & Hok); [lia|lia|].
        exists pre, post. rewrite W3 in Ht1 by exact Z. rewrite NBi. auto.
Qed.

Lemma traverse_covers : forall accept t, In t tree ->
  exists pre post, traverse c K (ev_check accept) tree (n_code t) (length tree) 0 [] = Ok (pre ++ post) /\
    tiles 0 (map ev_range pre) (n_begin t) /\ tiles (n_end t) (map ev_range post) (length codes) /\
    Forall (ev_ok accept t) (pre ++ post).
Proof.
  intros accept t Hin. apply In_nth_error in Hin as [T Ht].
  assert (Hne : tree <> []) by (intros Z; rewrite Z in Ht; destruct T; discriminate).
  destruct (walk_facts c codes max_leaf_n ncrit P cnp Hv _ _ _ _ _ Hst Hsc Hbuilt Hne) as (_ & W0 & _).
  destruct (traverse_before accept T t Ht (length tree) 0 []) as (pre & post & H); [lia|lia|].
  exists pre, post. rewrite W0 in H. exact H.
Qed.

End Coverage.
