(** Consequences of the description of the built tree. *)
From Coq Require Import List Arith NArith ZArith Lia Bool Sorting.Sorted Permutation.
From Coq Require Import ZifyBool ZifyN ZifyNat.
From Verif Require Import Base Config Morton MortonProofs CodesProofs Build TreeSpec BuildSpec BuildProofs.
Import ListNotations.
Local Open Scope nat_scope.
Ltac Zify.zify_post_hook ::= Z.div_mod_to_equations.

Lemma pfx_prefix : forall c l x, pfx c l x = prefix c l x.
Proof. intros. unfold pfx, prefix. apply N.shiftr_div_pow2. Qed.

Lemma count_population : forall c codes l p, count c codes l p = population c codes l p.
Proof.
  intros. unfold count, population. apply cntf_ext. intros x _. now rewrite pfx_prefix.
Qed.

Section Props.

Variable c : cfg.
Variable codes : list N.
Variables max_leaf_n ncrit : nat.
Variable P : Type.
Variable cnp : nat -> nat -> N -> N -> outcome P.
Hypothesis Hv : valid_codes c codes.

Notation all_cells := (all_cells c codes max_leaf_n).
Notation all_crits := (all_crits c codes max_leaf_n ncrit).
Notation node_ok := (node_ok c codes max_leaf_n P cnp).

(** What a successful build gives. *)
Lemma built : forall split st sc tree crit, reorders st -> reorders sc ->
  build_tree c codes max_leaf_n ncrit cnp split st sc = Ok (tree, crit) ->
  (codes = [] /\ tree = [] /\ crit = []) \/
  (codes <> [] /\ Forall2 node_ok tree all_cells /\ crit = map (mkc c codes) all_crits).
Proof.
  intros split st sc tree crit Hst Hsc H. destruct Hv as [Hs Hr].
  destruct codes as [|x0 t0] eqn:Ec.
  - left. unfold build_tree in H. simpl in H. injection H as <- <-. auto.
  - right. rewrite <- Ec in *. assert (Hne : codes <> []) by congruence.
    pose proof (build_tree_spec c codes max_leaf_n ncrit P cnp split Hs Hr st sc Hst Hsc Hne) as B.
    rewrite H in B. tauto.
Qed.

Lemma cell_bounds : forall l p, In (l, p) all_cells ->
  (l <= cbitsc c)%N /\ (p < 2 ^ (dimN c * l))%N.
Proof.
  intros l p [H|H].
  - injection H as <- <-. rewrite N.mul_0_r. split; [|reflexivity].
    destruct (cbitsc_spec c). lia.
  - unfold desc in H. cbn [fst snd] in H. rewrite N.sub_0_r in H.
    destruct (max_leaf_n <? count c codes 0 0); [|destruct H]. split.
    + apply sub_bounds in H; [apply H|lia|lia].
    + eapply prefix_lt; [|exact H]. apply level_ok_root.
Qed.

Lemma in_all_cells : codes <> [] -> forall l p, In (l, p) all_cells <->
  ((l <= cbitsc c)%N /\ (p < 2 ^ (dimN c * l))%N /\ 0 < count c codes l p /\
   forall m, (m < l)%N -> max_leaf_n < count c codes m (N.shiftr p (dimN c * (l - m)))).
Proof.
  intros Hne l p. destruct Hv as [Hs Hr].
  assert (Hroot : count c codes 0 0 = length codes) by (apply count00; exact Hr).
  assert (Hlen : 0 < length codes) by (destruct codes; [congruence|simpl; lia]).
  split.
  - intros H. pose proof (cell_bounds l p H) as [H1 H2]. split; [exact H1|]. split; [exact H2|].
    destruct H as [H|H].
    + injection H as <- <-. rewrite Hroot. split; [lia|]. intros; lia.
    + unfold desc in H. cbn [fst snd] in H. rewrite N.sub_0_r in H.
      destruct (max_leaf_n <? count c codes 0 0) eqn:E; [|destruct H].
      apply in_sub in H; [|lia|lia]. destruct H as (H3 & _ & H5 & H6 & H7).
      split; [exact H6|]. intros m Hm. destruct (N.eq_dec m 0) as [->|Hm0].
      * rewrite H5. lia.
      * apply H7; lia.
  - intros (H1 & H2 & H3 & H4). destruct (N.eq_dec l 0) as [->|Hl0].
    + rewrite N.mul_0_r in H2. simpl in H2. assert (p = 0%N) by lia. subst p. now left.
    + right. unfold desc. cbn [fst snd]. rewrite N.sub_0_r.
      assert (Hp0 : N.shiftr p (dimN c * (l - 0)) = 0%N).
      { rewrite N.sub_0_r, N.shiftr_div_pow2. now apply N.div_small. }
      pose proof (H4 0%N ltac:(lia)) as H0. rewrite Hp0 in H0.
      replace (max_leaf_n <? count c codes 0 0) with true by lia.
      apply in_sub; [lia|lia|]. repeat split; try lia; try assumption.
      intros m _ Hm. now apply H4.
Qed.

Lemma all_cells_sorted : StronglySorted (cell_lt c) all_cells.
Proof.
  constructor.
  - unfold desc. cbn [fst snd]. destruct (max_leaf_n <? count c codes 0 0); [|constructor].
    apply sub_sorted; lia.
  - apply Forall_forall. intros x Hx. unfold desc in Hx. cbn [fst snd] in Hx.
    destruct (max_leaf_n <? count c codes 0 0); [|destruct Hx].
    apply sub_bounds in Hx; [|lia|lia]. unfold cell_lt. cbn [fst].
    destruct Hx as (? & ? & ? & ?). lia.
Qed.

Lemma StronglySorted_nth : forall {A} (R : A -> A -> Prop) l i j x y, StronglySorted R l ->
  i < j -> nth_error l i = Some x -> nth_error l j = Some y -> R x y.
Proof.
  induction l as [|a l IH]; intros i j x y HS Hij Hi Hj; [destruct i; discriminate|].
  inversion HS as [|? ? Hs Hf]; subst. destruct j as [|j]; [lia|]. destruct i as [|i]; simpl in *.
  - injection Hi as <-. apply nth_error_In in Hj. rewrite Forall_forall in Hf. auto.
  - exact (IH i j x y Hs ltac:(lia) Hi Hj).
Qed.

Lemma cell_lt_irrefl : forall x, ~ cell_lt c x x.
Proof. intros x H. unfold cell_lt in H. lia. Qed.

Lemma all_cells_nodup : forall i j x, nth_error all_cells i = Some x ->
  nth_error all_cells j = Some x -> i = j.
Proof.
  intros i j x Hi Hj. destruct (lt_eq_lt_dec i j) as [[H|H]|H]; [|exact H|]; exfalso;
    eapply cell_lt_irrefl; eapply StronglySorted_nth; try exact all_cells_sorted; eauto.
Qed.

Lemma Forall2_nth : forall {A B} (R : A -> B -> Prop) la lb i a, Forall2 R la lb ->
  nth_error la i = Some a -> exists b, nth_error lb i = Some b /\ R a b.
Proof.
  intros A B R la lb i a HF. revert i. induction HF as [|x y la lb Hxy HF IH]; intros i H.
  - destruct i; discriminate.
  - destruct i as [|i]; simpl in *; [injection H as <-; eauto|auto].
Qed.

Lemma Forall2_nth_r : forall {A B} (R : A -> B -> Prop) la lb i b, Forall2 R la lb ->
  nth_error lb i = Some b -> exists a, nth_error la i = Some a /\ R a b.
Proof.
  intros A B R la lb i a HF. revert i. induction HF as [|x y la lb Hxy HF IH]; intros i H.
  - destruct i; discriminate.
  - destruct i as [|i]; simpl in *; [injection H as <-; eauto|auto].
Qed.

(** Index range of a cell. *)
Lemma range_spec : forall l p i x, nth_error codes i = Some x ->
  (clt c codes l p <= i < clt c codes l (p + 1) <-> prefix c l x = p).
Proof.
  intros l p i x Hi. destruct Hv as [Hs _].
  assert (Hm : forall v a b, (a <= b)%N -> (pfx c l b <? v)%N = true -> (pfx c l a <? v)%N = true).
  { intros v a b Hab H. pose proof (shiftr_mono a b (dimN c * (cbitsc c - l)) Hab). unfold pfx in *. lia. }
  pose proof (cntf_sorted _ codes Hs (Hm p) i x Hi) as H1.
  pose proof (cntf_sorted _ codes Hs (Hm (p + 1)%N) i x Hi) as H2.
  change (i < clt c codes l p <-> (pfx c l x <? p)%N = true) in H1.
  change (i < clt c codes l (p + 1) <-> (pfx c l x <? p + 1)%N = true) in H2.
  rewrite <- pfx_prefix. rewrite N.ltb_lt in H1, H2. split; intros H.
  - destruct H1 as [_ H1], H2 as [H2 _]. specialize (H2 ltac:(lia)).
    destruct (N.lt_ge_cases (pfx c l x) p) as [Hlt|Hge]; [specialize (H1 Hlt)|]; lia.
  - destruct H1 as [H1 _], H2 as [_ H2]. specialize (H2 ltac:(lia)).
    destruct (le_lt_dec (clt c codes l p) i) as [Hle|Hlt]; [lia|specialize (H1 Hlt); lia].
Qed.

Lemma tree_nodes : forall tree, Forall2 node_ok tree all_cells ->
  forall nd, In nd tree -> exists l p, In (l, p) all_cells /\ node_ok nd (l, p).
Proof.
  intros tree HF nd H. apply In_nth_error in H. destruct H as [i H].
  destruct (Forall2_nth _ _ _ _ _ HF H) as ([l p] & Hb & Hr).
  exists l, p. split; [eapply nth_error_In; exact Hb|exact Hr].
Qed.

Lemma cells_nodes : forall tree, Forall2 node_ok tree all_cells ->
  forall l p, In (l, p) all_cells -> exists nd, In nd tree /\ node_ok nd (l, p).
Proof.
  intros tree HF l p H. apply In_nth_error in H. destruct H as [i H].
  destruct (Forall2_nth_r _ _ _ _ _ HF H) as (nd & Hb & Hr).
  exists nd. split; [eapply nth_error_In; exact Hb|exact Hr].
Qed.

(** ** Node ranges *)
Lemma node_ranges : forall split st sc tree crit, reorders st -> reorders sc ->
  build_tree c codes max_leaf_n ncrit cnp split st sc = Ok (tree, crit) ->
  forall nd, In nd tree ->
  exists p, (n_level nd <= cbitsc c)%N /\ (p < 2 ^ (dimN c * n_level nd))%N /\
    n_code nd = (2 ^ (dimN c * n_level nd) + p)%N /\
    n_begin nd < n_end nd <= length codes /\
    forall i x, nth_error codes i = Some x ->
      (n_begin nd <= i < n_end nd <-> prefix c (n_level nd) x = p).
Proof.
  intros split st sc tree crit Hst Hsc H nd Hnd.
  destruct (built _ _ _ _ _ Hst Hsc H) as [(_ & -> & _)|(Hne & HF & _)]; [destruct Hnd|].
  destruct (tree_nodes tree HF nd Hnd) as (l & p & Hin & (E1 & E2 & _ & E4 & E5 & _)).
  cbn [fst snd] in *. rewrite E1, E2, E4, E5. exists p.
  pose proof (proj1 (in_all_cells Hne l p) Hin) as (H1 & H2 & H3 & _).
  split; [exact H1|]. split; [exact H2|]. split; [reflexivity|]. split.
  - pose proof (clt_le_length c codes l (p + 1)). rewrite clt_succ in *. lia.
  - intros i x Hi. now apply range_spec.
Qed.

(** ** Which cells are nodes *)
Lemma which_nodes : forall split st sc tree crit, reorders st -> reorders sc ->
  build_tree c codes max_leaf_n ncrit cnp split st sc = Ok (tree, crit) ->
  (forall l p, (l <= cbitsc c)%N -> (p < 2 ^ (dimN c * l))%N ->
    ((exists nd, In nd tree /\ n_code nd = (2 ^ (dimN c * l) + p)%N) <->
     (0 < population c codes l p /\
      forall m, (m < l)%N -> max_leaf_n < population c codes m (ancestor c m l p)))) /\
  NoDup (map (fun nd => n_code nd) tree).
Proof.
  intros split st sc tree crit Hst Hsc H.
  destruct (built _ _ _ _ _ Hst Hsc H) as [(Hc & -> & _)|(Hne & HF & _)].
  - split.
    + intros l p _ _. split; [intros [nd [[] _]]|]. rewrite Hc. unfold population. simpl. lia.
    + constructor.
  - split.
    + intros l p Hl Hp. split.
      * intros [nd [Hnd Hc]].
        destruct (tree_nodes tree HF nd Hnd) as (l' & p' & Hin & (E1 & E2 & _ & E4 & E5 & _)).
        cbn [fst snd] in *. rewrite E4 in Hc.
        destruct (cell_bounds l' p' Hin) as [Hl' Hp'].
        apply (nodal_inj (dimN c) l' p' l p (dimN_pos c) Hp' Hp) in Hc.
        destruct Hc as [-> ->].
        apply (in_all_cells Hne) in Hin. destruct Hin as (_ & _ & H3 & H4).
        rewrite count_population in H3. split; [exact H3|].
        intros m Hm. specialize (H4 m Hm). rewrite count_population, N.shiftr_div_pow2 in H4. exact H4.
      * intros [H1 H2]. assert (Hin : In (l, p) all_cells).
        { apply (in_all_cells Hne). rewrite count_population. repeat split; auto.
          intros m Hm. rewrite count_population, N.shiftr_div_pow2. now apply H2. }
        destruct (cells_nodes tree HF l p Hin) as (nd & Hnd & (_ & _ & _ & E4 & _)).
        exists nd. split; [exact Hnd|exact E4].
    + apply NoDup_nth_error. intros i j Hi Hij. rewrite map_length in Hi.
      rewrite !nth_error_map in Hij.
      destruct (nth_error tree i) as [a|] eqn:Ea; [|apply nth_error_None in Ea; lia].
      destruct (nth_error tree j) as [b|] eqn:Eb; [|discriminate].
      simpl in Hij. injection Hij as Hij.
      destruct (Forall2_nth _ _ _ _ _ HF Ea) as ([l1 p1] & Hx & (_ & _ & _ & A4 & _)).
      destruct (Forall2_nth _ _ _ _ _ HF Eb) as ([l2 p2] & Hy & (_ & _ & _ & B4 & _)).
      cbn [fst snd] in *. rewrite A4, B4 in Hij.
      destruct (cell_bounds l1 p1 (nth_error_In _ _ Hx)). destruct (cell_bounds l2 p2 (nth_error_In _ _ Hy)).
      apply nodal_inj in Hij; auto using dimN_pos. destruct Hij as [-> ->].
      eapply all_cells_nodup; eauto.
Qed.

(** ** Depth-first layout *)

Lemma desc_contiguous : forall i x, nth_error all_cells i = Some x ->
  exists pre post, all_cells = pre ++ x :: desc c codes max_leaf_n x ++ post /\ length pre = i.
Proof.
  intros i x Hi. apply nth_error_split in Hi. destruct Hi as (pre & post & E & Hl).
  destruct pre as [|y pre].
  - unfold BuildProofs.all_cells in E. simpl in E. injection E as <- <-.
    exists [], []. split; [|exact Hl]. unfold BuildProofs.all_cells. simpl. now rewrite app_nil_r.
  - unfold BuildProofs.all_cells in E. simpl in E. injection E as <- E.
    pose proof E as E'. unfold desc in E. cbn [fst snd] in E.
    destruct (max_leaf_n <? count c codes 0 0); [|destruct pre; discriminate].
    apply sub_contiguous in E; [|lia|lia]. destruct E as [post' ->].
    exists ((0, 0)%N :: pre), post'. split; [|exact Hl].
    unfold BuildProofs.all_cells. rewrite E'. reflexivity.
Qed.

Lemma in_desc : codes <> [] -> forall l p l' q, In (l, p) all_cells ->
  In (l', q) (desc c codes max_leaf_n (l, p)) <->
  (In (l', q) all_cells /\ (l < l')%N /\ N.shiftr q (dimN c * (l' - l)) = p).
Proof.
  intros Hne l p l' q Hin. pose proof Hin as Hin0.
  apply (in_all_cells Hne) in Hin. destruct Hin as (H1 & H2 & H3 & H4).
  unfold desc. cbn [fst snd]. split.
  - intros H. destruct (max_leaf_n <? count c codes l p) eqn:E; [|destruct H].
    apply in_sub in H; [|lia|lia]. destruct H as (G1 & G2 & G3 & G4 & G5).
    split; [|split; [exact G1|exact G3]]. apply (in_all_cells Hne).
    assert (Hanc : forall m, (m <= l)%N -> N.shiftr q (dimN c * (l' - m)) = N.shiftr p (dimN c * (l - m))).
    { intros m Hm. rewrite <- G3, N.shiftr_shiftr. f_equal. nia. }
    split; [exact G2|]. split; [|split; [exact G4|]].
    + rewrite N.shiftr_div_pow2 in G3. pose proof (pow2_pos (dimN c * (l' - l))) as HD.
      replace (dimN c * l')%N with (dimN c * l + dimN c * (l' - l))%N by nia. rewrite N.pow_add_r.
      pose proof (N.div_mod q (2 ^ (dimN c * (l' - l))) ltac:(lia)) as Ed.
      pose proof (N.mod_lt q (2 ^ (dimN c * (l' - l))) ltac:(lia)) as Ld.
      rewrite G3 in Ed. set (D := (2 ^ (dimN c * (l' - l)))%N) in *.
      set (R := (q mod D)%N) in *. clearbody R D. nia.
    + intros m Hm. destruct (N.lt_trichotomy m l) as [Hlt|[->|Hgt]].
      * rewrite Hanc by lia. apply H4. exact Hlt.
      * rewrite G3. lia.
      * apply G5; assumption.
  - intros (G1 & G2 & G3). apply (in_all_cells Hne) in G1. destruct G1 as (G4 & G5 & G6 & G7).
    pose proof (G7 l G2) as G8. rewrite G3 in G8.
    replace (max_leaf_n <? count c codes l p) with true by lia.
    apply in_sub; [lia|lia|]. repeat split; auto.
Qed.

Lemma nodal_desc : forall l p l' q, (l <= l')%N -> (p < 2 ^ (dimN c * l))%N -> (q < 2 ^ (dimN c * l'))%N ->
  (nodal (dimN c) l' q / 2 ^ (dimN c * (l' - l)))%N = nodal (dimN c) l p <->
  N.shiftr q (dimN c * (l' - l)) = p.
Proof.
  intros l p l' q Hl Hp Hq. rewrite N.shiftr_div_pow2. unfold nodal.
  pose proof (pow2_pos (dimN c * (l' - l))) as HD.
  replace (dimN c * l')%N with (dimN c * l + dimN c * (l' - l))%N by nia.
  rewrite N.pow_add_r. rewrite N.add_comm, N.div_add by lia. lia.
Qed.

Lemma depth_first : forall split st sc tree crit, reorders st -> reorders sc ->
  build_tree c codes max_leaf_n ncrit cnp split st sc = Ok (tree, crit) ->
  forall i a, nth_error tree i = Some a ->
  i + n_children a < length tree /\
  forall j b, nth_error tree j = Some b ->
  (i < j <= i + n_children a <->
   (n_level a < n_level b)%N /\
   (n_code b / 2 ^ (dimN c * (n_level b - n_level a)))%N = n_code a) /\
  (i < j -> node_compare (width c) (dimN c) (n_code a) (n_code b) = Ok true /\
            n_begin a <= n_begin b).
Proof.
  intros split st sc tree crit Hst Hsc H i a Ha.
  destruct (built _ _ _ _ _ Hst Hsc H) as [(_ & -> & _)|(Hne & HF & _)]; [destruct i; discriminate|].
  destruct (Forall2_nth _ _ _ _ _ HF Ha) as ([l p] & Hx & Hna).
  pose proof Hna as (A1 & A2 & A3 & A4 & A5 & _). cbn [fst snd] in *.
  destruct (desc_contiguous i (l, p) Hx) as (pre & post & E & Hpre).
  assert (Hlen : length tree = length all_cells) by (eapply Forall2_len; exact HF).
  destruct (cell_bounds l p (nth_error_In _ _ Hx)) as [Bl Bp].
  split.
  { rewrite Hlen, E, app_length. cbn [length]. rewrite app_length. lia. }
  intros j b Hb. destruct (Forall2_nth _ _ _ _ _ HF Hb) as ([l' q] & Hy & Hnb).
  pose proof Hnb as (B1 & B2 & B3 & B4 & B5 & _). cbn [fst snd] in *.
  destruct (cell_bounds l' q (nth_error_In _ _ Hy)) as [Bl' Bq].
  split.
  - rewrite A3, A4, A5, B4, B5.
    assert (Hin : i < j <= i + length (desc c codes max_leaf_n (l, p)) <->
                  In (l', q) (desc c codes max_leaf_n (l, p))).
    { split.
      - intros Hj. rewrite E in Hy. rewrite nth_error_app2 in Hy by lia.
        replace (j - length pre) with (S (j - i - 1)) in Hy by lia. simpl in Hy.
        rewrite nth_error_app1 in Hy by lia. eapply nth_error_In; exact Hy.
      - intros Hd. apply In_nth_error in Hd. destruct Hd as [k Hk].
        assert (Hkl : k < length (desc c codes max_leaf_n (l, p))) by exact (nth_error_lt _ _ _ Hk).
        assert (Hy' : nth_error all_cells (i + 1 + k) = Some (l', q)).
        { rewrite E. rewrite nth_error_app2 by lia.
          replace (i + 1 + k - length pre) with (S k) by lia. simpl.
          rewrite nth_error_app1 by lia. exact Hk. }
        assert (j = i + 1 + k) by (eapply all_cells_nodup; eauto). lia. }
    rewrite Hin. rewrite in_desc by (auto; eapply nth_error_In; exact Hx). split.
    + intros (_ & G2 & G3). split; [exact G2|]. apply nodal_desc; auto. lia.
    + intros (G2 & G3). split; [eapply nth_error_In; exact Hy|]. split; [exact G2|].
      apply nodal_desc in G3; auto. lia.
  - intros Hij.
    assert (Hlt : cell_lt c (l, p) (l', q)).
    { eapply StronglySorted_nth; [exact all_cells_sorted|exact Hij|exact Hx|exact Hy]. }
    split.
    + eapply node_compare_cells; eauto.
    + rewrite A1, B1. apply cntf_mono. intros x _ Hx'.
      unfold cell_lt, fcell, first_cell in Hlt. cbn [fst snd] in Hlt.
      unfold pfx in *. rewrite !N.shiftr_div_pow2 in *.
      set (D1 := (2 ^ (dimN c * (cbitsc c - l)))%N) in *.
      set (D2 := (2 ^ (dimN c * (cbitsc c - l')))%N) in *.
      assert (0 < D1)%N by apply pow2_pos. assert (0 < D2)%N by apply pow2_pos.
      assert (x < p * D1)%N.
      { apply N.ltb_lt in Hx'. pose proof (N.mul_succ_div_gt x D1 ltac:(lia)). nia. }
      apply N.ltb_lt. apply N.div_lt_upper_bound; lia.
Qed.

(** ** Leaves *)

Lemma node_leaf : codes <> [] -> forall nd l p, In (l, p) all_cells -> node_ok nd (l, p) ->
  (n_children nd =? 0) = is_leaf c codes max_leaf_n (l, p).
Proof.
  intros Hne nd l p Hin (_ & _ & A3 & _). rewrite A3. unfold is_leaf.
  destruct (desc c codes max_leaf_n (l, p)); reflexivity.
Qed.

Lemma all_leaves_tiles : codes <> [] ->
  tiles 0 (map (crange c codes) (filter (is_leaf c codes max_leaf_n) all_cells)) (length codes).
Proof.
  intros Hne. destruct Hv as [_ Hr].
  assert (H0 : clt c codes 0 0 = 0) by now apply clt00.
  assert (H1 : clt c codes 0 1 = length codes) by now apply clt01.
  assert (Hlen : 0 < length codes) by (destruct codes; [congruence|simpl; lia]).
  assert (Hcb : (1 <= cbitsc c)%N) by apply cbitsc_spec.
  unfold BuildProofs.all_cells. cbn [filter].
  assert (Hd : desc c codes max_leaf_n (0, 0)%N = if max_leaf_n <? count c codes 0 0
     then sub c codes max_leaf_n (N.to_nat (cbitsc c)) 0 0 else []).
  { unfold desc. cbn [fst snd]. now rewrite N.sub_0_r. }
  unfold is_leaf at 1. rewrite Hd.
  destruct (max_leaf_n <? count c codes 0 0) eqn:E1.
  - pose proof (desc_tiles c codes max_leaf_n (N.to_nat (cbitsc c)) 0 0 ltac:(lia) ltac:(lia)) as T.
    change (0 + 1)%N with 1%N in T. rewrite H0, H1 in T.
    destruct (sub c codes max_leaf_n (N.to_nat (cbitsc c)) 0 0) as [|y t] eqn:Es.
    + simpl in T. lia.
    + exact T.
  - cbn [filter map tiles crange fst snd]. change (0 + 1)%N with 1%N. lia.
Qed.

Lemma filter_Forall2 : forall {A B} (R : A -> B -> Prop) f g la lb, Forall2 R la lb ->
  (forall a b, In b lb -> R a b -> f a = g b) -> Forall2 R (filter f la) (filter g lb).
Proof.
  induction 1 as [|a b la lb Hab HF IH]; intros H; [constructor|].
  simpl. rewrite (H a b) by (auto; now left). specialize (IH (fun x y Hy => H x y (or_intror Hy))).
  destruct (g b); [constructor; auto|auto].
Qed.

Lemma map_Forall2 : forall {A B C} (R : A -> B -> Prop) (f : A -> C) (g : B -> C) la lb,
  Forall2 R la lb -> (forall a b, R a b -> f a = g b) -> map f la = map g lb.
Proof.
  induction 1 as [|a b la lb Hab HF IH]; intros H; [reflexivity|].
  simpl. rewrite (H a b Hab), IH by exact H. reflexivity.
Qed.

Lemma leaves_partition : forall split st sc tree crit, reorders st -> reorders sc ->
  build_tree c codes max_leaf_n ncrit cnp split st sc = Ok (tree, crit) ->
  tiles 0 (map (fun nd => (n_begin nd, n_end nd)) (filter (fun nd => n_children nd =? 0) tree))
        (length codes) /\
  forall nd, In nd tree ->
    (n_children nd = 0 <-> (n_end nd - n_begin nd <= max_leaf_n \/ n_level nd = cbitsc c)).
Proof.
  intros split st sc tree crit Hst Hsc H.
  destruct (built _ _ _ _ _ Hst Hsc H) as [(Hc & -> & _)|(Hne & HF & _)].
  - rewrite Hc. split; [reflexivity|intros nd []].
  - split.
    + pose proof (all_leaves_tiles Hne) as T.
      erewrite (map_Forall2 node_ok _ (crange c codes)); [exact T| |].
      * apply filter_Forall2; [exact HF|]. intros a [l p] Hin Ha. now apply node_leaf.
      * intros a b (E1 & E2 & _). unfold crange. now rewrite E1, E2.
    + intros nd Hnd. destruct (tree_nodes tree HF nd Hnd) as (l & p & Hin & Hok).
      pose proof (node_leaf Hne nd l p Hin Hok) as Hl.
      pose proof (proj1 (in_all_cells Hne l p) Hin) as (H1 & _ & H3 & _).
      rewrite (is_leaf_spec c codes max_leaf_n l p H1 H3) in Hl.
      destruct Hok as (E1 & E2 & _ & _ & E5 & _). cbn [fst snd] in *.
      rewrite E1, E2, E5, clt_succ. rewrite Nat.add_comm, Nat.add_sub. lia.
Qed.

(** ** Critical nodes *)

Definition qualifies (n : nat) (l : N) : Prop := n <= ncrit \/ n <= max_leaf_n \/ l = cbitsc c.

Lemma crit_cell_qualifies : forall l p,
  crit_cell c codes max_leaf_n ncrit false l p = true <-> qualifies (count c codes l p) l.
Proof.
  intros. unfold crit_cell, qualifies. simpl negb. rewrite andb_true_l. lia.
Qed.

Lemma in_all_crits : codes <> [] -> forall l p, In (l, p) all_crits <->
  (In (l, p) all_cells /\ qualifies (count c codes l p) l /\
   forall m, (m < l)%N -> ~ qualifies (count c codes m (N.shiftr p (dimN c * (l - m)))) m).
Proof.
  intros Hne l p. destruct Hv as [_ Hr].
  assert (Hcb : (1 <= cbitsc c)%N) by apply cbitsc_spec.
  unfold BuildProofs.all_crits.
  destruct (crit_cell c codes max_leaf_n ncrit false 0 0) eqn:E.
  - split.
    + intros [H|[]]. injection H as <- <-. split; [now left|]. split; [now apply crit_cell_qualifies|].
      intros; lia.
    + intros (H1 & H2 & H3). destruct (N.eq_dec l 0) as [->|Hl].
      * destruct (cell_bounds 0 p H1) as [_ Hp]. rewrite N.mul_0_r in Hp. simpl in Hp.
        assert (p = 0%N) by lia. subst. now left.
      * exfalso. apply (H3 0%N); [lia|]. destruct (cell_bounds l p H1) as [_ Hp].
        rewrite N.sub_0_r, N.shiftr_div_pow2, N.div_small by exact Hp. now apply crit_cell_qualifies.
  - assert (E' : ~ qualifies (count c codes 0 0) 0) by (rewrite <- crit_cell_qualifies; congruence).
    assert (Hmln : max_leaf_n < count c codes 0 0) by (unfold qualifies in E'; lia).
    rewrite in_csub by lia. split.
    + intros (H1 & H2 & H3). split; [|split].
      * right. unfold desc. cbn [fst snd]. replace (max_leaf_n <? count c codes 0 0) with true by lia.
        now rewrite N.sub_0_r.
      * now apply crit_cell_qualifies.
      * intros m Hm. destruct (N.eq_dec m 0) as [->|Hm0].
        -- apply in_sub in H1; [|lia|lia]. destruct H1 as (_ & _ & -> & _). exact E'.
        -- rewrite <- crit_cell_qualifies. rewrite H3 by lia. discriminate.
    + intros (H1 & H2 & H3). split; [|split].
      * destruct H1 as [H1|H1].
        -- injection H1 as <- <-. contradiction.
        -- unfold desc in H1. cbn [fst snd] in H1.
           replace (max_leaf_n <? count c codes 0 0) with true in H1 by lia.
           now rewrite N.sub_0_r in H1.
      * now apply crit_cell_qualifies.
      * intros m _ Hm. specialize (H3 m Hm). rewrite <- crit_cell_qualifies in H3.
        destruct (crit_cell c codes max_leaf_n ncrit false m (N.shiftr p (dimN c * (l - m)))); congruence.
Qed.

Lemma crit_partition : forall split st sc tree crit, reorders st -> reorders sc ->
  build_tree c codes max_leaf_n ncrit cnp split st sc = Ok (tree, crit) ->
  tiles 0 (map (fun x => (c_begin x, c_end x)) crit) (length codes) /\
  forall code b e, In (mkCnode code b e) crit <->
    exists nd, In nd tree /\ n_code nd = code /\ n_begin nd = b /\ n_end nd = e /\
      (e - b <= ncrit \/ e - b <= max_leaf_n \/ n_level nd = cbitsc c) /\
      forall anc, In anc tree -> (n_level anc < n_level nd)%N ->
        (n_code nd / 2 ^ (dimN c * (n_level nd - n_level anc)))%N = n_code anc ->
        ncrit < n_end anc - n_begin anc.
Proof.
  intros split st sc tree crit Hst Hsc H.
  destruct (built _ _ _ _ _ Hst Hsc H) as [(Hc & -> & ->)|(Hne & HF & ->)].
  - rewrite Hc. split; [reflexivity|]. intros code b e. split; [intros []|intros [nd [[] _]]].
  - split.
    + rewrite map_map. destruct Hv as [_ Hr]. cbn [mkc c_begin c_end].
      change (map _ all_crits) with (map (crange c codes) all_crits).
      now apply all_crits_tiles.
    + intros code b e. rewrite in_map_iff. split.
      * intros ([l p] & Hmk & Hin). unfold mkc in Hmk. cbn [fst snd] in Hmk. injection Hmk as <- <- <-.
        apply (in_all_crits Hne) in Hin. destruct Hin as (H1 & H2 & H3).
        destruct (cells_nodes tree HF l p H1) as (nd & Hnd & Hok).
        pose proof Hok as (E1 & E2 & _ & E4 & E5 & _). cbn [fst snd] in *.
        exists nd. repeat split; auto.
        -- unfold qualifies in H2. rewrite clt_succ, E5. lia.
        -- intros anc Ha Hlv Hcode.
           destruct (tree_nodes tree HF anc Ha) as (m & q & Hmq & (F1 & F2 & _ & F4 & F5 & _)).
           cbn [fst snd] in *. rewrite F4, F5, E4, E5 in *.
           destruct (cell_bounds l p H1). destruct (cell_bounds m q Hmq).
           apply nodal_desc in Hcode; auto; [|lia].
           specialize (H3 m Hlv). rewrite Hcode in H3. unfold qualifies in H3.
           rewrite F1, F2, clt_succ. lia.
      * intros (nd & Hnd & <- & <- & <- & Hq & Hanc).
        destruct (tree_nodes tree HF nd Hnd) as (l & p & Hin & (E1 & E2 & _ & E4 & E5 & _)).
        cbn [fst snd] in *. exists (l, p). split.
        -- unfold mkc. cbn [fst snd]. now rewrite E1, E2, E4.
        -- apply (in_all_crits Hne). split; [exact Hin|].
           pose proof (proj1 (in_all_cells Hne l p) Hin) as (H1 & H2 & H3 & H4). split.
           ++ unfold qualifies. rewrite E1, E2, E5, clt_succ in Hq. lia.
           ++ intros m Hm.
              assert (Hcell : In (m, N.shiftr p (dimN c * (l - m))) all_cells).
              { apply (in_all_cells Hne). split; [lia|]. split; [|split].
                - rewrite N.shiftr_div_pow2. apply N.div_lt_upper_bound; [pose proof (pow2_pos (dimN c * (l - m))); lia|].
                  rewrite <- N.pow_add_r. replace (dimN c * (l - m) + dimN c * m)%N with (dimN c * l)%N by nia.
                  exact H2.
                - specialize (H4 m Hm). lia.
                - intros m' Hm'. rewrite N.shiftr_shiftr.
                  replace (dimN c * (l - m) + dimN c * (m - m'))%N with (dimN c * (l - m'))%N by nia.
                  apply H4. lia. }
              destruct (cells_nodes tree HF _ _ Hcell) as (anc & Ha & (F1 & F2 & _ & F4 & F5 & _)).
              cbn [fst snd] in *. destruct (cell_bounds _ _ Hcell).
              specialize (Hanc anc Ha). rewrite F5, E5, E4, F4 in Hanc. specialize (Hanc Hm).
              assert (Hd : (nodal (dimN c) l p / 2 ^ (dimN c * (l - m)))%N
                           = nodal (dimN c) m (N.shiftr p (dimN c * (l - m)))).
              { apply nodal_desc; auto. lia. }
              specialize (Hanc Hd). rewrite F1, F2, clt_succ in Hanc.
              specialize (H4 m Hm). unfold qualifies. lia.
Qed.

(** ** Determinism *)

Lemma node_ok_inj : forall x a b, node_ok a x -> node_ok b x -> a = b.
Proof.
  intros x [b1 e1 n1 c1 l1 p1] [b2 e2 n2 c2 l2 p2] (A1 & A2 & A3 & A4 & A5 & A6) (B1 & B2 & B3 & B4 & B5 & B6).
  cbn [n_begin n_end n_children n_code n_level n_props] in *. rewrite A6 in B6. injection B6 as ->.
  congruence.
Qed.

Lemma deterministic : forall split1 st1 sc1 split2 st2 sc2 r,
  reorders st1 -> reorders sc1 -> reorders st2 -> reorders sc2 ->
  build_tree c codes max_leaf_n ncrit cnp split1 st1 sc1 = Ok r ->
  build_tree c codes max_leaf_n ncrit cnp split2 st2 sc2 = Ok r.
Proof.
  intros split1 st1 sc1 split2 st2 sc2 [tree crit] H1 H2 H3 H4 HB. destruct Hv as [Hs Hr].
  destruct codes as [|x0 t0] eqn:Ec.
  { unfold build_tree in *. simpl in *. exact HB. }
  rewrite <- Ec in *. assert (Hne : codes <> []) by congruence.
  pose proof (build_tree_spec c codes max_leaf_n ncrit P cnp split1 Hs Hr st1 sc1 H1 H2 Hne) as B1.
  pose proof (build_tree_spec c codes max_leaf_n ncrit P cnp split2 Hs Hr st2 sc2 H3 H4 Hne) as B2.
  rewrite HB in B1. destruct B1 as (HF & -> & Hsz & Hdf).
  assert (Hall : forall x, In x all_cells -> cok c codes P cnp x = Ok tt).
  { intros x Hx. apply In_nth_error in Hx. destruct Hx as [i Hx].
    destruct (Forall2_nth_r _ _ _ _ _ HF Hx) as (a & _ & (_ & _ & _ & _ & _ & E)).
    unfold cok. now rewrite E. }
  destruct (build_tree c codes max_leaf_n ncrit cnp split2 st2 sc2) as [[t2 c2]|e|].
  - destruct B2 as (HF2 & -> & _). f_equal. f_equal.
    clear - HF HF2. revert t2 HF2. induction HF as [|a x la lx Ha HF IH]; intros t2 HF2;
      inversion HF2; subst; [reflexivity|]. f_equal; [eapply node_ok_inj; eauto|auto].
  - exfalso. destruct B2 as [(x & Hx & Hc)|[_ [Ho|Ho]]]; [|lia|lia]. rewrite (Hall x Hx) in Hc. discriminate.
  - exfalso. destruct B2 as (x & Hx & Hc). rewrite (Hall x Hx) in Hc. discriminate.
Qed.

(** ** Sizes *)

Lemma tiles_length : forall L b e, tiles b L e -> b + length L <= e.
Proof.
  clear. induction L as [|[x y] L IH]; intros b e H; simpl in *; [lia|].
  destruct H as (-> & Hxy & H). apply IH in H. lia.
Qed.

Lemma no_overflow : forall split st sc, reorders st -> reorders sc ->
  (N.of_nat (length codes) * cbitsc c < 2 ^ 64 - 1)%N ->
  match build_tree c codes max_leaf_n ncrit cnp split st sc with
  | Ok (tree, crit) =>
      length tree <= 1 + length codes * N.to_nat (cbitsc c) /\ length crit <= length codes
  | Throw e => exists b e' l p, b < e' <= length codes /\ (l <= cbitsc c)%N /\
      (p < 2 ^ (dimN c * l))%N /\ cnp b e' (2 ^ (dimN c * l) + p)%N l = Throw e
  | UB => exists b e' l p, b < e' <= length codes /\ (l <= cbitsc c)%N /\
      (p < 2 ^ (dimN c * l))%N /\ cnp b e' (2 ^ (dimN c * l) + p)%N l = UB
  end.
Proof.
  intros split st sc Hst Hsc Hn. pose proof Hv as [Hs Hr].
  destruct codes as [|x0 t0] eqn:Ec.
  { unfold build_tree. simpl. lia. }
  rewrite <- Ec in *. assert (Hne : codes <> []) by congruence.
  pose proof (build_tree_spec c codes max_leaf_n ncrit P cnp split Hs Hr st sc Hst Hsc Hne) as B.
  pose proof (all_cells_length c codes max_leaf_n Hr) as HL.
  assert (Hcb : (10 <= cbitsc c)%N) by (destruct c; vm_compute; discriminate).
  assert (Hbound : forall l p, In (l, p) all_cells ->
    clt c codes l p < clt c codes l (p + 1) <= length codes).
  { intros l p Hin. apply (in_all_cells Hne) in Hin. destruct Hin as (_ & _ & H3 & _).
    pose proof (clt_le_length c codes l (p + 1)). rewrite clt_succ in *. lia. }
  destruct (build_tree c codes max_leaf_n ncrit cnp split st sc) as [[t cr]|e|].
  - destruct B as (HF & -> & _ & _).
    split; [rewrite (Forall2_len _ _ _ HF); lia|].
    rewrite map_length.
    pose proof (all_crits_tiles c codes max_leaf_n ncrit Hr Hne) as T.
    apply tiles_length in T. rewrite map_length in T. lia.
  - destruct B as [([l p] & Hx & Hc)|[_ [Ho|Ho]]].
    + unfold cok, cnp_of in Hc. cbn [fst snd] in Hc. exists (clt c codes l p), (clt c codes l (p + 1)), l, p.
      split; [now apply Hbound|]. destruct (cell_bounds l p Hx). split; [assumption|]. split; [assumption|].
      destruct (cnp _ _ _ _) eqn:E in Hc; simpl in Hc; try discriminate. injection Hc as ->. exact E.
    + exfalso. unfold size_max in Ho. nia.
    + exfalso. unfold diff_max in Ho. nia.
  - destruct B as ([l p] & Hx & Hc). unfold cok, cnp_of in Hc. cbn [fst snd] in Hc.
    exists (clt c codes l p), (clt c codes l (p + 1)), l, p. split; [now apply Hbound|].
    destruct (cell_bounds l p Hx). split; [assumption|]. split; [assumption|].
    destruct (cnp _ _ _ _) eqn:E in Hc; simpl in Hc; try discriminate. exact E.
Qed.

(** Depth-first construction by a single task: the root followed by what the serial builder
    appends. *)
Definition build_tree_seq : outcome (list (node P) * list cnode) :=
  let n := length codes in
  if n =? 0 then Ok ([], [])
  else
    do props <- cnp 0 n 1%N 0%N;
    let rc := (n <=? ncrit) || (n <=? max_leaf_n) in
    let crit0 := if rc then [mkCnode 1 0 n] else [] in
    if max_leaf_n <? n then
      do r <- build_ser c codes max_leaf_n ncrit cnp (N.to_nat (cbitsc c))
                [mkNode 0 n 0 1%N 0%N props] crit0 1%N 0 n rc;
      let '(tree, crit, k) := r in
      do tree' <- set_children tree 0 k;
      Ok (tree', crit)
    else Ok ([mkNode 0 n 0 1%N 0%N props], crit0).

Lemma parallel_is_sequential : forall split st sc r, reorders st -> reorders sc ->
  build_tree c codes max_leaf_n ncrit cnp split st sc = Ok r -> build_tree_seq = Ok r.
Proof.
  intros split st sc [tree crit] Hst Hsc H. pose proof Hv as [Hs Hr].
  assert (Hcase : codes = [] \/ codes <> []) by (destruct codes; [left|right]; congruence).
  destruct Hcase as [Ec|Hne].
  { unfold build_tree_seq. unfold build_tree in H. rewrite Ec in *. simpl in *. exact H. }
  pose proof (build_tree_spec c codes max_leaf_n ncrit P cnp split Hs Hr st sc Hst Hsc Hne) as B.
  rewrite H in B. destruct B as (HF & -> & Hsz & _).
  unfold build_tree_seq.
  replace (length codes =? 0) with false by (destruct codes; [congruence|reflexivity]).
  assert (H0 : clt c codes 0 0 = 0) by now apply clt00.
  assert (H1 : clt c codes 0 1 = length codes) by now apply clt01.
  assert (Hcnt : count c codes 0 0 = length codes) by now apply count00.
  assert (Hcb : (1 <= cbitsc c)%N) by apply cbitsc_spec.
  assert (Hnod : nodal (dimN c) 0 0 = 1%N) by (unfold nodal; rewrite N.mul_0_r; reflexivity).
  inversion HF as [|root x0 rest cells Hroot Hrest E1 E2]; subst.
  pose proof Hroot as (R1 & R2 & R3 & R4 & R5 & R6). cbn [fst snd] in *.
  change (0 + 1)%N with 1%N in *. rewrite H0 in R1. rewrite H1 in R2. rewrite Hnod in R4.
  unfold cnp_of in R6. cbn [fst snd] in R6. change (0 + 1)%N with 1%N in R6.
  rewrite H0, H1, Hnod in R6. rewrite R6. cbn [bind].
  assert (Hrc : (length codes <=? ncrit) || (length codes <=? max_leaf_n)
                = crit_cell c codes max_leaf_n ncrit false 0 0).
  { unfold crit_cell. rewrite Hcnt. simpl negb. rewrite andb_true_l.
    replace (0 =? cbitsc c)%N with false by lia. now rewrite orb_false_r. }
  rewrite Hrc. set (rc := crit_cell c codes max_leaf_n ncrit false 0 0).
  assert (Hmk : mkCnode 1 0 (length codes) = mkc c codes (0, 0)%N).
  { unfold mkc. cbn [fst snd]. change (0 + 1)%N with 1%N. now rewrite H0, H1, Hnod. }
  rewrite Hmk.
  assert (Hdesc : desc c codes max_leaf_n (0, 0)%N = if max_leaf_n <? length codes
    then sub c codes max_leaf_n (N.to_nat (cbitsc c)) 0 0 else []).
  { unfold desc. cbn [fst snd]. now rewrite N.sub_0_r, Hcnt. }
  unfold BuildProofs.all_crits. fold rc.
  destruct (max_leaf_n <? length codes) eqn:E.
  - set (rn := mkNode 0 (length codes) 0 1%N 0%N (n_props root)).
    pose proof (build_ser_spec c codes max_leaf_n ncrit P cnp Hs (N.to_nat (cbitsc c)) 0 0 [rn]
      (if rc then [mkc c codes (0, 0)%N] else []) rc (level_ok_root c)) as S.
    change (0 + 1)%N with 1%N in S. rewrite H0, H1, Hnod in S. unfold post_ser, post in S.
    assert (Hall : forall x, In x (sub c codes max_leaf_n (N.to_nat (cbitsc c)) 0 0) ->
      cok c codes P cnp x = Ok tt).
    { intros x Hx. rewrite <- Hdesc in Hx. apply In_nth_error in Hx. destruct Hx as [i Hx].
      destruct (Forall2_nth_r _ _ _ _ _ Hrest Hx) as (a & _ & (_ & _ & _ & _ & _ & Ea)).
      unfold cok. now rewrite Ea. }
    rewrite flat_map_flat1 in S.
    destruct (build_ser _ _ _ _ _ _ _ _ _ _ _ _) as [[[t c'] k]|e|]; cbn [bind].
    + destruct S as (new & -> & Hf & -> & ->). unfold set_children. cbn [app].
      change (rd (rn :: new) 0) with (Ok rn). cbn [bind].
      change (wr (rn :: new) 0 ?a) with (Ok (a :: new)).
      cbn [bind rn n_begin n_end n_code n_level n_props]. f_equal. f_equal.
      * f_equal.
        -- destruct root as [rb re rk rcode rl rp]. cbn [n_begin n_end n_children n_code n_level n_props] in *.
           subst. now rewrite Hdesc.
        -- rewrite Hdesc in Hrest. clear - Hf Hrest. revert rest Hrest.
           induction Hf as [|a x la lx Ha Hf IH]; intros rest Hrest; inversion Hrest; subst; [reflexivity|].
           f_equal; [eapply node_ok_inj; eauto|auto].
      * destruct rc; [rewrite csub_true|]; reflexivity.
    + exfalso. destruct S as [(x & Hx & Hc)|[_ Ho]].
      * rewrite (Hall x Hx) in Hc. discriminate.
      * unfold BuildProofs.all_cells in Hsz. cbn [length] in Hsz. rewrite Hdesc in Hsz. clear - Ho Hsz. cbn [length] in Ho. lia.
    + exfalso. destruct S as (x & Hx & Hc). rewrite (Hall x Hx) in Hc. discriminate.
  - rewrite Hdesc in Hrest. inversion Hrest; subst. f_equal. f_equal.
    + f_equal. destruct root as [rb re rk rcode rl rp].
      cbn [n_begin n_end n_children n_code n_level n_props] in *. subst. now rewrite Hdesc.
    + assert (Hrt : rc = true) by (unfold rc; rewrite <- Hrc; clear - E; lia). now rewrite Hrt.
Qed.

End Props.

(** A checker, for concrete inputs. *)
Fixpoint sortedb (l : list N) : bool :=
  match l with
  | x :: t => match t with y :: _ => (x <=? y)%N | [] => true end && sortedb t
  | [] => true
  end.

Lemma sortedb_ok : forall l, sortedb l = true -> sorted_codes l.
Proof.
  intros l H i j x y Hij Hi Hj. revert i l H Hi j y Hij Hj.
  induction i as [|i IH]; intros l H Hi.
  - destruct l as [|x' t]; [discriminate|]. injection Hi as ->.
    intros j. revert x t H. induction j as [|j IHj]; intros x t H y _ Hj.
    + injection Hj as <-. lia.
    + cbn [nth_error] in Hj. cbn [sortedb] in H. apply andb_prop in H as [H1 H2].
      destruct t as [|y' t]; [destruct j; discriminate|].
      transitivity y'; [lia|]. exact (IHj y' t H2 y (Nat.le_0_l j) Hj).
  - destruct l as [|x' t]; [discriminate|]. cbn [sortedb] in H. apply andb_prop in H as [_ H].
    intros [|j] y Hij Hj; [lia|]. exact (IH t H Hi j y (le_S_n _ _ Hij) Hj).
Qed.

Lemma valid_codesb : forall c l,
  sortedb l && forallb (fun x => (x <? 2 ^ (dimN c * cbitsc c))%N) l = true -> valid_codes c l.
Proof.
  intros c l H. apply andb_prop in H as [H1 H2]. split; [now apply sortedb_ok|].
  rewrite forallb_forall in H2. apply Forall_forall. intros x Hx. specialize (H2 x Hx). lia.
Qed.
