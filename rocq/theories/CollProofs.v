(** Collision detection in any arithmetic: structure of the graph. *)
From Coq Require Import List Arith ZArith NArith Bool Lia Permutation Sorted.
From Verif Require Import Base Config Morton MortonProofs CodesProofs Build TreeSpec BuildSpec BuildProofs BuildProps FOps Disc NodeProps Tree TreeInv TreeProofs Kernels Coll CollSearch.
Import ListNotations.
Local Open Scope nat_scope.

(** * Sorting *)

Lemma ninsert_swap : forall x y l, ninsert x (ninsert y l) = ninsert y (ninsert x l).
Proof.
  intros x y l. induction l as [|z l IH]; cbn [ninsert].
  - destruct (Nat.leb_spec x y), (Nat.leb_spec y x); try reflexivity; try lia. now replace x with y by lia.
  - destruct (Nat.leb_spec y z) as [A|A], (Nat.leb_spec x z) as [B|B]; cbn [ninsert];
      repeat match goal with |- context [?a <=? ?b] => destruct (Nat.leb_spec a b); try lia end; try reflexivity.
    + now replace x with y by lia.
    + now rewrite IH.
Qed.

Lemma nsort_perm : forall l l', Permutation l l' -> nsort l = nsort l'.
Proof.
  induction 1; cbn [nsort]; try congruence. apply ninsert_swap.
Qed.

Lemma ninsert_in : forall x y l, In y (ninsert x l) <-> x = y \/ In y l.
Proof.
  intros x y l. induction l as [|z l IH]; cbn [ninsert In]; [tauto|].
  destruct (x <=? z); cbn [In]; [tauto|]. rewrite IH. tauto.
Qed.
Lemma nsort_in : forall y l, In y (nsort l) <-> In y l.
Proof. intros y l. induction l as [|z l IH]; cbn [nsort In]; [tauto|]. rewrite ninsert_in, IH. tauto. Qed.
Lemma ninsert_sorted : forall x l, StronglySorted le l -> StronglySorted le (ninsert x l).
Proof.
  intros x l H. induction H as [|z l H IH HF]; cbn [ninsert]; [repeat constructor|].
  destruct (Nat.leb_spec x z).
  - constructor; [constructor; assumption|]. constructor; [assumption|]. eapply Forall_impl; [|exact HF]. intros; lia.
  - constructor; [assumption|]. apply Forall_forall. intros y Hy. rewrite ninsert_in in Hy.
    destruct Hy as [<-|Hy]; [lia|]. now apply (proj1 (Forall_forall _ _) HF).
Qed.
Lemma nsort_sorted : forall l, StronglySorted le (nsort l).
Proof. induction l; cbn [nsort]; [constructor|now apply ninsert_sorted]. Qed.

Lemma nunique_cons : forall x y l, nunique (x :: y :: l) = if x =? y then nunique (y :: l) else x :: nunique (y :: l).
Proof. reflexivity. Qed.
Lemma nunique_in : forall y l, In y (nunique l) <-> In y l.
Proof.
  intros y l. induction l as [|x [|z l] IH]; [tauto|tauto|]. rewrite nunique_cons.
  destruct (Nat.eqb_spec x z) as [->|].
  - rewrite IH. cbn [In]. tauto.
  - cbn [In] in *. rewrite IH. tauto.
Qed.
Lemma nunique_sorted : forall l, StronglySorted le l -> StronglySorted lt (nunique l).
Proof.
  intros l. induction l as [|x [|z l] IH]; intros H; [constructor|repeat constructor|].
  rewrite nunique_cons. inversion H as [|? ? H1 H2]; subst. destruct (Nat.eqb_spec x z) as [->|Hne]; [auto|].
  constructor; [auto|]. apply Forall_forall. intros y Hy. rewrite nunique_in in Hy.
  inversion H1 as [|? ? H3 H4]; subst. pose proof (Forall_inv H2).
  destruct Hy as [<-|Hy]; [lia|]. pose proof (proj1 (Forall_forall _ _) H4 y Hy). lia.
Qed.

Lemma sorted_unique : forall l l' : list nat, StronglySorted lt l -> StronglySorted lt l' ->
  (forall x, In x l <-> In x l') -> l = l'.
Proof.
  induction l as [|x l IH]; intros [|y l'] H H' HI.
  - reflexivity.
  - destruct (proj2 (HI y) (or_introl eq_refl)).
  - destruct (proj1 (HI x) (or_introl eq_refl)).
  - apply StronglySorted_inv in H. destruct H as [H1 H2]. apply StronglySorted_inv in H'. destruct H' as [H3 H4].
    rewrite Forall_forall in H2, H4.
    assert (x = y).
    { pose proof (proj1 (HI x) (or_introl eq_refl)) as A. pose proof (proj2 (HI y) (or_introl eq_refl)) as B.
      destruct A as [A|A]; [congruence|]. destruct B as [B|B]; [congruence|]. specialize (H2 _ B). specialize (H4 _ A). lia. }
    subst y. f_equal. apply IH; auto. intros z. split; intros Hz.
    + pose proof (proj1 (HI z) (or_intror Hz)) as A. destruct A as [<-|A]; [|exact A]. specialize (H2 _ Hz). lia.
    + pose proof (proj2 (HI z) (or_intror Hz)) as A. destruct A as [<-|A]; [|exact A]. specialize (H4 _ Hz). lia.
Qed.

Lemma sorted_nodup : forall l : list nat, StronglySorted lt l -> NoDup l.
Proof.
  induction 1 as [|x l H IH HF]; constructor; [|assumption]. rewrite Forall_forall in HF. intros Hx. specialize (HF _ Hx). lia.
Qed.

Definition usort (l : list nat) : list nat := nunique (nsort l).
Lemma usort_in : forall y l, In y (usort l) <-> In y l.
Proof. intros. unfold usort. now rewrite nunique_in, nsort_in. Qed.
Lemma usort_sorted : forall l, StronglySorted lt (usort l).
Proof. intros. apply nunique_sorted, nsort_sorted. Qed.

(** * Additions in any order *)

Lemma append_in : forall ev k x, In x (append ev k) <-> In (k, x) ev.
Proof.
  intros ev k x. unfold append. rewrite in_map_iff. split.
  - intros ([a b] & <- & H). apply filter_In in H. destruct H as [H E]. apply Nat.eqb_eq in E. cbn in *. now subst.
  - intros H. exists (k, x). split; [reflexivity|]. apply filter_In. split; [exact H|]. apply Nat.eqb_refl.
Qed.
Lemma filter_perm : forall {A} (f : A -> bool) l l', Permutation l l' -> Permutation (filter f l) (filter f l').
Proof.
  induction 1; cbn [filter]; try solve [econstructor; eauto].
  - destruct (f x); [now constructor|assumption].
  - destruct (f x), (f y); try constructor; reflexivity.
Qed.
Lemma append_perm : forall ev ev' k, Permutation ev ev' -> Permutation (append ev k) (append ev' k).
Proof. intros. unfold append. apply Permutation_map. now apply filter_perm. Qed.
Lemma below_perm : forall n ev ev', Permutation ev ev' -> all_below n ev = all_below n ev'.
Proof.
  intros n ev ev' H. unfold all_below. replace (forallb (fun e => fst e <? n) ev') with (forallb (fun e => fst e <? n) ev); [reflexivity|].
  apply eq_true_iff_eq. rewrite !forallb_forall. split; intros HH x Hx; apply HH; [apply (Permutation_in x (Permutation_sym H))|apply (Permutation_in x H)]; exact Hx.
Qed.

Lemma mapM_ext : forall {A B} (f g : A -> outcome B) l, (forall a, In a l -> f a = g a) -> mapM f l = mapM g l.
Proof.
  intros A B f g l. induction l as [|a l IH]; intros H; cbn [mapM]; [reflexivity|].
  rewrite (H a (or_introl eq_refl)), IH; [reflexivity|]. intros; apply H; now right.
Qed.

Lemma rows_nil : forall n (old : list (list nat)), map (fun _ => @nil nat) (firstn n old) ++ repeat [] (n - length old) = repeat [] n.
Proof.
  intros n old. transitivity (repeat (@nil nat) (Nat.min n (length old)) ++ repeat [] (n - length old)).
  - f_equal. rewrite <- firstn_length. generalize (firstn n old). clear. induction l; cbn; congruence.
  - rewrite <- repeat_app. f_equal. lia.
Qed.

Section Any.

Context {F : Type}.
Variable O : fops F.
Variable E : env.
Variable K : platform F.
Notation nd_t := (node (props F)).

(** C37: the schedule and the old contents are irrelevant. *)
Lemma schedule : forall ordered t sizes sch1 sch2 sch1' sch2' old old', reorders sch1 -> reorders sch2 -> reorders sch1' -> reorders sch2' ->
  compute_cgraph O E K ordered t sizes sch1 sch2 old = compute_cgraph O E K ordered t sizes sch1' sch2' old'.
Proof.
  intros ordered t sizes sch1 sch2 sch1' sch2' old old' H1 H2 H1' H2'. unfold compute_cgraph. rewrite !rows_nil.
  destruct (it_diff_check (nparts t)); cbn [bind]; try reflexivity.
  destruct (it_diff_check (length (t_nodes t))); cbn [bind]; try reflexivity.
  destruct (extras O E K ordered t sizes (coll_leaves (t_nodes t))) as [ev| |]; cbn [bind]; try reflexivity.
  assert (P : Permutation (sch1 ev) (sch1' ev)) by (rewrite (H1 ev), (H1' ev); reflexivity).
  rewrite (below_perm _ _ _ P).
  destruct (all_below (length (coll_leaves (t_nodes t))) (sch1' ev)); cbn [bind]; try reflexivity.
  erewrite (mapM_ext _ (fun '(k, lnode) => leaf_events O E ordered t sizes lnode (append (sch1' ev) k))).
  2: { intros [k lnode] _. unfold leaf_events. now rewrite (nsort_perm _ _ (append_perm _ _ k P)). }
  destruct (mapM _ _) as [ev2| |]; cbn [bind]; try reflexivity.
  assert (P2 : Permutation (sch2 (concat ev2)) (sch2' (concat ev2))) by (rewrite (H2 _), (H2' _); reflexivity).
  rewrite (below_perm _ _ _ P2).
  destruct (all_below _ _); cbn [bind]; try reflexivity.
  f_equal. apply map_ext. intros [i row]. f_equal. apply nsort_perm. apply Permutation_app_head. apply append_perm. exact P2.
Qed.

(** * Pairs *)

Lemma pairs_in : forall l a b, In (a, b) (pairs l) -> In a l /\ In b l.
Proof.
  induction l as [|x l IH]; intros a b H; cbn [pairs] in H; [destruct H|].
  apply in_app_or in H. destruct H as [H|H].
  - apply in_map_iff in H. destruct H as (y & Hy & HI). injection Hy as -> ->. cbn; auto.
  - destruct (IH _ _ H). cbn; auto.
Qed.
Lemma pairs_ne : forall l a b, NoDup l -> In (a, b) (pairs l) -> a <> b.
Proof.
  induction l as [|x l IH]; intros a b HN H; cbn [pairs] in H; [destruct H|]. inversion HN; subst.
  apply in_app_or in H. destruct H as [H|H].
  - apply in_map_iff in H. destruct H as (y & Hy & HI). injection Hy as -> ->. congruence.
  - now apply IH.
Qed.
Lemma pairs_all : forall l a b, In a l -> In b l -> a <> b -> In (a, b) (pairs l) \/ In (b, a) (pairs l).
Proof.
  induction l as [|x l IH]; intros a b Ha Hb Hne; cbn [pairs]; [destruct Ha|]. cbn in Ha, Hb.
  rewrite !in_app_iff. destruct Ha as [->|Ha], Hb as [->|Hb]; [congruence| | |].
  - left. left. apply in_map_iff. eauto.
  - right. left. apply in_map_iff. eauto.
  - destruct (IH a b Ha Hb Hne); auto.
Qed.

Lemma overlap_sym : forall e1 e2, overlap O e1 e2 = overlap O e2 e1.
Proof.
  unfold overlap. induction e1 as [|[a b] e1 IH]; intros [|[a' b'] e2]; cbn; try reflexivity.
  rewrite IH. f_equal. apply andb_comm.
Qed.

Lemma concat_in : forall {A} (ll : list (list A)) x, In x (concat ll) <-> exists l, In l ll /\ In x l.
Proof. intros. apply in_concat. Qed.

Section Tree.

Variable t : @tree F.
Hypothesis Hinv : tree_inv O E t.
Notation c := (e_cfg E).
Notation n := (length (t_codes t)).
Notation leaves := (coll_leaves (t_nodes t)).

Lemma leaf_facts : forall k nd, nth_error leaves k = Some nd ->
  (n_level nd <= cbitsc c)%N /\ (cellp E nd < 2 ^ (dimN c * n_level nd))%N /\ n_code nd = nodal (dimN c) (n_level nd) (cellp E nd) /\
  n_begin nd < n_end nd <= n /\
  (forall i x, nth_error (t_codes t) i = Some x -> (n_begin nd <= i < n_end nd <-> prefix c (n_level nd) x = cellp E nd)).
Proof.
  intros k nd Hk. assert (Hin : In nd (t_nodes t)).
  { apply nth_error_In in Hk. apply filter_In in Hk. tauto. }
  pose proof (inv_nodes _ _ _ Hinv 0 (fun l => l) (fun l => l) (fun l => Permutation_refl l) (fun l => Permutation_refl l)) as Hb.
  pose proof (node_ranges _ _ _ _ _ _ (inv_valid_codes O E t Hinv) _ _ _ _ _ (fun l => Permutation_refl l) (fun l => Permutation_refl l) Hb nd Hin) as (p & Hl & Hp & Hc & Hr1 & Hr).
  assert (Ep : cellp E nd = p) by (unfold cellp; rewrite Hc; lia).
  rewrite Ep. split; [exact Hl|]. split; [exact Hp|]. split; [exact Hc|]. split; [lia|exact Hr].
Qed.

Lemma leaf_tiles : tiles 0 (map (fun nd => (n_begin nd, n_end nd)) leaves) n.
Proof.
  pose proof (inv_nodes _ _ _ Hinv 0 (fun l => l) (fun l => l) (fun l => Permutation_refl l) (fun l => Permutation_refl l)) as Hb.
  exact (proj1 (leaves_partition _ _ _ _ _ _ (inv_valid_codes O E t Hinv) _ _ _ _ _ (fun l => Permutation_refl l) (fun l => Permutation_refl l) Hb)).
Qed.

Lemma tiles_cover : forall L b e i, tiles b L e -> b <= i < e -> exists k x y, nth_error L k = Some (x, y) /\ x <= i < y.
Proof.
  induction L as [|[u v] L IH]; intros b e i HT Hi; cbn [tiles] in HT; [lia|].
  destruct HT as (-> & Huv & HT). destruct (Nat.lt_ge_cases i v).
  - exists 0, b, v. split; [reflexivity|lia].
  - destruct (IH v e i HT ltac:(lia)) as (k & x & y & Hk & Hxy). exists (S k), x, y. auto.
Qed.

Lemma own_leaf : forall i, i < n -> exists k nd, nth_error leaves k = Some nd /\ n_begin nd <= i < n_end nd.
Proof.
  intros i Hi. destruct (tiles_cover _ _ _ i leaf_tiles ltac:(lia)) as (k & x & y & Hk & Hxy).
  rewrite nth_error_map in Hk. destruct (nth_error leaves k) as [nd|] eqn:Hn; [|discriminate].
  injection Hk as <- <-. eauto.
Qed.

Lemma leaf_unique : forall k k' a b i, nth_error leaves k = Some a -> nth_error leaves k' = Some b ->
  n_begin a <= i < n_end a -> n_begin b <= i < n_end b -> k = k'.
Proof.
  intros k k' a b i Ha Hb Hia Hib.
  assert (A : nth_error (map (fun nd => (n_begin nd, n_end nd)) leaves) k = Some (n_begin a, n_end a)) by (rewrite nth_error_map, Ha; reflexivity).
  assert (B : nth_error (map (fun nd => (n_begin nd, n_end nd)) leaves) k' = Some (n_begin b, n_end b)) by (rewrite nth_error_map, Hb; reflexivity).
  destruct (Nat.lt_trichotomy k k') as [H|[H|H]]; [|exact H|].
  - pose proof (tiles_ordered _ _ _ leaf_tiles k k' _ _ _ _ H A B). lia.
  - pose proof (tiles_ordered _ _ _ leaf_tiles k' k _ _ _ _ H B A). lia.
Qed.

(** Two leaves with the same code have the same particles. *)
Lemma same_code_range : forall k k' a b i, nth_error leaves k = Some a -> nth_error leaves k' = Some b ->
  n_code a = n_code b -> i < n -> (n_begin a <= i < n_end a <-> n_begin b <= i < n_end b).
Proof.
  intros k k' a b i Ha Hb HC Hi.
  destruct (leaf_facts k a Ha) as (La & Pa & Ca & _ & Ia). destruct (leaf_facts k' b Hb) as (Lb & Pb & Cb & _ & Ib).
  destruct (nth_error (t_codes t) i) as [x|] eqn:Hx; [|apply nth_error_None in Hx; lia].
  rewrite (Ia _ _ Hx), (Ib _ _ Hx).
  assert (n_level a = n_level b /\ cellp E a = cellp E b) as [-> ->]; [|reflexivity].
  apply (nodal_inj (dimN c)); auto; [apply dimN_pos|congruence].
Qed.

Lemma row_mapM : forall (cols : list (list F)) m i, Forall (fun col => length col = m) cols -> i < m ->
  exists xs, mapM (fun col => rd col i) cols = Ok xs /\ length xs = length cols /\ row cols i xs.
Proof.
  intros cols m i HF Hi. induction HF as [|col cols Hc HF IH]; cbn [mapM].
  - exists []. repeat split. constructor.
  - destruct IH as (xs & H1 & H2 & H3). destruct (rd_lt col i ltac:(lia)) as (x & Hx). rewrite Hx, H1. cbn [bind].
    exists (x :: xs). split; [reflexivity|]. split; [cbn; lia|]. constructor; [now apply rd_Ok|exact H3].
Qed.

Lemma position_ok : forall i, i < n -> exists xs, position E t i = Ok xs /\ length xs = dim c /\ row (firstn (dim c) (t_parts t)) i xs.
Proof.
  intros i Hi. unfold position.
  assert (HF : Forall (fun col => length col = n) (firstn (dim c) (t_parts t))).
  { apply Forall_forall. intros col Hc. apply (proj1 (Forall_forall _ _) (inv_cols _ _ _ Hinv)).
    rewrite <- (firstn_skipn (dim c) (t_parts t)). apply in_or_app. now left. }
  destruct (row_mapM _ _ _ HF Hi) as (xs & H1 & H2 & H3). exists xs. split; [exact H1|]. split; [|exact H3].
  rewrite H2, firstn_length, (inv_ncols _ _ _ Hinv). lia.
Qed.

Variable ordered : bool.
Variable sizes : list F.
Notation lab := (label ordered t).
Notation size_of := (aabb_of ordered t sizes).

Lemma label_ok : forall i, i < n -> exists k, lab i = Ok k /\ k < n.
Proof.
  intros i Hi. unfold label. destruct ordered; [|eauto].
  destruct (is_perm_at _ _ i (inv_perm _ _ _ Hinv) Hi) as (k & Hk & Hkn). exists k. split; [now apply rd_Ok|exact Hkn].
Qed.
Lemma label_inj : forall i j k, lab i = Ok k -> lab j = Ok k -> i = j.
Proof.
  intros i j k. unfold label. destruct ordered; [|congruence]. rewrite !rd_Ok. apply (is_perm_inj _ _ _ _ _ (inv_perm _ _ _ Hinv)).
Qed.
Lemma size_of_ok : n <= length sizes -> forall i, i < n -> exists s, size_of i = Ok s.
Proof.
  intros Hs i Hi. unfold aabb_of. destruct (label_ok i Hi) as (k & -> & Hk). cbn [bind]. apply rd_lt. lia.
Qed.

(** The final test on two particles. *)
Definition hit (p q : nat) : Prop :=
  exists s1 s2 x1 x2, size_of p = Ok s1 /\ size_of q = Ok s2 /\ feq O s1 (fofZ O 0%Z) = false /\ feq O s2 (fofZ O 0%Z) = false /\
    position E t p = Ok x1 /\ position E t q = Ok x2 /\ overlap O (extent O s1 x1) (extent O s2 x2) = true.

Lemma hit_sym : forall p q, hit p q -> hit q p.
Proof.
  intros p q (s1 & s2 & x1 & x2 & H1 & H2 & H3 & H4 & H5 & H6 & H7). exists s2, s1, x2, x1. rewrite overlap_sym. tauto.
Qed.

Lemma pair_events_ok : n <= length sizes -> forall p q, p < n -> q < n ->
  exists l, pair_events O E ordered t sizes p q = Ok l /\
    forall i j, In (i, j) l <-> hit p q /\ (lab p = Ok i /\ lab q = Ok j \/ lab q = Ok i /\ lab p = Ok j).
Proof.
  intros Hs p q Hp Hq. unfold pair_events, hit.
  destruct (size_of_ok Hs p Hp) as (s1 & S1). destruct (size_of_ok Hs q Hq) as (s2 & S2).
  destruct (position_ok p Hp) as (x1 & X1 & _). destruct (position_ok q Hq) as (x2 & X2 & _).
  destruct (label_ok p Hp) as (i1 & L1 & _). destruct (label_ok q Hq) as (i2 & L2 & _).
  rewrite S1, S2, X1, X2, L1, L2. cbn [bind].
  destruct (feq O s1 (fofZ O 0)) eqn:Z1; [|destruct (feq O s2 (fofZ O 0)) eqn:Z2; [|destruct (overlap O (extent O s1 x1) (extent O s2 x2)) eqn:OV]].
  1, 2, 4: eexists; split; [reflexivity|]; intros i j; split; [intros []|]; intros ((a1 & a2 & y1 & y2 & A1 & A2 & A3 & A4 & A5 & A6 & A7) & _); injection A1 as <-; injection A2 as <-; injection A5 as <-; injection A6 as <-; congruence.
  eexists. split; [reflexivity|]. intros i j. split.
  - intros HI. split; [exists s1, s2, x1, x2; tauto|]. cbn [In] in HI. destruct HI as [HI|[HI|[]]]; injection HI as <- <-; auto.
  - intros [_ [[A B]|[A B]]]; injection A as <-; injection B as <-; cbn; auto.
Qed.

(** What the first phase gives. *)
Lemma mapM_in : forall {A B} (f : A -> outcome B) l l' b, mapM f l = Ok l' -> In b l' -> exists a, In a l /\ f a = Ok b.
Proof.
  intros A B f l. induction l as [|a l IH]; intros l' b H HI; cbn [mapM] in H.
  - injection H as <-. destruct HI.
  - apply bind_Ok in H. destruct H as (y & Hy & H). apply bind_Ok in H. destruct H as (ys & Hys & H). injection H as <-.
    destruct HI as [->|HI]; [exists a; cbn; auto|]. destruct (IH ys b Hys HI) as (a' & Ha & Hf). exists a'. cbn; auto.
Qed.
Lemma mapM_in_l : forall {A B} (f : A -> outcome B) l l' a, mapM f l = Ok l' -> In a l -> exists b, In b l' /\ f a = Ok b.
Proof.
  intros A B f l. induction l as [|a0 l IH]; intros l' a H HI; cbn [mapM] in H; [destruct HI|].
  apply bind_Ok in H. destruct H as (y & Hy & H). apply bind_Ok in H. destruct H as (ys & Hys & H). injection H as <-.
  destruct HI as [->|HI]; [exists y; cbn; auto|]. destruct (IH ys a Hys HI) as (b & Hb & Hf). exists b. cbn; auto.
Qed.

Lemma extra_events : forall lnode p evs, extra O E K ordered t sizes leaves lnode p = Ok evs ->
  forall k q, In (k, q) evs -> q = p /\ exists nd, nth_error leaves k = Some nd /\ n_code nd <> n_code lnode.
Proof.
  intros lnode p evs H k q HI. unfold extra in H.
  apply bind_Ok in H. destruct H as (s & _ & H).
  destruct (negb (ffin O s) || flt O s (fofZ O 0)); [discriminate|]. destruct (feq O s (fofZ O 0)); [injection H as <-; destruct HI|].
  apply bind_Ok in H. destruct H as (xs & _ & H). apply bind_Ok in H. destruct H as (cs & _ & H).
  apply bind_Ok in H. destruct H as (pc & _ & H). apply bind_Ok in H. destruct H as (st & _ & H).
  destruct st; cbn [negb] in H; [|injection H as <-; destruct HI].
  apply bind_Ok in H. destruct H as (l & Hl & H). injection H as <-.
  apply in_concat in HI. destruct HI as (l0 & Hl0 & HI).
  destruct (mapM_in _ _ _ _ Hl Hl0) as (v & _ & Hz).
  apply bind_Ok in Hz. destruct Hz as (z & _ & Hz). destruct z as [[b e]|]; [|injection Hz as <-; destruct HI].
  apply bind_Ok in Hz. destruct Hz as (ks & Hks & Hz). injection Hz as <-.
  apply in_map_iff in HI. destruct HI as ([k' code] & HE & HI). injection HE as -> ->. split; [reflexivity|].
  apply filter_In in HI. destruct HI as [HI HN]. cbn [snd] in HN. apply negb_true_iff, N.eqb_neq in HN.
  destruct (mapM_in _ _ _ _ Hks HI) as (k0 & _ & Hk0). apply bind_Ok in Hk0. destruct Hk0 as (nd & Hnd & Hk0). injection Hk0 as -> <-.
  exists nd. split; [now apply rd_Ok|exact HN].
Qed.

Lemma extras_events : forall evs, extras O E K ordered t sizes leaves = Ok evs ->
  forall k q, In (k, q) evs -> q < n /\ exists nd, nth_error leaves k = Some nd /\ ~ n_begin nd <= q < n_end nd.
Proof.
  intros evs H k q HI. unfold extras in H. apply bind_Ok in H. destruct H as (l & Hl & H). injection H as <-.
  apply in_concat in HI. destruct HI as (l1 & Hl1 & HI). apply in_map_iff in Hl1. destruct Hl1 as (l2 & <- & Hl2).
  apply in_concat in HI. destruct HI as (l3 & Hl3 & HI).
  destruct (mapM_in _ _ _ _ Hl Hl2) as (lnode & Hln & Hm). destruct (mapM_in _ _ _ _ Hm Hl3) as (p & Hp & Hx).
  destruct (extra_events _ _ _ Hx _ _ HI) as (-> & nd & Hnd & HC).
  apply in_seq in Hp. apply In_nth_error in Hln. destruct Hln as (k' & Hk').
  pose proof (leaf_facts k' lnode Hk') as (_ & _ & _ & R & _). split; [lia|]. exists nd. split; [exact Hnd|].
  intros Hr. assert (k = k') by (apply (leaf_unique k k' nd lnode p); auto; lia). subst k'. congruence.
Qed.

(** Particle [p] is considered in leaf [k]. *)
Definition member (evs : list (nat * nat)) (k p : nat) : Prop :=
  exists nd, nth_error leaves k = Some nd /\ (n_begin nd <= p < n_end nd \/ In (k, p) evs).

Lemma mapM_all : forall {A B} (f : A -> outcome B) l, (forall a, In a l -> exists b, f a = Ok b) -> exists l', mapM f l = Ok l'.
Proof.
  intros A B f l. induction l as [|a l IH]; intros H; cbn [mapM]; [eauto|].
  destruct (H a (or_introl eq_refl)) as (b & ->). destruct IH as (l' & ->); [intros; apply H; now right|]. cbn [bind]. eauto.
Qed.

Lemma member_lt : forall evs k p, extras O E K ordered t sizes leaves = Ok evs -> member evs k p -> p < n.
Proof.
  intros evs k p H (nd & Hn & [Hr|Hi]).
  - pose proof (leaf_facts k nd Hn). lia.
  - exact (proj1 (extras_events evs H k p Hi)).
Qed.

Lemma leaf_events_ok : n <= length sizes -> forall evs evs', extras O E K ordered t sizes leaves = Ok evs -> Permutation evs' evs ->
  forall k nd, nth_error leaves k = Some nd ->
  exists l, leaf_events O E ordered t sizes nd (append evs' k) = Ok l /\
    forall i j, In (i, j) l <-> exists p q, p <> q /\ member evs k p /\ member evs k q /\ hit p q /\ lab p = Ok i /\ lab q = Ok j.
Proof.
  intros Hs evs evs' Hev Hperm k nd Hk. unfold leaf_events.
  set (idx := seq (n_begin nd) (n_end nd - n_begin nd) ++ nunique (nsort (append evs' k))).
  assert (Hidx : forall p, In p idx <-> member evs k p).
  { intros p. unfold idx. rewrite in_app_iff, in_seq. fold (usort (append evs' k)). rewrite usort_in, append_in.
    pose proof (leaf_facts k nd Hk) as (_ & _ & _ & R & _).
    assert (HP : In (k, p) evs' <-> In (k, p) evs) by (split; apply Permutation_in; [exact Hperm|now apply Permutation_sym]).
    rewrite HP. unfold member. split.
    - intros H. exists nd. split; [exact Hk|]. destruct H; [left; lia|now right].
    - intros (nd' & Hn' & H). rewrite Hk in Hn'. injection Hn' as <-. destruct H; [left; lia|now right]. }
  assert (Hlt : forall p, In p idx -> p < n) by (intros p Hp; apply (member_lt evs k p Hev); now apply Hidx).
  assert (HND : NoDup idx).
  { unfold idx. fold (usort (append evs' k)). 
    assert (ND : forall (l1 l2 : list nat), NoDup l1 -> NoDup l2 -> (forall x, In x l1 -> ~ In x l2) -> NoDup (l1 ++ l2)).
    { clear. induction l1 as [|x l1 IH]; intros l2 H1 H2 H; cbn [app]; [exact H2|]. inversion H1; subst. constructor.
      - rewrite in_app_iff. intros [A|A]; [contradiction|]. exact (H x (or_introl eq_refl) A).
      - apply IH; auto. intros y Hy. apply H. now right. }
    apply ND; [apply seq_NoDup|apply sorted_nodup, usort_sorted|].
    intros x Hx Hy. apply in_seq in Hx. rewrite usort_in, append_in in Hy.
    apply (Permutation_in _ Hperm) in Hy. destruct (extras_events evs Hev _ _ Hy) as (_ & nd' & Hn' & HN).
    rewrite Hk in Hn'. injection Hn' as <-. lia. }
  destruct (mapM_all (fun '(i1, i2) => pair_events O E ordered t sizes i1 i2) (pairs idx)) as (l & Hl).
  { intros [a b] Hab. destruct (pairs_in _ _ _ Hab) as [Ha Hb]. destruct (pair_events_ok Hs a b (Hlt a Ha) (Hlt b Hb)) as (l & Hl & _). eauto. }
  rewrite Hl. cbn [bind]. eexists. split; [reflexivity|]. intros i j. rewrite in_concat. split.
  - intros (l0 & Hl0 & HI). destruct (mapM_in _ _ _ _ Hl Hl0) as ([a b] & Hab & Hf).
    destruct (pairs_in _ _ _ Hab) as [Ha Hb]. pose proof (pairs_ne _ _ _ HND Hab) as Hne.
    destruct (pair_events_ok Hs a b (Hlt a Ha) (Hlt b Hb)) as (l' & Hl' & Hspec). rewrite Hf in Hl'. injection Hl' as <-.
    apply Hspec in HI. destruct HI as [HH [[A B]|[A B]]].
    + exists a, b. rewrite <- !Hidx. tauto.
    + exists b, a. rewrite <- !Hidx. pose proof (hit_sym _ _ HH). split; [congruence|]. tauto.
  - intros (p & q & Hne & Mp & Mq & HH & Lp & Lq). rewrite <- Hidx in Mp, Mq.
    destruct (pairs_all idx p q Mp Mq Hne) as [Hpq|Hpq];
      destruct (mapM_in_l _ _ _ _ Hl Hpq) as (l0 & Hl0 & Hf); exists l0; (split; [exact Hl0|]).
    + destruct (pair_events_ok Hs p q (Hlt p Mp) (Hlt q Mq)) as (l' & Hl' & Hspec). rewrite Hf in Hl'. injection Hl' as <-. apply Hspec. tauto.
    + destruct (pair_events_ok Hs q p (Hlt q Mq) (Hlt p Mp)) as (l' & Hl' & Hspec). rewrite Hf in Hl'. injection Hl' as <-. apply Hspec.
      split; [now apply hit_sym|]. tauto.
Qed.

(** The number of particles and of nodes can be represented. *)
Definition representable : Prop := (N.of_nat n <= diff_max)%N /\ (N.of_nat (length (t_nodes t)) <= diff_max)%N.

Lemma diff_ok : forall m, (N.of_nat m <= diff_max)%N -> it_diff_check m = Ok tt.
Proof. intros m H. unfold it_diff_check. destruct (N.ltb_spec diff_max (N.of_nat m)); [lia|reflexivity]. Qed.

Lemma combine_seq : forall {A} (l : list A) s i a, In (i, a) (combine (seq s (length l)) l) <-> s <= i /\ nth_error l (i - s) = Some a.
Proof.
  induction l as [|x l IH]; intros s i a; cbn [length seq combine In].
  - split; [intros []|]. intros [_ H]. destruct (i - s); discriminate.
  - rewrite IH. split.
    + intros [H|[H1 H2]]; [injection H as -> ->; rewrite Nat.sub_diag; cbn; split; [lia|reflexivity]|]. split; [lia|].
      replace (i - s) with (S (i - S s)) by lia. exact H2.
    + intros [H1 H2]. destruct (Nat.eq_dec i s) as [->|Hne].
      * rewrite Nat.sub_diag in H2. cbn in H2. left. congruence.
      * right. split; [lia|]. replace (i - s) with (S (i - S s)) in H2 by lia. exact H2.
Qed.
Lemma nth_combine_seq : forall {A} (l : list A) s i a, nth_error l i = Some a -> nth_error (combine (seq s (length l)) l) i = Some (s + i, a).
Proof.
  induction l as [|x l IH]; intros s i a H; [destruct i; discriminate|]. destruct i; cbn in *.
  - injection H as ->. now rewrite Nat.add_0_r.
  - rewrite (IH (S s) i a H). do 2 f_equal. lia.
Qed.

Theorem graph_spec : forall sch1 sch2 old, reorders sch1 -> reorders sch2 -> n <= length sizes -> representable ->
  match extras O E K ordered t sizes leaves with
  | Ok evs => exists g, compute_cgraph O E K ordered t sizes sch1 sch2 old = Ok g /\ length g = n /\
      forall i r, nth_error g i = Some r -> StronglySorted lt r /\
        forall j, In j r <-> exists p q, p <> q /\ (exists k, member evs k p /\ member evs k q) /\ hit p q /\ lab p = Ok i /\ lab q = Ok j
  | Throw e => compute_cgraph O E K ordered t sizes sch1 sch2 old = Throw e
  | UB => compute_cgraph O E K ordered t sizes sch1 sch2 old = UB
  end.
Proof.
  intros sch1 sch2 old H1 H2 Hs [R1 R2].
  assert (HN : nparts t = n) by (apply (nparts_codes O E t Hinv)).
  unfold compute_cgraph. rewrite rows_nil, HN, !diff_ok by assumption. cbn [bind].
  destruct (extras O E K ordered t sizes leaves) as [evs| |] eqn:Hev; cbn [bind]; try reflexivity.
  assert (B1 : all_below (length leaves) (sch1 evs) = Ok tt).
  { unfold all_below. replace (forallb (fun e => fst e <? length leaves) (sch1 evs)) with true; [reflexivity|].
    symmetry. apply forallb_forall. intros [k q] Hk. apply (Permutation_in _ (H1 evs)) in Hk.
    destruct (extras_events evs Hev k q Hk) as (_ & nd & Hnd & _). apply Nat.ltb_lt. cbn [fst]. eapply nth_error_lt. exact Hnd. }
  rewrite B1. cbn [bind].
  destruct (mapM_all (fun '(k, lnode) => leaf_events O E ordered t sizes lnode (append (sch1 evs) k)) (combine (seq 0 (length leaves)) leaves)) as (ev2 & Hev2).
  { intros [k nd] Hk. apply combine_seq in Hk. destruct Hk as [_ Hk]. rewrite Nat.sub_0_r in Hk.
    destruct (leaf_events_ok Hs evs (sch1 evs) Hev (H1 evs) k nd Hk) as (l & Hl & _). eauto. }
  rewrite Hev2. cbn [bind].
  assert (Hin : forall i j, In (i, j) (sch2 (concat ev2)) <-> exists p q, p <> q /\ (exists k, member evs k p /\ member evs k q) /\ hit p q /\ lab p = Ok i /\ lab q = Ok j).
  { intros i j. assert (HP : In (i, j) (sch2 (concat ev2)) <-> In (i, j) (concat ev2)) by (split; apply Permutation_in; [apply H2|apply Permutation_sym, H2]).
    rewrite HP, in_concat. split.
    - intros (l & Hl & HI). destruct (mapM_in _ _ _ _ Hev2 Hl) as ([k nd] & Hk & Hf). apply combine_seq in Hk. destruct Hk as [_ Hk]. rewrite Nat.sub_0_r in Hk.
      destruct (leaf_events_ok Hs evs (sch1 evs) Hev (H1 evs) k nd Hk) as (l' & Hl' & Hspec). rewrite Hf in Hl'. injection Hl' as <-.
      apply Hspec in HI. destruct HI as (p & q & A1 & A2 & A3 & A4 & A5 & A6). exists p, q. repeat split; eauto.
    - intros (p & q & Hne & (k & Mp & Mq) & HH & Lp & Lq). destruct Mp as (nd & Hnd & Mp).
      assert (Hk : In (k, nd) (combine (seq 0 (length leaves)) leaves)) by (apply combine_seq; rewrite Nat.sub_0_r; split; [lia|exact Hnd]).
      destruct (mapM_in_l _ _ _ _ Hev2 Hk) as (l & Hl & Hf). exists l. split; [exact Hl|].
      destruct (leaf_events_ok Hs evs (sch1 evs) Hev (H1 evs) k nd Hnd) as (l' & Hl' & Hspec). rewrite Hf in Hl'. injection Hl' as <-.
      apply Hspec. exists p, q. repeat split; auto. exists nd. auto. }
  rewrite repeat_length.
  assert (B2 : all_below n (sch2 (concat ev2)) = Ok tt).
  { unfold all_below. replace (forallb (fun e => fst e <? n) (sch2 (concat ev2))) with true; [reflexivity|].
    symmetry. apply forallb_forall. intros [i j] Hij. apply Hin in Hij. destruct Hij as (p & q & _ & (k & Mp & _) & _ & Lp & _).
    apply Nat.ltb_lt. cbn [fst]. pose proof (member_lt evs k p Hev Mp) as Hp. destruct (label_ok p Hp) as (i' & Li & Hi). congruence. }
  rewrite B2. cbn [bind]. eexists. split; [reflexivity|].
  rewrite map_length, combine_length, seq_length, repeat_length, Nat.min_id. split; [reflexivity|].
  intros i r Hr. rewrite nth_error_map in Hr.
  assert (Hi : i < n).
  { destruct (nth_error (combine (seq 0 n) (repeat [] n)) i) eqn:HC; [|discriminate]. apply nth_error_lt in HC.
    rewrite combine_length, seq_length, repeat_length in HC. lia. }
  assert (HRi : nth_error (repeat (@nil nat) n) i = Some []) by (now apply nth_error_repeat).
  pose proof (nth_combine_seq (repeat (@nil nat) n) 0 i [] HRi) as HC. rewrite repeat_length in HC. rewrite HC in Hr. cbn in Hr. injection Hr as <-.
  fold (usort (append (sch2 (concat ev2)) i)). split; [apply usort_sorted|].
  intros j. rewrite usort_in, append_in. apply Hin.
Qed.

End Tree.

End Any.
