(** Proofs of the properties of tree objects. *)
From Coq Require Import List Arith ZArith NArith Bool Permutation Lia.
From Flocq Require Import Core BinarySingleNaN.
From Verif Require Import Base Config Morton Build TreeSpec BuildSpec BuildProps FOps Disc NodeProps
  FOpsProofs DiscProofs Tree TreeInv TreeProofs TreeSafe.
Import ListNotations.
Local Open Scope nat_scope.

Lemma nth_ext_last : forall {A} (a b : list A) n, length a = n + 1 -> length b = n + 1 ->
  firstn n a = firstn n b -> nth_error a n = nth_error b n -> a = b.
Proof.
  intros A a. induction a as [|x a IH]; intros [|y b] n Ha Hb Hf Hn; simpl in Ha, Hb; try lia.
  destruct n as [|n].
  - simpl in Hn. injection Hn as ->. f_equal. destruct a, b; simpl in *; try lia. reflexivity.
  - cbn [firstn] in Hf. injection Hf as -> Hf. f_equal. apply (IH b n); try lia; assumption.
Qed.

Lemma foldM_app : forall {A S} (f : S -> A -> outcome S) l1 l2 s,
  foldM f (l1 ++ l2) s = (do s' <- foldM f l1 s; foldM f l2 s').
Proof.
  intros A S f l1. induction l1 as [|a l1 IH]; intros l2 s; [reflexivity|].
  cbn [app foldM]. destruct (f s a); cbn [bind]; [apply IH|reflexivity|reflexivity].
Qed.

Lemma nth_error_ext : forall {A} (a b : list A), (forall i, nth_error a i = nth_error b i) -> a = b.
Proof.
  intros A a. induction a as [|x a IH]; intros [|y b] H; [reflexivity|discriminate (H 0)|discriminate (H 0)|].
  f_equal; [injection (H 0); auto|]. apply IH. intros i. exact (H (S i)).
Qed.

Lemma permuted_inj : forall {A} p n (a b v : list A), is_perm p n -> length a = n -> length b = n ->
  permuted p a v -> permuted p b v -> a = b.
Proof.
  intros A p n a b v Hp Ha Hb [_ H1] [_ H2].
  apply nth_error_ext. intros k. destruct (Nat.lt_ge_cases k n) as [Hk|Hk].
  - apply (is_perm_In _ _ Hp) in Hk. apply In_nth_error in Hk as [i Hi].
    destruct (H1 _ _ Hi) as [<- _]. destruct (H2 _ _ Hi) as [<- _]. reflexivity.
  - rewrite (proj2 (nth_error_None a k)) by lia. now rewrite (proj2 (nth_error_None b k)) by lia.
Qed.

Section Props.

Context {F : Type}.
Variable O : fops F.
Variable E : env.
Hypothesis HE : env_ok E.
Let c := e_cfg E.
Notation tree := (@tree F).
Notation tree_inv := (tree_inv O E).

Lemma firstn_cols : forall (cols : list (list F)) n, Forall (fun col => length col = n) cols -> map (firstn n) cols = cols.
Proof.
  intros cols n H. induction H as [|col cols Hc H IH]; [reflexivity|]. simpl. f_equal; [|exact IH].
  rewrite <- Hc. apply firstn_all.
Qed.

Lemma load_iters : forall (cols cols' : list (list F)) n, load (Iters cols n) = Ok cols' -> cols' = map (firstn n) cols.
Proof.
  intros cols cols' n H. cbn [load] in H. apply bind_Ok in H as (_ & _ & H). revert cols' H.
  induction cols as [|col cols IH]; intros cols' H; cbn [mapM] in H.
  - injection H as <-. reflexivity.
  - apply bind_Ok in H as (x & Hx & H). apply bind_Ok in H as (r & Hr & H). injection H as <-.
    destruct (length col <? n); [discriminate|]. injection Hx as <-. simpl. f_equal. now apply IH.
Qed.

Lemma permuted_sym : forall {A} p q n (a b : list A), is_perm p n -> inverse p q -> length a = n -> permuted p a b -> permuted q b a.
Proof.
  intros A p q n a b Hp [Hq1 Hq2] Ha [Hb Hpb]. pose proof (is_perm_length _ _ Hp) as Lp.
  split; [lia|]. intros k i Hk.
  assert (Hkn : k < n) by (apply nth_error_lt in Hk; lia).
  assert (Hin : In k p). { apply Permutation_sym in Hp. eapply Permutation_in; [exact Hp|]. apply in_seq. lia. }
  apply In_nth_error in Hin as [i' Hi']. rewrite (Hq2 _ _ Hi') in Hk. injection Hk as <-.
  destruct (Hpb _ _ Hi') as [H1 H2]. split; [congruence|]. apply nth_error_lt in Hi'. lia.
Qed.

Lemma construction : forall s b inp mln nc t, sched_ok s ->
  match inp with RangesMoved cols | Ranges cols | Iterators cols _ => length cols = dim c + 1 end ->
  generic_ctor O E s b inp mln nc = Ok t ->
  exists n, Forall (fun col => length col = n) (given inp) /\ length (t_codes t) = n /\
    is_perm (t_perm t) n /\ inverse (t_perm t) (t_inv t) /\ t_last t = t_perm t /\
    Forall2 (permuted (t_perm t)) (given inp) (t_parts t) /\
    sorted_codes (t_codes t) /\
    (forall i x, nth_error (t_codes t) i = Some x ->
       exists xs, row (firstn (dim c) (t_parts t)) i xs /\ particle_code O c xs (fdiv O (fofZ O 1%Z) (t_box t)) = Ok x) /\
    ((N.of_nat n <= diff_max)%N -> view_cols true t = Ok (given inp)) /\
    (forall b0, b = Some b0 -> t_box t = b0).
Proof.
  intros s b inp mln nc t Hs Hi H.
  assert (G : exists d box ded, construct O E s box ded d (match mln with Some k => k | None => default_max_leaf_n end)
                (match nc with Some k => k | None => e_ncrit E end) = Ok t /\
              length match d with Moved cols => cols | Iters cols _ => cols end = dim c + 1 /\
              (forall cols, load d = Ok cols -> cols = given inp) /\ (forall b0, b = Some b0 -> ded = false /\ box = b0)).
  { unfold generic_ctor in H.
    assert (Hb : exists box ded, match b with Some x => (x, false) | None => (fofZ O 0%Z, true) end = (box, ded) /\
       (forall b0, b = Some b0 -> ded = false /\ box = b0)).
    { destruct b as [x|]; do 2 eexists; (split; [reflexivity|]); intros b0 Hb0; [injection Hb0 as <-; auto|discriminate]. }
    destruct Hb as (box & ded & Hb & Hb'). rewrite Hb in H. destruct inp as [cols|cols|cols n].
    - apply bind_Ok in H as (n & Hn & H). exists (Moved cols), box, ded. repeat split; auto; try (now apply (Hb' b0)).
      intros cols' Hl. now injection Hl as <-.
    - apply bind_Ok in H as (n & Hn & H). exists (Iters cols n), box, ded. repeat split; auto; try (now apply (Hb' b0)).
      intros cols' Hl. apply load_iters in Hl. rewrite Hl. apply firstn_cols. now apply (ranges_check_ok E).
    - exists (Iters cols n), box, ded. repeat split; auto; try (now apply (Hb' b0)).
      intros cols' Hl. now apply load_iters in Hl. }
  destruct G as (d & box & ded & HC & Hd & Hgiven & Hbox).
  destruct (construct_spec O E s box ded d _ _ t Hs Hd HC) as (cols & Hload & Hinv & _ & Hlast & Hperm & Hlen & Hded & _ & _ & Hb0).
  rewrite (Hgiven _ Hload) in *. set (g := given inp) in *. clearbody g. exists (length (t_codes t)).
  assert (Horig : original_order t g).
  { unfold original_order. pose proof (inv_perm _ _ _ Hinv) as Hp. pose proof (inv_inv _ _ _ Hinv) as Hq.
    revert Hlen. clear - Hperm Hp Hq. induction Hperm; intros Hl; [constructor|]. inversion Hl; subst.
    constructor; auto. eapply permuted_sym; eauto. }
  split; [exact Hlen|]. split; [reflexivity|]. split; [apply Hinv|]. split; [apply Hinv|]. split; [now rewrite Hlast|].
  split; [exact Hperm|]. split; [apply Hinv|]. split; [apply Hinv|].
  split; [intros Hn; now apply (original_order_view O E)|].
  intros b0 Hb. destruct (Hbox _ Hb) as [-> ->]. now apply Hb0.
Qed.

Lemma constructed_history : forall s b inp mln nc t us t' perms, sched_ok s ->
  match inp with RangesMoved cols | Ranges cols | Iterators cols _ => length cols = dim c + 1 end ->
  generic_ctor O E s b inp mln nc = Ok t -> (N.of_nat (length (t_codes t)) <= diff_max)%N ->
  updates O E t us t' perms ->
  exists a, ref_hist E perms us (given inp) a /\ view_cols true t' = Ok a.
Proof.
  intros s b inp mln nc t us t' perms Hs Hi H Hn Hu.
  destruct (construction s b inp mln nc t Hs Hi H) as (n & _ & <- & _ & _ & _ & _ & _ & _ & Hv & _).
  destruct (generic_ctor_inv O E s b inp mln nc t Hs Hi H) as [Hinv _].
  destruct (history O E us t t' perms Hu Hinv _ (Hv Hn)) as (a' & H1 & _ & H2). eauto.
Qed.

Lemma last_permutation : forall s ord f t t', sched_ok s -> reachable O E t ->
  update_particles O E s ord f t = Ok (t', None) ->
  exists v v' mid, view_cols ord t = Ok v /\ f v = Ok v' /\
    (if ord then Forall2 (permuted (t_inv t)) (t_parts t) v /\ Forall2 (permuted (t_inv t)) mid v'
     else v = t_parts t /\ mid = v') /\
    is_perm (t_last t') (length (t_codes t)) /\
    Forall2 (permuted (t_last t')) mid (t_parts t') /\
    permuted (t_last t') (t_perm t) (t_perm t') /\
    inverse (t_perm t') (t_inv t').
Proof.
  intros s ord f t t' Hs Hr H. apply (reachable_inv O E HE) in Hr.
  destruct (update_particles_spec O E s ord f t t' Hs Hr H) as (v & v' & mid & Hv & Hf & Hi & _ & Hl & _ & _ & _ & _ & Hp & Hm & _ & _ & Ho).
  exists v, v', mid. split; [exact Hv|]. split; [exact Hf|]. split; [destruct ord; [split; apply Ho|split; apply Ho]|].
  split; [rewrite <- Hl; apply Hi|]. split; [exact Hm|]. split; [exact Hp|apply Hi].
Qed.

(** * Failures *)
Lemma functor_throws : forall s ord f t v e, tree_inv t -> view_cols ord t = Ok v -> f v = Throw e ->
  update_particles O E s ord f t = Ok (default_tree O E, Some e).
Proof.
  intros s ord f t v e Ht Hv Hf. unfold update_particles. rewrite Hv. cbn [bind]. rewrite Hf. cbn [bind guarded].
  now rewrite (clear_default O E t (inv_ncols _ _ _ Ht)).
Qed.

Lemma mass_functor_throws : forall ord f t v m e, tree_inv t -> view_cols ord t = Ok v ->
  nth_error v (dim c) = Some m -> f m = Throw e ->
  update_masses O E ord f t = Ok (default_tree O E, Some e).
Proof.
  intros ord f t v m e Ht Hv Hm Hf. unfold update_masses. rewrite Hv. cbn [bind]. fold c.
  unfold rd at 1. rewrite Hm. cbn [bind]. rewrite Hf. cbn [bind guarded].
  now rewrite (clear_default O E t (inv_ncols _ _ _ Ht)).
Qed.

Lemma guarded_not_throw : forall t r e, guarded O E t r <> Throw e.
Proof. intros t [x|x|] e; discriminate. Qed.

Lemma row_ex : forall (cols : list (list F)) n i, Forall (fun col => length col = n) cols -> i < n -> exists xs, row cols i xs.
Proof.
  intros cols n i H Hi. induction H as [|col cols Hc H [xs IH]]; [exists []; constructor|].
  destruct (nth_error col i) as [x|] eqn:Ex; [|apply nth_error_None in Ex; lia].
  exists (x :: xs). now constructor.
Qed.

Lemma row_perm : forall p q (a b : list (list F)) i k xs, Forall2 (permuted p) a b -> nth_error p i = Some k ->
  row (firstn q b) i xs <-> row (firstn q a) k xs.
Proof.
  intros p q a b i k xs H. revert q xs. induction H as [|x y a b Hxy H IH]; intros q xs Hi.
  - rewrite !firstn_nil. split; intros HH; inversion HH; constructor.
  - destruct q as [|q]; [split; intros HH; inversion HH; constructor|]. cbn [firstn]. destruct Hxy as [_ Hxy].
    destruct (Hxy _ _ Hi) as [E1 _].
    split; intros HH; inversion HH; subst; constructor; try congruence; now apply (IH q).
Qed.

Lemma row_fun : forall (cols : list (list F)) i xs ys, row cols i xs -> row cols i ys -> xs = ys.
Proof.
  intros cols i xs ys H. revert ys. induction H; intros ys H'; inversion H'; subst; [reflexivity|].
  f_equal; [congruence|auto].
Qed.

Lemma perm_surj : forall p n k, is_perm p n -> k < n -> exists i, nth_error p i = Some k.
Proof.
  intros p n k Hp Hk. apply In_nth_error. apply Permutation_sym in Hp. eapply Permutation_in; [exact Hp|]. apply in_seq. lia.
Qed.

(** A particle without code makes the update fail. *)
Lemma bad_particle : forall s ord f t v v' i xs, (forall clamp x inv, disc_single_coord O c clamp x inv <> UB) ->
  sched_ok s -> tree_inv t -> t_ded t = false ->
  view_cols ord t = Ok v -> f v = Ok v' -> (forall w w', f w = Ok w' -> shape w' = shape w) -> (forall w, f w <> UB) ->
  row (firstn (dim c) v') i xs -> (forall x, particle_code O c xs (fdiv O (fofZ O 1%Z) (t_box t)) <> Ok x) ->
  exists e, update_particles O E s ord f t = Ok (default_tree O E, Some e).
Proof.
  intros s ord f t v v' i xs Hdisc Hs Ht Hded Hv Hf Hshape Hub Hrow Hbad.
  pose proof (update_particles_safe O E HE Hdisc s ord f t Hs Ht Hub Hshape) as HS.
  destruct (update_particles O E s ord f t) as [[t' [e|]]|e|] eqn:EU; [| | |congruence].
  - rewrite (update_particles_fails O E s ord f t t' e Ht EU). eauto.
  - exfalso.
    destruct (update_particles_spec O E s ord f t t' Hs Ht EU) as
      (v1 & v1' & mid & Hv1 & Hf1 & Hi & _ & Hl & _ & _ & _ & Hbox & _ & Hm & Hlen & Hlen2 & Ho).
    assert (v1 = v) by congruence. subst v1. assert (v1' = v') by congruence. subst v1'.
    assert (Hin : i < length (t_codes t)).
    { destruct v' as [|col v']; [simpl in Hlen2; lia|]. pose proof (dim_pos c) as Hdp. destruct (dim c) as [|d]; [lia|].
      cbn [firstn] in Hrow. inversion Hrow; subst. inversion Hlen; subst.
      match goal with HH : nth_error col i = Some _ |- _ => apply nth_error_lt in HH end. lia. }
    assert (Hmid : exists k, k < length (t_codes t) /\ row (firstn (dim c) mid) k xs).
    { destruct ord.
      - destruct Ho as (_ & Hmv & _). pose proof (inv_is_perm O E t Ht) as Hp.
        destruct (nth_error (t_inv t) i) as [k|] eqn:Ek; [|apply nth_error_None in Ek; rewrite (is_perm_length _ _ Hp) in Ek; lia].
        exists k. split; [apply (is_perm_In _ _ Hp); eapply nth_error_In; eauto|]. now apply (row_perm _ _ _ _ _ _ _ Hmv Ek).
      - destruct Ho as (_ & -> & _). eauto. }
    destruct Hmid as (k & Hk & Hrk).
    destruct (perm_surj _ _ k (inv_last _ _ _ Hi)) as [j Hj]; [lia|].
    apply (row_perm _ _ _ _ _ _ _ Hm Hj) in Hrk.
    assert (Hjn : j < length (t_codes t')).
    { apply nth_error_lt in Hj. rewrite (is_perm_length _ _ (inv_last _ _ _ Hi)) in Hj. exact Hj. }
    destruct (nth_error (t_codes t') j) as [x|] eqn:Ex; [|apply nth_error_None in Ex; lia].
    destruct (inv_codes _ _ _ Hi _ _ Ex) as (ys & Hy & Hc). rewrite (Hbox Hded) in Hc.
    rewrite (row_fun _ _ _ _ Hrk Hy) in Hbad. exact (Hbad _ Hc).
  - exfalso. exact (guarded_not_throw _ _ _ EU).
Qed.

(** * Copies, moves, independence *)
Lemma reachable_world_inv : forall w, reachable_world O E w -> Forall tree_inv w.
Proof. intros w (ops & H1 & H2). eapply (run_inv O E HE); eauto. Qed.

Lemma rd_nth : forall {A} (l : list A) i x, nth_error l i = Some x -> rd l i = Ok x.
Proof. intros A l i x H. unfold rd. now rewrite H. Qed.

Lemma copies : forall w, reachable_world O E w ->
  (forall i t, nth_error w i = Some t ->
     exists t', step O E w (OCopy i) = Ok (w ++ [t'], None) /\ same_data t' t /\ view_fresh E t') /\
  (forall i t, nth_error w i = Some t ->
     exists t', step O E w (OMove i) = Ok (set_nth w i (default_tree O E) ++ [t'], None) /\ same_data t' t /\ view_fresh E t') /\
  (forall i j t u, i <> j -> nth_error w i = Some t -> nth_error w j = Some u ->
     exists t', step O E w (OAssign i j None) = Ok (set_nth w i t', None) /\ same_data t' u /\ view_fresh E t') /\
  (forall i j k t u, i <> j -> nth_error w i = Some t -> nth_error w j = Some u ->
     step O E w (OAssign i j (Some k)) = Ok (set_nth w i (default_tree O E), Some BadAlloc)) /\
  (forall i j t u, i <> j -> nth_error w i = Some t -> nth_error w j = Some u ->
     exists t', step O E w (OMoveAssign i j) = Ok (set_nth (set_nth w i t') j (default_tree O E), None) /\
       same_data t' u /\ view_fresh E t') /\
  (forall i fail t, nth_error w i = Some t ->
     step O E w (OAssign i i fail) = Ok (w, None) /\ step O E w (OMoveAssign i i) = Ok (w, None)) /\
  (forall i t, nth_error w i = Some t -> step O E w (OClear i) = Ok (set_nth w i (default_tree O E), None)).
Proof.
  intros w Hw. apply reachable_world_inv in Hw.
  assert (HI : forall i t, nth_error w i = Some t -> tree_inv t).
  { intros i t H. rewrite Forall_forall in Hw. apply Hw. eapply nth_error_In; eauto. }
  assert (HW : forall (l : list tree) i a, i < length l -> wr l i a = Ok (set_nth l i a)).
  { intros l i a Hi. unfold wr. destruct (Nat.ltb_spec i (length l)); [reflexivity|lia]. }
  assert (HL : forall i t, nth_error w i = Some t -> i < length w) by (intros i t H; eapply nth_error_lt; eauto).
  split; [|split; [|split; [|split; [|split; [|split]]]]].
  - intros i t H. exists (copy_ctor E t). cbn [step]. rewrite (rd_nth _ _ _ H). split; [reflexivity|apply copy_ctor_same].
  - intros i t H. exists (fst (move_ctor O E t)). destruct (move_ctor_spec O E t (HI _ _ H)) as (H1 & H2 & H3).
    cbn [step]. rewrite (rd_nth _ _ _ H). cbn [bind]. rewrite (surjective_pairing (move_ctor O E t)), H3.
    rewrite HW by eauto. split; [reflexivity|]. split; assumption.
  - intros i j t u Hij Hi Hj. destruct (copy_assign O E None t u) as [t' e] eqn:EA.
    destruct (copy_assign_spec O E None t u t' e (HI _ _ Hi) (HI _ _ Hj) EA) as (-> & H1 & H2).
    exists t'. cbn [step]. rewrite (rd_nth _ _ _ Hi), (rd_nth _ _ _ Hj). cbn [bind].
    destruct (Nat.eqb_spec i j); [contradiction|]. rewrite EA, HW by eauto. split; [reflexivity|]. split; assumption.
  - intros i j k t u Hij Hi Hj. destruct (copy_assign O E (Some k) t u) as [t' e] eqn:EA.
    destruct (copy_assign_spec O E (Some k) t u t' e (HI _ _ Hi) (HI _ _ Hj) EA) as (-> & ->).
    cbn [step]. rewrite (rd_nth _ _ _ Hi), (rd_nth _ _ _ Hj). cbn [bind].
    destruct (Nat.eqb_spec i j); [contradiction|]. rewrite EA, HW by eauto. reflexivity.
  - intros i j t u Hij Hi Hj. destruct (move_assign_spec O E t u (HI _ _ Hj)) as (H1 & H2 & H3).
    exists (fst (move_assign O E t u)). cbn [step]. rewrite (rd_nth _ _ _ Hi), (rd_nth _ _ _ Hj). cbn [bind].
    destruct (Nat.eqb_spec i j); [contradiction|]. rewrite (surjective_pairing (move_assign O E t u)), H3.
    rewrite HW by eauto. cbn [bind]. rewrite HW by (rewrite set_nth_length; eauto). split; [reflexivity|]. split; assumption.
  - intros i fail t H. cbn [step]. rewrite (rd_nth _ _ _ H). cbn [bind]. rewrite Nat.eqb_refl. split; reflexivity.
  - intros i t H. cbn [step]. rewrite (rd_nth _ _ _ H). cbn [bind]. rewrite HW by eauto. cbn [bind].
    now rewrite (clear_default O E t (inv_ncols _ _ _ (HI _ _ H))).
Qed.

(** * Mass updates *)
Lemma mass_update : forall ord f t t', reachable O E t ->
  update_masses O E ord f t = Ok (t', None) ->
  exists v m m', view_cols ord t = Ok v /\ nth_error v (dim c) = Some m /\ f m = Ok m' /\
    t_box t' = t_box t /\ t_ded t' = t_ded t /\ t_mln t' = t_mln t /\ t_ncrit t' = t_ncrit t /\
    t_codes t' = t_codes t /\ t_perm t' = t_perm t /\ t_last t' = t_last t /\ t_inv t' = t_inv t /\
    t_crit t' = t_crit t /\ firstn (dim c) (t_parts t') = firstn (dim c) (t_parts t) /\
    view_cols ord t' = Ok (set_nth v (dim c) m') /\
    (forall split st sc, reorders st -> reorders sc ->
      build_tree c (t_codes t) (t_mln t) (t_ncrit t) (cnp O E (t_parts t') (t_box t)) split st sc
      = Ok (t_nodes t', t_crit t)) /\
    map (fun nd => (n_begin nd, n_end nd, n_children nd, n_code nd, n_level nd)) (t_nodes t') =
    map (fun nd => (n_begin nd, n_end nd, n_children nd, n_code nd, n_level nd)) (t_nodes t).
Proof.
  intros ord f t t' Hr H. apply (reachable_inv O E HE) in Hr. rename Hr into Ht.
  destruct (update_masses_spec O E ord f t t' Ht H) as
    (v & m & m' & Hv & Hm & Hf & Hi & _ & H1 & H2 & H3 & H4 & H5 & H6 & H7 & H8 & H9 & H10 & Ho).
  exists v, m, m'. do 13 (split; [assumption|]). split; [|split].
  - destruct ord.
    + destruct Ho as [_ Ho]. apply (original_order_view O E t' _ Hi Ho). rewrite H5. now apply (view_diff O E t v).
    + destruct Ho as [_ Ho]. cbn [view_cols]. unfold view_cols. f_equal. exact Ho.
  - intros split st sc Hst Hsc. rewrite <- H5, <- H3, <- H4, <- H1, <- H9. now apply Hi.
  - unfold update_masses in H. apply guarded_ok in H.
    repeat (apply bind_Ok in H as (? & ? & H)). injection H as <-. cbn [t_nodes].
    match goal with HM : mapM _ (t_nodes t) = Ok ?ns |- _ => revert HM; generalize ns; clear end.
    induction (t_nodes t) as [|nd l IH]; intros r H; cbn [mapM] in H.
    + injection H as <-. reflexivity.
    + apply bind_Ok in H as (nd' & Hn & H). apply bind_Ok in H as (r' & Hr & H). injection H as <-.
      apply bind_Ok in Hn as (pp & _ & Hn). injection Hn as <-. cbn [map n_begin n_end n_children n_code n_level].
      f_equal. now apply IH.
Qed.

Lemma mass_update_ok : forall ord f t v m m' ms, reachable O E t ->
  view_cols ord t = Ok v -> nth_error v (dim c) = Some m -> f m = Ok m' -> length m' = length m ->
  length ms = length (t_codes t) -> (if ord then permuted (t_inv t) ms m' else ms = m') ->
  (exists split st sc r, reorders st /\ reorders sc /\
     build_tree c (t_codes t) (t_mln t) (t_ncrit t) (cnp O E (set_nth (t_parts t) (dim c) ms) (t_box t)) split st sc = Ok r) <->
  (exists t', update_masses O E ord f t = Ok (t', None)).
Proof.
  intros ord f t v m m' ms Hr Hv Hm Hf Hl Hms Ho. pose proof Hr as Ht. apply (reachable_inv O E HE) in Ht. split.
  - intros (split & st & sc & [nodes crit] & Hst & Hsc & HB).
    destruct (update_masses_succeeds O E ord f t v m m' ms nodes crit split st sc Ht Hv Hm Hf Hl Hms Ho Hst Hsc HB) as (t' & H & _).
    eauto.
  - intros (t' & HU).
    assert (R : forall A, reorders (fun l : list A => l)) by (intros A l; apply Permutation_refl).
    exists 0, (fun l => l), (fun l => l), (t_nodes t', t_crit t'). split; [apply R|]. split; [apply R|].
    destruct (update_masses_spec O E ord f t t' Ht HU) as
      (v1 & m1 & m1' & Hv1 & Hm1 & Hf1 & Hi & _ & H1 & H2 & H3 & H4 & H5 & H6 & H7 & H8 & H9 & H10 & Ho1).
    assert (v1 = v) by congruence. subst v1. fold c in Hm1; assert (m1 = m) by congruence. subst m1. assert (m1' = m') by congruence. subst m1'.
    assert (Hparts : t_parts t' = set_nth (t_parts t) (dim c) ms).
    { pose proof (inv_ncols _ _ _ Hi) as L1. pose proof (inv_ncols _ _ _ Ht) as L2. fold c in L1, L2.
      destruct ord; [|destruct Ho1 as [-> ->]; now subst].
      destruct Ho1 as [_ Ho1]. unfold original_order in Ho1. rewrite H8 in Ho1.
      apply nth_ext_last with (n := dim c); auto.
      - rewrite set_nth_length. lia.
      - rewrite firstn_set_nth. exact H10.
      - rewrite nth_error_set_nth_same by lia.
        destruct (nth_error (t_parts t') (dim c)) as [x|] eqn:Ex; [|apply nth_error_None in Ex; lia]. f_equal.
        destruct (Forall2_nth_error _ _ _ (dim c) m' Ho1) as (y & Hy & Hpy).
        { rewrite nth_error_set_nth_same; [reflexivity|]. apply nth_error_lt in Hm. exact Hm. }
        assert (y = x) by congruence. subst y.
        pose proof (inv_is_perm O E t Ht) as Hp. apply (permuted_inj _ _ _ _ m' Hp); auto.
        pose proof (inv_cols _ _ _ Hi) as HC. rewrite Forall_forall in HC. rewrite <- H5. apply HC. eapply nth_error_In; eauto. }
    rewrite <- Hparts, <- H5, <- H3, <- H4, <- H1. now apply Hi.
Qed.

(** * Device views *)
Lemma fresh_step : forall w o w' e, Forall tree_inv w -> Forall (view_fresh E) w -> op_ok E o ->
  (forall i ord f, o <> OUpdateMasses i ord f) -> step O E w o = Ok (w', e) -> Forall (view_fresh E) w'.
Proof.
  intros w o w' e Hw Hv Ho Hnm H.
  assert (Hdef : view_fresh E (default_tree O E)) by reflexivity.
  destruct o as [|s b inp mln nc|i|i|i j fl|i j|i|i s ord f|i ord f]; cbn [step op_ok] in *.
  - injection H as <- _. now apply Forall_app_one.
  - destruct Ho. destruct (generic_ctor O E s b inp mln nc) as [t|x|] eqn:G; try discriminate.
    + injection H as <- _. apply Forall_app_one; auto. eapply (generic_ctor_inv O E); eauto.
    + injection H as <- _. exact Hv.
  - apply bind_Ok in H as (t & Ht & H). injection H as <- _. apply Forall_app_one; auto. reflexivity.
  - apply bind_Ok in H as (t & Ht & H). unfold move_ctor in H. apply bind_Ok in H as (w1 & Hw1 & H). injection H as <- _.
    apply Forall_app_one; auto; [|reflexivity]. eapply Forall_wr; [exact Hv| |exact Hw1]. reflexivity.
  - apply bind_Ok in H as (t & Ht & H). apply bind_Ok in H as (u & Hu & H). destruct (i =? j); [injection H as <- _; exact Hv|].
    unfold copy_assign in H. destruct fl as [k|]; apply bind_Ok in H as (w1 & Hw1 & H); injection H as <- _;
      (eapply Forall_wr; [exact Hv| |exact Hw1]); reflexivity.
  - apply bind_Ok in H as (t & Ht & H). apply bind_Ok in H as (u & Hu & H). destruct (i =? j); [injection H as <- _; exact Hv|].
    unfold move_assign in H. apply bind_Ok in H as (w1 & Hw1 & H). apply bind_Ok in H as (w2 & Hw2 & H). injection H as <- _.
    eapply Forall_wr; [| |exact Hw2]; [|reflexivity]. eapply Forall_wr; [exact Hv| |exact Hw1]. reflexivity.
  - apply bind_Ok in H as (t & Ht & H). apply bind_Ok in H as (w1 & Hw1 & H). injection H as <- _.
    eapply Forall_wr; [exact Hv| |exact Hw1]. reflexivity.
  - apply bind_Ok in H as (t & Ht & H). apply bind_Ok in H as ([t' x] & Hr & H). apply bind_Ok in H as (w1 & Hw1 & H).
    injection H as <- _. assert (Hti : tree_inv t) by (eapply Forall_rd; eauto). eapply Forall_wr; [exact Hv| |exact Hw1].
    cbn [fst]. destruct x as [x|].
    + apply (update_particles_fails O E) in Hr; auto. now subst.
    + destruct (update_particles_spec O E s ord f t t' Ho Hti Hr) as (_ & _ & _ & _ & _ & _ & Hf & _). exact Hf.
  - exfalso. eapply Hnm. reflexivity.
Qed.

Lemma fresh_run : forall ops w, Forall (op_ok E) ops -> (forall i ord f, ~ In (OUpdateMasses i ord f) ops) ->
  run O E ops [] = Ok w -> Forall (view_fresh E) w.
Proof.
  intros ops w Hops Hnm. unfold run.
  assert (G : forall w0, Forall tree_inv w0 -> Forall (view_fresh E) w0 ->
    foldM (fun w o => do r <- step O E w o; Ok (fst r)) ops w0 = Ok w -> Forall (view_fresh E) w).
  { revert Hops Hnm. induction ops as [|o ops IH]; intros Hops Hnm w0 Hi Hv H; cbn [foldM] in H.
    - now injection H as <-.
    - inversion Hops; subst. apply bind_Ok in H as (w1 & G1 & H). apply bind_Ok in G1 as ([w1' e] & G1 & G2).
      injection G2 as <-. cbn [fst] in H.
      refine (IH _ _ w1' _ _ H); auto.
      + intros i ord f Hin. apply (Hnm i ord f). now right.
      + eapply (step_inv O E HE); eauto.
      + eapply fresh_step; eauto. intros i ord f ->. apply (Hnm i ord f). now left. }
  apply G; constructor.
Qed.

(** * Input sizes *)
Lemma sizes_rejected : forall s b inp mln nc cols, (inp = Ranges cols \/ inp = RangesMoved cols) ->
  length cols = dim c + 1 -> ~ (exists n, Forall (fun col => length col = n) cols) ->
  generic_ctor O E s b inp mln nc = Throw InvalidArgument.
Proof.
  intros s b inp mln nc cols Hin Hl Hne.
  assert (G : ranges_check E cols = Throw InvalidArgument) by now apply (ranges_check_iff E).
  unfold generic_ctor. destruct (match b with Some x => (x, false) | None => (fofZ O 0%Z, true) end) as [box ded].
  destruct Hin as [-> | ->]; rewrite G; reflexivity.
Qed.

(** * Whole programs *)
Lemma rd_not_throw : forall {A} (l : list A) i e, rd l i <> Throw e.
Proof. intros A l i e. unfold rd. destruct (nth_error l i); discriminate. Qed.
Lemma wr_not_throw : forall {A} (l : list A) i a e, wr l i a <> Throw e.
Proof. intros A l i a e. unfold wr. destruct (_ <? _); discriminate. Qed.
Lemma bind_not_throw : forall {A B} (x : outcome A) (f : A -> outcome B) e,
  x <> Throw e -> (forall a, f a <> Throw e) -> bind x f <> Throw e.
Proof. intros A B [a|x|] f e H1 H2; cbn [bind]; [apply H2|congruence|discriminate]. Qed.

Lemma step_not_throw : forall w o e, step O E w o <> Throw e.
Proof.
  intros w o e. destruct o; cbn [step]; try (apply bind_not_throw; [apply rd_not_throw|intros t]).
  - discriminate.
  - destruct (generic_ctor _ _ _ _ _ _ _); discriminate.
  - discriminate.
  - destruct (move_ctor O E t). apply bind_not_throw; [apply wr_not_throw|discriminate].
  - apply bind_not_throw; [apply rd_not_throw|]. intros u. destruct (_ =? _); [discriminate|].
    destruct (copy_assign O E fail t u). apply bind_not_throw; [apply wr_not_throw|discriminate].
  - apply bind_not_throw; [apply rd_not_throw|]. intros u. destruct (_ =? _); [discriminate|].
    destruct (move_assign O E t u). apply bind_not_throw; [apply wr_not_throw|]. intros w1.
    apply bind_not_throw; [apply wr_not_throw|discriminate].
  - apply bind_not_throw; [apply wr_not_throw|discriminate].
  - apply bind_not_throw; [apply guarded_not_throw|]. intros r. apply bind_not_throw; [apply wr_not_throw|discriminate].
  - apply bind_not_throw; [apply guarded_not_throw|]. intros r. apply bind_not_throw; [apply wr_not_throw|discriminate].
Qed.

Lemma run_safe : forall (Hdisc : forall clamp x inv, disc_single_coord O c clamp x inv <> UB) ops,
  Forall (op_ok E) ops ->
  (forall before o after w, ops = before ++ o :: after -> run O E before [] = Ok w -> op_safe E (length w) o) ->
  exists w, run O E ops [] = Ok w.
Proof.
  intros Hdisc ops. induction ops as [|o ops IH] using rev_ind; intros Hops Hsafe; [exists []; reflexivity|].
  apply Forall_app in Hops as [Hops Ho]. inversion Ho; subst.
  destruct IH as [w Hw]; auto.
  { intros before o' after w -> Hrun. apply (Hsafe before o' (after ++ [o]) w); [|exact Hrun]. now rewrite <- app_assoc. }
  pose proof (Hsafe ops o [] w eq_refl Hw) as Hos.
  assert (Hi : Forall tree_inv w) by exact (run_inv O E HE ops [] w (Forall_nil _) Hops Hw).
  pose proof (step_safe O E HE Hdisc w o Hi ltac:(assumption) Hos) as HS.
  assert (HT : forall e, step O E w o <> Throw e) by (intros e; apply step_not_throw).
  unfold run in *. rewrite foldM_app, Hw. cbn [bind foldM].
  destruct (step O E w o) as [r|e|]; [eexists; reflexivity|now elim (HT e)|congruence].
Qed.

End Props.

(** * IEEE arithmetic *)
Lemma disc_no_UB : forall prec emax Hprec Hemax fused, (2 <= prec)%Z -> forall c, (Z.of_N (cbitsc c) < emax)%Z ->
  forall clamp x inv, disc_single_coord (Bops prec emax Hprec Hemax fused) c clamp x inv <> UB.
Proof.
  intros prec emax Hprec Hemax fused H2 c Hw clamp x inv H.
  pose proof (disc_range prec emax Hprec Hemax fused H2 c Hw clamp x inv) as G. now rewrite H in G.
Qed.

Lemma failures : forall prec emax Hprec Hemax fused, (2 <= prec)%Z -> forall E, env_ok E ->
  (Z.of_N (cbitsc (e_cfg E)) < emax)%Z ->
  let O := Bops prec emax Hprec Hemax fused in
  forall (t : tree) (Ht : reachable O E t),
  (forall s ordered f t' e, update_particles O E s ordered f t = Ok (t', Some e) -> t' = default_tree O E) /\
  (forall ordered f t' e, update_masses O E ordered f t = Ok (t', Some e) -> t' = default_tree O E) /\
  (forall s ordered f v e, view_cols ordered t = Ok v -> f v = Throw e ->
     update_particles O E s ordered f t = Ok (default_tree O E, Some e)) /\
  (forall ordered f v m e, view_cols ordered t = Ok v -> nth_error v (dim (e_cfg E)) = Some m -> f m = Throw e ->
     update_masses O E ordered f t = Ok (default_tree O E, Some e)) /\
  (forall s ordered f v v' i xs, sched_ok s -> t_ded t = false -> view_cols ordered t = Ok v -> f v = Ok v' ->
     (forall w w', f w = Ok w' -> shape w' = shape w) -> (forall w, f w <> UB) ->
     row (firstn (dim (e_cfg E)) v') i xs ->
     (forall x, particle_code O (e_cfg E) xs (fdiv O (fofZ O 1%Z) (t_box t)) <> Ok x) ->
     exists e, update_particles O E s ordered f t = Ok (default_tree O E, Some e)) /\
  reachable O E (default_tree O E).
Proof.
  intros prec emax Hprec Hemax fused H2 E HE Hw O t Ht. apply (reachable_inv O E HE) in Ht.
  split; [|split; [|split; [|split; [|split]]]].
  - intros s ord f t' e. now apply (update_particles_fails O E).
  - intros ord f t' e. now apply (update_masses_fails O E).
  - intros s ord f v e. now apply (functor_throws O E).
  - intros ord f v m e. now apply (mass_functor_throws O E).
  - intros s ord f v v' i xs Hs Hd Hv Hf H1 H3. apply (bad_particle O E HE) with (v := v); auto.
    now apply disc_no_UB.
  - exists [ODefault], [default_tree O E]. split; [constructor; [exact I|constructor]|]. split; [reflexivity|now left].
Qed.

Lemma programs_safe : forall prec emax Hprec Hemax fused, (2 <= prec)%Z -> forall E, env_ok E ->
  (Z.of_N (cbitsc (e_cfg E)) < emax)%Z ->
  let O := Bops prec emax Hprec Hemax fused in
  forall ops, Forall (op_ok E) ops ->
  (forall before o after w, ops = before ++ o :: after -> run O E before [] = Ok w -> op_safe E (length w) o) ->
  exists w, run O E ops [] = Ok w.
Proof.
  intros prec emax Hprec Hemax fused H2 E HE Hw O ops. apply (run_safe O E HE). now apply disc_no_UB.
Qed.
