(** Proofs about the tree object. *)
From Coq Require Import List Arith ZArith NArith Bool Permutation Lia.
From Verif Require Import Base Config Morton MortonProofs CodesProofs Build TreeSpec BuildSpec BuildProofs BuildProps FOps Disc
  NodeProps Tree TreeInv.
Import ListNotations.
Local Open Scope nat_scope.

(** * Permutations *)
Lemma is_perm_length : forall p n, is_perm p n -> length p = n.
Proof. intros p n H. rewrite (Permutation_length H). apply seq_length. Qed.

Lemma is_perm_In : forall p n, is_perm p n -> forall k, In k p <-> k < n.
Proof.
  intros p n H k. split; intros Hk.
  - apply (Permutation_in _ H) in Hk. apply in_seq in Hk. lia.
  - apply (Permutation_in _ (Permutation_sym H)). apply in_seq. lia.
Qed.

Lemma is_perm_NoDup : forall p n, is_perm p n -> NoDup p.
Proof. intros p n H. eapply Permutation_NoDup; [apply Permutation_sym, H|apply seq_NoDup]. Qed.

Lemma is_perm_intro : forall p n, NoDup p -> length p = n -> (forall k, In k p -> k < n) -> is_perm p n.
Proof.
  intros p n H1 H2 H3. apply NoDup_Permutation_bis; [exact H1|rewrite seq_length; lia|].
  intros k Hk. apply in_seq. specialize (H3 k Hk). lia.
Qed.

Lemma is_perm_seq : forall n, is_perm (seq 0 n) n.
Proof. intros n. apply Permutation_refl. Qed.

Lemma is_perm_at : forall p n i, is_perm p n -> i < n -> exists k, nth_error p i = Some k /\ k < n.
Proof.
  intros p n i H Hi. destruct (nth_error p i) as [k|] eqn:Ek.
  - exists k. split; [reflexivity|]. apply (is_perm_In p n H). eapply nth_error_In; eauto.
  - apply nth_error_None in Ek. rewrite (is_perm_length p n H) in Ek. lia.
Qed.

Lemma NoDup_nth : forall {A} (p : list A) i j k, NoDup p -> nth_error p i = Some k -> nth_error p j = Some k -> i = j.
Proof.
  intros A p i j k H Hi Hj. apply (proj1 (NoDup_nth_error p) H); [|congruence].
  eapply nth_error_lt; eauto.
Qed.

Lemma is_perm_inj : forall p n i j k, is_perm p n -> nth_error p i = Some k -> nth_error p j = Some k -> i = j.
Proof. intros p n i j k H Hi Hj. eapply NoDup_nth; eauto. eapply is_perm_NoDup; eauto. Qed.

(** The inverse is a permutation, with inverse [p]. *)
Lemma inverse_sym : forall p q n, is_perm p n -> inverse p q -> inverse q p.
Proof.
  intros p q n Hp [Hl Hq]. split; [now symmetry|]. intros i k Hik.
  pose proof (nth_error_lt _ _ _ Hik) as Hi. rewrite Hl, (is_perm_length p n Hp) in Hi.
  apply (is_perm_In p n Hp) in Hi. apply In_nth_error in Hi as [j Hj].
  pose proof (Hq j i Hj) as Hj'. congruence.
Qed.

Lemma inverse_is_perm : forall p q n, is_perm p n -> inverse p q -> is_perm q n.
Proof.
  intros p q n Hp Hpq. pose proof (inverse_sym p q n Hp Hpq) as [Hl Hqp]. destruct Hpq as [Hl' Hpq].
  apply is_perm_intro.
  - apply NoDup_nth_error. intros i j Hi E. destruct (nth_error q i) as [k|] eqn:Ei.
    + symmetry in E. pose proof (Hqp i k Ei). pose proof (Hqp j k E). congruence.
    + apply nth_error_None in Ei. lia.
  - rewrite Hl', (is_perm_length p n Hp). reflexivity.
  - intros k Hk. apply In_nth_error in Hk as [i Hi]. apply Hqp in Hi.
    rewrite <- (is_perm_length p n Hp). eapply nth_error_lt; eauto.
Qed.

(** * apply_isort *)
Lemma mapM_rd : forall {A} (v : list A) p, (forall k, In k p -> k < length v) ->
  exists v', mapM (rd v) p = Ok v' /\ permuted p v v'.
Proof.
  intros A v. induction p as [|k p IH]; intros H; simpl.
  - exists []. split; [reflexivity|]. split; [reflexivity|]. intros [|i] k; discriminate.
  - destruct (rd_lt v k) as [a Ha]; [apply H; now left|]. rewrite Ha. simpl.
    destruct IH as (v' & -> & [Hl Hv]); [intros; apply H; now right|]. simpl.
    exists (a :: v'). split; [reflexivity|]. split; [simpl; lia|].
    intros [|i] q Hq; simpl in *.
    + injection Hq as <-. split; [|apply H; now left]. symmetry. now apply rd_Ok.
    + now apply Hv.
Qed.

Lemma mapM_rd_inv : forall {A} (v : list A) p v', mapM (rd v) p = Ok v' -> permuted p v v'.
Proof.
  intros A v p v' H. apply mapM_Ok in H as [Hl H]. split; [exact Hl|].
  intros i k Hk. destruct (H i k Hk) as (b & Hb & E). apply rd_Ok in E. rewrite Hb, E.
  split; [reflexivity|]. eapply nth_error_lt; eauto.
Qed.

Lemma apply_isort_inv : forall {A} (v : list A) p v', apply_isort v p = Ok v' ->
  length v = length p /\ permuted p v v'.
Proof.
  intros A v p v' H. unfold apply_isort in H. destruct (Nat.eqb_spec (length v) (length p)); [|discriminate].
  split; [assumption|]. now apply mapM_rd_inv.
Qed.

Lemma apply_isort_ok : forall {A} (v : list A) p n, is_perm p n -> length v = n ->
  exists v', apply_isort v p = Ok v'.
Proof.
  intros A v p n Hp Hl. unfold apply_isort. rewrite (is_perm_length p n Hp), Hl, Nat.eqb_refl.
  destruct (mapM_rd v p) as (v' & H & _); [|eauto]. intros k Hk. rewrite Hl. now apply (is_perm_In p n Hp).
Qed.

Lemma nth_error_seq : forall n i, i < n -> nth_error (seq 0 n) i = Some i.
Proof.
  intros n i H. rewrite (nth_error_nth' (seq 0 n) 0) by (rewrite seq_length; lia). rewrite seq_nth by lia. reflexivity.
Qed.

Lemma permuted_perm : forall {A} p n (v v' : list A), is_perm p n -> length v = n -> permuted p v v' ->
  Permutation v v'.
Proof.
  intros A p n v v' Hp Hl [Hl' H].
  destruct v as [|a0 v0] eqn:Ev.
  { simpl in Hl. subst n. rewrite (is_perm_length p 0 Hp) in Hl'. destruct v'; [constructor|discriminate]. }
  rewrite <- Ev in *. clear v0 Ev.
  assert (E1 : v = map (fun k => nth k v a0) (seq 0 n)).
  { apply list_ext. intros i. rewrite nth_error_map. destruct (nth_error v i) as [x|] eqn:Ei.
    - pose proof (nth_error_lt _ _ _ Ei) as Hi. rewrite Hl in Hi.
      assert (Es : nth_error (seq 0 n) i = Some i).
      { now apply nth_error_seq. }
      rewrite Es. simpl. f_equal. symmetry. now apply nth_error_nth.
    - apply nth_error_None in Ei. assert (Es : nth_error (seq 0 n) i = None).
      { apply nth_error_None. rewrite seq_length. lia. }
      now rewrite Es. }
  assert (E2 : v' = map (fun k => nth k v a0) p).
  { apply list_ext. intros i. rewrite nth_error_map. destruct (nth_error p i) as [k|] eqn:Ei.
    - simpl. destruct (H i k Ei) as [-> Hk]. now rewrite (nth_error_nth' v a0).
    - apply nth_error_None in Ei. simpl. apply nth_error_None. lia. }
  rewrite E2. rewrite E1 at 1. apply Permutation_map. now apply Permutation_sym.
Qed.

Lemma permuted_length : forall {A} p n (v v' : list A), is_perm p n -> permuted p v v' -> length v' = n.
Proof. intros A p n v v' Hp [Hl _]. now rewrite Hl, (is_perm_length p n Hp). Qed.

Lemma permuted_is_perm : forall p q r n, is_perm p n -> is_perm q n -> permuted p q r -> is_perm r n.
Proof.
  intros p q r n Hp Hq H. unfold is_perm. rewrite <- Hq. apply Permutation_sym.
  apply (permuted_perm p n q r Hp); [now apply is_perm_length|exact H].
Qed.

Lemma permuted_fun : forall {A} p (v v1 v2 : list A), permuted p v v1 -> permuted p v v2 -> v1 = v2.
Proof.
  intros A p v v1 v2 [L1 H1] [L2 H2]. apply list_ext. intros i. destruct (nth_error p i) as [k|] eqn:Ei.
  - destruct (H1 i k Ei) as [-> _]. destruct (H2 i k Ei) as [-> _]. reflexivity.
  - apply nth_error_None in Ei. rewrite (proj2 (nth_error_None v1 i)) by lia.
    rewrite (proj2 (nth_error_None v2 i)) by lia. reflexivity.
Qed.

Lemma permuted_map : forall {A B} p (f : A -> B) (v v' : list A), permuted p v v' -> permuted p (map f v) (map f v').
Proof.
  intros A B p f v v' [L H]. split; [now rewrite map_length|]. intros i k Hk.
  destruct (H i k Hk) as [E1 E2]. rewrite !nth_error_map, E1, map_length. auto.
Qed.

(** * perm_to_inv_perm, scatter *)
Lemma scatter_spec : forall {A} (inv : list nat) (new old : list A), NoDup inv ->
  (forall k, In k inv -> k < length old) -> length new = length inv ->
  exists col, scatter inv new old = Ok col /\ length col = length old /\
    (forall i k, nth_error inv i = Some k -> nth_error col k = nth_error new i) /\
    (forall k, ~ In k inv -> nth_error col k = nth_error old k).
Proof.
  intros A inv. unfold scatter. induction inv as [|k inv IH]; intros new old Hn Hk Hl.
  - exists old. simpl. repeat split; auto. intros [|i] k; discriminate.
  - destruct new as [|v new]; [discriminate|]. simpl. inversion Hn as [|? ? Hn1 Hn2]; subst.
    unfold wr at 1. replace (k <? length old) with true by (symmetry; apply Nat.ltb_lt, Hk; now left).
    simpl.
    destruct (IH new (set_nth old k v) Hn2) as (col & -> & L & H1 & H2).
    + intros q Hq. rewrite set_nth_length. apply Hk. now right.
    + simpl in Hl. lia.
    + exists col. split; [reflexivity|]. rewrite set_nth_length in L. split; [exact L|]. split.
      * intros [|i] q Hq; simpl in Hq.
        { injection Hq as <-. rewrite H2 by exact Hn1. simpl. apply nth_error_set_nth_same. apply Hk. now left. }
        { simpl. now apply H1. }
      * intros q Hq. rewrite H2 by (intros HH; apply Hq; now right).
        apply nth_error_set_nth_other. intros ->. apply Hq. now left.
Qed.

(** Looking at the result through [inv] shows [new]. *)
Lemma scatter_gather : forall {A} inv n (new old : list A), is_perm inv n -> length new = n -> length old = n ->
  exists col, scatter inv new old = Ok col /\ permuted inv col new /\ length col = n.
Proof.
  intros A inv n new old Hp Hn Ho.
  destruct (scatter_spec inv new old) as (col & H1 & H2 & H3 & _).
  - eapply is_perm_NoDup; eauto.
  - intros k Hk. rewrite Ho. now apply (is_perm_In inv n Hp).
  - now rewrite (is_perm_length inv n Hp).
  - exists col. split; [exact H1|]. split; [|lia]. split; [now rewrite (is_perm_length inv n Hp)|].
    intros i k Hik. split; [symmetry; now apply H3|]. rewrite H2, Ho. apply (is_perm_In inv n Hp).
    eapply nth_error_In; eauto.
Qed.

Lemma perm_to_inv_perm_scatter : forall perm inv, perm_to_inv_perm perm inv = scatter perm (seq 0 (length perm)) inv.
Proof.
  intros perm inv. unfold perm_to_inv_perm, scatter.
  assert (A : forall p s inv, foldM (fun inv '(i, p) => wr inv p i) (combine (seq s (length p)) p) inv
    = foldM (fun col '(k, v) => wr col k v) (combine p (seq s (length p))) inv).
  { induction p as [|k p IH]; intros s i; simpl; [reflexivity|]. destruct (wr i k s); simpl; auto. }
  apply A.
Qed.

Lemma perm_to_inv_perm_ok : forall perm inv n, is_perm perm n -> length inv = n ->
  exists inv', perm_to_inv_perm perm inv = Ok inv' /\ inverse perm inv'.
Proof.
  intros perm inv n Hp Hl. rewrite perm_to_inv_perm_scatter, (is_perm_length perm n Hp).
  destruct (scatter_gather perm n (seq 0 n) inv Hp (seq_length n 0) Hl) as (col & H1 & [H2 H3] & H4).
  exists col. split; [exact H1|]. split; [rewrite H4; symmetry; now apply is_perm_length|].
  intros i k Hk. destruct (H3 i k Hk) as [E _]. rewrite <- E. apply nth_error_seq.
  rewrite <- (is_perm_length perm n Hp). eapply nth_error_lt; eauto.
Qed.

Lemma Forall2_length_eq : forall {A B} (R : A -> B -> Prop) la lb, Forall2 R la lb -> length la = length lb.
Proof. induction 1; simpl; congruence. Qed.

(** * Recomputing the payload of the nodes *)
Definition set_props {P Q} (cnp2 : nat -> nat -> N -> N -> outcome Q) (nd : node P) : outcome (node Q) :=
  do p <- cnp2 (n_begin nd) (n_end nd) (n_code nd) (n_level nd);
  Ok (mkNode (n_begin nd) (n_end nd) (n_children nd) (n_code nd) (n_level nd) p).

Lemma mapM_fails : forall {A B} (f : A -> outcome B) l, (forall l', mapM f l <> Ok l') ->
  exists a, In a l /\ forall b, f a <> Ok b.
Proof.
  intros A B f. induction l as [|a l IH]; intros H; simpl in H.
  - exfalso. eapply H. reflexivity.
  - destruct (f a) as [b|e|] eqn:Ea.
    + destruct (mapM f l) as [l'| |] eqn:El.
      * exfalso. eapply H. reflexivity.
      * destruct IH as (x & Hx & Hn); [discriminate|]. exists x. split; [now right|exact Hn].
      * destruct IH as (x & Hx & Hn); [discriminate|]. exists x. split; [now right|exact Hn].
    + exists a. split; [now left|]. rewrite Ea. discriminate.
    + exists a. split; [now left|]. rewrite Ea. discriminate.
Qed.

Lemma recompute : forall c codes mln ncrit P Q cnp1 cnp2, valid_codes c codes ->
  forall split1 st1 sc1 tree crit, reorders st1 -> reorders sc1 ->
  build_tree c codes mln ncrit (P := P) cnp1 split1 st1 sc1 = Ok (tree, crit) ->
  forall split st sc tree', reorders st -> reorders sc ->
  (mapM (set_props cnp2) tree = Ok tree' <->
   build_tree c codes mln ncrit (P := Q) cnp2 split st sc = Ok (tree', crit)).
Proof.
  intros c codes mln ncrit P Q cnp1 cnp2 Hv split1 st1 sc1 tree crit Hst1 Hsc1 HB split st sc tree' Hst Hsc.
  pose proof Hv as [Hs Hr]. destruct codes as [|x0 t0] eqn:Ec.
  { unfold build_tree in *. simpl in *. injection HB as <- <-. simpl. split; intros H; injection H as <-; reflexivity. }
  rewrite <- Ec in *. assert (Hne : codes <> []) by congruence. clear x0 t0 Ec.
  pose proof (build_tree_spec c codes mln ncrit P cnp1 split1 Hs Hr st1 sc1 Hst1 Hsc1 Hne) as B1.
  pose proof (build_tree_spec c codes mln ncrit Q cnp2 split Hs Hr st sc Hst Hsc Hne) as B2.
  rewrite HB in B1. destruct B1 as (HF & -> & Hsz & Hdf).
  assert (Hmap : forall tr cs, Forall2 (node_ok c codes mln P cnp1) tr cs ->
    (forall x, In x cs -> exists q, cnp_of c codes Q cnp2 x = Ok q) ->
    exists tr', mapM (set_props cnp2) tr = Ok tr' /\ Forall2 (node_ok c codes mln Q cnp2) tr' cs).
  { clear. intros tr cs HF. induction HF as [|a x la lx Ha HF IH]; intros Hx.
    - exists []. split; [reflexivity|constructor].
    - destruct IH as (tr' & E & HF'); [intros; apply Hx; now right|].
      destruct (Hx x (or_introl eq_refl)) as (q & Hq).
      destruct Ha as (E1 & E2 & E3 & E4 & E5 & E6).
      exists (mkNode (n_begin a) (n_end a) (n_children a) (n_code a) (n_level a) q :: tr').
      split; [|constructor; [|exact HF']].
      + cbn [mapM]. unfold set_props at 1. unfold cnp_of in Hq. rewrite E1, E2, E4, E5. rewrite Hq. cbn [bind].
        rewrite E. reflexivity.
      + repeat split; simpl; auto. }
  assert (Huniq : forall ta tb cs, Forall2 (node_ok c codes mln Q cnp2) ta cs ->
    Forall2 (node_ok c codes mln Q cnp2) tb cs -> ta = tb).
  { clear. intros ta tb cs H. revert tb. induction H as [|a x la lx Ha HF IH]; intros tb Hb;
      inversion Hb; subst; [reflexivity|]. f_equal; [eapply node_ok_inj; eauto|auto]. }
  split.
  - intros HM.
    assert (Hall : forall x, In x (all_cells c codes mln) -> exists q, cnp_of c codes Q cnp2 x = Ok q).
    { intros x Hx. apply In_nth_error in Hx as [i Hx].
      destruct (Forall2_nth_r _ _ _ _ _ HF Hx) as (a & Ha & (E1 & E2 & E3 & E4 & E5 & _)).
      apply mapM_Ok in HM as [_ HM]. destruct (HM i a Ha) as (b & _ & Hb). unfold set_props in Hb.
      apply bind_Ok in Hb as (q & Hq & _). exists q. unfold cnp_of. rewrite <- Hq, E1, E2, E4, E5. reflexivity. }
    destruct (Hmap _ _ HF Hall) as (tr' & E & HF'). rewrite HM in E. injection E as <-.
    destruct (build_tree c codes mln ncrit cnp2 split st sc) as [[t2 c2]|e|].
    + destruct B2 as (HF2 & -> & _). f_equal. f_equal. eapply Huniq; eauto.
    + exfalso. destruct B2 as [(x & Hx & Hc)|[_ [Ho|Ho]]]; [|lia|lia].
      destruct (Hall x Hx) as (q & Hq). unfold cok in Hc. rewrite Hq in Hc. discriminate.
    + exfalso. destruct B2 as (x & Hx & Hc). destruct (Hall x Hx) as (q & Hq). unfold cok in Hc.
      rewrite Hq in Hc. discriminate.
  - intros HB2. rewrite HB2 in B2. destruct B2 as (HF2 & _ & _).
    destruct (Hmap _ _ HF) as (tr' & E & HF').
    + intros x Hx. apply In_nth_error in Hx as [i Hx].
      destruct (Forall2_nth_r _ _ _ _ _ HF2 Hx) as (a & Ha & (_ & _ & _ & _ & _ & E6)). eauto.
    + rewrite E. f_equal. eapply Huniq; eauto.
Qed.

(** * Codes *)
Section Codes.

Context {F : Type}.
Variable O : fops F.

Lemma disc_lt : forall c clamp x inv k, disc_single_coord O c clamp x inv = Ok k -> (k < 2 ^ cbitsc c)%N.
Proof.
  intros c clamp x inv k H. unfold disc_single_coord in H. cbv zeta in H.
  destruct (negb _); [discriminate|]. apply bind_Ok in H as (t & _ & H). apply bind_Ok in H as (r & _ & H).
  destruct (N.leb_spec (2 ^ cbitsc c) r); [discriminate|]. injection H as <-. assumption.
Qed.

Lemma mapM_disc_lt : forall c xs inv ds, mapM (fun x => disc_single_coord O c false x inv) xs = Ok ds ->
  length ds = length xs /\ Forall (fun k => (k < 2 ^ cbitsc c)%N) ds.
Proof.
  intros c xs inv. induction xs as [|x xs IH]; intros ds H; simpl in H.
  - injection H as <-. split; constructor.
  - apply bind_Ok in H as (k & Hk & H). apply bind_Ok in H as (ks & Hks & H). injection H as <-.
    destruct (IH ks Hks) as [L G]. split; [simpl; lia|]. constructor; [eapply disc_lt; eauto|exact G].
Qed.

Lemma particle_code_lt : forall c xs inv x, particle_code O c xs inv = Ok x ->
  (x < 2 ^ (dimN c * cbitsc c))%N.
Proof.
  intros c xs inv x H. unfold particle_code in H. apply bind_Ok in H as (ds & Hd & H).
  apply mapM_disc_lt in Hd as [_ Hd]. apply (morton_encode_lt c ds x); auto.
  eapply morton_encode_ok_inv; eauto.
Qed.

End Codes.

(** * The tree *)
Section Trees.

Context {F : Type}.
Variable O : fops F.
Variable E : env.
Hypothesis HE : env_ok E.
Let c := e_cfg E.

Notation tree := (@tree F).
Notation tree_inv := (tree_inv O E).

Lemma inv_valid_codes : forall t, tree_inv t -> valid_codes c (t_codes t).
Proof.
  intros t H. split; [apply H|]. apply Forall_forall. intros x Hx.
  apply In_nth_error in Hx as [i Hi]. destruct (inv_codes _ _ _ H i x Hi) as (xs & _ & Hc).
  eapply particle_code_lt; eauto.
Qed.

Lemma default_inv : tree_inv (default_tree O E) .
Proof.
  destruct HE as [HE1 _].
  assert (Hd : Forall (fun col : list F => length col = 0) (repeat [] (dim (e_cfg E) + 1))).
  { apply Forall_forall. intros col Hc. apply repeat_spec in Hc. now subst. }
  constructor; simpl; auto.
  - apply repeat_length.
  - intros i j x y _ Hx. destruct i; discriminate.
  - intros [|i] x; discriminate.
  - apply (is_perm_seq 0).
  - apply (is_perm_seq 0).
  - split; [reflexivity|]. intros [|i] k; discriminate.
  - unfold default_max_leaf_n. lia.
Qed.

Lemma clear_default : forall t, length (t_parts t) = dim c + 1 -> clear O E t = default_tree O E.
Proof.
  intros t H. unfold clear, default_tree. f_equal. f_equal. fold c. rewrite <- H.
  clear. induction (t_parts t) as [|x l IH]; simpl; [reflexivity|]. now rewrite IH.
Qed.

(** ** Construction and synchronisation *)

(** The common part of [construct] and [sync]. *)
Lemma coords_row : forall (cols : list (list F)) i xs, coords E cols i = Ok xs -> row (firstn (dim c) cols) i xs.
Proof.
  intros cols i xs. unfold coords, row. fold c. revert xs.
  induction (firstn (dim c) cols) as [|col l IH]; intros xs H; simpl in H.
  - injection H as <-. constructor.
  - apply bind_Ok in H as (x & Hx & H). apply bind_Ok in H as (ys & Hys & H). injection H as <-.
    constructor; [now apply rd_Ok|]. now apply IH.
Qed.

Lemma encode_all_inv : forall (cols : list (list F)) inv n codes, encode_all O E cols inv n = Ok codes ->
  length codes = n /\ forall i x, nth_error codes i = Some x ->
    exists xs, row (firstn (dim c) cols) i xs /\ particle_code O c xs inv = Ok x.
Proof.
  intros cols inv n codes H. unfold encode_all in H. apply mapM_Ok in H as [Hl H].
  rewrite seq_length in Hl. split; [exact Hl|]. intros i x Hx.
  pose proof (nth_error_lt _ _ _ Hx) as Hi. rewrite Hl in Hi.
  destruct (H i i (nth_error_seq n i Hi)) as (b & Hb & Hc). rewrite Hx in Hb. injection Hb as <-.
  apply bind_Ok in Hc as (xs & H1 & H2). exists xs. split; [now apply coords_row|exact H2].
Qed.

Lemma row_permuted : forall p n i k (cols cols' : list (list F)) xs, is_perm p n -> nth_error p i = Some k ->
  Forall2 (permuted p) cols cols' -> row cols k xs -> row cols' i xs.
Proof.
  intros p n i k cols cols' xs Hp Hk HF. revert xs. unfold row.
  induction HF as [|col col' cols cols' H HF IH]; intros xs Hr; inversion Hr; subst; constructor.
  - destruct H as [_ H]. destruct (H i k Hk) as [-> _]. assumption.
  - now apply IH.
Qed.

Lemma mapM_isort_inv : forall p (cols cols' : list (list F)), mapM (fun col => apply_isort col p) cols = Ok cols' ->
  Forall (fun col => length col = length p) cols /\ Forall2 (permuted p) cols cols'.
Proof.
  intros p. induction cols as [|col cols IH]; intros cols' H; simpl in H.
  - injection H as <-. split; constructor.
  - apply bind_Ok in H as (col' & H1 & H). apply bind_Ok in H as (l & H2 & H). injection H as <-.
    apply apply_isort_inv in H1 as [L P]. apply IH in H2 as [L2 P2]. split; constructor; auto.
Qed.

Lemma Forall2_firstn : forall {A B} (R : A -> B -> Prop) n la lb, Forall2 R la lb -> Forall2 R (firstn n la) (firstn n lb).
Proof.
  intros A B R n la lb H. revert n. induction H; intros [|n]; simpl; constructor; auto.
Qed.

Lemma permuted_sorted_codes : forall (s : @sched F) codes0 codes, sched_ok s ->
  permuted (s_sort s codes0) codes0 codes -> sorted_codes codes.
Proof.
  intros s codes0 codes (_ & Hs & _) [Hl Hp]. destruct (Hs codes0) as [_ Hsort].
  replace codes with (map (fun i => nth i codes0 0%N) (s_sort s codes0)); [exact Hsort|].
  apply list_ext. intros i. rewrite nth_error_map. destruct (nth_error (s_sort s codes0) i) as [k|] eqn:Ei.
  - simpl. destruct (Hp i k Ei) as [-> Hk]. symmetry. now rewrite (nth_error_nth' codes0 0%N).
  - simpl. symmetry. apply nth_error_None. rewrite Hl. now apply nth_error_None.
Qed.

(** Result of permuting freshly encoded particles. *)
Lemma resorted : forall (s : @sched F) (cols : list (list F)) inv n codes0 codes cols', sched_ok s ->
  encode_all O E cols inv n = Ok codes0 ->
  apply_isort codes0 (s_sort s codes0) = Ok codes ->
  mapM (fun col => apply_isort col (s_sort s codes0)) cols = Ok cols' ->
  is_perm (s_sort s codes0) n /\ length codes = n /\ sorted_codes codes /\
  Forall (fun col => length col = n) cols /\ Forall (fun col => length col = n) cols' /\
  Forall2 (permuted (s_sort s codes0)) cols cols' /\
  (forall i x, nth_error codes i = Some x -> exists xs, row (firstn (dim c) cols') i xs /\
  particle_code O c xs inv = Ok x) /\
  permuted (s_sort s codes0) codes0 codes.
Proof.
  intros s cols inv n codes0 codes cols' Hs He Hc Hm.
  apply encode_all_inv in He as [Hn He]. pose proof Hs as (_ & Hsort & _).
  destruct (Hsort codes0) as [Hp _]. rewrite Hn in Hp. fold (is_perm (s_sort s codes0) n) in Hp.
  apply apply_isort_inv in Hc as [_ Hc]. apply mapM_isort_inv in Hm as [Hl Hm].
  rewrite (is_perm_length _ n Hp) in Hl.
  split; [exact Hp|]. split; [eapply permuted_length; eauto|].
  split; [eapply permuted_sorted_codes; eauto|]. split; [exact Hl|].
  split.
  { clear - Hm Hp. induction Hm as [|a b la lb H Hm IH]; constructor; auto. eapply permuted_length; eauto. }
  split; [exact Hm|]. split; [|exact Hc].
  intros i x Hx. destruct (nth_error (s_sort s codes0) i) as [k|] eqn:Ei.
  - destruct Hc as [_ Hc]. destruct (Hc i k Ei) as [Ek _]. rewrite Hx in Ek. symmetry in Ek.
    destruct (He k x Ek) as (xs & Hr & Hcode). exists xs. split; [|exact Hcode].
    eapply row_permuted; eauto. now apply Forall2_firstn.
  - exfalso. apply nth_error_None in Ei. destruct Hc as [Hc _]. apply nth_error_lt in Hx. lia.
Qed.

Lemma build_any : forall (s : @sched F) codes mln ncrit cp r, sched_ok s -> valid_codes c codes ->
  build_tree c codes mln ncrit cp (s_split s) (s_t s) (s_c s) = Ok r ->
  forall split st sc, reorders st -> reorders sc ->
    build_tree c codes mln ncrit (P := props F) cp split st sc = Ok r.
Proof.
  intros s codes mln ncrit cp r (_ & _ & Ht & Hc) Hv H split st sc Hst Hsc.
  eapply (deterministic c codes mln ncrit (props F) cp Hv); [exact Ht|exact Hc|exact Hst|exact Hsc|exact H].
Qed.

Lemma codes_valid : forall codes (cols : list (list F)) inv, sorted_codes codes ->
  (forall i x, nth_error codes i = Some x -> exists xs, row (firstn (dim c) cols) i xs /\
  particle_code O c xs inv = Ok x) -> valid_codes c codes.
Proof.
  intros codes cols inv Hs H. split; [exact Hs|]. apply Forall_forall. intros x Hx.
  apply In_nth_error in Hx as [i Hi]. destruct (H i x Hi) as (xs & _ & Hc). eapply particle_code_lt; eauto.
Qed.

Lemma box_fin : forall ndim parts r b, determine_box_size O ndim parts r = Ok b -> ffin O b = true.
Proof.
  intros ndim parts r b H. unfold determine_box_size in H. apply bind_Ok in H as (_ & _ & H).
  apply bind_Ok in H as (mc & _ & H). destruct mc; [discriminate|]. cbv zeta in H.
  destruct (ffin O _) eqn:E1 in H; [|discriminate]. now injection H as <-.
Qed.

Lemma construct_spec : forall s box ded d mln ncrit t, sched_ok s ->
  length match d with Moved cols => cols | Iters cols _ => cols end = dim c + 1 ->
  construct O E s box ded d mln ncrit = Ok t ->
  exists cols, load d = Ok cols /\ tree_inv t /\ view_fresh E t /\
  t_perm t = t_last t /\ Forall2 (permuted (t_perm t)) cols (t_parts t) /\
  Forall (fun col => length col = length (t_codes t)) cols /\
  t_ded t = ded /\ t_mln t = mln /\ t_ncrit t = ncrit /\ (ded = false -> t_box t = box).
Proof.
  intros s box ded d mln ncrit t Hs Hd H. unfold construct in H.
  destruct (negb (ffin O box) || flt O box (fofZ O 0%Z)) eqn:E1; [discriminate|].
  destruct (Nat.eqb_spec mln 0); [discriminate|]. destruct (Nat.eqb_spec ncrit 0); [discriminate|].
  apply bind_Ok in H as (_ & _ & H). apply bind_Ok in H as (cols & Hload & H). cbv zeta in H.
  apply bind_Ok in H as (bx & Hbox & H). apply bind_Ok in H as (codes0 & Henc & H).
  apply bind_Ok in H as (_ & _ & H). apply bind_Ok in H as (codes & Hcodes & H).
  apply bind_Ok in H as (parts & Hparts & H). apply bind_Ok in H as (inv & Hinv & H).
  apply bind_Ok in H as (_ & _ & H). apply bind_Ok in H as ([nodes crit] & Hb & H). injection H as <-.
  exists cols. split; [exact Hload|].
  destruct (resorted _ _ _ _ _ _ _ Hs Henc Hcodes Hparts) as (R1 & R2 & R3 & R4 & R5 & R6 & R7 & R8).
  fold c in R7, Hb.
  set (np := length (hd [] cols)) in *.
  assert (Hlc : length cols = dim c + 1).
  { destruct d as [l|l n1]; simpl in Hload; [now injection Hload as <-|].
    apply bind_Ok in Hload as (_ & _ & Hload). apply mapM_Ok in Hload as [-> _]. exact Hd. }
  split; [|split; [reflexivity|split; [reflexivity|split; [exact R6|]]]].
  - constructor; simpl; fold c; auto.
    + rewrite <- (Forall2_length_eq _ _ _ R6). exact Hlc.
    + now rewrite R2.
    + now rewrite R2.
    + now rewrite R2.
    + destruct (perm_to_inv_perm_ok (s_sort s codes0) (repeat 0 np) np R1 (repeat_length _ _)) as (i' & Hi & Hi').
      rewrite Hi in Hinv. injection Hinv as <-. exact Hi'.
    + eapply build_any; eauto. eapply codes_valid; eauto.
    + lia.
    + lia.
    + right. destruct ded.
      * apply bind_Ok in Hbox as (rs & _ & Hbox). apply box_fin in Hbox. split; [exact Hbox|discriminate].
      * injection Hbox as <-. apply orb_false_iff in E1 as [E1 E2]. apply negb_false_iff in E1. auto.
  - simpl. rewrite R2. split; [exact R4|]. split; [reflexivity|]. split; [reflexivity|]. split; [reflexivity|].
    intros ->. now injection Hbox as <-.
Qed.

Lemma nparts_codes : forall t, tree_inv t -> nparts t = length (t_codes t).
Proof.
  intros t H. unfold nparts. pose proof (inv_ncols _ _ _ H) as Hn. pose proof (inv_cols _ _ _ H) as Hc.
  destruct (t_parts t) as [|col cols]; [simpl in Hn; lia|]. simpl. now inversion Hc.
Qed.

(** [sync] on a tree whose arrays have the right sizes. *)
Lemma sync_spec : forall s t t' n, sched_ok s ->
  length (t_parts t) = dim c + 1 -> nparts t = n ->
  is_perm (t_perm t) n -> length (t_inv t) = n ->
  0 < t_mln t -> 0 < t_ncrit t ->
  (t_box t = fofZ O 0%Z \/ ffin O (t_box t) = true /\ (t_ded t = false -> flt O (t_box t) (fofZ O 0%Z) = false)) ->
  sync O E s t = Ok t' ->
  tree_inv t' /\ view_fresh E t' /\ length (t_codes t') = n /\
  Forall2 (permuted (t_last t')) (t_parts t) (t_parts t') /\
  permuted (t_last t') (t_perm t) (t_perm t') /\
  t_ded t' = t_ded t /\ t_mln t' = t_mln t /\ t_ncrit t' = t_ncrit t /\ (t_ded t = false -> t_box t' = t_box t).
Proof.
  intros s t t' n Hs Hnc Hn Hp Hi Hm Hcr Hbx H. unfold sync in H. cbv zeta in H.
  unfold nparts, rocm_reset in H. cbn [t_box t_ded t_parts t_mln t_ncrit t_perm t_inv] in H.
  fold (nparts t) in H. rewrite Hn in H.
  apply bind_Ok in H as (bx & Hbox & H). apply bind_Ok in H as (codes0 & Henc & H).
  apply bind_Ok in H as (_ & _ & H). apply bind_Ok in H as (codes & Hcodes & H).
  apply bind_Ok in H as (parts & Hparts & H). apply bind_Ok in H as (perm & Hperm & H).
  apply bind_Ok in H as (inv & Hinv & H).
  apply bind_Ok in H as (_ & _ & H). apply bind_Ok in H as ([nodes crit] & Hb & H). injection H as <-.
  destruct (resorted _ _ _ _ _ _ _ Hs Henc Hcodes Hparts) as (R1 & R2 & R3 & R4 & R5 & R6 & R7 & R8).
  fold c in R7, Hb. apply apply_isort_inv in Hperm as [_ Hperm].
  pose proof (permuted_is_perm _ _ _ _ R1 Hp Hperm) as Hp'.
  split; [|split; [reflexivity|split; [exact R2|split; [exact R6|split; [exact Hperm|]]]]].
  - constructor; simpl; fold c; auto.
    + rewrite <- (Forall2_length_eq _ _ _ R6). exact Hnc.
    + now rewrite R2.
    + now rewrite R2.
    + now rewrite R2.
    + destruct (perm_to_inv_perm_ok perm (t_inv t) n Hp' Hi) as (i' & Hi1 & Hi2).
      rewrite Hi1 in Hinv. injection Hinv as <-. exact Hi2.
    + eapply build_any; eauto. eapply codes_valid; eauto.
    + destruct (t_ded t) eqn:Ed.
      * apply bind_Ok in Hbox as (rs & _ & Hbox). apply box_fin in Hbox. right. split; [exact Hbox|discriminate].
      * injection Hbox as <-. destruct Hbx as [Hbx|[Hb1 Hb2]]; [now left|]. right. auto.
  - simpl. split; [reflexivity|]. split; [reflexivity|]. split; [reflexivity|].
    intros Ed. rewrite Ed in Hbox. now injection Hbox as <-.
Qed.

Lemma guarded_ok : forall t r t', guarded O E t r = Ok (t', None) -> r = Ok t'.
Proof. intros t [a|e|] t' H; simpl in H; try discriminate. now injection H as ->. Qed.

Lemma guarded_throw : forall t r t' e, guarded O E t r = Ok (t', Some e) -> r = Throw e /\ t' = clear O E t.
Proof. intros t [a|e0|] t' e H; simpl in H; try discriminate. injection H as <- <-. auto. Qed.

Lemma guarded_UB : forall t r, guarded O E t r = UB <-> r = UB.
Proof. intros t [a|e0|]; simpl; split; try discriminate; auto. Qed.

Lemma inv_is_perm : forall t, tree_inv t -> is_perm (t_inv t) (length (t_codes t)).
Proof. intros t H. eapply inverse_is_perm; [apply H|apply H]. Qed.

Lemma mapM_gather : forall (inv : list nat) n (cols : list (list F)), is_perm inv n ->
  Forall (fun col => length col = n) cols ->
  exists v, mapM (fun col => mapM (rd col) inv) cols = Ok v /\ Forall2 (permuted inv) cols v.
Proof.
  intros inv n cols Hp. induction 1 as [|col cols Hc _ IH].
  - exists []. split; [reflexivity|constructor].
  - destruct (mapM_rd col inv) as (v0 & E0 & P0).
    { intros k Hk. rewrite Hc. now apply (is_perm_In inv n Hp). }
    destruct IH as (v & Ev & Pv). exists (v0 :: v). cbn [mapM]. rewrite E0. cbn [bind]. rewrite Ev.
    split; [reflexivity|now constructor].
Qed.

Lemma view_cols_ordered : forall t v, tree_inv t -> view_cols true t = Ok v -> original_order t v.
Proof.
  intros t v Ht H. unfold view_cols in H. apply bind_Ok in H as (_ & _ & H).
  destruct (mapM_gather _ _ _ (inv_is_perm t Ht) (inv_cols _ _ _ Ht)) as (v' & E1 & P1).
  rewrite E1 in H. injection H as <-. exact P1.
Qed.

Lemma same_shape_inv : forall (a b : list (list F)), same_shape a b = Ok tt -> shape a = shape b.
Proof. intros a b H. unfold same_shape in H. destruct (list_eq_dec _ _ _); [assumption|discriminate]. Qed.

Lemma shape_lengths : forall n (a b : list (list F)), shape a = shape b ->
  Forall (fun col => length col = n) a -> Forall (fun col => length col = n) b /\ length b = length a.
Proof.
  intros n a. induction a as [|x a IH]; intros [|y b] H Ha; try discriminate.
  - split; [constructor|reflexivity].
  - cbn in H. injection H as H1 H2. inversion Ha; subst. destruct (IH b H2) as [Hb Hl]; [assumption|].
    split; [constructor; [lia|exact Hb]|simpl; lia].
Qed.

(** Writing the columns [v'] back through the iterators. *)
Lemma write_back_unordered : forall inv (old new : list (list F)), length old = length new ->
  mapM (fun '(o, x) => write_back false inv o x) (combine old new) = Ok new.
Proof.
  intros inv old. induction old as [|o old IH]; intros [|x new] H; try discriminate; [reflexivity|].
  cbn [combine mapM]. change (write_back false inv o x) with (Ok x). cbn [bind]. simpl in H. rewrite IH by lia. reflexivity.
Qed.

Lemma write_back_ordered : forall inv n (old new : list (list F)), is_perm inv n -> length old = length new ->
  Forall (fun col => length col = n) old -> Forall (fun col => length col = n) new ->
  exists mid, mapM (fun '(o, x) => write_back true inv o x) (combine old new) = Ok mid /\
    Forall2 (permuted inv) mid new /\ Forall (fun col => length col = n) mid.
Proof.
  intros inv n old. induction old as [|o old IH]; intros [|x new] Hp Hl Ho Hn; try discriminate.
  - exists []. split; [reflexivity|]. split; constructor.
  - inversion Ho; inversion Hn; subst. simpl in Hl.
    destruct (IH new) as (mid & Em & P1 & L1); auto.
    destruct (scatter_gather inv (length o) x o) as (col & Ec & Pc & Lc); auto.
    exists (col :: mid). cbn [combine mapM]. change (write_back true inv o x) with (scatter inv x o).
    rewrite Ec. cbn [bind]. rewrite Em.
    split; [reflexivity|]. split; constructor; auto.
Qed.

(** The data in the original order: composition of the permutations. *)
Lemma reorder_view : forall perm inv last perm' inv' n (mid new final : list F),
  is_perm perm n -> inverse perm inv -> is_perm perm' n -> inverse perm' inv' ->
  is_perm last n -> length mid = n ->
  permuted inv mid new -> permuted last mid final -> permuted last perm perm' ->
  permuted inv' final new.
Proof.
  intros perm inv last perm' inv' n mid new final Hp Hi Hp' Hi' Hl Hm [L1 H1] [L2 H2] [L3 H3].
  pose proof (inverse_is_perm _ _ _ Hp Hi) as Hpi. pose proof (inverse_is_perm _ _ _ Hp' Hi') as Hpi'.
  split; [rewrite L1, (is_perm_length _ _ Hpi), (is_perm_length _ _ Hpi'); reflexivity|].
  intros i k Hk.
  assert (Hkn : k < n) by (apply (is_perm_In _ _ Hpi'); eapply nth_error_In; eauto).
  pose proof (proj2 (inverse_sym _ _ _ Hp' Hi') i k Hk) as Hk'.
  destruct (is_perm_at _ _ k Hl Hkn) as (q & Hq & Hqn).
  destruct (H3 k q Hq) as [E3 _]. rewrite Hk' in E3. symmetry in E3.
  pose proof (proj2 Hi q i E3) as Hiq. destruct (H1 i q Hiq) as [E1 _]. destruct (H2 k q Hq) as [E2 _].
  split; [congruence|]. rewrite L2, (is_perm_length _ _ Hl). exact Hkn.
Qed.

(** Unordered modification: row [perm i] of the original order is row [i]. *)
Lemma reorder_view2 : forall perm inv last perm' inv' n (mid final w : list F),
  is_perm perm n -> inverse perm inv -> is_perm perm' n -> inverse perm' inv' ->
  is_perm last n -> length mid = n -> length w = n ->
  permuted perm w mid -> permuted last mid final -> permuted last perm perm' ->
  permuted inv' final w.
Proof.
  intros perm inv last perm' inv' n mid final w Hp Hi Hp' Hi' Hl Hm Hw [L1 H1] H2 H3.
  apply (reorder_view perm inv last perm' inv' n mid w final); auto.
  pose proof (inverse_is_perm _ _ _ Hp Hi) as Hpi.
  split; [rewrite (is_perm_length _ _ Hpi); exact Hw|]. intros i k Hk.
  pose proof (proj2 (inverse_sym _ _ _ Hp Hi) i k Hk) as Hk'. destruct (H1 k i Hk') as [E1 _].
  split; [congruence|]. rewrite Hm. apply (is_perm_In _ _ Hpi). eapply nth_error_In; eauto.
Qed.

Lemma Forall2_trans_perm : forall {A} (R1 R2 R3 : A -> A -> Prop) (Q : A -> Prop) la lb lc,
  (forall a b x, Q a -> R1 a b -> R2 a x -> R3 x b) ->
  Forall Q la -> Forall2 R1 la lb -> Forall2 R2 la lc -> Forall2 R3 lc lb.
Proof.
  intros A R1 R2 R3 Q la lb lc H HQ H1. revert lc. induction H1; intros lc H2; inversion H2; subst; constructor.
  - inversion HQ; subst. eapply H; eauto.
  - inversion HQ; subst. auto.
Qed.

Lemma update_particles_spec : forall s ord f t t', sched_ok s -> tree_inv t ->
  update_particles O E s ord f t = Ok (t', None) ->
  exists v v' mid, view_cols ord t = Ok v /\ f v = Ok v' /\
    tree_inv t' /\ view_fresh E t' /\ length (t_codes t') = length (t_codes t) /\
    t_ded t' = t_ded t /\ t_mln t' = t_mln t /\ t_ncrit t' = t_ncrit t /\ (t_ded t = false -> t_box t' = t_box t) /\
    permuted (t_last t') (t_perm t) (t_perm t') /\ Forall2 (permuted (t_last t')) mid (t_parts t') /\
    Forall (fun col => length col = length (t_codes t)) v' /\ length v' = dim c + 1 /\
    match ord with
    | true => original_order t v /\ Forall2 (permuted (t_inv t)) mid v' /\ original_order t' v'
    | false => v = t_parts t /\ mid = v' /\
               forall w, Forall2 (permuted (t_perm t)) w v' -> Forall (fun col => length col = length (t_codes t)) w ->
                 original_order t' w
    end.
Proof.
  intros s ord f t t' Hs Ht H. unfold update_particles in H. apply guarded_ok in H.
  apply bind_Ok in H as (v & Hv & H). apply bind_Ok in H as (v' & Hv' & H).
  apply bind_Ok in H as ([] & Hsh & H). apply bind_Ok in H as (mid & Hmid & H).
  exists v, v', mid. split; [exact Hv|]. split; [exact Hv'|].
  apply same_shape_inv in Hsh. set (n := length (t_codes t)) in *.
  pose proof (inv_cols _ _ _ Ht) as Hcols. fold n in Hcols.
  assert (Hvl : Forall (fun col => length col = n) v /\ length v = length (t_parts t)).
  { destruct ord.
    - pose proof (view_cols_ordered t v Ht Hv) as Ho. unfold original_order in Ho. split.
      + pose proof (inv_is_perm t Ht) as Hip. fold n in Hip. clear - Ho Hip.
        induction Ho as [|a b la lb Hab Ho IH]; constructor; [eapply permuted_length; eauto|assumption].
      + symmetry. eapply Forall2_length_eq; eauto.
    - simpl in Hv. injection Hv as <-. auto. }
  destruct Hvl as [Hvl1 Hvl2].
  destruct (shape_lengths n v v' Hsh Hvl1) as [Hvl3 Hvl4].
  assert (Hmidl : length mid = dim c + 1 /\ Forall (fun col => length col = n) mid /\
    if ord then Forall2 (permuted (t_inv t)) mid v' else mid = v').
  { destruct ord.
    - destruct (write_back_ordered (t_inv t) n (t_parts t) v') as (mid' & E1 & P1 & L1); auto; try lia.
      + apply inv_is_perm; assumption.
      + rewrite E1 in Hmid. injection Hmid as <-. split; [|auto].
        rewrite (Forall2_length_eq _ _ _ P1). rewrite Hvl4, Hvl2. apply Ht.
    - rewrite write_back_unordered in Hmid by lia. injection Hmid as <-.
      split; [|auto]. rewrite Hvl4, Hvl2. apply Ht. }
  destruct Hmidl as (Hm1 & Hm2 & Hm3).
  assert (Hnp : nparts (set_parts t mid) = n).
  { unfold nparts, set_parts; simpl. destruct mid as [|col l]; [simpl in Hm1; lia|]. simpl. now inversion Hm2. }
  assert (Hil : length (t_inv t) = n) by (apply is_perm_length, inv_is_perm; assumption).
  destruct (sync_spec s (set_parts t mid) t' n Hs) as (S1 & S2 & S3 & S4 & S5 & S6 & S7 & S8 & S9); simpl; auto;
    try apply Ht.
  simpl in *. split; [exact S1|]. split; [exact S2|]. split; [exact S3|]. split; [exact S6|].
  split; [exact S7|]. split; [exact S8|]. split; [exact S9|]. split; [exact S5|]. split; [exact S4|].
  split; [exact Hvl3|]. split; [rewrite Hvl4, Hvl2; apply Ht|].
  pose proof (inv_perm _ _ _ Ht) as Hp. pose proof (inv_inv _ _ _ Ht) as Hi. fold n in Hp.
  pose proof (inv_perm _ _ _ S1) as Hp'. pose proof (inv_inv _ _ _ S1) as Hi'.
  pose proof (inv_last _ _ _ S1) as Hl'. rewrite S3 in Hp', Hl'.
  destruct ord.
  - split; [now apply view_cols_ordered|]. split; [exact Hm3|]. unfold original_order.
    refine (Forall2_trans_perm (permuted (t_inv t)) (permuted (t_last t')) _ (fun col => length col = n) mid v' _ _ Hm2 Hm3 S4).
    intros a b x Ha H1 H2.
    apply (reorder_view (t_perm t) (t_inv t) (t_last t') (t_perm t') (t_inv t') n a b x); auto.
  - subst mid. simpl in Hv. injection Hv as <-. split; [reflexivity|]. split; [reflexivity|].
    intros w Hw Hlw. unfold original_order. clear - Hw Hlw S4 S5 Hp Hi Hp' Hi' Hl' Hm2.
    revert S4 Hm2. generalize (t_parts t'). induction Hw as [|a b la lb Hab Hw IH]; intros fin HF Hm2;
      inversion HF; subst; constructor.
    + inversion Hm2; inversion Hlw; subst. apply (reorder_view2 (t_perm t) (t_inv t) (t_last t') (t_perm t') (t_inv t') n b y a); auto.
    + inversion Hm2; inversion Hlw; subst. apply IH; auto.
Qed.

Lemma update_particles_fails : forall s ord f t t' e, tree_inv t ->
  update_particles O E s ord f t = Ok (t', Some e) -> t' = default_tree O E.
Proof.
  intros s ord f t t' e Ht H. unfold update_particles in H. apply guarded_throw in H as [_ ->].
  apply clear_default. apply Ht.
Qed.

(** ** Updates of the masses *)
Lemma wr_Ok : forall {A} (l : list A) i a l', wr l i a = Ok l' -> i < length l /\ l' = set_nth l i a.
Proof.
  intros A l i a l' H. unfold wr in H. destruct (Nat.ltb_spec i (length l)); [|discriminate].
  injection H as <-. auto.
Qed.

Lemma firstn_set_nth : forall {A} (l : list A) n a, firstn n (set_nth l n a) = firstn n l.
Proof.
  intros A l n a. apply list_ext. intros i. rewrite !nth_error_firstn. destruct (Nat.ltb_spec i n); [|reflexivity].
  apply nth_error_set_nth_other. lia.
Qed.

Lemma Forall_set_nth : forall {A} (P : A -> Prop) (l : list A) n a, Forall P l -> P a -> Forall P (set_nth l n a).
Proof.
  intros A P l. induction l as [|x l IH]; intros [|n] a Hl Ha; simpl; auto; inversion Hl; subst; constructor; auto.
Qed.

Lemma Forall2_set_nth : forall {A B} (R : A -> B -> Prop) la lb n a b, Forall2 R la lb -> R a b ->
  Forall2 R (set_nth la n a) (set_nth lb n b).
Proof.
  intros A B R la lb n a b H Hab. revert n. induction H; intros [|n]; simpl; constructor; auto.
Qed.

Lemma update_masses_spec : forall ord f t t', tree_inv t ->
  update_masses O E ord f t = Ok (t', None) ->
  exists v mv mv', view_cols ord t = Ok v /\ nth_error v (dim c) = Some mv /\ f mv = Ok mv' /\
    tree_inv t' /\ t_view t' = t_view t /\
    t_box t' = t_box t /\ t_ded t' = t_ded t /\ t_mln t' = t_mln t /\ t_ncrit t' = t_ncrit t /\
    t_codes t' = t_codes t /\ t_perm t' = t_perm t /\ t_last t' = t_last t /\ t_inv t' = t_inv t /\
    t_crit t' = t_crit t /\ firstn (dim c) (t_parts t') = firstn (dim c) (t_parts t) /\
    match ord with
    | true => original_order t v /\ original_order t' (set_nth v (dim c) mv')
    | false => v = t_parts t /\ t_parts t' = set_nth v (dim c) mv'
    end.
Proof.
  intros ord f t t' Ht H. unfold update_masses in H. apply guarded_ok in H.
  apply bind_Ok in H as (v & Hv & H). apply bind_Ok in H as (mv & Hmv & H). apply bind_Ok in H as (mv' & Hmv' & H).
  apply bind_Ok in H as ([] & Hsh & H). apply bind_Ok in H as (old & Hold & H).
  apply bind_Ok in H as (ms & Hms & H). apply bind_Ok in H as (parts & Hparts & H).
  apply bind_Ok in H as (nodes & Hnodes & H). injection H as <-.
  apply rd_Ok in Hmv. apply rd_Ok in Hold. fold c in Hmv, Hold, Hparts. apply wr_Ok in Hparts as [Hdl ->].
  apply same_shape_inv in Hsh. cbn in Hsh. injection Hsh as Hlen.
  pose proof (inv_cols _ _ _ Ht) as Hcols. set (n := length (t_codes t)) in *.
  pose proof (inv_is_perm t Ht) as Hip. fold n in Hip.
  assert (Hlold : length old = n) by (rewrite Forall_forall in Hcols; apply Hcols; eapply nth_error_In; eauto).
  assert (Hlmv : length mv = n /\ (ord = true -> permuted (t_inv t) old mv)).
  { destruct ord.
    - pose proof (view_cols_ordered t v Ht Hv) as Ho. unfold original_order in Ho.
      destruct (Forall2_nth _ _ _ _ _ Ho Hold) as (b & Hb & Pb). rewrite Hmv in Hb. injection Hb as <-.
      split; [eapply permuted_length; eauto|auto].
    - simpl in Hv. injection Hv as <-. split; [congruence|discriminate]. }
  destruct Hlmv as [Hlmv Hpm].
  assert (Hms' : length ms = n /\ if ord then permuted (t_inv t) ms mv' else ms = mv').
  { destruct ord; simpl in Hms.
    - destruct (scatter_gather (t_inv t) n mv' old Hip) as (col & E1 & P1 & L1); try lia.
      rewrite E1 in Hms. injection Hms as <-. auto.
    - injection Hms as <-. split; [lia|reflexivity]. }
  destruct Hms' as [Hlms Hpms].
  exists v, mv, mv'. split; [exact Hv|]. split; [exact Hmv|]. split; [exact Hmv'|]. split.
  - constructor; simpl; fold c; try apply Ht.
    + rewrite set_nth_length. apply Ht.
    + apply Forall_set_nth; assumption.
    + rewrite firstn_set_nth. apply Ht.
    + intros split st sc Hst Hsc.
      pose proof (inv_nodes _ _ _ Ht split st sc Hst Hsc) as HB.
      apply (recompute c (t_codes t) (t_mln t) (t_ncrit t) (props F) (props F) _ _ (inv_valid_codes t Ht)
        split st sc (t_nodes t) (t_crit t) Hst Hsc HB split st sc nodes Hst Hsc). exact Hnodes.
  - simpl. do 10 (split; [reflexivity|]).
    split; [apply firstn_set_nth|]. destruct ord.
    + split; [now apply view_cols_ordered|]. unfold original_order; simpl.
      apply Forall2_set_nth; [now apply view_cols_ordered|exact Hpms].
    + simpl in Hv. injection Hv as <-. subst ms. auto.
Qed.

(** Conversely, the update succeeds if the tree can be built with the new masses [ms]. *)
Lemma update_masses_succeeds : forall ord f t v mv mv' ms nodes crit split st sc, tree_inv t ->
  view_cols ord t = Ok v -> nth_error v (dim c) = Some mv -> f mv = Ok mv' -> length mv' = length mv ->
  length ms = length (t_codes t) -> (if ord then permuted (t_inv t) ms mv' else ms = mv') ->
  reorders st -> reorders sc ->
  build_tree c (t_codes t) (t_mln t) (t_ncrit t) (cnp O E (set_nth (t_parts t) (dim c) ms) (t_box t)) split st sc
    = Ok (nodes, crit) ->
  exists t', update_masses O E ord f t = Ok (t', None) /\ t_nodes t' = nodes /\ t_crit t' = crit /\
    t_parts t' = set_nth (t_parts t) (dim c) ms.
Proof.
  intros ord f t v mv mv' ms nodes crit split st sc Ht Hv Hmv Hf Hlen Hlms Hms Hst Hsc HB.
  unfold update_masses. fold c. rewrite Hv. cbn [bind]. rewrite (proj2 (rd_Ok _ _ _) Hmv). cbn [bind]. rewrite Hf. cbn [bind].
  assert (E1 : same_shape [mv] [mv'] = Ok tt).
  { unfold same_shape. destruct (list_eq_dec _ _ _) as [|Hn]; [reflexivity|]. exfalso. apply Hn. cbn. congruence. }
  rewrite E1. cbn [bind].
  pose proof (inv_ncols _ _ _ Ht) as Hnc. fold c in Hnc.
  destruct (rd_lt (t_parts t) (dim c)) as [old Hold]; [lia|]. rewrite Hold. cbn [bind].
  set (n := length (t_codes t)) in *.
  pose proof (inv_cols _ _ _ Ht) as Hcols. fold n in Hcols.
  pose proof (inv_is_perm t Ht) as Hip. fold n in Hip. apply rd_Ok in Hold.
  assert (Hlold : length old = n) by (rewrite Forall_forall in Hcols; apply Hcols; eapply nth_error_In; eauto).
  assert (Hlmv : length mv = n).
  { destruct ord.
    - pose proof (view_cols_ordered t v Ht Hv) as Ho. unfold original_order in Ho.
      destruct (Forall2_nth _ _ _ _ _ Ho Hold) as (b & Hb & Pb). rewrite Hmv in Hb. injection Hb as <-.
      eapply permuted_length; eauto.
    - simpl in Hv. injection Hv as <-. congruence. }
  assert (Hwb : write_back ord (t_inv t) old mv' = Ok ms).
  { destruct ord; simpl.
    - destruct (scatter_gather (t_inv t) n mv' old Hip) as (col & E3 & P3 & L3); try lia.
      rewrite E3. f_equal. apply list_ext. intros k.
      destruct (Nat.lt_ge_cases k n) as [Hk|Hk].
      + apply (is_perm_In _ _ Hip) in Hk. apply In_nth_error in Hk as [i Hi].
        destruct (proj2 Hms i k Hi) as [E4 _]. destruct (proj2 P3 i k Hi) as [E5 _]. congruence.
      + rewrite (proj2 (nth_error_None col k)) by lia. symmetry. apply nth_error_None. lia.
    - now subst. }
  rewrite Hwb. cbn [bind]. unfold wr. replace (dim c <? length (t_parts t)) with true by (symmetry; apply Nat.ltb_lt; lia).
  cbn [bind].
  pose proof (inv_nodes _ _ _ Ht split st sc Hst Hsc) as HB1.
  assert (Hcrit : crit = t_crit t).
  { pose proof (inv_valid_codes t Ht) as Hvc.
    destruct (built c (t_codes t) (t_mln t) (t_ncrit t) _ _ Hvc _ _ _ _ _ Hst Hsc HB) as [(A1 & _ & A3)|(A1 & _ & A3)];
    destruct (built c (t_codes t) (t_mln t) (t_ncrit t) _ _ Hvc _ _ _ _ _ Hst Hsc HB1) as [(B1 & _ & B3)|(B1 & _ & B3)];
      congruence. }
  subst crit.
  apply (recompute c (t_codes t) (t_mln t) (t_ncrit t) (props F) (props F) _ _ (inv_valid_codes t Ht)
        split st sc (t_nodes t) (t_crit t) Hst Hsc HB1 split st sc nodes Hst Hsc) in HB.
  unfold set_props in HB. rewrite HB. cbn [bind guarded].
  eexists. split; [reflexivity|]. simpl. auto.
Qed.

Lemma update_masses_fails : forall ord f t t' e, tree_inv t ->
  update_masses O E ord f t = Ok (t', Some e) -> t' = default_tree O E.
Proof.
  intros ord f t t' e Ht H. unfold update_masses in H. apply guarded_throw in H as [_ ->].
  apply clear_default. apply Ht.
Qed.

(** ** Copies and moves *)
Lemma copy_ctor_same : forall t : tree, same_data (copy_ctor E t) t /\ view_fresh E (copy_ctor E t).
Proof. intros t. split; [repeat split|reflexivity]. Qed.

Lemma assign_all : forall this other : tree, let t := rocm_init E (fold_left (fun t f => f t) (assign_members other) (rocm_reset this)) in
  same_data t other /\ view_fresh E t.
Proof. intros this other. split; [repeat split|reflexivity]. Qed.

Lemma same_data_inv : forall t u : tree, same_data t u -> tree_inv u -> tree_inv t.
Proof.
  intros t u (E1 & E2 & E3 & E4 & E5 & E6 & E7 & E8 & E9 & E10 & E11) H.
  destruct t, u; simpl in *; subst. destruct H; constructor; simpl in *; assumption.
Qed.

Lemma assign_ncols : forall k (this other : tree), length (t_parts this) = dim c + 1 -> length (t_parts other) = dim c + 1 ->
  length (t_parts (fold_left (fun t (f : tree -> tree) => f t) (firstn k (assign_members other)) (rocm_reset this))) = dim c + 1.
Proof.
  intros k this other H1 H2. do 11 (destruct k as [|k]; [first [exact H1|exact H2]|]).
  destruct k; exact H2.
Qed.

Lemma copy_assign_spec : forall fail this other t e, tree_inv this -> tree_inv other ->
  copy_assign O E fail this other = (t, e) ->
  match fail with
  | None => e = None /\ same_data t other /\ view_fresh E t
  | Some _ => e = Some BadAlloc /\ t = default_tree O E
  end.
Proof.
  intros fail this other t e H1 H2 H. unfold copy_assign in H. destruct fail as [k|]; injection H as <- <-.
  - split; [reflexivity|]. apply clear_default. apply assign_ncols; [apply H1|apply H2].
  - split; [reflexivity|]. exact (assign_all this other).
Qed.

Lemma move_assign_spec : forall this other, tree_inv other ->
  same_data (fst (move_assign O E this other)) other /\ view_fresh E (fst (move_assign O E this other)) /\
  snd (move_assign O E this other) = default_tree O E.
Proof.
  intros this other H. unfold move_assign. cbn [fst snd]. destruct (assign_all this other) as [A B].
  split; [exact A|]. split; [exact B|]. apply clear_default, H.
Qed.

Lemma move_ctor_spec : forall other, tree_inv other ->
  same_data (fst (move_ctor O E other)) other /\ view_fresh E (fst (move_ctor O E other)) /\
  snd (move_ctor O E other) = default_tree O E.
Proof.
  intros other H. unfold move_ctor. cbn [fst snd]. destruct (copy_ctor_same other) as [A B].
  split; [exact A|]. split; [exact B|]. apply clear_default, H.
Qed.

(** ** Sequences of operations *)
Lemma generic_ctor_inv : forall s b inp mln nc t, sched_ok s ->
  match inp with RangesMoved cols | Ranges cols | Iterators cols _ => length cols = dim c + 1 end ->
  generic_ctor O E s b inp mln nc = Ok t -> tree_inv t /\ view_fresh E t.
Proof.
  intros s b inp mln nc t Hs Hl H. unfold generic_ctor in H.
  destruct (match b with Some x => (x, false) | None => (fofZ O 0%Z, true) end) as [box ded].
  assert (Hc : forall d m k, length match d with Moved cols => cols | Iters cols _ => cols end = dim c + 1 ->
     construct O E s box ded d m k = Ok t -> tree_inv t /\ view_fresh E t).
  { intros d m k Hd HH. destruct (construct_spec s box ded d m k t Hs Hd HH) as (cols & _ & A & B & _). auto. }
  destruct inp as [cols|cols|cols n]; cbv zeta in H.
  - apply bind_Ok in H as (k & _ & H). eapply Hc; [|exact H]. exact Hl.
  - apply bind_Ok in H as (k & _ & H). eapply Hc; [|exact H]. exact Hl.
  - eapply Hc; [|exact H]. exact Hl.
Qed.

Lemma Forall_app_one : forall {A} (P : A -> Prop) l x, Forall P l -> P x -> Forall P (l ++ [x]).
Proof. intros. apply Forall_app. split; auto. Qed.

Lemma Forall_rd : forall {A} (P : A -> Prop) l i x, Forall P l -> rd l i = Ok x -> P x.
Proof. intros A P l i x H Hr. apply rd_Ok in Hr. rewrite Forall_forall in H. apply H. eapply nth_error_In; eauto. Qed.

Lemma Forall_wr : forall {A} (P : A -> Prop) l i x l', Forall P l -> P x -> wr l i x = Ok l' -> Forall P l'.
Proof. intros A P l i x l' H Hx Hw. apply wr_Ok in Hw as [_ ->]. now apply Forall_set_nth. Qed.

Lemma clear_inv : forall t, tree_inv t -> tree_inv (clear O E t).
Proof. intros t H. rewrite clear_default by apply H. apply default_inv. Qed.

Lemma step_inv : forall w o w' e, Forall tree_inv w -> op_ok E o -> step O E w o = Ok (w', e) -> Forall tree_inv w'.
Proof.
  intros w o w' e Hw Ho H. destruct o as [|s b inp mln nc|i|i|i j fl|i j|i|i s ord f|i ord f]; cbn [step] in H.
  - injection H as <- <-. apply Forall_app_one; [exact Hw|apply default_inv].
  - destruct Ho as [Hs Hl]. destruct (generic_ctor O E s b inp mln nc) as [t|x|] eqn:Eg; [| |discriminate].
    + injection H as <- <-. apply Forall_app_one; [exact Hw|]. eapply generic_ctor_inv; eauto.
    + injection H as <- <-. exact Hw.
  - apply bind_Ok in H as (t & Ht & H). injection H as <- <-. apply Forall_app_one; [exact Hw|].
    eapply same_data_inv; [apply copy_ctor_same|]. eapply (Forall_rd _ _ _ _ Hw Ht).
  - apply bind_Ok in H as (t & Ht & H). destruct (move_ctor O E t) as [new old] eqn:Em.
    apply bind_Ok in H as (w1 & Hw1 & H). injection H as <- <-.
    pose proof (Forall_rd _ _ _ _ Hw Ht) as It. destruct (move_ctor_spec t It) as (A & _ & B).
    rewrite Em in A, B. cbn [fst snd] in A, B.
    apply Forall_app_one; [|eapply same_data_inv; eauto]. eapply Forall_wr; [exact Hw| |exact Hw1].
    rewrite B. apply default_inv.
  - apply bind_Ok in H as (this & Ht & H). apply bind_Ok in H as (other & Hot & H).
    destruct (i =? j); [injection H as <- <-; exact Hw|].
    destruct (copy_assign O E fl this other) as [t x] eqn:Ea. apply bind_Ok in H as (w1 & Hw1 & H). injection H as <- <-.
    pose proof (Forall_rd _ _ _ _ Hw Ht) as I1. pose proof (Forall_rd _ _ _ _ Hw Hot) as I2.
    pose proof (copy_assign_spec _ _ _ _ _ I1 I2 Ea) as A.
    eapply Forall_wr; [exact Hw| |exact Hw1]. destruct fl.
    + destruct A as [_ ->]. apply default_inv.
    + eapply same_data_inv; [apply A|exact I2].
  - apply bind_Ok in H as (this & Ht & H). apply bind_Ok in H as (other & Hot & H).
    destruct (i =? j); [injection H as <- <-; exact Hw|].
    destruct (move_assign O E this other) as [t o] eqn:Ea. apply bind_Ok in H as (w1 & Hw1 & H).
    apply bind_Ok in H as (w2 & Hw2 & H). injection H as <- <-.
    pose proof (Forall_rd _ _ _ _ Hw Hot) as I2. destruct (move_assign_spec this other I2) as (A & _ & B).
    rewrite Ea in A, B. cbn [fst snd] in A, B.
    subst o. eapply Forall_wr; [|apply default_inv|exact Hw2].
    eapply Forall_wr; [exact Hw|eapply same_data_inv; eauto|exact Hw1].
  - apply bind_Ok in H as (t & Ht & H). apply bind_Ok in H as (w1 & Hw1 & H). injection H as <- <-.
    eapply Forall_wr; [exact Hw| |exact Hw1]. apply clear_inv. eapply (Forall_rd _ _ _ _ Hw Ht).
  - apply bind_Ok in H as (t & Ht & H). apply bind_Ok in H as ([t' x] & Hu & H).
    apply bind_Ok in H as (w1 & Hw1 & H). cbn [fst snd] in *. injection H as <- <-.
    pose proof (Forall_rd _ _ _ _ Hw Ht) as I1.
    eapply Forall_wr; [exact Hw| |exact Hw1]. destruct x as [x|].
    + rewrite (update_particles_fails _ _ _ _ _ _ I1 Hu). apply default_inv.
    + destruct (update_particles_spec _ _ _ _ _ Ho I1 Hu) as (v & v' & mid & _ & _ & A & _). exact A.
  - apply bind_Ok in H as (t & Ht & H). apply bind_Ok in H as ([t' x] & Hu & H).
    apply bind_Ok in H as (w1 & Hw1 & H). cbn [fst snd] in *. injection H as <- <-.
    pose proof (Forall_rd _ _ _ _ Hw Ht) as I1.
    eapply Forall_wr; [exact Hw| |exact Hw1]. destruct x as [x|].
    + rewrite (update_masses_fails _ _ _ _ _ I1 Hu). apply default_inv.
    + destruct (update_masses_spec _ _ _ _ I1 Hu) as (v & mv & mv' & _ & _ & _ & A & _). exact A.
Qed.

Lemma run_inv : forall ops w w', Forall tree_inv w -> Forall (op_ok E) ops -> run O E ops w = Ok w' -> Forall tree_inv w'.
Proof.
  unfold run. induction ops as [|o ops IH]; intros w w' Hw Ho H; cbn [foldM] in H.
  - injection H as <-. exact Hw.
  - apply bind_Ok in H as (w1 & H1 & H). apply bind_Ok in H1 as ([w2 e] & H1 & H2). injection H2 as <-.
    inversion Ho; subst. eapply IH; [|eassumption|exact H]. eapply step_inv; eauto.
Qed.

Lemma reachable_inv : forall t, reachable O E t -> tree_inv t.
Proof.
  intros t (ops & w & Ho & Hr & Hin). pose proof (run_inv ops [] w (Forall_nil _) Ho Hr) as H.
  rewrite Forall_forall in H. now apply H.
Qed.

(** Operations do not change the other objects. *)
Lemma wr_other : forall {A} (l : list A) i a l' k, wr l i a = Ok l' -> k <> i -> nth_error l' k = nth_error l k.
Proof. intros A l i a l' k H Hk. apply wr_Ok in H as [_ ->]. apply nth_error_set_nth_other. congruence. Qed.

Lemma step_frame : forall w o w' e k t, step O E w o = Ok (w', e) -> nth_error w k = Some t ->
  ~ touches o k -> nth_error w' k = Some t.
Proof.
  intros w o w' e k t H Hk Ht. pose proof (nth_error_lt _ _ _ Hk) as Hlt.
  destruct o as [|s b inp mln nc|i|i|i j fl|i j|i|i s ord f|i ord f]; cbn [step touches] in *.
  - injection H as <- <-. rewrite nth_error_app1 by assumption. exact Hk.
  - destruct (generic_ctor O E s b inp mln nc) as [u|x|]; [| |discriminate]; injection H as <- <-; [|exact Hk].
    rewrite nth_error_app1 by assumption. exact Hk.
  - apply bind_Ok in H as (u & _ & H). injection H as <- <-. rewrite nth_error_app1 by assumption. exact Hk.
  - apply bind_Ok in H as (u & _ & H). destruct (move_ctor O E u). apply bind_Ok in H as (w1 & Hw1 & H).
    injection H as <- <-. rewrite <- (wr_other _ _ _ _ _ Hw1 Ht) in Hk.
    rewrite nth_error_app1; [exact Hk|eapply nth_error_lt; eauto].
  - apply bind_Ok in H as (u & _ & H). apply bind_Ok in H as (v & _ & H).
    destruct (Nat.eqb_spec i j); [injection H as <- <-; exact Hk|]. destruct (copy_assign O E fl u v).
    apply bind_Ok in H as (w1 & Hw1 & H). injection H as <- <-. rewrite (wr_other _ _ _ _ k Hw1); [exact Hk|].
    intros ->. apply Ht. auto.
  - apply bind_Ok in H as (u & _ & H). apply bind_Ok in H as (v & _ & H).
    destruct (Nat.eqb_spec i j); [injection H as <- <-; exact Hk|]. destruct (move_assign O E u v).
    apply bind_Ok in H as (w1 & Hw1 & H). apply bind_Ok in H as (w2 & Hw2 & H). injection H as <- <-.
    rewrite (wr_other _ _ _ _ k Hw2) by (intros ->; apply Ht; auto).
    rewrite (wr_other _ _ _ _ k Hw1) by (intros ->; apply Ht; auto). exact Hk.
  - apply bind_Ok in H as (u & _ & H). apply bind_Ok in H as (w1 & Hw1 & H). injection H as <- <-.
    rewrite (wr_other _ _ _ _ k Hw1) by exact Ht. exact Hk.
  - apply bind_Ok in H as (u & _ & H). apply bind_Ok in H as ([t' x] & _ & H). apply bind_Ok in H as (w1 & Hw1 & H).
    injection H as <- <-. rewrite (wr_other _ _ _ _ k Hw1) by exact Ht. exact Hk.
  - apply bind_Ok in H as (u & _ & H). apply bind_Ok in H as ([t' x] & _ & H). apply bind_Ok in H as (w1 & Hw1 & H).
    injection H as <- <-. rewrite (wr_other _ _ _ _ k Hw1) by exact Ht. exact Hk.
Qed.

(** ** Histories of updates *)
Lemma original_order_view : forall t a, tree_inv t -> original_order t a ->
  (N.of_nat (length (t_codes t)) <= diff_max)%N -> view_cols true t = Ok a.
Proof.
  intros t a Ht Ho Hn. unfold view_cols. rewrite (nparts_codes t Ht). unfold it_diff_check.
  replace (diff_max <? N.of_nat (length (t_codes t)))%N with false by (symmetry; apply N.ltb_ge; exact Hn).
  cbn [bind]. destruct (mapM_gather _ _ _ (inv_is_perm t Ht) (inv_cols _ _ _ Ht)) as (v & E1 & P1).
  rewrite E1. f_equal. unfold original_order in Ho. clear - Ho P1. revert v P1.
  induction Ho as [|x y lx ly Hxy Ho IH]; intros v P1; inversion P1; subst; [reflexivity|].
  f_equal; [eapply permuted_fun; eauto|auto].
Qed.

Lemma view_diff : forall t a, tree_inv t -> view_cols true t = Ok a -> (N.of_nat (length (t_codes t)) <= diff_max)%N.
Proof.
  intros t a Ht H. unfold view_cols in H. rewrite (nparts_codes t Ht) in H. apply bind_Ok in H as ([] & H & _).
  unfold it_diff_check in H. destruct (N.ltb_spec diff_max (N.of_nat (length (t_codes t)))); [discriminate|assumption].
Qed.

(** The view and the data in tree order are permutations of each other. *)
Lemma original_permuted : forall t a, tree_inv t -> original_order t a -> Forall2 (permuted (t_perm t)) a (t_parts t).
Proof.
  intros t a Ht H. unfold original_order in H. pose proof (inv_cols _ _ _ Ht) as Hc.
  pose proof (inv_perm _ _ _ Ht) as Hp. pose proof (inv_inv _ _ _ Ht) as Hi.
  pose proof (inv_is_perm t Ht) as Hip. clear - H Hc Hp Hi Hip.
  induction H as [|x y lx ly Hxy H IH]; constructor; inversion Hc; subst; auto.
  destruct Hxy as [L Hxy]. split; [rewrite (is_perm_length _ _ Hp); assumption|].
  intros i k Hk. pose proof (proj2 Hi i k Hk) as Hk'. destruct (Hxy k i Hk') as [E1 E2].
  split; [congruence|]. rewrite L, (is_perm_length _ _ Hip). apply (is_perm_In _ _ Hp). eapply nth_error_In; eauto.
Qed.

(** A column seen through a permutation exists. *)
Lemma unpermute : forall (p q : list nat) n (v : list F), is_perm p n -> inverse p q -> length v = n ->
  exists w, permuted p w v /\ length w = n.
Proof.
  intros p q n v Hp Hq Hl. pose proof (inverse_is_perm _ _ _ Hp Hq) as Hqp.
  destruct (mapM_rd v q) as (w & _ & [L H]).
  { intros k Hk. rewrite Hl. now apply (is_perm_In _ _ Hqp). }
  assert (Lw : length w = n) by (rewrite L; now apply is_perm_length).
  exists w. split; [|exact Lw]. split; [rewrite (is_perm_length _ _ Hp); exact Hl|].
  intros i k Hk. pose proof (proj2 Hq i k Hk) as Hk'. destruct (H k i Hk') as [E1 E2].
  split; [now symmetry|]. rewrite Lw. apply (is_perm_In _ _ Hp). eapply nth_error_In; eauto.
Qed.

Lemma unpermute_all : forall (p q : list nat) n (vs : list (list F)), is_perm p n -> inverse p q ->
  Forall (fun v => length v = n) vs ->
  exists ws, Forall2 (permuted p) ws vs /\ Forall (fun w => length w = n) ws.
Proof.
  intros p q n vs Hp Hq. induction 1 as [|v vs Hv _ IH].
  - exists []. split; constructor.
  - destruct IH as (ws & A & B). destruct (unpermute p q n v Hp Hq Hv) as (w & Aw & Bw).
    exists (w :: ws). split; constructor; auto.
Qed.

Lemma Forall2_nth_error : forall {A B} (R : A -> B -> Prop) la lb i b, Forall2 R la lb -> nth_error lb i = Some b ->
  exists a, nth_error la i = Some a /\ R a b.
Proof. intros A B R la lb i b H Hb. destruct (Forall2_nth_r _ _ _ _ _ H Hb) as (a & Ha & HR). eauto. Qed.

Lemma upd_step : forall u t t' a, upd_ok u -> tree_inv t -> view_cols true t = Ok a ->
  apply_upd O E u t = Ok (t', None) ->
  exists a', ref_upd E (t_perm t) u a a' /\ tree_inv t' /\ view_cols true t' = Ok a'.
Proof.
  intros u t t' a Hu Ht Ha H. pose proof (view_cols_ordered t a Ht Ha) as Hoa. pose proof (view_diff t a Ht Ha) as Hd.
  pose proof (original_permuted t a Ht Hoa) as Hpa.
  pose proof (inv_perm _ _ _ Ht) as Hp. pose proof (inv_inv _ _ _ Ht) as Hi.
  destruct u as [s ord f|ord f]; cbn [apply_upd upd_ok] in *.
  - destruct (update_particles_spec _ _ _ _ _ Hu Ht H) as
      (v & v' & mid & Hv & Hf & It & _ & Hn & _ & _ & _ & _ & _ & _ & Hl1 & Hl2 & Hord).
    destruct ord.
    + destruct Hord as (_ & _ & Ho'). assert (v = a) by congruence. subst v. exists v'.
      split; [exact Hf|]. split; [exact It|]. apply original_order_view; auto. now rewrite Hn.
    + destruct Hord as (-> & _ & Ho'). destruct (unpermute_all _ _ _ v' Hp Hi Hl1) as (w & Hw1 & Hw2).
      exists w. split; [exists (t_parts t), v'; auto|]. split; [exact It|].
      apply original_order_view; auto. now rewrite Hn.
  - destruct (update_masses_spec _ _ _ _ Ht H) as
      (v & mv & mv' & Hv & Hmv & Hf & It & _ & _ & _ & _ & _ & Ecod & Epm & _ & Einv & _ & _ & Hord).
    destruct ord.
    + destruct Hord as (_ & Ho'). assert (v = a) by congruence. subst v. exists (set_nth a (dim c) mv').
      split; [exists mv, mv'; auto|]. split; [exact It|]. apply original_order_view; auto. now rewrite Ecod.
    + destruct Hord as (-> & Ep'). destruct (Forall2_nth_error _ _ _ _ _ Hpa Hmv) as (m & Hm & Pm).
      assert (Hlv : length mv' = length (t_codes t)).
      { pose proof (inv_cols _ _ _ It) as Hc'. rewrite Ecod, Ep' in Hc'. rewrite Forall_forall in Hc'. apply Hc'.
        apply nth_error_In with (n := dim c). apply nth_error_set_nth_same. eapply nth_error_lt; eauto. }
      destruct (unpermute _ _ _ mv' Hp Hi Hlv) as (w & Pw & Lw).
      exists (set_nth a (dim c) w). split; [exists m, mv, mv', w; auto|]. split; [exact It|].
      apply original_order_view; auto; [|now rewrite Ecod]. unfold original_order. rewrite Einv, Ep'.
      apply Forall2_set_nth; [exact Hoa|].
      pose proof (inv_is_perm t Ht) as Hip.
      split; [rewrite (is_perm_length _ _ Hip); exact Lw|]. intros i k Hk.
      pose proof (proj2 (inverse_sym _ _ _ Hp Hi) i k Hk) as Hk'. destruct (proj2 Pw k i Hk') as [E1 _].
      split; [congruence|]. rewrite Hlv. apply (is_perm_In _ _ Hip). eapply nth_error_In; eauto.
Qed.

Lemma history : forall us t t' perms, updates O E t us t' perms -> tree_inv t -> forall a, view_cols true t = Ok a ->
  exists a', ref_hist E perms us a a' /\ tree_inv t' /\ view_cols true t' = Ok a'.
Proof.
  intros us t t' perms H. induction H as [t|u t t1 us t' perms Hu H1 H IH]; intros Ht a Ha.
  - exists a. cbn. auto.
  - destruct (upd_step u t t1 a Hu Ht Ha H1) as (a1 & R1 & It1 & Ha1).
    destruct (IH It1 a1 Ha1) as (a' & R' & It' & Ha'). exists a'. split; [exists a1; auto|]. auto.
Qed.

End Trees.
