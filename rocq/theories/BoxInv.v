(** A deduced box size is that of the current particles after every history. *)
From Coq Require Import List Arith ZArith NArith Reals Bool Lra Lia Permutation.
From Verif Require Import Base Config Morton Build TreeSpec BuildProps FOps Disc NodeProps Tree TreeInv TreeProofs TreeSafe TreeProps
  BoxProofs BoxMore.
Import ListNotations.
Local Open Scope nat_scope.

Lemma Forall2_from_nth : forall {A B} (R : A -> B -> Prop) la lb, length la = length lb ->
  (forall i a b, nth_error la i = Some a -> nth_error lb i = Some b -> R a b) -> Forall2 R la lb.
Proof.
  intros A B R. induction la as [|a la IH]; intros [|b lb] Hl H; try discriminate; constructor.
  - apply (H 0); reflexivity.
  - apply IH; [now injection Hl|]. intros i. apply (H (S i)).
Qed.

Section BoxInv.

Context {F : Type}.
Variable O : fops F.
Variable E : env.
Hypothesis HE : env_ok E.
Notation c := (e_cfg E).
Notation tree := (@tree F).
Notation tree_inv := (tree_inv O E).

(** Induction over histories. *)
Lemma reachable_ind_inv : forall P : tree -> Prop,
  (forall t u, same_data t u -> P u -> P t) -> P (default_tree O E) ->
  (forall s b inp mln nc t, sched_ok s -> tree_inv t -> generic_ctor O E s b inp mln nc = Ok t -> P t) ->
  (forall s t t', sched_ok s -> tree_inv t' -> sync O E s t = Ok t' -> P t') ->
  (forall ord f t t', tree_inv t -> P t -> update_masses O E ord f t = Ok (t', None) -> P t') ->
  forall t, reachable O E t -> P t.
Proof.
  intros P Hsame Hdef Hctor Hsync Hmass.
  assert (Hstep : forall w o w' e, Forall tree_inv w -> Forall P w -> op_ok E o -> step O E w o = Ok (w', e) -> Forall P w').
  { intros w o w' e Hw Hv Ho H.
    destruct o as [|s b inp mln nc|i|i|i j fl|i j|i|i s ord f|i ord f]; cbn [step op_ok] in *.
    - injection H as <- _. now apply Forall_app_one.
    - destruct Ho. destruct (generic_ctor O E s b inp mln nc) as [t|x|] eqn:G; try discriminate.
      + injection H as <- _. apply Forall_app_one; auto. eapply Hctor; eauto. eapply generic_ctor_inv; eauto.
      + injection H as <- _. exact Hv.
    - apply bind_Ok in H as (t & Ht & H). injection H as <- _. apply Forall_app_one; auto.
      eapply Hsame; [apply copy_ctor_same|]. eapply (Forall_rd _ _ _ _ Hv Ht).
    - apply bind_Ok in H as (t & Ht & H). destruct (move_ctor O E t) as [new old] eqn:Em.
      apply bind_Ok in H as (w1 & Hw1 & H). injection H as <- _.
      destruct (move_ctor_spec O E t (Forall_rd _ _ _ _ Hw Ht)) as (A & _ & B). rewrite Em in A, B. cbn [fst snd] in A, B.
      apply Forall_app_one; [|eapply Hsame; [exact A|]; eapply (Forall_rd _ _ _ _ Hv Ht)].
      eapply Forall_wr; [exact Hv| |exact Hw1]. now rewrite B.
    - apply bind_Ok in H as (t & Ht & H). apply bind_Ok in H as (u & Hu & H). destruct (i =? j); [injection H as <- _; exact Hv|].
      destruct (copy_assign O E fl t u) as [t1 x] eqn:Ea. apply bind_Ok in H as (w1 & Hw1 & H). injection H as <- _.
      pose proof (copy_assign_spec O E _ _ _ _ _ (Forall_rd _ _ _ _ Hw Ht) (Forall_rd _ _ _ _ Hw Hu) Ea) as A.
      eapply Forall_wr; [exact Hv| |exact Hw1]. destruct fl.
      + destruct A as [_ ->]. exact Hdef.
      + eapply Hsame; [apply A|]. eapply (Forall_rd _ _ _ _ Hv Hu).
    - apply bind_Ok in H as (t & Ht & H). apply bind_Ok in H as (u & Hu & H). destruct (i =? j); [injection H as <- _; exact Hv|].
      destruct (move_assign O E t u) as [t1 o1] eqn:Ea. apply bind_Ok in H as (w1 & Hw1 & H).
      apply bind_Ok in H as (w2 & Hw2 & H). injection H as <- _.
      destruct (move_assign_spec O E t u (Forall_rd _ _ _ _ Hw Hu)) as (A & _ & B). rewrite Ea in A, B. cbn [fst snd] in A, B.
      subst o1. eapply Forall_wr; [|exact Hdef|exact Hw2].
      eapply Forall_wr; [exact Hv|eapply Hsame; [exact A|]|exact Hw1]. eapply (Forall_rd _ _ _ _ Hv Hu).
    - apply bind_Ok in H as (t & Ht & H). apply bind_Ok in H as (w1 & Hw1 & H). injection H as <- _.
      eapply Forall_wr; [exact Hv| |exact Hw1]. rewrite clear_default; [exact Hdef|]. apply (Forall_rd _ _ _ _ Hw Ht).
    - apply bind_Ok in H as (t & Ht & H). apply bind_Ok in H as ([t' x] & Hr & H). apply bind_Ok in H as (w1 & Hw1 & H).
      injection H as <- _. pose proof (Forall_rd _ _ _ _ Hw Ht) as Hti. eapply Forall_wr; [exact Hv| |exact Hw1].
      cbn [fst]. destruct x as [x|].
      + apply (update_particles_fails O E) in Hr; auto. now subst.
      + destruct (update_particles_spec O E s ord f t t' Ho Hti Hr) as (_ & _ & _ & _ & _ & Hi & _).
        unfold update_particles in Hr. apply guarded_ok in Hr.
        apply bind_Ok in Hr as (v & _ & Hr). apply bind_Ok in Hr as (v' & _ & Hr).
        apply bind_Ok in Hr as (_ & _ & Hr). apply bind_Ok in Hr as (parts & _ & Hr). eapply Hsync; eauto.
    - apply bind_Ok in H as (t & Ht & H). apply bind_Ok in H as ([t' x] & Hr & H). apply bind_Ok in H as (w1 & Hw1 & H).
      injection H as <- _. pose proof (Forall_rd _ _ _ _ Hw Ht) as Hti. eapply Forall_wr; [exact Hv| |exact Hw1].
      cbn [fst]. destruct x as [x|].
      + apply (update_masses_fails O E) in Hr; auto. now subst.
      + eapply Hmass; [exact Hti| |exact Hr]. eapply (Forall_rd _ _ _ _ Hv Ht). }
  intros t (ops & w & Hops & Hrun & Hin). unfold run in Hrun.
  assert (G : forall ops w0 w, Forall (op_ok E) ops -> Forall tree_inv w0 -> Forall P w0 ->
    foldM (fun w o => do r <- step O E w o; Ok (fst r)) ops w0 = Ok w -> Forall P w).
  { clear - Hstep HE. induction ops as [|o ops IH]; intros w0 w Ho Hi Hp H; cbn [foldM] in H.
    - now injection H as <-.
    - inversion Ho; subst. apply bind_Ok in H as (w1 & G1 & H). apply bind_Ok in G1 as ([w1' e] & G1 & G2).
      injection G2 as <-. cbn [fst] in H. refine (IH w1' w _ _ _ H); auto.
      + eapply (step_inv O E HE); eauto.
      + eapply Hstep; eauto. }
  pose proof (G ops [] w Hops (Forall_nil _) (Forall_nil _) Hrun) as HG. rewrite Forall_forall in HG. auto.
Qed.

(** The box size of [t] was deduced from the particles of [t], taken in some order and with some shape of the reduction. *)
Definition box_deduced (t : tree) : Prop :=
  exists p rs r, is_perm p (length (t_codes t)) /\
    Forall2 (fun i xs => row (firstn (dim c) (t_parts t)) i xs) p rs /\
    spans r 0 (length rs) /\ determine_box_size O (dim c) rs r = Ok (t_box t).

Lemma rows_rows : forall (cols : list (list F)) n rs, rows E cols n = Ok rs ->
  Forall2 (fun i xs => row (firstn (dim c) cols) i xs) (seq 0 n) rs.
Proof.
  intros cols n rs H. unfold rows in H. revert rs H. generalize (seq 0 n). induction l as [|i l IH]; intros rs H; cbn [mapM] in H.
  - injection H as <-. constructor.
  - apply bind_Ok in H as (xs & Hx & H). apply bind_Ok in H as (ys & Hy & H). injection H as <-.
    constructor; [now apply coords_row|]. now apply IH.
Qed.

Lemma rows_permuted : forall n p q (cols cols' : list (list F)) rs, is_perm p n -> inverse p q ->
  Forall2 (permuted p) cols cols' ->
  Forall2 (fun i xs => row (firstn (dim c) cols) i xs) (seq 0 n) rs ->
  Forall2 (fun i xs => row (firstn (dim c) cols') i xs) q rs.
Proof.
  intros n p q cols cols' rs Hp Hq HF Hr.
  pose proof (inverse_is_perm p q n Hp Hq) as Hqp.
  assert (G : forall i xs k, row (firstn (dim c) cols) k xs -> nth_error p i = Some k -> row (firstn (dim c) cols') i xs).
  { intros i xs k Hrow Hi. eapply (row_permuted p n i k); [exact Hp|exact Hi|apply Forall2_firstn; exact HF|exact Hrow]. }
  apply Forall2_from_nth.
  - rewrite <- (Forall2_length_eq _ _ _ Hr), seq_length. now apply is_perm_length.
  - intros k i xs Hi Hx. destruct (Forall2_nth_r _ _ _ _ _ Hr Hx) as (k' & Hk' & Hrow).
    pose proof (nth_error_lt _ _ _ Hk') as Hlt. rewrite seq_length in Hlt. rewrite nth_error_seq in Hk' by exact Hlt.
    injection Hk' as <-. apply (G i xs k Hrow). destruct (inverse_sym p q n Hp Hq) as [_ Hs]. now apply Hs.
Qed.

Lemma deduced : forall t, reachable O E t -> t_ded t = true -> box_deduced t.
Proof.
  apply (reachable_ind_inv (fun t => t_ded t = true -> box_deduced t)).
  - intros t u (H1 & H2 & _ & _ & H5 & H6 & _) Hu Hd. rewrite H2 in Hd. specialize (Hu Hd).
    unfold box_deduced in *. rewrite H1, H5, H6. exact Hu.
  - cbn. discriminate.
  - intros s b inp mln nc t Hs Hi H Hd.
    assert (K : exists box d mln nc, construct O E s box true d mln nc = Ok t).
    { unfold generic_ctor in H. destruct b as [b|].
      - exfalso. assert (t_ded t = false); [|congruence].
        assert (KK : forall d mln nc, construct O E s b false d mln nc = Ok t -> t_ded t = false).
        { clear. intros d mln nc H. unfold construct in H. destruct (_ || _); [discriminate|]. destruct (_ =? _); [discriminate|].
          destruct (_ =? _); [discriminate|]. repeat (apply bind_Ok in H as (? & ? & H)). injection H as <-. reflexivity. }
        destruct inp; [apply bind_Ok in H as (? & _ & H)|apply bind_Ok in H as (? & _ & H)|]; eapply KK; eauto.
      - destruct inp; [apply bind_Ok in H as (? & _ & H)|apply bind_Ok in H as (? & _ & H)|]; eauto. }
    destruct K as (box & d & mln' & nc' & K). unfold construct in K.
    destruct (_ || _); [discriminate|]. destruct (_ =? _); [discriminate|]. destruct (_ =? _); [discriminate|].
    apply bind_Ok in K as (_ & _ & K). apply bind_Ok in K as (cols & Hload & K). cbv zeta in K.
    apply bind_Ok in K as (bx & Hbox & K). apply bind_Ok in K as (codes0 & Henc & K).
    apply bind_Ok in K as (_ & _ & K). apply bind_Ok in K as (codes & Hcodes & K).
    apply bind_Ok in K as (parts & Hparts & K). apply bind_Ok in K as (inv & Hinv & K).
    apply bind_Ok in K as (_ & _ & K). apply bind_Ok in K as ([nodes crit] & Hb & K). injection K as <-.
    destruct (resorted O E _ _ _ _ _ _ _ Hs Henc Hcodes Hparts) as (R1 & R2 & R3 & R4 & R5 & R6 & R7 & R8).
    apply bind_Ok in Hbox as (rs & Hrs & Hbox). set (np := length (hd [] cols)) in *.
    pose proof (rows_rows _ _ _ Hrs) as HR. pose proof (Forall2_length_eq _ _ _ HR) as HL. rewrite seq_length in HL.
    destruct (perm_to_inv_perm_ok (s_sort s codes0) (repeat 0 np) np R1 (repeat_length _ _)) as (i' & Hi1 & Hi2).
    exists i', rs, (s_red s np). cbn [t_codes t_parts t_box rocm_init]. rewrite R2.
    split; [eapply inverse_is_perm; eauto|]. split; [eapply rows_permuted; eauto|].
    split; [rewrite <- HL; apply Hs|exact Hbox].
  - intros s t t' Hs Hi K Hd. unfold sync in K. cbv zeta in K. unfold nparts, rocm_reset in K.
    cbn [t_box t_ded t_parts t_mln t_ncrit t_perm t_inv] in K. fold (nparts t) in K.
    set (np := nparts t) in *.
    apply bind_Ok in K as (bx & Hbox & K). apply bind_Ok in K as (codes0 & Henc & K).
    apply bind_Ok in K as (_ & _ & K). apply bind_Ok in K as (codes & Hcodes & K).
    apply bind_Ok in K as (parts & Hparts & K). apply bind_Ok in K as (perm & Hperm & K).
    apply bind_Ok in K as (inv & Hinv & K).
    apply bind_Ok in K as (_ & _ & K). apply bind_Ok in K as ([nodes crit] & Hb & K). injection K as <-.
    destruct (resorted O E _ _ _ _ _ _ _ Hs Henc Hcodes Hparts) as (R1 & R2 & R3 & R4 & R5 & R6 & R7 & R8).
    cbn [t_ded rocm_init] in Hd. rewrite Hd in Hbox.
    apply bind_Ok in Hbox as (rs & Hrs & Hbox).
    pose proof (rows_rows _ _ _ Hrs) as HR. pose proof (Forall2_length_eq _ _ _ HR) as HL. rewrite seq_length in HL.
    destruct (perm_to_inv_perm_ok (s_sort s codes0) (repeat 0 np) np R1 (repeat_length _ _)) as (i' & Hi1 & Hi2).
    exists i', rs, (s_red s np). cbn [t_codes t_parts t_box rocm_init]. rewrite R2.
    split; [eapply inverse_is_perm; eauto|]. split; [eapply rows_permuted; eauto|].
    split; [rewrite <- HL; apply Hs|exact Hbox].
  - intros ord f t t' Ht IH H Hd.
    destruct (update_masses_spec O E ord f t t' Ht H) as (_ & _ & _ & _ & _ & _ & _ & _ & E1 & E2 & _ & _ & E5 & _ & _ & _ & _ & E6 & _).
    rewrite E2 in Hd. specialize (IH Hd). unfold box_deduced in *. rewrite E1, E5, E6. exact IH.
Qed.

Lemma given_box_kept : forall s ord f t t', sched_ok s -> tree_inv t -> update_particles O E s ord f t = Ok (t', None) ->
  t_ded t' = t_ded t /\ (t_ded t = false -> t_box t' = t_box t).
Proof.
  intros s ord f t t' Hs Ht H. unfold update_particles in H. apply guarded_ok in H.
  apply bind_Ok in H as (v & _ & H). apply bind_Ok in H as (v' & _ & H).
  apply bind_Ok in H as (_ & _ & H). apply bind_Ok in H as (parts & _ & H).
  unfold sync in H. cbv zeta in H.
  apply bind_Ok in H as (bx & Hbox & H). repeat (apply bind_Ok in H as (? & _ & H)). injection H as <-.
  cbn [t_ded t_box rocm_init rocm_reset set_parts] in *. split; [reflexivity|]. intros Hd. rewrite Hd in Hbox. now injection Hbox.
Qed.

End BoxInv.

(** Exact arithmetic: the value. *)
Lemma deduced_R : forall E t, env_ok E -> reachable Rops E t -> t_ded t = true ->
  exists M, t_box t = (21 / 10 * M)%R /\
    (forall col x, In col (firstn (dim (e_cfg E)) (t_parts t)) -> In x col -> (Rabs x <= M)%R) /\
    (M = 0%R \/ exists col x, In col (firstn (dim (e_cfg E)) (t_parts t)) /\ In x col /\ Rabs x = M).
Proof.
  intros E t HE Hr Hd. destruct (deduced Rops E HE t Hr Hd) as (p & rs & r & Hp & HF & Hs & Hb).
  pose proof (reachable_inv Rops E HE t Hr) as Ht.
  destruct (inv_table Rops E t Ht) as [T1 T2].
  assert (Hlen : Forall (fun xs => length xs = dim (e_cfg E)) rs).
  { apply Forall_forall. intros xs Hx. apply In_nth_error in Hx as [i Hi].
    destruct (Forall2_nth_r _ _ _ _ _ HF Hi) as (k & _ & Hrow). apply Forall2_length_eq in Hrow. rewrite <- Hrow, firstn_length. lia. }
  assert (Hcnt : (N.of_nat (length rs) <= diff_max)%N).
  { pose proof Hb as Hb1. unfold determine_box_size in Hb1. apply bind_Ok in Hb1 as (u0 & Hb1 & _). unfold it_diff_check in Hb1.
    destruct (N.ltb_spec diff_max (N.of_nat (length rs))); [discriminate|lia]. }
  assert (Hin : forall x, In x (concat rs) <-> exists col, In col (firstn (dim (e_cfg E)) (t_parts t)) /\ In x col).
  { intros x. rewrite in_concat. split.
    - intros (xs & Hx & Hxx). apply In_nth_error in Hx as [i Hi]. destruct (Forall2_nth_r _ _ _ _ _ HF Hi) as (k & _ & Hrow).
      apply In_nth_error in Hxx as [j Hj]. destruct (Forall2_nth_r _ _ _ _ _ Hrow Hj) as (col & Hc & Hn).
      exists col. split; eapply nth_error_In; eauto.
    - intros (col & Hc & Hx). apply In_nth_error in Hx as [k Hk].
      assert (Hkn : k < length (t_codes t)).
      { apply nth_error_lt in Hk. rewrite Forall_forall in T2. rewrite (T2 col) in Hk by (eapply firstn_In; eauto). exact Hk. }
      destruct (perm_surj p _ k Hp Hkn) as [i Hi]. destruct (Forall2_nth _ _ _ _ _ HF Hi) as (xs & Hxs & Hrow).
      apply In_nth_error in Hc as [j Hj]. destruct (Forall2_nth _ _ _ _ _ Hrow Hj) as (x' & Hx' & Hn).
      rewrite Hk in Hn. injection Hn as <-. exists xs. split; eapply nth_error_In; eauto. }
  rewrite boxR in Hb; auto; [|destruct (e_cfg E); cbn; lia]. injection Hb as Hb.
  exists (max_abs (concat rs)). split; [symmetry; exact Hb|]. split.
  - intros col x Hc Hx. apply max_abs_In, Hin. eauto.
  - assert (A : forall l, max_abs l = 0%R \/ exists x, In x l /\ Rabs x = max_abs l).
    { induction l as [|y l IH]; [now left|]. right. cbn [max_abs fold_right]. fold (max_abs l).
      destruct (Rle_dec (max_abs l) (Rabs y)) as [L|L].
      - exists y. split; [now left|]. now rewrite Rmax_left.
      - assert (0 <= Rabs y)%R by apply Rabs_pos.
        destruct IH as [IH|(x & Hx & Ex)]; [lra|]. exists x. split; [now right|].
        rewrite Rmax_right by lra. exact Ex. }
    destruct (A (concat rs)) as [A0|(x & Hx & Ex)]; [now left|]. right.
    apply Hin in Hx as (col & Hc & Hx). eauto.
Qed.
