(** Declarative description of the nodes of a tree over a sorted list of codes, and the facts about
    it that the proofs on the builder use. Nothing here models code. *)
From Coq Require Import List Arith NArith ZArith Lia Bool Sorting.Sorted Permutation.
From Coq Require Import ZifyBool ZifyN ZifyNat.
From Verif Require Import Base Config Morton MortonProofs CodesProofs TreeSpec.
Import ListNotations.
Local Open Scope nat_scope.
Ltac Zify.zify_post_hook ::= Z.div_mod_to_equations.

(** * Sorted lists and counting *)

Lemma sorted_codes_tail : forall x l, sorted_codes (x :: l) -> sorted_codes l.
Proof. intros x l H i j a b Hij Ha Hb. exact (H (S i) (S j) a b ltac:(lia) Ha Hb). Qed.

Lemma sorted_codes_head : forall x l y, sorted_codes (x :: l) -> In y l -> (x <= y)%N.
Proof.
  intros x l y H Hy. apply In_nth_error in Hy. destruct Hy as [n Hn].
  exact (H 0 (S n) x y ltac:(lia) eq_refl Hn).
Qed.

Definition cntf (f : N -> bool) (l : list N) : nat := length (filter f l).

Lemma cntf_le : forall f l, cntf f l <= length l.
Proof. intros; unfold cntf; induction l; simpl; [lia|]; destruct (f a); simpl; lia. Qed.

Lemma cntf_mono : forall f g l, (forall x, In x l -> f x = true -> g x = true) -> cntf f l <= cntf g l.
Proof.
  unfold cntf. induction l as [|a l IH]; intros H; simpl; [lia|].
  assert (Hl := IH (fun x Hx => H x (or_intror Hx))).
  destruct (f a) eqn:E.
  - rewrite (H a (or_introl eq_refl) E). simpl. lia.
  - destruct (g a); simpl; lia.
Qed.

Lemma cntf_ext : forall f g l, (forall x, In x l -> f x = g x) -> cntf f l = cntf g l.
Proof.
  intros f g l H. apply Nat.le_antisymm; apply cntf_mono; intros x Hx Hf;
    specialize (H x Hx); congruence.
Qed.

Lemma cntf_zero : forall f l, cntf f l = 0 <-> (forall x, In x l -> f x = false).
Proof.
  unfold cntf. induction l as [|a l IH]; simpl.
  - split; [intros _ x []|reflexivity].
  - destruct (f a) eqn:E; simpl.
    + split; [discriminate|]. intros H. specialize (H a (or_introl eq_refl)). congruence.
    + rewrite IH. split.
      * intros H x [<-|Hx]; auto.
      * intros H x Hx. apply H. now right.
Qed.

Lemma cntf_all : forall f l, (forall x, In x l -> f x = true) -> cntf f l = length l.
Proof.
  unfold cntf. induction l as [|a l IH]; intros H; simpl; [reflexivity|].
  rewrite (H a (or_introl eq_refl)). simpl. rewrite IH; [reflexivity|].
  intros; apply H; now right.
Qed.

Lemma cntf_split : forall f g h l,
  (forall x, In x l -> h x = f x || g x) -> (forall x, In x l -> f x && g x = false) ->
  cntf h l = cntf f l + cntf g l.
Proof.
  unfold cntf. induction l as [|a l IH]; intros H1 H2; simpl; [reflexivity|].
  specialize (IH (fun x Hx => H1 x (or_intror Hx)) (fun x Hx => H2 x (or_intror Hx))).
  pose proof (H1 a (or_introl eq_refl)) as E1. pose proof (H2 a (or_introl eq_refl)) as E2.
  rewrite E1. destruct (f a), (g a); simpl in *; try discriminate; lia.
Qed.

(** On a sorted list, a downward closed predicate holds exactly on the first [cntf f l] positions. *)
Lemma cntf_sorted : forall f l, sorted_codes l ->
  (forall x y, (x <= y)%N -> f y = true -> f x = true) ->
  forall i x, nth_error l i = Some x -> (i < cntf f l <-> f x = true).
Proof.
  unfold cntf. induction l as [|a l IH]; intros Hs Hd i x Hi.
  - destruct i; discriminate.
  - simpl. destruct (f a) eqn:E.
    + destruct i as [|i].
      * simpl in Hi. injection Hi as <-. simpl. split; [auto|lia].
      * simpl in *. rewrite <- (IH (sorted_codes_tail _ _ Hs) Hd i x Hi). lia.
    + assert (Hall : forall y, In y l -> f y = false).
      { intros y Hy. destruct (f y) eqn:Ey; [|reflexivity].
        rewrite (Hd a y) in E; [discriminate| |exact Ey]. eapply sorted_codes_head; eauto. }
      assert (Hz : length (filter f l) = 0) by (apply (proj2 (cntf_zero f l)); exact Hall).
      rewrite Hz. split; [lia|]. intros Hf.
      destruct i as [|i]; simpl in Hi.
      * injection Hi as <-. congruence.
      * apply nth_error_In in Hi. rewrite Hall in Hf by exact Hi. discriminate.
Qed.

Lemma pow2_pos : forall n, (0 < 2 ^ n)%N.
Proof. intros. apply N.neq_0_lt_0, N.pow_nonzero. lia. Qed.

Lemma StronglySorted_app : forall {A} (R : A -> A -> Prop) l1 l2,
  StronglySorted R l1 -> StronglySorted R l2 ->
  (forall x y, In x l1 -> In y l2 -> R x y) -> StronglySorted R (l1 ++ l2).
Proof.
  induction l1 as [|a l1 IH]; intros l2 H1 H2 H; [exact H2|].
  simpl. inversion H1 as [|? ? Hs Hf]; subst. constructor.
  - apply IH; auto. intros; apply H; [now right|assumption].
  - apply Forall_app. split; [exact Hf|]. apply Forall_forall. intros y Hy.
    apply H; [now left|exact Hy].
Qed.

Lemma flat_map_split : forall {A B} (f : A -> list B) L pre x post,
  flat_map f L = pre ++ x :: post ->
  exists L1 i L2 pre1 post1, L = L1 ++ i :: L2 /\ f i = pre1 ++ x :: post1 /\
    pre = flat_map f L1 ++ pre1 /\ post = post1 ++ flat_map f L2.
Proof.
  induction L as [|a L IH]; intros pre x post H; simpl in H.
  - destruct pre; discriminate.
  - destruct (le_lt_dec (length (f a)) (length pre)) as [Hle|Hlt].
    + assert (Hp : pre = f a ++ skipn (length (f a)) pre).
      { rewrite <- (firstn_skipn (length (f a)) pre) at 1. f_equal.
        assert (E : firstn (length (f a)) (f a ++ flat_map f L)
                  = firstn (length (f a)) (pre ++ x :: post)) by now rewrite H.
        rewrite firstn_app, Nat.sub_diag, firstn_O, app_nil_r, firstn_all in E.
        rewrite firstn_app in E. replace (length (f a) - length pre) with 0 in E by lia.
        rewrite firstn_O, app_nil_r in E. congruence. }
      rewrite Hp in H. rewrite <- app_assoc in H. apply app_inv_head in H.
      apply IH in H. destruct H as (L1 & i & L2 & pre1 & post1 & -> & Hfi & Hpre & ->).
      exists (a :: L1), i, L2, pre1, post1. repeat split; auto.
      rewrite Hp, Hpre. simpl. now rewrite app_assoc.
    + assert (Hx : exists post1, f a = pre ++ x :: post1 /\ post = post1 ++ flat_map f L).
      { assert (E : skipn (length pre) (f a ++ flat_map f L) = x :: post)
          by (rewrite H, skipn_app, skipn_all, Nat.sub_diag; reflexivity).
        rewrite skipn_app in E. replace (length pre - length (f a)) with 0 in E by lia.
        rewrite skipn_O in E.
        assert (Ep : firstn (length pre) (f a) = pre).
        { assert (E' : firstn (length pre) (f a ++ flat_map f L)
                    = firstn (length pre) (pre ++ x :: post)) by now rewrite H.
          rewrite firstn_app in E'. replace (length pre - length (f a)) with 0 in E' by lia.
          rewrite firstn_O, app_nil_r in E'. rewrite E'.
          rewrite firstn_app, Nat.sub_diag, firstn_O, app_nil_r, firstn_all. reflexivity. }
        assert (Hl : 0 < length (skipn (length pre) (f a))) by (rewrite skipn_length; lia).
        destruct (skipn (length pre) (f a)) as [|y post1] eqn:Es; [simpl in Hl; lia|].
        simpl in E. injection E as <- <-. exists post1. split; [|reflexivity].
        rewrite <- Ep, <- Es. symmetry. apply firstn_skipn. }
      destruct Hx as [post1 [Hfa ->]].
      exists [], a, L, pre, post1. repeat split; auto.
Qed.

Lemma tiles_app : forall l1 l2 b m e, tiles b l1 m -> tiles m l2 e -> tiles b (l1 ++ l2) e.
Proof.
  induction l1 as [|[x y] l1 IH]; intros l2 b m e H1 H2; simpl in *.
  - now subst.
  - destruct H1 as (-> & Hxy & H1). repeat split; eauto.
Qed.

(** * Cells *)

(** A cell is a level together with the prefix that its codes share. *)
Definition cell := (N * N)%type.

Section Cells.

Variable c : cfg.
Variable codes : list N.
Let d := dimN c.
Let cb := cbitsc c.

(** Prefix of a code at a level. *)
Definition pfx (l x : N) : N := N.shiftr x (d * (cb - l)).

Definition clt (l p : N) : nat := cntf (fun x => pfx l x <? p)%N codes.
(** Number of particles in a cell. *)
Definition count (l p : N) : nat := cntf (fun x => pfx l x =? p)%N codes.

Lemma clt_succ : forall l p, clt l (p + 1) = clt l p + count l p.
Proof. intros. unfold clt, count. apply cntf_split; intros; lia. Qed.

Lemma cle_clt : forall l p, cntf (fun x => negb (p <? pfx l x))%N codes = clt l (p + 1).
Proof. intros. apply cntf_ext. intros; lia. Qed.

Lemma clt_le_length : forall l p, clt l p <= length codes.
Proof. intros. apply cntf_le. Qed.

Lemma pfx_parent : forall l x, (l + 1 <= cb)%N -> pfx l x = (pfx (l + 1) x / 2 ^ d)%N.
Proof.
  intros l x Hl. unfold pfx. rewrite <- N.shiftr_div_pow2, N.shiftr_shiftr. f_equal. nia.
Qed.

Lemma pfx_anc : forall l l' x, (l <= l')%N -> (l' <= cb)%N ->
  pfx l x = N.shiftr (pfx l' x) (d * (l' - l)).
Proof. intros. unfold pfx. rewrite N.shiftr_shiftr. f_equal. nia. Qed.

Lemma child_div : forall p i, (i < 2 ^ d)%N -> ((p * 2 ^ d + i) / 2 ^ d = p)%N.
Proof.
  intros p i Hi. rewrite N.add_comm, N.div_add by (pose proof (pow2_pos d); lia).
  rewrite N.div_small by exact Hi. lia.
Qed.

Lemma clt_child : forall l p i, (l + 1 <= cb)%N -> (i < 2 ^ d)%N ->
  clt l p <= clt (l + 1) (p * 2 ^ d + i) /\
  clt (l + 1) (p * 2 ^ d + i) + count (l + 1) (p * 2 ^ d + i) <= clt l (p + 1).
Proof.
  intros l p i Hl Hi. rewrite <- clt_succ. pose proof (pow2_pos d) as Hp.
  split; apply cntf_mono; intros x _; rewrite (pfx_parent l) by exact Hl;
    set (y := pfx (l + 1) x); set (D := (2 ^ d)%N) in *; intros H;
    pose proof (N.div_mod y D ltac:(lia)) as E; pose proof (N.mod_lt y D ltac:(lia)) as L;
    set (q := (y / D)%N) in *; set (r := (y mod D)%N) in *; clearbody q r y D.
  - assert (q < p)%N by lia. assert (q + 1 <= p)%N by lia. assert (y < p * D + i)%N by nia. lia.
  - assert (y < p * D + i + 1)%N by lia. assert (q < p + 1)%N by nia. lia.
Qed.

Lemma shiftr_child : forall l l' q, (l + 1 <= l')%N ->
  N.shiftr q (d * (l' - l)) = (N.shiftr q (d * (l' - (l + 1))) / 2 ^ d)%N.
Proof. intros. rewrite <- N.shiftr_div_pow2, N.shiftr_shiftr. f_equal. nia. Qed.

Lemma count_anc : forall l l' q, (l <= l')%N -> (l' <= cb)%N ->
  count l' q <= count l (N.shiftr q (d * (l' - l))).
Proof.
  intros l l' q H H'. apply cntf_mono. intros x _ E. apply N.eqb_eq in E. subst q.
  apply N.eqb_eq. apply pfx_anc; assumption.
Qed.

Lemma sum_children : forall l p n, (l + 1 <= cb)%N -> (N.of_nat n <= 2 ^ d)%N ->
  list_sum (map (fun i => count (l + 1) (p * 2 ^ d + i)) (upto n))
  = clt (l + 1) (p * 2 ^ d + N.of_nat n) - clt (l + 1) (p * 2 ^ d).
Proof.
  intros l p. induction n as [|n IH]; intros Hl Hn.
  - simpl. rewrite N.add_0_r. lia.
  - cbn [upto]. rewrite map_app, list_sum_app, IH by lia. simpl map. simpl list_sum.
    rewrite Nat.add_0_r.
    replace (p * 2 ^ d + N.of_nat (S n))%N with (p * 2 ^ d + N.of_nat n + 1)%N by lia.
    rewrite clt_succ.
    assert (clt (l + 1) (p * 2 ^ d) <= clt (l + 1) (p * 2 ^ d + N.of_nat n)).
    { apply cntf_mono. intros; lia. }
    lia.
Qed.

Lemma clt_parent : forall l p, (l + 1 <= cb)%N -> clt (l + 1) (p * 2 ^ d) = clt l p.
Proof.
  intros l p Hl. apply cntf_ext. intros x _. rewrite (pfx_parent l) by exact Hl.
  pose proof (pow2_pos d). set (y := pfx (l + 1) x). set (D := (2 ^ d)%N) in *.
  pose proof (N.div_mod y D ltac:(lia)) as E. pose proof (N.mod_lt y D ltac:(lia)) as L.
  set (q := (y / D)%N) in *. set (r := (y mod D)%N) in *. clearbody q r y D.
  destruct (N.ltb_spec y (p * D)), (N.ltb_spec q p); try reflexivity; nia.
Qed.

Lemma count_children : forall l p, (l + 1 <= cb)%N ->
  list_sum (map (fun i => count (l + 1) (p * 2 ^ d + i)) (upto (N.to_nat (2 ^ d)))) = count l p.
Proof.
  intros l p Hl. rewrite sum_children by lia. rewrite N2Nat.id.
  replace (p * 2 ^ d + 2 ^ d)%N with ((p + 1) * 2 ^ d)%N by lia.
  rewrite !clt_parent by exact Hl. rewrite clt_succ. lia.
Qed.

(** Particle range of a cell. *)
Definition crange (x : cell) : nat * nat := (clt (fst x) (snd x), clt (fst x) (snd x + 1)).

Lemma tiles_children : forall l p (f : N -> list cell), (l + 1 <= cb)%N ->
  (forall i, (i < 2 ^ d)%N ->
     tiles (clt (l + 1) (p * 2 ^ d + i)) (map crange (f i)) (clt (l + 1) (p * 2 ^ d + i + 1))) ->
  tiles (clt l p) (map crange (flat_map f (upto (N.to_nat (2 ^ d))))) (clt l (p + 1)).
Proof.
  intros l p f Hl Hf.
  assert (Hn : forall n, (N.of_nat n <= 2 ^ d)%N ->
    tiles (clt (l + 1) (p * 2 ^ d)) (map crange (flat_map f (upto n)))
          (clt (l + 1) (p * 2 ^ d + N.of_nat n))).
  { induction n as [|n IH]; intros Hn.
    - simpl. now rewrite N.add_0_r.
    - cbn [upto]. rewrite flat_map_app, map_app. cbn [flat_map]. rewrite app_nil_r.
      eapply tiles_app; [apply IH; lia|].
      replace (p * 2 ^ d + N.of_nat (S n))%N with (p * 2 ^ d + N.of_nat n + 1)%N by lia.
      apply Hf. lia. }
  specialize (Hn (N.to_nat (2 ^ d))). rewrite N2Nat.id in Hn.
  replace (p * 2 ^ d + 2 ^ d)%N with ((p + 1) * 2 ^ d)%N in Hn by lia.
  rewrite !clt_parent in Hn by exact Hl. apply Hn. lia.
Qed.

(** Depth-first order. *)
Definition fcell (x : cell) : N := first_cell d cb (fst x) (snd x).
Definition cell_lt (x y : cell) : Prop :=
  (fcell x < fcell y)%N \/ (fcell x = fcell y /\ (fst x < fst y)%N).

Lemma fcell_child : forall l p i, (l + 1 <= cb)%N ->
  fcell (l + 1, p * 2 ^ d + i)%N = (fcell (l, p) + i * 2 ^ (d * (cb - (l + 1))))%N.
Proof.
  intros l p i Hl. unfold fcell, first_cell. simpl fst; simpl snd.
  replace (2 ^ (d * (cb - l)))%N with (2 ^ d * 2 ^ (d * (cb - (l + 1))))%N.
  2:{ rewrite <- N.pow_add_r. f_equal. nia. }
  nia.
Qed.

Variable max_leaf_n : nat.

(** Strict descendants of the cell [p] of level [l] that become nodes, in depth-first order, if the
    cell itself is split; [rem] is the number of levels below [l]. *)
Fixpoint sub (rem : nat) (l p : N) : list cell :=
  match rem with
  | O => []
  | S r => flat_map (fun i =>
      let q := (p * 2 ^ d + i)%N in
      if count (l + 1) q =? 0 then []
      else (l + 1, q)%N :: (if max_leaf_n <? count (l + 1) q then sub r (l + 1)%N q else []))
      (upto (N.to_nat (2 ^ d)))
  end.

(** Strict descendants of a node. *)
Definition desc (x : cell) : list cell :=
  if max_leaf_n <? count (fst x) (snd x)
  then sub (N.to_nat (cb - fst x)) (fst x) (snd x) else [].

Lemma in_sub : forall rem l p, N.of_nat rem = (cb - l)%N -> (l <= cb)%N ->
  forall l' q, In (l', q) (sub rem l p) <->
    ((l < l')%N /\ (l' <= cb)%N /\ N.shiftr q (d * (l' - l)) = p /\ 0 < count l' q /\
     forall m, (l < m)%N -> (m < l')%N -> max_leaf_n < count m (N.shiftr q (d * (l' - m)))).
Proof.
  pose proof (pow2_pos d) as HD.
  induction rem as [|r IH]; intros l p Hr Hl l' q.
  - simpl. split; [intros []|intros (H1 & H2 & _); lia].
  - cbn [sub]. rewrite in_flat_map. split.
    + intros [i [Hi H]]. apply in_upto in Hi. rewrite N2Nat.id in Hi.
      set (Q := (p * 2 ^ d + i)%N) in *.
      assert (HQ : (Q / 2 ^ d = p)%N) by (apply child_div; exact Hi).
      destruct (count (l + 1) Q =? 0) eqn:E0; [destruct H|].
      destruct H as [H|H].
      * injection H as <- <-. repeat split; try lia.
        rewrite shiftr_child by lia. replace (l + 1 - (l + 1))%N with 0%N by lia.
        rewrite N.mul_0_r, N.shiftr_0_r. exact HQ.
      * destruct (max_leaf_n <? count (l + 1) Q) eqn:E1; [|destruct H].
        apply IH in H; [|lia|lia]. destruct H as (H1 & H2 & H3 & H4 & H5).
        repeat split; try lia.
        -- rewrite shiftr_child by lia. rewrite H3. exact HQ.
        -- intros m Hm Hm'. destruct (N.eq_dec m (l + 1)) as [->|Hne].
           ++ rewrite H3. lia.
           ++ apply H5; lia.
    + intros (H1 & H2 & H3 & H4 & H5).
      set (Q := N.shiftr q (d * (l' - (l + 1)))).
      assert (HQ : (Q / 2 ^ d = p)%N) by (unfold Q; rewrite <- shiftr_child by lia; exact H3).
      exists (Q mod 2 ^ d)%N. split.
      { apply in_upto. rewrite N2Nat.id. apply N.mod_lt. lia. }
      replace (p * 2 ^ d + Q mod 2 ^ d)%N with Q.
      2:{ rewrite <- HQ. rewrite N.mul_comm. apply N.div_mod. lia. }
      cbv zeta.
      destruct (N.eq_dec l' (l + 1)) as [->|Hne].
      * assert (EQ : Q = q) by (unfold Q; replace (l + 1 - (l + 1))%N with 0%N by lia;
          rewrite N.mul_0_r, N.shiftr_0_r; reflexivity).
        rewrite EQ. destruct (count (l + 1) q =? 0) eqn:E0; [lia|]. now left.
      * pose proof (H5 (l + 1)%N ltac:(lia) ltac:(lia)) as HQc. fold Q in HQc.
        destruct (count (l + 1) Q =? 0) eqn:E0; [lia|].
        destruct (max_leaf_n <? count (l + 1) Q) eqn:E1; [|lia].
        right. apply IH; [lia|lia|]. repeat split; try lia.
        intros m Hm Hm'. apply H5; lia.
Qed.

Lemma sub_bounds : forall rem l p x, N.of_nat rem = (cb - l)%N -> (l <= cb)%N ->
  In x (sub rem l p) ->
  (l < fst x)%N /\ (fst x <= cb)%N /\
  (fcell (l, p) <= fcell x)%N /\ (fcell x < fcell (l, p + 1)%N)%N.
Proof.
  intros rem l p [l' q] Hr Hl H. apply in_sub in H; [|assumption|assumption].
  destruct H as (H1 & H2 & H3 & _). unfold fcell, first_cell. simpl fst; simpl snd.
  split; [exact H1|]. split; [exact H2|].
  rewrite N.shiftr_div_pow2 in H3.
  set (D := (2 ^ (d * (l' - l)))%N) in *.
  assert (HD : (0 < D)%N) by apply pow2_pos.
  replace (2 ^ (d * (cb - l)))%N with (D * 2 ^ (d * (cb - l')))%N.
  2:{ unfold D. rewrite <- N.pow_add_r. f_equal. nia. }
  set (K := (2 ^ (d * (cb - l')))%N). assert (HK : (0 < K)%N) by apply pow2_pos.
  pose proof (N.div_mod q D ltac:(lia)) as E. pose proof (N.mod_lt q D ltac:(lia)) as L.
  rewrite H3 in E. set (r := (q mod D)%N) in *. clearbody r D K.
  assert (p * D <= q)%N by nia. assert (q + 1 <= (p + 1) * D)%N by nia.
  split; [nia|]. apply N.lt_le_trans with ((q + 1) * K)%N; nia.
Qed.

Lemma sub_sorted : forall rem l p, N.of_nat rem = (cb - l)%N -> (l <= cb)%N ->
  StronglySorted cell_lt (sub rem l p).
Proof.
  induction rem as [|r IH]; intros l p Hr Hl; [constructor|].
  cbn [sub].
  set (f := fun i : N => _).
  assert (Hf : forall i x, In x (f i) ->
    (fcell (l, p) + i * 2 ^ (d * (cb - (l + 1))) <= fcell x)%N /\
    (fcell x < fcell (l, p) + (i + 1) * 2 ^ (d * (cb - (l + 1))))%N).
  { intros i x Hx. unfold f in Hx.
    rewrite <- !fcell_child by lia.
    destruct (count (l + 1) (p * 2 ^ d + i) =? 0); [destruct Hx|].
    destruct Hx as [<-|Hx].
    - rewrite N.add_assoc. unfold fcell, first_cell. simpl fst; simpl snd.
      pose proof (pow2_pos (d * (cb - (l + 1)))). nia.
    - destruct (max_leaf_n <? count (l + 1) (p * 2 ^ d + i)); [|destruct Hx].
      rewrite N.add_assoc. apply sub_bounds in Hx; [tauto|lia|lia]. }
  assert (Hs : forall i, StronglySorted cell_lt (f i)).
  { intros i. unfold f. destruct (count (l + 1) (p * 2 ^ d + i) =? 0); [constructor|].
    destruct (max_leaf_n <? count (l + 1) (p * 2 ^ d + i)).
    - constructor; [apply IH; lia|]. apply Forall_forall. intros x Hx.
      apply sub_bounds in Hx; [|lia|lia]. unfold cell_lt. simpl fst in *.
      destruct Hx as (? & ? & ? & ?). lia.
    - constructor; constructor. }
  clearbody f.
  assert (Hn : forall n, StronglySorted cell_lt (flat_map f (upto n)) /\
    forall x, In x (flat_map f (upto n)) ->
      (fcell x < fcell (l, p) + N.of_nat n * 2 ^ (d * (cb - (l + 1))))%N).
  { induction n as [|n [IHn1 IHn2]].
    - simpl. split; [constructor|intros x []].
    - cbn [upto]. rewrite flat_map_app. cbn [flat_map]. rewrite app_nil_r. split.
      + apply StronglySorted_app; auto. intros x y Hx Hy. left.
        apply IHn2 in Hx. apply Hf in Hy. lia.
      + intros x Hx. apply in_app_or in Hx. destruct Hx as [Hx|Hx].
        * apply IHn2 in Hx. nia.
        * apply Hf in Hx. replace (N.of_nat (S n)) with (N.of_nat n + 1)%N by lia. tauto. }
  apply Hn.
Qed.

Lemma sub_contiguous : forall rem l p pre x post, N.of_nat rem = (cb - l)%N -> (l <= cb)%N ->
  sub rem l p = pre ++ x :: post -> exists post', post = desc x ++ post'.
Proof.
  induction rem as [|r IH]; intros l p pre x post Hr Hl H.
  - destruct pre; discriminate.
  - cbn [sub] in H. apply flat_map_split in H.
    destruct H as (L1 & i & L2 & pre1 & post1 & _ & Hfi & _ & ->).
    cbv zeta in Hfi. destruct (count (l + 1) (p * 2 ^ d + i) =? 0) eqn:E0.
    { destruct pre1; discriminate. }
    destruct pre1 as [|a pre1]; simpl in Hfi.
    + injection Hfi as <- <-. unfold desc. simpl fst; simpl snd.
      replace (N.to_nat (cb - (l + 1))) with r by lia. eauto.
    + injection Hfi as _ Hfi.
      destruct (max_leaf_n <? count (l + 1) (p * 2 ^ d + i)); [|destruct pre1; discriminate].
      apply IH in Hfi; [|lia|lia]. destruct Hfi as [post' ->].
      exists (post' ++ flat_map (fun i0 : N =>
        if count (l + 1) (p * 2 ^ d + i0) =? 0 then []
        else ((l + 1)%N, (p * 2 ^ d + i0)%N) ::
          (if max_leaf_n <? count (l + 1) (p * 2 ^ d + i0)
           then sub r (l + 1) (p * 2 ^ d + i0) else [])) L2).
      now rewrite app_assoc.
Qed.

(** * Sizes *)

Lemma sub_length : forall rem l p, N.of_nat rem = (cb - l)%N -> (l <= cb)%N ->
  length (sub rem l p) <= rem * count l p.
Proof.
  induction rem as [|r IH]; intros l p Hr Hl; [simpl; lia|].
  cbn [sub]. rewrite <- (count_children l p) by lia.
  generalize (upto (N.to_nat (2 ^ d))) as L. induction L as [|i L IHL]; [simpl; lia|].
  cbn [flat_map map]. rewrite app_length. cbn [list_sum fold_right].
  change (fold_right Nat.add 0 ?l) with (list_sum l).
  cbv zeta in *.
  set (X := length (flat_map _ L)) in *. set (Y := list_sum (map _ L)) in *. clearbody X Y.
  destruct (count (l + 1) (p * 2 ^ d + i) =? 0) eqn:E0; [simpl length; nia|].
  assert (Hc : length (if max_leaf_n <? count (l + 1) (p * 2 ^ d + i)
                       then sub r (l + 1) (p * 2 ^ d + i) else [])
               <= r * count (l + 1) (p * 2 ^ d + i)).
  { destruct (max_leaf_n <? count (l + 1) (p * 2 ^ d + i)); [apply IH; lia|simpl; lia]. }
  cbn [length]. set (Z0 := length (if (max_leaf_n <? _) then _ else _)) in *.
  set (C := count (l + 1) (p * 2 ^ d + i)) in *. clearbody Z0 C.
  apply Nat.eqb_neq in E0. nia.
Qed.

(** * Tilings by leaves and critical cells *)

Definition is_leaf (x : cell) : bool := match desc x with [] => true | _ => false end.

Lemma desc_tiles : forall rem l p, N.of_nat rem = (cb - l)%N -> (l < cb)%N ->
  tiles (clt l p) (map crange (filter is_leaf (sub rem l p))) (clt l (p + 1)).
Proof.
  induction rem as [|r IH]; intros l p Hr Hl; [lia|].
  assert (Hfm : forall (f : N -> list cell) L, filter is_leaf (flat_map f L) = flat_map (fun i => filter is_leaf (f i)) L).
  { intros f L. induction L as [|a L IHL]; [reflexivity|]. simpl. rewrite filter_app, IHL. reflexivity. }
  cbn [sub]. rewrite Hfm. apply tiles_children; [lia|]. intros i Hi. cbv zeta.
  set (Q := (p * 2 ^ d + i)%N). rewrite clt_succ.
  destruct (count (l + 1) Q =? 0) eqn:E0; [simpl; lia|].
  cbn [filter].
  assert (Hd : desc (l + 1, Q)%N = if max_leaf_n <? count (l + 1) Q then sub r (l + 1) Q else []).
  { unfold desc. simpl fst; simpl snd. replace (N.to_nat (cb - (l + 1))) with r by lia. reflexivity. }
  unfold is_leaf at 1. rewrite Hd. clear Hd. apply Nat.eqb_neq in E0.
  destruct (max_leaf_n <? count (l + 1) Q) eqn:E1.
  - destruct (sub r (l + 1) Q) as [|y t] eqn:Es.
    + cbn [filter map app tiles crange fst snd]. rewrite clt_succ. lia.
    + rewrite <- Es. rewrite <- clt_succ. apply IH; [lia|].
      destruct (N.eq_dec (l + 1) cb) as [Hc|Hc]; [|lia].
      assert (r = 0) by lia. subst r. simpl in Es. discriminate.
  - cbn [filter map app tiles crange fst snd]. rewrite clt_succ. lia.
Qed.

(** A split cell above the finest level has at least one child: leaves are exactly the cells that are
    not split or that are at the finest level. *)
Lemma sub_nonempty : forall rem l p, N.of_nat rem = (cb - l)%N -> (l < cb)%N -> 0 < count l p ->
  sub rem l p <> [].
Proof.
  intros rem l p Hr Hl Hc H. pose proof (desc_tiles rem l p Hr Hl) as T. rewrite H in T. simpl in T.
  rewrite clt_succ in T. lia.
Qed.

Lemma is_leaf_spec : forall l p, (l <= cb)%N -> 0 < count l p ->
  is_leaf (l, p) = (count l p <=? max_leaf_n) || (l =? cb)%N.
Proof.
  intros l p Hl Hc. unfold is_leaf, desc. simpl fst; simpl snd.
  destruct (max_leaf_n <? count l p) eqn:E.
  - replace (count l p <=? max_leaf_n) with false by lia. simpl orb.
    destruct (N.eqb_spec l cb) as [->|Hne].
    + rewrite N.sub_diag. reflexivity.
    + pose proof (sub_nonempty (N.to_nat (cb - l)) l p ltac:(lia) ltac:(lia) Hc).
      destruct (sub (N.to_nat (cb - l)) l p); congruence.
  - replace (count l p <=? max_leaf_n) with true by lia. reflexivity.
Qed.

Variable ncrit : nat.

Definition crit_cell (ca : bool) (l p : N) : bool :=
  negb ca && ((count l p <=? ncrit) || (count l p <=? max_leaf_n) || (l =? cb)%N).

(** Critical cells among the strict descendants of a split cell. *)
Fixpoint csub (rem : nat) (l p : N) (ca : bool) : list cell :=
  match rem with
  | O => []
  | S r => flat_map (fun i =>
      let q := (p * 2 ^ d + i)%N in
      if count (l + 1) q =? 0 then []
      else (if crit_cell ca (l + 1) q then [(l + 1, q)%N] else []) ++
           (if max_leaf_n <? count (l + 1) q
            then csub r (l + 1)%N q (crit_cell ca (l + 1) q || ca) else []))
      (upto (N.to_nat (2 ^ d)))
  end.

Lemma csub_true : forall rem l p, csub rem l p true = [].
Proof.
  induction rem as [|r IH]; intros l p; [reflexivity|].
  cbn [csub]. generalize (upto (N.to_nat (2 ^ d))) as L. induction L as [|i L IHL]; [reflexivity|].
  cbn [flat_map]. rewrite IHL, app_nil_r. cbv zeta.
  destruct (count (l + 1) (p * 2 ^ d + i) =? 0); [reflexivity|].
  simpl crit_cell. simpl. destruct (max_leaf_n <? count (l + 1) (p * 2 ^ d + i)); [apply IH|reflexivity].
Qed.

Lemma csub_tiles : forall rem l p, N.of_nat rem = (cb - l)%N -> (l < cb)%N ->
  tiles (clt l p) (map crange (csub rem l p false)) (clt l (p + 1)).
Proof.
  induction rem as [|r IH]; intros l p Hr Hl; [lia|].
  cbn [csub]. apply tiles_children; [lia|]. intros i Hi. cbv zeta.
  set (Q := (p * 2 ^ d + i)%N). rewrite clt_succ.
  destruct (count (l + 1) Q =? 0) eqn:E0; [simpl; lia|].
  unfold crit_cell. simpl negb. rewrite andb_true_l.
  destruct ((count (l + 1) Q <=? ncrit) || (count (l + 1) Q <=? max_leaf_n) || (l + 1 =? cb)%N) eqn:E.
  - simpl orb. rewrite csub_true.
    apply Nat.eqb_neq in E0.
    destruct (max_leaf_n <? count (l + 1) Q);
      cbn [map app tiles crange fst snd]; rewrite clt_succ; lia.
  - simpl orb. replace (max_leaf_n <? count (l + 1) Q) with true by lia.
    rewrite app_nil_l. rewrite <- clt_succ. apply IH; lia.
Qed.

(** Which cells are critical. *)
Lemma in_csub : forall rem l p, N.of_nat rem = (cb - l)%N -> (l <= cb)%N ->
  forall l' q, In (l', q) (csub rem l p false) <->
    (In (l', q) (sub rem l p) /\ crit_cell false l' q = true /\
     forall m, (l < m)%N -> (m < l')%N -> crit_cell false m (N.shiftr q (d * (l' - m))) = false).
Proof.
  pose proof (pow2_pos d) as HD.
  induction rem as [|r IH]; intros l p Hr Hl l' q.
  - simpl. tauto.
  - cbn [csub sub]. rewrite !in_flat_map. cbv zeta. split.
    + intros [i [Hi H]]. pose proof Hi as Hi'. apply in_upto in Hi. rewrite N2Nat.id in Hi.
      set (Q := (p * 2 ^ d + i)%N) in *.
      destruct (count (l + 1) Q =? 0) eqn:E0; [destruct H|].
      apply in_app_or in H. destruct H as [H|H].
      * destruct (crit_cell false (l + 1) Q) eqn:Ec; [|destruct H].
        destruct H as [H|[]]. injection H as <- <-. split; [|split].
        -- exists i. split; [exact Hi'|]. fold Q. rewrite E0. now left.
        -- exact Ec.
        -- intros; lia.
      * destruct (max_leaf_n <? count (l + 1) Q) eqn:E1; [|destruct H].
        destruct (crit_cell false (l + 1) Q) eqn:Ec; simpl in H.
        { rewrite csub_true in H. destruct H. }
        apply IH in H; [|lia|lia]. destruct H as (H1 & H2 & H3). split; [|split].
        -- exists i. split; [exact Hi'|]. fold Q. rewrite E0, E1. now right.
        -- exact H2.
        -- intros m Hm Hm'. destruct (N.eq_dec m (l + 1)) as [->|Hne]; [|apply H3; lia].
           apply in_sub in H1; [|lia|lia]. destruct H1 as (_ & _ & -> & _). exact Ec.
    + intros ([i [Hi H]] & H2 & H3). exists i. split; [exact Hi|].
      set (Q := (p * 2 ^ d + i)%N) in *.
      destruct (count (l + 1) Q =? 0) eqn:E0; [destruct H|].
      destruct H as [H|H].
      * injection H as <- <-. rewrite H2. apply in_or_app. left. now left.
      * destruct (max_leaf_n <? count (l + 1) Q) eqn:E1; [|destruct H].
        pose proof H as Hs. apply in_sub in Hs; [|lia|lia]. destruct Hs as (H4 & H5 & H6 & _).
        pose proof (H3 (l + 1)%N ltac:(lia) ltac:(lia)) as Hc. rewrite H6 in Hc.
        rewrite Hc. simpl. apply IH; [lia|lia|]. split; [exact H|]. split; [exact H2|].
        intros; apply H3; lia.
Qed.

End Cells.
