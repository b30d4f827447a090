(** The builders produce exactly the nodes described in BuildSpec.v. *)
From Coq Require Import List Arith NArith ZArith Lia Bool Sorting.Sorted Permutation.
From Coq Require Import ZifyBool ZifyN ZifyNat.
From Verif Require Import Base Config Morton MortonProofs CodesProofs Build TreeSpec BuildSpec.
Import ListNotations.
Local Open Scope nat_scope.
Ltac Zify.zify_post_hook ::= Z.div_mod_to_equations.

(** * Binary search *)

Definition bpred (upper : bool) (shift v x : N) : bool :=
  if upper then negb (v <? N.shiftr x shift)%N else (N.shiftr x shift <? v)%N.

Lemma shiftr_mono : forall x y s, (x <= y)%N -> (N.shiftr x s <= N.shiftr y s)%N.
Proof.
  intros. rewrite !N.shiftr_div_pow2. apply N.div_le_mono; [|assumption].
  apply N.pow_nonzero. lia.
Qed.

Lemma bpred_down : forall upper shift v x y, (x <= y)%N ->
  bpred upper shift v y = true -> bpred upper shift v x = true.
Proof.
  intros upper shift v x y Hxy H. pose proof (shiftr_mono x y shift Hxy).
  unfold bpred in *. destruct upper; lia.
Qed.

Lemma bsearch_spec : forall upper codes shift v, sorted_codes codes ->
  forall fuel first len, len <= fuel -> first + len <= length codes ->
  first <= cntf (bpred upper shift v) codes <= first + len ->
  bsearch upper codes shift v fuel first len = Ok (cntf (bpred upper shift v) codes).
Proof.
  intros upper codes shift v Hs. set (K := cntf (bpred upper shift v) codes).
  induction fuel as [|fuel IH]; intros first len Hf Hl HK.
  - simpl. f_equal. lia.
  - cbn [bsearch]. destruct (len =? 0) eqn:E.
    + f_equal. lia.
    + cbv zeta. set (mid := first + len / 2).
      assert (Hm : mid < first + len) by (unfold mid; lia).
      destruct (rd_lt codes mid ltac:(lia)) as [x Hx]. rewrite Hx. cbn [bind].
      apply rd_Ok in Hx.
      pose proof (cntf_sorted (bpred upper shift v) codes Hs (bpred_down upper shift v) mid x Hx) as Hb.
      fold K in Hb. change (if upper then _ else _) with (bpred upper shift v x).
      destruct (bpred upper shift v x) eqn:Eb.
      * apply IH; lia.
      * assert (~ mid < K) by (intros Hc; apply Hb in Hc; discriminate).
        apply IH; unfold mid in *; lia.
Qed.

Lemma equal_range_spec : forall c codes l p b e, sorted_codes codes ->
  e <= length codes -> b <= clt c codes l p -> clt c codes l (p + 1) <= e ->
  equal_range codes (dimN c * (cbitsc c - l)) p b e = Ok (clt c codes l p, clt c codes l (p + 1)).
Proof.
  intros c codes l p b e Hs He Hb Hc. unfold equal_range.
  assert (H1 : cntf (bpred false (dimN c * (cbitsc c - l)) p) codes = clt c codes l p) by reflexivity.
  assert (H2 : cntf (bpred true (dimN c * (cbitsc c - l)) p) codes = clt c codes l (p + 1))
    by apply cle_clt.
  pose proof (clt_succ c codes l p).
  rewrite (bsearch_spec false) by (try assumption; rewrite ?H1; lia). cbn [bind].
  rewrite (bsearch_spec true) by (try assumption; rewrite ?H2; lia). cbn [bind].
  now rewrite H1, H2.
Qed.

(** * Code arithmetic of one recursion step *)

Lemma width_dim : forall c, (dimN c < width c)%N.
Proof. destruct c; reflexivity. Qed.

Lemma cbitsc_spec : forall c, (dimN c * cbitsc c < width c)%N /\ (1 <= cbitsc c)%N.
Proof. intros c. destruct (cbits_spec (width c) (dimN c) (dimN_pos c) (width_dim c)) as (H & _ & H'). auto. Qed.

Section Arith.

Variable c : cfg.
Let w := width c.
Let d := dimN c.
Let cb := cbitsc c.

Lemma pow_le_w : forall k, (k <= d * cb)%N -> (2 ^ k * 2 <= 2 ^ w)%N.
Proof.
  intros k Hk. destruct (cbitsc_spec c) as [H _]. fold w d cb in H.
  replace (2 ^ k * 2)%N with (2 ^ (k + 1))%N by (rewrite N.add_1_r, N.pow_succ_r'; lia).
  apply pow2_mono. lia.
Qed.

Lemma child_lt : forall l p i, (p < 2 ^ (d * l))%N -> (i < 2 ^ d)%N -> 
  (p * 2 ^ d + i < 2 ^ (d * (l + 1)))%N.
Proof.
  intros l p i Hp Hi.
  replace (d * (l + 1))%N with (d * l + d)%N by lia. rewrite N.pow_add_r. nia.
Qed.

Lemma step_one : forall l, (l + 1 <= cb)%N -> 
  shl w 1 (l * d) = Ok (2 ^ (d * l))%N.
Proof.
  intros l Hl.
  destruct (cbitsc_spec c) as [H _]. fold w d cb in H.
  unfold shl. replace (l * d <? w)%N with true by nia. f_equal.
  rewrite N.shiftl_mul_pow2, N.mul_1_l, (N.mul_comm l d). apply wrap_small.
  pose proof (pow_le_w (d * l) ltac:(nia)). pose proof (pow2_pos (d * l)). lia.
Qed.

Lemma step_prefix : forall l p, (l + 1 <= cb)%N -> (p < 2 ^ (d * l))%N -> 
  usub w (nodal d l p) (2 ^ (d * l)) = p.
Proof.
  intros l p Hl Hp.
  unfold usub, nodal, wrap.
  replace (2 ^ (d * l) + p + 2 ^ w - 2 ^ (d * l))%N with (p + 1 * 2 ^ w)%N by lia.
  rewrite N.mod_add by (pose proof (pow2_pos w); lia). apply N.mod_small.
  pose proof (pow_le_w (d * l) ltac:(nia)). lia.
Qed.

Lemma step_pre : forall l p, (l + 1 <= cb)%N -> (p < 2 ^ (d * l))%N -> 
  shl w p d = Ok (p * 2 ^ d)%N.
Proof.
  intros l p Hl Hp.
  unfold shl. replace (d <? w)%N with true by (symmetry; apply N.ltb_lt; apply width_dim).
  f_equal. rewrite N.shiftl_mul_pow2. apply wrap_small.
  pose proof (child_lt l p 0 Hp (pow2_pos d)). pose proof (pow_le_w (d * (l + 1)) ltac:(nia)). lia.
Qed.

Lemma step_child : forall l p i, (l + 1 <= cb)%N -> (p < 2 ^ (d * l))%N -> (i < 2 ^ d)%N -> 
  wrap w (p * 2 ^ d + i) = (p * 2 ^ d + i)%N.
Proof.
  intros l p i Hl Hp Hi.
  apply wrap_small. pose proof (child_lt l p i Hp Hi). pose proof (pow_le_w (d * (l + 1)) ltac:(nia)). lia.
Qed.

Lemma step_pc : forall l p, (l + 1 <= cb)%N -> (p < 2 ^ (d * l))%N -> 
  shl w (nodal d l p) d = Ok (nodal d l p * 2 ^ d)%N.
Proof.
  intros l p Hl Hp.
  unfold shl. replace (d <? w)%N with true by (symmetry; apply N.ltb_lt; apply width_dim).
  f_equal. rewrite N.shiftl_mul_pow2. apply wrap_small.
  pose proof (child_lt l p 0 Hp (pow2_pos d)). pose proof (pow_le_w (d * (l + 1)) ltac:(nia)).
  unfold nodal. replace (d * (l + 1))%N with (d * l + d)%N in * by lia.
  rewrite N.pow_add_r in *. lia.
Qed.

Lemma step_code : forall l p i, (l + 1 <= cb)%N -> (p < 2 ^ (d * l))%N -> (i < 2 ^ d)%N -> 
  wrap w (nodal d l p * 2 ^ d + i) = nodal d (l + 1) (p * 2 ^ d + i).
Proof.
  intros l p i Hl Hp Hi.
  pose proof (child_lt l p i Hp Hi) as H1. pose proof (pow_le_w (d * (l + 1)) ltac:(nia)) as H2.
  rewrite wrap_small.
  - unfold nodal. replace (d * (l + 1))%N with (d * l + d)%N by lia. rewrite N.pow_add_r. lia.
  - unfold nodal. replace (d * (l + 1))%N with (d * l + d)%N in * by lia.
    rewrite N.pow_add_r in *. lia.
Qed.

End Arith.

(** * Refinement *)

(** * Sorting *)

Section Sorting.

Context {A : Type}.
Variable lt : A -> A -> outcome bool.

(** [x] must come before [y], or the two are the same element. *)
Definition before (x y : A) : Prop :=
  (lt x y = Ok true /\ lt y x = Ok false) \/ (x = y /\ lt x y = Ok false).

Lemma insM_spec : forall M1 x M2, StronglySorted before (M1 ++ x :: M2) ->
  insM lt x (M1 ++ M2) = Ok (M1 ++ x :: M2).
Proof.
  induction M1 as [|y M1 IH]; intros x M2 H; simpl in *.
  - destruct M2 as [|z M2]; [reflexivity|]. simpl.
    inversion H as [|? ? _ Hf]; subst. inversion Hf as [|? ? Hz _]; subst.
    destruct Hz as [[_ Hz]|[-> Hz]]; rewrite Hz; reflexivity.
  - inversion H as [|? ? Hs Hf]; subst.
    assert (Hyx : before y x) by (rewrite Forall_forall in Hf; apply Hf, in_or_app; right; now left).
    destruct Hyx as [[Hyx _]|[-> Hyx]]; rewrite Hyx; cbn [bind].
    + rewrite IH by exact Hs. reflexivity.
    + f_equal. f_equal.
      (* all the elements of M1 are equal to x *)
      assert (Hall : forall z, In z M1 -> z = x).
      { intros z Hz. rewrite Forall_forall in Hf.
        assert (Hxz : before x z) by (apply Hf, in_or_app; now left).
        assert (Hzx : before z x).
        { clear - Hs Hz. induction M1 as [|a M1 IHM]; [destruct Hz|].
          simpl in Hs. inversion Hs as [|? ? Hs' Hf']; subst. destruct Hz as [->|Hz].
          - rewrite Forall_forall in Hf'. apply Hf', in_or_app. right; now left.
          - apply IHM; assumption. }
        destruct Hzx as [[Hzx _]|[-> _]]; [|reflexivity].
        destruct Hxz as [[_ Hxz]|[-> _]]; [congruence|reflexivity]. }
      clear - Hall. induction M1 as [|z M1 IHM]; [reflexivity|].
      rewrite (Hall z) by now left. simpl. f_equal. apply IHM. intros; apply Hall; now right.
Qed.

Lemma StronglySorted_remove : forall (R : A -> A -> Prop) M1 x M2,
  StronglySorted R (M1 ++ x :: M2) -> StronglySorted R (M1 ++ M2).
Proof.
  induction M1 as [|y M1 IH]; intros x M2 H; simpl in *; inversion H as [|? ? Hs Hf]; subst.
  - exact Hs.
  - constructor; [eapply IH; exact Hs|]. rewrite Forall_forall in *. intros z Hz. apply Hf.
    apply in_app_or in Hz. apply in_or_app. destruct Hz; [now left|right; now right].
Qed.

Lemma sortM_spec : forall L M, Permutation L M -> StronglySorted before M -> sortM lt L = Ok M.
Proof.
  induction L as [|x L IH]; intros M HP HS.
  - apply Permutation_nil in HP. subst. reflexivity.
  - assert (Hx : In x M) by (eapply Permutation_in; [exact HP|now left]).
    apply in_split in Hx. destruct Hx as (M1 & M2 & ->).
    apply Permutation_cons_app_inv in HP.
    cbn [sortM]. rewrite (IH (M1 ++ M2) HP) by (eapply StronglySorted_remove; exact HS).
    cbn [bind]. now apply insM_spec.
Qed.

(** Any other sorting procedure gives the same list. *)
Lemma sorted_perm_unique : forall L M, Permutation L M -> StronglySorted before M ->
  StronglySorted (fun x y => lt y x = Ok false) L -> L = M.
Proof.
  induction L as [|x L IH]; intros M HP HM HL.
  - apply Permutation_nil in HP. now subst.
  - destruct M as [|m M]; [apply Permutation_sym, Permutation_nil in HP; discriminate|].
    inversion HL as [|? ? HL' HLf]; subst. inversion HM as [|? ? HM' HMf]; subst.
    assert (E : x = m).
    { assert (Hm : In m (x :: L)) by (eapply Permutation_in; [apply Permutation_sym; exact HP|now left]).
      assert (Hx : In x (m :: M)) by (eapply Permutation_in; [exact HP|now left]).
      destruct Hm as [->|Hm]; [reflexivity|]. destruct Hx as [->|Hx]; [reflexivity|].
      rewrite Forall_forall in *. pose proof (HLf m Hm) as H1. pose proof (HMf x Hx) as H2.
      destruct H2 as [[H2 _]|[-> _]]; [congruence|reflexivity]. }
    subst m. f_equal. apply IH; auto. eapply Permutation_cons_inv; exact HP.
Qed.

End Sorting.

(** Two lists sorted element by element: heads of the sublists of a sorted list. *)
Lemma heads_sorted : forall {A} (R : A -> A -> Prop) (LL : list (list A)),
  StronglySorted R (concat LL) ->
  StronglySorted (fun l1 l2 => forall x y, In x l1 -> In y l2 -> R x y) LL.
Proof.
  induction LL as [|l LL IH]; intros H; [constructor|].
  simpl in H. constructor.
  - apply IH. clear - H. induction l as [|a l IHl]; [exact H|].
    simpl in H. inversion H; subst. apply IHl; assumption.
  - apply Forall_forall. intros l2 Hl2 x y Hx Hy.
    assert (Hy' : In y (concat LL)) by (apply in_concat; eauto).
    clear - H Hx Hy'. induction l as [|a l IHl]; [destruct Hx|].
    simpl in H. inversion H as [|? ? Hs Hf]; subst. destruct Hx as [->|Hx].
    + rewrite Forall_forall in Hf. apply Hf, in_or_app. now right.
    + apply IHl; assumption.
Qed.

Lemma StronglySorted_impl : forall {A} (R S : A -> A -> Prop) l,
  (forall x y, In x l -> In y l -> R x y -> S x y) -> StronglySorted R l -> StronglySorted S l.
Proof.
  induction l as [|a l IH]; intros H HS; [constructor|].
  inversion HS as [|? ? Hs Hf]; subst. constructor.
  - apply IH; [|exact Hs]. intros; apply H; auto; now right.
  - rewrite Forall_forall in *. intros y Hy. apply H; auto; [now left|now right].
Qed.

Lemma StronglySorted_filter : forall {A} (R : A -> A -> Prop) f l,
  StronglySorted R l -> StronglySorted R (filter f l).
Proof.
  induction l as [|a l IH]; intros HS; [constructor|].
  inversion HS as [|? ? Hs Hf]; subst. simpl. destruct (f a); [|auto].
  constructor; [auto|]. rewrite Forall_forall in *. intros y Hy. apply filter_In in Hy. apply Hf, Hy.
Qed.

Lemma StronglySorted_Forall2 : forall {A B} (rel : A -> B -> Prop) (R : A -> A -> Prop) (S : B -> B -> Prop) la lb,
  Forall2 rel la lb ->
  (forall a1 b1 a2 b2, In b1 lb -> In b2 lb -> rel a1 b1 -> rel a2 b2 -> S b1 b2 -> R a1 a2) ->
  StronglySorted S lb -> StronglySorted R la.
Proof.
  intros A B rel R S la lb HF. induction HF as [|a b la lb Hab HF IH]; intros H HS; [constructor|].
  inversion HS as [|? ? Hs Hf]; subst. constructor.
  - apply IH; [|exact Hs]. intros a1 b1 a2 b2 H1 H2. apply H; now right.
  - apply Forall_forall. intros a2 Ha2.
    assert (Hex : exists b2, In b2 lb /\ rel a2 b2).
    { clear - HF Ha2. induction HF as [|a0 b0 la lb H0 HF IH]; [destruct Ha2|].
      destruct Ha2 as [<-|Ha2]; [exists b0; split; [now left|assumption]|].
      destruct (IH Ha2) as [b2 [? ?]]. exists b2. split; [now right|assumption]. }
    destruct Hex as [b2 [Hb2 Hr]]. rewrite Forall_forall in Hf.
    eapply H; [now left|right; exact Hb2|exact Hab|exact Hr|apply Hf; exact Hb2].
Qed.

Lemma Forall2_len : forall {A B} (R : A -> B -> Prop) la lb, Forall2 R la lb -> length la = length lb.
Proof. induction 1; simpl; congruence. Qed.

Section Post.

(** [A] and [C]: what the containers hold; [B] and [D]: their descriptions. *)
Context {A B C D : Type}.
Variable relA : A -> B -> Prop.
Variable mkC : D -> C.
Variable flat : B -> list cell.
Variable cok : cell -> outcome unit.

Definition post (st : list A * list C * nat) (bs : list B) (ds : list D)
    (r : outcome (list A * list C * nat)) : Prop :=
  let '(tree, crit, ret) := st in
  match r with
  | Ok (t, c', n) =>
      exists new, t = tree ++ new /\ Forall2 relA new bs /\ c' = crit ++ map mkC ds /\
                  n = ret + length (flat_map flat bs)
  | Throw e =>
      (exists x, In x (flat_map flat bs) /\ cok x = Throw e) \/
      (e = OverflowError /\ (size_max < N.of_nat (ret + length (flat_map flat bs)))%N)
  | UB => exists x, In x (flat_map flat bs) /\ cok x = UB
  end.

Lemma foldM_post : forall (f : list A * list C * nat -> N -> outcome (list A * list C * nat))
    (kb : N -> list B) (kd : N -> list D) L,
  (forall i st, In i L -> post st (kb i) (kd i) (f st i)) ->
  forall st, post st (flat_map kb L) (flat_map kd L) (foldM f L st).
Proof.
  intros f kb kd. induction L as [|i L IH]; intros H [[tree crit] ret].
  - simpl. exists []. rewrite !app_nil_r. repeat split; auto.
  - cbn [foldM flat_map]. pose proof (H i (tree, crit, ret) (or_introl eq_refl)) as Hi.
    destruct (f (tree, crit, ret) i) as [[[t c'] n]|e|] eqn:E; cbn [bind].
    + specialize (IH (fun j st Hj => H j st (or_intror Hj)) (t, c', n)).
      cbn [post] in Hi. destruct Hi as (new & -> & Hf & -> & ->).
      unfold post in *. rewrite flat_map_app, app_length.
      destruct (foldM f L _) as [[[t2 c2] n2]|e|].
      * destruct IH as (new2 & -> & Hf2 & -> & ->).
        exists (new ++ new2). rewrite !app_assoc, map_app, app_assoc.
        repeat split; auto; [now apply Forall2_app|lia].
      * destruct IH as [(x & Hx & Hc)|[-> Ho]].
        -- left. exists x. split; [apply in_or_app; now right|exact Hc].
        -- right. split; [reflexivity|lia].
      * destruct IH as (x & Hx & Hc). exists x. split; [apply in_or_app; now right|exact Hc].
    + cbn [post] in *. rewrite flat_map_app, app_length.
      destruct Hi as [(x & Hx & Hc)|[-> Ho]].
      * left. exists x. split; [apply in_or_app; now left|exact Hc].
      * right. split; [reflexivity|lia].
    + cbn [post] in *. rewrite flat_map_app.
      destruct Hi as (x & Hx & Hc). exists x. split; [apply in_or_app; now left|exact Hc].
Qed.

End Post.

Section Refine.

Variable c : cfg.
Variable codes : list N.
Variables max_leaf_n ncrit : nat.
Variable P : Type.
Variable cnp : nat -> nat -> N -> N -> outcome P.
Variable split_nparts : nat.
Hypothesis Hsorted : sorted_codes codes.

Let w := width c.
Let d := dimN c.
Let cb := cbitsc c.

Notation clt := (clt c codes).
Notation count := (count c codes).
Notation sub := (sub c codes max_leaf_n).
Notation csub := (csub c codes max_leaf_n ncrit).
Notation desc := (desc c codes max_leaf_n).
Notation crit_cell := (crit_cell c codes max_leaf_n ncrit).

(** Properties of the node of a cell. *)
Definition cnp_of (x : cell) : outcome P :=
  cnp (clt (fst x) (snd x)) (clt (fst x) (snd x + 1)) (nodal d (fst x) (snd x)) (fst x).

Definition cok (x : cell) : outcome unit := do _ <- cnp_of x; Ok tt.

(** [nd] is the node of the cell [x]. *)
Definition node_ok (nd : node P) (x : cell) : Prop :=
  n_begin nd = clt (fst x) (snd x) /\ n_end nd = clt (fst x) (snd x + 1) /\
  n_children nd = length (desc x) /\ n_code nd = nodal d (fst x) (snd x) /\
  n_level nd = fst x /\ cnp_of x = Ok (n_props nd).

Definition mkc (x : cell) : cnode :=
  mkCnode (nodal d (fst x) (snd x)) (clt (fst x) (snd x)) (clt (fst x) (snd x + 1)).

Definition flat1 (x : cell) : list cell := [x].
Lemma flat_map_flat1 : forall l, flat_map flat1 l = l.
Proof. induction l; simpl; congruence. Qed.

Definition post_ser := @post (node P) cell cnode cell node_ok mkc flat1 cok.

Lemma checked_uinc_cases : forall a b,
  (checked_uinc a b = Ok (a + b) /\ (N.of_nat (a + b) <= size_max)%N) \/
  (checked_uinc a b = Throw OverflowError /\ (size_max < N.of_nat (a + b))%N).
Proof.
  intros a b. unfold checked_uinc.
  destruct (size_max <? N.of_nat a + N.of_nat b)%N eqn:E; [right|left]; split; try reflexivity; lia.
Qed.

Definition level_ok (rem : nat) (l p : N) : Prop :=
  N.of_nat rem = (cb - l)%N /\ (l <= cb)%N /\ (p < 2 ^ (d * l))%N.

Lemma level_ok_child : forall r l p i, level_ok (S r) l p -> (i < 2 ^ d)%N ->
  level_ok r (l + 1) (p * 2 ^ d + i).
Proof. clear.
  intros r l p i (H1 & H2 & H3) Hi. repeat split; try lia. apply child_lt; fold d cb; try assumption; lia.
Qed.

(** The range computation done for child [i]. *)
Lemma child_range : forall r l p i, level_ok (S r) l p -> (i < 2 ^ d)%N ->
  equal_range codes ((cb - l - 1) * d) (p * 2 ^ d + i) (clt l p) (clt l (p + 1))
  = Ok (clt (l + 1) (p * 2 ^ d + i), clt (l + 1) (p * 2 ^ d + i + 1)).
Proof.
  intros r l p i (H1 & H2 & H3) Hi.
  replace ((cb - l - 1) * d)%N with (dimN c * (cbitsc c - (l + 1)))%N
    by (rewrite N.mul_comm; unfold d, cb; f_equal; lia).
  destruct (clt_child c codes l p i ltac:(unfold cb in *; lia) Hi) as [Ha Hb].
  apply equal_range_spec; auto.
  - apply clt_le_length.
  - rewrite clt_succ. exact Hb.
Qed.

Lemma build_ser_spec : forall rem l p tree crit ca, level_ok rem l p ->
  post_ser (tree, crit, 0) (sub rem l p) (csub rem l p ca)
    (build_ser c codes max_leaf_n ncrit cnp rem tree crit (nodal d l p) (clt l p) (clt l (p + 1)) ca).
Proof.
  induction rem as [|r IH]; intros l p tree crit ca Hlv.
  - simpl. exists []. rewrite !app_nil_r. repeat split; auto.
  - pose proof Hlv as (Hr & Hl & Hp).
    assert (Hl1 : (l + 1 <= cb)%N) by lia.
    cbn [build_ser]. fold w d cb.
    replace (cb - N.of_nat (S r))%N with l by lia.
    assert (Hone : shl w 1 (l * d) = Ok (2 ^ (d * l))%N) by (apply step_one; exact Hl1).
    assert (Hpr : usub w (nodal d l p) (2 ^ (d * l)) = p) by (apply step_prefix; assumption).
    rewrite Hone. cbn [bind]. cbv zeta. rewrite Hpr.
    unfold BuildSpec.sub, BuildSpec.csub. fold (BuildSpec.sub c codes max_leaf_n).
    fold (BuildSpec.csub c codes max_leaf_n ncrit). fold d.
    apply foldM_post. clear tree crit.
    intros i [[tree crit] ret] Hi. apply in_upto in Hi. rewrite N2Nat.id in Hi.
    assert (Hpre : shl w p d = Ok (p * 2 ^ d)%N) by (eapply step_pre; eassumption).
    rewrite Hpre. cbn [bind].
    assert (Hch : wrap w (p * 2 ^ d + i) = (p * 2 ^ d + i)%N) by (eapply step_child; eassumption).
    rewrite Hch. fold cb.
    rewrite (child_range r l p i Hlv Hi). cbn [bind].
    assert (Hpc : shl w (nodal d l p) d = Ok (nodal d l p * 2 ^ d)%N) by (eapply step_pc; eassumption).
    assert (Hcode : wrap w (nodal d l p * 2 ^ d + i) = nodal d (l + 1) (p * 2 ^ d + i))
      by (eapply step_code; eassumption).
    pose proof (level_ok_child r l p i Hlv Hi) as Hlv'.
    set (Q := (p * 2 ^ d + i)%N) in *.
    assert (Ecnt : clt (l + 1) (Q + 1) - clt (l + 1) Q = count (l + 1) Q)
      by (rewrite clt_succ; lia).
    rewrite !Ecnt.
    destruct (count (l + 1) Q =? 0) eqn:E0.
    { simpl. exists []. rewrite !app_nil_r. repeat split; auto. }
    rewrite Hpc. cbn [bind]. rewrite Hcode.
    set (x := (l + 1, Q)%N : cell).
    change (cnp _ _ _ _) with (cnp_of x).
    assert (Hcnp : match cnp_of x with Ok _ => True | Throw e => cok x = Throw e | UB => cok x = UB end).
    { unfold cok. destruct (cnp_of x); simpl; auto. }
    destruct (cnp_of x) as [props|e|] eqn:Ecnp; cbn [bind].
    2:{ simpl. left. exists x. split; [now left|exact Hcnp]. }
    2:{ simpl. exists x. split; [now left|exact Hcnp]. }
    rewrite app_length. cbn [length]. rewrite Nat.add_sub.
    assert (Ecrit : critical_node c max_leaf_n ncrit ca (count (l + 1) Q) l
                    = crit_cell ca (l + 1) Q) by reflexivity.
    assert (Hdesc : desc x = if max_leaf_n <? count (l + 1) Q then sub r (l + 1) Q else []).
    { unfold BuildSpec.desc, x. cbn [fst snd].
      replace (N.to_nat (cbitsc c - (l + 1))) with r by (destruct Hlv' as [? _]; unfold cb in *; lia).
      reflexivity. }
    rewrite Ecrit.
    set (cr := crit_cell ca (l + 1) Q).
    set (crit1 := if cr then _ else crit).
    assert (Ecrit1 : crit1 = crit ++ map mkc (if cr then [x] else [])).
    { unfold crit1. destruct cr; [reflexivity|now rewrite app_nil_r]. }
    clearbody crit1. subst crit1.
    destruct (max_leaf_n <? count (l + 1) Q) eqn:E1.
    + specialize (IH (l + 1)%N Q (tree ++ [mkNode (clt (l + 1) Q) (clt (l + 1) (Q + 1)) 0
          (nodal d (l + 1) Q) (l + 1) props])
          (crit ++ map mkc (if cr then [x] else [])) (cr || ca) Hlv').
      unfold post_ser, post in IH.
      destruct (build_ser _ _ _ _ _ _ _ _ _ _ _ _) as [[[t c'] n]|e|]; cbn [bind].
      * destruct IH as (new & -> & Hf & -> & ->). rewrite flat_map_flat1.
        unfold set_children. rewrite <- app_assoc. cbn [app].
        rewrite rd_app_mid. cbn [bind]. rewrite wr_app_mid.
        cbn [bind n_begin n_end n_code n_level n_props].
        rewrite rd_app_mid. cbn [bind n_children].
        destruct (checked_uinc_cases ret (0 + length (sub r (l + 1) Q))) as [[-> Ho]|[-> Ho]]; cbn [bind].
        2:{ unfold post_ser, post. right. rewrite flat_map_flat1. split; [reflexivity|]. cbn [length]. lia. }
        destruct (checked_uinc_cases (ret + (0 + length (sub r (l + 1) Q))) 1) as [[-> Ho1]|[-> Ho1]]; cbn [bind].
        2:{ unfold post_ser, post. right. rewrite flat_map_flat1. split; [reflexivity|]. cbn [length]. lia. }
        unfold post_ser, post. eexists. split; [reflexivity|]. split; [|split].
        -- constructor; [|exact Hf]. unfold node_ok. cbn [n_begin n_end n_children n_code n_level n_props].
           rewrite Hdesc. unfold x; cbn [fst snd]. repeat split; auto.
        -- rewrite map_app, app_assoc. reflexivity.
        -- rewrite flat_map_flat1. cbn [length]. lia.
      * unfold post_ser, post. rewrite flat_map_flat1 in *. destruct IH as [(y & Hy & Hc)|[-> Ho]].
        -- left. exists y. split; [now right|exact Hc].
        -- right. split; [reflexivity|]. cbn [length]. lia.
      * unfold post_ser, post. rewrite flat_map_flat1 in *. destruct IH as (y & Hy & Hc).
        exists y. split; [now right|exact Hc].
    + cbn [bind]. rewrite rd_app_mid. cbn [bind n_children].
      destruct (checked_uinc_cases ret 0) as [[-> Ho]|[-> Ho]]; cbn [bind].
      2:{ unfold post_ser, post. right. rewrite flat_map_flat1. split; [reflexivity|]. cbn [length]. lia. }
      destruct (checked_uinc_cases (ret + 0) 1) as [[-> Ho1]|[-> Ho1]]; cbn [bind].
      2:{ unfold post_ser, post. right. rewrite flat_map_flat1. split; [reflexivity|]. cbn [length]. lia. }
      unfold post_ser, post. eexists. split; [reflexivity|]. split; [|split].
      * constructor; [|constructor]. unfold node_ok. cbn [n_begin n_end n_children n_code n_level n_props].
        rewrite Hdesc. unfold x; cbn [fst snd]. repeat split; auto.
      * rewrite app_nil_r. reflexivity.
      * rewrite flat_map_flat1. cbn [length]. lia.
Qed.

(** * Parallel builder *)

(** The partial trees published by [build_par], in the order of the sequential schedule. *)
Fixpoint ptrees (rem : nat) (l p : N) : list (list cell) :=
  match rem with
  | O => []
  | S r => flat_map (fun i =>
      let q := (p * 2 ^ d + i)%N in
      if count (l + 1) q =? 0 then []
      else if max_leaf_n <? count (l + 1) q
           then if count (l + 1) q <? split_nparts
                then [(l + 1, q)%N :: sub r (l + 1)%N q]
                else [(l + 1, q)%N] :: ptrees r (l + 1)%N q
           else [[(l + 1, q)%N]])
      (upto (N.to_nat (2 ^ d)))
  end.

(** The lists of critical nodes published by [build_par]. *)
Fixpoint pcrits (rem : nat) (l p : N) (ca : bool) : list (list cell) :=
  match rem with
  | O => []
  | S r => flat_map (fun i =>
      let q := (p * 2 ^ d + i)%N in
      if count (l + 1) q =? 0 then []
      else
        let cr := crit_cell ca (l + 1) q in
        let base := if cr then [(l + 1, q)%N] else [] in
        if max_leaf_n <? count (l + 1) q
        then if count (l + 1) q <? split_nparts
             then [base ++ csub r (l + 1)%N q (cr || ca)]
             else base :: pcrits r (l + 1)%N q (cr || ca)
        else [base])
      (upto (N.to_nat (2 ^ d)))
  end.

Definition flatL (t : list cell) : list cell := t.
Lemma flat_map_flatL : forall l, flat_map flatL l = concat l.
Proof. induction l as [|a l IH]; [reflexivity|]. cbn [flat_map concat]. rewrite IH. reflexivity. Qed.

Lemma concat_flat_map : forall {A B} (f : A -> list (list B)) L,
  concat (flat_map f L) = flat_map (fun x => concat (f x)) L.
Proof. induction L; simpl; [reflexivity|]. now rewrite concat_app, IHL. Qed.

Lemma flat_map_ext_in : forall {A B} (f g : A -> list B) L,
  (forall x, In x L -> f x = g x) -> flat_map f L = flat_map g L.
Proof.
  induction L as [|a L IH]; intros H; simpl; [reflexivity|].
  rewrite H by now left. rewrite IH; [reflexivity|]. intros; apply H; now right.
Qed.

Lemma ptrees_concat : forall rem l p, concat (ptrees rem l p) = sub rem l p.
Proof.
  induction rem as [|r IH]; intros l p; [reflexivity|].
  cbn [ptrees BuildSpec.sub]. rewrite concat_flat_map. apply flat_map_ext_in. intros i _. cbv zeta.
  fold d. set (Q := (p * 2 ^ d + i)%N).
  destruct (count (l + 1) Q =? 0); [reflexivity|].
  destruct (max_leaf_n <? count (l + 1) Q); [|reflexivity].
  destruct (count (l + 1) Q <? split_nparts).
  - simpl. now rewrite app_nil_r.
  - simpl. now rewrite IH.
Qed.

Lemma pcrits_concat : forall rem l p ca, concat (pcrits rem l p ca) = csub rem l p ca.
Proof.
  induction rem as [|r IH]; intros l p ca; [reflexivity|].
  cbn [pcrits BuildSpec.csub]. rewrite concat_flat_map. apply flat_map_ext_in. intros i _. cbv zeta.
  fold d. set (Q := (p * 2 ^ d + i)%N).
  destruct (count (l + 1) Q =? 0); [reflexivity|].
  destruct (max_leaf_n <? count (l + 1) Q); [|reflexivity].
  destruct (count (l + 1) Q <? split_nparts).
  - cbn [concat]. now rewrite app_nil_r.
  - cbn [concat]. now rewrite IH.
Qed.

Lemma ptrees_nonempty : forall rem l p t, In t (ptrees rem l p) -> t <> [].
Proof.
  induction rem as [|r IH]; intros l p t Ht; [destruct Ht|].
  cbn [ptrees] in Ht. apply in_flat_map in Ht. destruct Ht as [i [_ Ht]]. cbv zeta in Ht.
  destruct (count (l + 1) (p * 2 ^ d + i) =? 0); [destruct Ht|].
  destruct (max_leaf_n <? count (l + 1) (p * 2 ^ d + i)).
  - destruct (count (l + 1) (p * 2 ^ d + i) <? split_nparts).
    + destruct Ht as [<-|[]]. discriminate.
    + destruct Ht as [<-|Ht]; [discriminate|]. eapply IH; eauto.
  - destruct Ht as [<-|[]]. discriminate.
Qed.

Definition post_par :=
  @post (list (node P)) (list cell) (list cnode) (list cell) (Forall2 node_ok) (map mkc) flatL cok.

Lemma build_par_spec : forall rem l p trees crits ca, level_ok rem l p ->
  post_par (trees, crits, 0) (ptrees rem l p) (pcrits rem l p ca)
    (build_par c codes max_leaf_n ncrit cnp split_nparts rem trees crits (nodal d l p)
       (clt l p) (clt l (p + 1)) ca).
Proof.
  induction rem as [|r IH]; intros l p trees crits ca Hlv.
  - simpl. exists []. rewrite !app_nil_r. repeat split; auto.
  - pose proof Hlv as (Hr & Hl & Hp).
    assert (Hl1 : (l + 1 <= cb)%N) by lia.
    cbn [build_par]. fold w d cb.
    replace (cb - N.of_nat (S r))%N with l by lia.
    assert (Hone : shl w 1 (l * d) = Ok (2 ^ (d * l))%N) by (apply step_one; exact Hl1).
    assert (Hpr : usub w (nodal d l p) (2 ^ (d * l)) = p) by (apply step_prefix; assumption).
    rewrite Hone. cbn [bind]. cbv zeta. rewrite Hpr.
    cbn [ptrees pcrits].
    apply foldM_post. clear trees crits.
    intros i [[trees crits] ret] Hi. apply in_upto in Hi. rewrite N2Nat.id in Hi.
    assert (Hpre : shl w p d = Ok (p * 2 ^ d)%N) by (eapply step_pre; eassumption).
    rewrite Hpre. cbn [bind].
    assert (Hch : wrap w (p * 2 ^ d + i) = (p * 2 ^ d + i)%N) by (eapply step_child; eassumption).
    rewrite Hch. fold cb.
    rewrite (child_range r l p i Hlv Hi). cbn [bind].
    assert (Hpc : shl w (nodal d l p) d = Ok (nodal d l p * 2 ^ d)%N) by (eapply step_pc; eassumption).
    assert (Hcode : wrap w (nodal d l p * 2 ^ d + i) = nodal d (l + 1) (p * 2 ^ d + i))
      by (eapply step_code; eassumption).
    pose proof (level_ok_child r l p i Hlv Hi) as Hlv'.
    set (Q := (p * 2 ^ d + i)%N) in *.
    assert (Ecnt : clt (l + 1) (Q + 1) - clt (l + 1) Q = count (l + 1) Q)
      by (rewrite clt_succ; lia).
    rewrite !Ecnt.
    destruct (count (l + 1) Q =? 0) eqn:E0.
    { simpl. exists []. rewrite !app_nil_r. repeat split; auto. }
    rewrite Hpc. cbn [bind]. rewrite Hcode.
    set (x := (l + 1, Q)%N : cell).
    change (cnp _ _ _ _) with (cnp_of x).
    assert (Hcnp : match cnp_of x with Ok _ => True | Throw e => cok x = Throw e | UB => cok x = UB end).
    { unfold cok. destruct (cnp_of x); simpl; auto. }
    assert (Hdesc : desc x = if max_leaf_n <? count (l + 1) Q then sub r (l + 1) Q else []).
    { unfold BuildSpec.desc, x. cbn [fst snd].
      replace (N.to_nat (cbitsc c - (l + 1))) with r by (destruct Hlv' as [? _]; unfold cb in *; lia).
      reflexivity. }
    set (bs := if max_leaf_n <? count (l + 1) Q
               then if count (l + 1) Q <? split_nparts then [x :: sub r (l + 1)%N Q]
                    else [x] :: ptrees r (l + 1)%N Q
               else [[x]]).
    match goal with |- post ?a ?b ?c1 ?d1 ?st _ ?ds ?r => change (post a b c1 d1 st bs ds r) end.
    assert (Hbs : flat_map flatL bs = x :: desc x).
    { rewrite Hdesc. unfold bs. destruct (max_leaf_n <? count (l + 1) Q); [|reflexivity].
      rewrite flat_map_flatL.
      destruct (count (l + 1) Q <? split_nparts); cbn [concat app].
      - now rewrite app_nil_r.
      - now rewrite ptrees_concat. }
    destruct (cnp_of x) as [props|e|] eqn:Ecnp; cbn [bind].
    2:{ unfold post_par, post. rewrite Hbs. left. exists x. split; [now left|exact Hcnp]. }
    2:{ unfold post_par, post. rewrite Hbs. exists x. split; [now left|exact Hcnp]. }
    assert (Ecrit : critical_node c max_leaf_n ncrit ca (count (l + 1) Q) l
                    = crit_cell ca (l + 1) Q) by reflexivity.
    rewrite Ecrit.
    set (cr := crit_cell ca (l + 1) Q).
    set (crit1 := if cr then [mkCnode _ _ _] else []).
    assert (Ecrit1 : crit1 = map mkc (if cr then [x] else [])).
    { unfold crit1. destruct cr; reflexivity. }
    clearbody crit1. subst crit1.
    set (n0 := mkNode (clt (l + 1) Q) (clt (l + 1) (Q + 1)) 0 (nodal d (l + 1) Q) (l + 1)%N props).
    set (nfin := mkNode (clt (l + 1) Q) (clt (l + 1) (Q + 1)) (length (desc x))
                   (nodal d (l + 1) Q) (l + 1)%N props).
    assert (Hnfin : node_ok nfin x).
    { unfold node_ok, nfin. cbn [n_begin n_end n_children n_code n_level n_props].
      repeat split; auto. }
    destruct (max_leaf_n <? count (l + 1) Q) eqn:E1.
    + destruct (count (l + 1) Q <? split_nparts) eqn:E2.
      * pose proof (build_ser_spec r (l + 1)%N Q [n0] (map mkc (if cr then [x] else []))
          (cr || ca) Hlv') as IHs.
        unfold post_ser, post in IHs.
        destruct (build_ser _ _ _ _ _ _ _ _ _ _ _ _) as [[[t c'] n]|e|]; cbn [bind].
        -- destruct IHs as (new & -> & Hf & -> & ->). rewrite flat_map_flat1.
           unfold set_children. cbn [app].
           change (rd (n0 :: new) 0) with (Ok n0). cbn [bind].
           change (wr (n0 :: new) 0 ?a) with (Ok (a :: new)).
           cbn [bind n_begin n_end n_code n_level n_props n0].
           rewrite rd_app_mid. cbn [bind].
           replace (0 + length (sub r (l + 1) Q)) with (length (desc x)) by (rewrite Hdesc; reflexivity).
           fold nfin. change (rd (nfin :: new) 0) with (Ok nfin). cbn [bind n_children].
           change (n_children nfin) with (length (desc x)).
           destruct (checked_uinc_cases ret (length (desc x))) as [[-> Ho]|[-> Ho]]; cbn [bind].
           2:{ unfold post_par, post. right. rewrite Hbs. split; [reflexivity|]. cbn [length]. lia. }
           destruct (checked_uinc_cases (ret + length (desc x)) 1) as [[-> Ho1]|[-> Ho1]]; cbn [bind].
           2:{ unfold post_par, post. right. rewrite Hbs. split; [reflexivity|]. cbn [length]. lia. }
           unfold post_par, post. eexists. split; [reflexivity|]. split; [|split].
           ++ unfold bs. constructor; [|constructor]. constructor; [exact Hnfin|exact Hf].
           ++ cbn [map]. rewrite map_app. reflexivity.
           ++ rewrite Hbs. cbn [length]. lia.
        -- unfold post_par, post. rewrite flat_map_flat1, Hbs, Hdesc in *.
           destruct IHs as [(y & Hy & Hc)|[-> Ho]].
           ++ left. exists y. split; [now right|exact Hc].
           ++ right. split; [reflexivity|]. cbn [length]. lia.
        -- unfold post_par, post. rewrite flat_map_flat1, Hbs, Hdesc in *.
           destruct IHs as (y & Hy & Hc). exists y. split; [now right|exact Hc].
      * specialize (IH (l + 1)%N Q (trees ++ [[n0]])
          (crits ++ [map mkc (if cr then [x] else [])]) (cr || ca) Hlv').
        unfold post_par, post in IH. rewrite flat_map_flatL, ptrees_concat in IH.
        destruct (build_par _ _ _ _ _ _ _ _ _ _ _ _ _) as [[[t c'] n]|e|]; cbn [bind].
        -- destruct IH as (new & -> & Hf & -> & ->).
           rewrite <- app_assoc. cbn [app].
           rewrite rd_app_mid. cbn [bind]. unfold set_children.
           change (rd [n0] 0) with (Ok n0). cbn [bind].
           change (wr [n0] 0 ?a) with (Ok [a]).
           cbn [bind n_begin n_end n_code n_level n_props n0].
           rewrite wr_app_mid. cbn [bind]. rewrite rd_app_mid. cbn [bind].
           replace (0 + length (sub r (l + 1) Q)) with (length (desc x)) by (rewrite Hdesc; reflexivity).
           fold nfin. change (rd [nfin] 0) with (Ok nfin). cbn [bind].
           change (n_children nfin) with (length (desc x)).
           destruct (checked_uinc_cases ret (length (desc x))) as [[-> Ho]|[-> Ho]]; cbn [bind].
           2:{ unfold post_par, post. right. rewrite Hbs. split; [reflexivity|]. cbn [length]. lia. }
           destruct (checked_uinc_cases (ret + length (desc x)) 1) as [[-> Ho1]|[-> Ho1]]; cbn [bind].
           2:{ unfold post_par, post. right. rewrite Hbs. split; [reflexivity|]. cbn [length]. lia. }
           unfold post_par, post. eexists. split; [reflexivity|]. split; [|split].
           ++ unfold bs. constructor; [|exact Hf]. constructor; [exact Hnfin|constructor].
           ++ rewrite <- app_assoc. reflexivity.
           ++ rewrite Hbs. cbn [length]. lia.
        -- unfold post_par, post. rewrite Hbs, Hdesc in *.
           destruct IH as [(y & Hy & Hc)|[-> Ho]].
           ++ left. exists y. split; [now right|exact Hc].
           ++ right. split; [reflexivity|]. cbn [length]. lia.
        -- unfold post_par, post. rewrite Hbs, Hdesc in *.
           destruct IH as (y & Hy & Hc). exists y. split; [now right|exact Hc].
    + assert (Hd0 : desc x = []) by exact Hdesc.
      cbn [bind]. rewrite rd_app_mid. cbn [bind].
      change (rd [n0] 0) with (Ok n0). cbn [bind].
      replace n0 with nfin by (unfold nfin, n0; rewrite Hd0; reflexivity).
      change (n_children nfin) with (length (desc x)).
      destruct (checked_uinc_cases ret (length (desc x))) as [[-> Ho]|[-> Ho]]; cbn [bind].
      2:{ unfold post_par, post. right. rewrite Hbs. split; [reflexivity|]. cbn [length]. lia. }
      destruct (checked_uinc_cases (ret + length (desc x)) 1) as [[-> Ho1]|[-> Ho1]]; cbn [bind].
      2:{ unfold post_par, post. right. rewrite Hbs. split; [reflexivity|]. cbn [length]. lia. }
      unfold post_par, post. eexists. split; [reflexivity|]. split; [|split].
      * unfold bs. constructor; [|constructor]. constructor; [exact Hnfin|constructor].
      * reflexivity.
      * rewrite Hbs. cbn [length]. lia.
Qed.

(** * The whole tree *)

Hypothesis Hrange : Forall (fun x => (x < 2 ^ (d * cb))%N) codes.

Lemma pfx0 : forall x, In x codes -> pfx c 0 x = 0%N.
Proof.
  intros x Hx. rewrite Forall_forall in Hrange. unfold pfx. rewrite N.sub_0_r, N.shiftr_div_pow2.
  apply N.div_small. apply Hrange. exact Hx.
Qed.

Lemma clt00 : clt 0 0 = 0.
Proof. apply cntf_zero. intros x Hx. rewrite pfx0 by exact Hx. reflexivity. Qed.

Lemma clt01 : clt 0 1 = length codes.
Proof. apply cntf_all. intros x Hx. rewrite pfx0 by exact Hx. reflexivity. Qed.

Lemma count00 : count 0 0 = length codes.
Proof. apply cntf_all. intros x Hx. rewrite pfx0 by exact Hx. reflexivity. Qed.

(** The cells that become nodes, in depth-first order. *)
Definition all_cells : list cell := (0, 0)%N :: desc (0, 0)%N.

(** The critical ones. *)
Definition all_crits : list cell :=
  if crit_cell false 0 0 then [(0, 0)%N] else csub (N.to_nat cb) 0%N 0%N false.

Lemma cb_pos : (1 <= cb)%N.
Proof. clear. apply cbitsc_spec. Qed.

Lemma level_ok_root : level_ok (N.to_nat cb) 0 0.
Proof. clear. repeat split; try lia. Qed.

Lemma node_compare_cells : forall x y n1 n2, node_ok n1 x -> node_ok n2 y ->
  (fst x <= cb)%N -> (snd x < 2 ^ (d * fst x))%N -> (fst y <= cb)%N -> (snd y < 2 ^ (d * fst y))%N ->
  cell_lt c x y ->
  node_compare w d (n_code n1) (n_code n2) = Ok true /\ node_compare w d (n_code n2) (n_code n1) = Ok false.
Proof. clear.
  intros [l1 p1] [l2 p2] n1 n2 (_ & _ & _ & -> & _) (_ & _ & _ & -> & _) H1 H2 H3 H4 Hlt.
  cbn [fst snd] in *. unfold cell_lt, fcell in Hlt. cbn [fst snd] in Hlt.
  assert (Hd : (0 < d)%N) by apply dimN_pos. assert (Hw : (d < w)%N) by apply width_dim.
  rewrite !node_compare_nodal by assumption.
  change (cbits w d) with cb. fold d cb in Hlt. split; f_equal; lia.
Qed.

Lemma prefix_lt : forall rem l p l' q, level_ok rem l p -> In (l', q) (sub rem l p) ->
  (q < 2 ^ (d * l'))%N.
Proof. clear.
  intros rem l p l' q (H1 & H2 & H3) H. apply in_sub in H; [|exact H1|exact H2].
  destruct H as (H4 & H5 & H6 & _). rewrite N.shiftr_div_pow2 in H6. fold d in H6.
  replace (d * l')%N with (d * l + d * (l' - l))%N by nia. rewrite N.pow_add_r.
  pose proof (pow2_pos (d * (l' - l))) as HD.
  pose proof (N.div_mod q (2 ^ (d * (l' - l))) ltac:(lia)) as E.
  pose proof (N.mod_lt q (2 ^ (d * (l' - l))) ltac:(lia)) as L.
  rewrite H6 in E. set (D := (2 ^ (d * (l' - l)))%N) in *.
  set (R := (q mod D)%N) in *. clearbody R D. nia.
Qed.

Lemma trees_before : forall rem l p ts, level_ok rem l p ->
  Forall2 (Forall2 node_ok) ts (ptrees rem l p) ->
  StronglySorted (before (trees_lt c)) ts.
Proof.
  intros rem l p ts Hlv HF.
  pose proof Hlv as (H1 & H2 & _).
  assert (HS : StronglySorted (cell_lt c) (concat (ptrees rem l p)))
    by (rewrite ptrees_concat; apply sub_sorted; assumption).
  apply heads_sorted in HS.
  eapply StronglySorted_Forall2; [exact HF| |exact HS].
  cbv beta. intros a1 b1 a2 b2 Hb1 Hb2 Hr1 Hr2 Hlt. left.
  assert (N1 := ptrees_nonempty _ _ _ _ Hb1). assert (N2 := ptrees_nonempty _ _ _ _ Hb2).
  destruct Hr1 as [|n1 x1 a1 b1 Hx1 _]; [congruence|].
  destruct Hr2 as [|n2 x2 a2 b2 Hx2 _]; [congruence|].
  specialize (Hlt x1 x2 (or_introl eq_refl) (or_introl eq_refl)).
  assert (I1 : In x1 (sub rem l p)) by (rewrite <- ptrees_concat; apply in_concat; eexists; split; [exact Hb1|now left]).
  assert (I2 : In x2 (sub rem l p)) by (rewrite <- ptrees_concat; apply in_concat; eexists; split; [exact Hb2|now left]).
  unfold trees_lt. cbn [rd nth_error bind].
  destruct x1 as [l1 q1], x2 as [l2 q2].
  eapply node_compare_cells; eauto; cbn [fst snd];
    try (eapply prefix_lt; eassumption);
    match goal with I : In (?a, _) _ |- (?a <= _)%N => apply sub_bounds in I; [apply I|assumption|assumption] end.
Qed.

Lemma tiles_sorted : forall l b e, tiles b l e ->
  StronglySorted (fun x y => fst x < fst y) l /\ Forall (fun x => b <= fst x) l.
Proof. clear.
  induction l as [|[x y] l IH]; intros b e H; [split; constructor|].
  simpl in H. destruct H as (-> & Hxy & H). destruct (IH _ _ H) as [Hs Hf]. split.
  - constructor; [exact Hs|]. rewrite Forall_forall in *. intros z Hz. specialize (Hf z Hz). simpl. lia.
  - constructor; [simpl; lia|]. rewrite Forall_forall in *. intros z Hz. specialize (Hf z Hz). lia.
Qed.

Definition is_nil {A} (l : list A) : bool := match l with [] => true | _ => false end.

Lemma crits_before : forall cs : list (list cnode),
  StronglySorted (fun x y => c_begin x < c_begin y) (concat cs) ->
  StronglySorted (before crits_lt) (filter is_nil cs ++ filter (fun l => negb (is_nil l)) cs).
Proof.
  intros cs HS. apply heads_sorted in HS. apply StronglySorted_app.
  - clear HS. induction cs as [|l cs IH]; [constructor|]. simpl. destruct l; simpl; [|exact IH].
    constructor; [exact IH|]. apply Forall_forall. intros y Hy. apply filter_In in Hy.
    destruct Hy as [_ Hy]. destruct y; [|discriminate]. right. split; reflexivity.
  - eapply StronglySorted_impl; [|apply StronglySorted_filter; exact HS].
    cbv beta. intros x y Hx Hy Hlt. apply filter_In in Hx, Hy.
    destruct x as [|a x]; [destruct Hx as [_ Hx]; discriminate|].
    destruct y as [|b y]; [destruct Hy as [_ Hy]; discriminate|].
    specialize (Hlt a b (or_introl eq_refl) (or_introl eq_refl)). left. simpl.
    split; f_equal; lia.
  - intros x y Hx Hy. apply filter_In in Hx, Hy.
    destruct x; [|destruct Hx as [_ Hx]; discriminate].
    destruct y; [destruct Hy as [_ Hy]; discriminate|]. left. split; reflexivity.
Qed.

Lemma filter_partition_perm : forall {A} f (l : list A),
  Permutation l (filter f l ++ filter (fun x => negb (f x)) l).
Proof.
  induction l as [|a l IH]; [constructor|]. simpl. destruct (f a); simpl.
  - now constructor.
  - apply Permutation_cons_app. exact IH.
Qed.

Lemma concat_partition : forall {A} (l : list (list A)),
  concat (filter is_nil l ++ filter (fun x => negb (is_nil x)) l) = concat l.
Proof.
  intros A l. rewrite concat_app. induction l as [|a l IH]; [reflexivity|].
  destruct a as [|x a]; simpl; [exact IH|].
  assert (Hn : forall m : list (list A), concat (filter is_nil m) = []).
  { induction m as [|b m IHm]; [reflexivity|]. destruct b; simpl; auto. }
  rewrite Hn in *. simpl in *. now rewrite IH.
Qed.

Lemma cum_check_cases : forall {A} (ls : list (list A)) start,
  (N.of_nat start <= size_max)%N ->
  (cum_check start ls = Ok (start + length (concat ls)) /\
   (N.of_nat (start + length (concat ls)) <= size_max)%N) \/
  (cum_check start ls = Throw OverflowError /\ (size_max < N.of_nat (start + length (concat ls)))%N).
Proof.
  unfold cum_check. induction ls as [|l ls IH]; intros start Hst.
  - left. simpl. split; [f_equal; lia|lia].
  - cbn [foldM concat]. rewrite app_length.
    destruct (checked_uinc_cases start (length l)) as [[-> Ho]|[-> Ho]]; cbn [bind].
    + destruct (IH (start + length l) Ho) as [[-> Ho']|[-> Ho']];
        [left; split; [f_equal; lia|lia]|right; split; [reflexivity|lia]].
    + right. split; [reflexivity|lia].
Qed.

Lemma all_crits_tiles : codes <> [] ->
  tiles 0 (map (crange c codes) all_crits) (length codes).
Proof. clear - Hrange.
  intros Hne. unfold all_crits. destruct (crit_cell false 0 0) eqn:E.
  - cbn [map tiles crange fst snd]. change (0 + 1)%N with 1%N. rewrite clt00, clt01.
    destruct codes; [congruence|]. simpl. lia.
  - pose proof (csub_tiles c codes max_leaf_n ncrit (N.to_nat cb) 0 0) as H.
    change (0 + 1)%N with 1%N in H. rewrite clt00, clt01 in H. apply H.
    + fold cb. lia.
    + pose proof cb_pos. fold cb. lia.
Qed.

Lemma crits_sorted : codes <> [] ->
  StronglySorted (fun x y => c_begin x < c_begin y) (map mkc all_crits).
Proof. clear - Hrange.
  intros Hne. pose proof (proj1 (tiles_sorted _ _ _ (all_crits_tiles Hne))) as H.
  revert H. generalize all_crits as L. induction L as [|x L IH]; intros H; [constructor|].
  simpl in *. inversion H as [|? ? Hs Hf]; subst. constructor; [auto|].
  rewrite Forall_forall in *. intros y Hy. apply in_map_iff in Hy. destruct Hy as [z [<- Hz]].
  simpl. apply (Hf (crange c codes z)). now apply in_map.
Qed.

Theorem build_tree_spec : forall sched_t sched_c,
  (forall l, Permutation (sched_t l) l) -> (forall l, Permutation (sched_c l) l) ->
  codes <> [] ->
  match build_tree c codes max_leaf_n ncrit cnp split_nparts sched_t sched_c with
  | Ok (t, cr) => Forall2 node_ok t all_cells /\ cr = map mkc all_crits /\
                  (N.of_nat (length all_cells) <= size_max)%N /\
                  (N.of_nat (length codes) <= diff_max)%N
  | Throw e => (exists x, In x all_cells /\ cok x = Throw e) \/
               (e = OverflowError /\
                ((size_max < N.of_nat (length all_cells))%N \/
                 (diff_max < N.of_nat (length codes))%N))
  | UB => exists x, In x all_cells /\ cok x = UB
  end.
Proof.
  intros sched_t sched_c Hst Hsc Hne. unfold build_tree.
  assert (Hn0 : (length codes =? 0) = false) by (destruct codes; [congruence|reflexivity]).
  rewrite Hn0. unfold it_diff_check.
  destruct (diff_max <? N.of_nat (length codes))%N eqn:Ed; cbn [bind].
  { right. split; [reflexivity|right; lia]. }
  set (n := length codes) in *.
  set (x0 := (0, 0)%N : cell).
  assert (Ex0 : cnp 0 n 1%N 0%N = cnp_of x0).
  { unfold cnp_of, x0. cbn [fst snd]. change (0 + 1)%N with 1%N. rewrite clt00, clt01.
    unfold nodal. rewrite N.mul_0_r. reflexivity. }
  rewrite Ex0.
  assert (Hcnp : match cnp_of x0 with Ok _ => True | Throw e => cok x0 = Throw e | UB => cok x0 = UB end).
  { unfold cok. destruct (cnp_of x0); simpl; auto. }
  destruct (cnp_of x0) as [props|e|] eqn:Ecnp; cbn [bind].
  2:{ left. exists x0. split; [now left|exact Hcnp]. }
  2:{ exists x0. split; [now left|exact Hcnp]. }
  clear Hcnp.
  assert (Hroot : (n <=? ncrit) || (n <=? max_leaf_n) = crit_cell false 0 0).
  { unfold BuildSpec.crit_cell. rewrite count00. simpl negb. rewrite andb_true_l.
    replace (0 =? cbitsc c)%N with false by (pose proof cb_pos; fold cb; lia).
    now rewrite orb_false_r. }
  rewrite Hroot. set (rc := crit_cell false 0 0) in *.
  assert (Hcr0 : mkCnode 1 0 n = mkc x0).
  { unfold mkc, x0. cbn [fst snd]. change (0 + 1)%N with 1%N. rewrite clt00, clt01.
    unfold nodal. rewrite N.mul_0_r. reflexivity. }
  rewrite Hcr0.
  set (crits0 := if rc then [[mkc x0]] else []).
  assert (Hdesc : desc x0 = if max_leaf_n <? n then sub (N.to_nat cb) 0 0 else []).
  { unfold BuildSpec.desc, x0. cbn [fst snd]. rewrite count00, N.sub_0_r. reflexivity. }
  (* result of the (optional) parallel phase *)
  match goal with |- context [bind ?ph _] => set (phase := ph) end.
  assert (Hphase : match phase with
    | Ok (ts, cs, k) => StronglySorted (before (trees_lt c)) ts /\
        Forall2 node_ok (concat ts) (desc x0) /\
        concat cs = map mkc all_crits /\ k = length (desc x0)
    | Throw e => (exists x, In x (desc x0) /\ cok x = Throw e) \/
                 (e = OverflowError /\ (size_max < N.of_nat (length all_cells))%N)
    | UB => exists x, In x (desc x0) /\ cok x = UB
    end).
  { subst phase. destruct (max_leaf_n <? n) eqn:E1.
    - pose proof (build_par_spec (N.to_nat cb) 0 0 [] crits0 rc level_ok_root) as H.
      change (0 + 1)%N with 1%N in H. rewrite clt00, clt01 in H.
      replace (nodal d 0 0) with 1%N in H by (unfold nodal; rewrite N.mul_0_r; reflexivity).
      fold n in H. unfold post_par, post in H. rewrite flat_map_flatL, ptrees_concat, <- Hdesc in H.
      destruct (build_par _ _ _ _ _ _ _ _ _ _ _ _ _) as [[[ts cs] k]|e|].
      + destruct H as (new & -> & Hf & -> & ->). cbn [app]. split; [|split; [|split]].
        * eapply trees_before; [exact level_ok_root|exact Hf].
        * rewrite Hdesc, <- ptrees_concat. clear - Hf. induction Hf; simpl; [constructor|].
          apply Forall2_app; assumption.
        * rewrite concat_app, <- concat_map, pcrits_concat. unfold all_crits. fold rc.
          unfold crits0. destruct rc; [rewrite csub_true|]; reflexivity.
        * reflexivity.
      + destruct H as [H|[-> H]]; [left; exact H|right; split; [reflexivity|]].
        unfold all_cells. cbn [length]. fold x0. lia.
      + exact H.
    - rewrite Hdesc. split; [constructor|]. split; [constructor|]. split; [|reflexivity].
      assert (Hrc : rc = true) by (rewrite <- Hroot; lia).
      unfold crits0, all_crits. fold rc. rewrite Hrc. reflexivity. }
  clearbody phase. destruct phase as [[[ts cs] k]|e|]; cbn [bind].
  - destruct Hphase as (Hts & Hf & Hcs & ->).
    rewrite (sortM_spec (trees_lt c) (sched_t ts) ts (Hst ts) Hts). cbn [bind].
    assert (Hlen : length (concat ts) = length (desc x0)) by (eapply Forall2_len; exact Hf).
    destruct (cum_check_cases ts 1 ltac:(unfold size_max; lia)) as [[-> Hsz]|[-> Ho]]; cbn [bind].
    2:{ right. split; [reflexivity|]. left. unfold all_cells. cbn [length]. fold x0. lia. }
    assert (Hcsb : StronglySorted (before crits_lt)
              (filter is_nil cs ++ filter (fun l => negb (is_nil l)) cs)).
    { apply crits_before. rewrite Hcs. now apply crits_sorted. }
    rewrite (sortM_spec crits_lt (sched_c cs) _
      (Permutation_trans (Hsc cs) (filter_partition_perm is_nil cs)) Hcsb). cbn [bind].
    assert (Hclen : length (map mkc all_crits) <= length codes).
    { rewrite map_length. pose proof (all_crits_tiles Hne) as T. clear - T.
      revert T. rewrite <- (map_length (crange c codes) all_crits).
      generalize (map (crange c codes) all_crits) as L. generalize 0 at 1 as b. generalize (length codes) as e.
      assert (H : forall L b e, tiles b L e -> b + length L <= e).
      { induction L as [|[x y] L IH]; intros b e H; simpl in *; [lia|].
        destruct H as (-> & Hxy & H). apply IH in H. lia. }
      intros e b L T. apply H in T. lia. }
    destruct (cum_check_cases (filter is_nil cs ++ filter (fun l => negb (is_nil l)) cs) 0
      ltac:(unfold size_max; lia)) as [[-> _]|[-> Ho]]; cbn [bind].
    2:{ exfalso. rewrite concat_partition, Hcs in Ho. fold n in Hclen. unfold size_max, diff_max in *. lia. }
    split; [|split; [|split]].
    + constructor; [|exact Hf]. unfold node_ok, x0. cbn [fst snd n_begin n_end n_children n_code n_level n_props].
      change (0 + 1)%N with 1%N. rewrite clt00, clt01. repeat split; auto.
      unfold nodal. rewrite N.mul_0_r. reflexivity.
    + rewrite concat_partition. exact Hcs.
    + unfold all_cells. cbn [length]. fold x0. lia.
    + fold n. lia.
  - destruct Hphase as [(x & Hx & Hc)|[-> Ho]].
    + left. exists x. split; [now right|exact Hc].
    + right. split; [reflexivity|]. now left.
  - destruct Hphase as (x & Hx & Hc). exists x. split; [now right|exact Hc].
Qed.

Lemma all_cells_length : length all_cells <= 1 + N.to_nat cb * length codes.
Proof. clear - Hrange.
  unfold all_cells. cbn [length]. apply le_n_S.
  unfold BuildSpec.desc. cbn [fst snd]. destruct (max_leaf_n <? count 0 0); [|simpl; lia].
  rewrite <- count00. rewrite N.sub_0_r. apply sub_length; fold cb; lia.
Qed.

End Refine.
