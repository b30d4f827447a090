(** Facts about keyword arguments. *)
From Coq Require Import List Arith NArith ZArith Lia Bool Permutation.
From Verif Require Import Base Config Morton Build TreeSpec FOps NodeProps Tree Kernels Force Kw.
Import ListNotations.
Local Open Scope nat_scope.

Lemma tag_eqb_eq : forall a b, tag_eqb a b = true <-> a = b.
Proof.
  intros a b. split; [|intros ->; destruct b; cbn; auto using Nat.eqb_refl].
  destruct a, b; cbn; intros H; try discriminate; try reflexivity. apply Nat.eqb_eq in H. now subst.
Qed.

Lemma tag_eqb_refl : forall a, tag_eqb a a = true.
Proof. intros a. now apply tag_eqb_eq. Qed.

Lemma tag_eqb_neq : forall a b, tag_eqb a b = false <-> a <> b.
Proof. intros a b. rewrite <- tag_eqb_eq. destruct (tag_eqb a b); split; intros H; try discriminate; auto. now elim H. Qed.

Lemma base_eqb_eq : forall a b, base_eqb a b = true <-> a = b.
Proof.
  intros a b. split; [|intros ->; destruct b; cbn; auto using Nat.eqb_refl].
  destruct a, b; cbn; intros H; try discriminate; try reflexivity; apply Nat.eqb_eq in H; now subst.
Qed.

Lemma ctype_eqb_eq : forall a b, ctype_eqb a b = true <-> a = b.
Proof.
  intros [b1 c1 r1] [b2 c2 r2]. unfold ctype_eqb. cbn. rewrite !andb_true_iff, base_eqb_eq, !Bool.eqb_true_iff. split; [intros [[-> ->] ->]; reflexivity|intros [= -> -> ->]; auto].
Qed.

(** Tags of the named arguments, in order. *)
Definition tags (args : list arg) : list tag := flat_map (fun a => match a with Unnamed => [] | Named tg _ _ => [tg] end) args.

Lemma has_tags : forall args tg, has args tg = true <-> In tg (tags args).
Proof.
  intros args tg. induction args as [|[|tg' ty o] args IH]; cbn [has existsb tags flat_map is_tagged orb app In]; [intuition discriminate|exact IH|].
  rewrite orb_true_iff, tag_eqb_eq. fold (has args tg). rewrite IH. unfold tags. intuition.
Qed.

Lemma has_fetch : forall args tg, has args tg = match fetch args tg with Some _ => true | None => false end.
Proof.
  intros args tg. induction args as [|[|tg' ty o] args IH]; cbn [has existsb fetch is_tagged orb]; [reflexivity|exact IH|].
  destruct (tag_eqb tg tg'); [reflexivity|exact IH].
Qed.

Lemma fetch_in : forall args tg ty o, fetch args tg = Some (ty, o) -> In (Named tg ty o) args.
Proof.
  intros args tg ty o. induction args as [|[|tg' ty' o'] args IH]; cbn [fetch]; [discriminate|right; auto|].
  destruct (tag_eqb tg tg') eqn:Et; [|right; auto]. apply tag_eqb_eq in Et as <-. intros [= -> ->]. now left.
Qed.

Lemma fetch_none : forall args tg, fetch args tg = None <-> ~ In tg (tags args).
Proof. intros args tg. rewrite <- has_tags, has_fetch. destruct (fetch args tg); split; intros H; try discriminate; try (now elim H); auto. Qed.

Lemma fetch_nodup : forall args tg ty o, NoDup (tags args) -> In (Named tg ty o) args -> fetch args tg = Some (ty, o).
Proof.
  intros args tg ty o. induction args as [|[|tg' ty' o'] args IH]; cbn [fetch tags flat_map app In]; intros Hn Hi; [destruct Hi|destruct Hi as [Hi|Hi]; [discriminate|auto]|].
  inversion_clear Hn as [|? ? Hnot Hn']. destruct Hi as [[= -> -> ->]|Hi]; [now rewrite tag_eqb_refl|].
  destruct (tag_eqb tg tg') eqn:Et; [|auto]. apply tag_eqb_eq in Et as <-. exfalso. apply Hnot. apply in_flat_map. exists (Named tg ty o). split; [exact Hi|now left].
Qed.

Lemma tags_perm : forall a b, Permutation a b -> Permutation (tags a) (tags b).
Proof. intros a b H. now apply Permutation_flat_map. Qed.

Lemma fetch_perm : forall a b tg, Permutation a b -> NoDup (tags a) -> fetch a tg = fetch b tg.
Proof.
  intros a b tg H Hn. destruct (fetch a tg) as [[ty o]|] eqn:Ea.
  - symmetry. apply fetch_nodup; [eapply Permutation_NoDup; [apply tags_perm; exact H|exact Hn]|]. apply (Permutation_in _ H). now apply fetch_in.
  - symmetry. apply fetch_none. apply fetch_none in Ea. intros Z. apply Ea. apply (Permutation_in _ (Permutation_sym (tags_perm _ _ H)) Z).
Qed.

Lemma same_container_tag : forall a b, same_container a b = true -> exists tg ty o o', a = Named tg ty o /\ b = Named tg ty o'.
Proof.
  intros [|tg ty o] [|tg' ty' o']; cbn; try discriminate. rewrite andb_true_iff, tag_eqb_eq, ctype_eqb_eq. intros [-> ->]. eauto 6.
Qed.

Lemma nodup_no_duplicates : forall args, NoDup (tags args) -> has_duplicates args = false.
Proof.
  intros args Hn. unfold has_duplicates. destruct (existsb _ args) eqn:Ex; [exfalso|reflexivity].
  apply existsb_exists in Ex as (a & Ha & Hr). unfold is_repeated in Hr. apply Nat.ltb_lt in Hr.
  assert (X : forall l, NoDup (tags l) -> length (filter (same_container a) l) <= 1).
  { clear Ha Hr Hn. induction l as [|b l IH]; intros Hn; cbn [filter length]; [lia|].
    assert (Hn' : NoDup (tags l)) by (destruct b; cbn in Hn; [exact Hn|now inversion_clear Hn]). specialize (IH Hn').
    destruct (same_container a b) eqn:Es; [|exact IH]. cbn [length]. destruct (filter (same_container a) l) as [|b' l'] eqn:Ef; [cbn; lia|exfalso].
    assert (Hb' : In b' (filter (same_container a) l)) by (rewrite Ef; now left). apply filter_In in Hb' as [Hb' Es'].
    apply same_container_tag in Es as (tg & ty & o & o' & -> & ->). apply same_container_tag in Es' as (tg2 & ty2 & o2 & o2' & [= <- <- <-] & ->).
    cbn in Hn. inversion_clear Hn as [|? ? Hnot _]. apply Hnot. apply in_flat_map. eexists. split; [exact Hb'|now left]. }
  specialize (X args Hn). lia.
Qed.

(** Two arguments of the same type are detected. *)
Lemma duplicates_found : forall l1 l2 l3 tg ty o o', has_duplicates (l1 ++ Named tg ty o :: l2 ++ Named tg ty o' :: l3) = true.
Proof.
  intros l1 l2 l3 tg ty o o'. apply existsb_exists. exists (Named tg ty o). split; [apply in_elt|].
  unfold is_repeated. rewrite filter_app. cbn [filter]. rewrite filter_app. cbn [filter same_container].
  assert (Hc : ctype_eqb ty ty = true) by now apply ctype_eqb_eq. rewrite tag_eqb_refl, Hc. cbn [andb].
  rewrite app_length. cbn [length]. rewrite app_length. cbn [length]. apply Nat.ltb_lt. lia.
Qed.

(** If nothing is detected and the arguments with the same keyword have the same type, no keyword is repeated. *)
Lemma no_duplicates_nodup : forall args, has_duplicates args = false ->
  (forall tg ty ty' o o', In (Named tg ty o) args -> In (Named tg ty' o') args -> ty = ty') -> NoDup (tags args).
Proof.
  intros args Hd Hu.
  assert (X : forall pre l, args = pre ++ l -> NoDup (tags l)).
  { intros pre l. revert pre. induction l as [|a l IH]; intros pre Hl; [constructor|].
    assert (Hn : NoDup (tags l)) by (apply (IH (pre ++ [a])); now rewrite <- app_assoc).
    destruct a as [|tg ty o]; cbn [tags flat_map app]; [exact Hn|]. constructor; [|exact Hn].
    intros Hi. apply in_flat_map in Hi as ([|tg' ty' o'] & Hi & Ht); [destruct Ht|]. destruct Ht as [->|[]].
    assert (ty' = ty) as -> by (apply (Hu tg ty' ty o' o); rewrite Hl; apply in_or_app; right; [now right|now left]).
    apply in_split in Hi as (l2 & l3 & ->). rewrite Hl, duplicates_found in Hd. discriminate. }
  exact (X [] args eq_refl).
Qed.

(** A second argument with a keyword that already occurs is never looked at. *)
Lemma fetch_drop : forall a b tg ty o tg', In tg (tags a) -> fetch (a ++ Named tg ty o :: b) tg' = fetch (a ++ b) tg'.
Proof.
  intros a b tg ty o tg'. induction a as [|[|tg2 ty2 o2] a IH]; cbn [app fetch tags flat_map In]; [intros []|exact IH|].
  intros [->|Hi]; [|destruct (tag_eqb tg' tg2); [reflexivity|now apply IH]].
  destruct (tag_eqb tg' tg) eqn:Et; [reflexivity|]. clear IH. induction a as [|[|tg3 ty3 o3] a IH]; cbn [app fetch]; [now rewrite Et|exact IH|]. destruct (tag_eqb tg' tg3); [reflexivity|exact IH].
Qed.

Lemma has_drop : forall a b tg ty o tg', In tg (tags a) -> has (a ++ Named tg ty o :: b) tg' = has (a ++ b) tg'.
Proof. intros. now rewrite !has_fetch, fetch_drop. Qed.

Lemma unnamed_drop : forall a b tg ty o, has_unnamed (a ++ Named tg ty o :: b) = has_unnamed (a ++ b).
Proof. intros. unfold has_unnamed. rewrite !existsb_app. reflexivity. Qed.

Lemma duplicates_drop : forall a b x, has_duplicates (a ++ x :: b) = false -> has_duplicates (a ++ b) = false.
Proof.
  intros a b x H. destruct (has_duplicates (a ++ b)) eqn:Ed; [|reflexivity]. rewrite <- H. symmetry.
  unfold has_duplicates in *. apply existsb_exists in Ed as (y & Hy & Hr). apply existsb_exists. exists y. split.
  - apply in_app_or in Hy. apply in_or_app. cbn. tauto.
  - unfold is_repeated in *. apply Nat.ltb_lt in Hr. apply Nat.ltb_lt. rewrite !filter_app, !app_length in *. cbn [filter]. destruct (same_container y x); cbn [length]; lia.
Qed.

Section Calls.

Context {F : Type}.
Variable O : fops F.
Context {D : Type}.
Variable OD : fops D.
Variable E : env.
Notation c := (e_cfg E).
Notation obj := (obj F D).

(** The keywords of the constructor, and those of the force computation. *)
Definition ctor_tag (tg : tag) : bool := match tg with KwG | KwEps | KwSplit => false | Coord j => j <? dim c | _ => true end.
Definition force_tag (tg : tag) : bool := match tg with KwG | KwEps | KwSplit => true | _ => false end.

Lemma forallb_ext_in : forall {A} (f g : A -> bool) l, (forall x, In x l -> f x = g x) -> forallb f l = forallb g l.
Proof. intros A f g l H. induction l as [|x l IH]; cbn [forallb]; [reflexivity|]. rewrite H by now left. f_equal. apply IH. intros y Hy. apply H. now right. Qed.

Lemma flat_map_ext_in' : forall {A B} (f g : A -> list B) l, (forall x, In x l -> f x = g x) -> flat_map f l = flat_map g l.
Proof. intros A B f g l H. induction l as [|x l IH]; cbn [flat_map]; [reflexivity|]. rewrite H by now left. f_equal. apply IH. intros y Hy. apply H. now right. Qed.

Lemma pdata_ctor_tag : forall tg, In tg (pdata_tags E) -> ctor_tag tg = true.
Proof.
  intros tg H. apply in_app_or in H as [H|[<-|[]]]; [|reflexivity]. apply in_map_iff in H as (j & <- & Hj). apply in_seq in Hj. cbn. apply Nat.ltb_lt. lia.
Qed.

(** Everything depends on the arguments only through [fetch] and the two checks. *)
Lemma ctor_fetch : forall s args args' (st : list obj), (forall tg, ctor_tag tg = true -> fetch args tg = fetch args' tg) -> has_duplicates args = has_duplicates args' ->
  has_unnamed args = has_unnamed args' -> kw_ctor O E s args st = kw_ctor O E s args' st.
Proof.
  intros s args args' st Hf Hd Hu.
  assert (H0 : ctor_tag (Coord 0) = true) by (unfold ctor_tag; destruct c; reflexivity).
  assert (Hh : forall tg, ctor_tag tg = true -> has args tg = has args' tg) by (intros; now rewrite !has_fetch, Hf).
  assert (Hp : pdata E args = pdata E args') by (unfold pdata; apply flat_map_ext_in'; intros tg Ht; now rewrite Hf by now apply pdata_ctor_tag).
  assert (Hm : move_data E args = move_data E args').
  { unfold move_data. apply forallb_ext_in. intros j Hj. apply in_seq in Hj. rewrite Hf; [reflexivity|]. cbn. apply Nat.ltb_lt. lia. }
  assert (Hc : ctor_compiles E args = ctor_compiles E args').
  { unfold ctor_compiles. rewrite Hd, Hu, (Hf (Coord 0) H0). f_equal; [f_equal|].
    - apply forallb_ext_in. intros tg Ht. apply Hh. now apply pdata_ctor_tag.
    - destruct (fetch args' (Coord 0)) as [[ty0 o0]|]; [|reflexivity]. f_equal; [|now rewrite Hh].
      apply forallb_ext_in. intros tg Ht. now rewrite Hf by now apply pdata_ctor_tag. }
  unfold kw_ctor. rewrite Hc, Hm, Hp. unfold ctor_args. now rewrite (Hf BoxSize eq_refl), (Hf MaxLeafN eq_refl), (Hf Ncrit eq_refl), (Hf Nparts eq_refl), Hp.
Qed.

Lemma unnamed_perm : forall a b, Permutation a b -> has_unnamed a = has_unnamed b.
Proof.
  intros a b H. unfold has_unnamed. apply eq_true_iff_eq. rewrite !existsb_exists. split; intros (x & Hx & Hb); exists x; (split; [|exact Hb]).
  - exact (Permutation_in _ H Hx).
  - exact (Permutation_in _ (Permutation_sym H) Hx).
Qed.

Lemma ctor_order : forall s args args' (st : list obj), Permutation args args' -> NoDup (tags args) -> kw_ctor O E s args st = kw_ctor O E s args' st.
Proof.
  intros s args args' st H Hn. apply ctor_fetch.
  - intros tg _. now apply fetch_perm.
  - rewrite !nodup_no_duplicates; auto. eapply Permutation_NoDup; [apply tags_perm; exact H|exact Hn].
  - now apply unnamed_perm.
Qed.

Lemma ctor_first : forall s a b tg ty o (st : list obj) r, In tg (tags a) -> kw_ctor O E s (a ++ Named tg ty o :: b) st = Some r -> kw_ctor O E s (a ++ b) st = Some r.
Proof.
  intros s a b tg ty o st r Hi Hc. rewrite <- Hc. symmetry. apply ctor_fetch.
  - intros. now apply fetch_drop.
  - assert (Hd : has_duplicates (a ++ Named tg ty o :: b) = false).
    { unfold kw_ctor, ctor_compiles in Hc. destruct (has_duplicates (a ++ Named tg ty o :: b)); [discriminate|reflexivity]. }
    rewrite Hd. symmetry. now apply (duplicates_drop _ _ (Named tg ty o)).
  - apply unnamed_drop.
Qed.

(** * What happens to the objects *)

Lemma set_nth_length' : forall {A} (l : list A) i x, length (set_nth l i x) = length l.
Proof. induction l as [|a l IH]; intros [|i] x; cbn; auto. Qed.

Lemma nth_set_nth : forall {A} (l : list A) i x k, i < length l -> nth_error (set_nth l i x) k = if k =? i then Some x else nth_error l k.
Proof. induction l as [|a l IH]; intros [|i] x [|k] H; cbn in *; try lia; auto. apply IH. lia. Qed.

Lemma take_spec : forall l (st : list obj) cols st', take st l = Ok (cols, st') -> length st' = length st /\ length cols = length l /\
  forall o, (nth_error st' o = nth_error st o /\ (forall ty, In (ty, o) l -> ct_const ty = false -> nth_error st o = Some (OCol []))) \/
            (nth_error st' o = Some (OCol []) /\ exists ty, In (ty, o) l /\ ct_const ty = false).
Proof.
  induction l as [|[ty o] l IH]; intros st cols st' H; cbn [take] in H.
  { injection H as <- <-. repeat split; auto. intros o. left. split; [reflexivity|intros ty []]. }
  apply bind_Ok in H as (xs & Hx & H). apply bind_Ok in H as (st1 & H1 & H). apply bind_Ok in H as ([cols2 st2] & H2 & H).
  injection H as <- <-. cbn [fst snd]. destruct (IH _ _ _ H2) as (L1 & L2 & H3). clear IH H2.
  destruct (ct_const ty) eqn:Ec.
  - injection H1 as <-. split; [exact L1|]. split; [cbn; now rewrite L2|]. intros o'. destruct (H3 o') as [[A B]|(A & ty2 & B & C)].
    + left. split; [exact A|]. intros ty3 [Hi|Hi] Hc; [injection Hi; congruence|eauto].
    + right. split; [exact A|]. exists ty2. split; [now right|exact C].
  - unfold wr in H1. destruct (Nat.ltb_spec o (length st)) as [Lo|Lo]; [|discriminate]. injection H1 as <-. rewrite set_nth_length' in L1.
    split; [exact L1|]. split; [cbn; now rewrite L2|]. intros o'. specialize (H3 o'). rewrite (nth_set_nth st o _ o' Lo) in H3.
    destruct (Nat.eqb_spec o' o) as [Heq|Hne].
    + subst o'. right. split; [destruct H3 as [[A _]|[A _]]; exact A|]. exists ty. split; [now left|exact Ec].
    + destruct H3 as [[A B]|(A & ty2 & B & C)].
      * left. split; [exact A|]. intros ty3 [Hi|Hi] Hc; [injection Hi; congruence|eauto].
      * right. split; [exact A|]. exists ty2. split; [now right|exact C].
Qed.

(** Distinct vectors: each one is taken as it was. *)
Lemma take_cols : forall l (st : list obj) cols st', NoDup (map snd l) -> take st l = Ok (cols, st') -> mapM (fun x => col_of st (snd x)) l = Ok cols.
Proof.
  induction l as [|[ty o] l IH]; intros st cols st' Hn H; cbn [take mapM map] in *; [now injection H as <- <-|].
  apply bind_Ok in H as (xs & Hx & H). apply bind_Ok in H as (st1 & H1 & H). apply bind_Ok in H as ([cols2 st2] & H2 & H). injection H as <- <-.
  cbn [fst snd] in *. rewrite Hx. cbn [bind]. inversion_clear Hn as [|? ? Hnot Hn'].
  assert (X : mapM (fun x => col_of st (snd x)) l = Ok cols2).
  { rewrite <- (IH st1 cols2 st2 Hn' H2). clear - H1 Hnot. destruct (ct_const ty); [now injection H1 as <-|].
    unfold wr in H1. destruct (Nat.ltb_spec o (length st)) as [Lo|Lo]; [|discriminate]. injection H1 as <-.
    induction l as [|[ty2 o2] l IH]; cbn [mapM snd map In] in *; [reflexivity|]. rewrite IH by tauto.
    assert (Hc : col_of st o2 = col_of (set_nth st o (OCol [])) o2); [|now rewrite Hc].
    unfold col_of. rewrite nth_set_nth by exact Lo. destruct (Nat.eqb_spec o2 o); [subst; tauto|reflexivity]. }
  now rewrite X.
Qed.

Lemma take_ok : forall l (st : list obj) cols, NoDup (map snd l) -> mapM (fun x => col_of st (snd x)) l = Ok cols -> exists st', take st l = Ok (cols, st').
Proof.
  induction l as [|[ty o] l IH]; intros st cols Hn H; cbn [take mapM map snd] in *; [injection H as <-; eauto|].
  apply bind_Ok in H as (xs & Hx & H). apply bind_Ok in H as (cols2 & H2 & H). injection H as <-. rewrite Hx. cbn [bind].
  inversion_clear Hn as [|? ? Hnot Hn'].
  assert (Lo : o < length st).
  { unfold col_of in Hx. destruct (nth_error st o) eqn:En; [|discriminate]. apply nth_error_Some. congruence. }
  assert (X : exists st1, (if ct_const ty then Ok st else wr st o (OCol [])) = Ok st1 /\ forall o2, o2 <> o -> nth_error st1 o2 = nth_error st o2).
  { destruct (ct_const ty); [eauto|]. unfold wr. destruct (Nat.ltb_spec o (length st)); [|lia]. eexists. split; [reflexivity|].
    intros o2 Hne. rewrite nth_set_nth by lia. destruct (Nat.eqb_spec o2 o); [now elim Hne|reflexivity]. }
  destruct X as (st1 & -> & Hst). cbn [bind].
  assert (Y : mapM (fun x => col_of st1 (snd x)) l = Ok cols2).
  { rewrite <- H2. clear - Hst Hnot. induction l as [|[ty2 o2] l IH]; cbn [mapM snd map In] in *; [reflexivity|]. rewrite IH by tauto.
    assert (Hc : col_of st1 o2 = col_of st o2); [|now rewrite Hc]. unfold col_of. rewrite Hst; [reflexivity|]. intros ->. tauto. }
  destruct (IH st1 cols2 Hn' Y) as [st2 ->]. cbn [bind fst snd]. eauto.
Qed.

Lemma pdata_in : forall args ty o, In (ty, o) (pdata E args) -> exists tg, In tg (pdata_tags E) /\ fetch args tg = Some (ty, o).
Proof.
  intros args ty o H. apply in_flat_map in H as (tg & Ht & H). exists tg. split; [exact Ht|]. destruct (fetch args tg) as [x|]; [destruct H as [->|[]]; reflexivity|destruct H].
Qed.

Definition all_movable (args : list arg) : Prop :=
  forall j, j < dim c -> exists ty o, fetch args (Coord j) = Some (ty, o) /\ ct_base ty = BFvec /\ ct_const ty = false /\ ct_rv ty = true.

Lemma move_data_spec : forall args, move_data E args = true <-> all_movable args.
Proof.
  intros args. unfold move_data, all_movable, movable. rewrite forallb_forall. split.
  - intros H j Hj. specialize (H j ltac:(apply in_seq; lia)). destruct (fetch args (Coord j)) as [[ty o]|]; [|discriminate].
    apply andb_true_iff in H as [H H3]. apply andb_true_iff in H as [H1 H2]. apply base_eqb_eq in H1. apply negb_true_iff in H2. eauto 7.
  - intros H j Hj. apply in_seq in Hj. destruct (H j ltac:(lia)) as (ty & o & -> & H1 & H2 & H3). rewrite H1, H2, H3. reflexivity.
Qed.

(** Which objects change. *)
Lemma ctor_objects : forall s args (st st' : list obj) r, kw_ctor O E s args st = Some (st', r) -> length st' = length st /\
  forall o, nth_error st' o = nth_error st o \/
    nth_error st' o = Some (OCol []) /\ all_movable args /\
    exists tg ty, fetch args tg = Some (ty, o) /\ ct_const ty = false /\ (tg = Masses \/ ct_rv ty = true).
Proof.
  intros s args st st' r H. unfold kw_ctor in H. destruct (ctor_compiles E args) eqn:Ec; [|discriminate].
  destruct (ctor_args E args st) as [[[[box mln] nc] n]|e|]; try (injection H as <- <-; split; [reflexivity|intros o; now left]).
  destruct (match box with Some _ => _ | None => _ end) as [b d].
  destruct (move_data E args) eqn:Em; [|injection H as <- <-; split; [reflexivity|intros o; now left]].
  destruct (take st (pdata E args)) as [[cols st2]|e|] eqn:Et; injection H as <- <-; try (split; [reflexivity|intros o; now left]).
  apply take_spec in Et as (L & _ & Ht). split; [exact L|]. intros o. destruct (Ht o) as [[A _]|(A & ty & B & C)]; [now left|right].
  apply move_data_spec in Em. split; [exact A|]. split; [exact Em|]. apply pdata_in in B as (tg & B1 & B2). exists tg, ty. split; [exact B2|]. split; [exact C|].
  unfold pdata_tags in B1. apply in_app_or in B1 as [B1|[<-|[]]]; [right|now left].
  apply in_map_iff in B1 as (j & <- & Hj). apply in_seq in Hj. destruct (Em j ltac:(lia)) as (ty2 & o2 & E2 & _ & _ & E3). congruence.
Qed.

(** If the masses are given as a modifiable lvalue and all the coordinates can be moved, the masses are lost, even if the construction fails later. *)
Lemma ctor_masses_lost : forall s args (st st' : list obj) r ty o, kw_ctor O E s args st = Some (st', r) -> all_movable args ->
  fetch args Masses = Some (ty, o) -> ct_const ty = false -> (exists t, r = Ok t) -> nth_error st' o = Some (OCol []).
Proof.
  intros s args st st' r ty o H Hm Hf Hc [t ->]. unfold kw_ctor in H. destruct (ctor_compiles E args) eqn:Ec; [|discriminate].
  destruct (ctor_args E args st) as [[[[box mln] nc] n]|e|]; try discriminate.
  destruct (match box with Some _ => _ | None => _ end) as [b d]. apply move_data_spec in Hm. rewrite Hm in H.
  destruct (take st (pdata E args)) as [[cols st2]|e|] eqn:Et; try discriminate. injection H as <- _.
  apply take_spec in Et as (L & _ & Ht). destruct (Ht o) as [[A B]|[A _]]; [|exact A]. rewrite A. apply (B ty); [|exact Hc].
  unfold pdata. apply in_flat_map. exists Masses. split; [apply in_or_app; right; now left|]. rewrite Hf. now left.
Qed.

(** The result. *)
Lemma ctor_value : forall s args (st st' : list obj) r box mln nc n cols, kw_ctor O E s args st = Some (st', r) ->
  ctor_args E args st = Ok (box, mln, nc, n) -> mapM (fun x => col_of st (snd x)) (pdata E args) = Ok cols -> NoDup (map snd (pdata E args)) ->
  r = generic_ctor O E s box (if has args Nparts then Iterators cols n else if move_data E args then RangesMoved cols else Ranges cols) mln nc.
Proof.
  intros s args st st' r box mln nc n cols H Ha Hcols Hn. unfold kw_ctor in H. destruct (ctor_compiles E args) eqn:Ec; [|discriminate]. rewrite Ha in H.
  unfold generic_ctor. destruct (match box with Some _ => _ | None => _ end) as [b d].
  assert (Hr : has args Nparts = false -> ranges_check E cols = Ok n).
  { intros Hh. rewrite has_fetch in Hh. unfold ctor_args in Ha. apply bind_Ok in Ha as (x1 & _ & Ha). apply bind_Ok in Ha as (x2 & _ & Ha). apply bind_Ok in Ha as (x3 & _ & Ha).
    destruct (fetch args Nparts) as [[ty o]|]; [discriminate|]. rewrite Hcols in Ha. cbn [bind] in Ha. apply bind_Ok in Ha as (x4 & Hx & Ha). injection Ha as <- <- <- <-. exact Hx. }
  destruct (move_data E args) eqn:Em.
  - assert (Hh : has args Nparts = false).
    { unfold ctor_compiles in Ec. apply andb_true_iff in Ec as [_ Ec]. apply move_data_spec in Em. destruct (Em 0 ltac:(destruct c; cbn; lia)) as (ty & o & Ef & Eb & _).
      rewrite Ef in Ec. apply andb_true_iff in Ec as [_ Ec]. rewrite Eb in Ec. cbn in Ec. now apply negb_true_iff in Ec. }
    rewrite Hh, (Hr Hh). cbn [bind]. destruct (take_ok _ st cols Hn Hcols) as [st2 Et]. rewrite Et in H. now injection H as _ <-.
  - rewrite Hcols in H. cbn [bind] in H. injection H as _ <-. destruct (has args Nparts); [reflexivity|]. now rewrite Hr.
Qed.

(** * The force computation *)

Lemma accpot_fetch : forall K order ordered q t theta args args' (st : list obj) out, (forall tg, force_tag tg = true -> fetch args tg = fetch args' tg) -> has_duplicates args = has_duplicates args' ->
  has_unnamed args = has_unnamed args' -> kw_accpot O OD E K order ordered q t theta args st out = kw_accpot O OD E K order ordered q t theta args' st out.
Proof. intros K order ordered q t theta args args' st out Hf Hd Hu. unfold kw_accpot, accpot_compiles, accpot_args. now rewrite Hd, Hu, (Hf KwSplit eq_refl), (Hf KwG eq_refl), (Hf KwEps eq_refl). Qed.

Lemma accpot_order : forall K order ordered q t theta args args' (st : list obj) out, Permutation args args' -> NoDup (tags args) ->
  kw_accpot O OD E K order ordered q t theta args st out = kw_accpot O OD E K order ordered q t theta args' st out.
Proof.
  intros K order ordered q t theta args args' st out H Hn. apply accpot_fetch.
  - intros tg _. now apply fetch_perm.
  - rewrite !nodup_no_duplicates; auto. eapply Permutation_NoDup; [apply tags_perm; exact H|exact Hn].
  - now apply unnamed_perm.
Qed.

Lemma accpot_first : forall K order ordered q t theta a b tg ty o (st : list obj) out r, In tg (tags a) ->
  kw_accpot O OD E K order ordered q t theta (a ++ Named tg ty o :: b) st out = Some r -> kw_accpot O OD E K order ordered q t theta (a ++ b) st out = Some r.
Proof.
  intros K order ordered q t theta a b tg ty o st out r Hi Hc. rewrite <- Hc. symmetry. apply accpot_fetch.
  - intros. now apply fetch_drop.
  - assert (Hd : has_duplicates (a ++ Named tg ty o :: b) = false).
    { unfold kw_accpot, accpot_compiles in Hc. destruct (has_duplicates (a ++ Named tg ty o :: b)); [discriminate|reflexivity]. }
    rewrite Hd. symmetry. now apply (duplicates_drop _ _ (Named tg ty o)).
  - apply unnamed_drop.
Qed.

(** Arguments with other keywords are ignored. *)
Lemma fetch_other : forall a b tg ty o tg', tg <> tg' -> fetch (a ++ Named tg ty o :: b) tg' = fetch (a ++ b) tg'.
Proof.
  intros a b tg ty o tg' H. induction a as [|[|tg2 ty2 o2] a IH]; cbn [app fetch]; [|exact IH|].
  - destruct (tag_eqb tg' tg) eqn:Et; [apply tag_eqb_eq in Et; congruence|reflexivity].
  - destruct (tag_eqb tg' tg2); [reflexivity|exact IH].
Qed.

Lemma ctor_ignores : forall s a b tg ty o (st : list obj) r, ctor_tag tg = false -> kw_ctor O E s (a ++ Named tg ty o :: b) st = Some r -> kw_ctor O E s (a ++ b) st = Some r.
Proof.
  intros s a b tg ty o st r Hi Hc. rewrite <- Hc. symmetry. apply ctor_fetch.
  - intros tg' Ht. apply fetch_other. congruence.
  - assert (Hd : has_duplicates (a ++ Named tg ty o :: b) = false).
    { unfold kw_ctor, ctor_compiles in Hc. destruct (has_duplicates (a ++ Named tg ty o :: b)); [discriminate|reflexivity]. }
    rewrite Hd. symmetry. now apply (duplicates_drop _ _ (Named tg ty o)).
  - apply unnamed_drop.
Qed.

Lemma accpot_ignores : forall K order ordered q t theta a b tg ty o (st : list obj) out r, force_tag tg = false ->
  kw_accpot O OD E K order ordered q t theta (a ++ Named tg ty o :: b) st out = Some r -> kw_accpot O OD E K order ordered q t theta (a ++ b) st out = Some r.
Proof.
  intros K order ordered q t theta a b tg ty o st out r Hi Hc. rewrite <- Hc. symmetry. apply accpot_fetch.
  - intros tg' Ht. apply fetch_other. congruence.
  - assert (Hd : has_duplicates (a ++ Named tg ty o :: b) = false).
    { unfold kw_accpot, accpot_compiles in Hc. destruct (has_duplicates (a ++ Named tg ty o :: b)); [discriminate|reflexivity]. }
    rewrite Hd. symmetry. now apply (duplicates_drop _ _ (Named tg ty o)).
  - apply unnamed_drop.
Qed.

(** Which calls compile, without the functions of the parser. *)
Lemma ctor_compiles_spec : forall args, NoDup (tags args) ->
  (ctor_compiles E args = true <->
   ~ In Unnamed args /\
   exists b0, (forall tg, In tg (pdata_tags E) -> exists ty o, In (Named tg ty o) args /\ ct_base ty = b0) /\
     (In Nparts (tags args) <-> is_range b0 = false)).
Proof.
  intros args Hn. unfold ctor_compiles. rewrite (nodup_no_duplicates _ Hn). cbn [negb andb].
  assert (Hu : has_unnamed args = false <-> ~ In Unnamed args).
  { unfold has_unnamed. rewrite <- not_true_iff_false, existsb_exists. split; intros H Z; apply H; [exists Unnamed; auto|]. destruct Z as ([|] & Hi & Hb); [exact Hi|discriminate]. }
  assert (H0 : In (Coord 0) (pdata_tags E)) by (apply in_or_app; left; apply in_map; apply in_seq; destruct c; cbn; lia).
  split.
  - intros H. apply andb_true_iff in H as [H H3]. apply andb_true_iff in H as [H1 H2]. apply negb_true_iff in H1. split; [now apply Hu|].
    destruct (fetch args (Coord 0)) as [[ty0 o0]|] eqn:E0; [|discriminate]. apply andb_true_iff in H3 as [H3 H4]. exists (ct_base ty0). split.
    + intros tg Ht. rewrite forallb_forall in H3. specialize (H3 tg Ht). destruct (fetch args tg) as [[ty o]|] eqn:Et; [|discriminate].
      exists ty, o. split; [now apply fetch_in|]. symmetry. now apply base_eqb_eq.
    + rewrite <- has_tags. destruct (is_range (ct_base ty0)); [apply negb_true_iff in H4|]; rewrite H4; split; congruence.
  - intros (H1 & b0 & H2 & H3). rewrite (proj2 Hu H1). cbn [negb andb]. apply andb_true_iff. split.
    + apply forallb_forall. intros tg Ht. apply has_tags. destruct (H2 tg Ht) as (ty & o & Hi & _). apply in_flat_map. exists (Named tg ty o). split; [exact Hi|now left].
    + destruct (H2 _ H0) as (ty0 & o0 & Hi0 & Hb0). rewrite (fetch_nodup _ _ _ _ Hn Hi0). apply andb_true_iff. split.
      * apply forallb_forall. intros tg Ht. destruct (H2 tg Ht) as (ty & o & Hi & Hb). rewrite (fetch_nodup _ _ _ _ Hn Hi). apply base_eqb_eq. congruence.
      * rewrite Hb0. rewrite <- has_tags in H3. destruct (is_range b0), (has args Nparts); try reflexivity; [|].
        -- exfalso. now destruct H3 as [H3 _]; specialize (H3 eq_refl).
        -- exfalso. now destruct H3 as [_ H3]; specialize (H3 eq_refl).
Qed.

Lemma accpot_compiles_spec : forall args, NoDup (tags args) ->
  (accpot_compiles args = true <-> ~ In Unnamed args /\ forall ty o, In (Named KwSplit ty o) args -> ct_base ty = BSplit /\ ct_rv ty = false).
Proof.
  intros args Hn. unfold accpot_compiles. rewrite (nodup_no_duplicates _ Hn). cbn [negb andb].
  assert (Hu : has_unnamed args = false <-> ~ In Unnamed args).
  { unfold has_unnamed. rewrite <- not_true_iff_false, existsb_exists. split; intros H Z; apply H; [exists Unnamed; auto|]. destruct Z as ([|] & Hi & Hb); [exact Hi|discriminate]. }
  rewrite andb_true_iff, negb_true_iff, Hu. split; intros [H1 H2]; (split; [exact H1|]).
  - intros ty o Hi. rewrite (fetch_nodup _ _ _ _ Hn Hi) in H2. apply andb_true_iff in H2 as [H2 H3]. apply base_eqb_eq in H2. apply negb_true_iff in H3. auto.
  - destruct (fetch args KwSplit) as [[ty o]|] eqn:Ef; [|reflexivity]. destruct (H2 ty o (fetch_in _ _ _ _ Ef)) as [-> ->]. reflexivity.
Qed.

(** The value given with a keyword, if any. *)
Definition carries {A} (st : list obj) (args : list arg) (tg : tag) (f : obj -> option A) (v : option A) : Prop :=
  match v with
  | None => ~ In tg (tags args)
  | Some a => exists ty o ob, In (Named tg ty o) args /\ nth_error st o = Some ob /\ f ob = Some a
  end.

Definition obj_F (ob : obj) : option F := match ob with ONum x _ => x | _ => None end.
Definition obj_size (ob : obj) : option nat := match ob with ONum _ n => n | _ => None end.
Definition obj_col (ob : obj) : option (list F) := match ob with OCol xs => Some xs | _ => None end.
Definition obj_split (ob : obj) : option (list D) := match ob with OSplit l => Some l | _ => None end.

Lemma carries_F : forall st args tg v, NoDup (tags args) -> carries st args tg obj_F v -> opt (fetch args tg) (num_F st) = Ok v.
Proof.
  intros st args tg [a|] Hn H; cbn [carries] in H.
  - destruct H as (ty & o & ob & Hi & Ho & Hf). rewrite (fetch_nodup _ _ _ _ Hn Hi). cbn [opt]. unfold num_F. rewrite Ho.
    destruct ob as [|[x|] n|]; try discriminate. injection Hf as ->. reflexivity.
  - now rewrite (proj2 (fetch_none args tg) H).
Qed.

Lemma carries_size : forall st args tg v, NoDup (tags args) -> carries st args tg obj_size v -> opt (fetch args tg) (num_size st) = Ok v.
Proof.
  intros st args tg [a|] Hn H; cbn [carries] in H.
  - destruct H as (ty & o & ob & Hi & Ho & Hf). rewrite (fetch_nodup _ _ _ _ Hn Hi). cbn [opt]. unfold num_size. rewrite Ho.
    destruct ob as [|x [n|]|]; try discriminate. injection Hf as ->. reflexivity.
  - now rewrite (proj2 (fetch_none args tg) H).
Qed.

Lemma carries_split : forall st args tg v, NoDup (tags args) -> carries st args tg obj_split v -> opt (fetch args tg) (split_of st) = Ok v.
Proof.
  intros st args tg [a|] Hn H; cbn [carries] in H.
  - destruct H as (ty & o & ob & Hi & Ho & Hf). rewrite (fetch_nodup _ _ _ _ Hn Hi). cbn [opt]. unfold split_of. rewrite Ho.
    destruct ob as [|x n|l]; try discriminate. injection Hf as ->. reflexivity.
  - now rewrite (proj2 (fetch_none args tg) H).
Qed.

(** The columns of the particle data. *)
Definition columns (st : list obj) (args : list arg) (cols : list (list F)) : Prop :=
  Forall2 (fun tg col => carries st args tg obj_col (Some col)) (pdata_tags E) cols.

Lemma columns_cols : forall st args cols, NoDup (tags args) -> columns st args cols -> mapM (fun x => col_of st (snd x)) (pdata E args) = Ok cols.
Proof.
  intros st args cols Hn H. unfold columns in H. unfold pdata. induction H as [|tg col tgs cols (ty & o & ob & Hi & Ho & Hf) H IH]; cbn [flat_map mapM]; [reflexivity|].
  rewrite (fetch_nodup _ _ _ _ Hn Hi). cbn [app mapM snd]. unfold col_of at 1. rewrite Ho. destruct ob; try discriminate. injection Hf as ->. cbn [bind]. now rewrite IH.
Qed.

Definition distinct_data (args : list arg) : Prop :=
  forall tg tg' ty ty' o, In tg (pdata_tags E) -> In tg' (pdata_tags E) -> In (Named tg ty o) args -> In (Named tg' ty' o) args -> tg = tg'.

Lemma pdata_tags_nodup : NoDup (pdata_tags E).
Proof.
  unfold pdata_tags. assert (N : forall n k, NoDup (map Coord (seq k n) ++ [Masses])); [|apply N].
  induction n as [|n IH]; intros k; cbn; [repeat constructor; intros []|]. constructor; [|apply IH].
  intros H. apply in_app_or in H as [H|[H|[]]]; [|discriminate]. apply in_map_iff in H as (j & [= ->] & Hj). apply in_seq in Hj. lia.
Qed.

Lemma distinct_nodup : forall args, distinct_data args -> NoDup (map snd (pdata E args)).
Proof.
  intros args H. unfold pdata. assert (X : forall l, NoDup l -> (forall tg, In tg l -> In tg (pdata_tags E)) ->
    NoDup (map snd (flat_map (fun tg => match fetch args tg with Some x => [x] | None => [] end) l))); [|apply X; auto using pdata_tags_nodup].
  induction l as [|tg l IH]; intros Hn Hl; cbn [flat_map map]; [constructor|]. inversion_clear Hn as [|? ? Hnot Hn'].
  assert (IH' := IH Hn' (fun t Ht => Hl t (or_intror Ht))).
  destruct (fetch args tg) as [[ty o]|] eqn:Et; cbn [app map snd]; [|exact IH']. constructor; [|exact IH'].
  intros Hi. apply in_map_iff in Hi as ([ty' o'] & Ho & Hi). cbn in Ho. subst o'. apply in_flat_map in Hi as (tg' & Ht' & Hi).
  destruct (fetch args tg') as [x|] eqn:Et'; [|destruct Hi]. destruct Hi as [->|[]].
  apply Hnot. rewrite (H tg tg' ty ty' o); auto; [now apply Hl; left|now apply Hl; right|now apply fetch_in|now apply fetch_in].
Qed.

(** The call with keywords is the call of the constructor with the values given, or the defaults. *)
Lemma ctor_positional : forall s args (st st' : list obj) r box mln nc n cols, kw_ctor O E s args st = Some (st', r) -> NoDup (tags args) ->
  carries st args BoxSize obj_F box -> carries st args MaxLeafN obj_size mln -> carries st args Ncrit obj_size nc -> carries st args Nparts obj_size n ->
  columns st args cols -> distinct_data args ->
  r = generic_ctor O E s box (match n with Some k => Iterators cols k | None => if move_data E args then RangesMoved cols else Ranges cols end) mln nc.
Proof.
  intros s args st st' r box mln nc n cols H Hn H1 H2 H3 H4 H5 H6.
  assert (Hc := columns_cols _ _ _ Hn H5). assert (Hd := distinct_nodup _ H6).
  assert (Ha : ctor_args E args st = do k <- match n with Some k => Ok k | None => ranges_check E cols end; Ok (box, mln, nc, k)).
  { unfold ctor_args. rewrite (carries_F _ _ _ _ Hn H1). cbn [bind]. rewrite (carries_size _ _ _ _ Hn H2). cbn [bind]. rewrite (carries_size _ _ _ _ Hn H3). cbn [bind].
    pose proof (carries_size _ _ _ _ Hn H4) as H7. destruct n as [k|]; cbn [carries] in H4.
    - destruct (fetch args Nparts) as [[ty o]|]; cbn [opt] in H7; [|discriminate]. apply bind_Ok in H7 as (x & H7 & [= ->]). now rewrite H7.
    - rewrite (proj2 (fetch_none args Nparts) H4). now rewrite Hc. }
  destruct n as [k|].
  - assert (Hh : has args Nparts = true) by (apply has_tags; destruct H4 as (ty & o & ob & Hi & _); apply in_flat_map; exists (Named Nparts ty o); split; [exact Hi|now left]).
    rewrite (ctor_value s args st st' r box mln nc k cols H Ha Hc Hd), Hh. reflexivity.
  - assert (Hh : has args Nparts = false) by (apply not_true_iff_false; rewrite has_tags; exact H4).
    destruct (ranges_check E cols) as [k|e|] eqn:Er; cbn [bind] in Ha.
    + rewrite (ctor_value s args st st' r box mln nc k cols H Ha Hc Hd), Hh. reflexivity.
    + unfold kw_ctor in H. destruct (ctor_compiles E args); [|discriminate]. rewrite Ha in H. injection H as _ <-.
      unfold generic_ctor. destruct (match box with Some _ => _ | None => _ end). destruct (move_data E args); rewrite Er; reflexivity.
    + unfold kw_ctor in H. destruct (ctor_compiles E args); [|discriminate]. rewrite Ha in H. injection H as _ <-.
      unfold generic_ctor. destruct (match box with Some _ => _ | None => _ end). destruct (move_data E args); rewrite Er; reflexivity.
Qed.

Lemma accpot_positional : forall K order ordered q t theta args (st : list obj) out r G eps split, kw_accpot O OD E K order ordered q t theta args st out = Some r -> NoDup (tags args) ->
  carries st args KwG obj_F G -> carries st args KwEps obj_F eps -> carries st args KwSplit obj_split split ->
  r = acc_pot_dispatch O OD E K order ordered q t theta (match G with Some x => x | None => fofZ O 1%Z end) (match eps with Some x => x | None => fofZ O 0%Z end)
        (match split with Some l => l | None => [] end) out.
Proof.
  intros K order ordered q t theta args st out r G eps split H Hn H1 H2 H3. unfold kw_accpot in H. destruct (accpot_compiles args); [|discriminate].
  unfold accpot_args in H. rewrite (carries_F _ _ _ _ Hn H1) in H. cbn [bind] in H. rewrite (carries_F _ _ _ _ Hn H2) in H. cbn [bind] in H. rewrite (carries_split _ _ _ _ Hn H3) in H.
  cbn [bind] in H. now injection H as <-.
Qed.

End Calls.
