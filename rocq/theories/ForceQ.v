(** Accelerations and potentials computed together or separately: the computations for two quantities
    run in lockstep on related rows. *)
From Coq Require Import List Arith NArith ZArith Lia Bool Permutation.
From Verif Require Import Base Config Morton Build TreeSpec FOps NodeProps Tree TreeInv TreeProofs Kernels Force
  TravProofs KernLoops SelfSum ForceGen ForceOut ForceTop.
Import ListNotations.
Local Open Scope nat_scope.

(** Related outcomes. *)
Definition orel {A B} (R : A -> B -> Prop) (x : outcome A) (y : outcome B) : Prop :=
  match x, y with Ok a, Ok b => R a b | Throw e, Throw e' => e = e' | UB, UB => True | _, _ => False end.

Lemma orel_bind : forall {A B A' B'} (R : A -> B -> Prop) (R' : A' -> B' -> Prop) x y f g,
  orel R x y -> (forall a b, R a b -> orel R' (f a) (g b)) -> orel R' (bind x f) (bind y g).
Proof. intros A B A' B' R R' [a|e|] [b|e'|] f g H HF; cbn in *; try contradiction; auto. Qed.

Lemma orel_refl : forall {A} (x : outcome A), orel eq x x.
Proof. intros A [a|e|]; cbn; auto. Qed.

Lemma orel_bind_same : forall {A A' B'} (R' : A' -> B' -> Prop) (x : outcome A) f g,
  (forall a, orel R' (f a) (g a)) -> orel R' (bind x f) (bind x g).
Proof. intros A A' B' R' x f g H. apply (orel_bind eq); [apply orel_refl|]. intros a b <-. apply H. Qed.

Lemma foldM_rel : forall {A B S T} (RA : A -> B -> Prop) (RS : S -> T -> Prop) f g,
  (forall s t a b, RS s t -> RA a b -> orel RS (f s a) (g t b)) ->
  forall l l', Forall2 RA l l' -> forall s t, RS s t -> orel RS (foldM f l s) (foldM g l' t).
Proof.
  intros A B S T RA RS f g H l l' HL. induction HL as [|a b l l' Hab HL IH]; intros s t Hs; cbn [foldM]; [exact Hs|].
  apply (orel_bind RS); auto.
Qed.

Lemma mapM_rel : forall {A B S T} (RA : A -> B -> Prop) (RS : S -> T -> Prop) f g,
  (forall a b, RA a b -> orel RS (f a) (g b)) -> forall l l', Forall2 RA l l' -> orel (Forall2 RS) (mapM f l) (mapM g l').
Proof.
  intros A B S T RA RS f g H l l' HL. induction HL as [|a b l l' Hab HL IH]; cbn [mapM]; [constructor|].
  apply (orel_bind RS); [auto|]. intros x y Hxy. apply (orel_bind (Forall2 RS)); [exact IH|]. intros xs ys Hs. constructor; auto.
Qed.

Lemma Forall2_refl : forall {A} (R : A -> A -> Prop) l, (forall a, R a a) -> Forall2 R l l.
Proof. intros A R l H. induction l; constructor; auto. Qed.

Lemma Forall2_len : forall {A B} (R : A -> B -> Prop) l l', Forall2 R l l' -> length l = length l'.
Proof. intros A B R l l' H. induction H; cbn [length]; congruence. Qed.

Lemma Forall2_nth_error : forall {A B} (R : A -> B -> Prop) l l', Forall2 R l l' -> forall i,
  match nth_error l i, nth_error l' i with Some a, Some b => R a b | None, None => True | _, _ => False end.
Proof. intros A B R l l' H. induction H; intros [|i]; cbn; auto. apply IHForall2. Qed.

Lemma Forall2_combine : forall {A B C D} (R : A -> B -> Prop) (S : C -> D -> Prop) l l' m m', Forall2 R l l' -> Forall2 S m m' ->
  Forall2 (fun x y => R (fst x) (fst y) /\ S (snd x) (snd y)) (combine l m) (combine l' m').
Proof.
  intros A B C D R S l l' m m' H. revert m m'. induction H; intros m m' HM; [constructor|].
  destruct HM; [constructor|]. cbn [combine]. constructor; [cbn; auto|auto].
Qed.

Lemma Forall2_map : forall {A B C D} (R : A -> B -> Prop) (S : C -> D -> Prop) f g l l', Forall2 R l l' ->
  (forall a b, R a b -> S (f a) (g b)) -> Forall2 S (map f l) (map g l').
Proof. intros A B C D R S f g l l' H HF. induction H; cbn [map]; constructor; auto. Qed.

Lemma rd_rel : forall {A B} (R : A -> B -> Prop) l l' i, Forall2 R l l' -> orel R (rd l i) (rd l' i).
Proof.
  intros A B R l l' i H. pose proof (Forall2_nth_error R l l' H i) as N. unfold rd.
  destruct (nth_error l i), (nth_error l' i); cbn; auto.
Qed.

Lemma set_nth_rel : forall {A B} (R : A -> B -> Prop) l l' i x y, Forall2 R l l' -> R x y -> Forall2 R (set_nth l i x) (set_nth l' i y).
Proof.
  intros A B R l l' i x y H Hxy. revert i. induction H; intros [|i]; cbn; constructor; auto.
Qed.

Lemma wr_rel : forall {A B} (R : A -> B -> Prop) l l' i x y, Forall2 R l l' -> R x y -> orel (Forall2 R) (wr l i x) (wr l' i y).
Proof.
  intros A B R l l' i x y H Hxy. unfold wr. rewrite (Forall2_len R l l' H). destruct (i <? length l'); cbn; [|exact I]. now apply set_nth_rel.
Qed.

Lemma load_rel : forall {A B} (R : A -> B -> Prop) l l' i bw, Forall2 R l l' -> orel (Forall2 R) (load_batch l i bw) (load_batch l' i bw).
Proof.
  intros A B R l l' i bw H. unfold load_batch. apply (mapM_rel eq); [|now apply Forall2_refl]. intros a b <-. now apply rd_rel.
Qed.

Lemma load_aligned_rel : forall {A B} (R : A -> B -> Prop) l l' i bw, Forall2 R l l' -> orel (Forall2 R) (load_aligned l i bw) (load_aligned l' i bw).
Proof. intros A B R l l' i bw H. unfold load_aligned. destruct (_ =? 0); [now apply load_rel|exact I]. Qed.

Lemma store_rel : forall {A B} (R : A -> B -> Prop) l l' i v v', Forall2 R l l' -> Forall2 R v v' -> orel (Forall2 R) (store_batch l i v) (store_batch l' i v').
Proof.
  intros A B R l l' i v v' H Hv. unfold store_batch. rewrite (Forall2_len R v v' Hv).
  apply (foldM_rel (fun x y => fst x = fst y /\ R (snd x) (snd y)) (Forall2 R)); [| |exact H].
  - intros s t [k x] [k' y] Hs [E Hxy]. cbn in E, Hxy. subst k'. now apply wr_rel.
  - apply Forall2_combine; [now apply Forall2_refl|exact Hv].
Qed.

Lemma store_aligned_rel : forall {A B} (R : A -> B -> Prop) l l' i bw v v', Forall2 R l l' -> Forall2 R v v' -> orel (Forall2 R) (store_aligned l i bw v) (store_aligned l' i bw v').
Proof. intros A B R l l' i bw v v' H Hv. unfold store_aligned. destruct (_ =? 0); [now apply store_rel|exact I]. Qed.

Section Rel.

Context {F : Type}.
Variable O : fops F.
Variable E : env.
Variable K : platform F.
Notation c := (e_cfg E).
Notation simd := (e_simd E).
Variables q1 q2 : quant.
Variable R : @rrow F -> @rrow F -> Prop.
Variable eps2 : F.
Hypothesis H0 : R (row0 O c q1) (row0 O c q2).
Hypothesis Hself : forall p1 p2 a a' r r', R a a' -> R r r' ->
  R (fst (self_pair O c simd K q1 eps2 p1 p2 a r)) (fst (self_pair O c simd K q2 eps2 p1 p2 a' r')) /\
  R (snd (self_pair O c simd K q1 eps2 p1 p2 a r)) (snd (self_pair O c simd K q2 eps2 p1 p2 a' r')).
Hypothesis Hadd : forall r r' a a', R r r' -> R a a' -> R (add_rows O r a) (add_rows O r' a').
Hypothesis Hleaf : forall p1 p2 r r', R r r' -> R (leaf_pair O c simd K q1 eps2 p1 p2 r) (leaf_pair O c simd K q2 eps2 p1 p2 r').
Hypothesis Hcom : forall m p1 tmp r r', R r r' -> R (com_pair O c simd K m p1 tmp r) (com_pair O c simd K m p1 tmp r').
Hypothesis Hscale : forall G r r', R r r' -> R (scale_row O G r) (scale_row O G r').

Notation RS := (Forall2 R).

Lemma self_rel : forall n tgt res res', RS res res' -> orel RS (self_interactions O c simd K q1 eps2 n tgt res) (self_interactions O c simd K q2 eps2 n tgt res').
Proof.
  intros n tgt res res' H. unfold self_interactions. apply (foldM_rel eq RS); [|now apply Forall2_refl|exact H].
  clear res res' H. intros res res' i1 i1' H <-. apply orel_bind_same. intros p1s.
  apply (orel_bind (fun x y => RS (fst x) (fst y) /\ RS (snd x) (snd y))).
  - apply (foldM_rel eq (fun x y => RS (fst x) (fst y) /\ RS (snd x) (snd y))); [|now apply Forall2_refl|].
    + intros [a r] [a' r'] i2 i2' [HA HRr] <-. cbn [fst snd] in *. unfold self_inner. apply orel_bind_same. intros p2s.
      apply (orel_bind RS); [now apply load_rel|]. intros r2s r2s' H2.
      set (f := fun q '(p1, p2, (a1, r2)) => self_pair O c simd K q eps2 p1 p2 a1 r2).
      assert (FO : Forall2 (fun x y => R (fst x) (fst y) /\ R (snd x) (snd y)) (map (f q1) (combine (combine p1s p2s) (combine a r2s))) (map (f q2) (combine (combine p1s p2s) (combine a' r2s')))).
      { apply (Forall2_map (fun x y => fst x = fst y /\ (R (fst (snd x)) (fst (snd y)) /\ R (snd (snd x)) (snd (snd y))))).
        - apply (Forall2_combine eq (fun x y => R (fst x) (fst y) /\ R (snd x) (snd y))); [now apply Forall2_refl|]. now apply Forall2_combine.
        - intros [[p1 p2] [a1 r2]] [[p1' p2'] [a1' r2']] (E1 & E2 & E3). cbn [fst snd] in *. injection E1 as <- <-. unfold f. now apply Hself. }
      fold (f q1) (f q2). apply (orel_bind RS).
      * apply store_rel; [exact HRr|]. eapply Forall2_map; [exact FO|]. intros x y [_ X]. exact X.
      * intros s s' HS. cbn [orel fst snd]. split; [|exact HS]. eapply Forall2_map; [exact FO|]. intros x y [X _]. exact X.
    + cbn [fst snd]. split; [|exact H]. clear - H0. induction (batch c simd); cbn [repeat]; constructor; auto.
  - intros [a r] [a' r'] [HA HRr]. cbn [fst snd] in *. apply (orel_bind RS); [now apply load_aligned_rel|].
    intros r1 r1' H1. apply store_aligned_rel; [exact HRr|].
    apply (Forall2_map (fun x y => R (fst x) (fst y) /\ R (snd x) (snd y))); [now apply Forall2_combine|].
    intros [x1 x2] [y1 y2] [X Y]. now apply Hadd.
Qed.

Lemma batch_map_rel : forall bw f g is res res', RS res res' -> (forall k r r', R r r' -> orel R (f k r) (g k r')) ->
  orel RS (batch_map bw f is res) (batch_map bw g is res').
Proof.
  intros bw f g is res res' H HF. unfold batch_map. apply (foldM_rel eq RS); [|now apply Forall2_refl|exact H].
  clear res res' H. intros res res' i i' H <-. apply (orel_bind RS); [now apply load_aligned_rel|]. intros rs rs' Hr.
  apply (orel_bind RS).
  - apply (mapM_rel (fun x y => fst x = fst y /\ R (snd x) (snd y))).
    + intros [k r] [k' r'] [E1 E2]. cbn in E1, E2. subst k'. now apply HF.
    + apply Forall2_combine; [now apply Forall2_refl|exact Hr].
  - intros s s' Hs. now apply store_aligned_rel.
Qed.

Lemma check_rel : forall mv cols n tgt i src res res', RS res res' ->
  orel (fun x y => fst x = fst y /\ RS (snd x) (snd y)) (mac_check O c simd K q1 mv eps2 cols n tgt i src res) (mac_check O c simd K q2 mv eps2 cols n tgt i src res').
Proof.
  intros mv cols n tgt i src res res' H. unfold mac_check. apply orel_bind_same. intros [tmp|].
  - apply (orel_bind RS); [|intros s s' Hs; cbn; auto]. unfold src_com. apply batch_map_rel; [exact H|]. intros k r r' Hr.
    apply orel_bind_same. intros p1. apply orel_bind_same. intros t. cbn. now apply Hcom.
  - apply (orel_bind RS); [|intros s s' Hs; cbn; auto]. destruct (n_children src =? 0); [|exact H]. unfold acc_pot_leaf. apply batch_map_rel; [exact H|].
    intros k r r' Hr. apply orel_bind_same. intros p1. apply (foldM_rel eq R); [|now apply Forall2_refl|exact Hr].
    intros s s' i2 i2' Hs <-. apply orel_bind_same. intros p2. cbn. now apply Hleaf.
Qed.

Lemma traverse_rel : forall mv cols n tgt nodes code fuel i res res', RS res res' ->
  orel RS (traverse c K (mac_check O c simd K q1 mv eps2 cols n tgt) nodes code fuel i res)
          (traverse c K (mac_check O c simd K q2 mv eps2 cols n tgt) nodes code fuel i res').
Proof.
  intros mv cols n tgt nodes code. induction fuel as [|fuel IH]; intros i res res' H; cbn [traverse]; [destruct (_ <=? _); cbn; auto|].
  destruct (_ <=? _); [exact H|]. apply orel_bind_same. intros src. cbv zeta. apply orel_bind_same. intros s. destruct (s =? n_code src)%N; [now apply IH|].
  apply (orel_bind (fun x y => fst x = fst y /\ RS (snd x) (snd y))); [now apply check_rel|]. intros [k r] [k' r'] [E1 E2]. cbn in E1, E2. subst k'. now apply IH.
Qed.

Lemma crit_rows_rel : forall t mv G pad cn, orel RS (crit_rows O E K q1 t mv G eps2 pad cn) (crit_rows O E K q2 t mv G eps2 pad cn).
Proof.
  intros t mv G pad cn. unfold crit_rows. cbv zeta. apply orel_bind_same. intros psize. apply orel_bind_same. intros tgt.
  apply (orel_bind RS).
  - unfold tree_acc_pot. apply (orel_bind RS); [|intros s s' Hs; now apply self_rel]. apply traverse_rel. clear - H0. induction psize; cbn [repeat]; constructor; auto.
  - intros res res' H. unfold scale_G. destruct (feq O G _); [exact H|]. apply batch_map_rel; [exact H|]. intros k r r' Hr. cbn. now apply Hscale.
Qed.

Lemma result_rel : forall t mv G i, exists r r', R r r' /\ result_row O E K q1 t mv G eps2 i = fst r ++ snd r /\ result_row O E K q2 t mv G eps2 i = fst r' ++ snd r'
  \/ result_row O E K q1 t mv G eps2 i = [] /\ result_row O E K q2 t mv G eps2 i = [].
Proof.
  intros t mv G i. unfold result_row, row_at. destruct (find _ _) as [cn|]; [|exists ([], []), ([], []); auto].
  pose proof (crit_rows_rel t mv G (pad_coord O E (t_box t) mv) cn) as H.
  destruct (crit_rows O E K q1 _ _ _ _ _ _) as [res|e|], (crit_rows O E K q2 _ _ _ _ _ _) as [res'|e'|]; cbn in H; try contradiction;
    try (exists ([], []), ([], []); now right).
  pose proof (Forall2_nth_error R _ _ H (i - c_begin cn)) as N.
  destruct (nth_error res _) as [r|], (nth_error res' _) as [r'|]; try contradiction; [exists r, r'; left; auto|exists ([], []), ([], []); now right].
Qed.

End Rel.

Section Quant.

Context {F D : Type}.
Variable O : fops F.
Variable OD : fops D.
Variable E : env.
Variable K : platform F.
Hypothesis HE : env_ok E.
Hypothesis HK : benign_shift K.
Notation c := (e_cfg E).

Lemma result_length : forall q t mv G eps2 i, tree_inv O E t -> room E t -> i < length (t_codes t) ->
  length (result_row O E K q t mv G eps2 i) = nvecs_res E q.
Proof.
  intros q t mv G eps2 i Ht Hr Hi. destruct (tiles_find _ _ _ _ i (crit_tiles O E t Ht)) as (cn & Hcn & Hc); [lia|]. cbn [fst snd] in Hc.
  destruct (crit_node O E t cn Ht Hcn) as (_ & _ & _ & _ & _ & N5).
  destruct (psize_total E (length (t_codes t)) Hr (c_end cn - c_begin cn) ltac:(lia)) as [psize Hp].
  destruct (crit_rows_ok O E K HE HK q t mv G eps2 (pad_coord O E (t_box t) mv) cn psize Ht Hcn Hp) as (res & Er & Lr & Sr).
  pose proof (psize_ok E HE _ _ Hp) as (_ & Hps & _).
  destruct (nth_error res (i - c_begin cn)) as [r|] eqn:En; [|apply nth_error_None in En; lia].
  unfold result_row. replace i with (c_begin cn + (i - c_begin cn)) by lia.
  rewrite (row_at_crit O E K q t Ht mv G eps2 (pad_coord O E (t_box t) mv) cn res (i - c_begin cn) r Hcn Er ltac:(lia) En).
  apply shape_length. rewrite Forall_forall in Sr. apply Sr. eapply nth_error_In; eauto.
Qed.

Lemma map_nil_iff : forall {A B} (f : A -> B) l, l = [] -> map f l = [].
Proof. intros A B f l ->. reflexivity. Qed.

Lemma result_acc : (forall x y, fmul O x y = fmul O y x) -> forall t mv G eps2 i j, tree_inv O E t -> room E t -> i < length (t_codes t) -> j < dim c ->
  nth_error (result_row O E K QAcc t mv G eps2 i) j = nth_error (result_row O E K QBoth t mv G eps2 i) j.
Proof.
  intros HC t mv G eps2 i j Ht Hr Hi Hj. pose proof (result_length QAcc t mv G eps2 i Ht Hr Hi) as L. cbn [nvecs_res] in L.
  destruct (result_rel O E K QAcc QBoth (fun r r' => fst r = fst r' /\ snd r = []) eps2) with (t := t) (mv := mv) (G := G) (i := i)
    as (r & r' & [((E1 & E2) & X1 & X2)|[E1 _]]).
  - cbn. auto.
  - intros p1 p2 a a' s s' [A1 A2] [B1 B2]. unfold self_pair. cbv zeta. destruct (negb _); [cbn [fst snd]; now rewrite A1, B1, A2, B2|].
    destruct (fast_inv_sqrt O K) as [f|]; cbn [fst snd]; now rewrite A1, B1, A2, B2.
  - intros s s' a a' [A1 A2] [B1 B2]. unfold add_rows. cbn [fst snd]. now rewrite A1, B1, A2.
  - intros p1 p2 s s' [A1 A2]. unfold leaf_pair. cbv zeta. destruct (negb _); [cbn [fst snd]; now rewrite A1, A2|].
    destruct (fast_inv_sqrt O K) as [f|]; cbn [fst snd]; rewrite A1, A2; [auto|]. now rewrite (HC (fsqrt O _)).
  - intros m p1 tmp s s' [A1 A2]. unfold com_pair. cbv zeta. destruct (negb _); cbn [fst snd]; now rewrite A1, A2.
  - intros G' s s' [A1 A2]. unfold scale_row. cbn [fst snd]. now rewrite A1, A2.
  - rewrite X1 in *. rewrite X2. rewrite E2, app_nil_r in *. rewrite E1 in *. rewrite nth_error_app1; [reflexivity|]. lia.
  - rewrite E1 in L. cbn in L. lia.
Qed.

Lemma result_pot : vectorised c (e_simd E) = false -> forall t mv G eps2 i, tree_inv O E t -> room E t -> i < length (t_codes t) ->
  nth_error (result_row O E K QPot t mv G eps2 i) 0 = nth_error (result_row O E K QBoth t mv G eps2 i) (dim c).
Proof.
  intros HV t mv G eps2 i Ht Hr Hi. pose proof (result_length QPot t mv G eps2 i Ht Hr Hi) as L. cbn [nvecs_res] in L.
  pose proof (result_length QBoth t mv G eps2 i Ht Hr Hi) as L2. cbn [nvecs_res] in L2.
  destruct (result_rel O E K QPot QBoth (fun r r' => snd r = snd r' /\ fst r = []) eps2) with (t := t) (mv := mv) (G := G) (i := i)
    as (r & r' & [((E1 & E2) & X1 & X2)|[E1 _]]).
  - cbn. auto.
  - intros p1 p2 a a' s s' [A1 A2] [B1 B2]. unfold self_pair. cbv zeta. rewrite HV. cbn [negb fst snd]. rewrite A1, B1, A2, B2, !combine_nil. auto.
  - intros s s' a a' [A1 A2] [B1 B2]. unfold add_rows. cbn [fst snd]. now rewrite A1, B1, A2.
  - intros p1 p2 s s' [A1 A2]. unfold leaf_pair. cbv zeta. rewrite HV. cbn [negb fst snd]. unfold axpy. now rewrite A1, A2, combine_nil.
  - intros m p1 tmp s s' [A1 A2]. unfold com_pair. cbv zeta. rewrite HV. cbn [negb fst snd]. unfold axpy. now rewrite A1, A2, combine_nil.
  - intros G' s s' [A1 A2]. unfold scale_row. cbn [fst snd]. now rewrite A1, A2.
  - rewrite X1 in *. rewrite X2 in *. rewrite E2 in *. cbn [app] in *. rewrite E1 in *. rewrite app_length in L2.
    rewrite nth_error_app2 by lia. f_equal. lia.
  - rewrite E1 in L. discriminate.
Qed.

(** C46. *)
Lemma dispatch_accs : (forall x y, fmul O x y = fmul O y x) -> forall ord1 ord2 ordered t theta G eps split out1 out2, tree_inv O E t -> room E t -> reorders ord1 -> reorders ord2 ->
  out_ok (length (t_codes t)) (dim c) out1 -> out_ok (length (t_codes t)) (dim c + 1) out2 ->
  match acc_pot_dispatch O OD E K ord1 ordered QAcc t theta G eps split out1, acc_pot_dispatch O OD E K ord2 ordered QBoth t theta G eps split out2 with
  | Ok o1, Ok o2 => forall j i, j < dim c -> i < length (t_codes t) -> nth_error (nth j o1 []) i = nth_error (nth j o2 []) i
  | Throw e1, Throw e2 => e1 = e2
  | _, _ => False
  end.
Proof.
  intros HC ord1 ord2 ordered t theta G eps split out1 out2 Ht Hr H1 H2 Ho1 Ho2.
  destruct (params_dec O OD E t theta G eps split) as [(mv & eps2 & Hp)|Hn].
  - destruct (dispatch_ok O OD E K HE HK ord1 ordered QAcc t theta G eps split mv eps2 out1 Ht Hr H1 Hp Ho1) as (o1 & -> & _ & V1 & _ & _).
    destruct (dispatch_ok O OD E K HE HK ord2 ordered QBoth t theta G eps split mv eps2 out2 Ht Hr H2 Hp Ho2) as (o2 & -> & _ & V2 & _ & _).
    intros j k Hj Hk. destruct (dst_onto O E ordered t Ht k Hk) as (i & Hi & ->). cbn [nvecs_res] in V1, V2. rewrite V1, V2 by lia. now apply result_acc.
  - destruct (dispatch_not_params O OD E K t theta G eps split Ht Hr Hn) as (e & _ & H). now rewrite !H.
Qed.

Lemma dispatch_pots : vectorised c (e_simd E) = false -> forall ord1 ord2 ordered t theta G eps split out1 out2, tree_inv O E t -> room E t -> reorders ord1 -> reorders ord2 ->
  out_ok (length (t_codes t)) 1 out1 -> out_ok (length (t_codes t)) (dim c + 1) out2 ->
  match acc_pot_dispatch O OD E K ord1 ordered QPot t theta G eps split out1, acc_pot_dispatch O OD E K ord2 ordered QBoth t theta G eps split out2 with
  | Ok o1, Ok o2 => forall i, i < length (t_codes t) -> nth_error (nth 0 o1 []) i = nth_error (nth (dim c) o2 []) i
  | Throw e1, Throw e2 => e1 = e2
  | _, _ => False
  end.
Proof.
  intros HC ord1 ord2 ordered t theta G eps split out1 out2 Ht Hr H1 H2 Ho1 Ho2.
  destruct (params_dec O OD E t theta G eps split) as [(mv & eps2 & Hp)|Hn].
  - destruct (dispatch_ok O OD E K HE HK ord1 ordered QPot t theta G eps split mv eps2 out1 Ht Hr H1 Hp Ho1) as (o1 & -> & _ & V1 & _ & _).
    destruct (dispatch_ok O OD E K HE HK ord2 ordered QBoth t theta G eps split mv eps2 out2 Ht Hr H2 Hp Ho2) as (o2 & -> & _ & V2 & _ & _).
    intros k Hk. destruct (dst_onto O E ordered t Ht k Hk) as (i & Hi & ->). cbn [nvecs_res] in V1, V2. rewrite V1, V2 by lia. now apply result_pot.
  - destruct (dispatch_not_params O OD E K t theta G eps split Ht Hr Hn) as (e & _ & H). now rewrite !H.
Qed.

End Quant.
