(** Box size deduction and containment in the box: proofs. *)
From Coq Require Import List Arith ZArith NArith Reals Bool Lia Lra Psatz.
From Flocq Require Import Core BinarySingleNaN.
From Verif Require Import Base Config Morton Build FOps Disc FOpsProofs DiscProofs.
Import ListNotations.
Local Open Scope R_scope.

(** Largest of the absolute values of the [j]-th coordinates of some particles (0 if there are
    none). *)
Definition max_abs (v : list R) : R := fold_right (fun x m => Rmax (Rabs x) m) 0 v.

Lemma max_abs_ge0 : forall v, 0 <= max_abs v.
Proof. induction v; simpl; [lra|]. eapply Rle_trans; [exact IHv|apply Rmax_r]. Qed.

Lemma max_abs_app : forall u v, max_abs (u ++ v) = Rmax (max_abs u) (max_abs v).
Proof.
  induction u as [|x u IH]; intros v; simpl.
  - rewrite Rmax_right; [reflexivity|apply max_abs_ge0].
  - rewrite IH. now rewrite Rmax_assoc.
Qed.

Lemma max_abs_In : forall v x, In x v -> Rabs x <= max_abs v.
Proof.
  induction v as [|y v IH]; intros x Hx; [destruct Hx|]. simpl. destruct Hx as [->|Hx].
  - apply Rmax_l.
  - eapply Rle_trans; [now apply IH|apply Rmax_r].
Qed.

(** Largest element of a list of non-negative numbers. *)
Definition max_list (v : list R) : R := fold_right Rmax 0 v.
Lemma max_list_In : forall v x, In x v -> x <= max_list v.
Proof.
  induction v as [|y v IH]; intros x Hx; [destruct Hx|]. simpl. destruct Hx as [->|Hx].
  - apply Rmax_l.
  - eapply Rle_trans; [now apply IH|apply Rmax_r].
Qed.

Lemma slice_split : forall {A} (l : list A) b m e, (b <= m)%nat -> (m <= e)%nat -> (e <= length l)%nat ->
  slice l b e = slice l b m ++ slice l m e.
Proof.
  intros A l b m e H1 H2 H3. apply list_ext. intros i. rewrite nth_error_slice.
  destruct (Nat.ltb_spec i (e - b)) as [Hi|Hi].
  - destruct (Nat.ltb_spec i (m - b)) as [Hm|Hm].
    + rewrite nth_error_app1 by (rewrite slice_length; lia). rewrite nth_error_slice.
      destruct (Nat.ltb_spec i (m - b)); [reflexivity|lia].
    + rewrite nth_error_app2 by (rewrite slice_length; lia). rewrite slice_length by lia.
      rewrite nth_error_slice. destruct (Nat.ltb_spec (i - (m - b)) (e - m)); [|lia].
      f_equal. lia.
  - symmetry. apply nth_error_None. rewrite app_length, !slice_length by lia. lia.
Qed.

Lemma spans_le : forall r b e, spans r b e -> (b <= e)%nat.
Proof.
  induction r as [|r IH m e'|l IHl r IHr]; simpl; intros b e H.
  - lia.
  - destruct H as (-> & H1 & H2). apply IH in H2. lia.
  - destruct H as (m & H1 & H2). apply IHl in H1. apply IHr in H2. lia.
Qed.

Section IEEE.

Variables prec emax : Z.
Context (Hprec : Prec_gt_0 prec).
Context (Hemax : Prec_lt_emax prec emax).
Variable fused : bool.
Hypothesis Hp8 : (8 <= prec)%Z.

Notation bf := (binary_float prec emax).
Notation O := (Bops prec emax Hprec Hemax fused).
Notation fexp := (SpecFloat.fexp prec emax).
Notation rnd := (round radix2 fexp ZnearestE).

Lemma Hp2 : (2 <= prec)%Z. Proof. lia. Qed.

Definition good (x : bf) : Prop := is_finite x = true /\ Bsign x = false.

Lemma good_inj : forall x y, good x -> good y -> B2R x = B2R y -> x = y.
Proof. intros x y [F1 S1] [F2 S2] H. apply B2R_Bsign_inj; congruence. Qed.

Lemma good_abs : forall x : bf, is_finite (Babs x) = is_finite x /\
  (is_finite x = true -> good (Babs x)) /\ B2R (Babs x) = Rabs (B2R x).
Proof.
  intros x. split; [apply is_finite_Babs|]. split; [|apply B2R_Babs].
  intros H. split; [now rewrite is_finite_Babs|]. destruct x; reflexivity || discriminate.
Qed.

Lemma good_max : forall a b, good a -> good b -> good (fmax O a b) /\ B2R (fmax O a b) = Rmax (B2R a) (B2R b).
Proof.
  intros a b Ha Hb. unfold fmax. cbn [flt Bops].
  destruct (Bltb a b) eqn:E.
  - apply (ltb_lt prec emax) in E; [|apply Ha|apply Hb]. rewrite Rmax_right by lra. auto.
  - rewrite Rmax_left; [auto|]. apply Rnot_lt_le. intros H. apply (ltb_lt prec emax) in H; [congruence|apply Ha|apply Hb].
Qed.

Lemma good_0 : good (fofZ O 0%Z) /\ B2R (fofZ O 0%Z) = 0.
Proof. repeat split. Qed.

(** The state of a reduction that has seen the particles [ps]: the j-th component is the largest
    absolute value of the j-th coordinates. *)
Definition col (j : nat) (ps : list (list bf)) : list R :=
  map (fun p => B2R (nth j p (fofZ O 0%Z))) ps.
Definition state_ok (ndim : nat) (ps : list (list bf)) (v : list bf) : Prop :=
  length v = ndim /\ forall j x, nth_error v j = Some x -> good x /\ B2R x = max_abs (col j ps).

Definition all_fin (ps : list (list bf)) : Prop := Forall (Forall (fun x => is_finite x = true)) ps.

Lemma state_ok_unique : forall ndim ps v w, state_ok ndim ps v -> state_ok ndim ps w -> v = w.
Proof.
  intros ndim ps v w [L1 H1] [L2 H2]. apply list_ext. intros j.
  destruct (nth_error v j) as [x|] eqn:E1, (nth_error w j) as [y|] eqn:E2; try reflexivity.
  - destruct (H1 j x E1) as [G1 R1], (H2 j y E2) as [G2 R2]. f_equal. apply good_inj; auto. congruence.
  - apply nth_error_None in E2. apply nth_error_lt in E1. lia.
  - apply nth_error_None in E1. apply nth_error_lt in E2. lia.
Qed.

Lemma nth_error_combine : forall {A B} (la : list A) (lb : list B) i,
  nth_error (combine la lb) i =
  match nth_error la i, nth_error lb i with Some a, Some b => Some (a, b) | _, _ => None end.
Proof.
  induction la as [|a la IH]; intros lb i.
  - destruct i; reflexivity.
  - destruct lb as [|b lb]; destruct i; simpl; try reflexivity; try (destruct (nth_error la i); reflexivity).
    apply IH.
Qed.

Lemma max_step_ok : forall ndim ps v p, length p = ndim -> state_ok ndim ps v ->
  match max_step O v p with
  | Ok w => Forall (fun x => is_finite x = true) p /\ state_ok ndim (ps ++ [p]) w
  | Throw e => e = InvalidArgument /\ ~ Forall (fun x => is_finite x = true) p
  | UB => False
  end.
Proof.
  intros ndim ps v p Hp [Hl Hv].
  set (f := fun '(m, x) => let tmp := fabs O x in
      if ffin O tmp then Ok (fmax O m tmp) else Throw InvalidArgument).
  assert (G : forall l, match mapM f l with
     | Ok w => forall m x, In (m, x) l -> is_finite x = true
     | Throw e => e = InvalidArgument /\ exists m x, In (m, x) l /\ is_finite x = false
     | UB => False end).
  { induction l as [|[m x] l IH]; simpl; [tauto|]. cbn [fabs ffin Bops].
    destruct (good_abs x) as [Ha _]. rewrite Ha.
    destruct (is_finite x) eqn:E; simpl.
    - destruct (mapM f l); simpl.
      + intros m' x' [H|H]; [injection H as <- <-; exact E|eapply IH; eauto].
      + destruct IH as (-> & m' & x' & H & Hx). split; [reflexivity|]. exists m', x'. auto.
      + exact IH.
    - split; [reflexivity|]. exists m, x. auto. }
  unfold max_step. fold f. specialize (G (combine v p)). destruct (mapM f (combine v p)) as [w|e|] eqn:E.
  - assert (Hfin : Forall (fun x => is_finite x = true) p).
    { apply Forall_forall. intros x Hx. apply In_nth_error in Hx as [j Hj].
      destruct (nth_error v j) as [m|] eqn:Em.
      - apply (G m x). eapply nth_error_In with (n := j). rewrite nth_error_combine, Em, Hj. reflexivity.
      - apply nth_error_None in Em. apply nth_error_lt in Hj. lia. }
    split; [exact Hfin|].
    apply mapM_Ok in E as [El En]. rewrite combine_length in El. split; [lia|].
    intros j x Hj.
    destruct (nth_error v j) as [m|] eqn:Em; [|apply nth_error_None in Em; apply nth_error_lt in Hj; lia].
    destruct (nth_error p j) as [y|] eqn:Ey; [|apply nth_error_None in Ey; apply nth_error_lt in Hj; lia].
    destruct (En j (m, y)) as (b & Hb & Hf); [now rewrite nth_error_combine, Em, Ey|].
    rewrite Hj in Hb. injection Hb as <-. unfold f in Hf. cbn [fabs ffin Bops] in Hf.
    destruct (good_abs y) as (A1 & A2 & A3). rewrite A1 in Hf.
    rewrite Forall_forall in Hfin. assert (Hy : is_finite y = true) by (apply Hfin; eapply nth_error_In; eauto).
    rewrite Hy in Hf. injection Hf as <-. destruct (Hv j m Em) as [Gm Rm].
    destruct (good_max m (Babs y) Gm (A2 Hy)) as [G1 G2]. split; [exact G1|]. rewrite G2, Rm, A3.
    unfold col. rewrite map_app, max_abs_app. simpl. f_equal.
    erewrite nth_error_nth by exact Ey. rewrite Rmax_left; [reflexivity|apply Rabs_pos].
  - destruct G as (-> & m & x & Hin & Hx). split; [reflexivity|]. intros HF. rewrite Forall_forall in HF.
    apply in_combine_r in Hin. apply HF in Hin. congruence.
  - exact G.
Qed.

Lemma fold_step_ok : forall ndim qs ps v, Forall (fun p => length p = ndim) qs -> state_ok ndim ps v ->
  match foldM (max_step O) qs v with
  | Ok w => all_fin qs /\ state_ok ndim (ps ++ qs) w
  | Throw e => e = InvalidArgument /\ ~ all_fin qs
  | UB => False
  end.
Proof.
  induction qs as [|q qs IH]; intros ps v HF Hv; simpl.
  - rewrite app_nil_r. split; [constructor|exact Hv].
  - inversion HF as [|? ? Hq HF']; subst.
    pose proof (max_step_ok (length q) ps v q eq_refl Hv) as S. destruct (max_step O v q) as [w|e|]; simpl.
    + destruct S as [S1 S2]. specialize (IH (ps ++ [q]) w HF' S2). destruct (foldM _ _ _).
      * destruct IH as [I1 I2]. split; [constructor; auto|]. now rewrite <- app_assoc in I2.
      * destruct IH as [-> I]. split; [reflexivity|]. intros H. inversion H; auto.
      * exact IH.
    + destruct S as [-> S]. split; [reflexivity|]. intros H. inversion H; auto.
    + exact S.
Qed.

Lemma all_fin_app : forall a b, all_fin (a ++ b) <-> all_fin a /\ all_fin b.
Proof. intros. apply Forall_app. Qed.

Lemma Forall_slice : forall {A} (P : A -> Prop) l b e, Forall P l -> Forall P (slice l b e).
Proof.
  intros A P l b e H. rewrite Forall_forall in *. intros x Hx. apply H.
  unfold slice in Hx.
  rewrite <- (firstn_skipn b l). apply in_or_app. right.
  rewrite <- (firstn_skipn (e - b) (skipn b l)). apply in_or_app. now left.
Qed.

Lemma run_red_ok : forall ndim parts, Forall (fun p => length p = ndim) parts ->
  forall r b e, spans r b e -> (e <= length parts)%nat ->
  match run_red O ndim parts r with
  | Ok w => all_fin (slice parts b e) /\ state_ok ndim (slice parts b e) w
  | Throw x => x = InvalidArgument /\ ~ all_fin (slice parts b e)
  | UB => False
  end.
Proof.
  intros ndim parts HF. induction r as [|r IH m e'|l IHl r IHr]; simpl; intros b e Hs He.
  - subst. unfold slice. rewrite Nat.sub_diag. simpl. split; [constructor|]. split; [apply repeat_length|].
    intros j x Hj. apply nth_error_In, repeat_spec in Hj. subst. split; [apply good_0|reflexivity].
  - destruct Hs as (-> & Hm & Hs). pose proof (spans_le _ _ _ Hs).
    specialize (IH b m Hs ltac:(lia)). rewrite (slice_split parts b m e) by lia.
    destruct (run_red O ndim parts r) as [v|x|]; simpl.
    + destruct IH as [I1 I2].
      pose proof (fold_step_ok ndim (slice parts m e) (slice parts b m) v (Forall_slice _ _ _ _ HF) I2) as S.
      destruct (foldM _ _ _).
      * destruct S as [S1 S2]. split; [apply all_fin_app; auto|exact S2].
      * destruct S as [-> S]. split; [reflexivity|]. rewrite all_fin_app. tauto.
      * exact S.
    + destruct IH as [-> I]. split; [reflexivity|]. rewrite all_fin_app. tauto.
    + exact IH.
  - destruct Hs as (m & Hl & Hr). pose proof (spans_le _ _ _ Hl). pose proof (spans_le _ _ _ Hr).
    specialize (IHl b m Hl ltac:(lia)). specialize (IHr m e Hr He). rewrite (slice_split parts b m e) by lia.
    destruct (run_red O ndim parts l) as [a|x|]; simpl.
    + destruct IHl as [A1 [A2 A3]]. destruct (run_red O ndim parts r) as [w|x|]; simpl.
      * destruct IHr as [B1 [B2 B3]]. split; [apply all_fin_app; auto|].
        split; [rewrite map_length, combine_length; lia|].
        intros j x Hj. rewrite nth_error_map, nth_error_combine in Hj.
        destruct (nth_error a j) as [xa|] eqn:Ea; [|discriminate].
        destruct (nth_error w j) as [xb|] eqn:Eb; [|discriminate]. injection Hj as <-.
        destruct (A3 j xa Ea) as [G1 R1], (B3 j xb Eb) as [G2 R2].
        destruct (good_max xa xb G1 G2) as [G3 R3]. split; [exact G3|].
        rewrite R3, R1, R2. unfold col. now rewrite map_app, max_abs_app.
      * destruct IHr as [-> I]. split; [reflexivity|]. rewrite all_fin_app. tauto.
      * exact IHr.
    + destruct IHl as [-> I]. split; [reflexivity|]. rewrite all_fin_app. tauto.
    + exact IHl.
Qed.

Lemma slice_all : forall {A} (l : list A), slice l 0 (length l) = l.
Proof. intros. unfold slice. rewrite Nat.sub_0_r. simpl. apply firstn_all. Qed.

(** C10 *)
Lemma box_schedule : forall ndim parts r1 r2, Forall (fun p => length p = ndim) parts ->
  spans r1 0 (length parts) -> spans r2 0 (length parts) ->
  determine_box_size O ndim parts r1 = determine_box_size O ndim parts r2.
Proof.
  intros ndim parts r1 r2 HF H1 H2. unfold determine_box_size.
  destruct (it_diff_check _); [|reflexivity|reflexivity]. cbn [bind].
  pose proof (run_red_ok ndim parts HF r1 _ _ H1 (le_n _)) as A.
  pose proof (run_red_ok ndim parts HF r2 _ _ H2 (le_n _)) as B.
  assert (E : run_red O ndim parts r1 = run_red O ndim parts r2).
  { destruct (run_red O ndim parts r1) as [v|e|], (run_red O ndim parts r2) as [w|e'|]; try tauto.
    - f_equal. eapply state_ok_unique; [apply A|apply B].
    - destruct A as [-> _], B as [-> _]. reflexivity. }
  now rewrite E.
Qed.

Lemma max_element_ok : forall l m, good m -> Forall good l ->
  good (max_element O m l) /\ B2R (max_element O m l) = fold_left (fun a x => Rmax a (B2R x)) l (B2R m).
Proof.
  induction l as [|x l IH]; intros m Hm Hl; simpl; [auto|].
  inversion Hl; subst. destruct (good_max m x) as [G R]; auto.
  change (if flt O m x then x else m) with (fmax O m x).
  rewrite <- R. now apply IH.
Qed.

Lemma fold_max_ge : forall (l : list bf) (a : R),
  a <= fold_left (fun a x => Rmax a (B2R x)) l a /\
  forall x, In x l -> B2R x <= fold_left (fun a x => Rmax a (B2R x)) l a.
Proof.
  induction l as [|y l IH]; intros a; simpl.
  - split; [lra|tauto].
  - destruct (IH (Rmax a (B2R y))) as [I1 I2]. split.
    + eapply Rle_trans; [apply Rmax_l|exact I1].
    + intros x [->|Hx]; [|now apply I2]. eapply Rle_trans; [apply Rmax_r|exact I1].
Qed.

Lemma fold_max_in : forall (l : list bf) (a : R),
  fold_left (fun a x => Rmax a (B2R x)) l a = a \/
  exists x, In x l /\ fold_left (fun a x => Rmax a (B2R x)) l a = B2R x.
Proof.
  induction l as [|y l IH]; intros a; simpl; [auto|].
  destruct (IH (Rmax a (B2R y))) as [->|(x & Hx & ->)].
  - unfold Rmax. destruct (Rle_dec a (B2R y)); eauto.
  - right. eauto.
Qed.

(** The largest absolute value of all the coordinates. *)
Definition max_coord (parts : list (list bf)) : R := max_abs (map (fun x => B2R x) (concat parts)).

Lemma max_abs_le : forall v m, 0 <= m -> (forall x, In x v -> Rabs x <= m) -> max_abs v <= m.
Proof.
  induction v as [|x v IH]; intros m H0 H; simpl; [exact H0|].
  apply Rmax_lub; [apply H; now left|]. apply IH; auto. intros; apply H; now right.
Qed.

Lemma max_of_state : forall ndim parts m0 mt, Forall (fun p => length p = ndim) parts ->
  state_ok ndim parts (m0 :: mt) ->
  good (max_element O m0 mt) /\ B2R (max_element O m0 mt) = max_coord parts.
Proof.
  intros ndim parts m0 mt HF [Hl Hs].
  assert (Hg : Forall good (m0 :: mt)).
  { apply Forall_forall. intros x Hx. apply In_nth_error in Hx as [j Hj]. eapply Hs; eauto. }
  pose proof (Forall_inv Hg) as G0. pose proof (Forall_inv_tail Hg) as Gt.
  destruct (max_element_ok mt m0 G0 Gt) as [G R]. split; [exact G|]. rewrite R.
  destruct (fold_max_ge mt (B2R m0)) as [Ge0 Ge].
  apply Rle_antisym.
  - assert (Hall : forall x, In x (m0 :: mt) -> B2R x <= max_coord parts).
    { intros x Hx. apply In_nth_error in Hx as [j Hj]. destruct (Hs j x Hj) as [_ ->].
      apply max_abs_le; [apply max_abs_ge0|]. intros y Hy. apply max_abs_In.
      unfold col in Hy. apply in_map_iff in Hy as (p & <- & Hp). apply in_map.
      apply in_concat. exists p. split; [exact Hp|]. apply nth_In.
      rewrite Forall_forall in HF. rewrite (HF p Hp). rewrite <- Hl. eapply nth_error_lt; eauto. }
    destruct (fold_max_in mt (B2R m0)) as [->|(x & Hx & ->)]; apply Hall; [now left|now right].
  - apply max_abs_le.
    + assert (0 <= B2R m0); [|lra]. destruct (Hs 0%nat m0 eq_refl) as [_ ->]. apply max_abs_ge0.
    + intros y Hy. apply in_map_iff in Hy as (x & <- & Hx). apply in_concat in Hx as (p & Hp & Hx).
      apply In_nth_error in Hx as [j Hj].
      assert (Hjl : (j < length (m0 :: mt))%nat).
      { rewrite Hl. rewrite Forall_forall in HF. rewrite <- (HF p Hp). eapply nth_error_lt; eauto. }
      destruct (nth_error (m0 :: mt) j) as [m|] eqn:Em; [|apply nth_error_None in Em; lia].
      destruct (Hs j m Em) as [_ Rm].
      apply Rle_trans with (B2R m).
      * rewrite Rm. apply max_abs_In. unfold col. apply in_map_iff. exists p.
        split; [|exact Hp]. f_equal. now apply nth_error_nth.
      * apply nth_error_In in Em. destruct Em as [->|Em]; [exact Ge0|now apply Ge].
Qed.

(** Result of the deduction, as a function of the largest coordinate [M]:
    [fma(2M, 1/20, 2M)]. *)
Lemma box_value : forall ndim parts r, (0 < ndim)%nat -> Forall (fun p => length p = ndim) parts ->
  spans r 0 (length parts) ->
  match determine_box_size O ndim parts r with
  | Ok b => all_fin parts /\ exists M, good M /\ B2R M = max_coord parts /\
      b = ffma O (fmul O M (fofZ O 2%Z)) (fdiv O (fofZ O 1%Z) (fofZ O 20%Z)) (fmul O M (fofZ O 2%Z)) /\
      is_finite b = true
  | Throw e => e = InvalidArgument \/ (e = OverflowError /\ (diff_max < N.of_nat (length parts))%N)
  | UB => False
  end.
Proof.
  intros ndim parts r Hn HF Hs. unfold determine_box_size, it_diff_check.
  destruct (N.ltb_spec diff_max (N.of_nat (length parts))); cbn [bind]; [auto|].
  pose proof (run_red_ok ndim parts HF r _ _ Hs (le_n _)) as A. rewrite slice_all in A.
  destruct (run_red O ndim parts r) as [v|e|]; cbn [bind].
  - destruct A as [A1 A2]. destruct v as [|m0 mt]; [destruct A2 as [A2 _]; simpl in A2; lia|].
    destruct (max_of_state ndim parts m0 mt HF A2) as [G R]. cbv zeta.
    set (b := ffma O _ _ _). change (ffin O b) with (is_finite b).
    destruct (is_finite b) eqn:Eb; [|auto]. split; [exact A1|].
    exists (max_element O m0 mt). auto.
  - left. apply A.
  - exact A.
Qed.

End IEEE.
