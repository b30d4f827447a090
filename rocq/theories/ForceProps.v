(** Statements about the traversal and the checks of the parameters, in any arithmetic. *)
From Coq Require Import List Arith NArith ZArith Lia Bool Permutation.
From Verif Require Import Base Config Morton Build TreeSpec FOps NodeProps Tree TreeInv TreeProofs TreeSafe Kernels Force
  TravProofs KernLoops SelfSum ForceGen ForceOut ForceR ForceTop.
Import ListNotations.
Local Open Scope nat_scope.

Section Any.

Context {F D : Type}.
Variable O : fops F.
Variable OD : fops D.
Variable E : env.
Variable K : platform F.
Hypothesis HE : env_ok E.
Hypothesis HK : benign_shift K.
Notation c := (e_cfg E).

(** What is done for the nodes [evs] accounts for all the particles outside the critical node [cn] once; the nodes are disjoint from
    [cn]; nodes are treated particle by particle only if they are leaves. *)
Definition accounted (t : @tree F) (cn : cnode) (accept : node (props F) -> bool) (evs : list (@event F)) : Prop :=
  Permutation (flat_map (fun e => node_idx (ev_node e)) evs ++ seq (c_begin cn) (c_end cn - c_begin cn)) (seq 0 (length (t_codes t))) /\
  forall e, In e evs -> In (ev_node e) (t_nodes t) /\ (n_end (ev_node e) <= c_begin cn \/ c_end cn <= n_begin (ev_node e)) /\
    match e with Approx a => accept a = true | Direct a => accept a = false /\ n_children a = 0 end.

Lemma any_outcome : forall t cn accept, tree_inv O E t -> In cn (t_crit t) ->
  exists evs, traverse c K (ev_check accept) (t_nodes t) (c_code cn) (length (t_nodes t)) 0 [] = Ok evs /\ accounted t cn accept evs.
Proof.
  intros t cn accept Ht Hcn. destruct (crit_node O E t cn Ht Hcn) as (nd & N1 & N2 & N3 & N4 & N5).
  assert (R : forall A, reorders (fun l : list A => l)) by (intros A l; apply Permutation_refl).
  pose proof (inv_nodes _ _ _ Ht 0 _ _ (R _) (R _)) as HB. pose proof (inv_valid_codes O E t Ht) as Hv.
  destruct (traverse_covers c K (t_codes t) (t_mln t) (t_ncrit t) _ Hv 0 _ _ _ _ (R _) (R _) HB HK accept nd N1) as (pre & post & T1 & T2 & T3 & T4).
  rewrite N2, N3, N4 in *. exists (pre ++ post). split; [exact T1|]. split.
  - destruct (tiles_seq _ _ _ T2) as [_ S1]. destruct (tiles_seq _ _ _ T3) as [_ S2].
    assert (FM : forall l : list (@event F), flat_map (fun x => seq (fst x) (snd x - fst x)) (map ev_range l) = flat_map (fun e => node_idx (ev_node e)) l).
    { induction l as [|e l IH]; [reflexivity|]. cbn [map flat_map]. rewrite IH. destruct e; reflexivity. }
    rewrite FM in S1, S2. rewrite Nat.sub_0_r in S1. rewrite flat_map_app, S1, S2, <- app_assoc.
    assert (SQ : seq 0 (length (t_codes t)) = seq 0 (c_begin cn) ++ seq (c_begin cn) (c_end cn - c_begin cn) ++ seq (c_end cn) (length (t_codes t) - c_end cn)).
    { replace (length (t_codes t)) with (c_begin cn + ((c_end cn - c_begin cn) + (length (t_codes t) - c_end cn))) at 1 by lia.
      rewrite !seq_app. do 3 f_equal; lia. }
    rewrite SQ. apply Permutation_app_head, Permutation_app_comm.
  - intros e He. rewrite Forall_forall in T4. destruct (T4 e He) as (I1 & _ & I2). split; [exact I1|]. split; [|exact I2].
    assert (TB : forall l b e', tiles b l e' -> forall x, In x l -> b <= fst x /\ snd x <= e').
    { induction l as [|[x1 x2] l IH]; intros b e' H x Hx; [destruct Hx|]. cbn [tiles] in H. destruct H as (H1 & H2 & H3).
      destruct (tiles_seq _ _ _ H3) as [H4 _]. destruct Hx as [<-|Hx]; [cbn [fst snd]; lia|]. destruct (IH _ _ H3 x Hx). lia. }
    apply in_app_or in He as [He|He].
    + left. destruct (TB _ _ _ T2 (ev_range e) (in_map _ _ _ He)) as [_ B]. exact B.
    + right. destruct (TB _ _ _ T3 (ev_range e) (in_map _ _ _ He)) as [B _]. exact B.
Qed.

(** The traversal of the code for a critical node. *)
Lemma code_events : forall q t mac_value eps2 pad cn psize tgt, tree_inv O E t -> In cn (t_crit t) ->
  let size := c_end cn - c_begin cn in
  pdata_size E size = Ok psize -> target_data O E (t_parts t) pad (c_begin cn) size psize = Ok tgt ->
  exists evs, accounted t cn (accept O c (e_simd E) K mac_value eps2 size tgt) evs /\
    (forall a i p, In (Approx a) evs -> c_begin cn <= i < c_end cn -> particle c (t_parts t) i = Ok p ->
       fle O (fst (mac_lane O c (e_simd E) K eps2 (p_com (n_props a)) p)) (mac_lh O (n_props a) mac_value) = false) /\
    forall res, traverse c K (mac_check O c (e_simd E) K q mac_value eps2 (t_parts t) size tgt) (t_nodes t) (c_code cn) (length (t_nodes t)) 0 res =
      foldM (ev_act O c (e_simd E) K q eps2 (t_parts t) size tgt) evs res.
Proof.
  intros q t mac_value eps2 pad cn psize tgt Ht Hcn size Hsz Htg.
  set (acc := accept O c (e_simd E) K mac_value eps2 size tgt). destruct (any_outcome t cn acc Ht Hcn) as (evs & T & A).
  destruct (psize_ok E HE _ _ Hsz) as (P1 & P2 & P3). destruct (crit_node O E t cn Ht Hcn) as (_ & _ & _ & _ & _ & N5).
  destruct (rows_exist O E t Ht) as (ps & R1 & R2 & R3).
  assert (Etg : tgt = tgt_rows O E ps pad cn psize).
  { unfold size in Htg. rewrite (target_ok O E t ps pad (c_begin cn) (c_end cn) psize R1) in Htg by lia. injection Htg as <-. reflexivity. }
  assert (Lt : length tgt = psize).
  { rewrite Etg. unfold tgt_rows. rewrite app_length, slice_length, repeat_length by lia. unfold size in *. lia. }
  pose proof (covered_bounds (batch c (e_simd E)) size (batch_pos c (e_simd E) (simd_pos E HE))) as [C1 C2].
  exists evs. split; [exact A|]. split.
  - intros a i p Ha Hi Hp. destruct A as [_ A]. destruct (A _ Ha) as (_ & _ & Hacc). unfold acc, accept, passes in Hacc. apply negb_true_iff in Hacc.
    destruct (fle O _ _) eqn:L; [|reflexivity]. exfalso.
    rewrite <- not_true_iff_false in Hacc. apply Hacc. apply existsb_exists. exists p. split; [|exact L].
    rewrite Etg. unfold tgt_rows. rewrite firstn_app. apply in_or_app. left. rewrite firstn_all2 by (rewrite slice_length; lia).
    unfold rows_of in R1. apply mapM_Ok in R1 as [L1 R1]. destruct (R1 i i) as (p' & H2 & H1).
    { rewrite nth_error_nth' with (d := 0) by (rewrite seq_length; lia). rewrite seq_nth by lia. reflexivity. }
    assert (p' = p) by congruence. subst p'. apply nth_error_In with (n := i - c_begin cn). rewrite nth_error_slice.
    destruct (Nat.ltb_spec (i - c_begin cn) (c_end cn - c_begin cn)); [|lia]. rewrite <- H2. f_equal. lia.
  - intros res. destruct (traverse_events c K (mac_check O c (e_simd E) K q mac_value eps2 (t_parts t) size tgt) acc
      (ev_act O c (e_simd E) K q eps2 (t_parts t) size tgt) (t_nodes t) (c_code cn)) with (fuel := length (t_nodes t)) (i := 0) (evs0 := @nil (@event F)) (evs := evs) (s := res) as (new & -> & H).
    + intros i src s _. apply mac_check_events; [exact (simd_pos E HE)|]. unfold size in *. lia.
    + exact T.
    + cbn [app]. exact H.
Qed.

(** The conditions under which parameters are rejected. *)
Definition bad_value (theta G eps : F) : Prop :=
  ffin O theta = false \/ fle O theta (fofZ O 0%Z) = true \/
  (let mv := match e_mac E with Bh => fdiv O (fofZ O 1%Z) (fmul O theta theta) | BhGeom => fdiv O (fofZ O 1%Z) theta end in
   ffin O mv = false \/ fle O mv (fofZ O 0%Z) = true) \/
  ffin O eps = false \/ flt O eps (fofZ O 0%Z) = true \/
  ffin O (fmul O eps eps) = false \/ flt O (fmul O eps eps) (fofZ O 0%Z) = true \/ ffin O G = false.

Lemma mac_value_error : forall theta, mac_value_of O E theta = Throw DomainError \/ exists mv, mac_value_of O E theta = Ok mv.
Proof. intros. unfold mac_value_of. cbv zeta. destruct (_ || _); [now left|]. destruct (_ || _); [now left|right; eauto]. Qed.

Lemma domain_error : forall ord ordered q t theta G eps split out, tree_inv O E t -> room E t -> reorders ord -> out_ok (length (t_codes t)) (nvecs_res E q) out ->
  (acc_pot_dispatch O OD E K ord ordered q t theta G eps split out = Throw DomainError <-> bad_value theta G eps).
Proof.
  intros ord ordered q t theta G eps split out Ht Hr Ho Hout. unfold acc_pot_dispatch, bad_value. cbv zeta.
  unfold mac_value_of. cbv zeta. set (mv := match e_mac E with Bh => _ | BhGeom => _ end).
  destruct (ffin O theta) eqn:T1; [|cbn; split; auto]. destruct (fle O theta _) eqn:T2; [cbn; split; auto|].
  cbn [negb orb]. destruct (ffin O mv) eqn:T3; [|cbn; split; auto]. destruct (fle O mv _) eqn:T4; [cbn; split; auto|].
  cbn [negb orb bind]. unfold compute_eps2. cbv zeta.
  destruct (ffin O eps) eqn:T5; [|cbn; split; auto 6]. destruct (flt O eps _) eqn:T6; [cbn; split; auto 7|]. cbn [negb orb].
  destruct (ffin O (fmul O eps eps)) eqn:T7; [|cbn; split; auto 8]. destruct (flt O (fmul O eps eps) _) eqn:T8; [cbn; split; auto 9|]. cbn [negb orb bind].
  unfold check_G_const. destruct (ffin O G) eqn:T9; [|cbn; split; auto 10]. cbn [negb bind].
  split; [|intros H; exfalso; decompose [or] H; discriminate].
  intros H. exfalso. assert (I : forall dest, (acc_pot_impl O OD E K ord q t mv G (fmul O eps eps) split dest out <> Throw DomainError \/ dest <> dest_of ordered t)).
  2:{ destruct (I (dest_of ordered t)) as [Z|Z]; [|now apply Z]. unfold dest_of in Z. destruct ordered; [|contradiction].
      unfold it_diff_check in H. rewrite (nparts_codes O E t Ht) in H. unfold room in Hr. destruct (N.ltb_spec diff_max (N.of_nat (length (t_codes t)))); [lia|]. contradiction. }
  intros dest. destruct (params_dec O OD E t theta G eps split) as [(mv' & eps2' & Hp)|Hn].
  - left. intros Z. destruct (dispatch_ok O OD E K HE HK ord ordered q t theta G eps split mv' eps2' out Ht Hr Ho Hp Hout) as (o & Eo & _).
    assert (Q : acc_pot_dispatch O OD E K ord ordered q t theta G eps split out = Throw DomainError); [|congruence].
    unfold acc_pot_dispatch, mac_value_of. cbv zeta. fold mv. rewrite T1, T2. cbn [negb orb]. rewrite T3, T4. cbn [negb orb bind].
    unfold compute_eps2. cbv zeta. rewrite T5, T6. cbn [negb orb]. rewrite T7, T8. cbn [negb orb bind]. unfold check_G_const. rewrite T9. exact H.
  - left. unfold acc_pot_impl. unfold check_split. cbv zeta. destruct (existsb _ split) eqn:S1; [discriminate|]. destruct (existsb (fun x => flt OD x _) split) eqn:S2; [discriminate|].
    destruct (_ && _) eqn:S3; [discriminate|]. cbn [bind]. destruct (Nat.ltb_spec 1 (length split)); [discriminate|]. unfold cpu_run.
    destruct (ffin O (pad_coord O E (t_box t) mv)) eqn:S4; [|discriminate]. exfalso.
    apply (Hn mv (fmul O eps eps)). split; [|split; [|split; [|split; [|split]]]].
    + unfold mac_value_of. cbv zeta. fold mv. now rewrite T1, T2, T3, T4.
    + unfold compute_eps2. cbv zeta. now rewrite T5, T6, T7, T8.
    + unfold check_G_const. now rewrite T9.
    + unfold check_split. cbv zeta. now rewrite S1, S2, S3.
    + lia.
    + exact S4.
Qed.

(** Conditions under which [split] or the box size is rejected, the other parameters being valid. *)
Definition mac_val (theta : F) : F := match e_mac E with Bh => fdiv O (fofZ O 1%Z) (fmul O theta theta) | BhGeom => fdiv O (fofZ O 1%Z) theta end.
Definition bad_split (t : @tree F) (theta : F) (split : list D) : Prop :=
  (exists x, In x split /\ ffin OD x = false) \/ (exists x, In x split /\ flt OD x (fofZ OD 0%Z) = true) \/
  (split <> [] /\ forall x, In x split -> feq OD x (fofZ OD 0%Z) = true) \/ 1 < length split \/
  ffin O (pad_coord O E (t_box t) (mac_val theta)) = false.

Lemma check_split_iff : forall split, check_split OD split <> Ok tt <->
  (exists x, In x split /\ ffin OD x = false) \/ (exists x, In x split /\ flt OD x (fofZ OD 0%Z) = true) \/
  (split <> [] /\ forall x, In x split -> feq OD x (fofZ OD 0%Z) = true).
Proof.
  intros split. unfold check_split. cbv zeta. destruct (existsb (fun x => negb (ffin OD x)) split) eqn:S1.
  { apply existsb_exists in S1 as (x & H1 & H2). apply negb_true_iff in H2. split; [intros _; left; eauto|discriminate]. }
  destruct (existsb (fun x => flt OD x _) split) eqn:S2.
  { apply existsb_exists in S2 as (x & H1 & H2). split; [intros _; right; left; eauto|discriminate]. }
  assert (N1 : ~ exists x, In x split /\ ffin OD x = false).
  { intros (x & H1 & H2). rewrite <- not_true_iff_false in S1. apply S1. apply existsb_exists. exists x. now rewrite H2. }
  assert (N2 : ~ exists x, In x split /\ flt OD x (fofZ OD 0%Z) = true).
  { intros (x & H1 & H2). rewrite <- not_true_iff_false in S2. apply S2. apply existsb_exists. exists x. now rewrite H2. }
  destruct split as [|x l]; [cbn; split; [intros H; now elim H|intros [H|[H|[H _]]]; contradiction]|]. cbn [negb andb].
  destruct (forallb _ (x :: l)) eqn:S3.
  - rewrite forallb_forall in S3. split; [intros _; right; right; split; [discriminate|exact S3]|discriminate].
  - split; [intros H; now elim H|]. intros [H|[H|[_ H]]]; [contradiction|contradiction|]. exfalso.
    rewrite <- not_true_iff_false in S3. apply S3. now apply forallb_forall.
Qed.

Lemma validation : forall ord ordered q t theta G eps split out, tree_inv O E t -> room E t -> reorders ord -> out_ok (length (t_codes t)) (nvecs_res E q) out ->
  let r := acc_pot_dispatch O OD E K ord ordered q t theta G eps split out in
  (r = Throw DomainError <-> bad_value theta G eps) /\
  (r = Throw InvalidArgument <-> ~ bad_value theta G eps /\ bad_split t theta split) /\
  ((exists out', r = Ok out') <-> ~ bad_value theta G eps /\ ~ bad_split t theta split).
Proof.
  intros ord ordered q t theta G eps split out Ht Hr Hord Ho r.
  pose proof (domain_error ord ordered q t theta G eps split out Ht Hr Hord Ho) as HD. fold r in HD.
  assert (B : ~ bad_value theta G eps -> (~ bad_split t theta split <-> exists mv eps2, params O OD E t theta G eps split mv eps2)).
  { intros NB. assert (V : mac_value_of O E theta = Ok (mac_val theta) /\ compute_eps2 O eps = Ok (fmul O eps eps) /\ check_G_const O G = Ok tt).
    { unfold bad_value in NB. cbv zeta in NB. fold (mac_val theta) in NB. unfold mac_value_of, compute_eps2, check_G_const. cbv zeta. fold (mac_val theta).
      destruct (ffin O theta); [|tauto]. destruct (fle O theta _); [tauto|]. destruct (ffin O (mac_val theta)); [|tauto]. destruct (fle O (mac_val theta) _); [tauto|].
      destruct (ffin O eps); [|tauto]. destruct (flt O eps _); [tauto|]. destruct (ffin O (fmul O eps eps)); [|tauto]. destruct (flt O (fmul O eps eps) _); [tauto|].
      destruct (ffin O G); [|tauto]. auto. }
    destruct V as (V1 & V2 & V3). unfold params. unfold bad_split. pose proof (check_split_iff split) as CS. split.
    - intros NS. exists (mac_val theta), (fmul O eps eps). repeat (split; [assumption|]).
      assert (C : check_split OD split = Ok tt).
      { destruct (check_split OD split) as [[]|e|] eqn:C; [reflexivity| |]; exfalso; apply NS; (assert (X : check_split OD split <> Ok tt) by (rewrite C; discriminate)); apply check_split_iff in X; tauto. }
      split; [exact C|]. split; [destruct (Nat.le_gt_cases (length split) 1); [assumption|tauto]|].
      destruct (ffin O (pad_coord O E (t_box t) (mac_val theta))); [reflexivity|tauto].
    - intros (mv & eps2 & P1 & P2 & P3 & P4 & P5 & P6) NS. assert (mv = mac_val theta) by congruence. subst mv.
      destruct NS as [NS|[NS|[NS|[NS|NS]]]]; [| | |lia|congruence]; (assert (X : check_split OD split <> Ok tt) by (apply CS; auto)); contradiction. }
  destruct (params_dec O OD E t theta G eps split) as [(mv & eps2 & Hp)|Hn].
  - destruct (dispatch_ok O OD E K HE HK ord ordered q t theta G eps split mv eps2 out Ht Hr Hord Hp Ho) as (o & Eo & _). fold r in Eo.
    assert (NB : ~ bad_value theta G eps) by (intros Z; apply HD in Z; congruence).
    assert (NS : ~ bad_split t theta split) by (apply (B NB); eauto).
    split; [exact HD|]. split; split; intros H.
    + congruence.
    + destruct H; contradiction.
    + auto.
    + eauto.
  - destruct (dispatch_not_params O OD E K t theta G eps split Ht Hr Hn) as (e & He & HA). specialize (HA ord ordered q out). fold r in HA.
    split; [exact HD|]. split; split; intros H.
    + assert (NB : ~ bad_value theta G eps) by (intros Z; apply HD in Z; congruence). split; [exact NB|].
      unfold bad_split.
      assert (DEC : bad_split t theta split \/ ~ bad_split t theta split).
      { destruct (check_split OD split) as [[]|e'|] eqn:C.
        - destruct (Nat.lt_ge_cases 1 (length split)) as [L|L]; [left; unfold bad_split; auto|].
          destruct (ffin O (pad_coord O E (t_box t) (mac_val theta))) eqn:Pc; [|left; unfold bad_split; auto].
          right. intros [S|[S|[S|[S|S]]]]; [| | |lia|congruence]; (assert (X : check_split OD split <> Ok tt) by (apply check_split_iff; auto)); contradiction.
        - left. assert (X : check_split OD split <> Ok tt) by (rewrite C; discriminate). apply check_split_iff in X. unfold bad_split. tauto.
        - left. assert (X : check_split OD split <> Ok tt) by (rewrite C; discriminate). apply check_split_iff in X. unfold bad_split. tauto. }
      destruct DEC as [DEC|DEC]; [exact DEC|]. exfalso. apply (B NB) in DEC as (mv & eps2 & Hp). exact (Hn mv eps2 Hp).
    + destruct He as [-> | ->]; [|exact HA]. exfalso. apply (proj1 H). now apply HD.
    + destruct H as [o Eo]. congruence.
    + exfalso. destruct H as [NB NS]. apply (B NB) in NS as (mv & eps2 & Hp). exact (Hn mv eps2 Hp).
Qed.

End Any.
