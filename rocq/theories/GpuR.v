(** The computation with accelerators in exact arithmetic. *)
From Coq Require Import List Arith NArith ZArith Lia Bool Reals Lra Permutation.
From Verif Require Import Base Config Morton Build TreeSpec FOps FOpsProofs Disc NodeProps Tree TreeInv TreeProofs TreeSafe Kernels Force
  TravProofs KernLoops RSum NodeGeom NodesR SelfSum KernR ForceGen ForceOut ForceR ForceTop ForceRTop ForceMore Gpu GpuKernel GpuOut GpuTop.
Import ListNotations.
Local Open Scope nat_scope.

Lemma remove_one : forall l i, NoDup l -> In i l -> Permutation (i :: filter (fun k => negb (k =? i)) l) l.
Proof.
  induction l as [|x l IH]; intros i HN Hi; [destruct Hi|]. inversion HN as [|? ? H1 H2]; subst. cbn [filter].
  destruct (Nat.eqb_spec x i) as [->|N]; cbn [negb].
  - apply perm_skip. replace (filter (fun k => negb (k =? i)) l) with l; [apply Permutation_refl|]. clear - H1. induction l as [|y l IH]; [reflexivity|]. cbn [filter].
    destruct (Nat.eqb_spec y i) as [->|N]; cbn [negb]; [exfalso; apply H1; now left|]. f_equal. apply IH. intros H. apply H1. now right.
  - destruct Hi as [->|Hi]; [congruence|]. eapply perm_trans; [apply perm_swap|]. apply perm_skip. now apply IH.
Qed.

Section GpuR.

Variable E : env.
Variable K : platform R.
Hypothesis HE : env_ok E.
Hypothesis HK : benign_shift K.
Hypothesis HX : exact_rsqrt K.

Notation c := (e_cfg E).

Section Kern.

Variable q : quant.
Variable eps2 : R.
Hypothesis Heps : (0 <= eps2)%R.
Notation T := (pull (dim c) q eps2).
Notation wfrow := (wfr c q).

Lemma lane_dist2_R : forall com p, lane_dist2 Rops com p = sep2 com (fst p).
Proof. intros com p. unfold lane_dist2. rewrite fold_ffma, diffs_sep2. cbn [fofZ Rops]. lra. Qed.

Lemma lane_com_R : forall a l r, wfp c (l_p l) -> length (p_com (n_props a)) = dim c -> wfrow r ->
  adds c q r (lane_com Rops eps2 a l r) (fun j => T j (l_p l) (p_com (n_props a), p_mass (n_props a))).
Proof.
  intros a l r W1 W2 W. unfold lane_com. cbv zeta. rewrite lane_dist2_R. generalize dependent (p_com (n_props a)). intros cm W2. generalize (p_mass (n_props a)). intros ms.
  pose (p2 := (cm, ms)). change (cm, ms) with p2. change cm with (fst p2) in W2 |- *. change ms with (snd p2). clearbody p2. set (p1 := l_p l) in *.
  pose proof (T_acc c q eps2 p1 p2 W1 W2) as TA. pose proof (T_pot c q eps2 p1 p2) as TP. pose proof (Lds c p1 p2 W1 W2) as LD.
  pose proof (r_sq eps2 Heps p1 p2) as RS. pose proof (r_sqrt eps2 p1 p2) as RQ.
  cbn [fadd fsqrt fdiv fmul fsub Rops]. set (ds := diffs Rops (fst p2) (fst p1)) in *. set (D0 := sqrt (sep2 (fst p2) (fst p1) + eps2)) in *. rewrite RS.
  assert (LA : forall j, j < length (fst r) -> length ds = length (fst r)) by (intros j Hj; destruct (wfr_acc c q r j W Hj); lia).
  apply upd_row; [exact W| | | |].
  - unfold axpy. rewrite map_length, combine_length. destruct W as [Wa _]. destruct (has_acc q); lia.
  - now rewrite map_length.
  - intros j Hj Ha. rewrite axpy_nth by (now apply (LA j)). rewrite TA by exact Ha. unfold Rdiv. replace (D0 * (D0 * D0))%R with (D0 * D0 * D0)%R by ring. ring.
  - intros j Hj Ha L1. rewrite map1 by exact L1. rewrite TP by exact Ha. unfold Rdiv. ring.
Qed.

Lemma self_diffs : forall x : list R, forall j, nth j (diffs Rops x x) 0%R = 0%R.
Proof.
  induction x as [|a x IH]; intros [|j]; try reflexivity.
  - cbn. lra.
  - exact (IH j).
Qed.

Lemma lane_leaf_R : forall l i p2 r, wfp c (l_p l) -> wfp c p2 -> wfrow r -> (l_idx l = i -> p2 = l_p l) ->
  adds c q r (lane_leaf Rops eps2 l i p2 r) (fun j => if i =? l_idx l then 0%R else T j (l_p l) p2).
Proof.
  intros l i p2 r W1 W2 W Hself. unfold lane_leaf. cbv zeta. set (p1 := l_p l) in *. rewrite fold_ffma, diffs_sep2.
  pose proof (T_acc c q eps2 p1 p2 W1 W2) as TA. pose proof (T_pot c q eps2 p1 p2) as TP. pose proof (Lds c p1 p2 W1 W2) as LD.
  pose proof (r_sq eps2 Heps p1 p2) as RS. pose proof (r_sqrt eps2 p1 p2) as RQ.
  assert (LA : forall j, j < length (fst r) -> length (diffs Rops (fst p2) (fst p1)) = length (fst r)) by (intros j Hj; destruct (wfr_acc c q r j W Hj); lia).
  apply upd_row; [exact W| | | |].
  - unfold axpy. rewrite map_length, combine_length. destruct W as [Wa _]. destruct (has_acc q); lia.
  - now rewrite map_length.
  - intros j Hj Ha. rewrite axpy_nth by (now apply (LA j)). rewrite (Nat.eqb_sym i). destruct (Nat.eqb_spec (l_idx l) i) as [Hi|Hi].
    + rewrite (Hself Hi), self_diffs. ring.
    + cbn [fadd fsqrt fdiv fmul fsub fofZ Rops]. replace (eps2 + 0 + sep2 (fst p2) (fst p1))%R with (sep2 (fst p2) (fst p1) + eps2)%R by (change (IZR 0) with 0%R; ring).
      set (D0 := sqrt (sep2 (fst p2) (fst p1) + eps2)) in *. rewrite RS. rewrite TA by exact Ha. unfold Rdiv. replace (D0 * (D0 * D0))%R with (D0 * D0 * D0)%R by ring. ring.
  - intros j Hj Ha L1. rewrite map1 by exact L1. rewrite (Nat.eqb_sym i). destruct (Nat.eqb_spec (l_idx l) i) as [Hi|Hi].
    + cbn [fadd fsqrt fdiv fmul fsub fofZ Rops]. unfold Rdiv. change (IZR 0) with 0%R. ring.
    + cbn [fadd fsqrt fdiv fmul fsub fofZ Rops]. replace (eps2 + 0 + sep2 (fst p2) (fst p1))%R with (sep2 (fst p2) (fst p1) + eps2)%R by (change (IZR 0) with 0%R; ring).
      rewrite TP by exact Ha. unfold Rdiv. change (IZR 1) with 1%R. ring.
Qed.

Section Evs.

Variables (t : @tree R) (ps : list (@prow R)).
Hypothesis Ht : tree_inv Rops E t.
Hypothesis Hps : rows_of E t ps.
Notation P k := (nth k ps ([] : list R, fofZ Rops 0%Z)).
Variable mv : R.

Lemma lane_wf : forall i, i < length (t_codes t) -> wfp c (P i).
Proof.
  intros i Hi. destruct (ps_facts E t ps Ht Hps) as [L W]. rewrite Forall_forall in W. apply W, nth_In. unfold prow in *. lia.
Qed.

Lemma lane_events_R : forall i evs r, i < length (t_codes t) -> wfrow r ->
  Forall (fun e => In (ev_node e) (t_nodes t)) evs ->
  adds c q r (fold_left (lane_act Rops ps eps2 (lane_of Rops t ps i)) evs r)
    (fun j => rsum (fun k => T j (P i) (P k)) (filter (fun k => negb (k =? i)) (flat_map node_idx (directs evs))) +
              rsum (fun a => T j (P i) (p_com (n_props a), p_mass (n_props a))) (approxs evs))%R.
Proof.
  intros i evs r Hi W Hev. revert r W. induction Hev as [|e evs He Hev IH]; intros r W; cbn [fold_left].
  - split; [exact W|]. intros j Hj. cbn [approxs directs flat_map filter]. rewrite !rsum_nil. lra.
  - destruct e as [a|a]; cbn [lane_act approxs directs flat_map app].
    + fold (approxs evs) (directs evs).
      destruct (lane_com_R a (lane_of Rops t ps i) r (lane_wf i Hi) (com_length Rops E t a Ht He) W) as [W1 V1].
      destruct (IH _ W1) as [W2 V2]. split; [exact W2|]. intros j Hj. rewrite V2, V1, rsum_cons by exact Hj. cbn [lane_of l_p]. lra.
    + fold (approxs evs) (directs evs). cbn [ev_node] in He.
      destruct (node_code_shape Rops E t a Ht He) as (_ & _ & _ & _ & Hr).
      assert (X : forall l r0, wfrow r0 -> (forall k, In k l -> k < length (t_codes t)) ->
        adds c q r0 (fold_left (fun r0 k => lane_leaf Rops eps2 (lane_of Rops t ps i) k (P k) r0) l r0)
          (fun j => rsum (fun k => T j (P i) (P k)) (filter (fun k => negb (k =? i)) l))).
      { induction l as [|k l IHl]; intros r0 W0 Hl; cbn [fold_left filter].
        - split; [exact W0|]. intros. rewrite rsum_nil. lra.
        - destruct (lane_leaf_R (lane_of Rops t ps i) k (P k) r0 (lane_wf i Hi) (lane_wf k (Hl k (or_introl eq_refl))) W0) as [W1 V1].
          { cbn [lane_of l_idx l_p]. now intros ->. }
          destruct (IHl _ W1 (fun k' H => Hl k' (or_intror H))) as [W2 V2]. split; [exact W2|]. intros j Hj. rewrite V2, V1 by exact Hj.
          cbn [lane_of l_idx l_p]. destruct (k =? i); cbn [negb]; [lra|]. rewrite rsum_cons. lra. }
      destruct (X (node_idx a) r W) as [W1 V1]. { intros k Hk. apply in_seq in Hk. lia. }
      destruct (IH _ W1) as [W2 V2]. split; [exact W2|]. intros j Hj. rewrite V2, V1 by exact Hj. cbn [flat_map]. rewrite filter_app, rsum_app. lra.
Qed.

End Evs.
End Kern.

(** A vote in favour means that the node satisfies the criterion. *)
Lemma vote_separated : forall t theta mv a l, tree_inv Rops E t -> (0 <= t_box t)%R -> mac_value_of Rops E theta = Ok mv ->
  In a (t_nodes t) -> vote Rops mv a l = true -> inside a (l_idx l) = false /\ separated E t theta a (fst (l_p l)).
Proof.
  intros t theta mv a l Ht Hb Hmv Ha Hv. unfold vote in Hv. apply andb_true_iff in Hv as [H1 H]. apply negb_true_iff in H1. split; [exact H1|].
  destruct (mac_value_R E _ _ Hmv) as [Hth ->].
  destruct (node_facts E t a HE Ht Ha) as (qq & mcol & _ & _ & _ & _ & _ & _ & _ & _ & Hmac & _ & Hcen).
  cbn [flt Rops] in H. apply Rltb_lt in H. rewrite lane_dist2_R in H.
  unfold separated, mac_lh in *. rewrite Hmac in H. clear Hmac. rewrite distance_sep2. set (com := p_com (n_props a)) in *. set (p := l_p l) in *.
  pose proof (sep2_nonneg com (fst p)) as N. pose proof (sqrt_pos (sep2 com (fst p))) as S. pose proof (sqrt_sqrt _ N) as Q. set (d := sqrt (sep2 com (fst p))) in *.
  rewrite <- Q in H. cbv zeta in H |- *. set (s := (t_box t / pow2R (n_level a))%R) in *.
  assert (Hs : (0 <= s)%R). { unfold s. pose proof (pow2R_pos (n_level a)). apply Rmult_le_pos; [exact Hb|]. left. now apply Rinv_0_lt_compat. }
  destruct (e_mac E).
  - cbn [fmul Rops] in H. apply sq_lt; [nra|]. apply Rmult_lt_reg_r with (r := (1 / (theta * theta))%R); [apply Rdiv_lt_0_compat; nra|].
    replace (theta * d * (theta * d) * (1 / (theta * theta)))%R with (d * d)%R by (field; lra). exact H.
  - cbn [fmul ffma Rops] in H. eexists. split; [exact Hcen|]. rewrite (distance_sep2 com). set (dl := distance com _) in H.
    change (sqrt (sep2 com (cell_centre (t_box t) (n_level a) qq))) with dl.
    assert (L : (s * (1 / theta) + dl < d)%R) by (apply sq_lt; assumption).
    apply Rmult_lt_reg_r with (r := (1 / theta)%R); [apply Rdiv_lt_0_compat; lra|].
    replace (theta * (d - dl) * (1 / theta))%R with (d - dl)%R by (field; lra). lra.
Qed.

(** The result of a thread is the sum over the sources of its particle. *)
Lemma lane_result_R : forall t P theta mv eps q G idxs i r, reachable Rops E t -> particles_of t P ->
  mac_value_of Rops E theta = Ok mv -> In i idxs -> (forall k, In k idxs -> k < length (t_codes t)) ->
  lane_result Rops E t (map P (seq 0 (length (t_codes t)))) mv (eps * eps)%R q G idxs i r ->
  exists A Dl, sources E t theta P (mkCnode 0 i (i + 1)) A Dl /\
    (forall a k, In a A -> In k idxs -> separated E t theta a (fst (P k)) /\ ~ In k (node_idx a)) /\
    length (fst r ++ snd r) = nvecs_res E q /\
    forall j, j < nvecs_res E q -> nth_error (fst r ++ snd r) j = Some (G * bh_sum E q eps P i (others i (i + 1) i ++ Dl) A j)%R.
Proof.
  intros t P theta mv eps q G idxs i r Hreach HP Hmv Hi Hidx (evs & HT & Hev & ->).
  pose proof (reachable_inv Rops E HE t Hreach) as Ht. pose proof (Hidx i Hi) as Hin.
  destruct (particles_rows E t P Ht HP) as [Hps HPs]. set (ps := map P (seq 0 (length (t_codes t)))) in *.
  assert (HPd : forall k, k < length (t_codes t) -> nth k ps ([] : list R, fofZ Rops 0%Z) = P k).
  { intros k Hk. rewrite <- (HPs k Hk). apply nth_indep. unfold ps. rewrite map_length, seq_length. exact Hk. }
  clearbody ps. set (eps2 := (eps * eps)%R). assert (Heps : (0 <= eps2)%R) by (unfold eps2; nra).
  assert (Hb : (0 <= t_box t)%R). { apply (box_nonneg E HE t Hreach). intros Z. rewrite Z in Hin. cbn in Hin. lia. }
  assert (HevN : Forall (fun e => In (ev_node e) (t_nodes t)) evs). { eapply Forall_impl; [|exact Hev]. intros e [H _]. exact H. }
  assert (SQ : Permutation (flat_map node_idx (directs evs) ++ flat_map node_idx (approxs evs)) (seq 0 (length (t_codes t)))).
  { destruct (tiles_seq _ _ _ HT) as [_ S1].
    assert (FM : forall l : list (@event R), flat_map (fun x => seq (fst x) (snd x - fst x)) (map ev_range l) = flat_map (fun e => node_idx (ev_node e)) l).
    { induction l as [|e l IH]; [reflexivity|]. cbn [map flat_map]. rewrite IH. destruct e; reflexivity. }
    rewrite FM, Nat.sub_0_r in S1. rewrite <- S1. apply Permutation_sym, events_perm. }
  assert (HA : forall a, In a (approxs evs) -> In a (t_nodes t) /\ forall k, In k idxs -> inside a k = false /\ separated E t theta a (fst (P k))).
  { intros a Ha. unfold approxs in Ha. apply in_flat_map in Ha as (e & He & Ha). destruct e as [a'|a']; [|destruct Ha]. destruct Ha as [->|[]].
    rewrite Forall_forall in Hev. destruct (Hev _ He) as [Hn Hv]. cbn [ev_node] in *. split; [exact Hn|]. intros k Hk.
    destruct (vote_separated t theta mv a (lane_of Rops t ps k) Ht Hb Hmv Hn (Hv _ (in_map (lane_of Rops t ps) _ _ Hk))) as [V1 V2]. cbn [lane_of l_idx l_p] in V1, V2.
    rewrite HPd in V2 by auto. auto. }
  assert (HO : forall (a : node (props R)) k, inside a k = false -> ~ In k (node_idx a)).
  { intros a k Hk H. apply in_seq in H. unfold inside in Hk. apply andb_false_iff in Hk as [Hk|Hk]; [apply Nat.leb_gt in Hk|apply Nat.ltb_ge in Hk]; lia. }
  set (Dl := filter (fun k => negb (k =? i)) (flat_map node_idx (directs evs))).
  exists (approxs evs), Dl. split; [|split; [|split]].
  - split.
    + cbn [c_begin c_end]. replace (i + 1 - i) with 1 by lia. cbn [seq app]. eapply perm_trans; [|exact SQ]. rewrite app_comm_cons. apply Permutation_app_tail.
      assert (ND : NoDup (flat_map node_idx (directs evs) ++ flat_map node_idx (approxs evs))).
      { eapply Permutation_NoDup; [apply Permutation_sym, SQ|apply seq_NoDup]. }
      apply remove_one.
      { clear - ND. induction (flat_map node_idx (directs evs)) as [|x l IH]; [constructor|]. cbn [app] in ND. inversion ND; subst. constructor; [|auto].
        intros H. apply H1. apply in_or_app. now left. }
      assert (Hs : In i (seq 0 (length (t_codes t)))) by (apply in_seq; lia). apply (Permutation_in _ (Permutation_sym SQ)), in_app_or in Hs as [Hs|Hs]; [exact Hs|].
      exfalso. apply in_flat_map in Hs as (a & Ha & Hs). destruct (HA a Ha) as [_ H]. destruct (H i Hi) as [H1 _]. now apply (HO a i).
    + intros a Ha. destruct (HA a Ha) as [Hn H]. split; [exact Hn|]. destruct (H i Hi) as [H1 H2]. cbn [c_begin c_end]. split.
      { unfold inside in H1. apply andb_false_iff in H1 as [H1|H1]; [apply Nat.leb_gt in H1|apply Nat.ltb_ge in H1]; lia. }
      split; [|exact (node_monopole E HE t P a Ht HP Hn)]. intros k Hk. now replace k with i by lia.
  - intros a k Ha Hk. destruct (HA a Ha) as [_ H]. destruct (H k Hk) as [H1 H2]. split; [exact H2|]. now apply HO.
  - pose proof (result_shape Rops E t Ht ps Hps mv eps2 q G idxs i _ Hin (ex_intro _ evs (conj HT (conj Hev eq_refl)))) as S. now apply shape_length.
  - intros j Hj.
    pose proof (result_shape Rops E t Ht ps Hps mv eps2 q G idxs i _ Hin (ex_intro _ evs (conj HT (conj Hev eq_refl)))) as S. apply shape_length in S.
    rewrite nth_error_nth' with (d := 0%R) by lia. f_equal.
    destruct (row0_R c q) as [W0 Z0].
    destruct (lane_events_R q eps2 Heps t ps Ht Hps i evs (row0 Rops c q) Hin W0 HevN) as [W V].
    assert (NC : nvecs_res E q = ncomp c q) by (unfold nvecs_res, ncomp; destruct q; cbn; lia).
    specialize (V j ltac:(lia)). unfold lane_scale. cbn [fst snd]. rewrite <- map_app.
    set (row := fold_left _ _ _) in *.
    rewrite nth_indep with (d' := (G * 0)%R) by (unfold lane_scale in S; cbn [fst snd] in S; rewrite <- map_app in S; lia).
    cbn [fmul Rops]. rewrite (map_nth (fun x => (G * x)%R)). change (nth j (fst row ++ snd row) 0%R) with (comp j row). rewrite V, Z0 by lia. f_equal.
    assert (Eo : others i (i + 1) i = []).
    { unfold others. replace (i + 1 - i) with 1 by lia. cbn [seq filter]. now rewrite Nat.eqb_refl. }
    rewrite Eo. cbn [app]. unfold bh_sum. fold eps2. rewrite HPd by exact Hin. rewrite Rplus_0_l. f_equal. apply rsum_ext. intros k Hk. rewrite HPd; [reflexivity|].
    apply filter_In in Hk as [Hk _]. assert (Hs : In k (seq 0 (length (t_codes t)))). { apply (Permutation_in _ SQ), in_or_app. now left. }
    apply in_seq in Hs. lia.
Qed.

End GpuR.
