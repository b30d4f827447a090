(** The device kernels: what every thread computes, for every outcome of the votes. *)
From Coq Require Import List Arith NArith ZArith Lia Bool Permutation.
From Verif Require Import Base Config Morton MortonProofs Build TreeSpec BuildSpec BuildProofs BuildProps FOps NodeProps Tree TreeInv TreeProofs TreeSafe
  Kernels Force TravProofs KernLoops ForceGen ForceR Gpu.
Import ListNotations.
Local Open Scope nat_scope.

(** * The threads of a kernel *)

Lemma seq_filter : forall len b e, filter (fun i => i <? e) (seq b len) = seq b (Nat.min (e - b) len).
Proof.
  induction len as [|len IH]; intros b e; cbn [seq filter]; [now rewrite Nat.min_0_r|].
  destruct (Nat.ltb_spec b e) as [L|L].
  - rewrite IH. replace (Nat.min (e - b) (S len)) with (S (Nat.min (e - S b) len)) by lia. reflexivity.
  - rewrite IH. replace (e - S b) with 0 by lia. replace (e - b) with 0 by lia. reflexivity.
Qed.

(** Every particle of the range is assigned to exactly one thread. *)
Lemma warps_cover : forall ws b e, 0 < ws ->
  flat_map (warp_idxs ws b e) (seq 0 ((e - b + ws - 1) / ws)) = seq b (e - b).
Proof.
  intros ws b e Hw. set (m := (e - b + ws - 1) / ws).
  assert (Hm : e - b <= m * ws).
  { unfold m. pose proof (Nat.div_mod (e - b + ws - 1) ws ltac:(lia)) as H. pose proof (Nat.mod_upper_bound (e - b + ws - 1) ws ltac:(lia)). nia. }
  clearbody m.
  assert (X : forall m k, flat_map (warp_idxs ws b e) (seq k m) = filter (fun i => i <? e) (seq (b + k * ws) (m * ws))).
  { clear. induction m as [|m IH]; intros k; [reflexivity|]. cbn [seq flat_map]. rewrite IH. unfold warp_idxs.
    replace (S m * ws) with (ws + m * ws) by lia. rewrite seq_app, filter_app. f_equal. f_equal. f_equal. lia. }
  rewrite X. rewrite Nat.mul_0_l, Nat.add_0_r, seq_filter. f_equal. lia.
Qed.

Lemma warp_idxs_range : forall ws b e k i, In i (warp_idxs ws b e k) -> b <= i < e.
Proof.
  intros ws b e k i H. unfold warp_idxs in H. apply filter_In in H as [H1 H2]. apply in_seq in H1. apply Nat.ltb_lt in H2.
  assert (0 <= k * ws) by lia. lia.
Qed.

Lemma in_flat_nth : forall {A B} (f : A -> list B) l x, In x (flat_map f l) -> exists a, In a l /\ In x (f a).
Proof. intros A B f l x H. now apply in_flat_map in H. Qed.

Lemma map_combine_id : forall {A B} (l : list A) (f : A -> B) (g : A * B -> B),
  map g (combine l (map f l)) = map (fun a => g (a, f a)) l.
Proof. induction l as [|a l IH]; intros; [reflexivity|]. cbn [map combine]. now rewrite IH. Qed.

Section GpuK.

Context {F : Type}.
Variable O : fops F.
Variable E : env.
Variable K : platform F.
Hypothesis HE : env_ok E.

Notation c := (e_cfg E).

Variable t : @tree F.
Hypothesis Ht : tree_inv O E t.
Variable ps : list (@prow F).
Hypothesis Hps : rows_of E t ps.

Notation codes := (t_codes t).
Notation n := (length (t_codes t)).
Notation nodes := (t_nodes t).
Notation d0 := ([] : list F, fofZ O 0%Z).
Notation P k := (nth k ps d0).

Variables mac_value eps2 : F.

(** The shifted code of a particle is the code of a node exactly if the particle is in it. *)
Lemma lane_code_spec : forall a i x, In a nodes -> nth_error codes i = Some x ->
  exists s, lane_code c K x (n_level a) = Ok s /\ ((s =? n_code a)%N = true <-> n_begin a <= i < n_end a).
Proof.
  intros a i x Ha Hx.
  assert (R : forall A, reorders (fun l : list A => l)) by (intros A l; apply Permutation_refl).
  pose proof (inv_nodes _ _ _ Ht 0 _ _ (R _) (R _)) as HB. pose proof (inv_valid_codes O E t Ht) as Hv.
  destruct (node_ranges c codes (t_mln t) (t_ncrit t) _ _ Hv 0 _ _ _ _ (R _) (R _) HB a Ha) as (p & H1 & H2 & H3 & H4 & H5).
  specialize (H5 i x Hx). destruct Hv as [_ Hv]. rewrite Forall_forall in Hv. specialize (Hv x (nth_error_In _ _ Hx)).
  pose proof (level_shift c (cbitsc c) ltac:(lia)) as S1. pose proof (level_shift c (n_level a) H1) as S2.
  assert (W : (width c <= 64 /\ 3 <= width c /\ 2 * width c <= 2 ^ width c /\ 2 ^ width c <= 2 ^ 64)%N)
    by (destruct c; vm_compute; repeat split; discriminate).
  assert (D : (2 <= dimN c <= 3)%N) by (destruct c; vm_compute; split; discriminate).
  set (cb := cbitsc c) in *. set (d := dimN c) in *. set (l := n_level a) in *.
  unfold lane_code. cbv zeta. fold cb d. unfold shl.
  replace (cb * d <? width c)%N with true by (symmetry; apply N.ltb_lt; lia). cbn [bind].
  assert (P1 : (2 * 2 ^ (d * cb) <= 2 ^ width c)%N).
  { rewrite <- N.pow_succ_r'. apply N.pow_le_mono_r; lia. }
  assert (T : wrap (width c) (N.shiftl 1 (cb * d)) = (2 ^ (d * cb))%N).
  { unfold wrap. rewrite N.shiftl_1_l, (N.mul_comm cb d). apply N.mod_small. assert (0 < 2 ^ (d * cb))%N by (apply N.neq_0_lt_0, N.pow_nonzero; lia). lia. }
  rewrite T.
  assert (I : wrap (width c) (N.lor x (2 ^ (d * cb))) = (2 ^ (d * cb) + x)%N).
  { assert (L : N.lor x (2 ^ (d * cb)) = (2 ^ (d * cb) + x)%N).
    { rewrite N.lor_comm. symmetry. rewrite <- N.lxor_lor.
      - apply N.add_nocarry_lxor.
        apply N.bits_inj_0. intros k. rewrite N.land_spec. rewrite N.pow2_bits_eqb. destruct (N.eqb_spec (d * cb) k) as [<-|]; [|reflexivity].
        cbn [andb]. destruct (N.eq_dec x 0) as [->|Nz]; [apply N.bits_0|]. apply N.bits_above_log2. apply N.log2_lt_pow2; lia.
      - apply N.bits_inj_0. intros k. rewrite N.land_spec. rewrite N.pow2_bits_eqb. destruct (N.eqb_spec (d * cb) k) as [<-|]; [|reflexivity].
        cbn [andb]. destruct (N.eq_dec x 0) as [->|Nz]; [apply N.bits_0|]. apply N.bits_above_log2. apply N.log2_lt_pow2; lia. }
    rewrite L. unfold wrap. apply N.mod_small. lia. }
  rewrite I.
  assert (U : usub (width c) cb l = (cb - l)%N).
  { unfold usub, wrap. replace (cb + 2 ^ width c - l)%N with ((cb - l) + 1 * 2 ^ width c)%N by lia.
    rewrite N.mod_add by (apply N.pow_nonzero; lia). apply N.mod_small. nia. }
  rewrite U.
  assert (V : wrap 64 ((cb - l) * d) = (d * (cb - l))%N).
  { unfold wrap. rewrite (N.mul_comm d). apply N.mod_small. nia. }
  rewrite V. replace (d * (cb - l) <? width c)%N with true by (symmetry; apply N.ltb_lt; nia).
  eexists. split; [reflexivity|]. rewrite N.eqb_eq, H3, N.shiftr_div_pow2, H5. unfold prefix. fold d cb.
  assert (Q : ((2 ^ (d * cb) + x) / 2 ^ (d * (cb - l)) = 2 ^ (d * l) + x / 2 ^ (d * (cb - l)))%N).
  { replace (2 ^ (d * cb))%N with (2 ^ (d * l) * 2 ^ (d * (cb - l)))%N.
    - apply N.div_add_l. apply N.pow_nonzero. lia.
    - rewrite <- N.pow_add_r. f_equal. nia. }
  rewrite Q. lia.
Qed.

(** A thread with its particle. *)
Definition lane_ok (l : @lane F) : Prop := nth_error codes (l_idx l) = Some (l_code l) /\ nth_error ps (l_idx l) = Some (l_p l).

Definition inside (a : node (props F)) (i : nat) : bool := (n_begin a <=? i) && (i <? n_end a).

(** The vote of a thread: its particle is not in the node and is far enough from it. *)
Definition vote (a : node (props F)) (l : @lane F) : bool :=
  negb (inside a (l_idx l)) && flt O (mac_lh O (n_props a) mac_value) (lane_dist2 O (p_com (n_props a)) (l_p l)).

Lemma lane_vote_spec : forall a l, In a nodes -> lane_ok l -> lane_vote O c K mac_value a l = Ok (vote a l).
Proof.
  intros a l Ha [Hl _]. unfold lane_vote. destruct (lane_code_spec a _ _ Ha Hl) as (s & -> & Hs). cbn [bind]. unfold vote. f_equal. f_equal. f_equal.
  unfold inside. apply eq_true_iff_eq. rewrite Hs, andb_true_iff, Nat.leb_le, Nat.ltb_lt. tauto.
Qed.

Lemma votes_spec : forall a lanes, In a nodes -> Forall lane_ok lanes -> mapM (lane_vote O c K mac_value a) lanes = Ok (map (vote a) lanes).
Proof.
  intros a lanes Ha H. induction H as [|l lanes Hl H IH]; [reflexivity|]. cbn [mapM map]. rewrite lane_vote_spec by assumption. cbn [bind]. now rewrite IH.
Qed.

(** What a thread does for an event of the traversal. *)
Definition lane_act (l : @lane F) (r : @rrow F) (e : @event F) : @rrow F :=
  match e with
  | Approx a => lane_com O eps2 a l r
  | Direct a => fold_left (fun r k => lane_leaf O eps2 l k (P k) r) (node_idx a) r
  end.

(** The events of a warp: nodes of the tree; those that are approximated passed the
    test for all the threads. *)
Definition warp_ev (lanes : list (@lane F)) (e : @event F) : Prop :=
  In (ev_node e) nodes /\
  match e with Approx a => forall l, In l lanes -> vote a l = true | Direct a => n_children a = 0 end.

Lemma rows_nth : forall k, k < n -> particle c (t_parts t) k = Ok (P k).
Proof.
  intros k Hk. assert (L : length ps = n) by (unfold rows_of in Hps; apply mapM_length in Hps; now rewrite seq_length in Hps).
  destruct (nth_error ps k) as [p|] eqn:Hp; [|apply nth_error_None in Hp; lia].
  rewrite (nth_error_nth _ _ _ Hp).
  pose proof Hps as H. unfold rows_of in H. apply mapM_Ok in H as [_ H]. destruct (H k k) as (p' & H1 & H2).
  { rewrite nth_error_seq. destruct (Nat.ltb_spec k n); [reflexivity|lia]. }
  congruence.
Qed.

Lemma leaf_fold : forall l b len r, b + len <= n ->
  foldM (fun r k => do p2 <- particle c (t_parts t) k; Ok (lane_leaf O eps2 l k p2 r)) (seq b len) r =
  Ok (fold_left (fun r k => lane_leaf O eps2 l k (P k) r) (seq b len) r).
Proof.
  intros l b len. revert b. induction len as [|len IH]; intros b r H; [reflexivity|]. cbn [seq foldM fold_left].
  rewrite rows_nth by lia. cbn [bind]. apply IH. lia.
Qed.

Lemma node_bounds : forall a, In a nodes -> n_begin a < n_end a <= n.
Proof.
  intros a Ha. assert (R : forall A, reorders (fun l : list A => l)) by (intros A l; apply Permutation_refl).
  pose proof (inv_nodes _ _ _ Ht 0 _ _ (R _) (R _)) as HB.
  destruct (node_ranges c codes (t_mln t) (t_ncrit t) _ _ (inv_valid_codes O E t Ht) 0 _ _ _ _ (R _) (R _) HB a Ha) as (_ & _ & _ & _ & H & _). exact H.
Qed.

Notation nb := (next_begin codes (props F) nodes).

Lemma warp_loop_events : forall lanes, Forall lane_ok lanes -> forall fuel i res, length res = length lanes -> length nodes - i <= fuel -> i <= length nodes ->
  exists evs, warp_loop O c K mac_value eps2 (t_parts t) nodes lanes fuel i res =
      Ok (map (fun '(l, r) => fold_left (lane_act l) evs r) (combine lanes res)) /\
    tiles (nb i) (map ev_range evs) n /\ Forall (warp_ev lanes) evs.
Proof.
  intros lanes Hl. induction fuel as [|fuel IH]; intros i res Lr Hf Hi; cbn [warp_loop].
  - destruct (Nat.leb_spec (length nodes) i); [|lia]. exists []. split; [|split; [|constructor]].
    + f_equal. cbn [fold_left]. clear - Lr. revert res Lr. induction lanes as [|l lanes IH]; intros [|r res] L; cbn in *; try lia; [reflexivity|]. f_equal. apply IH. lia.
    + cbn [map tiles]. unfold next_begin. assert (X : nth_error nodes i = None) by (apply nth_error_None; lia). now rewrite X.
  - destruct (Nat.leb_spec (length nodes) i) as [L|L].
    + exists []. split; [|split; [|constructor]].
      * f_equal. cbn [fold_left]. clear - Lr. revert res Lr. induction lanes as [|l lanes IH]; intros [|r res] L; cbn in *; try lia; [reflexivity|]. f_equal. apply IH. lia.
      * cbn [map tiles]. unfold next_begin. assert (X : nth_error nodes i = None) by (apply nth_error_None; lia). now rewrite X.
    + destruct (rd_lt nodes i L) as [a Ha]. rewrite Ha. cbn [bind]. apply rd_Ok in Ha. pose proof (nth_error_In _ _ Ha) as Hin.
      rewrite votes_spec by assumption. cbn [bind].
      assert (Hne : nodes <> []) by (intros Z; rewrite Z in L; cbn in L; lia).
      assert (R : forall A, reorders (fun l : list A => l)) by (intros A l; apply Permutation_refl).
      pose proof (inv_nodes _ _ _ Ht 0 _ _ (R _) (R _)) as HB.
      destruct (walk_facts c codes (t_mln t) (t_ncrit t) _ _ (inv_valid_codes O E t Ht) _ _ _ _ _ (R _) (R _) HB Hne) as (_ & _ & W).
      destruct (W i a Ha) as (W1 & W2 & W3). pose proof (node_bounds a Hin) as B.
      assert (Nb : nb i = n_begin a) by (unfold next_begin; now rewrite Ha).
      assert (CL : forall f : @lane F * @rrow F -> @rrow F, length (map f (combine lanes res)) = length lanes) by (intros f; rewrite map_length, combine_length; lia).
      assert (CM : forall (f g : @lane F -> @rrow F -> @rrow F), map (fun '(l, r) => g l r) (combine lanes (map (fun '(l, r) => f l r) (combine lanes res))) =
        map (fun '(l, r) => g l (f l r)) (combine lanes res)).
      { intros f g. clear - Lr. revert res Lr. induction lanes as [|l lanes IH]; intros [|r res] L; cbn in *; try lia; [reflexivity|]. f_equal. apply IH. lia. }
      destruct (forallb (fun b => b) (map (vote a) lanes)) eqn:V.
      * destruct (IH (i + n_children a + 1) (map (fun '(l, r) => lane_com O eps2 a l r) (combine lanes res))) as (evs & H1 & H2 & H3); [apply CL|lia|lia|].
        exists (Approx a :: evs). rewrite H1. split; [|split].
        -- f_equal. apply (CM (fun l r => lane_com O eps2 a l r) (fun l r => fold_left (lane_act l) evs r)).
        -- cbn [map tiles]. unfold ev_range at 1. cbn [ev_node]. rewrite Nb, <- W2. split; [reflexivity|]. split; [|exact H2]. rewrite W2. lia.
        -- constructor; [|exact H3]. split; [exact Hin|]. intros l Hll. rewrite forallb_forall in V. apply V. now apply in_map.
      * destruct (Nat.eqb_spec (n_children a) 0) as [C|C].
        -- assert (M : mapM (fun '(l, r) => foldM (fun r k => do p2 <- particle c (t_parts t) k; Ok (lane_leaf O eps2 l k p2 r))
             (seq (n_begin a) (n_end a - n_begin a)) r) (combine lanes res) = Ok (map (fun '(l, r) => lane_act l r (Direct a)) (combine lanes res))).
           { generalize (combine lanes res) as lr. induction lr as [|[l r] lr IHl]; [reflexivity|]. cbn [mapM map]. rewrite leaf_fold by lia. cbn [bind].
             rewrite IHl. reflexivity. }
           rewrite M. cbn [bind].
           destruct (IH (i + 1) (map (fun '(l, r) => lane_act l r (Direct a)) (combine lanes res))) as (evs & H1 & H2 & H3); [apply CL|lia|lia|].
           exists (Direct a :: evs). rewrite H1. split; [|split].
           ++ f_equal. apply (CM (fun l r => lane_act l r (Direct a)) (fun l r => fold_left (lane_act l) evs r)).
           ++ cbn [map tiles]. unfold ev_range at 1. cbn [ev_node]. rewrite Nb. rewrite C, Nat.add_0_r in W2. rewrite <- W2. split; [reflexivity|]. split; [|exact H2]. rewrite W2. lia.
           ++ constructor; [|exact H3]. split; [exact Hin|exact C].
        -- cbn [bind]. destruct (IH (i + 1) res Lr) as (evs & H1 & H2 & H3); [lia|lia|]. exists evs. split; [exact H1|]. split; [|exact H3].
           rewrite Nb, <- (W3 C). exact H2.
Qed.

(** The thread of particle [i]. *)
Definition lane_of (i : nat) : @lane F := mkLane i (nth i codes 0%N) (P i).

Lemma lane_of_ok : forall i, i < n -> lane_ok (lane_of i).
Proof.
  intros i Hi. assert (L : length ps = n) by (unfold rows_of in Hps; apply mapM_length in Hps; now rewrite seq_length in Hps).
  split; cbn [lane_of l_idx l_code l_p]; apply nth_error_nth'; lia.
Qed.

Lemma load_lanes : forall idxs, (forall i, In i idxs -> i < n) -> mapM (load_lane c (t_parts t) codes) idxs = Ok (map lane_of idxs).
Proof.
  induction idxs as [|i idxs IH]; intros H; [reflexivity|]. cbn [mapM map]. unfold load_lane at 1.
  destruct (rd_lt codes i (H i (or_introl eq_refl))) as [x Hx]. rewrite Hx. cbn [bind]. rewrite rows_nth by (apply H; now left). cbn [bind].
  rewrite IH by (intros; apply H; now right). cbn [bind]. apply rd_Ok in Hx. unfold lane_of. now rewrite (nth_error_nth _ _ _ Hx).
Qed.

Variable q : quant.
Variable G : F.

(** The results of a warp. *)
Lemma warp_run_spec : forall idxs, (forall i, In i idxs -> i < n) ->
  exists evs, warp_run O c K q mac_value G eps2 (t_parts t) codes nodes idxs =
      Ok (map (fun i => lane_scale O G (fold_left (lane_act (lane_of i)) evs (row0 O c q))) idxs) /\
    tiles 0 (map ev_range evs) n /\ Forall (warp_ev (map lane_of idxs)) evs.
Proof.
  intros idxs H. unfold warp_run. rewrite load_lanes by exact H. cbn [bind].
  assert (HL : Forall lane_ok (map lane_of idxs)). { apply Forall_forall. intros l Hl. apply in_map_iff in Hl as (i & <- & Hi). apply lane_of_ok, H, Hi. }
  destruct (warp_loop_events (map lane_of idxs) HL (length nodes) 0 (map (fun _ => row0 O c q) idxs)) as (evs & H1 & H2 & H3); [now rewrite !map_length|lia|lia|].
  exists evs. rewrite H1. cbn [bind]. split; [|split; [|exact H3]].
  - f_equal. rewrite map_map. clear. induction idxs as [|i idxs IH]; [reflexivity|]. cbn [map combine]. now rewrite IH.
  - assert (Z : nb 0 = 0); [|now rewrite Z in H2].
    assert (R : forall A, reorders (fun l : list A => l)) by (intros A l0; apply Permutation_refl).
    pose proof (inv_nodes _ _ _ Ht 0 _ _ (R _) (R _)) as HB.
    destruct (built c codes (t_mln t) (t_ncrit t) _ _ (inv_valid_codes O E t Ht) _ _ _ _ _ (R _) (R _) HB) as [(Z & Z2 & _)|(Hne & HF & _)].
    + unfold next_begin. now rewrite Z2, Z.
    + assert (Hnn : nodes <> []) by (intros Z; rewrite Z in HF; inversion HF).
      destruct (walk_facts c codes (t_mln t) (t_ncrit t) _ _ (inv_valid_codes O E t Ht) _ _ _ _ _ (R _) (R _) HB Hnn) as (_ & W & _). exact W.
Qed.

(** The result of a thread: for some events that cover every particle exactly once, and
    whose approximated nodes are accepted by all the threads of the warp [idxs]. *)
Definition lane_result (idxs : list nat) (i : nat) (r : @rrow F) : Prop :=
  exists evs, tiles 0 (map ev_range evs) n /\ Forall (warp_ev (map lane_of idxs)) evs /\
    r = lane_scale O G (fold_left (lane_act (lane_of i)) evs (row0 O c q)).

Lemma kernel_run_spec : forall ws b e, 0 < ws -> b <= e <= n ->
  exists rows, kernel_run O c K ws q mac_value G eps2 (t_parts t) codes nodes b e = Ok rows /\ length rows = e - b /\
    forall k r, nth_error rows k = Some r -> exists idxs, In (b + k) idxs /\ (forall i, In i idxs -> b <= i < e) /\ lane_result idxs (b + k) r.
Proof.
  intros ws b e Hw Hbe. unfold kernel_run.
  assert (M : forall l, exists rows, mapM (fun k => warp_run O c K q mac_value G eps2 (t_parts t) codes nodes (warp_idxs ws b e k)) l = Ok rows /\
    Forall2 (fun i r => exists idxs, In i idxs /\ (forall i, In i idxs -> b <= i < e) /\ lane_result idxs i r) (flat_map (warp_idxs ws b e) l) (concat rows)).
  { induction l as [|k l IH]; [exists []; split; [reflexivity|constructor]|]. cbn [mapM flat_map].
    destruct (warp_run_spec (warp_idxs ws b e k)) as (evs & H1 & H2 & H3).
    { intros i Hi. apply warp_idxs_range in Hi. lia. }
    rewrite H1. cbn [bind]. destruct IH as (rows & -> & IH). cbn [bind]. eexists. split; [reflexivity|]. cbn [concat]. apply Forall2_app; [|exact IH].
    assert (G1 : forall l', (forall i, In i l' -> In i (warp_idxs ws b e k)) ->
      Forall2 (fun i r => exists idxs, In i idxs /\ (forall i, In i idxs -> b <= i < e) /\ lane_result idxs i r) l'
        (map (fun i => lane_scale O G (fold_left (lane_act (lane_of i)) evs (row0 O c q))) l')).
    { induction l' as [|i l' IHl]; intros Hl; [constructor|]. cbn [map]. constructor; [|apply IHl; intros; apply Hl; now right].
      exists (warp_idxs ws b e k). split; [apply Hl; now left|]. split; [intros; eapply warp_idxs_range; eauto|]. exists evs. auto. }
    now apply G1. }
  destruct (M (seq 0 ((e - b + ws - 1) / ws))) as (rows & -> & H). cbn [bind]. rewrite warps_cover in H by exact Hw.
  exists (concat rows). split; [reflexivity|]. split.
  - apply Forall2_len in H. now rewrite seq_length in H.
  - intros k r Hr.
    assert (X : forall l (l' : list (@rrow F)) k r, Forall2 (fun i r => exists idxs, In i idxs /\ (forall i, In i idxs -> b <= i < e) /\ lane_result idxs i r) l l' ->
      nth_error l' k = Some r -> exists i, nth_error l k = Some i /\ exists idxs, In i idxs /\ (forall i, In i idxs -> b <= i < e) /\ lane_result idxs i r).
    { clear. intros l l' k r H. revert k. induction H as [|i x l l' Hx H IH]; intros [|k] Hk; try discriminate; cbn [nth_error] in *; [injection Hk as <-; eauto|eauto]. }
    destruct (X _ _ _ _ H Hr) as (i & Hi & H'). rewrite nth_error_seq in Hi. destruct (Nat.ltb_spec k (e - b)); [|discriminate]. injection Hi as <-. exact H'.
Qed.

(** Shape of the rows. *)
Lemma ps_shape : forall k, k < n -> length (fst (P k)) = dim c.
Proof.
  intros k Hk. destruct (particle_ok E (t_parts t) n k (inv_table O E t Ht) Hk) as (p & H1 & H2). rewrite rows_nth in H1 by exact Hk. congruence.
Qed.

Lemma act_shape : forall i ev r, i < n -> In (ev_node ev) nodes -> shape_ok E q r -> shape_ok E q (lane_act (lane_of i) r ev).
Proof.
  intros i ev r Hi Hev Hr. destruct ev as [a|a]; cbn [lane_act ev_node] in *.
  - unfold lane_com. cbv zeta. split; cbn [fst snd].
    + unfold axpy. apply (zip_len E _ q); [exact Hr|]. apply diffs_len; [now apply (com_length O E t)|now apply ps_shape].
    + rewrite map_length. apply Hr.
  - pose proof (node_bounds a Hev) as B. unfold node_idx.
    assert (X : forall l, (forall k, In k l -> k < n) -> forall r, shape_ok E q r -> shape_ok E q (fold_left (fun r k => lane_leaf O eps2 (lane_of i) k (P k) r) l r)).
    { induction l as [|k l IH]; intros Hl r0 Hr0; cbn [fold_left]; [exact Hr0|]. apply IH; [intros; apply Hl; now right|].
      unfold lane_leaf. cbv zeta. split; cbn [fst snd].
      - unfold axpy. apply (zip_len E _ q); [exact Hr0|]. apply diffs_len; apply ps_shape; [apply Hl; now left|exact Hi].
      - rewrite map_length. apply Hr0. }
    apply X; [|exact Hr]. intros k Hk. apply in_seq in Hk. lia.
Qed.

Lemma result_shape : forall idxs i r, i < n -> lane_result idxs i r -> shape_ok E q r.
Proof.
  intros idxs i r Hi (evs & _ & He & ->).
  assert (X : forall r0, shape_ok E q r0 -> shape_ok E q (fold_left (lane_act (lane_of i)) evs r0)).
  { induction He as [|e evs Hev He IH]; intros r0 Hr0; cbn [fold_left]; [exact Hr0|]. apply IH. apply act_shape; [exact Hi|apply Hev|exact Hr0]. }
  destruct (X _ (shape0 O E q)) as [S1 S2]. split; unfold lane_scale; cbn [fst snd]; rewrite map_length; assumption.
Qed.

End GpuK.
