(** The results of the force computation in exact arithmetic. *)
From Coq Require Import List Arith NArith ZArith Lia Bool Reals Lra Permutation.
From Verif Require Import Base Config Morton Build TreeSpec FOps FOpsProofs Disc NodeProps Tree TreeInv TreeProofs TreeSafe Kernels Force
  TravProofs KernLoops RSum NodeGeom NodesR SelfSum KernR ForceGen ForceOut.
Import ListNotations.
Local Open Scope nat_scope.

(** Indices of the particles of a node. *)
Definition node_idx {P} (a : node P) : list nat := seq (n_begin a) (n_end a - n_begin a).

Lemma tiles_seq : forall l b e, tiles b l e -> b <= e /\ flat_map (fun x => seq (fst x) (snd x - fst x)) l = seq b (e - b).
Proof.
  induction l as [|[x y] l IH]; intros b e H; cbn [tiles] in H.
  - subst e. split; [lia|]. now rewrite Nat.sub_diag.
  - destruct H as (-> & L & H). destruct (IH _ _ H) as [L2 IH2]. split; [lia|]. cbn [flat_map fst snd]. rewrite IH2.
    replace (e - b) with ((y - b) + (e - y)) by lia. rewrite seq_app. f_equal. f_equal. lia.
Qed.

Lemma filter_out : forall b len k, k < len ->
  Permutation (seq b len) ((b + k) :: filter (fun i => negb (i =? b + k)) (seq b len)).
Proof.
  intros b len k Hk. replace (seq b len) with (seq b k ++ (b + k) :: seq (b + k + 1) (len - k - 1)).
  2:{ replace len with (k + S (len - k - 1)) at 2 by lia. rewrite seq_app. cbn [seq]. do 3 f_equal. lia. }
  rewrite filter_app. cbn [filter]. rewrite Nat.eqb_refl. cbn [negb].
  assert (X : forall l, (forall i, In i l -> i <> b + k) -> filter (fun i => negb (i =? b + k)) l = l).
  { induction l as [|i l IH]; intros H; [reflexivity|]. cbn [filter]. destruct (Nat.eqb_spec i (b + k)); [exfalso; apply (H i); [now left|assumption]|].
    cbn [negb]. rewrite IH; [reflexivity|]. intros; apply H; now right. }
  rewrite !X by (intros i Hi; apply in_seq in Hi; lia). apply Permutation_sym, Permutation_middle.
Qed.

Section Events.
Context {P : Type}.
Definition approxs (evs : list (@event P)) : list (node (props P)) := flat_map (fun e => match e with Approx a => [a] | Direct _ => [] end) evs.
Definition directs (evs : list (@event P)) : list (node (props P)) := flat_map (fun e => match e with Approx _ => [] | Direct a => [a] end) evs.

Lemma events_perm : forall evs, Permutation (flat_map (fun e => node_idx (ev_node e)) evs)
  (flat_map node_idx (directs evs) ++ flat_map node_idx (approxs evs)).
Proof.
  induction evs as [|[a|a] evs IH]; [apply Permutation_refl| |]; cbn [flat_map approxs directs ev_node app].
  - eapply perm_trans; [apply Permutation_app_head, IH|]. rewrite !app_assoc. apply Permutation_app_tail, Permutation_app_comm.
  - rewrite <- app_assoc. apply Permutation_app_head, IH.
Qed.
End Events.

(** The acceptance criterion of the node [a] for a particle at [x]: the node, of size [s], has its centre of mass at a
    distance larger than [s / theta] from [x] (plus the distance between the centre of mass and the
    centre of the node). *)
Definition separated (E : env) (t : @tree R) (theta : R) (a : node (props R)) (x : list R) : Prop :=
  let s := (t_box t / pow2R (n_level a))%R in
  let d := distance (p_com (n_props a)) x in
  match e_mac E with
  | Bh => (s < theta * d)%R
  | BhGeom => exists centre, get_node_centre Rops (e_cfg E) (n_code a) (t_box t) = Ok centre /\
      (s < theta * (d - distance (p_com (n_props a)) centre))%R
  end.

Section ForceR.

Variable E : env.
Variable K : platform R.
Hypothesis HE : env_ok E.
Hypothesis HK : benign_shift K.
Hypothesis HX : exact_rsqrt K.

Notation c := (e_cfg E).
Notation bw := (batch c (e_simd E)).
Notation p0 := (pad_row Rops E 0%R).

Variables (q : quant) (t : @tree R) (ps : list (@prow R)).
Hypothesis Ht : tree_inv Rops E t.
Hypothesis Hps : rows_of E t ps.
Variables mac_value G eps2 pad : R.
Hypothesis Heps : (0 <= eps2)%R.

Notation n := (length (t_codes t)).
Notation wfrow := (wfr c q).
Notation P i := (nth i ps p0).
Notation T := (pull (dim c) q eps2).
Notation nc := (ncomp c q).

Lemma ps_facts : length ps = n /\ Forall (wfp c) ps.
Proof.
  destruct (rows_exist Rops E t Ht) as (ps' & R1 & R2 & R3). assert (ps' = ps) as -> by (unfold rows_of in *; congruence). auto.
Qed.

Definition ev_pull (j : nat) (p1 : @prow R) (e : event) : R :=
  match e with
  | Approx a => T j p1 (p_com (n_props a), p_mass (n_props a))
  | Direct a => rsum (fun k => T j p1 (P k)) (node_idx a)
  end.

Lemma leafs_R : forall j p1, j < nc -> wfp c p1 -> forall l r, Forall (wfp c) l -> wfrow r ->
  wfrow (fold_left (fun r p2 => leaf_pair Rops c (e_simd E) K q eps2 p1 p2 r) l r) /\
  comp j (fold_left (fun r p2 => leaf_pair Rops c (e_simd E) K q eps2 p1 p2 r) l r) = (comp j r + rsum (T j p1) l)%R.
Proof.
  intros j p1 Hj W1 l. induction l as [|p2 l IH]; intros r Hl Wr; cbn [fold_left].
  - rewrite rsum_nil. split; [exact Wr|lra].
  - destruct (leaf_pair_R c (e_simd E) K HX q eps2 Heps p1 p2 r W1 (Forall_inv Hl) Wr) as [A1 A2].
    destruct (IH _ (Forall_inv_tail Hl) A1) as [B1 B2]. split; [exact B1|]. rewrite B2, A2 by exact Hj. rewrite rsum_cons. lra.
Qed.

Lemma slice_rsum : forall (f : @prow R -> R) b e, b <= e <= n -> rsum f (slice ps b e) = rsum (fun k => f (P k)) (seq b (e - b)).
Proof.
  intros f b e H. destruct ps_facts as [L _]. rewrite <- (rsum_map _ _ (fun k => P k) f). f_equal.
  apply nth_ext with (d := p0) (d' := p0).
  - rewrite slice_length by lia. now rewrite map_length, seq_length.
  - intros k Hk. rewrite slice_length in Hk by lia. rewrite nth_slice by lia.
    symmetry. rewrite nth_indep with (d' := P 0) by (rewrite map_length, seq_length; lia).
    rewrite (map_nth (fun k => P k)), seq_nth by lia. reflexivity.
Qed.

Lemma events_R : forall j p1 acc nd, j < nc -> wfp c p1 -> forall evs r,
  Forall (ev_ok c (t_nodes t) acc nd) evs -> wfrow r ->
  wfrow (fold_left (row_act Rops c (e_simd E) K q eps2 ps p1) evs r) /\
  comp j (fold_left (row_act Rops c (e_simd E) K q eps2 ps p1) evs r) = (comp j r + rsum (ev_pull j p1) evs)%R.
Proof.
  intros j p1 acc nd Hj W1. induction evs as [|e evs IH]; intros r Hev Wr; cbn [fold_left].
  - rewrite rsum_nil. split; [exact Wr|lra].
  - pose proof (Forall_inv Hev) as He. pose proof (Forall_inv_tail Hev) as Hev'.
    assert (S : wfrow (row_act Rops c (e_simd E) K q eps2 ps p1 r e) /\
      comp j (row_act Rops c (e_simd E) K q eps2 ps p1 r e) = (comp j r + ev_pull j p1 e)%R).
    { destruct e as [a|a]; cbn [row_act ev_pull]; destruct He as (Ha & _); cbn [ev_node] in Ha.
      - destruct (com_pair_R c (e_simd E) K HX q eps2 Heps (p_com (n_props a)) (p_mass (n_props a)) p1 r W1 (com_length Rops E t a Ht Ha) Wr) as [A1 A2].
        split; [exact A1|]. now apply A2.
      - destruct (node_code_shape Rops E t a Ht Ha) as (_ & _ & _ & _ & Hr).
        destruct ps_facts as [_ W].
        destruct (leafs_R j p1 Hj W1 (slice ps (n_begin a) (n_end a)) r) as [A1 A2]; [|exact Wr|].
        { apply Forall_forall. intros p Hp. unfold slice in Hp. apply firstn_In, skipn_In in Hp. rewrite Forall_forall in W. auto. }
        split; [exact A1|]. rewrite A2. unfold node_idx. now rewrite slice_rsum by lia. }
    destruct S as [S1 S2]. destruct (IH _ Hev' S1) as [B1 B2]. split; [exact B1|]. rewrite B2, S2, rsum_cons. lra.
Qed.

Lemma evs_split : forall j p1 evs, rsum (ev_pull j p1) evs =
  (rsum (fun k => T j p1 (P k)) (flat_map node_idx (directs evs)) +
   rsum (fun a => T j p1 (p_com (n_props a), p_mass (n_props a))) (approxs evs))%R.
Proof.
  intros j p1. induction evs as [|[a|a] evs IH]; cbn [approxs directs flat_map app].
  - rewrite !rsum_nil. lra.
  - fold (approxs evs) (directs evs). rewrite !rsum_cons, IH. cbn [ev_pull]. lra.
  - fold (approxs evs) (directs evs). rewrite rsum_cons, IH. cbn [ev_pull flat_map]. rewrite rsum_app. lra.
Qed.

(** The padding has no effect. *)
Lemma pad_pull : forall j p1 x, T j p1 (repeat x (dim c), 0%R) = 0%R.
Proof. intros j p1 x. unfold pull. cbn [fst snd]. destruct (is_acc _ _ _); unfold Rdiv; [|rewrite Rmult_0_r, Ropp_0]; rewrite ?Rmult_0_l; ring. Qed.

Lemma scale_comp : forall j r, wfrow r -> comp j (if Reqb G 1 then r else scale_row Rops G r) = (G * comp j r)%R.
Proof.
  intros j r Wr. unfold Reqb. destruct (Req_EM_T G 1) as [->|N]; [lra|].
  unfold comp, scale_row. cbn [fst snd fmul Rops]. rewrite <- map_app.
  destruct (Nat.lt_ge_cases j (length (fst r ++ snd r))) as [L|L].
  - rewrite nth_indep with (d' := (0 * G)%R) by (now rewrite map_length). rewrite (map_nth (fun x => (x * G)%R)). lra.
  - rewrite !nth_overflow; [lra|exact L|now rewrite map_length].
Qed.

(** The critical node [cn], particle [k] of it. *)
Lemma crit_value : forall cn psize, In cn (t_crit t) -> pdata_size E (c_end cn - c_begin cn) = Ok psize ->
  exists res pre post nd, crit_rows Rops E K q t mac_value G eps2 pad cn = Ok res /\ length res = psize /\
    let evs := pre ++ post in
    let acc := accept Rops c (e_simd E) K mac_value eps2 (c_end cn - c_begin cn) (tgt_rows Rops E ps pad cn psize) in
    In nd (t_nodes t) /\ n_code nd = c_code cn /\ n_begin nd = c_begin cn /\ n_end nd = c_end cn /\
    traverse c K (ev_check acc) (t_nodes t) (c_code cn) (length (t_nodes t)) 0 [] = Ok evs /\
    Forall (ev_ok c (t_nodes t) acc nd) evs /\
    tiles 0 (map ev_range pre) (c_begin cn) /\ tiles (c_end cn) (map ev_range post) n /\
    forall i, c_begin cn <= i < c_end cn ->
      exists r, nth_error res (i - c_begin cn) = Some r /\ wfrow r /\ forall j, j < nc ->
        comp j r = (G * (rsum (fun k => T j (P i) (P k))
                           (filter (fun k => negb (k =? i)) (seq (c_begin cn) (c_end cn - c_begin cn)) ++ flat_map node_idx (directs evs)) +
                         rsum (fun a => T j (P i) (p_com (n_props a), p_mass (n_props a))) (approxs evs)))%R.
Proof.
  intros cn psize Hcn Hsz.
  destruct (psize_ok E HE _ _ Hsz) as (Z1 & Z2 & Z3).
  destruct (crit_node Rops E t cn Ht Hcn) as (_ & _ & _ & _ & _ & N5).
  destruct (far_ok Rops E K HE HK q t ps mac_value eps2 pad cn psize Ht Hcn Hps Z1 Z2)
    as (Lt & Pt & nd & pre & post & res & F1 & F2 & F3 & F4 & Tr & T1 & T2 & Ev & Tq & Lr & Sr & Vr).
  destruct ps_facts as [Lps Wps].
  set (size := c_end cn - c_begin cn) in *. set (tgt := tgt_rows Rops E ps pad cn psize) in *.
  assert (Tk : forall k, k < size -> nth k tgt p0 = P (c_begin cn + k)).
  { intros k Hk. unfold tgt, tgt_rows. rewrite app_nth1 by (rewrite slice_length; unfold size in Hk; lia). apply nth_slice. exact Hk. }
  assert (Tpad : forall k, size <= k -> forall j p1, T j p1 (nth k tgt p0) = 0%R).
  { intros k Hk j p1. unfold tgt, tgt_rows. rewrite app_nth2 by (rewrite slice_length by lia; exact Hk).
    destruct (nth_in_or_default (k - length (slice ps (c_begin cn) (c_end cn))) (repeat (pad_row Rops E pad) (psize - (c_end cn - c_begin cn))) p0) as [H| ->].
    - apply repeat_spec in H. rewrite H. apply pad_pull.
    - apply pad_pull. }
  assert (Self : forall j, j < nc -> exists res1, self_interactions Rops c (e_simd E) K q eps2 size tgt res = Ok res1 /\ length res1 = psize /\ Forall wfrow res1 /\
    forall k, k < size -> comp j (nth k res1 (row0 Rops c q)) =
      (comp j (nth k res (row0 Rops c q)) + rsum (fun k' => T j (nth k tgt p0) (nth k' tgt p0)) (filter (fun k' => negb (k' =? k)) (seq 0 size)))%R).
  { intros j Hj. rewrite <- Lt. apply self_sum with (wfp := wfp c) (wfr := wfrow) (V := comp j) (T := T j) (p0 := p0).
    - apply simd_pos, HE.
    - apply row0_R.
    - apply row0_R.
    - intros p1 p2 a r W1 W2 Wa Wr. destruct (self_pair_R c (e_simd E) K HX q eps2 Heps p1 p2 a r W1 W2 Wa Wr) as [[A1 A2] [B1 B2]].
      repeat split; try apply A1; try apply B1; [now apply A2|now apply B2].
    - intros r a Wr Wa. destruct (add_rows_R c q r a Wr Wa) as [A1 A2]. split; [exact A1|]. now apply A2.
    - exact Pt.
    - unfold wfp, pad_row. cbn [fst]. apply repeat_length.
    - lia.
    - intros k k' Hk'. now apply Tpad.
    - congruence.
    - exact Sr. }
  assert (nc_pos : 0 < nc) by (unfold ncomp; pose proof (dim_pos c); destruct q; cbn; lia).
  destruct (Self 0 nc_pos) as (res1 & S1 & S2 & S3 & _).
  destruct (scale_ok Rops E HE q G size res1) as (res2 & G1 & G2 & G3 & G4); [rewrite S2; exact Z3|exact S3|].
  exists res2, pre, post, nd. split.
  { unfold crit_rows. cbv zeta. fold size. rewrite Hsz. cbn [bind].
    unfold size at 1. rewrite (target_ok Rops E t ps pad (c_begin cn) (c_end cn) psize Hps) by lia. cbn [bind]. fold (tgt_rows Rops E ps pad cn psize). fold tgt.
    unfold tree_acc_pot. rewrite Tq. cbn [bind]. rewrite S1. cbn [bind]. exact G1. }
  split; [congruence|]. cbv zeta. do 8 (split; [assumption|]).
  intros i Hi. set (k := i - c_begin cn) in *. assert (Hk : k < size) by (unfold k, size; lia).
  assert (Ei : c_begin cn + k = i) by (unfold k; lia).
  destruct (nth_error res1 k) as [r1|] eqn:Er1; [|apply nth_error_None in Er1; lia].
  assert (Wr1 : wfrow r1) by (rewrite Forall_forall in S3; apply S3; eapply nth_error_In; eauto).
  pose proof (G4 k r1 Hk Er1) as Er2. eexists. split; [exact Er2|]. split.
  { rewrite Forall_forall in G3. apply G3. eapply nth_error_In; eauto. }
  intros j Hj. cbn [feq fofZ Rops] in *. rewrite scale_comp by exact Wr1. f_equal.
  destruct (Self j Hj) as (res1' & S1' & _ & _ & S4'). rewrite S1 in S1'. injection S1' as <-.
  rewrite <- (nth_error_nth _ _ (row0 Rops c q) Er1). rewrite (S4' k Hk).
  destruct (nth_error tgt k) as [p1|] eqn:Ep1; [|apply nth_error_None in Ep1; lia].
  pose proof (nth_error_nth _ _ p0 Ep1) as Ep2. rewrite (Tk k Hk), Ei in Ep2.
  rewrite (nth_error_nth _ _ (row0 Rops c q) (Vr k p1 Hk Ep1)).
  assert (W1 : wfp c p1) by (rewrite Forall_forall in Pt; apply Pt; eapply nth_error_In; eauto).
  destruct (events_R j p1 _ nd Hj W1 (pre ++ post) (row0 Rops c q) Ev (proj1 (row0_R c q))) as [_ ->].
  rewrite (proj2 (row0_R c q)). rewrite evs_split. rewrite <- Ep2. rewrite rsum_app.
  assert (X : rsum (fun k' => T j (nth k tgt p0) (nth k' tgt p0)) (filter (fun k' => negb (k' =? k)) (seq 0 size)) =
              rsum (fun k0 => T j (P i) (P k0)) (filter (fun k0 => negb (k0 =? i)) (seq (c_begin cn) size))).
  { rewrite (Tk k Hk), Ei.
    assert (M : seq (c_begin cn) size = map (fun k0 => c_begin cn + k0) (seq 0 size)).
    { clear. generalize (c_begin cn) as b. induction size as [|m IH] using nat_ind; intros b; [reflexivity|]. rewrite !seq_S, map_app. cbn. now rewrite <- IH. }
    rewrite M. clear M.
    assert (Fm : forall l : list nat, filter (fun k0 => negb (k0 =? i)) (map (fun k0 => c_begin cn + k0) l) = map (fun k0 => c_begin cn + k0) (filter (fun k' => negb (k' =? k)) l)).
    { induction l as [|z l IH]; [reflexivity|]. cbn [map filter]. rewrite IH.
      destruct (Nat.eqb_spec (c_begin cn + z) i), (Nat.eqb_spec z k); cbn [negb map]; try reflexivity; exfalso; lia. }
    rewrite Fm, rsum_map. apply rsum_ext. intros z Hz. apply filter_In in Hz as [Hz _]. apply in_seq in Hz. now rewrite (Tk z) by lia. }
  rewrite X. unfold size. lra.
Qed.

End ForceR.
