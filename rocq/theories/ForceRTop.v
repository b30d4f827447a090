(** The public force functions in exact arithmetic. *)
From Coq Require Import List Arith NArith ZArith Lia Bool Reals Lra Permutation.
From Verif Require Import Base Config Morton Build TreeSpec FOps FOpsProofs Disc NodeProps Tree TreeInv TreeProofs TreeSafe Kernels Force
  TravProofs KernLoops RSum NodeGeom NodesR BoxInv SelfSum KernR ForceGen ForceOut ForceR ForceTop.
Import ListNotations.
Local Open Scope nat_scope.

Lemma distance_sep2 : forall x y, distance x y = sqrt (sep2 x y).
Proof. reflexivity. Qed.

Lemma sq_lt : forall a b, (0 <= b -> a * a < b * b -> a < b)%R.
Proof. intros a b Hb H. destruct (Rlt_le_dec a b); [assumption|]. nra. Qed.

Lemma tiles_bounds : forall l b e, tiles b l e -> forall x, In x l -> b <= fst x /\ snd x <= e.
Proof.
  induction l as [|[x y] l IH]; intros b e H z Hz; [destruct Hz|]. cbn [tiles] in H. destruct H as (-> & L & H).
  assert (y <= e) by (clear - H; revert y H; induction l as [|[u v] l IH]; intros y H; cbn [tiles] in H; [lia|]; destruct H as (-> & L & H); specialize (IH _ H); lia).
  destruct Hz as [<-|Hz]; [cbn; lia|]. destruct (IH _ _ H _ Hz). lia.
Qed.

Section RTop.

Context {D : Type}.
Variable OD : fops D.
Variable E : env.
Variable K : platform R.
Hypothesis HE : env_ok E.
Hypothesis HK : benign_shift K.
Hypothesis HX : exact_rsqrt K.

Notation c := (e_cfg E).

Lemma box_nonneg : forall t : @tree R, reachable Rops E t -> t_codes t <> [] -> (0 <= t_box t)%R.
Proof.
  intros t Hr Hne. pose proof (reachable_inv Rops E HE t Hr) as Ht. destruct (inv_box _ _ _ Ht) as [H|[_ H]]; [cbn in H; rewrite H; lra|].
  destruct (t_ded t) eqn:Ed.
  - destruct (deduced_R E t HE Hr Ed) as (M & -> & HM & _).
    destruct (inv_table Rops E t Ht) as [T1 T2]. pose proof (dim_pos c) as Dp.
    destruct (t_parts t) as [|col l]; [cbn in T1; lia|]. pose proof (Forall_inv T2) as L. destruct (t_codes t) as [|x0 xs]; [now elim Hne|].
    destruct col as [|x col]; [discriminate|].
    assert (H1 : (Rabs x <= M)%R). { apply (HM (x :: col)); [|now left]. destruct (dim c); [lia|]. now left. }
    pose proof (Rabs_pos x). lra.
  - specialize (H eq_refl). cbn in H. apply Rltb_ge in H. exact H.
Qed.

Lemma mac_value_R : forall theta mv, mac_value_of Rops E theta = Ok mv ->
  (0 < theta)%R /\ mv = match e_mac E with Bh => (1 / (theta * theta))%R | BhGeom => (1 / theta)%R end.
Proof.
  intros theta mv H. unfold mac_value_of in H. cbn [ffin fle fofZ fdiv fmul Rops negb orb] in H.
  destruct (Rleb theta 0) eqn:L; [discriminate|]. apply Rleb_gt in L. cbv zeta in H. destruct (Rleb _ 0); [discriminate|].
  injection H as <-. auto.
Qed.

Lemma eps2_R : forall eps eps2, compute_eps2 Rops eps = Ok eps2 -> (0 <= eps)%R /\ eps2 = (eps * eps)%R.
Proof.
  intros eps eps2 H. unfold compute_eps2 in H. cbn [ffin flt fofZ fmul Rops negb orb] in H.
  destruct (Rltb eps 0) eqn:L; [discriminate|]. apply Rltb_ge in L. cbv zeta in H. destruct (Rltb _ 0); [discriminate|].
  injection H as <-. auto.
Qed.

Lemma params_R : forall (t : @tree R) theta G eps split, (0 < theta)%R -> (0 <= eps)%R -> check_split OD split = Ok tt -> length split <= 1 ->
  params Rops OD E t theta G eps split (match e_mac E with Bh => (1 / (theta * theta))%R | BhGeom => (1 / theta)%R end) (eps * eps)%R.
Proof.
  intros t theta G eps split H1 H2 H3 H4. unfold params, mac_value_of, compute_eps2, check_G_const. cbn [ffin fle flt fofZ fmul fdiv Rops negb orb].
  assert (A : Rleb theta 0 = false) by (now apply Rleb_gt). rewrite A. cbv zeta.
  assert (B : Rltb eps 0 = false) by (now apply Rltb_ge). rewrite B.
  assert (C : Rltb (eps * eps) 0 = false) by (apply Rltb_ge; nra). rewrite C.
  assert (M : Rleb (match e_mac E with Bh => (1 / (theta * theta))%R | BhGeom => (1 / theta)%R end) 0 = false).
  { apply Rleb_gt. destruct (e_mac E); apply Rdiv_lt_0_compat; nra. }
  rewrite M. auto 6.
Qed.

(** An accepted node satisfies the criterion for every particle of the target. *)
Lemma accept_separated : forall t theta mv eps2 size tgt a p, tree_inv Rops E t -> (0 <= t_box t)%R -> mac_value_of Rops E theta = Ok mv ->
  In a (t_nodes t) -> In p (firstn (covered (batch c (e_simd E)) size) tgt) ->
  accept Rops c (e_simd E) K mv eps2 size tgt a = true -> separated E t theta a (fst p).
Proof.
  intros t theta mv eps2 size tgt a p Ht Hb Hmv Ha Hp Hacc.
  destruct (mac_value_R _ _ Hmv) as [Hth ->].
  destruct (node_facts E t a HE Ht Ha) as (qq & mcol & _ & _ & _ & _ & _ & _ & _ & _ & Hmac & _ & Hcen).
  unfold accept, passes in Hacc. apply negb_true_iff in Hacc.
  assert (H : Rleb (fst (mac_lane Rops c (e_simd E) K eps2 (p_com (n_props a)) p)) (mac_lh Rops (n_props a) match e_mac E with Bh => (1 / (theta * theta))%R | BhGeom => (1 / theta)%R end) = false).
  { destruct (Rleb _ _) eqn:X; [|reflexivity]. exfalso. rewrite <- not_true_iff_false in Hacc. apply Hacc. apply existsb_exists. exists p. split; [exact Hp|exact X]. }
  apply Rleb_gt in H. unfold mac_lane in H. cbv zeta in H. cbn [fst] in H. rewrite mac_dist2_R in H.
  unfold separated, mac_lh in *. rewrite Hmac in H. clear Hmac Hacc. rewrite distance_sep2. set (com := p_com (n_props a)) in *.
  pose proof (sep2_nonneg com (fst p)) as N. pose proof (sqrt_pos (sep2 com (fst p))) as S. pose proof (sqrt_sqrt _ N) as Q. set (d := sqrt (sep2 com (fst p))) in *.
  rewrite <- Q in H. cbv zeta in H |- *. set (s := (t_box t / pow2R (n_level a))%R) in *.
  assert (Hs : (0 <= s)%R). { unfold s. pose proof (pow2R_pos (n_level a)). apply Rmult_le_pos; [exact Hb|]. left. now apply Rinv_0_lt_compat. }
  destruct (e_mac E).
  - cbn [fmul Rops] in H. apply sq_lt; [nra|]. apply Rmult_lt_reg_r with (r := (1 / (theta * theta))%R); [apply Rdiv_lt_0_compat; nra|].
    replace (theta * d * (theta * d) * (1 / (theta * theta)))%R with (d * d)%R by (field; lra). exact H.
  - cbn [fmul ffma Rops] in H. eexists. split; [exact Hcen|]. rewrite (distance_sep2 com). set (dl := distance com _) in H. 
    change (sqrt (sep2 com (cell_centre (t_box t) (n_level a) qq))) with dl.
    assert (L : (s * (1 / theta) + dl < d)%R) by (apply sq_lt; assumption).
    apply Rmult_lt_reg_r with (r := (1 / theta)%R); [apply Rdiv_lt_0_compat; lra|].
    replace (theta * (d - dl) * (1 / theta))%R with (d - dl)%R by (field; lra). lra.
Qed.

(** * The Barnes-Hut sum *)

(** [P i]: coordinates and mass of the tree particle [i]. *)
Definition particles_of (t : @tree R) (P : nat -> @prow R) : Prop :=
  forall i, i < length (t_codes t) -> row (t_parts t) i (fst (P i) ++ [snd (P i)]).

(** The other particles of a range. *)
Definition others (b e i : nat) : list nat := filter (fun k => negb (k =? i)) (seq b (e - b)).

(** The sources of the critical node [cn]: the nodes [A] are replaced by their centre of mass, the
    particles [Dl] and those of the critical node are treated one by one. *)
Definition sources (t : @tree R) (theta : R) (P : nat -> @prow R) (cn : cnode) (A : list (node (props R))) (Dl : list nat) : Prop :=
  Permutation (seq (c_begin cn) (c_end cn - c_begin cn) ++ Dl ++ flat_map node_idx A) (seq 0 (length (t_codes t))) /\
  (forall a, In a A -> In a (t_nodes t) /\ (n_end a <= c_begin cn \/ c_end cn <= n_begin a) /\
     (forall i, c_begin cn <= i < c_end cn -> separated E t theta a (fst (P i))) /\
     p_mass (n_props a) = rsum (fun k => snd (P k)) (node_idx a) /\
     (p_mass (n_props a) <> 0%R -> forall j, j < dim c ->
        (p_mass (n_props a) * nth j (p_com (n_props a)) 0 = rsum (fun k => snd (P k) * nth j (fst (P k)) 0) (node_idx a))%R)).

(** The sum for the particle [i]. *)
Definition bh_sum (q : quant) (eps : R) (P : nat -> @prow R) (i : nat) (Dr : list nat) (A : list (node (props R))) (j : nat) : R :=
  (rsum (fun k => pull (dim c) q (eps * eps) j (P i) (P k)) Dr +
   rsum (fun a => pull (dim c) q (eps * eps) j (P i) (p_com (n_props a), p_mass (n_props a))) A)%R.

Lemma row_parts : forall (t : @tree R) i x m, tree_inv Rops E t -> row (t_parts t) i (x ++ [m]) ->
  length x = dim c /\ row (firstn (dim c) (t_parts t)) i x /\ exists mcol, nth_error (t_parts t) (dim c) = Some mcol /\ nth_error mcol i = Some m.
Proof.
  intros t i x m Ht H. destruct (inv_table Rops E t Ht) as [T1 _]. unfold row in *.
  pose proof H as H0. apply Forall2_app_inv_r in H as (l1 & l2 & H1 & H2 & HE2).
  assert (L2 : exists mcol, l2 = [mcol] /\ nth_error mcol i = Some m).
  { inversion H2 as [|mcol ? ? ? Hm Hn]; subst. inversion Hn; subst. eauto. }
  destruct L2 as (mcol & -> & Hm). rewrite HE2 in *. rewrite app_length in T1. cbn [length] in T1.
  assert (L1 : length l1 = dim c) by lia.
  assert (Lx : length x = length l1).
  { clear - H1. induction H1; [reflexivity|]. cbn [length]. now rewrite IHForall2. }
  split; [lia|]. rewrite firstn_app, firstn_all2, L1, Nat.sub_diag by lia. cbn [firstn]. rewrite app_nil_r. split; [exact H1|].
  exists mcol. split; [|exact Hm]. rewrite nth_error_app2 by lia. now rewrite L1, Nat.sub_diag.
Qed.

Lemma row_nth : forall (cols : list (list R)) i x j d, row cols i x -> j < length cols -> nth i (nth j cols []) d = nth j x d.
Proof.
  intros cols i x j d H. revert j. induction H as [|col y cols x Hc H IH]; intros j Hj; [cbn in Hj; lia|].
  destruct j as [|j]; [cbn; now apply nth_error_nth|]. cbn [nth length] in *. apply IH. lia.
Qed.

Lemma particles_rows : forall t P, tree_inv Rops E t -> particles_of t P ->
  rows_of E t (map P (seq 0 (length (t_codes t)))) /\
  forall i, i < length (t_codes t) -> nth i (map P (seq 0 (length (t_codes t)))) (pad_row Rops E 0%R) = P i.
Proof.
  intros t P Ht HP. split.
  - unfold rows_of. apply mapM_map. intros i Hi. apply in_seq in Hi.
    specialize (HP i ltac:(lia)). destruct (P i) as [x m]. cbn [fst snd] in HP.
    destruct (row_parts t i x m Ht HP) as (L & Hx & mcol & Hm1 & Hm2). unfold particle.
    assert (M : mapM (fun col => rd col i) (firstn (dim c) (t_parts t)) = Ok x).
    { clear - Hx. unfold row in Hx. induction Hx as [|col y cols x Hc H IH]; [reflexivity|]. cbn [mapM]. unfold rd at 1. rewrite Hc. cbn [bind]. now rewrite IH. }
    rewrite M. cbn [bind]. unfold rd. rewrite Hm1. cbn [bind]. now rewrite Hm2.
  - intros i Hi. rewrite nth_indep with (d' := P 0) by (rewrite map_length, seq_length; lia). rewrite map_nth, seq_nth by lia. reflexivity.
Qed.

Lemma node_monopole : forall t P a, tree_inv Rops E t -> particles_of t P -> In a (t_nodes t) ->
  p_mass (n_props a) = rsum (fun k => snd (P k)) (node_idx a) /\
  (p_mass (n_props a) <> 0%R -> forall j, j < dim c ->
     (p_mass (n_props a) * nth j (p_com (n_props a)) 0 = rsum (fun k => snd (P k) * nth j (fst (P k)) 0) (node_idx a))%R).
Proof.
  intros t P a Ht HP Ha.
  destruct (node_facts E t a HE Ht Ha) as (qq & mcol & _ & _ & _ & Hr & Hm & HM & _ & HC & _).
  assert (Pm : forall k, k < length (t_codes t) -> nth k mcol 0%R = snd (P k) /\ forall j, j < dim c -> nth k (nth j (firstn (dim c) (t_parts t)) []) 0%R = nth j (fst (P k)) 0%R).
  { intros k Hk. specialize (HP k Hk). destruct (P k) as [x m]. cbn [fst snd] in *.
    destruct (row_parts t k x m Ht HP) as (L & Hx & mcol' & Hm1 & Hm2). assert (mcol' = mcol) by congruence. subst mcol'.
    split; [now apply nth_error_nth|]. intros j Hj. apply row_nth; [exact Hx|]. rewrite firstn_length. destruct (inv_table Rops E t Ht) as [T1 _]. lia. }
  cbv zeta in *. split.
  - rewrite HM. unfold total, node_idx. apply rsum_ext. intros k Hk. apply in_seq in Hk. apply Pm. lia.
  - intros NZ j Hj. rewrite HM in NZ. rewrite HM, (HC NZ).
    set (f := fun col : list R => (weighted mcol col (n_begin a) (n_end a) / total mcol (n_begin a) (n_end a))%R).
    rewrite nth_indep with (d' := f []).
    2:{ rewrite map_length, firstn_length. destruct (inv_table Rops E t Ht) as [T1 _]. lia. }
    rewrite map_nth. unfold f. replace (total mcol (n_begin a) (n_end a) * (weighted mcol (nth j (firstn (dim c) (t_parts t)) []) (n_begin a) (n_end a) / total mcol (n_begin a) (n_end a)))%R
      with (weighted mcol (nth j (firstn (dim c) (t_parts t)) []) (n_begin a) (n_end a)) by (field; exact NZ).
    unfold weighted, node_idx. apply rsum_ext. intros k Hk. apply in_seq in Hk. destruct (Pm k ltac:(lia)) as [-> ->]; [reflexivity|exact Hj].
Qed.

Lemma result_R : forall t P theta mv eps cn, reachable Rops E t -> room E t -> particles_of t P ->
  mac_value_of Rops E theta = Ok mv -> In cn (t_crit t) ->
  exists A Dl, sources t theta P cn A Dl /\
    forall q G i, c_begin cn <= i < c_end cn -> length (result_row Rops E K q t mv G (eps * eps)%R i) = nvecs_res E q /\
      forall j, j < nvecs_res E q -> nth_error (result_row Rops E K q t mv G (eps * eps)%R i) j =
        Some (G * bh_sum q eps P i (others (c_begin cn) (c_end cn) i ++ Dl) A j)%R.
Proof.
  intros t P theta mv eps cn Hreach Hroom HP Hmv Hcn. set (eps2 := (eps * eps)%R).
  assert (Heps : (0 <= eps2)%R) by (unfold eps2; nra).
  pose proof (reachable_inv Rops E HE t Hreach) as Ht.
  destruct (particles_rows t P Ht HP) as [Hps HPs]. set (ps := map P (seq 0 (length (t_codes t)))) in *. clearbody ps.
  destruct (crit_node Rops E t cn Ht Hcn) as (_ & _ & _ & _ & _ & N5).
  assert (Hb : (0 <= t_box t)%R). { apply box_nonneg; [exact Hreach|]. intros Z. rewrite Z in N5. cbn in N5. lia. }
  assert (Hsz : exists psize, pdata_size E (c_end cn - c_begin cn) = Ok psize).
  { apply (psize_total E (length (t_codes t)) Hroom). lia. }
  destruct Hsz as [psize Hsz].
  set (pad := pad_coord Rops E (t_box t) mv).
  (* the sources do not depend on G and on the quantity *)
  destruct (crit_value E K HE HK HX QAcc t ps Ht Hps mv 1%R eps2 pad Heps cn psize Hcn Hsz) as (res & pre & post & nd & Er & Lr & F1 & F2 & F3 & F4 & Tr & Ev & T1 & T2 & V).
  set (evs := pre ++ post) in *. set (Dl := flat_map node_idx (directs evs)) in *.
  assert (SQ : Permutation (seq (c_begin cn) (c_end cn - c_begin cn) ++ Dl ++ flat_map node_idx (approxs evs)) (seq 0 (length (t_codes t)))).
  { destruct (tiles_seq _ _ _ T1) as [_ S1]. destruct (tiles_seq _ _ _ T2) as [_ S2].
    assert (FM : forall l : list (@event R), flat_map (fun x => seq (fst x) (snd x - fst x)) (map ev_range l) = flat_map (fun e => node_idx (ev_node e)) l).
    { induction l as [|e l IH]; [reflexivity|]. cbn [map flat_map]. rewrite IH. destruct e; reflexivity. }
    rewrite FM in S1, S2. rewrite Nat.sub_0_r in S1.
    assert (SQ : seq 0 (length (t_codes t)) = seq 0 (c_begin cn) ++ seq (c_begin cn) (c_end cn - c_begin cn) ++ seq (c_end cn) (length (t_codes t) - c_end cn)).
    { replace (length (t_codes t)) with (c_begin cn + ((c_end cn - c_begin cn) + (length (t_codes t) - c_end cn))) at 1 by lia.
      rewrite !seq_app. do 3 f_equal; lia. }
    rewrite SQ, <- S1, <- S2. eapply perm_trans; [|apply Permutation_app_swap_app]. apply Permutation_app_head.
    rewrite <- (flat_map_app (fun e => node_idx (ev_node e)) pre post). apply Permutation_sym, events_perm. }
  exists (approxs evs), Dl. split.
  - split; [exact SQ|]. intros a Ha. unfold approxs in Ha. apply in_flat_map in Ha as (e & He & Ha). destruct e as [a'|a']; [|destruct Ha]. destruct Ha as [->|[]].
    rewrite Forall_forall in Ev. pose proof (Ev _ He) as (Hin & _ & Hacc). cbn [ev_node] in *. split; [exact Hin|]. split.
    { unfold evs in He. apply in_app_or in He as [He|He].
      - left. assert (Hi2 : In (ev_range (Approx a)) (map ev_range pre)) by (now apply in_map).
        destruct (tiles_bounds _ _ _ T1 _ Hi2) as [_ B]. exact B.
      - right. assert (Hi2 : In (ev_range (Approx a)) (map ev_range post)) by (now apply in_map).
        destruct (tiles_bounds _ _ _ T2 _ Hi2) as [B _]. exact B. }
    split; [|exact (node_monopole t P a Ht HP Hin)].
    intros i' Hi'. rewrite <- (HPs i') by lia. apply (accept_separated t theta mv eps2 (c_end cn - c_begin cn) (tgt_rows Rops E ps pad cn psize) a); auto.
    destruct (ps_facts E t ps Ht Hps) as [Lps _].
    pose proof (covered_bounds (batch c (e_simd E)) (c_end cn - c_begin cn) (batch_pos c (e_simd E) (simd_pos E HE))) as [C1 _].
    assert (Ek : nth i' ps (pad_row Rops E 0%R) = nth (i' - c_begin cn) (slice ps (c_begin cn) (c_end cn)) (pad_row Rops E 0%R)).
    { rewrite nth_slice by lia. f_equal. lia. }
    rewrite Ek. unfold tgt_rows. rewrite firstn_app. apply in_or_app. left.
    rewrite firstn_all2 by (rewrite slice_length; lia). apply nth_In. rewrite slice_length; unfold prow in *; lia.
  - intros q G i Hc.
    destruct (crit_value E K HE HK HX q t ps Ht Hps mv G eps2 pad Heps cn psize Hcn Hsz) as (res' & pre' & post' & nd' & Er' & Lr' & F1' & F2' & F3' & F4' & Tr' & Ev' & T1' & T2' & V').
    destruct (V' i Hc) as (r & Hr & Wr & Vr).
    assert (X : pre' ++ post' = evs) by congruence. rewrite X in Vr.
    assert (NC : nvecs_res E q = ncomp c q) by (unfold nvecs_res, ncomp; destruct q; cbn; lia).
    assert (RR : result_row Rops E K q t mv G eps2 i = fst r ++ snd r).
    { unfold result_row. replace i with (c_begin cn + (i - c_begin cn)) by lia.
      apply (row_at_crit Rops E K q t Ht mv G eps2 pad cn res' (i - c_begin cn) r); auto. lia. }
    rewrite RR. pose proof (shape_length E q r Wr) as L. split; [exact L|].
    intros j Hj. rewrite nth_error_nth' with (d := 0%R) by lia. f_equal.
    change (comp j r = (G * bh_sum q eps P i (others (c_begin cn) (c_end cn) i ++ Dl) (approxs evs) j)%R).
    rewrite Vr by lia. f_equal. unfold bh_sum. fold eps2. rewrite (HPs i) by lia. f_equal. apply rsum_ext.
    intros k Hk. rewrite HPs; [reflexivity|].
    assert (Hk2 : In k (seq (c_begin cn) (c_end cn - c_begin cn) ++ Dl ++ flat_map node_idx (approxs evs))).
    { apply in_app_or in Hk as [Hk|Hk]; [apply in_or_app; left; now apply filter_In in Hk|apply in_or_app; right; apply in_or_app; now left]. }
    apply (Permutation_in _ SQ) in Hk2. apply in_seq in Hk2. lia.
Qed.

(** The call succeeds for all valid parameters and gives the sums. *)
Lemma dispatch_R : forall ord ordered q t P theta G eps split out, reachable Rops E t -> room E t -> reorders ord -> particles_of t P ->
  (0 < theta)%R -> (0 <= eps)%R -> check_split OD split = Ok tt -> length split <= 1 ->
  out_ok (length (t_codes t)) (nvecs_res E q) out ->
  exists out', acc_pot_dispatch Rops OD E K ord ordered q t theta G eps split out = Ok out' /\
    out_ok (length (t_codes t)) (nvecs_res E q) out' /\
    forall cn, In cn (t_crit t) -> exists A Dl, sources t theta P cn A Dl /\
      forall i j, c_begin cn <= i < c_end cn -> j < nvecs_res E q ->
        nth_error (nth j out' []) (dst ordered t i) = Some (G * bh_sum q eps P i (others (c_begin cn) (c_end cn) i ++ Dl) A j)%R.
Proof.
  intros ord ordered q t P theta G eps split out Hreach Hroom Hord HP Hth Heps Hs1 Hs2 Ho.
  pose proof (reachable_inv Rops E HE t Hreach) as Ht.
  pose proof (params_R t theta G eps split Hth Heps Hs1 Hs2) as Hp. pose proof Hp as (Hmv & _).
  set (mv := match e_mac E with Bh => _ | BhGeom => _ end) in *.
  destruct (dispatch_ok Rops OD E K HE HK ord ordered q t theta G eps split mv _ out Ht Hroom Hord Hp Ho) as (out' & E1 & O1 & V & _).
  exists out'. split; [exact E1|]. split; [exact O1|]. intros cn Hcn.
  destruct (result_R t P theta mv eps cn Hreach Hroom HP Hmv Hcn) as (A & Dl & S & R).
  exists A, Dl. split; [exact S|]. intros i j Hi Hj. destruct (crit_node Rops E t cn Ht Hcn) as (_ & _ & _ & _ & _ & N5).
  rewrite V by lia. now apply R.
Qed.

End RTop.
