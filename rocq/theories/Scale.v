(** In exact arithmetic a change of the units of length and mass changes the units of the results and nothing else. *)
From Coq Require Import List Arith NArith ZArith Lia Bool Reals Lra Permutation.
From Verif Require Import Base Config Morton Build TreeSpec FOps FOpsProofs Disc NodeProps Tree TreeInv TreeProofs TreeSafe TreeProps Kernels Force
  TravProofs KernLoops RSum NodeGeom NodesR BoxInv SelfSum KernR ForceGen ForceOut ForceR ForceTop ForceRTop ForceMore SimdForce Unique UniqueR Rebuild.
Import ListNotations.
Local Open Scope nat_scope.

Definition omap {A B} (f : A -> B) (x : outcome A) : outcome B := bind x (fun y => Ok (f y)).

Section Scale.

Variables a b : R.
Hypothesis Ha : (0 < a)%R.
Hypothesis Hb : (b <> 0)%R.

(** The columns in the other units: coordinates times [a], masses times [b]. *)
Definition sc_cols (d : nat) (cols : list (list R)) : list (list R) :=
  map (map (Rmult a)) (firstn d cols) ++ map (map (Rmult b)) (skipn d cols).
Definition sc_row (p : @prow R) : @prow R := (map (Rmult a) (fst p), (b * snd p)%R).
Definition sc_mac (m : macdata R) : macdata R :=
  match m with DBh d2 => DBh (a * a * d2)%R | DGeom d e => DGeom (a * d)%R (a * e)%R end.
Definition sc_props (p : props R) : props R := mkProps (map (Rmult a) (p_com p)) (b * p_mass p)%R (sc_mac (p_mac p)).
Definition sc_node (nd : node (props R)) : node (props R) :=
  mkNode (n_begin nd) (n_end nd) (n_children nd) (n_code nd) (n_level nd) (sc_props (n_props nd)).
Definition sc_event (e : @event R) : @event R := match e with Approx nd => Approx (sc_node nd) | Direct nd => Direct (sc_node nd) end.

(** The unit of the component [j] of the results. *)
Definition sc_unit (d : nat) (q : quant) (j : nat) : R := if is_acc d q j then (b / (a * a))%R else (b * b / a)%R.

Lemma sep2_scale : forall x y, sep2 (map (Rmult a) x) (map (Rmult a) y) = (a * a * sep2 x y)%R.
Proof.
  induction x as [|x0 x IH]; intros y; [unfold sep2, rsum; cbn; lra|]. destruct y as [|y0 y]; [unfold sep2, rsum; cbn; lra|].
  unfold sep2 in *. cbn [map combine]. rewrite !rsum_cons, IH. ring.
Qed.

Lemma sqrt_scale : forall x, sqrt (a * a * x) = (a * sqrt x)%R.
Proof. intros x. rewrite sqrt_mult_alt by nra. rewrite sqrt_square by lra. reflexivity. Qed.

Lemma nth_scale : forall k l j, nth j (map (Rmult k) l) 0%R = (k * nth j l 0)%R.
Proof. intros k l j. replace 0%R with (k * 0)%R at 1 by ring. apply (map_nth (Rmult k)). Qed.

Lemma pull_scale : forall d q eps2 j p1 p2, pull d q (a * a * eps2) j (sc_row p1) (sc_row p2) = (sc_unit d q j * pull d q eps2 j p1 p2)%R.
Proof.
  intros d q eps2 j p1 p2. unfold pull, sc_unit, sc_row. cbn [fst snd]. rewrite sep2_scale, <- Rmult_plus_distr_l, sqrt_scale, !nth_scale.
  set (r := sqrt _). destruct (is_acc d q j); unfold Rdiv; rewrite !Rinv_mult; generalize (/ r)%R; intros i; field; lra.
Qed.

(** ** Nodes *)

Lemma centre_scale : forall c code box, get_node_centre Rops c code (a * box)%R = omap (map (Rmult a)) (get_node_centre Rops c code box).
Proof.
  intros c code box. unfold get_node_centre. destruct (shl _ 1 _) as [one| |]; [|reflexivity|reflexivity]. cbn [bind].
  destruct (shl _ _ _) as [cc| |]; [|reflexivity|reflexivity]. cbn [bind omap]. f_equal. rewrite map_map. apply map_ext. intros dc.
  unfold get_node_dim. cbn [fmul fsub fdiv ffma fofZ Rops]. unfold Rdiv. ring.
Qed.

Lemma total_scale : forall m x y, total (map (Rmult b) m) x y = (b * total m x y)%R.
Proof. intros m x y. unfold total. rewrite <- rsum_scal. apply rsum_ext. intros i _. apply nth_scale. Qed.

Lemma weighted_scale : forall m col x y, weighted (map (Rmult b) m) (map (Rmult a) col) x y = (b * a * weighted m col x y)%R.
Proof. intros m col x y. unfold weighted. rewrite <- rsum_scal. apply rsum_ext. intros i _. rewrite !nth_scale. ring. Qed.

Section ScaledTree.

Variable E : env.
Hypothesis HE : env_ok E.
Notation c := (e_cfg E).
Variable t : @tree R.
Hypothesis Ht : tree_inv Rops E t.
Notation n := (length (t_codes t)).
Notation scc := (sc_cols (dim c)).

(** The same tree in the other units. *)
Definition sc_tree : @tree R :=
  mkTree (a * t_box t)%R (t_ded t) (t_mln t) (t_ncrit t) (scc (t_parts t)) (t_codes t) (t_perm t) (t_last t) (t_inv t)
         (map sc_node (t_nodes t)) (t_crit t) (t_view t).

Lemma scc_length : forall cols, length (scc cols) = length cols.
Proof. intros cols. unfold sc_cols. rewrite app_length, !map_length, <- app_length, firstn_skipn. reflexivity. Qed.

Lemma scc_coords : forall cols, length cols = dim c + 1 -> firstn (dim c) (scc cols) = map (map (Rmult a)) (firstn (dim c) cols).
Proof.
  intros cols H. unfold sc_cols. rewrite firstn_app, map_length, firstn_length, Nat.min_l, Nat.sub_diag by lia. cbn [firstn]. rewrite app_nil_r.
  apply firstn_all2. rewrite map_length, firstn_length. lia.
Qed.

Lemma scc_mass : forall cols, length cols = dim c + 1 -> nth (dim c) (scc cols) [] = map (Rmult b) (nth (dim c) cols []).
Proof.
  intros cols H. unfold sc_cols. rewrite app_nth2 by (rewrite map_length, firstn_length; lia).
  rewrite map_length, firstn_length, Nat.min_l, Nat.sub_diag by lia.
  rewrite <- (firstn_skipn (dim c) cols) at 2. rewrite app_nth2 by (rewrite firstn_length; lia).
  rewrite firstn_length, Nat.min_l, Nat.sub_diag by lia. destruct (skipn (dim c) cols); reflexivity.
Qed.

Lemma scc_Forall : forall m cols, Forall (fun col => length col = m) cols -> Forall (fun col => length col = m) (scc cols).
Proof.
  intros m cols H. rewrite <- (firstn_skipn (dim c) cols) in H. apply Forall_app in H as [H1 H2]. unfold sc_cols.
  apply Forall_app. split; apply Forall_map; [revert H1|revert H2]; apply Forall_impl; intros col Hl; now rewrite map_length.
Qed.

Lemma forallb_fin : forall l : list R, forallb (ffin Rops) l = true.
Proof. intros l. apply forallb_forall. reflexivity. Qed.

Lemma cnp_scale : forall x y code level, x <= y <= n ->
  cnp Rops E (scc (t_parts t)) (a * t_box t)%R x y code level = omap sc_props (cnp Rops E (t_parts t) (t_box t) x y code level).
Proof.
  intros x y code level Hxy. unfold cnp, compute_node_properties. unfold rd. destruct (inv_table Rops E t Ht) as [T1 T2].
  rewrite (nth_error_nth' (t_parts t) []) by lia. rewrite (nth_error_nth' (scc (t_parts t)) []) by (rewrite scc_length; lia). cbn [bind].
  assert (Q : forall cols : list (list R), length cols = dim c + 1 -> Forall (fun col => length col = n) cols ->
    node_sums Rops c (e_simd E) (e_hadd E) (firstn (dim c) cols) (nth (dim c) cols []) x y =
    Ok (total (nth (dim c) cols []) x y, map (fun col => weighted (nth (dim c) cols []) col x y) (firstn (dim c) cols))).
  { intros cols L HF. apply node_sums_R with (n := n); [apply HE|rewrite firstn_length; lia| | |lia].
    - apply Forall_forall. intros col Hc. apply firstn_In in Hc. rewrite Forall_forall in HF. auto.
    - rewrite Forall_forall in HF. apply HF, nth_In. lia. }
  rewrite (Q _ T1 T2), (Q (scc (t_parts t))); [|rewrite scc_length; exact T1|now apply scc_Forall]. cbn [bind].
  rewrite (scc_mass _ T1), (scc_coords _ T1), map_map, total_scale, centre_scale.
  set (M := total _ x y). set (mcol := nth (dim c) (t_parts t) []).
  destruct (get_node_centre Rops c code (t_box t)) as [geo| |]; [|reflexivity|reflexivity]. unfold omap at 1. cbn [bind].
  set (com := if feq Rops M _ then geo else _).
  match goal with |- (if negb (forallb _ ?x) then _ else _) = _ => assert (HC : x = map (Rmult a) com) end.
  { unfold com. cbn [feq Rops fofZ]. unfold Reqb. destruct (Req_EM_T (b * M) 0) as [Z|Z], (Req_EM_T M 0) as [W|W].
    - reflexivity.
    - exfalso. apply W. nra.
    - exfalso. apply Z. rewrite W. ring.
    - rewrite !map_map. apply map_ext. intros col. rewrite weighted_scale. cbn [fmul fdiv Rops fofZ]. fold mcol. field. split; assumption. }
  rewrite HC, !forallb_fin. cbn [negb ffin Rops]. destruct (e_mac E); unfold omap; cbn [bind ffin Rops negb].
  - unfold sc_props. cbn [p_com p_mass p_mac sc_mac]. do 3 f_equal. unfold get_node_dim. cbn [fmul fdiv Rops]. unfold Rdiv. ring.
  - unfold sc_props. cbn [p_com p_mass p_mac sc_mac]. do 3 f_equal; [unfold get_node_dim; cbn [fdiv Rops]; unfold Rdiv; ring|].
    rewrite !dist2_R. change (fsqrt Rops) with sqrt. rewrite <- sqrt_scale. f_equal. apply sep2_scale.
Qed.

Lemma disc_scale : forall clamp x, disc_single_coord Rops c clamp (a * x)%R (1 / (a * t_box t))%R = disc_single_coord Rops c clamp x (1 / t_box t)%R.
Proof.
  intros clamp x. unfold disc_single_coord. cbn [ffma fmul Rops fofZ].
  replace (a * x * (1 / (a * t_box t)))%R with (x * (1 / t_box t))%R; [reflexivity|]. unfold Rdiv. rewrite Rinv_mult.
  generalize (/ t_box t)%R. intros i. field. lra.
Qed.

Lemma code_scale : forall xs, particle_code Rops c (map (Rmult a) xs) (1 / (a * t_box t))%R = particle_code Rops c xs (1 / t_box t)%R.
Proof.
  intros xs. unfold particle_code. f_equal. induction xs as [|x xs IH]; [reflexivity|]. cbn [map mapM]. rewrite disc_scale, IH. reflexivity.
Qed.

Lemma row_scale : forall k (cols : list (list R)) i xs, row cols i xs -> row (map (map (Rmult k)) cols) i (map (Rmult k) xs).
Proof.
  intros k cols i xs H. induction H as [|col x cols xs H1 H IH]; cbn [map]; constructor; [|exact IH]. rewrite nth_error_map, H1. reflexivity.
Qed.

Lemma scaled_inv : tree_inv Rops E sc_tree.
Proof.
  destruct (inv_table Rops E t Ht) as [T1 T2]. constructor; cbn [sc_tree t_parts t_codes t_perm t_last t_inv t_nodes t_crit t_mln t_ncrit t_box t_ded].
  - rewrite scc_length. exact T1.
  - now apply scc_Forall.
  - apply Ht.
  - intros i x Hx. destruct (inv_codes _ _ _ Ht i x Hx) as (xs & H1 & H2). exists (map (Rmult a) xs). rewrite (scc_coords _ T1). split; [now apply row_scale|].
    cbn [fdiv fofZ Rops] in *. rewrite code_scale. exact H2.
  - apply Ht.
  - apply Ht.
  - apply Ht.
  - intros split st sc Hst Hsc. assert (R : forall A, reorders (fun l : list A => l)) by (intros A l; apply Permutation_refl).
    apply (recompute c _ _ _ _ _ _ _ (inv_valid_codes Rops E t Ht) 0 _ _ _ _ (R _) (R _) (inv_nodes _ _ _ Ht 0 _ _ (R _) (R _))); auto.
    assert (X : forall l, (forall nd, In nd l -> In nd (t_nodes t)) ->
      mapM (set_props (cnp Rops E (scc (t_parts t)) (a * t_box t)%R)) l = Ok (map sc_node l)).
    { induction l as [|nd l IH]; intros Hl; [reflexivity|]. cbn [map mapM]. unfold set_props at 1.
      destruct (node_payload E t nd Ht (Hl nd (or_introl eq_refl))) as (p & _ & _ & _ & R1 & _ & C1).
      rewrite cnp_scale by lia. rewrite C1. unfold omap. cbn [bind]. rewrite IH by (intros; apply Hl; now right). reflexivity. }
    apply X. auto.
  - apply Ht.
  - apply Ht.
  - destruct (inv_box _ _ _ Ht) as [Z|[_ Z]]; [left|right].
    + rewrite Z. cbn [fofZ Rops]. ring.
    + split; [reflexivity|]. intros D. specialize (Z D). cbn [flt fofZ Rops] in *. unfold Rltb in *. destruct (Rlt_dec (t_box t) 0); [discriminate|].
      destruct (Rlt_dec (a * t_box t) 0); [|reflexivity]. exfalso. nra.
Qed.

Lemma mapM_rd_map : forall {A B} (f : A -> B) (col : list A) idx, mapM (rd (map f col)) idx = omap (map f) (mapM (rd col) idx).
Proof.
  intros A B f col idx. induction idx as [|i idx IH]; [reflexivity|]. cbn [mapM]. unfold rd at 1 3. rewrite nth_error_map.
  destruct (nth_error col i); [|reflexivity]. cbn [option_map bind]. rewrite IH. unfold omap. destruct (mapM (rd col) idx); reflexivity.
Qed.

Lemma scaled_view : forall v, view_cols true t = Ok v -> view_cols true sc_tree = Ok (scc v).
Proof.
  intros v. unfold view_cols, nparts. cbn [sc_tree t_parts t_inv t_codes].
  assert (N : length (hd [] (scc (t_parts t))) = length (hd [] (t_parts t))).
  { unfold sc_cols. destruct (t_parts t) as [|col cols]; [now rewrite firstn_nil, skipn_nil|]. destruct (dim c); cbn [firstn skipn map app hd]; apply map_length. }
  rewrite N. destruct (it_diff_check _) as [[]| |]; cbn [bind]; try discriminate.
  assert (X : forall k l v, mapM (fun col => mapM (rd col) (t_inv t)) l = Ok v ->
    mapM (fun col => mapM (rd col) (t_inv t)) (map (map (Rmult k)) l) = Ok (map (map (Rmult k)) v)).
  { intros k l. induction l as [|col l IH]; intros w; cbn [mapM map].
    - intros Z. injection Z as <-. reflexivity.
    - rewrite mapM_rd_map. destruct (mapM (rd col) (t_inv t)) as [x| |]; try discriminate. cbn [bind omap].
      destruct (mapM _ l) as [y| |]; try discriminate. cbn [bind]. intros Z. injection Z as <-. rewrite (IH y eq_refl). reflexivity. }
  assert (Y : forall l1 l2 w, mapM (fun col => mapM (rd col) (t_inv t)) (l1 ++ l2) = Ok w <->
    exists w1 w2, w = w1 ++ w2 /\ mapM (fun col : list R => mapM (rd col) (t_inv t)) l1 = Ok w1 /\ mapM (fun col => mapM (rd col) (t_inv t)) l2 = Ok w2).
  { induction l1 as [|col l1 IH]; intros l2 w; cbn [app mapM].
    - split; [intros H; exists [], w; auto|]. intros (w1 & w2 & -> & H1 & H2). injection H1 as <-. exact H2.
    - destruct (mapM (rd col) (t_inv t)) as [x| |]; cbn [bind]; [|split; [discriminate|intros (? & ? & _ & Z & _); discriminate]..].
      specialize (IH l2). destruct (mapM _ (l1 ++ l2)) as [y| |]; cbn [bind].
      + split.
        * intros Z. injection Z as <-. destruct (proj1 (IH y) eq_refl) as (w1 & w2 & -> & -> & H2). exists (x :: w1), w2. auto.
        * intros (w1 & w2 & -> & H1 & H2). destruct (mapM _ l1) as [w1'| |]; cbn [bind] in H1; try discriminate. injection H1 as <-.
          assert (Z : Ok y = Ok (w1' ++ w2)) by (apply IH; eauto 6). injection Z as ->. reflexivity.
      + split; [discriminate|]. intros (w1 & w2 & -> & H1 & H2). destruct (mapM _ l1) as [w1'| |]; cbn [bind] in H1; try discriminate. injection H1 as <-.
        assert (Z : Throw e = Ok (w1' ++ w2)) by (apply IH; eauto 6). discriminate.
      + split; [discriminate|]. intros (w1 & w2 & -> & H1 & H2). destruct (mapM _ l1) as [w1'| |]; cbn [bind] in H1; try discriminate. injection H1 as <-.
        assert (Z : UB = Ok (w1' ++ w2)) by (apply IH; eauto 6). discriminate. }
  intros Hv. rewrite <- (firstn_skipn (dim c) (t_parts t)) in Hv. apply Y in Hv as (w1 & w2 & -> & H1 & H2).
  unfold sc_cols at 1. apply Y. exists (map (map (Rmult a)) w1), (map (map (Rmult b)) w2).
  assert (L : length w1 = dim c).
  { pose proof (mapM_length _ _ _ H1) as L. rewrite firstn_length, (inv_ncols _ _ _ Ht) in L. lia. }
  split; [|split; apply X; assumption]. unfold sc_cols. rewrite <- L. rewrite firstn_app, skipn_app, Nat.sub_diag, firstn_all, skipn_all. cbn [firstn skipn app].
  now rewrite app_nil_r.
Qed.

Variable K : platform R.
Hypothesis HK : benign_shift K.
Hypothesis HX : exact_rsqrt K.

Lemma traverse_map : forall (acc acc' : node (props R) -> bool) nodes code, (forall nd, In nd nodes -> acc' (sc_node nd) = acc nd) -> forall fuel i s,
  traverse c K (ev_check acc') (map sc_node nodes) code fuel i (map sc_event s) = omap (map sc_event) (traverse c K (ev_check acc) nodes code fuel i s).
Proof.
  intros acc acc' nodes code H fuel. induction fuel as [|fuel IH]; intros i s; cbn [traverse]; rewrite map_length; destruct (length nodes <=? i); try reflexivity.
  unfold rd. rewrite nth_error_map. destruct (nth_error nodes i) as [src|] eqn:Es; [|reflexivity]. cbn [option_map bind]. cbv zeta.
  cbn [sc_node n_level n_code n_children]. fold (sc_node src).
  destruct (shifted_code _ _ _ _) as [z| |]; try reflexivity. cbn [bind]. destruct (_ =? _)%N; [apply IH|].
  unfold ev_check at 1 3. rewrite (H src) by (eapply nth_error_In; eauto). cbn [bind sc_node n_children]. fold (sc_node src).
  destruct (acc src); cbn [fst snd].
  - rewrite <- IH, map_app. reflexivity.
  - destruct (n_children src =? 0); rewrite <- IH, ?map_app; reflexivity.
Qed.

Lemma lane_scale : forall eps2 eps2' com p, fst (mac_lane Rops c (e_simd E) K eps2' (map (Rmult a) com) (sc_row p)) = (a * a * fst (mac_lane Rops c (e_simd E) K eps2 com p))%R.
Proof. intros eps2 eps2' com p. unfold mac_lane. cbn [fst]. rewrite !mac_dist2_R. apply sep2_scale. Qed.

Lemma lh_scale : forall p mv, mac_lh Rops (sc_props p) mv = (a * a * mac_lh Rops p mv)%R.
Proof. intros p mv. unfold mac_lh, sc_props. cbn [p_mac]. destruct (p_mac p); cbn [sc_mac fmul ffma Rops]; ring. Qed.

Lemma accept_scale : forall mv eps2 eps2' sz tgt nd,
  accept Rops c (e_simd E) K mv eps2' sz (map sc_row tgt) (sc_node nd) = accept Rops c (e_simd E) K mv eps2 sz tgt nd.
Proof.
  intros mv eps2 eps2' sz tgt nd. unfold accept, passes. cbn [sc_node n_props]. rewrite firstn_map, lh_scale. cbn [sc_props p_com]. f_equal.
  generalize (firstn (covered (batch c (e_simd E)) sz) tgt). intros l. induction l as [|p l IH]; [reflexivity|]. cbn [map existsb]. rewrite IH. f_equal.
  rewrite (lane_scale eps2 eps2'). cbn [fle Rops]. unfold Rleb. assert (0 < a * a)%R by nra.
  destruct (Rle_dec _ _) as [L|L], (Rle_dec _ _) as [L'|L']; try reflexivity; exfalso; [apply L'|apply L]; nra.
Qed.

Lemma pad_scale : forall mv, pad_coord Rops E (a * t_box t)%R mv = (a * pad_coord Rops E (t_box t) mv)%R.
Proof. intros mv. unfold pad_coord. destruct (e_mac E); cbn [fadd fmul fdiv fsqrt fofZ Rops]; unfold Rdiv; ring. Qed.

Lemma part_scale : forall i, part (dim c) (scc (t_parts t)) i = sc_row (part (dim c) (t_parts t) i).
Proof.
  intros i. pose proof (inv_ncols _ _ _ Ht) as L. unfold part, sc_row. cbn [fst snd]. rewrite (scc_coords _ L), (scc_mass _ L), nth_scale. f_equal.
  rewrite !map_map. apply map_ext. intros col. apply nth_scale.
Qed.

Lemma directs_map : forall evs, flat_map node_idx (directs (map sc_event evs)) = flat_map node_idx (directs evs).
Proof.
  induction evs as [|[nd|nd] evs IH]; [reflexivity| |].
  - exact IH.
  - change (node_idx (sc_node nd) ++ flat_map node_idx (directs (map sc_event evs)) = node_idx nd ++ flat_map node_idx (directs evs)). now rewrite IH.
Qed.

Lemma approxs_map : forall evs, approxs (map sc_event evs) = map sc_node (approxs evs).
Proof.
  induction evs as [|[nd|nd] evs IH]; [reflexivity| |].
  - change (sc_node nd :: approxs (map sc_event evs) = sc_node nd :: map sc_node (approxs evs)). now rewrite IH.
  - exact IH.
Qed.

Lemma row_scaled : forall q mv G eps i, room E t -> i < n ->
  length (result_row Rops E K q t mv G (eps * eps)%R i) = nvecs_res E q /\ length (result_row Rops E K q sc_tree mv G (a * eps * (a * eps))%R i) = nvecs_res E q /\
  forall j, j < nvecs_res E q ->
  nth j (result_row Rops E K q sc_tree mv G (a * eps * (a * eps))%R i) 0%R = (sc_unit (dim c) q j * nth j (result_row Rops E K q t mv G (eps * eps)%R i) 0)%R.
Proof.
  intros q mv G eps i Hroom Hi. replace (a * eps * (a * eps))%R with (a * a * (eps * eps))%R by ring.
  set (eps2 := (eps * eps)%R). assert (Heps : (0 <= eps2)%R) by (unfold eps2; nra). assert (Heps' : (0 <= a * a * eps2)%R) by (apply Rmult_le_pos; nra).
  pose proof scaled_inv as Hu. set (u := sc_tree) in *.
  destruct (particles_rows E t _ Ht (part_particles E t t eq_refl eq_refl t Ht)) as [Pt Nt]. destruct (particles_rows E u _ Hu (part_particles E t t eq_refl eq_refl u Hu)) as [Pu Nu].
  change (t_codes u) with (t_codes t) in Pu, Nu. set (pst := map (part (dim c) (t_parts t)) (seq 0 n)) in *. set (psu := map (part (dim c) (t_parts u)) (seq 0 n)) in *.
  assert (PS : psu = map sc_row pst). { unfold psu, pst. rewrite map_map. apply map_ext. intros k. apply part_scale. }
  destruct (crit_of E t i Ht Hi) as (cn & Hcn & Hci & Hce). assert (Hcu : In cn (t_crit u)) by exact Hcn.
  destruct (psize_total E n Hroom (c_end cn - c_begin cn) ltac:(lia)) as [psize Hsz].
  set (pad := pad_coord Rops E (t_box t) mv). set (pad' := pad_coord Rops E (t_box u) mv). assert (HP : pad' = (a * pad)%R) by apply pad_scale.
  destruct (crit_value E K HE HK HX q t pst Ht Pt mv G eps2 pad Heps cn psize Hcn Hsz) as (res & pre & post & nd & Er & _ & N1 & N2 & N3 & N4 & Tr & Ev & _ & _ & V).
  destruct (crit_value E K HE HK HX q u psu Hu Pu mv G (a * a * eps2)%R pad' Heps' cn psize Hcu Hsz) as (res' & pre' & post' & nd' & Er' & _ & _ & _ & _ & _ & Tr' & _ & _ & _ & V').
  assert (X : pre' ++ post' = map sc_event (pre ++ post)).
  { assert (Tr2 : Ok (pre' ++ post') = omap (map sc_event) (Ok (pre ++ post))); [|cbn [omap bind] in Tr2; congruence]. rewrite <- Tr, <- Tr'.
    change (t_nodes u) with (map sc_node (t_nodes t)). rewrite map_length. change (@nil (@event R)) with (map sc_event []) at 1.
    apply traverse_map. intros x _. rewrite <- (accept_scale mv eps2 (a * a * eps2)%R). f_equal. unfold tgt_rows. rewrite PS, map_app. f_equal.
    - unfold slice. now rewrite skipn_map, firstn_map.
    - rewrite HP. assert (Z : forall m, repeat (pad_row Rops E (a * pad)%R) m = map sc_row (repeat (pad_row Rops E pad) m)); [|apply Z].
      assert (Z0 : pad_row Rops E (a * pad)%R = sc_row (pad_row Rops E pad)).
      { unfold pad_row, sc_row. cbn [fst snd fofZ Rops]. f_equal; [|ring]. generalize (dim c). intros d. induction d as [|d IH]; [reflexivity|]. cbn [repeat map]. now rewrite IH. }
      intros m. rewrite Z0. induction m as [|m IH]; [reflexivity|]. cbn [repeat map]. now rewrite IH. }
  destruct (V i Hci) as (r & Hr & Wr & Vr). destruct (V' i Hci) as (r' & Hr' & Wr' & Vr'). rewrite X in Vr'.
  assert (RR : result_row Rops E K q t mv G eps2 i = fst r ++ snd r).
  { unfold result_row. replace i with (c_begin cn + (i - c_begin cn)) by lia.
    apply (row_at_crit Rops E K q t Ht mv G eps2 pad cn res (i - c_begin cn) r); auto. lia. }
  assert (RR' : result_row Rops E K q u mv G (a * a * eps2)%R i = fst r' ++ snd r').
  { unfold result_row. fold pad'. replace i with (c_begin cn + (i - c_begin cn)) by lia.
    apply (row_at_crit Rops E K q u Hu mv G (a * a * eps2)%R pad' cn res' (i - c_begin cn) r'); auto. lia. }
  rewrite RR, RR'. pose proof (shape_length E q r Wr) as L. pose proof (shape_length E q r' Wr') as L'. split; [exact L|]. split; [exact L'|].
  assert (NC : nvecs_res E q = ncomp c q) by (unfold nvecs_res, ncomp; destruct q; cbn; lia).
  intros j Hj. rewrite NC in Hj. change (comp j r' = (sc_unit (dim c) q j * comp j r)%R). rewrite (Vr j Hj), (Vr' j Hj).
  assert (PN : forall k, k < n -> nth k psu (pad_row Rops E 0%R) = sc_row (nth k pst (pad_row Rops E 0%R))).
  { intros k Hk. rewrite (Nu k Hk), (Nt k Hk). apply part_scale. }
  rewrite directs_map, approxs_map, rsum_map. rewrite (PN i Hi).
  assert (D1 : forall l f g, (forall k : nat, In k l -> f k = (sc_unit (dim c) q j * g k)%R) -> rsum f l = (sc_unit (dim c) q j * rsum g l)%R).
  { intros l f g H. rewrite <- rsum_scal. now apply rsum_ext. }
  assert (D2 : forall l f g, (forall k : node (props R), In k l -> f k = (sc_unit (dim c) q j * g k)%R) -> rsum f l = (sc_unit (dim c) q j * rsum g l)%R).
  { intros l f g H. rewrite <- rsum_scal. now apply rsum_ext. }
  match goal with |- (_ * (rsum ?f ?l + rsum ?f2 ?l2))%R = (_ * (_ * (rsum ?g _ + rsum ?g2 ?l3)))%R =>
    enough (S1 : rsum f l = (sc_unit (dim c) q j * rsum g l)%R); [enough (S2 : rsum f2 l2 = (sc_unit (dim c) q j * rsum g2 l3)%R); [rewrite S1, S2; ring|apply D2]|apply D1] end.
  - intros x _. apply (pull_scale (dim c) q eps2 j _ (p_com (n_props x), p_mass (n_props x))).
  - intros k Hk. cbv beta. rewrite PN; [apply pull_scale|].
    apply in_app_or in Hk as [Hk|Hk].
    + apply filter_In in Hk as [Hk _]. apply in_seq in Hk. lia.
    + apply in_flat_map in Hk as (x & Hx & Hk). unfold directs in Hx. apply in_flat_map in Hx as (e & He & Hx). rewrite Forall_forall in Ev. specialize (Ev _ He).
      destruct e as [x'|x']; [destruct Hx|]. destruct Hx as [->|[]]. unfold node_idx in Hk. apply in_seq in Hk.
      destruct (node_payload E t x Ht (proj1 Ev)) as (p & _ & _ & _ & R1 & _ & _). lia.
Qed.

End ScaledTree.

(** * Trees in the two systems of units *)

Section Units.

Context {D : Type}.
Variable OD : fops D.
Variable E : env.
Variable K : platform R.
Hypothesis HE : env_ok E.
Hypothesis HK : benign_shift K.
Hypothesis HX : exact_rsqrt K.
Notation c := (e_cfg E).
Variables t u : @tree R.
Hypothesis Ht : tree_inv Rops E t.
Hypothesis Hu : tree_inv Rops E u.
Variable v : list (list R).
Hypothesis Hvt : view_cols true t = Ok v.
Hypothesis Hvu : view_cols true u = Ok (sc_cols (dim c) v).
Hypothesis Hbox : t_box u = (a * t_box t)%R.
Hypothesis Hmln : t_mln u = t_mln t.
Hypothesis Hncrit : t_ncrit u = t_ncrit t.
Notation n := (length (t_codes t)).

Lemma units_codes : t_codes u = t_codes t.
Proof.
  pose proof (scaled_inv E HE t Ht) as Hs.
  exact (codes_eq E (sc_tree E t) u Hs Hu _ (scaled_view E t Ht v Hvt) Hvu (eq_sym Hbox)).
Qed.

Lemma units_nodes : t_nodes u = map sc_node (t_nodes t) /\ t_crit u = t_crit t.
Proof.
  pose proof (scaled_inv E HE t Ht) as Hs.
  destruct (same_nodes E HE (sc_tree E t) u Hs Hu _ (scaled_view E t Ht v Hvt) Hvu (eq_sym Hbox) (eq_sym Hmln) (eq_sym Hncrit)) as [H1 H2].
  split; symmetry; [exact H1|exact H2].
Qed.

Lemma eps2_scale : forall eps eps2, compute_eps2 Rops eps = Ok eps2 -> compute_eps2 Rops (a * eps)%R = Ok (a * eps * (a * eps))%R.
Proof.
  intros eps eps2 H. destruct (eps2_R eps eps2 H) as [P _]. unfold compute_eps2. cbn [ffin flt fofZ fmul Rops negb orb].
  assert (A : Rltb (a * eps) 0 = false) by (apply Rltb_ge; nra). rewrite A. cbv zeta.
  assert (B : Rltb (a * eps * (a * eps)) 0 = false) by (apply Rltb_ge; nra). rewrite B. reflexivity.
Qed.

Lemma units_forces : forall ord ord' q theta G eps split out o, room E t -> reorders ord -> reorders ord' -> out_ok n (nvecs_res E q) out ->
  acc_pot_dispatch Rops OD E K ord true q t theta G eps split out = Ok o ->
  exists o', acc_pot_dispatch Rops OD E K ord' true q u theta G (a * eps)%R split out = Ok o' /\
    forall j k, j < nvecs_res E q -> k < n -> nth k (nth j o' []) 0%R = (sc_unit (dim c) q j * nth k (nth j o []) 0)%R.
Proof.
  intros ord ord' q theta G eps split out o Hroom Ho Ho' Hout Hrun. pose proof (scaled_inv E HE t Ht) as Hs.
  assert (Hr' : room E (sc_tree E t)) by exact Hroom. assert (Hout' : out_ok (length (t_codes (sc_tree E t))) (nvecs_res E q) out) by exact Hout.
  rewrite <- (same_forces OD E K HE HK HX (sc_tree E t) u Hs Hu _ (scaled_view E t Ht v Hvt) Hvu (eq_sym Hbox) (eq_sym Hmln) (eq_sym Hncrit) ord ord' q theta G (a * eps)%R split out Hr' Ho Ho' Hout').
  destruct (params_dec Rops OD E t theta G eps split) as [(mv & eps2 & Hp)|Hn].
  - assert (Hp' : params Rops OD E (sc_tree E t) theta G (a * eps)%R split mv (a * eps * (a * eps))%R).
    { destruct Hp as (P1 & P2 & P3 & P4 & P5 & _). repeat split; auto. exact (eps2_scale eps eps2 P2). }
    destruct (dispatch_ok Rops OD E K HE HK ord true q t theta G eps split mv eps2 out Ht Hroom Ho Hp Hout) as (o1 & R1 & [L1 _] & V1 & _ & _).
    destruct (dispatch_ok Rops OD E K HE HK ord true q (sc_tree E t) theta G (a * eps)%R split mv _ out Hs Hr' Ho Hp' Hout') as (o2 & R2 & [L2 _] & V2 & _ & _).
    assert (o1 = o) as -> by congruence. exists o2. split; [exact R2|]. intros j k Hj Hk.
    destruct (dst_onto Rops E true t Ht k Hk) as (i & Hi & ->). specialize (V1 j i Hj Hi). specialize (V2 j i Hj Hi).
    change (dst true (sc_tree E t) i) with (dst true t i) in V2.
    destruct Hp as (Hmv & He & _). destruct (eps2_R eps eps2 He) as [_ ->].
    destruct (row_scaled E HE t Ht K HK HX q mv G eps i Hroom Hi) as (A1 & A2 & A3). specialize (A3 j Hj).
    rewrite (nth_error_nth' (result_row _ _ _ _ _ _ _ _ _) 0%R) in V1 by lia. rewrite (nth_error_nth' (result_row _ _ _ _ _ _ _ _ _) 0%R) in V2 by lia.
    rewrite (nth_error_nth _ _ 0%R V1), (nth_error_nth _ _ 0%R V2). exact A3.
  - exfalso. destruct (dispatch_not_params Rops OD E K t theta G eps split Ht Hroom Hn) as (e & _ & H). rewrite H in Hrun. discriminate.
Qed.

End Units.

(** The size of a deduced box has the unit of a length. *)
Lemma units_box : forall E (t u : @tree R) v, env_ok E -> reachable Rops E t -> reachable Rops E u ->
  view_cols true t = Ok v -> view_cols true u = Ok (sc_cols (dim (e_cfg E)) v) -> t_ded t = true -> t_ded u = true -> t_box u = (a * t_box t)%R.
Proof.
  intros E t u v HE Rt Ru Hvt Hvu Dt Du. pose proof (reachable_inv Rops E HE t Rt) as Ht. pose proof (reachable_inv Rops E HE u Ru) as Hu.
  pose proof (scaled_inv E HE t Ht) as Hs. pose proof (scaled_view E t Ht v Hvt) as Hvs.
  destruct (deduced_R E t HE Rt Dt) as (M & -> & A & B). destruct (deduced_R E u HE Ru Du) as (M' & -> & A' & B').
  assert (I : forall col x, In col (firstn (dim (e_cfg E)) (t_parts t)) -> In x col ->
    exists col', In col' (firstn (dim (e_cfg E)) (t_parts (sc_tree E t))) /\ In (a * x)%R col').
  { intros col x Hc Hx. exists (map (Rmult a) col). cbn [sc_tree t_parts]. rewrite (scc_coords E _ (inv_ncols _ _ _ Ht)). split; now apply in_map. }
  assert (J : forall y, (exists col, In col (firstn (dim (e_cfg E)) (t_parts (sc_tree E t))) /\ In y col) ->
    exists col x, In col (firstn (dim (e_cfg E)) (t_parts t)) /\ In x col /\ y = (a * x)%R).
  { intros y (col & Hc & Hy). cbn [sc_tree t_parts] in Hc. rewrite (scc_coords E _ (inv_ncols _ _ _ Ht)) in Hc. apply in_map_iff in Hc as (col0 & <- & Hc).
    apply in_map_iff in Hy as (x & <- & Hx). eauto. }
  assert (Q : forall x, Rabs (a * x) = (a * Rabs x)%R) by (intros x; rewrite Rabs_mult, (Rabs_pos_eq a); lra).
  assert (N : (0 <= M)%R) by (destruct B as [->|(? & ? & _ & _ & <-)]; [lra|apply Rabs_pos]).
  assert (N' : (0 <= M')%R) by (destruct B' as [->|(? & ? & _ & _ & <-)]; [lra|apply Rabs_pos]).
  assert (L1 : (a * M <= M')%R).
  { destruct B as [->|(col & x & Hc & Hx & <-)]; [lra|]. rewrite <- Q.
    destruct (coords_in Rops E _ u _ Hs Hu Hvs Hvu (a * x)%R (I col x Hc Hx)) as (col' & H1 & H2). exact (A' _ _ H1 H2). }
  assert (L2 : (M' <= a * M)%R).
  { destruct B' as [->|(col & y & Hc & Hy & <-)]; [apply Rmult_le_pos; lra|].
    destruct (J y (coords_in Rops E u _ _ Hu Hs Hvu Hvs y ltac:(eauto))) as (col0 & x & H1 & H2 & ->). rewrite Q. apply Rmult_le_compat_l; [lra|]. eauto. }
  assert (M' = (a * M)%R) as -> by lra. ring.
Qed.

(** The constructor accepts the particles in the other units. *)
Lemma units_ctor : forall E s s' bx (cols : list (list R)) mln nc np t, env_ok E -> sched_ok s -> sched_ok s' -> (forall k, s_alloc s k = true) -> (forall k, s_alloc s' k = true) ->
  table E cols np -> (N.of_nat np <= diff_max)%N -> (N.of_nat np * cbitsc (e_cfg E) < 2 ^ 64 - 1)%N -> mln <> Some 0 -> nc <> Some 0 -> (0 < bx)%R ->
  generic_ctor Rops E s (Some bx) (Ranges cols) mln nc = Ok t ->
  exists u, generic_ctor Rops E s' (Some (a * bx)%R) (Ranges (sc_cols (dim (e_cfg E)) cols)) mln nc = Ok u /\
    view_cols true t = Ok cols /\ view_cols true u = Ok (sc_cols (dim (e_cfg E)) cols) /\ t_box u = (a * t_box t)%R /\ t_mln u = t_mln t /\ t_ncrit u = t_ncrit t.
Proof.
  intros E s s' bx cols mln nc np t HE Hs Hs' Hal Hal' Htab Hd Hsz Hm Hn Hbx Hrun. destruct Htab as [T1 T2].
  set (cols' := sc_cols (dim (e_cfg E)) cols).
  assert (T1' : length cols' = dim (e_cfg E) + 1) by (unfold cols'; now rewrite scc_length).
  assert (T2' : Forall (fun col => length col = np) cols') by (now apply scc_Forall).
  assert (CT : exists u, generic_ctor Rops E s' (Some (a * bx)%R) (Ranges cols') mln nc = Ok u).
  { destruct (ctor_R E s (Some bx) (Ranges cols) mln nc np HE Hs Hal (conj (conj T1 T2) I) Hd Hsz Hm Hn) as [H _].
    destruct (ctor_R E s' (Some (a * bx)%R) (Ranges cols') mln nc np HE Hs' Hal' (conj (conj T1' T2') I) Hd Hsz Hm Hn) as [H' _].
    assert (Hbx' : (0 < a * bx)%R) by nra. destruct (H bx eq_refl Hbx) as [[H1 _] _]. destruct (H' _ eq_refl Hbx') as [[_ H2] _].
    specialize (H1 (ex_intro _ t Hrun)). apply H2. cbn [given] in *. intros col y Hc Hy. unfold cols' in Hc. rewrite scc_coords in Hc by exact T1.
    apply in_map_iff in Hc as (col0 & <- & Hc). apply in_map_iff in Hy as (x & <- & Hx). specialize (H1 col0 x Hc Hx). nra. }
  destruct CT as [u Hrun']. exists u. split; [exact Hrun'|].
  destruct (construction Rops E s (Some bx) (Ranges cols) mln nc t Hs T1 Hrun) as (n1 & N1 & _ & _ & _ & _ & _ & _ & _ & V1 & B1).
  destruct (construction Rops E s' (Some (a * bx)%R) (Ranges cols') mln nc u Hs' T1' Hrun') as (n2 & N2 & _ & _ & _ & _ & _ & _ & _ & V2 & B2).
  cbn [given] in *.
  assert (n1 = np) as -> by (destruct cols; [cbn in T1; lia|]; inversion N1; inversion T2; congruence).
  assert (n2 = np) as -> by (destruct cols'; [cbn in T1'; lia|]; inversion N2; inversion T2'; congruence).
  split; [auto|]. split; [auto|]. rewrite (B1 _ eq_refl), (B2 _ eq_refl). split; [reflexivity|].
  destruct (ctor_params Rops E s _ _ _ _ t Hrun) as (P1 & P2 & _). destruct (ctor_params Rops E s' _ _ _ _ u Hrun') as (P3 & P4 & _). split; congruence.
Qed.

End Scale.
