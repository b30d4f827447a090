(** In exact arithmetic the results of the force functions do not depend on the SIMD batch size. *)
From Coq Require Import List Arith NArith ZArith Lia Bool Reals Lra Permutation.
From Verif Require Import Base Config Morton Build TreeSpec FOps FOpsProofs Disc NodeProps Tree TreeInv TreeProofs TreeSafe Kernels Force
  TravProofs KernLoops RSum NodeGeom NodesR BoxInv SelfSum KernR ForceGen ForceOut ForceR ForceTop ForceRTop ForceMore SimdTree.
Import ListNotations.
Local Open Scope nat_scope.

(** The traversal depends on the acceptance of the nodes of the tree, and on the shifts. *)
Lemma traverse_ext : forall c (K K' : platform R) (acc acc' : node (props R) -> bool) nodes code, k_ovs K = k_ovs K' ->
  (forall a, In a nodes -> acc a = acc' a) -> forall fuel i s,
  traverse c K (ev_check acc) nodes code fuel i s = traverse c K' (ev_check acc') nodes code fuel i s.
Proof.
  intros c K K' acc acc' nodes code HK H fuel. induction fuel as [|fuel IH]; intros i s; cbn [traverse]; destruct (length nodes <=? i); try reflexivity.
  unfold rd. destruct (nth_error nodes i) as [src|] eqn:Es; [|reflexivity]. cbn [bind]. cbv zeta. unfold shifted_code. rewrite HK.
  match goal with |- bind ?x _ = bind ?x _ => destruct x as [z| |] end; try reflexivity. cbn [bind]. destruct (_ =? _)%N; [apply IH|].
  unfold ev_check at 1 3. rewrite <- (H src) by (eapply nth_error_In; eauto). cbn [bind]. apply IH.
Qed.

Lemma nth_repeat_lt0 : forall {A} (x d : A) n j, j < n -> nth j (repeat x n) d = x.
Proof. intros A x d n. induction n as [|n IH]; intros j H; [lia|]. destruct j as [|j]; [reflexivity|]. cbn. apply IH. lia. Qed.

Lemma sq_mono : forall a b, (0 <= a -> a < b -> a * a < b * b)%R.
Proof. intros. nra. Qed.

Section Padding.

Variable E : env.
Hypothesis HE : env_ok E.

Notation c := (e_cfg E).

(** The padding coordinate, in terms of the opening angle. *)
Lemma pad_R : forall box theta, (0 < theta)%R ->
  pad_coord Rops E box (match e_mac E with Bh => (1 / (theta * theta))%R | BhGeom => (1 / theta)%R end) =
  match e_mac E with
  | Bh => (2 * (box / (theta * sqrt (INR (dim c)))) + box)%R
  | BhGeom => (2 * (box / (theta * sqrt (INR (dim c)))) + 2 * box)%R
  end.
Proof.
  intros box theta Ht. unfold pad_coord. cbn [fofZ fadd fmul fdiv fsqrt Rops]. rewrite <- INR_IZR_INZ.
  assert (Hd : (0 < sqrt (INR (dim c)))%R) by (apply sqrt_lt_R0, lt_0_INR; destruct (dim_pos c); lia).
  destruct (e_mac E).
  - replace (1 / (1 / (theta * theta)))%R with (theta * theta)%R by (field; lra). rewrite sqrt_square by lra. field. split; lra.
  - field. split; lra.
Qed.

Lemma sep2_ge : forall x y g, (0 <= g)%R -> length x = length y -> (forall j, j < length x -> (g <= nth j y 0 - nth j x 0)%R) ->
  (INR (length x) * (g * g) <= sep2 x y)%R.
Proof.
  intros x y g Hg. unfold sep2. revert y. induction x as [|a x IH]; intros [|b y] L H; try discriminate.
  - cbn. lra.
  - cbn [combine]. rewrite rsum_cons. change (length (a :: x)) with (S (length x)). rewrite S_INR.
    assert (H0 := H 0 ltac:(cbn; lia)). cbn [nth] in H0.
    specialize (IH y ltac:(cbn in L; lia)). assert (IH' : (INR (length x) * (g * g) <= rsum (fun '(x0, y0) => (x0 - y0) * (x0 - y0)) (combine x y))%R).
    { apply IH. intros j Hj. apply (H (S j)). cbn. lia. }
    nra.
Qed.

(** A padding lane always passes the acceptance test. *)
Lemma pad_passes : forall t P theta a, reachable Rops E t -> particles_of t P -> masses_nonneg t P -> (0 < t_box t)%R -> (0 < theta)%R -> In a (t_nodes t) ->
  let mv := match e_mac E with Bh => (1 / (theta * theta))%R | BhGeom => (1 / theta)%R end in
  (mac_lh Rops (n_props a) mv < sep2 (p_com (n_props a)) (repeat (pad_coord Rops E (t_box t) mv) (dim c)))%R.
Proof.
  intros t P theta a Hreach HP HM Hb Hth Ha mv.
  destruct (node_geometry E HE t P a Hreach HP HM Hb Ha) as (q & Lq & Fq & _ & _ & Hcom & _).
  destruct (node_cells E t a HE Hreach Ha Hb) as (mcol & q' & Hm & Lq' & Fq' & Hcen & _ & Hin & Hmac).
  pose proof (cell_length _ _ _ _ Hcom) as Lc.
  set (box := t_box t) in *. set (s := (box / pow2R (n_level a))%R).
  assert (P1 : (1 <= pow2R (n_level a))%R).
  { unfold pow2R, IZRN. apply IZR_le. assert (2 ^ n_level a <> 0)%N by (apply N.pow_nonzero; lia). lia. }
  assert (Hs : (0 < s <= box)%R).
  { unfold s. split; [apply Rdiv_lt_0_compat; lra|]. apply Rmult_le_reg_r with (r := pow2R (n_level a)); [lra|]. unfold Rdiv. rewrite Rmult_assoc, Rinv_l by lra. nra. }
  assert (Dp : (1 <= INR (dim c))%R). { change 1%R with (INR 1). apply le_INR. pose proof (dim_pos c). lia. }
  assert (Hsd : (1 <= sqrt (INR (dim c)))%R) by (rewrite <- sqrt_1; apply sqrt_le_1_alt; exact Dp).
  pose proof (sqrt_sqrt (INR (dim c)) ltac:(lra)) as SS. unfold mv. rewrite pad_R by exact Hth. set (sd := sqrt (INR (dim c))) in *.
  set (u := (box / (theta * sd))%R).
  assert (Hu : (0 < u)%R) by (unfold u; apply Rdiv_lt_0_compat; nra).
  assert (Us : (u * sd = box / theta)%R) by (unfold u; field; split; lra).
  set (pad := match e_mac E with Bh => (2 * u + box)%R | BhGeom => (2 * u + 2 * box)%R end).
  set (g := match e_mac E with Bh => (2 * u + box / 2)%R | BhGeom => (2 * u + 3 * (box / 2))%R end).
  assert (Hg : (0 <= g)%R) by (unfold g; destruct (e_mac E); lra).
  assert (SE : (INR (dim c) * (g * g) <= sep2 (p_com (n_props a)) (repeat pad (dim c)))%R).
  { replace (INR (dim c)) with (INR (length (p_com (n_props a)))) by (now rewrite Lc, Lq).
    apply sep2_ge; [exact Hg|rewrite repeat_length; lia|]. intros j Hj.
    pose proof (cell_box box _ q _ j Hb Hcom Fq ltac:(lia)) as [_ CB].
    rewrite nth_repeat_lt0 by lia. unfold pad, g. fold u. destruct (e_mac E); lra. }
  eapply Rlt_le_trans; [|exact SE]. rewrite <- SS. unfold mac_lh. rewrite Hmac. fold s. cbv zeta.
  assert (Gs : (sd * sd * (g * g) = (g * sd) * (g * sd))%R) by ring. rewrite Gs.
  assert (Bt : (0 < box / theta)%R) by (now apply Rdiv_lt_0_compat).
  unfold g in *. clear Gs SE pad. destruct (e_mac E).
  - cbn [fmul Rops]. replace (s * s * (1 / (theta * theta)))%R with ((s / theta) * (s / theta))%R by (field; lra).
    assert (A : (s / theta <= box / theta)%R) by (apply Rmult_le_compat_r; [left; now apply Rinv_0_lt_compat|lra]).
    assert (A0 : (0 < s / theta)%R) by (apply Rdiv_lt_0_compat; lra).
    replace ((2 * u + box / 2) * sd)%R with (2 * (box / theta) + box / 2 * sd)%R by (rewrite <- Us; ring).
    assert (X : (0 <= box / 2 * sd)%R) by (apply Rmult_le_pos; lra). apply sq_mono; lra.
  - cbn [fmul ffma Rops].
    assert (Hin' : in_cell box (n_level a) q' (p_com (n_props a))).
    { apply Hin. intros i Hi. pose proof (reachable_inv Rops E HE t Hreach) as Ht.
      destruct (node_code_shape Rops E t a Ht Ha) as (_ & _ & _ & _ & Hr).
      specialize (HP i ltac:(lia)). specialize (HM i ltac:(lia)). destruct (P i) as [x m]. cbn [fst snd] in *.
      destruct (row_parts E t i x m Ht HP) as (_ & _ & mcol' & Hm1 & Hm2). assert (mcol' = mcol) by congruence. subst mcol'.
      now rewrite (nth_error_nth _ _ 0%R Hm2). }
    assert (Hd : (distance (p_com (n_props a)) (cell_centre box (n_level a) q') <= sd * s)%R).
    { unfold sd. rewrite <- Lq'. apply cell_diam; [exact Hb|exact Hin'|]. now apply cell_centre_in. }
    set (dl := distance _ _) in *. assert (Hdl : (0 <= dl)%R) by apply sqrt_pos.
    replace (s * (1 / theta))%R with (s / theta)%R by (field; lra).
    assert (A : (s / theta <= box / theta)%R) by (apply Rmult_le_compat_r; [left; now apply Rinv_0_lt_compat|lra]).
    assert (A0 : (0 < s / theta)%R) by (apply Rdiv_lt_0_compat; lra).
    replace ((2 * u + 3 * (box / 2)) * sd)%R with (2 * (box / theta) + 3 * (box / 2) * sd)%R by (rewrite <- Us; ring).
    assert (Y : (sd * s <= sd * box)%R) by (apply Rmult_le_compat_l; lra).
    assert (Y0 : (0 < sd * box)%R) by (apply Rmult_lt_0_compat; lra).
    assert (X : (s / theta + dl < 2 * (box / theta) + 3 * (box / 2) * sd)%R) by lra. apply sq_mono; lra.
Qed.

Variable K : platform R.

(** The acceptance of a node depends on the particles of the target only. *)
Lemma accept_real : forall t P theta eps2 cn psize a ps, reachable Rops E t -> particles_of t P -> masses_nonneg t P -> (0 < t_box t)%R -> (0 < theta)%R ->
  In a (t_nodes t) -> c_begin cn <= c_end cn <= length ps -> c_end cn - c_begin cn <= psize ->
  let mv := match e_mac E with Bh => (1 / (theta * theta))%R | BhGeom => (1 / theta)%R end in
  accept Rops c (e_simd E) K mv eps2 (c_end cn - c_begin cn) (tgt_rows Rops E ps (pad_coord Rops E (t_box t) mv) cn psize) a =
  negb (existsb (fun p => Rleb (sep2 (p_com (n_props a)) (fst p)) (mac_lh Rops (n_props a) mv)) (slice ps (c_begin cn) (c_end cn))).
Proof.
  intros t P theta eps2 cn psize a ps Hreach HP HM Hb Hth Ha Hc Hsz mv. unfold accept, passes, tgt_rows.
  pose proof (covered_bounds (batch c (e_simd E)) (c_end cn - c_begin cn) (batch_pos c (e_simd E) (simd_pos E HE))) as [C1 _].
  rewrite firstn_app, firstn_all2 by (rewrite slice_length; lia). rewrite existsb_app.
  set (f := fun p : prow => fle Rops _ _).
  assert (X : forall p, f p = Rleb (sep2 (p_com (n_props a)) (fst p)) (mac_lh Rops (n_props a) mv)).
  { intros p. unfold f, mac_lane. cbv zeta. cbn [fst fle Rops]. now rewrite mac_dist2_R. }
  assert (Y : forall k l, existsb f (firstn k (repeat (pad_row Rops E (pad_coord Rops E (t_box t) mv)) l)) = false).
  { intros k l. apply not_true_iff_false. intros H. apply existsb_exists in H as (p & Hp & H). apply firstn_In, repeat_spec in Hp. subst p.
    rewrite X in H. unfold pad_row in H. cbn [fst] in H. apply Rleb_le in H.
    pose proof (pad_passes t P theta a Hreach HP HM Hb Hth Ha) as Q. cbv zeta in Q. fold mv in Q. lra. }
  rewrite Y, orb_false_r. f_equal. clear Y. induction (slice ps (c_begin cn) (c_end cn)) as [|p l IH]; [reflexivity|]. cbn [existsb]. now rewrite X, IH.
Qed.

End Padding.

Section Agree.

Context {D : Type}.
Variable OD : fops D.
Variables (E : env) (simd : option nat) (plan : list (nat * nat)) (K K' : platform R).
Hypothesis HE : env_ok E.
Hypothesis Hs : forall bw, simd = Some bw -> 0 < bw.
Hypothesis HK : benign_shift K.
Hypothesis HX : exact_rsqrt K.
Hypothesis HX' : exact_rsqrt K'.
Hypothesis HKK : k_ovs K = k_ovs K'.

Notation E' := (with_simd E simd plan).
Notation c := (e_cfg E).

Lemma HE' : env_ok E'.
Proof. split; [exact (proj1 HE)|exact Hs]. Qed.

Lemma HK' : benign_shift K'.
Proof. intros x s. rewrite <- HKK. apply HK. Qed.

Lemma reach_simd : forall t, reachable Rops E t -> reachable Rops E' t.
Proof.
  intros t (ops & w & H1 & H2 & H3). exists ops, w. split; [exact H1|]. split; [|exact H3].
  rewrite (run_simd E simd plan Hs (proj2 HE)). exact H2.
Qed.

Lemma row_simd : forall t P theta mv q G eps i, reachable Rops E t -> room E t -> room E' t -> particles_of t P -> masses_nonneg t P -> (0 < t_box t)%R ->
  mac_value_of Rops E theta = Ok mv -> i < length (t_codes t) ->
  result_row Rops E K q t mv G (eps * eps)%R i = result_row Rops E' K' q t mv G (eps * eps)%R i.
Proof.
  intros t P theta mv q G eps i Hreach Hroom Hroom' HP HM Hb Hmv Hi. set (eps2 := (eps * eps)%R).
  assert (Heps : (0 <= eps2)%R) by (unfold eps2; nra).
  pose proof (reachable_inv Rops E HE t Hreach) as Ht. pose proof (reach_simd t Hreach) as Hreach'. pose proof (reachable_inv Rops E' HE' t Hreach') as Ht'.
  destruct (particles_rows E t P Ht HP) as [Hps HPs]. set (ps := map P (seq 0 (length (t_codes t)))) in *.
  assert (Hps' : rows_of E' t ps) by exact Hps.
  destruct (crit_of E t i Ht Hi) as (cn & Hcn & Hci & Hce).
  destruct (psize_total E (length (t_codes t)) Hroom (c_end cn - c_begin cn) ltac:(lia)) as [psize Hsz].
  destruct (psize_total E' (length (t_codes t)) Hroom' (c_end cn - c_begin cn) ltac:(lia)) as [psize' Hsz'].
  set (pad := pad_coord Rops E (t_box t) mv).
  destruct (crit_value E K HE HK HX q t ps Ht Hps mv G eps2 pad Heps cn psize Hcn Hsz) as (res & pre & post & nd & Er & _ & _ & _ & _ & _ & Tr & _ & _ & _ & V).
  destruct (crit_value E' K' HE' HK' HX' q t ps Ht' Hps' mv G eps2 pad Heps cn psize' Hcn Hsz') as (res' & pre' & post' & nd' & Er' & _ & _ & _ & _ & _ & Tr' & _ & _ & _ & V').
  destruct (mac_value_R E _ _ Hmv) as [Hth Emv].
  assert (Lps : length ps = length (t_codes t)) by (unfold ps; now rewrite map_length, seq_length).
  assert (X : pre ++ post = pre' ++ post').
  { assert (Tr2 : Ok (pre ++ post) = Ok (pre' ++ post')); [|congruence]. rewrite <- Tr, <- Tr'.
    apply (traverse_ext c K K' _ _ _ _ HKK). intros a Ha. unfold pad. rewrite Emv.
    destruct (psize_ok E HE _ _ Hsz) as (_ & Z2 & _). destruct (psize_ok E' HE' _ _ Hsz') as (_ & Z2' & _).
    rewrite (accept_real E HE K t P theta eps2 cn psize a ps Hreach HP HM Hb Hth Ha) by lia.
    symmetry. apply (accept_real E' HE' K' t P theta eps2 cn psize' a ps Hreach' HP HM Hb Hth Ha); lia. }
  destruct (V i Hci) as (r & Hr & Wr & Vr). destruct (V' i Hci) as (r' & Hr' & Wr' & Vr'). rewrite <- X in Vr'.
  assert (RR : result_row Rops E K q t mv G eps2 i = fst r ++ snd r).
  { unfold result_row. replace i with (c_begin cn + (i - c_begin cn)) by lia.
    apply (row_at_crit Rops E K q t Ht mv G eps2 pad cn res (i - c_begin cn) r); auto. lia. }
  assert (RR' : result_row Rops E' K' q t mv G eps2 i = fst r' ++ snd r').
  { unfold result_row. replace i with (c_begin cn + (i - c_begin cn)) by lia.
    apply (row_at_crit Rops E' K' q t Ht' mv G eps2 pad cn res' (i - c_begin cn) r'); auto. lia. }
  rewrite RR, RR'. pose proof (shape_length E q r Wr) as L. pose proof (shape_length E' q r' Wr') as L'.
  assert (NC : nvecs_res E q = ncomp c q) by (unfold nvecs_res, ncomp; destruct q; cbn; lia).
  apply nth_ext with (d := 0%R) (d' := 0%R); [rewrite L, L'; reflexivity|]. intros j Hj. rewrite L, NC in Hj.
  change (comp j r = comp j r'). rewrite (Vr j Hj). symmetry. exact (Vr' j Hj).
Qed.

(** Every call gives the same results and fails in the same cases. *)
Theorem dispatch_simd : forall ord ord' ordered q t P theta G eps split out, reachable Rops E t -> room E t -> room E' t ->
  reorders ord -> reorders ord' -> particles_of t P -> masses_nonneg t P -> (t_codes t <> [] -> (0 < t_box t)%R) ->
  out_ok (length (t_codes t)) (nvecs_res E q) out ->
  acc_pot_dispatch Rops OD E K ord ordered q t theta G eps split out =
  acc_pot_dispatch Rops OD E' K' ord' ordered q t theta G eps split out.
Proof.
  intros ord ord' ordered q t P theta G eps split out Hreach Hroom Hroom' Ho Ho' HP HM Hb Hout.
  pose proof (reachable_inv Rops E HE t Hreach) as Ht. pose proof (reach_simd t Hreach) as Hreach'. pose proof (reachable_inv Rops E' HE' t Hreach') as Ht'.
  destruct (params_dec Rops OD E t theta G eps split) as [(mv & eps2 & Hp)|Hn].
  - assert (Hp' : params Rops OD E' t theta G eps split mv eps2) by exact Hp.
    destruct (dispatch_ok Rops OD E K HE HK ord ordered q t theta G eps split mv eps2 out Ht Hroom Ho Hp Hout) as (o1 & -> & [L1 _] & V1 & U1 & _).
    destruct (dispatch_ok Rops OD E' K' HE' HK' ord' ordered q t theta G eps split mv eps2 out Ht' Hroom' Ho' Hp' Hout) as (o2 & -> & [L2 _] & V2 & U2 & _).
    f_equal. apply nth_ext with (d := []) (d' := []); [rewrite L1, L2; reflexivity|]. intros j Hj. rewrite L1 in Hj. apply list_ext. intros k.
    destruct (Nat.lt_ge_cases k (length (t_codes t))) as [L|L].
    + destruct (dst_onto Rops E ordered t Ht k L) as (i & Hi & ->). rewrite V1 by assumption. symmetry. etransitivity; [exact (V2 j i Hj Hi)|]. symmetry.
      destruct Hp as (Hmv & He & _). destruct (eps2_R eps eps2 He) as [_ ->]. f_equal. apply (row_simd t P theta mv); auto.
      apply Hb. intros Z. rewrite Z in Hi. cbn in Hi. lia.
    + now rewrite U1, U2.
  - destruct (dispatch_not_params Rops OD E K t theta G eps split Ht Hroom Hn) as (e & _ & H).
    destruct (dispatch_not_params Rops OD E' K' t theta G eps split Ht' Hroom' Hn) as (e' & _ & H').
    (* the failing check does not depend on the batch size *)
    rewrite H, H'. specialize (H ord false q out). specialize (H' ord' false q out). f_equal.
    unfold acc_pot_dispatch in H, H'. change (mac_value_of Rops E' theta) with (mac_value_of Rops E theta) in H'.
    destruct (mac_value_of Rops E theta) as [mv| |] eqn:M1; cbn [bind] in H, H'; [|congruence|congruence].
    destruct (compute_eps2 Rops eps) as [eps2| |] eqn:M2; cbn [bind] in H, H'; [|congruence|congruence].
    destruct (check_G_const Rops G) as [[]| |] eqn:M3; cbn [bind] in H, H'; [|congruence|congruence].
    unfold acc_pot_impl in H, H'. destruct (check_split OD split) as [[]| |] eqn:M4; cbn [bind] in H, H'; [|congruence|congruence].
    destruct (Nat.ltb_spec 1 (length split)); [congruence|]. exfalso. apply (Hn mv eps2). repeat split; auto.
Qed.

End Agree.
