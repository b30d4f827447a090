(** Consequences in exact arithmetic: exact sums, small opening angles, momentum, linearity in G and error bounds. *)
From Coq Require Import List Arith NArith ZArith Lia Bool Reals Lra Permutation.
From Verif Require Import Base Config Morton Build TreeSpec FOps FOpsProofs Disc NodeProps Tree TreeInv TreeProofs TreeSafe Kernels Force
  TravProofs KernLoops RSum NodeGeom NodesR SelfSum KernR ForceGen ForceOut ForceR ForceTop ForceRTop Geometry.
Import ListNotations.
Local Open Scope nat_scope.

Section More.

Context {D : Type}.
Variable OD : fops D.
Variable E : env.
Variable K : platform R.
Hypothesis HE : env_ok E.
Hypothesis HK : benign_shift K.
Hypothesis HX : exact_rsqrt K.
Notation c := (e_cfg E).

(** The direct sum over all the other particles. *)
Definition direct (q : quant) (eps : R) (P : nat -> @prow R) (n i j : nat) : R :=
  rsum (fun k => pull (dim c) q (eps * eps) j (P i) (P k)) (others 0 n i).

(* ---- exact_acc_pot ---- *)

Lemma particle_P : forall t P i, tree_inv Rops E t -> particles_of t P -> i < length (t_codes t) ->
  particle c (t_parts t) i = Ok (P i) /\ length (fst (P i)) = dim c.
Proof.
  intros t P i Ht HP Hi. specialize (HP i Hi). destruct (P i) as [x m]. cbn [fst snd] in *.
  destruct (row_parts E t i x m Ht HP) as (L & Hx & mcol & Hm1 & Hm2). split; [|exact L]. unfold particle.
  assert (M : mapM (fun col => rd col i) (firstn (dim c) (t_parts t)) = Ok x).
  { clear - Hx. unfold row in Hx. induction Hx as [|col y cols x Hc H IH]; [reflexivity|]. cbn [mapM]. unfold rd at 1. rewrite Hc. cbn [bind]. now rewrite IH. }
  rewrite M. cbn [bind]. unfold rd. rewrite Hm1. cbn [bind]. now rewrite Hm2.
Qed.

Lemma exact_step_R : forall q t P G eps2 idx r k, tree_inv Rops E t -> particles_of t P -> (0 <= eps2)%R ->
  idx < length (t_codes t) -> k < length (t_codes t) -> wfr c q r ->
  exists r', exact_step Rops E G eps2 (t_parts t) idx r k = Ok r' /\
    adds c q r r' (fun j => if k =? idx then 0 else G * pull (dim c) q eps2 j (P idx) (P k))%R.
Proof.
  intros q t P G eps2 idx r k Ht HP He Hi Hk W. unfold exact_step. destruct (Nat.eqb_spec k idx) as [->|N].
  { exists r. split; [reflexivity|]. split; [exact W|]. intros; lra. }
  destruct (particle_P t P k Ht HP Hk) as [-> W2]. destruct (particle_P t P idx Ht HP Hi) as [-> W1]. cbn [bind].
  eexists. split; [reflexivity|]. cbv zeta. rewrite dist2_s_R.
  pose proof (T_acc c q eps2 (P idx) (P k) W1 W2) as TA. pose proof (T_pot c q eps2 (P idx) (P k)) as TP.
  pose proof (Lds c (P idx) (P k) W1 W2) as LD.
  set (ds := diffs Rops (fst (P k)) (fst (P idx))) in *. set (D0 := sqrt (sep2 (fst (P k)) (fst (P idx)) + eps2)) in *.
  cbn [fdiv fsqrt fmul fofZ ffma fopp Rops]. fold D0.
  assert (LA : forall j, j < length (fst r) -> length ds = length (fst r)) by (intros j Hj; destruct (wfr_acc c q r j W Hj); lia).
  apply upd_row; [exact W| | | |].
  - unfold axpy. rewrite map_length, combine_length. destruct W as [Wa _]. destruct (has_acc q); lia.
  - now rewrite map_length.
  - intros j Hj Ha. rewrite axpy_nth by (now apply (LA j)). rewrite TA by exact Ha. rewrite !Rinv_mult. unfold Rdiv. change (IZR 1) with 1%R. ring.
  - intros j Hj Ha L1. rewrite map1 by exact L1. rewrite TP by exact Ha. unfold Rdiv. change (IZR 1) with 1%R. ring.
Qed.

Lemma exact_fold : forall q t P G eps2 idx l r, tree_inv Rops E t -> particles_of t P -> (0 <= eps2)%R ->
  idx < length (t_codes t) -> (forall k, In k l -> k < length (t_codes t)) -> wfr c q r ->
  exists r', foldM (exact_step Rops E G eps2 (t_parts t) idx) l r = Ok r' /\
    adds c q r r' (fun j => G * rsum (fun k => pull (dim c) q eps2 j (P idx) (P k)) (filter (fun k => negb (k =? idx)) l))%R.
Proof.
  intros q t P G eps2 idx l r Ht HP He Hi. revert r. induction l as [|k l IH]; intros r Hl W.
  - exists r. split; [reflexivity|]. split; [exact W|]. intros j _. cbn [filter]. rewrite rsum_nil. lra.
  - destruct (exact_step_R q t P G eps2 idx r k Ht HP He Hi (Hl k (or_introl eq_refl)) W) as (r1 & E1 & W1 & V1).
    destruct (IH r1) as (r2 & E2 & W2 & V2); [intros; apply Hl; now right|exact W1|].
    exists r2. split; [cbn [foldM]; rewrite E1; exact E2|]. split; [exact W2|]. intros j Hj. rewrite V2, V1 by exact Hj.
    cbn [filter]. destruct (k =? idx); cbn [negb]; [lra|]. rewrite rsum_cons. lra.
Qed.

(** The exact computation gives the direct sum; particles are designated as the call says. *)
Lemma exact_R : forall ordered q t P G eps i, reachable Rops E t -> particles_of t P -> (0 <= eps)%R -> i < length (t_codes t) ->
  exists row, exact_acc_pot Rops E ordered q t (dst ordered t i) G eps = Ok row /\ length row = nvecs_res E q /\
    forall j, j < nvecs_res E q -> nth_error row j = Some (G * direct q eps P (length (t_codes t)) i j)%R.
Proof.
  intros ordered q t P G eps i Hreach HP He Hi. pose proof (reachable_inv Rops E HE t Hreach) as Ht.
  unfold exact_acc_pot.
  assert (C : compute_eps2 Rops eps = Ok (eps * eps)%R).
  { unfold compute_eps2. cbn [flt ffin fmul fofZ Rops]. unfold Rltb. destruct (Rlt_dec eps 0); [lra|]. cbn [negb orb]. destruct (Rlt_dec (eps * eps) 0); [nra|]. reflexivity. }
  rewrite C. cbn [bind]. unfold check_G_const. cbn [ffin Rops negb bind].
  assert (I : (if ordered then rd (t_inv t) (dst ordered t i) else Ok (dst ordered t i)) = Ok i).
  { destruct ordered; [|reflexivity]. unfold dst.
    destruct (inv_inv _ _ _ Ht) as [_ IV]. pose proof (inv_perm _ _ _ Ht) as PP. pose proof (Permutation_length PP) as L. rewrite seq_length in L.
    unfold rd. rewrite (IV i); [reflexivity|]. apply nth_error_nth'. lia. }
  rewrite I. cbn [bind]. destruct (row0_R c q) as [W0 Z0].
  destruct (exact_fold q t P G (eps * eps)%R i (seq 0 (nparts t)) (row0 Rops c q) Ht HP ltac:(nra) Hi) as (r & E1 & W & V).
  - intros k Hk. rewrite (nparts_codes Rops E t Ht) in Hk. apply in_seq in Hk. lia.
  - exact W0.
  - rewrite E1. cbn [bind]. exists (fst r ++ snd r). split; [reflexivity|]. pose proof (shape_length E q r W) as L. split; [exact L|].
    intros j Hj. rewrite nth_error_nth' with (d := 0%R) by lia. f_equal. change (comp j r = G * direct q eps P (length (t_codes t)) i j)%R.
    rewrite V, Z0 by (unfold ncomp, nvecs_res in *; destruct q; cbn in *; lia). unfold direct, others. rewrite (nparts_codes Rops E t Ht), Nat.sub_0_r. lra.
Qed.

(* ---- the sources and the direct sum ---- *)

Lemma sources_sum : forall t theta P cn A Dl i (f : nat -> R), sources E t theta P cn A Dl -> c_begin cn <= i < c_end cn -> c_end cn <= length (t_codes t) ->
  (rsum f (others (c_begin cn) (c_end cn) i ++ Dl) + rsum (fun a => rsum f (node_idx a)) A = rsum f (others 0 (length (t_codes t)) i))%R.
Proof.
  intros t theta P cn A Dl i f [S _] Hi Hn. apply rsum_perm with (f := f) in S. rewrite !rsum_app, rsum_flat_map in S. rewrite rsum_app.
  pose proof (filter_out (c_begin cn) (c_end cn - c_begin cn) (i - c_begin cn) ltac:(lia)) as F1.
  pose proof (filter_out 0 (length (t_codes t)) i ltac:(lia)) as F2. replace (c_begin cn + (i - c_begin cn)) with i in F1 by lia. rewrite Nat.add_0_l in F2.
  apply rsum_perm with (f := f) in F1, F2. rewrite rsum_cons in F1, F2. unfold others. rewrite Nat.sub_0_r. lra.
Qed.

Lemma bh_minus_direct : forall q t theta P eps cn A Dl i j, sources E t theta P cn A Dl -> c_begin cn <= i < c_end cn -> c_end cn <= length (t_codes t) ->
  (bh_sum E q eps P i (others (c_begin cn) (c_end cn) i ++ Dl) A j - direct q eps P (length (t_codes t)) i j =
   rsum (fun a => pull (dim c) q (eps * eps) j (P i) (p_com (n_props a), p_mass (n_props a)) - rsum (fun k => pull (dim c) q (eps * eps) j (P i) (P k)) (node_idx a)) A)%R.
Proof.
  intros q t theta P eps cn A Dl i j S Hi Hn. unfold bh_sum, direct.
  rewrite <- (sources_sum t theta P cn A Dl i (fun k => pull (dim c) q (eps * eps) j (P i) (P k)) S Hi Hn). rewrite rsum_minus. lra.
Qed.

(** No node is accepted: the sums are direct. *)
Definition none_separated (t : @tree R) (theta : R) (P : nat -> @prow R) : Prop :=
  forall a i, In a (t_nodes t) -> i < length (t_codes t) -> ~ separated E t theta a (fst (P i)).

Lemma none_direct : forall q t theta P eps cn A Dl i j, none_separated t theta P -> sources E t theta P cn A Dl ->
  c_begin cn <= i < c_end cn -> c_end cn <= length (t_codes t) ->
  bh_sum E q eps P i (others (c_begin cn) (c_end cn) i ++ Dl) A j = direct q eps P (length (t_codes t)) i j.
Proof.
  intros q t theta P eps cn A Dl i j N S Hi Hn. pose proof (bh_minus_direct q t theta P eps cn A Dl i j S Hi Hn) as H.
  assert (A = []) as ->; [|rewrite rsum_nil in H; lra].
  destruct A as [|a A]; [reflexivity|]. exfalso. destruct S as [_ S]. destruct (S a (or_introl eq_refl)) as (Ha & _ & Hs & _).
  apply (N a i Ha); [lia|]. now apply Hs.
Qed.

Lemma crit_of : forall (t : @tree R) i, tree_inv Rops E t -> i < length (t_codes t) -> exists cn, In cn (t_crit t) /\ c_begin cn <= i < c_end cn /\ c_end cn <= length (t_codes t).
Proof.
  intros t i Ht Hi. destruct (tiles_find _ _ _ _ i (crit_tiles Rops E t Ht) ltac:(lia)) as (cn & Hcn & Hb).
  exists cn. cbn [fst snd] in Hb. split; [exact Hcn|]. split; [exact Hb|]. destruct (crit_node Rops E t cn Ht Hcn) as (_ & _ & _ & _ & _ & N5). lia.
Qed.

(** C26. *)
Lemma dispatch_direct : forall ord ordered q t P theta G eps split out, reachable Rops E t -> room E t -> reorders ord -> particles_of t P ->
  (0 < theta)%R -> (0 <= eps)%R -> check_split OD split = Ok tt -> length split <= 1 ->
  out_ok (length (t_codes t)) (nvecs_res E q) out -> none_separated t theta P ->
  exists out', acc_pot_dispatch Rops OD E K ord ordered q t theta G eps split out = Ok out' /\
    out_ok (length (t_codes t)) (nvecs_res E q) out' /\
    forall i j, i < length (t_codes t) -> j < nvecs_res E q ->
        nth_error (nth j out' []) (dst ordered t i) = Some (G * direct q eps P (length (t_codes t)) i j)%R.
Proof.
  intros ord ordered q t P theta G eps split out Hreach Hroom Hord HP Hth Heps Hs1 Hs2 Ho N.
  pose proof (reachable_inv Rops E HE t Hreach) as Ht.
  destruct (dispatch_R OD E K HE HK HX ord ordered q t P theta G eps split out Hreach Hroom Hord HP Hth Heps Hs1 Hs2 Ho) as (out' & E1 & O1 & V).
  exists out'. split; [exact E1|]. split; [exact O1|]. intros i j Hi Hj.
  destruct (crit_of t i Ht Hi) as (cn & Hcn & Hb & He). destruct (V cn Hcn) as (A & Dl & S & R). rewrite R by assumption.
  now rewrite (none_direct q t theta P eps cn A Dl i j N S Hb He).
Qed.

(* ---- geometry of the nodes ---- *)

Definition masses_nonneg (t : @tree R) (P : nat -> @prow R) : Prop := forall i, i < length (t_codes t) -> (0 <= snd (P i))%R.

Lemma node_geometry : forall t P a, reachable Rops E t -> particles_of t P -> masses_nonneg t P -> (0 < t_box t)%R -> In a (t_nodes t) ->
  exists q, length q = dim c /\ Forall (fun k => (k < 2 ^ n_level a)%N) q /\ (n_level a <= cbitsc c)%N /\
    n_begin a < n_end a <= length (t_codes t) /\ in_cell (t_box t) (n_level a) q (p_com (n_props a)) /\
    forall k, n_begin a <= k < n_end a -> in_cell (t_box t) (n_level a) q (fst (P k)).
Proof.
  intros t P a Hreach HP HM Hb Ha. pose proof (reachable_inv Rops E HE t Hreach) as Ht.
  destruct (node_cells E t a HE Hreach Ha Hb) as (mcol & q & Hm & Lq & Fq & _ & Hc & Hcom & _).
  destruct (node_facts E t a HE Ht Ha) as (_ & _ & _ & _ & Hlev & Hr & _).
  exists q. repeat (split; [assumption|]). split.
  - apply Hcom. intros i Hi. specialize (HP i ltac:(lia)). specialize (HM i ltac:(lia)). destruct (P i) as [x m]. cbn [fst snd] in *.
    destruct (row_parts E t i x m Ht HP) as (_ & _ & mcol' & Hm1 & Hm2). assert (mcol' = mcol) by congruence. subst mcol'.
    now rewrite (nth_error_nth _ _ _ Hm2).
  - intros k Hk. specialize (HP k ltac:(lia)). destruct (P k) as [x m]. cbn [fst snd] in *.
    destruct (row_parts E t k x m Ht HP) as (_ & Hx & _). now apply (proj1 (Hc k x ltac:(lia) Hx)).
Qed.

Lemma cell_length : forall b l q x, in_cell b l q x -> length x = length q.
Proof. intros b l q x H. unfold in_cell in H. induction H; [reflexivity|]. cbn [length]. now rewrite IHForall2. Qed.

Lemma cell_nth : forall b l q x j, in_cell b l q x -> j < length q ->
  (- b / 2 + IZRN (nth j q 0%N) * (b / pow2R l) <= nth j x 0 < - b / 2 + (IZRN (nth j q 0%N) + 1) * (b / pow2R l))%R.
Proof.
  intros b l q x j H. unfold in_cell in H. revert j. induction H as [|x0 k x q H0 H IH]; intros j Hj; [cbn in Hj; lia|].
  destruct j as [|j]; [exact H0|]. cbn [nth length] in *. apply IH. lia.
Qed.

Lemma cell_diam : forall b l q x y, (0 < b)%R -> in_cell b l q x -> in_cell b l q y -> (distance x y <= sqrt (INR (length q)) * (b / pow2R l))%R.
Proof.
  intros b l q x y Hb Hx Hy. pose proof (cell_length _ _ _ _ Hx) as L1. pose proof (cell_length _ _ _ _ Hy) as L2. rewrite <- L1.
  pose proof (pow2R_pos l) as Pl. assert (S : (0 < b / pow2R l)%R) by (now apply Rdiv_lt_0_compat).
  apply distance_le; [lra|lia|]. intros j Hj.
  pose proof (cell_nth b l q x j Hx ltac:(lia)). pose proof (cell_nth b l q y j Hy ltac:(lia)). apply Rabs_le. lra.
Qed.

Lemma cell_box : forall b l q x j, (0 < b)%R -> in_cell b l q x -> Forall (fun k => (k < 2 ^ l)%N) q -> j < length q -> (- b / 2 <= nth j x 0 < b / 2)%R.
Proof.
  intros b l q x j Hb Hx Hq Hj. pose proof (cell_nth b l q x j Hx Hj) as H. pose proof (pow2R_pos l) as Pl.
  assert (Hk : (nth j q 0 < 2 ^ l)%N). { rewrite Forall_forall in Hq. apply Hq. now apply nth_In. }
  assert (S : (0 < b / pow2R l)%R) by (now apply Rdiv_lt_0_compat).
  assert (K0 : (0 <= IZRN (nth j q 0%N))%R) by (unfold IZRN; apply IZR_le; lia).
  assert (K1 : (IZRN (nth j q 0%N) + 1 <= pow2R l)%R).
  { unfold IZRN, pow2R. rewrite <- plus_IZR. apply IZR_le. lia. }
  assert (B : (pow2R l * (b / pow2R l) = b)%R) by (field; lra).
  set (s := (b / pow2R l)%R) in *. set (k := IZRN (nth j q 0%N)) in *. split; [nra|]. assert ((k + 1) * s <= pow2R l * s)%R by (apply Rmult_le_compat_r; lra). lra.
Qed.

Lemma particle_box : forall t P i j, reachable Rops E t -> particles_of t P -> masses_nonneg t P -> (0 < t_box t)%R -> i < length (t_codes t) -> j < dim c ->
  length (fst (P i)) = dim c /\ (- t_box t / 2 <= nth j (fst (P i)) 0 < t_box t / 2)%R.
Proof.
  intros t P i j Hreach HP HM Hb Hi Hj. pose proof (reachable_inv Rops E HE t Hreach) as Ht.
  destruct (crit_of t i Ht Hi) as (cn & Hcn & Hci & _). destruct (crit_node Rops E t cn Ht Hcn) as (nd & N1 & N2 & N3 & N4 & N5).
  split; [now apply (particle_P t)|].
  assert (X : exists nd, In nd (t_nodes t) /\ n_begin nd <= i < n_end nd). { exists nd. split; [assumption|lia]. }
  destruct X as (a & Ha & Hai). destruct (node_geometry t P a Hreach HP HM Hb Ha) as (q & Lq & Fq & _ & _ & _ & Hk).
  apply (cell_box (t_box t) (n_level a) q _ j Hb (Hk i Hai) Fq). lia.
Qed.

(** A sufficient condition. *)
Lemma small_theta : forall t P theta, reachable Rops E t -> particles_of t P -> masses_nonneg t P -> (0 < t_box t)%R -> (0 < theta)%R ->
  (theta * sqrt (INR (dim c)) * pow2R (cbitsc c) <= 1)%R -> none_separated t theta P.
Proof.
  intros t P theta Hreach HP HM Hb Hth Hs a i Ha Hi Hsep.
  destruct (node_geometry t P a Hreach HP HM Hb Ha) as (q & Lq & Fq & Hlev & _ & Hcom & _).
  set (d := distance (p_com (n_props a)) (fst (P i))). set (s := (t_box t / pow2R (n_level a))%R).
  assert (Hd : (d <= sqrt (INR (dim c)) * t_box t)%R).
  { unfold d. rewrite <- Lq, <- (cell_length _ _ _ _ Hcom). apply distance_le; [lra| |].
    - rewrite (cell_length _ _ _ _ Hcom), Lq. symmetry. apply (particle_box t P i 0 Hreach HP HM Hb Hi). pose proof (dim_pos c). lia.
    - intros j Hj. rewrite (cell_length _ _ _ _ Hcom), Lq in Hj. pose proof (cell_box _ _ _ _ j Hb Hcom Fq ltac:(lia)).
      destruct (particle_box t P i j Hreach HP HM Hb Hi Hj) as [_ B]. apply Rabs_le. lra. }
  assert (Hsd : (s < theta * d)%R).
  { unfold separated in Hsep. destruct (e_mac E); [exact Hsep|]. destruct Hsep as (centre & _ & H). fold s d in H.
    pose proof (distance_nonneg (p_com (n_props a)) centre). nra. }
  assert (Hmin : (t_box t <= s * pow2R (cbitsc c))%R).
  { unfold s. pose proof (pow2R_pos (n_level a)) as Pl. assert (LP : (pow2R (n_level a) <= pow2R (cbitsc c))%R).
    { unfold pow2R, IZRN. apply IZR_le. rewrite !N2Z.inj_pow. apply Z.pow_le_mono_r; lia. }
    assert (Q : (t_box t / pow2R (n_level a) * pow2R (n_level a) = t_box t)%R) by (field; lra).
    assert (0 < t_box t / pow2R (n_level a))%R by (now apply Rdiv_lt_0_compat). nra. }
  pose proof (pow2R_pos (cbitsc c)) as Pc. pose proof (sqrt_pos (INR (dim c))) as Ps.
  assert (X : (theta * d * pow2R (cbitsc c) <= t_box t)%R).
  { apply Rle_trans with (theta * (sqrt (INR (dim c)) * t_box t) * pow2R (cbitsc c))%R; [|nra].
    apply Rmult_le_compat_r; [lra|]. apply Rmult_le_compat_l; lra. }
  assert (s * pow2R (cbitsc c) < theta * d * pow2R (cbitsc c))%R by (apply Rmult_lt_compat_r; lra). lra.
Qed.

(* ---- momentum ---- *)

Lemma antisym_sum : forall (f : nat -> nat -> R) l, (forall i k, f i k = - f k i)%R -> rsum (fun i => rsum (f i) l) l = 0%R.
Proof.
  intros f l H. pose proof (rsum_swap nat nat f l l) as S.
  assert (X : rsum (fun b => rsum (fun a => f a b) l) l = (- rsum (fun i => rsum (f i) l) l)%R).
  { transitivity ((-1) * rsum (fun i => rsum (f i) l) l)%R; [|lra]. rewrite <- rsum_scal. apply rsum_ext. intros b _. rewrite <- rsum_scal. apply rsum_ext. intros a _. rewrite H. lra. }
  lra.
Qed.

Lemma momentum : forall q eps P n j, has_acc q = true -> j < dim c ->
  rsum (fun i => snd (P i) * direct q eps P n i j)%R (seq 0 n) = 0%R.
Proof.
  intros q eps P n j Hq Hj. set (f := fun i k => (snd (P i) * pull (dim c) q (eps * eps) j (P i) (P k))%R).
  assert (IA : is_acc (dim c) q j = true) by (unfold is_acc; rewrite Hq; cbn [andb]; now apply Nat.ltb_lt).
  assert (AS : forall i k, f i k = (- f k i)%R).
  { intros i k. unfold f, pull. rewrite IA, (sep2_sym (fst (P i)) (fst (P k))). unfold Rdiv. ring. }
  rewrite <- (antisym_sum f (seq 0 n) AS). apply rsum_ext. intros i Hi. apply in_seq in Hi. unfold direct. rewrite <- rsum_scal.
  pose proof (filter_out 0 n i ltac:(lia)) as F. apply rsum_perm with (f := f i) in F. rewrite F, rsum_cons, Nat.add_0_l.
  assert (Z : f i i = 0%R) by (pose proof (AS i i); lra). rewrite Z. unfold others. rewrite Nat.sub_0_r. unfold f. lra.
Qed.

(* ---- the error of the potentials ---- *)

Lemma soft_bound : forall eps theta rho dd r d, (0 <= eps)%R -> (0 <= d)%R -> (0 <= r)%R -> (0 <= theta)%R -> (0 <= rho)%R ->
  (dd <= rho * (theta * d))%R -> (Rabs (r - d) <= dd)%R -> (0 < r * r + eps * eps)%R -> (0 < d)%R ->
  (Rabs (/ sqrt (r * r + eps * eps) - / sqrt (d * d + eps * eps)) <= rho * theta * / sqrt (r * r + eps * eps))%R.
Proof.
  intros eps theta rho dd r d He Hd Hr Ht Hrho Hdd Hrd Hu Hd0.
  pose proof (sqrt_lt_R0 _ Hu) as Pu. assert (Hv : (0 < d * d + eps * eps)%R) by nra. pose proof (sqrt_lt_R0 _ Hv) as Pv.
  pose proof (soft_lipschitz eps r d) as L1. pose proof (soft_lipschitz eps d r) as L2. rewrite (Rabs_minus_sym d r) in L2.
  assert (DV : (d <= sqrt (d * d + eps * eps))%R). { rewrite <- (sqrt_square d) at 1 by lra. apply sqrt_le_1_alt. nra. }
  set (u := sqrt (r * r + eps * eps)) in *. set (v := sqrt (d * d + eps * eps)) in *.
  assert (Q : (/ u - / v = (v - u) * / v * / u)%R) by (field; lra). rewrite Q, Rabs_mult, (Rabs_right (/ u)) by (left; now apply Rinv_0_lt_compat).
  apply Rmult_le_compat_r; [left; now apply Rinv_0_lt_compat|]. rewrite Rabs_mult, (Rabs_right (/ v)) by (left; now apply Rinv_0_lt_compat).
  assert (B : (Rabs (v - u) <= rho * theta * v)%R).
  { apply Rle_trans with dd; [apply Rabs_le; lra|]. apply Rle_trans with (rho * (theta * d))%R; [exact Hdd|]. rewrite Rmult_assoc. apply Rmult_le_compat_l; [exact Hrho|]. now apply Rmult_le_compat_l. }
  apply Rmult_le_reg_r with v; [exact Pv|]. rewrite Rmult_assoc, Rinv_l by lra. lra.
Qed.

(** The particles are at different positions, or there is a softening length. *)
Definition apart (eps : R) (P : nat -> @prow R) (n : nat) : Prop :=
  forall i k, i < n -> k < n -> i <> k -> (0 < eps \/ fst (P i) <> fst (P k))%R.

Lemma distance_pos : forall x y, length x = length y -> x <> y -> (0 < distance x y)%R.
Proof.
  intros x y L N. destruct (distance_nonneg x y) as [|Z]; [assumption|]. exfalso. apply N. clear N.
  unfold distance in Z. symmetry in Z. apply sqrt_eq_0 in Z; [|apply rsum_nonneg; intros [a b] _; exact (Rle_0_sqr (a - b))].
  revert y L Z. induction x as [|a x IH]; intros [|b y] L Z; try discriminate; [reflexivity|]. cbn [combine] in Z. rewrite rsum_cons in Z.
  assert (N : (0 <= rsum (fun '(x0, y0) => (x0 - y0) * (x0 - y0)) (combine x y))%R) by (apply rsum_nonneg; intros [a' b'] _; exact (Rle_0_sqr (a' - b'))).
  pose proof (Rle_0_sqr (a - b)) as Q. unfold Rsqr in Q. f_equal.
  - assert (a - b = 0)%R by (apply Rsqr_0_uniq; unfold Rsqr; lra). lra.
  - apply IH; [now injection L|lra].
Qed.

Lemma sep2_dist : forall x y, sep2 x y = (distance x y * distance x y)%R.
Proof. intros x y. rewrite distance_sep2, sqrt_sqrt; [reflexivity|apply sep2_nonneg]. Qed.

Lemma node_error : forall q t P theta eps a i j, reachable Rops E t -> particles_of t P -> masses_nonneg t P -> (0 < t_box t)%R -> (0 < theta)%R -> (0 <= eps)%R ->
  In a (t_nodes t) -> i < length (t_codes t) -> ~ (n_begin a <= i < n_end a) -> separated E t theta a (fst (P i)) ->
  apart eps P (length (t_codes t)) -> is_acc (dim c) q j = false ->
  (Rabs (pull (dim c) q (eps * eps) j (P i) (p_com (n_props a), p_mass (n_props a)) - rsum (fun k => pull (dim c) q (eps * eps) j (P i) (P k)) (node_idx a))
   <= sqrt (INR (dim c)) * theta * rsum (fun k => - pull (dim c) q (eps * eps) j (P i) (P k)) (node_idx a))%R.
Proof.
  intros q t P theta eps a i j Hreach HP HM Hb Hth He Ha Hi Hout Hsep Hap Hj. pose proof (reachable_inv Rops E HE t Hreach) as Ht.
  destruct (node_geometry t P a Hreach HP HM Hb Ha) as (qc & Lq & Fq & _ & Hr & Hcom & Hk).
  destruct (node_monopole E HE t P a Ht HP Ha) as [Hmass _].
  set (x := fst (P i)). set (com := p_com (n_props a)) in *. set (d := distance com x). set (s := (t_box t / pow2R (n_level a))%R) in *.
  assert (Lx : length x = dim c) by (apply (particle_P t P i Ht HP Hi)).
  assert (Lc : length com = dim c) by (rewrite (cell_length _ _ _ _ Hcom); exact Lq).
  assert (Hsd : (s < theta * d)%R).
  { unfold separated in Hsep. fold com x d s in Hsep. destruct (e_mac E); [exact Hsep|]. destruct Hsep as (centre & _ & H).
    pose proof (distance_nonneg com centre). nra. }
  assert (S0 : (0 < s)%R) by (apply Rdiv_lt_0_compat; [exact Hb|apply pow2R_pos]).
  assert (D0 : (0 < d)%R) by (destruct (distance_nonneg com x) as [|Z]; [assumption|unfold d in *; rewrite <- Z in Hsd; lra]).
  assert (F : forall k, In k (node_idx a) -> (Rabs (/ sqrt (sep2 (fst (P k)) x + eps * eps) - / sqrt (sep2 com x + eps * eps)) <= sqrt (INR (dim c)) * theta * / sqrt (sep2 (fst (P k)) x + eps * eps))%R).
  { intros k Hkk. apply in_seq in Hkk. assert (Hkn : k < length (t_codes t)) by lia. specialize (Hk k ltac:(lia)).
    assert (Lk : length (fst (P k)) = dim c) by (apply (particle_P t P k Ht HP Hkn)).
    rewrite !sep2_dist. fold d. set (r := distance (fst (P k)) x).
    assert (Hdiam : (distance (fst (P k)) com <= sqrt (INR (dim c)) * s)%R) by (rewrite <- Lq; now apply cell_diam).
    apply soft_bound with (dd := (sqrt (INR (dim c)) * s)%R); try assumption; try lra; try apply distance_nonneg; try apply sqrt_pos.
    - apply Rmult_le_compat_l; [apply sqrt_pos|lra].
    - unfold r, d. pose proof (triangle (fst (P k)) com x ltac:(lia) ltac:(lia)). pose proof (triangle com (fst (P k)) x ltac:(lia) ltac:(lia)) as T2.
      rewrite (distance_sym com (fst (P k))) in T2. apply Rabs_le. lra.
    - destruct (Hap i k Hi Hkn ltac:(lia)) as [P0|P0]; [nra|]. assert (0 < r)%R by (apply distance_pos; [lia|]; intros Z; apply P0; now symmetry). nra. }
  set (V := (/ sqrt (sep2 com x + eps * eps))%R) in *. set (U := fun k => (/ sqrt (sep2 (fst (P k)) x + eps * eps))%R) in *.
  assert (EQ1 : pull (dim c) q (eps * eps) j (P i) (com, p_mass (n_props a)) = rsum (fun k => - (snd (P i) * snd (P k) * V))%R (node_idx a)).
  { unfold pull. rewrite Hj. cbn [fst snd]. fold x. rewrite Hmass. unfold Rdiv. fold V.
    transitivity (- (snd (P i) * V) * rsum (fun k => snd (P k)) (node_idx a))%R; [ring|]. rewrite <- rsum_scal. apply rsum_ext. intros; ring. }
  assert (EQ2 : forall k, pull (dim c) q (eps * eps) j (P i) (P k) = (- (snd (P i) * snd (P k) * U k))%R).
  { intros k. unfold pull. rewrite Hj. fold x. unfold Rdiv, U. ring. }
  rewrite EQ1. rewrite <- rsum_minus. rewrite <- rsum_scal. eapply Rle_trans; [apply rsum_abs|]. apply rsum_le. intros k Hkk. rewrite EQ2.
  specialize (F k Hkk). fold (U k) in F. apply in_seq in Hkk. pose proof (HM i Hi) as M1. pose proof (HM k ltac:(lia)) as M2. pose proof (Rmult_le_pos _ _ M1 M2) as M3.
  replace (- (snd (P i) * snd (P k) * V) - - (snd (P i) * snd (P k) * U k))%R with ((snd (P i) * snd (P k)) * (U k - V))%R by ring.
  rewrite Rabs_mult, (Rabs_right (snd (P i) * snd (P k))) by lra.
  replace (sqrt (INR (dim c)) * theta * - - (snd (P i) * snd (P k) * U k))%R with ((snd (P i) * snd (P k)) * (sqrt (INR (dim c)) * theta * U k))%R by ring.
  now apply Rmult_le_compat_l.
Qed.

Lemma pull_nonpos : forall q t P eps i k j, masses_nonneg t P -> i < length (t_codes t) -> k < length (t_codes t) -> is_acc (dim c) q j = false ->
  (pull (dim c) q (eps * eps) j (P i) (P k) <= 0)%R.
Proof.
  intros q t P eps i k j HM Hi Hk Hj. unfold pull. rewrite Hj. pose proof (HM i Hi). pose proof (HM k Hk).
  set (rr := sqrt _). assert (R0 : (0 <= rr)%R) by apply sqrt_pos. unfold Rdiv.
  assert (0 <= / rr)%R. { destruct R0 as [R0|<-]; [left; now apply Rinv_0_lt_compat|rewrite Rinv_0; lra]. }
  assert (0 <= snd (P i) * snd (P k))%R by (now apply Rmult_le_pos). nra.
Qed.

Lemma bh_error : forall q t P theta eps cn A Dl i j, reachable Rops E t -> particles_of t P -> masses_nonneg t P -> (0 < t_box t)%R -> (0 < theta)%R -> (0 <= eps)%R ->
  apart eps P (length (t_codes t)) -> is_acc (dim c) q j = false ->
  sources E t theta P cn A Dl -> c_begin cn <= i < c_end cn -> c_end cn <= length (t_codes t) ->
  (Rabs (bh_sum E q eps P i (others (c_begin cn) (c_end cn) i ++ Dl) A j - direct q eps P (length (t_codes t)) i j)
   <= theta * sqrt (INR (dim c)) * Rabs (direct q eps P (length (t_codes t)) i j))%R.
Proof.
  intros q t P theta eps cn A Dl i j Hreach HP HM Hb Hth He Hap Hj S Hi Hn.
  rewrite (bh_minus_direct q t theta P eps cn A Dl i j S Hi Hn). pose proof S as [SP SA].
  assert (IN : forall k, In k (others (c_begin cn) (c_end cn) i ++ Dl) -> k < length (t_codes t)).
  { intros k Hk. assert (Hk2 : In k (seq (c_begin cn) (c_end cn - c_begin cn) ++ Dl ++ flat_map node_idx A)).
    { apply in_app_or in Hk as [Hk|Hk]; [apply in_or_app; left; now apply filter_In in Hk|apply in_or_app; right; apply in_or_app; now left]. }
    apply (Permutation_in _ SP) in Hk2. apply in_seq in Hk2. lia. }
  set (T := fun k => pull (dim c) q (eps * eps) j (P i) (P k)).
  assert (NEG : (direct q eps P (length (t_codes t)) i j <= 0)%R).
  { unfold direct. assert (Z : (0 <= rsum (fun k => -1 * T k) (others 0 (length (t_codes t)) i))%R).
    { apply rsum_nonneg. intros k Hk. unfold others in Hk. apply filter_In in Hk as [Hk _]. apply in_seq in Hk.
      pose proof (pull_nonpos q t P eps i k j HM ltac:(lia) ltac:(lia) Hj). unfold T. lra. }
    rewrite rsum_scal in Z. unfold T in Z. lra. }
  rewrite (Rabs_left1 _ NEG). eapply Rle_trans; [apply rsum_abs|].
  eapply Rle_trans; [apply rsum_le; intros a Ha; destruct (SA a Ha) as (Hin & Hdis & Hsp & _);
    exact (node_error q t P theta eps a i j Hreach HP HM Hb Hth He Hin ltac:(lia) ltac:(lia) (Hsp i Hi) Hap Hj)|].
  rewrite rsum_scal. rewrite (Rmult_comm theta). apply Rmult_le_compat_l; [apply Rmult_le_pos; [apply sqrt_pos|lra]|].
  unfold direct. rewrite <- (sources_sum t theta P cn A Dl i _ S Hi Hn).
  assert (Z1 : (rsum (fun k => pull (dim c) q (eps * eps) j (P i) (P k)) (others (c_begin cn) (c_end cn) i ++ Dl) <= 0)%R).
  { assert (Z : (0 <= rsum (fun k => -1 * T k) (others (c_begin cn) (c_end cn) i ++ Dl))%R).
    { apply rsum_nonneg. intros k Hk. pose proof (pull_nonpos q t P eps i k j HM ltac:(lia) (IN k Hk) Hj). unfold T. lra. }
    rewrite rsum_scal in Z. unfold T in Z. lra. }
  assert (Z2 : rsum (fun a => rsum (fun k => - pull (dim c) q (eps * eps) j (P i) (P k))%R (node_idx a)) A = (- rsum (fun a => rsum (fun k => pull (dim c) q (eps * eps) j (P i) (P k)) (node_idx a)) A)%R).
  { transitivity (-1 * rsum (fun a => rsum (fun k => pull (dim c) q (eps * eps) j (P i) (P k)) (node_idx a)) A)%R; [|lra].
    rewrite <- rsum_scal. apply rsum_ext. intros a _. rewrite <- rsum_scal. apply rsum_ext. intros; lra. }
  rewrite Z2. lra.
Qed.

(** C27. *)
Lemma dispatch_error : forall ord ordered q t P theta G eps split out, reachable Rops E t -> room E t -> reorders ord -> particles_of t P ->
  (0 < theta)%R -> (0 <= eps)%R -> check_split OD split = Ok tt -> length split <= 1 ->
  out_ok (length (t_codes t)) (nvecs_res E q) out -> masses_nonneg t P -> (0 < t_box t)%R -> apart eps P (length (t_codes t)) ->
  exists out', acc_pot_dispatch Rops OD E K ord ordered q t theta G eps split out = Ok out' /\
    forall i j, i < length (t_codes t) -> j < nvecs_res E q -> is_acc (dim c) q j = false ->
      exists v, nth_error (nth j out' []) (dst ordered t i) = Some v /\
        (Rabs (v - G * direct q eps P (length (t_codes t)) i j) <= theta * sqrt (INR (dim c)) * Rabs (G * direct q eps P (length (t_codes t)) i j))%R.
Proof.
  intros ord ordered q t P theta G eps split out Hreach Hroom Hord HP Hth Heps Hs1 Hs2 Ho HM Hb Hap.
  pose proof (reachable_inv Rops E HE t Hreach) as Ht.
  destruct (dispatch_R OD E K HE HK HX ord ordered q t P theta G eps split out Hreach Hroom Hord HP Hth Heps Hs1 Hs2 Ho) as (out' & E1 & O1 & V).
  exists out'. split; [exact E1|]. intros i j Hi Hj Hpot.
  destruct (crit_of t i Ht Hi) as (cn & Hcn & Hci & He). destruct (V cn Hcn) as (A & Dl & S & R). eexists. split; [now apply R|].
  pose proof (bh_error q t P theta eps cn A Dl i j Hreach HP HM Hb Hth Heps Hap Hpot S Hci He) as B.
  rewrite <- Rmult_minus_distr_l, !Rabs_mult. replace (theta * sqrt (INR (dim c)) * (Rabs G * Rabs (direct q eps P (length (t_codes t)) i j)))%R
    with (Rabs G * (theta * sqrt (INR (dim c)) * Rabs (direct q eps P (length (t_codes t)) i j)))%R by ring.
  apply Rmult_le_compat_l; [apply Rabs_pos|exact B].
Qed.

(** C45. *)
Lemma dispatch_linear : forall ord ord' ordered q t P theta G eps split out, reachable Rops E t -> room E t -> reorders ord -> reorders ord' -> particles_of t P ->
  (0 < theta)%R -> (0 <= eps)%R -> check_split OD split = Ok tt -> length split <= 1 ->
  out_ok (length (t_codes t)) (nvecs_res E q) out ->
  exists o1 oG, acc_pot_dispatch Rops OD E K ord ordered q t theta 1%R eps split out = Ok o1 /\
    acc_pot_dispatch Rops OD E K ord' ordered q t theta G eps split out = Ok oG /\
    forall i j, i < length (t_codes t) -> j < nvecs_res E q ->
      exists v, nth_error (nth j o1 []) i = Some v /\ nth_error (nth j oG []) i = Some (G * v)%R.
Proof.
  intros ord ord' ordered q t P theta G eps split out Hreach Hroom Hord Hord' HP Hth Heps Hs1 Hs2 Ho.
  pose proof (reachable_inv Rops E HE t Hreach) as Ht.
  pose proof (params_R OD E t theta 1%R eps split Hth Heps Hs1 Hs2) as Hp1. pose proof (params_R OD E t theta G eps split Hth Heps Hs1 Hs2) as HpG.
  pose proof Hp1 as (Hmv & _). set (mv := match e_mac E with Bh => _ | BhGeom => _ end) in *.
  destruct (dispatch_ok Rops OD E K HE HK ord ordered q t theta 1%R eps split mv _ out Ht Hroom Hord Hp1 Ho) as (o1 & E1 & O1 & V1 & _).
  destruct (dispatch_ok Rops OD E K HE HK ord' ordered q t theta G eps split mv _ out Ht Hroom Hord' HpG Ho) as (oG & EG & OG & VG & _).
  exists o1, oG. split; [exact E1|]. split; [exact EG|]. intros i0 j Hi0 Hj.
  destruct (dst_onto Rops E ordered t Ht i0 Hi0) as (i & Hi & ->).
  destruct (crit_of t i Ht Hi) as (cn & Hcn & Hci & He).
  destruct (result_R E K HE HK HX t P theta mv eps cn Hreach Hroom HP Hmv Hcn) as (A & Dl & S & R).
  eexists. rewrite V1, VG by lia. destruct (R q 1%R i Hci) as [_ R1]. destruct (R q G i Hci) as [_ RG]. rewrite R1, RG by exact Hj.
  split; [reflexivity|]. do 2 f_equal. lra.
Qed.

End More.
