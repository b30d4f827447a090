(** In exact arithmetic the nodes and the results in the original order are determined by the particles. *)
From Coq Require Import List Arith NArith ZArith Lia Bool Reals Lra Permutation.
From Verif Require Import Base Config Morton Build TreeSpec FOps FOpsProofs Disc NodeProps Tree TreeInv TreeProofs TreeSafe TreeProps Kernels Force
  TravProofs KernLoops RSum NodeGeom NodesR BoxInv SelfSum KernR ForceGen ForceOut ForceR ForceTop ForceRTop ForceMore SimdForce Unique.
Import ListNotations.
Local Open Scope nat_scope.

Lemma Permutation_filter : forall {A} (f : A -> bool) l l', Permutation l l' -> Permutation (filter f l) (filter f l').
Proof.
  intros A f l l' H. induction H as [|x l l' H IH|x y l|l l' l'' H1 IH1 H2 IH2]; cbn [filter].
  - apply perm_nil.
  - destruct (f x); [now apply perm_skip|exact IH].
  - destruct (f x), (f y); try apply Permutation_refl. apply perm_swap.
  - now transitivity (filter f l').
Qed.

Lemma existsb_perm : forall {A} (f : A -> bool) l l', Permutation l l' -> existsb f l = existsb f l'.
Proof.
  intros A f l l' H. induction H; cbn [existsb]; [reflexivity|now rewrite IHPermutation| |congruence].
  destruct (f x), (f y); reflexivity.
Qed.

(** Coordinates and mass of the particle [i]. *)
Definition part (d : nat) (cols : list (list R)) (i : nat) : @prow R :=
  (map (fun col => nth i col 0%R) (firstn d cols), nth i (nth d cols []) 0%R).

Section SameR.

Context {D : Type}.
Variable OD : fops D.
Variable E : env.
Variable K : platform R.
Hypothesis HE : env_ok E.
Hypothesis HK : benign_shift K.
Hypothesis HX : exact_rsqrt K.
Notation c := (e_cfg E).
Variables t u : @tree R.
Hypothesis Ht : tree_inv Rops E t.
Hypothesis Hu : tree_inv Rops E u.
Variable v : list (list R).
Hypothesis Hvt : view_cols true t = Ok v.
Hypothesis Hvu : view_cols true u = Ok v.
Hypothesis Hbox : t_box t = t_box u.
Hypothesis Hmln : t_mln t = t_mln u.
Hypothesis Hncrit : t_ncrit t = t_ncrit u.

Notation n := (length (t_codes t)).
Notation pos := (pos t u).

Lemma codes_eq : t_codes u = t_codes t.
Proof. exact (same_codes Rops E t u Ht Hu v Hvt Hvu Hbox). Qed.

Lemma part_particles : forall w, tree_inv Rops E w -> particles_of w (part (dim c) (t_parts w)).
Proof.
  intros w Hw i Hi. destruct (inv_table Rops E w Hw) as [T1 T2]. unfold part. cbn [fst snd].
  assert (X : t_parts w = firstn (dim c) (t_parts w) ++ [nth (dim c) (t_parts w) []]).
  { rewrite <- (firstn_skipn (dim c) (t_parts w)) at 1. f_equal. rewrite <- (firstn_skipn (dim c) (t_parts w)) at 2.
    rewrite app_nth2 by (rewrite firstn_length; lia). rewrite firstn_length, Nat.min_l, Nat.sub_diag by lia.
    assert (L : length (skipn (dim c) (t_parts w)) = 1) by (rewrite skipn_length; lia).
    destruct (skipn (dim c) (t_parts w)) as [|a [|? ?]]; try discriminate. reflexivity. }
  assert (Z : forall l, Forall (fun col : list R => length col = length (t_codes w)) l -> row l i (map (fun col => nth i col 0%R) l)).
  { unfold row. induction l as [|col l IH]; intros HF; cbn [map]; constructor; inversion HF; subst; auto. apply nth_error_nth'. lia. }
  specialize (Z _ T2).
  assert (Y : map (fun col => nth i col 0%R) (t_parts w) = map (fun col => nth i col 0%R) (firstn (dim c) (t_parts w)) ++ [nth i (nth (dim c) (t_parts w) []) 0%R]).
  { rewrite X at 1. now rewrite map_app. }
  rewrite <- Y. exact Z.
Qed.

Lemma part_pos : forall i, i < n -> part (dim c) (t_parts u) (pos i) = part (dim c) (t_parts t) i.
Proof.
  intros i Hi. pose proof (inv_ncols _ _ _ Ht) as L1. pose proof (inv_ncols _ _ _ Hu) as L2.
  assert (X : forall j, j < dim c + 1 -> nth (pos i) (nth j (t_parts u) []) 0%R = nth i (nth j (t_parts t) []) 0%R).
  { intros j Hj. assert (Z : nth_error (t_parts t) j <> None) by (apply nth_error_Some; lia).
    destruct (pos_cols Rops E t u Ht Hu v Hvt Hvu j Z) as (ct & cu & A & B & C).
    rewrite (nth_error_nth _ _ [] A), (nth_error_nth _ _ [] B). specialize (C i Hi).
    destruct (nth_error ct i) as [x|] eqn:Ex.
    - now rewrite (nth_error_nth _ _ 0%R Ex), (nth_error_nth _ _ 0%R C).
    - apply nth_error_None in Ex. apply nth_error_None in C. now rewrite !nth_overflow by assumption. }
  unfold part. f_equal; [|apply X; lia].
  apply nth_ext with (d := 0%R) (d' := 0%R); [rewrite !map_length, !firstn_length; lia|]. intros j Hj. rewrite map_length, firstn_length in Hj.
  set (g := fun col : list R => nth (pos i) col 0%R). set (h := fun col : list R => nth i col 0%R).
  rewrite nth_indep with (d' := g []) by (rewrite map_length, firstn_length; lia). rewrite map_nth.
  rewrite nth_indep with (l := map h _) (d' := h []) by (rewrite map_length, firstn_length; lia). rewrite map_nth.
  assert (Y : forall l : list (list R), nth j (firstn (dim c) l) [] = nth j l []).
  { intros l. destruct (Nat.lt_ge_cases j (length l)) as [L|L].
    - rewrite <- (firstn_skipn (dim c) l) at 2. rewrite app_nth1; [reflexivity|]. rewrite firstn_length. lia.
    - rewrite !nth_overflow; [reflexivity|lia|rewrite firstn_length; lia]. }
  rewrite !Y. apply X. lia.
Qed.

(** A range of positions that [pos] maps to itself. *)
Lemma range_perm : forall b e, (forall i, b <= i < e -> i < n /\ b <= pos i < e) -> Permutation (map pos (seq b (e - b))) (seq b (e - b)).
Proof.
  intros b e H. apply (pos_stable Rops E t u Ht Hu v Hvt Hvu); [apply seq_NoDup|]. intros i Hi. apply in_seq in Hi.
  destruct (H i ltac:(lia)) as [A B]. split; [exact A|]. apply in_seq. lia.
Qed.

Lemma node_perm : forall a, In a (t_nodes t) -> Permutation (map pos (node_idx a)) (node_idx a).
Proof.
  intros a Ha. unfold node_idx. apply range_perm. intros i Hi. now apply (pos_node Rops E t u Ht Hu v Hvt Hvu Hbox).
Qed.

Lemma range_sum : forall (f : prow -> R) b e, (forall i, b <= i < e -> i < n /\ b <= pos i < e) ->
  rsum (fun i => f (part (dim c) (t_parts u) i)) (seq b (e - b)) = rsum (fun i => f (part (dim c) (t_parts t) i)) (seq b (e - b)).
Proof.
  intros f b e H. rewrite <- (rsum_perm _ _ _ _ (range_perm b e H)), rsum_map. apply rsum_ext. intros i Hi. apply in_seq in Hi.
  rewrite part_pos; [reflexivity|]. apply H. lia.
Qed.

Lemma props_eq : forall a b, In a (t_nodes t) -> In b (t_nodes u) -> frame a = frame b -> n_props a = n_props b.
Proof.
  intros a b Ha Hb Hf. unfold frame in Hf. injection Hf as F1 F2 F3 F4 F5.
  destruct (node_payload E t a Ht Ha) as (p & _ & _ & _ & R1 & _ & C1). destruct (node_payload E u b Hu Hb) as (p' & _ & _ & _ & R2 & _ & C2).
  rewrite <- F1, <- F2, <- F4, <- F5, <- Hbox in C2.
  assert (S : forall i, n_begin a <= i < n_end a -> i < n /\ n_begin a <= pos i < n_end a).
  { intros i Hi. now apply (pos_node Rops E t u Ht Hu v Hvt Hvu Hbox). }
  cut (Ok (n_props a) = Ok (n_props b)); [congruence|]. rewrite <- C1, <- C2. unfold cnp, compute_node_properties. unfold rd.
  destruct (inv_table Rops E t Ht) as [T1 T2]. destruct (inv_table Rops E u Hu) as [U1 U2]. rewrite codes_eq in U2.
  rewrite (nth_error_nth' (t_parts t) []) by lia. rewrite (nth_error_nth' (t_parts u) []) by lia. cbn [bind].
  assert (Q : forall cols : list (list R), length cols = dim c + 1 -> Forall (fun col => length col = n) cols ->
    node_sums Rops c (e_simd E) (e_hadd E) (firstn (dim c) cols) (nth (dim c) cols []) (n_begin a) (n_end a) =
    Ok (total (nth (dim c) cols []) (n_begin a) (n_end a), map (fun col => weighted (nth (dim c) cols []) col (n_begin a) (n_end a)) (firstn (dim c) cols))).
  { intros cols L HF. apply node_sums_R with (n := n); [apply HE|rewrite firstn_length; lia| | |lia].
    - apply Forall_forall. intros col Hc. apply firstn_In in Hc. rewrite Forall_forall in HF. auto.
    - rewrite Forall_forall in HF. apply HF, nth_In. lia. }
  rewrite (Q _ T1 T2), (Q _ U1 U2). cbn [bind].
  assert (M : total (nth (dim c) (t_parts u) []) (n_begin a) (n_end a) = total (nth (dim c) (t_parts t) []) (n_begin a) (n_end a)).
  { exact (range_sum snd _ _ S). }
  assert (W : map (fun col => weighted (nth (dim c) (t_parts u) []) col (n_begin a) (n_end a)) (firstn (dim c) (t_parts u)) =
              map (fun col => weighted (nth (dim c) (t_parts t) []) col (n_begin a) (n_end a)) (firstn (dim c) (t_parts t))).
  { set (g := fun col => weighted (nth (dim c) (t_parts u) []) col (n_begin a) (n_end a)).
    set (h := fun col => weighted (nth (dim c) (t_parts t) []) col (n_begin a) (n_end a)).
    apply nth_ext with (d := g []) (d' := h []); [rewrite !map_length, !firstn_length; lia|]. intros j Hj. rewrite map_length, firstn_length in Hj.
    rewrite !map_nth. unfold g, h, weighted.
    pose proof (range_sum (fun p => (snd p * nth j (fst p) 0)%R) _ _ S) as X. unfold part in X. cbn [fst snd] in X.
    assert (Y : forall (cols : list (list R)) i, length cols = dim c + 1 -> nth j (map (fun col => nth i col 0%R) (firstn (dim c) cols)) 0%R = nth i (nth j (firstn (dim c) cols) []) 0%R).
    { intros cols i L. set (k := fun col : list R => nth i col 0%R). rewrite nth_indep with (d' := k []) by (rewrite map_length, firstn_length; lia). now rewrite map_nth. }
    etransitivity; [|etransitivity; [exact X|]]; apply rsum_ext; intros i _; now rewrite Y. }
  rewrite M, W. reflexivity.
Qed.

Lemma same_nodes : t_nodes t = t_nodes u /\ t_crit t = t_crit u.
Proof.
  destruct (same_frames Rops E t u Ht Hu v Hvt Hvu Hbox Hmln Hncrit) as [HF HC]. split; [|exact HC].
  apply list_ext. intros k. assert (X : nth_error (map frame (t_nodes t)) k = nth_error (map frame (t_nodes u)) k) by (now rewrite HF).
  rewrite !nth_error_map in X. destruct (nth_error (t_nodes t) k) as [a|] eqn:Ea, (nth_error (t_nodes u) k) as [b|] eqn:Eb; try discriminate; [|reflexivity].
  cbn [option_map] in X. injection X as X1 X2 X3 X4 X5.
  assert (P : n_props a = n_props b). { apply props_eq; [eapply nth_error_In; eauto|eapply nth_error_In; eauto|]. unfold frame. congruence. }
  f_equal. destruct a, b. cbn in *. congruence.
Qed.

Lemma room_eq : room E t -> room E u.
Proof. unfold room. now rewrite codes_eq. Qed.

Lemma slices : forall b e, b <= e <= n -> (forall i, b <= i < e -> i < n /\ b <= pos i < e) ->
  Permutation (slice (map (part (dim c) (t_parts u)) (seq 0 n)) b e) (slice (map (part (dim c) (t_parts t)) (seq 0 n)) b e).
Proof.
  intros b e Hbe H.
  assert (S : forall (P : nat -> @prow R), slice (map P (seq 0 n)) b e = map P (seq b (e - b))).
  { intros P. unfold slice. rewrite skipn_map. rewrite firstn_map. f_equal.
    replace n with (b + ((e - b) + (n - e))) by lia. rewrite !seq_app. rewrite skipn_app, skipn_all2 by (rewrite seq_length; lia).
    rewrite seq_length, Nat.sub_diag. cbn [skipn app plus]. rewrite firstn_app, firstn_all2 by (rewrite seq_length; lia).
    rewrite seq_length, Nat.sub_diag. cbn [firstn]. now rewrite app_nil_r. }
  rewrite !S. transitivity (map (part (dim c) (t_parts u)) (map pos (seq b (e - b)))); [apply Permutation_map, Permutation_sym, range_perm, H|].
  rewrite map_map. rewrite (map_ext_in (fun x => part (dim c) (t_parts u) (pos x)) (part (dim c) (t_parts t))); [reflexivity|].
  intros i Hi. apply in_seq in Hi. apply part_pos. apply H. lia.
Qed.

Lemma row_eq : forall q mv G eps i, room E t -> i < n ->
  result_row Rops E K q t mv G (eps * eps)%R i = result_row Rops E K q u mv G (eps * eps)%R (pos i).
Proof.
  intros q mv G eps i Hroom Hi. set (eps2 := (eps * eps)%R). assert (Heps : (0 <= eps2)%R) by (unfold eps2; nra).
  destruct same_nodes as [HN HC].
  destruct (particles_rows E t _ Ht (part_particles t Ht)) as [Pt Nt]. destruct (particles_rows E u _ Hu (part_particles u Hu)) as [Pu Nu].
  rewrite codes_eq in Pu, Nu. set (pst := map (part (dim c) (t_parts t)) (seq 0 n)) in *. set (psu := map (part (dim c) (t_parts u)) (seq 0 n)) in *.
  destruct (crit_of E t i Ht Hi) as (cn & Hcn & Hci & Hce). assert (Hcu : In cn (t_crit u)) by (now rewrite <- HC).
  destruct (psize_total E n Hroom (c_end cn - c_begin cn) ltac:(lia)) as [psize Hsz].
  set (pad := pad_coord Rops E (t_box t) mv).
  destruct (crit_value E K HE HK HX q t pst Ht Pt mv G eps2 pad Heps cn psize Hcn Hsz) as (res & pre & post & nd & Er & _ & N1 & N2 & N3 & N4 & Tr & Ev & _ & _ & V).
  destruct (crit_value E K HE HK HX q u psu Hu Pu mv G eps2 pad Heps cn psize Hcu Hsz) as (res' & pre' & post' & nd' & Er' & _ & _ & _ & _ & _ & Tr' & _ & _ & _ & V').
  assert (S : forall k, c_begin cn <= k < c_end cn -> k < n /\ c_begin cn <= pos k < c_end cn).
  { intros k Hk. rewrite <- N3, <- N4 in *. now apply (pos_node Rops E t u Ht Hu v Hvt Hvu Hbox). }
  destruct (psize_ok E HE _ _ Hsz) as (_ & Z2 & _).
  assert (X : pre ++ post = pre' ++ post').
  { assert (Tr2 : Ok (pre ++ post) = Ok (pre' ++ post')); [|congruence]. rewrite <- Tr, <- Tr', <- HN.
    apply (traverse_ext c K K _ _ _ _ eq_refl). intros a Ha. unfold accept, passes. f_equal.
    apply existsb_perm. unfold tgt_rows. rewrite !firstn_app.
    pose proof (covered_bounds (batch c (e_simd E)) (c_end cn - c_begin cn) (batch_pos c (e_simd E) (simd_pos E HE))) as [C1 _].
    assert (L1 : length pst = n) by (unfold pst; now rewrite map_length, seq_length).
    assert (L2 : length psu = n) by (unfold psu; now rewrite map_length, seq_length).
    rewrite !firstn_all2 with (l := slice _ _ _) by (rewrite slice_length; lia). rewrite !slice_length by lia.
    apply Permutation_app_tail, Permutation_sym, slices; [lia|exact S]. }
  destruct (V i Hci) as (r & Hr & Wr & Vr). destruct (V' (pos i) (proj2 (S i Hci))) as (r' & Hr' & Wr' & Vr'). rewrite <- X in Vr'.
  assert (RR : result_row Rops E K q t mv G eps2 i = fst r ++ snd r).
  { unfold result_row. replace i with (c_begin cn + (i - c_begin cn)) by lia.
    apply (row_at_crit Rops E K q t Ht mv G eps2 pad cn res (i - c_begin cn) r); auto. lia. }
  destruct (S i Hci) as [_ Hp].
  assert (RR' : result_row Rops E K q u mv G eps2 (pos i) = fst r' ++ snd r').
  { unfold result_row. rewrite <- Hbox. fold pad. replace (pos i) with (c_begin cn + (pos i - c_begin cn)) by lia.
    apply (row_at_crit Rops E K q u Hu mv G eps2 pad cn res' (pos i - c_begin cn) r'); auto. lia. }
  rewrite RR, RR'. pose proof (shape_length E q r Wr) as L. pose proof (shape_length E q r' Wr') as L'.
  assert (NC : nvecs_res E q = ncomp c q) by (unfold nvecs_res, ncomp; destruct q; cbn; lia).
  apply nth_ext with (d := 0%R) (d' := 0%R); [rewrite L, L'; reflexivity|]. intros j Hj. rewrite L, NC in Hj.
  change (comp j r = comp j r'). rewrite (Vr j Hj), (Vr' j Hj). rewrite (Nt i Hi), (Nu (pos i)) by (now apply (pos_spec Rops E t u Ht Hu v Hvt Hvu)).
  rewrite (part_pos i Hi). do 2 f_equal.
  (* the particles treated one by one *)
  set (evs := pre ++ post) in *.
  assert (PD : Permutation (map pos (filter (fun k => negb (k =? i)) (seq (c_begin cn) (c_end cn - c_begin cn)) ++ flat_map node_idx (directs evs)))
                           (filter (fun k => negb (k =? pos i)) (seq (c_begin cn) (c_end cn - c_begin cn)) ++ flat_map node_idx (directs evs))).
  { rewrite map_app. apply Permutation_app.
    - transitivity (filter (fun k => negb (k =? pos i)) (map pos (seq (c_begin cn) (c_end cn - c_begin cn)))); [|apply Permutation_filter, range_perm, S].
      assert (Q : forall l, (forall k, In k l -> k < n) -> map pos (filter (fun k => negb (k =? i)) l) = filter (fun k => negb (k =? pos i)) (map pos l)).
      { induction l as [|k l IH]; intros Hl; [reflexivity|]. cbn [filter map].
        assert (Y : (pos k =? pos i) = (k =? i)).
        { destruct (Nat.eqb_spec k i) as [->|Hne]; [apply Nat.eqb_refl|]. apply Nat.eqb_neq. intros Hpk. apply Hne.
          apply (pos_inj Rops E t u Ht Hu v Hvt Hvu k i); auto. apply Hl. now left. }
        rewrite Y. destruct (k =? i); cbn [negb map]; rewrite IH; auto; intros; apply Hl; now right. }
      rewrite Q; [reflexivity|]. intros k Hk. apply in_seq in Hk. apply S. lia.
    - assert (Q : forall l, (forall a, In a l -> In a (t_nodes t)) -> Permutation (map pos (flat_map node_idx l)) (flat_map node_idx l)).
      { induction l as [|a l IH]; intros Hl; [apply perm_nil|]. cbn [flat_map]. rewrite map_app. apply Permutation_app; [apply node_perm, Hl; now left|].
        apply IH. intros b Hb. apply Hl. now right. }
      apply Q. intros a Ha. unfold directs in Ha. apply in_flat_map in Ha as (e & He & Ha). rewrite Forall_forall in Ev. specialize (Ev _ He).
      destruct e as [a'|a']; [destruct Ha|]. destruct Ha as [->|[]]. exact (proj1 Ev). }
  rewrite <- (rsum_perm _ _ _ _ PD), rsum_map. apply rsum_ext. intros k Hk.
  assert (Hkn : k < n).
  { apply in_app_or in Hk as [Hk|Hk].
    - apply filter_In in Hk as [Hk _]. apply in_seq in Hk. apply S. lia.
    - apply in_flat_map in Hk as (a & Ha & Hk). unfold directs in Ha. apply in_flat_map in Ha as (e & He & Ha). rewrite Forall_forall in Ev. specialize (Ev _ He).
      destruct e as [a'|a']; [destruct Ha|]. destruct Ha as [->|[]]. unfold node_idx in Hk. apply in_seq in Hk.
      apply (pos_node Rops E t u Ht Hu v Hvt Hvu Hbox a k); [exact (proj1 Ev)|lia]. }
  rewrite (Nt k Hkn), (Nu (pos k)) by (now apply (pos_spec Rops E t u Ht Hu v Hvt Hvu)). now rewrite (part_pos k Hkn).
Qed.

(** Every call with results in the original order gives the same results, or the same exception. *)
Lemma same_forces : forall ord ord' q theta G eps split out, room E t -> reorders ord -> reorders ord' -> out_ok n (nvecs_res E q) out ->
  acc_pot_dispatch Rops OD E K ord true q t theta G eps split out = acc_pot_dispatch Rops OD E K ord' true q u theta G eps split out.
Proof.
  intros ord ord' q theta G eps split out Hroom Ho Ho' Hout. pose proof (room_eq Hroom) as Hroom'.
  pose proof Hout as Hout'. rewrite <- codes_eq in Hout'.
  destruct (params_dec Rops OD E t theta G eps split) as [(mv & eps2 & Hp)|Hn].
  - assert (Hp' : params Rops OD E u theta G eps split mv eps2) by exact Hp.
    destruct (dispatch_ok Rops OD E K HE HK ord true q t theta G eps split mv eps2 out Ht Hroom Ho Hp Hout) as (o1 & -> & [L1 _] & V1 & U1 & _).
    destruct (dispatch_ok Rops OD E K HE HK ord' true q u theta G eps split mv eps2 out Hu Hroom' Ho' Hp' Hout') as (o2 & -> & [L2 _] & V2 & U2 & _).
    rewrite codes_eq in V2, U2.
    f_equal. apply nth_ext with (d := []) (d' := []); [rewrite L1, L2; reflexivity|]. intros j Hj. rewrite L1 in Hj. apply list_ext. intros k.
    destruct (Nat.lt_ge_cases k n) as [L|L].
    + destruct (dst_onto Rops E true t Ht k L) as (i & Hi & ->). rewrite V1 by assumption.
      destruct (pos_spec Rops E t u Ht Hu v Hvt Hvu i Hi) as (Hp1 & _ & Hd). unfold dst. rewrite <- Hd.
      symmetry. etransitivity; [exact (V2 j (pos i) Hj Hp1)|]. symmetry.
      destruct Hp as (Hmv & He & _). destruct (eps2_R eps eps2 He) as [_ ->]. f_equal. now apply row_eq.
    + now rewrite U1, U2.
  - assert (Hn' : forall mv eps2, ~ params Rops OD E u theta G eps split mv eps2) by exact Hn.
    destruct (dispatch_not_params Rops OD E K t theta G eps split Ht Hroom Hn) as (e & _ & H).
    destruct (dispatch_not_params Rops OD E K u theta G eps split Hu Hroom' Hn') as (e' & _ & H').
    rewrite H, H'. specialize (H ord false q out). specialize (H' ord' false q out). f_equal.
    unfold acc_pot_dispatch in H, H'.
    destruct (mac_value_of Rops E theta) as [mv| |] eqn:M1; cbn [bind] in H, H'; [|congruence|congruence].
    destruct (compute_eps2 Rops eps) as [eps2| |] eqn:M2; cbn [bind] in H, H'; [|congruence|congruence].
    destruct (check_G_const Rops G) as [[]| |] eqn:M3; cbn [bind] in H, H'; [|congruence|congruence].
    unfold acc_pot_impl in H, H'. destruct (check_split OD split) as [[]| |] eqn:M4; cbn [bind] in H, H'; [|congruence|congruence].
    destruct (Nat.ltb_spec 1 (length split)); [congruence|]. exfalso. apply (Hn mv eps2). repeat split; auto.
Qed.

End SameR.
