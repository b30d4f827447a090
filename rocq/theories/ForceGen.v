(** The computation of the forces on all the particles, for every arithmetic: absence of undefined
    behaviour, the rows of results, and where they are written. *)
From Coq Require Import List Arith NArith ZArith Lia Bool Reals Permutation.
From Verif Require Import Base Config Morton MortonProofs Build TreeSpec BuildProps FOps Disc NodeProps Tree TreeInv TreeProofs TreeSafe Kernels Force
  TravProofs KernLoops SelfSum.
Import ListNotations.
Local Open Scope nat_scope.

Section Gen.

Context {F : Type}.
Variable O : fops F.
Context {D : Type}.
Variable OD : fops D.
Variable E : env.
Variable K : platform F.
Hypothesis HE : env_ok E.
Hypothesis HK : benign_shift K.

Notation c := (e_cfg E).
Notation bw := (batch c (e_simd E)).
Notation cov := (covered bw).

Lemma simd_pos : match e_simd E with Some b => 0 < b | None => True end.
Proof. destruct (e_simd E) eqn:S; [|exact I]. now apply HE. Qed.

(** * The particles *)

(** The particles as rows. *)
Definition rows_of (t : @tree F) (ps : list (@prow F)) : Prop :=
  mapM (particle c (t_parts t)) (seq 0 (length (t_codes t))) = Ok ps.

Lemma particle_ok : forall (cols : list (list F)) n i, table E cols n -> i < n ->
  exists p, particle c cols i = Ok p /\ length (fst p) = dim c.
Proof.
  intros cols n i [T1 T2] Hi. unfold particle.
  assert (M : exists xs, mapM (fun col => rd col i) (firstn (dim c) cols) = Ok xs).
  { assert (A : Forall (fun col => length col = n) (firstn (dim c) cols)).
    { apply Forall_forall. intros col Hc. apply firstn_In in Hc. rewrite Forall_forall in T2. auto. }
    induction A as [|col l Hc A [xs IH]]; [now exists []|]. cbn [mapM].
    destruct (rd_lt col i ltac:(lia)) as [x ->]. cbn [bind]. rewrite IH. cbn [bind]. eauto. }
  destruct M as [xs M]. rewrite M. cbn [bind].
  destruct (rd_lt cols (dim c) ltac:(lia)) as [mcol Hm]. rewrite Hm. cbn [bind]. apply rd_Ok in Hm.
  rewrite Forall_forall in T2. pose proof (T2 mcol (nth_error_In _ _ Hm)).
  destruct (rd_lt mcol i ltac:(lia)) as [ms ->]. cbn [bind]. exists (xs, ms). split; [reflexivity|]. cbn [fst].
  apply mapM_Ok in M as [M _]. rewrite M, firstn_length. lia.
Qed.

Lemma rows_exist : forall t, tree_inv O E t -> exists ps, rows_of t ps /\ length ps = length (t_codes t) /\
  Forall (fun p => length (fst p) = dim c) ps.
Proof.
  intros t Ht. unfold rows_of. pose proof (inv_table O E t Ht) as T. set (n := length (t_codes t)) in *. 
  assert (X : forall len b, b + len <= n -> exists ps, mapM (particle c (t_parts t)) (seq b len) = Ok ps /\ length ps = len /\
     Forall (fun p => length (fst p) = dim c) ps).
  { induction len as [|len IH]; intros b Hb; cbn [seq mapM]; [exists []; auto|].
    destruct (particle_ok (t_parts t) n b T ltac:(lia)) as (p & -> & Hp). cbn [bind].
    destruct (IH (S b) ltac:(lia)) as (ps & -> & L & A). cbn [bind]. exists (p :: ps). cbn [length]. auto. }
  destruct (X n 0 ltac:(lia)) as (ps & H). now exists ps.
Qed.

Lemma rows_slice : forall t ps b e, rows_of t ps -> b <= e <= length (t_codes t) ->
  mapM (particle c (t_parts t)) (seq b (e - b)) = Ok (slice ps b e).
Proof.
  intros t ps b e H Hbe. apply mapM_Ok. apply mapM_Ok in H as [L H]. rewrite seq_length in *.
  split; [apply slice_length; lia|]. intros i a Ha. rewrite nth_error_seq in Ha. destruct (Nat.ltb_spec i (e - b)); [|discriminate].
  injection Ha as <-. destruct (H (b + i) (b + i)) as (p & H1 & H2).
  { rewrite nth_error_seq. destruct (Nat.ltb_spec (b + i) (length (t_codes t))); [reflexivity|lia]. }
  exists p. split; [|exact H2]. rewrite nth_error_slice. destruct (Nat.ltb_spec i (e - b)); [exact H1|lia].
Qed.

(** * One critical node *)

Lemma psize_ok : forall n ps, pdata_size E n = Ok ps -> n + bw - 1 <= ps /\ n <= ps /\
  covered (match e_simd E with Some b => b | None => 1 end) n <= ps.
Proof.
  intros n ps H. unfold pdata_size in H. pose proof simd_pos as S. unfold batch in *. destruct (e_simd E) as [b|].
  - destruct (_ <? _)%N; [discriminate|]. injection H as <-. pose proof (covered_bounds b n S) as [_ C].
    destruct (dim c) as [|[|[|[|?]]]]; lia.
  - injection H as <-. pose proof (covered_bounds 1 n ltac:(lia)) as [_ C]. lia.
Qed.

(** The padding particles. *)
Definition pad_row (pad : F) : @prow F := (repeat pad (dim c), fofZ O 0%Z).

Lemma target_ok : forall t ps pad b e psize, rows_of t ps -> b <= e <= length (t_codes t) ->
  target_data O E (t_parts t) pad b (e - b) psize = Ok (slice ps b e ++ repeat (pad_row pad) (psize - (e - b))).
Proof.
  intros t ps pad b e psize H Hbe. unfold target_data. rewrite (rows_slice t ps b e H Hbe). reflexivity.
Qed.

(** A critical node is a node of the tree. *)
Lemma crit_node : forall t cn, tree_inv O E t -> In cn (t_crit t) ->
  exists nd, In nd (t_nodes t) /\ n_code nd = c_code cn /\ n_begin nd = c_begin cn /\ n_end nd = c_end cn /\
    c_begin cn < c_end cn <= length (t_codes t).
Proof.
  intros t [code b e] Ht Hin.
  assert (R : forall A, reorders (fun l : list A => l)) by (intros A l; apply Permutation_refl).
  pose proof (inv_nodes _ _ _ Ht 0 _ _ (R _) (R _)) as HB.
  pose proof (inv_valid_codes O E t Ht) as Hv.
  destruct (crit_partition c (t_codes t) (t_mln t) (t_ncrit t) _ _ Hv 0 _ _ _ _ (R _) (R _) HB) as [_ P].
  apply P in Hin as (nd & H1 & H2 & H3 & H4 & _). exists nd. cbn [c_code c_begin c_end]. rewrite <- H3, <- H4.
  destruct (node_ranges c (t_codes t) (t_mln t) (t_ncrit t) _ _ Hv 0 _ _ _ _ (R _) (R _) HB nd H1) as (_ & _ & _ & _ & Hr & _). auto.
Qed.

Lemma crit_tiles : forall t, tree_inv O E t -> tiles 0 (map (fun x => (c_begin x, c_end x)) (t_crit t)) (length (t_codes t)).
Proof.
  intros t Ht.
  assert (R : forall A, reorders (fun l : list A => l)) by (intros A l; apply Permutation_refl).
  pose proof (inv_nodes _ _ _ Ht 0 _ _ (R _) (R _)) as HB.
  pose proof (inv_valid_codes O E t Ht) as Hv.
  exact (proj1 (crit_partition c (t_codes t) (t_mln t) (t_ncrit t) _ _ Hv 0 _ _ _ _ (R _) (R _) HB)).
Qed.

(** The rows of results of a critical node, before they are written (tree.hpp 2928-3002). *)
Definition crit_rows (q : quant) (t : @tree F) (mac_value G eps2 pad : F) (cn : cnode) : outcome (list (@rrow F)) :=
  let b := c_begin cn in
  let tgt_size := c_end cn - b in
  do psize <- pdata_size E tgt_size;
  do tgt <- target_data O E (t_parts t) pad b tgt_size psize;
  do res <- tree_acc_pot O c (e_simd E) K q mac_value eps2 (t_parts t) (t_nodes t) (c_code cn)
              tgt_size tgt (repeat (row0 O c q) psize);
  scale_G O E G tgt_size res.

Lemma crit_run_rows : forall q t mac_value G eps2 pad dest out cn,
  crit_run O E K q t mac_value G eps2 pad dest out cn =
  do res <- crit_rows q t mac_value G eps2 pad cn;
  write_out dest (c_begin cn) (c_end cn - c_begin cn) (nvecs_res E q) res out.
Proof.
  intros. unfold crit_run, crit_rows. cbv zeta.
  destruct (pdata_size _ _) as [psize| |]; cbn [bind]; try reflexivity.
  destruct (target_data _ _ _ _ _ _ _) as [tgt| |]; cbn [bind]; try reflexivity.
  destruct (tree_acc_pot _ _ _ _ _ _ _ _ _ _ _ _ _) as [res| |]; reflexivity.
Qed.

(** Shape of the rows. *)
Definition shape_ok (q : quant) (r : @rrow F) : Prop :=
  length (fst r) = (if has_acc q then dim c else 0) /\ length (snd r) = (if has_pot q then 1 else 0).

Lemma shape_length : forall q r, shape_ok q r -> length (fst r ++ snd r) = nvecs_res E q.
Proof. intros q r [H1 H2]. rewrite app_length, H1, H2. destruct q; cbn; lia. Qed.

Definition p_ok (p : @prow F) : Prop := length (fst p) = dim c.

Lemma shape0 : forall q, shape_ok q (row0 O c q).
Proof. intros q. unfold shape_ok, row0. cbn [fst snd]. destruct (has_acc q), (has_pot q); rewrite ?repeat_length; auto. Qed.

Lemma diffs_len : forall x y, length x = dim c -> length y = dim c -> length (diffs O x y) = dim c.
Proof. intros x y H1 H2. unfold diffs. rewrite map_length, combine_length. lia. Qed.

Lemma zip_len : forall {A} (f : F * F -> A) q r ds, shape_ok q r -> length ds = dim c ->
  length (map f (combine ds (fst r))) = (if has_acc q then dim c else 0).
Proof. intros A f q r ds [H _] L. rewrite map_length, combine_length. destruct (has_acc q); lia. Qed.

Lemma self_shape : forall q eps2 p1 p2 a r, p_ok p1 -> p_ok p2 -> shape_ok q a -> shape_ok q r ->
  shape_ok q (fst (self_pair O c (e_simd E) K q eps2 p1 p2 a r)) /\
  shape_ok q (snd (self_pair O c (e_simd E) K q eps2 p1 p2 a r)).
Proof.
  intros q eps2 p1 p2 a r P1 P2 A B. pose proof (diffs_len (fst p2) (fst p1) P2 P1) as L. unfold self_pair. cbv zeta.
  destruct (negb _).
  - unfold shape_ok at 1 2. cbn [fst snd]. rewrite !(zip_len _ q) by auto. rewrite !map_length. split; (split; [reflexivity|]); [apply A|apply B].
  - destruct (fast_inv_sqrt O K); unfold shape_ok at 1 2; cbn [fst snd]; unfold axpy; rewrite !(zip_len _ q) by auto; rewrite !map_length;
      split; (split; [reflexivity|]); (apply A || apply B).
Qed.

Lemma leaf_shape : forall q eps2 p1 p2 r, p_ok p1 -> p_ok p2 -> shape_ok q r ->
  shape_ok q (leaf_pair O c (e_simd E) K q eps2 p1 p2 r).
Proof.
  intros q eps2 p1 p2 r P1 P2 A. pose proof (diffs_len (fst p2) (fst p1) P2 P1) as L. unfold leaf_pair. cbv zeta.
  pose proof A as [A1 A2].
  destruct (negb _).
  - unfold shape_ok. cbn [fst snd]. unfold axpy. rewrite (zip_len _ q) by auto. rewrite map_length. auto.
  - destruct q; [| |destruct (fast_inv_sqrt O K)]; unfold shape_ok; cbn [fst snd]; unfold axpy; rewrite ?(zip_len _ QAcc), ?(zip_len _ QBoth) by auto; rewrite ?map_length; auto.
Qed.

Lemma com_shape : forall q eps2 com m p1 r, p_ok p1 -> length com = dim c -> shape_ok q r ->
  shape_ok q (com_pair O c (e_simd E) K m p1 (snd (mac_lane O c (e_simd E) K eps2 com p1)) r).
Proof.
  intros q eps2 com m p1 r P1 Lc A. pose proof (diffs_len com (fst p1) Lc P1) as L. pose proof A as [A1 A2].
  unfold com_pair, mac_lane. cbv zeta. cbn [snd].
  destruct (vectorised _ _), (fast_inv_sqrt O K); cbn [negb tmp_diffs tmp_dist tmp_dist3]; unfold shape_ok; cbn [fst snd]; unfold axpy;
    rewrite (zip_len _ q) by auto; rewrite map_length; auto.
Qed.

Lemma add_shape : forall q r a, shape_ok q r -> shape_ok q a -> shape_ok q (add_rows O r a).
Proof.
  intros q r a [A1 A2] [B1 B2]. unfold shape_ok, add_rows. cbn [fst snd]. rewrite !map_length, !combine_length. lia.
Qed.

Lemma scale_shape : forall q G r, shape_ok q r -> shape_ok q (scale_row O G r).
Proof. intros q G r [A1 A2]. unfold shape_ok, scale_row. cbn [fst snd]. rewrite !map_length. auto. Qed.


(** * Centres of mass *)

Lemma acc_step_length : forall (ccols : list (list F)) mcol a i a', acc_step O ccols mcol a i = Ok a' ->
  length (snd a) = length ccols -> length (snd a') = length ccols.
Proof.
  intros ccols mcol a i a' H L. unfold acc_step in H. apply bind_Ok in H as (ms & _ & H). apply bind_Ok in H as (com & H1 & H).
  injection H as <-. cbn [snd]. apply mapM_length in H1. rewrite H1, combine_length. lia.
Qed.

Lemma node_sums_length : forall (ccols : list (list F)) mcol b e a, length ccols = dim c ->
  node_sums O c (e_simd E) (e_hadd E) ccols mcol b e = Ok a -> length (snd a) = dim c.
Proof.
  intros ccols mcol b e a Lc H. unfold node_sums in H. cbv zeta in H.
  assert (S : forall l a0, length (snd a0) = dim c -> foldM (acc_step O ccols mcol) l a0 = Ok a -> length (snd a) = dim c).
  { induction l as [|i l IH]; intros a0 L0 H0; cbn [foldM] in H0; [injection H0 as <-; exact L0|].
    apply bind_Ok in H0 as (a1 & H1 & H0). eapply IH; [|exact H0]. rewrite <- Lc. eapply acc_step_length; [exact H1|]. congruence. }
  assert (Z : length (snd (zero_acc O c)) = dim c) by (cbn [zero_acc snd]; apply repeat_length).
  destruct (e_simd E) as [b0|].
  - destruct (dim c) as [|[|[|[|k]]]] eqn:Ed; try (rewrite <- Ed in *; eapply S; [exact Z|exact H]).
    apply bind_Ok in H as (lanes & _ & H). rewrite <- Ed in *. eapply S; [|exact H]. cbn [snd]. now rewrite map_length, seq_length.
  - eapply S; [exact Z|exact H].
Qed.

Lemma com_length : forall t nd, tree_inv O E t -> In nd (t_nodes t) -> length (p_com (n_props nd)) = dim c.
Proof.
  intros t nd Ht Hin.
  assert (R : forall A, reorders (fun l : list A => l)) by (intros A l; apply Permutation_refl).
  pose proof (inv_nodes _ _ _ Ht 0 _ _ (R _) (R _)) as HB.
  destruct (built c (t_codes t) (t_mln t) (t_ncrit t) _ _ (inv_valid_codes O E t Ht) 0 _ _ _ _ (R _) (R _) HB) as [(_ & HN & _)|(_ & HF & _)].
  { rewrite HN in Hin. destruct Hin. }
  destruct (tree_nodes _ _ _ _ _ _ HF nd Hin) as (l & p' & _ & (_ & _ & _ & _ & _ & E6)).
  cbn [fst snd] in *. unfold BuildProofs.cnp_of in E6. cbn [fst snd] in E6.
  unfold cnp, compute_node_properties in E6. apply bind_Ok in E6 as (mcol & _ & E6). apply bind_Ok in E6 as ([tot com0] & Es & E6).
  apply node_sums_length in Es; [|rewrite firstn_length; pose proof (inv_ncols _ _ _ Ht); lia]. cbn [snd] in Es.
  apply bind_Ok in E6 as (geo & Eg & E6).
  assert (Lg : length geo = dim c).
  { unfold get_node_centre in Eg. cbv zeta in Eg. apply bind_Ok in Eg as (? & _ & Eg). apply bind_Ok in Eg as (? & _ & Eg).
    injection Eg as <-. rewrite map_length. destruct c; reflexivity. }
  set (com := if feq O tot _ then geo else _) in E6.
  assert (Lcom : length com = dim c) by (unfold com; destruct (feq O tot _); [exact Lg|rewrite map_length; exact Es]).
  destruct (negb _); [discriminate|]. destruct (negb _); [discriminate|]. destruct (e_mac E).
  - destruct (ffin O _); [|discriminate]. injection E6 as <-. exact Lcom.
  - destruct (negb _); [discriminate|]. destruct (ffin O _); [|discriminate]. injection E6 as <-. exact Lcom.
Qed.

(** * The traversal for a critical node *)

(** Data of the target: the particles of the critical node and the padding. *)
Definition tgt_rows (ps : list (@prow F)) (pad : F) (cn : cnode) (psize : nat) : list (@prow F) :=
  slice ps (c_begin cn) (c_end cn) ++ repeat (pad_row pad) (psize - (c_end cn - c_begin cn)).

Lemma far_ok : forall q t ps mac_value eps2 pad cn psize, tree_inv O E t -> In cn (t_crit t) -> rows_of t ps ->
  c_end cn - c_begin cn + bw - 1 <= psize -> c_end cn - c_begin cn <= psize ->
  let size := c_end cn - c_begin cn in
  let tgt := tgt_rows ps pad cn psize in
  let acc := accept O c (e_simd E) K mac_value eps2 size tgt in
  length tgt = psize /\ Forall p_ok tgt /\
  exists nd pre post res, In nd (t_nodes t) /\ n_code nd = c_code cn /\ n_begin nd = c_begin cn /\ n_end nd = c_end cn /\
    traverse c K (ev_check acc) (t_nodes t) (c_code cn) (length (t_nodes t)) 0 [] = Ok (pre ++ post) /\
    tiles 0 (map ev_range pre) (c_begin cn) /\ tiles (c_end cn) (map ev_range post) (length (t_codes t)) /\
    Forall (ev_ok c (t_nodes t) acc nd) (pre ++ post) /\
    traverse c K (mac_check O c (e_simd E) K q mac_value eps2 (t_parts t) size tgt) (t_nodes t) (c_code cn)
      (length (t_nodes t)) 0 (repeat (row0 O c q) psize) = Ok res /\
    length res = psize /\ Forall (shape_ok q) res /\
    forall k p1, k < size -> nth_error tgt k = Some p1 ->
      nth_error res k = Some (fold_left (row_act O c (e_simd E) K q eps2 ps p1) (pre ++ post) (row0 O c q)).
Proof.
  intros q t ps mac_value eps2 pad cn psize Ht Hcn Hps Hp1 Hp2 size tgt acc.
  destruct (crit_node t cn Ht Hcn) as (nd & N1 & N2 & N3 & N4 & N5).
  destruct (rows_exist t Ht) as (ps' & R1 & R2 & R3). assert (ps' = ps) as -> by (unfold rows_of in *; congruence).
  assert (Lt : length tgt = psize).
  { unfold tgt, tgt_rows. rewrite app_length, slice_length, repeat_length by lia. fold size. unfold size. lia. }
  assert (Pt : Forall p_ok tgt).
  { unfold tgt, tgt_rows. apply Forall_app. split.
    - apply Forall_forall. intros p Hp. unfold slice in Hp. apply firstn_In, skipn_In in Hp. rewrite Forall_forall in R3. exact (R3 p Hp).
    - apply Forall_forall. intros p Hp. apply repeat_spec in Hp. subst p. unfold p_ok, pad_row. cbn [fst]. apply repeat_length. }
  split; [exact Lt|]. split; [exact Pt|].
  assert (R : forall A, reorders (fun l : list A => l)) by (intros A l; apply Permutation_refl).
  pose proof (inv_nodes _ _ _ Ht 0 _ _ (R _) (R _)) as HB.
  pose proof (inv_valid_codes O E t Ht) as Hv.
  destruct (traverse_covers c K (t_codes t) (t_mln t) (t_ncrit t) _ Hv 0 _ _ _ _ (R _) (R _) HB HK acc nd N1) as (pre & post & T1 & T2 & T3 & T4).
  rewrite N2, N3, N4 in *.
  pose proof (batch_pos c (e_simd E) simd_pos) as Bp.
  destruct (covered_bounds bw size Bp) as [C1 C2]. fold size in Hp1.
  assert (Hin : Forall (fun e => n_end (ev_node e) <= length (t_codes t)) (pre ++ post)).
  { eapply Forall_impl; [|exact T4]. intros e [He _]. destruct (node_code_shape O E t (ev_node e) Ht He) as (_ & _ & _ & _ & H). lia. }
  destruct (traverse_rows O c (e_simd E) K simd_pos q mac_value eps2 (t_parts t) (length (t_codes t)) ps R1 size tgt ltac:(lia)
    (t_nodes t) (c_code cn) (pre ++ post) (repeat (row0 O c q) psize) T1 Hin) as (res & S1 & S2 & S3 & S4).
  { rewrite repeat_length. lia. }
  rewrite repeat_length in S2.
  exists nd, pre, post, res. do 9 (split; [assumption|]). split; [exact S2|].
  assert (Ev : forall k p1, k < covered bw size -> nth_error tgt k = Some p1 ->
      nth_error res k = Some (fold_left (row_act O c (e_simd E) K q eps2 ps p1) (pre ++ post) (row0 O c q))).
  { intros k p1 Hk Hp. apply (S3 k p1 (row0 O c q)); auto. rewrite nth_error_nth' with (d := row0 O c q) by (rewrite repeat_length; lia).
    f_equal. apply nth_repeat. }
  split; [|intros k p1 Hk Hp; apply Ev; [lia|exact Hp]].
  apply Forall_forall. intros r Hr. apply In_nth_error in Hr as [k Hk].
  assert (Hk' : k < psize) by (rewrite <- S2; exact (nth_error_lt _ _ _ Hk)).
  destruct (Nat.lt_ge_cases k (covered bw size)) as [L|L].
  - destruct (nth_error tgt k) as [p1|] eqn:Hp1'; [|apply nth_error_None in Hp1'; lia].
    rewrite (Ev k p1 L Hp1') in Hk. injection Hk as <-.
    assert (P1 : p_ok p1) by (rewrite Forall_forall in Pt; apply Pt; eapply nth_error_In; eauto).
    assert (G : forall evs r0, Forall (ev_ok c (t_nodes t) acc nd) evs -> shape_ok q r0 ->
      shape_ok q (fold_left (row_act O c (e_simd E) K q eps2 ps p1) evs r0)).
    { induction evs as [|e evs IH]; intros r0 Hev H0; [exact H0|]. pose proof (Forall_inv Hev) as He. pose proof (Forall_inv_tail Hev) as Hev'. cbn [fold_left]. apply IH; [exact Hev'|].
      destruct e as [a|a]; cbn [row_act]; destruct He as (Ha & _); cbn [ev_node] in Ha.
      - apply com_shape; auto. eapply com_length; eauto.
      - assert (Forall p_ok (slice ps (n_begin a) (n_end a))) as Ps.
        { apply Forall_forall. intros p Hp. unfold slice in Hp. apply firstn_In, skipn_In in Hp. rewrite Forall_forall in R3. exact (R3 p Hp). }
        revert r0 H0. generalize dependent (slice ps (n_begin a) (n_end a)). intros sl Ps. induction Ps as [|p2 l Hq2 Ps IH2]; intros r0 H0; [exact H0|]. cbn [fold_left]. apply IH2. now apply leaf_shape. }
    apply G; [exact T4|apply shape0].
  - rewrite (S4 k L) in Hk. apply nth_error_In, repeat_spec in Hk. subst r. apply shape0.
Qed.

(** * The scaling by G *)
Lemma scale_ok : forall q G size (res : list (@rrow F)), covered (match e_simd E with Some b => b | None => 1 end) size <= length res ->
  Forall (shape_ok q) res ->
  exists res', scale_G O E G size res = Ok res' /\ length res' = length res /\ Forall (shape_ok q) res' /\
    forall k r, k < size -> nth_error res k = Some r ->
      nth_error res' k = Some (if feq O G (fofZ O 1%Z) then r else scale_row O G r).
Proof.
  intros q G size res Hl Hs. unfold scale_G. destruct (feq O G _).
  - exists res. auto.
  - pose proof simd_pos as S. set (b := match e_simd E with Some b => b | None => 1 end) in *.
    assert (Bp : 0 < b) by (unfold b; destruct (e_simd E); [exact S|lia]).
    destruct (batch_map_Ok b (fun _ r => Ok (scale_row O G r)) (fun _ r => scale_row O G r) size res Bp Hl) as (res' & E1 & L & N); [reflexivity|].
    exists res'. split; [exact E1|]. split; [exact L|]. split.
    + apply Forall_forall. intros r Hr. apply In_nth_error in Hr as [k Hk]. rewrite N in Hk. rewrite Forall_forall in Hs.
      destruct (k <? covered b size).
      * destruct (nth_error res k) as [r0|] eqn:H0; [|discriminate]. injection Hk as <-. apply scale_shape, Hs. eapply nth_error_In; eauto.
      * apply Hs. eapply nth_error_In; eauto.
    + intros k r Hk Hr. rewrite N, Hr. destruct (Nat.ltb_spec k (covered b size)); [reflexivity|].
      pose proof (covered_bounds b size Bp). lia.
Qed.

(** * A whole critical node *)
Lemma crit_rows_ok : forall q t mac_value G eps2 pad cn psize, tree_inv O E t -> In cn (t_crit t) ->
  pdata_size E (c_end cn - c_begin cn) = Ok psize ->
  exists res, crit_rows q t mac_value G eps2 pad cn = Ok res /\ length res = psize /\ Forall (shape_ok q) res.
Proof.
  intros q t mac_value G eps2 pad cn psize Ht Hcn Hsz.
  destruct (psize_ok _ _ Hsz) as (P1 & P2 & P3).
  destruct (rows_exist t Ht) as (ps & R1 & _ & _).
  destruct (crit_node t cn Ht Hcn) as (_ & _ & _ & _ & _ & N5).
  destruct (far_ok q t ps mac_value eps2 pad cn psize Ht Hcn R1 P1 P2) as (Lt & Pt & nd & pre & post & res & _ & _ & _ & _ & _ & _ & _ & _ & T & Lr & Sr & _).
  unfold crit_rows. cbv zeta. rewrite Hsz. cbn [bind].
  rewrite (target_ok t ps pad (c_begin cn) (c_end cn) psize R1) by lia. cbn [bind]. fold (tgt_rows ps pad cn psize).
  unfold tree_acc_pot. rewrite T. cbn [bind].
  destruct (self_sum O c (e_simd E) K simd_pos q eps2 p_ok (shape_ok q) (fun _ => 0%R) (fun _ _ => 0%R) (pad_row pad)) with
    (tgt := tgt_rows ps pad cn psize) (n := c_end cn - c_begin cn) (res := res) as (res1 & S1 & S2 & S3 & _); auto.
  { apply shape0. }
  { intros p1 p2 a r W1 W2 Wa Wr. destruct (self_shape q eps2 p1 p2 a r W1 W2 Wa Wr) as [A B]. repeat split; auto; try apply A; try apply B; ring. }
  { intros r a Wr Wa. split; [now apply add_shape|ring]. }
  { unfold p_ok, pad_row. cbn [fst]. apply repeat_length. }
  { lia. }
  { congruence. }
  rewrite S1. cbn [bind].
  destruct (scale_ok q G (c_end cn - c_begin cn) res1) as (res' & E1 & L & W & _); [lia|exact S3|].
  exists res'. split; [exact E1|]. split; [congruence|exact W].
Qed.

End Gen.
