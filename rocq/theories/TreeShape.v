(** How the results of the particles of a critical node are accumulated, for every arithmetic. *)
From Coq Require Import List Arith NArith ZArith Lia Bool Reals Permutation.
From Verif Require Import Base Config Morton Build TreeSpec FOps Disc NodeProps Tree TreeInv TreeProofs TreeSafe Kernels Force
  TravProofs KernLoops SelfSum SelfShape ForceGen ForceOut ForceR ForceTop ForceRTop RoundNode RoundExact.
Import ListNotations.
Local Open Scope nat_scope.

Lemma flat_one : forall A (f : A -> list nat) l, (forall a, In a l -> f a <> []) -> length l <= length (flat_map f l).
Proof.
  induction l as [|a l IH]; intros H; [cbn; lia|]. cbn [flat_map length]. rewrite app_length.
  assert (length (f a) <> 0). { destruct (f a) eqn:X; [|cbn; lia]. now elim (H a (or_introl eq_refl)). }
  assert (length l <= length (flat_map f l)) by (apply IH; intros; apply H; now right). lia.
Qed.

Lemma map_const : forall A B (b : B) (l : list A), map (fun _ => b) l = repeat b (length l).
Proof. induction l as [|a l IH]; [reflexivity|]. cbn. now rewrite IH. Qed.

Section Tree.

Context {F : Type}.
Variable O : fops F.
Variable E : env.
Variable K : platform F.
Hypothesis HE : env_ok E.
Hypothesis HK : benign_shift K.

Notation c := (e_cfg E).
Notation bw := (batch c (e_simd E)).

Variables (q : quant) (t : @tree F) (P : nat -> @prow F).
Hypothesis Ht : tree_inv O E t.
Hypothesis HP : forall i, i < length (t_codes t) -> row (t_parts t) i (fst (P i) ++ [snd (P i)]).
Variables mac_value G eps2 pad : F.

Notation n := (length (t_codes t)).
Notation racc := (racc O c (e_simd E) K q eps2).
Notation srcP a := (p_com (n_props a), p_mass (n_props a)).
Notation ps := (map P (seq 0 n)).

Lemma rows_P : rows_of E t ps.
Proof.
  unfold rows_of. apply mapM_map. intros i Hi. apply in_seq in Hi. specialize (HP i ltac:(lia)).
  rewrite (proj1 (particle_gen O E t _ _ i Ht HP)). now rewrite <- surjective_pairing.
Qed.

Lemma slice_P : forall b e, b <= e <= n -> slice ps b e = map P (seq b (e - b)).
Proof.
  intros b e H. apply list_ext. intros i. rewrite nth_error_slice. destruct (Nat.ltb_spec i (e - b)) as [L|L].
  - rewrite !(map_nth_error P i (seq b (e - b)) (d := b + i)) by (rewrite nth_error_seq; destruct (Nat.ltb_spec i (e - b)); [reflexivity|lia]).
    apply map_nth_error. rewrite nth_error_seq. destruct (Nat.ltb_spec (b + i) n); [reflexivity|lia].
  - symmetry. apply nth_error_None. rewrite map_length, seq_length. exact L.
Qed.

(** The sources of the events. *)
Definition ev_srcs (evs : list (@event F)) : list (@prow F) :=
  map P (flat_map node_idx (directs evs)) ++ map (fun a => srcP a) (approxs evs).

Lemma leafs_racc : forall p1 l2 r l d, racc p1 r l d ->
  exists l', racc p1 (fold_left (fun r p2 => leaf_pair O c (e_simd E) K q eps2 p1 p2 r) l2 r) l' (length l2 + d) /\ Permutation l' (l2 ++ l).
Proof.
  intros p1. induction l2 as [|p2 l2 IH]; intros r l d H; cbn [fold_left].
  - exists l. split; [exact H|reflexivity].
  - destruct (IH _ (p2 :: l) (S d) (racc_leaf _ _ _ _ _ _ _ p2 _ _ _ H)) as (l' & H1 & H2). exists l'. split.
    + cbn [length]. now replace (S (length l2) + d) with (length l2 + S d) by lia.
    + rewrite H2. cbn [app]. now rewrite <- Permutation_middle.
Qed.

Lemma events_racc : forall p1 evs r l d, Forall (fun e => n_begin (ev_node e) <= n_end (ev_node e) <= n) evs -> racc p1 r l d ->
  exists l', racc p1 (fold_left (row_act O c (e_simd E) K q eps2 ps p1) evs r) l' (length (ev_srcs evs) + d) /\ Permutation l' (ev_srcs evs ++ l).
Proof.
  intros p1. induction evs as [|e evs IH]; intros r l d HF H; cbn [fold_left].
  - exists l. split; [exact H|reflexivity].
  - pose proof (Forall_inv HF) as He. pose proof (Forall_inv_tail HF) as HF'. destruct e as [a|a]; cbn [row_act ev_node] in *.
    + destruct (IH _ (srcP a :: l) (S d) HF' (racc_com _ _ _ _ _ _ _ (p_com (n_props a)) (p_mass (n_props a)) _ _ _ H)) as (l' & H1 & H2).
      exists l'. unfold ev_srcs in *. cbn [directs approxs flat_map app map] in *. fold (directs evs) (approxs evs). rewrite !app_length in *. cbn [map length] in *. split.
      * eapply eq_ind; [exact H1|]. lia.
      * rewrite H2. rewrite <- !app_assoc. apply Permutation_app_head. cbn [app]. now rewrite <- Permutation_middle.
    + destruct (leafs_racc p1 (slice ps (n_begin a) (n_end a)) r l d H) as (l1 & H1 & H2).
      destruct (IH _ l1 _ HF' H1) as (l' & H3 & H4). exists l'. rewrite slice_P in * by lia. fold (node_idx a) in *.
      unfold ev_srcs in *. cbn [directs approxs flat_map app map] in *. fold (directs evs) (approxs evs). rewrite map_app, !app_length in *. split.
      * eapply eq_ind; [exact H3|]. lia.
      * rewrite H4, H2. rewrite <- !app_assoc. rewrite (Permutation_app_swap_app (map P (node_idx a))).
        apply Permutation_app_head. apply Permutation_app_swap_app.
Qed.

(** The critical node [cn]: the nodes [A] that are approximated, the particles [Dl] of the other nodes, and how the result of the particle [i] is accumulated. *)
Lemma crit_shape : forall cn psize, In cn (t_crit t) -> pdata_size E (c_end cn - c_begin cn) = Ok psize ->
  exists A Dl, 
    let acc := accept O c (e_simd E) K mac_value eps2 (c_end cn - c_begin cn) (tgt_rows O E ps pad cn psize) in
    Permutation (seq (c_begin cn) (c_end cn - c_begin cn) ++ Dl ++ flat_map node_idx A) (seq 0 n) /\
    (forall a, In a A -> In a (t_nodes t) /\ acc a = true /\ (n_end a <= c_begin cn \/ c_end cn <= n_begin a)) /\
    exists res, crit_rows O E K q t mac_value G eps2 pad cn = Ok res /\
    forall i, c_begin cn <= i < c_end cn ->
      exists r l d m, nth_error res (i - c_begin cn) = Some (if feq O G (fofZ O 1%Z) then r else scale_row O G r) /\ shape_ok E q r /\
        racc (P i) r l d /\ d <= n + bw /\ m <= bw /\
        Permutation l (map P (others (c_begin cn) (c_end cn) i ++ Dl) ++ map (fun a => srcP a) A ++ repeat (pad_row O E pad) m).
Proof.
  intros cn psize Hcn Hsz.
  destruct (psize_ok E HE _ _ Hsz) as (Z1 & Z2 & Z3).
  destruct (crit_node O E t cn Ht Hcn) as (_ & _ & _ & _ & _ & N5).
  destruct (far_ok O E K HE HK q t ps mac_value eps2 pad cn psize Ht Hcn rows_P Z1 Z2)
    as (Lt & Pt & nd & pre & post & res & F1 & F2 & F3 & F4 & Tr & T1 & T2 & Ev & Tq & Lr & Sr & Vr).
  set (size := c_end cn - c_begin cn) in *. set (tgt := tgt_rows O E ps pad cn psize) in *.
  assert (Bp : 0 < bw) by (exact (batch_pos c (e_simd E) (simd_pos E HE))).
  assert (Tk : forall k, k < size -> nth k tgt (pad_row O E pad) = P (c_begin cn + k)).
  { intros k Hk. unfold tgt, tgt_rows. rewrite slice_P by lia. rewrite app_nth1 by (rewrite map_length, seq_length; exact Hk).
    rewrite nth_indep with (d' := P 0) by (rewrite map_length, seq_length; exact Hk). rewrite map_nth, seq_nth by exact Hk. reflexivity. }
  assert (Tpad : forall k, size <= k -> nth k tgt (pad_row O E pad) = pad_row O E pad).
  { intros k Hk. unfold tgt, tgt_rows. rewrite slice_P by lia. rewrite app_nth2 by (rewrite map_length, seq_length; exact Hk).
    match goal with |- nth ?a (repeat ?x ?b) ?y = _ => destruct (nth_in_or_default a (repeat x b) y) as [H| ->]; [now apply repeat_spec in H|reflexivity] end. }
  set (evs := pre ++ post) in *.
  assert (RG : Forall (fun e => n_begin (ev_node e) < n_end (ev_node e) <= n) evs).
  { eapply Forall_impl; [|exact Ev]. intros e (He & _). exact (proj1 (node_payload_gen O E t (ev_node e) Ht He)). }
  destruct (self_shape_sum O c (e_simd E) K (simd_pos E HE) q eps2 (pad_row O E pad) tgt size ltac:(rewrite Lt; exact Z1) res ltac:(congruence)) as (res1 & S1 & S2 & S3).
  (* permutation of the sources *)
  set (Dl := flat_map node_idx (directs evs)). set (A := approxs evs).
  assert (SQ : Permutation (seq (c_begin cn) size ++ Dl ++ flat_map node_idx A) (seq 0 n)).
  { destruct (tiles_seq _ _ _ T1) as [_ S1']. destruct (tiles_seq _ _ _ T2) as [_ S2'].
    assert (FM : forall l : list (@event F), flat_map (fun x => seq (fst x) (snd x - fst x)) (map ev_range l) = flat_map (fun e => node_idx (ev_node e)) l).
    { induction l as [|e l IH]; [reflexivity|]. cbn [map flat_map]. rewrite IH. destruct e; reflexivity. }
    rewrite FM in S1', S2'. rewrite Nat.sub_0_r in S1'.
    assert (SQ : seq 0 n = seq 0 (c_begin cn) ++ seq (c_begin cn) size ++ seq (c_end cn) (n - c_end cn)).
    { unfold size. replace n with (c_begin cn + ((c_end cn - c_begin cn) + (n - c_end cn))) at 1 by lia.
      rewrite !seq_app. do 3 f_equal; lia. }
    rewrite SQ, <- S1', <- S2'. eapply perm_trans; [|apply Permutation_app_swap_app]. apply Permutation_app_head.
    rewrite <- (flat_map_app (fun e => node_idx (ev_node e)) pre post). apply Permutation_sym, events_perm. }
  assert (Len : size + length Dl + length A <= n).
  { pose proof (Permutation_length SQ) as PL. rewrite !app_length, !seq_length in PL.
    assert (length A <= length (flat_map node_idx A)); [|lia]. apply flat_one. intros a Ha. unfold A, approxs in Ha. apply in_flat_map in Ha as (e & He & Ha).
    rewrite Forall_forall in RG. specialize (RG e He). destruct e as [a'|a']; [|destruct Ha]. destruct Ha as [->|[]]. cbn [ev_node] in RG.
    unfold node_idx. intros Z. apply (f_equal (@length nat)) in Z. rewrite seq_length in Z. cbn in Z. lia. }
  assert (Sh1 : Forall (shape_ok E q) res1).
  { destruct (self_sum O c (e_simd E) K (simd_pos E HE) q eps2 (p_ok E) (shape_ok E q) (fun _ => 0%R) (fun _ _ => 0%R) (pad_row O E pad)) with
      (tgt := tgt) (n := size) (res := res) as (res1' & S1' & S2' & S3' & _); auto.
    { apply shape0. }
    { intros p1 p2 a r W1 W2 Wa Wr. destruct (self_shape O E K q eps2 p1 p2 a r W1 W2 Wa Wr) as [A1 B1]. repeat split; auto; try apply A1; try apply B1; ring. }
    { intros r a Wr Wa. split; [now apply add_shape|ring]. }
    { unfold p_ok, pad_row. cbn [fst]. apply repeat_length. }
    { unfold size. lia. }
    { congruence. }
    rewrite S1 in S1'. injection S1' as <-. exact S3'. }
  destruct (scale_ok O E HE q G size res1) as (res2 & G1 & G2 & G3 & G4); [rewrite S2, Lt; exact Z3|exact Sh1|].
  exists A, Dl. cbv zeta. split; [exact SQ|]. split.
  { intros a Ha. unfold A, approxs in Ha. apply in_flat_map in Ha as (e & He & Ha). destruct e as [a'|a']; [|destruct Ha]. destruct Ha as [->|[]].
    rewrite Forall_forall in Ev. pose proof (Ev _ He) as (Hin & _ & Hacc). cbn [ev_node] in *. split; [exact Hin|]. split; [exact Hacc|].
    unfold evs in He. apply in_app_or in He as [He|He].
    - left. assert (Hi2 : In (ev_range (Approx a)) (map ev_range pre)) by (now apply in_map).
      destruct (tiles_bounds _ _ _ T1 _ Hi2) as [_ B]. exact B.
    - right. assert (Hi2 : In (ev_range (Approx a)) (map ev_range post)) by (now apply in_map).
      destruct (tiles_bounds _ _ _ T2 _ Hi2) as [B _]. exact B. }
  exists res2. split.
  { unfold crit_rows. cbv zeta. fold size. rewrite Hsz. cbn [bind].
    unfold size at 1. rewrite (target_ok O E t ps pad (c_begin cn) (c_end cn) psize rows_P) by lia. cbn [bind]. fold (tgt_rows O E ps pad cn psize). fold tgt.
    unfold tree_acc_pot. rewrite Tq. cbn [bind]. rewrite S1. cbn [bind]. exact G1. }
  intros i Hi. set (k := i - c_begin cn) in *. assert (Hk : k < size) by (unfold k, size; lia).
  assert (Ei : c_begin cn + k = i) by (unfold k; lia).
  destruct (nth_error res1 k) as [r1|] eqn:Er1; [|apply nth_error_None in Er1; lia].
  destruct (nth_error tgt k) as [p1|] eqn:Ep1; [|apply nth_error_None in Ep1; lia].
  pose proof (nth_error_nth _ _ (pad_row O E pad) Ep1) as Ep2. rewrite (Tk k Hk), Ei in Ep2. subst p1.
  pose proof (Vr k (P i) Hk Ep1) as Er0. fold evs in Er0.
  destruct (events_racc (P i) evs (row0 O c q) [] 0) as (l1 & R1 & P1).
  { eapply Forall_impl; [|exact RG]. cbn beta. intros. lia. }
  { constructor. }
  rewrite <- (nth_error_nth _ _ (row0 O c q) Er0) in R1. rewrite <- Ei, <- (Tk k Hk) in R1.
  destruct (S3 k _ _ Hk R1) as (l' & R2 & P2). rewrite (nth_error_nth _ _ (row0 O c q) Er1) in R2. rewrite (Tk k Hk), Ei in R2.
  exists r1, l', (size + pads c (e_simd E) k + (length (ev_srcs evs) + 0)), (pads c (e_simd E) k).
  assert (PL : pads c (e_simd E) k < bw) by (apply (pads_lt c (e_simd E) (simd_pos E HE) (pad_row O E pad) tgt size); rewrite Lt; exact Z1).
  assert (LE : length (ev_srcs evs) = length Dl + length A) by (unfold ev_srcs; rewrite app_length, !map_length; reflexivity).
  split; [exact (G4 k r1 Hk Er1)|]. split; [rewrite Forall_forall in Sh1; apply Sh1; eapply nth_error_In; eauto|]. split; [exact R2|]. split; [lia|]. split; [lia|].
  rewrite P2, P1, app_nil_r.
  assert (X : map (fun k0 => nth k0 tgt (pad_row O E pad)) (filter (fun k' => negb (k' =? k)) (seq 0 size)) = map P (others (c_begin cn) (c_end cn) i)).
  { unfold others. fold size.
    assert (M : seq (c_begin cn) size = map (fun k0 => c_begin cn + k0) (seq 0 size)).
    { clear. generalize (c_begin cn) as b. induction size as [|m IH] using nat_ind; intros b; [reflexivity|]. rewrite !seq_S, map_app. cbn. now rewrite <- IH. }
    rewrite M. clear M.
    assert (Fm : forall l : list nat, filter (fun k0 => negb (k0 =? i)) (map (fun k0 => c_begin cn + k0) l) = map (fun k0 => c_begin cn + k0) (filter (fun k' => negb (k' =? k)) l)).
    { induction l as [|z l IH]; [reflexivity|]. cbn [map filter]. rewrite IH.
      destruct (Nat.eqb_spec (c_begin cn + z) i), (Nat.eqb_spec z k); cbn [negb map]; try reflexivity; exfalso; lia. }
    rewrite Fm, map_map. apply map_ext_in. intros z Hz. apply filter_In in Hz as [Hz _]. apply in_seq in Hz. apply Tk. lia. }
  assert (Y : map (fun k0 => nth k0 tgt (pad_row O E pad)) (seq size (pads c (e_simd E) k)) = repeat (pad_row O E pad) (pads c (e_simd E) k)).
  { rewrite <- (seq_length (pads c (e_simd E) k) size) at 2. rewrite <- map_const. apply map_ext_in. intros z Hz. apply in_seq in Hz. apply Tpad. lia. }
  rewrite X, Y. unfold ev_srcs. fold Dl A. rewrite map_app, <- !app_assoc. apply Permutation_app_head.
  rewrite Permutation_app_comm, <- app_assoc. reflexivity.
Qed.

End Tree.
