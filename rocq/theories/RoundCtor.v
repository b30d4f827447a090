(** Construction of trees in IEEE arithmetic: data of moderate size are accepted. *)
From Coq Require Import List Arith ZArith NArith Reals Bool Lra Lia Psatz Permutation.
From Flocq Require Import Core BinarySingleNaN Relative Plus_error.
From Verif Require Import Base Config Morton MortonProofs CodesProofs Build TreeSpec BuildSpec BuildProofs BuildProps FOps FOpsProofs Disc DiscProofs BoxProofs NodeProps Tree TreeInv TreeProofs TreeSafe TreeProps RSum
  NodeGeom NodesR BoxAccept Round RoundNode RoundFin.
Import ListNotations.
Local Open Scope nat_scope.

Section IEEE.

Variables prec emax : Z.
Context (Hprec : Prec_gt_0 prec).
Context (Hemax : Prec_lt_emax prec emax).
Variable fused : bool.
Hypothesis Hp8 : (8 <= prec)%Z.
Hypothesis Hrange : (prec + 4 <= emax)%Z.
Hypothesis He : (64 <= emax)%Z.

Notation bf := (binary_float prec emax).
Notation O := (Bops prec emax Hprec Hemax fused).
Notation fexp := (SpecFloat.fexp prec emax).
Notation rnd := (round radix2 fexp ZnearestE).
Notation zero := (fofZ O 0%Z).
Notation g := (gR prec).
Notation eta := (etaR prec emax).
Notation u := (uR prec).
Notation nthR := (nthR prec emax Hprec Hemax fused).
Notation fin_at := (fin_at prec emax).
Notation bnd := (bnd prec emax).
Notation K := (emax / 2 - 7)%Z.

Let Hp2 : (2 <= prec)%Z. Proof. lia. Qed.
Let HK : (2 * (emax / 2) <= emax /\ 25 <= K)%Z.
Proof. pose proof (Z.div_mod emax 2 ltac:(lia)). pose proof (Z.mod_pos_bound emax 2 ltac:(lia)). lia. Qed.

Variable E : env.
Hypothesis HE : env_ok E.
Notation c := (e_cfg E).

Local Open Scope R_scope.

Lemma cb_31 : (cbitsc c <= 31)%N.
Proof. destruct c; vm_compute; discriminate. Qed.

Lemma pow2_Z : forall l : N, Z.of_N (2 ^ l) = (2 ^ Z.of_N l)%Z.
Proof. intros l. rewrite N2Z.inj_pow. reflexivity. Qed.

Lemma half_bnd : bnd (fdiv O (fofZ O 1%Z) (fofZ O 2%Z)) (-1).
Proof.
  destruct (half_exact prec emax Hprec Hemax fused Hp2) as [A B]. split; [exact B|]. rewrite A. change (bpow radix2 (-1)) with (/ 2). rewrite Rabs_right; lra.
Qed.

Lemma node_dim_gen : forall K0 l bx, (0 <= K0)%Z -> (K0 + 2 < emax)%Z -> (l <= cbitsc c)%N -> bnd bx K0 -> bnd (get_node_dim O l bx) K0.
Proof.
  intros K0 l bx HK0 HK1 Hl Hb. unfold get_node_dim. pose proof cb_31. rewrite pow2_Z. destruct (ofZ_pow prec emax Hprec Hemax fused Hp2 (Z.of_N l)) as [A _]; [lia|].
  apply (bnd_div prec emax Hprec Hemax fused Hp2 bx _ K0 (Z.of_N l) K0 Hb); [rewrite A, Rabs_right by (apply Rle_ge, bpow_ge_0); lra|lia|lia].
Qed.

Lemma node_centre_gen : forall K0 l p bx, (0 <= K0)%Z -> (K0 + 2 < emax)%Z -> (l <= cbitsc c)%N -> (p < 2 ^ (dimN c * l))%N -> bnd bx K0 ->
  exists geo, get_node_centre O c (2 ^ (dimN c * l) + p) bx = Ok geo /\ Forall (fun x => bnd x (K0 + 2)) geo.
Proof.
  intros K0 l p bx HK0 HK1 Hl Hp Hb. destruct (first_cell_coords c l p Hl Hp) as (q & Hq & Hql & Hc & Hdec & _).
  assert (Hd : (0 < dimN c)%N) by (destruct c; reflexivity). pose proof cb_31 as H31.
  unfold get_node_centre. cbv zeta.
  assert (Hlev : tree_level (width c) (dimN c) (2 ^ (dimN c * l) + p) = l).
  { apply (tree_level_nodal (width c) (dimN c) l p); [exact Hd|rewrite N.mul_comm; now apply level_shift|exact Hp]. }
  rewrite Hlev. unfold shl.
  assert (H1 : (l * dimN c < width c)%N) by (now apply level_shift).
  assert (H2 : ((cbitsc c - l) * dimN c < width c)%N) by (apply level_shift; lia).
  pose proof H1 as H1'. apply N.ltb_lt in H1. rewrite H1. cbn [bind]. apply N.ltb_lt in H2. rewrite H2. cbn [bind].
  rewrite (N.shiftl_mul_pow2 1), N.mul_1_l. rewrite (wrap_small (width c) (2 ^ (l * dimN c))) by (apply N.pow_lt_mono_r; lia).
  rewrite (N.mul_comm l (dimN c)). rewrite usub_nodal by assumption.
  rewrite N.shiftl_mul_pow2, (N.mul_comm (cbitsc c - l) (dimN c)). rewrite wrap_small.
  2:{ eapply N.lt_le_trans; [exact Hc|]. apply N.pow_le_mono_r; [lia|]. destruct (cbitsc_spec c). nia. }
  rewrite Hdec, map_map. eexists. split; [reflexivity|]. apply Forall_map. eapply Forall_impl; [|exact Hql]. cbv beta. intros k Hk.
  set (C := Z.of_N (cbitsc c)).
  assert (BC : bnd (fdiv O (fofZ O 1%Z) (fofZ O (Z.of_N (2 ^ cbitsc c)))) (- C)).
  { rewrite pow2_Z. fold C. destruct (ofZ_pow prec emax Hprec Hemax fused Hp2 C) as [A _]; [lia|].
    apply (bnd_div prec emax Hprec Hemax fused Hp2 _ _ 0 C (- C)); [|rewrite A, Rabs_right by (apply Rle_ge, bpow_ge_0); lra|lia|lia].
    apply (bnd_ofZ prec emax Hprec Hemax fused Hp2); lia. }
  assert (BS : bnd (fmul O bx (fdiv O (fofZ O 1%Z) (fofZ O (Z.of_N (2 ^ cbitsc c))))) (K0 - C)) by (apply (bnd_mul prec emax Hprec Hemax fused Hp2 _ _ K0 (- C)); auto; lia).
  assert (BM : bnd (fsub O (fmul O (get_node_dim O l bx) (fdiv O (fofZ O 1%Z) (fofZ O 2%Z))) (fmul O bx (fdiv O (fofZ O 1%Z) (fofZ O 2%Z)))) (K0 + 1)).
  { apply (bnd_sub prec emax Hprec Hemax fused Hp2); [| |lia]; (apply (bnd_mul prec emax Hprec Hemax fused Hp2 _ _ K0 (-1)); [|exact half_bnd|lia|lia]); [now apply node_dim_gen|exact Hb]. }
  replace (K0 + 2)%Z with (K0 + 1 + 1)%Z by lia. apply (bnd_fma prec emax Hprec Hemax fused Hp2 _ _ _ C (K0 - C) (K0 + 1)); auto; try lia.
  apply (bnd_ofZ prec emax Hprec Hemax fused Hp2); [|lia]. unfold C. rewrite <- pow2_Z. split; [lia|]. apply N2Z.inj_le.
  apply N.le_trans with (2 ^ l * 2 ^ (cbitsc c - l))%N; [apply N.mul_le_mono_r; lia|]. rewrite <- N.pow_add_r. apply N.pow_le_mono_r; lia.
Qed.

Lemma node_dim_bnd : forall l bx, (l <= cbitsc c)%N -> bnd bx K -> bnd (get_node_dim O l bx) K.
Proof. intros l bx. apply node_dim_gen; lia. Qed.

Lemma node_centre_bnd : forall l p bx, (l <= cbitsc c)%N -> (p < 2 ^ (dimN c * l))%N -> bnd bx K ->
  exists geo, get_node_centre O c (2 ^ (dimN c * l) + p) bx = Ok geo /\ Forall (fun x => bnd x (K + 2)) geo.
Proof. intros l p bx. apply node_centre_gen; lia. Qed.

Lemma rnd_nonneg : forall y, 0 <= y -> 0 <= rnd y.
Proof. intros y H. rewrite <- (rnd_0 prec emax). now apply (rnd_le prec emax Hprec). Qed.

Lemma dist2_gen : forall K0 xs ys, (0 <= K0)%Z -> (2 * K0 + 12 < emax)%Z -> Forall (fun x => bnd x (K0 + 4)) xs -> Forall (fun x => bnd x (K0 + 4)) ys -> (length xs <= 3)%nat ->
  bnd (dist2 O xs ys) (2 * K0 + 12) /\ 0 <= B2R (dist2 O xs ys).
Proof.
  intros K0 xs ys HK0 HK1 Hx Hy L. unfold dist2.
  assert (D : forall x y, bnd x (K0 + 4) -> bnd y (K0 + 4) -> bnd (fsub O x y) (K0 + 5)).
  { intros x y H1 H2. replace (K0 + 5)%Z with (K0 + 4 + 1)%Z by lia. apply (bnd_sub prec emax Hprec Hemax fused Hp2); auto. lia. }
  assert (Z : bnd zero (2 * K0 + 12) /\ 0 <= B2R zero).
  { destruct (ofZ_0 prec emax Hprec Hemax fused) as [A B]. split; [|rewrite A; lra]. split; [exact B|]. rewrite A, Rabs_R0. apply bpow_ge_0. }
  assert (M : forall x, bnd x (K0 + 5) -> bnd (fmul O x x) (2 * K0 + 10) /\ 0 <= B2R (fmul O x x)).
  { intros x H1. assert (B : bnd (fmul O x x) (2 * K0 + 10)) by (apply (bnd_mul prec emax Hprec Hemax fused Hp2 x x (K0 + 5) (K0 + 5)); auto; lia).
    split; [exact B|]. destruct B as [B _]. destruct (mult_fin prec emax Hprec Hemax _ _ B) as (_ & _ & V). cbn [fmul Bops]. rewrite V. apply rnd_nonneg. nra. }
  assert (A : forall x s k, (2 * K0 + 10 <= k <= 2 * K0 + 11)%Z -> bnd x (K0 + 5) -> bnd s k /\ 0 <= B2R s -> bnd (ffma O x x s) (k + 1) /\ 0 <= B2R (ffma O x x s)).
  { intros x s k Hk H1 [H3 H4]. assert (B : bnd (ffma O x x s) (k + 1)) by (apply (bnd_fma prec emax Hprec Hemax fused Hp2 x x s (K0 + 5) (K0 + 5) k); auto; lia).
    split; [exact B|]. destruct B as [B _]. destruct (fma_fin prec emax Hprec Hemax fused _ _ _ B) as (_ & _ & _ & V). rewrite V. unfold fma_val.
    destruct fused; apply rnd_nonneg; [nra|]. assert (0 <= rnd (B2R x * B2R x)) by (apply rnd_nonneg; nra). lra. }
  assert (W : forall x k k', (k <= k')%Z -> bnd x k /\ 0 <= B2R x -> bnd x k' /\ 0 <= B2R x) by (intros x k k' Hk [H1 H2]; split; [eapply bnd_mono; eauto|exact H2]).
  destruct xs as [|x1 xs]; [exact Z|]. destruct ys as [|y1 ys]; [exact Z|]. inversion Hx as [|? ? X1 HX1]; subst. inversion Hy as [|? ? Y1 HY1]; subst. cbn [combine fold_left].
  destruct xs as [|x2 xs]; [eapply W; [|apply M; auto]; lia|]. destruct ys as [|y2 ys]; [eapply W; [|apply M; auto]; lia|].
  inversion HX1 as [|? ? X2 HX2]; subst. inversion HY1 as [|? ? Y2 HY2]; subst. cbn [combine fold_left].
  assert (S2 : bnd (ffma O (fsub O x2 y2) (fsub O x2 y2) (fmul O (fsub O x1 y1) (fsub O x1 y1))) (2 * K0 + 10 + 1) /\
    0 <= B2R (ffma O (fsub O x2 y2) (fsub O x2 y2) (fmul O (fsub O x1 y1) (fsub O x1 y1)))) by (apply A; auto; lia).
  destruct xs as [|x3 xs]; [eapply W; [|exact S2]; lia|]. destruct ys as [|y3 ys]; [eapply W; [|exact S2]; lia|].
  inversion HX2 as [|? ? X3 HX3]; subst. inversion HY2 as [|? ? Y3 HY3]; subst. cbn [combine fold_left].
  replace (2 * K0 + 12)%Z with (2 * K0 + 10 + 1 + 1)%Z by lia.
  destruct xs as [|x4 xs]; [|cbn [length] in L; lia]. apply A; auto; lia.
Qed.

Lemma dist2_bnd : forall xs ys, Forall (fun x => bnd x (K + 4)) xs -> Forall (fun x => bnd x (K + 4)) ys -> (length xs <= 3)%nat ->
  bnd (dist2 O xs ys) (2 * K + 12) /\ 0 <= B2R (dist2 O xs ys).
Proof. intros xs ys. apply dist2_gen; lia. Qed.

Lemma sqrt_fin : forall x : bf, is_finite x = true -> 0 <= B2R x -> is_finite (fsqrt O x) = true.
Proof.
  intros x F H. cbn [fsqrt Bops]. destruct (Bsqrt_correct prec emax Hprec Hemax mode_NE x) as (_ & B & _). rewrite B.
  destruct x as [s|s| |[|] m ex Hx]; try reflexivity; try discriminate. exfalso.
  assert (B2R (B754_finite true m ex Hx) < 0) by (apply F2R_lt_0; reflexivity). lra.
Qed.

(** ** Sums over ranges *)

Lemma rsum_range : forall col b e, (b <= e <= length col)%nat -> (forall x, In x col -> 0 <= B2R x) ->
  0 <= rsum (nthR col) (seq b (e - b)) <= rsum (@B2R prec emax) col.
Proof.
  intros col b e Hbe Hn.
  assert (A : rsum (@B2R prec emax) col = rsum (nthR col) (seq 0 (length col))).
  { clear. induction col as [|x col IH]; [reflexivity|]. cbn [length seq]. rewrite !rsum_cons, IH, <- seq_shift, rsum_map. reflexivity. }
  assert (P : forall l, (forall i, In i l -> (i < length col)%nat) -> 0 <= rsum (nthR col) l).
  { intros l Hl. apply rsum_nonneg. intros i Hi. unfold Round.nthR. apply Hn, nth_In. auto. }
  rewrite A. replace (length col) with (b + ((e - b) + (length col - e)))%nat by lia. rewrite !seq_app, !rsum_app. rewrite !Nat.add_0_l.
  assert (P1 := P (seq 0 b)). assert (P2 := P (seq b (e - b))). assert (P3 := P (seq (b + (e - b)) (length col - e))).
  specialize (P1 ltac:(intros i Hi; apply in_seq in Hi; lia)). specialize (P2 ltac:(intros i Hi; apply in_seq in Hi; lia)). specialize (P3 ltac:(intros i Hi; apply in_seq in Hi; lia)). lra.
Qed.

Lemma node_sums_ok : forall ccols mcol b e np, Forall (fun col => length col = np) ccols -> length mcol = np -> (b <= e <= np)%nat ->
  exists a, node_sums O c (e_simd E) (e_hadd E) ccols mcol b e = Ok a.
Proof.
  intros ccols mcol b e np H1 H2 H3. apply not_throw_ok; [now apply (node_sums_safe O E HE ccols mcol b e np)|]. intros ex H. unfold node_sums in H. cbv zeta in H.
  assert (S : forall a i, acc_step O ccols mcol a i <> Throw ex).
  { intros a i X. unfold acc_step in X. apply bind_Throw in X as [X|(m & _ & X)]; [now apply rd_not_throw in X|].
    apply bind_Throw in X as [X|(m' & _ & X)]; [|discriminate]. revert X. generalize (combine ccols (snd a)). induction l as [|[col s] l IH]; cbn [mapM]; [discriminate|].
    intros X. apply bind_Throw in X as [X|(k & _ & X)]; [apply bind_Throw in X as [X|(k & _ & X)]; [now apply rd_not_throw in X|discriminate]|].
    apply bind_Throw in X as [X|(k' & _ & X)]; [auto|discriminate]. }
  assert (FO : forall A B (f : A -> B -> outcome A) l a, (forall a i, f a i <> Throw ex) -> foldM f l a <> Throw ex).
  { intros A B f l. induction l as [|i l IH]; intros a Hf X; cbn [foldM] in X; [discriminate|]. apply bind_Throw in X as [X|(k & _ & X)]; [now apply Hf in X|now apply IH in X]. }
  destruct (e_simd E) as [bw|]; [|now apply FO in H].
  destruct (dim c) as [|[|[|[|k]]]]; try (now apply FO in H). apply bind_Throw in H as [H|(k & _ & H)]; [|now apply FO in H].
  apply FO in H; [exact H|]. intros a i X. unfold vec_step in X. revert X. generalize (combine (seq 0 (length a)) a). induction l as [|[k x] l IH]; cbn [mapM]; [discriminate|].
  intros X. apply bind_Throw in X as [X|(y & _ & X)]; [now apply S in X|]. apply bind_Throw in X as [X|(y' & _ & X)]; [auto|discriminate].
Qed.

(** The properties of a node are all finite. *)
Lemma cnp_F_ok : forall cols np bx b e l p mcol, table E cols np -> nth_error cols (dim c) = Some mcol -> (b < e <= np)%nat -> (l <= cbitsc c)%N ->
  (p < 2 ^ (dimN c * l))%N -> bnd bx K ->
  (forall col x, In col (firstn (dim c) cols) -> In x col -> bnd x K) ->
  (forall m, In m mcol -> is_finite m = true /\ (B2R m = 0 \/ bpow radix2 (4 - emax) <= B2R m)) ->
  rsum (@B2R prec emax) mcol <= bpow radix2 (emax / 2) ->
  (Z.of_nat (np + lanes_of (e_simd E)) < 2 ^ (prec - 1))%Z ->
  exists pr, cnp O E cols bx b e (2 ^ (dimN c * l) + p) l = Ok pr.
Proof.
  intros cols np bx b e l p mcol [T1 T2] Hm Hbe Hl Hp Hbx Hx Hmass Htot Hn.
  destruct (gR_facts prec Hp2) as (G1 & G2 & G3). pose proof (uR_bounds prec Hp2) as U. assert (PE : 0 < eta) by apply bpow_gt_0.
  assert (Lm : length mcol = np) by (rewrite Forall_forall in T2; apply T2; eapply nth_error_In; eauto).
  assert (Lc : Forall (fun col => length col = np) (firstn (dim c) cols)).
  { apply Forall_forall. intros col Hc. apply firstn_In in Hc. rewrite Forall_forall in T2. auto. }
  assert (LL : length (firstn (dim c) cols) = dim c) by (rewrite firstn_length; lia).
  unfold cnp, compute_node_properties. unfold rd at 1. rewrite Hm. cbn [bind].
  destruct (node_sums_ok _ mcol b e np Lc Lm ltac:(lia)) as [[tot com0] Hs]. rewrite Hs. cbn [bind].
  destruct (node_centre_bnd l p bx Hl Hp Hbx) as (geo & Hg & Bg). rewrite Hg. cbn [bind].
  destruct (node_sums_shape O c (e_simd E) (e_hadd E) _ mcol b e _ LL (proj2 HE) Hs) as (L0 & (lm & dm & Dm & Pm & Gm) & Gc). cbn [fst snd] in *.
  set (idx := seq b (e - b)) in *. set (N := (e - b + lanes_of (e_simd E))%nat) in *.
  assert (HN : INR (S N) * u <= / 2).
  { apply Rle_trans with (bpow radix2 (prec - 1) * u).
    - apply Rmult_le_compat_r; [lra|]. rewrite INR_IZR_INZ. change 2%Z with (radix_val radix2) in Hn. rewrite <- (IZR_Zpower radix2 (prec - 1)) by lia. apply IZR_le. unfold N. lia.
    - unfold uR. rewrite <- bpow_plus. replace (prec - 1 + - prec)%Z with (-1)%Z by lia. change (bpow radix2 (-1)) with (/ 2). lra. }
  assert (G4 : forall d, (d <= S N)%nat -> 1 <= g ^ d <= 2).
  { intros d Hd. split; [apply (g_pow1 prec Hp2)|]. apply Rle_trans with (g ^ S N); [now apply (g_mono prec Hp2)|now apply (g_pow2 prec Hp2)]. }
  assert (IX : forall i, In i idx -> (i < np)%nat) by (intros i Hi; apply in_seq in Hi; lia).
  assert (NN : forall m, In m mcol -> 0 <= B2R m) by (intros m Hin; destruct (Hmass m Hin) as [_ [->|H]]; [lra|pose proof (bpow_gt_0 radix2 (4 - emax)); lra]).
  assert (NI : forall i, In i idx -> In (nth i mcol zero) mcol) by (intros i Hi; apply nth_In; rewrite Lm; auto).
  assert (NP : forall i, In i idx -> 0 <= nthR mcol i) by (intros i Hi; apply NN, NI, Hi).
  assert (FM : forall i, In i idx -> fin_at mcol i).
  { intros i Hi. destruct (nth_error mcol i) as [m|] eqn:X; [|apply nth_error_None in X; specialize (IX i Hi); lia]. exists m. split; [exact X|]. apply Hmass. eapply nth_error_In; eauto. }
  set (T := rsum (nthR mcol) idx) in *.
  assert (BT : 0 <= T <= bpow radix2 (emax / 2)).
  { pose proof (rsum_range mcol b e ltac:(lia) NN) as R. fold idx T in R. lra. }
  assert (AT : rsum (fun i => Rabs (nthR mcol i)) idx = T) by (apply rsum_ext; intros i Hi; apply Rabs_right, Rle_ge, NP, Hi).
  assert (PL : forall l0, Permutation l0 idx -> forall i, In i l0 -> In i idx) by (intros l0 P i; apply Permutation_in; exact P).
  assert (B2 : 2 * bpow radix2 (emax / 2) <= bpow radix2 (emax - 1)).
  { change 2 with (bpow radix2 1). rewrite <- bpow_plus. apply bpow_le. lia. }
  assert (Ft : is_finite tot = true).
  { apply (mass_finite prec emax Hprec Hemax fused Hp2 mcol tot lm dm Gm).
    - intros i Hi. apply FM, (PL lm Pm i Hi).
    - rewrite (rsum_perm _ _ lm idx Pm), AT. specialize (G4 dm ltac:(lia)). nra. }
  destruct (mass_approx prec emax Hprec Hemax fused Hp2 mcol tot lm dm Gm Ft) as (_ & _ & A3).
  specialize (A3 ltac:(intros i Hi; apply NP, (PL lm Pm i Hi))). rewrite (rsum_perm _ (nthR mcol) lm idx Pm) in A3. fold T in A3.
  set (M := B2R tot) in *.
  assert (BM : T / 2 <= M <= 2 * T).
  { specialize (G4 dm ltac:(lia)). assert (/ 2 <= / g ^ dm) by (apply Rinv_le_contravar; lra). nra. }
  set (com := if feq O tot zero then geo else map (fun x => fmul O x (fdiv O (fofZ O 1%Z) tot)) com0).
  assert (BC : Forall (fun x => bnd x (K + 4)) com).
  { unfold com. cbn [feq Bops]. rewrite Beqb_correct; [|exact Ft|apply (ofZ_0 prec emax Hprec Hemax fused)]. rewrite (proj1 (ofZ_0 prec emax Hprec Hemax fused)). fold M.
    destruct (Req_bool_spec M 0) as [Z|Z]; [eapply Forall_impl; [|exact Bg]; intros x H; eapply bnd_mono; [exact H|lia]|].
    assert (TP : 0 < T) by lra.
    assert (TL : bpow radix2 (4 - emax) <= T).
    { assert (X : exists i, In i idx /\ nthR mcol i <> 0).
      { assert (D : forall l0, (forall i, In i l0 -> In i idx) -> rsum (nthR mcol) l0 <> 0 -> exists i, In i l0 /\ nthR mcol i <> 0).
        { clear. induction l0 as [|i l0 IH]; intros H H0; [now elim H0|]. rewrite rsum_cons in H0. destruct (Req_dec (nthR mcol i) 0) as [Z|Z]; [|exists i; split; [now left|exact Z]].
          destruct IH as (k & K1 & K2); [intros k Hk; apply H; now right|lra|]. exists k. split; [now right|exact K2]. }
        apply (D idx); [auto|]. fold T. lra. }
      destruct X as (i & Hi & Hnz). destruct (Hmass _ (NI i Hi)) as [_ [H|H]]; [now elim Hnz|]. eapply Rle_trans; [exact H|].
      apply in_split in Hi as (l1 & l2 & EI). unfold T. rewrite EI, rsum_app, rsum_cons. change (B2R (nth i mcol zero)) with (nthR mcol i).
      assert (0 <= rsum (nthR mcol) l1) by (apply rsum_nonneg; intros k Hk; apply NP; rewrite EI; apply in_or_app; now left).
      assert (0 <= rsum (nthR mcol) l2) by (apply rsum_nonneg; intros k Hk; apply NP; rewrite EI; apply in_or_app; right; now right). lra. }
    assert (ML : bpow radix2 (3 - emax) <= M).
    { apply Rle_trans with (T / 2); [|lra]. replace (4 - emax)%Z with (3 - emax + 1)%Z in TL by lia. rewrite bpow_plus in TL. change (bpow radix2 1) with 2 in TL. lra. }
    pose proof (bpow_gt_0 radix2 (3 - emax)) as P3.
    destruct (bnd_div prec emax Hprec Hemax fused Hp2 (fofZ O 1%Z) tot 0 (3 - emax) (emax - 3)) as ((FI & _) & VI).
    { apply (bnd_ofZ prec emax Hprec Hemax fused Hp2); lia. }
    { fold M. rewrite Rabs_right; lra. }
    { lia. } { lia. }
    set (inv := fdiv O (fofZ O 1%Z) tot) in *. rewrite (proj1 (ofZ_exact prec emax Hprec Hemax fused Hp2 1 ltac:(change (Z.abs 1) with (2 ^ 0)%Z; apply Z.pow_lt_mono_r; lia))) in VI. fold M in VI.
    assert (MH : M <= bpow radix2 (emax - 2)).
    { apply Rle_trans with (2 * bpow radix2 (emax / 2)); [lra|]. change 2 with (bpow radix2 1). rewrite <- bpow_plus. apply bpow_le. lia. }
    assert (PMI : 0 < / M) by (apply Rinv_0_lt_compat; lra).
    assert (IM : bpow radix2 (2 - emax) <= Rabs (1 / M)).
    { unfold Rdiv. rewrite Rmult_1_l, Rabs_right by lra. replace (2 - emax)%Z with (- (emax - 2))%Z by lia. rewrite bpow_opp. apply Rinv_le_contravar; lra. }
    pose proof (normal_err prec emax Hprec _ IM) as NE. rewrite <- VI in NE. unfold Rdiv in NE. rewrite Rmult_1_l, (Rabs_right (/ M)) in NE by lra. apply Rabs_def2b in NE.
    assert (MI : / M <= 2 * / T). { apply Rmult_le_reg_l with M; [lra|]. rewrite Rinv_r by lra. apply Rmult_le_reg_r with T; [lra|]. replace (M * (2 * / T) * T) with (2 * M) by (field; lra). lra. }
    assert (PTI : 0 < / T) by (apply Rinv_0_lt_compat; lra).
    assert (BI : 0 <= B2R inv <= 4 * / T) by nra.
    apply Forall_forall. intros y Hy. apply in_map_iff in Hy as (x & <- & Hin). apply In_nth with (d := zero) in Hin as (j & Hj & <-). rewrite L0 in Hj.
    destruct (Gc j Hj) as (lc & dc & Dc & Pc & Gcj). set (col := nth j (firstn (dim c) cols) []) in *. set (x := nth j com0 zero) in *.
    assert (Hcol : In col (firstn (dim c) cols)) by (apply nth_In; lia).
    assert (Lcol : length col = np) by (rewrite Forall_forall in Lc; auto).
    assert (XI : forall i, In i idx -> bnd (nth i col zero) K) by (intros i Hi; apply (Hx col); [exact Hcol|apply nth_In; rewrite Lcol; auto]).
    assert (FC : forall i, In i lc -> fin_at mcol i /\ fin_at col i).
    { intros i Hi. apply (PL lc Pc) in Hi. split; [auto|]. exists (nth i col zero). split; [apply nth_error_nth'; rewrite Lcol; auto|apply XI, Hi]. }
    assert (AC : rsum (fun i => Rabs (nthR mcol i * nthR col i)) lc <= T * bpow radix2 K).
    { rewrite (rsum_perm _ _ lc idx Pc). rewrite (Rmult_comm T). unfold T. rewrite <- rsum_scal. apply rsum_le. intros i Hi. rewrite Rabs_mult, (Rabs_right (nthR mcol i)) by (apply Rle_ge, NP, Hi).
      rewrite Rmult_comm. apply Rmult_le_compat_r; [apply NP, Hi|]. apply XI, Hi. }
    assert (PA : 0 <= rsum (fun i => Rabs (nthR mcol i * nthR col i)) lc) by (apply rsum_nonneg; intros; apply Rabs_pos).
    assert (LC : length lc = (e - b)%nat) by (rewrite (Permutation_length Pc); apply seq_length).
    assert (NE2 : INR (length lc) * eta <= T / 4).
    { apply Rle_trans with (bpow radix2 (2 - emax)).
      - apply Rle_trans with (bpow radix2 (prec - 1) * eta).
        + apply Rmult_le_compat_r; [lra|]. rewrite LC, INR_IZR_INZ. change 2%Z with (radix_val radix2) in Hn. rewrite <- (IZR_Zpower radix2 (prec - 1)) by lia. apply IZR_le. lia.
        + unfold etaR. rewrite <- bpow_plus. apply bpow_le. lia.
      - replace (4 - emax)%Z with (2 - emax + 2)%Z in TL by lia. rewrite bpow_plus in TL. change (bpow radix2 2) with 4 in TL. lra. }
    assert (K1 : 1 <= bpow radix2 K) by (change 1 with (bpow radix2 0); apply bpow_le; lia).
    assert (GC : 1 <= g ^ S dc <= 2) by (apply G4; lia).
    set (A := rsum (fun i => Rabs (nthR mcol i * nthR col i)) lc) in *. pose proof (pos_INR (length lc)) as PNL. assert (PNE : 0 <= INR (length lc) * eta) by (apply Rmult_le_pos; lra).
    assert (GB : g ^ S dc * (A + INR (length lc) * eta) <= T * bpow radix2 (K + 2)).
    { apply Rle_trans with (2 * (T * bpow radix2 K + T / 4)); [apply Rmult_le_compat; lra|]. rewrite bpow_plus. change (bpow radix2 2) with 4. nra. }
    assert (GB2 : T * bpow radix2 (K + 2) <= bpow radix2 (emax - 1)).
    { apply Rle_trans with (bpow radix2 (emax / 2) * bpow radix2 (K + 2)); [apply Rmult_le_compat_r; [apply bpow_ge_0|lra]|]. rewrite <- bpow_plus. apply bpow_le. lia. }
    assert (FX : is_finite x = true) by (apply (com_finite prec emax Hprec Hemax fused Hp2 mcol col x lc dc Gcj FC); fold A; lra).
    destruct (com_approx prec emax Hprec Hemax fused Hp2 mcol col x lc dc Gcj FX) as (_ & AP).
    assert (BX : Rabs (B2R x) <= T * bpow radix2 (K + 2)).
    { eapply Rle_trans; [|exact GB]. eapply approx_abs; [exact AP|apply rsum_abs]. }
    assert (BXI : Rabs (rnd (B2R x * B2R inv)) <= bpow radix2 (K + 4)).
    { apply (rnd_bnd prec emax Hprec Hp2); [lia|]. rewrite Rabs_mult, (Rabs_right (B2R inv)) by lra.
      apply Rle_trans with (T * bpow radix2 (K + 2) * (4 * / T)); [apply Rmult_le_compat; try lra; apply Rabs_pos|].
      replace (K + 4)%Z with (K + 2 + 2)%Z by lia. rewrite (bpow_plus _ (K + 2) 2). change (bpow radix2 2) with 4. right. field. lra. }
    assert (FXI : is_finite (Bmult mode_NE x inv) = true).
    { apply mult_finite; auto. eapply (bpow_lt_emax emax); [exact BXI|lia]. }
    split; [exact FXI|]. destruct (mult_fin prec emax Hprec Hemax _ _ FXI) as (_ & _ & V). cbn [fmul Bops]. rewrite V. exact BXI. }
  assert (FF : forallb (ffin O) com = true).
  { apply forallb_forall. intros x Hin. rewrite Forall_forall in BC. apply (BC x Hin). }
  fold com. rewrite FF. cbn [negb]. change (ffin O tot) with (is_finite tot). rewrite Ft. cbn [negb].
  pose proof (node_dim_bnd l bx Hl Hbx) as BD.
  destruct (e_mac E).
  - assert (BD2 : bnd (fmul O (get_node_dim O l bx) (get_node_dim O l bx)) (2 * K)) by (apply (bnd_mul prec emax Hprec Hemax fused Hp2 _ _ K K); auto; lia).
    change (ffin O (fmul O (get_node_dim O l bx) (get_node_dim O l bx))) with (is_finite (fmul O (get_node_dim O l bx) (get_node_dim O l bx))). rewrite (proj1 BD2). eexists. reflexivity.
  - change (ffin O (get_node_dim O l bx)) with (is_finite (get_node_dim O l bx)). rewrite (proj1 BD). cbn [negb].
    assert (Lcom : (length com <= 3)%nat).
    { assert (length com = dim c).
      { unfold com. destruct (feq O tot zero); [|now rewrite map_length]. unfold get_node_centre in Hg. cbv zeta in Hg. apply bind_Ok in Hg as (o1 & _ & Hg). apply bind_Ok in Hg as (o2 & _ & Hg). injection Hg as <-. rewrite map_length. clear. destruct c; reflexivity. }
      rewrite H. destruct c; cbn; lia. }
    destruct (dist2_bnd com geo BC) as [D1 D2]; [eapply Forall_impl; [|exact Bg]; intros x H; eapply bnd_mono; [exact H|lia]|exact Lcom|].
    change (ffin O (fsqrt O (dist2 O com geo))) with (is_finite (fsqrt O (dist2 O com geo))). rewrite (sqrt_fin _ (proj1 D1) D2). eexists. reflexivity.
Qed.

Lemma nth_error_firstn' : forall A (l : list A) n i, (i < n)%nat -> nth_error (firstn n l) i = nth_error l i.
Proof. intros A l n i H. rewrite nth_error_firstn. destruct (Nat.ltb_spec i n); [reflexivity|lia]. Qed.

Lemma encode_all_ok : forall cols np (inv : bf), table E cols np ->
  (forall col x, In col (firstn (dim c) cols) -> In x col -> exists k, disc_single_coord O c false x inv = Ok k) ->
  exists codes, encode_all O E cols inv np = Ok codes.
Proof.
  intros cols np inv [T1 T2] Hin. unfold encode_all.
  assert (G : forall i, (i < np)%nat -> exists k, (do xs <- coords E cols i; particle_code O c xs inv) = Ok k).
  { intros i Hi. unfold coords.
    assert (Hc : Forall (fun col => length col = np) (firstn (dim c) cols)).
    { apply Forall_forall. intros col Hc. apply firstn_In in Hc. rewrite Forall_forall in T2. auto. }
    assert (Hl : length (firstn (dim c) cols) = dim c) by (rewrite firstn_length; lia).
    assert (KK : exists xs ks, mapM (fun col => rd col i) (firstn (dim c) cols) = Ok xs /\
      mapM (fun x => disc_single_coord O c false x inv) xs = Ok ks /\ length ks = length (firstn (dim c) cols)).
    { clear Hl. induction (firstn (dim c) cols) as [|col l IH]; [exists [], []; auto|].
      inversion Hc; subst. destruct IH as (xs & ks & E1 & E2 & E3); auto; [intros; eapply Hin; eauto; now right|].
      cbn [mapM]. destruct (rd_lt col i Hi) as [x Hx]. rewrite Hx, E1. cbn [bind].
      destruct (Hin col x (or_introl eq_refl)) as [k Hk]. { apply rd_Ok in Hx. eapply nth_error_In; eauto. }
      exists (x :: xs), (k :: ks). split; [reflexivity|].
      cbn [mapM]. rewrite Hk, E2. cbn [bind length]. auto. }
    destruct KK as (xs & ks & E1 & E2 & E3). rewrite E1. cbn [bind]. unfold particle_code. rewrite E2. cbn [bind].
    rewrite Hl in E3. clear - E3. destruct c; vm_compute in E3;
    (do 2 (destruct ks as [|? ks]; [discriminate|])); try (destruct ks as [|? ks]; [discriminate|]);
    (destruct ks as [|? ks]; [eexists; reflexivity|discriminate]). }
  assert (G' : forall l, (forall i, In i l -> (i < np)%nat) ->
    exists codes, mapM (fun i => do xs <- coords E cols i; particle_code O c xs inv) l = Ok codes).
  { induction l as [|i l IH]; intros Hl; [exists []; reflexivity|]. cbn [mapM].
    destruct (G i (Hl i (or_introl eq_refl))) as [k ->]. cbn [bind]. destruct IH as [codes ->]; [intros; apply Hl; now right|]. eexists. reflexivity. }
  apply G'. intros i Hi. apply in_seq in Hi. lia.
Qed.

Lemma box_ok : forall parts r, Forall (fun p => length p = dim c) parts -> spans r 0 (length parts) -> (N.of_nat (length parts) <= diff_max)%N ->
  Forall (Forall (fun x => bnd x (K - 2))) parts -> (exists p x, In p parts /\ In x p /\ bpow radix2 (9 - emax) <= Rabs (B2R x)) ->
  exists b, determine_box_size O (dim c) parts r = Ok b /\ bnd b K /\ comfortable prec emax b.
Proof.
  intros parts r HF Hs Hd Hb (p & x & Hp & Hx & HX). assert (Hn : (0 < dim c)%nat) by (destruct c; cbn; lia). unfold determine_box_size, it_diff_check.
  destruct (N.ltb_spec diff_max (N.of_nat (length parts))); [lia|]. cbn [bind].
  pose proof (run_red_ok prec emax Hprec Hemax fused (dim c) parts HF r _ _ Hs (le_n _)) as A. rewrite slice_all in A.
  assert (AF : all_fin prec emax parts).
  { unfold all_fin. eapply Forall_impl; [|exact Hb]. intros q Hq. eapply Forall_impl; [|exact Hq]. intros y [F _]. exact F. }
  destruct (run_red O (dim c) parts r) as [v|e|]; cbn [bind]; [|now destruct A|destruct A].
  destruct A as [A1 A2]. destruct v as [|m0 mt]; [destruct A2 as [A2 _]; cbn [length] in A2; lia|].
  destruct (max_of_state prec emax Hprec Hemax fused (dim c) parts m0 mt HF A2) as [[GF GS] R]. cbv zeta.
  set (M := max_element O m0 mt) in *. unfold max_coord in R.
  assert (M0 : bpow radix2 (9 - emax) <= B2R M).
  { eapply Rle_trans; [exact HX|]. rewrite R. apply max_abs_In. apply in_map. apply in_concat. eauto. }
  pose proof (bpow_gt_0 radix2 (9 - emax)) as P9.
  assert (MB : bnd M (K - 2)).
  { split; [exact GF|]. rewrite Rabs_right by lra. rewrite R. apply max_abs_le; [apply bpow_ge_0|]. intros y Hy. apply in_map_iff in Hy as (z & <- & Hz).
    apply in_concat in Hz as (q & Hq & Hzq). rewrite Forall_forall in Hb. specialize (Hb q Hq). rewrite Forall_forall in Hb. apply (Hb z Hzq). }
  assert (T2 : bnd (fmul O M (fofZ O 2%Z)) (K - 1)).
  { apply (bnd_mul prec emax Hprec Hemax fused Hp2 _ _ (K - 2) 1); [exact MB| |lia|lia]. apply (bnd_ofZ prec emax Hprec Hemax fused Hp2); lia. }
  destruct (ofZ_exact prec emax Hprec Hemax fused Hp2 20) as [W20 _].
  { apply Z.lt_le_trans with (2 ^ 8)%Z; [reflexivity|]. apply Z.pow_le_mono_r; lia. }
  destruct (ofZ_exact prec emax Hprec Hemax fused Hp2 1) as [W1 _].
  { change (Z.abs 1) with (2 ^ 0)%Z. apply Z.pow_lt_mono_r; lia. }
  destruct (bnd_div prec emax Hprec Hemax fused Hp2 (fofZ O 1%Z) (fofZ O 20%Z) 0 0 0) as [CB CV].
  { apply (bnd_ofZ prec emax Hprec Hemax fused Hp2); lia. }
  { rewrite W20. change (bpow radix2 0) with 1. rewrite Rabs_right; lra. }
  { lia. } { lia. }
  set (cc := fdiv O (fofZ O 1%Z) (fofZ O 20%Z)) in *. set (twoM := fmul O M (fofZ O 2%Z)) in *.
  assert (BB : bnd (ffma O twoM cc twoM) K).
  { replace K with (K - 1 + 1)%Z at 1 by lia. apply (bnd_fma prec emax Hprec Hemax fused Hp2 _ _ _ (K - 1) 0 (K - 1)); auto; lia. }
  change (ffin O (ffma O twoM cc twoM)) with (is_finite (ffma O twoM cc twoM)). rewrite (proj1 BB). eexists. split; [reflexivity|]. split; [exact BB|].
  pose proof (proj1 T2) as F2. destruct (mult_fin prec emax Hprec Hemax _ _ F2) as (_ & _ & V2).
  destruct (ofZ_pow prec emax Hprec Hemax fused Hp2 1) as [E2 _]; [lia|]. change (2 ^ 1)%Z with 2%Z in E2. change (bpow radix2 1) with 2 in E2. rewrite E2 in V2.
  change (B2R (Bmult mode_NE M (fofZ O 2%Z))) with (B2R twoM) in V2.
  assert (L2 : bpow radix2 (10 - emax) <= B2R twoM).
  { rewrite V2. apply round_ge_generic; [exact (valid_fexp_rf prec emax Hprec)|apply valid_rnd_N|apply (format_pow prec emax Hprec Hp2); lia|].
    replace (10 - emax)%Z with (9 - emax + 1)%Z by lia. rewrite bpow_plus. change (bpow radix2 1) with 2. lra. }
  pose proof (bpow_gt_0 radix2 (10 - emax)) as P10.
  destruct (fma_fin prec emax Hprec Hemax fused _ _ _ (proj1 BB)) as (_ & _ & _ & V).
  assert (PC : 0 <= B2R cc) by (rewrite CV, W1, W20; apply rnd_nonneg; lra).
  assert (LB : B2R twoM <= B2R (ffma O twoM cc twoM)).
  { rewrite V. rewrite <- (rnd_B2R prec emax twoM) at 1. unfold fma_val. destruct fused; apply (rnd_le prec emax Hprec); [nra|].
    assert (0 <= rnd (B2R twoM * B2R cc)) by (apply rnd_nonneg; nra). lra. }
  split; [exact (proj1 BB)|]. split; [lra|]. destruct BB as [_ BB]. rewrite Rabs_right in BB by lra. eapply Rle_trans; [exact BB|]. apply bpow_le. lia.
Qed.

Lemma ctor_F : forall s inp mln nc np mcol, sched_ok s -> (forall k, s_alloc s k = true) ->
  given_table E inp np -> (N.of_nat np <= diff_max)%N -> (N.of_nat np * cbitsc c < 2 ^ 64 - 1)%N -> mln <> Some 0%nat -> nc <> Some 0%nat ->
  nth_error (given inp) (dim c) = Some mcol ->
  (forall m, In m mcol -> is_finite m = true /\ (B2R m = 0 \/ bpow radix2 (4 - emax) <= B2R m)) ->
  rsum (@B2R prec emax) mcol <= bpow radix2 (emax / 2) -> (Z.of_nat (np + lanes_of (e_simd E)) < 2 ^ (prec - 1))%Z ->
  (forall b, is_finite b = true -> bpow radix2 (10 - emax) <= B2R b <= bpow radix2 K ->
    (forall col x, In col (firstn (dim c) (given inp)) -> In x col -> is_finite x = true /\ Rabs (B2R x) <= 31 / 64 * B2R b) ->
    exists t, generic_ctor O E s (Some b) inp mln nc = Ok t) /\
  ((forall col x, In col (firstn (dim c) (given inp)) -> In x col -> is_finite x = true /\ Rabs (B2R x) <= bpow radix2 (K - 2)) ->
   (exists col x, In col (firstn (dim c) (given inp)) /\ In x col /\ bpow radix2 (9 - emax) <= Rabs (B2R x)) ->
   exists t, generic_ctor O E s None inp mln nc = Ok t).
Proof.
  intros s inp mln nc np mcol Hs Ha Hg Hd Hsz Hm Hn Hmc Hmass Htot Hsmall. pose proof Hg as [Ht _].
  destruct (given_load O E inp np Hg Hd) as (d & Hload & Hctor).
  set (mln' := match mln with Some k => k | None => default_max_leaf_n end) in *.
  set (nc' := match nc with Some k => k | None => e_ncrit E end) in *.
  assert (Hm' : (0 < mln')%nat) by (unfold mln', default_max_leaf_n; destruct mln as [[|k]|]; [congruence|lia|lia]).
  assert (Hn' : (0 < nc')%nat) by (unfold nc'; destruct nc as [[|k]|]; [congruence|lia|exact (proj1 HE)]).
  assert (Hcb : (Z.of_N (cbitsc c) < emax)%Z) by (pose proof cb_31; lia).
  assert (Hcnp : forall bx, bnd bx K -> (forall col x, In col (firstn (dim c) (given inp)) -> In x col -> bnd x K) ->
    forall pm cols' b e l p, is_perm pm np -> Forall2 (permuted pm) (given inp) cols' -> table E cols' np -> (b < e <= np)%nat -> (l <= cbitsc c)%N -> (p < 2 ^ (dimN c * l))%N ->
    exists pr, cnp O E cols' bx b e (2 ^ (dimN c * l) + p) l = Ok pr).
  { intros bx Bb Hx pm cols' b e l p Hpm HF Ht' Hbe Hl Hp.
    assert (PI : forall (col col' : list bf) x, permuted pm col col' -> In x col' -> In x col).
    { intros col col' x [P1 P2] Hin. apply In_nth_error in Hin as [i Hi]. destruct (nth_error pm i) as [k|] eqn:Ek.
      - destruct (P2 i k Ek) as [P3 _]. rewrite Hi in P3. eapply nth_error_In; eauto.
      - apply nth_error_None in Ek. pose proof (nth_error_lt _ _ _ Hi). lia. }
    assert (PP : forall col col' : list bf, length col = np -> permuted pm col col' -> Permutation col' col).
    { intros col col' L [P1 P2]. assert (EQ : col' = map (fun k => nth k col zero) pm).
      { apply nth_error_ext. intros i. rewrite nth_error_map. destruct (nth_error pm i) as [k|] eqn:Ek; cbn [option_map].
        - destruct (P2 i k Ek) as [P3 P4]. rewrite P3. now apply nth_error_nth'.
        - apply nth_error_None in Ek. apply nth_error_None. lia. }
      rewrite EQ. transitivity (map (fun k => nth k col zero) (seq 0 np)); [apply Permutation_map, Hpm|].
      rewrite <- L. clear. assert (X : map (fun k => nth k col zero) (seq 0 (length col)) = col); [|rewrite X; reflexivity].
      induction col as [|y col IH]; [reflexivity|]. cbn [length seq map nth]. f_equal. rewrite <- seq_shift, map_map. exact IH. }
    destruct (Forall2_nth _ _ _ _ _ HF Hmc) as (mcol' & Hm1 & Hm2).
    assert (LM : length mcol = np) by (destruct Ht as [_ Ht2]; rewrite Forall_forall in Ht2; apply Ht2; eapply nth_error_In; eauto).
    apply (cnp_F_ok cols' np bx b e l p mcol'); auto.
    - intros col' x Hc' Hx'. apply In_nth_error in Hc' as [j Hj]. assert (Hj' : (j < dim c)%nat) by (apply nth_error_lt in Hj; rewrite firstn_length in Hj; lia).
      assert (Hj2 : nth_error cols' j = Some col') by (rewrite <- Hj, nth_error_firstn'; [reflexivity|exact Hj']).
      destruct (Forall2_nth_r _ _ _ _ _ HF Hj2) as (col & C1 & C2). apply (Hx col); [|eapply PI; eauto].
      apply nth_error_In with j. rewrite nth_error_firstn'; assumption.
    - intros m Hin. apply Hmass. eapply PI; eauto.
    - rewrite (rsum_perm _ _ mcol' mcol); [exact Htot|]. now apply PP. }
  split.
  - intros b Fb Hb Hx. rewrite Hctor. fold mln' nc'.
    assert (Pb : 0 < B2R b) by (pose proof (bpow_gt_0 radix2 (10 - emax)); lra).
    assert (Bb : bnd b K) by (split; [exact Fb|rewrite Rabs_right; lra]).
    assert (Hx' : forall col x, In col (firstn (dim c) (given inp)) -> In x col -> bnd x K).
    { intros col x Hc Hin. destruct (Hx col x Hc Hin) as [F B]. split; [exact F|]. lra. }
    apply (construct_succeeds O E s b b false d mln' nc' (given inp) np); auto.
    + cbn [flt Bops]. rewrite Bltb_correct; [|exact Fb|apply (ofZ_0 prec emax Hprec Hemax fused)]. rewrite (proj1 (ofZ_0 prec emax Hprec Hemax fused)). apply Rlt_bool_false. lra.
    + apply encode_all_ok; [exact Ht|]. intros col x Hc Hin. destruct (Hx col x Hc Hin) as [F B].
      assert (Cb : comfortable prec emax b). { split; [exact Fb|]. split; [lra|]. eapply Rle_trans; [apply Hb|]. apply bpow_le. lia. }
      destruct (inv_val prec emax Hprec Hemax fused Hp8 Hrange c b Cb) as (Fi & _ & Ei).
      apply (disc_accept prec emax Hprec Hemax fused Hp8 Hrange c Hcb); auto. change (fdiv O (fofZ O 1%Z) b) with (invb prec emax Hprec Hemax fused b).
      pose proof (bpow_mprec8 prec Hp8 c) as U8. apply Rabs_def2b in Ei. assert (Pi : 0 < 1 / B2R b) by (apply Rdiv_lt_0_compat; lra).
      assert (Bi : 0 <= B2R (invb prec emax Hprec Hemax fused b) <= 257 / 256 * (1 / B2R b)) by nra.
      rewrite Rabs_mult, (Rabs_right (B2R (invb prec emax Hprec Hemax fused b))) by lra.
      apply Rle_trans with (31 / 64 * B2R b * (257 / 256 * (1 / B2R b))); [apply Rmult_le_compat; try lra; apply Rabs_pos|].
      replace (31 / 64 * B2R b * (257 / 256 * (1 / B2R b))) with (31 / 64 * (257 / 256)) by (field; lra). lra.
    + now apply Hcnp.
  - intros Hx (col0 & x0 & Hc0 & Hx0 & Hb0). rewrite Hctor. fold mln' nc'.
    destruct (rows_R E (given inp) np Ht) as (rs & Hrs & Hrl & Hrd & Hrin).
    assert (Hrb : Forall (Forall (fun x => bnd x (K - 2))) rs).
    { apply Forall_forall. intros q Hq. apply Forall_forall. intros y Hy. destruct (proj1 (Hrin y)) as (col & C1 & C2); [eauto|]. destruct (Hx col y C1 C2). split; assumption. }
    assert (Hsp : spans (s_red s np) 0 (length rs)) by (rewrite Hrl; apply Hs).
    destruct (box_ok rs (s_red s np) Hrd Hsp ltac:(now rewrite Hrl) Hrb) as (bx & Hbx & Bb & Cb).
    { destruct (proj2 (Hrin x0)) as (q & Q1 & Q2); [eauto|]. exists q, x0. auto. }
    apply (construct_succeeds O E s (fofZ O 0%Z) bx true d mln' nc' (given inp) np); auto.
    + exists rs. split; [exact Hrs|exact Hbx].
    + apply encode_all_ok; [exact Ht|]. intros col x Hc Hin. change (fdiv O (fofZ O 1%Z) bx) with (invb prec emax Hprec Hemax fused bx).
      destruct (proj2 (Hrin x)) as (q & Q1 & Q2); [eauto|].
      apply (deduced_accepts prec emax Hprec Hemax fused Hp8 Hrange c Hcb (dim c) rs (s_red s np) bx ltac:(destruct c; cbn; lia) Hrd Hsp Hbx Cb q x Q1 Q2).
    + apply Hcnp; [exact Bb|]. intros col x Hc Hin. destruct (Hx col x Hc Hin) as [F B]. split; [exact F|]. eapply Rle_trans; [exact B|]. apply bpow_le. lia.
Qed.

End IEEE.
