(** The kernels in exact arithmetic: each adds the interaction with a point mass. *)
From Coq Require Import List Arith NArith ZArith Lia Bool Reals Lra.
From Verif Require Import Base Config Morton Build FOps NodeProps Kernels TravProofs KernLoops RSum SelfSum.
Import ListNotations.
Local Open Scope nat_scope.

(** Squared distance of two points. *)
Definition sep2 (x y : list R) : R := rsum (fun '(a, b) => ((a - b) * (a - b))%R) (combine x y).

(** The inverse square root of the platform is exact. *)
Definition exact_rsqrt (K : platform R) : Prop :=
  match k_rsqrt K with Some f => forall x, (0 <= x)%R -> f x = (/ sqrt x)%R | None => True end.

(** The interaction, component [j] of the results: what the point mass [p2] does to
    the particle [p1]. With both quantities, the potential follows the [ndim] accelerations. *)
Definition is_acc (ndim : nat) (q : quant) (j : nat) : bool := has_acc q && (j <? ndim).
Definition pull (ndim : nat) (q : quant) (eps2 : R) (j : nat) (p1 p2 : @prow R) : R :=
  let r := sqrt (sep2 (fst p2) (fst p1) + eps2) in
  if is_acc ndim q j
  then (snd p2 * (nth j (fst p2) 0 - nth j (fst p1) 0) / (r * r * r))%R
  else (- (snd p1 * snd p2) / r)%R.

Definition comp (j : nat) (r : @rrow R) : R := nth j (fst r ++ snd r) 0%R.

Lemma sep2_nonneg : forall x y, (0 <= sep2 x y)%R.
Proof. intros x y. apply rsum_nonneg. intros [a b] _. exact (Rle_0_sqr (a - b)). Qed.

Lemma sep2_sym : forall x y, sep2 x y = sep2 y x.
Proof.
  unfold sep2. induction x as [|a x IH]; intros [|b y]; cbn [combine]; try reflexivity. rewrite !rsum_cons, IH. lra.
Qed.

Section KernR.

Variable c : cfg.
Variable simd : option nat.
Variable K : platform R.
Hypothesis HK : exact_rsqrt K.
Variables (q : quant) (eps2 : R).
Hypothesis Heps : (0 <= eps2)%R.

Notation nd := (dim c).
Notation T := (pull nd q eps2).
Notation dfs := (diffs Rops).

Definition wfp (p : @prow R) : Prop := length (fst p) = nd.
Definition wfr (r : @rrow R) : Prop :=
  length (fst r) = (if has_acc q then nd else 0) /\ length (snd r) = (if has_pot q then 1 else 0).

Lemma diffs_length : forall x y, length x = nd -> length y = nd -> length (dfs x y) = nd.
Proof. intros x y H1 H2. unfold diffs. rewrite map_length, combine_length. lia. Qed.

Lemma diffs_nth : forall x y j, length x = length y -> nth j (dfs x y) 0%R = (nth j x 0 - nth j y 0)%R.
Proof.
  intros x y j H. unfold diffs. destruct (Nat.lt_ge_cases j (length x)).
  - rewrite nth_zip_map with (d1 := 0%R) (d2 := 0%R) by lia. reflexivity.
  - rewrite !nth_overflow; [lra|lia|lia|rewrite map_length, combine_length; lia].
Qed.

Lemma fold_ffma : forall ds s, fold_left (fun s d => ffma Rops d d s) ds s = (s + rsum (fun d => d * d) ds)%R.
Proof.
  induction ds as [|d ds IH]; intros s; cbn [fold_left]; [rewrite rsum_nil; lra|].
  rewrite IH, rsum_cons. cbn [ffma Rops]. lra.
Qed.

Lemma diffs_sep2 : forall x y, rsum (fun d => (d * d)%R) (dfs x y) = sep2 x y.
Proof. intros x y. unfold diffs, sep2. rewrite rsum_map. apply rsum_ext. intros [a b] _. reflexivity. Qed.

Lemma dist2_s_R : forall x y, dist2_s Rops eps2 (dfs x y) = (sep2 x y + eps2)%R.
Proof. intros. unfold dist2_s. rewrite fold_ffma, diffs_sep2. lra. Qed.

Lemma dist2_v_R : forall x y, dist2_v Rops eps2 (dfs x y) = (sep2 x y + eps2)%R.
Proof.
  intros x y. rewrite <- dist2_s_R. unfold dist2_v. destruct (dfs x y) as [|a [|b [|d [|e l]]]]; try reflexivity.
  unfold dist2_s. cbn. lra.
Qed.

Lemma mac_dist2_R : forall x y, mac_dist2 Rops c simd (dfs x y) = sep2 x y.
Proof.
  intros x y. unfold mac_dist2. rewrite <- diffs_sep2. destruct (negb (vectorised c simd)).
  - rewrite fold_ffma. cbn. lra.
  - destruct (dfs x y) as [|a [|b [|d [|e l]]]]; rewrite ?fold_ffma; cbn; unfold rsum; cbn; try lra.
Qed.

Lemma fast_R : forall f x, fast_inv_sqrt Rops K = Some f -> (0 <= x)%R -> f x = (/ sqrt x)%R.
Proof.
  intros f x H Hx. unfold fast_inv_sqrt in H. unfold exact_rsqrt in HK. destruct (k_rsqrt K) as [g|]; [|discriminate].
  injection H as <-. unfold newton_iter, fnma. cbn [fmul fdiv fofZ ffma fopp Rops]. rewrite HK by exact Hx.
  destruct (Req_dec x 0) as [->|N].
  - rewrite sqrt_0, Rinv_0. lra.
  - assert (S : (sqrt x <> 0)%R) by (intros Z; apply sqrt_eq_0 in Z; lra).
    pose proof (sqrt_sqrt x Hx) as Q. set (s := sqrt x) in *. rewrite <- Q. field. exact S.
Qed.

Lemma cube_R : forall x, cube Rops x = (x * x * x)%R.
Proof. reflexivity. Qed.

Lemma axpy_nth : forall ds k acc j, length ds = length acc ->
  nth j (axpy Rops ds k acc) 0%R = (nth j acc 0 + nth j ds 0 * k)%R.
Proof.
  intros ds k acc j H. unfold axpy. destruct (Nat.lt_ge_cases j (length ds)).
  - rewrite nth_zip_map with (d1 := 0%R) (d2 := 0%R) by lia. cbn. lra.
  - rewrite !nth_overflow; [lra|lia|lia|rewrite map_length, combine_length; lia].
Qed.

(** Number of components. *)
Definition ncomp : nat := (if has_acc q then nd else 0) + (if has_pot q then 1 else 0).

Definition adds (r r' : @rrow R) (A : nat -> R) : Prop :=
  wfr r' /\ forall j, j < ncomp -> comp j r' = (comp j r + A j)%R.

Lemma upd_row : forall r fa fb (A : nat -> R),
  wfr r -> length fa = length (fst r) -> length fb = length (snd r) ->
  (forall j, j < length (fst r) -> is_acc nd q j = true -> nth j fa 0%R = (nth j (fst r) 0 + A j)%R) ->
  (forall j, j < ncomp -> is_acc nd q j = false -> length (snd r) = 1 -> nth 0 fb 0%R = (nth 0 (snd r) 0 + A j)%R) ->
  adds r (fa, fb) A.
Proof.
  intros r fa fb A W La Lb HA HB. split.
  - destruct W. split; cbn [fst snd]; congruence.
  - intros j Hj. unfold comp. cbn [fst snd]. destruct W as [W1 W2]. unfold ncomp, is_acc in *. destruct (has_acc q) eqn:HQ; cbn [andb] in *.
    + destruct (Nat.ltb_spec j nd) as [L|L].
      * rewrite !app_nth1 by lia. apply HA; [lia|]. now apply Nat.ltb_lt.
      * rewrite !app_nth2 by lia. rewrite La, W1. destruct (has_pot q); [|lia]. replace (j - nd) with 0 by lia.
        apply HB; [exact Hj| |exact W2]. now apply Nat.ltb_ge.
    + destruct r as [ra rb]. cbn [fst snd] in *. destruct ra; [|discriminate W1]. destruct fa; [|discriminate La]. cbn [app] in *.
      destruct (has_pot q); [|lia]. replace (nth j fb 0%R) with (nth 0 fb 0%R) by (f_equal; lia).
      replace (nth j rb 0%R) with (nth 0 rb 0%R) by (f_equal; lia). now apply HB.
Qed.

Ltac rowlen := unfold axpy; rewrite ?map_length, ?combine_length, ?diffs_length; auto.

Lemma wfr_acc : forall r j, wfr r -> j < length (fst r) -> length (fst r) = nd /\ j < nd.
Proof. intros r j [W _] H. destruct (has_acc q); lia. Qed.

(** The distances of a pair. *)
Section Pair.
Variables (p1 p2 : @prow R).
Hypothesis W1 : wfp p1.
Hypothesis W2 : wfp p2.
Let r := sqrt (sep2 (fst p2) (fst p1) + eps2).
Let ds := dfs (fst p2) (fst p1).

Lemma r_sq : (sep2 (fst p2) (fst p1) + eps2 = r * r)%R.
Proof. unfold r. rewrite sqrt_sqrt; [reflexivity|]. pose proof (sep2_nonneg (fst p2) (fst p1)). lra. Qed.

Lemma r_sqrt : sqrt (r * r) = r.
Proof. apply sqrt_square. apply sqrt_pos. Qed.

Lemma d2_nonneg : (0 <= sep2 (fst p2) (fst p1) + eps2)%R.
Proof. pose proof (sep2_nonneg (fst p2) (fst p1)). lra. Qed.

Lemma Lds : length ds = nd.
Proof. now apply diffs_length. Qed.

Lemma Nds : forall j, nth j ds 0%R = (nth j (fst p2) 0 - nth j (fst p1) 0)%R.
Proof. intros j. apply diffs_nth. unfold wfp in *. congruence. Qed.

Lemma T_acc : forall j, is_acc nd q j = true -> T j p1 p2 = (nth j ds 0 * (snd p2 * / (r * r * r)))%R.
Proof. intros j H. unfold pull. rewrite H, Nds. unfold r, Rdiv. ring. Qed.

Lemma T_pot : forall j, is_acc nd q j = false -> T j p1 p2 = (- (snd p1 * (snd p2 * / r)))%R.
Proof. intros j H. unfold pull. rewrite H. unfold r, Rdiv. ring. Qed.

Lemma T_acc_sym : forall j, is_acc nd q j = true -> T j p2 p1 = (- nth j ds 0 * (snd p1 * / (r * r * r)))%R.
Proof. intros j H. unfold pull. rewrite H, Nds, (sep2_sym (fst p1)). unfold r, Rdiv. ring. Qed.

Lemma T_pot_sym : forall j, is_acc nd q j = false -> T j p2 p1 = (- (snd p1 * (snd p2 * / r)))%R.
Proof. intros j H. unfold pull. rewrite H, (sep2_sym (fst p1)). unfold r, Rdiv. ring. Qed.

End Pair.

(** [map] over a row of one element. *)
Lemma map1 : forall (f : R -> R) l, length l = 1 -> nth 0 (map f l) 0%R = f (nth 0 l 0%R).
Proof. intros f [|x [|y l]] H; try discriminate. reflexivity. Qed.

Lemma leaf_pair_R : forall p1 p2 r, wfp p1 -> wfp p2 -> wfr r ->
  adds r (leaf_pair Rops c simd K q eps2 p1 p2 r) (fun j => T j p1 p2).
Proof.
  intros p1 p2 r W1 W2 W. unfold leaf_pair. cbv zeta.
  pose proof (T_acc p1 p2 W1 W2) as TA. pose proof (T_pot p1 p2) as TP.
  pose proof (Lds p1 p2 W1 W2) as LD. pose proof (r_sq p1 p2) as RS. pose proof (r_sqrt p1 p2) as RQ.
  pose proof (d2_nonneg p1 p2) as DN.
  rewrite dist2_s_R, dist2_v_R.
  set (D := sqrt (sep2 (fst p2) (fst p1) + eps2)) in *. rewrite RS in DN |- *. set (ds := dfs (fst p2) (fst p1)) in *.
  assert (LA : forall j, j < length (fst r) -> length ds = length (fst r)) by (intros j Hj; destruct (wfr_acc r j W Hj); lia).
  assert (LX : forall k, length (axpy Rops ds k (fst r)) = length (fst r)).
  { intros k. unfold axpy. rewrite map_length, combine_length. destruct W as [Wa _]. destruct (has_acc q); lia. }
  assert (FI : forall f, fast_inv_sqrt Rops K = Some f -> f (D * D)%R = (/ D)%R).
  { intros f Hf. rewrite (fast_R f _ Hf DN). now rewrite RQ. }
  destruct (negb (vectorised c simd)).
  - cbn [fsqrt fdiv fmul fopp Rops]. rewrite RQ. apply upd_row; auto using map_length.
    + intros j Hj Ha. rewrite axpy_nth by eauto. rewrite TA by exact Ha. unfold Rdiv. replace (D * (D * D))%R with (D * D * D)%R by ring. ring.
    + intros j Hj Ha L1. rewrite map1 by exact L1. cbn [ffma Rops]. rewrite TP by exact Ha. unfold Rdiv. ring.
  - destruct q eqn:Q.
    + apply upd_row; auto.
      * intros j Hj Ha. rewrite Q in Ha. rewrite axpy_nth by eauto. rewrite TA by exact Ha.
        destruct (fast_inv_sqrt Rops K) as [f|] eqn:Ff.
        -- rewrite (FI f eq_refl). unfold cube. cbn [fmul Rops]. rewrite !Rinv_mult. ring.
        -- cbn [fdiv fmul fsqrt Rops]. rewrite RQ. unfold Rdiv. replace (D * (D * D))%R with (D * D * D)%R by ring. ring.
      * intros j Hj Ha L1. destruct W as [_ W]. rewrite Q in W. cbn in W. lia.
    + apply upd_row; auto using map_length.
      * intros j Hj Ha. destruct W as [W _]. rewrite Q in W. cbn in W. lia.
      * intros j Hj Ha L1. rewrite Q in Ha. rewrite map1 by exact L1. rewrite TP by exact Ha.
        destruct (fast_inv_sqrt Rops K) as [f|] eqn:Ff.
        -- rewrite (FI f eq_refl). cbn [fmul fsub Rops]. ring.
        -- cbn [fdiv fmul fsub fsqrt Rops]. rewrite RQ. unfold Rdiv. ring.
    + destruct (fast_inv_sqrt Rops K) as [f|] eqn:Ff.
      * rewrite (FI f eq_refl). unfold cube. cbn [fmul Rops]. apply upd_row; auto using map_length.
        -- intros j Hj Ha. rewrite Q in Ha. rewrite axpy_nth by eauto. rewrite TA by exact Ha. rewrite !Rinv_mult. ring.
        -- intros j Hj Ha L1. rewrite Q in Ha. rewrite map1 by exact L1. unfold fnma. cbn [ffma fopp Rops]. rewrite TP by exact Ha. ring.
      * cbn [fdiv fmul fsqrt Rops]. rewrite RQ. apply upd_row; auto using map_length.
        -- intros j Hj Ha. rewrite Q in Ha. rewrite axpy_nth by eauto. rewrite TA by exact Ha. unfold Rdiv. ring.
        -- intros j Hj Ha L1. rewrite Q in Ha. rewrite map1 by exact L1. unfold fnma. cbn [ffma fopp Rops]. rewrite TP by exact Ha. unfold Rdiv. ring.
Qed.

Lemma com_pair_R : forall com m_src p1 r, wfp p1 -> length com = nd -> wfr r ->
  adds r (com_pair Rops c simd K m_src p1 (snd (mac_lane Rops c simd K eps2 com p1)) r) (fun j => T j p1 (com, m_src)).
Proof.
  intros com m_src p1 r W1 Wc W. unfold com_pair, mac_lane. cbv zeta. cbn [snd].
  set (p2 := (com, m_src)). assert (W2 : wfp p2) by exact Wc.
  pose proof (T_acc p1 p2 W1 W2) as TA. pose proof (T_pot p1 p2) as TP.
  pose proof (Lds p1 p2 W1 W2) as LD. pose proof (r_sq p1 p2) as RS. pose proof (r_sqrt p1 p2) as RQ.
  pose proof (d2_nonneg p1 p2) as DN. change com with (fst p2). change m_src with (snd p2).
  rewrite mac_dist2_R. cbn [fadd Rops].
  set (D := sqrt (sep2 (fst p2) (fst p1) + eps2)) in *. rewrite RS in DN |- *. set (ds := dfs (fst p2) (fst p1)) in *.
  assert (LA : forall j, j < length (fst r) -> length ds = length (fst r)) by (intros j Hj; destruct (wfr_acc r j W Hj); lia).
  assert (LX : forall k, length (axpy Rops ds k (fst r)) = length (fst r)).
  { intros k. unfold axpy. rewrite map_length, combine_length. destruct W as [Wa _]. destruct (has_acc q); lia. }
  assert (FI : forall f, fast_inv_sqrt Rops K = Some f -> f (D * D)%R = (/ D)%R).
  { intros f Hf. rewrite (fast_R f _ Hf DN). now rewrite RQ. }
  destruct (vectorised c simd); cbn [negb].
  - destruct (fast_inv_sqrt Rops K) as [f|] eqn:Ff; cbn [tmp_diffs tmp_dist3 tmp_dist].
    + rewrite (FI f eq_refl). unfold cube. cbn [fmul Rops]. apply upd_row; auto using map_length.
      * intros j Hj Ha. rewrite axpy_nth by eauto. rewrite TA by exact Ha. rewrite !Rinv_mult. ring.
      * intros j Hj Ha L1. rewrite map1 by exact L1. unfold fnma. cbn [ffma fopp Rops]. rewrite TP by exact Ha. ring.
    + cbn [fdiv fmul fsqrt Rops]. rewrite RQ. apply upd_row; auto using map_length.
      * intros j Hj Ha. rewrite axpy_nth by eauto. rewrite TA by exact Ha. unfold Rdiv. replace (D * (D * D))%R with (D * D * D)%R by ring. ring.
      * intros j Hj Ha L1. rewrite map1 by exact L1. unfold fnma. cbn [ffma fopp Rops]. rewrite TP by exact Ha. unfold Rdiv. ring.
  - cbn [tmp_diffs tmp_dist3 tmp_dist fdiv fmul fsqrt fopp Rops]. rewrite RQ. apply upd_row; auto using map_length.
    + intros j Hj Ha. rewrite axpy_nth by eauto. rewrite TA by exact Ha. unfold Rdiv. replace (D * (D * D))%R with (D * D * D)%R by ring. ring.
    + intros j Hj Ha L1. rewrite map1 by exact L1. cbn [ffma Rops]. rewrite TP by exact Ha. unfold Rdiv. ring.
Qed.

Lemma zip_length : forall {A B} (f : R * R -> B) (ds : list R) (l : list R) (x : A), length ds = nd -> (length l = 0 \/ length l = nd) ->
  length (map f (combine ds l)) = length l.
Proof. intros. rewrite map_length, combine_length. lia. Qed.

Lemma self_pair_R : forall p1 p2 a r, wfp p1 -> wfp p2 -> wfr a -> wfr r ->
  adds a (fst (self_pair Rops c simd K q eps2 p1 p2 a r)) (fun j => T j p1 p2) /\
  adds r (snd (self_pair Rops c simd K q eps2 p1 p2 a r)) (fun j => T j p2 p1).
Proof.
  intros p1 p2 a r W1 W2 Wa Wr. unfold self_pair. cbv zeta.
  pose proof (T_acc p1 p2 W1 W2) as TA. pose proof (T_pot p1 p2) as TP.
  pose proof (T_acc_sym p1 p2 W1 W2) as TA'. pose proof (T_pot_sym p1 p2) as TP'.
  pose proof (Lds p1 p2 W1 W2) as LD. pose proof (r_sq p1 p2) as RS. pose proof (r_sqrt p1 p2) as RQ.
  pose proof (d2_nonneg p1 p2) as DN. rewrite dist2_s_R, dist2_v_R.
  set (D := sqrt (sep2 (fst p2) (fst p1) + eps2)) in *. rewrite RS in DN |- *. set (ds := dfs (fst p2) (fst p1)) in *.
  assert (LA : forall r j, wfr r -> j < length (fst r) -> length ds = length (fst r)) by (intros r' j W Hj; destruct (wfr_acc r' j W Hj); lia).
  assert (LX : forall r (f : R * R -> R), wfr r -> length (map f (combine ds (fst r))) = length (fst r)).
  { intros r' f [Wf _]. apply (zip_length f ds _ tt LD). destruct (has_acc q); auto. }
  assert (FI : forall f, fast_inv_sqrt Rops K = Some f -> f (D * D)%R = (/ D)%R).
  { intros f Hf. rewrite (fast_R f _ Hf DN). now rewrite RQ. }
  assert (ZN : forall r (f : R * R -> R) j, wfr r -> j < length (fst r) ->
    nth j (map f (combine ds (fst r))) 0%R = f (nth j ds 0%R, nth j (fst r) 0%R)).
  { intros r' f j W Hj. apply nth_zip_map; [|exact Hj]. rewrite (LA r' j W Hj). exact Hj. }
  destruct (negb (vectorised c simd)).
  - cbn [fst snd fsqrt fdiv fmul fopp Rops]. rewrite RQ. split; apply upd_row; auto using map_length.
    + intros j Hj Ha. rewrite ZN by auto. cbn [ffma Rops]. rewrite TA by exact Ha. unfold Rdiv. ring.
    + intros j Hj Ha L1. rewrite map1 by exact L1. cbn [fsub Rops]. rewrite TP by exact Ha. unfold Rdiv. ring.
    + intros j Hj Ha. rewrite ZN by auto. cbn [ffma Rops]. rewrite TA' by exact Ha. unfold Rdiv. ring.
    + intros j Hj Ha L1. rewrite map1 by exact L1. cbn [fsub Rops]. rewrite TP' by exact Ha. unfold Rdiv. ring.
  - destruct (fast_inv_sqrt Rops K) as [f|] eqn:Ff.
    + rewrite (FI f eq_refl). unfold cube, axpy. cbn [fst snd fmul Rops]. split; apply upd_row; auto using map_length.
      * intros j Hj Ha. rewrite ZN by auto. cbn [ffma Rops]. rewrite TA by exact Ha. rewrite !Rinv_mult. ring.
      * intros j Hj Ha L1. rewrite map1 by exact L1. cbn [fsub Rops]. rewrite TP by exact Ha. ring.
      * intros j Hj Ha. rewrite ZN by auto. unfold fnma. cbn [ffma fopp Rops]. rewrite TA' by exact Ha. rewrite !Rinv_mult. ring.
      * intros j Hj Ha L1. rewrite map1 by exact L1. cbn [fsub Rops]. rewrite TP' by exact Ha. ring.
    + unfold axpy. cbn [fst snd fdiv fmul fsqrt Rops]. rewrite RQ. replace (D * (D * D))%R with (D * D * D)%R by ring.
      split; apply upd_row; auto using map_length.
      * intros j Hj Ha. rewrite ZN by auto. cbn [ffma Rops]. rewrite TA by exact Ha. unfold Rdiv. ring.
      * intros j Hj Ha L1. rewrite map1 by exact L1. cbn [fsub Rops]. rewrite TP by exact Ha. unfold Rdiv. ring.
      * intros j Hj Ha. rewrite ZN by auto. unfold fnma. cbn [ffma fopp Rops]. rewrite TA' by exact Ha. unfold Rdiv. ring.
      * intros j Hj Ha L1. rewrite map1 by exact L1. cbn [fsub Rops]. rewrite TP' by exact Ha. unfold Rdiv. ring.
Qed.

Lemma row0_R : wfr (row0 Rops c q) /\ forall j, comp j (row0 Rops c q) = 0%R.
Proof.
  split.
  - unfold wfr, row0. cbn [fst snd]. destruct (has_acc q), (has_pot q); rewrite ?repeat_length; auto.
  - intros j. unfold comp, row0. cbn [fst snd fofZ Rops]. destruct (nth_in_or_default j ((if has_acc q then repeat 0%R nd else []) ++ (if has_pot q then [0%R] else [])) 0%R) as [H|H]; [|exact H].
    apply in_app_or in H as [H|H].
    + destruct (has_acc q); [now apply repeat_spec in H|destruct H].
    + destruct (has_pot q); [destruct H as [<-|[]]; reflexivity|destruct H].
Qed.

Lemma add_rows_R : forall r a, wfr r -> wfr a -> adds r (add_rows Rops r a) (fun j => comp j a).
Proof.
  intros r a Wr Wa. pose proof Wr as [R1 R2]. pose proof Wa as [A1 A2]. unfold add_rows. apply upd_row; auto.
  - rewrite map_length, combine_length. lia.
  - rewrite map_length, combine_length. lia.
  - intros j Hj Ha. rewrite nth_zip_map with (d1 := 0%R) (d2 := 0%R) by lia. cbn [fadd Rops]. unfold comp. rewrite app_nth1 by lia. reflexivity.
  - intros j Hj Ha L1. rewrite nth_zip_map with (d1 := 0%R) (d2 := 0%R) by lia. cbn [fadd Rops]. unfold comp.
    unfold ncomp, is_acc in *. destruct (has_acc q); cbn [andb] in *.
    + apply Nat.ltb_ge in Ha. rewrite app_nth2 by lia. replace (j - length (fst a)) with 0 by (destruct (has_pot q); lia). reflexivity.
    + destruct (fst a); [|discriminate A1]. cbn [app]. replace j with 0 by (destruct (has_pot q); lia). reflexivity.
Qed.

End KernR.
