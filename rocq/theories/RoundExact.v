(** Rounding errors of the direct sums ([exact_acc_pot]). *)
From Coq Require Import List Arith ZArith NArith Reals Bool Lra Lia Psatz Permutation.
From Flocq Require Import Core BinarySingleNaN Relative Plus_error.
From Verif Require Import Base Config Morton Build TreeSpec BuildProofs FOps FOpsProofs Disc NodeProps Tree TreeInv TreeProofs TreeSafe TreeProps RSum Kernels KernR SelfSum Force ForceGen ForceTop ForceRTop ForceR Round RoundFin RoundNear RoundKern RoundSum.
Import ListNotations.
Local Open Scope nat_scope.

Lemma dim3 : forall c : cfg, dim c <= 3.
Proof. intros []; cbn; lia. Qed.

Lemma particle_gen : forall {F} (O : fops F) E t x m i, tree_inv O E t -> row (t_parts t) i (x ++ [m]) ->
  particle (e_cfg E) (t_parts t) i = Ok (x, m) /\ length x = dim (e_cfg E).
Proof.
  intros F O E t x m i Ht HR. pose proof (inv_ncols _ _ _ Ht) as NC. pose proof (Forall2_len _ _ _ HR) as L. rewrite app_length in L. cbn [length] in L.
  assert (Lx : length x = dim (e_cfg E)) by lia. split; [|exact Lx]. unfold particle.
  apply Forall2_app_inv_r in HR as (ca & cb & H1 & H2 & EQ). pose proof (Forall2_len _ _ _ H1) as L1.
  inversion H2 as [|mc m' ? ? Hm HN]; subst. inversion HN; subst.
  assert (M : mapM (fun col => rd col i) (firstn (dim (e_cfg E)) (t_parts t)) = Ok x).
  { rewrite EQ, firstn_app. replace (dim (e_cfg E) - length ca) with 0 by lia. rewrite firstn_O, app_nil_r, firstn_all2 by lia. clear - H1.
    induction H1 as [|col y cols x Hc H IH]; [reflexivity|]. cbn [mapM]. unfold rd at 1. rewrite Hc. cbn [bind]. now rewrite IH. }
  rewrite M. cbn [bind]. unfold rd. rewrite EQ, nth_error_app2 by lia. replace (dim (e_cfg E) - length ca) with 0 by lia. cbn [nth_error bind]. now rewrite Hm.
Qed.

Section IEEE.

Variables prec emax : Z.
Context (Hprec : Prec_gt_0 prec).
Context (Hemax : Prec_lt_emax prec emax).
Variable fused : bool.
Hypothesis Hp8 : (8 <= prec)%Z.

Notation bf := (binary_float prec emax).
Notation O := (Bops prec emax Hprec Hemax fused).
Notation zero := (fofZ O 0%Z).
Notation one := (fofZ O 1%Z).
Notation g := (gR prec).
Notation eta := (etaR prec emax).
Notation u := (uR prec).
Notation bnd := (bnd prec emax).
Notation approx := (approx prec emax).
Notation near := (near prec).
Notation val := (val prec emax).
Notation okr := (okr emax).
Notation astep := (astep prec emax Hprec Hemax fused).
Notation csum := (csum prec emax Hprec Hemax fused).
Notation Hp2 := (Hp2 prec Hp8).
Notation prow := (@prow bf).
Notation rrow := (@rrow bf).

Local Open Scope R_scope.

(** The real values of a particle. *)
Definition realp (p : prow) : list R * R := (map (@B2R prec emax) (fst p), B2R (snd p)).

Lemma real_nth : forall (x : list bf) j, nth j (map (@B2R prec emax) x) 0 = B2R (nth j x zero).
Proof. intros x j. rewrite <- (map_nth (@B2R prec emax)). apply f_equal. symmetry. apply (B2R_zero prec emax Hprec Hemax fused). Qed.

Lemma real_sep2 : forall n (x2 x1 : list bf), length x2 = n -> length x1 = n ->
  sep2 (map (@B2R prec emax) x2) (map (@B2R prec emax) x1) = rsum (fun j => del prec emax Hprec Hemax fused x2 x1 j * del prec emax Hprec Hemax fused x2 x1 j) (seq 0 n).
Proof.
  intros n x2 x1 L2 L1. unfold sep2. rewrite (rsum_nth _ _ (0, 0)). rewrite combine_length, !map_length, L1, L2, Nat.min_id. apply rsum_ext. intros j _.
  rewrite combine_nth by (rewrite !map_length; lia). rewrite !real_nth. reflexivity.
Qed.

Lemma real_sqd : forall n e2 (x2 x1 : list bf), length x2 = n -> length x1 = n ->
  sqd prec emax Hprec Hemax fused n e2 x2 x1 = sep2 (map (@B2R prec emax) x2) (map (@B2R prec emax) x1) + e2.
Proof. intros n e2 x2 x1 L2 L1. unfold sqd. now rewrite (real_sep2 n). Qed.

Lemma real_acc : forall n e2 q j (p1 p2 : prow), length (fst p2) = n -> length (fst p1) = n -> is_acc n q j = true ->
  pull n q e2 j (realp p1) (realp p2) = Tacc prec emax Hprec Hemax fused n e2 j p1 p2.
Proof.
  intros n e2 q j p1 p2 L2 L1 HA. unfold pull, realp. cbn [fst snd]. rewrite HA. unfold Tacc, RoundKern.dst. rewrite (real_sqd n) by assumption. rewrite !real_nth. reflexivity.
Qed.

Lemma real_pot : forall n e2 q j (p1 p2 : prow), length (fst p2) = n -> length (fst p1) = n -> is_acc n q j = false ->
  pull n q e2 j (realp p1) (realp p2) = Tpot prec emax Hprec Hemax fused n e2 p1 p2.
Proof.
  intros n e2 q j p1 p2 L2 L1 HA. unfold pull, realp. cbn [fst snd]. rewrite HA. unfold Tpot, RoundKern.dst. rewrite (real_sqd n) by assumption. unfold Rdiv. ring.
Qed.

(** * One interaction of the direct sum *)

Variable k : Z.
Hypothesis Hk0 : (0 <= k)%Z.
Hypothesis Hk5 : (5 * k + 16 <= emax)%Z.
Variable n : nat.
Hypothesis Hn3 : (n <= 3)%nat.
Variable e2 : R.
Variable eps2 : bf.
Hypothesis He2 : 0 <= e2 <= bpow radix2 (2 * k).
Hypothesis Heps : val 1 eps2 e2.
Variable G : bf.
Hypothesis HG : mok prec emax k G.

Notation pair_ok := (pair_ok prec emax Hprec Hemax fused k n e2).
Notation Tpot := (Tpot prec emax Hprec Hemax fused n e2).
Notation Tacc := (Tacc prec emax Hprec Hemax fused n e2).
Notation shp := (shp prec emax n).

Definition exact_pair (p1 p2 : prow) (r : rrow) : rrow :=
  let ds := diffs O (fst p2) (fst p1) in
  let inv_dist := fdiv O one (fsqrt O (dist2_s O eps2 ds)) in
  let Gmi_dist := fmul O (fmul O G (snd p2)) inv_dist in
  (axpy O ds (fmul O (fmul O inv_dist inv_dist) Gmi_dist) (fst r), map (fun p => ffma O (fopp O Gmi_dist) (snd p1) p) (snd r)).

Ltac sm := apply (small_128 prec Hp8); lia.

Lemma exact_pair_step : forall q p1 p2 a, pair_ok p1 p2 -> shp q a ->
  shp q (exact_pair p1 p2 a) /\
  (has_acc q = true -> forall j, (j < n)%nat -> exists t, astep (nth j (fst a) zero) (nth j (fst (exact_pair p1 p2 a)) zero) t /\ near 26 t (B2R G * Tacc j p1 p2)) /\
  (has_pot q = true -> exists t, astep (nth 0 (snd a) zero) (nth 0 (snd (exact_pair p1 p2 a)) zero) t /\ near 26 t (B2R G * Tpot p1 p2)).
Proof.
  intros q p1 p2 a HP [S1 S2]. pose proof HP as ((C1 & M1) & (C2 & M2) & HD).
  pose proof (dist2_s_ok prec emax Hprec Hemax fused Hp8 k Hk0 Hk5 n Hn3 e2 eps2 He2 Heps (fst p2) (fst p1) C2 C1 HD) as V2.
  pose proof (diffs_length prec emax Hprec Hemax fused k n Hn3 (fst p2) (fst p1) C2 C1) as LD.
  unfold exact_pair. cbv zeta. set (ds := diffs O (fst p2) (fst p1)) in *. set (d2 := dist2_s O eps2 ds) in *.
  pose proof (D_pos prec emax Hprec Hemax fused k n e2 p1 p2 HP) as PD.
  assert (RD : rng (- k) (k + 2) (RoundKern.dst prec emax Hprec Hemax fused n e2 p1 p2)).
  { right. rewrite Rabs_right by lra.
    assert (E : forall a, sqrt (bpow radix2 (2 * a)) = bpow radix2 a).
    { intros b. replace (2 * b)%Z with (b + b)%Z by lia. rewrite bpow_plus. apply sqrt_square, bpow_ge_0. }
    split; [rewrite <- (E (- k)%Z)|rewrite <- (E (k + 2)%Z)]; apply sqrt_le_1_alt.
    - now replace (2 * - k)%Z with (- (2 * k))%Z by lia.
    - replace (2 * (k + 2))%Z with (2 * k + 4)%Z by lia. now apply (sqd_le prec emax Hprec Hemax fused k n Hn3 e2 He2). }
  assert (VD : val 6 (fsqrt O d2) (RoundKern.dst prec emax Hprec Hemax fused n e2 p1 p2)).
  { apply (val_sqrt prec emax Hprec Hemax fused Hp8 5); [exact V2| |sm|].
    - pose proof (bpow_gt_0 radix2 (- (2 * k))). lra.
    - apply (rng_okr emax) with (- (2 * k))%Z (2 * k + 4)%Z; [|lia|lia]. right. rewrite Rabs_right by (pose proof (bpow_gt_0 radix2 (- (2 * k))); lra).
      split; [exact HD|]. now apply (sqd_le prec emax Hprec Hemax fused k n Hn3 e2 He2). }
  set (D := RoundKern.dst prec emax Hprec Hemax fused n e2 p1 p2) in *.
  assert (V1 : val 0 one 1).
  { destruct (ofZ_pow prec emax Hprec Hemax fused Hp2 0 ltac:(pose proof Hemax; unfold Prec_lt_emax in *; lia)) as [A B]. change (2 ^ 0)%Z with 1%Z in A, B. split; [exact B|]. rewrite A. apply (near_refl prec Hp8). }
  assert (R1 : rng 0 0 1) by (right; rewrite Rabs_R1; change (bpow radix2 0) with 1; lra).
  pose proof (rng_div _ _ _ _ _ _ R1 RD) as RI.
  assert (VI : val 7 (fdiv O one (fsqrt O d2)) (1 / D)).
  { apply (val_div prec emax Hprec Hemax fused Hp8 0 6); [exact V1|exact VD|lra|sm|]. eapply (rng_okr emax); [exact RI|lia|lia]. }
  set (iv := fdiv O one (fsqrt O d2)) in *.
  destruct HG as [FG RG]. destruct M2 as [F2 RM2]. pose proof (rng_mul _ _ _ _ _ _ RG RM2) as RGM.
  assert (VG : val 1 (fmul O G (snd p2)) (B2R G * B2R (snd p2))).
  { apply (val_mul prec emax Hprec Hemax fused Hp8 0 0); [now apply val_self|now apply val_self|sm|]. eapply (rng_okr emax); [exact RGM|lia|lia]. }
  pose proof (rng_mul _ _ _ _ _ _ RGM RI) as RGI.
  assert (VGI : val 9 (fmul O (fmul O G (snd p2)) iv) (B2R G * B2R (snd p2) * (1 / D))).
  { apply (val_mul prec emax Hprec Hemax fused Hp8 1 7); [exact VG|exact VI|sm|]. eapply (rng_okr emax); [exact RGI|lia|lia]. }
  set (gi := fmul O (fmul O G (snd p2)) iv) in *.
  pose proof (rng_mul _ _ _ _ _ _ RI RI) as RII.
  assert (VII : val 15 (fmul O iv iv) (1 / D * (1 / D))).
  { apply (val_mul prec emax Hprec Hemax fused Hp8 7 7); [exact VI|exact VI|sm|]. eapply (rng_okr emax); [exact RII|lia|lia]. }
  pose proof (rng_mul _ _ _ _ _ _ RII RGI) as RG3.
  assert (VG3 : val 25 (fmul O (fmul O iv iv) gi) (1 / D * (1 / D) * (B2R G * B2R (snd p2) * (1 / D)))).
  { apply (val_mul prec emax Hprec Hemax fused Hp8 15 9); [exact VII|exact VGI|sm|]. eapply (rng_okr emax); [exact RG3|lia|lia]. }
  split; [|split].
  - split; cbn [fst snd]; [unfold axpy; rewrite map_length, combine_length; destruct (has_acc q); lia|now rewrite map_length].
  - intros Hq j Hj. cbn [fst]. rewrite Hq in S1. unfold axpy.
    rewrite (nth_zip_map) with (d1 := zero) (d2 := zero) by lia. cbn [fst snd].
    destruct (diffs_val prec emax Hprec Hemax fused Hp8 k Hk0 Hk5 n Hn3 (fst p2) (fst p1) j C2 C1 Hj) as [VJ _]. fold ds in VJ.
    eexists. split; [right; eexists _, _; split; [reflexivity|]; split; [apply VJ|split; [apply VG3|reflexivity]]|].
    destruct VJ as [_ NJ]. destruct VG3 as [_ N3]. unfold RoundKern.Tacc. fold D.
    replace (B2R G * (B2R (snd p2) * del prec emax Hprec Hemax fused (fst p2) (fst p1) j / (D * D * D)))
      with (del prec emax Hprec Hemax fused (fst p2) (fst p1) j * (1 / D * (1 / D) * (B2R G * B2R (snd p2) * (1 / D)))) by (field; lra).
    exact (near_mul prec Hp8 1 25 _ _ _ _ NJ N3).
  - intros Hq. cbn [snd]. rewrite Hq in S2. destruct (snd a) as [|p [|? ?]]; try discriminate. cbn [map nth].
    eexists. split; [right; eexists _, _; split; [reflexivity|]; split; [|split; [apply M1|reflexivity]]; cbn [fopp Bops]; rewrite is_finite_Bopp; apply VGI|].
    destruct VGI as [_ NG]. unfold RoundKern.Tpot. fold D. cbn [fopp Bops]. rewrite B2R_Bopp.
    replace (B2R G * - (B2R (snd p1) * B2R (snd p2) / D)) with (- (B2R G * B2R (snd p2) * (1 / D)) * B2R (snd p1)) by (field; lra).
    apply (near_mono prec Hp8) with (9 + 0)%nat; [|lia]. apply (near_mul prec Hp8); [now apply (near_opp prec)|apply (near_refl prec Hp8)].
Qed.

(** * The sum over the other particles *)

Variable E : env.
Hypothesis HE : env_ok E.
Hypothesis Hdim : dim (e_cfg E) = n.
Variable t : @tree bf.
Hypothesis Ht : tree_inv O E t.
Variable Q : nat -> prow.
Hypothesis HQ : forall i, (i < length (t_codes t))%nat -> row (t_parts t) i (fst (Q i) ++ [snd (Q i)]).
Variable idx : nat.
Hypothesis Hidx : (idx < length (t_codes t))%nat.
Hypothesis Hpairs : forall i, (i < length (t_codes t))%nat -> i <> idx -> pair_ok (Q idx) (Q i).

Lemma exact_step_F : forall i r, (i < length (t_codes t))%nat ->
  exact_step O E G eps2 (t_parts t) idx r i = Ok (if (i =? idx)%nat then r else exact_pair (Q idx) (Q i) r).
Proof.
  intros i r Hi. unfold exact_step. destruct (Nat.eqb_spec i idx) as [_|N]; [reflexivity|].
  destruct (particle_gen O E t _ _ i Ht (HQ i Hi)) as [-> _]. destruct (particle_gen O E t _ _ idx Ht (HQ idx Hidx)) as [-> _]. reflexivity.
Qed.

Definition esums (q : quant) (r : rrow) (l : list nat) : Prop :=
  shp q r /\
  (has_acc q = true -> forall j, (j < n)%nat -> csum 26 (fun i => B2R G * Tacc j (Q idx) (Q i)) (nth j (fst r) zero) l (length l)) /\
  (has_pot q = true -> csum 26 (fun i => B2R G * Tpot (Q idx) (Q i)) (nth 0 (snd r) zero) l (length l)).

Lemma exact_fold_F : forall q L r l, (forall i, In i L -> (i < length (t_codes t))%nat) -> esums q r l ->
  exists r' l', foldM (exact_step O E G eps2 (t_parts t) idx) L r = Ok r' /\ esums q r' l' /\ Permutation l' (filter (fun i => negb (i =? idx)%nat) L ++ l).
Proof.
  intros q L. induction L as [|i L IH]; intros r l HL HS; [exists r, l; cbn; auto|].
  cbn [foldM]. rewrite exact_step_F by (apply HL; now left). cbn [bind filter]. destruct (Nat.eqb_spec i idx) as [->|N]; cbn [negb].
  - apply IH; [intros; apply HL; now right|exact HS].
  - destruct HS as (S1 & S2 & S3). destruct (exact_pair_step q (Q idx) (Q i) r (Hpairs i (HL i (or_introl eq_refl)) N) S1) as (T1 & T2 & T3).
    destruct (IH (exact_pair (Q idx) (Q i) r) (i :: l)) as (r' & l' & E1 & E2 & E3).
    + intros; apply HL; now right.
    + split; [exact T1|]. cbn [length]. split.
      * intros Hq j Hj. destruct (T2 Hq j Hj) as (tt & A & B). eapply csum_step; eauto.
      * intros Hq. destruct (T3 Hq) as (tt & A & B). eapply csum_step; eauto.
    + exists r', l'. split; [exact E1|]. split; [exact E2|]. rewrite E3. cbn [app]. now rewrite <- Permutation_middle.
Qed.

Lemma esums_0 : forall q, esums q (row0 O (e_cfg E) q) [].
Proof.
  intros q. unfold esums, row0, RoundKern.shp. cbn [fst snd length]. rewrite Hdim. split; [|split].
  - destruct (has_acc q), (has_pot q); cbn [length]; rewrite ?repeat_length; auto.
  - intros Hq j Hj. rewrite Hq, nth_repeat. constructor.
  - intros Hq. rewrite Hq. cbn [nth]. constructor.
Qed.

Hypothesis Hfew : (Z.of_nat (length (t_codes t)) + 27 <= 2 ^ (prec - 1))%Z.
Hypothesis Hroom : (prec + 4 * k + 4 <= emax)%Z.

Lemma exact_sum_F : forall q, exists r, foldM (exact_step O E G eps2 (t_parts t) idx) (seq 0 (length (t_codes t))) (row0 O (e_cfg E) q) = Ok r /\
  length (fst r ++ snd r) = nvecs_res E q /\
  forall j, (j < nvecs_res E q)%nat -> let T i := B2R G * pull n q e2 j (realp (Q idx)) (realp (Q i)) in let l := others 0 (length (t_codes t)) idx in
    let v := nth j (fst r ++ snd r) zero in
    is_finite v = true /\ approx (26 + length (t_codes t)) (INR (length (t_codes t) - 1)) (B2R v) (rsum T l) (rsum (fun i => Rabs (T i)) l).
Proof.
  intros q. destruct (exact_fold_F q (seq 0 (length (t_codes t))) (row0 O (e_cfg E) q) []) as (r & l & E1 & (S1 & S2 & S3) & E3).
  - intros i Hi. apply in_seq in Hi. lia.
  - apply esums_0.
  - exists r. split; [exact E1|]. rewrite app_nil_r in E3. pose proof S1 as [L1 L2].
    split. { rewrite app_length, L1, L2. unfold nvecs_res. rewrite Hdim. destruct q; cbn; lia. }
    intros j Hj T l0 v. set (N := length (t_codes t)) in *.
    assert (EL : Permutation l l0) by (unfold l0, others; rewrite Nat.sub_0_r; exact E3).
    assert (LL : length l = (N - 1)%nat).
    { rewrite (Permutation_length EL). unfold l0, others. rewrite Nat.sub_0_r. pose proof (Permutation_length (filter_out 0 N idx Hidx)) as FO. rewrite seq_length in FO. cbn [length Nat.add] in FO. lia. }
    assert (HIn : forall i, In i l -> (i < N)%nat /\ i <> idx).
    { intros i Hi. apply (Permutation_in i EL) in Hi. unfold l0, others in Hi. apply filter_In in Hi as [H1 H2]. apply in_seq in H1. split; [lia|]. intros ->. rewrite Nat.eqb_refl in H2. discriminate. }
    assert (GL : Rabs (B2R G) <= bpow radix2 k) by (apply (rng_le (- k)%Z), HG).
    assert (LQ : forall i, (i < N)%nat -> length (fst (Q i)) = n).
    { intros i Hi. rewrite <- Hdim. exact (proj2 (particle_gen O E t _ _ i Ht (HQ i Hi))). }
    assert (FIN : forall T' : nat -> R, (forall i, In i l -> T i = T' i) -> (forall i, In i l -> Rabs (T' i) <= bpow radix2 (4 * k)) -> csum 26 T' v l (length l) ->
      is_finite v = true /\ approx (26 + N) (INR (N - 1)) (B2R v) (rsum T l0) (rsum (fun i => Rabs (T i)) l0)).
    { intros T' HT HB HC. destruct (csum_approx prec emax Hprec Hemax fused Hp8 _ _ _ _ _ _ HC) as [F A].
      - apply (bound_ok prec emax Hp8) with (4 * k)%Z; auto; lia.
      - split; [exact F|]. rewrite <- (rsum_perm _ T l l0 EL), <- (rsum_perm _ (fun i => Rabs (T i)) l l0 EL).
        rewrite (rsum_ext _ T T' l HT). rewrite (rsum_ext _ (fun i => Rabs (T i)) (fun i => Rabs (T' i)) l) by (intros i Hi; now rewrite HT).
        rewrite LL in A. replace (26 + 1 + (N - 1))%nat with (26 + N)%nat in A by lia. exact A. }
    assert (MUL : forall X, Rabs X <= bpow radix2 (3 * k) -> Rabs (B2R G * X) <= bpow radix2 (4 * k)).
    { intros X HX. rewrite Rabs_mult. replace (4 * k)%Z with (k + 3 * k)%Z by lia. rewrite bpow_plus. apply Rmult_le_compat; auto using Rabs_pos. }
    destruct (is_acc n q j) eqn:IA.
    + pose proof IA as IA'. unfold is_acc in IA'. apply andb_true_iff in IA' as [Hq Hjn]. apply Nat.ltb_lt in Hjn.
      apply FIN with (fun i => B2R G * Tacc j (Q idx) (Q i)).
      * intros i Hi. unfold T. rewrite real_acc; auto. apply LQ. now apply HIn.
      * intros i Hi. apply MUL. apply (Tacc_le prec emax Hprec Hemax fused k n Hn3 e2 He2 (e_cfg E) Hdim 0 ltac:(lia)); auto. destruct (HIn i Hi). now apply Hpairs.
      * unfold v. rewrite app_nth1 by (rewrite L1, Hq; exact Hjn). now apply S2.
    + assert (HJ : has_pot q = true /\ j = length (fst r)).
      { unfold is_acc in IA. rewrite L1. unfold nvecs_res in Hj. rewrite Hdim in Hj. destruct q; cbn [has_acc has_pot andb negb] in *; rewrite ?Nat.ltb_ge in IA; split; try reflexivity; try lia. }
      destruct HJ as [Hq HJ].
      apply FIN with (fun i => B2R G * Tpot (Q idx) (Q i)).
      * intros i Hi. unfold T. rewrite real_pot; auto. apply LQ. now apply HIn.
      * intros i Hi. apply MUL. apply (Tpot_le prec emax Hprec Hemax fused k n Hn3 e2 He2 (e_cfg E) Hdim 0 ltac:(lia)); auto. destruct (HIn i Hi). now apply Hpairs.
      * unfold v. rewrite app_nth2 by lia. rewrite HJ, Nat.sub_diag. now apply S3.
Qed.

End IEEE.

(** * The function *)

Section Top.

Variables prec emax : Z.
Context (Hprec : Prec_gt_0 prec).
Context (Hemax : Prec_lt_emax prec emax).
Variable fused : bool.
Hypothesis Hp8 : (8 <= prec)%Z.

Notation bf := (binary_float prec emax).
Notation O := (Bops prec emax Hprec Hemax fused).
Notation zero := (fofZ O 0%Z).
Notation prow := (@prow bf).
Notation realp := (realp prec emax).
Local Open Scope R_scope.

Variable k : Z.
Hypothesis Hk0 : (0 <= k)%Z.
Hypothesis Hk5 : (5 * k + 16 <= emax)%Z.

Lemma nonneg_not_lt : forall x : bf, is_finite x = true -> 0 <= B2R x -> flt O x zero = false.
Proof.
  intros x F H. cbn [flt Bops]. rewrite Bltb_correct by (auto; apply (ofZ_0 prec emax Hprec Hemax fused)). rewrite (B2R_zero prec emax Hprec Hemax fused). now apply Rlt_bool_false.
Qed.

Lemma eps2_ok : forall eps : bf, mok prec emax k eps -> 0 <= B2R eps ->
  compute_eps2 O eps = Ok (fmul O eps eps) /\ val prec emax 1 (fmul O eps eps) (B2R eps * B2R eps) /\ 0 <= B2R eps * B2R eps <= bpow radix2 (2 * k).
Proof.
  intros eps [F R] P. pose proof (rng_mul _ _ _ _ _ _ R R) as RR.
  assert (V : val prec emax 1 (fmul O eps eps) (B2R eps * B2R eps)).
  { apply (val_mul prec emax Hprec Hemax fused Hp8 0 0); [now apply val_self|now apply val_self|apply (small_128 prec Hp8); lia|]. eapply rng_okr; [exact RR|lia|lia]. }
  assert (PP : 0 <= B2R eps * B2R eps) by (apply Rle_0_sqr).
  split; [|split; [exact V|]].
  - unfold compute_eps2. assert (FE : ffin O eps = true) by exact F. rewrite FE, (nonneg_not_lt eps F P). cbn [negb orb].
    assert (FE2 : ffin O (fmul O eps eps) = true) by apply V. rewrite FE2, (nonneg_not_lt _ (proj1 V)); [reflexivity|].
    destruct V as [_ (f & -> & Hf)]. pose proof (g_pos prec Hp8 1). assert (0 < / gR prec ^ 1) by (now apply Rinv_0_lt_compat). apply Rmult_le_pos; lra.
  - split; [exact PP|]. pose proof (rng_le _ _ _ RR) as H. rewrite Rabs_right in H by lra. now replace (2 * k)%Z with (k + k)%Z by lia.
Qed.

Variable E : env.
Hypothesis HE : env_ok E.

Theorem exact_F : forall ordered q (t : @tree bf) Q G eps i, tree_inv O E t ->
  (forall i, (i < length (t_codes t))%nat -> row (t_parts t) i (fst (Q i) ++ [snd (Q i)])) ->
  (forall i, (i < length (t_codes t))%nat -> Forall (fun x => is_finite x = true /\ Rabs (B2R x) <= bpow radix2 k) (fst (Q i)) /\ mok prec emax k (snd (Q i))) ->
  mok prec emax k G -> mok prec emax k eps -> 0 <= B2R eps -> (i < length (t_codes t))%nat ->
  (forall l, (l < length (t_codes t))%nat -> l <> i -> bpow radix2 (- (2 * k)) <= sep2 (fst (realp (Q l))) (fst (realp (Q i))) + B2R eps * B2R eps) ->
  (Z.of_nat (length (t_codes t)) + 27 <= 2 ^ (prec - 1))%Z -> (prec + 4 * k + 4 <= emax)%Z ->
  exists rw, exact_acc_pot O E ordered q t (ForceTop.dst ordered t i) G eps = Ok rw /\ length rw = nvecs_res E q /\
    forall j, (j < nvecs_res E q)%nat ->
      let T l := B2R G * pull (dim (e_cfg E)) q (B2R eps * B2R eps) j (realp (Q i)) (realp (Q l)) in
      let L := filter (fun l => negb (l =? i)%nat) (seq 0 (length (t_codes t))) in
      exists v, nth_error rw j = Some v /\ is_finite v = true /\
        Rabs (B2R v - rsum T L) <= (gR prec ^ (26 + length (t_codes t)) - 1) * rsum (fun l => Rabs (T l)) L + INR (length (t_codes t)) * etaR prec emax * gR prec ^ (26 + length (t_codes t)).
Proof.
  intros ordered q t Q G eps i Ht HQ HM HG HEps PE Hi HD Hfew Hroom. unfold exact_acc_pot. destruct (eps2_ok eps HEps PE) as (-> & V & B). cbn [bind].
  unfold check_G_const. assert (FG : ffin O G = true) by apply HG. rewrite FG. cbn [negb bind].
  assert (I : (if ordered then rd (t_inv t) (ForceTop.dst ordered t i) else Ok (ForceTop.dst ordered t i)) = Ok i).
  { destruct ordered; [|reflexivity]. unfold dst.
    destruct (inv_inv _ _ _ Ht) as [_ IV]. pose proof (inv_perm _ _ _ Ht) as PP. pose proof (Permutation_length PP) as L. rewrite seq_length in L.
    unfold rd. rewrite (IV i); [reflexivity|]. apply nth_error_nth'. lia. }
  rewrite I. cbn [bind]. rewrite (nparts_codes O E t Ht).
  assert (LQ : forall l, (l < length (t_codes t))%nat -> length (fst (Q l)) = dim (e_cfg E)) by (intros l Hl; exact (proj2 (particle_gen O E t _ _ l Ht (HQ l Hl)))).
  assert (PO : forall l, (l < length (t_codes t))%nat -> pok prec emax k (dim (e_cfg E)) (Q l)).
  { intros l Hl. destruct (HM l Hl) as [H1 H2]. split; [|exact H2]. split; [now apply LQ|exact H1]. }
  destruct (exact_sum_F prec emax Hprec Hemax fused Hp8 k Hk0 Hk5 (dim (e_cfg E)) (dim3 _) (B2R eps * B2R eps) (fmul O eps eps) B V G HG E eq_refl t Ht Q HQ i Hi) with (q := q) as (r & E1 & E2 & E3); auto.
  - intros l Hl N. split; [now apply PO|]. split; [now apply PO|]. rewrite real_sqd by (now apply LQ). now apply HD.
  - rewrite E1. cbn [bind]. exists (fst r ++ snd r). split; [reflexivity|]. split; [exact E2|]. intros j Hj. destruct (E3 j Hj) as [F A].
    exists (nth j (fst r ++ snd r) zero). split; [apply nth_error_nth'; lia|]. split; [exact F|].
    unfold approx, others in A. rewrite Nat.sub_0_r in A. eapply Rle_trans; [exact A|]. apply Rplus_le_compat_l.
    apply Rmult_le_compat_r; [pose proof (g_pos prec Hp8 (26 + length (t_codes t))); lra|]. apply Rmult_le_compat_r; [apply bpow_ge_0|]. apply le_INR. lia.
Qed.

End Top.
