(** Rounding errors of the geometric centres of the nodes. *)
From Coq Require Import List Arith ZArith NArith Reals Bool Lra Lia Psatz Permutation.
From Flocq Require Import Core BinarySingleNaN Relative Plus_error.
From Verif Require Import Base Config Morton MortonProofs CodesProofs Build TreeSpec BuildSpec BuildProofs BuildProps FOps FOpsProofs Disc DiscProofs NodeProps NodeGeom NodesR Geometry Tree TreeInv TreeProofs TreeSafe TreeProps RSum Kernels KernR
  Round RoundFin RoundNode RoundCtor RoundNear RoundKern RoundExact RoundSrc RoundMac.
Import ListNotations.
Local Open Scope nat_scope.

Section IEEE.

Variables prec emax : Z.
Context (Hprec : Prec_gt_0 prec).
Context (Hemax : Prec_lt_emax prec emax).
Variable fused : bool.
Hypothesis Hp8 : (8 <= prec)%Z.

Notation bf := (binary_float prec emax).
Notation O := (Bops prec emax Hprec Hemax fused).
Notation fexp := (SpecFloat.fexp prec emax).
Notation rnd := (round radix2 fexp ZnearestE).
Notation zero := (fofZ O 0%Z).
Notation one := (fofZ O 1%Z).
Notation two := (fofZ O 2%Z).
Notation g := (gR prec).
Notation u := (uR prec).
Notation eta := (etaR prec emax).
Notation bnd := (bnd prec emax).
Notation val := (val prec emax).
Notation near := (near prec).
Notation okr := (okr emax).
Notation approx := (approx prec emax).
Notation Hp2 := (Hp2 prec Hp8).

Local Instance valid_fexp_rg : Valid_exp fexp.
Proof. exact (@FLT_exp_valid (3 - emax - prec) prec Hprec). Qed.

Local Open Scope R_scope.

Variable k : Z.
Hypothesis Hk5 : (5 * k + 16 <= emax)%Z.
Hypothesis Hroom : (prec + 4 * k + 4 <= emax)%Z.
Hypothesis He : (64 <= emax)%Z.
Variable E : env.
Notation c := (e_cfg E).
Variable box : bf.
Hypothesis Hbf : is_finite box = true.
Hypothesis Hbox : bpow radix2 (3 - k) <= B2R box <= bpow radix2 (k - 3).
Notation B := (B2R box).

Ltac sm := apply (small_128 prec Hp8); lia.

Let K3 : (3 <= k)%Z.
Proof. destruct (Z.le_gt_cases 3 k) as [H|H]; [exact H|exfalso]. assert (bpow radix2 (k - 3) < bpow radix2 (3 - k)) by (apply bpow_lt; lia). lra. Qed.

Let BP : 0 < B.
Proof. pose proof (bpow_gt_0 radix2 (3 - k)). lra. Qed.

Let V1 : val 0 one 1.
Proof. exact (val_ofZ_pow prec emax Hprec Hemax fused Hp8 0 ltac:(lia)). Qed.

Let V2 : val 0 two 2.
Proof. exact (val_ofZ_pow prec emax Hprec Hemax fused Hp8 1 ltac:(lia)). Qed.

Let R1 : rng 0 0 1.
Proof. apply rng_pos. change (bpow radix2 0) with 1. lra. Qed.
Let R2 : rng 1 1 2.
Proof. apply rng_pos. change (bpow radix2 1) with 2. lra. Qed.
Let RB : rng (3 - k) (k - 3) B.
Proof. now apply rng_pos. Qed.
Let RH : rng (0 - 1) (0 - 1) (1 / 2).
Proof. exact (rng_div _ _ _ _ _ _ R1 R2). Qed.

Lemma rng_pow : forall j, rng j j (bpow radix2 j).
Proof. intros j. apply rng_pos. lra. Qed.

Lemma val_half : val 1 (fdiv O one two) (1 / 2).
Proof. apply (val_div prec emax Hprec Hemax fused Hp8 0 0); [exact V1|exact V2|lra|sm|]. eapply (rng_okr emax); [exact RH|lia|lia]. Qed.

Lemma val_ofZ : forall m j, (0 <= m <= 2 ^ j)%Z -> (0 <= j < emax)%Z -> val 1 (fofZ O m) (IZR m).
Proof.
  intros m j Hm Hj. destruct (bnd_ofZ prec emax Hprec Hemax fused Hp2 m j Hm Hj) as [F _]. split; [exact F|].
  cbn [fofZ Bops]. pose proof (binary_normalize_correct prec emax Hprec Hemax mode_NE m 0 false) as C. cbv zeta in C.
  simpl round_mode in C. assert (EF : F2R (Float radix2 m 0) = IZR m) by (unfold F2R; cbn [Fnum Fexp bpow]; lra). rewrite EF in C.
  assert (Hb : Rabs (rnd (IZR m)) <= bpow radix2 j).
  { apply (rnd_bnd prec emax Hprec Hp2); [lia|]. rewrite Rabs_right by (apply Rle_ge, IZR_le; lia). rewrite <- (IZR_Zpower radix2 j) by lia. apply IZR_le. apply Hm. }
  rewrite Rlt_bool_true in C by (eapply (bpow_lt_emax emax); [exact Hb|lia]). destruct C as (V & _). rewrite V.
  apply (near_rnd prec emax Hprec Hp8). destruct (Z.eq_dec m 0) as [->|N]; [now left|right].
  rewrite Rabs_right by (apply Rle_ge, IZR_le; lia). apply Rle_trans with 1; [|apply (IZR_le 1); lia]. change 1 with (bpow radix2 0). apply bpow_le. lia.
Qed.

Lemma g_lin : forall n, (n <= 6)%nat -> g ^ n - 1 <= 11 / 10 * INR n * u.
Proof.
  intros n Hn. pose proof (u_small prec Hp8) as U. assert (IN : 0 <= INR n <= 6). { split; [apply pos_INR|]. replace 6 with (INR 6) by (cbn; lra). now apply le_INR. }
  assert (G : g ^ n <= 1 + 11 / 10 * INR n * u); [|lra]. set (x := INR n * u). assert (X : 0 <= x <= 6 / 256) by (unfold x; nra). replace (11 / 10 * INR n * u) with (11 / 10 * x) by (unfold x; ring).
  apply (g_le prec Hp8); [lra|]. fold x. apply Rmult_le_reg_r with (1 + 11 / 10 * x); [lra|]. rewrite Rmult_minus_distr_r, Rinv_l by lra. nra.
Qed.

Variable l : N.
Hypothesis Hl : (l <= cbitsc c)%N.
Notation w := (bpow radix2 (Z.of_N l)).
Notation W := (bpow radix2 (Z.of_N (cbitsc c))).

(** One coordinate. *)
Lemma centre_coord : forall m, (0 <= m <= 2 ^ Z.of_N (cbitsc c))%Z ->
  let v := ffma O (fofZ O m) (fmul O box (fdiv O one (fofZ O (Z.of_N (2 ^ cbitsc c))))) (fsub O (fmul O (get_node_dim O l box) (fdiv O one two)) (fmul O box (fdiv O one two))) in
  is_finite v = true -> Rabs (B2R v - (IZR m * (B * (1 / W)) + (B / w * (1 / 2) - B * (1 / 2)))) <= 16 * u * B.
Proof.
  intros m Hm v Fv. pose proof (cb_31 E) as H31. pose proof (u_small prec Hp8) as U.
  destruct (fma_fin prec emax Hprec Hemax fused _ _ _ Fv) as (_ & _ & Fmid & Vv). fold v in Vv.
  pose proof (val_ofZ m _ Hm ltac:(lia)) as VM.
  assert (VW : val 0 (fofZ O (Z.of_N (2 ^ cbitsc c))) W) by (rewrite pow2_Z; apply (val_ofZ_pow prec emax Hprec Hemax fused Hp8); lia).
  pose proof (bpow_gt_0 radix2 (Z.of_N (cbitsc c))) as PW. pose proof (bpow_gt_0 radix2 (Z.of_N l)) as Pw.
  pose proof (rng_div _ _ _ _ _ _ R1 (rng_pow (Z.of_N (cbitsc c)))) as RW.
  assert (VI : val 1 (fdiv O one (fofZ O (Z.of_N (2 ^ cbitsc c)))) (1 / W)).
  { apply (val_div prec emax Hprec Hemax fused Hp8 0 0); [exact V1|exact VW|lra|sm|]. eapply (rng_okr emax); [exact RW|lia|lia]. }
  assert (VC : val 2 (fmul O box (fdiv O one (fofZ O (Z.of_N (2 ^ cbitsc c))))) (B * (1 / W))).
  { apply (val_mul prec emax Hprec Hemax fused Hp8 0 1); [now apply val_self|exact VI|sm|]. eapply (rng_okr emax); [exact (rng_mul _ _ _ _ _ _ RB RW)|lia|lia]. }
  pose proof (near_mul prec Hp8 1 2 _ _ _ _ (proj2 VM) (proj2 VC)) as NP. cbn [Nat.add] in NP.
  set (dc := B2R (fofZ O m)) in *. set (ce := B2R (fmul O box (fdiv O one (fofZ O (Z.of_N (2 ^ cbitsc c)))))) in *.
  assert (VS : val 1 (get_node_dim O l box) (B / w)).
  { unfold get_node_dim. rewrite pow2_Z. apply (val_div prec emax Hprec Hemax fused Hp8 0 0); [now apply val_self|apply (val_ofZ_pow prec emax Hprec Hemax fused Hp8); lia|lra|sm|].
    eapply (rng_okr emax); [exact (rng_div _ _ _ _ _ _ RB (rng_pow (Z.of_N l)))|lia|lia]. }
  assert (VX : val 3 (fmul O (get_node_dim O l box) (fdiv O one two)) (B / w * (1 / 2))).
  { apply (val_mul prec emax Hprec Hemax fused Hp8 1 1); [exact VS|exact val_half|sm|]. eapply (rng_okr emax); [exact (rng_mul _ _ _ _ _ _ (rng_div _ _ _ _ _ _ RB (rng_pow (Z.of_N l))) RH)|lia|lia]. }
  assert (VY : val 3 (fmul O box (fdiv O one two)) (B * (1 / 2))).
  { apply (val_mono prec emax Hp8) with 2%nat; [|lia]. apply (val_mul prec emax Hprec Hemax fused Hp8 0 1); [now apply val_self|exact val_half|sm|]. eapply (rng_okr emax); [exact (rng_mul _ _ _ _ _ _ RB RH)|lia|lia]. }
  set (x := fmul O (get_node_dim O l box) (fdiv O one two)) in *. set (y := fmul O box (fdiv O one two)) in *.
  set (mid := fsub O x y) in *. set (X := B / w * (1 / 2)) in *. set (Y := B * (1 / 2)) in *.
  assert (W1 : 1 <= w) by (change 1 with (bpow radix2 0); apply bpow_le; lia).
  assert (HX : 0 <= X <= B / 2).
  { assert (D : 0 <= B / w <= B); [|unfold X; lra]. split; [apply Rmult_le_pos; [lra|left; now apply Rinv_0_lt_compat]|]. apply Rmult_le_reg_r with w; [exact Pw|]. unfold Rdiv. rewrite Rmult_assoc, Rinv_l by lra. nra. }
  assert (HY : Y = B / 2) by (unfold Y; lra).
  assert (AM : approx 4 0 (B2R mid) (X - Y) B).
  { assert (BM : bnd mid (k - 1)).
    { unfold mid. replace (k - 1)%Z with ((k - 2) + 1)%Z by lia. 
      assert (BD : forall z Z, val 3 z Z -> 0 <= Z <= B / 2 -> bnd z (k - 2)).
      { intros z Z [F N] HZ. split; [exact F|]. destruct (near_bounds prec Hp8 _ _ _ N) as [_ N2]. pose proof (small_128 prec Hp8 3 ltac:(lia)) as S3. unfold small in S3. rewrite (Rabs_right Z) in N2 by lra.
        eapply Rle_trans; [exact N2|]. replace (k - 2)%Z with ((k - 3) + 1)%Z by lia. rewrite bpow_plus. change (bpow radix2 1) with 2. nra. }
      apply (bnd_sub prec emax Hprec Hemax fused Hp2); [apply (BD x X VX); lra|apply (BD y Y VY); lra|lia]. }
    assert (VM' : B2R mid = rnd (B2R x + B2R (Bopp y))).
    { rewrite B2R_Bopp. pose proof (Bminus_correct prec emax Hprec Hemax mode_NE x y (proj1 VX) (proj1 VY)) as C. change (round_mode mode_NE) with ZnearestE in C.
      destruct (Rlt_bool _ _) eqn:Q in C; [apply C|]. exfalso. destruct C as [C _]. destruct BM as [FM _]. cbn [fsub Bops] in FM. unfold mid in FM. cbn [fsub Bops] in FM.
      rewrite <- is_finite_SF_B2SF, C in FM. unfold binary_overflow in FM. cbn in FM. discriminate. }
    rewrite VM'. destruct (plus_rel prec emax Hprec Hp2 x (Bopp y)) as (d & Hd & ->). rewrite B2R_Bopp.
    pose proof (near_approx prec emax Hp8 _ _ _ (proj2 VX)) as AX. pose proof (near_approx prec emax Hp8 _ _ _ (near_opp prec _ _ _ (proj2 VY))) as AY.
    rewrite Rabs_Ropp in AY. pose proof (approx_plus prec emax Hp2 3 0 0 _ _ _ _ _ _ d AX AY ltac:(lra) ltac:(rewrite Rabs_Ropp; lra) ltac:(lra) ltac:(lra) Hd) as AP.
    rewrite !Rplus_0_r in AP. rewrite (Rabs_right X), (Rabs_right Y) in AP by lra. unfold Round.approx in AP |- *. replace (X - Y) with (X + - Y) by ring.
    eapply Rle_trans; [exact AP|]. pose proof (g_pow1 prec Hp2 4). apply Rplus_le_compat_r. apply Rmult_le_compat_l; lra. }
  assert (AF : approx 5 1 (B2R v) (X - Y + dc * ce) (B + Rabs (dc * ce))).
  { rewrite Vv. replace 1 with (0 + 1) at 1 by ring. apply (approx_fma prec emax Hprec fused Hp2 3 0 dc ce (B2R mid) (X - Y) B mid); auto; [apply Rabs_le; lra|lra]. }
  set (P := IZR m * (B * (1 / W))) in *.
  assert (HP : 0 <= P <= B).
  { assert (M : 0 <= IZR m <= W). { split; [apply IZR_le; lia|]. rewrite <- (IZR_Zpower radix2) by lia. apply IZR_le. apply Hm. }
    unfold P. split; [apply Rmult_le_pos; [lra|]; apply Rmult_le_pos; [lra|]; apply Rlt_le, Rdiv_lt_0_compat; lra|].
    replace (IZR m * (B * (1 / W))) with (B * (IZR m / W)) by (field; lra). rewrite <- (Rmult_1_r B) at 2. apply Rmult_le_compat_l; [lra|]. apply Rmult_le_reg_r with W; [exact PW|]. unfold Rdiv. rewrite Rmult_assoc, Rinv_l by lra. lra. }
  pose proof (near_approx prec emax Hp8 _ _ _ NP) as AP. unfold Round.approx in AF, AP. rewrite (Rabs_right P) in AP by lra. rewrite !Rmult_0_l, Rplus_0_r in AP.
  pose proof (g_lin 3 ltac:(lia)) as G3. pose proof (g_lin 5 ltac:(lia)) as G5. replace (INR 3) with 3 in G3 by (cbn; lra). replace (INR 5) with 5 in G5 by (cbn; lra).
  pose proof (g_pow1 prec Hp2 3) as G3'. pose proof (g_pow1 prec Hp2 5) as G5'.
  assert (EB : eta <= u * B).
  { apply Rle_trans with (u * bpow radix2 (3 - k)); [|apply Rmult_le_compat_l; lra]. unfold uR, etaR. rewrite <- bpow_plus. apply bpow_le. lia. }
  assert (E0 : 0 < eta) by apply bpow_gt_0.
  assert (DP : Rabs (dc * ce - P) <= 33 / 10 * u * B) by (eapply Rle_trans; [exact AP|]; apply Rle_trans with (33 / 10 * u * P); [apply Rmult_le_compat_r; lra|apply Rmult_le_compat_l; nra]).
  assert (DC : Rabs (dc * ce) <= 102 / 100 * B).
  { replace (dc * ce) with (P + (dc * ce - P)) by ring. eapply Rle_trans; [apply Rabs_triang|]. rewrite (Rabs_right P) by lra. nra. }
  replace (B2R v - (P + (X - Y))) with ((B2R v - (X - Y + dc * ce)) + (dc * ce - P)) by ring. eapply Rle_trans; [apply Rabs_triang|].
  assert (T1 : (g ^ 5 - 1) * (B + Rabs (dc * ce)) <= 55 / 10 * u * (202 / 100 * B)) by (apply Rmult_le_compat; [lra|pose proof (Rabs_pos (dc * ce)); lra|lra|lra]).
  assert (T2 : 1 * eta * g ^ 5 <= u * B * (103 / 100)) by (rewrite Rmult_1_l; apply Rmult_le_compat; lra).
  nra.
Qed.

(** All the coordinates of a centre. *)
Lemma centre_err : forall p, (p < 2 ^ (dimN c * l))%N ->
  exists geo cc, get_node_centre O c (2 ^ (dimN c * l) + p) box = Ok geo /\ get_node_centre Rops c (2 ^ (dimN c * l) + p) B = Ok cc /\
    Forall (fun x => bnd x (k - 1)) geo /\ length geo = dim c /\ length cc = dim c /\
    forall j, (j < dim c)%nat -> Rabs (B2R (nth j geo zero) - nth j cc 0) <= 16 * u * B.
Proof.
  intros p Hp.
  assert (Bbox : bnd box (k - 3)) by (split; [exact Hbf|]; rewrite Rabs_right by lra; apply Hbox).
  destruct (node_centre_gen prec emax Hprec Hemax fused Hp8 He E (k - 3) l p box ltac:(lia) ltac:(lia) Hl Hp Bbox) as (geo & Hg & Bg).
  replace (k - 3 + 2)%Z with (k - 1)%Z in Bg by lia. exists geo. pose proof Hg as Hg0.
  destruct (first_cell_coords c l p Hl Hp) as (q & Hq & Hql & Hc & Hdec & _).
  assert (Hd : (0 < dimN c)%N) by (destruct c; reflexivity).
  pose proof (node_centre_length _ _ _ _ _ Hg) as Lg.
  assert (GEN : forall F (OF : fops F) (b : F), get_node_centre OF c (2 ^ (dimN c * l) + p) b = Ok (map (fun dc => ffma OF (fofZ OF (Z.of_N dc))
     (fmul OF b (fdiv OF (fofZ OF 1%Z) (fofZ OF (Z.of_N (2 ^ cbitsc c))))) (fsub OF (fmul OF (get_node_dim OF l b) (fdiv OF (fofZ OF 1%Z) (fofZ OF 2%Z))) (fmul OF b (fdiv OF (fofZ OF 1%Z) (fofZ OF 2%Z))))) (map (fun k => (k * 2 ^ (cbitsc c - l))%N) q))).
  { intros F OF b. unfold get_node_centre. cbv zeta.
    assert (Hlev : tree_level (width c) (dimN c) (2 ^ (dimN c * l) + p) = l).
    { apply (tree_level_nodal (width c) (dimN c) l p); [exact Hd|rewrite N.mul_comm; now apply level_shift|exact Hp]. }
    rewrite Hlev. unfold shl.
    assert (H1 : (l * dimN c < width c)%N) by (now apply level_shift).
    assert (H2 : ((cbitsc c - l) * dimN c < width c)%N) by (apply level_shift; lia).
    pose proof H1 as H1'. apply N.ltb_lt in H1. rewrite H1. cbn [bind]. apply N.ltb_lt in H2. rewrite H2. cbn [bind].
    rewrite (N.shiftl_mul_pow2 1), N.mul_1_l. rewrite (wrap_small (width c) (2 ^ (l * dimN c))) by (apply N.pow_lt_mono_r; lia).
    rewrite (N.mul_comm l (dimN c)). rewrite usub_nodal by assumption.
    rewrite N.shiftl_mul_pow2, (N.mul_comm (cbitsc c - l) (dimN c)). rewrite wrap_small.
    2:{ eapply N.lt_le_trans; [exact Hc|]. apply N.pow_le_mono_r; [lia|]. destruct (cbitsc_spec c). nia. }
    rewrite Hdec. reflexivity. }
  eexists. split; [exact Hg0|]. split; [apply GEN|]. split; [exact Bg|]. split; [exact Lg|]. split; [now rewrite !map_length|].
  intros j Hj. rewrite GEN in Hg. assert (OI : forall A (a b : A), Ok a = Ok b -> a = b) by congruence. apply (OI _ _ _) in Hg.
  assert (Hjq : (j < length q)%nat) by lia. set (z := nth j q 0%N).
  assert (Hz : (z < 2 ^ l)%N) by (rewrite Forall_forall in Hql; apply Hql, nth_In; exact Hjq).
  assert (N1 : nth_error (map (fun k => (k * 2 ^ (cbitsc c - l))%N) q) j = Some (z * 2 ^ (cbitsc c - l))%N) by (rewrite nth_error_map, (nth_error_nth' q 0%N Hjq); reflexivity).
  set (dcs := map (fun k => (k * 2 ^ (cbitsc c - l))%N) q) in *.
  assert (EG : nth_error geo j = Some (nth j geo zero)) by (apply nth_error_nth'; lia).
  rewrite <- Hg in EG at 1. rewrite nth_error_map, N1 in EG. cbn [option_map] in EG. assert (SI : forall A (a b : A), Some a = Some b -> a = b) by congruence. apply (SI _ _ _) in EG.
  match goal with |- Rabs (_ - nth j ?L 0) <= _ => assert (EC : nth_error L j = Some (nth j L 0)) by (apply nth_error_nth'; rewrite map_length; unfold dcs; rewrite map_length; lia) end.
  rewrite nth_error_map, N1 in EC. cbn [option_map] in EC. apply (SI _ _ _) in EC. rewrite <- EC. clear EC.
  assert (FG : is_finite (nth j geo zero) = true) by (rewrite Forall_forall in Bg; apply Bg, nth_In; lia).
  rewrite <- EG in FG |- *.
  assert (Hm : (0 <= Z.of_N (z * 2 ^ (cbitsc c - l)) <= 2 ^ Z.of_N (cbitsc c))%Z).
  { split; [lia|]. rewrite <- pow2_Z. apply N2Z.inj_le. apply N.le_trans with (2 ^ l * 2 ^ (cbitsc c - l))%N; [apply N.mul_le_mono_r; lia|]. rewrite <- N.pow_add_r. apply N.pow_le_mono_r; lia. }
  pose proof (centre_coord _ Hm FG) as CE. cbn [ffma fofZ fmul fdiv fsub Rops]. unfold get_node_dim at 2. cbn [fdiv fofZ Rops].
  assert (PW : forall a, IZR (Z.of_N (2 ^ a)) = bpow radix2 (Z.of_N a)) by (intros a; rewrite pow2_Z, <- (IZR_Zpower radix2) by lia; reflexivity).
  rewrite !PW. exact CE.
Qed.

(** The distance between the centre of mass and the geometric centre. *)
Lemma delta_err : forall (com geo : list bf), length com = dim c -> length geo = dim c -> Forall (fun x => bnd x (k - 1)) com -> Forall (fun x => bnd x (k - 1)) geo ->
  let dl := fsqrt O (dist2 O com geo) in
  bnd dl (k + 4) /\ 0 <= B2R dl /\ distance (map (@B2R prec emax) com) (map (@B2R prec emax) geo) <= g ^ 4 * B2R dl + u * B.
Proof.
  intros com geo Lc Lg Bc Bg dl. pose proof (dim3 c) as D3. pose proof (u_small prec Hp8) as U.
  assert (MB : forall x, bnd x (k - 1) -> bnd x (k - 3 + 4)) by (intros x Hx; eapply bnd_mono; [exact Hx|lia]).
  destruct (dist2_gen prec emax Hprec Hemax fused Hp8 He (k - 3) com geo ltac:(lia) ltac:(lia)) as [[FD BD] PD]; [eapply Forall_impl; [exact MB|exact Bc]|eapply Forall_impl; [exact MB|exact Bg]|lia|].
  assert (Fdl : is_finite dl = true) by (now apply (sqrt_fin prec emax Hprec Hemax fused)).
  set (d2 := dist2 O com geo) in *. replace (2 * (k - 3) + 12)%Z with (2 * k + 6)%Z in BD by lia.
  assert (Vdl : B2R dl = rnd (sqrt (B2R d2))) by (unfold dl; cbn [fsqrt Bops]; apply (Bsqrt_correct prec emax Hprec Hemax mode_NE)).
  rewrite Rabs_right in BD by lra.
  assert (FMT : forall j, (3 - emax - prec <= j)%Z -> generic_format radix2 fexp (bpow radix2 j)) by (intros j Hj; now apply (format_pow prec emax Hprec Hp2)).
  assert (P0 : 0 <= B2R dl) by (rewrite Vdl; apply (rnd_nonneg prec emax Hprec); apply sqrt_pos).
  assert (SU : sqrt (B2R d2) <= bpow radix2 (k + 3)).
  { rewrite <- (sqrt_square (bpow radix2 (k + 3))) by apply bpow_ge_0. apply sqrt_le_1_alt. rewrite <- bpow_plus. replace (k + 3 + (k + 3))%Z with (2 * k + 6)%Z by lia. exact BD. }
  split. { split; [exact Fdl|]. rewrite Rabs_right by lra. rewrite Vdl. apply round_le_generic; auto with typeclass_instances; [apply FMT; lia|]. eapply Rle_trans; [exact SU|]. apply bpow_le. lia. }
  split; [exact P0|].
  (* the rounded sum of squares *)
  assert (CC : cok prec emax k (dim c) com) by (split; [exact Lc|eapply Forall_impl; [|exact Bc]; intros x Hx; eapply bnd_mono; [exact Hx|lia]]).
  assert (CG : cok prec emax k (dim c) geo) by (split; [exact Lg|eapply Forall_impl; [|exact Bg]; intros x Hx; eapply bnd_mono; [exact Hx|lia]]).
  pose proof (diffs_bnd prec emax Hprec Hemax fused Hp8 k ltac:(lia) Hk5 (dim c) D3 com geo CC CG) as DB.
  pose proof (diffs_length prec emax Hprec Hemax fused k (dim c) D3 com geo CC CG) as DL.
  assert (ED : d2 = match diffs O com geo with [] => zero | d :: ds => fold_left (fun s d => ffma O d d s) ds (fmul O d d) end).
  { unfold d2, dist2, diffs. destruct (combine com geo) as [|[x y] l']; [reflexivity|]. cbn [map]. generalize (fmul O (fsub O x y) (fsub O x y)). induction l' as [|[x' y'] l' IH]; intros v; cbn [map fold_left]; [reflexivity|apply IH]. }
  set (SQ := rsum (fun d => B2R d * B2R d) (diffs O com geo)).
  assert (PS : 0 <= SQ) by (apply rsum_nonneg; intros; apply Rle_0_sqr).
  assert (A : approx 3 3 (B2R d2) SQ SQ).
  { rewrite ED. unfold SQ. destruct (diffs O com geo) as [|d ds]; [exfalso; destruct c; discriminate|]. cbn [length] in DL.
    pose proof (Forall_inv DB) as Bd. pose proof (Forall_inv_tail DB) as Bds.
    destruct (approx_prod prec emax Hprec Hemax fused Hp8 k ltac:(lia) Hk5 d Bd) as [Pd Ad].
    destruct (fold_fma prec emax Hprec Hemax fused Hp8 k ltac:(lia) ds (fmul O d d) 0 1 (B2R d * B2R d) (2 * k + 2)%Z Bds Pd ltac:(lia) ltac:(lia) Ad ltac:(apply Rle_0_sqr) ltac:(lra)) as [_ Af].
    rewrite rsum_cons. assert (L2 : (length ds <= 2)%nat) by lia. assert (IL : 0 <= INR (length ds) <= 2) by (split; [apply pos_INR|]; replace 2 with (INR 2) by (cbn; lra); now apply le_INR).
    eapply (approx_le prec emax Hp8); [exact Af|lia|lra|]. pose proof (Rle_0_sqr (B2R d)) as Q. unfold Rsqr in Q. assert (0 <= rsum (fun d => B2R d * B2R d) ds) by (apply rsum_nonneg; intros; apply Rle_0_sqr). lra. }
  (* the exact distance *)
  set (D2 := sqd prec emax Hprec Hemax fused (dim c) 0 com geo).
  assert (EDs : distance (map (@B2R prec emax) com) (map (@B2R prec emax) geo) = sqrt D2).
  { unfold D2. rewrite (real_sqd prec emax Hprec Hemax fused (dim c) 0 com geo Lc Lg), Rplus_0_r. reflexivity. }
  assert (PD2 : 0 <= D2) by (unfold D2, sqd; rewrite Rplus_0_r; apply rsum_nonneg; intros; apply Rle_0_sqr).
  assert (NS : near 2 SQ D2).
  { assert (Vz : val 1 zero 0). { destruct (ofZ_0 prec emax Hprec Hemax fused) as [Z1 Z2]. split; [exact Z2|]. rewrite Z1. apply (near_refl prec Hp8). }
    assert (He2 : 0 <= 0 <= bpow radix2 (2 * k)) by (pose proof (bpow_gt_0 radix2 (2 * k)); lra).
    pose proof (sqh_near prec emax Hprec Hemax fused Hp8 k ltac:(lia) Hk5 (dim c) D3 0 zero He2 Vz com geo CC CG) as N. unfold sqh in N. rewrite (B2R_zero prec emax Hprec Hemax fused), Rplus_0_l in N. exact N. }
  destruct (near_bounds prec Hp8 _ _ _ NS) as [N1 _]. rewrite (Rabs_right SQ), (Rabs_right D2) in N1 by lra.
  pose proof (g_pos prec Hp8 2) as Pg2. assert (DS : D2 <= g ^ 2 * SQ).
  { apply Rmult_le_reg_r with (/ g ^ 2); [now apply Rinv_0_lt_compat|]. rewrite (Rmult_comm (g ^ 2)), Rmult_assoc, Rinv_r, Rmult_1_r by lra. exact N1. }
  assert (E0 : 0 < eta) by apply bpow_gt_0.
  assert (SS : SQ <= g ^ 4 * (B2R d2 + 4 * eta)).
  { unfold Round.approx in A. apply Rabs_le_inv in A. destruct A as [A _].
    pose proof (g_lin 3 ltac:(lia)) as G3. replace (INR 3) with 3 in G3 by (cbn; lra). pose proof (g_pow1 prec Hp2 3) as G3'.
    assert (G4 : 1 + 4 * u <= g ^ 4).
    { destruct (gR_facts prec Hp2) as (Ga & Gb & _). assert ((1 + u) ^ 4 <= g ^ 4) by (apply pow_incr; lra). assert (1 + 4 * u <= (1 + u) ^ 4) by (cbn [pow]; nra). lra. }
    assert (L1 : SQ * (1 - 33 / 10 * u) <= B2R d2 + 4 * eta).
    { assert ((g ^ 3 - 1) * SQ <= 33 / 10 * u * SQ) by (apply Rmult_le_compat_r; lra). assert (3 * eta * g ^ 3 <= 4 * eta) by nra. lra. }
    assert (L2 : 1 <= (1 - 33 / 10 * u) * (1 + 4 * u)) by nra.
    apply Rle_trans with (SQ * ((1 - 33 / 10 * u) * (1 + 4 * u))); [nra|]. rewrite <- Rmult_assoc, (Rmult_comm (g ^ 4)). apply Rmult_le_compat; [nra|lra|exact L1|exact G4]. }
  assert (DT : D2 <= (g ^ 3 * g ^ 3) * (B2R d2 + 4 * eta)).
  { rewrite <- pow_add. replace (3 + 3)%nat with (2 + 4)%nat by lia. rewrite pow_add, Rmult_assoc. eapply Rle_trans; [exact DS|]. apply Rmult_le_compat_l; lra. }
  assert (SE : sqrt (4 * eta) <= u * B / 2).
  { rewrite <- (sqrt_square (u * B / 2)) by nra. apply sqrt_le_1_alt.
    assert (T : bpow radix2 (2 - prec - k) <= u * B / 2).
    { replace (2 - prec - k)%Z with (- prec + (3 - k) + -1)%Z by lia. rewrite !bpow_plus. change (bpow radix2 (-1)) with (/ 2). unfold Rdiv. apply Rmult_le_compat_r; [lra|]. apply Rmult_le_compat_l; [apply bpow_ge_0|apply Hbox]. }
    apply Rle_trans with (bpow radix2 (2 - prec - k) * bpow radix2 (2 - prec - k)); [|apply Rmult_le_compat; auto; apply bpow_ge_0].
    unfold etaR. change 4 with (bpow radix2 2). rewrite <- !bpow_plus. apply bpow_le. lia. }
  assert (ST : sqrt (B2R d2 + 4 * eta) <= sqrt (B2R d2) + sqrt (4 * eta)).
  { pose proof (sqrt_pos (B2R d2)) as s1. pose proof (sqrt_pos (4 * eta)) as s2. rewrite <- (sqrt_square (sqrt (B2R d2) + sqrt (4 * eta))) by lra. apply sqrt_le_1_alt.
    pose proof (sqrt_sqrt (B2R d2) PD) as q1. pose proof (sqrt_sqrt (4 * eta) ltac:(lra)) as q2. nra. }
  assert (SD : sqrt (B2R d2) <= g * B2R dl).
  { assert (N : near 1 (B2R dl) (sqrt (B2R d2))).
    { rewrite Vdl. apply (near_rnd prec emax Hprec Hp8). destruct (Req_dec (B2R d2) 0) as [Z|NZ]; [left; rewrite Z; apply sqrt_0|right].
      assert (LD : eta <= B2R d2).
      { rewrite <- (Rabs_right (B2R d2)) by lra. unfold etaR. apply (generic_format_ge_bpow radix2 fexp (3 - emax - prec)); [intros e; unfold SpecFloat.fexp, SpecFloat.emin; lia|rewrite Rabs_right; lra|]. apply generic_format_abs, generic_format_B2R. }
      rewrite Rabs_right by (apply Rle_ge, sqrt_pos). rewrite <- (sqrt_square (bpow radix2 (2 - emax))) by apply bpow_ge_0. apply sqrt_le_1_alt. eapply Rle_trans; [|exact LD]. rewrite <- bpow_plus. apply bpow_le. lia. }
    destruct (near_bounds prec Hp8 _ _ _ N) as [B1 _]. rewrite pow_1 in B1. rewrite (Rabs_right (B2R dl)), (Rabs_right (sqrt (B2R d2))) in B1 by (try (apply Rle_ge, sqrt_pos); lra).
    destruct (gR_facts prec Hp2) as (_ & Gb & _). apply Rmult_le_reg_r with (/ g); [apply Rinv_0_lt_compat; lra|]. rewrite (Rmult_comm g), Rmult_assoc, Rinv_r, Rmult_1_r by lra. exact B1. }
  rewrite EDs. pose proof (g_pow1 prec Hp2 3) as G31. pose proof (small_128 prec Hp8 3 ltac:(lia)) as S3. unfold small in S3.
  assert (SQR : sqrt D2 <= g ^ 3 * sqrt (B2R d2 + 4 * eta)).
  { rewrite <- (sqrt_square (g ^ 3)) by lra. rewrite <- sqrt_mult by nra. now apply sqrt_le_1_alt. }
  eapply Rle_trans; [exact SQR|]. apply Rle_trans with (g ^ 3 * (g * B2R dl + u * B / 2)); [apply Rmult_le_compat_l; lra|].
  rewrite Rmult_plus_distr_l, <- Rmult_assoc. replace (g ^ 3 * g) with (g ^ 4) by (cbn [pow]; ring). apply Rplus_le_compat_l. assert (0 <= u * B) by nra. nra.
Qed.

(** The distance to the exact centre. *)
Lemma delta_centre : forall (com geo : list bf) (cc : list R), length com = dim c -> length geo = dim c -> length cc = dim c -> Forall (fun x => bnd x (k - 1)) com -> Forall (fun x => bnd x (k - 1)) geo ->
  (forall j, (j < dim c)%nat -> Rabs (B2R (nth j geo zero) - nth j cc 0) <= 16 * u * B) ->
  distance (map (@B2R prec emax) com) cc <= g ^ 4 * B2R (fsqrt O (dist2 O com geo)) + 32 * u * B.
Proof.
  intros com geo cc Lc Lg Lcc Bc Bg HJ. destruct (delta_err com geo Lc Lg Bc Bg) as (_ & _ & DE). pose proof (u_small prec Hp8) as U.
  eapply Rle_trans; [apply (triangle _ (map (@B2R prec emax) geo)); rewrite ?map_length; lia|].
  assert (DG : distance (map (@B2R prec emax) geo) cc <= sqrt (INR (dim c)) * (16 * u * B)).
  { replace (dim c) with (length (map (@B2R prec emax) geo)) by (now rewrite map_length). apply distance_le; [nra|rewrite map_length; lia|]. rewrite map_length, Lg. intros j Hj. rewrite (real_nth prec emax Hprec Hemax fused). now apply HJ. }
  assert (SD : sqrt (INR (dim c)) <= 31 / 16).
  { rewrite <- (sqrt_square (31 / 16)) by lra. apply sqrt_le_1_alt. pose proof (dim3 c) as D3. apply le_INR in D3. replace (INR 3) with 3 in D3 by (cbn; lra). lra. }
  assert (0 <= u * B) by nra. nra.
Qed.

End IEEE.
