(** Masses and centres of mass of the nodes of a tree in IEEE arithmetic. *)
From Coq Require Import List Arith ZArith NArith Reals Bool Lra Lia Permutation.
From Flocq Require Import Core BinarySingleNaN Relative Plus_error.
From Verif Require Import Base Config Morton Build TreeSpec BuildSpec BuildProofs BuildProps FOps FOpsProofs Disc NodeProps Tree TreeInv TreeProofs TreeSafe TreeProps RSum BoxAccept Round.
Import ListNotations.
Local Open Scope nat_scope.

Lemma node_payload_gen : forall {F} (O : fops F) E t nd, tree_inv O E t -> In nd (t_nodes t) ->
  n_begin nd < n_end nd <= length (t_codes t) /\
  cnp O E (t_parts t) (t_box t) (n_begin nd) (n_end nd) (n_code nd) (n_level nd) = Ok (n_props nd).
Proof.
  intros F O E t nd Ht Hin.
  assert (R : forall A, reorders (fun l : list A => l)) by (intros A l; apply Permutation_refl).
  pose proof (inv_nodes _ _ _ Ht 0 _ _ (R _) (R _)) as HB.
  pose proof (inv_valid_codes O E t Ht) as Hv.
  destruct (node_ranges (e_cfg E) (t_codes t) (t_mln t) (t_ncrit t) _ _ Hv 0 _ _ _ _ (R _) (R _) HB nd Hin)
    as (p & H1 & H2 & H3 & H4 & H5).
  split; [assumption|].
  destruct (built (e_cfg E) (t_codes t) (t_mln t) (t_ncrit t) _ _ Hv 0 _ _ _ _ (R _) (R _) HB) as [(_ & HN & _)|(_ & HF & _)].
  { rewrite HN in Hin. destruct Hin. }
  destruct (tree_nodes _ _ _ _ _ _ HF nd Hin) as (l & p' & _ & (E1 & E2 & _ & E4 & E5 & E6)).
  cbn [fst snd] in *. unfold cnp_of in E6. cbn [fst snd] in E6. rewrite E1, E2, E4, E5. exact E6.
Qed.

Section IEEE.

Variables prec emax : Z.
Context (Hprec : Prec_gt_0 prec).
Context (Hemax : Prec_lt_emax prec emax).
Variable fused : bool.
Hypothesis Hp2 : (2 <= prec)%Z.

Notation bf := (binary_float prec emax).
Notation O := (Bops prec emax Hprec Hemax fused).
Notation fexp := (SpecFloat.fexp prec emax).
Notation rnd := (round radix2 fexp ZnearestE).
Notation zero := (fofZ O 0%Z).
Notation g := (gR prec).
Notation eta := (etaR prec emax).
Notation u := (uR prec).
Notation nthR := (nthR prec emax Hprec Hemax fused).
Notation fin_at := (fin_at prec emax).

Variable E : env.
Hypothesis HE : env_ok E.
Notation c := (e_cfg E).

Local Open Scope R_scope.

(** Number of roundings of a term of the sums of a node with [n] particles. *)
Definition depth (n : nat) : nat := (n + lanes_of (e_simd E))%nat.

Lemma com_error : forall (N : nat) T A W M c0 inv com k, 0 < T -> 0 <= k -> Rabs W <= A -> T * / g ^ N <= M <= T * g ^ N -> M <= bpow radix2 (emax - 2) ->
  approx prec emax (S N) k c0 W A -> inv = rnd (1 / M) -> com = rnd (c0 * inv) ->
  Rabs (com - W / T) <= (g ^ (2 * N + 3) - 1) * (A / T) + k * eta * g ^ (2 * N + 3) / T + eta.
Proof.
  intros N T A W M c0 inv com k HT Hk HW HM HM2 Hc Hinv Hcom. pose proof (uR_bounds prec Hp2) as U. destruct (gR_facts prec Hp2) as (G1 & G2 & G3).
  pose proof (g_pow1 prec Hp2 N) as PN. assert (PE : 0 < eta) by apply bpow_gt_0.
  assert (PA : 0 <= A) by (pose proof (Rabs_pos W); lra).
  assert (PI : 0 < / g ^ N) by (apply Rinv_0_lt_compat; lra). assert (PM : 0 < M) by nra.
  assert (IM : bpow radix2 (2 - emax) <= Rabs (1 / M)).
  { rewrite Rabs_right by (apply Rle_ge, Rlt_le; apply Rdiv_lt_0_compat; lra). unfold Rdiv. rewrite Rmult_1_l. replace (2 - emax)%Z with (- (emax - 2))%Z by lia. rewrite bpow_opp.
    apply Rinv_le_contravar; assumption. }
  pose proof (normal_err prec emax Hprec _ IM) as E1. rewrite <- Hinv in E1. rewrite (Rabs_right (1 / M)) in E1 by (apply Rle_ge, Rlt_le; apply Rdiv_lt_0_compat; lra).
  destruct (any_err prec emax Hprec (c0 * inv)) as (d & h & Hd & Hh & E2). rewrite <- Hcom in E2.
  set (f := T * (inv * (1 + d))).
  assert (EI : / M = 1 / M) by (field; lra). rewrite <- EI in E1.
  assert (PMI : 0 < / M) by (now apply Rinv_0_lt_compat).
  apply Rabs_def2b in E1. apply Rabs_def2b in Hd.
  assert (I1 : (1 - u) * / M <= inv <= (1 + u) * / M) by lra.
  assert (J1 : (1 - u) * (1 - u) * / M <= inv * (1 + d) <= (1 + u) * (1 + u) * / M).
  { assert (0 <= inv) by nra. split; nra. }
  assert (TM : / g ^ N <= T * / M <= g ^ N).
  { split.
    - apply Rmult_le_reg_r with (M * g ^ N); [nra|]. replace (/ g ^ N * (M * g ^ N)) with M by (field; lra). replace (T * / M * (M * g ^ N)) with (T * g ^ N) by (field; lra). lra.
    - apply Rmult_le_reg_r with (M * / g ^ N); [nra|]. replace (T * / M * (M * / g ^ N)) with (T * / g ^ N) by (field; lra). replace (g ^ N * (M * / g ^ N)) with M by (field; lra). lra. }
  assert (F1 : / g ^ (N + 2) <= f <= g ^ (N + 2)).
  { unfold f. rewrite pow_add. replace (g ^ 2) with (g * g) by ring. assert (PGN : 0 < g ^ N) by lra. split.
    - rewrite !Rinv_mult, <- G3. apply Rle_trans with (T * ((1 - u) * (1 - u) * / M)); [|apply Rmult_le_compat_l; lra].
      replace (T * ((1 - u) * (1 - u) * / M)) with (T * / M * ((1 - u) * (1 - u))) by ring. apply Rmult_le_compat_r; [apply Rmult_le_pos; lra|lra].
    - apply Rle_trans with (T * ((1 + u) * (1 + u) * / M)); [apply Rmult_le_compat_l; lra|].
      replace (T * ((1 + u) * (1 + u) * / M)) with (T * / M * ((1 + u) * (1 + u))) by ring. assert (0 <= T * / M) by lra. apply Rmult_le_compat; try lra; [apply Rmult_le_pos; lra|apply Rmult_le_compat; lra]. }
  set (p := g ^ (N + 2)) in *. assert (P1 : 1 <= p) by apply (g_pow1 prec Hp2).
  assert (F2 : Rabs (f - 1) <= p - 1).
  { assert (1 - / p <= p - 1). { apply Rmult_le_reg_r with p; [lra|]. rewrite Rmult_minus_distr_r, Rinv_l by lra. nra. } apply Rabs_le. lra. }
  assert (EQ : com - W / T = (W * (f - 1) + (c0 - W) * f) * / T + h) by (rewrite E2; unfold f; field; lra).
  rewrite EQ. eapply Rle_trans; [apply Rabs_triang|]. apply Rplus_le_compat; [|exact Hh].
  rewrite Rabs_mult, (Rabs_right (/ T)) by (apply Rle_ge, Rlt_le; now apply Rinv_0_lt_compat).
  assert (EP : g ^ (2 * N + 3) = g ^ S N * p) by (unfold p; rewrite <- pow_add; f_equal; lia).
  assert (B : Rabs (W * (f - 1) + (c0 - W) * f) <= (g ^ (2 * N + 3) - 1) * A + k * eta * g ^ (2 * N + 3)).
  { eapply Rle_trans; [apply Rabs_triang|]. rewrite !Rabs_mult. pose proof (g_pow1 prec Hp2 (S N)) as PS. unfold approx in Hc.
    assert (0 < / p) by (apply Rinv_0_lt_compat; lra). rewrite (Rabs_right f) by lra. rewrite EP.
    assert (T1 : Rabs W * Rabs (f - 1) <= A * (p - 1)) by (apply Rmult_le_compat; auto using Rabs_pos).
    assert (T2 : Rabs (c0 - W) * f <= ((g ^ S N - 1) * A + k * eta * g ^ S N) * p) by (apply Rmult_le_compat; try lra; apply Rabs_pos). nra. }
  replace ((g ^ (2 * N + 3) - 1) * (A / T) + k * eta * g ^ (2 * N + 3) / T) with (((g ^ (2 * N + 3) - 1) * A + k * eta * g ^ (2 * N + 3)) * / T) by (field; lra).
  apply Rmult_le_compat_r; [left; now apply Rinv_0_lt_compat|exact B].
Qed.

Theorem node_round : forall t nd, tree_inv O E t -> In nd (t_nodes t) ->
  exists mcol, nth_error (t_parts t) (dim c) = Some mcol /\
    let idx := seq (n_begin nd) (n_end nd - n_begin nd) in let n := length idx in
    let M := B2R (p_mass (n_props nd)) in let T := rsum (nthR mcol) idx in
    (forall i, In i idx -> fin_at mcol i) /\
    Rabs (M - T) <= (g ^ depth n - 1) * rsum (fun i => Rabs (nthR mcol i)) idx /\
    ((forall i, In i idx -> 0 <= nthR mcol i) -> T * / g ^ depth n <= M <= T * g ^ depth n) /\
    (M <> 0 -> forall j col, (j < dim c)%nat -> nth_error (t_parts t) j = Some col ->
       (forall i, In i idx -> fin_at col i) /\
       ((forall i, In i idx -> 0 <= nthR mcol i) -> M <= bpow radix2 (emax - 2) ->
        Rabs (B2R (nth j (p_com (n_props nd)) zero) - rsum (fun i => nthR mcol i * nthR col i) idx / T) <=
          (g ^ (2 * depth n + 3) - 1) * (rsum (fun i => nthR mcol i * Rabs (nthR col i)) idx / T) + INR n * eta * g ^ (2 * depth n + 3) / T + eta)).
Proof.
  intros t nd Ht Hin. destruct (node_payload_gen O E t nd Ht Hin) as [Hb Hc]. unfold cnp, compute_node_properties in Hc. cbv zeta in Hc.
  destruct (rd (t_parts t) (dim c)) as [mcol| |] eqn:Em; try discriminate. cbn [bind] in Hc. apply rd_some in Em. exists mcol. split; [exact Em|].
  set (ccols := firstn (dim c) (t_parts t)) in *. destruct (node_sums _ _ _ _ _ _ _ _) as [[tot com0]| |] eqn:Es; try discriminate. cbn [bind] in Hc.
  destruct (get_node_centre _ _ _ _) as [geo| |] eqn:Eg; try discriminate. cbn [bind] in Hc.
  assert (Lc : length ccols = dim c) by (unfold ccols; rewrite firstn_length, (inv_ncols _ _ _ Ht); lia).
  destruct (node_sums_shape O c (e_simd E) (e_hadd E) ccols mcol _ _ _ Lc (proj2 HE) Es) as (L0 & (lm & dm & Dm & Pm & Gm) & Gc). cbn [fst snd] in *.
  set (com := if feq O tot zero then geo else map (fun x => fmul O x (fdiv O (fofZ O 1%Z) tot)) com0) in *.
  destruct (forallb (ffin O) com) eqn:Fc; try discriminate. cbn [negb] in Hc. destruct (ffin O tot) eqn:Ft; try discriminate. cbn [negb] in Hc.
  assert (PR : p_com (n_props nd) = com /\ p_mass (n_props nd) = tot).
  { destruct (e_mac E); [destruct (ffin O _) in Hc; [|discriminate]|destruct (ffin O _) in Hc; [|discriminate]; cbn [negb] in Hc; destruct (ffin O _) in Hc; [|discriminate]]; injection Hc as <-; auto. }
  destruct PR as [PR1 PR2]. rewrite PR1, PR2. set (idx := seq (n_begin nd) (n_end nd - n_begin nd)) in *. cbv zeta.
  assert (Ln : length idx = (n_end nd - n_begin nd)%nat) by apply seq_length. rewrite Ln. set (n := (n_end nd - n_begin nd)%nat) in *. fold (depth n) in *.
  destruct (mass_approx prec emax Hprec Hemax fused Hp2 mcol tot lm dm Gm Ft) as (A1 & A2 & A3).
  assert (PI : forall i, In i idx -> In i lm) by (intros i Hi; eapply Permutation_in; [apply Permutation_sym, Pm|exact Hi]).
  assert (PJ : forall i, In i lm -> In i idx) by (intros i Hi; eapply Permutation_in; [apply Pm|exact Hi]).
  rewrite (rsum_perm _ (nthR mcol) lm idx Pm) in A2, A3. rewrite (rsum_perm _ (fun i => Rabs (nthR mcol i)) lm idx Pm) in A2.
  pose proof (g_mono prec Hp2 dm (depth n) Dm) as GM. pose proof (g_pow1 prec Hp2 dm) as GP.
  assert (A3' : (forall i, In i idx -> 0 <= nthR mcol i) -> rsum (nthR mcol) idx * / g ^ depth n <= B2R tot <= rsum (nthR mcol) idx * g ^ depth n).
  { intros Hn. specialize (A3 ltac:(intros i Hi; apply Hn, PJ, Hi)). assert (0 <= rsum (nthR mcol) idx) by (now apply rsum_nonneg).
    assert (/ g ^ depth n <= / g ^ dm) by (apply Rinv_le_contravar; lra). split; nra. }
  split; [auto|]. split; [|split; [exact A3'|]].
  - eapply approx_mono in A2; [unfold approx in A2|exact Hp2|exact Dm|split; apply Rle_refl|apply rsum_nonneg; intros; apply Rabs_pos]. lra.
  - intros NZ j col Hj Hcol. destruct (Gc j Hj) as (lc & dc & Dc & Pc & G).
    assert (Ecol : nth j ccols [] = col).
    { unfold ccols. apply (nth_error_nth _ _ []). rewrite nth_error_firstn. destruct (j <? dim c)%nat eqn:X; [exact Hcol|apply Nat.ltb_ge in X; lia]. }
    rewrite Ecol in G.
    assert (Q : feq O tot zero = false).
    { cbn [feq Bops]. rewrite Beqb_correct by (auto; apply (ofZ_0 prec emax Hprec Hemax fused)). rewrite (B2R_zero prec emax Hprec Hemax fused). now apply Req_bool_false. }
    assert (CJ : nth j com zero = fmul O (nth j com0 zero) (fdiv O (fofZ O 1%Z) tot)).
    { unfold com. rewrite Q. rewrite (nth_indep _ zero (fmul O zero (fdiv O (fofZ O 1%Z) tot))) by (rewrite map_length; lia). now rewrite (map_nth (fun x => fmul O x (fdiv O (fofZ O 1%Z) tot))). }
    assert (Lcom : length com = dim c) by (unfold com; rewrite Q, map_length; exact L0).
    assert (FJ : is_finite (nth j com zero) = true). { rewrite forallb_forall in Fc. apply Fc. apply nth_In. lia. }
    rewrite CJ in FJ. cbn [fmul Bops] in FJ. apply mult_fin in FJ as (F1 & F2 & V1). cbn [fdiv Bops] in F2. pose proof (div_fin prec emax Hprec Hemax _ _ F2 NZ) as [F3 V2].
    assert (ONE : B2R (fofZ O 1%Z) = 1). { destruct (ofZ_pow prec emax Hprec Hemax fused Hp2 0%Z) as [A0 _]; [pose proof (emax_gt prec emax Hemax); unfold Prec_gt_0 in Hprec; lia|]. exact A0. }
    rewrite ONE in V2.
    destruct (com_approx prec emax Hprec Hemax fused Hp2 mcol col _ lc dc G F1) as (C1 & C2).
    assert (Llc : length lc = n) by (rewrite (Permutation_length Pc); exact Ln).
    split.
    + intros i Hi. apply C1. eapply Permutation_in; [apply Permutation_sym, Pc|exact Hi].
    + intros Hn HM.
      rewrite (rsum_perm _ (fun i => nthR mcol i * nthR col i) lc idx Pc), (rsum_perm _ (fun i => Rabs (nthR mcol i * nthR col i)) lc idx Pc), Llc in C2.
      assert (EA : rsum (fun i => Rabs (nthR mcol i * nthR col i)) idx = rsum (fun i => nthR mcol i * Rabs (nthR col i)) idx).
      { apply rsum_ext. intros i Hi. rewrite Rabs_mult, (Rabs_right (nthR mcol i)); [reflexivity|]. apply Rle_ge. now apply Hn. }
      assert (T0 : 0 <= rsum (nthR mcol) idx) by (now apply rsum_nonneg). specialize (A3' Hn).
      assert (TP : 0 < rsum (nthR mcol) idx). { destruct T0 as [T0|T0]; [exact T0|]. rewrite <- T0, !Rmult_0_l in A3'. exfalso. apply NZ. lra. }
      eapply com_error; [exact TP|apply pos_INR| |exact A3'|exact HM| |exact V2|].
      * rewrite <- EA. apply rsum_abs.
      * rewrite <- EA. eapply approx_mono; [exact Hp2|exact C2|lia|split; [apply pos_INR|lra]|]. apply rsum_nonneg. intros; apply Rabs_pos.
      * rewrite CJ. cbn [fmul Bops]. exact V1.
Qed.

End IEEE.
