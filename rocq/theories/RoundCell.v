(** Particles, nodes and cells in floating point. *)
From Coq Require Import List Arith ZArith NArith Reals Bool Lra Lia Psatz Permutation.
From Flocq Require Import Core BinarySingleNaN.
From Verif Require Import Base Config Morton MortonProofs CodesProofs Build TreeSpec BuildSpec BuildProofs BuildProps FOps FOpsProofs Disc DiscProofs BoxAccept NodeProps NodeGeom NodesR Geometry Tree TreeInv TreeProofs TreeSafe TreeProps RSum Kernels KernR
  CollFloat Round RoundNode RoundNear RoundExact RoundCtor RoundSrc.
Import ListNotations.
Local Open Scope R_scope.

Section IEEE.

Variables prec emax : Z.
Context (Hprec : Prec_gt_0 prec).
Context (Hemax : Prec_lt_emax prec emax).
Variable fused : bool.
Hypothesis Hp8 : (8 <= prec)%Z.

Notation bf := (binary_float prec emax).
Notation O := (Bops prec emax Hprec Hemax fused).
Notation zero := (fofZ O 0%Z).
Notation g := (gR prec).
Notation u := (uR prec).
Notation eta := (etaR prec emax).
Notation Hp2 := (Hp2 prec Hp8).
Notation prow := (@prow bf).

Variable k : Z.
Hypothesis Hk5 : (5 * k + 16 <= emax)%Z.
Hypothesis Hroom : (prec + 4 * k + 4 <= emax)%Z.
Hypothesis He : (64 <= emax)%Z.

Variable E : env.
Hypothesis HE : env_ok E.
Notation c := (e_cfg E).
Variables (t : @tree bf) (P : nat -> prow).
Hypothesis Ht : tree_inv O E t.
Notation n := (length (t_codes t)).
Hypothesis HP : forall i, (i < n)%nat -> row (t_parts t) i (fst (P i) ++ [snd (P i)]).
Hypothesis Hbf : is_finite (t_box t) = true.
Hypothesis Hbox : bpow radix2 (3 - k) <= B2R (t_box t) <= bpow radix2 (k - 3).
Notation B := (B2R (t_box t)).

(** Up to the rounding errors, the integer coordinate is that of exact arithmetic. *)
Lemma disc_near : forall x m, disc_single_coord O c false x (fdiv O (fofZ O 1%Z) (t_box t)) = Ok m ->
  exists y, Rabs (B2R x - y) <= 3 * u * B /\ disc_single_coord Rops c false y (1 / B) = Ok m.
Proof.
  intros x m H. pose proof (k3 prec emax k t Hbox) as K3. pose proof (box_pos prec emax k t Hbox) as BP.
  assert (Hrange : (prec + 4 <= emax)%Z) by lia.
  assert (Hcb : (Z.of_N (cbitsc c) < emax)%Z) by (pose proof (cb_31 E); lia).
  assert (Hcf : comfortable prec emax (t_box t)).
  { split; [exact Hbf|]. split; [eapply Rle_trans; [|apply Hbox]|eapply Rle_trans; [apply Hbox|]]; apply bpow_le; lia. }
  pose proof (accepted_near_box prec emax Hprec Hemax fused Hp8 Hrange c Hcb x (t_box t) m Hcf H) as NB.
  destruct (inv_val prec emax Hprec Hemax fused Hp8 Hrange c (t_box t) Hcf) as (_ & _ & Hi).
  change (invb prec emax Hprec Hemax fused (t_box t)) with (fdiv O (fofZ O 1%Z) (t_box t)) in Hi. set (inv := fdiv O (fofZ O 1%Z) (t_box t)) in *.
  rewrite (disc_eq prec emax Hprec Hemax fused Hp2 c Hcb) in H. destruct (is_finite _) eqn:Fs in H; [|discriminate].
  rewrite (scaled_exact prec emax Hprec Hemax fused Hp8 E Hcb x inv Fs) in H.
  set (V := fma_val prec emax fused (B2R x) (B2R inv) (/ 2)) in *.
  destruct (Rlt_dec _ _) as [|V0]; [discriminate|]. destruct (Rle_dec _ _) as [|V1]; [discriminate|]. injection H as <-.
  exists (B * (V - / 2)). pose proof (bpow_mprec8 prec Hp8 c) as U8. change (bpow radix2 (- prec)) with u in *.
  assert (E4 : bpow radix2 (2 - prec) = 4 * u). { replace (2 - prec)%Z with (2 + - prec)%Z by lia. rewrite bpow_plus. reflexivity. }
  rewrite E4 in NB. set (X := B2R x) in *. set (I := B2R inv) in *.
  set (ib := 1 / B) in *. assert (Hib : B * ib = 1) by (unfold ib; field; lra). assert (Hib0 : 0 < ib) by (apply Rdiv_lt_0_compat; lra).
  apply Rabs_def2b in Hi. assert (XB : Rabs X <= 33 / 64 * B) by (apply Rabs_le; nra).
  assert (XI : Rabs (X * I - X * ib) <= 33 / 64 * u).
  { replace (X * I - X * ib) with (X * (I - ib)) by ring. rewrite Rabs_mult. apply Rle_trans with (33 / 64 * B * (u * ib)).
    - apply Rmult_le_compat; auto using Rabs_pos. apply Rabs_le. lra.
    - replace (33 / 64 * B * (u * ib)) with (33 / 64 * u * (B * ib)) by ring. rewrite Hib. lra. }
  assert (XI0 : Rabs (X * ib) <= 33 / 64).
  { rewrite Rabs_mult, (Rabs_right ib) by lra. apply Rle_trans with (33 / 64 * B * ib); [apply Rmult_le_compat_r; lra|]. rewrite Rmult_assoc, Hib. lra. }
  assert (X45 : Rabs (X * I) <= 4 / 5).
  { replace (X * I) with (X * ib + (X * I - X * ib)) by ring. eapply Rle_trans; [apply Rabs_triang|]. nra. }
  pose proof (fma_err prec emax Hprec fused Hp8 Hrange E X I X45) as FE. fold V in FE. change (bpow radix2 (- prec)) with u in FE.
  split.
  - replace (X - B * (V - / 2)) with (B * ((X * ib - X * I) + ((X * I + / 2) - V)) + X * (1 - B * ib)) by ring. rewrite Hib. replace (X * (1 - 1)) with 0 by ring. rewrite Rplus_0_r.
    rewrite Rabs_mult, (Rabs_right B) by lra. rewrite (Rmult_comm (3 * u)). apply Rmult_le_compat_l; [lra|].
    eapply Rle_trans; [apply Rabs_triang|]. rewrite (Rabs_minus_sym (X * ib)), (Rabs_minus_sym (X * I + / 2)). lra.
  - apply (disc_R_iff c (B * (V - / 2)) B _ BP). set (pw := bpow radix2 (Z.of_N (cbitsc c))) in *.
    assert (PW : IZR (Z.of_N (2 ^ cbitsc c)) = pw) by (unfold pw; now rewrite bpowN). rewrite PW. assert (Ppw : 0 < pw) by apply bpow_gt_0.
    assert (V0' : 0 <= V * pw) by lra. pose proof (Ztrunc_nonneg _ V0') as Z0. rewrite Z2N.id by exact Z0.
    assert (VB : IZR (Ztrunc (V * pw)) <= V * pw < IZR (Ztrunc (V * pw)) + 1).
    { rewrite Ztrunc_floor by exact V0'. split; [apply Zfloor_lb|apply Zfloor_ub]. }
    split.
    + apply N2Z.inj_lt. rewrite Z2N.id by exact Z0. apply lt_IZR. rewrite PW. lra.
    + set (z := IZR (Ztrunc (V * pw))) in *. replace (B * (V - / 2)) with (- B / 2 + (V * pw) * (B / pw)) by (field; lra).
      assert (PS : 0 < B / pw) by (now apply Rdiv_lt_0_compat). replace (z * B / pw) with (z * (B / pw)) by (unfold Rdiv; ring). replace ((z + 1) * B / pw) with ((z + 1) * (B / pw)) by (unfold Rdiv; ring).
      set (s := B / pw) in *. split; [apply Rplus_le_compat_l, Rmult_le_compat_r; lra|apply Rplus_lt_compat_l, Rmult_lt_compat_r; lra].
Qed.

(** The particles of a node are in its cell, up to the rounding errors. *)
Definition near_cell (l : N) (q : list N) (xs : list R) : Prop := exists ys, Forall2 (fun x y => Rabs (x - y) <= 3 * u * B) xs ys /\ in_cell B l q ys.

Lemma disc_nears : forall xs ms, mapM (fun x => disc_single_coord O c false x (fdiv O (fofZ O 1%Z) (t_box t))) xs = Ok ms ->
  exists ys, Forall2 (fun x y => Rabs (x - y) <= 3 * u * B) (map (@B2R prec emax) xs) ys /\ mapM (fun y => disc_single_coord Rops c false y (1 / B)) ys = Ok ms.
Proof.
  intros xs. induction xs as [|x xs IH]; intros ms H; cbn [mapM] in H.
  - injection H as <-. exists []. split; [constructor|reflexivity].
  - apply bind_Ok in H as (m & Hm & H). apply bind_Ok in H as (ms' & Hms & H). injection H as <-.
    destruct (disc_near x m Hm) as (y & Y1 & Y2). destruct (IH ms' Hms) as (ys & Y3 & Y4). exists (y :: ys). split; [constructor; assumption|].
    cbn [mapM]. rewrite Y2, Y4. reflexivity.
Qed.

Lemma node_near_cell : forall a, In a (t_nodes t) -> exists q, length q = dim c /\ Forall (fun m => (m < 2 ^ n_level a)%N) q /\
  get_node_centre Rops c (n_code a) B = Ok (cell_centre B (n_level a) q) /\
  forall i, (n_begin a <= i < n_end a)%nat -> near_cell (n_level a) q (map (@B2R prec emax) (fst (P i))).
Proof.
  intros a Ha. pose proof (box_pos prec emax k t Hbox) as BP.
  assert (R : forall A, reorders (fun l : list A => l)) by (intros A l; apply Permutation_refl).
  pose proof (inv_nodes _ _ _ Ht 0%nat _ _ (R _) (R _)) as HB. pose proof (inv_valid_codes O E t Ht) as Hv.
  destruct (node_ranges c (t_codes t) (t_mln t) (t_ncrit t) _ _ Hv 0%nat _ _ _ _ (R _) (R _) HB a Ha) as (p & H1 & H2 & H3 & H4 & H5).
  destruct (node_centre c (n_level a) p B H1 H2) as (q & Q1 & Q2 & Q3 & Q4). exists q. split; [exact Q1|]. split; [exact Q2|]. split; [rewrite H3; exact Q3|].
  intros i Hi. assert (Hin : (i < n)%nat) by lia. destruct (row_split O E t _ _ i Ht (HP i Hin)) as (Lx & Hr & _).
  destruct (nth_error (t_codes t) i) as [x|] eqn:Ex; [|apply nth_error_None in Ex; lia].
  destruct (inv_codes _ _ _ Ht i x Ex) as (xs & Hr' & Hc). rewrite <- (RoundSrc.row_fun _ _ _ _ _ Hr Hr') in Hc. clear xs Hr'.
  unfold particle_code in Hc. apply bind_Ok in Hc as (ms & Hms & Hc). destruct (mapM_disc_lt _ _ _ _ _ Hms) as [Lm Fm].
  destruct (disc_nears _ _ Hms) as (ys & Y1 & Y2). exists ys. split; [exact Y1|].
  apply (cell_iff c B (n_level a) q ys ms BP H1 Y2). apply (Q4 ms x); [lia|exact Fm|exact Hc|]. now apply (H5 i x Ex).
Qed.

End IEEE.
