(** Discretisation and box size deduction: proofs. *)
From Coq Require Import List Arith ZArith NArith Reals Bool Lia Lra Psatz.
From Flocq Require Import Core BinarySingleNaN.
From Verif Require Import Base Config Morton MortonProofs CodesProofs BuildProofs Build FOps Disc FOpsProofs.
Import ListNotations.
Local Open Scope R_scope.

Lemma Ztrunc_bounds : forall x n, 0 <= x -> x < IZR n -> (0 <= Ztrunc x < n)%Z.
Proof.
  intros x n H0 Hn. rewrite Ztrunc_floor by exact H0. split.
  - apply (Zfloor_lub 0). exact H0.
  - apply lt_IZR. apply Rle_lt_trans with x; [apply Zfloor_lb|exact Hn].
Qed.

Lemma Ztrunc_nonneg : forall x, 0 <= x -> (0 <= Ztrunc x)%Z.
Proof. intros x H. rewrite <- (Ztrunc_IZR 0). now apply Ztrunc_le. Qed.

Lemma cb_lt_width : forall c, (Z.of_N (cbitsc c) < Z.of_N (width c))%Z.
Proof. destruct c; reflexivity. Qed.

Lemma ZofN_pow : forall n, Z.of_N (2 ^ n) = (2 ^ Z.of_N n)%Z.
Proof. intros. apply N2Z.inj_pow. Qed.

Lemma bpowN : forall n, bpow radix2 (Z.of_N n) = IZR (Z.of_N (2 ^ n)).
Proof. intros. rewrite ZofN_pow. symmetry. apply (IZR_Zpower radix2). lia. Qed.

(** The value to be truncated lies in [0, 2^cbits): the conversion is defined and in range. *)
Lemma cast_in_range : forall c z, (0 <= z < 2 ^ Z.of_N (cbitsc c))%Z ->
  (0 <=? z)%Z && (z <? 2 ^ Z.of_N (width c))%Z = true /\ (2 ^ cbitsc c <=? Z.to_N z)%N = false.
Proof.
  intros c z Hz. split.
  - apply andb_true_intro. split; [apply Z.leb_le; lia|]. apply Z.ltb_lt.
    apply Z.lt_le_trans with (1 := proj2 Hz). apply Z.pow_le_mono_r; [lia|].
    pose proof (cb_lt_width c). lia.
  - apply N.leb_gt. apply N2Z.inj_lt. rewrite Z2N.id by lia. rewrite ZofN_pow. lia.
Qed.

(** ** Exact arithmetic *)

Section Exact.

Variable c : cfg.
Notation cb := (cbitsc c).
Notation fac := (IZR (Z.of_N (2 ^ cb))).

Lemma fac_pos : 0 < fac.
Proof. apply IZR_lt. rewrite ZofN_pow. apply Z.pow_pos_nonneg; lia. Qed.

Lemma disc_R : forall x inv, disc_single_coord Rops c false x inv =
  let t := (x * inv + 1 / 2) * fac in
  if Rltb t 0 || Rleb fac t then Throw InvalidArgument else Ok (Z.to_N (Ztrunc t)).
Proof.
  intros x inv. unfold disc_single_coord. cbn [ffin Rops negb fmul ffma fofZ fdiv flt fle].
  cbv zeta. set (t := (x * inv + 1 / 2) * fac).
  destruct (Rltb t 0) eqn:E1; [reflexivity|]. destruct (Rleb fac t) eqn:E2; [reflexivity|].
  apply Rltb_ge in E1. apply Rleb_gt in E2. cbn [orb bind]. unfold cast_uint. cbn [ffin Rops ftrunc].
  destruct (cast_in_range c (Ztrunc t)) as [A B].
  { apply Ztrunc_bounds; [exact E1|]. rewrite <- ZofN_pow. exact E2. }
  rewrite andb_true_l, A. cbn [bind]. now rewrite B.
Qed.

Lemma disc_R_iff : forall x b k, 0 < b ->
  (disc_single_coord Rops c false x (1 / b) = Ok k <->
   (k < 2 ^ cb)%N /\
   - b / 2 + IZR (Z.of_N k) * b / fac <= x < - b / 2 + (IZR (Z.of_N k) + 1) * b / fac).
Proof.
  intros x b k Hb. rewrite disc_R. cbv zeta.
  pose proof fac_pos as Hf.
  set (t := (x * (1 / b) + 1 / 2) * fac).
  assert (Hx : x = - b / 2 + t * b / fac) by (unfold t; field; lra).
  assert (Hmono : forall u v, u < v <-> - b / 2 + u * b / fac < - b / 2 + v * b / fac).
  { intros u v. assert (Hq : 0 < b / fac) by (apply Rdiv_lt_0_compat; lra).
    unfold Rdiv in *. rewrite !Rmult_assoc. split; intros; nra. }
  assert (Hmono' : forall u v, u <= v <-> - b / 2 + u * b / fac <= - b / 2 + v * b / fac).
  { intros u v. assert (Hq : 0 < b / fac) by (apply Rdiv_lt_0_compat; lra).
    unfold Rdiv in *. rewrite !Rmult_assoc. split; intros; nra. }
  rewrite Hx at 1 2. rewrite <- Hmono, <- Hmono'.
  destruct (Rltb t 0) eqn:E1; simpl orb.
  { apply Rltb_lt in E1. split; [discriminate|]. intros (_ & H & _).
    assert (0 <= IZR (Z.of_N k)) by (apply IZR_le; lia). lra. }
  apply Rltb_ge in E1.
  destruct (Rleb fac t) eqn:E2.
  { apply Rleb_le in E2. split; [discriminate|]. intros (Hk & _ & H).
    assert (IZR (Z.of_N k) + 1 <= fac). { rewrite <- plus_IZR. apply IZR_le. lia. } lra. }
  apply Rleb_gt in E2.
  assert (Hz : (0 <= Ztrunc t)%Z) by (apply (Ztrunc_bounds t (Z.of_N (2 ^ cb))); auto).
  split.
  - intros H. injection H as <-. rewrite Z2N.id by exact Hz.
    split; [|rewrite Ztrunc_floor by exact E1; split; [apply Zfloor_lb|apply Zfloor_ub]].
    apply N2Z.inj_lt. rewrite Z2N.id by exact Hz. apply Ztrunc_bounds; auto.
  - intros (Hk & H1 & H2). f_equal. rewrite Ztrunc_floor by exact E1.
    rewrite (Zfloor_imp (Z.of_N k)); [apply N2Z.id|]. rewrite plus_IZR. lra.
Qed.

Lemma disc_R_accept : forall x b, 0 < b ->
  match disc_single_coord Rops c false x (1 / b) with
  | Ok k => - b / 2 <= x < b / 2
  | Throw e => e = InvalidArgument /\ ~ (- b / 2 <= x < b / 2)
  | UB => False
  end.
Proof.
  intros x b Hb. rewrite disc_R. cbv zeta. pose proof fac_pos as Hf.
  assert (Hi : 0 < 1 / b) by (apply Rdiv_lt_0_compat; lra).
  assert (Hbi : b * (1 / b) = 1) by (field; lra).
  set (i := 1 / b) in *. clearbody i.
  destruct (Rltb ((x * i + 1 / 2) * fac) 0) eqn:E1; simpl orb.
  { apply Rltb_lt in E1. split; [reflexivity|]. intros [H1 _].
    assert (x * i + 1 / 2 < 0) by nra. nra. }
  apply Rltb_ge in E1. assert (0 <= x * i + 1 / 2) by nra.
  destruct (Rleb fac ((x * i + 1 / 2) * fac)) eqn:E2; cbv beta iota.
  { apply Rleb_le in E2. split; [reflexivity|]. intros [_ H1].
    assert (1 <= x * i + 1 / 2) by nra. nra. }
  apply Rleb_gt in E2. assert (x * i + 1 / 2 < 1) by nra. nra.
Qed.

End Exact.

(** ** IEEE arithmetic *)

Section IEEE.

Variables prec emax : Z.
Context (Hprec : Prec_gt_0 prec).
Context (Hemax : Prec_lt_emax prec emax).
Variable fused : bool.
Hypothesis Hp2 : (2 <= prec)%Z.
Variable c : cfg.
Hypothesis Hcb : (Z.of_N (cbitsc c) < emax)%Z.

Notation bf := (binary_float prec emax).
Notation O := (Bops prec emax Hprec Hemax fused).
Notation rnd := (round radix2 (SpecFloat.fexp prec emax) ZnearestE).
Notation cb := (cbitsc c).
Notation fac := (fofZ O (Z.of_N (2 ^ cb))).
Notation pw := (bpow radix2 (Z.of_N cb)).

(** The scaled coordinate, tree.hpp 389-394. *)
Definition scaled (x inv : bf) : bf :=
  fmul O (ffma O x inv (fdiv O (fofZ O 1%Z) (fofZ O 2%Z))) fac.

Lemma fac_val : B2R fac = pw /\ is_finite fac = true.
Proof. rewrite ZofN_pow. apply (ofZ_pow prec emax Hprec Hemax fused Hp2). lia. Qed.

Lemma scaled_fin : forall x inv, is_finite (scaled x inv) = true ->
  is_finite x = true /\ is_finite inv = true /\
  B2R (scaled x inv) = rnd (fma_val prec emax fused (B2R x) (B2R inv) (/ 2) * pw).
Proof.
  intros x inv H. unfold scaled in *. apply (mult_fin prec emax Hprec Hemax) in H as (H1 & _ & H3).
  pose proof (fma_fin prec emax Hprec Hemax fused _ _ _ H1) as (H4 & H5 & _ & H7).
  destruct (half_exact prec emax Hprec Hemax fused Hp2) as [E _]. cbv zeta in E. rewrite E in H7.
  split; [exact H4|]. split; [exact H5|].
  transitivity (rnd (B2R (ffma O x inv (fdiv O (fofZ O 1%Z) (fofZ O 2%Z))) * B2R fac)); [exact H3|].
  now rewrite H7, (proj1 fac_val).
Qed.

Lemma pw_IZR : pw = IZR (2 ^ Z.of_N cb).
Proof. symmetry. apply (IZR_Zpower radix2). lia. Qed.

Lemma disc_eq : forall x inv, disc_single_coord O c false x inv =
  if is_finite (scaled x inv) then
    if Rlt_dec (B2R (scaled x inv)) 0 then Throw InvalidArgument
    else if Rle_dec pw (B2R (scaled x inv)) then Throw InvalidArgument
    else Ok (Z.to_N (Ztrunc (B2R (scaled x inv))))
  else Throw InvalidArgument.
Proof.
  intros x inv. unfold disc_single_coord. cbv zeta. fold (scaled x inv).
  change (ffin O (scaled x inv)) with (is_finite (scaled x inv)).
  destruct (is_finite (scaled x inv)) eqn:Hf; [|reflexivity]. cbn [negb].
  destruct fac_val as [Fv Ff].
  destruct (flt O (scaled x inv) (fofZ O 0%Z)) eqn:E1.
  { apply (ltb_lt prec emax) in E1; [|exact Hf|reflexivity]. cbn [orb].
    destruct (Rlt_dec _ _) as [_|n]; [reflexivity|]. destruct n. exact E1. }
  assert (N1 : ~ B2R (scaled x inv) < 0).
  { intros Hlt. change 0 with (B2R (fofZ O 0%Z)) in Hlt. apply (ltb_lt prec emax) in Hlt; auto.
    change (flt O (scaled x inv) (fofZ O 0%Z) = true) in Hlt. congruence. }
  destruct (Rlt_dec _ _) as [n|_]; [contradiction|].
  cbn [orb]. destruct (fle O fac (scaled x inv)) eqn:E2.
  { apply (leb_le prec emax) in E2; auto. rewrite Fv in E2.
    destruct (Rle_dec _ _) as [_|n]; [reflexivity|contradiction]. }
  assert (N2 : ~ pw <= B2R (scaled x inv)).
  { intros Hlt. rewrite <- Fv in Hlt. apply (leb_le prec emax) in Hlt; auto.
    change (fle O fac (scaled x inv) = true) in Hlt. congruence. }
  destruct (Rle_dec _ _) as [n|_]; [contradiction|].
  cbn [bind]. unfold cast_uint. change (ffin O (scaled x inv)) with (is_finite (scaled x inv)).
  change (ftrunc O (scaled x inv)) with (Btrunc (scaled x inv)).
  rewrite Hf, (trunc_val prec emax Hemax).
  destruct (cast_in_range c (Ztrunc (B2R (scaled x inv)))) as [A B].
  { apply Ztrunc_bounds; [lra|]. rewrite <- pw_IZR. lra. }
  rewrite andb_true_l, A. cbn [bind]. now rewrite B.
Qed.

Lemma pred_fac : let p := fpred O fac in is_finite p = true /\ 0 <= B2R p < pw.
Proof.
  intros p. destruct fac_val as [Fv Ff].
  assert (Hpos : 0 < pw) by apply bpow_gt_0.
  pose proof (Bpred_correct prec emax _ _ fac Ff) as C. rewrite Fv in C.
  assert (Hge : 0 <= pred radix2 (SpecFloat.fexp prec emax) pw).
  { apply (pred_ge_0 radix2 (SpecFloat.fexp prec emax)); auto.
    pose proof (emax_gt prec emax Hemax). apply (format_pow prec emax Hprec Hp2). lia. }
  rewrite Rlt_bool_true in C.
  2:{ pose proof (bpow_gt_0 radix2 emax). lra. }
  destruct C as (C1 & C2 & _). cbn [fpred Bops] in p. split; [exact C2|].
  unfold p. rewrite C1. split; [exact Hge|]. apply pred_lt_id. apply Rgt_not_eq. apply bpow_gt_0.
Qed.

(** The clamped value, as a real number. *)
Definition clampR (t : R) : R := Rmin (Rmax t 0) (B2R (fpred O fac)).

Lemma disc_clamp_eq : forall x inv, disc_single_coord O c true x inv =
  if is_finite (scaled x inv) then Ok (Z.to_N (Ztrunc (clampR (B2R (scaled x inv)))))
  else Throw InvalidArgument.
Proof.
  intros x inv. unfold disc_single_coord. cbv zeta. fold (scaled x inv).
  change (ffin O (scaled x inv)) with (is_finite (scaled x inv)).
  destruct (is_finite (scaled x inv)) eqn:Hf; [|reflexivity]. cbn [negb bind].
  destruct pred_fac as [Pf [P0 P1]].
  assert (Hc : is_finite (fclamp O (scaled x inv) (fofZ O 0%Z) (fpred O fac)) = true /\
               B2R (fclamp O (scaled x inv) (fofZ O 0%Z) (fpred O fac)) = clampR (B2R (scaled x inv))).
  { unfold fclamp, clampR.
    destruct (flt O (scaled x inv) (fofZ O 0%Z)) eqn:E1.
    - apply (ltb_lt prec emax) in E1; [|exact Hf|reflexivity]. change (B2R (fofZ O 0%Z)) with 0 in E1.
      split; [reflexivity|]. rewrite Rmax_right by lra. rewrite Rmin_left by lra. reflexivity.
    - assert (N1 : ~ B2R (scaled x inv) < 0).
      { intros Hlt. change 0 with (B2R (fofZ O 0%Z)) in Hlt. apply (ltb_lt prec emax) in Hlt; auto.
        change (flt O (scaled x inv) (fofZ O 0%Z) = true) in Hlt. congruence. }
      rewrite Rmax_left by lra.
      destruct (flt O (fpred O fac) (scaled x inv)) eqn:E2.
      + apply (ltb_lt prec emax) in E2; auto. split; [exact Pf|]. rewrite Rmin_right by lra. reflexivity.
      + split; [exact Hf|]. rewrite Rmin_left; [reflexivity|]. apply Rnot_lt_le. intros Hlt.
        apply (ltb_lt prec emax) in Hlt; auto.
        change (flt O (fpred O fac) (scaled x inv) = true) in Hlt. congruence. }
  destruct Hc as [Cf Cv]. unfold cast_uint.
  set (t := fclamp O (scaled x inv) (fofZ O 0%Z) (fpred O fac)) in *.
  change (ffin O t) with (is_finite t). change (ftrunc O t) with (Btrunc t).
  rewrite Cf, (trunc_val prec emax Hemax), Cv.
  destruct (cast_in_range c (Ztrunc (clampR (B2R (scaled x inv))))) as [A B].
  { apply Ztrunc_bounds.
    - unfold clampR. apply Rmin_glb; [apply Rmax_r|exact P0].
    - rewrite <- pw_IZR. apply Rle_lt_trans with (2 := P1). apply Rmin_r. }
  rewrite andb_true_l, A. cbn [bind]. now rewrite B.
Qed.

(** C05 *)
Lemma disc_range : forall clamp x inv,
  match disc_single_coord O c clamp x inv with
  | Ok k => (k < 2 ^ cb)%N
  | Throw e => e = InvalidArgument
  | UB => False
  end.
Proof.
  intros [|] x inv.
  - rewrite disc_clamp_eq. destruct (is_finite _); [|reflexivity].
    destruct pred_fac as [Pf [P0 P1]].
    assert (Hb : (0 <= Ztrunc (clampR (B2R (scaled x inv))) < 2 ^ Z.of_N cb)%Z).
    { apply Ztrunc_bounds.
      - unfold clampR. apply Rmin_glb; [apply Rmax_r|exact P0].
      - rewrite <- pw_IZR. apply Rle_lt_trans with (2 := P1). apply Rmin_r. }
    apply N2Z.inj_lt. rewrite Z2N.id, ZofN_pow by lia. lia.
  - rewrite disc_eq. destruct (is_finite _); [|reflexivity].
    destruct (Rlt_dec _ _); [reflexivity|]. destruct (Rle_dec _ _); [reflexivity|].
    assert (Hb : (0 <= Ztrunc (B2R (scaled x inv)) < 2 ^ Z.of_N cb)%Z).
    { apply Ztrunc_bounds; [lra|]. rewrite <- pw_IZR. lra. }
    apply N2Z.inj_lt. rewrite Z2N.id, ZofN_pow by lia. lia.
Qed.

Lemma clamp_throws_iff : forall x inv e,
  disc_single_coord O c true x inv = Throw e <->
  e = InvalidArgument /\ is_finite (scaled x inv) = false.
Proof.
  intros x inv e. rewrite disc_clamp_eq. destruct (is_finite _); split; intros H.
  - discriminate.
  - destruct H; discriminate.
  - injection H as <-. auto.
  - destruct H as [-> _]. reflexivity.
Qed.

(** C06 *)
Lemma scaled_mono : forall x y inv, is_finite (scaled x inv) = true -> is_finite (scaled y inv) = true ->
  0 <= B2R inv -> B2R x <= B2R y -> B2R (scaled x inv) <= B2R (scaled y inv).
Proof.
  intros x y inv Hx Hy Hi Hxy.
  destruct (scaled_fin x inv Hx) as (_ & _ & ->). destruct (scaled_fin y inv Hy) as (_ & _ & ->).
  apply (rnd_le prec emax Hprec). apply Rmult_le_compat_r; [apply bpow_ge_0|].
  apply fma_val_le; auto.
Qed.

Lemma disc_mono : forall clamp x y inv kx ky,
  fle O x y = true -> flt O (fofZ O 0%Z) inv = true ->
  disc_single_coord O c clamp x inv = Ok kx -> disc_single_coord O c clamp y inv = Ok ky ->
  (kx <= ky)%N.
Proof.
  intros clamp x y inv kx ky Hxy Hinv Hx Hy.
  assert (Hfin : is_finite (scaled x inv) = true /\ is_finite (scaled y inv) = true).
  { destruct clamp; [rewrite disc_clamp_eq in Hx, Hy|rewrite disc_eq in Hx, Hy];
      destruct (is_finite (scaled x inv)), (is_finite (scaled y inv)); auto; discriminate. }
  destruct Hfin as [Fx Fy].
  assert (Hle : B2R (scaled x inv) <= B2R (scaled y inv)).
  { destruct (scaled_fin x inv Fx) as (F1 & F2 & _). destruct (scaled_fin y inv Fy) as (F3 & _ & _).
    apply scaled_mono; auto.
    - apply (ltb_lt prec emax) in Hinv; [|reflexivity|exact F2]. change (B2R (fofZ O 0%Z)) with 0 in Hinv. lra.
    - apply (leb_le prec emax) in Hxy; auto. }
  destruct clamp; [rewrite disc_clamp_eq in Hx, Hy|rewrite disc_eq in Hx, Hy]; rewrite Fx in Hx; rewrite Fy in Hy.
  - injection Hx as <-. injection Hy as <-. apply Z2N.inj_le.
    + apply Ztrunc_nonneg. unfold clampR. apply Rmin_glb; [apply Rmax_r|apply pred_fac].
    + apply Ztrunc_nonneg. unfold clampR. apply Rmin_glb; [apply Rmax_r|apply pred_fac].
    + apply Ztrunc_le. unfold clampR. apply Rle_min_compat_r. apply Rle_max_compat_r. exact Hle.
  - destruct (Rlt_dec _ _) in Hx; [discriminate|]. destruct (Rle_dec _ _) in Hx; [discriminate|].
    destruct (Rlt_dec _ _) in Hy; [discriminate|]. destruct (Rle_dec _ _) in Hy; [discriminate|].
    injection Hx as <-. injection Hy as <-. apply Z2N.inj_le.
    + apply Ztrunc_nonneg. lra.
    + apply Ztrunc_nonneg. lra.
    + apply Ztrunc_le. exact Hle.
Qed.

End IEEE.
