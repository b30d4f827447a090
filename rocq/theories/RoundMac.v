(** The parameters, the padding and the acceptance of nodes in IEEE arithmetic. *)
From Coq Require Import List Arith ZArith NArith Reals Bool Lra Lia Psatz Permutation.
From Flocq Require Import Core BinarySingleNaN Relative Plus_error.
From Verif Require Import Base Config Morton Build TreeSpec BuildSpec BuildProofs BuildProps FOps FOpsProofs Disc DiscProofs NodeProps Tree TreeInv TreeProofs TreeSafe TreeProps RSum Kernels KernR
  BoxAccept Force KernLoops ForceGen ForceR ForceTop Round RoundFin RoundNode RoundCtor RoundNear RoundKern RoundSum RoundExact RoundSrc.
Import ListNotations.
Local Open Scope nat_scope.

Section IEEE.

Variables prec emax : Z.
Context (Hprec : Prec_gt_0 prec).
Context (Hemax : Prec_lt_emax prec emax).
Variable fused : bool.
Hypothesis Hp8 : (8 <= prec)%Z.

Notation bf := (binary_float prec emax).
Notation O := (Bops prec emax Hprec Hemax fused).
Notation fexp := (SpecFloat.fexp prec emax).
Notation rnd := (round radix2 fexp ZnearestE).
Notation zero := (fofZ O 0%Z).
Notation one := (fofZ O 1%Z).
Notation two := (fofZ O 2%Z).
Notation g := (gR prec).
Notation eta := (etaR prec emax).
Notation bnd := (bnd prec emax).
Notation val := (val prec emax).
Notation near := (near prec).
Notation okr := (okr emax).
Notation Hp2 := (Hp2 prec Hp8).
Notation prow := (@prow bf).

Local Instance valid_fexp_rm : Valid_exp fexp.
Proof. exact (@FLT_exp_valid (3 - emax - prec) prec Hprec). Qed.

Local Open Scope R_scope.

Lemma Rabs_le_sq' : forall x y, 0 <= y -> x * x <= y * y -> Rabs x <= y.
Proof. intros x y Hy H. apply Rabs_le. nra. Qed.

Lemma Rabs_le_sq : forall x j, x * x <= bpow radix2 j * bpow radix2 j -> Rabs x <= bpow radix2 j.
Proof. intros x j H. apply Rabs_le_sq'; [apply bpow_ge_0|exact H]. Qed.

Lemma val_add : forall a x X y Y, val a x X -> val a y Y -> 0 <= X -> 0 <= Y -> small prec a -> okr (X + Y) -> val (S a) (fadd O x y) (X + Y).
Proof.
  intros a x X y Y [Fx Nx] [Fy Ny] HX HY Hs Hr. pose proof (near_sum prec Hp8 a _ _ _ _ Nx Ny HX HY) as N.
  destruct (okr_rnd prec emax Hprec Hemax Hp8 a _ _ N Hs Hr) as [N' L].
  assert (F : is_finite (Bplus mode_NE x y) = true) by (now apply plus_finite).
  destruct (plus_fin prec emax Hprec Hemax _ _ F) as (_ & _ & V). split; [exact F|]. cbn [fadd Bops]. now rewrite V.
Qed.

Lemma val_ofZ_pow : forall j, (0 <= j < emax)%Z -> val 0 (fofZ O (2 ^ j)%Z) (bpow radix2 j).
Proof.
  intros j Hj. destruct (ofZ_pow prec emax Hprec Hemax fused Hp2 j Hj) as [A B]. split; [exact B|]. rewrite A. apply (near_refl prec Hp8).
Qed.

Lemma rng_pos : forall a b X, bpow radix2 a <= X <= bpow radix2 b -> rng a b X.
Proof. intros a b X H. right. rewrite Rabs_right; [exact H|]. pose proof (bpow_gt_0 radix2 a). lra. Qed.

Lemma rng_of : forall a b X, rng a b X -> 0 < X -> bpow radix2 a <= X <= bpow radix2 b.
Proof. intros a b X [->|H] P; [lra|]. now rewrite Rabs_right in H by lra. Qed.

Variable k : Z.
Hypothesis Hk5 : (5 * k + 16 <= emax)%Z.
Hypothesis Hroom : (prec + 4 * k + 4 <= emax)%Z.
Hypothesis He : (64 <= emax)%Z.
Variable E : env.
Notation c := (e_cfg E).

(** ** Parameters *)

Variables (theta box : bf).
Hypothesis Hth : is_finite theta = true.
Hypothesis Htheta : bpow radix2 (- k) <= B2R theta <= bpow radix2 k.
Hypothesis Hbf : is_finite box = true.
Hypothesis Hbox : bpow radix2 (3 - k) <= B2R box <= bpow radix2 (k - 3).
Hypothesis Hratio : B2R box <= B2R theta * bpow radix2 (k - 3).

Notation TH := (B2R theta).
Notation B := (B2R box).

(** The value used by the acceptance criterion. *)
Definition macX : R := match e_mac E with Bh => 1 / (TH * TH) | BhGeom => 1 / TH end.

Ltac sm := apply (small_128 prec Hp8); lia.

Let K3 : (3 <= k)%Z.
Proof. destruct (Z.le_gt_cases 3 k) as [H|H]; [exact H|exfalso]. assert (bpow radix2 (k - 3) < bpow radix2 (3 - k)) by (apply bpow_lt; lia). lra. Qed.

Let TP : 0 < TH.
Proof. pose proof (bpow_gt_0 radix2 (- k)). lra. Qed.

Let BP : 0 < B.
Proof. pose proof (bpow_gt_0 radix2 (3 - k)). lra. Qed.

Lemma val_one : val 0 one 1.
Proof. exact (val_ofZ_pow 0 ltac:(lia)). Qed.

Lemma val_two : val 0 two 2.
Proof. exact (val_ofZ_pow 1 ltac:(lia)). Qed.

Let R1 : rng 0 0 1.
Proof. apply rng_pos. change (bpow radix2 0) with 1. lra. Qed.
Let R2 : rng 1 1 2.
Proof. apply rng_pos. change (bpow radix2 1) with 2. lra. Qed.
Let RT : rng (- k) k TH.
Proof. now apply rng_pos. Qed.
Let RB : rng (3 - k) (k - 3) B.
Proof. now apply rng_pos. Qed.

Lemma macX_rng : rng (- (2 * k)) (2 * k) macX /\ 0 < macX.
Proof.
  unfold macX. destruct (e_mac E).
  - split; [|apply Rdiv_lt_0_compat; nra]. eapply rng_mono; [exact (rng_div _ _ _ _ _ _ R1 (rng_mul _ _ _ _ _ _ RT RT))|lia|lia].
  - split; [|apply Rdiv_lt_0_compat; lra]. eapply rng_mono; [exact (rng_div _ _ _ _ _ _ R1 RT)|lia|lia].
Qed.

Lemma mac_value_ok : exists mv, mac_value_of O E theta = Ok mv /\ val 2 mv macX.
Proof.
  assert (V : val 2 (match e_mac E with Bh => fdiv O one (fmul O theta theta) | BhGeom => fdiv O one theta end) macX).
  { unfold macX. destruct (e_mac E).
    - pose proof (rng_mul _ _ _ _ _ _ RT RT) as RR.
      assert (V2 : val 1 (fmul O theta theta) (TH * TH)).
      { apply (val_mul prec emax Hprec Hemax fused Hp8 0 0); [now apply val_self|now apply val_self|sm|]. eapply (rng_okr emax); [exact RR|lia|lia]. }
      apply (val_div prec emax Hprec Hemax fused Hp8 0 1); [exact val_one|exact V2|nra|sm|]. eapply (rng_okr emax); [exact (rng_div _ _ _ _ _ _ R1 RR)|lia|lia].
    - apply (val_mono prec emax Hp8) with 1%nat; [|lia]. apply (val_div prec emax Hprec Hemax fused Hp8 0 0); [exact val_one|now apply val_self|lra|sm|].
      eapply (rng_okr emax); [exact (rng_div _ _ _ _ _ _ R1 RT)|lia|lia]. }
  eexists. split; [|exact V]. unfold mac_value_of.
  assert (NL : forall x : bf, is_finite x = true -> 0 < B2R x -> negb (ffin O x) || fle O x zero = false).
  { intros x F H. cbn [ffin fle Bops]. rewrite F. cbn [negb orb]. rewrite Bleb_correct by (auto; apply (ofZ_0 prec emax Hprec Hemax fused)). rewrite (B2R_zero prec emax Hprec Hemax fused). now apply Rle_bool_false. }
  rewrite (NL theta Hth TP). cbv zeta. destruct V as [FV (f & EV & Hf)]. rewrite NL; [reflexivity|exact FV|]. rewrite EV.
  apply Rmult_lt_0_compat; [apply macX_rng|]. pose proof (g_pos prec Hp8 2). assert (0 < / g ^ 2) by (now apply Rinv_0_lt_compat). lra.
Qed.

Variable mv : bf.
Hypothesis Hmv : val 2 mv macX.

(** ** Padding *)

Lemma dim_23 : dim c = 2%nat \/ dim c = 3%nat.
Proof. destruct c; auto. Qed.

Lemma sqrt_dim : exists r, val 1 (fsqrt O (fofZ O (Z.of_nat (dim c)))) r /\ 1 <= r <= 2 /\ rng 0 1 r.
Proof.
  assert (V : val 0 (fofZ O (Z.of_nat (dim c))) (INR (dim c))).
  { destruct dim_23 as [->| ->].
    - exact val_two.
    - destruct (ofZ_exact prec emax Hprec Hemax fused Hp2 3%Z) as [A F].
      + change 8%Z with (2 ^ 3)%Z. assert (2 ^ 3 <= 2 ^ prec)%Z by (apply Z.pow_le_mono_r; lia). cbn in *. lia.
      + split; [exact F|]. change (Z.of_nat 3) with 3%Z. rewrite A. replace (INR 3) with 3 by (cbn; lra). apply (near_refl prec Hp8). }
  assert (D : 1 <= INR (dim c) <= 4) by (destruct dim_23 as [->| ->]; cbn; lra).
  exists (sqrt (INR (dim c))). split.
  - apply (val_sqrt prec emax Hprec Hemax fused Hp8 0); [exact V|lra|sm|]. eapply (rng_okr emax 0 2); [apply rng_pos; exact D|lia|lia].
  - assert (S : 1 <= sqrt (INR (dim c)) <= 2).
    { split; [rewrite <- sqrt_1; apply sqrt_le_1_alt; lra|]. rewrite <- (sqrt_square 2) by lra. apply sqrt_le_1_alt. lra. }
    split; [exact S|]. apply rng_pos. exact S.
Qed.

Lemma g_9 : g ^ 9 <= 27 / 26.
Proof.
  apply (g_le prec Hp8); [lra|]. pose proof (u_small prec Hp8). replace (INR 9) with 9 by (cbn; lra). lra.
Qed.

Lemma pad_ok : let p := pad_coord O E box mv in is_finite p = true /\ 26 / 27 * B <= B2R p <= bpow radix2 k.
Proof.
  cbv zeta. destruct sqrt_dim as (r & Vr & Br & Rr). destruct macX_rng as [RX PX].
  (* the distance at which the root node is accepted *)
  assert (V : exists Y X, val 8 (fadd O (fdiv O box (fmul O match e_mac E with Bh => fsqrt O (fdiv O one mv) | BhGeom => fdiv O one mv end (fsqrt O (fofZ O (Z.of_nat (dim c))))))
    match e_mac E with Bh => fmul O box (fdiv O one two) | BhGeom => box end) (X + Y) /\ B / 2 <= Y <= B /\ 0 <= X <= bpow radix2 (k - 3)).
  { assert (VT : val 3 (match e_mac E with Bh => fsqrt O (fdiv O one mv) | BhGeom => fdiv O one mv end) TH).
    { assert (V1 : val 3 (fdiv O one mv) (1 / macX)).
      { apply (val_div prec emax Hprec Hemax fused Hp8 0 2); [exact val_one|exact Hmv|lra|sm|]. eapply (rng_okr emax); [exact (rng_div _ _ _ _ _ _ R1 RX)|lia|lia]. }
      unfold macX in V1. destruct (e_mac E).
      - replace (1 / (1 / (TH * TH))) with (TH * TH) in V1 by (field; lra). rewrite <- (sqrt_square TH) by lra.
        apply (val_sqrt prec emax Hprec Hemax fused Hp8 2); [apply (val_mono prec emax Hp8) with 3%nat; [exact V1|lia]|nra|sm|].
        eapply (rng_okr emax); [exact (rng_mul _ _ _ _ _ _ RT RT)|lia|lia].
      - replace (1 / (1 / TH)) with TH in V1 by (field; lra). exact V1. }
    assert (VM : val 5 (fmul O match e_mac E with Bh => fsqrt O (fdiv O one mv) | BhGeom => fdiv O one mv end (fsqrt O (fofZ O (Z.of_nat (dim c))))) (TH * r)).
    { apply (val_mul prec emax Hprec Hemax fused Hp8 3 1); [exact VT|exact Vr|sm|]. eapply (rng_okr emax); [exact (rng_mul _ _ _ _ _ _ RT Rr)|lia|lia]. }
    assert (VD : val 6 (fdiv O box (fmul O match e_mac E with Bh => fsqrt O (fdiv O one mv) | BhGeom => fdiv O one mv end (fsqrt O (fofZ O (Z.of_nat (dim c)))))) (B / (TH * r))).
    { apply (val_div prec emax Hprec Hemax fused Hp8 0 5); [now apply val_self|exact VM|nra|sm|].
      eapply (rng_okr emax); [exact (rng_div _ _ _ _ _ _ RB (rng_mul _ _ _ _ _ _ RT Rr))|lia|lia]. }
    assert (RX' : 0 <= B / (TH * r) <= bpow radix2 (k - 3)).
    { split; [apply Rmult_le_pos; [lra|left; apply Rinv_0_lt_compat; nra]|].
      apply Rmult_le_reg_r with (TH * r); [nra|]. unfold Rdiv. rewrite Rmult_assoc, Rinv_l by nra. pose proof (bpow_gt_0 radix2 (k - 3)) as PK3.
      rewrite Rmult_1_r. apply Rle_trans with (TH * bpow radix2 (k - 3)); [exact Hratio|]. nra. }
    assert (VY : exists Y, val 6 (match e_mac E with Bh => fmul O box (fdiv O one two) | BhGeom => box end) Y /\ B / 2 <= Y <= B).
    { destruct (e_mac E).
      - exists (B * (1 / 2)). split; [|lra].
        assert (VH : val 1 (fdiv O one two) (1 / 2)).
        { apply (val_div prec emax Hprec Hemax fused Hp8 0 0); [exact val_one|exact val_two|lra|sm|]. eapply (rng_okr emax); [exact (rng_div _ _ _ _ _ _ R1 R2)|lia|lia]. }
        apply (val_mono prec emax Hp8) with 2%nat; [|lia]. apply (val_mul prec emax Hprec Hemax fused Hp8 0 1); [now apply val_self|exact VH|sm|].
        eapply (rng_okr emax); [exact (rng_mul _ _ _ _ _ _ RB (rng_div _ _ _ _ _ _ R1 R2))|lia|lia].
      - exists B. split; [now apply val_self|]. lra. }
    destruct VY as (Y & VY & BY). exists Y, (B / (TH * r)). split; [|split; [exact BY|exact RX']].
    apply (val_mono prec emax Hp8) with 7%nat; [|lia]. apply val_add; auto; [lra|lra|sm|].
    eapply (rng_okr emax (2 - k) (k - 2)); [|lia|lia]. apply rng_pos.
    replace (2 - k)%Z with ((3 - k) + -1)%Z by lia. replace (k - 2)%Z with ((k - 3) + 1)%Z by lia. rewrite !bpow_plus. change (bpow radix2 1) with 2. change (bpow radix2 (-1)) with (/ 2). lra. }
  destruct V as (Y & X & V & BY & BX).
  assert (VP : val 9 (pad_coord O E box mv) ((X + Y) * 2)).
  { assert (VV : val 9 (fmul O (fadd O (fdiv O box (fmul O match e_mac E with Bh => fsqrt O (fdiv O one mv) | BhGeom => fdiv O one mv end (fsqrt O (fofZ O (Z.of_nat (dim c))))))
      match e_mac E with Bh => fmul O box (fdiv O one two) | BhGeom => box end) two) ((X + Y) * 2)).
    { apply (val_mul prec emax Hprec Hemax fused Hp8 8 0); [exact V|exact val_two|sm|].
      eapply (rng_okr emax (3 - k) (k - 1)); [|lia|lia]. apply rng_pos. replace (k - 1)%Z with ((k - 3) + 2)%Z by lia. rewrite !bpow_plus. change (bpow radix2 2) with 4. lra. }
    unfold pad_coord. cbv zeta. destruct (e_mac E); exact VV. }
  destruct VP as [F (f & EQ & Hf)]. split; [exact F|]. rewrite EQ. pose proof g_9 as G9. pose proof (g_pow1 prec Hp2 9) as G1.
  assert (/ (27 / 26) <= / g ^ 9) by (apply Rinv_le_contravar; lra). replace (/ (27 / 26)) with (26 / 27) in * by (field; lra).
  replace k with ((k - 3) + 3)%Z at 1 by lia. rewrite bpow_plus. change (bpow radix2 3) with 8. split; nra.
Qed.

(** ** Acceptance *)

Variable a : node (props bf).
Notation lev := (n_level a).
Hypothesis Hlev : (lev <= cbitsc c)%N.
(** The node is not too small. *)
Hypothesis Hsize : TH * bpow radix2 (Z.of_N lev) * bpow radix2 (3 - k) <= B.
Hypothesis Hmac : match e_mac E with
  | Bh => exists d2, p_mac (n_props a) = DBh d2 /\ d2 = fmul O (get_node_dim O lev box) (get_node_dim O lev box)
  | BhGeom => exists dl, p_mac (n_props a) = DGeom (get_node_dim O lev box) dl /\ bnd dl (k + 4) /\ 0 <= B2R dl
  end.

Notation S := (B / bpow radix2 (Z.of_N lev)).

Lemma lev31 : (0 <= Z.of_N lev <= 31)%Z.
Proof. pose proof (cb_31 E). lia. Qed.

Lemma S_facts : bpow radix2 (3 - 2 * k) <= S <= bpow radix2 (k - 3) /\ bpow radix2 (3 - k) <= S / TH <= bpow radix2 (k - 3).
Proof.
  pose proof lev31 as L31. set (w := bpow radix2 (Z.of_N lev)) in *. assert (W : 1 <= w) by (change 1 with (bpow radix2 0); apply bpow_le; lia).
  assert (SL : TH * bpow radix2 (3 - k) <= S).
  { apply Rmult_le_reg_r with w; [lra|]. unfold Rdiv. rewrite (Rmult_assoc B), Rinv_l by lra. lra. }
  assert (SU : S <= B). { apply Rmult_le_reg_r with w; [lra|]. unfold Rdiv. rewrite (Rmult_assoc B), Rinv_l by lra. nra. }
  pose proof (bpow_gt_0 radix2 (3 - k)) as P3. assert (PS : 0 < S) by nra. split.
  - split; [|eapply Rle_trans; [exact SU|apply Hbox]]. replace (3 - 2 * k)%Z with (- k + (3 - k))%Z by lia. rewrite bpow_plus. eapply Rle_trans; [|exact SL]. apply Rmult_le_compat_r; lra.
  - assert (IT : 0 < / TH) by (now apply Rinv_0_lt_compat). assert (DV : forall x, x / TH * TH = x) by (intros x; field; lra).
    split; (apply Rmult_le_reg_r with TH; [exact TP|]); rewrite DV; [rewrite Rmult_comm; exact SL|]. eapply Rle_trans; [exact SU|]. rewrite Rmult_comm. exact Hratio.
Qed.

Lemma dim_val : val 1 (get_node_dim O lev box) S.
Proof.
  pose proof lev31 as L31. unfold get_node_dim. rewrite pow2_Z. destruct S_facts as [SF _].
  apply (val_div prec emax Hprec Hemax fused Hp8 0 0); [now apply val_self|apply val_ofZ_pow; lia|pose proof (bpow_gt_0 radix2 (Z.of_N lev)); lra|sm|].
  eapply (rng_okr emax); [apply rng_pos; exact SF|lia|lia].
Qed.

(** The left-hand side of the criterion. *)
Definition reach : R := S / TH + match p_mac (n_props a) with DBh _ => 0 | DGeom _ dl => B2R dl end.

Lemma lh_ok : let lh := mac_lh O (n_props a) mv in is_finite lh = true /\ bpow radix2 (4 - 2 * k) <= B2R lh /\ near 11 (B2R lh) (reach * reach).
Proof.
  cbv zeta. destruct S_facts as [SF SF2]. pose proof dim_val as VS. pose proof (rng_pos _ _ _ SF) as RS. pose proof macX_rng as [RX PX].
  assert (PS : 0 < S) by (pose proof (bpow_gt_0 radix2 (3 - 2 * k)); lra).
  assert (HALF : forall d x X, (d <= 128)%nat -> near d x X -> 0 < X -> X / 2 <= x).
  { intros d x X Hd (f & -> & Hf) HX. pose proof (small_128 prec Hp8 d Hd) as SD. unfold small in SD. pose proof (g_pow1 prec Hp2 d). assert (/ 2 <= / g ^ d) by (apply Rinv_le_contravar; lra). nra. }
  assert (DBL : forall d x X, (d <= 128)%nat -> near d x X -> 0 < X -> x <= 2 * X).
  { intros d x X Hd (f & -> & Hf) HX. pose proof (small_128 prec Hp8 d Hd) as SD. unfold small in SD. nra. }
  unfold mac_lh, reach. pose proof Hmac as HM. pose proof Hmv as HV. unfold macX in HV, RX, PX. destruct (e_mac E).
  - destruct HM as (d2 & -> & ->). set (s := get_node_dim O lev box) in *. pose proof (rng_mul _ _ _ _ _ _ RS RS) as RSS.
    assert (V2 : val 3 (fmul O s s) (S * S)) by (apply (val_mul prec emax Hprec Hemax fused Hp8 1 1); [exact VS|exact VS|sm|eapply (rng_okr emax); [exact RSS|lia|lia]]).
    assert (EQ : S * S * (1 / (TH * TH)) = S / TH * (S / TH)) by (generalize S; intros x; field; lra).
    assert (RR : bpow radix2 (6 - 2 * k) <= S / TH * (S / TH) <= bpow radix2 (2 * k - 6)).
    { replace (6 - 2 * k)%Z with ((3 - k) + (3 - k))%Z by lia. replace (2 * k - 6)%Z with ((k - 3) + (k - 3))%Z by lia. rewrite !bpow_plus. pose proof (bpow_gt_0 radix2 (3 - k)). split; apply Rmult_le_compat; lra. }
    assert (V3 : val 6 (fmul O (fmul O s s) mv) (S * S * (1 / (TH * TH)))).
    { apply (val_mul prec emax Hprec Hemax fused Hp8 3 2); [exact V2|exact HV|sm|]. rewrite EQ. eapply (rng_okr emax); [apply rng_pos; exact RR|lia|lia]. }
    destruct V3 as [F3 N3]. split; [exact F3|]. rewrite EQ in N3. pose proof (bpow_gt_0 radix2 (6 - 2 * k)).
    split; [|rewrite Rplus_0_r; apply (near_mono prec Hp8) with 6%nat; [exact N3|lia]].
    eapply Rle_trans; [|apply (HALF 6%nat _ _ ltac:(lia) N3); lra]. replace (6 - 2 * k)%Z with ((4 - 2 * k) + 2)%Z in * by lia. rewrite bpow_plus in *. change (bpow radix2 2) with 4 in *. lra.
  - destruct HM as (dl & -> & [Fd Bd] & Pd). set (s := get_node_dim O lev box) in *.
    assert (NM : near 3 (B2R s * B2R mv) (S / TH)).
    { replace (S / TH) with (S * (1 / TH)) by (generalize S; intros x; field; lra). apply (near_mul prec Hp8 1 2); [apply VS|apply HV]. }
    assert (P3 : 0 < S / TH) by (pose proof (bpow_gt_0 radix2 (3 - k)); lra).
    pose proof (HALF 3%nat _ _ ltac:(lia) NM P3) as LO. pose proof (DBL 3%nat _ _ ltac:(lia) NM P3) as UP. rewrite Rabs_right in Bd by lra.
    assert (L1 : bpow radix2 (2 - k) <= B2R s * B2R mv). { eapply Rle_trans; [|exact LO]. replace (3 - k)%Z with ((2 - k) + 1)%Z in SF2 by lia. rewrite bpow_plus in SF2. change (bpow radix2 1) with 2 in SF2. lra. }
    assert (U1 : B2R s * B2R mv <= bpow radix2 (k - 2)). { eapply Rle_trans; [exact UP|]. replace (k - 2)%Z with ((k - 3) + 1)%Z by lia. rewrite bpow_plus. change (bpow radix2 1) with 2. lra. }
    set (m := B2R s * B2R mv) in *. pose proof (bpow_gt_0 radix2 (2 - k)) as PK.
    assert (FMT : forall j, (3 - emax - prec <= j)%Z -> generic_format radix2 fexp (bpow radix2 j)) by (intros j Hj; now apply (format_pow prec emax Hprec Hp2)).
    assert (RL : forall y j, (3 - emax - prec <= j)%Z -> bpow radix2 j <= y -> bpow radix2 j <= rnd y) by (intros y j Hj H; apply round_ge_generic; auto with typeclass_instances).
    assert (RU : forall y j, (3 - emax - prec <= j)%Z -> y <= bpow radix2 j -> rnd y <= bpow radix2 j) by (intros y j Hj H; apply round_le_generic; auto with typeclass_instances).
    assert (SUM : forall m', bpow radix2 (2 - k) <= m' <= bpow radix2 (k - 2) -> bpow radix2 (2 - k) <= rnd (m' + B2R dl) <= bpow radix2 (k + 5)).
    { intros m' Hm. split; [apply RL; [lia|lra]|]. apply RU; [lia|]. replace (k + 5)%Z with ((k + 4) + 1)%Z by lia. rewrite bpow_plus. change (bpow radix2 1) with 2.
      assert (bpow radix2 (k - 2) <= bpow radix2 (k + 4)) by (apply bpow_le; lia). lra. }
    assert (FV : bpow radix2 (2 - k) <= fma_val prec emax fused (B2R s) (B2R mv) (B2R dl) <= bpow radix2 (k + 5)).
    { unfold fma_val. fold m. destruct fused; apply SUM; [split; lra|]. split; [apply RL; [lia|exact L1]|apply RU; [lia|exact U1]]. }
    assert (NR : forall d y Y, (d <= 128)%nat -> near d y Y -> bpow radix2 (2 - k) <= y -> near (Datatypes.S d) (rnd y) Y).
    { intros d y Y Hd NY LY. replace (Datatypes.S d) with (1 + d)%nat by lia. apply (near_trans prec Hp8) with y; [|exact NY]. apply (near_rnd prec emax Hprec Hp8). right. rewrite Rabs_right by lra.
      eapply Rle_trans; [|exact LY]. apply bpow_le. lia. }
    assert (NF : near 5 (fma_val prec emax fused (B2R s) (B2R mv) (B2R dl)) (S / TH + B2R dl)).
    { assert (NS : forall d m', near d m' (S / TH) -> near d (m' + B2R dl) (S / TH + B2R dl)) by (intros d m' Nm; apply (near_sum prec Hp8); [exact Nm|apply (near_refl prec Hp8)|lra|lra]).
      unfold fma_val. fold m. destruct fused.
      - apply (near_mono prec Hp8) with 4%nat; [|lia]. apply NR; [lia|now apply NS|lra].
      - apply NR; [lia|apply NS; apply NR; [lia|exact NM|exact L1]|]. apply Rle_trans with (rnd m); [apply RL; [lia|exact L1]|lra]. }
    assert (FT : is_finite (ffma O s mv dl) = true).
    { apply (fma_finite prec emax Hprec Hemax fused); [apply VS|apply HV|exact Fd| |].
      - apply Rle_lt_trans with (bpow radix2 (k - 2)); [|apply bpow_lt; lia]. apply (rnd_bnd prec emax Hprec Hp2); [lia|]. fold m. rewrite Rabs_right by lra. exact U1.
      - apply Rle_lt_trans with (bpow radix2 (k + 5)); [|apply bpow_lt; lia]. rewrite Rabs_right by lra. apply FV. }
    destruct (fma_fin prec emax Hprec Hemax fused _ _ _ FT) as (_ & _ & _ & VT). set (tmp := ffma O s mv dl) in *. rewrite <- VT in FV, NF.
    assert (BT : bnd tmp (k + 5)) by (split; [exact FT|]; rewrite Rabs_right by lra; apply FV).
    assert (FL : is_finite (fmul O tmp tmp) = true) by (apply (bnd_mul prec emax Hprec Hemax fused Hp2 tmp tmp (k + 5) (k + 5) (2 * k + 10)); auto; lia).
    split; [exact FL|]. cbn [fmul Bops] in *. destruct (mult_fin prec emax Hprec Hemax _ _ FL) as (_ & _ & ->).
    assert (LT : bpow radix2 (4 - 2 * k) <= B2R tmp * B2R tmp).
    { replace (4 - 2 * k)%Z with ((2 - k) + (2 - k))%Z by lia. rewrite bpow_plus. apply Rmult_le_compat; lra. }
    split; [apply RL; [lia|exact LT]|]. apply (near_trans prec Hp8 1 10) with (B2R tmp * B2R tmp); [|exact (near_mul prec Hp8 5 5 _ _ _ _ NF NF)].
    apply (near_rnd prec emax Hprec Hp8). right. pose proof (bpow_gt_0 radix2 (4 - 2 * k)). rewrite Rabs_right by lra. eapply Rle_trans; [|exact LT]. apply bpow_le. lia.
Qed.

(** ** Distances *)

Variable simd : option nat.

Lemma mac_d2_bnd : forall ds j, Forall (fun d => bnd d j) ds -> (length ds <= 3)%nat -> (3 - emax - prec <= 2 * j)%Z -> (2 * j + 3 < emax)%Z -> bnd (mac_dist2 O c simd ds) (2 * j + 3).
Proof.
  intros ds j HB HL Hj1 Hj2.
  assert (FO : forall l v b, Forall (fun d => bnd d j) l -> bnd v b -> (2 * j <= b)%Z -> (b + Z.of_nat (length l) < emax)%Z -> bnd (fold_left (fun s d => ffma O d d s) l v) (b + Z.of_nat (length l))).
  { induction l as [|d l IH]; intros v b Hl Hv H1 H2; cbn [fold_left length]; [now rewrite Z.add_0_r|]. inversion Hl as [|? ? Hd Hl']; subst. cbn [length] in H2.
    replace (b + Z.of_nat (Datatypes.S (length l)))%Z with ((b + 1) + Z.of_nat (length l))%Z by lia. apply IH; [exact Hl'| |lia|lia].
    apply (bnd_fma prec emax Hprec Hemax fused Hp2 d d v j j b); auto; lia. }
  assert (Z0 : bnd zero (2 * j)).
  { destruct (ofZ_0 prec emax Hprec Hemax fused) as [A B']. split; [exact B'|]. rewrite A, Rabs_R0. apply bpow_ge_0. }
  assert (SC : bnd (fold_left (fun s d => ffma O d d s) ds zero) (2 * j + 3)).
  { eapply bnd_mono; [apply (FO ds zero (2 * j)%Z HB Z0); lia|lia]. }
  unfold mac_dist2. destruct (negb _); [exact SC|]. destruct ds as [|dx [|dy [|dz [|? ?]]]]; try exact SC. clear SC.
  inversion HB as [|? ? Bx HB1]; subst. inversion HB1 as [|? ? By HB2]; subst. inversion HB2 as [|? ? Bz _]; subst.
  assert (M : forall d, bnd d j -> bnd (fmul O d d) (2 * j)) by (intros d Hd; apply (bnd_mul prec emax Hprec Hemax fused Hp2 d d j j); auto; lia).
  eapply bnd_mono; [apply (bnd_add prec emax Hprec Hemax fused Hp2 _ _ (2 * j + 1))|lia]; [apply (bnd_add prec emax Hprec Hemax fused Hp2); auto; lia|eapply bnd_mono; [apply M; exact Bz|lia]|lia].
Qed.

Variables (com x : list bf).
Hypothesis Hcom : cok prec emax k (dim c) com.
Hypothesis Hx : cok prec emax k (dim c) x.
Notation sq0 := (sqd prec emax Hprec Hemax fused (dim c) 0 com x).

Lemma d2_near : bpow radix2 (- (2 * k)) <= sq0 -> near 10 (B2R (mac_dist2 O c simd (diffs O com x))) sq0.
Proof.
  intros HD. destruct (ofZ_0 prec emax Hprec Hemax fused) as [Z1 Z2].
  assert (He2 : 0 <= 0 <= bpow radix2 (2 * k)) by (pose proof (bpow_gt_0 radix2 (2 * k)); lra).
  assert (Vz : val 1 zero 0) by (split; [exact Z2|]; rewrite Z1; apply (near_refl prec Hp8)).
  destruct (mac_dist2_ok prec emax Hprec Hemax fused Hp8 k ltac:(lia) Hk5 (dim c) (dim3 c) 0 zero He2 Vz c simd com x Hcom Hx HD) as [F N].
  cbn [fadd Bops] in F, N. destruct (plus_fin prec emax Hprec Hemax _ _ F) as (_ & _ & V). rewrite V, (B2R_zero prec emax Hprec Hemax fused), Rplus_0_r in N.
  rewrite round_generic in N; [exact N|auto with typeclass_instances|]. apply generic_format_B2R.
Qed.

(** The particle [x] passes the test. *)
Lemma accept_far : fle O (mac_dist2 O c simd (diffs O com x)) (mac_lh O (n_props a) mv) = false ->
  bpow radix2 (- (2 * k)) <= sq0 /\ reach <= g ^ 11 * sqrt sq0.
Proof.
  intros HF. destruct lh_ok as (FL & LL & NL). set (lh := mac_lh O (n_props a) mv) in *.
  pose proof (diffs_bnd prec emax Hprec Hemax fused Hp8 k ltac:(lia) Hk5 (dim c) (dim3 c) com x Hcom Hx) as DB.
  pose proof (diffs_length prec emax Hprec Hemax fused k (dim c) (dim3 c) com x Hcom Hx) as DL. pose proof (dim3 c) as D3.
  assert (FD : is_finite (mac_dist2 O c simd (diffs O com x)) = true) by (apply (mac_d2_bnd _ (k + 1)%Z DB); lia).
  cbn [fle Bops] in HF. rewrite Bleb_correct in HF by assumption.
  assert (LT : B2R lh < B2R (mac_dist2 O c simd (diffs O com x))) by (destruct (Rle_bool_spec (B2R (mac_dist2 O c simd (diffs O com x))) (B2R lh)); [discriminate|assumption]).
  assert (FAR : bpow radix2 (- (2 * k)) <= sq0).
  { destruct (Rle_lt_dec (bpow radix2 (- (2 * k))) sq0) as [L|L]; [exact L|exfalso].
    assert (DS : Forall (fun d => bnd d (- k)) (diffs O com x)).
    { apply Forall_forall. intros d Hd. apply In_nth with (d := zero) in Hd as (j & Hj & <-). rewrite DL in Hj.
      destruct (diffs_val prec emax Hprec Hemax fused Hp8 k ltac:(lia) Hk5 (dim c) (dim3 c) com x j Hcom Hx Hj) as [[F _] _]. split; [exact F|].
      rewrite (diffs_nth prec emax Hprec Hemax fused k (dim c) (dim3 c) com x j Hcom Hx Hj) in *.
      destruct (cok_nth prec emax Hprec Hemax fused k (dim c) com j Hcom) as [F2 _]. destruct (cok_nth prec emax Hprec Hemax fused k (dim c) x j Hx) as [F1 _].
      pose proof (del_le prec emax Hprec Hemax fused k (dim c) com x j Hcom Hx) as DLE.
      pose proof (Bminus_correct prec emax Hprec Hemax mode_NE _ _ F2 F1) as C. change (round_mode mode_NE) with ZnearestE in C.
      unfold del in DLE. rewrite Rlt_bool_true in C.
      2:{ apply Rle_lt_trans with (bpow radix2 (k + 1)); [|apply bpow_lt; lia]. apply (rnd_bnd prec emax Hprec Hp2); [lia|exact DLE]. }
      destruct C as (V & _). cbn [fsub Bops]. rewrite V. apply (rnd_bnd prec emax Hprec Hp2); [lia|].
      assert (TERM : del prec emax Hprec Hemax fused com x j * del prec emax Hprec Hemax fused com x j <= sq0).
      { unfold sqd. rewrite Rplus_0_r. clear - Hj. assert (IN : In j (seq 0 (dim c))) by (apply in_seq; lia). revert IN. generalize (seq 0 (dim c)). intros l. induction l as [|i l IH]; intros IN; [destruct IN|].
        rewrite rsum_cons. assert (P : forall l', 0 <= rsum (fun j => del prec emax Hprec Hemax fused com x j * del prec emax Hprec Hemax fused com x j) l') by (intros; apply rsum_nonneg; intros; apply Rle_0_sqr).
        destruct IN as [->|IN]; [specialize (P l); lra|]. specialize (IH IN). pose proof (Rle_0_sqr (del prec emax Hprec Hemax fused com x i)) as Q. unfold Rsqr in Q. lra. }
      unfold del in TERM. set (dj := B2R (nth j com zero) - B2R (nth j x zero)) in *.
      apply Rabs_le_sq. rewrite <- bpow_plus. replace (- k + - k)%Z with (- (2 * k))%Z by lia. lra. }
    destruct (mac_d2_bnd _ (- k)%Z DS ltac:(lia) ltac:(lia) ltac:(lia)) as [_ UB].
    assert (bpow radix2 (2 * - k + 3) < bpow radix2 (4 - 2 * k)) by (apply bpow_lt; lia). apply Rabs_le_inv in UB. lra. }
  split; [exact FAR|]. pose proof (d2_near FAR) as ND. set (d2 := B2R (mac_dist2 O c simd (diffs O com x))) in *.
  assert (PQ : 0 <= sq0) by (pose proof (bpow_gt_0 radix2 (- (2 * k))); lra).
  destruct (near_bounds prec Hp8 _ _ _ NL) as [N1 _]. destruct (near_bounds prec Hp8 _ _ _ ND) as [_ N2].
  assert (RR : 0 <= reach * reach) by apply Rle_0_sqr. pose proof (bpow_gt_0 radix2 (4 - 2 * k)) as P4. rewrite (Rabs_right sq0) in N2 by lra. rewrite (Rabs_right (reach * reach)), (Rabs_right (B2R lh)) in N1 by lra.
  rewrite (Rabs_right d2) in N2 by lra. pose proof (g_pos prec Hp8 11) as G11.
  assert (QQ : reach * reach <= g ^ 22 * sq0).
  { apply Rle_trans with (g ^ 11 * (g ^ 10 * sq0)).
    - apply Rmult_le_reg_l with (/ g ^ 11); [now apply Rinv_0_lt_compat|]. rewrite <- (Rmult_assoc (/ g ^ 11) (g ^ 11)), Rinv_l, Rmult_1_l by lra. lra.
    - rewrite <- Rmult_assoc, <- pow_add. apply Rmult_le_compat_r; [exact PQ|]. apply (g_mono prec Hp2). lia. }
  apply Rle_trans with (Rabs reach); [apply Rle_abs|]. apply Rabs_le_sq'; [apply Rmult_le_pos; [lra|apply sqrt_pos]|].
  replace (g ^ 11 * sqrt sq0 * (g ^ 11 * sqrt sq0)) with (g ^ 11 * g ^ 11 * (sqrt sq0 * sqrt sq0)) by ring. rewrite sqrt_sqrt by exact PQ. rewrite <- pow_add. exact QQ.
Qed.

End IEEE.
