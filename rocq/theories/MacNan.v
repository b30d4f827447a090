(** The acceptance criterion never compares a NaN: in floating-point arithmetic the tests [d2 <= lh] and [lh < d2] are opposite for all nodes and particles of a tree. *)
From Coq Require Import List Arith ZArith NArith Reals Bool Lia Lra Permutation.
From Flocq Require Import Core BinarySingleNaN.
From Verif Require Import Base Config Morton Build FOps FOpsProofs Disc NodeProps Tree TreeInv TreeProofs Kernels TravProofs KernLoops Force Gpu GpuKernel RoundNode RoundExact Coincide.
Import ListNotations.
Local Open Scope nat_scope.

Section M.

Variables prec emax : Z.
Context (Hprec : Prec_gt_0 prec).
Context (Hemax : Prec_lt_emax prec emax).
Variable fused : bool.
Notation bf := (binary_float prec emax).
Notation O := (Bops prec emax Hprec Hemax fused).
Notation finite x := (is_finite x = true).

Definition num (x : bf) : Prop := is_nan x = false.
(** Infinite or a finite value that is not negative. *)
Definition pos (x : bf) : Prop := x = B754_infinity false \/ finite x /\ (0 <= B2R x)%R.

Lemma pos_num : forall x, pos x -> num x.
Proof. intros x [->|[F _]]; [reflexivity|]. now destruct x. Qed.

Lemma over_inf : forall (x : bf) s, B2SF x = binary_overflow prec emax mode_NE s -> x = B754_infinity s.
Proof. intros x s H. destruct x; cbn in H; try discriminate. now injection H as ->. Qed.

Lemma fin_num : forall x : bf, finite x -> num x.
Proof. now intros []. Qed.

Local Notation fexp := (FLT_exp (3 - emax - prec) prec).
Local Notation rnd := (round radix2 fexp (round_mode mode_NE)).

Local Instance vfexp : Valid_exp fexp.
Proof. exact (@FLT_exp_valid (3 - emax - prec) prec Hprec). Qed.

Lemma rnd_pos : forall x, (0 <= x)%R -> (0 <= rnd x)%R.
Proof. intros x H. apply round_ge_generic; [apply vfexp|apply valid_rnd_N|apply generic_format_0|exact H]. Qed.

Lemma sub_num : forall x y : bf, finite x -> finite y -> num (fsub O x y).
Proof.
  intros x y Fx Fy. pose proof (Bminus_correct prec emax Hprec Hemax mode_NE x y Fx Fy) as C. destruct (Rlt_bool _ _).
  - apply fin_num. tauto.
  - destruct C as [C _]. apply over_inf in C. cbn [fsub Bops]. now rewrite C.
Qed.

Lemma mul_fin_num : forall x y : bf, finite x -> finite y -> num (fmul O x y).
Proof.
  intros x y Fx Fy. pose proof (Bmult_correct prec emax Hprec Hemax mode_NE x y) as C. destruct (Rlt_bool _ _).
  - apply fin_num. destruct C as (_ & C & _). cbn [fmul Bops]. now rewrite C, Fx, Fy.
  - apply over_inf in C. cbn [fmul Bops]. now rewrite C.
Qed.

Lemma plus_pos : forall x y : bf, pos x -> pos y -> pos (fadd O x y).
Proof.
  intros x y [->|[Fx Px]] [->|[Fy Py]].
  - now left.
  - left. now destruct y.
  - left. now destruct x.
  - pose proof (Bplus_correct prec emax Hprec Hemax mode_NE x y Fx Fy) as C. destruct (Rlt_bool _ _).
    + right. destruct C as (C1 & C2 & _). split; [exact C2|]. cbn [fadd Bops]. rewrite C1. apply rnd_pos. lra.
    + destruct C as [C S]. apply over_inf in C. left. cbn [fadd Bops]. rewrite C. f_equal.
      destruct (Bsign x) eqn:Sx; [|reflexivity]. exfalso.
      (* both are zero or the sign is wrong *)
      assert (Zx : B2R x = 0%R). { destruct x as [s|s| |s m e H]; try discriminate; [reflexivity|]. cbn in Sx. subst s. cbn in Px. exfalso. apply (Rlt_irrefl 0). eapply Rle_lt_trans; [exact Px|]. now apply F2R_lt_0. }
      assert (Zy : B2R y = 0%R). { symmetry in S. destruct y as [s|s| |s m e H]; try discriminate; [reflexivity|]. cbn in S. subst s. cbn in Py. exfalso. apply (Rlt_irrefl 0). eapply Rle_lt_trans; [exact Py|]. now apply F2R_lt_0. }
      destruct x as [s|s| |s m e H]; try discriminate. 2: { cbn in Zx. revert Zx. destruct s; cbn [cond_Zopp]; [apply Rlt_not_eq, F2R_lt_0; reflexivity|apply Rgt_not_eq, F2R_gt_0; reflexivity]. }
      destruct y as [s'|s'| |s' m e H]; try discriminate.
      cbn in C. destruct (Bool.eqb s s'); discriminate.
Qed.

Lemma sq_pos : forall x : bf, num x -> pos (fmul O x x).
Proof.
  intros x N. destruct (is_finite x) eqn:Fx.
  - pose proof (Bmult_correct prec emax Hprec Hemax mode_NE x x) as C. destruct (Rlt_bool _ _).
    + right. destruct C as (C1 & C2 & _). cbn [fmul Bops]. rewrite C1, C2, Fx. split; [reflexivity|]. apply rnd_pos. apply Rle_0_sqr.
    + apply over_inf in C. left. cbn [fmul Bops]. rewrite C. now rewrite xorb_nilpotent.
  - left. destruct x as [s|s| |s m e H]; try discriminate. now destruct s.
Qed.

Lemma fma_sq_pos : forall x z : bf, num x -> pos z -> pos (ffma O x x z).
Proof.
  intros x z N P. cbn [ffma Bops]. unfold b_fma. destruct fused eqn:Ef; [|apply (plus_pos (fmul O x x) z); [now apply sq_pos|exact P]].
  destruct (is_finite x) eqn:Fx.
  - destruct P as [->|[Fz Pz]].
    + left. destruct x; try discriminate; reflexivity.
    + pose proof (Bfma_correct prec emax Hprec Hemax mode_NE x x z Fx Fx Fz) as C. cbv zeta in C.
      assert (R0 : (0 <= B2R x * B2R x + B2R z)%R) by (pose proof (Rle_0_sqr (B2R x)) as Q; unfold Rsqr in Q; lra).
      destruct (Rlt_bool (Rabs _) _).
      * right. destruct C as (C1 & C2 & _). split; [exact C2|]. rewrite C1. now apply rnd_pos.
      * rewrite Rlt_bool_false in C by exact R0. apply over_inf in C. now left.
  - left. destruct x as [s|s| |s m e H]; try discriminate. destruct P as [->|[Fz _]]; [now destruct s|]. destruct z; try discriminate; now destruct s.
Qed.

Lemma fma_fin_num : forall x y z : bf, finite x -> finite y -> finite z -> num (ffma O x y z).
Proof.
  intros x y z Fx Fy Fz. cbn [ffma Bops]. unfold b_fma. destruct fused.
  - pose proof (Bfma_correct prec emax Hprec Hemax mode_NE x y z Fx Fy Fz) as C. cbv zeta in C. destruct (Rlt_bool (Rabs _) _); [apply fin_num; tauto|]. apply over_inf in C. now rewrite C.
  - pose proof (mul_fin_num x y Fx Fy) as N. cbn [fmul Bops] in N. revert N. generalize (Bmult mode_NE x y). intros w N. destruct (is_finite w) eqn:Fw.
    + pose proof (Bplus_correct prec emax Hprec Hemax mode_NE w z Fw Fz) as C. destruct (Rlt_bool _ _); [apply fin_num; tauto|]. destruct C as [C _]. apply over_inf in C. now rewrite C.
    + destruct w; try discriminate. destruct z; try discriminate; reflexivity.
Qed.

Lemma le_lt : forall x y : bf, num x -> num y -> fle O x y = negb (flt O y x).
Proof.
  intros x y Nx Ny. cbn [fle flt Bops]. unfold Bleb, Bltb, SpecFloat.SFleb, SpecFloat.SFltb.
  destruct x as [s|s| |s m e H], y as [s'|s'| |s' m' e' H']; try discriminate; cbn; try (destruct s; reflexivity); try (destruct s'; reflexivity); try (destruct s, s'; reflexivity).
  destruct s, s'; try reflexivity; rewrite (Z.compare_antisym e e'); destruct (e ?= e')%Z; cbn; try reflexivity; change (Pcompare m' m Eq) with (m' ?= m)%positive; change (Pcompare m m' Eq) with (m ?= m')%positive; rewrite (Pos.compare_antisym m m'); destruct (m ?= m')%positive; reflexivity.
Qed.

Lemma dist_pos : forall ds z, Forall num ds -> pos z -> pos (fold_left (fun s d => ffma O d d s) ds z).
Proof. induction ds as [|d ds IH]; intros z H P; cbn [fold_left]; [exact P|]. apply IH; [exact (Forall_inv_tail H)|]. apply fma_sq_pos; [exact (Forall_inv H)|exact P]. Qed.

Lemma zero_pos : pos (fofZ O 0%Z).
Proof. right. split; [reflexivity|]. cbn. lra. Qed.

Lemma mac_pos : forall c simd ds, Forall num ds -> pos (mac_dist2 O c simd ds).
Proof.
  intros c simd ds H. pose proof (dist_pos ds _ H zero_pos) as D. unfold mac_dist2. destruct (negb _); [exact D|]. destruct ds as [|x [|y [|z [|? ?]]]]; try exact D.
  pose proof (Forall_inv H). pose proof (Forall_inv_tail H) as H1. pose proof (Forall_inv H1). pose proof (Forall_inv (Forall_inv_tail H1)).
  repeat apply plus_pos; now apply sq_pos.
Qed.

Lemma diffs_num : forall x y, Forall (fun a : bf => finite a) x -> Forall (fun a : bf => finite a) y -> Forall num (diffs O x y).
Proof.
  intros x y Hx Hy. unfold diffs. apply Forall_map, Forall_forall. intros [a b] Hin. rewrite Forall_forall in Hx, Hy.
  apply sub_num; [exact (Hx _ (in_combine_l _ _ _ _ Hin))|exact (Hy _ (in_combine_r _ _ _ _ Hin))].
Qed.

Section T.

Variable E : env.
Notation c := (e_cfg E).
Variable t : @tree bf.
Hypothesis Ht : tree_inv O E t.

Lemma node_fin : forall a, In a (t_nodes t) -> Forall (fun x => finite x) (p_com (n_props a)) /\ finite (p_mass (n_props a)) /\
  match p_mac (n_props a) with DBh d => finite d | DGeom d e => finite d /\ finite e end.
Proof.
  intros a Ha. destruct (node_payload_gen O E t a Ht Ha) as [_ H]. unfold cnp, compute_node_properties in H.
  destruct (rd _ _); try discriminate. cbn [bind] in H. destruct (node_sums _ _ _ _ _ _ _ _) as [[m0 c0]| |]; try discriminate. cbn [bind] in H.
  destruct (get_node_centre _ _ _ _) as [geo| |]; try discriminate. cbn [bind] in H. cbv zeta in H.
  match type of H with context [forallb (ffin O) ?l] => set (com := l) in * end.
  destruct (forallb (ffin O) com) eqn:F1; [|discriminate]. cbn [negb] in H. destruct (ffin O m0) eqn:F2; [|discriminate]. cbn [negb] in H.
  assert (FC : Forall (fun x => finite x) com) by (apply Forall_forall; intros x Hx; rewrite forallb_forall in F1; exact (F1 x Hx)).
  destruct (e_mac E).
  - match type of H with context [if ?b then _ else _] => destruct b eqn:F3; [|discriminate] end. injection H as <-. cbn [p_com p_mass p_mac]. auto.
  - destruct (ffin O (get_node_dim O (n_level a) (t_box t))) eqn:F3; [|discriminate]. cbn [negb] in H.
    match type of H with context [if ?b then _ else _] => destruct b eqn:F4; [|discriminate] end. injection H as <-. cbn [p_com p_mass p_mac]. auto.
Qed.

Lemma lh_num : forall a theta mv, In a (t_nodes t) -> mac_value_of O E theta = Ok mv -> num (mac_lh O (n_props a) mv).
Proof.
  intros a theta mv Ha H. destruct (node_fin a Ha) as (_ & _ & N). assert (F : finite mv).
  { unfold mac_value_of in H. destruct (negb (ffin O theta) || _); [discriminate|]. cbv zeta in H. match type of H with context [negb (ffin O ?x)] => destruct (ffin O x) eqn:Fx; [|discriminate] end.
    cbn [negb orb] in H. match type of H with context [if ?b then _ else _] => destruct b; [discriminate|] end. injection H as <-. exact Fx. }
  unfold mac_lh. destruct (p_mac (n_props a)) as [d|d e].
  - now apply mul_fin_num.
  - destruct N as [N1 N2]. cbv zeta. apply pos_num, sq_pos. now apply fma_fin_num.
Qed.

Variable P : nat -> @prow bf.
Hypothesis HP : forall i, i < length (t_codes t) -> row (t_parts t) i (fst (P i) ++ [snd (P i)]).

Lemma criterion : forall simd a i theta mv, In a (t_nodes t) -> i < length (t_codes t) -> mac_value_of O E theta = Ok mv ->
  let d2 := mac_dist2 O c simd (diffs O (p_com (n_props a)) (fst (P i))) in
  let lh := mac_lh O (n_props a) mv in
  is_nan d2 = false /\ is_nan lh = false /\ fle O d2 lh = negb (flt O lh d2).
Proof.
  intros simd a i theta mv Ha Hi Hm d2 lh. destruct (node_fin a Ha) as (FC & _).
  destruct (nth_error (t_codes t) i) as [x|] eqn:Ex; [|apply nth_error_None in Ex; lia].
  pose proof (code_finite prec emax Hprec Hemax fused _ _ _ _ (row_code prec emax Hprec Hemax fused E t P Ht HP i x Ex)) as FP.
  assert (N1 : num d2) by (apply pos_num, mac_pos, diffs_num; assumption). assert (N2 : num lh) by (eapply lh_num; eassumption).
  split; [exact N1|]. split; [exact N2|]. now apply le_lt.
Qed.

(** The vote of the threads of a device on a node, and the scalar check of the CPU on the same particles. *)
Lemma votes : forall K a theta mv eps2 idxs, In a (t_nodes t) -> Forall (fun i => i < length (t_codes t) /\ ~ (n_begin a <= i < n_end a)) idxs -> mac_value_of O E theta = Ok mv ->
  exists lanes vs r, mapM (load_lane c (t_parts t) (t_codes t)) idxs = Ok lanes /\ mapM (lane_vote O c K mv a) lanes = Ok vs /\
    mac_loop O c None K (mac_lh O (n_props a) mv) eps2 (p_com (n_props a)) (map P idxs) (starts 1 (length idxs)) [] = Ok r /\
    (forallb (fun v => v) vs = true <-> r <> None).
Proof.
  intros K a theta mv eps2 idxs Ha Hi Hm.
  set (lh := mac_lh O (n_props a) mv). set (com := p_com (n_props a)).
  exists (map (fun i => mkLane i (nth i (t_codes t) 0%N) (P i)) idxs), (map (fun i => negb (fle O (lane_dist2 O com (P i)) lh)) idxs). eexists. split; [|split; [|split]].
  - rewrite (mapM_map _ (fun i => mkLane i (nth i (t_codes t) 0%N) (P i))); [reflexivity|]. intros i Hin. rewrite Forall_forall in Hi. destruct (Hi i Hin) as [Hl _].
    unfold load_lane. unfold rd at 1. rewrite (nth_error_nth' (t_codes t) 0%N Hl). cbn [bind]. rewrite (proj1 (particle_gen O E t _ _ i Ht (HP i Hl))). cbn [bind]. now rewrite <- surjective_pairing.
  - induction Hi as [|i idxs [Hl Ho] Hi IH]; [reflexivity|]. cbn [map mapM]. rewrite IH. unfold lane_vote. cbn [l_code l_p].
    destruct (lane_code_spec O E K t Ht a i _ Ha (nth_error_nth' (t_codes t) 0%N Hl)) as (s & -> & Hs). cbn [bind].
    assert (EQ : (s =? n_code a)%N = false) by (destruct (s =? n_code a)%N; [exfalso; apply Ho, Hs; reflexivity|reflexivity]). rewrite EQ. cbn [negb andb bind].
    destruct (criterion None a i theta mv Ha Hl Hm) as (_ & _ & C). unfold mac_dist2 in C. cbn [vectorised negb] in C. unfold lane_dist2. fold com lh in C |- *. rewrite C, negb_involutive. reflexivity.
  - unfold starts. replace (length idxs + 1 - 1) with (length idxs) by lia. rewrite Nat.div_1_r.
    pose proof (mac_loop_from O c None K I lh eps2 com (map P idxs) (length idxs) 0 []) as M. cbn [batch] in M. rewrite M by (rewrite map_length; lia). reflexivity.
  - cbn [app]. rewrite !Nat.mul_0_l, Nat.add_0_l, Nat.mul_1_r. assert (SL : slice (map P idxs) 0 (length idxs) = map P idxs) by (unfold slice; cbn [skipn]; rewrite Nat.sub_0_r; apply firstn_all2; now rewrite map_length).
    rewrite SL. unfold passes. assert (X : forallb (fun v => v) (map (fun i => negb (fle O (lane_dist2 O com (P i)) lh)) idxs) = negb (existsb (fun p => fle O (fst (mac_lane O c None K eps2 com p)) lh) (map P idxs))).
    { clear Hi SL. induction idxs as [|i idxs IH]; [reflexivity|]. cbn [map forallb existsb]. rewrite IH, negb_orb. reflexivity. }
    rewrite X. destruct (negb _); split; intros; congruence.
Qed.

End T.

End M.
