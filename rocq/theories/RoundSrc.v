(** Bounds of the particles and of the nodes of a tree in IEEE arithmetic. *)
From Coq Require Import List Arith ZArith NArith Reals Bool Lra Lia Psatz Permutation.
From Flocq Require Import Core BinarySingleNaN Relative Plus_error.
From Verif Require Import Base Config Morton Build TreeSpec BuildSpec BuildProofs BuildProps FOps FOpsProofs Disc DiscProofs NodeProps Tree TreeInv TreeProofs TreeSafe TreeProps RSum Kernels KernR
  BoxAccept Force ForceR Round RoundFin RoundNode RoundCtor RoundNear RoundKern RoundExact.
Import ListNotations.
Local Open Scope nat_scope.

Lemma row_fun : forall A (cols : list (list A)) i x y, row cols i x -> row cols i y -> x = y.
Proof.
  intros A cols i x y H. revert y. induction H as [|col a cols x Ha H IH]; intros y Hy; inversion Hy as [|? b ? z Hb Hz]; subst; [reflexivity|].
  f_equal; [congruence|now apply IH].
Qed.

Lemma row_split : forall {F} (O : fops F) E t x m i, tree_inv O E t -> row (t_parts t) i (x ++ [m]) ->
  length x = dim (e_cfg E) /\ row (firstn (dim (e_cfg E)) (t_parts t)) i x /\
  (exists mcol, nth_error (t_parts t) (dim (e_cfg E)) = Some mcol /\ nth_error mcol i = Some m) /\
  forall j col d, j < dim (e_cfg E) -> nth_error (t_parts t) j = Some col -> nth_error col i = Some (nth j x d).
Proof.
  intros F O E t x m i Ht HR. destruct (particle_gen O E t x m i Ht HR) as [_ Lx]. split; [exact Lx|].
  apply Forall2_app_inv_r in HR as (ca & cb & H1 & H2 & EQ). pose proof (Forall2_len _ _ _ H1) as L1.
  inversion H2 as [|mc m' ? ? Hm HN]; subst. inversion HN; subst.
  rewrite EQ, firstn_app, firstn_all2 by lia. replace (dim (e_cfg E) - length ca) with 0 by lia. rewrite firstn_O, app_nil_r. split; [exact H1|]. split.
  - exists mc. split; [|exact Hm]. rewrite nth_error_app2 by lia. now replace (dim (e_cfg E) - length ca) with 0 by lia.
  - intros j col d Hj Hc. rewrite nth_error_app1 in Hc by lia. clear - H1 Hc Hj Lx. rewrite <- Lx in Hj. clear Lx. revert j Hj Hc. induction H1 as [|col0 y ca x Hy H IH]; intros j Hj Hc; [cbn in Hj; lia|].
    destruct j as [|j]; cbn [nth nth_error length] in *; [congruence|]. apply IH; [lia|exact Hc].
Qed.

Lemma mapM_each : forall A B (f : A -> outcome B) l r, mapM f l = Ok r -> forall x, In x l -> exists y, f x = Ok y.
Proof.
  intros A B f l. induction l as [|a l IH]; intros r H x Hx; [destruct Hx|]. cbn [mapM] in H. destruct (f a) as [y| |] eqn:Ea; try discriminate. cbn [bind] in H.
  destruct (mapM f l) as [ys| |] eqn:El; try discriminate. destruct Hx as [<-|Hx]; [eauto|]. eapply IH; eauto.
Qed.

(** The node with its code. *)
Lemma node_code_gen : forall {F} (O : fops F) E t nd, tree_inv O E t -> In nd (t_nodes t) ->
  exists p, (n_level nd <= cbitsc (e_cfg E))%N /\ (p < 2 ^ (dimN (e_cfg E) * n_level nd))%N /\ n_code nd = (2 ^ (dimN (e_cfg E) * n_level nd) + p)%N.
Proof.
  intros F O E t nd Ht Hin.
  assert (R : forall A, reorders (fun l : list A => l)) by (intros A l; apply Permutation_refl).
  pose proof (inv_nodes _ _ _ Ht 0 _ _ (R _) (R _)) as HB.
  pose proof (inv_valid_codes O E t Ht) as Hv.
  destruct (node_ranges (e_cfg E) (t_codes t) (t_mln t) (t_ncrit t) _ _ Hv 0 _ _ _ _ (R _) (R _) HB nd Hin)
    as (p & H1 & H2 & H3 & _). eauto.
Qed.

Lemma node_centre_length : forall {F} (O : fops F) c code b geo, get_node_centre O c code b = Ok geo -> length geo = dim c.
Proof.
  intros F O c code b geo H. unfold get_node_centre in H. cbv zeta in H. apply bind_Ok in H as (o1 & _ & H). apply bind_Ok in H as (o2 & _ & H). injection H as <-.
  rewrite map_length. clear. destruct c; reflexivity.
Qed.

(** The properties of a node. *)
Lemma node_props_gen : forall {F} (O : fops F) E t nd, env_ok E -> tree_inv O E t -> In nd (t_nodes t) ->
  exists geo, get_node_centre O (e_cfg E) (n_code nd) (t_box t) = Ok geo /\
    length (p_com (n_props nd)) = length (if feq O (p_mass (n_props nd)) (fofZ O 0%Z) then geo else repeat (fofZ O 0%Z) (dim (e_cfg E))) /\
    (feq O (p_mass (n_props nd)) (fofZ O 0%Z) = true -> p_com (n_props nd) = geo) /\
    forallb (ffin O) (p_com (n_props nd)) = true /\ ffin O (p_mass (n_props nd)) = true /\
    let s := get_node_dim O (n_level nd) (t_box t) in
    match e_mac E with
    | Bh => p_mac (n_props nd) = DBh (fmul O s s) /\ ffin O (fmul O s s) = true
    | BhGeom => let d := fsqrt O (dist2 O (p_com (n_props nd)) geo) in p_mac (n_props nd) = DGeom s d /\ ffin O s = true /\ ffin O d = true
    end.
Proof.
  intros F O E t nd HE Ht Hin. destruct (node_payload_gen O E t nd Ht Hin) as [Hb Hc]. unfold cnp, compute_node_properties in Hc. cbv zeta in Hc.
  destruct (rd (t_parts t) (dim (e_cfg E))) as [mcol| |] eqn:Em; try discriminate. cbn [bind] in Hc. apply rd_some in Em.
  set (ccols := firstn (dim (e_cfg E)) (t_parts t)) in *. destruct (node_sums _ _ _ _ _ _ _ _) as [[tot com0]| |] eqn:Es; try discriminate. cbn [bind] in Hc.
  destruct (get_node_centre _ _ _ _) as [geo| |] eqn:Eg; try discriminate. cbn [bind] in Hc. exists geo. split; [reflexivity|].
  assert (Lc : length ccols = dim (e_cfg E)) by (unfold ccols; rewrite firstn_length, (inv_ncols _ _ _ Ht); lia).
  destruct (node_sums_shape O (e_cfg E) (e_simd E) (e_hadd E) ccols mcol _ _ _ Lc (proj2 HE) Es) as (L0 & _). cbn [fst snd] in *.
  set (com := if feq O tot (fofZ O 0%Z) then geo else map (fun x => fmul O x (fdiv O (fofZ O 1%Z) tot)) com0) in *.
  destruct (forallb (ffin O) com) eqn:Fc; try discriminate. cbn [negb] in Hc. destruct (ffin O tot) eqn:Ft; try discriminate. cbn [negb] in Hc.
  assert (PR : p_com (n_props nd) = com /\ p_mass (n_props nd) = tot /\ let s := get_node_dim O (n_level nd) (t_box t) in
    match e_mac E with
    | Bh => p_mac (n_props nd) = DBh (fmul O s s) /\ ffin O (fmul O s s) = true
    | BhGeom => let d := fsqrt O (dist2 O com geo) in p_mac (n_props nd) = DGeom s d /\ ffin O s = true /\ ffin O d = true
    end).
  { destruct (e_mac E); [destruct (ffin O _) eqn:X in Hc; [|discriminate]|destruct (ffin O _) eqn:X in Hc; [|discriminate]; cbn [negb] in Hc; destruct (ffin O _) eqn:Y in Hc; [|discriminate]]; injection Hc as <-; auto 6. }
  destruct PR as (PR1 & PR2 & PR3). rewrite PR1, PR2. split; [|split; [|split; [exact Fc|split; [exact Ft|exact PR3]]]].
  - unfold com. destruct (feq O tot _); [reflexivity|]. now rewrite map_length, repeat_length.
  - unfold com. now intros ->.
Qed.

Section IEEE.

Variables prec emax : Z.
Context (Hprec : Prec_gt_0 prec).
Context (Hemax : Prec_lt_emax prec emax).
Variable fused : bool.
Hypothesis Hp8 : (8 <= prec)%Z.

Notation bf := (binary_float prec emax).
Notation O := (Bops prec emax Hprec Hemax fused).
Notation zero := (fofZ O 0%Z).
Notation one := (fofZ O 1%Z).
Notation g := (gR prec).
Notation eta := (etaR prec emax).
Notation bnd := (bnd prec emax).
Notation Hp2 := (Hp2 prec Hp8).
Notation prow := (@prow bf).
Notation nthR := (nthR prec emax Hprec Hemax fused).

Local Open Scope R_scope.

Variable k : Z.
Hypothesis Hk5 : (5 * k + 16 <= emax)%Z.
Hypothesis Hroom : (prec + 4 * k + 4 <= emax)%Z.
Hypothesis He : (64 <= emax)%Z.

Variable E : env.
Hypothesis HE : env_ok E.
Notation c := (e_cfg E).
Variables (t : @tree bf) (P : nat -> prow).
Hypothesis Ht : tree_inv O E t.
Notation n := (length (t_codes t)).
Hypothesis HP : forall i, (i < n)%nat -> row (t_parts t) i (fst (P i) ++ [snd (P i)]).
Hypothesis Hbf : is_finite (t_box t) = true.
Hypothesis Hbox : bpow radix2 (3 - k) <= B2R (t_box t) <= bpow radix2 (k - 3).
Notation B := (B2R (t_box t)).

Lemma k3 : (3 <= k)%Z.
Proof.
  destruct (Z.le_gt_cases 3 k) as [H|H]; [exact H|exfalso]. assert (bpow radix2 (k - 3) < bpow radix2 (3 - k)) by (apply bpow_lt; lia). lra.
Qed.

Lemma box_pos : 0 < B.
Proof. pose proof (bpow_gt_0 radix2 (3 - k)). lra. Qed.

(** ** Particles *)

Lemma part_near : forall i, (i < n)%nat -> length (fst (P i)) = dim c /\ Forall (fun x => is_finite x = true /\ Rabs (B2R x) <= 33 / 64 * B) (fst (P i)).
Proof.
  intros i Hi. destruct (row_split O E t _ _ i Ht (HP i Hi)) as (Lx & Hr & _). split; [exact Lx|].
  destruct (nth_error (t_codes t) i) as [x|] eqn:Ex; [|apply nth_error_None in Ex; lia].
  destruct (inv_codes _ _ _ Ht i x Ex) as (xs & Hr' & Hc). rewrite <- (row_fun _ _ _ _ _ Hr Hr') in Hc. clear xs Hr'.
  unfold particle_code in Hc. destruct (mapM _ (fst (P i))) as [ds| |] eqn:Em; try discriminate. clear Hc.
  assert (Hrange : (prec + 4 <= emax)%Z) by (pose proof k3; lia).
  assert (Hcb : (Z.of_N (cbitsc c) < emax)%Z) by (pose proof (cb_31 E); lia).
  assert (Hcf : comfortable prec emax (t_box t)).
  { split; [exact Hbf|]. split; [eapply Rle_trans; [|apply Hbox]|eapply Rle_trans; [apply Hbox|]]; apply bpow_le; pose proof k3; lia. }
  apply Forall_forall. intros v Hv. destruct (mapM_each _ _ _ _ _ Em v Hv) as (y & Hy).
  pose proof (accepted_near_box prec emax Hprec Hemax fused Hp8 Hrange c Hcb v (t_box t) y Hcf Hy) as NB.
  destruct (fma_bounds prec emax Hprec Hemax fused Hp8 Hrange c Hcb v _ y Hy) as (Fv & _). split; [exact Fv|].
  assert (bpow radix2 (2 - prec) <= / 64) by (change (/ 64) with (bpow radix2 (-6)); apply bpow_le; lia).
  pose proof box_pos. apply Rabs_le. nra.
Qed.

Lemma part_cok : forall i, (i < n)%nat -> cok prec emax k (dim c) (fst (P i)).
Proof.
  intros i Hi. destruct (part_near i Hi) as [L H]. split; [exact L|]. eapply Forall_impl; [|exact H]. intros x [F X]. split; [exact F|].
  eapply Rle_trans; [exact X|]. apply Rle_trans with (bpow radix2 (k - 3)); [pose proof box_pos; lra|apply bpow_le; lia].
Qed.

(** ** Nodes *)

Hypothesis Hmass : forall i, (i < n)%nat -> is_finite (snd (P i)) = true /\ (B2R (snd (P i)) = 0 \/ bpow radix2 (1 - k) <= B2R (snd (P i))).
Hypothesis Htotal : rsum (fun i => B2R (snd (P i))) (seq 0 n) <= bpow radix2 (k - 1).
Hypothesis Hfew : (2 * Z.of_nat (n + lanes_of (e_simd E)) + 3 <= 2 ^ (prec - 1))%Z.

Lemma mass_nonneg : forall i, (i < n)%nat -> 0 <= B2R (snd (P i)).
Proof. intros i Hi. destruct (Hmass i Hi) as [_ [->|H]]; [lra|]. pose proof (bpow_gt_0 radix2 (1 - k)). lra. Qed.

Lemma rsum_zero_or : forall (f : nat -> R) x l, 0 <= x -> (forall i, In i l -> f i = 0 \/ x <= f i) -> rsum f l = 0 \/ x <= rsum f l.
Proof.
  intros f x l Hx. induction l as [|a l IH]; intros H; [now left|]. rewrite rsum_cons. destruct IH as [IH|IH]; [intros; apply H; now right| |].
  - rewrite IH, Rplus_0_r. apply H. now left.
  - right. destruct (H a (or_introl eq_refl)); lra.
Qed.

Lemma range_sum : forall a b, (a <= b <= n)%nat -> let T := rsum (fun i => B2R (snd (P i))) (seq a (b - a)) in
  (T = 0 \/ bpow radix2 (1 - k) <= T) /\ T <= bpow radix2 (k - 1).
Proof.
  intros a b Hab T. split.
  - apply rsum_zero_or; [apply bpow_ge_0|]. intros i Hi. apply in_seq in Hi. apply Hmass. lia.
  - eapply Rle_trans; [|exact Htotal]. replace n with (a + ((b - a) + (n - b)))%nat by lia. rewrite !seq_app, !rsum_app. rewrite Nat.add_0_l.
    match goal with |- _ <= ?u + (_ + ?v) => assert (0 <= u /\ 0 <= v) end; [|unfold T; lra].
    split; apply rsum_nonneg; intros i Hi; apply in_seq in Hi; apply mass_nonneg; lia.
Qed.

Lemma mass_col : forall mcol i, nth_error (t_parts t) (dim c) = Some mcol -> (i < n)%nat -> nthR mcol i = B2R (snd (P i)).
Proof.
  intros mcol i Hm Hi. destruct (row_split O E t _ _ i Ht (HP i Hi)) as (_ & _ & (mcol' & H1 & H2) & _). assert (mcol' = mcol) by congruence. subst. unfold Round.nthR. now rewrite (nth_error_nth _ _ _ H2).
Qed.

Lemma coord_col : forall col i j, (j < dim c)%nat -> nth_error (t_parts t) j = Some col -> (i < n)%nat -> nthR col i = B2R (nth j (fst (P i)) zero).
Proof.
  intros col i j Hj Hc Hi. destruct (row_split O E t _ _ i Ht (HP i Hi)) as (_ & _ & _ & H). unfold Round.nthR. now rewrite (nth_error_nth _ _ _ (H j col zero Hj Hc)).
Qed.

Lemma g_depth : forall m, (m <= n)%nat -> g ^ (2 * depth E m + 3) <= 2.
Proof.
  intros m Hm. assert (S : small prec (2 * depth E m + 3)); [|exact S]. apply (small_le prec Hp8). unfold depth. lia.
Qed.

Lemma node_mass : forall nd, In nd (t_nodes t) -> mok prec emax k (p_mass (n_props nd)) /\ 0 <= B2R (p_mass (n_props nd)).
Proof.
  intros nd Hin. destruct (node_payload_gen O E t nd Ht Hin) as [Hb _]. destruct (node_props_gen O E t nd HE Ht Hin) as (_ & _ & _ & _ & _ & Fm & _).
  destruct (node_round prec emax Hprec Hemax fused Hp2 E HE t nd Ht Hin) as (mcol & Hm & _ & _ & HM & _). cbv zeta in HM.
  set (idx := seq (n_begin nd) (n_end nd - n_begin nd)) in *.
  assert (EI : forall i, In i idx -> nthR mcol i = B2R (snd (P i))) by (intros i Hi; apply in_seq in Hi; apply mass_col; [exact Hm|lia]).
  rewrite (rsum_ext _ (nthR mcol) (fun i => B2R (snd (P i))) idx EI) in HM.
  specialize (HM ltac:(intros i Hi; rewrite EI by exact Hi; apply in_seq in Hi; apply mass_nonneg; lia)).
  assert (Li : length idx = (n_end nd - n_begin nd)%nat) by apply seq_length. rewrite Li in HM.
  pose proof (g_depth (n_end nd - n_begin nd) ltac:(lia)) as GD. set (d := depth E (n_end nd - n_begin nd)) in *.
  pose proof (g_mono prec Hp2 d (2 * d + 3) ltac:(lia)) as GM. pose proof (g_pow1 prec Hp2 d) as G1.
  assert (GI : / 2 <= / g ^ d) by (apply Rinv_le_contravar; lra).
  destruct (range_sum (n_begin nd) (n_end nd) ltac:(lia)) as [T1 T2]. fold idx in T1, T2. set (T := rsum (fun i => B2R (snd (P i))) idx) in *.
  set (M := B2R (p_mass (n_props nd))) in *. pose proof (bpow_gt_0 radix2 (1 - k)) as PK.
  assert (E1 : bpow radix2 (- k) = bpow radix2 (1 - k) * / 2). { replace (- k)%Z with ((1 - k) + -1)%Z by lia. rewrite bpow_plus. reflexivity. }
  assert (E2 : bpow radix2 k = bpow radix2 (k - 1) * 2). { replace k with ((k - 1) + 1)%Z at 1 by lia. rewrite bpow_plus. reflexivity. }
  destruct T1 as [T0|T1].
  - assert (M0 : M = 0) by (rewrite T0 in HM; lra). split; [|lra]. split; [exact Fm|]. left. exact M0.
  - assert (PM : bpow radix2 (- k) <= M). { rewrite E1. eapply Rle_trans; [|apply HM]. apply Rmult_le_compat; lra. }
    pose proof (bpow_gt_0 radix2 (- k)). split; [|lra]. split; [exact Fm|]. right. fold M. rewrite Rabs_right by lra. split; [exact PM|]. rewrite E2.
    eapply Rle_trans; [apply HM|]. apply Rmult_le_compat; lra.
Qed.

Lemma node_com_bnd : forall nd, In nd (t_nodes t) -> length (p_com (n_props nd)) = dim c /\ Forall (fun x => bnd x (k - 1)) (p_com (n_props nd)).
Proof.
  intros nd Hin. pose proof k3 as K3. destruct (node_payload_gen O E t nd Ht Hin) as [Hb _]. destruct (node_props_gen O E t nd HE Ht Hin) as (geo & Hgeo & Lcom & Hz & Fcom & Fm & _).
  destruct (node_code_gen O E t nd Ht Hin) as (p & Hl & Hp & Hcode). rewrite Hcode in Hgeo.
  assert (Bbox : bnd (t_box t) (k - 3)). { split; [exact Hbf|]. rewrite Rabs_right by (pose proof box_pos; lra). apply Hbox. }
  destruct (node_centre_gen prec emax Hprec Hemax fused Hp8 He E (k - 3) (n_level nd) p (t_box t) ltac:(lia) ltac:(lia) Hl Hp Bbox) as (geo' & Hg' & Bg).
  assert (geo' = geo) by congruence. subst geo'. replace (k - 3 + 2)%Z with (k - 1)%Z in Bg by lia.
  pose proof (node_centre_length _ _ _ _ _ Hgeo) as Lg.
  assert (Q : feq O (p_mass (n_props nd)) zero = Req_bool (B2R (p_mass (n_props nd))) 0).
  { cbn [feq Bops]. rewrite Beqb_correct by (auto; apply (ofZ_0 prec emax Hprec Hemax fused)). now rewrite (B2R_zero prec emax Hprec Hemax fused). }
  rewrite Q in Lcom, Hz. destruct (Req_bool_spec (B2R (p_mass (n_props nd))) 0) as [M0|NZ].
  - rewrite (Hz eq_refl). split; [exact Lg|exact Bg].
  - rewrite repeat_length in Lcom. split; [exact Lcom|]. apply Forall_forall. intros x Hx. pose proof Fcom as Fc'. rewrite forallb_forall in Fc'. split; [now apply Fc'|]. clear Fc'.
    apply In_nth with (d := zero) in Hx as (j & Hj & <-). rewrite Lcom in Hj.
    destruct (node_round prec emax Hprec Hemax fused Hp2 E HE t nd Ht Hin) as (mcol & Hm & _ & _ & HM & HC). cbv zeta in HM, HC.
    destruct (nth_error (t_parts t) j) as [col|] eqn:Ecol; [|apply nth_error_None in Ecol; rewrite (inv_ncols _ _ _ Ht) in Ecol; lia].
    destruct (HC NZ j col Hj Ecol) as [_ HC']. clear HC. rename HC' into HC.
    set (idx := seq (n_begin nd) (n_end nd - n_begin nd)) in *.
    assert (EI : forall i, In i idx -> nthR mcol i = B2R (snd (P i))) by (intros i Hi; apply in_seq in Hi; apply mass_col; [exact Hm|lia]).
    assert (EC : forall i, In i idx -> Rabs (nthR col i) <= 33 / 64 * B).
    { intros i Hi. apply in_seq in Hi. rewrite (coord_col col i j Hj Ecol) by lia. destruct (part_near i ltac:(lia)) as [LL FF]. rewrite Forall_forall in FF. apply FF. apply nth_In. lia. }
    assert (NN : forall i, In i idx -> 0 <= nthR mcol i) by (intros i Hi; rewrite EI by exact Hi; apply in_seq in Hi; apply mass_nonneg; lia).
    specialize (HM NN). specialize (HC NN).
    assert (Li : length idx = (n_end nd - n_begin nd)%nat) by apply seq_length. rewrite Li in HM, HC.
    pose proof (g_depth (n_end nd - n_begin nd) ltac:(lia)) as GD. set (d := depth E (n_end nd - n_begin nd)) in *.
    destruct (node_mass nd Hin) as [[_ RM] PM].
    assert (M1 : B2R (p_mass (n_props nd)) <= bpow radix2 (emax - 2)). { pose proof (rng_le _ _ _ RM) as R1. rewrite Rabs_right in R1 by lra. eapply Rle_trans; [exact R1|]. apply bpow_le. lia. }
    specialize (HC M1).
    destruct (range_sum (n_begin nd) (n_end nd) ltac:(lia)) as [T1 T2]. fold idx in T1, T2.
    rewrite <- (rsum_ext _ (nthR mcol) (fun i => B2R (snd (P i))) idx EI) in T1, T2. set (T := rsum (nthR mcol) idx) in *.
    assert (TP : bpow radix2 (1 - k) <= T). { destruct T1 as [T0|T1]; [|exact T1]. exfalso. apply NZ. rewrite T0 in HM. lra. }
    pose proof (bpow_gt_0 radix2 (1 - k)) as PK.
    set (A := rsum (fun i => nthR mcol i * Rabs (nthR col i)) idx) in *. set (W := rsum (fun i => nthR mcol i * nthR col i) idx) in *.
    assert (AT : 0 <= A <= 33 / 64 * B * T).
    { unfold A, T. split; [apply rsum_nonneg; intros i Hi; apply Rmult_le_pos; [now apply NN|apply Rabs_pos]|].
      rewrite <- rsum_scal. apply rsum_le. intros i Hi. rewrite (Rmult_comm (33 / 64 * B)). apply Rmult_le_compat_l; [now apply NN|now apply EC]. }
    assert (WA : Rabs W <= A).
    { unfold W, A. eapply Rle_trans; [apply rsum_abs|]. apply rsum_le. intros i Hi. rewrite Rabs_mult, (Rabs_right (nthR mcol i)) by (apply Rle_ge; now apply NN). lra. }
    set (x := B2R (nth j (p_com (n_props nd)) zero)) in *.
    assert (IT : 0 < / T) by (apply Rinv_0_lt_compat; lra).
    assert (AT' : 0 <= A / T <= 33 / 64 * B).
    { unfold Rdiv. split; [apply Rmult_le_pos; lra|]. apply Rmult_le_reg_r with T; [lra|]. rewrite (Rmult_assoc A), Rinv_l by lra. lra. }
    assert (WT : Rabs (W / T) <= A / T).
    { unfold Rdiv. rewrite Rabs_mult, (Rabs_right (/ T)) by lra. apply Rmult_le_compat_r; lra. }
    pose proof box_pos as PB. pose proof (g_pow1 prec Hp2 (2 * d + 3)) as G1. set (gg := g ^ (2 * d + 3)) in *.
    assert (ET : INR (n_end nd - n_begin nd) * eta * gg / T <= B / 8).
    { assert (N1 : INR (n_end nd - n_begin nd) <= bpow radix2 (prec - 1)).
      { rewrite INR_IZR_INZ, <- (IZR_Zpower radix2) by lia. apply IZR_le. change (Z.pow radix2 (prec - 1)) with (2 ^ (prec - 1))%Z. lia. }
      assert (N2 : / T <= bpow radix2 (k - 1)). { replace (k - 1)%Z with (- (1 - k))%Z by lia. rewrite bpow_opp. apply Rinv_le_contravar; lra. }
      unfold Rdiv. apply Rle_trans with (bpow radix2 (prec - 1) * eta * 2 * bpow radix2 (k - 1)).
      - pose proof (pos_INR (n_end nd - n_begin nd)). assert (0 < eta) by apply bpow_gt_0.
        apply Rmult_le_compat; [|lra| |exact N2]; [apply Rmult_le_pos; [apply Rmult_le_pos; lra|lra]|].
        apply Rmult_le_compat; [apply Rmult_le_pos; lra|lra| |exact GD]. apply Rmult_le_compat_r; lra.
      - unfold etaR. change 2 with (bpow radix2 1). rewrite <- !bpow_plus. apply Rle_trans with (bpow radix2 (3 - k) * / 8); [|lra].
        change (/ 8) with (bpow radix2 (-3)). rewrite <- bpow_plus. apply bpow_le. lia. }
    assert (EE : eta <= B / 8).
    { apply Rle_trans with (bpow radix2 (3 - k) * / 8); [|lra]. change (/ 8) with (bpow radix2 (-3)). rewrite <- bpow_plus. unfold etaR. apply bpow_le. lia. }
    assert (X : Rabs x <= 2 * B).
    { replace x with (W / T + (x - W / T)) by ring. eapply Rle_trans; [apply Rabs_triang|]. nra. }
    eapply Rle_trans; [exact X|]. apply Rle_trans with (2 * bpow radix2 (k - 3)); [lra|]. change 2 with (bpow radix2 1). rewrite <- bpow_plus. apply bpow_le. lia.
Qed.

Lemma node_pok : forall nd, In nd (t_nodes t) -> pok prec emax k (dim c) (p_com (n_props nd), p_mass (n_props nd)).
Proof.
  intros nd Hin. split; cbn [fst snd]; [|apply (node_mass nd Hin)]. destruct (node_com_bnd nd Hin) as [L H]. split; [exact L|].
  eapply Forall_impl; [|exact H]. intros x Hx. eapply bnd_mono; [exact Hx|lia].
Qed.

End IEEE.
