(** Parameters of constructed and updated trees; deduced boxes; updating a tree and constructing it anew. *)
From Coq Require Import List Arith NArith ZArith Lia Bool Reals Lra Permutation.
From Flocq Require Import Core BinarySingleNaN.
From Verif Require Import Base Config Morton Build BuildProofs BuildProps TreeSpec FOps FOpsProofs Disc DiscProofs NodeProps Tree TreeInv TreeProofs TreeSafe TreeProps
  BoxProofs BoxMore NodesR BoxInv Unique UniqueR.
Import ListNotations.
Local Open Scope nat_scope.

Section Params.

Context {F : Type}.
Variable O : fops F.
Variable E : env.
Hypothesis HE : env_ok E.
Notation c := (e_cfg E).

(** The parameters of a new tree are those given, or the defaults. *)
Lemma ctor_params : forall s box inp mln nc t, generic_ctor O E s box inp mln nc = Ok t ->
  t_mln t = match mln with Some k => k | None => 16 end /\
  t_ncrit t = match nc with Some k => k | None => e_ncrit E end /\
  t_ded t = (match box with Some _ => false | None => true end) /\ (forall b, box = Some b -> t_box t = b).
Proof.
  assert (C : forall s b ded d m k t, construct O E s b ded d m k = Ok t -> t_mln t = m /\ t_ncrit t = k /\ t_ded t = ded /\ (ded = false -> t_box t = b)).
  { intros s b ded d m k t H. unfold construct in H.
    destruct (negb (ffin O b) || flt O b (fofZ O 0%Z)); [discriminate|]. destruct (m =? 0); [discriminate|]. destruct (k =? 0); [discriminate|].
    repeat (apply bind_Ok in H as (? & ? & H)). injection H as <-. unfold rocm_init.
    assert (X : forall w : @tree F, w = mkTree (t_box w) (t_ded w) (t_mln w) (t_ncrit w) (t_parts w) (t_codes w) (t_perm w) (t_last w) (t_inv w) (t_nodes w) (t_crit w) (t_view w)) by (now intros []).
    destruct (e_rocm E); cbn [t_mln t_ncrit t_ded t_box]; (do 3 (split; [reflexivity|])); intros ->;
      match goal with Hb : Ok b = Ok ?x |- ?x = b => now injection Hb | _ => idtac end; congruence. }
  intros s box inp mln nc t H. unfold generic_ctor in H.
  destruct box as [b|]; cbn [fst snd] in H;
    (destruct inp as [cols|cols|cols n]; [apply bind_Ok in H as (? & _ & H)|apply bind_Ok in H as (? & _ & H)|]);
    apply C in H as (H1 & H2 & H3 & H4); (split; [destruct mln; exact H1|]); (split; [exact H2|]); (split; [exact H3|]); intros b0 Hb0; try discriminate; injection Hb0 as <-; auto.
Qed.

(** A coordinate of [t] is a coordinate of any tree with the same particles. *)
Lemma coords_in : forall t u v, tree_inv O E t -> tree_inv O E u -> view_cols true t = Ok v -> view_cols true u = Ok v ->
  forall x, (exists col, In col (firstn (dim c) (t_parts t)) /\ In x col) -> exists col, In col (firstn (dim c) (t_parts u)) /\ In x col.
Proof.
  intros t u v Ht Hu Hvt Hvu x (col & Hc & Hx). destruct (inv_table O E t Ht) as [T1 T2]. destruct (inv_table O E u Hu) as [U1 _].
  pose proof (firstn_In _ _ _ Hc) as Hc'. apply In_nth_error in Hc as [j Hj]. assert (Lj : j < dim c). { apply nth_error_lt in Hj. rewrite firstn_length in Hj. lia. }
  rewrite nth_error_firstn in Hj. rewrite (proj2 (Nat.ltb_lt _ _) Lj) in Hj.
  destruct (pos_cols O E t u Ht Hu v Hvt Hvu j ltac:(congruence)) as (ct & cu & A & B & C). assert (ct = col) by congruence. subst ct.
  apply In_nth_error in Hx as [i Hi]. exists cu. split.
  - eapply nth_error_In with (n := j). rewrite nth_error_firstn, (proj2 (Nat.ltb_lt _ _) Lj). exact B.
  - apply nth_error_In with (n := pos t u i). rewrite C; [exact Hi|]. apply nth_error_lt in Hi. rewrite Forall_forall in T2. rewrite (T2 col Hc') in Hi. exact Hi.
Qed.

Lemma rows_members : forall t p rs, tree_inv O E t -> is_perm p (length (t_codes t)) -> Forall2 (fun i xs => row (firstn (dim c) (t_parts t)) i xs) p rs ->
  forall x, In x (concat rs) <-> exists col, In col (firstn (dim c) (t_parts t)) /\ In x col.
Proof.
  intros t p rs Ht Hp HF x. destruct (inv_table O E t Ht) as [T1 T2]. rewrite in_concat. split.
  - intros (xs & Hx & Hxx). apply In_nth_error in Hx as [i Hi]. destruct (Forall2_nth_r _ _ _ _ _ HF Hi) as (k & _ & Hrow).
    apply In_nth_error in Hxx as [j Hj]. destruct (Forall2_nth_r _ _ _ _ _ Hrow Hj) as (col & Hc & Hn). exists col. split; eapply nth_error_In; eauto.
  - intros (col & Hc & Hx). apply In_nth_error in Hx as [k Hk].
    assert (Hkn : k < length (t_codes t)).
    { apply nth_error_lt in Hk. rewrite Forall_forall in T2. rewrite (T2 col) in Hk by (eapply firstn_In; eauto). exact Hk. }
    destruct (perm_surj p _ k Hp Hkn) as [i Hi]. destruct (Forall2_nth _ _ _ _ _ HF Hi) as (xs & Hxs & Hrow).
    apply In_nth_error in Hc as [j Hj]. destruct (Forall2_nth _ _ _ _ _ Hrow Hj) as (x' & Hx' & Hn).
    rewrite Hk in Hn. injection Hn as <-. exists xs. split; eapply nth_error_In; eauto.
Qed.

Lemma rows_dims : forall t p rs, tree_inv O E t -> Forall2 (fun i xs => row (firstn (dim c) (t_parts t)) i xs) p rs -> Forall (fun xs => length xs = dim c) rs.
Proof.
  intros t p rs Ht HF. destruct (inv_table O E t Ht) as [T1 _]. apply Forall_forall. intros xs Hx. apply In_nth_error in Hx as [i Hi].
  destruct (Forall2_nth_r _ _ _ _ _ HF Hi) as (k & _ & Hrow). apply Forall2_length_eq in Hrow. rewrite <- Hrow, firstn_length. lia.
Qed.

End Params.

(** Deduced boxes of trees with the same particles. *)
Lemma same_box_float : forall (prec emax : Z) (Hprec : Prec_gt_0 prec) (Hemax : Prec_lt_emax prec emax) (fused : bool) (Hp8 : (8 <= prec)%Z) E (t u : @tree (binary_float prec emax)) v,
  env_ok E -> reachable (Bops prec emax Hprec Hemax fused) E t -> reachable (Bops prec emax Hprec Hemax fused) E u ->
  view_cols true t = Ok v -> view_cols true u = Ok v -> t_ded t = true -> t_ded u = true -> t_box t = t_box u.
Proof.
  intros prec emax Hprec Hemax fused Hp8 E t u v HE Rt Ru Hvt Hvu Dt Du. set (O := Bops prec emax Hprec Hemax fused) in *.
  pose proof (reachable_inv O E HE t Rt) as Ht. pose proof (reachable_inv O E HE u Ru) as Hu.
  destruct (deduced O E HE t Rt Dt) as (p & rs & r & Hp & HF & Hs & Hb). destruct (deduced O E HE u Ru Du) as (p' & rs' & r' & Hp' & HF' & Hs' & Hb').
  assert (Dp : 0 < dim (e_cfg E)) by (destruct (e_cfg E); cbn; lia).
  pose proof (box_value prec emax Hprec Hemax fused (dim (e_cfg E)) rs r Dp (rows_dims O E t p rs Ht HF) Hs) as V. fold O in V. rewrite Hb in V.
  pose proof (box_value prec emax Hprec Hemax fused (dim (e_cfg E)) rs' r' Dp (rows_dims O E u p' rs' Hu HF') Hs') as V'. fold O in V'. rewrite Hb' in V'.
  destruct V as (_ & M & G & HM & -> & _). destruct V' as (_ & M' & G' & HM' & -> & _).
  assert (X : M = M'); [|now rewrite X]. apply good_inj; [exact G|exact G'|]. rewrite HM, HM'. unfold max_coord.
  assert (A : forall x, In x (concat rs) <-> In x (concat rs')).
  { intros x. rewrite (rows_members O E t p rs Ht Hp HF), (rows_members O E u p' rs' Hu Hp' HF').
    split; [exact (coords_in O E t u v Ht Hu Hvt Hvu x)|exact (coords_in O E u t v Hu Ht Hvu Hvt x)]. }
  assert (B : forall l : list R, (0 <= max_abs l)%R) by (induction l as [|y l IH]; cbn [max_abs fold_right]; [lra|]; fold (max_abs l); pose proof (Rmax_r (Rabs y) (max_abs l)); lra).
  apply Rle_antisym; apply max_abs_le; try apply B; intros y Hy; apply max_abs_In; apply in_map_iff in Hy as (x & <- & Hx); apply in_map_iff; exists x; (split; [reflexivity|]); now apply A.
Qed.

Lemma same_box_R : forall E (t u : @tree R) v, env_ok E -> reachable Rops E t -> reachable Rops E u ->
  view_cols true t = Ok v -> view_cols true u = Ok v -> t_ded t = true -> t_ded u = true -> t_box t = t_box u.
Proof.
  intros E t u v HE Rt Ru Hvt Hvu Dt Du. pose proof (reachable_inv Rops E HE t Rt) as Ht. pose proof (reachable_inv Rops E HE u Ru) as Hu.
  destruct (deduced_R E t HE Rt Dt) as (M & -> & A & B). destruct (deduced_R E u HE Ru Du) as (M' & -> & A' & B'). f_equal.
  assert (L : forall t u M M', tree_inv Rops E t -> tree_inv Rops E u -> view_cols true t = Ok v -> view_cols true u = Ok v ->
    (forall col x, In col (firstn (dim (e_cfg E)) (t_parts u)) -> In x col -> (Rabs x <= M')%R) ->
    (M = 0%R \/ exists col x, In col (firstn (dim (e_cfg E)) (t_parts t)) /\ In x col /\ Rabs x = M) -> (M <= M' \/ M = 0)%R).
  { clear. intros t u M M' Ht Hu Hvt Hvu HM [->|(col & x & Hc & Hx & <-)]; [now right|left].
    destruct (coords_in Rops E t u v Ht Hu Hvt Hvu x ltac:(eauto)) as (col' & Hc' & Hx'). eauto. }
  pose proof (L t u M M' Ht Hu Hvt Hvu A' B) as L1. pose proof (L u t M' M Hu Ht Hvu Hvt A B') as L2.
  assert (P : forall (w : @tree R) m, (m = 0%R \/ exists col x, In col (firstn (dim (e_cfg E)) (t_parts w)) /\ In x col /\ Rabs x = m) -> (0 <= m)%R).
  { intros w m [->|(col & x & _ & _ & <-)]; [lra|apply Rabs_pos]. }
  pose proof (P t M B). pose proof (P u M' B'). destruct L1, L2; lra.
Qed.

(** * Constructing a tree anew *)

Lemma view_diff : forall {F} (O : fops F) E t v, tree_inv O E t -> view_cols true t = Ok v -> (N.of_nat (length (t_codes t)) <= diff_max)%N.
Proof.
  intros F O E t v Ht Hv. unfold view_cols in Hv. apply bind_Ok in Hv as ([] & Hv & _). unfold it_diff_check in Hv.
  destruct (N.ltb_spec diff_max (N.of_nat (nparts t))) as [|L]; [discriminate|].
  destruct (inv_table O E t Ht) as [T1 T2]. unfold nparts in L. destruct (t_parts t) as [|p0 ps]; [cbn in T1; lia|]. cbn [hd] in L. inversion T2 as [|? ? T3 _]. congruence.
Qed.

(** The call of the constructor with the particles, in the original order, and the parameters of [t]. *)
Definition anew {F} (O : fops F) (E : env) (s : sched) (t : @tree F) (v : list (list F)) : outcome tree :=
  generic_ctor O E s (if t_ded t then None else Some (t_box t)) (Ranges v) (Some (t_mln t)) (Some (t_ncrit t)).

Section Anew.

Context {F : Type}.
Variable O : fops F.
Variable E : env.
Hypothesis HE : env_ok E.
Notation c := (e_cfg E).

Lemma anew_facts : forall s t v u, sched_ok s -> reachable O E t -> view_cols true t = Ok v -> anew O E s t v = Ok u ->
  reachable O E u /\ view_cols true u = Ok v /\ t_mln u = t_mln t /\ t_ncrit u = t_ncrit t /\ t_ded u = t_ded t /\ (t_ded t = false -> t_box u = t_box t).
Proof.
  intros s t v u Hs Rt Hv Hu. unfold anew in Hu. pose proof (reachable_inv O E HE t Rt) as Ht.
  destruct (view_lengths O E t t Ht Ht v Hv Hv) as (Hl & _ & Hd).
  destruct (ctor_params O E _ _ _ _ _ _ Hu) as (P1 & P2 & P3 & P4).
  destruct (construction O E s _ (Ranges v) _ _ u Hs Hd Hu) as (n & Hn & Hc & _ & _ & _ & _ & _ & _ & Hview & _).
  assert (N : n = length (t_codes t)).
  { cbn [given] in Hn. destruct v as [|v0 v']; [cbn in Hd; destruct c; cbn in Hd; lia|]. inversion Hn; subst. inversion Hl; congruence. }
  split; [|split; [|split; [exact P1|split; [exact P2|split]]]].
  - eexists [OConstruct s _ (Ranges v) _ _], [u]. split; [constructor; [split; [exact Hs|exact Hd]|constructor]|].
    split; [|now left]. unfold run. cbn [foldM step]. rewrite Hu. reflexivity.
  - apply Hview. rewrite N. exact (view_diff O E t v Ht Hv).
  - rewrite P3. now destruct (t_ded t).
  - intros D. rewrite D in P4. now apply P4.
Qed.

(** Same boxes suffice. *)
Lemma anew_same : forall s t v u, sched_ok s -> reachable O E t -> view_cols true t = Ok v -> anew O E s t v = Ok u -> t_box u = t_box t ->
  t_codes u = t_codes t /\ map frame (t_nodes u) = map frame (t_nodes t) /\ t_crit u = t_crit t.
Proof.
  intros s t v u Hs Rt Hv Hu Hb. destruct (anew_facts s t v u Hs Rt Hv Hu) as (Ru & Hvu & P1 & P2 & _).
  pose proof (reachable_inv O E HE t Rt) as Ht. pose proof (reachable_inv O E HE u Ru) as Hiu.
  split; [exact (same_codes O E t u Ht Hiu v Hv Hvu (eq_sym Hb))|].
  destruct (same_frames O E t u Ht Hiu v Hv Hvu (eq_sym Hb) (eq_sym P1) (eq_sym P2)) as [A B]. now rewrite A, B.
Qed.

End Anew.

Lemma anew_float : forall (prec emax : Z) (Hprec : Prec_gt_0 prec) (Hemax : Prec_lt_emax prec emax) (fused : bool) (Hp8 : (8 <= prec)%Z) E s (t u : @tree (binary_float prec emax)) v,
  env_ok E -> sched_ok s -> reachable (Bops prec emax Hprec Hemax fused) E t -> view_cols true t = Ok v -> anew (Bops prec emax Hprec Hemax fused) E s t v = Ok u ->
  reachable (Bops prec emax Hprec Hemax fused) E u /\ view_cols true u = Ok v /\ t_box u = t_box t /\ t_mln u = t_mln t /\ t_ncrit u = t_ncrit t /\ t_ded u = t_ded t /\
  t_codes u = t_codes t /\ map frame (t_nodes u) = map frame (t_nodes t) /\ t_crit u = t_crit t.
Proof.
  intros prec emax Hprec Hemax fused Hp8 E s t u v HE Hs Rt Hv Hu.
  destruct (anew_facts _ E HE s t v u Hs Rt Hv Hu) as (Ru & Hvu & P1 & P2 & P3 & P4).
  assert (B : t_box u = t_box t).
  { destruct (t_ded t) eqn:D; [|auto]. eapply same_box_float; eauto. }
  destruct (anew_same _ E HE s t v u Hs Rt Hv Hu B) as (Q1 & Q2 & Q3). repeat (split; [assumption|]). assumption.
Qed.

Lemma coords_view : forall {F} (O : fops F) E t v, tree_inv O E t -> view_cols true t = Ok v -> forall x,
  (exists col, In col (firstn (dim (e_cfg E)) v) /\ In x col) <-> exists col, In col (firstn (dim (e_cfg E)) (t_parts t)) /\ In x col.
Proof.
  intros F O E t v Ht Hv x. pose proof (view_cols_ordered O E t v Ht Hv) as Ho. unfold original_order in Ho. pose proof (inv_is_perm O E t Ht) as Hip.
  destruct (inv_table O E t Ht) as [_ T2].
  set (n := length (t_codes t)) in *. revert T2 Ho. generalize (t_parts t) (dim (e_cfg E)). intros P d T2 Ho. clear Hv. revert d.
  induction Ho as [|a b la lb [Hl Hab] Ho IH]; intros d; [rewrite !firstn_nil; reflexivity|]. inversion T2 as [|? ? Ha T2']; subst.
  destruct d as [|d]; [cbn [firstn]; split; intros (? & [] & _)|].
  assert (X : In x b <-> In x a).
  { split; intros H; apply In_nth_error in H as [i Hi].
    - pose proof (nth_error_lt _ _ _ Hi) as L. rewrite Hl in L. destruct (nth_error (t_inv t) i) as [k|] eqn:K; [|apply nth_error_None in K; lia].
      destruct (Hab i k K) as [Hb _]. rewrite Hi in Hb. eapply nth_error_In. symmetry. exact Hb.
    - pose proof (nth_error_lt _ _ _ Hi) as L. destruct (perm_surj (t_inv t) n i Hip ltac:(congruence)) as [k Hk].
      destruct (Hab k i Hk) as [Hb _]. rewrite Hi in Hb. eapply nth_error_In. exact Hb. }
  specialize (IH T2' d). cbn [firstn]. split; intros (col & [<-|Hc] & Hx).
  - exists a. split; [now left|]. now apply X.
  - destruct (proj1 IH) as (col' & Hc' & Hx'); [eauto|]. exists col'. split; [now right|assumption].
  - exists b. split; [now left|]. now apply X.
  - destruct (proj2 IH) as (col' & Hc' & Hx'); [eauto|]. exists col'. split; [now right|assumption].
Qed.

Lemma coords_box : forall E t x, tree_inv Rops E t -> (0 < t_box t)%R -> (exists col, In col (firstn (dim (e_cfg E)) (t_parts t)) /\ In x col) -> (- t_box t / 2 <= x < t_box t / 2)%R.
Proof.
  intros E t x Ht Hb (col & Hc & Hx). destruct (inv_table Rops E t Ht) as [T1 T2]. apply In_nth_error in Hx as [i Hi]. pose proof (nth_error_lt _ _ _ Hi) as L.
  rewrite Forall_forall in T2. rewrite (T2 col) in L by (eapply firstn_In; eauto).
  destruct (nth_error (t_codes t) i) as [k|] eqn:K; [|apply nth_error_None in K; lia].
  destruct (inv_codes _ _ _ Ht i k K) as (xs & Hrow & Hcode). apply In_nth_error in Hc as [j Hj]. destruct (Forall2_nth _ _ _ _ _ Hrow Hj) as (y & Hy & Hn).
  rewrite Hi in Hn. injection Hn as <-. unfold particle_code in Hcode. apply bind_Ok in Hcode as (ds & Hds & _). apply mapM_Ok in Hds as [_ Hds].
  destruct (Hds j x Hy) as (q & _ & Hq). apply (disc_R_ok (e_cfg E) x (t_box t) Hb). eauto.
Qed.

Lemma anew_R : forall E s (t : @tree R) v, env_ok E -> sched_ok s -> (forall k, s_alloc s k = true) -> reachable Rops E t -> view_cols true t = Ok v ->
  (0 < t_box t)%R -> (N.of_nat (length (t_codes t)) * cbitsc (e_cfg E) < 2 ^ 64 - 1)%N ->
  exists u, anew Rops E s t v = Ok u /\ reachable Rops E u /\ view_cols true u = Ok v /\ t_box u = t_box t /\ t_codes u = t_codes t /\ t_nodes u = t_nodes t /\ t_crit u = t_crit t.
Proof.
  intros E s t v HE Hs Ha Rt Hv Hb Hsz. pose proof (reachable_inv Rops E HE t Rt) as Ht.
  destruct (view_lengths Rops E t t Ht Ht v Hv Hv) as (Hl & _ & Hd).
  assert (Hdiff : (N.of_nat (length (t_codes t)) <= diff_max)%N).
  { exact (view_diff Rops E t v Ht Hv). }
  pose proof (inv_mln _ _ _ Ht) as Hm. pose proof (inv_ncrit _ _ _ Ht) as Hc.
  assert (HC : exists u, anew Rops E s t v = Ok u).
  { unfold anew. assert (Hg : given_table E (Ranges v) (length (t_codes t))) by (split; [split; assumption|exact I]).
    destruct (ctor_R E s (Some (t_box t)) (Ranges v) (Some (t_mln t)) (Some (t_ncrit t)) _ HE Hs Ha Hg Hdiff Hsz) as [H1 H2]; [intros Z; injection Z; lia|intros Z; injection Z; lia|].
    cbn [given] in H1, H2. destruct (t_ded t) eqn:D.
    - apply H2. destruct (deduced_R E t HE Rt D) as (M & HB & _ & [->|(col & x & Hcol & Hx & HM)]); [lra|].
      destruct (proj2 (coords_view Rops E t v Ht Hv x)) as (col' & Hc' & Hx'); [eauto|]. exists col', x. repeat split; auto. intros ->. rewrite Rabs_R0 in HM. lra.
    - apply (H1 _ eq_refl Hb). intros col x Hcol Hx. apply (coords_box E t x Ht Hb). apply (coords_view Rops E t v Ht Hv). eauto. }
  destruct HC as [u Hu]. exists u. split; [exact Hu|]. destruct (anew_facts _ E HE s t v u Hs Rt Hv Hu) as (Ru & Hvu & P1 & P2 & P3 & P4).
  assert (B : t_box u = t_box t). { destruct (t_ded t) eqn:D; [|auto]. eapply same_box_R; eauto. }
  destruct (anew_same _ E HE s t v u Hs Rt Hv Hu B) as (Q1 & _ & _). pose proof (reachable_inv Rops E HE u Ru) as Hiu.
  destruct (same_nodes E HE t u Ht Hiu v Hv Hvu (eq_sym B) (eq_sym P1) (eq_sym P2)) as [N1 N2]. repeat (split; [assumption|]). split; congruence.
Qed.

(** Updates keep the parameters. *)
Lemma update_params : forall {F} (O : fops F) E, env_ok E -> forall s ord f g t t', sched_ok s -> reachable O E t ->
  (update_particles O E s ord f t = Ok (t', None) -> t_mln t' = t_mln t /\ t_ncrit t' = t_ncrit t /\ t_ded t' = t_ded t /\ (t_ded t = false -> t_box t' = t_box t) /\ length (t_codes t') = length (t_codes t)) /\
  (update_masses O E ord g t = Ok (t', None) -> t_mln t' = t_mln t /\ t_ncrit t' = t_ncrit t /\ t_ded t' = t_ded t /\ t_box t' = t_box t /\ t_codes t' = t_codes t).
Proof.
  intros F O E HE s ord f g t t' Hs Rt. pose proof (reachable_inv O E HE t Rt) as Ht. split; intros H.
  - destruct (update_particles_spec O E s ord f t t' Hs Ht H) as (v & v' & mid & _ & _ & _ & _ & A & B & C & D & G & _). repeat split; auto.
  - destruct (update_masses_spec O E ord g t t' Ht H) as (v & v' & mid & _ & _ & _ & _ & _ & A & B & C & D & G & _). repeat split; auto.
Qed.

Lemma reachable_update : forall {F} (O : fops F) E s ord f t t', sched_ok s -> reachable O E t -> update_particles O E s ord f t = Ok (t', None) -> reachable O E t'.
Proof.
  intros F O E s ord f t t' Hs (ops & w & Ho & Hr & Hin) H. apply In_nth_error in Hin as [i Hi].
  assert (L : i < length w) by (eapply nth_error_lt; eauto).
  exists (ops ++ [OUpdateParticles i s ord f]), (set_nth w i t'). split; [apply Forall_app; split; [exact Ho|constructor; [exact Hs|constructor]]|]. split.
  - unfold run in *. rewrite foldM_app, Hr. cbn [bind foldM step]. rewrite (proj2 (rd_Ok w i t) Hi). cbn [bind]. rewrite H. cbn [bind fst snd].
    unfold wr. rewrite (proj2 (Nat.ltb_lt _ _) L). reflexivity.
  - eapply nth_error_In with (n := i). now apply nth_error_set_nth_same.
Qed.

Lemma update_anew_float : forall (prec emax : Z) (Hprec : Prec_gt_0 prec) (Hemax : Prec_lt_emax prec emax) (fused : bool) (Hp8 : (8 <= prec)%Z) E s s' ordered f (t t' u : @tree (binary_float prec emax)) v',
  let O := Bops prec emax Hprec Hemax fused in
  env_ok E -> sched_ok s -> sched_ok s' -> reachable O E t -> update_particles O E s ordered f t = Ok (t', None) -> view_cols true t' = Ok v' ->
  generic_ctor O E s' (if t_ded t then None else Some (t_box t)) (Ranges v') (Some (t_mln t)) (Some (t_ncrit t)) = Ok u ->
  view_cols true u = Ok v' /\ t_box u = t_box t' /\ t_mln u = t_mln t' /\ t_ncrit u = t_ncrit t' /\ t_ded u = t_ded t' /\
  t_codes u = t_codes t' /\ map frame (t_nodes u) = map frame (t_nodes t') /\ t_crit u = t_crit t'.
Proof.
  intros prec emax Hprec Hemax fused Hp8 E s s' ordered f t t' u v' O HE Hs Hs' Ht Hupd Hv Hc.
  destruct (proj1 (update_params O E HE s ordered f (fun x => Ok x) t t' Hs Ht) Hupd) as (A & B & C & D & _).
  pose proof (reachable_update O E s ordered f t t' Hs Ht Hupd) as Ht'.
  refine (proj2 (anew_float prec emax Hprec Hemax fused Hp8 E s' t' u v' HE Hs' Ht' Hv _)).
  unfold anew. rewrite A, B, C. destruct (t_ded t); [exact Hc|]. rewrite D by reflexivity. exact Hc.
Qed.
