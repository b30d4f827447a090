(** In exact arithmetic the collision graph in the original order is determined by the particles and the sizes. Examples. *)
From Coq Require Import List Arith NArith ZArith Lia Bool Reals Lra Permutation Sorted.
From Flocq Require Import Core BinarySingleNaN.
From Verif Require Import Base Config Morton Build TreeSpec FOps FOpsProofs Disc NodeProps Tree TreeInv TreeProofs TreeSafe TreeProps TreeEx Kernels
  NodesR BoxMore KernR ForceGen ForceTop ForceRTop ForceEx Coll CollProofs CollProps CollShift CollLast Unique UniqueR Rebuild.
Import ListNotations.
Local Open Scope nat_scope.

Lemma sorted_members : forall l1 l2 : list nat, StronglySorted lt l1 -> StronglySorted lt l2 -> (forall x, In x l1 <-> In x l2) -> l1 = l2.
Proof.
  induction l1 as [|a l1 IH]; intros [|b l2] S1 S2 H; [reflexivity|exfalso; apply (proj2 (H b)); now left|exfalso; apply (proj1 (H a)); now left|].
  apply StronglySorted_inv in S1 as [S1 F1]. apply StronglySorted_inv in S2 as [S2 F2]. rewrite Forall_forall in F1, F2.
  assert (a = b).
  { destruct (proj1 (H a) (or_introl eq_refl)) as [->|I1]; [reflexivity|]. destruct (proj2 (H b) (or_introl eq_refl)) as [->|I2]; [reflexivity|].
    specialize (F1 _ I2). specialize (F2 _ I1). lia. }
  subst b. f_equal. apply IH; auto. intros x. split; intros Hx.
  - destruct (proj1 (H x) (or_intror Hx)) as [->|]; [specialize (F1 _ Hx); lia|assumption].
  - destruct (proj2 (H x) (or_intror Hx)) as [->|]; [specialize (F2 _ Hx); lia|assumption].
Qed.

Section SameColl.

Variable E : env.
Variable K : platform R.
Hypothesis HE : env_ok E.
Notation c := (e_cfg E).
Variables t u : @tree R.
Hypothesis Rt : reachable Rops E t.
Hypothesis Ru : reachable Rops E u.
Variable v : list (list R).
Hypothesis Hvt : view_cols true t = Ok v.
Hypothesis Hvu : view_cols true u = Ok v.
Hypothesis Hbox : t_box t = t_box u.
Hypothesis Hmln : t_mln t = t_mln u.
Hypothesis Hncrit : t_ncrit t = t_ncrit u.

Lemma same_graphs : forall sizes sch1 sch2 old sch1' sch2' old', (0 < t_box t)%R -> full_shift E K t ->
  reorders sch1 -> reorders sch2 -> reorders sch1' -> reorders sch2' -> length (t_codes t) <= length sizes ->
  (N.of_nat (length (t_codes t)) * cbitsc c < diff_max)%N -> (forall s, In s sizes -> (0 <= s)%R) ->
  compute_cgraph Rops E K true t sizes sch1 sch2 old = compute_cgraph Rops E K true u sizes sch1' sch2' old'.
Proof.
  intros sizes sch1 sch2 old sch1' sch2' old' Hb HK R1 R2 R1' R2' Hlen Hn Hs.
  pose proof (reachable_inv Rops E HE t Rt) as Ht. pose proof (reachable_inv Rops E HE u Ru) as Hu.
  pose proof (same_codes Rops E t u Ht Hu v Hvt Hvu Hbox) as HC.
  destruct (same_nodes E HE t u Ht Hu v Hvt Hvu Hbox Hmln Hncrit) as [HN _].
  assert (HK' : full_shift E K u) by (unfold full_shift in *; now rewrite <- HN).
  assert (Hlen' : length (t_codes u) <= length sizes) by (now rewrite HC).
  destruct (exact_edges E K t true sizes sch1 sch2 old HE Rt Hb HK R1 R2 Hlen Hn Hs) as (g & Hg & Lg & G).
  destruct (exact_edges E K u true sizes sch1' sch2' old' HE Ru ltac:(now rewrite <- Hbox) HK' R1' R2' Hlen' ltac:(now rewrite HC) Hs) as (g' & Hg' & Lg' & G').
  rewrite Hg, Hg'. f_equal. rewrite HC in Lg', G'.
  destruct (well_formed Rops E K t true sizes sch1 sch2 old g HE Rt R1 R2 Hlen Hg) as (_ & W & S).
  destruct (well_formed Rops E K u true sizes sch1' sch2' old' g' HE Ru R1' R2' Hlen' Hg') as (_ & W' & S').
  apply list_ext. intros i. destruct (Nat.lt_ge_cases i (length (t_codes t))) as [L|L].
  2:{ rewrite (proj2 (nth_error_None g i)), (proj2 (nth_error_None g' i)) by lia. reflexivity. }
  destruct (nth_error g i) as [r|] eqn:Er; [|apply nth_error_None in Er; lia]. destruct (nth_error g' i) as [r'|] eqn:Er'; [|apply nth_error_None in Er'; lia].
  f_equal. apply sorted_members; [exact (proj1 (W i r Er))|exact (proj1 (W' i r' Er'))|].
  assert (At : forall k, k < length (t_codes t) -> exists p s xs, p < length (t_codes t) /\ vertex t true p k /\ pos t u p < length (t_codes t) /\ vertex u true (pos t u p) k /\
    nth_error sizes k = Some s /\ row (firstn (dim c) (t_parts t)) p xs /\ row (firstn (dim c) (t_parts u)) (pos t u p) xs).
  { intros k Hk. destruct (dst_onto Rops E true t Ht k Hk) as (p & Hp & Ek). unfold dst in Ek.
    destruct (pos_spec Rops E t u Ht Hu v Hvt Hvu p Hp) as (P1 & P2 & P3).
    assert (V : nth_error (t_perm t) p = Some k). { rewrite Ek. apply nth_error_nth'. pose proof (is_perm_length _ _ (inv_perm _ _ _ Ht)). lia. }
    destruct (nth_error sizes k) as [s|] eqn:Es; [|apply nth_error_None in Es; lia].
    destruct (nth_error (t_codes t) p) as [x|] eqn:Ex; [|apply nth_error_None in Ex; lia].
    destruct (inv_codes _ _ _ Ht p x Ex) as (xs & Hx & _). exists p, s, xs. unfold vertex. rewrite P2.
    repeat (split; [assumption|]). split; [reflexivity|]. split; [assumption|]. exact (pos_row Rops E t u Ht Hu v Hvt Hvu p xs Hp Hx). }
  assert (Bt : forall k j rr gg, nth_error gg k = Some rr -> In j rr -> length gg = length (t_codes t) ->
     (forall i j r, nth_error gg i = Some r -> In j r -> exists r', nth_error gg j = Some r' /\ In i r') -> j < length (t_codes t)).
  { intros k j rr gg H1 H2 H3 H4. destruct (H4 k j rr H1 H2) as (r2 & H5 & _). rewrite <- H3. apply nth_error_Some. congruence. }
  destruct (At i L) as (p & s1 & x1 & Hp & Vp & Hp' & Vp' & E1 & X1 & X1').
  intros j. destruct (Nat.lt_ge_cases j (length (t_codes t))) as [Lj|Lj].
  2:{ split; intros Hin; exfalso; [pose proof (Bt i j r g Er Hin Lg S)|pose proof (Bt i j r' g' Er' Hin Lg' S')]; lia. }
  destruct (At j Lj) as (q & s2 & x2 & Hq & Vq & Hq' & Vq' & E2 & X2 & X2').
  rewrite (G p q i j s1 s2 x1 x2 r Hp Hq Vp Vq E1 E2 X1 X2 Er), (G' (pos t u p) (pos t u q) i j s1 s2 x1 x2 r' Hp' Hq' Vp' Vq' E1 E2 X1' X2' Er').
  split; intros (Hne & Hr); (split; [|exact Hr]).
  - intros Hpp. apply Hne. exact (pos_inj Rops E t u Ht Hu v Hvt Hvu p q Hp Hq Hpp).
  - intros ->. now apply Hne.
Qed.

End SameColl.

(** * Examples *)

(** Three particles at the same place with masses 2^24, 1 and 1. *)
Definition tie_cols : list (list (binary_float 24 128)) :=
  [repeat (F32 1 (-2)) 3; repeat (F32 1 (-2)) 3; [F32 1 24; F32 1 0; F32 1 0]].
Definition tie_ctor (r : bool) : @op (binary_float 24 128) := OConstruct (ex_sched r) (Some (F32 1 0)) (Ranges tie_cols) (Some 4) None.
Definition tie_run (r : bool) := run exO (exE false) [tie_ctor r] [].
Definition tie_tree (r : bool) := match tie_run r with Ok (t :: _) => t | _ => default_tree exO (exE false) end.

Lemma tie_reachable : forall r, reachable exO (exE false) (tie_tree r).
Proof.
  intros r. exists [tie_ctor r]. unfold tie_tree, tie_run.
  assert (G : match run exO (exE false) [tie_ctor r] [] with Ok (_ :: _) => true | _ => false end = true) by (destruct r; vm_compute; reflexivity).
  destruct (run exO (exE false) [tie_ctor r] []) as [[|t w]|e|]; try discriminate.
  exists (t :: w). split; [constructor; [split; [apply ex_sched_ok|reflexivity]|constructor]|]. split; [reflexivity|now left].
Qed.

Lemma sf_inj : forall l l' : list (list (binary_float 24 128)), sf l = sf l' -> l = l'.
Proof.
  assert (X : forall l l' : list (binary_float 24 128), map (fun x => B2SF x) l = map (fun x => B2SF x) l' -> l = l').
  { induction l as [|x l IH]; intros [|y l'] H; try discriminate; [reflexivity|]. cbn [map] in H. injection H as H1 H2. f_equal; [now apply B2SF_inj|auto]. }
  induction l as [|x l IH]; intros [|y l'] H; try discriminate; [reflexivity|]. unfold sf in H. cbn [map] in H. injection H as H1 H2. f_equal; auto.
Qed.

Definition sf_out (o : outcome (list (list (binary_float 24 128)))) := match o with Ok l => Ok (sf l) | Throw e => Throw e | UB => UB end.

Lemma sf_out_inj : forall o o', sf_out o = sf_out o' -> o = o'.
Proof. intros [l|e|] [l'|e'|] H; try discriminate; cbn in H; [injection H as H; f_equal; now apply sf_inj|congruence|reflexivity]. Qed.

(** Both trees hold the same particles; the masses of the root differ. *)
Lemma tie_views : exists v, view_cols true (tie_tree false) = Ok v /\ view_cols true (tie_tree true) = Ok v /\
  t_box (tie_tree false) = t_box (tie_tree true) /\ t_mln (tie_tree false) = t_mln (tie_tree true) /\ t_ncrit (tie_tree false) = t_ncrit (tie_tree true).
Proof.
  exists tie_cols. repeat split; try (apply sf_out_inj; vm_compute; reflexivity); try (vm_compute; reflexivity).
Qed.

Lemma tie_differ : exists (t u : @tree (binary_float 24 128)) v, reachable exO (exE false) t /\ reachable exO (exE false) u /\
  view_cols true t = Ok v /\ view_cols true u = Ok v /\ t_box t = t_box u /\ t_mln t = t_mln u /\ t_ncrit t = t_ncrit u /\
  map (fun nd => B2SF (p_mass (n_props nd))) (t_nodes t) = [B2SF (F32 8388608 1)] /\
  map (fun nd => B2SF (p_mass (n_props nd))) (t_nodes u) = [B2SF (F32 8388609 1)].
Proof.
  destruct tie_views as (v & H1 & H2 & H3 & H4 & H5). exists (tie_tree false), (tie_tree true), v.
  do 2 (split; [apply tie_reachable|]). repeat (split; [assumption|]). split; vm_compute; reflexivity.
Qed.

(** A tree that got the particles of [ex_tree] by an update, with another order of equal codes. *)
Definition hist_ops : list (@op (binary_float 24 128)) :=
  [OConstruct (ex_sched true) (Some (F32 1 0)) (Ranges (map (fopp exO) (nth 0 ex_cols []) :: tl ex_cols)) (Some 2) None;
   OUpdateParticles 0 (ex_sched false) true ex_flip].
Definition hist_run := run exO (exE false) hist_ops [].
Definition hist_tree := match hist_run with Ok (t :: _) => t | _ => default_tree exO (exE false) end.

Lemma hist_reachable : reachable exO (exE false) hist_tree.
Proof.
  exists hist_ops. unfold hist_tree, hist_run.
  assert (G : match run exO (exE false) hist_ops [] with Ok (_ :: _) => true | _ => false end = true) by (vm_compute; reflexivity).
  destruct (run exO (exE false) hist_ops []) as [[|t w]|e|]; try discriminate.
  exists (t :: w). split; [|split; [reflexivity|now left]].
  constructor; [split; [apply ex_sched_ok|reflexivity]|]. constructor; [apply ex_sched_ok|constructor].
Qed.

Lemma tree_reachable : reachable exO (exE false) ex_tree.
Proof.
  exists [ex_ctor]. unfold ex_tree, ex_obj. destruct (run exO (exE false) [ex_ctor] []) as [w|e|] eqn:R.
  - exists w. split; [constructor; [split; [apply ex_sched_ok|reflexivity]|constructor]|]. split; [reflexivity|].
    destruct w as [|t w]; [|now left]. exfalso.
    assert (G : match run exO (exE false) [ex_ctor] [] with Ok [] => false | _ => true end = true) by (vm_compute; reflexivity).
    rewrite R in G. discriminate.
  - exfalso. assert (G : match run exO (exE false) [ex_ctor] [] with Throw _ => false | _ => true end = true) by (vm_compute; reflexivity).
    rewrite R in G. discriminate.
  - exfalso. assert (G : match run exO (exE false) [ex_ctor] [] with UB => false | _ => true end = true) by (vm_compute; reflexivity).
    rewrite R in G. discriminate.
Qed.

Lemma hist_views : exists v, view_cols true ex_tree = Ok v /\ view_cols true hist_tree = Ok v /\
  t_box ex_tree = t_box hist_tree /\ t_mln ex_tree = t_mln hist_tree /\ t_ncrit ex_tree = t_ncrit hist_tree /\ t_perm ex_tree <> t_perm hist_tree.
Proof.
  exists ex_cols. repeat split; try (apply sf_out_inj; vm_compute; reflexivity); try (vm_compute; reflexivity). vm_compute. discriminate.
Qed.

(** Two constructions of the same tree in exact arithmetic, with different schedules. *)
Lemma two_trees : forall m, exists (t u : @tree R) v, reachable Rops (ex3E m (Some 4)) t /\ reachable Rops (ex3E m (Some 4)) u /\
  view_cols true t = Ok v /\ view_cols true u = Ok v /\ t_box t = t_box u /\ t_mln t = t_mln u /\ t_ncrit t = t_ncrit u /\
  length (t_codes t) = 4 /\ t_box t = 1%R /\ room (ex3E m (Some 4)) t.
Proof.
  intros m. set (E := ex3E m (Some 4)). assert (HE : env_ok E) by (apply ex3E_ok; lia).
  assert (Hg : given_table E (Ranges ex3_cols) 4).
  { split; [|exact I]. split; [reflexivity|]. repeat constructor. }
  assert (CT : forall r, exists t, generic_ctor Rops E (ex_sched r) (Some 1%R) (Ranges ex3_cols) (Some 1) (Some 2) = Ok t).
  { intros r. destruct (ctor_R E (ex_sched r) (Some 1%R) (Ranges ex3_cols) (Some 1) (Some 2) 4) as [H _]; auto.
    - apply ex_sched_ok.
    - vm_compute. discriminate.
    - vm_compute. reflexivity.
    - discriminate.
    - discriminate.
    - destruct (H 1%R eq_refl ltac:(lra)) as [[_ H1] _]. apply H1.
      intros col x Hc Hx. cbn [e_cfg E ex3E dim given ex3_cols firstn] in Hc.
      destruct Hc as [<-|[<-|[<-|[]]]]; cbn [In] in Hx; decompose [or] Hx; subst; try lra; contradiction. }
  assert (CS : forall r t, generic_ctor Rops E (ex_sched r) (Some 1%R) (Ranges ex3_cols) (Some 1) (Some 2) = Ok t ->
    reachable Rops E t /\ view_cols true t = Ok ex3_cols /\ t_box t = 1%R /\ t_mln t = 1 /\ t_ncrit t = 2 /\ length (t_codes t) = 4 /\ room E t).
  { intros r t Ht. destruct (ctor_params Rops E _ _ _ _ _ _ Ht) as (P1 & P2 & _ & P4).
    destruct (construction Rops E _ _ (Ranges ex3_cols) _ _ _ (ex_sched_ok R r) eq_refl Ht) as (n & Hn & Hc & _ & _ & _ & _ & _ & _ & Hv & Hb).
    assert (Hn4 : n = 4) by (inversion Hn as [|? ? Hl _]; symmetry; exact Hl). rewrite Hn4 in *.
    split; [|split; [apply Hv; vm_compute; discriminate|split; [now apply P4|split; [exact P1|split; [exact P2|split; [exact Hc|]]]]]].
    - exists [OConstruct (ex_sched r) (Some 1%R) (Ranges ex3_cols) (Some 1) (Some 2)], [t].
      split; [constructor; [split; [apply ex_sched_ok|reflexivity]|constructor]|].
      split; [|now left]. unfold run. cbn [foldM step]. rewrite Ht. reflexivity.
    - unfold room. rewrite Hc. vm_compute. discriminate. }
  destruct (CT false) as [t Ht]. destruct (CT true) as [u Hu]. destruct (CS _ _ Ht) as (A1 & A2 & A3 & A4 & A5 & A6 & A7). destruct (CS _ _ Hu) as (B1 & B2 & B3 & B4 & B5 & B6 & B7).
  exists t, u, ex3_cols. repeat split; try assumption; congruence.
Qed.
