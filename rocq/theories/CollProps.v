(** Collision detection: structure of the graph, relabelling, invalid sizes, completeness under rounding. *)
From Coq Require Import List Arith ZArith NArith Bool Lia Permutation Sorted Reals Lra.
From Flocq Require Import Core BinarySingleNaN.
From Verif Require Import Base Config Morton MortonProofs CodesProofs Build TreeSpec FOps FOpsProofs Disc DiscProofs NodeProps Tree TreeInv TreeProofs NodeGeom Kernels Coll CollSearch CollProofs CollCover CollR.
Import ListNotations.
Local Open Scope nat_scope.

Section Any.

Context {F : Type}.
Variable O : fops F.
Variable E : env.
Variable K : platform F.
Notation c := (e_cfg E).
Notation cb := (cbitsc c).
Variable t : @tree F.
Hypothesis Hinv : tree_inv O E t.
Notation n := (length (t_codes t)).
Notation leaves := (coll_leaves (t_nodes t)).

Lemma ok_representable : forall ordered sizes sch1 sch2 old g,
  compute_cgraph O E K ordered t sizes sch1 sch2 old = Ok g -> representable t.
Proof.
  intros ordered sizes sch1 sch2 old g H. unfold compute_cgraph in H.
  apply bind_Ok in H. destruct H as (u & Hu & H). cbv zeta in H. apply bind_Ok in H. destruct H as (v & Hv & _).
  rewrite (nparts_codes O E t Hinv) in Hu. unfold it_diff_check in *.
  destruct (N.ltb_spec diff_max (N.of_nat n)); [discriminate|].
  destruct (N.ltb_spec diff_max (N.of_nat (length (t_nodes t)))); [discriminate|]. split; assumption.
Qed.

(** The index of a particle in the graph. *)
Definition vertex (ordered : bool) (p i : nat) : Prop := if ordered then nth_error (t_perm t) p = Some i else p = i.

Lemma vertex_label : forall ordered p i, label ordered t p = Ok i <-> vertex ordered p i.
Proof. intros [|] p i; unfold label, vertex; [apply rd_Ok|]. split; [now injection 1|now intros ->]. Qed.

Lemma row_position : forall p xs, p < n -> (position E t p = Ok xs <-> row (firstn (dim c) (t_parts t)) p xs).
Proof.
  intros p xs Hp. destruct (position_ok O E t Hinv p Hp) as (xs' & H1 & _ & H3). rewrite H1. split.
  - intros HH. injection HH as <-. exact H3.
  - intros HH. f_equal. unfold row in *. clear - HH H3. revert xs HH. induction H3; intros xs HH; inversion HH; subst; [reflexivity|]. f_equal; [congruence|auto].
Qed.

(** C36, and soundness in any arithmetic. *)
Lemma structure : forall ordered sizes sch1 sch2 old g, reorders sch1 -> reorders sch2 -> n <= length sizes ->
  compute_cgraph O E K ordered t sizes sch1 sch2 old = Ok g ->
  length g = n /\
  forall i r, nth_error g i = Some r -> StronglySorted lt r /\
    forall j, In j r -> i <> j /\ (exists r', nth_error g j = Some r' /\ In i r') /\
      exists p q s1 s2 x1 x2, vertex ordered p i /\ vertex ordered q j /\ nth_error sizes i = Some s1 /\ nth_error sizes j = Some s2 /\
        feq O s1 (fofZ O 0%Z) = false /\ feq O s2 (fofZ O 0%Z) = false /\
        row (firstn (dim c) (t_parts t)) p x1 /\ row (firstn (dim c) (t_parts t)) q x2 /\
        overlap O (extent O s1 x1) (extent O s2 x2) = true.
Proof.
  intros ordered sizes sch1 sch2 old g R1 R2 Hs Hg.
  pose proof (graph_spec O E K t Hinv ordered sizes sch1 sch2 old R1 R2 Hs (ok_representable _ _ _ _ _ _ Hg)) as HG.
  destruct (extras O E K ordered t sizes leaves) as [evs| |] eqn:Hev; [|congruence|congruence].
  destruct HG as (g' & Hg' & Lg & HG). rewrite Hg in Hg'. injection Hg' as <-. split; [exact Lg|].
  intros i r Hr. destruct (HG i r Hr) as [HS HI]. split; [exact HS|]. intros j Hj. apply HI in Hj.
  destruct Hj as (p & q & Hne & (k & Mp & Mq) & HH & Lp & Lq).
  pose proof (member_lt O E K t Hinv ordered sizes evs k p Hev Mp) as Hp. pose proof (member_lt O E K t Hinv ordered sizes evs k q Hev Mq) as Hq.
  split; [|split].
  - intros ->. apply Hne. exact (label_inj O E t Hinv ordered p q j Lp Lq).
  - destruct (label_ok O E t Hinv ordered q Hq) as (j' & Lj & Hjn). rewrite Lq in Lj. injection Lj as <-.
    destruct (nth_error g j) as [r'|] eqn:Hr'; [|apply nth_error_None in Hr'; lia]. exists r'. split; [reflexivity|].
    apply (proj2 (HG j r' Hr')). exists q, p. split; [congruence|]. split; [eauto|]. split; [now apply hit_sym|]. auto.
  - destruct HH as (s1 & s2 & x1 & x2 & S1 & S2 & Z1 & Z2 & X1 & X2 & OV).
    exists p, q, s1, s2, x1, x2. unfold aabb_of in S1, S2. rewrite Lp in S1. rewrite Lq in S2. cbn [bind] in S1, S2. apply rd_Ok in S1. apply rd_Ok in S2.
    apply row_position in X1; [|exact Hp]. apply row_position in X2; [|exact Hq].
    rewrite <- !vertex_label. repeat split; auto.
Qed.

(** C38 *)
Lemma mapM_congr : forall {A B} (f g : A -> outcome B) l, (forall a, f a = g a) -> mapM f l = mapM g l.
Proof. intros. now apply mapM_ext. Qed.

Lemma extra_ext : forall o1 s1 o2 s2, (forall p, aabb_of o1 t s1 p = aabb_of o2 t s2 p) ->
  extras O E K o1 t s1 leaves = extras O E K o2 t s2 leaves.
Proof.
  intros o1 s1 o2 s2 H. unfold extras. erewrite mapM_congr; [reflexivity|]. intros nd. apply mapM_congr. intros p.
  unfold extra. now rewrite H.
Qed.

Lemma relabel : forall sizes sizes' sch1 sch2 sch1' sch2' old old', reorders sch1 -> reorders sch2 -> reorders sch1' -> reorders sch2' ->
  n <= length sizes -> permuted (t_perm t) sizes sizes' ->
  match compute_cgraph O E K true t sizes sch1 sch2 old, compute_cgraph O E K false t sizes' sch1' sch2' old' with
  | Ok go, Ok gu => length go = length gu /\
      forall p i r r', nth_error (t_perm t) p = Some i -> nth_error gu p = Some r -> nth_error go i = Some r' ->
        r' = usort (map (fun q => nth q (t_perm t) 0) r)
  | Throw e, Throw e' => e = e'
  | UB, UB => True
  | _, _ => False
  end.
Proof.
  intros sizes sizes' sch1 sch2 sch1' sch2' old old' R1 R2 R1' R2' Hs Hperm.
  pose proof (is_perm_length _ _ (inv_perm _ _ _ Hinv)) as LP.
  assert (Hs' : n <= length sizes') by (destruct Hperm as [HL _]; lia).
  assert (Hsz : forall p, aabb_of true t sizes p = aabb_of false t sizes' p).
  { intros p. unfold aabb_of, label. cbn [bind]. unfold rd at 1. destruct (nth_error (t_perm t) p) as [i|] eqn:Hp; cbn [bind].
    - destruct Hperm as [_ HP]. destruct (HP p i Hp) as [HE _]. unfold rd. now rewrite HE.
    - symmetry. apply rd_UB. destruct Hperm as [HL _]. apply nth_error_None in Hp. lia. }
  destruct (N.le_gt_cases (N.of_nat n) diff_max) as [D1|D1]; [destruct (N.le_gt_cases (N.of_nat (length (t_nodes t))) diff_max) as [D2|D2]|].
  2: { unfold compute_cgraph. rewrite (nparts_codes O E t Hinv), (diff_ok n D1). cbn [bind].
       assert (HB : it_diff_check (length (t_nodes t)) = Throw OverflowError) by (unfold it_diff_check; destruct (N.ltb_spec diff_max (N.of_nat (length (t_nodes t)))); [reflexivity|lia]).
       rewrite HB. reflexivity. }
  2: { unfold compute_cgraph. rewrite (nparts_codes O E t Hinv).
       assert (HB : it_diff_check n = Throw OverflowError) by (unfold it_diff_check; destruct (N.ltb_spec diff_max (N.of_nat n)); [reflexivity|lia]).
       rewrite HB. reflexivity. }
  pose proof (graph_spec O E K t Hinv true sizes sch1 sch2 old R1 R2 Hs (conj D1 D2)) as Go.
  pose proof (graph_spec O E K t Hinv false sizes' sch1' sch2' old' R1' R2' Hs' (conj D1 D2)) as Gu.
  rewrite (extra_ext true sizes false sizes' Hsz) in Go.
  destruct (extras O E K false t sizes' leaves) as [evs| |] eqn:Hev; [|rewrite Go, Gu; reflexivity|rewrite Go, Gu; reflexivity].
  destruct Go as (go & -> & Lo & Go). destruct Gu as (gu & -> & Lu & Gu). split; [congruence|].
  assert (Hhit : forall p q, hit O E t true sizes p q <-> hit O E t false sizes' p q).
  { intros p q. unfold hit. now setoid_rewrite Hsz. }
  intros p i r r' Hp Hr Hr'. destruct (Gu p r Hr) as [S1 I1]. destruct (Go i r' Hr') as [S2 I2].
  apply sorted_unique; [exact S2|apply usort_sorted|]. intros j. rewrite usort_in, I2, in_map_iff. split.
  - intros (a & b & Hne & HM & HH & La & Lb). cbn in La, Lb. apply rd_Ok in La. apply rd_Ok in Lb.
    pose proof (is_perm_inj _ _ _ _ _ (inv_perm _ _ _ Hinv) Hp La) as <-.
    exists b. split; [now apply nth_error_nth|]. apply I1. exists p, b. split; [exact Hne|]. split; [exact HM|]. split; [now apply Hhit|]. split; reflexivity.
  - intros (b & Eb & Hb). apply I1 in Hb. destruct Hb as (a & b' & Hne & HM & HH & La & Lb). cbn in La, Lb. injection La as ->. injection Lb as ->.
    destruct HM as (k & Ma & Mb). pose proof (member_lt O E K t Hinv false sizes' evs k b Hev Mb) as Hbn.
    exists p, b. split; [exact Hne|]. split; [eauto|]. split; [now apply Hhit|]. cbn [label]. rewrite !rd_Ok. split; [exact Hp|].
    destruct (is_perm_at _ _ b (inv_perm _ _ _ Hinv) Hbn) as (j' & Hj & _). rewrite (nth_error_nth _ _ _ Hj) in Eb. congruence.
Qed.

(** C40 and the absence of undefined behaviour *)
Definition disc_total : Prop := forall x inv, match disc_single_coord O c true x inv with Ok _ => True | Throw e => e = InvalidArgument | UB => False end.

Lemma aabb_codes_class : disc_total -> forall xs s inv, length xs = dim c ->
  (exists vs, aabb_codes O E xs s inv = Ok vs) \/ aabb_codes O E xs s inv = Throw InvalidArgument.
Proof.
  intros HD xs s inv HL. unfold aabb_codes.
  assert (HM : (exists mm, min_max O s xs = Ok mm) \/ min_max O s xs = Throw InvalidArgument).
  { unfold min_max. edestruct (@mapM_class F (F * F)) as [HC|[HC _]]; [|left; exact HC|right; exact HC].
    intros x _. cbv beta zeta. destruct (_ || _ || _); eauto. }
  destruct HM as [(mm & Hmm)|Hmm]; rewrite Hmm; cbn [bind]; [|now right].
  pose proof (min_max_inv O _ _ _ Hmm) as Emm. assert (Lm : length mm = dim c) by (rewrite Emm, map_length; exact HL). clear Emm Hmm.
  edestruct (@mapM_class nat N) as [HC|[HC _]]; [|left; exact HC|right; exact HC].
  intros i _. cbv beta.
  destruct (mapM_class (fun '(j, (mn, mx)) => disc_single_coord O c true (if N.testbit (N.of_nat i) (N.of_nat j) then mx else mn) inv) InvalidArgument (combine (seq 0 (length mm)) mm)) as [(ds & Hds)|[Hds _]].
  { intros [j [mn mx]] _. specialize (HD (if N.testbit (N.of_nat i) (N.of_nat j) then mx else mn) inv).
    destruct (disc_single_coord O c true _ inv) as [k|e|]; [eauto|right; now f_equal|destruct HD]. }
  - rewrite Hds. cbn [bind]. left. destruct (encode_total E ds) as (x & -> & _); [| |eauto].
    + apply mapM_Ok in Hds. destruct Hds as [-> _]. rewrite combine_length, seq_length. lia.
    + apply Forall_forall. intros k Hk. destruct (mapM_in _ _ _ _ Hds Hk) as ([j [mn mx]] & _ & HDD). exact (disc_lt O c true _ _ _ HDD).
  - rewrite Hds. now right.
Qed.

Lemma outcomes : forall ordered sizes sch1 sch2 old, disc_total -> shift_ok E K leaves -> reorders sch1 -> reorders sch2 -> n <= length sizes -> representable t ->
  ((exists g, compute_cgraph O E K ordered t sizes sch1 sch2 old = Ok g) \/ compute_cgraph O E K ordered t sizes sch1 sch2 old = Throw InvalidArgument) /\
  (forall i s, i < n -> nth_error sizes i = Some s -> ffin O s = false \/ flt O s (fofZ O 0%Z) = true ->
     compute_cgraph O E K ordered t sizes sch1 sch2 old = Throw InvalidArgument).
Proof.
  intros ordered sizes sch1 sch2 old HD HK R1 R2 Hs Hrep.
  pose proof (graph_spec O E K t Hinv ordered sizes sch1 sch2 old R1 R2 Hs Hrep) as HG.
  assert (HX : forall kl lnode p, nth_error leaves kl = Some lnode -> n_begin lnode <= p < n_end lnode ->
    (exists evs, extra O E K ordered t sizes leaves lnode p = Ok evs) \/ extra O E K ordered t sizes leaves lnode p = Throw InvalidArgument).
  { intros kl lnode p Hkl Hp. destruct (extra_cases O E K t Hinv HK ordered sizes Hs kl lnode p Hkl Hp) as (s & xs & _ & _ & Lx & HC).
    destruct (bad_size O s); [now right|]. destruct (feq O s (fofZ O 0)); [eauto|].
    destruct (aabb_codes_class HD xs s (fdiv O (fofZ O 1) (t_box t)) Lx) as [(vs & Hvs)|Hvs]; rewrite Hvs in HC; [|now right].
    destruct HC as (evs & HC & _). eauto. }
  destruct (extras_class O E K t ordered sizes InvalidArgument HX) as [(evs & Hev)|[Hev _]]; rewrite Hev in HG.
  - destruct HG as (g & Hg & _). split; [eauto|]. intros i s Hi Hsi Hbad. exfalso.
    assert (exists p, p < n /\ label ordered t p = Ok i) as (p & Hp & Lp).
    { unfold label. destruct ordered; [|eauto].
      pose proof (proj2 (is_perm_In _ _ (inv_perm _ _ _ Hinv) i) Hi) as Hin. apply In_nth_error in Hin. destruct Hin as (p & Hp).
      exists p. split; [|now apply rd_Ok]. rewrite <- (is_perm_length _ _ (inv_perm _ _ _ Hinv)). eapply nth_error_lt. exact Hp. }
    destruct (own_leaf O E t Hinv p Hp) as (kl & lnode & Hkl & Hr).
    destruct (extra_cases O E K t Hinv HK ordered sizes Hs kl lnode p Hkl Hr) as (s' & xs & Es & _ & _ & HC).
    unfold aabb_of in Es. rewrite Lp in Es. cbn [bind] in Es. apply rd_Ok in Es. rewrite Hsi in Es. injection Es as <-.
    assert (HB : bad_size O s = true) by (unfold bad_size; destruct Hbad as [-> | ->]; [reflexivity|apply orb_true_r]). rewrite HB in HC.
    destruct (extras_each O E K t ordered sizes evs Hev kl lnode p Hkl Hr) as (l & Hl & _). congruence.
  - split; [now right|]. intros. exact HG.
Qed.

Lemma empty_graph : forall ordered sizes sch1 sch2 old, t_codes t = [] -> reorders sch1 -> reorders sch2 ->
  compute_cgraph O E K ordered t sizes sch1 sch2 old = Ok [].
Proof.
  intros ordered sizes sch1 sch2 old Hn R1 R2.
  assert (HN : n = 0) by (now rewrite Hn).
  pose proof (inv_nodes _ _ _ Hinv 0 (fun l => l) (fun l => l) (fun l => Permutation_refl l) (fun l => Permutation_refl l)) as Hb.
  rewrite Hn in Hb. cbn in Hb. injection Hb as Hb _.
  pose proof (graph_spec O E K t Hinv ordered sizes sch1 sch2 old R1 R2) as HG. rewrite HN in HG. specialize (HG ltac:(lia)).
  assert (HR : representable t) by (unfold representable; rewrite HN, <- Hb; cbn; split; apply N.le_0_l). specialize (HG HR).
  rewrite <- Hb in HG. cbn in HG. destruct HG as (g & Hg & Lg & _). destruct g; [exact Hg|discriminate].
Qed.

(** Completeness in any arithmetic: a common cell. *)
Lemma complete_any : forall ordered sizes sch1 sch2 old g, shift_ok E K leaves -> reorders sch1 -> reorders sch2 -> n <= length sizes ->
  compute_cgraph O E K ordered t sizes sch1 sch2 old = Ok g ->
  forall p q i j s1 s2 x1 x2 rs1 rs2 dc r, p <> q -> p < n -> q < n -> vertex ordered p i -> vertex ordered q j ->
  nth_error sizes i = Some s1 -> nth_error sizes j = Some s2 -> feq O s1 (fofZ O 0%Z) = false -> feq O s2 (fofZ O 0%Z) = false ->
  row (firstn (dim c) (t_parts t)) p x1 -> row (firstn (dim c) (t_parts t)) q x2 -> overlap O (extent O s1 x1) (extent O s2 x2) = true ->
  Forall2 (fun x r => disc_extent O E x s1 (fdiv O (fofZ O 1%Z) (t_box t)) r) x1 rs1 ->
  Forall2 (fun x r => disc_extent O E x s2 (fdiv O (fofZ O 1%Z) (t_box t)) r) x2 rs2 ->
  Forall (fun r => let sh := (cb - size_to_level O E s1 (t_box t))%N in (N.shiftr (snd r) sh <= N.shiftr (fst r) sh + 1)%N) rs1 ->
  Forall (fun r => let sh := (cb - size_to_level O E s2 (t_box t))%N in (N.shiftr (snd r) sh <= N.shiftr (fst r) sh + 1)%N) rs2 ->
  Forall2 (fun k r => (fst r <= k <= snd r)%N) dc rs1 -> Forall2 (fun k r => (fst r <= k <= snd r)%N) dc rs2 ->
  nth_error g i = Some r -> In j r.
Proof.
  intros ordered sizes sch1 sch2 old g HK R1 R2 Hs Hg p q i j s1 s2 x1 x2 rs1 rs2 dc r Hne Hp Hq Vp Vq S1 S2 Z1 Z2 X1 X2 OV D1 D2 P1 P2 C1 C2 Hr.
  pose proof (graph_spec O E K t Hinv ordered sizes sch1 sch2 old R1 R2 Hs (ok_representable _ _ _ _ _ _ Hg)) as HG.
  destruct (extras O E K ordered t sizes leaves) as [evs| |] eqn:Hev; [|congruence|congruence].
  destruct HG as (g' & Hg' & Lg & HG). rewrite Hg in Hg'. injection Hg' as <-.
  apply vertex_label in Vp. apply vertex_label in Vq.
  assert (A1 : aabb_of ordered t sizes p = Ok s1) by (unfold aabb_of; rewrite Vp; cbn [bind]; now apply rd_Ok).
  assert (A2 : aabb_of ordered t sizes q = Ok s2) by (unfold aabb_of; rewrite Vq; cbn [bind]; now apply rd_Ok).
  apply row_position in X1; [|exact Hp]. apply row_position in X2; [|exact Hq].
  apply (proj2 (HG i r Hr)). exists p, q. split; [exact Hne|]. split; [|split; [exists s1, s2, x1, x2; tauto|tauto]].
  assert (HLT : forall rs s xs, Forall2 (fun x r => disc_extent O E x s (fdiv O (fofZ O 1%Z) (t_box t)) r) xs rs -> Forall2 (fun k r => (fst r <= k <= snd r)%N) dc rs -> Forall (fun k => (k < 2 ^ cb)%N) dc).
  { clear. intros rs s xs HD. revert dc. induction HD as [|x r xs rs [D1 D2] HD IH]; intros dc HC; inversion HC; subst; constructor; [|auto].
    pose proof (disc_lt O c true _ _ _ D2). lia. }
  pose proof (HLT _ _ _ D1 C1) as Fdc.
  assert (Lx1 : length x1 = dim c) by (destruct (position_ok O E t Hinv p Hp) as (x' & HX & HLx & _); congruence).
  assert (Ldc : length dc = dim c) by (rewrite (Forall2_length_eq _ _ _ C1), <- (Forall2_length_eq _ _ _ D1); exact Lx1).
  destruct (encode_total E dc Ldc Fdc) as (x & Hx & _).
  assert (HCV : forall p s xs rs, p < n -> aabb_of ordered t sizes p = Ok s -> feq O s (fofZ O 0%Z) = false -> position E t p = Ok xs ->
    Forall2 (fun x r => disc_extent O E x s (fdiv O (fofZ O 1%Z) (t_box t)) r) xs rs ->
    Forall (fun r => let sh := (cb - size_to_level O E s (t_box t))%N in (N.shiftr (snd r) sh <= N.shiftr (fst r) sh + 1)%N) rs ->
    Forall2 (fun k r => (fst r <= k <= snd r)%N) dc rs -> covers E t evs x p).
  { clear - Hinv HK Hs Hev Hx Fdc. intros p s xs rs Hp Es Z Ex D P C.
    destruct (own_leaf O E t Hinv p Hp) as (kl & lnode & Hkl & Hr).
    destruct (extra_cases O E K t Hinv HK ordered sizes Hs kl lnode p Hkl Hr) as (s' & xs' & Es' & Ex' & Lx & HC).
    rewrite Es in Es'. injection Es' as <-. rewrite Ex in Ex'. injection Ex' as <-.
    destruct (extras_each O E K t ordered sizes evs Hev kl lnode p Hkl Hr) as (l' & Hl' & Hsub).
    destruct (bad_size O s); [congruence|]. rewrite Z in HC.
    destruct (aabb_codes O E xs s (fdiv O (fofZ O 1) (t_box t))) as [vs| |] eqn:Hvs; [|congruence|congruence].
    destruct HC as (l & Hl & Hadd). rewrite Hl in Hl'. injection Hl' as <-.
    destruct (aabb_codes_inv O E xs s _ vs Lx Hvs) as (rs' & Hrs & Frs & Hpick & _).
    assert (rs' = rs).
    { clear - Hrs D. revert rs D. induction Hrs as [|x r xs rs' [A1 A2] Hrs IH]; intros rs D; inversion D as [|? r0 ? rs0 [B1 B2] D']; subst; [reflexivity|].
      f_equal; [|auto]. destruct r, r0. cbn [fst snd] in *. congruence. }
    subst rs'.
    apply (cover_point O E t Hinv sizes Hs kl lnode p s l vs evs dc x rs); auto.
    - rewrite <- (Forall2_length_eq _ _ _ D). exact Lx.
    - clear - C Fdc. induction C; inversion Fdc; subst; constructor; auto. }
  apply (covers_share O E t Hinv sizes Hs evs x p q); eapply HCV; eauto.
Qed.

Lemma row_unique : forall p (cols : list (list F)) xs xs', row cols p xs -> row cols p xs' -> xs = xs'.
Proof.
  intros p cols xs xs' H. unfold row in *. revert xs'. induction H; intros xs' HH; inversion HH; subst; [reflexivity|]. f_equal; [congruence|auto].
Qed.

(** If the graph is computed then so are the vertices of every cube. *)
Lemma extents_exist : forall ordered sizes sch1 sch2 old g, shift_ok E K leaves -> reorders sch1 -> reorders sch2 -> n <= length sizes ->
  compute_cgraph O E K ordered t sizes sch1 sch2 old = Ok g ->
  forall p i s xs, p < n -> vertex ordered p i -> nth_error sizes i = Some s -> feq O s (fofZ O 0%Z) = false -> row (firstn (dim c) (t_parts t)) p xs ->
  length xs = dim c /\ exists rs, Forall2 (fun x r => disc_extent O E x s (fdiv O (fofZ O 1%Z) (t_box t)) r) xs rs.
Proof.
  intros ordered sizes sch1 sch2 old g HK R1 R2 Hs Hg p i s xs Hp Vp S1 Z1 X1.
  pose proof (graph_spec O E K t Hinv ordered sizes sch1 sch2 old R1 R2 Hs (ok_representable _ _ _ _ _ _ Hg)) as HG.
  destruct (extras O E K ordered t sizes leaves) as [evs| |] eqn:Hev; [|congruence|congruence].
  apply vertex_label in Vp.
  assert (A1 : aabb_of ordered t sizes p = Ok s) by (unfold aabb_of; rewrite Vp; cbn [bind]; now apply rd_Ok).
  apply row_position in X1; [|exact Hp].
  destruct (own_leaf O E t Hinv p Hp) as (kl & lnode & Hkl & Hr).
  destruct (extra_cases O E K t Hinv HK ordered sizes Hs kl lnode p Hkl Hr) as (s' & xs' & Es' & Ex' & Lx & HC).
  rewrite A1 in Es'. injection Es' as <-. rewrite X1 in Ex'. injection Ex' as <-. split; [exact Lx|].
  destruct (extras_each O E K t ordered sizes evs Hev kl lnode p Hkl Hr) as (l' & Hl' & Hsub).
  destruct (bad_size O s); [congruence|]. rewrite Z1 in HC.
  destruct (aabb_codes O E xs s (fdiv O (fofZ O 1) (t_box t))) as [vs| |] eqn:Hvs; [|congruence|congruence].
  destruct (aabb_codes_inv O E xs s _ vs Lx Hvs) as (rs' & Hrs & _). eauto.
Qed.

End Any.

(** The discretisation with clamping always has a value or throws. *)
Lemma disc_total_R : forall E, disc_total Rops E.
Proof. intros E x inv. destruct (disc_clamp_R E x inv) as (k & -> & _). exact I. Qed.

Lemma disc_total_B : forall prec emax (Hprec : Prec_gt_0 prec) (Hemax : Prec_lt_emax prec emax) fused E,
  (2 <= prec)%Z -> (Z.of_N (cbitsc (e_cfg E)) < emax)%Z -> disc_total (Bops prec emax Hprec Hemax fused) E.
Proof.
  intros prec emax Hprec Hemax fused E Hp Hc x inv. pose proof (disc_range prec emax Hprec Hemax fused Hp (e_cfg E) Hc true x inv) as H.
  destruct (disc_single_coord _ _ _ _ _); auto.
Qed.
