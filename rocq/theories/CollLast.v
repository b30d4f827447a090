(** The statements of the collision properties for reachable trees. *)
From Coq Require Import List Arith ZArith NArith Bool Lia Permutation Sorted Reals Lra.
From Flocq Require Import Core BinarySingleNaN.
From Verif Require Import Base Config Morton MortonProofs CodesProofs Build TreeSpec BuildSpec BuildProofs BuildProps FOps FOpsProofs Disc DiscProofs BoxAccept NodeProps Tree TreeInv TreeProofs NodeGeom Kernels
  Coll CollSearch CollProofs CollCover CollR CollProps CollFloat CollShift.
Import ListNotations.
Local Open Scope nat_scope.

(** The shift by the full width gives zero, or leaves the value unchanged and there is no leaf at the maximum depth. *)
Definition full_shift {F} (E : env) (K : platform F) (t : @tree F) : Prop :=
  let w := width (e_cfg E) in
  k_ovs K (2 ^ w - 1)%N w = Ok 0%N \/
  k_ovs K (2 ^ w - 1)%N w = Ok (2 ^ w - 1)%N /\ forall nd, In nd (t_nodes t) -> n_children nd = 0 -> (n_level nd < cbitsc (e_cfg E))%N.

Lemma full_shift_ok : forall {F} (E : env) (K : platform F) (t : @tree F), full_shift E K t -> shift_ok E K (coll_leaves (t_nodes t)).
Proof.
  intros F E K t [H|[H1 H2]]; [now left|right]. split; [exact H1|]. intros k nd Hk. apply nth_error_In in Hk. apply filter_In in Hk.
  destruct Hk as [A B]. apply Nat.eqb_eq in B. auto.
Qed.

(** The number of nodes is bounded by the number of particles times the number of levels. *)
Lemma small_representable : forall {F} (O : fops F) (E : env) (t : @tree F), tree_inv O E t ->
  (N.of_nat (length (t_codes t)) * cbitsc (e_cfg E) < diff_max)%N -> representable t.
Proof.
  intros F O E t Hinv D. pose proof (cbitsc_spec (e_cfg E)) as [_ Hcb].
  pose proof (inv_nodes _ _ _ Hinv 0 (fun l => l) (fun l => l) (fun l => Permutation_refl l) (fun l => Permutation_refl l)) as Hb.
  pose proof (no_overflow (e_cfg E) (t_codes t) (t_mln t) (t_ncrit t) _ (cnp O E (t_parts t) (t_box t)) (inv_valid_codes O E t Hinv) 0 (fun l => l) (fun l => l)
    (fun l => Permutation_refl l) (fun l => Permutation_refl l)) as HN.
  rewrite Hb in HN. assert (HD : (diff_max < 2 ^ 64 - 1)%N) by (vm_compute; reflexivity).
  destruct HN as [HN _]; [lia|]. unfold representable. split; [nia|].
  rewrite <- (N2Nat.id (cbitsc (e_cfg E))) in D. lia.
Qed.

(** C35, exact arithmetic *)
Lemma exact_edges : forall (E : env) (K : platform R) (t : @tree R) ordered sizes sch1 sch2 old, env_ok E -> reachable Rops E t -> (0 < t_box t)%R -> full_shift E K t ->
  reorders sch1 -> reorders sch2 -> length (t_codes t) <= length sizes ->
  (N.of_nat (length (t_codes t)) * cbitsc (e_cfg E) < diff_max)%N ->
  (forall s, In s sizes -> (0 <= s)%R) ->
  exists g, compute_cgraph Rops E K ordered t sizes sch1 sch2 old = Ok g /\ length g = length (t_codes t) /\
    forall p q i j s1 s2 x1 x2 r, p < length (t_codes t) -> q < length (t_codes t) -> vertex t ordered p i -> vertex t ordered q j ->
      nth_error sizes i = Some s1 -> nth_error sizes j = Some s2 ->
      row (firstn (dim (e_cfg E)) (t_parts t)) p x1 -> row (firstn (dim (e_cfg E)) (t_parts t)) q x2 -> nth_error g i = Some r ->
      (In j r <-> p <> q /\ s1 <> 0%R /\ s2 <> 0%R /\
        exists y, Forall2 (fun x v => x - s1 / 2 <= v <= x + s1 / 2)%R x1 y /\ Forall2 (fun x v => x - s2 / 2 <= v <= x + s2 / 2)%R x2 y).
Proof.
  intros E K t ordered sizes sch1 sch2 old HE Ht Hbox HK R1 R2 Hs D Hpos. pose proof (reachable_inv Rops E HE t Ht) as Hinv.
  destruct (exact_graph E K t Hinv (full_shift_ok E K t HK) Hbox ordered sizes Hs sch1 sch2 old R1 R2 (small_representable _ E t (reachable_inv _ E HE t Ht) D)) as (g & Hg & Lg & HG).
  { intros i s _ Hi. apply Hpos. eapply nth_error_In. exact Hi. }
  exists g. split; [exact Hg|]. split; [exact Lg|]. intros p q i j s1 s2 x1 x2 r Hp Hq Vp Vq S1 S2 X1 X2 Hr.
  rewrite (proj2 (HG i r Hr) j). split.
  - intros (p' & q' & s1' & s2' & x1' & x2' & y & Hne & Lp & Lq & _ & _ & S1' & S2' & Z1 & Z2 & X1' & X2' & Y1 & Y2).
    apply vertex_label in Vp. apply vertex_label in Vq.
    pose proof (label_inj Rops E t Hinv ordered p p' i Vp Lp) as <-. pose proof (label_inj Rops E t Hinv ordered q q' j Vq Lq) as <-.
    rewrite S1 in S1'. injection S1' as <-. rewrite S2 in S2'. injection S2' as <-.
    rewrite <- (row_unique p _ _ _ X1 X1') in Y1. rewrite <- (row_unique q _ _ _ X2 X2') in Y2. repeat split; eauto.
  - intros (Hne & Z1 & Z2 & y & Y1 & Y2). exists p, q, s1, s2, x1, x2, y. apply vertex_label in Vp. apply vertex_label in Vq. repeat split; auto.
Qed.

(** C35, floating point *)
Lemma float_edges : forall (prec emax : Z) (Hprec : Prec_gt_0 prec) (Hemax : Prec_lt_emax prec emax) (fused : bool) (E : env)
  (K : platform (binary_float prec emax)) (t : @tree (binary_float prec emax)) ordered sizes sch1 sch2 old g,
  let O := Bops prec emax Hprec Hemax fused in
  let rnd := round radix2 (SpecFloat.fexp prec emax) ZnearestE in
  let cb := Z.of_N (cbitsc (e_cfg E)) in
  let good_size s := is_finite s = true /\ (bpow radix2 (3 - emax) <= B2R s)%R /\
    forall l, (1 <= l <= cb)%Z -> (B2R s < B2R (t_box t) * bpow radix2 (- l))%R ->
      (B2R s + 8 * bpow radix2 (- prec) * B2R (t_box t) <= B2R (t_box t) * bpow radix2 (- l))%R in
  (8 <= prec)%Z -> (prec + 4 <= emax)%Z -> (cb < emax)%Z -> env_ok E -> reachable O E t -> full_shift E K t ->
  is_finite (t_box t) = true -> (bpow radix2 (10 - emax) <= B2R (t_box t) <= bpow radix2 (emax - 2))%R -> (bpow radix2 (2 - emax + cb) <= B2R (t_box t))%R ->
  reorders sch1 -> reorders sch2 -> length (t_codes t) <= length sizes ->
  compute_cgraph O E K ordered t sizes sch1 sch2 old = Ok g ->
  forall p q i j s1 s2 x1 x2 r, p <> q -> p < length (t_codes t) -> q < length (t_codes t) -> vertex t ordered p i -> vertex t ordered q j ->
  nth_error sizes i = Some s1 -> nth_error sizes j = Some s2 -> good_size s1 -> good_size s2 ->
  row (firstn (dim (e_cfg E)) (t_parts t)) p x1 -> row (firstn (dim (e_cfg E)) (t_parts t)) q x2 -> nth_error g i = Some r ->
  (In j r <-> Forall2 (fun a b => rnd (B2R b - B2R s2 / 2) <= rnd (B2R a + B2R s1 / 2) /\ rnd (B2R a - B2R s1 / 2) <= rnd (B2R b + B2R s2 / 2))%R x1 x2) /\
  (Forall2 (fun a b => Rabs (B2R a - B2R b) <= (B2R s1 + B2R s2) / 2)%R x1 x2 -> In j r).
Proof.
  intros prec emax Hprec Hemax fused E K t ordered sizes sch1 sch2 old g O rnd cb good_size Hp8 Hrange Hcb HE Ht HK Fb Hb1 Hb2 R1 R2 Hs Hg
    p q i j s1 s2 x1 x2 r Hne Hp Hq Vp Vq S1 S2 (F1 & N1 & M1) (F2 & N2 & M2) X1 X2 Hr.
  assert (HM : forall s, (forall l, (1 <= l <= cb)%Z -> (B2R s < B2R (t_box t) * bpow radix2 (- l))%R ->
      (B2R s + 8 * bpow radix2 (- prec) * B2R (t_box t) <= B2R (t_box t) * bpow radix2 (- l))%R) -> roomy prec emax E (t_box t) s).
  { intros s H l Hl Hlt. apply H; [unfold cb; lia|exact Hlt]. }
  pose proof (float_graph prec emax Hprec Hemax fused Hp8 Hrange E Hcb K t (reachable_inv O E HE t Ht) ordered sizes sch1 sch2 old g
    (conj Fb Hb1) (conj Fb Hb2) (full_shift_ok E K t HK) R1 R2 Hs Hg p q i j s1 s2 x1 x2 r Hne Hp Hq Vp Vq S1 S2 (conj F1 N1) (conj F2 N2) (HM s1 M1) (HM s2 M2) X1 X2 Hr) as HF.
  split; [exact HF|]. intros H. apply HF. now apply float_graph_exact.
Qed.

(** C38 *)
Lemma relabelled : forall {F} (O : fops F) (E : env) (K : platform F) (t : @tree F) sizes sizes' sch1 sch2 sch1' sch2' old old',
  env_ok E -> reachable O E t -> reorders sch1 -> reorders sch2 -> reorders sch1' -> reorders sch2' ->
  length (t_codes t) <= length sizes -> permuted (t_perm t) sizes sizes' ->
  match compute_cgraph O E K true t sizes sch1 sch2 old, compute_cgraph O E K false t sizes' sch1' sch2' old' with
  | Ok go, Ok gu => length go = length gu /\
      forall p i r r', nth_error (t_perm t) p = Some i -> nth_error gu p = Some r -> nth_error go i = Some r' ->
        forall j, In j r' <-> exists q, In q r /\ nth_error (t_perm t) q = Some j
  | Throw e, Throw e' => e = e'
  | UB, UB => True
  | _, _ => False
  end.
Proof.
  intros F O E K t sizes sizes' sch1 sch2 sch1' sch2' old old' HE Ht R1 R2 R1' R2' Hs HP. pose proof (reachable_inv O E HE t Ht) as Hinv.
  pose proof (relabel O E K t Hinv sizes sizes' sch1 sch2 sch1' sch2' old old' R1 R2 R1' R2' Hs HP) as H.
  destruct (compute_cgraph O E K true t sizes sch1 sch2 old) as [go| |] eqn:Go; [|exact H|exact H].
  destruct (compute_cgraph O E K false t sizes' sch1' sch2' old') as [gu| |] eqn:Gu; [|exact H|exact H].
  destruct H as [HL H]. split; [exact HL|]. intros p i r r' Hp Hr Hr' j. rewrite (H p i r r' Hp Hr Hr'), usort_in, in_map_iff.
  assert (HLs : length (t_codes t) <= length sizes') by (destruct HP as [HP _]; rewrite HP, (is_perm_length _ _ (inv_perm _ _ _ Hinv)); lia).
  destruct (structure O E K t Hinv false sizes' sch1' sch2' old' gu R1' R2' HLs Gu) as [Lg HS].
  split; intros (q & A & B); exists q.
  - split; [exact B|]. destruct (proj2 (HS p r Hr) q B) as (_ & (r'' & Hq & _) & _). apply nth_error_lt in Hq. rewrite Lg in Hq.
    destruct (is_perm_at _ _ q (inv_perm _ _ _ Hinv) Hq) as (j' & Hj & _). rewrite (nth_error_nth _ _ _ Hj) in A. congruence.
  - split; [|exact A]. now apply nth_error_nth.
Qed.

(** C40 *)
Lemma rejected : forall (prec emax : Z) (Hprec : Prec_gt_0 prec) (Hemax : Prec_lt_emax prec emax) (fused : bool) (E : env)
  (K : platform (binary_float prec emax)) (t : @tree (binary_float prec emax)) ordered sizes sch1 sch2 old,
  let O := Bops prec emax Hprec Hemax fused in
  (2 <= prec)%Z -> (Z.of_N (cbitsc (e_cfg E)) < emax)%Z -> env_ok E -> reachable O E t -> full_shift E K t ->
  reorders sch1 -> reorders sch2 -> length (t_codes t) <= length sizes ->
  (N.of_nat (length (t_codes t)) * cbitsc (e_cfg E) < diff_max)%N ->
  ((exists g, compute_cgraph O E K ordered t sizes sch1 sch2 old = Ok g) \/ compute_cgraph O E K ordered t sizes sch1 sch2 old = Throw InvalidArgument) /\
  (forall i s, i < length (t_codes t) -> nth_error sizes i = Some s -> is_finite s = false \/ (B2R s < 0)%R ->
     compute_cgraph O E K ordered t sizes sch1 sch2 old = Throw InvalidArgument).
Proof.
  intros prec emax Hprec Hemax fused E K t ordered sizes sch1 sch2 old O Hp2 Hcb HE Ht HK R1 R2 Hs D.
  destruct (outcomes O E K t (reachable_inv O E HE t Ht) ordered sizes sch1 sch2 old (disc_total_B prec emax Hprec Hemax fused E Hp2 Hcb) (full_shift_ok E K t HK) R1 R2 Hs (small_representable _ E t (reachable_inv _ E HE t Ht) D)) as [A B].
  split; [exact A|]. intros i s Hi Hsi Hbad. apply (B i s Hi Hsi). destruct (is_finite s) eqn:Fs; [right|now left].
  destruct Hbad as [Hbad|Hbad]; [discriminate|]. apply (ltb_lt prec emax); [exact Fs|reflexivity|exact Hbad].
Qed.

(** C39, for formats of floating point: when the shift is not reached *)
Lemma never_undefined : forall (prec emax : Z) (Hprec : Prec_gt_0 prec) (Hemax : Prec_lt_emax prec emax) (fused : bool) (E : env)
  (K : platform (binary_float prec emax)) (t : @tree (binary_float prec emax)) ordered sizes sch1 sch2 old,
  let O := Bops prec emax Hprec Hemax fused in
  (2 <= prec)%Z -> (Z.of_N (cbitsc (e_cfg E)) < emax)%Z -> env_ok E -> reachable O E t ->
  reorders sch1 -> reorders sch2 -> length (t_codes t) <= length sizes ->
  (N.of_nat (length (t_codes t)) * cbitsc (e_cfg E) < diff_max)%N ->
  (forall nd, In nd (t_nodes t) -> n_children nd = 0 -> (n_level nd < cbitsc (e_cfg E))%N) ->
  (forall s, In s sizes -> feq O s (fofZ O 0%Z) = true \/
     exists k, 1 <= k <= N.to_nat (cbitsc (e_cfg E)) /\ fle O (halved O k (t_box t)) s = true) ->
  (exists g, compute_cgraph O E K ordered t sizes sch1 sch2 old = Ok g) \/ compute_cgraph O E K ordered t sizes sch1 sch2 old = Throw InvalidArgument.
Proof.
  intros prec emax Hprec Hemax fused E K t ordered sizes sch1 sch2 old O Hp2 Hcb HE Ht R1 R2 Hs D HL HS.
  exact (defined O E t (reachable_inv O E HE t Ht) K ordered sizes sch1 sch2 old (disc_total_B prec emax Hprec Hemax fused E Hp2 Hcb) R1 R2 Hs (small_representable _ E t (reachable_inv _ E HE t Ht) D) HL HS).
Qed.

(** C35, one direction in any arithmetic: only particles whose computed extents meet are connected. *)
Lemma edges_meet : forall {F} (O : fops F) (E : env) (K : platform F) (t : @tree F) ordered sizes sch1 sch2 old g,
  env_ok E -> reachable O E t -> reorders sch1 -> reorders sch2 -> length (t_codes t) <= length sizes ->
  compute_cgraph O E K ordered t sizes sch1 sch2 old = Ok g ->
  let lower s x := ffma O s (fdiv O (fopp O (fofZ O 1%Z)) (fofZ O 2%Z)) x in
  let upper s x := ffma O s (fdiv O (fofZ O 1%Z) (fofZ O 2%Z)) x in
  forall i j r, nth_error g i = Some r -> In j r ->
    exists p q s1 s2 x1 x2, p <> q /\ vertex t ordered p i /\ vertex t ordered q j /\ nth_error sizes i = Some s1 /\ nth_error sizes j = Some s2 /\
      feq O s1 (fofZ O 0%Z) = false /\ feq O s2 (fofZ O 0%Z) = false /\
      row (firstn (dim (e_cfg E)) (t_parts t)) p x1 /\ row (firstn (dim (e_cfg E)) (t_parts t)) q x2 /\
      Forall2 (fun a b => fle O (lower s2 b) (upper s1 a) = true /\ fle O (lower s1 a) (upper s2 b) = true) x1 x2.
Proof.
  intros F O E K t ordered sizes sch1 sch2 old g HE Ht R1 R2 Hs Hg lower upper i j r Hr Hj.
  destruct (structure O E K t (reachable_inv O E HE t Ht) ordered sizes sch1 sch2 old g R1 R2 Hs Hg) as [_ HS].
  destruct (HS i r Hr) as [_ H]. destruct (H j Hj) as (Hne & _ & p & q & s1 & s2 & x1 & x2 & Vp & Vq & S1 & S2 & Z1 & Z2 & X1 & X2 & OV).
  exists p, q, s1, s2, x1, x2. split; [intros ->; unfold vertex in *; destruct ordered; congruence|]. repeat (split; [assumption|]).
  assert (HL : length x1 = length x2) by (rewrite <- (Forall2_len _ _ _ X1), <- (Forall2_len _ _ _ X2); reflexivity).
  clear - OV HL. revert x2 HL OV. induction x1 as [|a x1 IH]; intros [|b x2] HL OV; try discriminate; constructor.
  - cbn in OV. apply andb_prop in OV. destruct OV as [OV _]. now apply andb_prop in OV.
  - apply IH; [now injection HL|]. cbn in OV. now apply andb_prop in OV.
Qed.

(** C36 *)
Lemma well_formed : forall {F} (O : fops F) (E : env) (K : platform F) (t : @tree F) ordered sizes sch1 sch2 old g,
  env_ok E -> reachable O E t -> reorders sch1 -> reorders sch2 -> length (t_codes t) <= length sizes ->
  compute_cgraph O E K ordered t sizes sch1 sch2 old = Ok g ->
  length g = length (t_codes t) /\
  (forall i r, nth_error g i = Some r -> StronglySorted lt r /\ ~ In i r) /\
  (forall i j r, nth_error g i = Some r -> In j r -> exists r', nth_error g j = Some r' /\ In i r').
Proof.
  intros F O E K t ordered sizes sch1 sch2 old g HE Ht R1 R2 Hs Hg.
  destruct (structure O E K t (reachable_inv O E HE t Ht) ordered sizes sch1 sch2 old g R1 R2 Hs Hg) as [L HS].
  split; [exact L|]. split.
  - intros i r Hr. destruct (HS i r Hr) as [A B]. split; [exact A|]. intros Hi. now destruct (B i Hi).
  - intros i j r Hr Hj. destruct (HS i r Hr) as [_ B]. now destruct (B j Hj) as (_ & H & _).
Qed.
