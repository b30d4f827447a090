(** Properties C35-C40: the collision graph.
    [sch1] and [sch2] are the orders in which the concurrent tasks append to the lists of extra particles of the leaves and to
    the rows of the graph; [old] is the content of the graph passed in. [vertex t ordered p i]: the tree particle [p] is the
    vertex [i]; [full_shift] describes what the machine does when the code range of a cell at the maximum level is computed. *)
From Coq Require Import List Arith ZArith NArith Reals Bool Lra Lia Permutation Sorted.
From Flocq Require Import Core BinarySingleNaN.
From Verif Require Import Base Config Morton Build TreeSpec FOps Disc NodeProps Tree TreeInv TreeProofs TreeEx Kernels ForceTop ForceEx
  Coll CollProofs CollProps CollShift CollLast CollEx CollWit.
Import ListNotations.
Local Open Scope nat_scope.

(** C35 in exact arithmetic: an edge exactly when both sizes are non-zero and the closed cubes have a common point. *)
Theorem C35_edges_are_overlaps :
  forall (E : env) (K : platform R) (t : @tree R) (ordered : bool) (sizes : list R) sch1 sch2 old
    (HE : env_ok E) (Ht : reachable Rops E t) (Hbox : (0 < t_box t)%R) (HK : full_shift E K t) (R1 : reorders sch1) (R2 : reorders sch2)
    (Hlen : length (t_codes t) <= length sizes) (Hn : (N.of_nat (length (t_codes t)) * cbitsc (e_cfg E) < diff_max)%N)
    (Hsizes : forall s, In s sizes -> (0 <= s)%R),
  exists g, compute_cgraph Rops E K ordered t sizes sch1 sch2 old = Ok g /\ length g = length (t_codes t) /\
    forall p q i j s1 s2 x1 x2 r, p < length (t_codes t) -> q < length (t_codes t) -> vertex t ordered p i -> vertex t ordered q j ->
      nth_error sizes i = Some s1 -> nth_error sizes j = Some s2 ->
      row (firstn (dim (e_cfg E)) (t_parts t)) p x1 -> row (firstn (dim (e_cfg E)) (t_parts t)) q x2 -> nth_error g i = Some r ->
      (In j r <-> p <> q /\ s1 <> 0%R /\ s2 <> 0%R /\
        exists y, Forall2 (fun x v => x - s1 / 2 <= v <= x + s1 / 2)%R x1 y /\ Forall2 (fun x v => x - s2 / 2 <= v <= x + s2 / 2)%R x2 y).
Proof.
  intros E K t ordered sizes sch1 sch2 old HE Ht Hbox HK R1 R2 Hlen Hn Hsizes.
  exact (exact_edges E K t ordered sizes sch1 sch2 old HE Ht Hbox HK R1 R2 Hlen Hn Hsizes).
Qed.
Print Assumptions C35_edges_are_overlaps.

Example C35_edges_ex : exists t : @tree R, reachable Rops (ex3E Bh (Some 4)) t /\ length (t_codes t) = 4 /\ t_box t = 1%R /\
  full_shift (ex3E Bh (Some 4)) zero_shift t /\ (N.of_nat 4 * cbitsc C3_64 < diff_max)%N /\
  forall s, In s [1 / 2; 1 / 4; 0; 3]%R -> (0 <= s)%R.
Proof.
  destruct (ex3_tree Bh) as (t & P & H1 & H2 & H3 & H4 & _). exists t. split; [exact H1|]. split; [exact H3|]. split; [exact H4|].
  split; [now left|]. split; [reflexivity|]. cbn [In]. intros s H. decompose [or] H; subst; lra || contradiction.
Qed.

(** C35 in IEEE arithmetic: if the sizes are normal numbers that are not within a few roundings below the size of a cell, an
    edge exactly when the rounded extents meet; in particular whenever the exact cubes overlap. *)
Theorem C35_float_edges :
  forall (prec emax : Z) (Hprec : Prec_gt_0 prec) (Hemax : Prec_lt_emax prec emax) (fused : bool) (E : env)
    (K : platform (binary_float prec emax)) (t : @tree (binary_float prec emax)) (ordered : bool) sizes sch1 sch2 old g,
  let O := Bops prec emax Hprec Hemax fused in
  let rnd := round radix2 (SpecFloat.fexp prec emax) ZnearestE in
  let cb := Z.of_N (cbitsc (e_cfg E)) in
  let good_size s := is_finite s = true /\ (bpow radix2 (3 - emax) <= B2R s)%R /\
    forall l, (1 <= l <= cb)%Z -> (B2R s < B2R (t_box t) * bpow radix2 (- l))%R ->
      (B2R s + 8 * bpow radix2 (- prec) * B2R (t_box t) <= B2R (t_box t) * bpow radix2 (- l))%R in
  forall (Hp8 : (8 <= prec)%Z) (Hrange : (prec + 4 <= emax)%Z) (Hcb : (cb < emax)%Z) (HE : env_ok E) (Ht : reachable O E t) (HK : full_shift E K t)
    (Fbox : is_finite (t_box t) = true) (Hbox : (bpow radix2 (10 - emax) <= B2R (t_box t) <= bpow radix2 (emax - 2))%R)
    (Hdeep : (bpow radix2 (2 - emax + cb) <= B2R (t_box t))%R)
    (R1 : reorders sch1) (R2 : reorders sch2) (Hlen : length (t_codes t) <= length sizes)
    (Hg : compute_cgraph O E K ordered t sizes sch1 sch2 old = Ok g),
  forall p q i j s1 s2 x1 x2 r, p <> q -> p < length (t_codes t) -> q < length (t_codes t) -> vertex t ordered p i -> vertex t ordered q j ->
  nth_error sizes i = Some s1 -> nth_error sizes j = Some s2 -> good_size s1 -> good_size s2 ->
  row (firstn (dim (e_cfg E)) (t_parts t)) p x1 -> row (firstn (dim (e_cfg E)) (t_parts t)) q x2 -> nth_error g i = Some r ->
  (In j r <-> Forall2 (fun a b => rnd (B2R b - B2R s2 / 2) <= rnd (B2R a + B2R s1 / 2) /\ rnd (B2R a - B2R s1 / 2) <= rnd (B2R b + B2R s2 / 2))%R x1 x2) /\
  (Forall2 (fun a b => Rabs (B2R a - B2R b) <= (B2R s1 + B2R s2) / 2)%R x1 x2 -> In j r).
Proof.
  intros prec emax Hprec Hemax fused E K t ordered sizes sch1 sch2 old g O rnd cb good_size Hp8 Hrange Hcb HE Ht HK Fbox Hbox Hdeep R1 R2 Hlen Hg.
  exact (float_edges prec emax Hprec Hemax fused E K t ordered sizes sch1 sch2 old g Hp8 Hrange Hcb HE Ht HK Fbox Hbox Hdeep R1 R2 Hlen Hg).
Qed.
Print Assumptions C35_float_edges.

Example C35_float_ex : reachable exCO exCE (exC_tree exC_two) /\ full_shift exCE zero_shift (exC_tree exC_two) /\ B2R (t_box (exC_tree exC_two)) = 1%R /\
  (forall l, (1 <= l <= 15)%Z -> (B2R (F32 1 (-1)) < 1 * bpow radix2 (- l))%R -> (B2R (F32 1 (-1)) + 8 * bpow radix2 (- 24) * 1 <= 1 * bpow radix2 (- l))%R) /\
  exC_graph zero_shift true exC_two [(1, -1); (1, -1)]%Z = Ok [[1]; [0]].
Proof. exact ex_float. Qed.

(** C35 in any arithmetic: only particles of non-zero size whose computed extents meet are connected. *)
Theorem C35_no_false_edges :
  forall (F : Type) (O : fops F) (E : env) (K : platform F) (t : @tree F) (ordered : bool) sizes sch1 sch2 old g
    (HE : env_ok E) (Ht : reachable O E t) (R1 : reorders sch1) (R2 : reorders sch2) (Hlen : length (t_codes t) <= length sizes)
    (Hg : compute_cgraph O E K ordered t sizes sch1 sch2 old = Ok g),
  let lower s x := ffma O s (fdiv O (fopp O (fofZ O 1%Z)) (fofZ O 2%Z)) x in
  let upper s x := ffma O s (fdiv O (fofZ O 1%Z) (fofZ O 2%Z)) x in
  forall i j r, nth_error g i = Some r -> In j r ->
    exists p q s1 s2 x1 x2, p <> q /\ vertex t ordered p i /\ vertex t ordered q j /\ nth_error sizes i = Some s1 /\ nth_error sizes j = Some s2 /\
      feq O s1 (fofZ O 0%Z) = false /\ feq O s2 (fofZ O 0%Z) = false /\
      row (firstn (dim (e_cfg E)) (t_parts t)) p x1 /\ row (firstn (dim (e_cfg E)) (t_parts t)) q x2 /\
      Forall2 (fun a b => fle O (lower s2 b) (upper s1 a) = true /\ fle O (lower s1 a) (upper s2 b) = true) x1 x2.
Proof.
  intros F O E K t ordered sizes sch1 sch2 old g HE Ht R1 R2 Hlen Hg.
  exact (edges_meet O E K t ordered sizes sch1 sch2 old g HE Ht R1 R2 Hlen Hg).
Qed.
Print Assumptions C35_no_false_edges.

Example C35_no_false_ex : reachable exCO exCE (exC_tree exC_two) /\ exC_graph (exCK true) false exC_two [(1, -1); (1, -1)]%Z = Ok [[1]; [0]] /\
  exC_graph (exCK true) false exC_two [(1, -3); (1, -4)]%Z = Ok [[]; []].
Proof. exact ex_two. Qed.

(** C35 fails in single precision without the condition on the sizes: the centre of the particle 1 is well inside of the cube
    of the particle 0, of size (2^24-1)/2^26 in a box of size 1, and there is no edge, on any machine. *)
Theorem C35_float_refuted :
  exists (t : @tree f32) (sizes : list f32) s0 s1 x0 x1,
    reachable exCO exCE t /\ nth_error sizes 0 = Some s0 /\ nth_error sizes 1 = Some s1 /\ vertex t true 4 0 /\ vertex t true 3 1 /\
    row (firstn 2 (t_parts t)) 4 x0 /\ row (firstn 2 (t_parts t)) 3 x1 /\
    (0 < B2R s0)%R /\ (0 < B2R s1)%R /\ Forall2 (fun a b => Rabs (B2R a - B2R b) < B2R s0 / 2)%R x0 x1 /\
    forall K sch1 sch2 old, reorders sch1 -> reorders sch2 ->
      compute_cgraph exCO exCE K true t sizes sch1 sch2 old = Ok [[]; []; []; []; []; []].
Proof. exact span_missed. Qed.
Print Assumptions C35_float_refuted.

(** C35 fails on machines that reduce shift amounts modulo the width, when two particles share a leaf of maximum depth: the
    particle 0 is well inside of the cube of the particle 2, and there is no edge. *)
Theorem C35_deep_leaf_refuted :
  exists (t : @tree f32) (sizes : list f32) s0 s2 x0 x2,
    reachable exCO exCE t /\ nth_error sizes 0 = Some s0 /\ nth_error sizes 2 = Some s2 /\ vertex t true 0 0 /\ vertex t true 2 2 /\
    row (firstn 2 (t_parts t)) 0 x0 /\ row (firstn 2 (t_parts t)) 2 x2 /\
    (0 < B2R s0)%R /\ Forall2 (fun a b => Rabs (B2R a - B2R b) < B2R s2 / 2)%R x0 x2 /\
    forall sch1 sch2 old, reorders sch1 -> reorders sch2 ->
      compute_cgraph exCO exCE (mkPlatform None (masked_shift 32)) true t sizes sch1 sch2 old = Ok [[1]; [0]; []].
Proof. exact deep_missed. Qed.
Print Assumptions C35_deep_leaf_refuted.

(** C36. One row per particle; rows strictly increasing, without the own index; symmetric. *)
Theorem C36_well_formed :
  forall (F : Type) (O : fops F) (E : env) (K : platform F) (t : @tree F) (ordered : bool) sizes sch1 sch2 old g
    (HE : env_ok E) (Ht : reachable O E t) (R1 : reorders sch1) (R2 : reorders sch2) (Hlen : length (t_codes t) <= length sizes)
    (Hg : compute_cgraph O E K ordered t sizes sch1 sch2 old = Ok g),
  length g = length (t_codes t) /\
  (forall i r, nth_error g i = Some r -> StronglySorted lt r /\ ~ In i r) /\
  (forall i j r, nth_error g i = Some r -> In j r -> exists r', nth_error g j = Some r' /\ In i r').
Proof.
  intros F O E K t ordered sizes sch1 sch2 old g HE Ht R1 R2 Hlen Hg.
  exact (well_formed O E K t ordered sizes sch1 sch2 old g HE Ht R1 R2 Hlen Hg).
Qed.
Print Assumptions C36_well_formed.

Example C36_ex : reachable exCO exCE (exC_tree exC_span) /\ length (t_codes (exC_tree exC_span)) = 6 /\
  compute_cgraph exCO exCE (exCK true) true (exC_tree exC_span) (f32s [(1, -1); (1, -2); (1, -2); (1, -2); (0, 0); (1, -3)]%Z) (@rev _) (@rev _) [[7; 7]; [0]]
    = Ok [[1; 2; 3; 5]; [0; 3; 5]; [0]; [0; 1]; []; [0; 1]].
Proof. split; [exact ex_span_reachable|]. split; now vm_compute. Qed.

(** C37. The result depends neither on the order of the appends nor on the previous content of the graph. *)
Theorem C37_schedule_independent :
  forall (F : Type) (O : fops F) (E : env) (K : platform F) (ordered : bool) (t : @tree F) sizes sch1 sch2 sch1' sch2' old old'
    (R1 : reorders sch1) (R2 : reorders sch2) (R1' : reorders sch1') (R2' : reorders sch2'),
  compute_cgraph O E K ordered t sizes sch1 sch2 old = compute_cgraph O E K ordered t sizes sch1' sch2' old'.
Proof.
  intros F O E K ordered t sizes sch1 sch2 sch1' sch2' old old' R1 R2 R1' R2'.
  exact (schedule O E K ordered t sizes sch1 sch2 sch1' sch2' old old' R1 R2 R1' R2').
Qed.
Print Assumptions C37_schedule_independent.

Example C37_ex : reorders (@rev (nat * nat)) /\ reorders (fun l : list (nat * nat) => l) /\
  compute_cgraph exCO exCE (exCK true) false (exC_tree exC_two) (repeat (F32 1 (-1)) 2) (fun l => l) (@rev _) [[5]] = Ok [[1]; [0]].
Proof. split; [intros l; symmetry; apply Permutation_rev|]. split; [intros l; apply Permutation_refl|now vm_compute]. Qed.

(** C38. The result for the original order is the result for the tree order with the vertices renamed; the failures are the same. *)
Theorem C38_relabelled :
  forall (F : Type) (O : fops F) (E : env) (K : platform F) (t : @tree F) sizes sizes' sch1 sch2 sch1' sch2' old old'
    (HE : env_ok E) (Ht : reachable O E t) (R1 : reorders sch1) (R2 : reorders sch2) (R1' : reorders sch1') (R2' : reorders sch2')
    (Hlen : length (t_codes t) <= length sizes) (Hperm : permuted (t_perm t) sizes sizes'),
  match compute_cgraph O E K true t sizes sch1 sch2 old, compute_cgraph O E K false t sizes' sch1' sch2' old' with
  | Ok go, Ok gu => length go = length gu /\
      forall p i r r', nth_error (t_perm t) p = Some i -> nth_error gu p = Some r -> nth_error go i = Some r' ->
        forall j, In j r' <-> exists q, In q r /\ nth_error (t_perm t) q = Some j
  | Throw e, Throw e' => e = e'
  | UB, UB => True
  | _, _ => False
  end.
Proof.
  intros F O E K t sizes sizes' sch1 sch2 sch1' sch2' old old' HE Ht R1 R2 R1' R2' Hlen Hperm.
  exact (relabelled O E K t sizes sizes' sch1 sch2 sch1' sch2' old old' HE Ht R1 R2 R1' R2' Hlen Hperm).
Qed.
Print Assumptions C38_relabelled.

Example C38_ex : reachable exCO exCE (exC_tree exC_span) /\ t_perm (exC_tree exC_span) = [2; 3; 4; 1; 0; 5] /\
  exC_graph (exCK true) true exC_span [(1, -1); (1, -2); (1, -2); (1, -2); (0, 0); (1, -3)]%Z = Ok [[1; 2; 3; 5]; [0; 3; 5]; [0]; [0; 1]; []; [0; 1]] /\
  exC_graph (exCK true) false exC_span [(1, -2); (1, -2); (0, 0); (1, -2); (1, -1); (1, -3)]%Z = Ok [[4]; [3; 4]; []; [1; 4; 5]; [0; 1; 3; 5]; [3; 4]].
Proof. split; [exact ex_span_reachable|]. split; [now vm_compute|]. split; now vm_compute. Qed.

(** C39 is false: both for a small cube next to the boundary of two leaves and for a leaf of maximum depth, a shift by the full
    width of the code type is evaluated. *)
Theorem C39_refuted :
  exists (t t' : @tree f32) (sizes sizes' : list f32), reachable exCO exCE t /\ reachable exCO exCE t' /\
    length sizes = length (t_codes t) /\ length sizes' = length (t_codes t') /\
    (forall s, In s (sizes ++ sizes') -> is_finite s = true /\ (0 < B2R s)%R) /\
    (forall nd, In nd (t_nodes t) -> (n_level nd <= 3)%N) /\
    (forall s, In s sizes' -> B2R s = B2R (t_box t')) /\
    forall sch1 sch2 old ordered, reorders sch1 -> reorders sch2 ->
      compute_cgraph exCO exCE (mkPlatform None strict_shift) ordered t sizes sch1 sch2 old = UB /\
      compute_cgraph exCO exCE (mkPlatform None strict_shift) ordered t' sizes' sch1 sch2 old = UB.
Proof. exact undefined_shift. Qed.
Print Assumptions C39_refuted.

(** C39 holds if there is no leaf at the maximum depth and every size is zero or at least the size of the smallest cell. *)
Theorem C39_defined_otherwise :
  forall (prec emax : Z) (Hprec : Prec_gt_0 prec) (Hemax : Prec_lt_emax prec emax) (fused : bool) (E : env)
    (K : platform (binary_float prec emax)) (t : @tree (binary_float prec emax)) (ordered : bool) sizes sch1 sch2 old,
  let O := Bops prec emax Hprec Hemax fused in
  forall (Hp2 : (2 <= prec)%Z) (Hcb : (Z.of_N (cbitsc (e_cfg E)) < emax)%Z) (HE : env_ok E) (Ht : reachable O E t)
    (R1 : reorders sch1) (R2 : reorders sch2) (Hlen : length (t_codes t) <= length sizes)
    (Hn : (N.of_nat (length (t_codes t)) * cbitsc (e_cfg E) < diff_max)%N)
    (Hleaves : forall nd, In nd (t_nodes t) -> n_children nd = 0 -> (n_level nd < cbitsc (e_cfg E))%N)
    (Hsizes : forall s, In s sizes -> feq O s (fofZ O 0%Z) = true \/
       exists k, 1 <= k <= N.to_nat (cbitsc (e_cfg E)) /\ fle O (halved O k (t_box t)) s = true),
  (exists g, compute_cgraph O E K ordered t sizes sch1 sch2 old = Ok g) \/ compute_cgraph O E K ordered t sizes sch1 sch2 old = Throw InvalidArgument.
Proof.
  intros prec emax Hprec Hemax fused E K t ordered sizes sch1 sch2 old O Hp2 Hcb HE Ht R1 R2 Hlen Hn Hleaves Hsizes.
  exact (never_undefined prec emax Hprec Hemax fused E K t ordered sizes sch1 sch2 old Hp2 Hcb HE Ht R1 R2 Hlen Hn Hleaves Hsizes).
Qed.
Print Assumptions C39_defined_otherwise.

Example C39_defined_ex : reachable exCO exCE (exC_tree exC_two) /\ forallb (fun nd => (n_level nd <? cbitsc (e_cfg exCE))%N) (t_nodes (exC_tree exC_two)) = true /\
  fle exCO (halved exCO 10 (t_box (exC_tree exC_two))) (F32 1 (-10)) = true /\ exC_graph (exCK true) false exC_two [(1, -10); (1, 0)]%Z = Ok [[1]; [0]].
Proof. split; [exact ex_two_reachable|]. split; [now vm_compute|]. split; now vm_compute. Qed.

(** C40. The only failure is std::invalid_argument; it occurs if the size of some particle is negative or not finite. *)
Theorem C40_bad_sizes_rejected :
  forall (prec emax : Z) (Hprec : Prec_gt_0 prec) (Hemax : Prec_lt_emax prec emax) (fused : bool) (E : env)
    (K : platform (binary_float prec emax)) (t : @tree (binary_float prec emax)) (ordered : bool) sizes sch1 sch2 old,
  let O := Bops prec emax Hprec Hemax fused in
  forall (Hp2 : (2 <= prec)%Z) (Hcb : (Z.of_N (cbitsc (e_cfg E)) < emax)%Z) (HE : env_ok E) (Ht : reachable O E t) (HK : full_shift E K t)
    (R1 : reorders sch1) (R2 : reorders sch2) (Hlen : length (t_codes t) <= length sizes)
    (Hn : (N.of_nat (length (t_codes t)) * cbitsc (e_cfg E) < diff_max)%N),
  ((exists g, compute_cgraph O E K ordered t sizes sch1 sch2 old = Ok g) \/ compute_cgraph O E K ordered t sizes sch1 sch2 old = Throw InvalidArgument) /\
  (forall i s, i < length (t_codes t) -> nth_error sizes i = Some s -> is_finite s = false \/ (B2R s < 0)%R ->
     compute_cgraph O E K ordered t sizes sch1 sch2 old = Throw InvalidArgument).
Proof.
  intros prec emax Hprec Hemax fused E K t ordered sizes sch1 sch2 old O Hp2 Hcb HE Ht HK R1 R2 Hlen Hn.
  exact (rejected prec emax Hprec Hemax fused E K t ordered sizes sch1 sch2 old Hp2 Hcb HE Ht HK R1 R2 Hlen Hn).
Qed.
Print Assumptions C40_bad_sizes_rejected.

Example C40_ex : reachable exCO exCE (exC_tree exC_two) /\ full_shift exCE zero_shift (exC_tree exC_two) /\
  exC_graph zero_shift true exC_two [(1, -10); (-1, -10)]%Z = Throw InvalidArgument /\
  compute_cgraph exCO exCE zero_shift true (exC_tree exC_two) [B754_infinity false; F32 1 0] (fun l => l) (fun l => l) [] = Throw InvalidArgument.
Proof. split; [exact ex_two_reachable|]. split; [now left|]. split; now vm_compute. Qed.

(** C40, empty trees. *)
Theorem C40_empty :
  forall (F : Type) (O : fops F) (E : env) (K : platform F) (t : @tree F) (ordered : bool) sizes sch1 sch2 old
    (HE : env_ok E) (Ht : reachable O E t) (Hempty : t_codes t = []) (R1 : reorders sch1) (R2 : reorders sch2),
  compute_cgraph O E K ordered t sizes sch1 sch2 old = Ok [].
Proof.
  intros F O E K t ordered sizes sch1 sch2 old HE Ht Hempty R1 R2.
  exact (empty_graph O E K t (reachable_inv O E HE t Ht) ordered sizes sch1 sch2 old Hempty R1 R2).
Qed.
Print Assumptions C40_empty.

Example C40_empty_ex : reachable exCO exCE (exC_tree [[]; []; []]) /\ t_codes (exC_tree [[]; []; []]) = [].
Proof. split; [apply exC_reachable; [reflexivity|now vm_compute]|now vm_compute]. Qed.
