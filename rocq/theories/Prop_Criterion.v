(** Property C80: the acceptance criterion is decided by a comparison of numbers, and CPU and accelerators decide alike. *)
From Coq Require Import List Arith ZArith NArith Reals Bool Lia Permutation.
From Flocq Require Import Core BinarySingleNaN.
From Verif Require Import Base Config Morton Build TreeSpec FOps Disc NodeProps Tree TreeInv TreeProofs TreeEx Kernels TravProofs Force ForceEx Gpu MacNan.
Import ListNotations.
Local Open Scope nat_scope.

(** C80. A node and a particle of a tree, and a theta which is accepted: neither the squared distance nor the value it is compared with is NaN (the distance may be infinite),
    so that the test of the CPU [d2 <= lh] is the opposite of the one of the accelerators [lh < d2]. *)
Theorem C80_criterion_compares_numbers :
  forall (prec emax : Z) (Hprec : Prec_gt_0 prec) (Hemax : Prec_lt_emax prec emax) (fused : bool) (E : env) (simd : option nat)
    (t : @tree (binary_float prec emax)) (Q : nat -> @prow (binary_float prec emax)) (theta mv : binary_float prec emax) (a : node (props (binary_float prec emax))) (i : nat),
  let O := Bops prec emax Hprec Hemax fused in
  forall (HE : env_ok E) (Ht : reachable O E t) (HQ : forall k, k < length (t_codes t) -> row (t_parts t) k (fst (Q k) ++ [snd (Q k)]))
    (Ha : In a (t_nodes t)) (Hi : i < length (t_codes t)) (Htheta : mac_value_of O E theta = Ok mv),
  let d2 := mac_dist2 O (e_cfg E) simd (diffs O (p_com (n_props a)) (fst (Q i))) in
  let lh := mac_lh O (n_props a) mv in
  is_nan d2 = false /\ is_nan lh = false /\ fle O d2 lh = negb (flt O lh d2).
Proof.
  intros prec emax Hprec Hemax fused E simd t Q theta mv a i O HE Ht HQ Ha Hi Htheta.
  exact (criterion prec emax Hprec Hemax fused E t (reachable_inv O E HE t Ht) Q HQ simd a i theta mv Ha Hi Htheta).
Qed.
Print Assumptions C80_criterion_compares_numbers.

(** C80. Particles outside of a node: the threads of an accelerator all vote for the approximation of the node exactly if the scalar check of the CPU accepts it for the same group of particles. *)
Theorem C80_same_decision :
  forall (prec emax : Z) (Hprec : Prec_gt_0 prec) (Hemax : Prec_lt_emax prec emax) (fused : bool) (E : env) (K : platform (binary_float prec emax))
    (t : @tree (binary_float prec emax)) (Q : nat -> @prow (binary_float prec emax)) (theta mv eps2 : binary_float prec emax) (a : node (props (binary_float prec emax))) (group : list nat),
  let O := Bops prec emax Hprec Hemax fused in
  forall (HE : env_ok E) (Ht : reachable O E t) (HQ : forall k, k < length (t_codes t) -> row (t_parts t) k (fst (Q k) ++ [snd (Q k)]))
    (Ha : In a (t_nodes t)) (Hgroup : Forall (fun i => i < length (t_codes t) /\ ~ (n_begin a <= i < n_end a)) group) (Htheta : mac_value_of O E theta = Ok mv),
  exists lanes vs r, mapM (load_lane (e_cfg E) (t_parts t) (t_codes t)) group = Ok lanes /\ mapM (lane_vote O (e_cfg E) K mv a) lanes = Ok vs /\
    mac_loop O (e_cfg E) None K (mac_lh O (n_props a) mv) eps2 (p_com (n_props a)) (map Q group) (starts 1 (length group)) [] = Ok r /\
    (forallb (fun v => v) vs = true <-> r <> None).
Proof.
  intros prec emax Hprec Hemax fused E K t Q theta mv eps2 a group O HE Ht HQ Ha Hgroup Htheta.
  exact (votes prec emax Hprec Hemax fused E t (reachable_inv O E HE t Ht) Q HQ K a theta mv eps2 group Ha Hgroup Htheta).
Qed.
Print Assumptions C80_same_decision.

(** Six particles, theta = 3/4: all pairs of nodes and particles are accepted or refused, and both happen. A NaN would be accepted by one test and refused by the other. *)
Definition ex80_tests : list (bool * bool) :=
  match mac_value_of exFO (ex3E Bh None) (F32 3 (-2)), mapM (particle C3_64 (t_parts (exF_tree None))) (seq 0 6) with
  | Ok mv, Ok ps => flat_map (fun a => map (fun p => let d2 := mac_dist2 exFO C3_64 None (diffs exFO (p_com (n_props a)) (fst p)) in
                                             (fle exFO d2 (mac_lh exFO (n_props a) mv), flt exFO (mac_lh exFO (n_props a) mv) d2)) ps) (t_nodes (exF_tree None))
  | _, _ => []
  end.
Example C80_ex : reachable exFO (ex3E Bh None) (exF_tree None) /\ length ex80_tests = 48 /\ forallb (fun x => xorb (fst x) (snd x)) ex80_tests = true /\
  existsb fst ex80_tests = true /\ existsb snd ex80_tests = true /\ fle exFO (@B754_nan 24 128) (F32 1 0) = false /\ flt exFO (F32 1 0) (@B754_nan 24 128) = false.
Proof.
  split; [apply (exF_reachable None (or_introl eq_refl))|]. split; [vm_compute; reflexivity|]. split; [vm_compute; reflexivity|]. split; [vm_compute; reflexivity|].
  split; [vm_compute; reflexivity|]. split; reflexivity.
Qed.
