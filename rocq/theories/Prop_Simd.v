(** Property C28: the vector and the scalar code paths agree. [with_simd E simd plan] is the configuration [E] with another batch size
    ([None]: scalar code) and order of the additions in [xsimd::hadd]. *)
From Coq Require Import List Arith ZArith NArith Reals Bool Lra Lia Permutation.
From Flocq Require Import BinarySingleNaN.
From Verif Require Import Base Config Build TreeSpec FOps NodeProps Tree TreeInv Kernels Force TravProofs KernR ForceOut ForceTop ForceRTop ForceMore
  ForceEx SimdTree SimdForce SimdEx.
Import ListNotations.
Local Open Scope nat_scope.

(** C28. The same program makes the same trees (node properties included), fails in the same operations and has undefined behaviour in the same
    cases, for every batch size. *)
Theorem C28_same_trees :
  forall (E : env) (simd : option nat) (plan : list (nat * nat)) (ops : list (@op R)) (w : list (@tree R))
    (HE : env_ok E) (Hsimd : forall bw, simd = Some bw -> 0 < bw),
  run Rops (with_simd E simd plan) ops w = run Rops E ops w.
Proof. intros E simd plan ops w HE Hsimd. exact (run_simd E simd plan Hsimd (proj2 HE) ops w). Qed.
Print Assumptions C28_same_trees.

Example C28_trees_ex : env_ok (ex3E Bh (Some 4)) /\ with_simd (ex3E Bh (Some 4)) None [] = ex3E Bh None /\
  exists t, run Rops (ex3E Bh (Some 4)) [OConstruct (TreeEx.ex_sched false) (Some 1%R) (Ranges ex3_cols) (Some 1) (Some 2)] [] = Ok [t].
Proof. exact ex3_both. Qed.

(** C28. Accelerations and potentials. The masses are not negative; the padding lanes have no effect on the results, on the acceptance of any node,
    or on the failures. *)
Theorem C28_same_results :
  forall (D : Type) (OD : fops D) (E : env) (simd : option nat) (plan : list (nat * nat)) (K K' : platform R) (ord ord' : list cnode -> list cnode) (ordered : bool) (q : quant)
    (t : @tree R) (P : nat -> @prow R) (theta G eps : R) (split : list D) (out : list (list R))
    (HE : env_ok E) (Hsimd : forall bw, simd = Some bw -> 0 < bw) (HK : benign_shift K) (HX : exact_rsqrt K) (HX' : exact_rsqrt K')
    (HKK : k_ovs K = k_ovs K') (Ht : reachable Rops E t) (Hroom : room E t) (Hroom' : room (with_simd E simd plan) t)
    (Hord : reorders ord) (Hord' : reorders ord') (HP : particles_of t P) (HM : masses_nonneg t P) (Hbox : t_codes t <> [] -> (0 < t_box t)%R)
    (Hout : out_ok (length (t_codes t)) (nvecs_res E q) out),
  acc_pot_dispatch Rops OD E K ord ordered q t theta G eps split out =
  acc_pot_dispatch Rops OD (with_simd E simd plan) K' ord' ordered q t theta G eps split out.
Proof.
  intros D OD E simd plan K K' ord ord' ordered q t P theta G eps split out HE Hsimd HK HX HX' HKK.
  exact (dispatch_simd OD E simd plan K K' HE Hsimd HK HX HX' HKK ord ord' ordered q t P theta G eps split out).
Qed.
Print Assumptions C28_same_results.

Example C28_results_ex : exists (t : @tree R) P, reachable Rops (ex3E BhGeom (Some 4)) t /\ room (ex3E BhGeom (Some 4)) t /\
  room (with_simd (ex3E BhGeom (Some 4)) (Some 8) [(0, 4); (1, 5)]) t /\ particles_of t P /\ masses_nonneg t P /\ (0 < t_box t)%R /\
  out_ok (length (t_codes t)) (nvecs_res (ex3E BhGeom (Some 4)) QBoth) (repeat [1; 2; 3; 4; 5]%R 4) /\ length (t_codes t) = 4.
Proof.
  destruct (ex3_tree BhGeom) as (t & P & H1 & H2 & H3 & H4 & H5 & H6 & H7). exists t, P. split; [exact H1|]. split; [exact H2|].
  split; [unfold room; rewrite H3; vm_compute; discriminate|]. split; [exact H5|]. split; [exact H6|]. split; [rewrite H4; lra|]. split; [|exact H3].
  rewrite H3. split; [reflexivity|]. cbn. repeat constructor.
Qed.

(** C28. The condition on the masses is necessary: with a negative mass, which no function rejects, the centre of mass of a node can be next to the padding
    point. The vector code then opens a node that the scalar code accepts. Here the same particle is pushed in
    opposite directions in the trees made from the same data by the two (the difference is not one of rounding). *)
Theorem C28_negative_masses_refuted :
  exists (o : @op (binary_float 24 128)) (t t' : @tree (binary_float 24 128)) (out : list (list (binary_float 24 128))),
  op_ok (ex3E Bh None) o /\ run exFO (ex3E Bh None) [o] [] = Ok [t] /\ run exFO (ex3E Bh (Some 2)) [o] [] = Ok [t'] /\
  length (t_codes t) = 3 /\ out_ok 3 3 out /\
  (exists r x, acc_pot_dispatch exFO exFD (ex3E Bh None) (exFK false) (fun l => l) true QAcc t (F32 1 0) (F32 1 0) (F32 0 0) [] out = Ok r /\
     nth_error (nth 0 r []) 0 = Some x /\ flt exFO (F32 1 (-10)) x = true) /\
  (exists r x, acc_pot_dispatch exFO exFD (ex3E Bh (Some 2)) (exFK false) (fun l => l) true QAcc t' (F32 1 0) (F32 1 0) (F32 0 0) [] out = Ok r /\
     nth_error (nth 0 r []) 0 = Some x /\ flt exFO x (F32 (-1) (-4)) = true).
Proof. exact neg_differ. Qed.
Print Assumptions C28_negative_masses_refuted.
