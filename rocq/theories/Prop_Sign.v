(** Property C82: signs of the potentials and particles without mass, in floating-point arithmetic.
    The comparisons [fle] and [feq] are those of IEEE 754: false on NaN, and zeros of both signs are equal.
    The number of the array with the potentials is the last one, [nvecs_res E q - 1]. *)
From Coq Require Import List Arith ZArith NArith Reals Bool Lia Permutation.
From Flocq Require Import Core BinarySingleNaN.
From Verif Require Import Base Config Morton Build TreeSpec FOps Disc NodeProps Tree TreeInv TreeProofs TreeEx Kernels TravProofs Force ForceOut ForceTop ForceEx Sign.
Import ListNotations.
Local Open Scope nat_scope.

(** C82. No negative masses and G not negative: no potential is positive. The assumption on the platform is that its inverse square root (after the refinement by the code)
    of a number without negative sign is not negative. *)
Theorem C82_potentials_not_positive :
  forall (D : Type) (OD : fops D) (prec emax : Z) (Hprec : Prec_gt_0 prec) (Hemax : Prec_lt_emax prec emax) (fused : bool)
    (E : env) (K : platform (binary_float prec emax)) (ord : list cnode -> list cnode) (ordered : bool) (q : quant)
    (t : @tree (binary_float prec emax)) (Q : nat -> @prow (binary_float prec emax))
    (theta G eps : binary_float prec emax) (split : list D) (out out' : list (list (binary_float prec emax))) (i : nat),
  let O := Bops prec emax Hprec Hemax fused in
  let zero := fofZ O 0%Z in
  let n := length (t_codes t) in
  forall (HE : env_ok E) (HK : benign_shift K)
    (HX : forall f z, k_rsqrt K = Some f -> Bsign z = false -> let y := newton_iter O (f z) z in is_nan y = true \/ fle O zero y = true)
    (Ht : reachable O E t) (Hroom : room E t) (Hord : reorders ord) (Hout : out_ok n (nvecs_res E q) out)
    (HQ : forall k, k < n -> row (t_parts t) k (fst (Q k) ++ [snd (Q k)]))
    (Hm : forall k, k < n -> fle O zero (snd (Q k)) = true) (HG : fle O zero G = true)
    (Hrun : acc_pot_dispatch O OD E K ord ordered q t theta G eps split out = Ok out') (Hi : i < n) (Hq : q <> QAcc),
  exists v, nth_error (nth (nvecs_res E q - 1) out' []) (dst ordered t i) = Some v /\ (is_nan v = true \/ fle O v zero = true).
Proof.
  intros D OD prec emax Hprec Hemax fused E K ord ordered q t Q theta G eps split out out' i O zero n HE HK HX Ht Hroom Hord Hout HQ Hm HG Hrun Hi Hq.
  exact (call_np prec emax Hprec Hemax fused E K HE t Q (reachable_inv O E HE t Ht) HQ OD ord ordered q theta G eps split out out' i (platform_signs prec emax Hprec Hemax fused K HX) HK Hroom Hord Hout Hm HG Hrun Hi Hq).
Qed.
Print Assumptions C82_potentials_not_positive.

(** C82. The potential of a particle without mass is zero (or NaN), whatever the other masses are. *)
Theorem C82_massless_particle :
  forall (D : Type) (OD : fops D) (prec emax : Z) (Hprec : Prec_gt_0 prec) (Hemax : Prec_lt_emax prec emax) (fused : bool)
    (E : env) (K : platform (binary_float prec emax)) (ord : list cnode -> list cnode) (ordered : bool) (q : quant)
    (t : @tree (binary_float prec emax)) (Q : nat -> @prow (binary_float prec emax))
    (theta G eps : binary_float prec emax) (split : list D) (out out' : list (list (binary_float prec emax))) (i : nat),
  let O := Bops prec emax Hprec Hemax fused in
  let zero := fofZ O 0%Z in
  let n := length (t_codes t) in
  forall (HE : env_ok E) (HK : benign_shift K)
    (Ht : reachable O E t) (Hroom : room E t) (Hord : reorders ord) (Hout : out_ok n (nvecs_res E q) out)
    (HQ : forall k, k < n -> row (t_parts t) k (fst (Q k) ++ [snd (Q k)]))
    (Hrun : acc_pot_dispatch O OD E K ord ordered q t theta G eps split out = Ok out') (Hi : i < n) (Hm : feq O (snd (Q i)) zero = true) (Hq : q <> QAcc),
  exists v, nth_error (nth (nvecs_res E q - 1) out' []) (dst ordered t i) = Some v /\ (is_nan v = true \/ feq O v zero = true).
Proof.
  intros D OD prec emax Hprec Hemax fused E K ord ordered q t Q theta G eps split out out' i O zero n HE HK Ht Hroom Hord Hout HQ Hrun Hi Hm Hq.
  exact (call_target prec emax Hprec Hemax fused E K HE t Q (reachable_inv O E HE t Ht) HQ OD ord ordered q theta G eps split out out' i HK Hroom Hord Hout Hrun Hi Hm Hq).
Qed.
Print Assumptions C82_massless_particle.

(** C82. Without masses all the results are zero (or NaN). *)
Theorem C82_no_masses :
  forall (D : Type) (OD : fops D) (prec emax : Z) (Hprec : Prec_gt_0 prec) (Hemax : Prec_lt_emax prec emax) (fused : bool)
    (E : env) (K : platform (binary_float prec emax)) (ord : list cnode -> list cnode) (ordered : bool) (q : quant)
    (t : @tree (binary_float prec emax)) (Q : nat -> @prow (binary_float prec emax))
    (theta G eps : binary_float prec emax) (split : list D) (out out' : list (list (binary_float prec emax))) (i : nat),
  let O := Bops prec emax Hprec Hemax fused in
  let zero := fofZ O 0%Z in
  let n := length (t_codes t) in
  forall (HE : env_ok E) (HK : benign_shift K)
    (Ht : reachable O E t) (Hroom : room E t) (Hord : reorders ord) (Hout : out_ok n (nvecs_res E q) out)
    (HQ : forall k, k < n -> row (t_parts t) k (fst (Q k) ++ [snd (Q k)]))
    (Hm : forall k, k < n -> feq O (snd (Q k)) zero = true)
    (Hrun : acc_pot_dispatch O OD E K ord ordered q t theta G eps split out = Ok out') (Hi : i < n),
  forall j, j < nvecs_res E q -> exists v, nth_error (nth j out' []) (dst ordered t i) = Some v /\ (is_nan v = true \/ feq O v zero = true).
Proof.
  intros D OD prec emax Hprec Hemax fused E K ord ordered q t Q theta G eps split out out' i O zero n HE HK Ht Hroom Hord Hout HQ Hm Hrun Hi.
  exact (call_sources prec emax Hprec Hemax fused E K HE t Q (reachable_inv O E HE t Ht) HQ OD ord ordered q theta G eps split out out' i HK Hroom Hord Hout Hm Hrun Hi).
Qed.
Print Assumptions C82_no_masses.

(** C82. The same for the sums over all the particles. [o] is the position of the particle [i] in the order used by the function. *)
Theorem C82_exact_sums :
  forall (prec emax : Z) (Hprec : Prec_gt_0 prec) (Hemax : Prec_lt_emax prec emax) (fused : bool)
    (E : env) (ordered : bool) (q : quant) (t : @tree (binary_float prec emax)) (Q : nat -> @prow (binary_float prec emax))
    (G eps : binary_float prec emax) (res : list (binary_float prec emax)) (o i : nat),
  let O := Bops prec emax Hprec Hemax fused in
  let zero := fofZ O 0%Z in
  let n := length (t_codes t) in
  forall (HE : env_ok E) (Ht : reachable O E t)
    (HQ : forall k, k < n -> row (t_parts t) k (fst (Q k) ++ [snd (Q k)]))
    (Hi : i < n) (Ho : (if ordered then nth_error (t_inv t) o else Some o) = Some i)
    (Hrun : exact_acc_pot O E ordered q t o G eps = Ok res),
  ((forall k, k < n -> fle O zero (snd (Q k)) = true) -> fle O zero G = true -> q <> QAcc ->
     exists v, nth_error res (nvecs_res E q - 1) = Some v /\ (is_nan v = true \/ fle O v zero = true)) /\
  (feq O (snd (Q i)) zero = true -> q <> QAcc ->
     exists v, nth_error res (nvecs_res E q - 1) = Some v /\ (is_nan v = true \/ feq O v zero = true)) /\
  ((forall k, k < n -> feq O (snd (Q k)) zero = true) ->
     forall j, j < nvecs_res E q -> exists v, nth_error res j = Some v /\ (is_nan v = true \/ feq O v zero = true)).
Proof.
  intros prec emax Hprec Hemax fused E ordered q t Q G eps res o i O zero n HE Ht HQ Hi Ho Hrun.
  exact (exact_signs prec emax Hprec Hemax fused E t Q (reachable_inv O E HE t Ht) HQ ordered q o G eps res i Ho Hi Hrun).
Qed.
Print Assumptions C82_exact_sums.

(** Three particles in single precision, with masses 1, 0 and 2, and the same without masses. *)
Definition ex82_cols (ms : list (binary_float 24 128)) : list (list (binary_float 24 128)) :=
  [[F32 1 (-3); F32 3 (-3); F32 (-1) (-3)]; [F32 0 0; F32 1 (-4); F32 1 (-3)]; [F32 1 (-2); F32 1 (-2); F32 1 (-3)]; ms].
Definition ex82_op ms : @op (binary_float 24 128) := OConstruct (ex_sched false) (Some (F32 1 0)) (Ranges (ex82_cols ms)) (Some 1) (Some 1).
Definition ex82_tree (simd : option nat) ms : @tree (binary_float 24 128) :=
  match run exFO (ex3E Bh simd) [ex82_op ms] [] with Ok (t :: _) => t | _ => default_tree exFO (ex3E Bh simd) end.
Definition ex82_run (simd : option nat) ms :=
  acc_pot_dispatch exFO exFD (ex3E Bh simd) (exFK false) (fun x => x) true QBoth (ex82_tree simd ms) (F32 3 (-2)) (F32 1 0) (F32 0 0) [] (repeat (repeat (F32 0 0) 3) 4).
Definition ex82_signs (x : outcome (list (list (binary_float 24 128)))) : outcome (list (list (bool * bool))) :=
  do l <- x; Ok (map (map (fun v => (flt exFO v (fofZ exFO 0%Z), feq exFO v (fofZ exFO 0%Z)))) l).
Lemma ex82_reachable : forall simd ms, (simd = None \/ simd = Some 2) -> (ms = [F32 1 0; F32 0 0; F32 2 0] \/ ms = [F32 0 0; F32 0 0; F32 0 0]) -> reachable exFO (ex3E Bh simd) (ex82_tree simd ms).
Proof.
  intros simd ms H H'. unfold ex82_tree. assert (G : match run exFO (ex3E Bh simd) [ex82_op ms] [] with Ok [t] => true | _ => false end = true) by (destruct H as [-> | ->], H' as [-> | ->]; vm_compute; reflexivity).
  destruct (run exFO (ex3E Bh simd) [ex82_op ms] []) as [[|t [|u w]]|e|] eqn:R; try discriminate G.
  exists [ex82_op ms], [t]. split; [|split; [exact R|now left]]. constructor; [split; [apply ex_sched_ok|reflexivity]|constructor].
Qed.
Example C82_ex : forall simd, simd = None \/ simd = Some 2 ->
  reachable exFO (ex3E Bh simd) (ex82_tree simd [F32 1 0; F32 0 0; F32 2 0]) /\ room (ex3E Bh simd) (ex82_tree simd [F32 1 0; F32 0 0; F32 2 0]) /\
  (do r <- ex82_signs (ex82_run simd [F32 1 0; F32 0 0; F32 2 0]); Ok (skipn 3 r)) = Ok [[(true, false); (false, true); (true, false)]] /\
  reachable exFO (ex3E Bh simd) (ex82_tree simd [F32 0 0; F32 0 0; F32 0 0]) /\
  ex82_signs (ex82_run simd [F32 0 0; F32 0 0; F32 0 0]) = Ok (repeat (repeat (false, true) 3) 4).
Proof.
  intros simd H. split; [apply ex82_reachable; auto|]. split; [destruct H as [-> | ->]; vm_compute; discriminate|]. split; [destruct H as [-> | ->]; vm_compute; reflexivity|].
  split; [apply ex82_reachable; auto|]. destruct H as [-> | ->]; vm_compute; reflexivity.
Qed.

(** C82. The assumption on the inverse square root is needed. The instructions rsqrtps of x86 take subnormal numbers as zero, so the refined value is minus infinity: two particles of mass one
    at the distance 2^-70, without softening, have the potential plus infinity. *)
Definition flushed_rsqrt (x : binary_float 24 128) : binary_float 24 128 :=
  if flt exFO x (F32 1 (-126)) then B754_infinity false else fdiv exFO (fofZ exFO 1%Z) (fsqrt exFO x).
Definition ex82_close : @op (binary_float 24 128) :=
  OConstruct (ex_sched false) (Some (F32 1 0)) (Ranges [[F32 0 0; F32 1 (-70)]; [F32 0 0; F32 0 0]; [F32 0 0; F32 0 0]; [F32 1 0; F32 1 0]]) (Some 1) (Some 1).
Theorem C82_flushed_rsqrt_refuted :
  exists (K : platform (binary_float 24 128)) (t : @tree (binary_float 24 128)) (out' : list (list (binary_float 24 128))),
    k_rsqrt K = Some flushed_rsqrt /\ benign_shift K /\ reachable exFO (ex3E Bh (Some 2)) t /\ room (ex3E Bh (Some 2)) t /\
    nth 3 (t_parts t) [] = [F32 1 0; F32 1 0] /\
    acc_pot_dispatch exFO exFD (ex3E Bh (Some 2)) K (fun x => x) true QPot t (F32 3 (-2)) (F32 1 0) (F32 0 0) [] [[F32 0 0; F32 0 0]] = Ok out' /\
    out' = [[B754_infinity false; B754_infinity false]].
Proof.
  set (K := mkPlatform (Some flushed_rsqrt) (masked_shift 64)). exists K.
  assert (G : match run exFO (ex3E Bh (Some 2)) [ex82_close] [] with
              | Ok [t] => (room (ex3E Bh (Some 2)) t /\ map B2SF (nth 3 (t_parts t) []) = map B2SF [F32 1 0; F32 1 0]) /\
                match acc_pot_dispatch exFO exFD (ex3E Bh (Some 2)) K (fun x => x) true QPot t (F32 3 (-2)) (F32 1 0) (F32 0 0) [] [[F32 0 0; F32 0 0]] with
                | Ok o => map (map B2SF) o = [[SpecFloat.S754_infinity false; SpecFloat.S754_infinity false]] | _ => False end
              | _ => False end) by (vm_compute; split; [split; [discriminate|reflexivity]|reflexivity]).
  destruct (run exFO (ex3E Bh (Some 2)) [ex82_close] []) as [[|t [|u w]]|e|] eqn:R; try contradiction.
  destruct (acc_pot_dispatch _ _ _ _ _ _ _ _ _ _ _ _ _) as [o|e|] eqn:A; [|destruct G as [_ []]|destruct G as [_ []]].
  destruct G as [[G1 G2] G3]. exists t, o. split; [reflexivity|]. split; [apply masked_benign|]. split; [|split; [exact G1|split; [|split; [exact A|]]]].
  - exists [ex82_close], [t]. split; [|split; [exact R|now left]]. constructor; [split; [apply ex_sched_ok|reflexivity]|constructor].
  - exact (sf_inj _ _ _ _ G2).
  - exact (sf_inj2 _ _ o [[B754_infinity false; B754_infinity false]] G3).
Qed.
Print Assumptions C82_flushed_rsqrt_refuted.
