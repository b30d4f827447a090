(** Property C79: particles at the same place without softening, in floating-point arithmetic.
    [B2R] is the real value of a floating-point number; two zeros of different signs have the same value. *)
From Coq Require Import List Arith ZArith NArith Reals Bool Lia Permutation.
From Flocq Require Import Core BinarySingleNaN.
From Verif Require Import Base Config Morton Build TreeSpec FOps Disc NodeProps Tree TreeInv TreeProofs TreeEx Kernels TravProofs Force ForceOut ForceTop ForceEx Coincide.
Import ListNotations.
Local Open Scope nat_scope.

(** C79. Two particles of a tree with the same coordinates, and a softening length whose square is zero: if the computation does not throw, all the accelerations of both particles are NaN and their potentials are not finite
    (whatever the masses, theta, G and the number of lanes are).
    The assumption on the platform is that its reciprocal square root of zero is not finite. *)
Theorem C79_coincident_particles :
  forall (D : Type) (OD : fops D) (prec emax : Z) (Hprec : Prec_gt_0 prec) (Hemax : Prec_lt_emax prec emax) (fused : bool)
    (E : env) (K : platform (binary_float prec emax)) (ord : list cnode -> list cnode) (ordered : bool) (q : quant)
    (t : @tree (binary_float prec emax)) (Q : nat -> @prow (binary_float prec emax))
    (theta G eps : binary_float prec emax) (split : list D) (out out' : list (list (binary_float prec emax))) (i l : nat),
  let O := Bops prec emax Hprec Hemax fused in
  let n := length (t_codes t) in
  forall (HE : env_ok E) (HK : benign_shift K)
    (HX : forall f z, k_rsqrt K = Some f -> (exists s, z = B754_zero s) -> is_finite (f z) = false)
    (Ht : reachable O E t) (Hroom : room E t) (Hord : reorders ord) (Hout : out_ok n (nvecs_res E q) out)
    (HQ : forall k, k < n -> row (t_parts t) k (fst (Q k) ++ [snd (Q k)]))
    (Hi : i < n) (Hl : l < n) (Hil : i <> l) (Hsame : map B2R (fst (Q i)) = map B2R (fst (Q l)))
    (Heps : B2R (fmul O eps eps) = 0%R)
    (Hrun : acc_pot_dispatch O OD E K ord ordered q t theta G eps split out = Ok out'),
  forall j, j < nvecs_res E q ->
    exists v, nth_error (nth j out' []) (dst ordered t i) = Some v /\ is_finite v = false /\ (q <> QPot /\ j < dim (e_cfg E) -> is_nan v = true).
Proof.
  intros D OD prec emax Hprec Hemax fused E K ord ordered q t Q theta G eps split out out' i l O n HE HK HX Ht Hroom Hord Hout HQ Hi Hl Hil Hsame Heps Hrun.
  exact (dispatch_lost prec emax Hprec Hemax fused E K HE t Q (reachable_inv O E HE t Ht) HQ i l Hi Hl Hil Hsame OD ord ordered q theta G eps split out out' HX HK Hroom Hord Heps Hout Hrun).
Qed.
Print Assumptions C79_coincident_particles.

(** C79. The same for the sums over all the particles. [o] is the position of the particle [i] in the order used by the function. *)
Theorem C79_coincident_exact :
  forall (prec emax : Z) (Hprec : Prec_gt_0 prec) (Hemax : Prec_lt_emax prec emax) (fused : bool)
    (E : env) (ordered : bool) (q : quant) (t : @tree (binary_float prec emax)) (Q : nat -> @prow (binary_float prec emax))
    (G eps : binary_float prec emax) (res : list (binary_float prec emax)) (o i l : nat),
  let O := Bops prec emax Hprec Hemax fused in
  let n := length (t_codes t) in
  forall (HE : env_ok E) (Ht : reachable O E t)
    (HQ : forall k, k < n -> row (t_parts t) k (fst (Q k) ++ [snd (Q k)]))
    (Hi : i < n) (Hl : l < n) (Hil : i <> l) (Hsame : map B2R (fst (Q i)) = map B2R (fst (Q l)))
    (Heps : B2R (fmul O eps eps) = 0%R)
    (Ho : (if ordered then nth_error (t_inv t) o else Some o) = Some i)
    (Hrun : exact_acc_pot O E ordered q t o G eps = Ok res),
  forall j, j < nvecs_res E q ->
    exists v, nth_error res j = Some v /\ is_finite v = false /\ (q <> QPot /\ j < dim (e_cfg E) -> is_nan v = true).
Proof.
  intros prec emax Hprec Hemax fused E ordered q t Q G eps res o i l O n HE Ht HQ Hi Hl Hil Hsame Heps Ho Hrun.
  exact (exact_lost prec emax Hprec Hemax fused E t Q (reachable_inv O E HE t Ht) HQ i l Hi Hl Hil Hsame ordered q o G eps res Heps Ho Hrun).
Qed.
Print Assumptions C79_coincident_exact.

(** Three particles in single precision; the first two have the coordinates (1/8, 0, 1/4) and (1/8, -0, 1/4). *)
Definition ex79_cols : list (list (binary_float 24 128)) :=
  [[F32 1 (-3); F32 1 (-3); F32 (-1) (-3)]; [F32 0 0; B754_zero true; F32 1 (-3)]; [F32 1 (-2); F32 1 (-2); F32 1 (-3)]; [F32 1 0; F32 3 0; F32 2 0]].
Definition ex79_op : @op (binary_float 24 128) := OConstruct (ex_sched false) (Some (F32 1 0)) (Ranges ex79_cols) (Some 1) (Some 1).
Definition ex79_tree (simd : option nat) : @tree (binary_float 24 128) :=
  match run exFO (ex3E Bh simd) [ex79_op] [] with Ok (t :: _) => t | _ => default_tree exFO (ex3E Bh simd) end.
Definition ex79_K : platform (binary_float 24 128) := mkPlatform (Some (fun x => fdiv exFO (fofZ exFO 1%Z) (fsqrt exFO x))) (masked_shift 64).
Definition ex79_run (simd : option nat) (eps : binary_float 24 128) :=
  acc_pot_dispatch exFO exFD (ex3E Bh simd) ex79_K (fun x => x) true QBoth (ex79_tree simd) (F32 3 (-2)) (F32 1 0) eps [] (repeat (repeat (F32 0 0) 3) 4).
Definition ex79_show (x : outcome (list (list (binary_float 24 128)))) : outcome (list (list (bool * bool))) :=
  do l <- x; Ok (map (map (fun v => (is_finite v, is_nan v))) l).

(** The particle 2 (alone at its place) has finite results; with a softening length of 1/16 everything is finite. *)
Example C79_ex : forall simd, simd = None \/ simd = Some 2 ->
  reachable exFO (ex3E Bh simd) (ex79_tree simd) /\ t_perm (ex79_tree simd) = [2; 0; 1] /\ room (ex3E Bh simd) (ex79_tree simd) /\
  ex79_show (ex79_run simd (F32 0 0)) = Ok (repeat [(false, true); (false, true); (true, false)] 3 ++ [[(false, match simd with None => false | _ => true end); (false, match simd with None => false | _ => true end); (true, false)]]) /\
  ex79_show (ex79_run simd (F32 1 (-4))) = Ok (repeat (repeat (true, false) 3) 4).
Proof.
  intros simd H. split; [|split; [|split; [|split]]].
  - unfold ex79_tree. assert (G : match run exFO (ex3E Bh simd) [ex79_op] [] with Ok [t] => true | _ => false end = true) by (destruct H as [-> | ->]; vm_compute; reflexivity).
    destruct (run exFO (ex3E Bh simd) [ex79_op] []) as [[|t [|u w]]|e|] eqn:R; try discriminate G.
    exists [ex79_op], [t]. split; [|split; [exact R|now left]]. constructor; [split; [apply ex_sched_ok|reflexivity]|constructor].
  - destruct H as [-> | ->]; vm_compute; reflexivity.
  - destruct H as [-> | ->]; vm_compute; discriminate.
  - destruct H as [-> | ->]; vm_compute; reflexivity.
  - destruct H as [-> | ->]; vm_compute; reflexivity.
Qed.
