(** Property C69: rounding errors of the direct sums.
    [B2R] is the real value of a floating-point number; [prec] is the number of bits of the significand (24 or 53), [emax] the bound of the
    exponents (128 or 1024). The relative error of one operation is at most u = 2^-prec, and [g] is 1 / (1 - u); [eta] is the smallest positive number.
    [pull ndim q e2 j p1 p2] (C25) is the exact value of the component [j] of the interaction of the particle [p1] with the point mass [p2]. *)
From Coq Require Import List Arith ZArith NArith Reals Bool Lra Lia.
From Flocq Require Import Core BinarySingleNaN.
From Verif Require Import Base Config Morton Build TreeSpec FOps FOpsProofs Disc NodeProps Tree TreeInv TreeProofs TreeSafe TreeEx RSum Kernels KernR Force ForceTop ForceEx RoundEx RoundExact.
Import ListNotations.
Local Open Scope R_scope.

(** C69. Data of moderate size: coordinates at most 2^k, masses, G and eps zero or between 2^-k and 2^k, softened distances at least 2^-k. *)
Theorem C69_exact_sums_rounding :
  forall (prec emax k : Z) (Hprec : Prec_gt_0 prec) (Hemax : Prec_lt_emax prec emax) (fused : bool)
    (Hprec8 : (8 <= prec)%Z) (Hk0 : (0 <= k)%Z) (Hk5 : (5 * k + 16 <= emax)%Z) (Hk4 : (prec + 4 * k + 4 <= emax)%Z)
    (E : env) (ordered : bool) (q : quant) (t : @tree (binary_float prec emax)) (Q : nat -> @prow (binary_float prec emax))
    (G eps : binary_float prec emax) (i : nat),
  let O := Bops prec emax Hprec Hemax fused in
  let g := / (1 - bpow radix2 (- prec)) in let eta := bpow radix2 (3 - emax - prec) in
  let real (p : @prow (binary_float prec emax)) := (map (@B2R prec emax) (fst p), B2R (snd p)) in
  let moderate (x : binary_float prec emax) := is_finite x = true /\ (B2R x = 0 \/ bpow radix2 (- k) <= Rabs (B2R x) <= bpow radix2 k) in
  let n := length (t_codes t) in
  forall (HE : env_ok E) (Ht : reachable O E t)
    (HQ : forall l, (l < n)%nat -> row (t_parts t) l (fst (Q l) ++ [snd (Q l)]))
    (Hdata : forall l, (l < n)%nat -> Forall (fun x => is_finite x = true /\ Rabs (B2R x) <= bpow radix2 k) (fst (Q l)) /\ moderate (snd (Q l)))
    (HG : moderate G) (Heps : moderate eps) (Hpos : 0 <= B2R eps) (Hi : (i < n)%nat)
    (Hapart : forall l, (l < n)%nat -> l <> i -> bpow radix2 (- (2 * k)) <= sep2 (fst (real (Q l))) (fst (real (Q i))) + B2R eps * B2R eps)
    (Hfew : (Z.of_nat n + 27 <= 2 ^ (prec - 1))%Z),
  exists rw, exact_acc_pot O E ordered q t (dst ordered t i) G eps = Ok rw /\ length rw = nvecs_res E q /\
    forall j, (j < nvecs_res E q)%nat ->
      let T l := B2R G * pull (dim (e_cfg E)) q (B2R eps * B2R eps) j (real (Q i)) (real (Q l)) in
      let L := filter (fun l => negb (l =? i)%nat) (seq 0 n) in
      exists v, nth_error rw j = Some v /\ is_finite v = true /\
        Rabs (B2R v - rsum T L) <= (g ^ (26 + n) - 1) * rsum (fun l => Rabs (T l)) L + INR n * eta * g ^ (26 + n).
Proof.
  intros prec emax k Hprec Hemax fused Hprec8 Hk0 Hk5 Hk4 E ordered q t Q G eps i O g eta real moderate n HE Ht HQ Hdata HG Heps Hpos Hi Hapart Hfew.
  exact (exact_F prec emax Hprec Hemax fused Hprec8 k Hk0 Hk5 E ordered q t Q G eps i (reachable_inv O E HE t Ht) HQ Hdata HG Heps Hpos Hi Hapart Hfew Hk4).
Qed.
Print Assumptions C69_exact_sums_rounding.

(** Six particles in single precision, with k = 20: the result of the particle 2 of the tree, softened by eps = 1, and the bound of the theorem applies. *)
Example C69_ex : exists rw, exact_acc_pot exFO (ex3E Bh (Some 2%nat)) false QBoth (exF_tree (Some 2%nat)) 2 (F32 1 0) (F32 1 0) = Ok rw /\ length rw = 4%nat /\
  forall j, (j < 4)%nat -> exists v, nth_error rw j = Some v /\ is_finite v = true.
Proof.
  destruct (exF_reachable (Some 2%nat) (or_intror eq_refl)) as (R & L & _).
  assert (M1 : is_finite (F32 1 0) = true /\ (B2R (F32 1 0) = 0 \/ bpow radix2 (- (20)) <= Rabs (B2R (F32 1 0)) <= bpow radix2 20)).
  { destruct box1 as [F ->]. split; [exact F|]. right. rewrite Rabs_R1. change 1 with (bpow radix2 0). split; apply bpow_le; lia. }
  destruct (C69_exact_sums_rounding 24 128 20 prec32 emax32 true ltac:(lia) ltac:(lia) ltac:(lia) ltac:(lia) (ex3E Bh (Some 2%nat)) false QBoth (exF_tree (Some 2%nat)) (exF_part (Some 2%nat))
    (F32 1 0) (F32 1 0) 2 (ex3E_ok Bh 2 ltac:(lia)) R) as (rw & H1 & H2 & H3).
  - intros l Hl. rewrite L in Hl. now apply exF_parts.
  - intros l Hl. rewrite L in Hl. destruct (exF_parts l Hl) as (_ & A & B & C). split; [exact A|]. split; [exact B|]. now right.
  - exact M1.
  - exact M1.
  - destruct box1 as [_ ->]. lra.
  - rewrite L. lia.
  - intros l _ _. destruct box1 as [_ ->]. match goal with |- _ <= ?s + _ => assert (P : 0 <= s) by apply sep2_nonneg end.
    assert (bpow radix2 (- (2 * 20)) <= bpow radix2 0) by (apply bpow_le; lia). change (bpow radix2 0) with 1 in *. lra.
  - rewrite L. vm_compute. discriminate.
  - exists rw. split; [exact H1|]. split; [exact H2|]. intros j Hj. destruct (H3 j Hj) as (v & V1 & V2 & _). exists v. exact (conj V1 V2).
Qed.
