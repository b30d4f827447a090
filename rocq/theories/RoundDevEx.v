(** Data for the example of the errors with an accelerator. Nothing here models code. *)
From Coq Require Import List Arith ZArith NArith Reals Bool Lra Lia.
From Flocq Require Import Core BinarySingleNaN.
From Verif Require Import Base Config FOps Disc NodeProps Tree TreeInv Kernels Force ForceEx Gpu GpuEx RoundEx.
Import ListNotations.
Local Open Scope R_scope.

Lemma inj_cols : forall a b : list (list (binary_float 24 128)), map (map (@B2SF 24 128)) a = map (map (@B2SF 24 128)) b -> a = b.
Proof.
  assert (I : forall a b : list (binary_float 24 128), map (@B2SF 24 128) a = map (@B2SF 24 128) b -> a = b).
  { induction a as [|x a IH]; intros [|y b] H; try discriminate; [reflexivity|]. injection H as H1 H2. apply B2SF_inj in H1. subst y. f_equal. now apply IH. }
  induction a as [|x a IH]; intros [|y b] H; try discriminate; [reflexivity|]. injection H as H1 H2. apply I in H1. subst y. f_equal. now apply IH.
Qed.

Lemma exr_same : t_parts exr_tree = t_parts (exF_tree (Some 2%nat)).
Proof. apply inj_cols. vm_compute. reflexivity. Qed.

Lemma exr_parts : forall i, (i < 6)%nat -> row (t_parts exr_tree) i (fst (exF_part (Some 2%nat) i) ++ [snd (exF_part (Some 2%nat) i)]) /\
  Forall (fun x => is_finite x = true /\ Rabs (B2R x) <= bpow radix2 20) (fst (exF_part (Some 2%nat) i)) /\
  is_finite (snd (exF_part (Some 2%nat) i)) = true /\ bpow radix2 (-20) <= Rabs (B2R (snd (exF_part (Some 2%nat) i))) <= bpow radix2 20.
Proof. rewrite exr_same. exact exF_parts. Qed.

(** The call with theta = 1/4. *)
Definition exr14_run := hetero_dispatch exFO ODx np_float (exrE Bh) (exFK false) ex_rocm (fun l => l) (fun l => l) true QBoth exr_tree (F32 1 (-2)) (F32 1 0) (F32 0 0) exr_split exr_out.

Lemma exr14_ok : exists out', exr14_run = Ok out'.
Proof.
  assert (X : match exr14_run with Ok _ => True | _ => False end) by (vm_compute; exact I).
  destruct exr14_run; [eauto|destruct X|destruct X].
Qed.
