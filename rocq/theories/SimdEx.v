(** A tree for the refutation about negative masses. Nothing here models code. *)
From Coq Require Import List Arith ZArith NArith Bool Reals Lra Lia Permutation.
From Flocq Require Import BinarySingleNaN.
From Verif Require Import Base Config Morton Build TreeSpec FOps NodeProps Tree TreeInv TreeEx TreeProofs TreeSafe NodesR Kernels Force ForceOut ForceTop ForceEx SimdTree.
Import ListNotations.
Local Open Scope nat_scope.

(** A particle far from two others of opposite masses, whose centre of mass is outside the box. *)
Definition neg_cols : list (list (binary_float 24 128)) :=
  map (map (fun '(m, e) => F32 m e))
  [ [(-3, -3); (1, -2); (3, -3)]; [(-3, -3); (1, -2); (3, -3)]; [(-3, -3); (1, -2); (3, -3)]; [(1, 0); (-15, -4); (1, 0)] ]%Z.

Definition neg_op : @op (binary_float 24 128) := OConstruct (ex_sched false) (Some (F32 1 0)) (Ranges neg_cols) (Some 2) (Some 1).
Definition neg_tree (simd : option nat) : @tree (binary_float 24 128) :=
  match run exFO (ex3E Bh simd) [neg_op] [] with Ok (t :: _) => t | _ => default_tree exFO (ex3E Bh simd) end.

Lemma neg_run : forall simd, simd = None \/ simd = Some 2 -> run exFO (ex3E Bh simd) [neg_op] [] = Ok [neg_tree simd] /\ length (t_codes (neg_tree simd)) = 3.
Proof.
  intros simd H. unfold neg_tree.
  assert (G : match run exFO (ex3E Bh simd) [neg_op] [] with Ok [t] => length (t_codes t) = 3 | _ => False end).
  { destruct H as [-> | ->]; vm_compute; auto. }
  destruct (run exFO (ex3E Bh simd) [neg_op] []) as [[|t [|u w]]|e|] eqn:R; try contradiction. auto.
Qed.

(** The first particle is pushed one way by the scalar code and the other way by the vector code. *)
Lemma neg_differ : exists (o : @op (binary_float 24 128)) (t t' : @tree (binary_float 24 128)) (out : list (list (binary_float 24 128))),
  op_ok (ex3E Bh None) o /\ run exFO (ex3E Bh None) [o] [] = Ok [t] /\ run exFO (ex3E Bh (Some 2)) [o] [] = Ok [t'] /\
  length (t_codes t) = 3 /\ out_ok 3 3 out /\
  (exists r x, acc_pot_dispatch exFO exFD (ex3E Bh None) (exFK false) (fun l => l) true QAcc t (F32 1 0) (F32 1 0) (F32 0 0) [] out = Ok r /\
     nth_error (nth 0 r []) 0 = Some x /\ flt exFO (F32 1 (-10)) x = true) /\
  (exists r x, acc_pot_dispatch exFO exFD (ex3E Bh (Some 2)) (exFK false) (fun l => l) true QAcc t' (F32 1 0) (F32 1 0) (F32 0 0) [] out = Ok r /\
     nth_error (nth 0 r []) 0 = Some x /\ flt exFO x (F32 (-1) (-4)) = true).
Proof.
  destruct (neg_run None (or_introl eq_refl)) as [R1 L1]. destruct (neg_run (Some 2) (or_intror eq_refl)) as [R2 _].
  exists neg_op, (neg_tree None), (neg_tree (Some 2)), (repeat (repeat (F32 0 0) 3) 3).
  split; [split; [apply ex_sched_ok|reflexivity]|]. split; [exact R1|]. split; [exact R2|]. split; [exact L1|].
  split; [split; [reflexivity|repeat constructor]|].
  assert (X1 : match acc_pot_dispatch exFO exFD (ex3E Bh None) (exFK false) (fun l => l) true QAcc (neg_tree None) (F32 1 0) (F32 1 0) (F32 0 0) [] (repeat (repeat (F32 0 0) 3) 3) with
    | Ok o => match nth_error (nth 0 o []) 0 with Some x => flt exFO (F32 1 (-10)) x = true | None => False end | _ => False end) by (vm_compute; reflexivity).
  assert (X2 : match acc_pot_dispatch exFO exFD (ex3E Bh (Some 2)) (exFK false) (fun l => l) true QAcc (neg_tree (Some 2)) (F32 1 0) (F32 1 0) (F32 0 0) [] (repeat (repeat (F32 0 0) 3) 3) with
    | Ok o => match nth_error (nth 0 o []) 0 with Some x => flt exFO x (F32 (-1) (-4)) = true | None => False end | _ => False end) by (vm_compute; reflexivity).
  generalize dependent (neg_tree None). intros t _ _ X1. generalize dependent (neg_tree (Some 2)). intros t' _ X2. split.
  - destruct (acc_pot_dispatch exFO exFD (ex3E Bh None) _ _ _ _ _ _ _ _ _ _) as [o|e|]; [|destruct X1|destruct X1].
    destruct (nth_error (nth 0 o []) 0) as [x|] eqn:N; [|destruct X1]. exists o, x. auto.
  - destruct (acc_pot_dispatch exFO exFD (ex3E Bh (Some 2)) _ _ _ _ _ _ _ _ _ _) as [o|e|]; [|destruct X2|destruct X2].
    destruct (nth_error (nth 0 o []) 0) as [x|] eqn:N; [|destruct X2]. exists o, x. auto.
Qed.

Lemma ex3_both : env_ok (ex3E Bh (Some 4)) /\ with_simd (ex3E Bh (Some 4)) None [] = ex3E Bh None /\
  exists t, run Rops (ex3E Bh (Some 4)) [OConstruct (ex_sched false) (Some 1%R) (Ranges ex3_cols) (Some 1) (Some 2)] [] = Ok [t].
Proof.
  split; [apply ex3E_ok; lia|]. split; [reflexivity|]. set (E := ex3E Bh (Some 4)).
  assert (HE : env_ok E) by (apply ex3E_ok; lia).
  assert (Hg : given_table E (Ranges ex3_cols) 4).
  { split; [|exact I]. split; [reflexivity|]. repeat constructor. }
  assert (CT : exists t, generic_ctor Rops E (ex_sched false) (Some 1%R) (Ranges ex3_cols) (Some 1) (Some 2) = Ok t).
  { destruct (ctor_R E (ex_sched false) (Some 1%R) (Ranges ex3_cols) (Some 1) (Some 2) 4) as [H _]; auto.
    - apply ex_sched_ok.
    - vm_compute. discriminate.
    - vm_compute. reflexivity.
    - discriminate.
    - discriminate.
    - destruct (H 1%R eq_refl ltac:(lra)) as [[_ H1] _]. apply H1.
      intros col x Hc Hx. cbn [e_cfg E ex3E dim given ex3_cols firstn] in Hc.
      destruct Hc as [<-|[<-|[<-|[]]]]; cbn [In] in Hx; decompose [or] Hx; subst; try lra; contradiction. }
  destruct CT as [t Ht]. exists t. unfold run. cbn [foldM step]. rewrite Ht. reflexivity.
Qed.
