(** Concrete trees for the examples and refutations about collisions. Nothing here models code. *)
From Coq Require Import List Arith ZArith NArith Bool Reals Lra Lia Permutation.
From Flocq Require Import Core BinarySingleNaN.
From Verif Require Import Base Config Morton Build TreeSpec FOps FOpsProofs Disc NodeProps Tree TreeInv TreeProofs TreeEx Kernels
  Coll CollSearch CollProofs CollProps CollShift CollLast CollEx.
Import ListNotations.
Local Open Scope nat_scope.

(** Values of concrete numbers. *)
Lemma B2R_of : forall (x : f32) s m e, B2SF x = SpecFloat.S754_finite s m e -> B2R x = (IZR (cond_Zopp s (Zpos m)) * bpow radix2 e)%R.
Proof. intros x s m e H. rewrite <- SF2R_B2SF, H. reflexivity. Qed.

Lemma B2SF_inj32 : forall x y : f32, B2SF x = B2SF y -> x = y.
Proof. intros x y H. now apply B2SF_inj. Qed.

Ltac value := match goal with |- context [B2R ?x] => let v := eval vm_compute in (B2SF x) in
  match v with SpecFloat.S754_finite ?s ?m ?e => rewrite (B2R_of x s m e) by (vm_compute; reflexivity); cbn [cond_Zopp Z.opp] end end.

Lemma ex_two_reachable : reachable exCO exCE (exC_tree exC_two).
Proof. apply exC_reachable; [reflexivity|now vm_compute]. Qed.
Lemma ex_near_reachable : reachable exCO exCE (exC_tree exC_near).
Proof. apply exC_reachable; [reflexivity|now vm_compute]. Qed.
Lemma ex_deep_reachable : reachable exCO exCE (exC_tree exC_deep).
Proof. apply exC_reachable; [reflexivity|now vm_compute]. Qed.
Lemma ex_span_reachable : reachable exCO exCE (exC_tree exC_span).
Proof. apply exC_reachable; [reflexivity|now vm_compute]. Qed.

Lemma ex_float : reachable exCO exCE (exC_tree exC_two) /\ full_shift exCE zero_shift (exC_tree exC_two) /\ B2R (t_box (exC_tree exC_two)) = 1%R /\
  (forall l, (1 <= l <= 15)%Z -> (B2R (F32 1 (-1)) < 1 * bpow radix2 (- l))%R -> (B2R (F32 1 (-1)) + 8 * bpow radix2 (- 24) * 1 <= 1 * bpow radix2 (- l))%R) /\
  exC_graph zero_shift true exC_two [(1, -1); (1, -1)]%Z = Ok [[1]; [0]].
Proof.
  split; [exact ex_two_reachable|]. split; [now left|]. split; [value; cbn; lra|]. split; [|now vm_compute].
  intros l Hl H. exfalso. assert (B : (bpow radix2 (- l) <= bpow radix2 (-1))%R) by (apply bpow_le; lia).
  revert H. value. intros H. cbn in H, B. lra.
Qed.

Lemma ex_two : reachable exCO exCE (exC_tree exC_two) /\ exC_graph (exCK true) false exC_two [(1, -1); (1, -1)]%Z = Ok [[1]; [0]] /\
  exC_graph (exCK true) false exC_two [(1, -3); (1, -4)]%Z = Ok [[]; []].
Proof. split; [exact ex_two_reachable|]. split; now vm_compute. Qed.

Definition f32s (l : list (Z * Z)) : list f32 := map (fun '(m, e) => F32 m e) l.

Lemma span_missed :
  exists (t : @tree f32) (sizes : list f32) s0 s1 x0 x1,
    reachable exCO exCE t /\ nth_error sizes 0 = Some s0 /\ nth_error sizes 1 = Some s1 /\ vertex t true 4 0 /\ vertex t true 3 1 /\
    row (firstn 2 (t_parts t)) 4 x0 /\ row (firstn 2 (t_parts t)) 3 x1 /\
    (0 < B2R s0)%R /\ (0 < B2R s1)%R /\ Forall2 (fun a b => Rabs (B2R a - B2R b) < B2R s0 / 2)%R x0 x1 /\
    forall K sch1 sch2 old, reorders sch1 -> reorders sch2 ->
      compute_cgraph exCO exCE K true t sizes sch1 sch2 old = Ok [[]; []; []; []; []; []].
Proof.
  exists (exC_tree exC_span), (f32s [(16777215, -26); (1, -10); (0, 0); (0, 0); (0, 0); (0, 0)]%Z), (F32 16777215 (-26)), (F32 1 (-10)),
    [F32 4194303 (-25); F32 1 (-4)], [F32 7 (-5); F32 1 (-5)].
  split; [exact ex_span_reachable|]. split; [reflexivity|]. split; [reflexivity|]. split; [now vm_compute|]. split; [now vm_compute|].
  assert (HR : forall i m1 e1 m2 e2, map (fun col => option_map B2SF (nth_error col i)) (firstn 2 (t_parts (exC_tree exC_span))) = [Some (B2SF (F32 m1 e1)); Some (B2SF (F32 m2 e2))] ->
    row (firstn 2 (t_parts (exC_tree exC_span))) i [F32 m1 e1; F32 m2 e2]).
  { intros i m1 e1 m2 e2 H. unfold row. destruct (firstn 2 (t_parts (exC_tree exC_span))) as [|c1 [|c2 [|c3 l]]]; try discriminate.
    cbn [map] in H. injection H as H1 H2.
    constructor; [|constructor; [|constructor]].
    - destruct (nth_error c1 i); [|discriminate]. f_equal. apply B2SF_inj32. cbn [option_map] in H1. congruence.
    - destruct (nth_error c2 i); [|discriminate]. f_equal. apply B2SF_inj32. cbn [option_map] in H2. congruence. }
  split; [apply HR; vm_compute; reflexivity|]. split; [apply HR; vm_compute; reflexivity|]. clear HR.
  split; [value; cbn; lra|]. split; [value; cbn; lra|]. split.
  { constructor; [|constructor; [|constructor]]; do 3 value; cbn; apply Rabs_def1; lra. }
  intros K sch1 sch2 old R1 R2.
  rewrite (schedule exCO exCE K true (exC_tree exC_span) _ sch1 sch2 (fun l => l) (fun l => l) old [] R1 R2 (fun l => Permutation_refl l) (fun l => Permutation_refl l)).
  rewrite (platform_free exCO exCE (exC_tree exC_span) K (exCK true)).
  - now vm_compute.
  - assert (H : forallb (fun nd => (n_level nd <? 15)%N) (t_nodes (exC_tree exC_span)) = true) by now vm_compute.
    intros nd Hnd _. rewrite forallb_forall in H. specialize (H nd Hnd). apply N.ltb_lt in H. change (cbitsc (e_cfg exCE)) with 15%N. exact H.
  - intros s Hs. cbn [f32s map In] in Hs. destruct Hs as [<-|[<-|Hs]].
    + right. exists 10. split; [split; [lia|vm_compute; lia]|now vm_compute].
    + right. exists 10. split; [split; [lia|vm_compute; lia]|now vm_compute].
    + left. assert (Hs' : F32 0 0 = s) by (decompose [or] Hs; assumption || contradiction). rewrite <- Hs'. now vm_compute.
Qed.

Lemma deep_missed :
  exists (t : @tree f32) (sizes : list f32) s0 s2 x0 x2,
    reachable exCO exCE t /\ nth_error sizes 0 = Some s0 /\ nth_error sizes 2 = Some s2 /\ vertex t true 0 0 /\ vertex t true 2 2 /\
    row (firstn 2 (t_parts t)) 0 x0 /\ row (firstn 2 (t_parts t)) 2 x2 /\
    (0 < B2R s0)%R /\ Forall2 (fun a b => Rabs (B2R a - B2R b) < B2R s2 / 2)%R x0 x2 /\
    forall sch1 sch2 old, reorders sch1 -> reorders sch2 ->
      compute_cgraph exCO exCE (mkPlatform None (masked_shift 32)) true t sizes sch1 sch2 old = Ok [[1]; [0]; []].
Proof.
  exists (exC_tree exC_deep), (f32s [(1, -20); (1, -20); (2, 0)]%Z), (F32 1 (-20)), (F32 2 0), [F32 (-1) (-1); F32 (-1) (-1)], [F32 1 (-2); F32 1 (-2)].
  split; [exact ex_deep_reachable|]. split; [reflexivity|]. split; [reflexivity|]. split; [now vm_compute|]. split; [now vm_compute|].
  assert (HR : forall i m1 e1 m2 e2, map (fun col => option_map B2SF (nth_error col i)) (firstn 2 (t_parts (exC_tree exC_deep))) = [Some (B2SF (F32 m1 e1)); Some (B2SF (F32 m2 e2))] ->
    row (firstn 2 (t_parts (exC_tree exC_deep))) i [F32 m1 e1; F32 m2 e2]).
  { intros i m1 e1 m2 e2 H. unfold row. destruct (firstn 2 (t_parts (exC_tree exC_deep))) as [|c1 [|c2 [|c3 l]]]; try discriminate.
    cbn [map] in H. injection H as H1 H2.
    constructor; [|constructor; [|constructor]].
    - destruct (nth_error c1 i); [|discriminate]. f_equal. apply B2SF_inj32. cbn [option_map] in H1. congruence.
    - destruct (nth_error c2 i); [|discriminate]. f_equal. apply B2SF_inj32. cbn [option_map] in H2. congruence. }
  split; [apply HR; vm_compute; reflexivity|]. split; [apply HR; vm_compute; reflexivity|]. clear HR.
  split; [value; cbn; lra|]. split.
  { constructor; [|constructor; [|constructor]]; do 3 value; cbn; apply Rabs_def1; lra. }
  intros sch1 sch2 old R1 R2.
  rewrite (schedule exCO exCE _ true (exC_tree exC_deep) _ sch1 sch2 (fun l => l) (fun l => l) old [] R1 R2 (fun l => Permutation_refl l) (fun l => Permutation_refl l)).
  now vm_compute.
Qed.

(** Two undefined shifts: a cube smaller than a cell at the boundary of two leaves; a leaf of maximum depth. *)
Lemma undefined_shift :
  exists (t t' : @tree f32) (sizes sizes' : list f32), reachable exCO exCE t /\ reachable exCO exCE t' /\
    length sizes = length (t_codes t) /\ length sizes' = length (t_codes t') /\
    (forall s, In s (sizes ++ sizes') -> is_finite s = true /\ (0 < B2R s)%R) /\
    (forall nd, In nd (t_nodes t) -> (n_level nd <= 3)%N) /\
    (forall s, In s sizes' -> B2R s = B2R (t_box t')) /\
    forall sch1 sch2 old ordered, reorders sch1 -> reorders sch2 ->
      compute_cgraph exCO exCE (mkPlatform None strict_shift) ordered t sizes sch1 sch2 old = UB /\
      compute_cgraph exCO exCE (mkPlatform None strict_shift) ordered t' sizes' sch1 sch2 old = UB.
Proof.
  exists (exC_tree exC_near), (exC_tree exC_deep), (f32s [(1, -20); (1, -1)]%Z), (f32s [(1, 0); (1, 0); (1, 0)]%Z).
  split; [exact ex_near_reachable|]. split; [exact ex_deep_reachable|]. split; [now vm_compute|]. split; [now vm_compute|]. split.
  { cbn [f32s map app In]. intros s Hs. decompose [or] Hs; subst; try contradiction; (split; [now vm_compute|value; cbn; lra]). }
  split.
  { assert (H : forallb (fun nd => (n_level nd <=? 3)%N) (t_nodes (exC_tree exC_near)) = true) by now vm_compute.
    intros nd Hnd. rewrite forallb_forall in H. specialize (H nd Hnd). apply N.leb_le in H. exact H. }
  split.
  { assert (HB : t_box (exC_tree exC_deep) = F32 1 0) by (apply B2SF_inj32; now vm_compute). rewrite HB.
    cbn [f32s map In]. intros s Hs. decompose [or] Hs; subst; try contradiction; reflexivity. }
  intros sch1 sch2 old ordered R1 R2.
  split.
  - eapply eq_trans; [exact (schedule exCO exCE _ ordered (exC_tree exC_near) _ sch1 sch2 (fun l => l) (fun l => l) old [] R1 R2 (fun l => Permutation_refl l) (fun l => Permutation_refl l))|].
    destruct ordered; now vm_compute.
  - eapply eq_trans; [exact (schedule exCO exCE _ ordered (exC_tree exC_deep) _ sch1 sch2 (fun l => l) (fun l => l) old [] R1 R2 (fun l => Permutation_refl l) (fun l => Permutation_refl l))|].
    destruct ordered; now vm_compute.
Qed.
