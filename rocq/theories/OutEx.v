(** Examples of the property C68. Nothing here models code. *)
From Coq Require Import List Arith NArith ZArith Bool Lia Permutation.
From Flocq Require Import BinarySingleNaN.
From Verif Require Import Base Config Morton Build TreeSpec FOps NodeProps Tree TreeInv TreeEx Kernels Force ForceGen ForceTop ForceEx Kw Out.
Import ListNotations.
Local Open Scope nat_scope.

Definition ex_fs (alloc : cnode -> bool) : fsched := mkFS (fun l => l) (fun _ => true) alloc (fun cn => c_begin cn =? 4).
Definition ex_call (alloc : cnode -> bool) (q : quant) (ordered : bool) (theta : binary_float 24 128) (d : dest (binary_float 24 128)) :=
  force_call (D := binary_float 53 1024) exFO exFD (ex3E Bh (Some 2)) (exFK false) (ex_fs alloc) ordered q (exF_tree (Some 2)) theta [] [] d.

Lemma exF_room : room (ex3E Bh (Some 2)) (exF_tree (Some 2)).
Proof. unfold room. rewrite (proj1 (proj2 (exF_reachable (Some 2) (or_intror eq_refl)))). vm_compute. discriminate. Qed.

(** The fourth critical node fails; the fifth is still processed. *)
Definition ex_ones : list (list (binary_float 24 128)) := [repeat (F32 1 0) 7].
Lemma mixture :
  exists (fs : fsched) (t : @tree (binary_float 24 128)) (out out' full : list (list (binary_float 24 128))),
    reachable exFO (ex3E Bh (Some 2)) t /\ room (ex3E Bh (Some 2)) t /\ reorders (f_order fs) /\ Forall (fun col => length (t_codes t) <= length col) out /\
    force_call exFO exFD (ex3E Bh (Some 2)) (exFK false) fs true QPot t (F32 3 (-2)) [] [] (DIters out) = Some (out', Throw BadAlloc) /\
    force_call exFO exFD (ex3E Bh (Some 2)) (exFK false) (mkFS (f_order fs) (f_resize fs) (fun _ => true) (f_after fs)) true QPot t (F32 3 (-2)) [] [] (DIters out) = Some (full, Ok tt) /\
    out' <> out /\ out' <> full.
Proof.
  assert (X : match ex_call (fun cn => negb (c_begin cn =? 3)) QPot true (F32 3 (-2)) (DIters ex_ones), ex_call (fun _ => true) QPot true (F32 3 (-2)) (DIters ex_ones) with
    | Some (o1, Throw BadAlloc), Some (o2, Ok tt) =>
      let eqs a b := map (fun p : SpecFloat.spec_float * SpecFloat.spec_float => match SpecFloat.SFcompare (fst p) (snd p) with Some Eq => true | _ => false end) (combine (concat (sf a)) (concat (sf b))) in
      existsb negb (eqs o1 ex_ones) && existsb negb (eqs o1 o2) = true
    | _, _ => False end) by (vm_compute; reflexivity).
  destruct (ex_call (fun cn => negb (c_begin cn =? 3)) QPot true (F32 3 (-2)) (DIters ex_ones)) as [[o1 r1]|] eqn:C1; [|destruct X].
  destruct r1 as [u1|e1|]; [destruct X| |destruct X]. destruct e1; [destruct X..| |destruct X|destruct X].
  destruct (ex_call (fun _ => true) QPot true (F32 3 (-2)) (DIters ex_ones)) as [[o2 r2]|] eqn:C2; [|destruct X].
  destruct r2 as [[]|e2|]; [|destruct X|destruct X].
  exists (ex_fs (fun cn => negb (c_begin cn =? 3))), (exF_tree (Some 2)), ex_ones, o1, o2.
  destruct (exF_reachable (Some 2) (or_intror eq_refl)) as (R1 & R2 & _).
  split; [exact R1|]. split; [exact exF_room|]. split; [intros l; apply Permutation_refl|]. split; [rewrite R2; constructor; [cbn; lia|constructor]|].
  split; [exact C1|]. split; [exact C2|]. cbv zeta in X. apply andb_true_iff in X as [X1 X2].
  assert (N : forall l, Forall (fun x : SpecFloat.spec_float => SpecFloat.SFcompare x x = Some Eq) l -> existsb negb
    (map (fun p : SpecFloat.spec_float * SpecFloat.spec_float => match SpecFloat.SFcompare (fst p) (snd p) with Some Eq => true | _ => false end) (combine l l)) = false).
  { induction 1 as [|x l Hx Hl IH]; cbn [combine map existsb fst snd]; [reflexivity|]. now rewrite Hx, IH. }
  assert (Y : match ex_call (fun cn => negb (c_begin cn =? 3)) QPot true (F32 3 (-2)) (DIters ex_ones) with
    | Some (o1, _) => forallb (fun x : SpecFloat.spec_float => match SpecFloat.SFcompare x x with Some Eq => true | _ => false end) (concat (sf o1)) = true | None => False end) by (vm_compute; reflexivity).
  rewrite C1 in Y. rewrite forallb_forall in Y.
  assert (Z : Forall (fun x : SpecFloat.spec_float => SpecFloat.SFcompare x x = Some Eq) (concat (sf o1))).
  { apply Forall_forall. intros x Hx. specialize (Y x Hx). destruct (SpecFloat.SFcompare x x) as [[]|]; congruence. }
  apply N in Z. split; intros W; rewrite <- W in *; congruence.
Qed.

Lemma vectors_example : forall bad, exists out' e,
  force_call exFO exFD (ex3E Bh (Some 2)) (exFK false) (ex_fs (fun _ => true)) false QAcc (exF_tree (Some 2)) (if bad : bool then F32 0 0 else F32 3 (-2)) [] []
    (DVectors [[F32 7 0]; []; repeat (F32 9 0) 8]) = Some (out', e) /\ map (@length _) out' = [6; 6; 6] /\
  (bad = true -> e = Throw DomainError) /\ (bad = false -> e = Ok tt).
Proof.
  intros bad.
  assert (X : match ex_call (fun _ => true) QAcc false (if bad then F32 0 0 else F32 3 (-2)) (DVectors [[F32 7 0]; []; repeat (F32 9 0) 8]) with
    | Some (o, e) => map (@length _) o = [6; 6; 6] /\ e = if bad then Throw DomainError else Ok tt | None => False end) by (destruct bad; vm_compute; auto).
  destruct (ex_call _ _ _ _ _) as [[o e]|] eqn:C; [|destruct X]. destruct X as [X1 ->]. exists o, (if bad then Throw DomainError else Ok tt).
  split; [exact C|]. split; [exact X1|]. destruct bad; split; congruence.
Qed.
