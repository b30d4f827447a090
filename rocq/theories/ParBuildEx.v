(** Executable programs and interleavings of the parallel construction, for the examples. Nothing here models code. *)
From Coq Require Import List Arith NArith ZArith Bool Lia.
From Flocq Require Import Core BinarySingleNaN.
From Verif Require Import Base Config Morton Build FOps NodeProps Tree TreeEx Kernels Coll CollEx CollWit ParBag ParCollEx ParBuild.
Import ListNotations.
Local Open Scope nat_scope.

Section Ex.

Variable c : cfg.
Variable codes : list N.
Variables max_leaf_n ncrit : nat.
Context {P : Type}.
Variable cnp : nat -> nat -> N -> N -> outcome P.
Variable split_nparts : nat.

(** All loops are divided up to single iterations. *)
Definition child_cmd (sub : list nat -> N -> nat -> nat -> bool -> cmd bloc (bval P)) (rem : nat) (p : list nat) (pc : N) (b e : nat) (ca : bool) (i : nat) : cmd bloc (bval P) :=
  let id := i :: p in
  match child_of c codes max_leaf_n ncrit cnp split_nparts rem pc b e ca (N.of_nat i) with
  | Ok (Leaf t l) => publish id t l (add_count p id)
  | Ok (Serial t l t' l') => publish id t l (Wr (BTree, id) (YT t') (Wr (BCrit, id) (YK l') (add_count p id)))
  | Ok (Parallel t l code b' e' ca) => publish id t l (app bloc (bval P) (sub id code b' e' ca) (take_count p id))
  | _ => Ret
  end.
Fixpoint par_cmd (rem : nat) (p : list nat) (pc : N) (b e : nat) (ca : bool) : cmd bloc (bval P) :=
  match rem with
  | O => Wr (BCount, p) (YC 0) Ret
  | S rem => Wr (BCount, p) (YC 0) (bhalve (N.to_nat (2 ^ dimN c)) (child_cmd (par_cmd rem) rem p pc b e ca) 0 (N.to_nat (2 ^ dimN c)))
  end.

Lemma par_cmd_ok : forall rem p pc b e ca, par_prog c codes max_leaf_n ncrit cnp split_nparts rem p pc b e ca (par_cmd rem p pc b e ca).
Proof.
  induction rem as [|rem IH]; intros p pc b e ca; [reflexivity|]. cbn [par_prog par_cmd]. eexists _, _. split; [|split; [apply bhalve_pfor; lia|reflexivity]].
  intros i _. unfold child_prog, child_cmd. destruct (child_of _ _ _ _ _ _ _ _ _ _ _ _) as [[]| |]; try reflexivity. eexists. split; [apply IH|reflexivity].
Qed.

Definition build_cmd (props : P) : cmd bloc (bval P) :=
  let n := length codes in
  let root_is_crit := (n <=? ncrit) || (n <=? max_leaf_n) in
  let q0 := par_cmd (N.to_nat (cbitsc c)) [] 1%N 0 n root_is_crit in
  let rest := app bloc (bval P) q0 (Rd (BCount, []) (fun v => match v with YC k => Wr (BRoot, []) (YC k) Ret | _ => Ret end)) in
  let q1 := if max_leaf_n <? n then rest else Ret in
  Fork (Wr (BProps, []) (YP props) Ret) (if root_is_crit then Wr (BCrit, []) (YK [mkCnode 1 0 n]) (At (BCrits, []) (YB [[]]) q1) else q1) Ret.

(** There is such a program for every input. *)
Lemma build_cmd_ok : forall props, cnp 0 (length codes) 1%N 0%N = Ok props -> build_prog c codes max_leaf_n ncrit cnp split_nparts (build_cmd props).
Proof.
  intros props H. exists props. exists (if max_leaf_n <? length codes then par_cmd (N.to_nat (cbitsc c)) [] 1%N 0 (length codes) ((length codes <=? ncrit) || (length codes <=? max_leaf_n)) else Ret).
  unfold build_cmd. cbv zeta. split; [exact H|]. destruct (max_leaf_n <? length codes); [split; [apply par_cmd_ok|reflexivity]|split; reflexivity].
Qed.

Definition build_mem (junk : bval P) : bloc -> bval P := fun l => match l with (BTrees, []) | (BCrits, []) => YB [] | (BRoot, []) => YC 0 | _ => junk end.

End Ex.

Definition ex78_T := exC_tree exC_span.
Definition ex78_cnp := cnp exCO exCE (t_parts ex78_T) (t_box ex78_T).
Definition ex78_prog (split : nat) : cmd bloc (bval (props f32)) :=
  match ex78_cnp 0 6 1%N 0%N with Ok x => build_cmd (e_cfg exCE) (t_codes ex78_T) 1 2 ex78_cnp split x | _ => Ret end.
Definition ex78_end (split : nat) (f : nat -> nat) := bdrive bloc_eq bop 3000 f (ex78_prog split) (build_mem (YC 77)).
Definition ex78_trees {P} (r : nat * ((bloc -> bval P) * cmd bloc (bval P))) : list (list nat) := match fst (snd r) (BTrees, []) with YB l => l | _ => [] end.

Lemma ex78_prog_gen : forall c (T : @tree f32) cn split, length (t_codes T) = 6 -> t_mln T = 1 -> t_ncrit T = 2 -> match cn 0 6 1%N 0%N with Ok _ => true | _ => false end = true ->
  build_prog (P := props f32) c (t_codes T) (t_mln T) (t_ncrit T) cn split (match cn 0 6 1%N 0%N with Ok x => build_cmd c (t_codes T) 1 2 cn split x | _ => Ret end).
Proof.
  intros c T cn split H1 H2 H3 H4. rewrite H2, H3. destruct (cn 0 6 1%N 0%N) as [x| |] eqn:E; [|discriminate|discriminate]. apply build_cmd_ok. now rewrite H1.
Qed.
Lemma ex78_prog_ok : build_prog (e_cfg exCE) (t_codes ex78_T) (t_mln ex78_T) (t_ncrit ex78_T) ex78_cnp 2 (ex78_prog 2).
Proof.
  assert (E1 : length (t_codes ex78_T) = 6) by (vm_compute; reflexivity).
  assert (E2 : t_mln ex78_T = 1) by (vm_compute; reflexivity).
  assert (E3 : t_ncrit ex78_T = 2) by (vm_compute; reflexivity).
  assert (E4 : match ex78_cnp 0 6 1%N 0%N with Ok _ => true | _ => false end = true) by (vm_compute; reflexivity).
  exact (ex78_prog_gen (e_cfg exCE) ex78_T ex78_cnp 2 E1 E2 E3 E4).
Qed.
