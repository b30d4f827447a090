(** Examples of calls with keyword arguments. Nothing here models code. *)
From Coq Require Import List Arith NArith ZArith Lia Bool Permutation.
From Flocq Require Import Core BinarySingleNaN.
From Verif Require Import Base Config Morton Build TreeSpec FOps NodeProps Tree TreeEx Kernels Force Kw KwProofs.
Import ListNotations.
Local Open Scope nat_scope.

Notation kobj := (obj (binary_float 24 128) (binary_float 53 1024)).

Definition kw_cols : list (list (binary_float 24 128)) := [[F32 1 (-2); F32 (-1) (-2)]; [F32 1 (-3); F32 3 (-3)]; [F32 5 0; F32 7 0]].
Definition kw_st : list kobj := map OCol kw_cols ++ [ONum (Some (F32 1 0)) (Some 1); ONum (Some (F32 8 0)) (Some 8)].

(** Coordinates of the given type, masses as an lvalue, and a box size. *)
Definition kw_args (cty : ctype) : list arg :=
  [Named BoxSize (mkCT (BNum 1) false true) 3; Named Masses (mkCT BFvec false false) 2; Named (Coord 1) cty 1; Named (Coord 0) cty 0].

Definition kw_run (args : list arg) : option (list kobj * outcome (@tree (binary_float 24 128))) := kw_ctor (F32ops false) (exE false) (ex_sched false) args kw_st.

Lemma kw_dup_witness : exists (args : list arg) (st : list kobj) l1 l2 l3 tg ty ty' o o' r,
  args = l1 ++ Named tg ty o :: l2 ++ Named tg ty' o' :: l3 /\ o <> o' /\ nth_error st o <> nth_error st o' /\
  kw_ctor (F32ops false) (exE false) (ex_sched false) args st = Some r.
Proof.
  exists (kw_args (mkCT BFvec false true) ++ [Named BoxSize (mkCT (BNum 1) false false) 4]), kw_st.
  exists [], [Named Masses (mkCT BFvec false false) 2; Named (Coord 1) (mkCT BFvec false true) 1; Named (Coord 0) (mkCT BFvec false true) 0], [].
  exists BoxSize, (mkCT (BNum 1) false true), (mkCT (BNum 1) false false), 3, 4.
  assert (X : match kw_run (kw_args (mkCT BFvec false true) ++ [Named BoxSize (mkCT (BNum 1) false false) 4]) with Some _ => True | None => False end) by (vm_compute; exact I).
  unfold kw_run in X. destruct (kw_ctor _ _ _ _ _) as [r|]; [|destruct X]. exists r.
  split; [reflexivity|]. split; [lia|]. split; [|reflexivity]. intros Z. apply (f_equal (fun x => match x with Some (ONum _ (Some n)) => n | _ => 0 end)) in Z. vm_compute in Z. discriminate.
Qed.

Lemma kw_first_ex : exists r, kw_ctor (F32ops false) (exE false) (ex_sched false) (kw_args (mkCT BFvec false true) ++ [Named BoxSize (mkCT (BNum 1) false false) 4]) kw_st = Some r /\
  In (Named BoxSize (mkCT (BNum 1) false true) 3) (kw_args (mkCT BFvec false true)).
Proof.
  assert (X : match kw_run (kw_args (mkCT BFvec false true) ++ [Named BoxSize (mkCT (BNum 1) false false) 4]) with Some _ => True | None => False end) by (vm_compute; exact I).
  unfold kw_run in X. destruct (kw_ctor _ _ _ _ _) as [r|]; [|destruct X]. exists r. split; [reflexivity|now left].
Qed.

Lemma kw_ignored_ex : exists r, kw_ctor (F32ops false) (exE false) (ex_sched false) (kw_args (mkCT BFvec false true) ++ [Named (Coord 2) (mkCT BFvec false true) 7]) kw_st = Some r.
Proof.
  assert (X : match kw_run (kw_args (mkCT BFvec false true) ++ [Named (Coord 2) (mkCT BFvec false true) 7]) with Some _ => True | None => False end) by (vm_compute; exact I).
  unfold kw_run in X. destruct (kw_ctor _ _ _ _ _) as [r|]; [|destruct X]. now exists r.
Qed.

Lemma kw_unchanged_ex : exists st' t, kw_ctor (F32ops false) (exE false) (ex_sched false) (kw_args (mkCT BFvec false false)) kw_st = Some (st', Ok t) /\
  (forall tg ty o, In (Named tg ty o) (kw_args (mkCT BFvec false false)) -> o < 3 -> ct_const ty = true \/ ct_rv ty = false) /\
  ~ all_movable (exE false) (kw_args (mkCT BFvec false false)) /\ length (t_codes t) = 2.
Proof.
  assert (X : match kw_run (kw_args (mkCT BFvec false false)) with Some (_, Ok t) => length (t_codes t) = 2 | _ => False end) by (vm_compute; reflexivity).
  unfold kw_run in X. destruct (kw_ctor _ _ _ _ _) as [[st' [t|e|]]|]; [|destruct X..]. exists st', t. split; [reflexivity|]. split; [|split; [|exact X]].
  - intros tg ty o H Ho. cbn in H. destruct H as [H|[H|[H|[H|[]]]]]; injection H as <- <- <-; [lia|right; reflexivity..].
  - intros H. destruct (H 0 ltac:(cbn; lia)) as (ty & o & E & _ & _ & R). cbn in E. injection E as <- <-. discriminate.
Qed.

Lemma kw_tags : forall ty, NoDup (tags (kw_args ty)).
Proof. intros ty. cbn. repeat constructor; cbn; intuition discriminate. Qed.

Lemma kw_masses_witness : exists (args : list arg) (st st' : list kobj) ty o t,
  kw_ctor (F32ops false) (exE false) (ex_sched false) args st = Some (st', Ok t) /\ NoDup (tags args) /\
  In (Named Masses ty o) args /\ ct_rv ty = false /\ nth_error st' o <> nth_error st o.
Proof.
  exists (kw_args (mkCT BFvec false true)), kw_st.
  assert (X : match kw_run (kw_args (mkCT BFvec false true)) with Some (st', Ok t) => match nth_error st' 2 with Some (OCol []) => True | _ => False end | _ => False end) by (vm_compute; exact I).
  unfold kw_run in X. destruct (kw_ctor _ _ _ _ _) as [[st' [t|e|]]|]; [|destruct X..]. exists st', (mkCT BFvec false false), 2, t.
  split; [reflexivity|]. split; [apply kw_tags|]. split; [right; now left|]. split; [reflexivity|]. intros Z. rewrite Z in X. exact X.
Qed.

Lemma kw_values_ex : NoDup (tags (kw_args (mkCT BFvec false true))) /\
  carries kw_st (kw_args (mkCT BFvec false true)) BoxSize obj_F (Some (F32 1 0)) /\ carries kw_st (kw_args (mkCT BFvec false true)) MaxLeafN obj_size None /\
  columns (exE false) kw_st (kw_args (mkCT BFvec false true)) kw_cols /\ distinct_data (exE false) (kw_args (mkCT BFvec false true)) /\ all_movable (exE false) (kw_args (mkCT BFvec false true)).
Proof.
  split; [apply kw_tags|]. split; [exists (mkCT (BNum 1) false true), 3, (ONum (Some (F32 1 0)) (Some 1)); split; [now left|auto]|]. split; [cbn; intuition discriminate|]. split.
  - unfold columns. cbn [pdata_tags exE e_cfg dim seq map app kw_cols].
    constructor; [exists (mkCT BFvec false true), 0, (OCol (nth 0 kw_cols [])); cbn; auto 8|].
    constructor; [exists (mkCT BFvec false true), 1, (OCol (nth 1 kw_cols [])); cbn; auto 8|].
    constructor; [exists (mkCT BFvec false false), 2, (OCol (nth 2 kw_cols [])); cbn; auto 8|constructor].
  - split.
    + intros tg tg' ty ty' o H1 H2 H3 H4. cbn in H3, H4.
      destruct H3 as [H3|[H3|[H3|[H3|[]]]]], H4 as [H4|[H4|[H4|[H4|[]]]]]; injection H3 as <- <- <-; injection H4 as <- _; try reflexivity; discriminate.
    + intros j Hj. cbn in Hj. destruct j as [|[|j]]; [| |lia]; eexists _, _; (split; [reflexivity|auto]).
Qed.
