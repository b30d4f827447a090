(** Properties C50, C51, C62: keyword arguments. A call that does not compile is [None]; an argument [Named tg ty o] is [keyword = object] with the
    type and the value category of the object. *)
From Coq Require Import List Arith NArith ZArith Lia Bool Permutation.
From Flocq Require Import Core BinarySingleNaN.
From Verif Require Import Base Config Morton Build TreeSpec FOps NodeProps Tree TreeEx Kernels Force ForceEx Kw KwProofs KwEx.
Import ListNotations.
Local Open Scope nat_scope.

(** C50. The same keyword twice, with values of the same type, is rejected. *)
Theorem C50_same_type_rejected :
  forall (F D : Type) (O : fops F) (OD : fops D) (E : env) (s : sched) (l1 l2 l3 : list arg) (tg : tag) (ty : ctype) (o o' : nat) (st : list (obj F D))
    (K : platform F) (order : list cnode -> list cnode) (ordered : bool) (q : quant) (t : @tree F) (theta : F) (out : list (list F)),
  kw_ctor O E s (l1 ++ Named tg ty o :: l2 ++ Named tg ty o' :: l3) st = None /\
  kw_accpot O OD E K order ordered q t theta (l1 ++ Named tg ty o :: l2 ++ Named tg ty o' :: l3) st out = None.
Proof.
  intros F D O OD E s l1 l2 l3 tg ty o o' st K order ordered q t theta out.
  unfold kw_ctor, kw_accpot, ctor_compiles, accpot_compiles. rewrite duplicates_found. split; reflexivity.
Qed.
Print Assumptions C50_same_type_rejected.

(** C50. With values of different types or value categories it is accepted. *)
Theorem C50_duplicates_refuted : exists (args : list arg) (st : list (obj (binary_float 24 128) (binary_float 53 1024))) l1 l2 l3 tg ty ty' o o' r,
  args = l1 ++ Named tg ty o :: l2 ++ Named tg ty' o' :: l3 /\ o <> o' /\ nth_error st o <> nth_error st o' /\
  kw_ctor (F32ops false) (exE false) (ex_sched false) args st = Some r.
Proof. exact kw_dup_witness. Qed.
Print Assumptions C50_duplicates_refuted.

(** C50. Then the first one counts: without the second one, the call compiles as well and does the same. *)
Theorem C50_first_one_counts :
  forall (F D : Type) (O : fops F) (OD : fops D) (E : env) (s : sched) (a b : list arg) (tg : tag) (ty : ctype) (o : nat) (st : list (obj F D))
    (K : platform F) (order : list cnode -> list cnode) (ordered : bool) (q : quant) (t : @tree F) (theta : F) (out : list (list F))
    (Htwice : exists ty' o', In (Named tg ty' o') a),
  (forall r, kw_ctor O E s (a ++ Named tg ty o :: b) st = Some r -> kw_ctor O E s (a ++ b) st = Some r) /\
  (forall r, kw_accpot O OD E K order ordered q t theta (a ++ Named tg ty o :: b) st out = Some r -> kw_accpot O OD E K order ordered q t theta (a ++ b) st out = Some r).
Proof.
  intros F D O OD E s a b tg ty o st K order ordered q t theta out Htwice.
  assert (Hi : In tg (tags a)) by (destruct Htwice as (ty' & o' & Hi); apply in_flat_map; exists (Named tg ty' o'); split; [exact Hi|now left]).
  split; intros r; [exact (ctor_first O E s a b tg ty o st r Hi)|exact (accpot_first O OD E K order ordered q t theta a b tg ty o st out r Hi)].
Qed.
Print Assumptions C50_first_one_counts.

Example C50_first_ex : exists r, kw_ctor (F32ops false) (exE false) (ex_sched false) (kw_args (mkCT BFvec false true) ++ [Named BoxSize (mkCT (BNum 1) false false) 4]) kw_st = Some r /\
  In (Named BoxSize (mkCT (BNum 1) false true) 3) (kw_args (mkCT BFvec false true)).
Proof. exact kw_first_ex. Qed.

(** C51. Objects of the caller after a constructor call, whether it succeeds or fails: an object none of whose arguments is a modifiable rvalue is unchanged, with one exception: the masses, if
    all the coordinates are modifiable rvalue [f_vector]s. *)
Theorem C51_lvalues_unchanged :
  forall (F D : Type) (O : fops F) (E : env) (s : sched) (args : list arg) (st st' : list (obj F D)) (r : outcome (@tree F)) (o : nat)
    (Hcall : kw_ctor O E s args st = Some (st', r))
    (Hlvalue : forall tg ty, In (Named tg ty o) args -> ct_const ty = true \/ ct_rv ty = false)
    (Hmasses : (forall ty, ~ In (Named Masses ty o) args) \/ ~ all_movable E args),
  nth_error st' o = nth_error st o.
Proof.
  intros F D O E s args st st' r o Hcall Hlvalue Hmasses.
  destruct (ctor_objects O E s args st st' r Hcall) as [_ H]. destruct (H o) as [A|(_ & B & tg & ty & C1 & C2 & C3)]; [exact A|exfalso].
  apply fetch_in in C1. destruct C3 as [->|C3].
  - destruct Hmasses as [Hm|Hm]; [exact (Hm _ C1)|exact (Hm B)].
  - destruct (Hlvalue tg ty C1) as [Hx|Hx]; congruence.
Qed.
Print Assumptions C51_lvalues_unchanged.

Example C51_unchanged_ex : exists st' t, kw_ctor (F32ops false) (exE false) (ex_sched false) (kw_args (mkCT BFvec false false)) kw_st = Some (st', Ok t) /\
  (forall tg ty o, In (Named tg ty o) (kw_args (mkCT BFvec false false)) -> o < 3 -> ct_const ty = true \/ ct_rv ty = false) /\ ~ all_movable (exE false) (kw_args (mkCT BFvec false false)) /\ length (t_codes t) = 2.
Proof. exact kw_unchanged_ex. Qed.

(** C51. Nothing is changed at all unless all the coordinates are modifiable rvalue [f_vector]s; changed objects are empty vectors. *)
Theorem C51_only_moved_objects_change :
  forall (F D : Type) (O : fops F) (E : env) (s : sched) (args : list arg) (st st' : list (obj F D)) (r : outcome (@tree F))
    (Hcall : kw_ctor O E s args st = Some (st', r)),
  length st' = length st /\
  forall o, nth_error st' o = nth_error st o \/
    nth_error st' o = Some (OCol []) /\ all_movable E args /\ exists tg ty, In (Named tg ty o) args /\ ct_const ty = false /\ (tg = Masses \/ ct_rv ty = true).
Proof.
  intros F D O E s args st st' r Hcall. destruct (ctor_objects O E s args st st' r Hcall) as [L H]. split; [exact L|].
  intros o. destruct (H o) as [A|(A & B & tg & ty & C & C')]; [now left|right]. split; [exact A|]. split; [exact B|]. exists tg, ty. split; [now apply fetch_in|exact C'].
Qed.
Print Assumptions C51_only_moved_objects_change.

(** C51. In the exceptional case, masses passed as an lvalue are lost. *)
Theorem C51_masses_lost :
  forall (F D : Type) (O : fops F) (E : env) (s : sched) (args : list arg) (st st' : list (obj F D)) (t : @tree F) (ty : ctype) (o : nat)
    (Hcall : kw_ctor O E s args st = Some (st', Ok t)) (Hdist : NoDup (tags args)) (Hmasses : In (Named Masses ty o) args) (Hlvalue : ct_rv ty = false) (Hconst : ct_const ty = false) (Hmove : all_movable E args),
  nth_error st' o = Some (OCol []).
Proof.
  intros F D O E s args st st' t ty o Hcall Hdist Hmasses Hlvalue Hconst Hmove.
  exact (ctor_masses_lost O E s args st st' (Ok t) ty o Hcall Hmove (fetch_nodup _ _ _ _ Hdist Hmasses) Hconst (ex_intro _ t eq_refl)).
Qed.
Print Assumptions C51_masses_lost.

Theorem C51_lvalue_masses_refuted : exists (args : list arg) (st st' : list (obj (binary_float 24 128) (binary_float 53 1024))) ty o t,
  kw_ctor (F32ops false) (exE false) (ex_sched false) args st = Some (st', Ok t) /\ NoDup (tags args) /\
  In (Named Masses ty o) args /\ ct_rv ty = false /\ nth_error st' o <> nth_error st o.
Proof. exact kw_masses_witness. Qed.
Print Assumptions C51_lvalue_masses_refuted.

(** C62. Keyword arguments can be given in any order. *)
Theorem C62_any_order :
  forall (F D : Type) (O : fops F) (OD : fops D) (E : env) (s : sched) (args args' : list arg) (st : list (obj F D))
    (K : platform F) (order : list cnode -> list cnode) (ordered : bool) (q : quant) (t : @tree F) (theta : F) (out : list (list F))
    (Hperm : Permutation args args') (Hdist : NoDup (tags args)),
  kw_ctor O E s args st = kw_ctor O E s args' st /\
  kw_accpot O OD E K order ordered q t theta args st out = kw_accpot O OD E K order ordered q t theta args' st out.
Proof.
  intros F D O OD E s args args' st K order ordered q t theta out Hperm Hdist.
  exact (conj (ctor_order O E s args args' st Hperm Hdist) (accpot_order O OD E K order ordered q t theta args args' st out Hperm Hdist)).
Qed.
Print Assumptions C62_any_order.

(** C62. Which constructor calls compile. *)
Theorem C62_accepted_calls :
  forall (F D : Type) (O : fops F) (E : env) (s : sched) (args : list arg) (st : list (obj F D)) (Hdist : NoDup (tags args)),
  (exists r, kw_ctor O E s args st = Some r) <->
  ~ In Unnamed args /\
  exists b0, (forall tg, (exists j, j < dim (e_cfg E) /\ tg = Coord j) \/ tg = Masses -> exists ty o, In (Named tg ty o) args /\ ct_base ty = b0) /\
    (In Nparts (tags args) <-> is_range b0 = false).
Proof.
  intros F D O E s args st Hdist.
  assert (Ht : forall tg, In tg (pdata_tags E) <-> (exists j, j < dim (e_cfg E) /\ tg = Coord j) \/ tg = Masses).
  { intros tg. unfold pdata_tags. rewrite in_app_iff, in_map_iff. cbn [In]. split.
    - intros [(j & <- & Hj)|[<-|[]]]; [left; exists j; apply in_seq in Hj; split; [lia|reflexivity]|now right].
    - intros [(j & Hj & ->)| ->]; [left; exists j; split; [reflexivity|apply in_seq; lia]|right; now left]. }
  assert (Hc : (exists r, kw_ctor O E s args st = Some r) <-> ctor_compiles E args = true).
  { unfold kw_ctor. destruct (ctor_compiles E args); split; try discriminate; eauto. intros [r Hr]. discriminate. }
  rewrite Hc, (ctor_compiles_spec E args Hdist). split; intros (H1 & b0 & H2 & H3); (split; [exact H1|]); exists b0; (split; [|exact H3]); intros tg Hg; apply H2; now apply Ht.
Qed.
Print Assumptions C62_accepted_calls.

(** C62. Which force calls compile: the split, if given, is an lvalue of the type of the splits. *)
Theorem C62_accepted_force_calls :
  forall (F D : Type) (O : fops F) (OD : fops D) (E : env) (K : platform F) (order : list cnode -> list cnode) (ordered : bool) (q : quant) (t : @tree F) (theta : F)
    (args : list arg) (st : list (obj F D)) (out : list (list F)) (Hdist : NoDup (tags args)),
  (exists r, kw_accpot O OD E K order ordered q t theta args st out = Some r) <->
  ~ In Unnamed args /\ forall ty o, In (Named KwSplit ty o) args -> ct_base ty = BSplit /\ ct_rv ty = false.
Proof.
  intros F D O OD E K order ordered q t theta args st out Hdist. rewrite <- (accpot_compiles_spec args Hdist). unfold kw_accpot.
  destruct (accpot_compiles args); split; try discriminate; eauto. intros [r Hr]. discriminate.
Qed.
Print Assumptions C62_accepted_force_calls.

Example C62_force_ex : NoDup (tags [Named KwG (mkCT (BNum 0) false true) 0; Named KwSplit (mkCT BSplit true false) 1]) /\
  accpot_compiles [Named KwG (mkCT (BNum 0) false true) 0; Named KwSplit (mkCT BSplit true false) 1] = true /\
  accpot_compiles [Named KwG (mkCT (BNum 0) false true) 0; Named KwSplit (mkCT BSplit false true) 1] = false.
Proof. split; [|split; reflexivity]. cbn. repeat constructor; cbn; intuition discriminate. Qed.

(** C62. What a call does: it is determined by the values given, with the defaults for those that are not. The tree is that of the constructor of the other properties. *)
Theorem C62_constructor_values :
  forall (F D : Type) (O : fops F) (E : env) (s : sched) (args : list arg) (st st' : list (obj F D)) (r : outcome (@tree F))
    (box : option F) (mln nc n : option nat) (cols : list (list F))
    (Hcall : kw_ctor O E s args st = Some (st', r)) (Hdist : NoDup (tags args))
    (Hbox : carries st args BoxSize obj_F box) (Hmln : carries st args MaxLeafN obj_size mln) (Hnc : carries st args Ncrit obj_size nc) (Hn : carries st args Nparts obj_size n)
    (Hcols : columns E st args cols) (Hdata : distinct_data E args),
  exists inp, r = generic_ctor O E s box inp mln nc /\
    (forall k, n = Some k -> inp = Iterators cols k) /\ (n = None -> all_movable E args -> inp = RangesMoved cols) /\ (n = None -> ~ all_movable E args -> inp = Ranges cols).
Proof.
  intros F D O E s args st st' r box mln nc n cols Hcall Hdist Hbox Hmln Hnc Hn Hcols Hdata.
  eexists. split; [exact (ctor_positional O E s args st st' r box mln nc n cols Hcall Hdist Hbox Hmln Hnc Hn Hcols Hdata)|].
  split; [intros k ->; reflexivity|]. split; intros -> H; [now rewrite (proj2 (move_data_spec E args) H)|].
  destruct (move_data E args) eqn:Em; [|reflexivity]. elim H. now apply move_data_spec.
Qed.
Print Assumptions C62_constructor_values.

Theorem C62_force_values :
  forall (F D : Type) (O : fops F) (OD : fops D) (E : env) (K : platform F) (order : list cnode -> list cnode) (ordered : bool) (q : quant) (t : @tree F) (theta : F)
    (args : list arg) (st : list (obj F D)) (out : list (list F)) (r : outcome (list (list F))) (G eps : option F) (split : option (list D))
    (Hcall : kw_accpot O OD E K order ordered q t theta args st out = Some r) (Hdist : NoDup (tags args))
    (HG : carries st args KwG obj_F G) (Heps : carries st args KwEps obj_F eps) (Hsplit : carries st args KwSplit obj_split split),
  r = acc_pot_dispatch O OD E K order ordered q t theta (match G with Some x => x | None => fofZ O 1%Z end) (match eps with Some x => x | None => fofZ O 0%Z end)
        (match split with Some l => l | None => [] end) out.
Proof.
  intros F D O OD E K order ordered q t theta args st out r G eps split Hcall Hdist HG Heps Hsplit.
  exact (accpot_positional O OD E K order ordered q t theta args st out r G eps split Hcall Hdist HG Heps Hsplit).
Qed.
Print Assumptions C62_force_values.

Example C62_ex : NoDup (tags (kw_args (mkCT BFvec false true))) /\
  carries kw_st (kw_args (mkCT BFvec false true)) BoxSize obj_F (Some (F32 1 0)) /\ carries kw_st (kw_args (mkCT BFvec false true)) MaxLeafN obj_size None /\
  columns (exE false) kw_st (kw_args (mkCT BFvec false true)) kw_cols /\ distinct_data (exE false) (kw_args (mkCT BFvec false true)) /\ all_movable (exE false) (kw_args (mkCT BFvec false true)).
Proof. exact kw_values_ex. Qed.

(** C62. Arguments with a keyword that the function does not know (for example [z_coords] in two dimensions) are accepted and ignored. *)
Theorem C62_other_keywords_ignored :
  forall (F D : Type) (O : fops F) (OD : fops D) (E : env) (s : sched) (a b : list arg) (tg : tag) (ty : ctype) (o : nat) (st : list (obj F D))
    (K : platform F) (order : list cnode -> list cnode) (ordered : bool) (q : quant) (t : @tree F) (theta : F) (out : list (list F)),
  ((tg = KwG \/ tg = KwEps \/ tg = KwSplit \/ exists j, tg = Coord j /\ dim (e_cfg E) <= j) ->
   forall r, kw_ctor O E s (a ++ Named tg ty o :: b) st = Some r -> kw_ctor O E s (a ++ b) st = Some r) /\
  ((tg <> KwG /\ tg <> KwEps /\ tg <> KwSplit) ->
   forall r, kw_accpot O OD E K order ordered q t theta (a ++ Named tg ty o :: b) st out = Some r -> kw_accpot O OD E K order ordered q t theta (a ++ b) st out = Some r).
Proof.
  intros F D O OD E s a b tg ty o st K order ordered q t theta out. split; intros H r.
  - apply (ctor_ignores O E s a b tg ty o st r). destruct H as [->|[->|[->|(j & -> & Hj)]]]; try reflexivity. cbn. apply Nat.ltb_ge. exact Hj.
  - apply (accpot_ignores O OD E K order ordered q t theta a b tg ty o st out r). destruct tg; try reflexivity; exfalso; tauto.
Qed.
Print Assumptions C62_other_keywords_ignored.

Example C62_ignored_ex : exists r, kw_ctor (F32ops false) (exE false) (ex_sched false) (kw_args (mkCT BFvec false true) ++ [Named (Coord 2) (mkCT BFvec false true) 7]) kw_st = Some r.
Proof. exact kw_ignored_ex. Qed.
