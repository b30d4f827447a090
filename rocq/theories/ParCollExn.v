(** The computation of the collision graph by concurrent tasks, as in [ParColl], with tasks that can fail (detail/tree_coll.hpp 210-601). *)
From Coq Require Import List Arith NArith ZArith Bool Lia Permutation FunctionalExtensionality.
From Flocq Require Import Core BinarySingleNaN.
From Verif Require Import Base Config Morton Build TreeSpec FOps Disc NodeProps Tree TreeInv TreeProofs TreeSafe TreeProps Kernels Coll CollProofs CollCover CollR CollProps CollLast
  ParBag ParColl ParCollProofs ParBagExn ParSpec.
Import ListNotations.
Local Open Scope nat_scope.

Section Prog.

Context {F : Type}.
Variable O : fops F.
Variable E : env.
Variable K : platform F.
Notation c := (e_cfg E).
Notation cval := (cval F).
Notation eprog := (ecmd cloc cval).
Notation eapp := (ParBagExn.eapp cloc cval).
Notation epfor := (ParBagExn.epfor cloc cval).

(** Reads of several locations, appends to several vectors (detail/tree_coll.hpp 435-446), as in [ParColl]. *)
Fixpoint ecollect (ls : list cloc) (k : list cval -> eprog) : eprog :=
  match ls with
  | [] => k []
  | l :: r => ERd l (fun v => ecollect r (fun vs => k (v :: vs)))
  end.
Fixpoint epushes (a : carr) (ev : list (nat * nat)) (k : eprog) : eprog :=
  match ev with
  | [] => k
  | (i, x) :: r => EAt (a, i) (XI x) (epushes a r k)
  end.

(** detail/tree_coll.hpp 287-448: the particles [ps] of a leaf one after the other; the first one that fails ends the task, the particles before it have been added. *)
Fixpoint eparticles (f : nat -> outcome (list (nat * nat))) (ps : list nat) : eprog :=
  match ps with
  | [] => ERet
  | p :: r => match f p with Ok ev => epushes CAdd ev (eparticles f r) | Throw e => ERaise e | UB => ERet end
  end.

(** detail/tree_coll.hpp 278-450: the additional particles from the leaf [k], with exceptions. *)
Definition eextras_body (ordered : bool) (box : F) (n nn ns k : nat) : eprog :=
  ecollect (coll_reads E n nn ns) (fun vs =>
    let t := seen E box n vs in
    let leaves := coll_leaves (t_nodes t) in
    match nth_error leaves k with
    | Some lnode => eparticles (extra O E K ordered t (seen_sizes E n vs) leaves lnode) (seq (n_begin lnode) (n_end lnode - n_begin lnode))
    | None => ERet
    end).

(** detail/tree_coll.hpp 231-583: two tasks, the second one with a loop on the leaves that can fail, the first one with a loop on the rows unless the graph was empty;
    then two loops that do not throw. *)
Definition ecoll_prog (was_empty ordered : bool) (box : F) (n nn ns nl : nat) (q : eprog) : Prop :=
  exists q1 q2 q3 q4, (if was_empty then q1 = ERet else epfor (fun i => lift (clear_body i)) 0 n q1) /\
    epfor (eextras_body ordered box n nn ns) 0 nl q2 /\ epfor (fun k => lift (pairs_body O E ordered box n nn ns k)) 0 nl q3 /\ epfor (fun i => lift (dedup_body i)) 0 n q4 /\
    q = eapp (EFork q1 q2 ERet) (eapp q3 q4).

(** * Proofs *)
Notation eacc := (ParBagExn.eacc cloc cval).
Notation all_runs_e := (ParBagExn.all_runs_e cloc cval cloc_eq cop).

Lemma acc_pfor : forall (A : kind * cloc -> Prop) body b e q, epfor body b e q -> (forall i, eacc (body i) A) -> eacc q A.
Proof.
  intros A body b e q H HA. induction H as [b e Hb|b x e c1 c2 H1 IH1 H2 IH2]; [|cbn [ParBagExn.eacc]; auto].
  induction (seq b (e - b)) as [|i l IH]; [exact I|]. cbn [map fold_right]. apply eacc_app; auto.
Qed.
Lemma acc_collect : forall (A : kind * cloc -> Prop) ls k, (forall l, In l ls -> A (KR, l)) -> (forall vs, eacc (k vs) A) -> eacc (ecollect ls k) A.
Proof.
  intros A ls. induction ls as [|l r IH]; intros k HA Hk; cbn [ecollect ParBagExn.eacc]; [apply Hk|].
  split; [apply HA; now left|]. intros v. apply IH; [intros x Hx; apply HA; now right|intros vs; apply Hk].
Qed.
Lemma acc_pushes : forall (A : kind * cloc -> Prop) a ev k, (forall i, A (KA, (a, i))) -> eacc k A -> eacc (epushes a ev k) A.
Proof. intros A a ev k HA Hk. induction ev as [|[i x] r IH]; cbn [epushes ParBagExn.eacc]; auto. Qed.
Lemma acc_particles : forall (A : kind * cloc -> Prop) f ps, (forall i, A (KA, (CAdd, i))) -> eacc (eparticles f ps) A.
Proof. intros A f ps HA. induction ps as [|p r IH]; cbn [eparticles]; [exact I|]. destruct (f p); cbn [ParBagExn.eacc]; auto. apply acc_pushes; auto. Qed.

Lemma lift_collect : forall ls k, lift (ccollect ls k) = ecollect ls (fun vs => lift (k vs)).
Proof. induction ls as [|l r IH]; intros k; cbn [ccollect lift ecollect]; [reflexivity|]. f_equal. extensionality v. apply IH. Qed.
Lemma lift_pushes : forall a ev, lift (pushes a ev) = epushes a ev ERet.
Proof. intros a ev. induction ev as [|[i x] r IH]; cbn [pushes lift epushes]; [reflexivity|now rewrite <- IH]. Qed.
Lemma pushes_app : forall a ev ev' k, epushes a (ev ++ ev') k = epushes a ev (epushes a ev' k).
Proof. intros a ev ev' k. induction ev as [|[i x] r IH]; cbn [List.app epushes]; [reflexivity|now rewrite IH]. Qed.
Lemma particles_ok : forall f ps l, mapM f ps = Ok l -> eparticles f ps = lift (pushes CAdd (concat l)).
Proof.
  intros f ps. induction ps as [|p r IH]; intros l H; cbn [mapM] in H; [injection H as <-; reflexivity|].
  apply bind_Ok in H as (ev & Hp & H). apply bind_Ok in H as (l' & Hr & H). injection H as <-. cbn [eparticles concat]. rewrite Hp, (IH _ Hr), !lift_pushes.
  now rewrite pushes_app.
Qed.

Variable ordered : bool.
Variable t : @tree F.
Variable sizes : list F.
Notation n := (length (t_codes t)).
Notation nn := (length (t_nodes t)).
Notation ns := (length sizes).
Notation leaves := (coll_leaves (t_nodes t)).
Notation reads := (coll_reads E n nn ns).
Variable m : cloc -> cval.
Hypothesis Hcols : length (t_parts t) = dim c + 1.
Hypothesis Hlen : Forall (fun col => length col = n) (t_parts t).
Hypothesis Hperm : length (t_perm t) = n.
Hypothesis Hm : coll_mem t sizes m.

(** What does not change. *)
Definition fixed (l : cloc) : option cval := match fst l with CAdd | CRow => None | _ => Some (m l) end.
Notation espec := (ParSpec.espec cloc cval fixed).

Lemma fixed_reads : forall l, In l reads -> fixed l = Some (m l).
Proof. intros l H. destruct (reads_arr E t sizes l H) as [A B]. unfold fixed. destruct (fst l); congruence. Qed.

Definition ereads (ls : list cloc) (k : eprog) : eprog := fold_right (fun l k => ERd l (fun _ => k)) k ls.
Lemma spec_collect : forall ls k, (forall l, In l ls -> fixed l = Some (m l)) -> espec (ecollect ls k) = ereads ls (espec (k (map m ls))).
Proof.
  induction ls as [|l r IH]; intros k H; cbn [ecollect ParSpec.espec ereads fold_right map]; [reflexivity|]. rewrite (H l) by now left. f_equal. extensionality v.
  rewrite (IH (fun vs => k (m l :: vs))) by (intros x Hx; apply H; now right). reflexivity.
Qed.
Lemma spec_particles : forall f ps, espec (eparticles f ps) = eparticles f ps.
Proof.
  intros f ps. induction ps as [|p r IH]; cbn [eparticles]; [reflexivity|]. destruct (f p) as [ev|e|]; cbn [ParSpec.espec]; try reflexivity.
  induction ev as [|[i x] ev IH2]; cbn [epushes ParSpec.espec]; [exact IH|]. now rewrite IH2.
Qed.

Notation xb := (eextras_body ordered (t_box t) n nn ns).
Lemma spec_body : forall k lnode, nth_error leaves k = Some lnode ->
  espec (xb k) = ereads reads (eparticles (extra O E K ordered t sizes leaves lnode) (seq (n_begin lnode) (n_end lnode - n_begin lnode))).
Proof.
  intros k lnode Hk. unfold eextras_body. rewrite spec_collect by exact fixed_reads. f_equal. rewrite (reads_vals E t sizes Hcols Hlen Hperm m Hm).
  destruct (seen_vals E t sizes Hcols Hlen Hperm) as [-> ->]. cbv zeta. change (t_nodes (seen_t t)) with (t_nodes t). rewrite Hk, spec_particles.
  reflexivity.
Qed.
Lemma spec_lift_body : forall k lnode l, nth_error leaves k = Some lnode ->
  mapM (extra O E K ordered t sizes leaves lnode) (seq (n_begin lnode) (n_end lnode - n_begin lnode)) = Ok l ->
  espec (lift (extras_body O E K ordered (t_box t) n nn ns k)) = espec (xb k).
Proof.
  intros k lnode l Hk Hl. rewrite (spec_body k lnode Hk), (particles_ok _ _ _ Hl). unfold extras_body. rewrite lift_collect, spec_collect by exact fixed_reads. f_equal.
  rewrite (reads_vals E t sizes Hcols Hlen Hperm m Hm). destruct (seen_vals E t sizes Hcols Hlen Hperm) as [-> ->]. cbv zeta. change (t_nodes (seen_t t)) with (t_nodes t). rewrite Hk.
  replace (mapM _ _) with (Ok l).
  rewrite lift_pushes. generalize (concat l). intros ev. induction ev as [|[i x] ev IH]; cbn [epushes ParSpec.espec]; [reflexivity|now rewrite IH].
Qed.

(** Nothing else is written. *)
Notation quiet := (ParSpec.quiet cloc cval fixed).
Lemma quiet_clear : forall i, quiet (lift (clear_body i)).
Proof. intros i. unfold ParSpec.quiet. cbn [clear_body lift ParBagExn.eacc]. split; [now right|exact I]. Qed.
Lemma quiet_dedup : forall i, quiet (lift (dedup_body i)).
Proof. intros i. unfold ParSpec.quiet. cbn [dedup_body lift ParBagExn.eacc]. split; [now left|]. intros [| | | | |]; cbn; auto. Qed.
Lemma quiet_xb : forall k, quiet (xb k).
Proof. intros k. apply acc_collect; [now left|]. intros vs. cbv zeta. destruct (nth_error _ _); [|exact I]. apply acc_particles. now right. Qed.
Lemma quiet_extras : forall k, quiet (lift (extras_body O E K ordered (t_box t) n nn ns k)).
Proof.
  intros k. unfold extras_body. rewrite lift_collect. apply acc_collect; [now left|]. intros vs. cbv zeta. destruct (nth_error _ _); [|exact I].
  destruct (mapM _ _); try exact I. rewrite lift_pushes. apply acc_pushes; [now right|exact I].
Qed.
Lemma quiet_pairs : forall k, quiet (lift (pairs_body O E ordered (t_box t) n nn ns k)).
Proof.
  intros k. unfold ParSpec.quiet. cbn [pairs_body lift ParBagExn.eacc]. split; [now left|]. intros [| | | |va|]; try exact I. unfold pairs_task. cbn [lift ParBagExn.eacc].
  split; [now right|]. rewrite lift_collect.
  apply acc_collect; [now left|]. intros vs. cbv zeta. destruct (nth_error _ _); [|exact I].
  destruct (leaf_events _ _ _ _ _ _ _); try exact I. rewrite lift_pushes. apply acc_pushes; [now right|exact I].
Qed.

Lemma agree_m : ParSpec.agree cloc cval fixed m.
Proof. intros l v H. unfold fixed in H. destruct (fst l); congruence. Qed.

Lemma ecoll_quiet : forall w q, ecoll_prog w ordered (t_box t) n nn ns (length leaves) q -> quiet q.
Proof.
  intros w q (q1 & q2 & q3 & q4 & Q1 & Q2 & Q3 & Q4 & ->). apply eacc_app; [|apply eacc_app].
  - split; [|split; [eapply acc_pfor; [exact Q2|exact quiet_xb]|exact I]]. destruct w; [subst q1; exact I|]. eapply acc_pfor; [exact Q1|exact quiet_clear].
  - eapply acc_pfor; [exact Q3|exact quiet_pairs].
  - eapply acc_pfor; [exact Q4|exact quiet_dedup].
Qed.

(** All sizes are accepted: the program of [ParColl]. *)
Lemma coll_fine : forall w q Q evs,
  mapM (fun lnode => mapM (extra O E K ordered t sizes leaves lnode) (seq (n_begin lnode) (n_end lnode - n_begin lnode))) leaves = Ok evs ->
  ecoll_prog w ordered (t_box t) n nn ns (length leaves) q ->
  (forall q', coll_prog O E K w ordered (t_box t) n nn ns (length leaves) q' -> all_runs cloc cval cloc_eq cop q' m Q) ->
  all_runs_e q m Q (fun _ => False).
Proof.
  intros w q Q evs He Hq H. pose proof (ecoll_quiet w q Hq) as Hquiet. destruct Hq as (q1 & q2 & q3 & q4 & Q1 & Q2 & Q3 & Q4 & ->).
  apply mapM_Ok in He as [_ He].
  destruct (pfor_same cloc cval fixed _ (fun k => lift (extras_body O E K ordered (t_box t) n nn ns k)) _ _ _ Q2) as (q2' & P2 & E2).
  { intros k Hk. destruct (nth_error leaves k) as [lnode|] eqn:Hn; [|apply nth_error_None in Hn; lia]. destruct (He k lnode Hn) as (l & _ & Hl). symmetry.
    exact (spec_lift_body k lnode l Hn Hl). }
  pose proof P2 as P2'. apply lift_pfor in P2 as (r2 & R2 & ->). apply lift_pfor in Q3 as (r3 & R3 & ->). apply lift_pfor in Q4 as (r4 & R4 & ->).
  assert (X1 : exists r1, (if w then r1 = Ret else pfor cloc cval clear_body 0 n r1) /\ q1 = lift r1 /\ quiet q1).
  { destruct w; [exists Ret; subst q1; split; [reflexivity|split; [reflexivity|exact I]]|]. pose proof Q1 as Q1'. apply lift_pfor in Q1 as (r1 & R1 & E1). exists r1.
    split; [exact R1|]. split; [exact E1|]. eapply acc_pfor; [exact Q1'|exact quiet_clear]. }
  destruct X1 as (r1 & R1 & E1 & X1). subst q1.
  set (q' := app cloc cval (Fork r1 r2 Ret) (app cloc cval r3 r4)).
  assert (Hr : all_runs_e (lift q') m Q (fun _ => False)).
  { eapply esim_runs; [apply lift_sim|]. apply H. exists r1, r2, r3, r4. auto. }
  apply (ParSpec.spec_runs cloc cval cloc_eq cop fixed _ m Q _ agree_m Hquiet).
  assert (EQ : espec (eapp (EFork (lift r1) q2 ERet) (eapp (lift r3) (lift r4))) = espec (lift q')).
  { unfold q'. rewrite !lift_app, !spec_app. cbn [lift ParSpec.espec ParBagExn.eapp]. now rewrite E2. }
  rewrite EQ. apply (ParSpec.spec_runs cloc cval cloc_eq cop fixed _ m Q _ agree_m); [|exact Hr].
  unfold q'. rewrite !lift_app. unfold ParSpec.quiet in Hquiet |- *. cbn [lift ParBagExn.eapp ParBagExn.eacc] in Hquiet |- *. destruct Hquiet as (A & _ & B). split; [exact A|].
  split; [eapply acc_pfor; [exact P2'|exact quiet_extras]|exact B].
Qed.

(** Some size is rejected. *)
Definition may (x : kind * cloc) : Prop := fst x = KR /\ fixed (snd x) <> None \/ fst x = KA /\ fst (snd x) = CAdd.
Lemma may_apart : ParBagExn.eapart cloc may may.
Proof.
  intros w w' [a i] H H'. unfold may, fixed in *. cbn [fst snd] in *. destruct H as [[-> H]|[-> H]], H' as [[-> H']|[-> H']]; try reflexivity; subst a; exfalso; auto.
Qed.

Definition fine (q : eprog) : Prop :=
  eacc q may /\ ParBagExn.essafe cloc cval q /\ ParBagExn.eexns cloc cval q (fun e => e = InvalidArgument) /\ exists b, ParBagExn.ebound cloc cval q b.
Lemma fine_reads : forall ls q, (forall l, In l ls -> fixed l = Some (m l)) -> fine q -> fine (ereads ls q).
Proof.
  induction ls as [|l r IH]; intros q H Hq; [exact Hq|]. destruct (IH q (fun x Hx => H x (or_intror Hx)) Hq) as (A & B & C & b & D). cbn [ereads fold_right]. fold (ereads r q).
  split; [split; [left; cbn [fst snd]; rewrite (H l) by (now left); split; [reflexivity|discriminate]|intros _; exact A]|]. split; [intros _; exact B|]. split; [intros _; exact C|].
  exists (S b). exists b. split; [lia|]. intros _. exact D.
Qed.
Lemma must_reads : forall ls q, ParBagExn.emust cloc cval q -> ParBagExn.emust cloc cval (ereads ls q).
Proof. induction ls as [|l r IH]; intros q H; [exact H|]. intros _. now apply IH. Qed.
Lemma fine_pushes : forall ev q, fine q -> fine (epushes CAdd ev q).
Proof.
  intros ev q Hq. induction ev as [|[i x] ev (A & B & C & b & D)]; cbn [epushes]; [exact Hq|]. split; [split; [now right|exact A]|]. split; [exact B|]. split; [exact C|].
  exists (S b). exists b. split; [lia|exact D].
Qed.
Lemma fine_particles : forall f ps, (forall p, In p ps -> (exists ev, f p = Ok ev) \/ f p = Throw InvalidArgument) -> fine (eparticles f ps).
Proof.
  intros f ps. induction ps as [|p r IH]; intros H; cbn [eparticles]; [repeat split; now exists 0|].
  destruct (H p (or_introl eq_refl)) as [(ev & ->)| ->]; [|repeat split; now exists 0]. apply fine_pushes, IH. intros x Hx. apply H. now right.
Qed.
Lemma must_particles : forall f ps, (forall p, In p ps -> (exists ev, f p = Ok ev) \/ f p = Throw InvalidArgument) -> (exists p, In p ps /\ f p = Throw InvalidArgument) ->
  ParBagExn.emust cloc cval (eparticles f ps).
Proof.
  intros f ps. induction ps as [|p r IH]; intros H (p0 & Hp & H0); [destruct Hp|]. cbn [eparticles]. destruct (H p (or_introl eq_refl)) as [(ev & Hev)|Hev]; rewrite Hev; [|exact I].
  assert (G : ParBagExn.emust cloc cval (eparticles f r)).
  { apply IH; [intros x Hx; apply H; now right|]. exists p0. destruct Hp as [->|Hp]; [congruence|auto]. }
  clear - G. induction ev as [|[i x] ev IH2]; cbn [epushes]; [exact G|exact IH2].
Qed.

Lemma coll_fails : forall w q kl0 lnode0 p0,
  (forall kl lnode p, nth_error leaves kl = Some lnode -> n_begin lnode <= p < n_end lnode ->
     (exists ev, extra O E K ordered t sizes leaves lnode p = Ok ev) \/ extra O E K ordered t sizes leaves lnode p = Throw InvalidArgument) ->
  nth_error leaves kl0 = Some lnode0 -> n_begin lnode0 <= p0 < n_end lnode0 -> extra O E K ordered t sizes leaves lnode0 p0 = Throw InvalidArgument ->
  ecoll_prog w ordered (t_box t) n nn ns (length leaves) q ->
  all_runs_e q m (fun _ => False) (fun e => e = InvalidArgument).
Proof.
  intros w q kl0 lnode0 p0 HX Hk0 Hp0 Hf Hq. pose proof (ecoll_quiet w q Hq) as Hquiet. destruct Hq as (q1 & q2 & q3 & q4 & Q1 & Q2 & _ & _ & ->).
  apply runs_then. apply (ParSpec.spec_runs cloc cval cloc_eq cop fixed _ m _ _ agree_m).
  { unfold ParSpec.quiet in Hquiet |- *. cbn [ParBagExn.eapp ParBagExn.eacc] in Hquiet |- *. tauto. }
  cbn [ParSpec.espec]. apply (spec_pfor cloc cval fixed) in Q2.
  destruct (epfor_ok cloc cval _ _ _ _ (fun _ => may) (fun e => e = InvalidArgument) Q2) as (A2 & B2 & C2 & (b2 & D2) & M2).
  { intros k Hk. destruct (nth_error leaves k) as [lnode|] eqn:Hn; [|apply nth_error_None in Hn; lia]. rewrite (spec_body k lnode Hn).
    apply fine_reads; [exact fixed_reads|]. apply fine_particles. intros p Hp. apply in_seq in Hp. apply (HX k lnode p Hn). lia. }
  { intros i j _ _ _. exact may_apart. }
  assert (M : ParBagExn.emust cloc cval (espec q2)).
  { apply M2. exists kl0. split; [split; [lia|apply nth_error_Some; congruence]|]. rewrite (spec_body kl0 lnode0 Hk0). apply must_reads, must_particles.
    - intros p Hp. apply in_seq in Hp. apply (HX kl0 lnode0 p Hk0). lia.
    - exists p0. split; [apply in_seq; lia|exact Hf]. }
  assert (X1 : eacc (espec q1) (fun x => exists i, x = (KW, (CRow, i))) /\ ParBagExn.essafe cloc cval (espec q1) /\
    ParBagExn.eexns cloc cval (espec q1) (fun e => e = InvalidArgument) /\ exists b, ParBagExn.ebound cloc cval (espec q1) b).
  { destruct w; [subst q1; repeat split; now exists 0|]. apply (spec_pfor cloc cval fixed) in Q1.
    destruct (epfor_ok cloc cval _ _ _ _ (fun i x => x = (KW, (CRow, i))) (fun e => e = InvalidArgument) Q1) as (A & B & C & D & _).
    - intros i _. cbn [clear_body lift ParSpec.espec]. split; [split; [reflexivity|exact I]|]. split; [exact I|]. split; [exact I|]. exists 1, 0. split; [lia|exact I].
    - intros i j _ _ Hij k k' l H H'. congruence.
    - split; [eapply eacc_impl; [|exact A]; intros x (i & _ & ->); eauto|]. auto. }
  destruct X1 as (A1 & B1 & C1 & b1 & D1).
  apply all_runs_must with (n := S (b1 + b2 + 0)).
  - cbn [ParBagExn.essafe]. split; [exact B1|]. split; [exact B2|]. split; [exact I|]. eexists _, _. split; [exact A1|]. split; [exact A2|].
    intros k k' l (i & H) (j & _ & H'). injection H as -> ->. destruct H' as [[_ H']|[_ H']]; cbn [fst snd fixed] in H'; [now elim H'|discriminate H'].
  - right. left. exact M.
  - exact (conj C1 (conj C2 I)).
  - exists b1, b2, 0. split; [lia|]. exact (conj D1 (conj D2 I)).
Qed.

End Prog.

Lemma coll_e : forall {F} (O : fops F) (E : env) (K : platform F) (t : @tree F) ordered sizes sch1 sch2 old q m, env_ok E -> reachable O E t ->
  disc_total O E -> full_shift E K t -> reorders sch1 -> reorders sch2 -> length (t_codes t) <= length sizes ->
  (N.of_nat (length (t_codes t)) * cbitsc (e_cfg E) < diff_max)%N ->
  coll_mem t sizes m -> (forall k, k < length (coll_leaves (t_nodes t)) -> m (CAdd, k) = XL []) -> (forall i, i < length (t_codes t) -> m (CRow, i) = XL (nth i old [])) ->
  ecoll_prog O E K (match old with [] => true | _ => false end) ordered (t_box t) (length (t_codes t)) (length (t_nodes t)) (length sizes) (length (coll_leaves (t_nodes t))) q ->
  match compute_cgraph O E K ordered t sizes sch1 sch2 old with
  | Ok g => all_runs_e cloc (cval F) cloc_eq cop q m (fun m' => forall i row, nth_error g i = Some row -> m' (CRow, i) = XR row) (fun _ => False)
  | Throw e => e = InvalidArgument /\ all_runs_e cloc (cval F) cloc_eq cop q m (fun _ => False) (fun e' => e' = InvalidArgument)
  | UB => False
  end.
Proof.
  intros F O E K t ordered sizes sch1 sch2 old q m HE Ht HD HK R1 R2 Hs D Hm Ha Hr Hq. pose proof (reachable_inv O E HE t Ht) as Hinv.
  assert (HP : length (t_perm t) = length (t_codes t)) by exact (is_perm_length _ _ (inv_perm _ _ _ Hinv)).
  pose proof (full_shift_ok E K t HK) as HK'. set (leaves := coll_leaves (t_nodes t)) in *.
  assert (HX : forall kl lnode p, nth_error leaves kl = Some lnode -> n_begin lnode <= p < n_end lnode ->
    (exists evs, extra O E K ordered t sizes leaves lnode p = Ok evs) \/ extra O E K ordered t sizes leaves lnode p = Throw InvalidArgument).
  { intros kl lnode p Hkl Hp. destruct (extra_cases O E K t Hinv HK' ordered sizes Hs kl lnode p Hkl Hp) as (s & xs & _ & _ & Lx & HC).
    destruct (bad_size O s); [now right|]. destruct (feq O s (fofZ O 0)); [eauto|].
    destruct (aabb_codes_class O E HD xs s (fdiv O (fofZ O 1) (t_box t)) Lx) as [(vs & Hvs)|Hvs]; rewrite Hvs in HC; [|now right].
    destruct HC as (evs & HC & _). eauto. }
  pose proof (graph_spec O E K t Hinv ordered sizes sch1 sch2 old R1 R2 Hs (small_representable _ E t Hinv D)) as HG.
  destruct (extras_class O E K t ordered sizes InvalidArgument HX) as [(evs & Hev)|(Hev & kl & lnode & p & Hkl & Hp & Hf)]; rewrite Hev in HG.
  - destruct HG as (g & Hg & _). rewrite Hg. unfold extras in Hev. apply bind_Ok in Hev as (evs1 & Hev1 & _).
    eapply (coll_fine O E K ordered t sizes m (inv_ncols _ _ _ Hinv) (inv_cols _ _ _ Hinv) HP Hm _ q _ evs1 Hev1 Hq).
    intros q' Hq'. exact (coll_task_runs O E K ordered t sizes sch1 sch2 old g q' m HE Ht R1 R2 Hg Hm Ha Hr Hq').
  - rewrite HG. split; [reflexivity|]. exact (coll_fails O E K ordered t sizes m (inv_ncols _ _ _ Hinv) (inv_cols _ _ _ Hinv) HP Hm _ q kl lnode p HX Hkl Hp Hf Hq).
Qed.
