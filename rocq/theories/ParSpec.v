(** Programs of [ParBagExn] in which some locations are only read: they can be replaced by programs that ignore what they read there. It models no code by itself. *)
From Coq Require Import List Arith Bool Lia FunctionalExtensionality.
From Verif Require Import Base ParBag ParBagExn.
Import ListNotations.
Local Open Scope nat_scope.

Set Default Proof Using "Type".

Section Spec.

Variables L V : Type.
Variable eqL : forall a b : L, {a = b} + {a <> b}.
Variable op : V -> V -> V.
Variable g : L -> option V.
Notation mem := (L -> V).
Notation ecmd := (ecmd L V).
Notation estep := (estep L V eqL op).
Notation eexec := (eexec L V eqL op).
Notation all_runs_e := (all_runs_e L V eqL op).
Notation eapp := (eapp L V).

Fixpoint espec (c : ecmd) : ecmd :=
  match c with
  | ERet => ERet
  | ERaise e => ERaise e
  | ERd l k => match g l with Some v => ERd l (fun _ => espec (k v)) | None => ERd l (fun v => espec (k v)) end
  | EWr l v k => EWr l v (espec k)
  | EAt l v k => EAt l v (espec k)
  | EFork a b k => EFork (espec a) (espec b) (espec k)
  end.

Definition agree (m : mem) : Prop := forall l v, g l = Some v -> m l = v.
Definition quiet (c : ecmd) : Prop := eacc L V c (fun x => fst x = KR \/ g (snd x) = None).

Lemma agree_upd : forall m l v, agree m -> g l = None -> agree (ParBag.upd L V eqL m l v).
Proof. intros m l v H Hl x u Hx. unfold ParBag.upd. destruct (eqL x l) as [->|]; [congruence|auto]. Qed.

Lemma spec_step : forall m c m' c', estep m c m' c' -> agree m -> quiet c -> estep m (espec c) m' (espec c') /\ agree m' /\ quiet c'.
Proof.
  intros m c m' c' H. unfold quiet. induction H; intros Ha Hq; cbn [espec eacc] in *.
  - destruct Hq as [_ Hq]. split; [|auto]. destruct (g l) as [u|] eqn:G; [rewrite (Ha _ _ G); constructor|apply (es_rd L V eqL op m l (fun v => espec (k v)))].
  - destruct Hq as [[Hq|Hq] Hk]; [discriminate Hq|]. split; [constructor|]. split; [now apply agree_upd|exact Hk].
  - destruct Hq as [[Hq|Hq] Hk]; [discriminate Hq|]. split; [constructor|]. split; [now apply agree_upd|exact Hk].
  - destruct Hq as (Q1 & Q2 & Q3). destruct (IHestep Ha Q1) as (A & B & C). split; [apply es_left, A|]. split; [exact B|]. exact (conj C (conj Q2 Q3)).
  - destruct Hq as (Q1 & Q2 & Q3). destruct (IHestep Ha Q2) as (A & B & C). split; [apply es_right, A|]. split; [exact B|]. exact (conj Q1 (conj C Q3)).
  - destruct Hq as (Q1 & Q2 & Q3). split; [apply es_join|auto].
  - split; [apply es_cancel_right|]. split; [exact Ha|exact I].
  - split; [apply es_cancel_left|]. split; [exact Ha|exact I].
Qed.

Lemma spec_ret : forall c, espec c = ERet -> c = ERet.
Proof. intros [| |l k| | |]; cbn [espec]; try discriminate; [reflexivity|]. destruct (g l); discriminate. Qed.
Lemma spec_raise : forall c e, espec c = ERaise e -> c = ERaise e.
Proof. intros [|x|l k| | |] e; cbn [espec]; try discriminate; [intros H; now injection H as ->|]. destruct (g l); discriminate. Qed.

Lemma spec_back : forall c m m' y, estep m (espec c) m' y -> agree m -> exists c', estep m c m' c' /\ y = espec c'.
Proof.
  induction c as [|e|l k IH|l v k IH|l v k IH|a IHa b IHb k IHk]; intros m m' y H Ha; cbn [espec] in H.
  - inversion H.
  - inversion H.
  - destruct (g l) as [u|] eqn:G; inversion H; subst; eexists; (split; [constructor|]); [now rewrite (Ha _ _ G)|reflexivity].
  - inversion H; subst. eexists. split; [constructor|reflexivity].
  - inversion H; subst. eexists. split; [constructor|reflexivity].
  - inversion H; subst.
    + match goal with X : estep _ _ _ _ |- _ => destruct (IHa _ _ _ X Ha) as (a1 & S1 & ->) end. exists (EFork a1 b k). split; [apply es_left, S1|reflexivity].
    + match goal with X : estep _ _ _ _ |- _ => destruct (IHb _ _ _ X Ha) as (a1 & S1 & ->) end. exists (EFork a a1 k). split; [apply es_right, S1|reflexivity].
    + repeat match goal with X : ERet = espec _ |- _ => symmetry in X; apply spec_ret in X; subst end. exists k. split; [apply es_join|reflexivity].
    + match goal with X : ERaise _ = espec _ |- _ => symmetry in X; apply spec_raise in X; subst end. eexists. split; [apply es_cancel_right|reflexivity].
    + match goal with X : ERaise _ = espec _ |- _ => symmetry in X; apply spec_raise in X; subst end. eexists. split; [apply es_cancel_left|reflexivity].
Qed.

Lemma spec_exec : forall n m c m' c', eexec n m c m' c' -> agree m -> quiet c -> eexec n m (espec c) m' (espec c') /\ agree m' /\ quiet c'.
Proof.
  intros n m c m' c' H. induction H as [m c|n m c m1 c1 m2 c2 S1 H2 IH]; intros Ha Hq; [split; [constructor|auto]|].
  destruct (spec_step _ _ _ _ S1 Ha Hq) as (A & B & C). destruct (IH B C) as (D & X & Y). split; [econstructor; eassumption|auto].
Qed.
Lemma spec_exec_back : forall n m x m' y, eexec n m x m' y -> forall c, x = espec c -> agree m -> quiet c -> exists c', eexec n m c m' c' /\ y = espec c' /\ agree m' /\ quiet c'.
Proof.
  intros n m x m' y H. induction H as [m x|n m x m1 x1 m2 x2 S1 H2 IH]; intros c -> Ha Hq; [exists c; split; [constructor|auto]|].
  destruct (spec_back _ _ _ _ S1 Ha) as (c1 & T1 & ->). destruct (spec_step _ _ _ _ T1 Ha Hq) as (_ & B & C). destruct (IH c1 eq_refl B C) as (c' & D & R).
  exists c'. split; [econstructor; eassumption|exact R].
Qed.

Lemma spec_pending : forall c w l, epending L V c w l -> epending L V (espec c) w l.
Proof. intros c w l H. induction H; cbn [espec]; [destruct (g l); constructor|constructor|constructor|now apply ep_left|now apply ep_right]. Qed.
Lemma spec_pending_back : forall c w l, epending L V (espec c) w l -> epending L V c w l.
Proof.
  induction c as [|e|x k IH|x v k IH|x v k IH|a IHa b IHb k IHk]; intros w l H; cbn [espec] in H; try (inversion H; subst; constructor; auto; fail).
  destruct (g x); inversion H; subst; constructor.
Qed.
Lemma spec_racing : forall c, eracing L V c -> eracing L V (espec c).
Proof. intros c H. induction H; cbn [espec]; [eapply er_now; [eapply spec_pending; eassumption|eapply spec_pending; eassumption|assumption]|now apply er_left|now apply er_right]. Qed.
Lemma spec_racing_back : forall c, eracing L V (espec c) -> eracing L V c.
Proof.
  induction c as [|e|x k IH|x v k IH|x v k IH|a IHa b IHb k IHk]; intros H; cbn [espec] in H; try (inversion H; fail).
  - destruct (g x); inversion H.
  - inversion H; subst; [eapply er_now; [eapply spec_pending_back; eassumption|eapply spec_pending_back; eassumption|assumption]|apply er_left; auto|apply er_right; auto].
Qed.
Lemma spec_done : forall c, edone L V (espec c) <-> edone L V c.
Proof.
  intros c. split; intros [H|(e & H)]; [left; now apply spec_ret|right; exists e; now apply spec_raise|left; now subst|right; exists e; now subst].
Qed.

Lemma spec_runs : forall c m Q X, agree m -> quiet c -> all_runs_e (espec c) m Q X <-> all_runs_e c m Q X.
Proof.
  intros c m Q X Ha Hq. split; intros [H [b Hb]]; split.
  - intros n m' c' E. destruct (spec_exec _ _ _ _ _ E Ha Hq) as (E' & A' & Q'). destruct (H _ _ _ E') as (H1 & H2 & H3 & n' & m'' & y & H4 & H5).
    split; [intros R; apply H1, spec_racing, R|]. split; [intros ->; now apply H2|]. split; [intros e ->; now apply H3|].
    destruct (spec_exec_back _ _ _ _ _ H4 c' eq_refl A' Q') as (c'' & E'' & -> & _). exists n', m'', c''. split; [exact E''|now apply spec_done].
  - exists b. intros n m' c' E. destruct (spec_exec _ _ _ _ _ E Ha Hq) as (E' & _). eauto.
  - intros n m' y E. destruct (spec_exec_back _ _ _ _ _ E c eq_refl Ha Hq) as (c' & E' & -> & A' & Q'). destruct (H _ _ _ E') as (H1 & H2 & H3 & n' & m'' & c'' & H4 & H5).
    split; [intros R; apply H1, spec_racing_back, R|]. split; [intros Z; now apply H2, spec_ret|]. split; [intros e Z; now apply H3, spec_raise|].
    destruct (spec_exec _ _ _ _ _ H4 A' Q') as (E'' & _). exists n', m'', (espec c''). split; [exact E''|now apply spec_done].
  - exists b. intros n m' y E. destruct (spec_exec_back _ _ _ _ _ E c eq_refl Ha Hq) as (c' & E' & _). eauto.
Qed.

Lemma spec_app : forall c d, espec (eapp c d) = eapp (espec c) (espec d).
Proof.
  intros c d. induction c as [|e|l k IH|l v k IH|l v k IH|a IHa b IHb k IHk]; cbn [espec ParBagExn.eapp]; try congruence.
  destruct (g l); cbn [ParBagExn.eapp]; f_equal; extensionality v0; apply IH.
Qed.

Lemma spec_pfor : forall body b e q, epfor L V body b e q -> epfor L V (fun i => espec (body i)) b e (espec q).
Proof.
  intros body b e q H. induction H as [b e Hb|b x e c1 c2 H1 IH1 H2 IH2]; [|now apply epf_split with x].
  replace (espec (fold_right eapp ERet (map body (seq b (e - b))))) with (fold_right eapp ERet (map (fun i => espec (body i)) (seq b (e - b)))); [now constructor|].
  induction (seq b (e - b)) as [|i l IH]; [reflexivity|]. cbn [map fold_right]. now rewrite spec_app, IH.
Qed.

(** Two loops of the same shape. *)
Lemma pfor_same : forall body body' b e q, epfor L V body b e q -> (forall i, b <= i < e -> espec (body i) = espec (body' i)) ->
  exists q', epfor L V body' b e q' /\ espec q = espec q'.
Proof.
  intros body body' b e q H. induction H as [b e Hb|b x e c1 c2 H1 IH1 H2 IH2]; intros P.
  - eexists. split; [now constructor|]. remember (e - b) as k eqn:Ek. revert b Hb P Ek. induction k as [|k IH]; intros b Hb P Ek; [reflexivity|].
    cbn [seq map fold_right]. rewrite !spec_app. f_equal; [apply P; lia|]. apply IH; [lia|intros; apply P; lia|lia].
  - pose proof (epfor_le _ _ _ _ _ _ H1). pose proof (epfor_le _ _ _ _ _ _ H2).
    destruct IH1 as (q1 & A1 & A2); [intros; apply P; lia|]. destruct IH2 as (q2 & B1 & B2); [intros; apply P; lia|].
    exists (EFork q1 q2 ERet). split; [now apply epf_split with x|]. cbn [espec]. congruence.
Qed.

End Spec.

Section Lift.

Variables L V : Type.
Variable eqL : forall a b : L, {a = b} + {a <> b}.
Variable op : V -> V -> V.
Notation eapp := (eapp L V).

(** A program of [ParBag]. *)
Fixpoint lift (c : cmd L V) : ecmd L V :=
  match c with
  | Ret => ERet
  | Rd l k => ERd l (fun v => lift (k v))
  | Wr l v k => EWr l v (lift k)
  | At l v k => EAt l v (lift k)
  | Fork a b k => EFork (lift a) (lift b) (lift k)
  end.

Lemma lift_sim : forall c, esim L V c (lift c).
Proof. induction c; cbn [lift]; constructor; auto. Qed.

Lemma lift_app : forall c d, lift (app L V c d) = eapp (lift c) (lift d).
Proof. intros c d. induction c as [|l k IH|l v k IH|l v k IH|a IHa b IHb k IHk]; cbn [lift app ParBagExn.eapp]; try congruence. f_equal. extensionality v. apply IH. Qed.

Lemma lift_pfor : forall body b e q, epfor L V (fun i => lift (body i)) b e q -> exists q', pfor L V body b e q' /\ q = lift q'.
Proof.
  intros body b e q H. induction H as [b e Hb|b x e c1 c2 H1 (q1 & A1 & ->) H2 (q2 & B1 & ->)].
  - eexists. split; [now constructor|]. induction (seq b (e - b)) as [|i l IH]; [reflexivity|]. cbn [map fold_right]. now rewrite lift_app, IH.
  - exists (Fork q1 q2 Ret). split; [eapply pf_split; eassumption|reflexivity].
Qed.

(** What follows a program that always throws is not reached. *)
Lemma app_step : forall m c d m' y, estep L V eqL op m (eapp c d) m' y -> c <> ERet -> exists c', y = eapp c' d /\ estep L V eqL op m c m' c'.
Proof.
  intros m c d m' y H Hc. destruct c as [|e|l k|l v k|l v k|a b k]; cbn [ParBagExn.eapp] in H; [now elim Hc|inversion H| | | |]; inversion H; subst.
  - eexists. split; [|constructor]. reflexivity.
  - eexists. split; [|constructor]. reflexivity.
  - eexists. split; [|constructor]. reflexivity.
  - exists (EFork a' b k). split; [reflexivity|now apply es_left].
  - exists (EFork a b' k). split; [reflexivity|now apply es_right].
  - exists k. split; [reflexivity|apply es_join].
  - eexists (ERaise _). split; [reflexivity|apply es_cancel_right].
  - eexists (ERaise _). split; [reflexivity|apply es_cancel_left].
Qed.

Lemma step_app : forall m c d m' c', estep L V eqL op m c m' c' -> estep L V eqL op m (eapp c d) m' (eapp c' d).
Proof. intros m c d m' c' H. destruct H; cbn [ParBagExn.eapp]; [apply (es_rd L V eqL op m l (fun v => eapp (k v) d))|constructor|constructor|now apply es_left|now apply es_right|apply es_join|apply es_cancel_right|apply es_cancel_left]. Qed.

Lemma app_racing : forall c d, eracing L V (eapp c d) -> c <> ERet -> eracing L V c.
Proof.
  intros c d H Hc. destruct c as [|e|l k|l v k|l v k|a b k]; cbn [ParBagExn.eapp] in H; [now elim Hc|inversion H|inversion H|inversion H|inversion H|].
  inversion H; subst; [eapply er_now; eassumption|now apply er_left|now apply er_right].
Qed.

Lemma runs_then : forall c d m X, all_runs_e L V eqL op c m (fun _ => False) X -> all_runs_e L V eqL op (eapp c d) m (fun _ => False) X.
Proof.
  intros c d m X [H [b Hb]].
  assert (W : forall n m0 y m' y', eexec L V eqL op n m0 y m' y' -> forall k c0, y = eapp c0 d -> eexec L V eqL op k m c m0 c0 ->
    exists c', y' = eapp c' d /\ eexec L V eqL op (k + n) m c m' c').
  { intros n m0 y m' y' E. induction E as [m0 y|n m0 y m1 y1 m2 y2 S1 E IH]; intros k c0 -> Ek.
    - exists c0. split; [reflexivity|]. now rewrite Nat.add_0_r.
    - destruct (app_step _ _ _ _ _ S1) as (c1 & -> & T1); [intros ->; exact (proj1 (proj2 (H _ _ _ Ek)) eq_refl)|].
      destruct (IH (S k) c1 eq_refl) as (c' & A & B).
      + clear - Ek T1. revert T1. induction Ek as [m c|n m c m' c' m'' c'' S0 Ek IH]; intros T1; [econstructor; [exact T1|constructor]|econstructor; [exact S0|auto]].
      + exists c'. split; [exact A|]. now replace (k + S n) with (S k + n) by lia. }
  split.
  - intros n m' y E. destruct (W _ _ _ _ _ E 0 c eq_refl (ee_nil _ _ _ _ _ _)) as (c' & -> & E'). cbn [Nat.add] in E'.
    destruct (H _ _ _ E') as (H1 & H2 & H3 & n' & m'' & c'' & H4 & H5). assert (Hr : c' <> ERet) by (intros ->; now apply H2).
    split; [intros R; apply H1; now apply app_racing with d|]. split; [intros Z; destruct c'; try discriminate Z; now elim Hr|].
    split; [intros e Z; destruct c'; try discriminate Z; [now elim Hr|]; injection Z as ->; now apply H3|].
    exists n', m'', (eapp c'' d). split.
    + clear - H4. induction H4; [constructor|econstructor; [apply step_app; eassumption|assumption]].
    + destruct H5 as [->|(e & ->)]; [|right; now exists e]. exfalso.
      assert (T : eexec L V eqL op (n + n') m c m'' ERet).
      { clear - E' H4. induction E' as [m c|n m c m1 c1 m2 c2 S0 Ek IH]; [exact H4|cbn [Nat.add]; econstructor; [exact S0|auto]]. }
      exact (proj1 (proj2 (H _ _ _ T)) eq_refl).
  - exists b. intros n m' y E. destruct (W _ _ _ _ _ E 0 c eq_refl (ee_nil _ _ _ _ _ _)) as (c' & _ & E'). exact (Hb _ _ _ E').
Qed.

End Lift.
Arguments lift {L V}.
