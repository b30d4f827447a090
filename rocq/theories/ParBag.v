(** Programs with shared memory as in [Par], with one more kind of access: atomic updates, which stand for [push_back] on a concurrent vector and for additions to
    atomic counters. Updates by concurrent tasks of the same location are not a race; their order is that of the interleaving. It models no code of the library by itself. *)
From Coq Require Import List Arith Bool Lia Permutation.
Import ListNotations.
Local Open Scope nat_scope.

Section Lang.

Variables L V : Type.
Variable eqL : forall a b : L, {a = b} + {a <> b}.
(** [op v x]: the result of the update [v] of the value [x]. [R]: values that differ by the order of the updates only. *)
Variable op : V -> V -> V.
Variable R : V -> V -> Prop.
Hypothesis R_refl : forall x, R x x.
Hypothesis R_sym : forall x y, R x y -> R y x.
Hypothesis R_trans : forall x y z, R x y -> R y z -> R x z.
Hypothesis R_op : forall v x y, R x y -> R (op v x) (op v y).
Hypothesis op_comm : forall v w x, R (op v (op w x)) (op w (op v x)).

(** [Rd l k] reads a location, [Wr l v k] writes one, [At l v k] updates one, [Fork a b k] runs [a] and [b] concurrently, then [k]. *)
Inductive cmd := Ret | Rd (l : L) (k : V -> cmd) | Wr (l : L) (v : V) (k : cmd) | At (l : L) (v : V) (k : cmd) | Fork (a b k : cmd).

Definition mem := L -> V.
Definition upd (m : mem) (l : L) (v : V) : mem := fun x => if eqL x l then v else m x.

Inductive step : mem -> cmd -> mem -> cmd -> Prop :=
| s_rd m l k : step m (Rd l k) m (k (m l))
| s_wr m l v k : step m (Wr l v k) (upd m l v) k
| s_at m l v k : step m (At l v k) (upd m l (op v (m l))) k
| s_left m a b k m' a' : step m a m' a' -> step m (Fork a b k) m' (Fork a' b k)
| s_right m a b k m' b' : step m b m' b' -> step m (Fork a b k) m' (Fork a b' k)
| s_join m k : step m (Fork Ret Ret k) m k.

Inductive exec : nat -> mem -> cmd -> mem -> cmd -> Prop :=
| e_nil m c : exec 0 m c m c
| e_step n m c m' c' m'' c'' : step m c m' c' -> exec n m' c' m'' c'' -> exec (S n) m c m'' c''.

(** Kinds of accesses; which of them concurrent tasks must not do at the same location. *)
Inductive kind := KR | KW | KA.
Definition clash (k k' : kind) : bool := match k, k' with KR, KR | KA, KA => false | _, _ => true end.

Inductive pending : cmd -> kind -> L -> Prop :=
| p_rd l k : pending (Rd l k) KR l
| p_wr l v k : pending (Wr l v k) KW l
| p_at l v k : pending (At l v k) KA l
| p_left a b k w l : pending a w l -> pending (Fork a b k) w l
| p_right a b k w l : pending b w l -> pending (Fork a b k) w l.

Inductive racing : cmd -> Prop :=
| r_now a b k w w' l : pending a w l -> pending b w' l -> clash w w' = true -> racing (Fork a b k)
| r_left a b k : racing a -> racing (Fork a b k)
| r_right a b k : racing b -> racing (Fork a b k).

(** The sequential execution, its accesses, its length, and its updates of a location. *)
Fixpoint run (c : cmd) (m : mem) : mem :=
  match c with
  | Ret => m
  | Rd l k => run (k (m l)) m
  | Wr l v k => run k (upd m l v)
  | At l v k => run k (upd m l (op v (m l)))
  | Fork a b k => run k (run b (run a m))
  end.

Fixpoint foot (c : cmd) (m : mem) : list (kind * L) :=
  match c with
  | Ret => []
  | Rd l k => (KR, l) :: foot (k (m l)) m
  | Wr l v k => (KW, l) :: foot k (upd m l v)
  | At l v k => (KA, l) :: foot k (upd m l (op v (m l)))
  | Fork a b k => foot a m ++ foot b (run a m) ++ foot k (run b (run a m))
  end.

Fixpoint len (c : cmd) (m : mem) : nat :=
  match c with
  | Ret => 0
  | Rd l k => S (len (k (m l)) m)
  | Wr l v k => S (len k (upd m l v))
  | At l v k => S (len k (upd m l (op v (m l))))
  | Fork a b k => len a m + len b (run a m) + S (len k (run b (run a m)))
  end.

Fixpoint ops (c : cmd) (m : mem) (x : L) : list V :=
  match c with
  | Ret => []
  | Rd l k => ops (k (m l)) m x
  | Wr l v k => ops k (upd m l v) x
  | At l v k => (if eqL x l then [v] else []) ++ ops k (upd m l (op v (m l))) x
  | Fork a b k => ops a m x ++ ops b (run a m) x ++ ops k (run b (run a m)) x
  end.

Definition apart (f g : list (kind * L)) : Prop := forall w w' l, In (w, l) f -> In (w', l) g -> clash w w' = false.

(** Concurrent tasks do not clash, and no task depends on the order of the updates. *)
Fixpoint safe (c : cmd) (m : mem) : Prop :=
  match c with
  | Ret => True
  | Rd l k => (forall y, R y (m l) -> k y = k (m l)) /\ safe (k (m l)) m
  | Wr l v k => safe k (upd m l v)
  | At l v k => safe k (upd m l (op v (m l)))
  | Fork a b k => safe a m /\ safe b (run a m) /\ apart (foot a m) (foot b (run a m)) /\ safe k (run b (run a m))
  end.

Lemma clash_sym : forall k k', clash k k' = clash k' k.
Proof. now destruct k, k'. Qed.

Lemma apart_sym : forall f g, apart f g -> apart g f.
Proof. intros f g H w w' l H1 H2. rewrite clash_sym. eapply H; eauto. Qed.

Lemma apart_incl : forall f g f' g', incl f' f -> incl g' g -> apart f g -> apart f' g'.
Proof. intros f g f' g' H1 H2 H w w' l Hf Hg. apply (H w w' l); auto. Qed.

Lemma upd_same : forall m l v, upd m l v l = v.
Proof. intros m l v. unfold upd. now destruct (eqL l l). Qed.

Lemma upd_other : forall m l v x, x <> l -> upd m l v x = m x.
Proof. intros m l v x H. unfold upd. now destruct (eqL x l). Qed.

(** Locations that are only updated may have other values. *)
Lemma frame : forall c m m', (forall w l, In (w, l) (foot c m) -> w <> KA -> R (m' l) (m l)) -> safe c m ->
  foot c m' = foot c m /\ len c m' = len c m /\ safe c m' /\ (forall l, ops c m' l = ops c m l) /\ (forall l, R (m' l) (m l) -> R (run c m' l) (run c m l)).
Proof.
  induction c as [|l k IH|l v k IH|l v k IH|a IHa b IHb k IHk]; intros m m' H HS; cbn [foot len safe run ops] in *.
  - repeat split; auto.
  - destruct HS as [HK HS]. assert (Rl : R (m' l) (m l)) by (apply (H KR l); [now left|discriminate]).
    rewrite (HK _ Rl). destruct (IH (m l) m m') as (I1 & I2 & I3 & I4 & I5); [intros w x Hx; apply (H w x); now right|exact HS|].
    rewrite I1, I2. repeat split; auto. intros y Hy. apply HK. eapply R_trans; eauto.
  - destruct (IH (upd m l v) (upd m' l v)) as (I1 & I2 & I3 & I4 & I5); [|exact HS|].
    { intros w x Hx Hw. unfold upd. destruct (eqL x l); [apply R_refl|]. apply (H w x); [now right|exact Hw]. }
    rewrite I1, I2. repeat split; auto. intros x Hx. apply I5. unfold upd. destruct (eqL x l); [apply R_refl|exact Hx].
  - destruct (IH (upd m l (op v (m l))) (upd m' l (op v (m' l)))) as (I1 & I2 & I3 & I4 & I5); [|exact HS|].
    { intros w x Hx Hw. unfold upd. destruct (eqL x l) as [->|]; [apply R_op|]; apply (H w _); auto; now right. }
    rewrite I1, I2. repeat split; auto; [intros x; now rewrite I4|]. intros x Hx. apply I5. unfold upd. destruct (eqL x l) as [->|]; [now apply R_op|exact Hx].
  - destruct HS as (S1 & S2 & S3 & S4).
    destruct (IHa m m') as (A1 & A2 & A3 & A4 & A5); [intros w x Hx; apply (H w x), in_or_app; now left|exact S1|].
    destruct (IHb (run a m) (run a m')) as (B1 & B2 & B3 & B4 & B5); [|exact S2|].
    { intros w x Hx Hw. apply A5, (H w x); [|exact Hw]. apply in_or_app. right. apply in_or_app. now left. }
    destruct (IHk (run b (run a m)) (run b (run a m'))) as (K1 & K2 & K3 & K4 & K5); [|exact S4|].
    { intros w x Hx Hw. apply B5, A5, (H w x); [|exact Hw]. apply in_or_app. right. apply in_or_app. now right. }
    rewrite A1, A2, B1, B2, K1, K2. split; [reflexivity|]. split; [reflexivity|]. split; [auto|]. split; [intros x; now rewrite A4, B4, K4|].
    intros x Hx. now apply K5, B5, A5.
Qed.

Lemma same_mem : forall c m m', (forall l, R (m' l) (m l)) -> safe c m ->
  foot c m' = foot c m /\ len c m' = len c m /\ safe c m' /\ (forall l, R (run c m' l) (run c m l)).
Proof. intros c m m' H HS. destruct (frame c m m') as (H1 & H2 & H3 & _ & H5); auto. Qed.

Lemma untouched : forall c m l, ~ In (KW, l) (foot c m) -> ~ In (KA, l) (foot c m) -> run c m l = m l.
Proof.
  induction c as [|l k IH|l v k IH|l v k IH|a IHa b IHb k IHk]; intros m x H H'; cbn [foot run] in *.
  - reflexivity.
  - apply IH; intros Hx; [apply H|apply H']; now right.
  - rewrite IH by (intros Hx; (apply H + apply H'); now right). apply upd_other. intros ->. apply H. now left.
  - rewrite IH by (intros Hx; (apply H + apply H'); now right). apply upd_other. intros ->. apply H'. now left.
  - rewrite !in_app_iff in H, H'. rewrite IHk, IHb, IHa; auto.
Qed.

Definition updates (vs : list V) (x : V) : V := fold_left (fun x v => op v x) vs x.

(** A location that is only updated. *)
Lemma run_ops : forall c m l, (forall w, In (w, l) (foot c m) -> w = KA) -> run c m l = updates (ops c m l) (m l).
Proof.
  induction c as [|l k IH|l v k IH|l v k IH|a IHa b IHb k IHk]; intros m x H; cbn [foot run ops] in *.
  - reflexivity.
  - apply IH. intros w Hw. apply H. now right.
  - rewrite IH by (intros w Hw; apply H; now right). rewrite upd_other; [reflexivity|]. intros ->. specialize (H KW (or_introl eq_refl)). discriminate.
  - rewrite IH by (intros w Hw; apply H; now right). unfold updates, upd. destruct (eqL x l) as [->|]; reflexivity.
  - rewrite IHk, IHb, IHa; [|intros w Hw; apply H; rewrite !in_app_iff; auto..]. unfold updates. now rewrite !fold_left_app.
Qed.

Lemma updates_R : forall vs x y, R x y -> R (updates vs x) (updates vs y).
Proof. induction vs as [|v vs IH]; intros x y H; [exact H|]. cbn. apply IH, R_op, H. Qed.

Lemma updates_one : forall vs v x, R (updates vs (op v x)) (op v (updates vs x)).
Proof.
  induction vs as [|w vs IH]; intros v x; [apply R_refl|]. cbn. eapply R_trans; [apply updates_R, op_comm|]. apply IH.
Qed.

Lemma updates_comm : forall vs ws x, R (updates ws (updates vs x)) (updates vs (updates ws x)).
Proof.
  induction vs as [|v vs IH]; intros ws x; [apply R_refl|]. cbn. eapply R_trans; [apply IH|]. apply updates_R, updates_one.
Qed.

Lemma dec_in : forall (f : list (kind * L)) x, {In x f} + {~ In x f}.
Proof.
  intros f x. apply in_dec. intros [w l] [w' l']. destruct (eqL l l') as [->|]; [|right; congruence]. destruct w, w'; (now left) || (right; congruence).
Qed.

(** A task sees nothing of a concurrent one. *)
Lemma apart_frame : forall a b m, safe b m -> apart (foot a m) (foot b m) ->
  foot b (run a m) = foot b m /\ len b (run a m) = len b m /\ safe b (run a m) /\ (forall l, ops b (run a m) l = ops b m l) /\
  (forall l, R (run a m l) (m l) -> R (run b (run a m) l) (run b m l)).
Proof.
  intros a b m HS H. apply frame; [|exact HS]. intros w l Hl Hw. rewrite untouched; [apply R_refl| |]; intros Ha; specialize (H _ _ _ Ha Hl); destruct w; discriminate || now elim Hw.
Qed.

(** Concurrent tasks can be run in either order. *)
Lemma swap : forall a b m, safe a m -> safe b m -> apart (foot a m) (foot b m) -> forall l, R (run b (run a m) l) (run a (run b m) l).
Proof.
  intros a b m Sa Sb H l. destruct (apart_frame a b m Sb H) as (B1 & _ & _ & B4 & B5).
  destruct (apart_frame b a m Sa (apart_sym _ _ H)) as (A1 & _ & _ & A4 & A5).
  assert (U : forall k (f g : cmd), In (k, l) (foot f m) -> k <> KR -> apart (foot f m) (foot g m) -> safe g m ->
    (forall w, In (w, l) (foot g m) -> k = KA /\ w = KA)).
  { intros k f g Hf Hk Hd _ w Hw. specialize (Hd _ _ _ Hf Hw). destruct k, w; auto; try discriminate; now elim Hk. }
  destruct (dec_in (foot a m) (KW, l)) as [Ha|Ha].
  { assert (N : forall w, ~ In (w, l) (foot b m)) by (intros w Hw; destruct (U KW a b Ha ltac:(discriminate) H Sb w Hw); discriminate).
    rewrite (untouched b (run a m)) by (rewrite B1; apply N). apply R_sym, A5. rewrite (untouched b m) by apply N. apply R_refl. }
  destruct (dec_in (foot b m) (KW, l)) as [Hb|Hb].
  { assert (N : forall w, ~ In (w, l) (foot a m)) by (intros w Hw; destruct (U KW b a Hb ltac:(discriminate) (apart_sym _ _ H) Sa w Hw); discriminate).
    rewrite (untouched a (run b m)) by (rewrite A1; apply N). apply B5. rewrite (untouched a m) by apply N. apply R_refl. }
  destruct (dec_in (foot a m) (KA, l)) as [Ha'|Ha'].
  - destruct (dec_in (foot b m) (KA, l)) as [Hb'|Hb'].
    + assert (NB : forall w, In (w, l) (foot b m) -> w = KA) by (intros w Hw; now destruct (U KA a b Ha' ltac:(discriminate) H Sb w Hw)).
      assert (NA : forall w, In (w, l) (foot a m) -> w = KA) by (intros w Hw; now destruct (U KA b a Hb' ltac:(discriminate) (apart_sym _ _ H) Sa w Hw)).
      rewrite (run_ops b (run a m)) by (rewrite B1; exact NB). rewrite (run_ops a (run b m)) by (rewrite A1; exact NA).
      rewrite (run_ops a m) by exact NA. rewrite (run_ops b m) by exact NB. rewrite A4, B4. apply updates_comm.
    + rewrite (untouched b (run a m)) by (now rewrite B1). apply R_sym, A5. rewrite (untouched b m) by assumption. apply R_refl.
  - rewrite (untouched a (run b m)) by (now rewrite A1). apply B5. rewrite (untouched a m) by assumption. apply R_refl.
Qed.

Lemma apart_after : forall a b m, safe b (run a m) -> apart (foot a m) (foot b (run a m)) -> safe b m /\ foot b m = foot b (run a m) /\ len b m = len b (run a m).
Proof.
  intros a b m HS H. destruct (frame b (run a m) m) as (F1 & F2 & F3 & _); [|exact HS|auto].
  intros w l Hl Hw. rewrite untouched; [apply R_refl| |]; intros Ha; specialize (H _ _ _ Ha Hl); destruct w; discriminate || now elim Hw.
Qed.

Lemma step_safe : forall m c m' c', step m c m' c' -> safe c m ->
  safe c' m' /\ (forall l, R (run c' m' l) (run c m l)) /\ incl (foot c' m') (foot c m) /\ len c m = S (len c' m') /\
  (forall l, m' l = m l \/ In (KW, l) (foot c m) \/ In (KA, l) (foot c m)).
Proof.
  intros m c m' c' H. induction H as [m l k|m l v k|m l v k|m a b k m' a' H IH|m a b k m' b' H IH|m k]; cbn [safe foot run len]; intros HS.
  - split; [apply HS|]. split; [auto|]. split; [intros x Hx; now right|]. auto.
  - split; [exact HS|]. split; [auto|]. split; [intros x Hx; now right|]. split; [reflexivity|]. intros x. unfold upd. destruct (eqL x l) as [->|]; [right; left; now left|auto].
  - split; [exact HS|]. split; [auto|]. split; [intros x Hx; now right|]. split; [reflexivity|]. intros x. unfold upd. destruct (eqL x l) as [->|]; [right; right; now left|auto].
  - destruct HS as (S1 & S2 & S3 & S4). destruct (IH S1) as (I1 & I2 & I3 & I4 & I5).
    destruct (same_mem b _ _ I2 S2) as (B1 & B2 & B3 & B4). destruct (same_mem k _ _ B4 S4) as (K1 & K2 & K3 & K4).
    rewrite B1, B2, K1, K2. split; [|split; [exact K4|split; [|split; [lia|]]]].
    + split; [exact I1|]. split; [auto|]. split; [|auto]. eapply apart_incl; [exact I3|apply incl_refl|exact S3].
    + apply incl_app; [apply incl_appl, I3|apply incl_appr, incl_refl].
    + intros l. rewrite !in_app_iff. destruct (I5 l) as [X|[X|X]]; auto.
  - destruct HS as (S1 & S2 & S3 & S4). destruct (apart_after a b m S2 S3) as (Sb & Fb & Lb). rewrite <- Fb in S3.
    destruct (IH Sb) as (I1 & I2 & I3 & I4 & I5).
    (* the step is not seen by [a] *)
    destruct (frame a m m') as (A1 & A2 & A3 & _ & A5); [|exact S1|].
    { intros w l Hl Hw. destruct (I5 l) as [->|[X|X]]; [apply R_refl|exfalso..]; specialize (S3 _ _ _ Hl X); destruct w; discriminate || now elim Hw. }
    assert (AP : apart (foot a m') (foot b' m')) by (rewrite A1; eapply apart_incl; [apply incl_refl|exact I3|exact S3]).
    destruct (apart_frame a b' m' I1 AP) as (C1 & C2 & C3 & _).
    assert (RR : forall l, R (run b' (run a m') l) (run b (run a m) l)).
    { intros l. eapply R_trans; [apply (swap a b' m' A3 I1 AP)|]. eapply R_trans; [|apply R_sym, (swap a b m S1 Sb S3)].
      destruct (apart_frame b a m S1 (apart_sym _ _ S3)) as (_ & _ & D3 & _). now apply (same_mem a (run b m) (run b' m') I2 D3). }
    destruct (same_mem k _ _ RR S4) as (K1 & K2 & K3 & K4).
    rewrite A1, A2, C1, C2, K1, K2, <- Fb, <- Lb. split; [|split; [exact K4|split; [|split; [lia|]]]].
    + split; [exact A3|]. split; [exact C3|]. split; [|exact K3]. rewrite <- A1. exact AP.
    + apply incl_app; [apply incl_appl, incl_refl|]. apply incl_appr. apply incl_app; [apply incl_appl, I3|apply incl_appr, incl_refl].
    + intros l. rewrite !in_app_iff. destruct (I5 l) as [X|[X|X]]; auto.
  - destruct HS as (_ & _ & _ & S4). split; [exact S4|]. split; [auto|]. split; [apply incl_refl|]. split; [reflexivity|auto].
Qed.

Lemma pending_foot : forall c w l m, pending c w l -> safe c m -> In (w, l) (foot c m).
Proof.
  intros c w l m H. revert m. induction H as [l k|l v k|l v k|a b k w l H IH|a b k w l H IH]; intros m HS; cbn [foot safe] in *.
  - now left.
  - now left.
  - now left.
  - apply in_or_app. left. now apply IH.
  - destruct HS as (_ & S2 & _). apply in_or_app. right. apply in_or_app. left. now apply IH.
Qed.

Lemma safe_not_racing : forall c m, safe c m -> ~ racing c.
Proof.
  intros c m HS H. revert m HS. induction H as [a b k w w' l H1 H2 Hw|a b k H IH|a b k H IH]; intros m HS; cbn [safe] in HS; destruct HS as (S1 & S2 & S3 & _).
  - rewrite (S3 w w' l) in Hw; [discriminate|now apply pending_foot|now apply pending_foot].
  - eapply IH, S1.
  - eapply IH, S2.
Qed.

Lemma progress : forall c m, c = Ret \/ exists m' c', step m c m' c'.
Proof.
  induction c as [|l k IH|l v k IH|l v k IH|a IHa b IHb k IHk]; intros m.
  - now left.
  - right. eexists _, _. constructor.
  - right. eexists _, _. constructor.
  - right. eexists _, _. constructor.
  - right. destruct (IHa m) as [->|(m' & a' & H)]; [|eexists _, _; apply s_left, H].
    destruct (IHb m) as [->|(m' & b' & H)]; [eexists _, _; apply s_join|eexists _, _; apply s_right, H].
Qed.

Lemma exec_safe : forall n m c m' c', exec n m c m' c' -> safe c m ->
  safe c' m' /\ (forall l, R (run c' m' l) (run c m l)) /\ len c m = n + len c' m'.
Proof.
  intros n m c m' c' H. induction H as [m c|n m c m1 c1 m2 c2 H1 H2 IH]; intros HS; [auto|].
  destruct (step_safe _ _ _ _ H1 HS) as (I1 & I2 & _ & I4 & _). destruct (IH I1) as (J1 & J2 & J3).
  split; [exact J1|]. split; [intros l; eapply R_trans; eauto|]. lia.
Qed.

Lemma safe_len0 : forall c m, len c m = 0 -> c = Ret.
Proof. intros [|l k|l v k|l v k|a b k] m; cbn [len]; intros H; [reflexivity|discriminate|discriminate|discriminate|lia]. Qed.

Lemma finish : forall k c m, safe c m -> len c m = k -> exists m'', exec k m c m'' Ret.
Proof.
  induction k as [|k IH]; intros c m HS Hk.
  - rewrite (safe_len0 c m) by auto. exists m. constructor.
  - destruct (progress c m) as [->|(m2 & c2 & H2)]; [discriminate|]. destruct (step_safe _ _ _ _ H2 HS) as (S2 & _ & _ & L2 & _).
    destruct (IH c2 m2 S2 ltac:(lia)) as [m3 H3]. exists m3. econstructor; eauto.
Qed.

(** In every interleaving no two concurrent tasks are ever about to do accesses that clash; no interleaving goes on for ever or is stuck; and [Q] holds of the
    memory at the end of every one of them. *)
Definition all_runs (c : cmd) (m : mem) (Q : mem -> Prop) : Prop :=
  (forall n m' c', exec n m c m' c' -> ~ racing c' /\ (c' = Ret -> Q m') /\ exists n' m'', exec n' m' c' m'' Ret) /\
  exists bound, forall n m' c', exec n m c m' c' -> n <= bound.

Lemma all_runs_intro : forall c m (Q : mem -> Prop), safe c m -> (forall m', (forall l, R (m' l) (run c m l)) -> Q m') -> all_runs c m Q.
Proof.
  intros c m Q HS HQ. split.
  - intros n m' c' H. destruct (exec_safe _ _ _ _ _ H HS) as (S1 & R1 & E1). split; [eapply safe_not_racing, S1|].
    split; [intros ->; apply HQ, R1|]. destruct (finish _ c' m' S1 eq_refl) as [m'' H'']. eauto.
  - exists (len c m). intros n m' c' H. destruct (exec_safe _ _ _ _ _ H HS) as (_ & _ & E1). lia.
Qed.

(** * Sequences, loops and groups *)
Fixpoint app (c d : cmd) : cmd :=
  match c with
  | Ret => d
  | Rd l k => Rd l (fun v => app (k v) d)
  | Wr l v k => Wr l v (app k d)
  | At l v k => At l v (app k d)
  | Fork a b k => Fork a b (app k d)
  end.

Lemma run_app : forall c d m, run (app c d) m = run d (run c m).
Proof. induction c as [|l k IH|l v k IH|l v k IH|a IHa b IHb k IHk]; intros d m; cbn [app run]; auto. Qed.

Lemma foot_app : forall c d m, foot (app c d) m = foot c m ++ foot d (run c m).
Proof.
  induction c as [|l k IH|l v k IH|l v k IH|a IHa b IHb k IHk]; intros d m; cbn [app run foot List.app]; [reflexivity|now rewrite IH|now rewrite IH|now rewrite IH|].
  now rewrite IHk, !app_assoc.
Qed.

Lemma safe_app : forall c d m, safe c m -> safe d (run c m) -> safe (app c d) m.
Proof.
  induction c as [|l k IH|l v k IH|l v k IH|a IHa b IHb k IHk]; intros d m H Hd; cbn [app run safe] in *; auto.
  - destruct H as [HK HS]. split; [|now apply IH]. intros y Hy. now rewrite (HK y Hy).
  - destruct H as (S1 & S2 & S3 & S4). auto.
Qed.

Inductive pfor (body : nat -> cmd) : nat -> nat -> cmd -> Prop :=
| pf_chunk b e : b <= e -> pfor body b e (fold_right app Ret (map body (seq b (e - b))))
| pf_split b x e c1 c2 : pfor body b x c1 -> pfor body x e c2 -> pfor body b e (Fork c1 c2 Ret).

Definition group (l : list cmd) : cmd := fold_right (fun a b => Fork a b Ret) Ret l.

(** One task after the other. *)
Definition runs (cs : list cmd) (m : mem) : mem := fold_left (fun m c => run c m) cs m.

Lemma run_chunk : forall cs m, run (fold_right app Ret cs) m = runs cs m.
Proof. induction cs as [|c cs IH]; intros m; [reflexivity|]. cbn [fold_right runs fold_left]. rewrite run_app. apply IH. Qed.

Lemma pfor_le : forall body b e c, pfor body b e c -> b <= e.
Proof. intros body b e c H. induction H; lia. Qed.

Lemma run_pfor : forall body b e c m, pfor body b e c -> run c m = runs (map body (seq b (e - b))) m.
Proof.
  intros body b e c m H. revert m. induction H as [b e Hb|b x e c1 c2 H1 IH1 H2 IH2]; intros m; [apply run_chunk|].
  cbn [run]. apply pfor_le in H1, H2. rewrite IH1, IH2. replace (e - b) with ((x - b) + (e - x)) by lia. rewrite seq_app, map_app.
  replace (b + (x - b)) with x by lia. unfold runs. now rewrite fold_left_app.
Qed.

(** Independent tasks: what a sequence of them accesses does not depend on the others. *)
Lemma independent : forall a b m, safe a m -> safe b m -> apart (foot a m) (foot b m) ->
  safe (app a b) m /\ safe (Fork a b Ret) m /\ foot (app a b) m = foot a m ++ foot b m /\ foot (Fork a b Ret) m = foot a m ++ foot b m.
Proof.
  intros a b m Sa Sb H. destruct (apart_frame a b m Sb H) as (B1 & _ & B3 & _).
  split; [now apply safe_app|]. split; [cbn [safe]; rewrite B1; auto|]. split; [now rewrite foot_app, B1|]. cbn [foot]. now rewrite B1, app_nil_r.
Qed.

Lemma safe_pfor : forall body b e c m, pfor body b e c -> (forall i, b <= i < e -> safe (body i) m) ->
  (forall i j, b <= i < e -> b <= j < e -> i <> j -> apart (foot (body i) m) (foot (body j) m)) ->
  safe c m /\ forall x, In x (foot c m) -> exists i, b <= i < e /\ In x (foot (body i) m).
Proof.
  intros body b e c m H. induction H as [b e Hb|b x e c1 c2 H1 IH1 H2 IH2]; intros P1 P2.
  - remember (e - b) as k eqn:Ek. revert b Hb P1 P2 Ek. induction k as [|k IH]; intros b Hb P1 P2 Ek; [split; [exact I|intros x []]|].
    cbn [seq map fold_right]. destruct (IH (S b)) as [I1 I2]; [lia|intros; apply P1; lia|intros; apply P2; lia|lia|].
    destruct (independent (body b) _ m (P1 b ltac:(lia)) I1) as (J1 & _ & J3 & _).
    { intros w w' l Hw Hw'. destruct (I2 _ Hw') as (i & Hi & Hx). apply (P2 b i) with (l := l); auto; lia. }
    split; [exact J1|]. rewrite J3. intros x Hx. apply in_app_iff in Hx as [Hx|Hx]; [exists b; split; [lia|exact Hx]|].
    destruct (I2 x Hx) as (i & Hi & Hy). exists i. split; [lia|exact Hy].
  - pose proof (pfor_le _ _ _ _ H1). pose proof (pfor_le _ _ _ _ H2).
    destruct IH1 as [A1 A2]; [intros; apply P1; lia|intros; apply P2; lia|]. destruct IH2 as [B1 B2]; [intros; apply P1; lia|intros; apply P2; lia|].
    destruct (independent c1 c2 m A1 B1) as (_ & J1 & _ & J3).
    { intros w w' l Hw Hw'. destruct (A2 _ Hw) as (i & Hi & Hx). destruct (B2 _ Hw') as (j & Hj & Hy). apply (P2 i j) with (l := l); auto; lia. }
    split; [exact J1|]. rewrite J3. intros y Hy. apply in_app_iff in Hy as [Hy|Hy].
    + destruct (A2 y Hy) as (i & Hi & Hx). exists i. split; [lia|exact Hx].
    + destruct (B2 y Hy) as (i & Hi & Hx). exists i. split; [lia|exact Hx].
Qed.

End Lang.

Arguments Ret {L V}.
Arguments Rd {L V} l k.
Arguments Wr {L V} l v k.
Arguments At {L V} l v k.
Arguments Fork {L V} a b k.
