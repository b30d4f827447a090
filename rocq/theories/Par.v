(** Programs with shared memory and fork-join parallelism, interleaved at the level of single accesses. This is the meaning given
    to [tbb::parallel_for] and [tbb::task_group] in the statements about data races; it models no code of the library by itself. *)
From Coq Require Import List Arith Bool Lia Permutation.
Import ListNotations.
Local Open Scope nat_scope.

Section Lang.

Variables L V : Type.
Variable eqL : forall a b : L, {a = b} + {a <> b}.

(** [Rd l k] reads a location, [Wr l v k] writes one, [Fork a b k] runs [a] and [b] concurrently, then [k]. *)
Inductive cmd := Ret | Rd (l : L) (k : V -> cmd) | Wr (l : L) (v : V) (k : cmd) | Fork (a b k : cmd).

Definition mem := L -> V.
Definition upd (m : mem) (l : L) (v : V) : mem := fun x => if eqL x l then v else m x.

(** One access of one of the concurrent tasks, or the end of a parallel region. *)
Inductive step : mem -> cmd -> mem -> cmd -> Prop :=
| s_rd m l k : step m (Rd l k) m (k (m l))
| s_wr m l v k : step m (Wr l v k) (upd m l v) k
| s_left m a b k m' a' : step m a m' a' -> step m (Fork a b k) m' (Fork a' b k)
| s_right m a b k m' b' : step m b m' b' -> step m (Fork a b k) m' (Fork a b' k)
| s_join m k : step m (Fork Ret Ret k) m k.

(** An execution of [n] steps. *)
Inductive exec : nat -> mem -> cmd -> mem -> cmd -> Prop :=
| e_nil m c : exec 0 m c m c
| e_step n m c m' c' m'' c'' : step m c m' c' -> exec n m' c' m'' c'' -> exec (S n) m c m'' c''.

(** The accesses that tasks can do next ([true]: a write), and data races between concurrent tasks. *)
Inductive pending : cmd -> bool -> L -> Prop :=
| p_rd l k : pending (Rd l k) false l
| p_wr l v k : pending (Wr l v k) true l
| p_left a b k w l : pending a w l -> pending (Fork a b k) w l
| p_right a b k w l : pending b w l -> pending (Fork a b k) w l.

Inductive racing : cmd -> Prop :=
| r_now a b k w w' l : pending a w l -> pending b w' l -> w || w' = true -> racing (Fork a b k)
| r_left a b k : racing a -> racing (Fork a b k)
| r_right a b k : racing b -> racing (Fork a b k).

(** The sequential execution, its accesses and its length. *)
Fixpoint run (c : cmd) (m : mem) : mem :=
  match c with
  | Ret => m
  | Rd l k => run (k (m l)) m
  | Wr l v k => run k (upd m l v)
  | Fork a b k => run k (run b (run a m))
  end.

Fixpoint foot (c : cmd) (m : mem) : list (bool * L) :=
  match c with
  | Ret => []
  | Rd l k => (false, l) :: foot (k (m l)) m
  | Wr l v k => (true, l) :: foot k (upd m l v)
  | Fork a b k => foot a m ++ foot b (run a m) ++ foot k (run b (run a m))
  end.

Fixpoint len (c : cmd) (m : mem) : nat :=
  match c with
  | Ret => 0
  | Rd l k => S (len (k (m l)) m)
  | Wr l v k => S (len k (upd m l v))
  | Fork a b k => len a m + len b (run a m) + S (len k (run b (run a m)))
  end.

(** No location written by one side is accessed by the other one. *)
Definition apart (f g : list (bool * L)) : Prop := forall w w' l, In (w, l) f -> In (w', l) g -> w = false /\ w' = false.

Fixpoint safe (c : cmd) (m : mem) : Prop :=
  match c with
  | Ret => True
  | Rd l k => safe (k (m l)) m
  | Wr l v k => safe k (upd m l v)
  | Fork a b k => safe a m /\ safe b (run a m) /\ apart (foot a m) (foot b (run a m)) /\ safe k (run b (run a m))
  end.

Lemma apart_sym : forall f g, apart f g -> apart g f.
Proof. intros f g H w w' l H1 H2. destruct (H w' w l H2 H1). auto. Qed.

Lemma apart_incl : forall f g f' g', incl f' f -> incl g' g -> apart f g -> apart f' g'.
Proof. intros f g f' g' H1 H2 H w w' l Hf Hg. apply (H w w' l); auto. Qed.

Lemma upd_same : forall m l v, upd m l v l = v.
Proof. intros m l v. unfold upd. now destruct (eqL l l). Qed.

Lemma upd_other : forall m l v x, x <> l -> upd m l v x = m x.
Proof. intros m l v x H. unfold upd. now destruct (eqL x l). Qed.

(** Only the locations of its accesses matter to a program. *)
Lemma frame : forall c m m', (forall w l, In (w, l) (foot c m) -> m' l = m l) ->
  foot c m' = foot c m /\ len c m' = len c m /\ (safe c m -> safe c m') /\ forall l, m' l = m l -> run c m' l = run c m l.
Proof.
  induction c as [|l k IH|l v k IH|a IHa b IHb k IHk]; intros m m' H; cbn [foot len safe run] in *.
  - auto.
  - rewrite (H false l) by now left. destruct (IH (m l) m m') as (I1 & I2 & I3 & I4); [intros w x Hx; apply (H w x); now right|].
    rewrite I1, I2. auto.
  - destruct (IH (upd m l v) (upd m' l v)) as (I1 & I2 & I3 & I4).
    { intros w x Hx. unfold upd. destruct (eqL x l); [reflexivity|]. apply (H w x). now right. }
    rewrite I1, I2. split; [reflexivity|]. split; [reflexivity|]. split; [exact I3|]. intros x Hx. apply I4. unfold upd. now destruct (eqL x l).
  - destruct (IHa m m') as (A1 & A2 & A3 & A4); [intros w x Hx; apply (H w x), in_or_app; now left|].
    destruct (IHb (run a m) (run a m')) as (B1 & B2 & B3 & B4).
    { intros w x Hx. apply A4, (H w x), in_or_app. right. apply in_or_app. now left. }
    destruct (IHk (run b (run a m)) (run b (run a m'))) as (K1 & K2 & K3 & K4).
    { intros w x Hx. apply B4, A4, (H w x), in_or_app. right. apply in_or_app. now right. }
    rewrite A1, A2, B1, B2, K1, K2. split; [reflexivity|]. split; [reflexivity|]. split; [|intros x Hx; now apply K4, B4, A4].
    intros (S1 & S2 & S3 & S4). auto.
Qed.

Lemma unwritten : forall c m l, ~ In (true, l) (foot c m) -> run c m l = m l.
Proof.
  induction c as [|l k IH|l v k IH|a IHa b IHb k IHk]; intros m x H; cbn [foot run] in *.
  - reflexivity.
  - apply IH. intros Hx. apply H. now right.
  - rewrite IH by (intros Hx; apply H; now right). apply upd_other. intros ->. apply H. now left.
  - rewrite !in_app_iff in H. rewrite IHk, IHb, IHa; auto.
Qed.

Lemma same_mem : forall c m m', (forall l, m' l = m l) ->
  foot c m' = foot c m /\ len c m' = len c m /\ (safe c m -> safe c m') /\ forall l, run c m' l = run c m l.
Proof. intros c m m' H. destruct (frame c m m') as (H1 & H2 & H3 & H4); auto. Qed.

Lemma dec_in : forall (f : list (bool * L)) x, {In x f} + {~ In x f}.
Proof. intros f x. apply in_dec. intros [w l] [w' l']. destruct (bool_dec w w') as [->|]; [|right; congruence]. destruct (eqL l l') as [->|]; [now left|right; congruence]. Qed.

(** The other side of a parallel region does not see the first one. *)
Lemma right_frame : forall a b m, apart (foot a m) (foot b (run a m)) ->
  foot b m = foot b (run a m) /\ len b m = len b (run a m) /\ (safe b (run a m) -> safe b m) /\
  forall l, run b (run a m) l = if dec_in (foot a m) (true, l) then run a m l else run b m l.
Proof.
  intros a b m H.
  destruct (frame b (run a m) m) as (F1 & F2 & F3 & F4).
  { intros w l Hl. symmetry. apply unwritten. intros Ha. destruct (H true w l Ha Hl). discriminate. }
  split; [exact F1|]. split; [exact F2|]. split; [exact F3|]. intros l. destruct (dec_in (foot a m) (true, l)) as [Ha|Ha].
  - apply unwritten. intros Hb. destruct (H true true l Ha Hb). discriminate.
  - symmetry. apply F4. symmetry. now apply unwritten.
Qed.

Lemma step_safe : forall m c m' c', step m c m' c' -> safe c m ->
  safe c' m' /\ (forall l, run c' m' l = run c m l) /\ incl (foot c' m') (foot c m) /\ len c m = S (len c' m') /\
  (forall l, ~ In (true, l) (foot c m) -> m' l = m l).
Proof.
  intros m c m' c' H. induction H as [m l k|m l v k|m a b k m' a' H IH|m a b k m' b' H IH|m k]; cbn [safe foot run len]; intros HS.
  - split; [exact HS|]. split; [reflexivity|]. split; [intros x Hx; now right|]. auto.
  - split; [exact HS|]. split; [reflexivity|]. split; [intros x Hx; now right|]. split; [reflexivity|]. intros x Hx. apply upd_other. intros ->. apply Hx. now left.
  - destruct HS as (S1 & S2 & S3 & S4). destruct (IH S1) as (I1 & I2 & I3 & I4 & I5).
    destruct (same_mem b _ _ I2) as (B1 & B2 & B3 & B4). destruct (same_mem k _ _ B4) as (K1 & K2 & K3 & K4).
    rewrite B1, B2, K1, K2. split; [|split; [exact K4|split; [|split; [lia|]]]].
    + split; [exact I1|]. split; [auto|]. split; [|auto]. eapply apart_incl; [exact I3|apply incl_refl|exact S3].
    + apply incl_app; [apply incl_appl, I3|apply incl_appr, incl_refl].
    + intros l Hl. apply I5. intros X. apply Hl, in_or_app. now left.
  - destruct HS as (S1 & S2 & S3 & S4). destruct (right_frame a b m S3) as (R1 & R2 & R3 & R4).
    destruct (IH (R3 S2)) as (I1 & I2 & I3 & I4 & I5). rewrite <- R1 in S3.
    assert (MA : forall w l, In (w, l) (foot a m) -> m' l = m l).
    { intros w l Hl. apply I5. intros Hb. destruct (S3 w true l Hl Hb). discriminate. }
    destruct (frame a m m' MA) as (A1 & A2 & A3 & A4).
    assert (AP : apart (foot a m') (foot b' m')) by (rewrite A1; eapply apart_incl; [apply incl_refl|exact I3|exact S3]).
    assert (MB : forall w l, In (w, l) (foot b' m') -> run a m' l = m' l).
    { intros w l Hl. apply unwritten. intros Ha. destruct (AP true w l Ha Hl). discriminate. }
    destruct (frame b' m' (run a m') MB) as (B1 & B2 & B3 & B4).
    assert (RR : forall l, run b' (run a m') l = run b (run a m) l).
    { intros l. rewrite R4. destruct (dec_in (foot a m) (true, l)) as [Ha|Ha].
      - rewrite unwritten; [apply A4, (MA true l Ha)|]. rewrite B1. intros Hb. rewrite <- A1 in Ha. destruct (AP true true l Ha Hb). discriminate.
      - rewrite <- I2. apply B4, unwritten. now rewrite A1. }
    destruct (same_mem k _ _ RR) as (K1 & K2 & K3 & K4).
    rewrite A1, A2, B1, B2, K1, K2. rewrite <- R1, <- R2. split; [|split; [exact K4|split; [|split; [lia|]]]].
    + split; [auto|]. split; [auto|]. split; [|auto]. rewrite <- A1. exact AP.
    + apply incl_app; [apply incl_appl, incl_refl|]. apply incl_appr. apply incl_app; [apply incl_appl, I3|apply incl_appr, incl_refl].
    + intros l Hl. apply I5. intros X. apply Hl, in_or_app. right. apply in_or_app. now left.
  - destruct HS as (_ & _ & _ & S4). split; [exact S4|]. split; [reflexivity|]. split; [apply incl_refl|]. split; [reflexivity|auto].
Qed.

Lemma pending_foot : forall c w l m, pending c w l -> safe c m -> In (w, l) (foot c m).
Proof.
  intros c w l m H. revert m. induction H as [l k|l v k|a b k w l H IH|a b k w l H IH]; intros m HS; cbn [foot safe] in *.
  - now left.
  - now left.
  - apply in_or_app. left. now apply IH.
  - destruct HS as (_ & S2 & _). apply in_or_app. right. apply in_or_app. left. now apply IH.
Qed.

Lemma safe_not_racing : forall c m, safe c m -> ~ racing c.
Proof.
  intros c m HS H. revert m HS. induction H as [a b k w w' l H1 H2 Hw|a b k H IH|a b k H IH]; intros m HS; cbn [safe] in HS; destruct HS as (S1 & S2 & S3 & _).
  - destruct (S3 w w' l) as [-> ->]; [now apply pending_foot|now apply pending_foot|]. discriminate.
  - eapply IH, S1.
  - eapply IH, S2.
Qed.

Lemma progress : forall c m, c = Ret \/ exists m' c', step m c m' c'.
Proof.
  induction c as [|l k IH|l v k IH|a IHa b IHb k IHk]; intros m.
  - now left.
  - right. eexists _, _. constructor.
  - right. eexists _, _. constructor.
  - right. destruct (IHa m) as [->|(m' & a' & H)]; [|eexists _, _; apply s_left, H].
    destruct (IHb m) as [->|(m' & b' & H)]; [eexists _, _; apply s_join|eexists _, _; apply s_right, H].
Qed.

(** All the executions of a program whose parallel parts are independent. *)
Lemma exec_safe : forall n m c m' c', exec n m c m' c' -> safe c m ->
  safe c' m' /\ (forall l, run c' m' l = run c m l) /\ len c m = n + len c' m'.
Proof.
  intros n m c m' c' H. induction H as [m c|n m c m1 c1 m2 c2 H1 H2 IH]; intros HS; [auto|].
  destruct (step_safe _ _ _ _ H1 HS) as (I1 & I2 & _ & I4 & _). destruct (IH I1) as (J1 & J2 & J3).
  split; [exact J1|]. split; [intros l; now rewrite J2|]. lia.
Qed.

Lemma safe_len0 : forall c m, len c m = 0 -> c = Ret.
Proof. intros [|l k|l v k|a b k] m; cbn [len]; intros H; [reflexivity|discriminate|discriminate|lia]. Qed.

(** Every execution is free of races and can be continued to the end; at the end, after a fixed number of steps, the memory is that of the sequential execution. *)
Theorem interleavings : forall c m, safe c m ->
  forall n m' c', exec n m c m' c' ->
    ~ racing c' /\ (n <= len c m) /\ (c' = Ret -> forall l, m' l = run c m l) /\ (exists m'' : mem, exec (len c m - n) m' c' m'' Ret) /\ (n = len c m -> c' = Ret).
Proof.
  intros c m HS n m' c' H. destruct (exec_safe _ _ _ _ _ H HS) as (S1 & R1 & E1). split; [eapply safe_not_racing, S1|].
  split; [lia|]. split; [intros -> l; now rewrite <- R1|]. split; [|intros Hn; apply (safe_len0 c' m'); lia].
  replace (len c m - n) with (len c' m') by lia. clear - S1. remember (len c' m') as k eqn:Hk. revert c' m' S1 Hk.
  induction k as [|k IH]; intros c' m' S1 Hk.
  - rewrite (safe_len0 c' m') by auto. exists m'. constructor.
  - destruct (progress c' m') as [->|(m2 & c2 & H2)]; [discriminate|]. destruct (step_safe _ _ _ _ H2 S1) as (S2 & _ & _ & L2 & _).
    destruct (IH c2 m2 S2 ltac:(lia)) as [m3 H3]. exists m3. econstructor; eauto.
Qed.

(** In every interleaving no two concurrent tasks are ever about to access the same location, one of them for writing; no
    interleaving goes on for ever or is stuck; and [Q] holds of the memory at the end of every one of them. *)
Definition all_runs (c : cmd) (m : mem) (Q : mem -> Prop) : Prop :=
  (forall n m' c', exec n m c m' c' -> ~ racing c' /\ (c' = Ret -> Q m') /\ exists n' m'', exec n' m' c' m'' Ret) /\
  exists bound, forall n m' c', exec n m c m' c' -> n <= bound.

Lemma all_runs_intro : forall c m (Q : mem -> Prop), safe c m -> (forall m', (forall l, m' l = run c m l) -> Q m') -> all_runs c m Q.
Proof.
  intros c m Q HS HQ. split; [|exists (len c m); intros n m' c' H; now destruct (interleavings c m HS n m' c' H) as (_ & H1 & _)].
  intros n m' c' H. destruct (interleavings c m HS n m' c' H) as (H1 & _ & H2 & (m'' & H3) & _).
  split; [exact H1|]. split; [intros E; apply HQ; now apply H2|]. eexists _, _. exact H3.
Qed.

(** * Sequences, loops and groups *)
Fixpoint app (c d : cmd) : cmd :=
  match c with
  | Ret => d
  | Rd l k => Rd l (fun v => app (k v) d)
  | Wr l v k => Wr l v (app k d)
  | Fork a b k => Fork a b (app k d)
  end.

Lemma run_app : forall c d m, run (app c d) m = run d (run c m).
Proof. induction c as [|l k IH|l v k IH|a IHa b IHb k IHk]; intros d m; cbn [app run]; auto. Qed.

Lemma foot_app : forall c d m, foot (app c d) m = foot c m ++ foot d (run c m).
Proof.
  induction c as [|l k IH|l v k IH|a IHa b IHb k IHk]; intros d m; cbn [app run foot List.app]; [reflexivity|now rewrite IH|now rewrite IH|].
  now rewrite IHk, !app_assoc.
Qed.

Lemma safe_app : forall c d m, safe (app c d) m <-> safe c m /\ safe d (run c m).
Proof. induction c as [|l k IH|l v k IH|a IHa b IHb k IHk]; intros d m; cbn [app run safe]; [tauto|apply IH|apply IH|]. rewrite IHk. tauto. Qed.

(** [tbb::parallel_for] over a range: any recursive division of the range into chunks that are executed one after the other. *)
Inductive pfor (body : nat -> cmd) : nat -> nat -> cmd -> Prop :=
| pf_chunk b e : b <= e -> pfor body b e (fold_right app Ret (map body (seq b (e - b))))
| pf_split b x e c1 c2 : pfor body b x c1 -> pfor body x e c2 -> pfor body b e (Fork c1 c2 Ret).

(** [tbb::task_group]. *)
Definition group (l : list cmd) : cmd := fold_right (fun a b => Fork a b Ret) Ret l.

(** The program does what the programs of the family do, one beside the other. *)
Definition behaves (c : cmd) (m : mem) (fs : list cmd) : Prop :=
  safe c m /\ (forall x, In x (foot c m) -> exists f, In f fs /\ In x (foot f m)) /\
  (forall f l, In f fs -> In (true, l) (foot f m) -> run c m l = run f m l) /\
  (forall l, (forall f, In f fs -> ~ In (true, l) (foot f m)) -> run c m l = m l).

Definition indep (m : mem) (fs gs : list cmd) : Prop := forall f g, In f fs -> In g gs -> apart (foot f m) (foot g m).

Lemma behaves_one : forall c m, safe c m -> behaves c m [c].
Proof.
  intros c m H. split; [exact H|]. split; [intros x Hx; exists c; split; [now left|exact Hx]|]. split.
  - intros f l [<-|[]] _. reflexivity.
  - intros l Hl. apply unwritten, Hl. now left.
Qed.

Lemma behaves_nil : forall m, behaves Ret m [].
Proof. intros m. split; [exact I|]. split; [intros x []|]. split; [intros f l []|reflexivity]. Qed.

Lemma behaves_both : forall a b m fs gs, behaves a m fs -> behaves b m gs -> indep m fs gs ->
  apart (foot a m) (foot b (run a m)) /\ foot b (run a m) = foot b m /\ behaves (app a b) m (fs ++ gs).
Proof.
  intros a b m fs gs (A1 & A2 & A3 & A4) (B1 & B2 & B3 & B4) HI.
  assert (AP : apart (foot a m) (foot b m)).
  { intros w w' l Ha Hb. destruct (A2 _ Ha) as (f & F1 & F2). destruct (B2 _ Hb) as (g & G1 & G2). exact (HI f g F1 G1 w w' l F2 G2). }
  assert (EQ : forall w l, In (w, l) (foot b m) -> run a m l = m l).
  { intros w l Hb. apply unwritten. intros Ha. destruct (AP true w l Ha Hb). discriminate. }
  destruct (frame b m (run a m) EQ) as (F1 & _ & F3 & F4).
  split; [now rewrite F1|]. split; [exact F1|]. split; [rewrite safe_app; auto|]. rewrite foot_app, run_app, F1. split; [|split].
  - intros x Hx. apply in_app_iff in Hx as [Hx|Hx].
    + destruct (A2 x Hx) as (f & H1 & H2). exists f. split; [apply in_or_app; now left|exact H2].
    + destruct (B2 x Hx) as (f & H1 & H2). exists f. split; [apply in_or_app; now right|exact H2].
  - intros f l Hf Hl. apply in_app_iff in Hf as [Hf|Hf].
    + rewrite unwritten; [now apply A3|]. rewrite F1. intros Hb. destruct (B2 _ Hb) as (g & G1 & G2). destruct (HI f g Hf G1 true true l Hl G2). discriminate.
    + rewrite <- (B3 f l Hf Hl). apply F4. apply A4. intros g Hg Hx. destruct (HI g f Hg Hf true true l Hx Hl). discriminate.
  - intros l Hl. assert (E : run a m l = m l) by (apply A4; intros f Hf; apply Hl, in_or_app; now left).
    rewrite (F4 l E). apply B4. intros f Hf. apply Hl, in_or_app. now right.
Qed.

Lemma behaves_fork : forall a b m fs gs, behaves a m fs -> behaves b m gs -> indep m fs gs -> behaves (Fork a b Ret) m (fs ++ gs).
Proof.
  intros a b m fs gs HA HB HI. destruct (behaves_both a b m fs gs HA HB HI) as (AP & EF & S1 & S2 & S3 & S4).
  rewrite safe_app in S1. rewrite run_app in S3, S4. rewrite foot_app in S2.
  split; [cbn [safe run]; tauto|]. split; [|split]; cbn [foot run]; [|exact S3|exact S4]. intros x Hx. rewrite app_nil_r in Hx. apply S2, Hx.
Qed.

Definition pairwise (m : mem) (body : nat -> cmd) (b e : nat) : Prop :=
  (forall i, b <= i < e -> safe (body i) m) /\ forall i j, b <= i < e -> b <= j < e -> i <> j -> apart (foot (body i) m) (foot (body j) m).

Lemma behaves_pfor : forall body b e c m, pfor body b e c -> pairwise m body b e -> b <= e /\ behaves c m (map body (seq b (e - b))).
Proof.
  intros body b e c m H. induction H as [b e Hb|b x e c1 c2 H1 IH1 H2 IH2]; intros [P1 P2].
  - split; [exact Hb|]. remember (e - b) as k eqn:Ek. revert b Hb P1 P2 Ek. induction k as [|k IH]; intros b Hb P1 P2 Ek; [apply behaves_nil|].
    cbn [seq map fold_right]. change (body b :: map body (seq (S b) k)) with ([body b] ++ map body (seq (S b) k)).
    apply behaves_both.
    + apply behaves_one, P1. lia.
    + apply IH; [lia| | |lia]; intros; [apply P1; lia|apply P2; lia].
    + intros f g [<-|[]] Hg. apply in_map_iff in Hg as (i & <- & Hi). apply in_seq in Hi. apply P2; lia.
  - assert (L1 : b <= x). { clear - H1. induction H1; lia. } assert (L2 : x <= e). { clear - H2. induction H2; lia. }
    destruct IH1 as [_ I1]; [split; intros; [apply P1|apply P2]; lia|]. destruct IH2 as [_ I2]; [split; intros; [apply P1|apply P2]; lia|].
    split; [lia|]. replace (seq b (e - b)) with (seq b (x - b) ++ seq x (e - x)).
    + rewrite map_app. apply behaves_fork; [exact I1|exact I2|]. intros f g Hf Hg. apply in_map_iff in Hf as (i & <- & Hi). apply in_map_iff in Hg as (j & <- & Hj).
      apply in_seq in Hi, Hj. apply P2; lia.
    + replace (e - b) with ((x - b) + (e - x)) by lia. rewrite seq_app. f_equal. f_equal. lia.
Qed.

(** What every task of a group leaves is there after the whole group. *)
Lemma behaves_group : forall cs m, (forall c, In c cs -> safe c m) ->
  (forall i j c d, i <> j -> nth_error cs i = Some c -> nth_error cs j = Some d -> apart (foot c m) (foot d m)) -> behaves (group cs) m cs.
Proof.
  induction cs as [|c cs IH]; intros m HS HA; [apply behaves_nil|]. cbn [group fold_right]. change (c :: cs) with ([c] ++ cs).
  apply behaves_fork.
  - apply behaves_one, HS. now left.
  - apply IH; [intros d Hd; apply HS; now right|]. intros i j x y Hij Hx Hy. apply (HA (S i) (S j) x y); [lia|exact Hx|exact Hy].
  - intros f g [<-|[]] Hg. apply In_nth_error in Hg as [j Hj]. apply (HA 0 (S j) c g); [lia|reflexivity|exact Hj].
Qed.

End Lang.

Arguments Ret {L V}.
Arguments Rd {L V}.
Arguments Wr {L V}.
Arguments Fork {L V}.
Arguments app {L V}.
Arguments pfor {L V}.
Arguments group {L V}.
Arguments racing {L V}.
