(** Programs with shared memory, fork-join parallelism and exceptions. An exception of a task cancels the parallel region: the tasks beside it are
    given up at any point, and one of the exceptions is rethrown where the region was started. This is the meaning given to exceptions in
    [tbb::parallel_for] and [tbb::task_group]; in reality a task is only given up before or after a chunk of its range, which is one of the
    possibilities here. It models no code of the library by itself. *)
From Coq Require Import List Arith Bool Lia.
From Verif Require Import Base.
Import ListNotations.
Local Open Scope nat_scope.

Section Lang.

Variables L V : Type.
Variable eqL : forall a b : L, {a = b} + {a <> b}.

Inductive xcmd := XRet | XRaise (e : exn) | XRd (l : L) (k : V -> xcmd) | XWr (l : L) (v : V) (k : xcmd) | XFork (a b k : xcmd).

Definition xmem := L -> V.
Definition xupd (m : xmem) (l : L) (v : V) : xmem := fun x => if eqL x l then v else m x.

Inductive xstep : xmem -> xcmd -> xmem -> xcmd -> Prop :=
| x_rd m l k : xstep m (XRd l k) m (k (m l))
| x_wr m l v k : xstep m (XWr l v k) (xupd m l v) k
| x_left m a b k m' a' : xstep m a m' a' -> xstep m (XFork a b k) m' (XFork a' b k)
| x_right m a b k m' b' : xstep m b m' b' -> xstep m (XFork a b k) m' (XFork a b' k)
| x_join m k : xstep m (XFork XRet XRet k) m k
| x_cancel_right m e b k : xstep m (XFork (XRaise e) b k) m (XRaise e)
| x_cancel_left m a e k : xstep m (XFork a (XRaise e) k) m (XRaise e).

Inductive xexec : nat -> xmem -> xcmd -> xmem -> xcmd -> Prop :=
| xe_nil m c : xexec 0 m c m c
| xe_step n m c m' c' m'' c'' : xstep m c m' c' -> xexec n m' c' m'' c'' -> xexec (S n) m c m'' c''.

Inductive xpending : xcmd -> bool -> L -> Prop :=
| xp_rd l k : xpending (XRd l k) false l
| xp_wr l v k : xpending (XWr l v k) true l
| xp_left a b k w l : xpending a w l -> xpending (XFork a b k) w l
| xp_right a b k w l : xpending b w l -> xpending (XFork a b k) w l.

Inductive xracing : xcmd -> Prop :=
| xr_now a b k w w' l : xpending a w l -> xpending b w' l -> w || w' = true -> xracing (XFork a b k)
| xr_left a b k : xracing a -> xracing (XFork a b k)
| xr_right a b k : xracing b -> xracing (XFork a b k).

(** One particular execution: the left task to its end or its exception, then the right one. The memory, the exceptions, the accesses, the length. *)
Fixpoint xrun (c : xcmd) (m : xmem) : xmem * list exn :=
  match c with
  | XRet => (m, [])
  | XRaise e => (m, [e])
  | XRd l k => xrun (k (m l)) m
  | XWr l v k => xrun k (xupd m l v)
  | XFork a b k =>
    let ra := xrun a m in let rb := xrun b (fst ra) in
    match snd ra ++ snd rb with [] => xrun k (fst rb) | es => (fst rb, es) end
  end.

Fixpoint xfoot (c : xcmd) (m : xmem) : list (bool * L) :=
  match c with
  | XRet | XRaise _ => []
  | XRd l k => (false, l) :: xfoot (k (m l)) m
  | XWr l v k => (true, l) :: xfoot k (xupd m l v)
  | XFork a b k =>
    let ra := xrun a m in let rb := xrun b (fst ra) in
    xfoot a m ++ xfoot b (fst ra) ++ match snd ra ++ snd rb with [] => xfoot k (fst rb) | _ => [] end
  end.

Fixpoint xlen (c : xcmd) (m : xmem) : nat :=
  match c with
  | XRet | XRaise _ => 0
  | XRd l k => S (xlen (k (m l)) m)
  | XWr l v k => S (xlen k (xupd m l v))
  | XFork a b k =>
    let ra := xrun a m in let rb := xrun b (fst ra) in
    xlen a m + xlen b (fst ra) + S (match snd ra ++ snd rb with [] => xlen k (fst rb) | _ => 0 end)
  end.

Definition xapart (f g : list (bool * L)) : Prop := forall w w' l, In (w, l) f -> In (w', l) g -> w = false /\ w' = false.

Fixpoint xsafe (c : xcmd) (m : xmem) : Prop :=
  match c with
  | XRet | XRaise _ => True
  | XRd l k => xsafe (k (m l)) m
  | XWr l v k => xsafe k (xupd m l v)
  | XFork a b k =>
    let ra := xrun a m in let rb := xrun b (fst ra) in
    xsafe a m /\ xsafe b (fst ra) /\ xapart (xfoot a m) (xfoot b (fst ra)) /\ match snd ra ++ snd rb with [] => xsafe k (fst rb) | _ => True end
  end.

Lemma xapart_incl : forall f g f' g', incl f' f -> incl g' g -> xapart f g -> xapart f' g'.
Proof. intros f g f' g' H1 H2 H w w' l Hf Hg. apply (H w w' l); auto. Qed.

Lemma xframe : forall c m m', (forall w l, In (w, l) (xfoot c m) -> m' l = m l) ->
  xfoot c m' = xfoot c m /\ xlen c m' = xlen c m /\ snd (xrun c m') = snd (xrun c m) /\ (xsafe c m -> xsafe c m') /\
  forall l, m' l = m l -> fst (xrun c m') l = fst (xrun c m) l.
Proof.
  induction c as [|e|l k IH|l v k IH|a IHa b IHb k IHk]; intros m m' H; cbn [xfoot xlen xsafe xrun] in *.
  - cbn [fst snd]. auto.
  - cbn [fst snd]. auto.
  - rewrite (H false l) by now left. destruct (IH (m l) m m') as (I1 & I2 & I3 & I4 & I5); [intros w x Hx; apply (H w x); now right|].
    rewrite I1, I2. auto.
  - destruct (IH (xupd m l v) (xupd m' l v)) as (I1 & I2 & I3 & I4 & I5).
    { intros w x Hx. unfold xupd. destruct (eqL x l); [reflexivity|]. apply (H w x). now right. }
    rewrite I1, I2. repeat (split; [auto; fail|]). intros x Hx. apply I5. unfold xupd. now destruct (eqL x l).
  - cbv zeta in *.
    destruct (IHa m m') as (A1 & A2 & A3 & A4 & A5); [intros w x Hx; apply (H w x), in_or_app; now left|].
    destruct (IHb (fst (xrun a m)) (fst (xrun a m'))) as (B1 & B2 & B3 & B4 & B5).
    { intros w x Hx. apply A5, (H w x), in_or_app. right. apply in_or_app. now left. }
    rewrite A1, A2, A3, B1, B2, B3. destruct (snd (xrun a m) ++ snd (xrun b (fst (xrun a m)))) as [|e es] eqn:Ee.
    + destruct (IHk (fst (xrun b (fst (xrun a m)))) (fst (xrun b (fst (xrun a m'))))) as (K1 & K2 & K3 & K4 & K5).
      { intros w x Hx. apply B5, A5, (H w x), in_or_app. right. apply in_or_app. now right. }
      rewrite K1, K2. repeat (split; [auto; fail|]). split; [intros (S1 & S2 & S3 & S4); auto|]. intros x Hx. now apply K5, B5, A5.
    + cbn [fst snd]. repeat (split; [auto; fail|]). split; [intros (S1 & S2 & S3 & S4); auto|]. intros x Hx. now apply B5, A5.
Qed.

Lemma xunwritten : forall c m l, ~ In (true, l) (xfoot c m) -> fst (xrun c m) l = m l.
Proof.
  induction c as [|e|l k IH|l v k IH|a IHa b IHb k IHk]; intros m x H; cbn [xfoot xrun] in *.
  - reflexivity.
  - reflexivity.
  - apply IH. intros Hx. apply H. now right.
  - rewrite IH by (intros Hx; apply H; now right). unfold xupd. destruct (eqL x l) as [->|]; [|reflexivity]. elim H. now left.
  - cbv zeta in *. rewrite !in_app_iff in H. destruct (snd (xrun a m) ++ snd (xrun b (fst (xrun a m)))) as [|e es].
    + rewrite IHk, IHb, IHa; auto.
    + cbn [fst]. rewrite IHb, IHa; auto.
Qed.

Lemma xsame : forall c m m', (forall l, m' l = m l) ->
  xfoot c m' = xfoot c m /\ xlen c m' = xlen c m /\ snd (xrun c m') = snd (xrun c m) /\ (xsafe c m -> xsafe c m') /\
  forall l, fst (xrun c m') l = fst (xrun c m) l.
Proof. intros c m m' H. destruct (xframe c m m') as (H1 & H2 & H3 & H4 & H5); auto. repeat (split; [auto; fail|]). auto. Qed.

Lemma xdec_in : forall (f : list (bool * L)) x, {In x f} + {~ In x f}.
Proof. intros f x. apply in_dec. intros [w l] [w' l']. destruct (bool_dec w w') as [->|]; [|right; congruence]. destruct (eqL l l') as [->|]; [now left|right; congruence]. Qed.

(** The right side does not see the left one. *)
Lemma xright : forall a b m m1, (forall l, ~ In (true, l) (xfoot a m) -> m1 l = m l) -> xapart (xfoot a m) (xfoot b m1) ->
  xfoot b m = xfoot b m1 /\ xlen b m = xlen b m1 /\ snd (xrun b m) = snd (xrun b m1) /\ (xsafe b m1 -> xsafe b m) /\
  forall l, m l = m1 l -> fst (xrun b m) l = fst (xrun b m1) l.
Proof.
  intros a b m m1 H1 H. apply xframe. intros w l Hl. symmetry. apply H1. intros Ha. destruct (H true w l Ha Hl). discriminate.
Qed.

(** What is kept by a step. *)
Lemma xstep_safe : forall m c m' c', xstep m c m' c' -> xsafe c m ->
  xsafe c' m' /\ (snd (xrun c m) = [] -> snd (xrun c' m') = [] /\ forall l, fst (xrun c' m') l = fst (xrun c m) l) /\
  incl (snd (xrun c' m')) (snd (xrun c m)) /\ (snd (xrun c m) <> [] -> snd (xrun c' m') <> []) /\
  incl (xfoot c' m') (xfoot c m) /\ xlen c' m' < xlen c m /\ (forall l, ~ In (true, l) (xfoot c m) -> m' l = m l).
Proof.
  intros m c m' c' H. induction H as [m l k|m l v k|m a b k m' a' H IH|m a b k m' b' H IH|m k|m e b k|m a e k]; cbn [xsafe xfoot xrun xlen]; intros HS.
  - repeat (split; [auto using incl_refl; fail|]). split; [intros x Hx; now right|]. split; [lia|auto].
  - repeat (split; [auto using incl_refl; fail|]). split; [intros x Hx; now right|]. split; [lia|].
    intros x Hx. unfold xupd. destruct (eqL x l) as [->|]; [|reflexivity]. elim Hx. now left.
  - cbv zeta in *. destruct HS as (S1 & S2 & S3 & S4). destruct (IH S1) as (I1 & I2 & I3 & I4 & I5 & I6 & I7).
    assert (W : forall l, ~ In (true, l) (xfoot a m) -> fst (xrun a' m') l = fst (xrun a m) l).
    { intros l Hl. rewrite (xunwritten a m l Hl), xunwritten; [now apply I7|]. intros X. apply Hl, I5, X. }
    destruct (xframe b (fst (xrun a m)) (fst (xrun a' m'))) as (B1 & B2 & B3 & B4 & B5).
    { intros w l Hl. apply W. intros Ha. destruct (S3 true w l Ha Hl). discriminate. }
    rewrite B1, B2, B3.
    assert (AP : xapart (xfoot a' m') (xfoot b (fst (xrun a m)))) by (eapply xapart_incl; [exact I5|apply incl_refl|exact S3]).
    assert (OFF : forall l, ~ In (true, l) (xfoot a m ++ xfoot b (fst (xrun a m)) ++ match snd (xrun a m) ++ snd (xrun b (fst (xrun a m))) with
        [] => xfoot k (fst (xrun b (fst (xrun a m)))) | _ => [] end) -> m' l = m l).
    { intros l Hl. apply I7. intros X. apply Hl, in_or_app. now left. }
    destruct (snd (xrun a m)) as [|ea ra] eqn:Ea.
    + destruct (I2 eq_refl) as [Z1 Z2]. rewrite Z1. cbn [List.app] in *.
      assert (BB : forall l, fst (xrun b (fst (xrun a' m'))) l = fst (xrun b (fst (xrun a m))) l) by (intros l; apply B5, Z2).
      destruct (snd (xrun b (fst (xrun a m)))) as [|eb rb] eqn:Eb.
      * destruct (xsame k _ _ BB) as (K1 & K2 & K3 & K4 & K5). rewrite K1, K2, K3.
        split; [refine (conj I1 (conj (B4 S2) (conj AP _))); auto|]. split; [auto|]. split; [apply incl_refl|]. split; [auto|].
        split; [apply incl_app; [apply incl_appl, I5|apply incl_appr, incl_refl]|]. split; [lia|exact OFF].
      * cbn [fst snd]. split; [refine (conj I1 (conj (B4 S2) (conj AP _))); auto|]. split; [discriminate|]. split; [apply incl_refl|]. split; [auto|].
        split; [apply incl_app; [apply incl_appl, I5|apply incl_appr, incl_refl]|]. split; [lia|exact OFF].
    + assert (Q : snd (xrun a' m') <> []) by (apply I4; discriminate). destruct (snd (xrun a' m')) as [|ea' ra'] eqn:Ea'; [now elim Q|].
      cbn [List.app fst snd] in *. split; [refine (conj I1 (conj (B4 S2) (conj AP _))); auto|]. split; [discriminate|]. split.
      { change (incl ((ea' :: ra') ++ snd (xrun b (fst (xrun a m)))) ((ea :: ra) ++ snd (xrun b (fst (xrun a m))))).
        apply incl_app; [apply incl_appl, I3|apply incl_appr, incl_refl]. }
      split; [discriminate|]. split; [apply incl_app; [apply incl_appl, I5|apply incl_appr, incl_refl]|]. split; [lia|exact OFF].
  - cbv zeta in *. destruct HS as (S1 & S2 & S3 & S4).
    destruct (xright a b m (fst (xrun a m)) (xunwritten a m) S3) as (R1 & R2 & R3 & R4 & R5).
    destruct (IH (R4 S2)) as (I1 & I2 & I3 & I4 & I5 & I6 & I7). rewrite <- R1 in S3.
    assert (MA : forall w l, In (w, l) (xfoot a m) -> m' l = m l).
    { intros w l Hl. apply I7. intros Hb. destruct (S3 w true l Hl Hb). discriminate. }
    destruct (xframe a m m' MA) as (A1 & A2 & A3 & A4 & A5).
    assert (AP : xapart (xfoot a m') (xfoot b' m')) by (rewrite A1; eapply xapart_incl; [apply incl_refl|exact I5|exact S3]).
    assert (MB : forall w l, In (w, l) (xfoot b' m') -> fst (xrun a m') l = m' l).
    { intros w l Hl. apply xunwritten. intros Ha. destruct (AP true w l Ha Hl). discriminate. }
    destruct (xframe b' m' (fst (xrun a m')) MB) as (B1 & B2 & B3 & B4 & B5).
    rewrite A1, A2, A3, B1, B2, B3, <- R1, <- R2, <- R3.
    assert (OFF : forall l, ~ In (true, l) (xfoot a m ++ xfoot b m ++ match snd (xrun a m) ++ snd (xrun b m) with
        [] => xfoot k (fst (xrun b (fst (xrun a m)))) | _ => [] end) -> m' l = m l).
    { intros l Hl. apply I7. intros X. apply Hl, in_or_app. right. apply in_or_app. now left. }
    assert (INC : incl (xfoot a m ++ xfoot b' m' ++ []) (xfoot a m ++ xfoot b m ++ [])).
    { apply incl_app; [apply incl_appl, incl_refl|]. apply incl_appr, incl_app; [apply incl_appl, I5|intros x []]. }
    rewrite <- R3 in S4. destruct (snd (xrun b m)) as [|eb rb] eqn:Eb.
    + destruct (I2 eq_refl) as [Z1 Z2]. rewrite Z1.
      assert (RR : forall l, fst (xrun b' (fst (xrun a m'))) l = fst (xrun b (fst (xrun a m))) l).
      { intros l. destruct (xdec_in (xfoot a m) (true, l)) as [Ha|Ha].
        - rewrite xunwritten; [|rewrite B1; intros Hb; rewrite <- A1 in Ha; destruct (AP true true l Ha Hb); discriminate].
          rewrite (xunwritten b); [apply A5, (MA true l Ha)|]. rewrite <- R1. intros Hb. destruct (S3 true true l Ha Hb). discriminate.
        - rewrite <- R5 by (symmetry; now apply xunwritten). rewrite <- Z2. apply B5, xunwritten. now rewrite A1. }
      destruct (snd (xrun a m) ++ []) as [|e es] eqn:Ee.
      * destruct (xsame k _ _ RR) as (K1 & K2 & K3 & K4 & K5). rewrite K1, K2, K3.
        split; [refine (conj (A4 S1) (conj (B4 I1) (conj _ _))); [rewrite <- A1; exact AP|auto]|]. split; [auto|]. split; [apply incl_refl|]. split; [auto|].
        split; [apply incl_app; [apply incl_appl, incl_refl|]; apply incl_appr, incl_app; [apply incl_appl, I5|apply incl_appr, incl_refl]|]. split; [lia|exact OFF].
      * cbn [fst snd]. split; [refine (conj (A4 S1) (conj (B4 I1) (conj _ _))); [rewrite <- A1; exact AP|auto]|]. split; [discriminate|]. split; [apply incl_refl|]. split; [auto|]. split; [exact INC|]. split; [lia|exact OFF].
    + assert (Q : snd (xrun b' m') <> []) by (apply I4; discriminate). destruct (snd (xrun b' m')) as [|eb' rb'] eqn:Eb'; [now elim Q|].
      assert (N1 : snd (xrun a m) ++ eb' :: rb' <> []) by (intros X; apply app_eq_nil in X as [_ X]; discriminate).
      assert (N2 : snd (xrun a m) ++ eb :: rb <> []) by (intros X; apply app_eq_nil in X as [_ X]; discriminate).
      assert (NI : incl (snd (xrun a m) ++ eb' :: rb') (snd (xrun a m) ++ eb :: rb)) by (apply incl_app; [apply incl_appl, incl_refl|apply incl_appr, I3]).
      destruct (snd (xrun a m) ++ eb' :: rb') as [|x1 y1]; [now elim N1|]. destruct (snd (xrun a m) ++ eb :: rb) as [|x2 y2]; [now elim N2|]. cbn [fst snd].
      split; [refine (conj (A4 S1) (conj (B4 I1) (conj _ _))); [rewrite <- A1; exact AP|auto]|]. split; [discriminate|]. split; [exact NI|]. split; [discriminate|]. split; [exact INC|]. split; [lia|exact OFF].
  - cbn [List.app fst snd] in *. destruct HS as (_ & _ & _ & S4). split; [exact S4|]. split; [auto|]. split; [apply incl_refl|]. split; [auto|]. split; [apply incl_refl|]. split; [lia|auto].
  - cbn [List.app fst snd]. split; [exact I|]. split; [discriminate|]. split; [intros x [<-|[]]; now left|]. split; [discriminate|]. split; [intros x []|]. split; [lia|auto].
  - cbv zeta in *. cbn [fst snd]. assert (N : snd (xrun a m) ++ [e] <> []) by (intros X; apply app_eq_nil in X as [_ X]; discriminate).
    assert (NI : In e (snd (xrun a m) ++ [e])) by (apply in_or_app; right; now left).
    destruct (snd (xrun a m) ++ [e]) as [|x y]; [now elim N|]. cbn [fst snd].
    split; [exact I|]. split; [discriminate|]. split; [intros z [<-|[]]; exact NI|]. split; [discriminate|]. split; [intros z []|]. split; [lia|auto].
Qed.

Lemma xpending_foot : forall c w l m, xpending c w l -> xsafe c m -> In (w, l) (xfoot c m).
Proof.
  intros c w l m H. revert m. induction H as [l k|l v k|a b k w l H IH|a b k w l H IH]; intros m HS; cbn [xfoot xsafe] in *.
  - now left.
  - now left.
  - apply in_or_app. left. now apply IH.
  - destruct HS as (_ & S2 & _). apply in_or_app. right. apply in_or_app. left. now apply IH.
Qed.

Lemma xsafe_not_racing : forall c m, xsafe c m -> ~ xracing c.
Proof.
  intros c m HS H. revert m HS. induction H as [a b k w w' l H1 H2 Hw|a b k H IH|a b k H IH]; intros m HS; cbn [xsafe] in HS; destruct HS as (S1 & S2 & S3 & _).
  - destruct (S3 w w' l) as [-> ->]; [now apply xpending_foot|now apply xpending_foot|]. discriminate.
  - eapply IH, S1.
  - eapply IH, S2.
Qed.

Definition xdone (c : xcmd) : Prop := c = XRet \/ exists e, c = XRaise e.

Lemma xprogress : forall c m, xdone c \/ exists m' c', xstep m c m' c'.
Proof.
  induction c as [|e|l k IH|l v k IH|a IHa b IHb k IHk]; intros m.
  - left. now left.
  - left. right. now exists e.
  - right. eexists _, _. constructor.
  - right. eexists _, _. constructor.
  - right. destruct (IHa m) as [[->|[e ->]]|(m' & a' & H)]; [|eexists _, _; apply x_cancel_right|eexists _, _; apply x_left, H].
    destruct (IHb m) as [[->|[e ->]]|(m' & b' & H)]; [eexists _, _; apply x_join|eexists _, _; apply x_cancel_left|eexists _, _; apply x_right, H].
Qed.

(** In every interleaving no two concurrent tasks are ever about to access the same location, one of them for writing; no interleaving goes on
    for ever or is stuck; at the normal end of every one of them [Q] holds of the memory, and every one that ends with an exception ends with
    an exception of [X]. *)
Definition all_runs_x (c : xcmd) (m : xmem) (Q : xmem -> Prop) (X : exn -> Prop) : Prop :=
  (forall n m' c', xexec n m c m' c' -> ~ xracing c' /\ (c' = XRet -> Q m') /\ (forall e, c' = XRaise e -> X e) /\
     exists n' m'' c'', xexec n' m' c' m'' c'' /\ xdone c'') /\
  exists bound, forall n m' c', xexec n m c m' c' -> n <= bound.

Lemma xexec_safe : forall n m c m' c', xexec n m c m' c' -> xsafe c m ->
  xsafe c' m' /\ (snd (xrun c m) = [] -> snd (xrun c' m') = [] /\ forall l, fst (xrun c' m') l = fst (xrun c m) l) /\
  incl (snd (xrun c' m')) (snd (xrun c m)) /\ (snd (xrun c m) <> [] -> snd (xrun c' m') <> []) /\ n + xlen c' m' <= xlen c m.
Proof.
  intros n m c m' c' H. induction H as [m c|n m c m1 c1 m2 c2 H1 H2 IH]; intros HS.
  - split; [exact HS|]. split; [auto|]. split; [apply incl_refl|]. split; [auto|]. cbn [Nat.add]. apply le_n.
  - destruct (xstep_safe _ _ _ _ H1 HS) as (I1 & I2 & I3 & I4 & _ & I6 & _). destruct (IH I1) as (J1 & J2 & J3 & J4 & J5).
    split; [exact J1|]. split; [intros Z; destruct (I2 Z) as [Z1 Z2]; destruct (J2 Z1) as [Z3 Z4]; split; [exact Z3|]; intros l; now rewrite Z4|].
    split; [eapply incl_tran; eassumption|]. split; [auto|]. lia.
Qed.

Lemma xcontinue : forall k c m, xsafe c m -> xlen c m <= k -> exists n' m'' c'', xexec n' m c m'' c'' /\ xdone c''.
Proof.
  induction k as [|k IH]; intros c m HS Hk; (destruct (xprogress c m) as [D|(m2 & c2 & H2)]; [exists 0, m, c; split; [constructor|exact D]|]);
    destruct (xstep_safe _ _ _ _ H2 HS) as (S2 & _ & _ & _ & _ & L2 & _); [lia|].
  destruct (IH c2 m2 S2 ltac:(lia)) as (n' & m3 & c3 & H3 & D). exists (S n'), m3, c3. split; [econstructor; eassumption|exact D].
Qed.

(** No task fails: the result of the sequential execution. *)
Lemma all_runs_ok : forall c m (Q : xmem -> Prop), xsafe c m -> snd (xrun c m) = [] -> (forall m', (forall l, m' l = fst (xrun c m) l) -> Q m') ->
  all_runs_x c m Q (fun _ => False).
Proof.
  intros c m Q HS HN HQ. split; [|exists (xlen c m); intros n m' c' H; destruct (xexec_safe _ _ _ _ _ H HS) as (_ & _ & _ & _ & J); lia].
  intros n m' c' H. destruct (xexec_safe _ _ _ _ _ H HS) as (J1 & J2 & J3 & _ & _). destruct (J2 HN) as [Z1 Z2].
  split; [eapply xsafe_not_racing, J1|]. split; [intros ->; apply HQ, Z2|]. split; [intros e ->; discriminate Z1|]. eapply xcontinue; [exact J1|apply le_n].
Qed.

(** Some task fails: no interleaving ends normally, and one of the exceptions is thrown. *)
Lemma all_runs_fail : forall c m (X : exn -> Prop), xsafe c m -> snd (xrun c m) <> [] -> (forall e, In e (snd (xrun c m)) -> X e) ->
  all_runs_x c m (fun _ => False) X.
Proof.
  intros c m X HS HN HX. split; [|exists (xlen c m); intros n m' c' H; destruct (xexec_safe _ _ _ _ _ H HS) as (_ & _ & _ & _ & J); lia].
  intros n m' c' H. destruct (xexec_safe _ _ _ _ _ H HS) as (J1 & J2 & J3 & J4 & _).
  split; [eapply xsafe_not_racing, J1|]. split; [intros ->; now elim (J4 HN)|]. split; [intros e ->; apply HX, J3; now left|]. eapply xcontinue; [exact J1|apply le_n].
Qed.

(** * Sequences and loops *)
Fixpoint xapp (c d : xcmd) : xcmd :=
  match c with
  | XRet => d
  | XRaise e => XRaise e
  | XRd l k => XRd l (fun v => xapp (k v) d)
  | XWr l v k => XWr l v (xapp k d)
  | XFork a b k => XFork a b (xapp k d)
  end.

Lemma xrun_app : forall c d m, xrun (xapp c d) m = match snd (xrun c m) with [] => xrun d (fst (xrun c m)) | _ => xrun c m end.
Proof.
  induction c as [|e|l k IH|l v k IH|a IHa b IHb k IHk]; intros d m; cbn [xapp xrun]; auto. cbv zeta.
  destruct (snd (xrun a m) ++ snd (xrun b (fst (xrun a m)))) as [|e es]; [apply IHk|reflexivity].
Qed.

Lemma xfoot_app : forall c d m, xfoot (xapp c d) m = xfoot c m ++ match snd (xrun c m) with [] => xfoot d (fst (xrun c m)) | _ => [] end.
Proof.
  induction c as [|e|l k IH|l v k IH|a IHa b IHb k IHk]; intros d m; cbn [xapp xrun xfoot List.app]; [reflexivity|reflexivity|now rewrite IH|now rewrite IH|]. cbv zeta.
  destruct (snd (xrun a m) ++ snd (xrun b (fst (xrun a m)))) as [|e es]; [now rewrite IHk, !app_assoc|]. cbn [snd]. now rewrite !app_nil_r.
Qed.

Lemma xsafe_app : forall c d m, xsafe (xapp c d) m <-> xsafe c m /\ match snd (xrun c m) with [] => xsafe d (fst (xrun c m)) | _ => True end.
Proof.
  induction c as [|e|l k IH|l v k IH|a IHa b IHb k IHk]; intros d m; cbn [xapp xrun xsafe]; [cbn [snd fst]; tauto|cbn [snd]; tauto|apply IH|apply IH|]. cbv zeta.
  destruct (snd (xrun a m) ++ snd (xrun b (fst (xrun a m)))) as [|e es]; [rewrite IHk|cbn [snd]]; tauto.
Qed.

(** [tbb::parallel_for] over a range, as in [Par]. *)
Inductive xpfor (body : nat -> xcmd) : nat -> nat -> xcmd -> Prop :=
| xpf_chunk b e : b <= e -> xpfor body b e (fold_right xapp XRet (map body (seq b (e - b))))
| xpf_split b x e c1 c2 : xpfor body b x c1 -> xpfor body x e c2 -> xpfor body b e (XFork c1 c2 XRet).

Lemma xpfor_le : forall body b e q, xpfor body b e q -> b <= e.
Proof. intros body b e q H. induction H; lia. Qed.

(** The bodies of a loop beside each other. *)
Definition xloop (m : xmem) (body : nat -> xcmd) (b e : nat) (q : xcmd) : Prop :=
  xsafe q m /\ (forall x, In x (xfoot q m) -> exists i, b <= i < e /\ In x (xfoot (body i) m)) /\
  (forall x, In x (snd (xrun q m)) -> exists i, b <= i < e /\ In x (snd (xrun (body i) m))) /\
  (snd (xrun q m) = [] -> (forall i, b <= i < e -> snd (xrun (body i) m) = []) /\
     (forall i l, b <= i < e -> In (true, l) (xfoot (body i) m) -> fst (xrun q m) l = fst (xrun (body i) m) l)).

Definition xpairwise (m : xmem) (body : nat -> xcmd) (b e : nat) : Prop :=
  (forall i, b <= i < e -> xsafe (body i) m) /\ forall i j, b <= i < e -> b <= j < e -> i <> j -> xapart (xfoot (body i) m) (xfoot (body j) m).

Lemma xloop_apart : forall m body b x e p q, xpairwise m body b e -> b <= x -> x <= e -> xloop m body b x p -> xloop m body x e q ->
  xapart (xfoot p m) (xfoot q m).
Proof.
  intros m body b x e p q [_ P] Hb Hx (_ & A & _) (_ & B & _) w w' l H1 H2.
  destruct (A _ H1) as (i & I1 & I2). destruct (B _ H2) as (j & J1 & J2). exact (P i j ltac:(lia) ltac:(lia) ltac:(lia) w w' l I2 J2).
Qed.

Lemma xloop_seq : forall m body b x e p q, xpairwise m body b e -> b <= x -> x <= e -> xloop m body b x p -> xloop m body x e q ->
  xloop m body b e (xapp p q) /\ xloop m body b e (XFork p q XRet).
Proof.
  intros m body b x e p q P Hb Hx A B. pose proof (xloop_apart m body b x e p q P Hb Hx A B) as AP.
  destruct P as [_ P]. destruct A as (A1 & A2 & A3 & A4), B as (B1 & B2 & B3 & B4).
  destruct (xframe q m (fst (xrun p m))) as (F1 & _ & F3 & F4 & F5).
  { intros w l Hl. apply xunwritten. intros Hp. destruct (AP true w l Hp Hl). discriminate. }
  assert (VAL : snd (xrun p m) = [] -> snd (xrun q m) = [] -> (forall i, b <= i < e -> snd (xrun (body i) m) = []) /\
     (forall i l, b <= i < e -> In (true, l) (xfoot (body i) m) -> fst (xrun q (fst (xrun p m))) l = fst (xrun (body i) m) l)).
  { intros Zp Zq. destruct (A4 Zp) as [C1 C2], (B4 Zq) as [D1 D2].
    split; [intros i Hi; destruct (Nat.lt_ge_cases i x); [apply C1|apply D1]; lia|]. intros i l Hi Hl. destruct (Nat.lt_ge_cases i x) as [Hix|Hix].
    - rewrite xunwritten; [apply C2; [lia|exact Hl]|]. rewrite F1. intros X. destruct (B2 _ X) as (j & J1 & J2).
      destruct (P i j ltac:(lia) ltac:(lia) ltac:(lia) true true l Hl J2). discriminate.
    - rewrite <- (D2 i l ltac:(lia) Hl). apply F5. apply xunwritten. intros X. destruct (A2 _ X) as (j & J1 & J2).
      destruct (P j i ltac:(lia) ltac:(lia) ltac:(lia) true true l J2 Hl). discriminate. }
  assert (LL : forall y, In y (xfoot p m) -> exists i, b <= i < e /\ In y (xfoot (body i) m)) by (intros y Hy; destruct (A2 y Hy) as (i & ? & ?); exists i; split; [lia|auto]).
  assert (RR : forall y, In y (xfoot q m) -> exists i, b <= i < e /\ In y (xfoot (body i) m)) by (intros y Hy; destruct (B2 y Hy) as (i & ? & ?); exists i; split; [lia|auto]).
  assert (LE : forall y, In y (snd (xrun p m)) -> exists i, b <= i < e /\ In y (snd (xrun (body i) m))) by (intros y Hy; destruct (A3 y Hy) as (i & ? & ?); exists i; split; [lia|auto]).
  assert (RE : forall y, In y (snd (xrun q m)) -> exists i, b <= i < e /\ In y (snd (xrun (body i) m))) by (intros y Hy; destruct (B3 y Hy) as (i & ? & ?); exists i; split; [lia|auto]).
  split.
  - unfold xloop. rewrite xsafe_app, xfoot_app, xrun_app. destruct (snd (xrun p m)) as [|ep rp] eqn:Ep.
    + rewrite F1, F3. split; [auto|]. split; [intros y Hy; apply in_app_iff in Hy as [Hy|Hy]; auto|]. split; [exact RE|]. intros Z. auto.
    + rewrite Ep. split; [auto|]. split; [intros y Hy; rewrite app_nil_r in Hy; auto|]. split; [exact LE|discriminate].
  - unfold xloop. cbn [xsafe xfoot xrun]. cbv zeta. rewrite F1, F3. split.
    { split; [exact A1|]. split; [auto|]. split; [exact AP|]. destruct (snd (xrun p m) ++ snd (xrun q m)); exact I. }
    split. { intros y Hy. rewrite !in_app_iff in Hy. destruct Hy as [Hy|[Hy|Hy]]; [auto|auto|]. destruct (snd (xrun p m) ++ snd (xrun q m)); destruct Hy. }
    split.
    { intros y Hy. assert (Y : In y (snd (xrun p m) ++ snd (xrun q m))) by (destruct (snd (xrun p m) ++ snd (xrun q m)); exact Hy). apply in_app_iff in Y as [Y|Y]; auto. }
    intros Z. destruct (snd (xrun p m) ++ snd (xrun q m)) as [|y ys] eqn:Ey; [|discriminate Z]. apply app_eq_nil in Ey as [Y1 Y2]. cbn [fst]. now apply VAL.
Qed.

Lemma xloop_ok : forall body b e q m, xpfor body b e q -> xpairwise m body b e -> xloop m body b e q.
Proof.
  intros body b e q m H. induction H as [b e Hb|b x e c1 c2 H1 IH1 H2 IH2]; intros P.
  - remember (e - b) as k eqn:Ek. revert b Hb P Ek. induction k as [|k IH]; intros b Hb P Ek; cbn [seq map fold_right].
    + split; [exact I|]. split; [intros x []|]. split; [intros x []|]. intros _. split; [intros i Hi; lia|intros i l Hi; lia].
    + apply (xloop_seq m body b (S b) e); [exact P|lia|lia| |].
      * destruct P as [P1 _]. split; [apply P1; lia|]. split; [intros x Hx; exists b; split; [lia|exact Hx]|]. split; [intros x Hx; exists b; split; [lia|exact Hx]|].
        intros Z. split; [intros i Hi; now replace i with b by lia|]. intros i l Hi Hl. now replace i with b by lia.
      * apply IH; [lia| |lia]. destruct P as [P1 P2]. split; [intros i Hi; apply P1; lia|intros i j Hi Hj; apply P2; lia].
  - pose proof (xpfor_le _ _ _ _ H1) as L1. pose proof (xpfor_le _ _ _ _ H2) as L2.
    apply (xloop_seq m body b x e); [exact P|exact L1|exact L2|apply IH1|apply IH2]; destruct P as [P1 P2]; (split; [intros i Hi; apply P1; lia|intros i j Hi Hj; apply P2; lia]).
Qed.

End Lang.

Arguments XRet {L V}.
Arguments XRaise {L V}.
Arguments XRd {L V}.
Arguments XWr {L V}.
Arguments XFork {L V}.
Arguments xapp {L V}.
Arguments xpfor {L V}.
Arguments xracing {L V}.
Arguments xdone {L V}.
