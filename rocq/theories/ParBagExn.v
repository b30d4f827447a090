(** The programs of [ParBag] with exceptions, which cancel parallel regions as in [ParExn]. For programs whose control flow depends little on the memory: accesses,
    exceptions and lengths are bounded without executing the program. It models no code of the library by itself. *)
From Coq Require Import List Arith Bool Lia.
From Verif Require Import Base ParBag.
Import ListNotations.
Local Open Scope nat_scope.

Set Default Proof Using "Type".

Section Lang.

Variables L V : Type.
Variable eqL : forall a b : L, {a = b} + {a <> b}.
Variable op : V -> V -> V.
Notation mem := (L -> V).
Notation upd := (ParBag.upd L V eqL).

Inductive ecmd := ERet | ERaise (e : exn) | ERd (l : L) (k : V -> ecmd) | EWr (l : L) (v : V) (k : ecmd) | EAt (l : L) (v : V) (k : ecmd) | EFork (a b k : ecmd).

Inductive estep : mem -> ecmd -> mem -> ecmd -> Prop :=
| es_rd m l k : estep m (ERd l k) m (k (m l))
| es_wr m l v k : estep m (EWr l v k) (upd m l v) k
| es_at m l v k : estep m (EAt l v k) (upd m l (op v (m l))) k
| es_left m a b k m' a' : estep m a m' a' -> estep m (EFork a b k) m' (EFork a' b k)
| es_right m a b k m' b' : estep m b m' b' -> estep m (EFork a b k) m' (EFork a b' k)
| es_join m k : estep m (EFork ERet ERet k) m k
| es_cancel_right m e b k : estep m (EFork (ERaise e) b k) m (ERaise e)
| es_cancel_left m a e k : estep m (EFork a (ERaise e) k) m (ERaise e).

Inductive eexec : nat -> mem -> ecmd -> mem -> ecmd -> Prop :=
| ee_nil m c : eexec 0 m c m c
| ee_step n m c m' c' m'' c'' : estep m c m' c' -> eexec n m' c' m'' c'' -> eexec (S n) m c m'' c''.

Inductive epending : ecmd -> kind -> L -> Prop :=
| ep_rd l k : epending (ERd l k) KR l
| ep_wr l v k : epending (EWr l v k) KW l
| ep_at l v k : epending (EAt l v k) KA l
| ep_left a b k w l : epending a w l -> epending (EFork a b k) w l
| ep_right a b k w l : epending b w l -> epending (EFork a b k) w l.

Inductive eracing : ecmd -> Prop :=
| er_now a b k w w' l : epending a w l -> epending b w' l -> clash w w' = true -> eracing (EFork a b k)
| er_left a b k : eracing a -> eracing (EFork a b k)
| er_right a b k : eracing b -> eracing (EFork a b k).

Definition edone (c : ecmd) : Prop := c = ERet \/ exists e, c = ERaise e.

(** In every interleaving no two concurrent tasks are ever about to do accesses that clash; no interleaving goes on for ever or is stuck; at the normal end of every one
    of them [Q] holds of the memory, and every one that ends with an exception ends with an exception of [X]. *)
Definition all_runs_e (c : ecmd) (m : mem) (Q : mem -> Prop) (X : exn -> Prop) : Prop :=
  (forall n m' c', eexec n m c m' c' -> ~ eracing c' /\ (c' = ERet -> Q m') /\ (forall e, c' = ERaise e -> X e) /\
     exists n' m'' c'', eexec n' m' c' m'' c'' /\ edone c'') /\
  exists bound, forall n m' c', eexec n m c m' c' -> n <= bound.

(** * Bounds that hold whatever is read *)

(** All accesses are in [A]. *)
Fixpoint eacc (c : ecmd) (A : kind * L -> Prop) : Prop :=
  match c with
  | ERet | ERaise _ => True
  | ERd l k => A (KR, l) /\ forall v, eacc (k v) A
  | EWr l v k => A (KW, l) /\ eacc k A
  | EAt l v k => A (KA, l) /\ eacc k A
  | EFork a b k => eacc a A /\ eacc b A /\ eacc k A
  end.

Definition eapart (A B : kind * L -> Prop) : Prop := forall w w' l, A (w, l) -> B (w', l) -> clash w w' = false.

(** Concurrent tasks never clash. *)
Fixpoint essafe (c : ecmd) : Prop :=
  match c with
  | ERet | ERaise _ => True
  | ERd l k => forall v, essafe (k v)
  | EWr l v k => essafe k
  | EAt l v k => essafe k
  | EFork a b k => essafe a /\ essafe b /\ essafe k /\ exists A B, eacc a A /\ eacc b B /\ eapart A B
  end.

(** All exceptions are in [X]. *)
Fixpoint eexns (c : ecmd) (X : exn -> Prop) : Prop :=
  match c with
  | ERet => True
  | ERaise e => X e
  | ERd l k => forall v, eexns (k v) X
  | EWr l v k => eexns k X
  | EAt l v k => eexns k X
  | EFork a b k => eexns a X /\ eexns b X /\ eexns k X
  end.

(** Some task fails. *)
Fixpoint emust (c : ecmd) : Prop :=
  match c with
  | ERet => False
  | ERaise e => True
  | ERd l k => forall v, emust (k v)
  | EWr l v k => emust k
  | EAt l v k => emust k
  | EFork a b k => emust a \/ emust b \/ emust k
  end.

(** At most [n] steps. *)
Fixpoint ebound (c : ecmd) (n : nat) : Prop :=
  match c with
  | ERet | ERaise _ => True
  | ERd l k => exists n', n' < n /\ forall v, ebound (k v) n'
  | EWr l v k => exists n', n' < n /\ ebound k n'
  | EAt l v k => exists n', n' < n /\ ebound k n'
  | EFork a b k => exists na nb nk, na + nb + nk < n /\ ebound a na /\ ebound b nb /\ ebound k nk
  end.

Lemma eacc_impl : forall c (A B : kind * L -> Prop), (forall x, A x -> B x) -> eacc c A -> eacc c B.
Proof. clear op eqL. induction c as [|e|l k IH|l v k IH|l v k IH|a IHa b IHb k IHk]; intros A B H; cbn [eacc]; intuition eauto. Qed.

Lemma ebound_le : forall c n n', ebound c n -> n <= n' -> ebound c n'.
Proof.
  destruct c as [|e|l k|l v k|l v k|a b k]; intros n n' H Hn; cbn [ebound] in *; auto.
  - destruct H as (x & Hx & H). exists x. split; [lia|exact H].
  - destruct H as (x & Hx & H). exists x. split; [lia|exact H].
  - destruct H as (x & Hx & H). exists x. split; [lia|exact H].
  - destruct H as (x & y & z & Hx & H). exists x, y, z. split; [lia|exact H].
Qed.

Lemma estep_acc : forall m c m' c' A, estep m c m' c' -> eacc c A -> eacc c' A.
Proof. intros m c m' c' A H. induction H; cbn [eacc]; intuition. Qed.

Lemma estep_safe : forall m c m' c', estep m c m' c' -> essafe c -> essafe c'.
Proof.
  intros m c m' c' H. induction H; cbn [essafe]; auto; try tauto.
  - intros (Sa & Sb & Sk & A & B & Ha & Hb & Hab). split; [auto|]. split; [auto|]. split; [auto|]. exists A, B. split; [eapply estep_acc; eassumption|auto].
  - intros (Sa & Sb & Sk & A & B & Ha & Hb & Hab). split; [auto|]. split; [auto|]. split; [auto|]. exists A, B. split; [auto|]. split; [eapply estep_acc; eassumption|auto].
Qed.

Lemma estep_exns : forall m c m' c' X, estep m c m' c' -> eexns c X -> eexns c' X.
Proof. intros m c m' c' X H. induction H; cbn [eexns]; intuition. Qed.

Lemma estep_must : forall m c m' c', estep m c m' c' -> emust c -> emust c'.
Proof. intros m c m' c' H. induction H; cbn [emust]; intuition. Qed.

Lemma estep_bound : forall m c m' c', estep m c m' c' -> forall n, ebound c n -> exists n', n' < n /\ ebound c' n'.
Proof.
  intros m c m' c' H. induction H; intros n; cbn [ebound].
  - intros (n' & Hn & H). exists n'. auto.
  - intros (n' & Hn & H). exists n'. auto.
  - intros (n' & Hn & H). exists n'. auto.
  - intros (x & y & z & Hn & H1 & H2 & H3). destruct (IHestep _ H1) as (x' & Hx & H4). exists (n - 1). split; [lia|]. exists x', y, z. split; [lia|auto].
  - intros (x & y & z & Hn & H1 & H2 & H3). destruct (IHestep _ H2) as (y' & Hy & H4). exists (n - 1). split; [lia|]. exists x, y', z. split; [lia|auto].
  - intros (x & y & z & Hn & _ & _ & H3). exists z. split; [lia|exact H3].
  - intros (x & y & z & Hn & _). exists 0. split; [lia|exact I].
  - intros (x & y & z & Hn & _). exists 0. split; [lia|exact I].
Qed.

Lemma epending_acc : forall c w l A, epending c w l -> eacc c A -> A (w, l).
Proof. clear op eqL. intros c w l A H. induction H; cbn [eacc]; intuition. Qed.

Lemma essafe_not_racing : forall c, essafe c -> ~ eracing c.
Proof.
  intros c HS H. revert HS. induction H as [a b k w w' l H1 H2 Hw|a b k H IH|a b k H IH]; cbn [essafe]; intros (S1 & S2 & _ & A & B & Ha & Hb & Hab); auto.
  rewrite (Hab w w' l) in Hw; [discriminate|eapply epending_acc; eassumption|eapply epending_acc; eassumption].
Qed.

Lemma eprogress : forall c m, edone c \/ exists m' c', estep m c m' c'.
Proof.
  induction c as [|e|l k IH|l v k IH|l v k IH|a IHa b IHb k IHk]; intros m.
  - left. now left.
  - left. right. now exists e.
  - right. eexists _, _. constructor.
  - right. eexists _, _. constructor.
  - right. eexists _, _. constructor.
  - right. destruct (IHa m) as [[->|[e ->]]|(m' & a' & H)]; [|eexists _, _; apply es_cancel_right|eexists _, _; apply es_left, H].
    destruct (IHb m) as [[->|[e ->]]|(m' & b' & H)]; [eexists _, _; apply es_join|eexists _, _; apply es_cancel_left|eexists _, _; apply es_right, H].
Qed.

Lemma econtinue : forall n c m, ebound c n -> exists n' m'' c'', eexec n' m c m'' c'' /\ edone c''.
Proof.
  induction n as [|n IH]; intros c m Hn; (destruct (eprogress c m) as [D|(m2 & c2 & H2)]; [exists 0, m, c; split; [constructor|exact D]|]);
    destruct (estep_bound _ _ _ _ H2 _ Hn) as (n' & Hlt & Hn').
  - lia.
  - destruct (IH c2 m2 (ebound_le _ _ n Hn' ltac:(lia))) as (k & m3 & c3 & H3 & D). exists (S k), m3, c3. split; [econstructor; eassumption|exact D].
Qed.

(** Some task fails: no interleaving ends normally. *)
Lemma all_runs_must : forall c m X n, essafe c -> emust c -> eexns c X -> ebound c n -> all_runs_e c m (fun _ => False) X.
Proof.
  intros c m X n HS HM HX HB.
  assert (K : forall k m c m' c', eexec k m c m' c' -> essafe c -> emust c -> eexns c X -> forall n, ebound c n -> essafe c' /\ emust c' /\ eexns c' X /\ exists n', k + n' <= n /\ ebound c' n').
  { clear. intros k m c m' c' H. induction H as [m c|k m c m1 c1 m2 c2 H1 H2 IH]; intros HS HM HX n HB.
    - split; [exact HS|]. split; [exact HM|]. split; [exact HX|]. exists n. split; [lia|exact HB].
    - destruct (estep_bound _ _ _ _ H1 _ HB) as (n1 & Hn1 & HB1).
      destruct (IH (estep_safe _ _ _ _ H1 HS) (estep_must _ _ _ _ H1 HM) (estep_exns _ _ _ _ _ H1 HX) _ HB1) as (J1 & J2 & J3 & n' & Hn' & J4).
      split; [exact J1|]. split; [exact J2|]. split; [exact J3|]. exists n'. split; [lia|exact J4]. }
  split.
  - intros k m' c' H. destruct (K _ _ _ _ _ H HS HM HX n HB) as (J1 & J2 & J3 & n' & _ & J4).
    split; [now apply essafe_not_racing|]. split; [intros ->; exact J2|]. split; [intros e ->; exact J3|]. eapply econtinue, J4.
  - exists n. intros k m' c' H. destruct (K _ _ _ _ _ H HS HM HX n HB) as (_ & _ & _ & n' & Hn & _). lia.
Qed.

(** * Sequences and loops *)
Fixpoint eapp (c d : ecmd) : ecmd :=
  match c with
  | ERet => d
  | ERaise e => ERaise e
  | ERd l k => ERd l (fun v => eapp (k v) d)
  | EWr l v k => EWr l v (eapp k d)
  | EAt l v k => EAt l v (eapp k d)
  | EFork a b k => EFork a b (eapp k d)
  end.

Lemma eacc_app : forall c d A, eacc c A -> eacc d A -> eacc (eapp c d) A.
Proof. clear op eqL. induction c as [|e|l k IH|l v k IH|l v k IH|a IHa b IHb k IHk]; intros d A; cbn [eapp eacc]; intuition. Qed.
Lemma essafe_app : forall c d, essafe c -> essafe d -> essafe (eapp c d).
Proof. clear op eqL. induction c as [|e|l k IH|l v k IH|l v k IH|a IHa b IHb k IHk]; intros d; cbn [eapp essafe]; intuition. Qed.
Lemma eexns_app : forall c d X, eexns c X -> eexns d X -> eexns (eapp c d) X.
Proof. clear op eqL. induction c as [|e|l k IH|l v k IH|l v k IH|a IHa b IHb k IHk]; intros d X; cbn [eapp eexns]; intuition. Qed.
Lemma emust_app : forall c d, emust c \/ emust d -> emust (eapp c d).
Proof. clear op eqL. induction c as [|e|l k IH|l v k IH|l v k IH|a IHa b IHb k IHk]; intros d; cbn [eapp emust]; intuition. Qed.
Lemma ebound_app : forall c d n n', ebound c n -> ebound d n' -> ebound (eapp c d) (n + n').
Proof.
  induction c as [|e|l k IH|l v k IH|l v k IH|a IHa b IHb k IHk]; intros d n n'; cbn [eapp ebound]; auto.
  - intros _ H. eapply ebound_le; [exact H|lia].
  - intros (x & Hx & H) Hd. exists (x + n'). split; [lia|]. auto.
  - intros (x & Hx & H) Hd. exists (x + n'). split; [lia|]. auto.
  - intros (x & Hx & H) Hd. exists (x + n'). split; [lia|]. auto.
  - intros (x & y & z & Hx & H1 & H2 & H3) Hd. exists x, y, (z + n'). split; [lia|]. auto.
Qed.

Inductive epfor (body : nat -> ecmd) : nat -> nat -> ecmd -> Prop :=
| epf_chunk b e : b <= e -> epfor body b e (fold_right eapp ERet (map body (seq b (e - b))))
| epf_split b x e c1 c2 : epfor body b x c1 -> epfor body x e c2 -> epfor body b e (EFork c1 c2 ERet).

Lemma epfor_le : forall body b e q, epfor body b e q -> b <= e.
Proof. intros body b e q H. induction H; lia. Qed.

Lemma epfor_ok : forall body b e q (A : nat -> kind * L -> Prop) X, epfor body b e q ->
  (forall i, b <= i < e -> eacc (body i) (A i) /\ essafe (body i) /\ eexns (body i) X /\ exists n, ebound (body i) n) ->
  (forall i j, b <= i < e -> b <= j < e -> i <> j -> eapart (A i) (A j)) ->
  eacc q (fun x => exists i, b <= i < e /\ A i x) /\ essafe q /\ eexns q X /\ (exists n, ebound q n) /\ ((exists i, b <= i < e /\ emust (body i)) -> emust q).
Proof.
  intros body b e q A X H. induction H as [b e Hb|b x e c1 c2 H1 IH1 H2 IH2]; intros P1 P2.
  - remember (e - b) as k eqn:Ek. revert b Hb P1 P2 Ek. induction k as [|k IH]; intros b Hb P1 P2 Ek.
    { cbn. do 3 (split; [exact I|]). split; [now exists 0|]. intros (i & Hi & _). lia. }
    cbn [seq map fold_right]. destruct (P1 b ltac:(lia)) as (B1 & B2 & B3 & n & B4).
    destruct (IH (S b)) as (I1 & I2 & I3 & (n' & I4) & I5); [lia|intros; apply P1; lia|intros; apply P2; lia|lia|].
    split; [apply eacc_app; [eapply eacc_impl; [|exact B1]; intros y Hy; exists b; split; [lia|exact Hy]|eapply eacc_impl; [|exact I1]; intros y (i & Hi & Hy); exists i; split; [lia|exact Hy]]|].
    split; [now apply essafe_app|]. split; [now apply eexns_app|]. split; [eexists; apply ebound_app; eassumption|].
    intros (i & Hi & HM). apply emust_app. destruct (Nat.eq_dec i b) as [->|]; [now left|]. right. apply I5. exists i. split; [lia|exact HM].
  - pose proof (epfor_le _ _ _ _ H1). pose proof (epfor_le _ _ _ _ H2).
    destruct IH1 as (A1 & A2 & A3 & (n & A4) & A5); [intros; apply P1; lia|intros; apply P2; lia|].
    destruct IH2 as (B1 & B2 & B3 & (n' & B4) & B5); [intros; apply P1; lia|intros; apply P2; lia|].
    cbn [eacc essafe eexns emust].
    split. { split; [eapply eacc_impl; [|exact A1]|split; [eapply eacc_impl; [|exact B1]|exact I]]; intros y (i & Hi & Hy); exists i; (split; [lia|exact Hy]). }
    split. { split; [exact A2|]. split; [exact B2|]. split; [exact I|]. eexists _, _. split; [exact A1|]. split; [exact B1|].
      intros w w' l (i & Hi & Hy) (j & Hj & Hz). apply (P2 i j ltac:(lia) ltac:(lia) ltac:(lia) w w' l Hy Hz). }
    split; [auto|]. split. { exists (S (n + n')). exists n, n', 0. split; [lia|]. exact (conj A4 (conj B4 I)). }
    intros (i & Hi & HM). destruct (Nat.lt_ge_cases i x); [left; apply A5|right; left; apply B5]; exists i; (split; [lia|exact HM]).
Qed.

(** * Programs without exceptions *)

(** The same program in [ParBag]. *)
Inductive esim : cmd L V -> ecmd -> Prop :=
| si_ret : esim Ret ERet
| si_rd l k k' : (forall v, esim (k v) (k' v)) -> esim (Rd l k) (ERd l k')
| si_wr l v k k' : esim k k' -> esim (Wr l v k) (EWr l v k')
| si_at l v k k' : esim k k' -> esim (At l v k) (EAt l v k')
| si_fork a b k a' b' k' : esim a a' -> esim b b' -> esim k k' -> esim (Fork a b k) (EFork a' b' k').

Lemma esim_step : forall m y m' y', estep m y m' y' -> forall c, esim c y -> exists c', step L V eqL op m c m' c' /\ esim c' y'.
Proof.
  intros m y m' y' H. induction H; intros c Hc; inversion Hc; subst; clear Hc.
  - eexists. split; [constructor|auto].
  - eexists. split; [constructor|auto].
  - eexists. split; [constructor|auto].
  - edestruct IHestep as (c' & S1 & S2); [eassumption|]. eexists. split; [apply s_left, S1|now constructor].
  - edestruct IHestep as (c' & S1 & S2); [eassumption|]. eexists. split; [apply s_right, S1|now constructor].
  - repeat match goal with H : esim _ ERet |- _ => inversion H; subst; clear H end. eexists. split; [apply s_join|eassumption].
  - match goal with H : esim _ (ERaise _) |- _ => inversion H end.
  - match goal with H : esim _ (ERaise _) |- _ => inversion H end.
Qed.

Lemma esim_back : forall m c m' c', step L V eqL op m c m' c' -> forall y, esim c y -> exists y', estep m y m' y' /\ esim c' y'.
Proof.
  intros m c m' c' H. induction H; intros y Hy; inversion Hy; subst; clear Hy.
  - eexists. split; [constructor|auto].
  - eexists. split; [constructor|auto].
  - eexists. split; [constructor|auto].
  - edestruct IHstep as (y' & S1 & S2); [eassumption|]. eexists. split; [apply es_left, S1|now constructor].
  - edestruct IHstep as (y' & S1 & S2); [eassumption|]. eexists. split; [apply es_right, S1|now constructor].
  - repeat match goal with H : esim Ret _ |- _ => inversion H; subst; clear H end. eexists. split; [apply es_join|eassumption].
Qed.

Lemma esim_exec : forall n m y m' y', eexec n m y m' y' -> forall c, esim c y -> exists c', exec L V eqL op n m c m' c' /\ esim c' y'.
Proof.
  intros n m y m' y' H. induction H as [m y|n m y m1 y1 m2 y2 H1 H2 IH]; intros c Hc; [exists c; split; [constructor|exact Hc]|].
  destruct (esim_step _ _ _ _ H1 _ Hc) as (c1 & S1 & S2). destruct (IH _ S2) as (c2 & S3 & S4). exists c2. split; [econstructor; eassumption|exact S4].
Qed.
Lemma esim_exec_back : forall n m c m' c', exec L V eqL op n m c m' c' -> forall y, esim c y -> exists y', eexec n m y m' y' /\ esim c' y'.
Proof.
  intros n m y m' y' H. induction H as [m y|n m y m1 y1 m2 y2 H1 H2 IH]; intros c Hc; [exists c; split; [constructor|exact Hc]|].
  destruct (esim_back _ _ _ _ H1 _ Hc) as (c1 & S1 & S2). destruct (IH _ S2) as (c2 & S3 & S4). exists c2. split; [econstructor; eassumption|exact S4].
Qed.

Lemma esim_pending : forall y w l, epending y w l -> forall c, esim c y -> pending L V c w l.
Proof. intros y w l H. induction H; intros c Hc; inversion Hc; subst; clear Hc; [constructor|constructor|constructor|apply p_left; auto|apply p_right; auto]. Qed.
Lemma esim_racing : forall y, eracing y -> forall c, esim c y -> racing L V c.
Proof.
  intros y H. induction H; intros c Hc; inversion Hc; subst; clear Hc; [eapply r_now; [eapply esim_pending; [exact H|eassumption]|eapply esim_pending; [exact H0|eassumption]|assumption]|apply r_left; auto|apply r_right; auto].
Qed.

Lemma esim_runs : forall c y m Q, esim c y -> all_runs L V eqL op c m Q -> all_runs_e y m Q (fun _ => False).
Proof.
  intros c y m Q Hs [H [n Hn]]. split.
  - intros k m' y' E. destruct (esim_exec _ _ _ _ _ E _ Hs) as (c' & E' & S'). destruct (H _ _ _ E') as (H1 & H2 & n' & m'' & H3).
    split; [intros R; apply H1; eapply esim_racing; eassumption|]. split; [intros ->; inversion S'; subst; auto|]. split; [intros e ->; inversion S'|].
    destruct (esim_exec_back _ _ _ _ _ H3 _ S') as (y'' & E'' & S''). exists n', m'', y''. split; [exact E''|]. left. now inversion S''.
  - exists n. intros k m' y' E. destruct (esim_exec _ _ _ _ _ E _ Hs) as (c' & E' & _). eauto.
Qed.

Lemma esim_app : forall c d y z, esim c y -> esim d z -> esim (app L V c d) (eapp y z).
Proof. intros c d y z H Hd. induction H; cbn [app eapp]; try constructor; auto. Qed.

Lemma esim_pfor : forall body body' b e q, epfor body' b e q -> (forall i, b <= i < e -> esim (body i) (body' i)) -> exists q', pfor L V body b e q' /\ esim q' q.
Proof.
  intros body body' b e q H. induction H as [b e Hb|b x e c1 c2 H1 IH1 H2 IH2]; intros P.
  - eexists. split; [now constructor|]. remember (e - b) as k eqn:Ek. revert b Hb P Ek. induction k as [|k IH]; intros b Hb P Ek; [constructor|].
    cbn [seq map fold_right]. apply esim_app; [apply P; lia|]. apply IH; [lia|intros; apply P; lia|lia].
  - pose proof (epfor_le _ _ _ _ H1). pose proof (epfor_le _ _ _ _ H2).
    destruct IH1 as (q1 & A1 & A2); [intros; apply P; lia|]. destruct IH2 as (q2 & B1 & B2); [intros; apply P; lia|].
    eexists. split; [eapply pf_split; eassumption|]. constructor; auto. constructor.
Qed.

End Lang.

Arguments ERet {L V}. Arguments ERaise {L V}. Arguments ERd {L V}. Arguments EWr {L V}. Arguments EAt {L V}. Arguments EFork {L V}.
