(** Outcome monad, bounds-checked arrays and small list facts shared by the model. *)
From Coq Require Import List Arith NArith ZArith Lia Bool.
Import ListNotations.

(** C++ exceptions thrown by the modelled code (the message is dropped). [UserExn] stands for
    whatever a user callback throws. *)
Inductive exn :=
| InvalidArgument
| DomainError
| OverflowError
| BadAlloc
| BadNumericCast
| UserExn (n : nat).

(** Result of running a piece of C++ code: a value, an exception, or undefined behaviour. *)
Inductive outcome (A : Type) :=
| Ok (a : A)
| Throw (e : exn)
| UB.
Arguments Ok {A} a.
Arguments Throw {A} e.
Arguments UB {A}.

Definition bind {A B} (x : outcome A) (f : A -> outcome B) : outcome B :=
  match x with
  | Ok a => f a
  | Throw e => Throw e
  | UB => UB
  end.

Notation "'do' x <- e ; f" := (bind e (fun x => f))
  (at level 200, x pattern, e at level 100, f at level 200, right associativity).

Definition is_ok {A} (x : outcome A) : bool :=
  match x with Ok _ => true | _ => false end.

(** [v[i]]: reading outside of the array is undefined behaviour. *)
Definition rd {A} (l : list A) (i : nat) : outcome A :=
  match nth_error l i with
  | Some a => Ok a
  | None => UB
  end.

Fixpoint set_nth {A} (l : list A) (i : nat) (a : A) : list A :=
  match l, i with
  | [], _ => []
  | _ :: t, O => a :: t
  | h :: t, S i' => h :: set_nth t i' a
  end.

(** [v[i] = a]: writing outside of the array is undefined behaviour. *)
Definition wr {A} (l : list A) (i : nat) (a : A) : outcome (list A) :=
  if i <? length l then Ok (set_nth l i a) else UB.

Fixpoint mapM {A B} (f : A -> outcome B) (l : list A) : outcome (list B) :=
  match l with
  | [] => Ok []
  | a :: t => do b <- f a; do bs <- mapM f t; Ok (b :: bs)
  end.

Fixpoint foldM {A S} (f : S -> A -> outcome S) (l : list A) (s : S) : outcome S :=
  match l with
  | [] => Ok s
  | a :: t => do s' <- f s a; foldM f t s'
  end.

(** Elements [b, e) of a list. *)
Definition slice {A} (l : list A) (b e : nat) : list A := firstn (e - b) (skipn b l).

(** * Facts *)

Lemma bind_Ok : forall {A B} (x : outcome A) (f : A -> outcome B) b,
  bind x f = Ok b -> exists a, x = Ok a /\ f a = Ok b.
Proof. intros A B [a|e|] f b H; simpl in H; try discriminate; eauto. Qed.

Lemma bind_Throw : forall {A B} (x : outcome A) (f : A -> outcome B) e,
  bind x f = Throw e -> x = Throw e \/ exists a, x = Ok a /\ f a = Throw e.
Proof. intros A B [a|e0|] f e H; simpl in H; try discriminate; eauto. left; congruence. Qed.

Lemma bind_UB : forall {A B} (x : outcome A) (f : A -> outcome B),
  bind x f = UB -> x = UB \/ exists a, x = Ok a /\ f a = UB.
Proof. intros A B [a|e0|] f H; simpl in H; try discriminate; eauto. Qed.

Lemma rd_Ok : forall {A} (l : list A) i a, rd l i = Ok a <-> nth_error l i = Some a.
Proof. intros; unfold rd; destruct (nth_error l i); split; congruence. Qed.

Lemma rd_lt : forall {A} (l : list A) i, i < length l -> exists a, rd l i = Ok a.
Proof.
  intros A l i H. unfold rd. destruct (nth_error l i) eqn:E; eauto.
  apply nth_error_None in E. lia.
Qed.

Lemma rd_UB : forall {A} (l : list A) i, rd l i = UB <-> length l <= i.
Proof.
  intros A l i. unfold rd. destruct (nth_error l i) eqn:E; split; intros H; try congruence.
  - assert (i < length l) by (apply nth_error_Some; congruence). lia.
  - now apply nth_error_None.
Qed.

Lemma set_nth_length : forall {A} (l : list A) i a, length (set_nth l i a) = length l.
Proof. induction l as [|h t IH]; destruct i; simpl; auto. Qed.

Lemma nth_error_set_nth : forall {A} (l : list A) i j a,
  nth_error (set_nth l i a) j =
  if (i =? j) && (i <? length l) then Some a else nth_error l j.
Proof.
  induction l as [|h t IH]; intros i j a.
  - simpl. destruct i, j; simpl; rewrite ?andb_false_r; reflexivity.
  - destruct i, j; simpl; try reflexivity.
    rewrite IH. reflexivity.
Qed.

Lemma nth_error_set_nth_same : forall {A} (l : list A) i a,
  i < length l -> nth_error (set_nth l i a) i = Some a.
Proof.
  intros. rewrite nth_error_set_nth, Nat.eqb_refl.
  apply Nat.ltb_lt in H. now rewrite H.
Qed.

Lemma nth_error_set_nth_other : forall {A} (l : list A) i j a,
  i <> j -> nth_error (set_nth l i a) j = nth_error l j.
Proof.
  intros. rewrite nth_error_set_nth. apply Nat.eqb_neq in H. now rewrite H.
Qed.

Lemma set_nth_app_r : forall {A} (l1 l2 : list A) i a,
  length l1 <= i -> set_nth (l1 ++ l2) i a = l1 ++ set_nth l2 (i - length l1) a.
Proof.
  induction l1 as [|h t IH]; intros l2 i a Hi; simpl.
  - now rewrite Nat.sub_0_r.
  - destruct i; simpl in *; [lia|]. f_equal. apply IH. lia.
Qed.

Lemma set_nth_app_mid : forall {A} (l1 l2 : list A) x a,
  set_nth (l1 ++ x :: l2) (length l1) a = l1 ++ a :: l2.
Proof. intros. rewrite set_nth_app_r by lia. now rewrite Nat.sub_diag. Qed.

Lemma nth_error_app_mid : forall {A} (l1 l2 : list A) x,
  nth_error (l1 ++ x :: l2) (length l1) = Some x.
Proof. intros. rewrite nth_error_app2 by lia. now rewrite Nat.sub_diag. Qed.

Lemma list_ext : forall {A} (l1 l2 : list A),
  (forall i, nth_error l1 i = nth_error l2 i) -> l1 = l2.
Proof.
  induction l1 as [|h t IH]; intros [|h2 t2] H.
  - reflexivity.
  - specialize (H 0). discriminate.
  - specialize (H 0). discriminate.
  - f_equal.
    + specialize (H 0). simpl in H. congruence.
    + apply IH. intros i. apply (H (S i)).
Qed.

Lemma mapM_Ok : forall {A B} (f : A -> outcome B) l l',
  mapM f l = Ok l' <->
  length l' = length l /\
  (forall i a, nth_error l i = Some a -> exists b, nth_error l' i = Some b /\ f a = Ok b).
Proof.
  induction l as [|a t IH]; intros l'; simpl.
  - split.
    + intros H; injection H as <-. split; [reflexivity|]. intros [|i] a; discriminate.
    + intros [H _]. destruct l'; [reflexivity|discriminate].
  - split.
    + intros H. apply bind_Ok in H. destruct H as [b [Hb H]].
      apply bind_Ok in H. destruct H as [bs [Hbs H]]. injection H as <-.
      apply IH in Hbs. destruct Hbs as [Hl Hn]. split; [simpl; lia|].
      intros [|i] a' Ha; simpl in *.
      * injection Ha as <-. eauto.
      * eauto.
    + intros [Hl Hn]. destruct l' as [|b bs]; [discriminate|].
      destruct (Hn 0 a eq_refl) as [b0 [Hb0 Hf]]. simpl in Hb0. injection Hb0 as <-.
      rewrite Hf. simpl.
      assert (Hm : mapM f t = Ok bs).
      { apply IH. split; [simpl in Hl; lia|]. intros i a' Ha. exact (Hn (S i) a' Ha). }
      now rewrite Hm.
Qed.

Lemma mapM_map : forall {A B} (f : A -> outcome B) (g : A -> B) l,
  (forall a, In a l -> f a = Ok (g a)) -> mapM f l = Ok (map g l).
Proof.
  induction l as [|a t IH]; intros H; simpl; [reflexivity|].
  rewrite H by (left; reflexivity). simpl. rewrite IH; [reflexivity|].
  intros; apply H; now right.
Qed.

Lemma slice_length : forall {A} (l : list A) b e,
  e <= length l -> length (slice l b e) = e - b.
Proof.
  intros. unfold slice. rewrite firstn_length, skipn_length. lia.
Qed.

Lemma nth_error_skipn : forall {A} (l : list A) n i,
  nth_error (skipn n l) i = nth_error l (n + i).
Proof.
  induction l as [|h t IH]; intros [|n] i; simpl; try reflexivity.
  - destruct i; reflexivity.
  - apply IH.
Qed.

Lemma nth_error_firstn : forall {A} (l : list A) n i,
  nth_error (firstn n l) i = if i <? n then nth_error l i else None.
Proof.
  induction l as [|h t IH]; intros [|n] [|i]; simpl; try reflexivity.
  - destruct (S i <? S n); reflexivity.
  - rewrite IH. reflexivity.
Qed.

Lemma nth_error_slice : forall {A} (l : list A) b e i,
  nth_error (slice l b e) i = if i <? e - b then nth_error l (b + i) else None.
Proof.
  intros. unfold slice. rewrite nth_error_firstn, nth_error_skipn. reflexivity.
Qed.

Lemma rd_app_mid : forall {A} (l1 l2 : list A) x, rd (l1 ++ x :: l2) (length l1) = Ok x.
Proof. intros. unfold rd. now rewrite nth_error_app_mid. Qed.

Lemma wr_app_mid : forall {A} (l1 l2 : list A) x a,
  wr (l1 ++ x :: l2) (length l1) a = Ok (l1 ++ a :: l2).
Proof.
  intros. unfold wr. rewrite app_length. simpl length.
  replace (length l1 <? length l1 + S (length l2)) with true by (symmetry; apply Nat.ltb_lt; lia).
  now rewrite set_nth_app_mid.
Qed.

Lemma nth_error_lt : forall {A} (l : list A) i a, nth_error l i = Some a -> i < length l.
Proof. intros A l i a H. apply nth_error_Some. congruence. Qed.
