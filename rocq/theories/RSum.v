(** Finite sums of real numbers. Nothing here models code. *)
From Coq Require Import List Arith Reals Lra Lia Permutation.
Import ListNotations.
Local Open Scope R_scope.

(** Sum of [f a] over the elements of a list. *)
Definition rsum {A} (f : A -> R) (l : list A) : R := fold_right (fun a s => f a + s) 0 l.

Lemma rsum_nil : forall A (f : A -> R), rsum f [] = 0.
Proof. reflexivity. Qed.
Lemma rsum_cons : forall A (f : A -> R) a l, rsum f (a :: l) = f a + rsum f l.
Proof. reflexivity. Qed.
Lemma rsum_app : forall A (f : A -> R) l1 l2, rsum f (l1 ++ l2) = rsum f l1 + rsum f l2.
Proof. intros A f l1 l2. induction l1 as [|a l1 IH]; [rewrite rsum_nil; simpl; lra|]. simpl app. rewrite !rsum_cons, IH. lra. Qed.
Lemma rsum_ext : forall A (f g : A -> R) l, (forall a, In a l -> f a = g a) -> rsum f l = rsum g l.
Proof.
  intros A f g l H. induction l as [|a l IH]; [reflexivity|]. rewrite !rsum_cons, IH, (H a); [reflexivity|now left|].
  intros b Hb. apply H. now right.
Qed.
Lemma rsum_map : forall A B (g : A -> B) (f : B -> R) l, rsum f (map g l) = rsum (fun a => f (g a)) l.
Proof. intros A B g f l. induction l as [|a l IH]; [reflexivity|]. simpl map. now rewrite !rsum_cons, IH. Qed.
Lemma rsum_scal : forall A k (f : A -> R) l, rsum (fun a => k * f a) l = k * rsum f l.
Proof. intros A k f l. induction l as [|a l IH]; [rewrite !rsum_nil; lra|]. rewrite !rsum_cons, IH. lra. Qed.
Lemma rsum_plus : forall A (f g : A -> R) l, rsum (fun a => f a + g a) l = rsum f l + rsum g l.
Proof. intros A f g l. induction l as [|a l IH]; [rewrite !rsum_nil; lra|]. rewrite !rsum_cons, IH. lra. Qed.
Lemma rsum_minus : forall A (f g : A -> R) l, rsum (fun a => f a - g a) l = rsum f l - rsum g l.
Proof. intros A f g l. induction l as [|a l IH]; [rewrite !rsum_nil; lra|]. rewrite !rsum_cons, IH. lra. Qed.
Lemma rsum_0 : forall A (l : list A), rsum (fun _ => 0) l = 0.
Proof. intros A l. induction l as [|a l IH]; [reflexivity|]. rewrite rsum_cons, IH. lra. Qed.
Lemma rsum_perm : forall A (f : A -> R) l1 l2, Permutation l1 l2 -> rsum f l1 = rsum f l2.
Proof. intros A f l1 l2 H. induction H; rewrite ?rsum_cons; try lra; reflexivity. Qed.
Lemma rsum_le : forall A (f g : A -> R) l, (forall a, In a l -> f a <= g a) -> rsum f l <= rsum g l.
Proof.
  intros A f g l H. induction l as [|a l IH]; [rewrite !rsum_nil; lra|]. rewrite !rsum_cons.
  assert (f a <= g a) by (apply H; now left). assert (rsum f l <= rsum g l) by (apply IH; intros b Hb; apply H; now right). lra.
Qed.
Lemma rsum_nonneg : forall A (f : A -> R) l, (forall a, In a l -> 0 <= f a) -> 0 <= rsum f l.
Proof. intros A f l H. rewrite <- (rsum_0 A l). now apply rsum_le. Qed.
Lemma rsum_const : forall A k (l : list A), rsum (fun _ => k) l = INR (length l) * k.
Proof.
  intros A k l. induction l as [|a l IH]; [rewrite rsum_nil; simpl; lra|].
  rewrite rsum_cons, IH. cbn [length]. rewrite S_INR. lra.
Qed.
Lemma rsum_abs : forall A (f : A -> R) l, Rabs (rsum f l) <= rsum (fun a => Rabs (f a)) l.
Proof.
  intros A f l. induction l as [|a l IH]; [rewrite !rsum_nil, Rabs_R0; lra|]. rewrite !rsum_cons.
  pose proof (Rabs_triang (f a) (rsum f l)). lra.
Qed.
Lemma rsum_flat_map : forall A B (g : A -> list B) (f : B -> R) l, rsum f (flat_map g l) = rsum (fun a => rsum f (g a)) l.
Proof. intros A B g f l. induction l as [|a l IH]; [reflexivity|]. simpl flat_map. now rewrite rsum_app, rsum_cons, IH. Qed.
Lemma rsum_swap : forall A B (f : A -> B -> R) la lb,
  rsum (fun a => rsum (f a) lb) la = rsum (fun b => rsum (fun a => f a b) la) lb.
Proof.
  intros A B f la lb. induction la as [|a la IH].
  - rewrite rsum_nil. symmetry. rewrite (rsum_ext _ _ (fun _ => 0)); [apply rsum_0|reflexivity].
  - rewrite rsum_cons, IH, <- rsum_plus. apply rsum_ext. intros b _. now rewrite rsum_cons.
Qed.

Lemma fold_left_Rplus : forall A (f : A -> R) l s, fold_left (fun s a => s + f a) l s = s + rsum f l.
Proof. intros A f l. induction l as [|a l IH]; intros s; [rewrite rsum_nil; simpl; lra|]. simpl fold_left. rewrite IH, rsum_cons. lra. Qed.
