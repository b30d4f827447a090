(** Vocabulary of the statements about trees. Nothing here models code. *)
From Coq Require Import List Arith NArith Bool Permutation.
From Verif Require Import Morton.
Import ListNotations.
Local Open Scope nat_scope.

(** Sorted in non-decreasing order. *)
Definition sorted_codes (codes : list N) : Prop :=
  forall i j x y, i <= j -> nth_error codes i = Some x -> nth_error codes j = Some y -> (x <= y)%N.

(** The codes a tree is built on: sorted, and at most [dim * cbits] bits long. *)
Definition valid_codes (c : cfg) (codes : list N) : Prop :=
  sorted_codes codes /\ Forall (fun x => (x < 2 ^ (dimN c * cbitsc c))%N) codes.

(** The cell of level [l] that contains the code [x] is identified by the leading [dim * l] bits of
    the code. *)
Definition prefix (c : cfg) (l x : N) : N := (x / 2 ^ (dimN c * (cbitsc c - l)))%N.

(** Number of codes in the cell [p] of level [l]. *)
Definition population (c : cfg) (codes : list N) (l p : N) : nat :=
  length (filter (fun x => (prefix c l x =? p)%N) codes).

(** The cell of level [m <= l] that contains the cell [p] of level [l]. *)
Definition ancestor (c : cfg) (m l p : N) : N := (p / 2 ^ (dimN c * (l - m)))%N.

(** Consecutive, non-empty ranges covering [b, e) without gaps and overlaps. *)
Fixpoint tiles (b : nat) (l : list (nat * nat)) (e : nat) : Prop :=
  match l with
  | [] => b = e
  | (x, y) :: t => x = b /\ x < y /\ tiles y t e
  end.

(** A reordering. *)
Definition reorders {A} (s : list A -> list A) : Prop := forall l, Permutation (s l) l.
