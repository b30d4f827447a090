(** Vocabulary of the statements about tree objects. Nothing here models code. *)
From Coq Require Import List Arith ZArith NArith Bool Permutation.
From Verif Require Import Base Config Morton Build TreeSpec FOps Disc NodeProps Tree.
Import ListNotations.
Local Open Scope nat_scope.

(** [p] lists 0, ..., n-1 in some order. *)
Definition is_perm (p : list nat) (n : nat) : Prop := Permutation p (seq 0 n).

(** [q] is the inverse of the permutation [p]. *)
Definition inverse (p q : list nat) : Prop :=
  length q = length p /\ forall i k, nth_error p i = Some k -> nth_error q k = Some i.

(** Element [i] of [new] is element [p_i] of [old]. *)
Definition permuted {A} (p : list nat) (old new : list A) : Prop :=
  length new = length p /\ forall i k, nth_error p i = Some k -> nth_error new i = nth_error old k /\ k < length old.

(** [xs] is row [i] of the table with the given columns. *)
Definition row {A} (cols : list (list A)) (i : nat) (xs : list A) : Prop :=
  Forall2 (fun col x => nth_error col i = Some x) cols xs.

Definition env_ok (E : env) : Prop :=
  0 < e_ncrit E /\ forall bw, e_simd E = Some bw -> 0 < bw.

Section Inv.

Context {F : Type}.
Variable O : fops F.
Variable E : env.
Let c := e_cfg E.

(** The invariants of a tree (cf. the checks of the destructor, tree.hpp 1828-1881, except that the
    coordinates are inside the box, see C08). *)
Record tree_inv (t : @tree F) : Prop := {
  (* all the arrays have the same size *)
  inv_ncols : length (t_parts t) = dim c + 1;
  inv_cols : Forall (fun col => length col = length (t_codes t)) (t_parts t);
  (* the codes are sorted and are those of the particles *)
  inv_sorted : sorted_codes (t_codes t);
  inv_codes : forall i x, nth_error (t_codes t) i = Some x ->
    exists xs, row (firstn (dim c) (t_parts t)) i xs /\
      particle_code O c xs (fdiv O (fofZ O 1%Z) (t_box t)) = Ok x;
  (* the permutations *)
  inv_perm : is_perm (t_perm t) (length (t_codes t));
  inv_last : is_perm (t_last t) (length (t_codes t));
  inv_inv : inverse (t_perm t) (t_inv t);
  (* the nodes are those of the sequential or parallel construction for the current data *)
  inv_nodes : forall split st sc, reorders st -> reorders sc ->
    build_tree c (t_codes t) (t_mln t) (t_ncrit t) (cnp O E (t_parts t) (t_box t)) split st sc
    = Ok (t_nodes t, t_crit t);
  (* parameters *)
  inv_mln : 0 < t_mln t;
  inv_ncrit : 0 < t_ncrit t;
  inv_box : t_box t = fofZ O 0%Z \/
    ffin O (t_box t) = true /\ (t_ded t = false -> flt O (t_box t) (fofZ O 0%Z) = false)
}.

(** The device views refer to the current data. *)
Definition view_fresh (t : @tree F) : Prop :=
  t_view t = if e_rocm E then Some (t_parts t, t_codes t, t_nodes t) else None.

(** [view] are the columns of [t] in the original order. *)
Definition original_order (t : @tree F) (view : list (list F)) : Prop :=
  Forall2 (permuted (t_inv t)) (t_parts t) view.

(** Two trees with the same data (all the members but the device views). *)
Definition same_data (t u : @tree F) : Prop :=
  t_box t = t_box u /\ t_ded t = t_ded u /\ t_mln t = t_mln u /\ t_ncrit t = t_ncrit u /\
  t_parts t = t_parts u /\ t_codes t = t_codes u /\ t_perm t = t_perm u /\ t_last t = t_last u /\
  t_inv t = t_inv u /\ t_nodes t = t_nodes u /\ t_crit t = t_crit u.

(** What the type system and the library components guarantee about an operation: the constructor
    is given NDim coordinate arrays and the masses, the sort sorts, the parallel algorithms cover
    their ranges. *)
Definition op_ok (o : @op F) : Prop :=
  match o with
  | OConstruct s _ inp _ _ => sched_ok s /\
      match inp with RangesMoved cols | Ranges cols | Iterators cols _ => length cols = dim c + 1 end
  | OUpdateParticles _ s _ _ => sched_ok s
  | _ => True
  end.

(** What the caller must respect: the objects exist ([n] of them do), iterators are valid for the
    given number of elements, functors have no undefined behaviour and cannot resize. *)
Definition op_safe (n : nat) (o : @op F) : Prop :=
  match o with
  | ODefault => True
  | OConstruct _ _ (Iterators cols np) _ _ => length cols = dim c + 1 /\ Forall (fun col => np <= length col) cols
  | OConstruct _ _ _ _ _ => True
  | OCopy i | OMove i | OClear i => i < n
  | OAssign i j _ | OMoveAssign i j => i < n /\ j < n
  | OUpdateParticles i _ _ f => i < n /\ (forall v, f v <> UB) /\ (forall v v', f v = Ok v' -> shape v' = shape v)
  | OUpdateMasses i _ f => i < n /\ (forall v, f v <> UB) /\ (forall v v', f v = Ok v' -> length v' = length v)
  end.

(** The particles given to a constructor. *)
Definition given (inp : @input F) : list (list F) :=
  match inp with RangesMoved cols | Ranges cols => cols | Iterators cols n => map (firstn n) cols end.

(** Sets of objects that exist after some sequence of operations (including failing ones). *)
Definition reachable_world (w : list (@tree F)) : Prop :=
  exists ops, Forall op_ok ops /\ run O E ops [] = Ok w.

(** Trees that exist after some sequence of operations (including failing ones). *)
Definition reachable (t : @tree F) : Prop :=
  exists ops w, Forall op_ok ops /\ run O E ops [] = Ok w /\ In t w.

(** The objects an operation may modify. *)
Definition touches (o : @op F) (k : nat) : Prop :=
  match o with
  | ODefault | OConstruct _ _ _ _ _ | OCopy _ => False
  | OMove i | OClear i | OUpdateParticles i _ _ _ | OUpdateMasses i _ _ => k = i
  | OAssign i j _ => k = i /\ i <> j
  | OMoveAssign i j => (k = i \/ k = j) /\ i <> j
  end.

(** One update of a tree. *)
Inductive upd :=
| UP (s : @sched F) (ordered : bool) (f : list (list F) -> outcome (list (list F)))
| UM (ordered : bool) (f : list F -> outcome (list F)).
Definition upd_ok (u : upd) : Prop := match u with UP s _ _ => sched_ok s | UM _ _ => True end.
Definition apply_upd (u : upd) (t : @tree F) : outcome (@tree F * option exn) :=
  match u with
  | UP s ord f => update_particles O E s ord f t
  | UM ord f => update_masses O E ord f t
  end.

(** A sequence of successful updates; [perms] are the permutations of the tree before
    each of them. *)
Inductive updates : @tree F -> list upd -> @tree F -> list (list nat) -> Prop :=
| updates_nil : forall t, updates t [] t []
| updates_cons : forall u t t1 us t' perms, upd_ok u -> apply_upd u t = Ok (t1, None) -> updates t1 us t' perms ->
    updates t (u :: us) t' (t_perm t :: perms).

(** The same update on a plain table of particles in the original order. An ordered functor sees the
    table, an unordered one sees the table rearranged by [perm]. *)
Definition ref_upd (perm : list nat) (u : upd) (a a' : list (list F)) : Prop :=
  match u with
  | UP _ true f => f a = Ok a'
  | UP _ false f => exists v v', Forall2 (permuted perm) a v /\ f v = Ok v' /\ Forall2 (permuted perm) a' v'
  | UM true f => exists m m', nth_error a (dim c) = Some m /\ f m = Ok m' /\ a' = set_nth a (dim c) m'
  | UM false f => exists m v v' m', nth_error a (dim c) = Some m /\ permuted perm m v /\ f v = Ok v' /\
                    permuted perm m' v' /\ a' = set_nth a (dim c) m'
  end.
Fixpoint ref_hist (perms : list (list nat)) (us : list upd) (a a' : list (list F)) : Prop :=
  match perms, us with
  | [], [] => a' = a
  | p :: perms, u :: us => exists a1, ref_upd p u a a1 /\ ref_hist perms us a1 a'
  | _, _ => False
  end.

End Inv.
