(** What the force functions leave in their output, also when they throw (tree.hpp 2872-3022, 3293-3497): the overloads for iterators, vectors and initializer
    lists, and failures to allocate memory. Without support for accelerators. A result is the contents of the output ranges and the outcome of the call. *)
From Coq Require Import List Arith NArith ZArith Bool.
From Verif Require Import Base Config Morton Build FOps NodeProps Tree Kernels Force Kw.
Import ListNotations.
Local Open Scope nat_scope.

(** What does not depend on the program: the order in which the critical nodes are processed, whether the output vector [j] and the temporary vectors of a
    critical node (tree.hpp 2950-2971) can be grown, and whether a critical node is still processed after a failure in another one (tree.hpp 2922: TBB cancels
    the tasks that have not started, and rethrows the first exception). *)
Record fsched := mkFS {
  f_order : list cnode -> list cnode;
  f_resize : nat -> bool;
  f_alloc : cnode -> bool;
  f_after : cnode -> bool
}.

(** The output of a call: iterators (tree.hpp 3413-3418 and similar), vectors (3406-3411), or a list of iterators (3419-3423). Iterators come with the
    values that follow them. *)
Inductive dest F := DIters (out : list (list F)) | DVectors (out : list (list F)) | DList (out : list (list F)).
Arguments DIters {F} out.
Arguments DVectors {F} out.
Arguments DList {F} out.

Section Out.

Context {F : Type}.
Variable O : fops F.
Context {D : Type}.
Variable OD : fops D.
Variable E : env.
Variable K : platform F.

Notation effect := (list (list F) * outcome unit)%type.

(** A check before which, and during which, nothing is written. *)
Definition guard {A} (x : outcome A) (out : list (list F)) (f : A -> effect) : effect :=
  match x with Ok a => f a | Throw e => (out, Throw e) | UB => (out, UB) end.

(** tree.hpp 2928-3008: one critical node. Everything that can throw does so before the results are written: the check of the size (2946), the temporary vectors
    (2950-2971), the conversion of the index, which is the same for all the columns (3006). *)
Definition node_fx (fs : fsched) (q : quant) (t : @tree F) (mac_value G eps2 pad : F) (dest : nat -> outcome nat) (out : list (list F)) (cn : cnode)
    : outcome (list (list F)) :=
  do _ <- pdata_size E (c_end cn - c_begin cn);
  if f_alloc fs cn then crit_run O E K q t mac_value G eps2 pad dest out cn else Throw BadAlloc.

(** tree.hpp 2922-3021, the parallel loop; [failed] is the first exception. *)
Fixpoint nodes_fx (fs : fsched) (run : list (list F) -> cnode -> outcome (list (list F))) (l : list cnode) (out : list (list F)) (failed : option exn) : effect :=
  match l with
  | [] => (out, match failed with Some e => Throw e | None => Ok tt end)
  | cn :: l' =>
    if match failed with Some _ => f_after fs cn | None => true end then
      match run out cn with
      | Ok out' => nodes_fx fs run l' out' failed
      | Throw e => nodes_fx fs run l' out (match failed with Some e' => Some e' | None => Some e end)
      | UB => (out, UB)
      end
    else nodes_fx fs run l' out failed
  end.

(** tree.hpp 2853-2920, 3258-3264. *)
Definition impl_fx (fs : fsched) (q : quant) (t : @tree F) (mac_value G eps2 : F) (split : list D) (dest : nat -> outcome nat) (out : list (list F)) : effect :=
  guard (check_split OD split) out (fun _ =>
  if 1 <? length split then (out, Throw InvalidArgument)
  else
    let pad := pad_coord O E (t_box t) mac_value in
    if negb (ffin O pad) then (out, Throw InvalidArgument)
    else nodes_fx fs (node_fx fs q t mac_value G eps2 pad dest) (f_order fs (t_crit t)) out None).

(** tree.hpp 3293-3334. *)
Definition iters_fx (fs : fsched) (ordered : bool) (q : quant) (t : @tree F) (theta G eps : F) (split : list D) (out : list (list F)) : effect :=
  guard (mac_value_of O E theta) out (fun mac_value =>
  guard (compute_eps2 O eps) out (fun eps2 =>
  guard (check_G_const O G) out (fun _ =>
  if ordered then guard (it_diff_check (nparts t)) out (fun _ => impl_fx fs q t mac_value G eps2 split (rd (t_perm t)) out)
  else impl_fx fs q t mac_value G eps2 split Ok out))).

(** tree.hpp 3342-3345, 3355: the vectors are resized one after the other. Only growing allocates; a vector that cannot grow is left as it is. *)
Fixpoint resize_fx (fs : fsched) (n j : nat) (out : list (list F)) : effect :=
  match out with
  | [] => ([], Ok tt)
  | col :: rest =>
    if (n <=? length col) || f_resize fs j then
      let (rest', r) := resize_fx fs n (S j) rest in (resize O n col :: rest', r)
    else (out, Throw BadAlloc)
  end.

(** tree.hpp 3336-3357. *)
Definition vectors_fx (fs : fsched) (ordered : bool) (q : quant) (t : @tree F) (theta G eps : F) (split : list D) (out : list (list F)) : effect :=
  match resize_fx fs (nparts t) 0 out with
  | (out', Ok _) => iters_fx fs ordered q t theta G eps split out'
  | (out', r) => (out', r)
  end.

(** tree.hpp 3405-3497. The number of iterators or vectors of an array is part of its type; [pots_u] and [pots_o] have no overload for lists. *)
Definition dest_compiles (q : quant) (d : dest F) : bool :=
  match d with
  | DIters out | DVectors out => length out =? nvecs_res E q
  | DList _ => match q with QPot => false | _ => true end
  end.

Definition force_call (fs : fsched) (ordered : bool) (q : quant) (t : @tree F) (theta : F) (args : list arg) (st : list (obj F D)) (d : dest F) : option effect :=
  if accpot_compiles args && dest_compiles q d then
    Some (match d with
          | DIters out => guard (accpot_args O args st) out (fun '(G, eps, split) => iters_fx fs ordered q t theta G eps split out)
          | DVectors out => guard (accpot_args O args st) out (fun '(G, eps, split) => vectors_fx fs ordered q t theta G eps split out)
          | DList out =>
            if length out =? nvecs_res E q                                   (* 3364 *)
            then guard (accpot_args O args st) out (fun '(G, eps, split) => iters_fx fs ordered q t theta G eps split out)
            else (out, Throw InvalidArgument)
          end)
  else None.

End Out.
