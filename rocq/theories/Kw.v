(** Keyword arguments: detail/igor.hpp, the generic constructor (tree.hpp 1530-1733) and the parsing of the keyword arguments of the force
    computation (tree.hpp 3375-3403). What the compiler decides is a Boolean; [None] is a call that does not compile. *)
From Coq Require Import List Arith NArith ZArith Lia Bool Permutation.
From Verif Require Import Base Config Morton Build FOps NodeProps Tree Kernels Force.
Import ListNotations.
Local Open Scope nat_scope.

(** Types of the arguments without references and qualifiers: [f_vector<F>], other ranges of values, random-access iterators, numbers, [std::vector<double>],
    and any other type. *)
Inductive base := BFvec | BRange (k : nat) | BIter (k : nat) | BNum (k : nat) | BSplit | BOther (k : nat).

(** The second parameter of a [tagged_container] (igor.hpp 42-47): always a reference, [T&&] if [ct_rv] and [T&] otherwise ([volatile] is left out). *)
Record ctype := mkCT { ct_base : base; ct_const : bool; ct_rv : bool }.

(** tree.hpp 600-626: the keywords. *)
Inductive tag := Coord (j : nat) | Masses | Nparts | BoxSize | MaxLeafN | Ncrit | KwG | KwEps | KwSplit.

(** An argument of a call: positional, or the result of [keyword = object] (igor.hpp 52-80). *)
Inductive arg := Unnamed | Named (tg : tag) (ty : ctype) (o : nat).

Definition tag_eqb (a b : tag) : bool :=
  match a, b with
  | Coord i, Coord j => i =? j
  | Masses, Masses | Nparts, Nparts | BoxSize, BoxSize | MaxLeafN, MaxLeafN | Ncrit, Ncrit | KwG, KwG | KwEps, KwEps | KwSplit, KwSplit => true
  | _, _ => false
  end.

Definition base_eqb (a b : base) : bool :=
  match a, b with
  | BFvec, BFvec | BSplit, BSplit => true
  | BRange i, BRange j | BIter i, BIter j | BNum i, BNum j | BOther i, BOther j => i =? j
  | _, _ => false
  end.

Definition ctype_eqb (a b : ctype) : bool :=
  base_eqb (ct_base a) (ct_base b) && Bool.eqb (ct_const a) (ct_const b) && Bool.eqb (ct_rv a) (ct_rv b).

(** igor.hpp 115-121, 139-143, [is_tagged_container] and [has]. *)
Definition is_tagged (tg : tag) (a : arg) : bool := match a with Unnamed => false | Named tg' _ _ => tag_eqb tg tg' end.
Definition has (args : list arg) (tg : tag) : bool := existsb (is_tagged tg) args.

(** igor.hpp 157-161, [has_unnamed_arguments]. *)
Definition has_unnamed (args : list arg) : bool := existsb (fun a => match a with Unnamed => true | Named _ _ _ => false end) args.

(** igor.hpp 178-188, [is_repeated_named_argument]: arguments of the very same type. *)
Definition same_container (a b : arg) : bool :=
  match a, b with Named tg ty _, Named tg' ty' _ => tag_eqb tg tg' && ctype_eqb ty ty' | _, _ => false end.
Definition is_repeated (args : list arg) (a : arg) : bool := 1 <? length (filter (same_container a) args).

(** igor.hpp 192-196, [has_duplicates]. *)
Definition has_duplicates (args : list arg) : bool := existsb (is_repeated args) args.

(** igor.hpp 97-112, 211-226, [build_parser_tuple] and [fetch_one_impl]: the first argument with the tag. *)
Fixpoint fetch (args : list arg) (tg : tag) : option (ctype * nat) :=
  match args with
  | [] => None
  | Unnamed :: rest => fetch rest tg
  | Named tg' ty o :: rest => if tag_eqb tg tg' then Some (ty, o) else fetch rest tg
  end.

Section Kw.

Context {F : Type}.
Variable O : fops F.
Context {D : Type}.
Variable OD : fops D.
Variable E : env.
Notation c := (e_cfg E).

(** The objects the arguments refer to. A number comes with its conversions to [F] and to [size_type] by [boost::numeric_cast]; [None] if the conversion throws.
    A range or an iterator comes with the values that it contains or that follow it. *)
Inductive obj :=
| OCol (xs : list F)
| ONum (as_F : option F) (as_size : option nat)
| OSplit (l : list D).

Definition cast {A} (x : option A) : outcome A := match x with Some a => Ok a | None => Throw BadNumericCast end.

(** Objects of another kind than expected do not occur: the call would not compile. *)
Definition num_F (st : list obj) (o : nat) : outcome F := match nth_error st o with Some (ONum x _) => cast x | _ => UB end.
Definition num_size (st : list obj) (o : nat) : outcome nat := match nth_error st o with Some (ONum _ n) => cast n | _ => UB end.
Definition col_of (st : list obj) (o : nat) : outcome (list F) := match nth_error st o with Some (OCol xs) => Ok xs | _ => UB end.
Definition split_of (st : list obj) (o : nat) : outcome (list D) := match nth_error st o with Some (OSplit l) => Ok l | _ => UB end.

Definition opt {A} (x : option (ctype * nat)) (f : nat -> outcome A) : outcome (option A) :=
  match x with Some (_, o) => do a <- f o; Ok (Some a) | None => Ok None end.

(** The particle data: the keywords in the order of the arrays of tree.hpp 1704-1719. *)
Definition pdata_tags : list tag := map Coord (seq 0 (dim c)) ++ [Masses].

Definition is_range (b : base) : bool := match b with BFvec | BRange _ => true | _ => false end.

(** tree.hpp 1573-1640: the static assertions. [b0] is the type of the coordinates of the first dimension. *)
Definition ctor_compiles (args : list arg) : bool :=
  negb (has_duplicates args) &&                                              (* 1580 *)
  negb (has_unnamed args) &&                                                 (* 1582 *)
  forallb (has args) pdata_tags &&                                           (* 1585 *)
  match fetch args (Coord 0) with
  | Some (ty0, _) =>
    forallb (fun tg => match fetch args tg with Some (ty, _) => base_eqb (ct_base ty0) (ct_base ty) | None => false end) pdata_tags && (* 1621-1629 *)
    (if is_range (ct_base ty0) then negb (has args Nparts) else has args Nparts) (* 1634-1640 *)
  | None => false
  end.

(** tree.hpp 1564-1569, [gc_check_move_pdata]: looks at the coordinates only. *)
Definition movable (ty : ctype) : bool := base_eqb (ct_base ty) BFvec && negb (ct_const ty) && ct_rv ty.
Definition move_data (args : list arg) : bool :=
  forallb (fun j => match fetch args (Coord j) with Some (ty, _) => movable ty | None => false end) (seq 0 (dim c)).

(** tree.hpp 1704-1708: [std::array{std::move(...)...}]. The vectors are constructed in this order; one whose type is const is copied, any other one is left empty. *)
Fixpoint take (st : list obj) (l : list (ctype * nat)) : outcome (list (list F) * list obj) :=
  match l with
  | [] => Ok ([], st)
  | (ty, o) :: rest =>
    do xs <- col_of st o;
    do st1 <- (if ct_const ty then Ok st else wr st o (OCol []));
    do r <- take st1 rest;
    Ok (xs :: fst r, snd r)
  end.

(** Objects of the particle data. *)
Definition pdata (args : list arg) : list (ctype * nat) :=
  flat_map (fun tg => match fetch args tg with Some x => [x] | None => [] end) pdata_tags.

(** tree.hpp 1590-1700: what is computed before any data is moved: box size, the two parameters, and the number of particles (of the ranges, before
    it is replaced by zero in 1688; or as given). *)
Definition ctor_args (args : list arg) (st : list obj) : outcome (option F * option nat * option nat * nat) :=
  do box <- opt (fetch args BoxSize) (num_F st);
  do mln <- opt (fetch args MaxLeafN) (num_size st);
  do nc <- opt (fetch args Ncrit) (num_size st);
  do n <- (match fetch args Nparts with
           | Some (_, o) => num_size st o
           | None => do cols <- mapM (fun x => col_of st (snd x)) (pdata args); ranges_check E cols
           end);
  Ok (box, mln, nc, n).

(** tree.hpp 1571-1733: the generic constructor. The objects after the call, and its outcome. *)
Definition kw_ctor (s : sched) (args : list arg) (st : list obj) : option (list obj * outcome (@tree F)) :=
  if ctor_compiles args then
    Some (match ctor_args args st with
          | Ok (box_size, mln0, nc0, n) =>
            let '(box, ded) := match box_size with Some b => (b, false) | None => (fofZ O 0%Z, true) end in
            let mln := match mln0 with Some k => k | None => default_max_leaf_n end in
            let nc := match nc0 with Some k => k | None => e_ncrit E end in
            if move_data args then
              match take st (pdata args) with
              | Ok (cols, st') => (st', construct O E s box ded (Moved cols) mln nc)
              | Throw e => (st, Throw e)
              | UB => (st, UB)
              end
            else (st, do cols <- mapM (fun x => col_of st (snd x)) (pdata args); construct O E s box ded (Iters cols n) mln nc)
          | Throw e => (st, Throw e)
          | UB => (st, UB)
          end)
  else None.

(** tree.hpp 3375-3403, [parse_accpot_kwargs]. [std::cref] of an rvalue is deleted, and only a [std::vector<double>] can be passed on. *)
Definition accpot_compiles (args : list arg) : bool :=
  negb (has_duplicates args) &&                                              (* 3382 *)
  negb (has_unnamed args) &&                                                 (* 3387 *)
  match fetch args KwSplit with
  | Some (ty, _) => base_eqb (ct_base ty) BSplit && negb (ct_rv ty)          (* 3399 *)
  | None => true
  end.

Definition accpot_args (args : list arg) (st : list obj) : outcome (F * F * list D) :=
  do g <- opt (fetch args KwG) (num_F st);                                   (* 3392 *)
  do e <- opt (fetch args KwEps) (num_F st);                                 (* 3395 *)
  do sp <- opt (fetch args KwSplit) (split_of st);
  Ok (match g with Some x => x | None => fofZ O 1%Z end,
      match e with Some x => x | None => fofZ O 0%Z end,
      match sp with Some l => l | None => [] end).

(** tree.hpp 3406-3560: a call such as [accs_o]. *)
Definition kw_accpot (K : platform F) (order : list cnode -> list cnode) (ordered : bool) (q : quant) (t : @tree F) (theta : F)
    (args : list arg) (st : list obj) (out : list (list F)) : option (outcome (list (list F))) :=
  if accpot_compiles args then
    Some (do r <- accpot_args args st; let '(G, eps, split) := r in acc_pot_dispatch O OD E K order ordered q t theta G eps split out)
  else None.

End Kw.

Arguments obj F D : clear implicits.
Arguments OCol {F D} xs.
Arguments ONum {F D} as_F as_size.
Arguments OSplit {F D} l.
