(** Discretisation of coordinates, box size deduction, node geometry. *)
From Coq Require Import List Arith ZArith NArith Bool.
From Verif Require Import Base Config Morton Build FOps.
Import ListNotations.
Local Open Scope nat_scope.

Section Disc.

Context {F : Type}.
Variable O : fops F.

Let zero := fofZ O 0%Z.
(** F(1) / F(2) *)
Let half := fdiv O (fofZ O 1%Z) (fofZ O 2%Z).

(** [static_cast<UInt>(x)] of a floating-point value to an unsigned type of [w] bits: undefined
    behaviour if the truncated value is not representable. *)
Definition cast_uint (w : N) (x : F) : outcome N :=
  if ffin O x && (0 <=? ftrunc O x)%Z && (ftrunc O x <? 2 ^ Z.of_N w)%Z
  then Ok (Z.to_N (ftrunc O x)) else UB.

(** [std::clamp(v, lo, hi)]. *)
Definition fclamp (v lo hi : F) : F :=
  if flt O v lo then lo else if flt O hi v then hi else v.

(** tree.hpp 381-429, [disc_single_coord<NDim, UInt, Clamp>]. *)
Definition disc_single_coord (c : cfg) (clamp : bool) (x inv_box_size : F) : outcome N :=
  let factor := (2 ^ cbitsc c)%N in                                          (* 385 *)
  let ffactor := fofZ O (Z.of_N factor) in
  let tmp := fmul O (ffma O x inv_box_size half) ffactor in                  (* 389, 394 *)
  if negb (ffin O tmp) then Throw InvalidArgument                            (* 397-401 *)
  else
    do tmp' <- (if clamp
                then Ok (fclamp tmp zero (fpred O ffactor))                  (* 405 *)
                else if flt O tmp zero || fle O ffactor tmp                  (* 408 *)
                     then Throw InvalidArgument
                     else Ok tmp);
    do retval <- cast_uint (width c) tmp';                                   (* 417 *)
    if (factor <=? retval)%N then Throw InvalidArgument else Ok retval.      (* 420-425 *)

(** tree.hpp 1240-1245, [disc_coords], followed by the encoding (1423-1426, 3712-3715). *)
Definition particle_code (c : cfg) (xs : list F) (inv_box_size : F) : outcome N :=
  do ds <- mapM (fun x => disc_single_coord c false x inv_box_size) xs;
  morton_encode c ds.

(** tree.hpp 444-448, [get_node_dim]. The level of a node is at most [cbits], so that
    the shift is always defined. *)
Definition get_node_dim (node_level : N) (box_size : F) : F :=
  fdiv O box_size (fofZ O (Z.of_N (2 ^ node_level))).

(** tree.hpp 452-482, [get_node_centre]. *)
Definition get_node_centre (c : cfg) (node_code : N) (box_size : F) : outcome (list F) :=
  let w := width c in
  let d := dimN c in
  let node_level := tree_level w d node_code in
  do one <- shl w 1 (node_level * d);
  do c_code <- shl w (usub w node_code one) ((cbitsc c - node_level) * d);   (* 459-460 *)
  let node_dim_2 := fmul O (get_node_dim node_level box_size) half in        (* 462 *)
  let cell_size := fmul O box_size
      (fdiv O (fofZ O 1%Z) (fofZ O (Z.of_N (2 ^ cbitsc c)))) in              (* 464 *)
  Ok (map (fun dc => ffma O (fofZ O (Z.of_N dc)) cell_size
                       (fsub O node_dim_2 (fmul O box_size half)))           (* 480 *)
          (morton_decode c c_code)).

(** [std::max(a, b)]. *)
Definition fmax (a b : F) : F := if flt O a b then b else a.

(** tree.hpp 1292-1302: one particle in the body of the reduction; [cur] holds the running maxima,
    [xs] the coordinates. *)
Definition max_step (cur xs : list F) : outcome (list F) :=
  mapM (fun '(m, x) =>
          let tmp := fabs O x in
          if ffin O tmp then Ok (fmax m tmp) else Throw InvalidArgument)
       (combine cur xs).

(** Shape of a run of [tbb::parallel_reduce] (functional form, tree.hpp 1288-1311): a value starts
    as the identity, is fed with subranges, and is joined with the value of the
    following subrange. *)
Inductive red :=
| Start
| Feed (r : red) (b e : nat)
| Join (l r : red).

(** The run covers exactly the indices [b, e), in order. *)
Fixpoint spans (r : red) (b e : nat) : Prop :=
  match r with
  | Start => b = e
  | Feed r m e' => e' = e /\ m <= e /\ spans r b m
  | Join l r => exists m, spans l b m /\ spans r m e
  end.

(** Value computed by a run over the particles [parts] (each given by its coordinates); [ndim] is
    the number of coordinates, the identity is an array of zeros (1289). *)
Fixpoint run_red (ndim : nat) (parts : list (list F)) (r : red) : outcome (list F) :=
  match r with
  | Start => Ok (repeat zero ndim)
  | Feed r b e => do v <- run_red ndim parts r; foldM max_step (slice parts b e) v
  | Join l r => do a <- run_red ndim parts l; do b <- run_red ndim parts r;
                Ok (map (fun '(x, y) => fmax x y) (combine a b))              (* 1303-1309 *)
  end.

(** [*std::max_element(begin, end)]: first largest element. The array is not empty (NDim >= 2). *)
Fixpoint max_element (best : F) (l : list F) : F :=
  match l with
  | [] => best
  | x :: t => max_element (if flt O best x then x else best) t
  end.

(** tree.hpp 1278-1319, [determine_box_size]. *)
Definition determine_box_size (ndim : nat) (parts : list (list F)) (r : red) : outcome F :=
  do _ <- it_diff_check (length parts);                                      (* 1283 *)
  do mc <- run_red ndim parts r;
  match mc with
  | [] => UB
  | m0 :: mt =>
    let retval := fmul O (max_element m0 mt) (fofZ O 2%Z) in                 (* 1311 *)
    let retval := ffma O retval (fdiv O (fofZ O 1%Z) (fofZ O 20%Z)) retval in (* 1313 *)
    if ffin O retval then Ok retval else Throw InvalidArgument               (* 1315-1318 *)
  end.

End Disc.
