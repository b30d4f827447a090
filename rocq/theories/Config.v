(** Code width / dimension configuration and nodal-code arithmetic. *)
From Coq Require Import List Arith NArith ZArith Lia Bool.
From Verif Require Import Base.
Open Scope N_scope.

(** Truncation of an unsigned result to [w] bits. *)
Definition wrap (w x : N) : N := x mod 2 ^ w.

(** [x << s] on an unsigned type of [w] bits: undefined behaviour if [s >= w]. *)
Definition shl (w x s : N) : outcome N :=
  if s <? w then Ok (wrap w (N.shiftl x s)) else UB.

(** [x >> s] on an unsigned type of [w] bits: undefined behaviour if [s >= w]. *)
Definition shr (w x s : N) : outcome N :=
  if s <? w then Ok (N.shiftr x s) else UB.

(** Unsigned subtraction modulo [2^w]. *)
Definition usub (w x y : N) : N := wrap w (x + 2 ^ w - y).

(** detail/tree_fwd.hpp 141-147, [compute_cbits_v]:
    [nbits / NDim - !(nbits % NDim)]. *)
Definition cbits (w d : N) : N :=
  w / d - (if w mod d =? 0 then 1 else 0).

(** detail/tree_fwd.hpp 153-209, [clz]: number of leading zero bits of a non-zero value. The
    compiler builtins are modelled by their documented result. *)
Definition clz (w n : N) : N := w - 1 - N.log2 n.

(** detail/tree_fwd.hpp 212-228, [tree_level]. *)
Definition tree_level (w d n : N) : N := (w - 1 - clz w n) / d.

(** tree.hpp 432-441, [node_compare]. *)
Definition node_compare (w d n1 n2 : N) : outcome bool :=
  let tl1 := tree_level w d n1 in
  let tl2 := tree_level w d n2 in
  do s_n1 <- shl w n1 ((cbits w d - tl1) * d);
  do s_n2 <- shl w n2 ((cbits w d - tl2) * d);
  Ok ((s_n1 <? s_n2) || ((s_n1 =? s_n2) && (tl1 <? tl2))).

(** Nodal code of the cell [p] (a prefix of [d*l] bits) of level [l]: the prefix with a
    leading 1, cf. tree.hpp 743-745 and 770-772. *)
Definition nodal (d l p : N) : N := 2 ^ (d * l) + p.
