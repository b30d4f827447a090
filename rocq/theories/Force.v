(** Computation of the accelerations and potentials of all the particles (CPU), and exact
    computation for one particle. *)
From Coq Require Import List Arith ZArith NArith Bool.
From Verif Require Import Base Config Morton Build FOps NodeProps Tree Kernels.
Import ListNotations.
Local Open Scope nat_scope.

Section Force.

Context {F : Type}.
Variable O : fops F.
(** Operations on [double], the type of the [split] parameter. *)
Context {D : Type}.
Variable OD : fops D.
Variable E : env.
Variable K : platform F.

Notation c := (e_cfg E).
Notation zero := (fofZ O 0%Z).
Notation one := (fofZ O 1%Z).
Notation two := (fofZ O 2%Z).

(** detail/tree_fwd.hpp 127-139, [tree_nvecs_res]. *)
Definition nvecs_res (q : quant) : nat :=
  match q with QAcc => dim c | QPot => 1 | QBoth => dim c + 1 end.

(** tree.hpp 2857-2869: validation of [split]. *)
Definition check_split (split : list D) : outcome unit :=
  let dzero := fofZ OD 0%Z in
  if existsb (fun x => negb (ffin OD x)) split then Throw InvalidArgument
  else if existsb (fun x => flt OD x dzero) split then Throw InvalidArgument
  else if negb (match split with [] => true | _ => false end) && forallb (fun x => feq OD x dzero) split
       then Throw InvalidArgument
  else Ok tt.

(** tree.hpp 2898-2914: the padding coordinate. *)
Definition pad_coord (box mac_value : F) : F :=
  let ndim := fofZ O (Z.of_nat (dim c)) in
  match e_mac E with
  | Bh =>
    let M := fadd O (fdiv O box (fmul O (fsqrt O (fdiv O one mac_value)) (fsqrt O ndim)))
                    (fmul O box (fdiv O one two)) in
    fmul O M two
  | BhGeom =>
    let M := fadd O (fdiv O box (fmul O (fdiv O one mac_value) (fsqrt O ndim))) box in
    fmul O M two
  end.

(** tree.hpp 2936-2954: size of the padded buffers. *)
Definition pdata_size (tgt_size : nat) : outcome nat :=
  match e_simd E with
  | Some bw => if (size_max - N.of_nat tgt_size <? N.of_nat (bw - 1))%N then Throw OverflowError
               else Ok (tgt_size + (bw - 1))
  | None => Ok tgt_size
  end.

(** tree.hpp 2962-2977: the data of the target node and the padding. *)
Definition target_data (cols : list (list F)) (pad : F) (b tgt_size psize : nat) : outcome (list (@prow F)) :=
  do ps <- mapM (particle c cols) (seq b tgt_size);
  Ok (ps ++ repeat (repeat pad (dim c), zero) (psize - tgt_size)).

(** tree.hpp 2987-3002: multiplication by G. The vector loop is used whenever SIMD is enabled. *)
Definition scale_row (G : F) (r : @rrow F) : @rrow F :=
  (map (fun x => fmul O x G) (fst r), map (fun x => fmul O x G) (snd r)).
Definition scale_G (G : F) (tgt_size : nat) (res : list (@rrow F)) : outcome (list (@rrow F)) :=
  if feq O G one then Ok res
  else let bw := match e_simd E with Some bw => bw | None => 1 end in
       batch_map bw (fun _ r => Ok (scale_row G r)) (starts bw tgt_size) res.

(** tree.hpp 3004-3007: the results of the particles [b, b + tgt_size) are written to the output
    arrays. [dest i] is the element the output iterator designates at offset [i]. *)
Definition write_out (dest : nat -> outcome nat) (b tgt_size nv : nat) (res : list (@rrow F))
    (out : list (list F)) : outcome (list (list F)) :=
  do _ <- (if (diff_max <? N.of_nat b)%N then Throw BadNumericCast else Ok tt);
  mapM (fun j =>
    do col <- rd out j;
    foldM (fun col k =>
      do r <- rd res k;
      do x <- rd (fst r ++ snd r) j;
      do i <- dest (b + k);
      wr col i x) (seq 0 tgt_size) col) (seq 0 nv).

(** tree.hpp 2928-3008: one critical node. *)
Definition crit_run (q : quant) (t : @tree F) (mac_value G eps2 pad : F) (dest : nat -> outcome nat)
    (out : list (list F)) (cn : cnode) : outcome (list (list F)) :=
  let b := c_begin cn in
  let tgt_size := c_end cn - b in
  do psize <- pdata_size tgt_size;
  do tgt <- target_data (t_parts t) pad b tgt_size psize;
  do res <- tree_acc_pot O c (e_simd E) K q mac_value eps2 (t_parts t) (t_nodes t) (c_code cn)
              tgt_size tgt (repeat (row0 O c q) psize);
  do res' <- scale_G G tgt_size res;
  write_out dest b tgt_size (nvecs_res q) res' out.

(** tree.hpp 2872-3022, [cpu_run(c_begin, c_end)]; [order] is the order in which the critical
    nodes are processed by the parallel loop. *)
Definition cpu_run (order : list cnode -> list cnode) (q : quant) (t : @tree F) (mac_value G eps2 : F)
    (dest : nat -> outcome nat) (cb ce : nat) (out : list (list F)) : outcome (list (list F)) :=
  let pad := pad_coord (t_box t) mac_value in
  if negb (ffin O pad) then Throw InvalidArgument                            (* 2916-2920 *)
  else foldM (crit_run q t mac_value G eps2 pad dest) (order (slice (t_crit t) cb ce)) out.

(** tree.hpp 2853-2869 and 3258-3264, [acc_pot_impl] without support for accelerators. *)
Definition acc_pot_impl (order : list cnode -> list cnode) (q : quant) (t : @tree F)
    (mac_value G eps2 : F) (split : list D) (dest : nat -> outcome nat) (out : list (list F))
    : outcome (list (list F)) :=
  do _ <- check_split split;
  if 1 <? length split then Throw InvalidArgument
  else cpu_run order q t mac_value G eps2 dest 0 (length (t_crit t)) out.

(** tree.hpp 3268-3281. *)
Definition compute_eps2 (eps : F) : outcome F :=
  if negb (ffin O eps) || flt O eps zero then Throw DomainError
  else let eps2 := fmul O eps eps in
       if negb (ffin O eps2) || flt O eps2 zero then Throw DomainError else Ok eps2.

(** tree.hpp 3283-3289. *)
Definition check_G_const (G : F) : outcome unit :=
  if negb (ffin O G) then Throw DomainError else Ok tt.

(** tree.hpp 3298-3316: check of theta and the value used in the acceptance test. *)
Definition mac_value_of (theta : F) : outcome F :=
  if negb (ffin O theta) || fle O theta zero then Throw DomainError
  else
    let mv := match e_mac E with
              | Bh => fdiv O one (fmul O theta theta)
              | BhGeom => fdiv O one theta
              end in
    if negb (ffin O mv) || fle O mv zero then Throw DomainError else Ok mv.

(** tree.hpp 3293-3334, [acc_pot_dispatch<Ordered, Q>] on iterators. *)
Definition acc_pot_dispatch (order : list cnode -> list cnode) (ordered : bool) (q : quant) (t : @tree F)
    (theta G eps : F) (split : list D) (out : list (list F)) : outcome (list (list F)) :=
  do mac_value <- mac_value_of theta;
  do eps2 <- compute_eps2 eps;
  do _ <- check_G_const G;
  if ordered then
    do _ <- it_diff_check (nparts t);                                        (* 3323 *)
    acc_pot_impl order q t mac_value G eps2 split (rd (t_perm t)) out        (* 3324-3329 *)
  else acc_pot_impl order q t mac_value G eps2 split Ok out.

(** tree.hpp 3337-3357: the overloads for vectors resize them first. *)
Definition resize (n : nat) (l : list F) : list F := firstn n l ++ repeat zero (n - length l).
Definition acc_pot_vectors (order : list cnode -> list cnode) (ordered : bool) (q : quant) (t : @tree F)
    (theta G eps : F) (split : list D) (out : list (list F)) : outcome (list (list F)) :=
  acc_pot_dispatch order ordered q t theta G eps split (map (resize (nparts t)) out).

(** tree.hpp 3531-3569, [exact_acc_pot_impl<Ordered, Q>]. *)
Definition exact_step (G eps2 : F) (cols : list (list F)) (idx : nat) (r : @rrow F) (i : nat) : outcome (@rrow F) :=
  if i =? idx then Ok r
  else
    do pi <- particle c cols i;
    do p0 <- particle c cols idx;
    let ds := diffs O (fst pi) (fst p0) in
    let dist2 := dist2_s O eps2 ds in
    let inv_dist := fdiv O one (fsqrt O dist2) in
    let Gmi_dist := fmul O (fmul O G (snd pi)) inv_dist in
    let Gmi_dist3 := fmul O (fmul O inv_dist inv_dist) Gmi_dist in
    Ok (axpy O ds Gmi_dist3 (fst r),
        map (fun p => ffma O (fopp O Gmi_dist) (snd p0) p) (snd r)).

Definition exact_acc_pot (ordered : bool) (q : quant) (t : @tree F) (orig_idx : nat) (G eps : F)
    : outcome (list F) :=
  do eps2 <- compute_eps2 eps;
  do _ <- check_G_const G;
  do idx <- (if ordered then rd (t_inv t) orig_idx else Ok orig_idx);
  do r <- foldM (exact_step G eps2 (t_parts t) idx) (seq 0 (nparts t)) (row0 O c q);
  Ok (fst r ++ snd r).

End Force.
