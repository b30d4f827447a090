(** The force computation with the work buffers of the threads, which keep their contents between critical nodes, calls
    and trees. The arrays are those of the code, column by column; the arithmetic is that of [Kernels]. *)
From Coq Require Import List Arith NArith ZArith Bool.
From Verif Require Import Base Config Morton Build FOps NodeProps Tree Kernels Force.
Import ListNotations.
Local Open Scope nat_scope.

Section Scratch.

Context {F : Type}.
Variable O : fops F.
Context {D : Type}.
Variable OD : fops D.
Variable E : env.
Variable K : platform F.

Notation c := (e_cfg E).
Notation zero := (fofZ O 0%Z).
Notation one := (fofZ O 1%Z).
Notation simd := (e_simd E).
Notation bw := (batch c (e_simd E)).

(** An [f_vector]: elements appended by [resize] are not initialised (detail/di_aligned_allocator.hpp 119-126), [None]; to use
    their values is undefined. *)
Definition buf : Type := list (option F).
Definition bufs : Type := list buf.

Definition bget (b : buf) (i : nat) : outcome F :=
  do x <- rd b i; match x with Some v => Ok v | None => UB end.

(** [v.resize(n)] *)
Definition vresize (n : nat) (b : buf) : buf := firstn n b ++ repeat None (n - length b).

(** [std::fill(v.data() + i, v.data() + i + n, x)] *)
Definition vfill (i n : nat) (x : F) (b : buf) : outcome buf := foldM (fun b k => wr b k (Some x)) (seq i n) b.

(** [std::copy(src + i, src + i + n, v.data())] *)
Definition vcopy (src : list F) (i n : nat) (b : buf) : outcome buf :=
  foldM (fun b k => do x <- rd src (i + k); wr b k (Some x)) (seq 0 n) b.

(** The elements with index [k] of several arrays. *)
Definition get_row (bs : bufs) (k : nat) : outcome (list F) := mapM (fun b => bget b k) bs.
Definition put_row (bs : bufs) (k : nat) (row : list F) : outcome bufs :=
  if length bs =? length row then mapM (fun '(b, x) => wr b k (Some x)) (combine bs row) else UB.

(** Batches of all the arrays, [batch_type(ptr + i)] and [store(ptr + i)]; aligned and not. *)
Definition get_rows (bs : bufs) (i w : nat) : outcome (list (list F)) := mapM (get_row bs) (seq i w).
Definition put_rows (bs : bufs) (i : nat) (rows : list (list F)) : outcome bufs :=
  foldM (fun bs '(k, r) => put_row bs k r) (combine (seq i (length rows)) rows) bs.
Definition get_rows_al (bs : bufs) (i w : nat) : outcome (list (list F)) :=
  if i mod w =? 0 then get_rows bs i w else UB.
Definition put_rows_al (bs : bufs) (i w : nat) (rows : list (list F)) : outcome bufs :=
  if i mod w =? 0 then put_rows bs i rows else UB.

(** tree.hpp 1967-1973, [nvecs_tmp]. *)
Definition nvecs_tmp (q : quant) : nat :=
  match q with QAcc => dim c + 1 | QPot => 1 | QBoth => dim c + 2 end.

(** The work buffers of a thread, tree.hpp 1976-2004: temporary data of the acceptance check and results, for each
    instantiation of [Q], and the data of the target, which all the instantiations share. *)
Record scratch := mkScratch {
  sc_tmp : quant -> bufs;
  sc_res : quant -> bufs;
  sc_tgt : bufs
}.

(** The number of arrays is fixed by the types; their sizes and contents are not. *)
Definition scratch_ok (s : scratch) : Prop :=
  (forall q, length (sc_tmp s q) = nvecs_tmp q) /\ (forall q, length (sc_res s q) = nvecs_res E q) /\
  length (sc_tgt s) = dim c + 1.

(** Which array holds what: 2661, 2687, 2712 and 2749, 2766, 2774 for the temporary data, 2495, 2520, 2539 for the
    results, 2961-2973 for the target. Only what is needed for [Q] is stored. *)
Definition tmp_row (q : quant) (t : @tmp_t F) : list F :=
  match q with
  | QAcc => tmp_diffs t ++ [tmp_dist3 t]
  | QPot => [tmp_dist t]
  | QBoth => tmp_diffs t ++ [tmp_dist3 t; tmp_dist t]
  end.
Definition tmp_of (q : quant) (l : list F) : @tmp_t F :=
  match q with
  | QAcc => mkTmp (firstn (dim c) l) (nth (dim c) l zero) zero
  | QPot => mkTmp [] zero (nth 0 l zero)
  | QBoth => mkTmp (firstn (dim c) l) (nth (dim c) l zero) (nth (dim c + 1) l zero)
  end.
Definition res_row (r : @rrow F) : list F := fst r ++ snd r.
Definition res_of (q : quant) (l : list F) : @rrow F :=
  match q with
  | QAcc => (l, [])
  | QPot => ([], l)
  | QBoth => (firstn (dim c) l, skipn (dim c) l)
  end.
Definition tgt_row (p : @prow F) : list F := fst p ++ [snd p].
Definition tgt_of (l : list F) : @prow F := (firstn (dim c) l, nth (dim c) l zero).

(** The differences alone; in the scalar code they are stored before the check, 2744-2750. *)
Definition put_diffs (q : quant) (tmp : bufs) (k : nat) (ds : list F) : outcome bufs :=
  if negb (vectorised c simd) && has_acc q then
    do a <- put_row (firstn (dim c) tmp) k ds; Ok (a ++ skipn (dim c) tmp)
  else Ok tmp.

(** tree.hpp 2651-2777: the loops of the check, which store the temporary data as they go. *)
Fixpoint bmac_loop (q : quant) (lh eps2 : F) (com : list F) (tgt : bufs) (is : list nat) (tmp : bufs)
    : outcome (bool * bufs) :=
  match is with
  | [] => Ok (true, tmp)
  | i :: is' =>
    do ps <- get_rows_al tgt i bw;
    let lanes := map (fun p => mac_lane O c simd K eps2 com (tgt_of p)) ps in
    if existsb (fun l => fle O (fst l) lh) lanes then
      do tmp' <- foldM (fun tmp l => put_diffs q tmp i (tmp_diffs (snd l))) lanes tmp;
      Ok (false, tmp')
    else
      do tmp' <- put_rows_al tmp i bw (map (fun l => tmp_row q (snd l)) lanes);
      bmac_loop q lh eps2 com tgt is' tmp'
  end.

(** A loop over the batches that updates the results lane by lane. *)
Definition bbatch_map (w : nat) (f : nat -> list F -> outcome (list F)) (is : list nat) (res : bufs) : outcome bufs :=
  foldM (fun res i =>
    do rs <- get_rows_al res i w;
    do rs' <- mapM (fun '(k, r) => f (i + k) r) (combine (seq 0 w) rs);
    put_rows_al res i w rs') is res.

(** tree.hpp 2477-2590. *)
Definition bsrc_com (q : quant) (m_src : F) (tgt_size : nat) (tgt tmp res : bufs) : outcome bufs :=
  bbatch_map bw (fun k r =>
      do p1 <- get_row tgt k; do t <- get_row tmp k;
      Ok (res_row (com_pair O c simd K m_src (tgt_of p1) (tmp_of q t) (res_of q r))))
    (starts bw tgt_size) res.

(** tree.hpp 2327-2471. *)
Definition bleaf (q : quant) (eps2 : F) (cols : list (list F)) (src : node (props F)) (tgt_size : nat) (tgt res : bufs)
    : outcome bufs :=
  bbatch_map bw (fun k r =>
      do p1 <- get_row tgt k;
      do r' <- foldM (fun r i2 => do p2 <- particle c cols i2; Ok (leaf_pair O c simd K q eps2 (tgt_of p1) p2 r))
                     (seq (n_begin src) (n_end src - n_begin src)) (res_of q r);
      Ok (res_row r'))
    (starts bw tgt_size) res.

(** tree.hpp 2597-2793. The state: temporary data and results. *)
Definition bmac_check (q : quant) (mac_value eps2 : F) (cols : list (list F)) (tgt_size : nat) (tgt : bufs)
    (i : nat) (src : node (props F)) (st : bufs * bufs) : outcome (nat * (bufs * bufs)) :=
  do v0 <- rd tgt 0;
  let psize := length v0 in                                                  (* 2610 *)
  let tmp := map (vresize psize) (fst st) in                                 (* 2611-2626 *)
  do r <- bmac_loop q (mac_lh O (n_props src) mac_value) eps2 (p_com (n_props src)) tgt (starts bw tgt_size) tmp;
  if fst r then
    do res' <- bsrc_com q (p_mass (n_props src)) tgt_size tgt (snd r) (snd st);
    Ok (i + n_children src + 1, (snd r, res'))
  else
    do res' <- (if n_children src =? 0 then bleaf q eps2 cols src tgt_size tgt (snd st) else Ok (snd st));
    Ok (i + 1, (snd r, res')).

(** tree.hpp 2073-2321. *)
Definition bself_inner (q : quant) (eps2 : F) (tgt : bufs) (p1s : list (@prow F))
    (st : list (@rrow F) * bufs) (i2 : nat) : outcome (list (@rrow F) * bufs) :=
  let '(a1s, res) := st in
  do p2s <- get_rows tgt i2 bw;
  do r2s <- get_rows res i2 bw;
  let outs := map (fun '(p1, p2, (a1, r2)) => self_pair O c simd K q eps2 p1 (tgt_of p2) a1 (res_of q r2))
                  (combine (combine p1s p2s) (combine a1s r2s)) in
  do res' <- put_rows res i2 (map (fun o => res_row (snd o)) outs);
  Ok (map fst outs, res').

Definition bself_interactions (q : quant) (eps2 : F) (tgt_size : nat) (tgt res : bufs) : outcome bufs :=
  foldM (fun res i1 =>
    do p1s <- get_rows_al tgt i1 bw;
    do st <- foldM (bself_inner q eps2 tgt (map tgt_of p1s)) (seq (i1 + 1) (tgt_size - (i1 + 1)))
                   (repeat (row0 O c q) bw, res);
    let '(a1s, res1) := st in
    do r1s <- get_rows_al res1 i1 bw;
    put_rows_al res1 i1 bw (map (fun '(r, a) => res_row (add_rows O (res_of q r) a)) (combine r1s a1s)))
    (starts bw tgt_size) res.

(** tree.hpp 2987-3002; the loops over the arrays and over the particles are interchanged. *)
Definition bscale_G (q : quant) (G : F) (tgt_size : nat) (res : bufs) : outcome bufs :=
  if feq O G one then Ok res
  else let w := match simd with Some w => w | None => 1 end in
       bbatch_map w (fun _ r => Ok (res_row (scale_row O G (res_of q r)))) (starts w tgt_size) res.

(** tree.hpp 3004-3007. *)
Definition bwrite_out (dest : nat -> outcome nat) (b tgt_size nv : nat) (res : bufs) (out : list (list F))
    : outcome (list (list F)) :=
  do _ <- (if (diff_max <? N.of_nat b)%N then Throw BadNumericCast else Ok tt);
  mapM (fun j =>
    do col <- rd out j;
    do v <- rd res j;
    foldM (fun col k =>
      do x <- bget v k;
      do i <- dest (b + k);
      wr col i x) (seq 0 tgt_size) col) (seq 0 nv).

(** tree.hpp 2961-2973: the data of the target node and the padding. *)
Definition bfill_target (cols : list (list F)) (pad : F) (b tgt_size psize : nat) (tgt : bufs) : outcome bufs :=
  mapM (fun '(j, v) =>
    do col <- rd cols j;
    do v' <- vcopy col b tgt_size (vresize psize v);
    vfill tgt_size (psize - tgt_size) (if j <? dim c then pad else zero) v') (combine (seq 0 (length tgt)) tgt).

(** tree.hpp 2928-3008: one critical node, processed by a thread with the work buffers [s]. *)
Definition bcrit_run (q : quant) (t : @tree F) (mac_value G eps2 pad : F) (dest : nat -> outcome nat)
    (s : scratch) (out : list (list F)) (cn : cnode) : outcome (scratch * list (list F)) :=
  let b := c_begin cn in
  let tgt_size := c_end cn - b in
  do psize <- pdata_size E tgt_size;
  do res0 <- mapM (fun v => vfill 0 psize zero (vresize psize v)) (sc_res s q);      (* 2955-2959 *)
  do tgt <- bfill_target (t_parts t) pad b tgt_size psize (sc_tgt s);
  do st <- traverse c K (bmac_check q mac_value eps2 (t_parts t) tgt_size tgt) (t_nodes t) (c_code cn)
             (length (t_nodes t)) 0 (sc_tmp s q, res0);
  do res1 <- bself_interactions q eps2 tgt_size tgt (snd st);
  do res2 <- bscale_G q G tgt_size res1;
  do out' <- bwrite_out dest b tgt_size (nvecs_res E q) res2 out;
  let upd (f : quant -> bufs) v q' := match q, q' with QAcc, QAcc | QPot, QPot | QBoth, QBoth => v | _, _ => f q' end in
  Ok (mkScratch (upd (sc_tmp s) (fst st)) (upd (sc_res s) res2) tgt, out').

(** The work buffers of all the threads. *)
Definition memory : Type := nat -> scratch.
Definition set_mem (mem : memory) (i : nat) (s : scratch) : memory := fun j => if j =? i then s else mem j.

(** tree.hpp 2872-3022; [work] assigns the critical nodes to threads and gives the order in which they are processed. *)
Definition bcpu_run (work : list cnode -> list (nat * cnode)) (q : quant) (t : @tree F) (mac_value G eps2 : F)
    (dest : nat -> outcome nat) (cb ce : nat) (mem : memory) (out : list (list F)) : outcome (memory * list (list F)) :=
  let pad := pad_coord O E (t_box t) mac_value in
  if negb (ffin O pad) then Throw InvalidArgument
  else foldM (fun '(mem, out) '(i, cn) =>
         do r <- bcrit_run q t mac_value G eps2 pad dest (mem i) out cn;
         Ok (set_mem mem i (fst r), snd r)) (work (slice (t_crit t) cb ce)) (mem, out).

(** tree.hpp 2853-2869 and 3258-3264. *)
Definition bacc_pot_impl (work : list cnode -> list (nat * cnode)) (q : quant) (t : @tree F)
    (mac_value G eps2 : F) (split : list D) (dest : nat -> outcome nat) (mem : memory) (out : list (list F))
    : outcome (memory * list (list F)) :=
  do _ <- check_split OD split;
  if 1 <? length split then Throw InvalidArgument
  else bcpu_run work q t mac_value G eps2 dest 0 (length (t_crit t)) mem out.

(** tree.hpp 3293-3334. *)
Definition bacc_pot (work : list cnode -> list (nat * cnode)) (ordered : bool) (q : quant) (t : @tree F)
    (theta G eps : F) (split : list D) (mem : memory) (out : list (list F)) : outcome (memory * list (list F)) :=
  do mac_value <- mac_value_of O E theta;
  do eps2 <- compute_eps2 O eps;
  do _ <- check_G_const O G;
  if ordered then
    do _ <- it_diff_check (nparts t);
    bacc_pot_impl work q t mac_value G eps2 split (rd (t_perm t)) mem out
  else bacc_pot_impl work q t mac_value G eps2 split Ok mem out.

End Scratch.
