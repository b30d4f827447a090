(** Computation of the accelerations and potentials with accelerators (ROCm, CUDA): division of the
    particles among the devices, and the device kernels. *)
From Coq Require Import List Arith ZArith NArith Bool.
From Flocq Require Import IEEE754.BinarySingleNaN.
From Verif Require Import Base Config Morton Build FOps NodeProps Tree Kernels Force.
Import ListNotations.
Local Open Scope nat_scope.

(** Largest values of [int] and of [unsigned]. *)
Definition int_max : N := 2 ^ 31 - 1.
Definition uint_max : N := 2 ^ 32 - 1.

(** [boost::numeric_cast<int>] of an unsigned value. *)
Definition to_int (n : N) : outcome N := if (int_max <? n)%N then Throw BadNumericCast else Ok n.

(** src/rakau_cuda.cu 26-30, [cuda_min_size]. *)
Definition cuda_min_size : N := 1000.

(** * Division of the particles *)
Section Split.

(** Operations on [double]. *)
Context {D : Type}.
Variable OD : fops D.

(** [boost::numeric_cast<size_type>] of a [double]: truncation with a range check. The check
    does not detect NaN, whose conversion is undefined. *)
Definition numeric_cast_size (x : D) : outcome N :=
  if fle OD x (fofZ OD (-1)%Z) then Throw BadNumericCast
  else if fle OD (fofZ OD (2 ^ 64)%Z) x then Throw BadNumericCast
  else if negb (ffin OD x) then UB
  else Ok (Z.to_N (ftrunc OD x)).

(** tree.hpp 3053-3063, 3168-3178: the critical node at which the devices take over: the first one
    that begins at [v] or later, and the index at which it begins. [begins] are the [begin] members
    of the critical nodes. *)
Definition split_node (np : N) (begins : list N) (v : N) : outcome (nat * N) :=
  do k <- bsearch false begins 0 v (length begins) 0 (length begins);
  Ok (k, match nth_error begins k with Some b => b | None => np end).

(** tree.hpp 3047: the raw index for ROCm. *)
Definition rocm_index (np : N) (s0 s1 : D) : outcome N :=
  numeric_cast_size (fmul OD (fdiv OD s0 (fadd OD s0 s1)) (fofZ OD (Z.of_N np))).

(** tree.hpp 3154-3161: the raw indices for CUDA, except the last. [tmp_acc] accumulates the values, [rest] are the
    values not yet added, [npF] is [static_cast<F>(np)] converted to [double]. *)
Fixpoint cuda_raw (npF split_acc tmp_acc : D) (rest : list D) : outcome (list N) :=
  match rest with
  | [] => Ok []
  | s :: rest' =>
    do i <- numeric_cast_size (fmul OD (fdiv OD tmp_acc split_acc) npF);
    do l <- cuda_raw npF split_acc (fadd OD tmp_acc s) rest';
    Ok (i :: l)
  end.

(** tree.hpp 3149-3185: the position among the critical nodes and the indices. *)
Definition cuda_indices (np : N) (npF : D) (begins : list N) (split : list D) : outcome (nat * list N) :=
  match split with
  | [] => UB
  | s0 :: rest =>
    let split_acc := fold_left (fadd OD) split (fofZ OD 0%Z) in
    do raw <- cuda_raw npF split_acc s0 rest;
    match raw ++ [np] with                                                   (* 3163 *)
    | [] => UB
    | i0 :: is =>
      do kn <- split_node np begins i0;                                      (* 3168-3178 *)
      let first := snd kn in
      Ok (fst kn, first :: map (fun i => if (i <? first)%N then first else i) is)   (* 3181-3185 *)
    end
  end.

(** tree.hpp 3191-3198: all the workloads must be large enough. The subtractions are those of
    [size_type]. *)
Fixpoint workloads (idx : list N) : list N :=
  match idx with
  | a :: ((b :: _) as idx') => usub 64 b a :: workloads idx'
  | _ => []
  end.
Definition run_cuda (idx : list N) : bool := forallb (fun w => negb (w <? cuda_min_size)%N) (workloads idx).

(** src/rakau_cuda.cu 44-56, 426-427, 511-518: the checks on the sizes before the kernels are
    launched. [fsize] is [sizeof(F)]. The arrays for the tree, the particles and the codes are as
    large as those of the host, so the check of the size cannot fail for them. *)
Definition cuda_checks (fsize : N) (tree_size : N) (idx : list N) : outcome unit :=
  if existsb (fun w => (size_max / fsize <? w)%N) (workloads idx) then Throw BadAlloc
  else foldM (fun _ '(a, b) =>
         if (uint_max - 31 <? usub 64 b a)%N then Throw OverflowError
         else do _ <- to_int a; do _ <- to_int b; do _ <- to_int tree_size; Ok tt) (combine idx (tl idx)) tt.

End Split.

(** tree.hpp 3160, [static_cast<F>(nparts)] in an expression of type [double], for the two types. *)
Definition np_double (n : N) : binary_float 53 1024 := fofZ (F64ops false) (Z.of_N n).
Definition widen (x : binary_float 24 128) : binary_float 53 1024 :=
  match x with
  | B754_zero s => B754_zero s
  | B754_infinity s => B754_infinity s
  | B754_nan => B754_nan
  | B754_finite s m e _ => binary_normalize 53 1024 prec64 emax64 mode_NE (if s then Z.neg m else Z.pos m) e s
  end.
Definition np_float (n : N) : binary_float 53 1024 := widen (fofZ (F32ops false) (Z.of_N n)).

(** * The kernels *)
Section Kernel.

Context {F : Type}.
Variable O : fops F.
Variable c : cfg.
Variable K : platform F.

Notation zero := (fofZ O 0%Z).
Notation one := (fofZ O 1%Z).
Notation nodes_t := (list (node (props F))).

(** The data of one thread: index, code, coordinates and mass of its particle. *)
Record lane := mkLane { l_idx : nat; l_code : N; l_p : @prow F }.

(** rakau_cuda.cu 172-177, rakau_rocm.cpp 143-148. *)
Definition load_lane (cols : list (list F)) (codes : list N) (pidx : nat) : outcome lane :=
  do code <- rd codes pidx;
  do p <- particle c cols pidx;
  Ok (mkLane pidx code p).

(** rakau_cuda.cu 184, 211, rakau_rocm.cpp 155, 192: the code with an additional 1 on top,
    shifted down to the level of the source node. *)
Definition lane_code (code level : N) : outcome N :=
  let w := width c in
  do top <- shl w 1 (cbitsc c * dimN c);
  let init := wrap w (N.lor code top) in
  let amount := wrap 64 (usub w (cbitsc c) level * dimN c) in
  if (amount <? w)%N then Ok (N.shiftr init amount) else k_ovs K init amount.

(** rakau_cuda.cu 250-255, rakau_rocm.cpp 231-236. Whether the compiler fuses the
    multiplications and additions of the kernel is left to [ffma]. *)
Definition lane_dist2 (com : list F) (p : @prow F) : F :=
  fold_left (fun s d => ffma O d d s) (diffs O com (fst p)) zero.

(** rakau_cuda.cu 258, rakau_rocm.cpp 238: the vote of one thread. *)
Definition lane_vote (mac_value : F) (src : node (props F)) (l : lane) : outcome bool :=
  do s_p_code <- lane_code (l_code l) (n_level src);
  Ok (negb (s_p_code =? n_code src)%N &&
      flt O (mac_lh O (n_props src) mac_value) (lane_dist2 (p_com (n_props src)) (l_p l))).

(** rakau_cuda.cu 264-281, rakau_rocm.cpp 244-261: interaction with the centre of mass. *)
Definition lane_com (eps2 : F) (src : node (props F)) (l : lane) (r : @rrow F) : @rrow F :=
  let ds := diffs O (p_com (n_props src)) (fst (l_p l)) in
  let dist2 := fadd O (lane_dist2 (p_com (n_props src)) (l_p l)) eps2 in
  let dist := fsqrt O dist2 in
  let m := p_mass (n_props src) in
  (axpy O ds (fdiv O m (fmul O dist dist2)) (fst r),
   map (fun x => fsub O x (fdiv O (fmul O (snd (l_p l)) m) dist)) (snd r)).

(** rakau_cuda.cu 289-323, rakau_rocm.cpp 269-303: interaction with the particle [i] of a leaf. *)
Definition lane_leaf (eps2 : F) (l : lane) (i : nat) (p2 : @prow F) (r : @rrow F) : @rrow F :=
  let is_tgt := l_idx l =? i in
  let ds := diffs O (fst p2) (fst (l_p l)) in
  let dist2 := fold_left (fun s d => ffma O d d s) ds (fadd O eps2 (if is_tgt then one else zero)) in
  let dist := fsqrt O dist2 in
  (axpy O ds (fdiv O (snd p2) (fmul O dist dist2)) (fst r),
   map (fun x => fsub O x (fdiv O (fmul O (fmul O (if is_tgt then zero else one) (snd (l_p l))) (snd p2)) dist)) (snd r)).

(** rakau_cuda.cu 187-328, rakau_rocm.cpp 158-308: the loop over the tree of the threads of one
    warp. They all take the same decisions, because these depend on the votes of all of them. The threads of the last
    warp that have no particle have returned and do not vote. Running out of fuel is reported as
    [UB]. The indices are [int] in the code, see [cuda_checks]. *)
Fixpoint warp_loop (mac_value eps2 : F) (cols : list (list F)) (nodes : nodes_t) (lanes : list lane)
    (fuel i : nat) (res : list (@rrow F)) : outcome (list (@rrow F)) :=
  if length nodes <=? i then Ok res
  else match fuel with
  | 0 => UB
  | S fuel' =>
    do src <- rd nodes i;
    do votes <- mapM (lane_vote mac_value src) lanes;
    if forallb (fun b => b) votes then
      warp_loop mac_value eps2 cols nodes lanes fuel' (i + n_children src + 1)
        (map (fun '(l, r) => lane_com eps2 src l r) (combine lanes res))
    else
      do res' <- (if n_children src =? 0 then
          mapM (fun '(l, r) =>
            foldM (fun r k => do p2 <- particle c cols k; Ok (lane_leaf eps2 l k p2 r))
                  (seq (n_begin src) (n_end src - n_begin src)) r) (combine lanes res)
        else Ok res);
      warp_loop mac_value eps2 cols nodes lanes fuel' (i + 1) res'
  end.

(** rakau_cuda.cu 331-334, rakau_rocm.cpp 311-315. *)
Definition lane_scale (G : F) (r : @rrow F) : @rrow F :=
  (map (fun x => fmul O G x) (fst r), map (fun x => fmul O G x) (snd r)).

(** The whole kernel for the particles with the given indices, the members of one warp. *)
Definition warp_run (q : quant) (mac_value G eps2 : F) (cols : list (list F)) (codes : list N)
    (nodes : nodes_t) (idxs : list nat) : outcome (list (@rrow F)) :=
  do lanes <- mapM (load_lane cols codes) idxs;
  do res <- warp_loop mac_value eps2 cols nodes lanes (length nodes) 0 (map (fun _ => row0 O c q) idxs);
  Ok (map (lane_scale G) res).

(** The threads with a particle of warp [k] of the kernel launched for [b, e), rakau_cuda.cu 159-165,
    516 and rakau_rocm.cpp 118, 127-132; [ws] is the number of threads of a warp. *)
Definition warp_idxs (ws b e k : nat) : list nat :=
  filter (fun pidx => pidx <? e) (seq (b + k * ws) ws).

(** A kernel launch: the results for the particles [b, e). The warps are independent of each
    other. *)
Definition kernel_run (ws : nat) (q : quant) (mac_value G eps2 : F) (cols : list (list F))
    (codes : list N) (nodes : nodes_t) (b e : nat) : outcome (list (@rrow F)) :=
  do rows <- mapM (fun k => warp_run q mac_value G eps2 cols codes nodes (warp_idxs ws b e k))
               (seq 0 ((e - b + ws - 1) / ws));
  Ok (concat rows).

End Kernel.
Arguments mkLane {F} _ _ _. Arguments l_idx {F} _. Arguments l_code {F} _. Arguments l_p {F} _.

(** * The public functions *)

(** The build and the machine. [g_types]: the floating-point type is [float] or
    [double]. [g_fsize]: [sizeof(F)]. [g_warp]: threads per warp. [g_ndev]: number of CUDA devices.
    [g_fail]: the exception raised by the device runtime, if it fails. *)
Inductive backend := Rocm | Cuda.
Record gpu := mkGpu {
  g_backend : backend;
  g_types : bool;
  g_fsize : N;
  g_warp : nat;
  g_ndev : nat;
  g_fail : option exn
}.

Section Hetero.

Context {F : Type}.
Variable O : fops F.
Context {D : Type}.
Variable OD : fops D.
(** Conversion of a number of particles to [F] and then to [double]. *)
Variable npF : N -> D.
Variable E : env.
Variable K : platform F.
Variable g : gpu.

Notation c := (e_cfg E).

(** What is done concurrently: the critical nodes of the CPU, and the copies of the results of the
    devices to the output, each for a range of particles. *)
Definition task : Type := cnode + (nat * nat * list (@rrow F)).

Definition task_run (q : quant) (t : @tree F) (mac_value G eps2 pad : F) (dest : nat -> outcome nat)
    (out : list (list F)) (x : task) : outcome (list (list F)) :=
  match x with
  | inl cn => crit_run O E K q t mac_value G eps2 pad dest out cn
  | inr (b, e, rows) => write_out dest b (e - b) (nvecs_res E q) rows out
  end.

(** tree.hpp 3072-3113, 3203-3240: the CPU computes the critical nodes before the [k]-th, the
    devices have the outcome [gres]. Exceptions of the CPU come first, since
    the future is inspected at the end. [order] is the order in which the tasks take effect. *)
Definition hetero_run (order : list task -> list task) (q : quant) (t : @tree F) (mac_value G eps2 : F)
    (dest : nat -> outcome nat) (k : nat) (gres : outcome (list (nat * nat * list (@rrow F))))
    (out : list (list F)) : outcome (list (list F)) :=
  match gres with
  | UB => UB
  | _ =>
    let pad := pad_coord O E (t_box t) mac_value in
    if negb (ffin O pad) then Throw InvalidArgument
    else
      let writes := match gres with Ok l => l | _ => [] end in
      do out' <- foldM (task_run q t mac_value G eps2 pad dest)
                       (order (map inl (slice (t_crit t) 0 k) ++ map inr writes)) out;
      do _ <- gres;
      Ok out'
  end.

(** The computation of the devices for consecutive ranges given by the indices [idx]. *)
Definition devices_run (q : quant) (mac_value G eps2 : F) (cols : list (list F)) (codes : list N)
    (nodes : list (node (props F))) (idx : list nat) : outcome (list (nat * nat * list (@rrow F))) :=
  match g_fail g with
  | Some e => Throw e
  | None =>
    mapM (fun '(b, e) =>
      do rows <- kernel_run O c K (g_warp g) q mac_value G eps2 cols codes nodes b e;
      Ok (b, e, rows)) (combine idx (tl idx))
  end.

Definition crit_begins (t : @tree F) : list N := map (fun cn => N.of_nat (c_begin cn)) (t_crit t).

(** tree.hpp 3023-3130. [rocm_min_size] is the number of threads of a warp. The device copy of the
    data is [t_view]; a copy with another number of particles is not supported by the code
    (the views of the output would be accessed out of bounds, or parts of it would not be
    written), this is reported as [UB]. *)
Definition rocm_impl (ord : list cnode -> list cnode) (order : list task -> list task) (q : quant) (t : @tree F)
    (mac_value G eps2 : F) (split : list D) (dest : nat -> outcome nat) (out : list (list F))
    : outcome (list (list F)) :=
  let cpu := cpu_run O E K ord q t mac_value G eps2 dest 0 (length (t_crit t)) out in
  if 2 <? length split then Throw InvalidArgument                            (* 3027-3030 *)
  else match split, t_view t with
  | [_; _], None => Throw InvalidArgument                                    (* 3032-3035 *)
  | [s0; s1], Some (vparts, vcodes, vnodes) =>
    if negb (g_types g) then Throw InvalidArgument                           (* 3124-3127 *)
    else
      let np := nparts t in
      do i <- rocm_index OD (N.of_nat np) s0 s1;
      do kn <- split_node (N.of_nat np) (crit_begins t) i;
      let b := N.to_nat (snd kn) in
      if g_warp g <=? np - b then                                            (* 3065 *)
        do _ <- it_diff_check (length (t_crit t));
        hetero_run order q t mac_value G eps2 dest (fst kn)
          (do _ <- to_int (N.of_nat b); do _ <- to_int (N.of_nat np);
           if length vcodes =? np then devices_run q mac_value G eps2 vparts vcodes vnodes [b; np] else UB)
          out
      else cpu
  | _, _ => cpu
  end.

(** tree.hpp 3131-3257. *)
Definition cuda_impl (ord : list cnode -> list cnode) (order : list task -> list task) (q : quant) (t : @tree F)
    (mac_value G eps2 : F) (split : list D) (dest : nat -> outcome nat) (out : list (list F))
    : outcome (list (list F)) :=
  let cpu := cpu_run O E K ord q t mac_value G eps2 dest 0 (length (t_crit t)) out in
  if negb (length split =? 0) && (g_ndev g <? length split - 1) then Throw InvalidArgument   (* 3136-3141 *)
  else if length split <=? 1 then cpu
  else if negb (g_types g) then Throw InvalidArgument                        (* 3251-3254 *)
  else
    let np := N.of_nat (nparts t) in
    do ki <- cuda_indices OD np (npF np) (crit_begins t) split;
    if run_cuda (snd ki) then
      do _ <- it_diff_check (length (t_crit t));
      hetero_run order q t mac_value G eps2 dest (fst ki)
        (do _ <- cuda_checks (g_fsize g) (N.of_nat (length (t_nodes t))) (snd ki);
         devices_run q mac_value G eps2 (t_parts t) (t_codes t) (t_nodes t) (map N.to_nat (snd ki)))
        out
    else cpu.

(** tree.hpp 2853-2869 and the above, [acc_pot_impl] with accelerators. *)
Definition hetero_impl (ord : list cnode -> list cnode) (order : list task -> list task) (q : quant) (t : @tree F)
    (mac_value G eps2 : F) (split : list D) (dest : nat -> outcome nat) (out : list (list F))
    : outcome (list (list F)) :=
  do _ <- check_split OD split;
  match g_backend g with
  | Rocm => rocm_impl ord order q t mac_value G eps2 split dest out
  | Cuda => cuda_impl ord order q t mac_value G eps2 split dest out
  end.

(** tree.hpp 3293-3334, [acc_pot_dispatch<Ordered, Q>] with accelerators. *)
Definition hetero_dispatch (ord : list cnode -> list cnode) (order : list task -> list task) (ordered : bool)
    (q : quant) (t : @tree F) (theta G eps : F) (split : list D) (out : list (list F)) : outcome (list (list F)) :=
  do mac_value <- mac_value_of O E theta;
  do eps2 <- compute_eps2 O eps;
  do _ <- check_G_const O G;
  if ordered then
    do _ <- it_diff_check (nparts t);
    hetero_impl ord order q t mac_value G eps2 split (rd (t_perm t)) out
  else hetero_impl ord order q t mac_value G eps2 split Ok out.

End Hetero.
