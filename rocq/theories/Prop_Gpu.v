(** Properties C47-C49: the computation with accelerators.
    [hetero_dispatch] is the call in a build with ROCm or CUDA support; [order] is the order in which the tasks of the CPU and the copies of
    the results of the devices write to the output; [ord] the order of the loop if the CPU does everything; [g] describes the devices. *)
From Coq Require Import List Arith ZArith NArith Reals Bool Lra Lia Permutation.
From Flocq Require Import Core BinarySingleNaN.
From Verif Require Import Base Config Morton Build TreeSpec FOps Disc NodeProps Tree TreeInv TreeProofs TreeSafe TreeEx RSum NodeGeom NodesR
  Kernels Force TravProofs KernLoops KernR ForceGen ForceOut ForceR ForceTop ForceRTop ForceMore ForceEx
  Gpu GpuKernel GpuOut GpuTop GpuSplit GpuR GpuSelf GpuMain GpuEx.
Import ListNotations.
Local Open Scope nat_scope.

(** C47. If the call returns, there is a boundary: below it, all results are those of the CPU-only call; from there on, every particle is
    handled by a thread of a warp all of whose particles lie beyond the boundary. Nothing else is written. *)
Theorem C47_split_covers_every_particle :
  forall (F D : Type) (O : fops F) (OD : fops D) (npF : N -> D) (E : env) (K : platform F) (g : gpu)
    (ord ord2 : list cnode -> list cnode) (order : list (@task F) -> list (@task F)) (ordered : bool) (q : quant) (t : @tree F) (ps : list (@prow F))
    (theta G eps : F) (split : list D) (out out2 out' cpu : list (list F))
    (HE : env_ok E) (HK : benign_shift K) (Hw : 0 < g_warp g) (Ht : reachable O E t) (Hroom : room E t) (Hcopy : copies_fresh E g t) (Hps : rows_of E t ps)
    (Hord : reorders ord) (Horder : reorders order) (Hord2 : reorders ord2)
    (Hout : out_ok (length (t_codes t)) (nvecs_res E q) out) (Hout2 : out_ok (length (t_codes t)) (nvecs_res E q) out2)
    (Hcall : hetero_dispatch O OD npF E K g ord order ordered q t theta G eps split out = Ok out')
    (Hcpu : acc_pot_dispatch O OD E K ord2 ordered q t theta G eps [] out2 = Ok cpu),
  exists b mv eps2, b <= length (t_codes t) /\ mac_value_of O E theta = Ok mv /\ compute_eps2 O eps = Ok eps2 /\
    (forall j i, j < nvecs_res E q -> i < b -> nth_error (nth j out' []) (dst ordered t i) = nth_error (nth j cpu []) (dst ordered t i)) /\
    (forall i, b <= i < length (t_codes t) -> exists idxs r, In i idxs /\ (forall k, In k idxs -> b <= k < length (t_codes t)) /\
       lane_result O E t ps mv eps2 q G idxs i r /\
       forall j, j < nvecs_res E q -> nth_error (nth j out' []) (dst ordered t i) = nth_error (fst r ++ snd r) j) /\
    (forall j k, length (t_codes t) <= k -> nth_error (nth j out' []) k = nth_error (nth j out []) k) /\
    (forall j, length (nth j out' []) = length (nth j out [])).
Proof.
  intros F D O OD npF E K g ord ord2 order ordered q t ps theta G eps split out out2 out' cpu HE HK Hw Ht Hroom Hcopy Hps Hord Horder Hord2 Hout Hout2 Hcall Hcpu.
  exact (hetero_cpu_part O OD npF E K g HE HK Hw ord order ord2 ordered q t ps theta G eps split out out2 out' cpu Ht Hroom Hcopy Hps Hord Horder Hord2 Hout Hout2 Hcall Hcpu).
Qed.
Print Assumptions C47_split_covers_every_particle.

Example C47_ex : exists out', exr_run (fun l => l) = Ok out' /\ env_ok (exrE Bh) /\ 0 < g_warp ex_rocm /\ reachable exFO (exrE Bh) exr_tree /\ room (exrE Bh) exr_tree /\
  copies_fresh (exrE Bh) ex_rocm exr_tree /\ length (t_codes exr_tree) = 6 /\
  rocm_index ODx 6 (F64 1 0) (F64 1 0) = Ok 3%N /\ split_node 6 (crit_begins exr_tree) 3 = Ok (3, 3%N) /\
  exists cpu, acc_pot_dispatch exFO ODx (exrE Bh) (exFK false) (fun l => l) true QBoth exr_tree (F32 3 (-2)) (F32 1 0) (F32 0 0) [] exr_out = Ok cpu.
Proof.
  destruct exr_ok as [o Ho]. destruct exr_reachable as (H1 & H2 & H3 & H4 & H5 & H6). exists o. split; [exact Ho|]. split; [apply exrE_ok|].
  split; [cbn; lia|]. split; [exact H1|]. split; [exact H3|]. split; [intros _; exact H2|]. split; [exact H4|]. split; [exact H5|]. split; [exact H6|].
  assert (X : match acc_pot_dispatch exFO ODx (exrE Bh) (exFK false) (fun l => l) true QBoth exr_tree (F32 3 (-2)) (F32 1 0) (F32 0 0) [] exr_out with
    | Ok _ => True | _ => False end) by (vm_compute; exact I).
  destruct (acc_pot_dispatch _ _ _ _ _ _ _ _ _ _ _ _ _); [eauto|destruct X|destruct X].
Qed.

(** C47. Every result is written once: what is found at every place depends neither on the order in which CPU and devices write nor
    on what was there before; nor does the outcome (result, exception) of the call. *)
Theorem C47_split_scheduling :
  forall (F D : Type) (O : fops F) (OD : fops D) (npF : N -> D) (E : env) (K : platform F) (g : gpu)
    (ord ord' : list cnode -> list cnode) (order order' : list (@task F) -> list (@task F)) (ordered : bool) (q : quant) (t : @tree F)
    (theta G eps : F) (split : list D) (out out2 : list (list F))
    (HE : env_ok E) (HK : benign_shift K) (Hw : 0 < g_warp g) (Ht : reachable O E t) (Hroom : room E t) (Hcopy : copies_fresh E g t)
    (Hord : reorders ord) (Horder : reorders order) (Hord' : reorders ord') (Horder' : reorders order')
    (Hout : out_ok (length (t_codes t)) (nvecs_res E q) out) (Hout2 : out_ok (length (t_codes t)) (nvecs_res E q) out2),
  match hetero_dispatch O OD npF E K g ord order ordered q t theta G eps split out,
        hetero_dispatch O OD npF E K g ord' order' ordered q t theta G eps split out2 with
  | Ok o, Ok o2 => forall j k, j < nvecs_res E q -> k < length (t_codes t) -> nth_error (nth j o []) k = nth_error (nth j o2 []) k
  | Throw e, Throw e2 => e = e2
  | UB, UB => True
  | _, _ => False
  end.
Proof.
  intros F D O OD npF E K g ord ord' order order' ordered q t theta G eps split out out2 HE HK Hw Ht Hroom Hcopy Hord Horder Hord' Horder' Hout Hout2.
  exact (hetero_scheduling O OD npF E K g HE HK Hw ord order ord' order' ordered q t theta G eps split out out2 Ht Hroom Hcopy Hord Horder Hord' Horder' Hout Hout2).
Qed.
Print Assumptions C47_split_scheduling.

Example C47_scheduling_ex : reorders (@rev (@task (binary_float 24 128))) /\ out_ok 6 (nvecs_res (exrE Bh) QBoth) exr_out /\
  (exists out', exr_run (@rev _) = Ok out').
Proof.
  split; [intros l; apply Permutation_sym, Permutation_rev|]. split; [split; [reflexivity|repeat constructor]|].
  assert (X : match exr_run (@rev _) with Ok _ => True | _ => False end) by (vm_compute; exact I).
  destruct (exr_run (@rev _)); [eauto|destruct X|destruct X].
Qed.

(** C47. The results in the original order are those in the order of the tree, at the original indices. *)
Theorem C47_split_orders :
  forall (F D : Type) (O : fops F) (OD : fops D) (npF : N -> D) (E : env) (K : platform F) (g : gpu)
    (ord ord' : list cnode -> list cnode) (order order' : list (@task F) -> list (@task F)) (q : quant) (t : @tree F)
    (theta G eps : F) (split : list D) (out out2 o o2 : list (list F))
    (HE : env_ok E) (HK : benign_shift K) (Hw : 0 < g_warp g) (Ht : reachable O E t) (Hroom : room E t) (Hcopy : copies_fresh E g t)
    (Hord : reorders ord) (Horder : reorders order) (Hord' : reorders ord') (Horder' : reorders order')
    (Hout : out_ok (length (t_codes t)) (nvecs_res E q) out) (Hout2 : out_ok (length (t_codes t)) (nvecs_res E q) out2)
    (Hu : hetero_dispatch O OD npF E K g ord order false q t theta G eps split out = Ok o)
    (Ho : hetero_dispatch O OD npF E K g ord' order' true q t theta G eps split out2 = Ok o2),
  forall i p j, nth_error (t_perm t) i = Some p -> j < nvecs_res E q -> nth_error (nth j o2 []) p = nth_error (nth j o []) i.
Proof.
  intros F D O OD npF E K g ord ord' order order' q t theta G eps split out out2 o o2 HE HK Hw Ht Hroom Hcopy Hord Horder Hord' Horder' Hout Hout2 Hu Ho.
  exact (hetero_orders O OD npF E K g HE HK Hw ord order ord' order' q t theta G eps split out out2 o o2 Ht Hroom Hcopy Hord Horder Hord' Horder' Hout Hout2 Hu Ho).
Qed.
Print Assumptions C47_split_orders.

Example C47_orders_ex : exists o, hetero_dispatch exFO ODx np_float (exrE Bh) (exFK false) ex_rocm (fun l => l) (fun l => l) false QBoth exr_tree
  (F32 3 (-2)) (F32 1 0) (F32 0 0) exr_split exr_out = Ok o /\ nth_error (t_perm exr_tree) 0 <> Some 0.
Proof.
  assert (X : match hetero_dispatch exFO ODx np_float (exrE Bh) (exFK false) ex_rocm (fun l => l) (fun l => l) false QBoth exr_tree
    (F32 3 (-2)) (F32 1 0) (F32 0 0) exr_split exr_out with Ok _ => True | _ => False end) by (vm_compute; exact I).
  assert (Y : (hd 0 (t_perm exr_tree) =? 0) = false) by (vm_compute; reflexivity).
  destruct (hetero_dispatch _ _ _ _ _ _ _ _ _ _ _ _ _ _ _ _); [|destruct X|destruct X]. eexists. split; [reflexivity|].
  intros Z. destruct (t_perm exr_tree) as [|p l]; [discriminate|]. cbn in Y, Z. injection Z as ->. discriminate.
Qed.

(** C47. With valid parameters, an accepted split, working devices, and a number of particles that the floating-point type can represent, the call succeeds. *)
Theorem C47_split_succeeds :
  forall (F : Type) (O : fops F) (npF : N -> binary_float 53 1024) (E : env) (K : platform F) (g : gpu)
    (ord : list cnode -> list cnode) (order : list (@task F) -> list (@task F)) (ordered : bool) (q : quant) (t : @tree F)
    (theta G eps mv eps2 : F) (split : list (binary_float 53 1024)) (out : list (list F))
    (HE : env_ok E) (HK : benign_shift K) (Hw : 0 < g_warp g) (Ht : reachable O E t) (Hroom : room E t) (Hcopy : copies_fresh E g t)
    (Hord : reorders ord) (Horder : reorders order) (Hout : out_ok (length (t_codes t)) (nvecs_res E q) out)
    (Htheta : mac_value_of O E theta = Ok mv) (Heps : compute_eps2 O eps = Ok eps2) (HG : check_G_const O G = Ok tt)
    (Hpad : ffin O (pad_coord O E (t_box t) mv) = true) (Hsplit : check_split (F64ops false) split = Ok tt) (Hready : devices_ready E g t split)
    (Hn1 : is_finite (npF (N.of_nat (length (t_codes t)))) = true) (Hn2 : B2R (npF (N.of_nat (length (t_codes t)))) = IZR (Z.of_nat (length (t_codes t)))),
  exists out', hetero_dispatch O (F64ops false) npF E K g ord order ordered q t theta G eps split out = Ok out'.
Proof.
  intros F O npF E K g ord order ordered q t theta G eps mv eps2 split out HE HK Hw Ht Hroom Hcopy Hord Horder Hout Htheta Heps HG Hpad Hsplit Hready Hn1 Hn2.
  exact (hetero_succeeds O npF E K g HE HK Hw ord order ordered q t theta G eps mv eps2 split out Ht Hroom Hcopy Hord Horder Hout Htheta Heps HG Hpad Hsplit Hready Hn1 Hn2).
Qed.
Print Assumptions C47_split_succeeds.

(** The conversions of the code represent the number of particles exactly up to 2^53 and 2^24. *)
Theorem C47_count_exact :
  (forall n, (n < 2 ^ 53)%N -> is_finite (np_double n) = true /\ B2R (np_double n) = IZR (Z.of_N n)) /\
  (forall n, (n < 2 ^ 24)%N -> is_finite (np_float n) = true /\ B2R (np_float n) = IZR (Z.of_N n)).
Proof. exact (conj np_double_exact np_float_exact). Qed.
Print Assumptions C47_count_exact.

Example C47_succeeds_ex : devices_ready (ex3E Bh None) ex_cuda (exF_tree None) exc_split /\ check_split ODx exc_split = Ok tt /\
  (exists mv, mac_value_of exFO (ex3E Bh None) (F32 3 (-2)) = Ok mv /\ ffin exFO (pad_coord exFO (ex3E Bh None) (t_box (exF_tree None)) mv) = true) /\
  cuda_indices ODx 2100 (np_float 2100) [0; 50; 1075]%N exc_split = Ok (1, [50; 1066; 2100]%N) /\ run_cuda [50; 1066; 2100]%N = true.
Proof.
  split; [exact exc_ready|]. split; [vm_compute; reflexivity|]. split.
  - assert (X : match mac_value_of exFO (ex3E Bh None) (F32 3 (-2)) with Ok mv => ffin exFO (pad_coord exFO (ex3E Bh None) (t_box (exF_tree None)) mv) = true | _ => False end)
      by (vm_compute; reflexivity).
    destruct (mac_value_of _ _ _) as [mv|e|]; [|destruct X|destruct X]. eauto.
  - destruct exc_indices as (H1 & H2 & _). auto.
Qed.

(** C47. The call has no undefined behaviour: with ROCm for every split, with CUDA if the sum of the split values does not overflow. *)
Theorem C47_split_defined :
  forall (F : Type) (O : fops F) (npF : N -> binary_float 53 1024) (E : env) (K : platform F) (g : gpu)
    (ord : list cnode -> list cnode) (order : list (@task F) -> list (@task F)) (ordered : bool) (q : quant) (t : @tree F)
    (theta G eps : F) (split : list (binary_float 53 1024)) (out : list (list F))
    (HE : env_ok E) (HK : benign_shift K) (Hw : 0 < g_warp g) (Ht : reachable O E t) (Hroom : room E t) (Hcopy : copies_fresh E g t)
    (Hord : reorders ord) (Horder : reorders order) (Hout : out_ok (length (t_codes t)) (nvecs_res E q) out)
    (Hn : npF = np_double \/ npF = np_float) (Hn53 : (N.of_nat (length (t_codes t)) < 2 ^ 53)%N)
    (Hsum : g_backend g = Cuda -> is_finite (fold_left (fadd (F64ops false)) split (fofZ (F64ops false) 0%Z)) = true),
  hetero_dispatch O (F64ops false) npF E K g ord order ordered q t theta G eps split out <> UB.
Proof.
  intros F O npF E K g ord order ordered q t theta G eps split out HE HK Hw Ht Hroom Hcopy Hord Horder Hout Hn Hn53 Hsum.
  exact (hetero_no_ub O npF E K g HE HK Hw ord order ordered q t theta G eps split out Ht Hroom Hcopy Hord Horder Hout Hn Hn53 Hsum).
Qed.
Print Assumptions C47_split_defined.

Example C47_defined_ex : is_finite (fold_left (fadd ODx) exc_split (fofZ ODx 0%Z)) = true /\ length exc_split = 3.
Proof. vm_compute. auto. Qed.

(** C47. Without the last condition this is false: three split values, each of them accepted, whose sum overflows. *)
Theorem C47_split_sum_overflow_refuted : exists (split : list (binary_float 53 1024)) (begins : list N),
  check_split (F64ops false) split = Ok tt /\ sorted_codes begins /\ cuda_indices (F64ops false) 5000 (np_double 5000) begins split = UB.
Proof. exact overflow_witness. Qed.
Print Assumptions C47_split_sum_overflow_refuted.

(** C47, C25. In exact arithmetic, for every way to divide the work: every result is the sum over a partition of all the other particles
    into single ones and nodes that satisfy the acceptance criterion for this particle. *)
Theorem C47_split_sums :
  forall (D : Type) (OD : fops D) (npF : N -> D) (E : env) (K : platform R) (g : gpu)
    (ord : list cnode -> list cnode) (order : list (@task R) -> list (@task R)) (ordered : bool) (q : quant) (t : @tree R) (P : nat -> @prow R)
    (theta G eps : R) (split : list D) (out out' : list (list R))
    (HE : env_ok E) (HK : benign_shift K) (HX : exact_rsqrt K) (Hw : 0 < g_warp g) (Ht : reachable Rops E t) (Hroom : room E t) (Hcopy : copies_fresh E g t)
    (Hord : reorders ord) (Horder : reorders order) (Hout : out_ok (length (t_codes t)) (nvecs_res E q) out) (HP : particles_of t P)
    (Hcall : hetero_dispatch Rops OD npF E K g ord order ordered q t theta G eps split out = Ok out'),
  forall i, i < length (t_codes t) -> exists A Dl,
    Permutation (i :: Dl ++ flat_map node_idx A) (seq 0 (length (t_codes t))) /\
    (forall a, In a A -> In a (t_nodes t) /\ separated E t theta a (fst (P i)) /\
       p_mass (n_props a) = rsum (fun k => snd (P k)) (node_idx a) /\
       (p_mass (n_props a) <> 0%R -> forall j, j < dim (e_cfg E) ->
         (p_mass (n_props a) * nth j (p_com (n_props a)) 0 = rsum (fun k => snd (P k) * nth j (fst (P k)) 0) (node_idx a))%R)) /\
    forall j, j < nvecs_res E q -> nth_error (nth j out' []) (dst ordered t i) = Some (G *
      (rsum (fun k => pull (dim (e_cfg E)) q (eps * eps) j (P i) (P k)) Dl +
       rsum (fun a => pull (dim (e_cfg E)) q (eps * eps) j (P i) (p_com (n_props a), p_mass (n_props a))) A))%R.
Proof.
  intros D OD npF E K g ord order ordered q t P theta G eps split out out' HE HK HX Hw Ht Hroom Hcopy Hord Horder Hout HP Hcall.
  exact (hetero_sums OD npF E K g HE HK HX Hw ord order ordered q t P theta G eps split out out' Ht Hroom Hcopy Hord Horder Hout HP Hcall).
Qed.
Print Assumptions C47_split_sums.

Example C47_sums_ex : forall m, exists (t : @tree R) P out out',
  env_ok (exrE m) /\ benign_shift ex3_K /\ exact_rsqrt ex3_K /\ 0 < g_warp ex_rocm /\
  reachable Rops (exrE m) t /\ room (exrE m) t /\ copies_fresh (exrE m) ex_rocm t /\ length (t_codes t) = 4 /\ (0 < t_box t)%R /\ particles_of t P /\
  masses_nonneg t P /\ apart 0 P 4 /\ out_ok 4 (nvecs_res (exrE m) QBoth) out /\
  hetero_dispatch Rops ODx np_double (exrE m) ex3_K ex_rocm (fun l => l) (fun l => l) true QBoth t (1 / 2)%R 1%R 0%R exr3_split out = Ok out'.
Proof.
  intros m. destruct (exr3_call m (1 / 2)%R ltac:(lra)) as (t & P & out & out' & H). exists t, P, out, out'.
  split; [apply exrE_ok|]. split; [apply masked_benign|]. split; [exact ex3_exact|]. split; [cbn; lia|]. exact H.
Qed.

(** C47, C26. If no node satisfies the criterion for any particle, the results are the direct sums, however the work is divided. *)
Theorem C47_split_direct :
  forall (D : Type) (OD : fops D) (npF : N -> D) (E : env) (K : platform R) (g : gpu)
    (ord : list cnode -> list cnode) (order : list (@task R) -> list (@task R)) (ordered : bool) (q : quant) (t : @tree R) (P : nat -> @prow R)
    (theta G eps : R) (split : list D) (out out' : list (list R))
    (HE : env_ok E) (HK : benign_shift K) (HX : exact_rsqrt K) (Hw : 0 < g_warp g) (Ht : reachable Rops E t) (Hroom : room E t) (Hcopy : copies_fresh E g t)
    (Hord : reorders ord) (Horder : reorders order) (Hout : out_ok (length (t_codes t)) (nvecs_res E q) out) (HP : particles_of t P)
    (Hnone : forall a i, In a (t_nodes t) -> i < length (t_codes t) -> ~ separated E t theta a (fst (P i)))
    (Hcall : hetero_dispatch Rops OD npF E K g ord order ordered q t theta G eps split out = Ok out'),
  forall i j, i < length (t_codes t) -> j < nvecs_res E q ->
    nth_error (nth j out' []) (dst ordered t i) =
    Some (G * rsum (fun k => pull (dim (e_cfg E)) q (eps * eps) j (P i) (P k)) (filter (fun k => negb (k =? i)) (seq 0 (length (t_codes t)))))%R.
Proof.
  intros D OD npF E K g ord order ordered q t P theta G eps split out out' HE HK HX Hw Ht Hroom Hcopy Hord Horder Hout HP Hnone Hcall.
  exact (hetero_direct' OD npF E K g HE HK HX Hw ord order ordered q t P theta G eps split out out' Ht Hroom Hcopy Hord Horder Hout HP Hnone Hcall).
Qed.
Print Assumptions C47_split_direct.

Example C47_direct_ex : exists theta (t : @tree R) P out out', reachable Rops (exrE Bh) t /\ particles_of t P /\ length (t_codes t) = 4 /\
  (forall a i, In a (t_nodes t) -> i < length (t_codes t) -> ~ separated (exrE Bh) t theta a (fst (P i))) /\
  hetero_dispatch Rops ODx np_double (exrE Bh) ex3_K ex_rocm (fun l => l) (fun l => l) true QBoth t theta 1%R 0%R exr3_split out = Ok out'.
Proof.
  pose proof (pow2R_pos (cbitsc C3_64)) as Hp. set (w := pow2R (cbitsc C3_64)) in *.
  assert (S : (sqrt (INR (dim C3_64)) <= 2)%R).
  { rewrite <- (sqrt_square 2) by lra. apply sqrt_le_1; cbn; lra. }
  assert (T : (/ (2 * w) * sqrt (INR (dim C3_64)) * w <= 1)%R).
  { replace (/ (2 * w) * sqrt (INR (dim C3_64)) * w)%R with (sqrt (INR (dim C3_64)) / 2)%R by (field; lra). lra. }
  assert (Hth : (0 < / (2 * w))%R) by (apply Rinv_0_lt_compat; lra).
  destruct (exr3_call Bh (/ (2 * w))%R Hth) as (t & P & out & out' & H1 & H2 & H3 & H4 & H5 & H6 & H7 & H8 & H9 & H10).
  exists (/ (2 * w))%R, t, P, out, out'. split; [exact H1|]. split; [exact H6|]. split; [exact H4|]. split; [|exact H10].
  exact (small_theta (exrE Bh) (exrE_ok Bh) t P _ H1 H6 H7 H5 Hth T).
Qed.

(** The error bound for the potentials, however the work is divided. *)
Theorem C47_split_error :
  forall (D : Type) (OD : fops D) (npF : N -> D) (E : env) (K : platform R) (g : gpu)
    (ord : list cnode -> list cnode) (order : list (@task R) -> list (@task R)) (ordered : bool) (q : quant) (t : @tree R) (P : nat -> @prow R)
    (theta G eps : R) (split : list D) (out out' : list (list R))
    (HE : env_ok E) (HK : benign_shift K) (HX : exact_rsqrt K) (Hw : 0 < g_warp g) (Ht : reachable Rops E t) (Hroom : room E t) (Hcopy : copies_fresh E g t)
    (Hord : reorders ord) (Horder : reorders order) (Hout : out_ok (length (t_codes t)) (nvecs_res E q) out) (HP : particles_of t P)
    (Hmass : masses_nonneg t P) (Hbox : (0 < t_box t)%R) (Htheta : (0 < theta)%R) (Heps : (0 <= eps)%R) (Hapart : apart eps P (length (t_codes t)))
    (Hcall : hetero_dispatch Rops OD npF E K g ord order ordered q t theta G eps split out = Ok out'),
  forall i j, i < length (t_codes t) -> j < nvecs_res E q -> is_acc (dim (e_cfg E)) q j = false ->
    exists v, nth_error (nth j out' []) (dst ordered t i) = Some v /\
      (Rabs (v - G * direct E q eps P (length (t_codes t)) i j)
       <= theta * sqrt (INR (dim (e_cfg E))) * Rabs (G * direct E q eps P (length (t_codes t)) i j))%R.
Proof.
  intros D OD npF E K g ord order ordered q t P theta G eps split out out' HE HK HX Hw Ht Hroom Hcopy Hord Horder Hout HP Hmass Hbox Htheta Heps Hapart Hcall.
  exact (hetero_error OD npF E K g HE HK HX Hw ord order ordered q t P theta G eps split out out' Ht Hroom Hcopy Hord Horder Hout HP Hmass Hbox Htheta Heps Hapart Hcall).
Qed.
Print Assumptions C47_split_error.

(** C48. A kernel launch succeeds; whatever the outcome of the votes, the nodes treated by a thread contain every particle once. Those replaced by
    their centre of mass pass the test for all the threads of the warp and contain none of their particles; all others are leaves. *)
Theorem C48_kernel_accounts_for_all :
  forall (F : Type) (O : fops F) (E : env) (K : platform F) (t : @tree F) (ps : list (@prow F)) (mv eps2 : F) (q : quant) (G : F) (ws b e : nat)
    (HE : env_ok E) (Ht : reachable O E t) (Hps : rows_of E t ps) (Hws : 0 < ws) (Hbe : b <= e <= length (t_codes t)),
  exists rows, kernel_run O (e_cfg E) K ws q mv G eps2 (t_parts t) (t_codes t) (t_nodes t) b e = Ok rows /\ length rows = e - b /\
  forall i r, b <= i < e -> nth_error rows (i - b) = Some r ->
    exists idxs evs, In i idxs /\ (forall k, In k idxs -> b <= k < e) /\
    Permutation (flat_map (fun e => node_idx (ev_node e)) evs) (seq 0 (length (t_codes t))) /\
    (forall a, In (Approx a) evs -> In a (t_nodes t) /\ forall k, In k idxs ->
       ~ In k (node_idx a) /\ flt O (mac_lh O (n_props a) mv) (lane_dist2 O (p_com (n_props a)) (nth k ps ([], fofZ O 0%Z))) = true) /\
    (forall a, In (Direct a) evs -> In a (t_nodes t) /\ n_children a = 0) /\
    r = lane_scale O G (fold_left (lane_act O ps eps2 (lane_of O t ps i)) evs (row0 O (e_cfg E) q)).
Proof.
  intros F O E K t ps mv eps2 q G ws b e HE Ht Hps Hws Hbe.
  exact (kernel_accounts O E K ex_rocm HE (Nat.lt_0_succ 1) t ps mv eps2 q G ws b e Ht Hps Hws Hbe).
Qed.
Print Assumptions C48_kernel_accounts_for_all.

Example C48_ex : exists ps, reachable exFO (exrE Bh) exr_tree /\ rows_of (exrE Bh) exr_tree ps /\ length (t_codes exr_tree) = 6 /\
  exists rows, kernel_run exFO (e_cfg (exrE Bh)) (exFK true) 2 QBoth (F32 1 0) (F32 1 0) (F32 0 0) (t_parts exr_tree) (t_codes exr_tree) (t_nodes exr_tree) 1 6 = Ok rows.
Proof.
  destruct exr_reachable as (H1 & _ & _ & H4 & _).
  destruct (rows_exist exFO (exrE Bh) exr_tree (reachable_inv exFO (exrE Bh) (exrE_ok Bh) _ H1)) as (ps & Hps & _). exists ps.
  split; [exact H1|]. split; [exact Hps|]. split; [exact H4|].
  assert (X : match kernel_run exFO (e_cfg (exrE Bh)) (exFK true) 2 QBoth (F32 1 0) (F32 1 0) (F32 0 0) (t_parts exr_tree) (t_codes exr_tree) (t_nodes exr_tree) 1 6 with
    | Ok _ => True | _ => False end) by (vm_compute; exact I).
  destruct (kernel_run _ _ _ _ _ _ _ _ _ _ _ _ _); [eauto|destruct X|destruct X].
Qed.

(** C48. In exact arithmetic: every other particle once, in a single interaction or through an accepted node, itself never. *)
Theorem C48_kernel_sums :
  forall (E : env) (K : platform R) (t : @tree R) (P : nat -> @prow R) (theta mv eps : R) (q : quant) (G : R) (ws b e : nat)
    (HE : env_ok E) (Ht : reachable Rops E t) (HP : particles_of t P) (Hmv : mac_value_of Rops E theta = Ok mv) (Hws : 0 < ws) (Hbe : b <= e <= length (t_codes t)),
  exists rows, kernel_run Rops (e_cfg E) K ws q mv G (eps * eps)%R (t_parts t) (t_codes t) (t_nodes t) b e = Ok rows /\ length rows = e - b /\
  forall i r, b <= i < e -> nth_error rows (i - b) = Some r -> exists A Dl,
    Permutation (i :: Dl ++ flat_map node_idx A) (seq 0 (length (t_codes t))) /\
    (forall a, In a A -> In a (t_nodes t) /\ separated E t theta a (fst (P i)) /\
       p_mass (n_props a) = rsum (fun k => snd (P k)) (node_idx a) /\
       (p_mass (n_props a) <> 0%R -> forall j, j < dim (e_cfg E) ->
         (p_mass (n_props a) * nth j (p_com (n_props a)) 0 = rsum (fun k => snd (P k) * nth j (fst (P k)) 0) (node_idx a))%R)) /\
    forall j, j < nvecs_res E q -> nth_error (fst r ++ snd r) j = Some (G *
      (rsum (fun k => pull (dim (e_cfg E)) q (eps * eps) j (P i) (P k)) Dl +
       rsum (fun a => pull (dim (e_cfg E)) q (eps * eps) j (P i) (p_com (n_props a), p_mass (n_props a))) A))%R.
Proof.
  intros E K t P theta mv eps q G ws b e HE Ht HP Hmv Hws Hbe.
  exact (kernel_R E K ex_rocm HE (Nat.lt_0_succ 1) t P theta mv eps q G ws b e Ht HP Hmv Hws Hbe).
Qed.
Print Assumptions C48_kernel_sums.

Example C48_sums_ex : forall m, exists (t : @tree R) P mv, reachable Rops (exrE m) t /\ particles_of t P /\ length (t_codes t) = 4 /\ mac_value_of Rops (exrE m) (1 / 2)%R = Ok mv.
Proof.
  intros m. destruct (exr3_tree m) as (t & P & H1 & H2 & H3 & H4 & H5 & H6 & _). exists t, P.
  destruct (params_R ODx (exrE m) t (1 / 2)%R 1%R 0%R [] ltac:(lra) (Rle_refl 0) eq_refl (Nat.le_0_l 1)) as (M1 & _). eauto.
Qed.

(** C48. In floating-point arithmetic: the interaction of a thread with its own particle leaves the values as they are. *)
Theorem C48_no_self_interaction :
  forall (prec emax : Z) (Hprec : Prec_gt_0 prec) (Hemax : Prec_lt_emax prec emax) (fused : bool)
    (eps2 : binary_float prec emax) (i : nat) (code : N) (xs : list (binary_float prec emax)) (m : binary_float prec emax) (r : @rrow (binary_float prec emax))
    (Hp2 : (2 <= prec)%Z) (He : (prec + 2 <= emax)%Z) (Feps : is_finite eps2 = true) (Peps : (0 <= B2R eps2)%R)
    (Fx : Forall (fun x => is_finite x = true) xs) (Fm : is_finite m = true) (Fr : Forall (fun x => is_finite x = true) (fst r ++ snd r)) (Lr : length (fst r) <= length xs),
  let r' := lane_leaf (Bops prec emax Hprec Hemax fused) eps2 (mkLane i code (xs, m)) i (xs, m) r in
  Forall2 (fun x y => is_finite y = true /\ B2R y = B2R x) (fst r) (fst r') /\
  Forall2 (fun x y => is_finite y = true /\ B2R y = B2R x) (snd r) (snd r').
Proof.
  intros prec emax Hprec Hemax fused eps2 i code xs m r Hp2 He Feps Peps Fx Fm Fr Lr.
  exact (lane_self prec emax Hprec Hemax fused Hp2 He eps2 i code xs m r Feps Peps Fx Fm Fr Lr).
Qed.
Print Assumptions C48_no_self_interaction.

Example C48_self_ex : map (fun x => B2SF x) (fst (lane_leaf (F32ops true) (F32 1 (-3)) (mkLane 7 0%N ([F32 1 0; F32 3 (-2); F32 5 0], F32 9 0)) 7
    ([F32 1 0; F32 3 (-2); F32 5 0], F32 9 0) ([F32 3 0; F32 (-7) 1; F32 1 (-9)], [F32 11 0]))) = map (fun x => B2SF x) [F32 3 0; F32 (-7) 1; F32 1 (-9)] /\
  is_finite (F32 1 (-3)) = true.
Proof. vm_compute. auto. Qed.

(** C49. The indices are in order and at most the number of particles if this number is represented exactly. *)
Theorem C49_indices_bounded :
  forall (np : N) (npF : binary_float 53 1024) (begins : list N) (split : list (binary_float 53 1024)) (k : nat) (idx : list N)
    (Fn : is_finite npF = true) (Vn : B2R npF = IZR (Z.of_N np)) (Hnp : (np < 2 ^ 64)%N) (Hs : sorted_codes begins) (Hb : Forall (fun b => (b <= np)%N) begins)
    (Hsplit : check_split (F64ops false) split = Ok tt) (Hsum : is_finite (fold_left (fadd (F64ops false)) split (fofZ (F64ops false) 0%Z)) = true)
    (Hidx : cuda_indices (F64ops false) np npF begins split = Ok (k, idx)),
  sorted_codes idx /\ Forall (fun i => (i <= np)%N) idx.
Proof.
  intros np npF begins split k idx Fn Vn Hnp Hs Hb Hsplit Hsum Hidx.
  exact (cuda_indices_sorted 53 1024 prec64 emax64 false (proj1 (Z.leb_le 2 53) eq_refl) (proj1 (Z.leb_le 65 1024) eq_refl) np npF begins split k idx Fn Vn Hnp Hs Hb Hsplit Hsum Hidx).
Qed.
Print Assumptions C49_indices_bounded.

Example C49_bounded_ex : cuda_indices ODx 2100 (np_float 2100) [0; 50; 1075]%N exc_split = Ok (1, [50; 1066; 2100]%N) /\ (2100 < 2 ^ 24)%N.
Proof. destruct exc_indices as (H & _). split; [exact H|reflexivity]. Qed.

(** C49. ROCm: the index is at most the number of particles, for all accepted splits. *)
Theorem C49_rocm_index_bounded :
  forall (np : N) (s0 s1 : binary_float 53 1024) (Hnp : (np < 2 ^ 53)%N) (Hsplit : check_split (F64ops false) [s0; s1] = Ok tt),
  exists i, rocm_index (F64ops false) np s0 s1 = Ok i /\ (i <= np)%N.
Proof.
  intros np s0 s1 Hnp Hsplit.
  exact (rocm_index_ok 53 1024 prec64 emax64 false (proj1 (Z.leb_le 2 53) eq_refl) (proj1 (Z.leb_le 65 1024) eq_refl) np s0 s1 Hnp (Z.le_refl 53) Hsplit).
Qed.
Print Assumptions C49_rocm_index_bounded.

Example C49_rocm_ex : check_split ODx [F64 1 1023; F64 1 1023] = Ok tt /\ rocm_index ODx 1000 (F64 1 1023) (F64 1 1023) = Ok 0%N /\
  rocm_index ODx 1000 (F64 3 0) (F64 1 0) = Ok 750%N.
Proof. vm_compute. auto. Qed.

(** C49. In single precision an index can be larger than the number of particles; the call then fails with [std::bad_alloc] although the split was accepted. *)
Theorem C49_indices_bounded_refuted : exists (np : N) (begins : list N) (split : list (binary_float 53 1024)) (k : nat) (idx : list N) (i : N),
  check_split (F64ops false) split = Ok tt /\ is_finite (fold_left (fadd (F64ops false)) split (fofZ (F64ops false) 0%Z)) = true /\
  sorted_codes begins /\ Forall (fun b => (b < np)%N) begins /\
  cuda_indices (F64ops false) np (np_float np) begins split = Ok (k, idx) /\ In i idx /\ (np < i)%N /\
  run_cuda idx = true /\ cuda_checks 4 100 idx = Throw BadAlloc.
Proof. exact index_witness. Qed.
Print Assumptions C49_indices_bounded_refuted.
