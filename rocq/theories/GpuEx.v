(** Trees and devices for the examples about the accelerators. Nothing here models code. *)
From Coq Require Import List Arith ZArith NArith Bool Reals Lra Lia Permutation.
From Flocq Require Import Core BinarySingleNaN.
From Verif Require Import Base Config Morton Build TreeSpec FOps Disc NodeProps Tree TreeInv TreeProofs TreeSafe TreeProps TreeEx Kernels Force
  NodesR TravProofs KernR ForceGen ForceOut ForceTop ForceRTop ForceMore ForceEx Gpu GpuKernel GpuOut GpuTop GpuSplit GpuMain.
Import ListNotations.
Local Open Scope nat_scope.

Notation D64 := (binary_float 53 1024).
Notation ODx := (F64ops false).

(** A ROCm device with warps of two threads, two CUDA devices. *)
Definition ex_rocm : gpu := mkGpu Rocm true 4 2 1 None.
Definition ex_cuda : gpu := mkGpu Cuda true 4 32 2 None.

Definition exrE (m : mac) : env := mkEnv C3_64 m None 128 true [].
Lemma exrE_ok : forall m, env_ok (exrE m).
Proof. intros m. split; cbn; [lia|discriminate]. Qed.

(** Six particles, half of them for the device. *)
Definition exr_all := run exFO (exrE Bh) [exF_op] [].
Definition exr_tree := match exr_all with Ok (t :: _) => t | _ => default_tree exFO (exrE Bh) end.
Definition exr_split : list D64 := [F64 1 0; F64 1 0].

Definition exr_out : list (list (binary_float 24 128)) := repeat (repeat (F32 0 0) 6) 4.
Definition exr_run (order : list (@task (binary_float 24 128)) -> list (@task (binary_float 24 128))) :=
  hetero_dispatch exFO ODx np_float (exrE Bh) (exFK false) ex_rocm (fun l => l) order true QBoth exr_tree (F32 3 (-2)) (F32 1 0) (F32 0 0) exr_split exr_out.

Lemma exr_reachable : reachable exFO (exrE Bh) exr_tree /\ view_fresh (exrE Bh) exr_tree /\ room (exrE Bh) exr_tree /\ length (t_codes exr_tree) = 6 /\
  rocm_index ODx 6 (F64 1 0) (F64 1 0) = Ok 3%N /\ split_node 6 (crit_begins exr_tree) 3 = Ok (3, 3%N).
Proof.
  unfold exr_tree.
  assert (G : match exr_all with Ok [t] => length (t_codes t) = 6 /\ split_node 6 (crit_begins t) 3 = Ok (3, 3%N) | _ => False end).
  { vm_compute; auto. }
  destruct exr_all as [[|t [|u w]]|e|] eqn:R; try contradiction. unfold exr_all in R. destruct G as [G1 G2].
  assert (HO : Forall (op_ok (exrE Bh)) [exF_op]) by (constructor; [split; [apply ex_sched_ok|reflexivity]|constructor]).
  split; [exists [exF_op], [t]; split; [exact HO|]; split; [exact R|now left]|].
  split; [|split; [unfold room; rewrite G1; vm_compute; discriminate|]; split; [exact G1|]; split; [vm_compute; reflexivity|exact G2]].
  assert (X : Forall (view_fresh (exrE Bh)) [t]).
  { apply (fresh_run exFO (exrE Bh) (exrE_ok Bh)) with (ops := [exF_op]); [exact HO| |exact R]. intros i ord f [H|[]]. discriminate. }
  now inversion X.
Qed.

Lemma exr_ok : exists out', exr_run (fun l => l) = Ok out'.
Proof.
  assert (X : match exr_run (fun l => l) with Ok _ => True | _ => False end) by (vm_compute; exact I).
  destruct (exr_run (fun l => l)); [eauto|destruct X|destruct X].
Qed.

(** The same particles for two CUDA devices. There are too few of them, so the CPU does all the work; for more particles
    the devices get their shares, see [exc_indices]. *)
Definition exc_split : list D64 := [F64 1 (-5); F64 1 0; F64 1 0].

Lemma exc_ready : devices_ready (ex3E Bh None) ex_cuda (exF_tree None) exc_split.
Proof.
  assert (X : (nparts (exF_tree None) <=? 6) && (length (t_nodes (exF_tree None)) <=? 100) = true) by (vm_compute; reflexivity).
  apply andb_true_iff in X as [X1 X2]. apply Nat.leb_le in X1, X2.
  split; [reflexivity|]. split; [reflexivity|]. split; [unfold int_max; lia|].
  cbn [g_backend ex_cuda g_fsize g_ndev]. split; [unfold int_max; lia|]. split; [split; [reflexivity|discriminate]|]. split; [cbn; lia|]. intros _. vm_compute. reflexivity.
Qed.

Lemma exc_indices : cuda_indices ODx 2100 (np_float 2100) [0; 50; 1075]%N exc_split = Ok (1, [50; 1066; 2100]%N) /\
  run_cuda [50; 1066; 2100]%N = true /\ cuda_checks 4 62 [50; 1066; 2100]%N = Ok tt.
Proof. vm_compute. auto. Qed.

(** Exact arithmetic, for a ROCm device. *)
Lemma exr3_tree : forall m, exists (t : @tree R) P, reachable Rops (exrE m) t /\ room (exrE m) t /\ view_fresh (exrE m) t /\
  length (t_codes t) = 4 /\ t_box t = 1%R /\ particles_of t P /\ masses_nonneg t P /\ apart 0 P 4.
Proof.
  intros m. set (E := exrE m).
  assert (HE : env_ok E) by apply exrE_ok.
  assert (Hg : given_table E (Ranges ex3_cols) 4).
  { split; [|exact I]. split; [reflexivity|]. repeat constructor. }
  assert (CT : exists t, generic_ctor Rops E (ex_sched false) (Some 1%R) (Ranges ex3_cols) (Some 1) (Some 2) = Ok t).
  { destruct (ctor_R E (ex_sched false) (Some 1%R) (Ranges ex3_cols) (Some 1) (Some 2) 4) as [H _]; auto.
    - apply ex_sched_ok.
    - vm_compute. discriminate.
    - vm_compute. reflexivity.
    - discriminate.
    - discriminate.
    - destruct (H 1%R eq_refl ltac:(lra)) as [[_ H1] _]. apply H1.
      intros col x Hc Hx. cbn [e_cfg E exrE dim given ex3_cols firstn] in Hc.
      destruct Hc as [<-|[<-|[<-|[]]]]; cbn [In] in Hx; decompose [or] Hx; subst; try lra; contradiction. }
  destruct CT as [t Ht]. exists t.
  set (o := OConstruct (ex_sched false) (Some 1%R) (Ranges ex3_cols) (Some 1) (Some 2)).
  assert (HO : Forall (op_ok E) [o]) by (constructor; [split; [apply ex_sched_ok|reflexivity]|constructor]).
  assert (HR : run Rops E [o] [] = Ok [t]) by (unfold run; cbn [foldM step o]; rewrite Ht; reflexivity).
  assert (Hr : reachable Rops E t) by (exists [o], [t]; split; [exact HO|]; split; [exact HR|now left]).
  assert (Hf : view_fresh E t).
  { assert (X : Forall (view_fresh E) [t]); [|now inversion X]. apply (fresh_run Rops E HE) with (ops := [o]); [exact HO| |exact HR]. intros i ord f [H|[]]. discriminate. }
  destruct (construction Rops E _ _ (Ranges ex3_cols) _ _ _ (ex_sched_ok R false) eq_refl Ht) as (n & Hn & Hc & Hp & _ & _ & Hparts & _ & _ & _ & Hb).
  assert (Hn4 : n = 4) by (inversion Hn as [|? ? Hl _]; symmetry; exact Hl). rewrite Hn4 in *.
  exists (fun i => ex3_P (nth i (t_perm t) 0)).
  pose proof (Permutation_length Hp) as Lp. rewrite seq_length in Lp.
  assert (Lt : forall i, i < 4 -> nth i (t_perm t) 0 < 4).
  { intros i Hi. assert (In (nth i (t_perm t) 0) (seq 0 4)) by (apply (Permutation_in _ Hp), nth_In; lia). apply in_seq in H. lia. }
  split; [exact Hr|]. split; [unfold room; rewrite Hc; vm_compute; discriminate|]. split; [exact Hf|]. split; [exact Hc|]. split; [now apply Hb|].
  split; [|split].
  - intros i Hi. rewrite Hc in Hi. specialize (Lt i Hi). assert (Hk : nth_error (t_perm t) i = Some (nth i (t_perm t) 0)) by (apply nth_error_nth'; lia).
    exact (permuted_row (t_perm t) ex3_cols (t_parts t) i _ 0%R Hparts Hk).
  - intros i Hi. rewrite Hc in Hi. specialize (Lt i Hi). destruct (nth i (t_perm t) 0) as [|[|[|[|k]]]]; [| | | |lia]; cbn; lra.
  - intros i k Hi Hk N. right. assert (NK : nth i (t_perm t) 0 <> nth k (t_perm t) 0).
    { intros Z. apply N. assert (ND : NoDup (t_perm t)) by (apply (Permutation_NoDup (Permutation_sym Hp)), seq_NoDup).
      apply (proj1 (List.NoDup_nth (t_perm t) 0) ND); [lia|lia|exact Z]. }
    pose proof (Lt i Hi) as L1. pose proof (Lt k Hk) as L2. revert NK L1 L2. generalize (nth i (t_perm t) 0) (nth k (t_perm t) 0). intros a b.
    destruct a as [|[|[|[|a]]]]; [| | | |lia]; (destruct b as [|[|[|[|b]]]]; [| | | |lia]); intros NK _ _; try lia;
      cbn; intros Z; pose proof (f_equal (fun l => nth 0 l 0%R) Z) as Z1; pose proof (f_equal (fun l => nth 1 l 0%R) Z) as Z2;
      pose proof (f_equal (fun l => nth 2 l 0%R) Z) as Z3; cbn in Z1, Z2, Z3; lra.
Qed.

(** The call on this tree with the work divided 1 : 3 succeeds. *)
Definition exr3_split : list D64 := [F64 1 0; F64 3 0].

Lemma exr3_call : forall m (theta : R), (0 < theta)%R -> exists (t : @tree R) P out out',
  reachable Rops (exrE m) t /\ room (exrE m) t /\ copies_fresh (exrE m) ex_rocm t /\ length (t_codes t) = 4 /\ (0 < t_box t)%R /\ particles_of t P /\
  masses_nonneg t P /\ apart 0 P 4 /\ out_ok 4 (nvecs_res (exrE m) QBoth) out /\
  hetero_dispatch Rops ODx np_double (exrE m) ex3_K ex_rocm (fun l => l) (fun l => l) true QBoth t theta 1%R 0%R exr3_split out = Ok out'.
Proof.
  intros m theta Hth. destruct (exr3_tree m) as (t & P & H1 & H2 & H3 & H4 & H5 & H6 & H7 & H8). exists t, P, (repeat (repeat 0%R 4) 4).
  assert (Ho : out_ok 4 (nvecs_res (exrE m) QBoth) (repeat (repeat 0%R 4) 4)) by (split; [reflexivity|repeat constructor]).
  assert (Hnp : nparts t = 4) by (rewrite (nparts_codes Rops (exrE m)) by (now apply reachable_inv; [apply exrE_ok|]); exact H4).
  assert (Hs : check_split ODx exr3_split = Ok tt) by (vm_compute; reflexivity).
  destruct (params_R ODx (exrE m) t theta 1%R 0%R [] Hth (Rle_refl 0) eq_refl (Nat.le_0_l 1)) as (M1 & M2 & M3 & _ & _ & M4).
  assert (Hready : devices_ready (exrE m) ex_rocm t exr3_split).
  { split; [reflexivity|]. split; [reflexivity|]. rewrite Hnp. split; [vm_compute; discriminate|].
    cbn [g_backend ex_rocm]. split; [reflexivity|]. split; [exact H3|]. cbn. lia. }
  assert (Hcopy : copies_fresh (exrE m) ex_rocm t) by (intros _; exact H3).
  destruct (np_double_exact 4 eq_refl) as [N1 N2].
  destruct (hetero_succeeds Rops np_double (exrE m) ex3_K ex_rocm (exrE_ok m) (masked_benign R None 64%N) (le_n_S _ _ (Nat.le_0_l _)) (fun l => l) (fun l => l) true QBoth t theta 1%R 0%R (match e_mac (exrE m) with Bh => (1 / (theta * theta))%R | BhGeom => (1 / theta)%R end) (0 * 0)%R exr3_split (repeat (repeat 0%R 4) 4)
    H1 H2 Hcopy (fun l => Permutation_refl l) (fun l => Permutation_refl l)) as (out' & Hd).
  { rewrite H4. exact Ho. } { exact M1. } { exact M2. } { exact M3. } { exact M4. } { exact Hs. } { exact Hready. } { rewrite H4. exact N1. } { rewrite H4. exact N2. }
  exists out'. split; [exact H1|]. split; [exact H2|]. split; [exact Hcopy|]. split; [exact H4|]. split; [lra|]. auto.
Qed.

(** The sum of the split values overflows. *)
Lemma overflow_witness : exists (split : list D64) (begins : list N),
  check_split ODx split = Ok tt /\ sorted_codes begins /\ cuda_indices ODx 5000 (np_double 5000) begins split = UB.
Proof.
  exists [F64 1 1023; F64 1 1023; F64 1 0], [0]%N. split; [vm_compute; reflexivity|]. split; [|vm_compute; reflexivity].
  intros i j x y Hij Hx Hy. destruct i as [|i]; [|now destruct i]. destruct j as [|j]; [|now destruct j]. rewrite Hx in Hy. injection Hy as ->. reflexivity.
Qed.

(** 2^24 + 3 particles, one more after the rounding to single precision. *)
Lemma index_witness : exists (np : N) (begins : list N) (split : list D64) (k : nat) (idx : list N) (i : N),
  check_split ODx split = Ok tt /\ is_finite (fold_left (fadd ODx) split (fofZ ODx 0%Z)) = true /\
  sorted_codes begins /\ Forall (fun b => (b < np)%N) begins /\
  cuda_indices ODx np (np_float np) begins split = Ok (k, idx) /\ In i idx /\ (np < i)%N /\
  run_cuda idx = true /\ cuda_checks 4 100 idx = Throw BadAlloc.
Proof.
  exists 16777219%N, [0; 9000000]%N, [F64 1 (-1); F64 1 (-1); F64 0 0], 1, [9000000; 16777220; 16777219]%N, 16777220%N.
  split; [vm_compute; reflexivity|]. split; [vm_compute; reflexivity|]. split.
  { intros i j x y Hij Hx Hy. destruct i as [|[|i]]; [| |now destruct i]; (destruct j as [|[|j]]; [| |now destruct j]); cbn in Hx, Hy; injection Hx as <-; injection Hy as <-; lia. }
  split; [repeat constructor|]. split; [vm_compute; reflexivity|]. split; [now right; left|]. split; [reflexivity|]. split; vm_compute; reflexivity.
Qed.
