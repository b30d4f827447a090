(** The results of the calls with accelerators. *)
From Coq Require Import List Arith NArith ZArith Lia Bool Reals Lra Permutation.
From Flocq Require Import Core BinarySingleNaN.
From Verif Require Import Base Config Morton Build TreeSpec BuildSpec BuildProofs FOps FOpsProofs Disc NodeProps Tree TreeInv TreeProofs TreeSafe Kernels Force
  TravProofs KernLoops RSum NodeGeom NodesR KernR ForceGen ForceOut ForceR ForceTop ForceRTop ForceMore ForceAcc Gpu GpuKernel GpuOut GpuTop GpuSplit GpuR.
Import ListNotations.
Local Open Scope nat_scope.

(** The copies of the data on the ROCm device are up to date (see C55). *)
Definition copies_fresh {F} (E : env) (g : gpu) (t : @tree F) : Prop := g_backend g = Rocm -> view_fresh E t.

Lemma fresh_copy : forall {F} (E : env) (g : gpu) (t : @tree F), copies_fresh E g t -> copy_ok g t.
Proof.
  intros F E g t H Hb v Hv. specialize (H Hb). unfold view_fresh in H. rewrite H in Hv. destruct (e_rocm E); [now injection Hv as <-|discriminate].
Qed.

Section Gen.

Context {F : Type}.
Variable O : fops F.
Context {D : Type}.
Variable OD : fops D.
Variable npF : N -> D.
Variable E : env.
Variable K : platform F.
Variable g : gpu.
Hypothesis HE : env_ok E.
Hypothesis HK : benign_shift K.
Hypothesis Hw : 0 < g_warp g.

Notation n t := (length (t_codes t)).

(** C47: whenever the call returns, every particle has got its result, from the CPU or from a device. *)
Lemma hetero_covers : forall ord order ordered q t ps theta G eps split out out', reachable O E t -> room E t -> copies_fresh E g t -> rows_of E t ps ->
  reorders ord -> reorders order -> out_ok (n t) (nvecs_res E q) out ->
  hetero_dispatch O OD npF E K g ord order ordered q t theta G eps split out = Ok out' ->
  exists mv eps2 b vals, mac_value_of O E theta = Ok mv /\ compute_eps2 O eps = Ok eps2 /\ b <= n t /\
    (forall i, i < b -> vals i = result_row O E K q t mv G eps2 i) /\
    (forall i, b <= i < n t -> from_device O E t ps mv eps2 q G b i (vals i)) /\
    writes_vals E t ordered q vals out out'.
Proof.
  intros ord order ordered q t ps theta G eps split out out' Hreach Hroom Hcopy Hps H1 H2 Ho Hd.
  destruct (hetero_plan O OD npF E K g HE HK Hw t ps q theta G eps split (reachable_inv O E HE t Hreach) Hroom (fresh_copy E g t Hcopy) Hps)
    as (pl & _ & V & _ & X). specialize (X ord order ordered out H1 H2 Ho). rewrite Hd in X.
  destruct pl as [vals|e|]; [|discriminate|discriminate]. destruct X as (o & [= <-] & W).
  destruct (V vals eq_refl) as (mv & eps2 & (P1 & P2 & _) & _ & b & B1 & B2 & B3). exists mv, eps2, b, vals. auto 10.
Qed.

(** The results depend neither on the scheduling of the tasks nor on the values in the output ranges. *)
Lemma hetero_scheduling : forall ord order ord' order' ordered q t theta G eps split out out2, reachable O E t -> room E t -> copies_fresh E g t ->
  reorders ord -> reorders order -> reorders ord' -> reorders order' -> out_ok (n t) (nvecs_res E q) out -> out_ok (n t) (nvecs_res E q) out2 ->
  match hetero_dispatch O OD npF E K g ord order ordered q t theta G eps split out,
        hetero_dispatch O OD npF E K g ord' order' ordered q t theta G eps split out2 with
  | Ok o, Ok o2 => forall j k, j < nvecs_res E q -> k < n t -> nth_error (nth j o []) k = nth_error (nth j o2 []) k
  | Throw e, Throw e2 => e = e2
  | UB, UB => True
  | _, _ => False
  end.
Proof.
  intros ord order ord' order' ordered q t theta G eps split out out2 Hreach Hroom Hcopy H1 H2 H1' H2' Ho Ho'.
  pose proof (reachable_inv O E HE t Hreach) as Ht. destruct (rows_exist O E t Ht) as (ps & Hps & _).
  destruct (hetero_plan O OD npF E K g HE HK Hw t ps q theta G eps split Ht Hroom (fresh_copy E g t Hcopy) Hps)
    as (pl & _ & _ & _ & X). pose proof (X ord order ordered out H1 H2 Ho) as A. pose proof (X ord' order' ordered out2 H1' H2' Ho') as B.
  destruct pl as [vals|e|]; cbn [outcome_as] in A, B; [|now rewrite A, B|now rewrite A, B].
  destruct A as (o & -> & _ & A & _). destruct B as (o2 & -> & _ & B & _). intros j k Hj Hk.
  destruct (dst_onto O E ordered t Ht k Hk) as (i & Hi & ->). now rewrite A, B.
Qed.

(** The two orders of the results correspond. *)
Lemma hetero_orders : forall ord order ord' order' q t theta G eps split out out2 o o2, reachable O E t -> room E t -> copies_fresh E g t ->
  reorders ord -> reorders order -> reorders ord' -> reorders order' -> out_ok (n t) (nvecs_res E q) out -> out_ok (n t) (nvecs_res E q) out2 ->
  hetero_dispatch O OD npF E K g ord order false q t theta G eps split out = Ok o ->
  hetero_dispatch O OD npF E K g ord' order' true q t theta G eps split out2 = Ok o2 ->
  forall i p j, nth_error (t_perm t) i = Some p -> j < nvecs_res E q -> nth_error (nth j o2 []) p = nth_error (nth j o []) i.
Proof.
  intros ord order ord' order' q t theta G eps split out out2 o o2 Hreach Hroom Hcopy H1 H2 H1' H2' Ho Ho' D1 D2 i p j Hp Hj.
  pose proof (reachable_inv O E HE t Hreach) as Ht. destruct (rows_exist O E t Ht) as (ps & Hps & _).
  destruct (hetero_plan O OD npF E K g HE HK Hw t ps q theta G eps split Ht Hroom (fresh_copy E g t Hcopy) Hps)
    as (pl & _ & _ & _ & X). pose proof (X ord order false out H1 H2 Ho) as A. pose proof (X ord' order' true out2 H1' H2' Ho') as B. rewrite D1 in A. rewrite D2 in B.
  destruct pl as [vals|e|]; cbn [outcome_as] in A, B; try discriminate.
  destruct A as (o' & [= <-] & _ & A & _). destruct B as (o2' & [= <-] & _ & B & _).
  assert (Hi : i < n t). { pose proof (nth_error_lt _ _ _ Hp) as L. pose proof (Permutation_length (inv_perm O E t Ht)) as L1. rewrite seq_length in L1. lia. }
  specialize (A j i Hj Hi). specialize (B j i Hj Hi). unfold dst in A, B. rewrite (nth_error_nth _ _ _ Hp) in B. now rewrite A, B.
Qed.

(** The same results as those of the CPU, for the part of the CPU. *)
Lemma hetero_cpu_part : forall ord order ord2 ordered q t ps theta G eps split out out2 out' cpu, reachable O E t -> room E t -> copies_fresh E g t -> rows_of E t ps ->
  reorders ord -> reorders order -> reorders ord2 -> out_ok (n t) (nvecs_res E q) out -> out_ok (n t) (nvecs_res E q) out2 ->
  hetero_dispatch O OD npF E K g ord order ordered q t theta G eps split out = Ok out' ->
  acc_pot_dispatch O OD E K ord2 ordered q t theta G eps [] out2 = Ok cpu ->
  exists b mv eps2, b <= n t /\ mac_value_of O E theta = Ok mv /\ compute_eps2 O eps = Ok eps2 /\
    (forall j i, j < nvecs_res E q -> i < b -> nth_error (nth j out' []) (dst ordered t i) = nth_error (nth j cpu []) (dst ordered t i)) /\
    (forall i, b <= i < n t -> exists idxs r, In i idxs /\ (forall k, In k idxs -> b <= k < n t) /\ lane_result O E t ps mv eps2 q G idxs i r /\
       forall j, j < nvecs_res E q -> nth_error (nth j out' []) (dst ordered t i) = nth_error (fst r ++ snd r) j) /\
    (forall j k, n t <= k -> nth_error (nth j out' []) k = nth_error (nth j out []) k) /\
    (forall j, length (nth j out' []) = length (nth j out [])).
Proof.
  intros ord order ord2 ordered q t ps theta G eps split out out2 out' cpu Hreach Hroom Hcopy Hps H1 H2 H3 Ho Ho2 Hd Hcpu.
  pose proof (reachable_inv O E HE t Hreach) as Ht.
  destruct (hetero_covers ord order ordered q t ps theta G eps split out out' Hreach Hroom Hcopy Hps H1 H2 Ho Hd) as (mv & eps2 & b & vals & M1 & M2 & B1 & B2 & B3 & W1 & W2 & W3 & W4).
  exists b, mv, eps2. split; [exact B1|]. split; [exact M1|]. split; [exact M2|]. split; [|split; [|split; [exact W3|exact W4]]].
  - intros j i Hj Hi. rewrite W2, B2 by lia.
    assert (Hp : params O OD E t theta G eps [] mv eps2).
    { split; [exact M1|]. split; [exact M2|]. unfold acc_pot_dispatch in Hcpu. rewrite M1 in Hcpu. cbn [bind] in Hcpu. rewrite M2 in Hcpu. cbn [bind] in Hcpu.
      destruct (check_G_const O G) as [[]|e|]; cbn [bind] in Hcpu; [|discriminate|discriminate]. split; [reflexivity|].
      assert (Hs : check_split OD [] = Ok tt) by reflexivity. split; [exact Hs|]. split; [apply Nat.le_0_l|].
      destruct (ffin O (pad_coord O E (t_box t) mv)) eqn:Ep; [reflexivity|exfalso].
      assert (X : forall dest, acc_pot_impl O OD E K ord2 q t mv G eps2 [] dest out2 = Throw InvalidArgument).
      { intros dest. unfold acc_pot_impl. rewrite Hs. cbn [bind length Nat.ltb Nat.leb]. unfold cpu_run. cbv zeta. now rewrite Ep. }
      destruct ordered; [destruct (it_diff_check (nparts t)); cbn [bind] in Hcpu; [|discriminate|discriminate]|]; rewrite X in Hcpu; discriminate. }
    destruct (dispatch_ok O OD E K HE HK ord2 ordered q t theta G eps [] mv eps2 out2 Ht Hroom H3 Hp Ho2) as (cpu' & E1 & _ & V & _).
    rewrite E1 in Hcpu. injection Hcpu as ->. now rewrite V by lia.
  - intros i Hi. destruct (B3 i Hi) as (idxs & r & I1 & I2 & I3 & I4). exists idxs, r. split; [exact I1|]. split; [exact I2|]. split; [exact I3|].
    intros j Hj. rewrite W2 by lia. now rewrite I4.
Qed.

(** C48: what a thread accounts for. *)
Lemma lane_accounts : forall t ps mv eps2 q G idxs i r, tree_inv O E t -> lane_result O E t ps mv eps2 q G idxs i r ->
  exists evs, Permutation (flat_map (fun e => node_idx (ev_node e)) evs) (seq 0 (n t)) /\
    (forall a, In (Approx a) evs -> In a (t_nodes t) /\ forall k, In k idxs ->
       ~ In k (node_idx a) /\ flt O (mac_lh O (n_props a) mv) (lane_dist2 O (p_com (n_props a)) (nth k ps ([], fofZ O 0%Z))) = true) /\
    (forall a, In (Direct a) evs -> In a (t_nodes t) /\ n_children a = 0) /\
    r = lane_scale O G (fold_left (lane_act O ps eps2 (lane_of O t ps i)) evs (row0 O (e_cfg E) q)).
Proof.
  intros t ps mv eps2 q G idxs i r Ht (evs & HT & Hev & ->). exists evs. rewrite Forall_forall in Hev. split; [|split; [|split; [|reflexivity]]].
  - destruct (tiles_seq _ _ _ HT) as [_ S1].
    assert (FM : forall l : list (@event F), flat_map (fun x => seq (fst x) (snd x - fst x)) (map ev_range l) = flat_map (fun e => node_idx (ev_node e)) l).
    { induction l as [|e l IH]; [reflexivity|]. cbn [map flat_map]. rewrite IH. destruct e; reflexivity. }
    rewrite FM, Nat.sub_0_r in S1. rewrite <- S1. apply Permutation_refl.
  - intros a Ha. destruct (Hev _ Ha) as [Hn Hv]. cbn [ev_node] in Hn. split; [exact Hn|]. intros k Hk.
    pose proof (Hv _ (in_map (lane_of O t ps) _ _ Hk)) as V. unfold vote in V. apply andb_true_iff in V as [V1 V2]. cbn [lane_of l_idx l_p] in V1, V2.
    split; [|exact V2]. apply negb_true_iff in V1. intros Hin. apply in_seq in Hin. unfold inside in V1.
    apply andb_false_iff in V1 as [V1|V1]; [apply Nat.leb_gt in V1|apply Nat.ltb_ge in V1]; lia.
  - intros a Ha. exact (Hev _ Ha).
Qed.

Lemma kernel_accounts : forall t ps mv eps2 q G ws b e, reachable O E t -> rows_of E t ps -> 0 < ws -> b <= e <= n t ->
  exists rows, kernel_run O (e_cfg E) K ws q mv G eps2 (t_parts t) (t_codes t) (t_nodes t) b e = Ok rows /\ length rows = e - b /\
  forall i r, b <= i < e -> nth_error rows (i - b) = Some r ->
    exists idxs evs, In i idxs /\ (forall k, In k idxs -> b <= k < e) /\
    Permutation (flat_map (fun e => node_idx (ev_node e)) evs) (seq 0 (n t)) /\
    (forall a, In (Approx a) evs -> In a (t_nodes t) /\ forall k, In k idxs ->
       ~ In k (node_idx a) /\ flt O (mac_lh O (n_props a) mv) (lane_dist2 O (p_com (n_props a)) (nth k ps ([], fofZ O 0%Z))) = true) /\
    (forall a, In (Direct a) evs -> In a (t_nodes t) /\ n_children a = 0) /\
    r = lane_scale O G (fold_left (lane_act O ps eps2 (lane_of O t ps i)) evs (row0 O (e_cfg E) q)).
Proof.
  intros t ps mv eps2 q G ws b e Hreach Hps Hws Hbe. pose proof (reachable_inv O E HE t Hreach) as Ht.
  destruct (kernel_run_spec O E K t Ht ps Hps mv eps2 q G ws b e Hws Hbe) as (rows & E1 & L & V). exists rows. split; [exact E1|]. split; [exact L|].
  intros i r Hi Hr. destruct (V _ _ Hr) as (idxs & I1 & I2 & I3). replace (b + (i - b)) with i in I1, I3 by lia.
  destruct (lane_accounts t ps mv eps2 q G idxs i r Ht I3) as (evs & A). exists idxs, evs. split; [exact I1|]. split; [exact I2|]. exact A.
Qed.

End Gen.

(** The split in double precision. *)
Section Split.

Context {F : Type}.
Variable O : fops F.
Variable E : env.
Variable g : gpu.
Hypothesis HE : env_ok E.

Notation D := (binary_float 53 1024).
Notation OD := (F64ops false).

(** The sum of the split values as computed by the code (tree.hpp 3149). *)
Definition split_sum (split : list D) : D := fold_left (fadd OD) split (fofZ OD 0%Z).

Lemma begins_sorted : forall t : @tree F, tree_inv O E t -> sorted_codes (crit_begins t) /\ Forall (fun b => (b <= N.of_nat (nparts t))%N) (crit_begins t).
Proof.
  intros t Ht. pose proof (crit_tiles O E t Ht) as T. split.
  - pose proof (tiles_begins _ _ _ T) as B. rewrite map_map in B. exact B.
  - apply Forall_forall. intros x Hx. unfold crit_begins in Hx. apply in_map_iff in Hx as (cn & <- & Hcn).
    destruct (crit_node O E t cn Ht Hcn) as (_ & _ & _ & _ & _ & N5). rewrite nparts_codes with (O := O) (E := E) by exact Ht. lia.
Qed.

Lemma workloads_combine : forall idx, workloads idx = map (fun p => usub 64 (snd p) (fst p)) (combine idx (tl idx)).
Proof.
  induction idx as [|a idx IH]; [reflexivity|]. destruct idx as [|b idx]; [reflexivity|]. cbn [workloads tl combine map fst snd] in *. f_equal. exact IH.
Qed.

Lemma checks_pass : forall fsize tsize idx m, (0 < fsize <= 8)%N -> (tsize <= int_max)%N -> (m <= int_max)%N -> sorted_codes idx -> Forall (fun i => (i <= m)%N) idx ->
  cuda_checks fsize tsize idx = Ok tt.
Proof.
  intros fsize tsize idx m Hf Ht Hm Hs Hi.
  assert (P : Forall (fun p : N * N => (fst p <= snd p)%N /\ (snd p <= int_max)%N) (combine idx (tl idx))).
  { clear Hf Ht. revert Hs Hi. induction idx as [|a idx IH]; intros Hs Hi; [constructor|]. destruct idx as [|b idx]; [constructor|].
    cbn [tl combine]. inversion Hi as [|? ? I1 I2]; subst. constructor.
    - cbn [fst snd]. split; [apply (Hs 0 1 a b); [lia|reflexivity|reflexivity]|]. inversion I2; subst. lia.
    - apply IH; [|exact I2]. intros i j x y Hij Hx Hy. apply (Hs (S i) (S j) x y); [lia|exact Hx|exact Hy]. }
  unfold cuda_checks. rewrite workloads_combine.
  assert (U : forall p : N * N, (fst p <= snd p)%N /\ (snd p <= int_max)%N -> usub 64 (snd p) (fst p) = (snd p - fst p)%N).
  { intros p [H1 H2]. unfold usub, wrap. unfold int_max in H2. replace (snd p + 2 ^ 64 - fst p)%N with (snd p - fst p + 1 * 2 ^ 64)%N by lia.
    rewrite N.mod_add by discriminate. apply N.mod_small. lia. }
  destruct (existsb _ _) eqn:Ex.
  - exfalso. apply existsb_exists in Ex as (w & Hw & Hlt). apply in_map_iff in Hw as (p & <- & Hp). rewrite Forall_forall in P. specialize (P p Hp). rewrite (U p P) in Hlt.
    apply N.ltb_lt in Hlt. assert (size_max / 8 <= size_max / fsize)%N by (apply N.div_le_compat_l; lia).
    assert (int_max < size_max / 8)%N by (vm_compute; reflexivity). lia.
  - clear Ex. assert (T : forall x, (x <= int_max)%N -> to_int x = Ok x) by (intros x Hx; unfold to_int; now destruct (N.ltb_spec int_max x); [lia|]).
    rewrite (T tsize Ht). induction P as [|[a b] l [H1 H2] P IH]; [reflexivity|]. cbn [foldM]. pose proof (U (a, b) (conj H1 H2)) as Ua. cbn [fst snd] in *. rewrite Ua.
    destruct (N.ltb_spec (uint_max - 31) (b - a)) as [L|L]; [exfalso; revert L; assert (int_max < uint_max - 31)%N by (vm_compute; reflexivity); lia|].
    rewrite (T a), (T b) by lia. cbn [bind]. exact IH.
Qed.

(** The devices can be used. *)
Definition devices_ready (t : @tree F) (split : list D) : Prop :=
  g_types g = true /\ g_fail g = None /\ (N.of_nat (nparts t) <= int_max)%N /\
  match g_backend g with
  | Rocm => e_rocm E = true /\ view_fresh E t /\ length split <= 2
  | Cuda => (N.of_nat (length (t_nodes t)) <= int_max)%N /\ (0 < g_fsize g <= 8)%N /\ length split <= S (g_ndev g) /\ (1 < length split -> is_finite (split_sum split) = true)
  end.

Lemma ready_accepts : forall npF t mv split, tree_inv O E t -> devices_ready t split -> check_split OD split = Ok tt ->
  is_finite (npF (N.of_nat (nparts t))) = true -> B2R (npF (N.of_nat (nparts t))) = IZR (Z.of_nat (nparts t)) ->
  ffin O (pad_coord O E (t_box t) mv) = true ->
  accepts O OD npF E g t mv split.
Proof.
  intros npF t mv split Ht (R1 & R2 & R3 & R5) Hc N1 N2 Hp. split; [exact Hp|].
  destruct (g_backend g).
  - destruct R5 as (R5 & R6 & R7). split; [exact R7|]. intros s0 s1 ->. split; [unfold view_fresh in R6; rewrite R6, R5; discriminate|].
    split; [exact R1|]. split; [exact R2|]. split; [exact R3|].
    destruct (rocm_index_ok 53 1024 prec64 emax64 false ltac:(lia) ltac:(lia) (N.of_nat (nparts t)) s0 s1) as (i & Hi & _); [unfold int_max in R3; lia|lia|exact Hc|eauto].
  - destruct R5 as (R4 & R5 & R6 & R7). split; [exact R6|]. intros Hl. specialize (R7 Hl). split; [exact R1|]. split; [exact R2|].
    destruct (begins_sorted t Ht) as [B1 B2].
    assert (N3 : (0 <= B2R (npF (N.of_nat (nparts t))) < bpow radix2 64)%R).
    { rewrite N2. split; [apply IZR_le; lia|]. change (bpow radix2 64) with (IZR (2 ^ 64)). apply IZR_lt. unfold int_max in R3. lia. }
    destruct (cuda_indices_total 53 1024 prec64 emax64 false ltac:(lia) ltac:(lia) (N.of_nat (nparts t)) (npF (N.of_nat (nparts t))) (crit_begins t) split N1 N3 B1 Hc) as (k & idx & Hi & L).
    { intros ->. cbn in Hl. lia. } { exact R7. }
    exists k, idx. split; [exact Hi|]. intros _.
    destruct (cuda_indices_sorted 53 1024 prec64 emax64 false ltac:(lia) ltac:(lia) (N.of_nat (nparts t)) (npF (N.of_nat (nparts t))) (crit_begins t) split k idx N1) as [S1 S2].
    { rewrite N2. f_equal. lia. } { unfold int_max in R3. lia. } { exact B1. } { exact B2. } { exact Hc. } { exact R7. } { exact Hi. }
    exact (checks_pass _ _ _ _ R5 R4 R3 S1 S2).
Qed.

(** The conversion to an index is defined. *)
Lemma cast_defined : forall npF t split, tree_inv O E t -> check_split OD split = Ok tt ->
  match g_backend g with
  | Rocm => (N.of_nat (nparts t) < 2 ^ 53)%N
  | Cuda => is_finite (npF (N.of_nat (nparts t))) = true /\ (0 <= B2R (npF (N.of_nat (nparts t))) < bpow radix2 64)%R /\ is_finite (split_sum split) = true
  end -> cast_ok OD npF g t split.
Proof.
  intros npF t split Ht Hc H. unfold cast_ok. destruct (g_backend g).
  - destruct split as [|s0 [|s1 [|s2 split]]]; try exact I.
    destruct (rocm_index_ok 53 1024 prec64 emax64 false ltac:(lia) ltac:(lia) (N.of_nat (nparts t)) s0 s1 H ltac:(lia) Hc) as (i & Hi & _). intros HU. pose proof (eq_trans (eq_sym HU) Hi). discriminate.
  - destruct H as (N1 & N2 & HF). destruct (Nat.le_gt_cases (length split) 1) as [L|L]; [now left|right].
    destruct (begins_sorted t Ht) as [B1 _].
    destruct (cuda_indices_total 53 1024 prec64 emax64 false ltac:(lia) ltac:(lia) (N.of_nat (nparts t)) (npF (N.of_nat (nparts t))) (crit_begins t) split N1 N2 B1 Hc) as (k & idx & Hi & _).
    { intros ->. cbn in L. lia. } { exact HF. } intros HU. pose proof (eq_trans (eq_sym HU) Hi). discriminate.
Qed.

End Split.

(** The outcome of the calls. *)
Section Calls.

Context {F : Type}.
Variable O : fops F.
Variable npF : N -> binary_float 53 1024.
Variable E : env.
Variable K : platform F.
Variable g : gpu.
Hypothesis HE : env_ok E.
Hypothesis HK : benign_shift K.
Hypothesis Hw : 0 < g_warp g.

Notation OD := (F64ops false).
Notation n t := (length (t_codes t)).

Lemma hetero_succeeds : forall ord order ordered q t theta G eps mv eps2 split out, reachable O E t -> room E t -> copies_fresh E g t ->
  reorders ord -> reorders order -> out_ok (n t) (nvecs_res E q) out ->
  mac_value_of O E theta = Ok mv -> compute_eps2 O eps = Ok eps2 -> check_G_const O G = Ok tt -> ffin O (pad_coord O E (t_box t) mv) = true ->
  check_split OD split = Ok tt -> devices_ready E g t split ->
  is_finite (npF (N.of_nat (n t))) = true -> B2R (npF (N.of_nat (n t))) = IZR (Z.of_nat (n t)) ->
  exists out', hetero_dispatch O OD npF E K g ord order ordered q t theta G eps split out = Ok out'.
Proof.
  intros ord order ordered q t theta G eps mv eps2 split out Hreach Hroom Hcopy H1 H2 Ho M1 M2 M3 M4 Hs HR N1 N2.
  pose proof (reachable_inv O E HE t Hreach) as Ht. destruct (rows_exist O E t Ht) as (ps & Hps & _).
  rewrite <- (nparts_codes O E t Ht) in N1, N2.
  destruct (hetero_plan O OD npF E K g HE HK Hw t ps q theta G eps split Ht Hroom (fresh_copy E g t Hcopy) Hps)
    as (pl & _ & _ & A & X). specialize (X ord order ordered out H1 H2 Ho).
  destruct (A mv eps2 (conj M1 (conj M2 M3)) Hs (ready_accepts O E g npF t mv split Ht HR Hs N1 N2 M4)) as (vals & ->).
  destruct X as (out' & -> & _). eauto.
Qed.

Lemma hetero_defined : forall ord order ordered q t theta G eps split out, reachable O E t -> room E t -> copies_fresh E g t ->
  reorders ord -> reorders order -> out_ok (n t) (nvecs_res E q) out ->
  match g_backend g with
  | Rocm => (N.of_nat (n t) < 2 ^ 53)%N
  | Cuda => is_finite (npF (N.of_nat (n t))) = true /\ (0 <= B2R (npF (N.of_nat (n t))) < bpow radix2 64)%R /\ is_finite (split_sum split) = true
  end ->
  hetero_dispatch O OD npF E K g ord order ordered q t theta G eps split out <> UB.
Proof.
  intros ord order ordered q t theta G eps split out Hreach Hroom Hcopy H1 H2 Ho HF.
  pose proof (reachable_inv O E HE t Hreach) as Ht. destruct (rows_exist O E t Ht) as (ps & Hps & _).
  rewrite <- (nparts_codes O E t Ht) in HF.
  destruct (hetero_plan O OD npF E K g HE HK Hw t ps q theta G eps split Ht Hroom (fresh_copy E g t Hcopy) Hps)
    as (pl & U & _ & _ & X). specialize (X ord order ordered out H1 H2 Ho).
  destruct (check_split OD split) as [[]|e|] eqn:Hs.
  - destruct pl as [vals|e|]; [destruct X as (o & -> & _); discriminate|cbn [outcome_as] in X; rewrite X; discriminate|].
    exfalso. apply (U eq_refl). exact (cast_defined O E g npF t split Ht Hs HF).
  - unfold hetero_dispatch, hetero_impl. rewrite Hs. cbn [bind].
    unfold mac_value_of, compute_eps2, check_G_const, it_diff_check. cbv zeta.
    repeat match goal with |- context [if ?b then _ else _] => destruct b; cbn [bind]; try discriminate end.
  - exfalso. revert Hs. unfold check_split. cbv zeta. repeat match goal with |- context [if ?b then _ else _] => destruct b; try discriminate end.
Qed.

Lemma hetero_no_ub : forall ord order ordered q t theta G eps split out, reachable O E t -> room E t -> copies_fresh E g t ->
  reorders ord -> reorders order -> out_ok (n t) (nvecs_res E q) out -> npF = np_double \/ npF = np_float -> (N.of_nat (n t) < 2 ^ 53)%N ->
  (g_backend g = Cuda -> is_finite (split_sum split) = true) ->
  hetero_dispatch O OD npF E K g ord order ordered q t theta G eps split out <> UB.
Proof.
  intros ord order ordered q t theta G eps split out Hreach Hroom Hcopy H1 H2 Ho Hn H53 HF. apply hetero_defined; auto.
  destruct (g_backend g); [exact H53|]. assert (H63 : (N.of_nat (n t) <= 2 ^ 63)%N) by lia.
  assert (X : is_finite (npF (N.of_nat (n t))) = true /\ (0 <= B2R (npF (N.of_nat (n t))) < bpow radix2 64)%R)
    by (destruct Hn as [-> | ->]; [now apply np_double_range|now apply np_float_range]).
  split; [apply X|]. split; [apply X|]. now apply HF.
Qed.

End Calls.

(** Exact arithmetic. *)
Section Exact.

Context {D : Type}.
Variable OD : fops D.
Variable npF : N -> D.
Variable E : env.
Variable K : platform R.
Variable g : gpu.
Hypothesis HE : env_ok E.
Hypothesis HK : benign_shift K.
Hypothesis HX : exact_rsqrt K.
Hypothesis Hw : 0 < g_warp g.

Notation n t := (length (t_codes t)).
Notation c := (e_cfg E).

Lemma hetero_R : forall ord order ordered q t P theta G eps split out out', reachable Rops E t -> room E t -> copies_fresh E g t ->
  reorders ord -> reorders order -> out_ok (n t) (nvecs_res E q) out -> particles_of t P ->
  hetero_dispatch Rops OD npF E K g ord order ordered q t theta G eps split out = Ok out' ->
  out_ok (n t) (nvecs_res E q) out' /\
  forall i, i < n t -> exists cn A Dl, c_begin cn <= i < c_end cn /\ c_end cn <= n t /\ sources E t theta P cn A Dl /\
    forall j, j < nvecs_res E q ->
      nth_error (nth j out' []) (dst ordered t i) = Some (G * bh_sum E q eps P i (others (c_begin cn) (c_end cn) i ++ Dl) A j)%R.
Proof.
  intros ord order ordered q t P theta G eps split out out' Hreach Hroom Hcopy H1 H2 Ho HP Hd.
  pose proof (reachable_inv Rops E HE t Hreach) as Ht. destruct (particles_rows E t P Ht HP) as [Hps _].
  destruct (hetero_covers Rops OD npF E K g HE HK Hw ord order ordered q t _ theta G eps split out out' Hreach Hroom Hcopy Hps H1 H2 Ho Hd)
    as (mv & eps2 & b & vals & M1 & M2 & B1 & B2 & B3 & W1 & W2 & _).
  split; [exact W1|]. intros i Hi.
  assert (Ee : eps2 = (eps * eps)%R).
  { clear - M2. unfold compute_eps2 in M2. destruct (_ || _); [discriminate|]. cbv zeta in M2. destruct (_ || _); [discriminate|]. now injection M2 as <-. }
  subst eps2. destruct (Nat.lt_ge_cases i b) as [L|L].
  - destruct (crit_of E t i Ht Hi) as (cn & Hcn & Hb & He).
    destruct (result_R E K HE HK HX t P theta mv eps cn Hreach Hroom HP M1 Hcn) as (A & Dl & S & V). exists cn, A, Dl.
    split; [exact Hb|]. split; [exact He|]. split; [exact S|]. intros j Hj. rewrite W2, B2 by assumption. now apply (V q G i Hb).
  - destruct (B3 i (conj L Hi)) as (idxs & r & I1 & I2 & I3 & I4).
    destruct (lane_result_R E HE t P theta mv eps q G idxs i r Hreach HP M1 I1) as (A & Dl & S & _ & _ & V).
    { intros k Hk. now apply I2. } { exact I3. }
    exists (mkCnode 0 i (i + 1)), A, Dl. cbn [c_begin c_end]. split; [lia|]. split; [lia|]. split; [exact S|]. intros j Hj.
    rewrite W2, I4 by assumption. now apply V.
Qed.

Lemma hetero_direct : forall ord order ordered q t P theta G eps split out out', reachable Rops E t -> room E t -> copies_fresh E g t ->
  reorders ord -> reorders order -> out_ok (n t) (nvecs_res E q) out -> particles_of t P -> none_separated E t theta P ->
  hetero_dispatch Rops OD npF E K g ord order ordered q t theta G eps split out = Ok out' ->
  forall i j, i < n t -> j < nvecs_res E q -> nth_error (nth j out' []) (dst ordered t i) = Some (G * direct E q eps P (n t) i j)%R.
Proof.
  intros ord order ordered q t P theta G eps split out out' Hreach Hroom Hcopy H1 H2 Ho HP N Hd i j Hi Hj.
  destruct (hetero_R ord order ordered q t P theta G eps split out out' Hreach Hroom Hcopy H1 H2 Ho HP Hd) as [_ V].
  destruct (V i Hi) as (cn & A & Dl & Hb & He & S & Vj). rewrite Vj by exact Hj.
  now rewrite (none_direct E q t theta P eps cn A Dl i j N S Hb He).
Qed.

Lemma hetero_direct' : forall ord order ordered q t P theta G eps split out out', reachable Rops E t -> room E t -> copies_fresh E g t ->
  reorders ord -> reorders order -> out_ok (n t) (nvecs_res E q) out -> particles_of t P ->
  (forall a i, In a (t_nodes t) -> i < n t -> ~ separated E t theta a (fst (P i))) ->
  hetero_dispatch Rops OD npF E K g ord order ordered q t theta G eps split out = Ok out' ->
  forall i j, i < n t -> j < nvecs_res E q -> nth_error (nth j out' []) (dst ordered t i) =
    Some (G * rsum (fun k => pull (dim c) q (eps * eps) j (P i) (P k)) (filter (fun k => negb (k =? i)) (seq 0 (n t))))%R.
Proof.
  intros ord order ordered q t P theta G eps split out out' Hreach Hroom Hcopy H1 H2 Ho HP N Hd i j Hi Hj.
  rewrite (hetero_direct ord order ordered q t P theta G eps split out out' Hreach Hroom Hcopy H1 H2 Ho HP N Hd i j Hi Hj).
  unfold direct, others. now rewrite Nat.sub_0_r.
Qed.

Lemma hetero_error : forall ord order ordered q t P theta G eps split out out', reachable Rops E t -> room E t -> copies_fresh E g t ->
  reorders ord -> reorders order -> out_ok (n t) (nvecs_res E q) out -> particles_of t P ->
  masses_nonneg t P -> (0 < t_box t)%R -> (0 < theta)%R -> (0 <= eps)%R -> apart eps P (n t) ->
  hetero_dispatch Rops OD npF E K g ord order ordered q t theta G eps split out = Ok out' ->
  forall i j, i < n t -> j < nvecs_res E q -> is_acc (dim c) q j = false ->
    exists v, nth_error (nth j out' []) (dst ordered t i) = Some v /\
      (Rabs (v - G * direct E q eps P (n t) i j) <= theta * sqrt (INR (dim c)) * Rabs (G * direct E q eps P (n t) i j))%R.
Proof.
  intros ord order ordered q t P theta G eps split out out' Hreach Hroom Hcopy H1 H2 Ho HP HM Hb Hth Heps Hap Hd i j Hi Hj Hpot.
  destruct (hetero_R ord order ordered q t P theta G eps split out out' Hreach Hroom Hcopy H1 H2 Ho HP Hd) as [_ V].
  destruct (V i Hi) as (cn & A & Dl & Hci & He & S & Vj). eexists. split; [now apply Vj|].
  pose proof (bh_error E HE q t P theta eps cn A Dl i j Hreach HP HM Hb Hth Heps Hap Hpot S Hci He) as B.
  rewrite <- Rmult_minus_distr_l, !Rabs_mult. replace (theta * sqrt (INR (dim c)) * (Rabs G * Rabs (direct E q eps P (n t) i j)))%R
    with (Rabs G * (theta * sqrt (INR (dim c)) * Rabs (direct E q eps P (n t) i j)))%R by ring.
  apply Rmult_le_compat_l; [apply Rabs_pos|exact B].
Qed.

Lemma hetero_error2 : forall ord order ordered q t P theta G eps split out out', reachable Rops E t -> room E t -> copies_fresh E g t ->
  reorders ord -> reorders order -> out_ok (n t) (nvecs_res E q) out -> particles_of t P ->
  masses_nonneg t P -> (0 < t_box t)%R -> (0 < theta)%R -> (0 <= eps)%R -> apart eps P (n t) ->
  hetero_dispatch Rops OD npF E K g ord order ordered q t theta G eps split out = Ok out' ->
  forall i j, i < n t -> j < nvecs_res E q ->
    exists v, nth_error (nth j out' []) (dst ordered t i) = Some v /\ second_order E q t P theta G eps i j v.
Proof.
  intros ord order ordered q t P theta G eps split out out' Hreach Hroom Hcopy H1 H2 Ho HP HM Hb Hth Heps Hap Hd i j Hi Hj.
  destruct (hetero_R ord order ordered q t P theta G eps split out out' Hreach Hroom Hcopy H1 H2 Ho HP Hd) as [_ V].
  destruct (V i Hi) as (cn & A & Dl & Hci & He & S & Vj). eexists. split; [now apply Vj|]. now apply value_error2.
Qed.

Lemma kernel_R : forall t P theta mv eps q G ws b e, reachable Rops E t -> particles_of t P -> mac_value_of Rops E theta = Ok mv -> 0 < ws -> b <= e <= n t ->
  exists rows, kernel_run Rops c K ws q mv G (eps * eps)%R (t_parts t) (t_codes t) (t_nodes t) b e = Ok rows /\ length rows = e - b /\
  forall i r, b <= i < e -> nth_error rows (i - b) = Some r -> exists A Dl,
    Permutation (i :: Dl ++ flat_map node_idx A) (seq 0 (n t)) /\
    (forall a, In a A -> In a (t_nodes t) /\ separated E t theta a (fst (P i)) /\
       p_mass (n_props a) = rsum (fun k => snd (P k)) (node_idx a) /\
       (p_mass (n_props a) <> 0%R -> forall j, j < dim c ->
         (p_mass (n_props a) * nth j (p_com (n_props a)) 0 = rsum (fun k => snd (P k) * nth j (fst (P k)) 0) (node_idx a))%R)) /\
    forall j, j < nvecs_res E q -> nth_error (fst r ++ snd r) j = Some (G * bh_sum E q eps P i Dl A j)%R.
Proof.
  intros t P theta mv eps q G ws b e Hreach HP Hmv Hws Hbe. pose proof (reachable_inv Rops E HE t Hreach) as Ht. destruct (particles_rows E t P Ht HP) as [Hps _].
  destruct (kernel_run_spec Rops E K t Ht _ Hps mv (eps * eps)%R q G ws b e Hws Hbe) as (rows & E1 & L & V). exists rows. split; [exact E1|]. split; [exact L|].
  intros i r Hi Hr. destruct (V _ _ Hr) as (idxs & I1 & I2 & I3). replace (b + (i - b)) with i in I1, I3 by lia.
  destruct (lane_result_R E HE t P theta mv eps q G idxs i r Hreach HP Hmv I1) as (A & Dl & (S1 & S2) & _ & _ & W).
  { intros k Hk. specialize (I2 k Hk). lia. } { exact I3. }
  exists A, Dl. cbn [c_begin c_end] in S1, S2. replace (i + 1 - i) with 1 in S1 by lia. split; [exact S1|]. split.
  - intros a Ha. destruct (S2 a Ha) as (X1 & _ & X3 & X4). split; [exact X1|]. split; [apply X3; lia|exact X4].
  - intros j Hj. rewrite (W j Hj). unfold others. replace (i + 1 - i) with 1 by lia. cbn [seq filter]. rewrite Nat.eqb_refl. reflexivity.
Qed.

Lemma hetero_sums : forall ord order ordered q t P theta G eps split out out', reachable Rops E t -> room E t -> copies_fresh E g t ->
  reorders ord -> reorders order -> out_ok (n t) (nvecs_res E q) out -> particles_of t P ->
  hetero_dispatch Rops OD npF E K g ord order ordered q t theta G eps split out = Ok out' ->
  forall i, i < n t -> exists A Dl, Permutation (i :: Dl ++ flat_map node_idx A) (seq 0 (n t)) /\
    (forall a, In a A -> In a (t_nodes t) /\ separated E t theta a (fst (P i)) /\
       p_mass (n_props a) = rsum (fun k => snd (P k)) (node_idx a) /\
       (p_mass (n_props a) <> 0%R -> forall j, j < dim c ->
         (p_mass (n_props a) * nth j (p_com (n_props a)) 0 = rsum (fun k => snd (P k) * nth j (fst (P k)) 0) (node_idx a))%R)) /\
    forall j, j < nvecs_res E q -> nth_error (nth j out' []) (dst ordered t i) = Some (G * bh_sum E q eps P i Dl A j)%R.
Proof.
  intros ord order ordered q t P theta G eps split out out' Hreach Hroom Hcopy H1 H2 Ho HP Hd i Hi.
  destruct (hetero_R ord order ordered q t P theta G eps split out out' Hreach Hroom Hcopy H1 H2 Ho HP Hd) as [_ V].
  destruct (V i Hi) as (cn & A & Dl & Hci & He & [S1 S2] & Vj). exists A, (others (c_begin cn) (c_end cn) i ++ Dl). split; [|split; [|exact Vj]].
  - eapply perm_trans; [|exact S1]. rewrite <- app_assoc, app_comm_cons. apply Permutation_app_tail.
    pose proof (filter_out (c_begin cn) (c_end cn - c_begin cn) (i - c_begin cn) ltac:(lia)) as F1. replace (c_begin cn + (i - c_begin cn)) with i in F1 by lia.
    unfold others. apply Permutation_sym. exact F1.
  - intros a Ha. destruct (S2 a Ha) as (X1 & _ & X3 & X4). split; [exact X1|]. split; [now apply X3|exact X4].
Qed.

End Exact.
