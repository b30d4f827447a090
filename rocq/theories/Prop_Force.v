(** Properties C23-C27, C29-C34, C45, C46 and C61: the computation of accelerations and potentials.
    [ord] is the order in which the parallel loop processes the critical nodes; [out] the output ranges before the call;
    [dst ordered t i] the place of the result of the tree particle [i]: [i] itself, or its original index. *)
From Coq Require Import List Arith ZArith NArith Reals Bool Lra Lia Permutation.
From Flocq Require Import BinarySingleNaN.
From Verif Require Import Base Config Morton Build TreeSpec FOps Disc NodeProps Tree TreeInv TreeProofs TreeSafe TreeEx RSum NodeGeom NodesR
  Kernels Force TravProofs KernLoops KernR ForceGen ForceOut ForceR ForceTop ForceRTop ForceMore ForceQ ForceProps ForceLast ForceEx.
Import ListNotations.
Local Open Scope nat_scope.

(** C23. For any outcome of the acceptance test at every node the traversal succeeds; the nodes treated and the critical node
    contain every particle once; nodes that fail the test are treated only if they are leaves. *)
Theorem C23_every_particle_once :
  forall (F : Type) (O : fops F) (E : env) (K : platform F) (t : @tree F) (cn : cnode) (accept : node (props F) -> bool)
    (HE : env_ok E) (HK : benign_shift K) (Ht : reachable O E t) (Hcn : In cn (t_crit t)),
  exists evs, traverse (e_cfg E) K (ev_check accept) (t_nodes t) (c_code cn) (length (t_nodes t)) 0 [] = Ok evs /\
    Permutation (flat_map (fun e => node_idx (ev_node e)) evs ++ seq (c_begin cn) (c_end cn - c_begin cn)) (seq 0 (length (t_codes t))) /\
    forall e, In e evs -> In (ev_node e) (t_nodes t) /\ (n_end (ev_node e) <= c_begin cn \/ c_end cn <= n_begin (ev_node e)) /\
      match e with Approx a => accept a = true | Direct a => accept a = false /\ n_children a = 0 end.
Proof.
  intros F O E K t cn accept HE HK Ht Hcn.
  exact (any_outcome O E K HK t cn accept (reachable_inv O E HE t Ht) Hcn).
Qed.
Print Assumptions C23_every_particle_once.

Example C23_ex : exists t cn, reachable exFO (ex3E Bh (Some 2)) t /\ In cn (t_crit t) /\ length (t_codes t) = 6 /\ c_end cn = 1.
Proof.
  destruct (exF_reachable (Some 2) (or_intror eq_refl)) as (H1 & H2 & H3). destruct (t_crit (exF_tree (Some 2))) as [|cn l] eqn:C; [discriminate|].
  exists (exF_tree (Some 2)), cn. rewrite C. split; [exact H1|]. split; [now left|]. split; [exact H2|]. cbn [map] in H3. now injection H3 as _ H3 _.
Qed.

(** C24. The traversal of the code performs the actions for a list of nodes that accounts for every particle once. The nodes
    that are replaced by their centre of mass pass the check of the code for every particle of the critical node (the comparison
    made by the code is that [fle] is false; the two differ for NaN), contain no particle of it, and all others are leaves. *)
Theorem C24_accepted_for_every_target :
  forall (F : Type) (O : fops F) (E : env) (K : platform F) (q : quant) (t : @tree F) (mac_value eps2 pad : F) (cn : cnode)
    (psize : nat) (tgt : list (@prow F))
    (HE : env_ok E) (HK : benign_shift K) (Ht : reachable O E t) (Hcn : In cn (t_crit t))
    (Hsize : pdata_size E (c_end cn - c_begin cn) = Ok psize)
    (Htgt : target_data O E (t_parts t) pad (c_begin cn) (c_end cn - c_begin cn) psize = Ok tgt),
  exists evs accepted,
    Permutation (flat_map (fun e => node_idx (ev_node e)) evs ++ seq (c_begin cn) (c_end cn - c_begin cn)) (seq 0 (length (t_codes t))) /\
    (forall e, In e evs -> In (ev_node e) (t_nodes t) /\ (n_end (ev_node e) <= c_begin cn \/ c_end cn <= n_begin (ev_node e)) /\
      match e with Approx a => accepted a = true | Direct a => accepted a = false /\ n_children a = 0 end) /\
    (forall a i p, In (Approx a) evs -> c_begin cn <= i < c_end cn -> particle (e_cfg E) (t_parts t) i = Ok p ->
       fle O (fst (mac_lane O (e_cfg E) (e_simd E) K eps2 (p_com (n_props a)) p)) (mac_lh O (n_props a) mac_value) = false) /\
    forall res, traverse (e_cfg E) K (mac_check O (e_cfg E) (e_simd E) K q mac_value eps2 (t_parts t) (c_end cn - c_begin cn) tgt)
        (t_nodes t) (c_code cn) (length (t_nodes t)) 0 res =
      foldM (ev_act O (e_cfg E) (e_simd E) K q eps2 (t_parts t) (c_end cn - c_begin cn) tgt) evs res.
Proof.
  intros F O E K q t mac_value eps2 pad cn psize tgt HE HK Ht Hcn Hsize Htgt.
  destruct (code_events O E K HE HK q t mac_value eps2 pad cn psize tgt (reachable_inv O E HE t Ht) Hcn Hsize Htgt) as (evs & [A1 A2] & B & C).
  exists evs, (accept O (e_cfg E) (e_simd E) K mac_value eps2 (c_end cn - c_begin cn) tgt). exact (conj A1 (conj A2 (conj B C))).
Qed.
Print Assumptions C24_accepted_for_every_target.

Example C24_ex : exists t cn psize tgt, reachable exFO (ex3E Bh (Some 2)) t /\ In cn (t_crit t) /\
  pdata_size (ex3E Bh (Some 2)) (c_end cn - c_begin cn) = Ok psize /\
  target_data exFO (ex3E Bh (Some 2)) (t_parts t) (F32 1 20) (c_begin cn) (c_end cn - c_begin cn) psize = Ok tgt /\ length tgt = 2.
Proof.
  destruct (exF_reachable (Some 2) (or_intror eq_refl)) as (H1 & H2 & H3).
  assert (X : match t_crit (exF_tree (Some 2)) with cn :: _ => pdata_size (ex3E Bh (Some 2)) (c_end cn - c_begin cn) = Ok 2 /\
     match target_data exFO (ex3E Bh (Some 2)) (t_parts (exF_tree (Some 2))) (F32 1 20) (c_begin cn) (c_end cn - c_begin cn) 2 with
     | Ok tgt => length tgt = 2 | _ => False end | [] => False end) by (vm_compute; auto).
  destruct (t_crit (exF_tree (Some 2))) as [|cn l] eqn:C; [destruct X|]. destruct X as [X1 X2].
  destruct (target_data _ _ _ _ _ _ _) as [tgt|e|] eqn:T; [|destruct X2|destruct X2].
  exists (exF_tree (Some 2)), cn, 2, tgt. rewrite C. split; [exact H1|]. split; [now left|]. auto.
Qed.

(** C25. [P i]: coordinates and mass of the tree particle [i]. [pull] is the interaction; [separated] the acceptance criterion. *)
Theorem C25_barnes_hut_sums :
  forall (D : Type) (OD : fops D) (E : env) (K : platform R) (ord : list cnode -> list cnode) (ordered : bool) (q : quant) (t : @tree R)
    (P : nat -> @prow R) (theta G eps : R) (split : list D) (out : list (list R))
    (HE : env_ok E) (HK : benign_shift K) (HX : exact_rsqrt K) (Ht : reachable Rops E t) (Hroom : room E t) (Hord : reorders ord)
    (HP : particles_of t P) (Htheta : (0 < theta)%R) (Heps : (0 <= eps)%R) (Hsplit : check_split OD split = Ok tt) (Hcpu : length split <= 1)
    (Hout : out_ok (length (t_codes t)) (nvecs_res E q) out),
  exists out', acc_pot_dispatch Rops OD E K ord ordered q t theta G eps split out = Ok out' /\
    out_ok (length (t_codes t)) (nvecs_res E q) out' /\
    forall cn, In cn (t_crit t) -> exists A Dl,
      Permutation (seq (c_begin cn) (c_end cn - c_begin cn) ++ Dl ++ flat_map node_idx A) (seq 0 (length (t_codes t))) /\
      (forall a, In a A -> In a (t_nodes t) /\ (n_end a <= c_begin cn \/ c_end cn <= n_begin a) /\
        (forall i, c_begin cn <= i < c_end cn -> separated E t theta a (fst (P i))) /\
        p_mass (n_props a) = rsum (fun k => snd (P k)) (node_idx a) /\
        (p_mass (n_props a) <> 0%R -> forall j, j < dim (e_cfg E) ->
           (p_mass (n_props a) * nth j (p_com (n_props a)) 0 = rsum (fun k => snd (P k) * nth j (fst (P k)) 0) (node_idx a))%R)) /\
      forall i j, c_begin cn <= i < c_end cn -> j < nvecs_res E q ->
        nth_error (nth j out' []) (dst ordered t i) = Some (G *
          (rsum (fun k => pull (dim (e_cfg E)) q (eps * eps) j (P i) (P k)) (others (c_begin cn) (c_end cn) i ++ Dl) +
           rsum (fun a => pull (dim (e_cfg E)) q (eps * eps) j (P i) (p_com (n_props a), p_mass (n_props a))) A))%R.
Proof.
  intros D OD E K ord ordered q t P theta G eps split out HE HK HX Ht Hroom Hord HP Htheta Heps Hsplit Hcpu Hout.
  destruct (dispatch_R OD E K HE HK HX ord ordered q t P theta G eps split out Ht Hroom Hord HP Htheta Heps Hsplit Hcpu Hout) as (o & H1 & H2 & H3).
  exists o. split; [exact H1|]. split; [exact H2|]. intros cn Hcn. destruct (H3 cn Hcn) as (A & Dl & [S1 S2] & V).
  exists A, Dl. exact (conj S1 (conj S2 V)).
Qed.
Print Assumptions C25_barnes_hut_sums.

Example C25_ex : forall m, exists (t : @tree R) P, env_ok (ex3E m (Some 4)) /\ benign_shift ex3_K /\ exact_rsqrt ex3_K /\ reachable Rops (ex3E m (Some 4)) t /\
  room (ex3E m (Some 4)) t /\ reorders (fun l : list cnode => rev l) /\ particles_of t P /\ check_split Rops [1%R] = Ok tt /\
  out_ok (length (t_codes t)) (nvecs_res (ex3E m (Some 4)) QBoth) (repeat [1; 2; 3; 4; 5]%R 4) /\ length (t_codes t) = 4.
Proof.
  intros m. destruct (ex3_tree m) as (t & P & H1 & H2 & H3 & H4 & H5 & H6). exists t, P.
  split; [apply ex3E_ok; lia|]. split; [apply masked_benign|]. split; [exact ex3_exact|]. split; [exact H1|]. split; [exact H2|].
  split; [intros l; apply Permutation_sym, Permutation_rev|]. split; [exact H5|]. split.
  - unfold check_split. cbn. unfold Rltb. destruct (Rlt_dec 1 0); [lra|]. cbn. unfold Reqb. destruct (Req_EM_T 1 0); [lra|]. reflexivity.
  - split; [|exact H3]. rewrite H3. split; [reflexivity|]. cbn. repeat constructor.
Qed.
Example C25_pull_ex : pull 2 QAcc 0 0 ([0; 0], 5)%R ([3; 4], 2)%R = (2 * (3 - 0) / (5 * 5 * 5))%R /\ pull 2 QPot 0 0 ([0; 0], 5)%R ([3; 4], 2)%R = (- (5 * 2) / 5)%R.
Proof.
  assert (S : (sqrt (sep2 [3; 4] [0; 0] + 0) = 5)%R).
  { unfold sep2. cbn. replace ((3 - 0) * (3 - 0) + ((4 - 0) * (4 - 0) + 0) + 0)%R with (5 * 5)%R by lra. now rewrite sqrt_square by lra. }
  unfold pull. cbn [fst snd]. rewrite S. now cbn.
Qed.

(** C26. The direct computation of the particle designated by [i] (its tree index, or its original index) and the results. *)
Theorem C26_small_theta_is_exact :
  forall (D : Type) (OD : fops D) (E : env) (K : platform R) (ord : list cnode -> list cnode) (ordered : bool) (q : quant) (t : @tree R)
    (P : nat -> @prow R) (theta G eps : R) (split : list D) (out : list (list R))
    (HE : env_ok E) (HK : benign_shift K) (HX : exact_rsqrt K) (Ht : reachable Rops E t) (Hroom : room E t) (Hord : reorders ord)
    (HP : particles_of t P) (Htheta : (0 < theta)%R) (Heps : (0 <= eps)%R) (Hsplit : check_split OD split = Ok tt) (Hcpu : length split <= 1)
    (Hout : out_ok (length (t_codes t)) (nvecs_res E q) out)
    (Hsmall : none_separated E t theta P \/
      (masses_nonneg t P /\ (0 < t_box t)%R /\ (theta * sqrt (INR (dim (e_cfg E))) * pow2R (cbitsc (e_cfg E)) <= 1)%R)),
  exists out', acc_pot_dispatch Rops OD E K ord ordered q t theta G eps split out = Ok out' /\
    forall i, i < length (t_codes t) -> exists row, exact_acc_pot Rops E ordered q t i G eps = Ok row /\ length row = nvecs_res E q /\
      forall j, j < nvecs_res E q -> nth_error (nth j out' []) i = nth_error row j.
Proof. intros D OD E K ord ordered q t P theta G eps split out HE HK HX. exact (dispatch_exact OD E K HE HK HX ord ordered q t P theta G eps split out). Qed.
Print Assumptions C26_small_theta_is_exact.

Example C26_ex : exists (t : @tree R) P theta, reachable Rops (ex3E Bh (Some 4)) t /\ particles_of t P /\ masses_nonneg t P /\ (0 < t_box t)%R /\ (0 < theta)%R /\
  (theta * sqrt (INR (dim C3_64)) * pow2R (cbitsc C3_64) <= 1)%R /\ length (t_codes t) = 4.
Proof.
  destruct (ex3_tree Bh) as (t & P & H1 & H2 & H3 & H4 & H5 & H6 & H7). exists t, P, (/ (2 * pow2R (cbitsc C3_64)))%R.
  pose proof (pow2R_pos (cbitsc C3_64)) as Hp. set (w := pow2R (cbitsc C3_64)) in *. clearbody w.
  split; [exact H1|]. split; [exact H5|]. split; [exact H6|]. split; [rewrite H4; lra|]. split; [apply Rinv_0_lt_compat; lra|]. split; [|exact H3].
  assert (S : (sqrt (INR (dim C3_64)) <= 2)%R).
  { rewrite <- (sqrt_square 2) by lra. apply sqrt_le_1; cbn; lra. }
  replace (/ (2 * w) * sqrt (INR (dim C3_64)) * w)%R with (sqrt (INR (dim C3_64)) / 2)%R by (field; lra). lra.
Qed.

(** C27. [direct] is the sum over all the other particles. *)
Theorem C27_potential_error_bound :
  forall (D : Type) (OD : fops D) (E : env) (K : platform R) (ord : list cnode -> list cnode) (ordered : bool) (q : quant) (t : @tree R)
    (P : nat -> @prow R) (theta G eps : R) (split : list D) (out : list (list R))
    (HE : env_ok E) (HK : benign_shift K) (HX : exact_rsqrt K) (Ht : reachable Rops E t) (Hroom : room E t) (Hord : reorders ord)
    (HP : particles_of t P) (Htheta : (0 < theta)%R) (Heps : (0 <= eps)%R) (Hsplit : check_split OD split = Ok tt) (Hcpu : length split <= 1)
    (Hout : out_ok (length (t_codes t)) (nvecs_res E q) out)
    (Hmass : masses_nonneg t P) (Hbox : (0 < t_box t)%R) (Hapart : apart eps P (length (t_codes t))),
  exists out', acc_pot_dispatch Rops OD E K ord ordered q t theta G eps split out = Ok out' /\
    forall i j, i < length (t_codes t) -> j < nvecs_res E q -> is_acc (dim (e_cfg E)) q j = false ->
      exists v, nth_error (nth j out' []) (dst ordered t i) = Some v /\
        (Rabs (v - G * direct E q eps P (length (t_codes t)) i j) <=
         theta * sqrt (INR (dim (e_cfg E))) * Rabs (G * direct E q eps P (length (t_codes t)) i j))%R.
Proof. intros D OD E K ord ordered q t P theta G eps split out HE HK HX. exact (dispatch_error OD E K HE HK HX ord ordered q t P theta G eps split out). Qed.
Print Assumptions C27_potential_error_bound.

Example C27_ex : exists (t : @tree R) P, reachable Rops (ex3E BhGeom (Some 4)) t /\ particles_of t P /\ masses_nonneg t P /\ (0 < t_box t)%R /\
  apart 0 P (length (t_codes t)) /\ length (t_codes t) = 4.
Proof.
  destruct (ex3_tree BhGeom) as (t & P & H1 & H2 & H3 & H4 & H5 & H6 & H7). exists t, P. rewrite H3, H4.
  split; [exact H1|]. split; [exact H5|]. split; [exact H6|]. split; [lra|]. auto.
Qed.

(** C29. *)
Theorem C29_ordered_results :
  forall (F D : Type) (O : fops F) (OD : fops D) (E : env) (K : platform F) (ord1 ord2 : list cnode -> list cnode) (q : quant) (t : @tree F)
    (theta G eps : F) (split : list D) (out1 out2 : list (list F))
    (HE : env_ok E) (HK : benign_shift K) (Ht : reachable O E t) (Hroom : room E t) (Hord1 : reorders ord1) (Hord2 : reorders ord2)
    (Hout1 : out_ok (length (t_codes t)) (nvecs_res E q) out1) (Hout2 : out_ok (length (t_codes t)) (nvecs_res E q) out2),
  match acc_pot_dispatch O OD E K ord1 true q t theta G eps split out1, acc_pot_dispatch O OD E K ord2 false q t theta G eps split out2 with
  | Ok o1, Ok o2 => forall j i k, j < nvecs_res E q -> nth_error (t_perm t) i = Some k -> nth_error (nth j o1 []) k = nth_error (nth j o2 []) i
  | Throw e1, Throw e2 => e1 = e2
  | _, _ => False
  end.
Proof.
  intros F D O OD E K ord1 ord2 q t theta G eps split out1 out2 HE HK Ht.
  exact (dispatch_ordered O OD E K HE HK ord1 ord2 q t theta G eps split out1 out2 (reachable_inv O E HE t Ht)).
Qed.
Print Assumptions C29_ordered_results.

Example C29_ex : t_perm (exF_tree (Some 2)) = [2; 5; 4; 3; 0; 1] /\
  exF_show (exF_run (Some 2) false (@rev cnode) true QPot (F32 3 (-2))) <> exF_show (exF_run (Some 2) false (fun l => l) false QPot (F32 3 (-2))) /\
  reachable exFO (ex3E Bh (Some 2)) (exF_tree (Some 2)) /\ match exF_run (Some 2) false (@rev cnode) true QPot (F32 3 (-2)) with Ok _ => True | _ => False end.
Proof.
  split; [now vm_compute|]. split; [vm_compute; discriminate|]. split; [exact (proj1 (exF_reachable (Some 2) (or_intror eq_refl)))|]. now vm_compute.
Qed.

(** C30. The work for a critical node writes the elements of its particles and no others; what it writes does not depend on the
    output; every element belongs to one critical node. Thus the result does not depend on the order. *)
Theorem C30_written_once :
  forall (F : Type) (O : fops F) (E : env) (K : platform F) (ordered : bool) (q : quant) (t : @tree F) (mv G eps2 pad : F)
    (HE : env_ok E) (HK : benign_shift K) (Ht : reachable O E t) (Hroom : room E t),
  (forall k, k < length (t_codes t) ->
    exists cn, In cn (t_crit t) /\ (exists i, c_begin cn <= i < c_end cn /\ k = dst ordered t i) /\
      forall cn', In cn' (t_crit t) -> (exists i, c_begin cn' <= i < c_end cn' /\ k = dst ordered t i) -> cn' = cn) /\
  forall cn out1 out2, In cn (t_crit t) ->
    out_ok (length (t_codes t)) (nvecs_res E q) out1 -> out_ok (length (t_codes t)) (nvecs_res E q) out2 ->
    exists o1 o2, crit_run O E K q t mv G eps2 pad (dest_of ordered t) out1 cn = Ok o1 /\
      crit_run O E K q t mv G eps2 pad (dest_of ordered t) out2 cn = Ok o2 /\
      forall j k, j < nvecs_res E q -> k < length (t_codes t) ->
        ((exists i, c_begin cn <= i < c_end cn /\ k = dst ordered t i) -> nth_error (nth j o1 []) k = nth_error (nth j o2 []) k) /\
        (~ (exists i, c_begin cn <= i < c_end cn /\ k = dst ordered t i) ->
           nth_error (nth j o1 []) k = nth_error (nth j out1 []) k /\ nth_error (nth j o2 []) k = nth_error (nth j out2 []) k).
Proof.
  intros F O E K ordered q t mv G eps2 pad HE HK Ht Hroom. pose proof (reachable_inv O E HE t Ht) as I.
  exact (conj (crit_partition O E ordered t I) (fun cn o1 o2 Hcn => crit_writes O E K HE HK ordered q t mv G eps2 pad cn o1 o2 I Hroom Hcn)).
Qed.
Print Assumptions C30_written_once.

Theorem C30_order_independent :
  forall (F D : Type) (O : fops F) (OD : fops D) (E : env) (K : platform F) (ord1 ord2 : list cnode -> list cnode) (ordered : bool) (q : quant) (t : @tree F)
    (theta G eps : F) (split : list D) (out : list (list F))
    (HE : env_ok E) (HK : benign_shift K) (Ht : reachable O E t) (Hroom : room E t) (Hord1 : reorders ord1) (Hord2 : reorders ord2)
    (Hout : out_ok (length (t_codes t)) (nvecs_res E q) out),
  acc_pot_dispatch O OD E K ord1 ordered q t theta G eps split out = acc_pot_dispatch O OD E K ord2 ordered q t theta G eps split out.
Proof.
  intros F D O OD E K ord1 ord2 ordered q t theta G eps split out HE HK Ht.
  exact (dispatch_order O OD E K HE HK ord1 ord2 ordered q t theta G eps split out (reachable_inv O E HE t Ht)).
Qed.
Print Assumptions C30_order_independent.

Example C30_ex : length (t_crit (exF_tree (Some 2))) = 6 /\
  exF_show (exF_run (Some 2) false (@rev cnode) true QAcc (F32 3 (-2))) = exF_show (exF_run (Some 2) false (fun l => l) true QAcc (F32 3 (-2))) /\
  reachable exFO (ex3E Bh (Some 2)) (exF_tree (Some 2)) /\ match exF_run (Some 2) false (@rev cnode) true QAcc (F32 3 (-2)) with Ok _ => True | _ => False end.
Proof.
  split; [now vm_compute|]. split; [now vm_compute|]. split; [exact (proj1 (exF_reachable (Some 2) (or_intror eq_refl)))|]. now vm_compute.
Qed.

(** C31. The traversal shifts a code by more bits than it has: undefined behaviour if shifts are taken as the standard defines them,
    while the call succeeds on machines which reduce the amount modulo the width. *)
Theorem C31_shift_refuted :
  exists (t : @tree (binary_float 24 128)) (theta : binary_float 24 128) (out : list (list (binary_float 24 128))),
    reachable exFO (ex3E Bh (Some 2)) t /\ room (ex3E Bh (Some 2)) t /\ out_ok (length (t_codes t)) 3 out /\
    acc_pot_dispatch exFO exFD (ex3E Bh (Some 2)) (exFK true) (fun l => l) false QAcc t theta (F32 1 0) (F32 0 0) [] out = UB /\
    (exists out', acc_pot_dispatch exFO exFD (ex3E Bh (Some 2)) (exFK false) (fun l => l) false QAcc t theta (F32 1 0) (F32 0 0) [] out = Ok out').
Proof.
  destruct (exF_reachable (Some 2) (or_intror eq_refl)) as (H1 & H2 & H3).
  exists (exF_tree (Some 2)), (F32 3 (-2)), (repeat (repeat (F32 0 0) 6) 3).
  split; [exact H1|]. split; [unfold room; rewrite H2; vm_compute; discriminate|]. split; [rewrite H2; split; [reflexivity|repeat constructor]|].
  split; [now vm_compute|].
  assert (X : match exF_run (Some 2) false (fun l => l) false QAcc (F32 3 (-2)) with Ok _ => True | _ => False end) by now vm_compute.
  unfold exF_run in X. cbn [nvecs_res] in X. destruct (acc_pot_dispatch _ _ _ _ _ _ _ _ _ _ _ _ _) as [o|e|] eqn:R in X; [|destruct X|destruct X].
  exists o. exact R.
Qed.
Print Assumptions C31_shift_refuted.

(** C32. *)
Theorem C32_parameters_checked :
  forall (F D : Type) (O : fops F) (OD : fops D) (E : env) (K : platform F) (ord : list cnode -> list cnode) (ordered : bool) (q : quant) (t : @tree F)
    (theta G eps : F) (split : list D) (out : list (list F))
    (HE : env_ok E) (HK : benign_shift K) (Ht : reachable O E t) (Hroom : room E t) (Hord : reorders ord)
    (Hout : out_ok (length (t_codes t)) (nvecs_res E q) out),
  let zero := fofZ O 0%Z in
  let mv := match e_mac E with Bh => fdiv O (fofZ O 1%Z) (fmul O theta theta) | BhGeom => fdiv O (fofZ O 1%Z) theta end in
  let bad := ffin O theta = false \/ fle O theta zero = true \/ (ffin O mv = false \/ fle O mv zero = true) \/
    ffin O eps = false \/ flt O eps zero = true \/ ffin O (fmul O eps eps) = false \/ flt O (fmul O eps eps) zero = true \/ ffin O G = false in
  let bad_call := (exists x, In x split /\ ffin OD x = false) \/ (exists x, In x split /\ flt OD x (fofZ OD 0%Z) = true) \/
    (split <> [] /\ forall x, In x split -> feq OD x (fofZ OD 0%Z) = true) \/ 1 < length split \/
    ffin O (pad_coord O E (t_box t) mv) = false in
  let r := acc_pot_dispatch O OD E K ord ordered q t theta G eps split out in
  (r = Throw DomainError <-> bad) /\ (r = Throw InvalidArgument <-> ~ bad /\ bad_call) /\ ((exists out', r = Ok out') <-> ~ bad /\ ~ bad_call).
Proof.
  intros F D O OD E K ord ordered q t theta G eps split out HE HK Ht Hroom Hord Hout.
  exact (validation O OD E K HE HK ord ordered q t theta G eps split out (reachable_inv O E HE t Ht) Hroom Hord Hout).
Qed.
Print Assumptions C32_parameters_checked.

Example C32_ex : exF_run (Some 2) false (fun l => l) true QPot (F32 (-3) (-2)) = Throw DomainError /\
  match exF_run (Some 2) false (fun l => l) true QPot (F32 3 (-2)) with Ok _ => True | _ => False end /\
  exF_run (Some 2) false (fun l => l) true QPot (F32 1 (-70)) = Throw DomainError /\
  match exF_run (Some 2) false (fun l => l) true QPot (F32 1 (-50)) with Ok _ => True | _ => False end.
Proof. split; [now vm_compute|]. split; [now vm_compute|]. split; now vm_compute. Qed.

(** C33. *)
Theorem C33_exact_sums :
  forall (E : env) (ordered : bool) (q : quant) (t : @tree R) (P : nat -> @prow R) (G eps : R) (i : nat)
    (HE : env_ok E) (Ht : reachable Rops E t) (HP : particles_of t P) (Heps : (0 <= eps)%R) (Hi : i < length (t_codes t)),
  exists row, exact_acc_pot Rops E ordered q t (dst ordered t i) G eps = Ok row /\ length row = nvecs_res E q /\
    forall j, j < nvecs_res E q -> nth_error row j =
      Some (G * rsum (fun k => pull (dim (e_cfg E)) q (eps * eps) j (P i) (P k)) (filter (fun k => negb (k =? i)) (seq 0 (length (t_codes t)))))%R.
Proof.
  intros E ordered q t P G eps i HE Ht HP Heps Hi. destruct (exact_R E HE ordered q t P G eps i Ht HP Heps Hi) as (row & R1 & R2 & R3).
  exists row. unfold direct, others in R3. rewrite Nat.sub_0_r in R3. exact (conj R1 (conj R2 R3)).
Qed.
Print Assumptions C33_exact_sums.

Example C33_ex : exists (t : @tree R) P, reachable Rops (ex3E Bh (Some 4)) t /\ particles_of t P /\ 2 < length (t_codes t).
Proof. destruct (ex3_tree Bh) as (t & P & H1 & H2 & H3 & H4 & H5 & H6 & H7). exists t, P. rewrite H3. auto. Qed.

(** C34. *)
Theorem C34_momentum_conserved :
  forall (D : Type) (OD : fops D) (E : env) (K : platform R) (ord : list cnode -> list cnode) (q : quant) (t : @tree R)
    (P : nat -> @prow R) (theta G eps : R) (split : list D) (out : list (list R))
    (HE : env_ok E) (HK : benign_shift K) (HX : exact_rsqrt K) (Ht : reachable Rops E t) (Hroom : room E t) (Hord : reorders ord)
    (HP : particles_of t P) (Htheta : (0 < theta)%R) (Heps : (0 <= eps)%R) (Hsplit : check_split OD split = Ok tt) (Hcpu : length split <= 1)
    (Hout : out_ok (length (t_codes t)) (nvecs_res E q) out) (Hnone : none_separated E t theta P) (Hq : has_acc q = true),
  exists out', acc_pot_dispatch Rops OD E K ord false q t theta G eps split out = Ok out' /\
    forall j, j < dim (e_cfg E) -> rsum (fun i => snd (P i) * nth i (nth j out' []) 0)%R (seq 0 (length (t_codes t))) = 0%R.
Proof. intros D OD E K ord q t P theta G eps split out HE HK HX. exact (dispatch_momentum OD E K HE HK HX ord q t P theta G eps split out). Qed.
Print Assumptions C34_momentum_conserved.

Example C34_ex : exists (t : @tree R) P theta, reachable Rops (ex3E Bh (Some 4)) t /\ particles_of t P /\ none_separated (ex3E Bh (Some 4)) t theta P /\ length (t_codes t) = 4.
Proof.
  destruct C26_ex as (t & P & theta & H1 & H2 & H3 & H4 & H5 & H6 & H7). exists t, P, theta. split; [exact H1|]. split; [exact H2|]. split; [|exact H7].
  apply small_theta; auto. apply ex3E_ok. lia.
Qed.

(** C45. *)
Theorem C45_linear_in_G :
  forall (D : Type) (OD : fops D) (E : env) (K : platform R) (ord ord' : list cnode -> list cnode) (ordered : bool) (q : quant) (t : @tree R)
    (P : nat -> @prow R) (theta G eps : R) (split : list D) (out : list (list R))
    (HE : env_ok E) (HK : benign_shift K) (HX : exact_rsqrt K) (Ht : reachable Rops E t) (Hroom : room E t) (Hord : reorders ord) (Hord' : reorders ord')
    (HP : particles_of t P) (Htheta : (0 < theta)%R) (Heps : (0 <= eps)%R) (Hsplit : check_split OD split = Ok tt) (Hcpu : length split <= 1)
    (Hout : out_ok (length (t_codes t)) (nvecs_res E q) out),
  exists o1 oG, acc_pot_dispatch Rops OD E K ord ordered q t theta 1%R eps split out = Ok o1 /\
    acc_pot_dispatch Rops OD E K ord' ordered q t theta G eps split out = Ok oG /\
    forall i j, i < length (t_codes t) -> j < nvecs_res E q ->
      exists v, nth_error (nth j o1 []) i = Some v /\ nth_error (nth j oG []) i = Some (G * v)%R.
Proof. intros D OD E K ord ord' ordered q t P theta G eps split out HE HK HX. exact (dispatch_linear OD E K HE HK HX ord ord' ordered q t P theta G eps split out). Qed.
Print Assumptions C45_linear_in_G.

(** C46. Accelerations, in any arithmetic whose multiplication is commutative; IEEE arithmetic is one. *)
Theorem C46_accelerations_agree :
  forall (F D : Type) (O : fops F) (OD : fops D) (E : env) (K : platform F) (ord1 ord2 : list cnode -> list cnode) (ordered : bool) (t : @tree F)
    (theta G eps : F) (split : list D) (out1 out2 : list (list F))
    (HE : env_ok E) (HK : benign_shift K) (Hcomm : forall x y, fmul O x y = fmul O y x)
    (Ht : reachable O E t) (Hroom : room E t) (Hord1 : reorders ord1) (Hord2 : reorders ord2)
    (Hout1 : out_ok (length (t_codes t)) (dim (e_cfg E)) out1) (Hout2 : out_ok (length (t_codes t)) (dim (e_cfg E) + 1) out2),
  match acc_pot_dispatch O OD E K ord1 ordered QAcc t theta G eps split out1, acc_pot_dispatch O OD E K ord2 ordered QBoth t theta G eps split out2 with
  | Ok o1, Ok o2 => forall j i, j < dim (e_cfg E) -> i < length (t_codes t) -> nth_error (nth j o1 []) i = nth_error (nth j o2 []) i
  | Throw e1, Throw e2 => e1 = e2
  | _, _ => False
  end.
Proof.
  intros F D O OD E K ord1 ord2 ordered t theta G eps split out1 out2 HE HK Hcomm Ht.
  exact (dispatch_accs O OD E K HE HK Hcomm ord1 ord2 ordered t theta G eps split out1 out2 (reachable_inv O E HE t Ht)).
Qed.
Print Assumptions C46_accelerations_agree.

Example C46_accs_ex : (forall x y, fmul exFO x y = fmul exFO y x) /\ room (ex3E Bh (Some 2)) (exF_tree (Some 2)) /\
  match exF_run (Some 2) false (@rev cnode) true QAcc (F32 3 (-2)), exF_run (Some 2) false (fun l => l) true QBoth (F32 3 (-2)) with
  | Ok o1, Ok o2 => length o1 = 3 /\ length o2 = 4 /\ sf (firstn 3 o2) = sf o1 | _, _ => False end.
Proof.
  split; [intros x y; apply Bmult_comm|]. split; [unfold room; now vm_compute|]. now vm_compute.
Qed.

(** Potentials, scalar code path, in any arithmetic. *)
Theorem C46_scalar_potentials_agree :
  forall (F D : Type) (O : fops F) (OD : fops D) (E : env) (K : platform F) (ord1 ord2 : list cnode -> list cnode) (ordered : bool) (t : @tree F)
    (theta G eps : F) (split : list D) (out1 out2 : list (list F))
    (HE : env_ok E) (HK : benign_shift K) (Hscalar : vectorised (e_cfg E) (e_simd E) = false)
    (Ht : reachable O E t) (Hroom : room E t) (Hord1 : reorders ord1) (Hord2 : reorders ord2)
    (Hout1 : out_ok (length (t_codes t)) 1 out1) (Hout2 : out_ok (length (t_codes t)) (dim (e_cfg E) + 1) out2),
  match acc_pot_dispatch O OD E K ord1 ordered QPot t theta G eps split out1, acc_pot_dispatch O OD E K ord2 ordered QBoth t theta G eps split out2 with
  | Ok o1, Ok o2 => forall i, i < length (t_codes t) -> nth_error (nth 0 o1 []) i = nth_error (nth (dim (e_cfg E)) o2 []) i
  | Throw e1, Throw e2 => e1 = e2
  | _, _ => False
  end.
Proof.
  intros F D O OD E K ord1 ord2 ordered t theta G eps split out1 out2 HE HK Hscalar Ht.
  exact (dispatch_pots O OD E K HE HK Hscalar ord1 ord2 ordered t theta G eps split out1 out2 (reachable_inv O E HE t Ht)).
Qed.
Print Assumptions C46_scalar_potentials_agree.

Example C46_pots_ex : vectorised C3_64 None = false /\ reachable exFO (ex3E Bh None) (exF_tree None) /\
  match exF_run None false (@rev cnode) true QPot (F32 3 (-2)), exF_run None false (fun l => l) true QBoth (F32 3 (-2)) with
  | Ok o1, Ok o2 => length o1 = 1 /\ length o2 = 4 /\ sf (skipn 3 o2) = sf o1 | _, _ => False end.
Proof. split; [reflexivity|]. split; [exact (proj1 (exF_reachable None (or_introl eq_refl)))|]. now vm_compute. Qed.

(** Potentials, both code paths, in exact arithmetic. *)
Theorem C46_exact_potentials_agree :
  forall (D : Type) (OD : fops D) (E : env) (K : platform R) (ord1 ord2 : list cnode -> list cnode) (ordered : bool) (t : @tree R)
    (P : nat -> @prow R) (theta G eps : R) (split : list D) (out1 out2 : list (list R))
    (HE : env_ok E) (HK : benign_shift K) (HX : exact_rsqrt K) (Ht : reachable Rops E t) (Hroom : room E t) (Hord1 : reorders ord1) (Hord2 : reorders ord2)
    (HP : particles_of t P) (Htheta : (0 < theta)%R) (Heps : (0 <= eps)%R) (Hsplit : check_split OD split = Ok tt) (Hcpu : length split <= 1)
    (Hout1 : out_ok (length (t_codes t)) 1 out1) (Hout2 : out_ok (length (t_codes t)) (dim (e_cfg E) + 1) out2),
  exists o1 o2, acc_pot_dispatch Rops OD E K ord1 ordered QPot t theta G eps split out1 = Ok o1 /\
    acc_pot_dispatch Rops OD E K ord2 ordered QBoth t theta G eps split out2 = Ok o2 /\
    forall i, i < length (t_codes t) -> nth_error (nth 0 o1 []) i = nth_error (nth (dim (e_cfg E)) o2 []) i.
Proof. intros D OD E K ord1 ord2 ordered t P theta G eps split out1 out2 HE HK HX. exact (dispatch_pots_R OD E K HE HK HX ord1 ord2 ordered t P theta G eps split out1 out2). Qed.
Print Assumptions C46_exact_potentials_agree.

(** The potentials of the vector code path are not the same numbers in single precision. *)
Theorem C46_vector_potentials_refuted :
  exists (t : @tree (binary_float 24 128)) (theta : binary_float 24 128) (out1 out2 o1 o2 : list (list (binary_float 24 128))),
    reachable exFO (ex3E Bh (Some 2)) t /\ room (ex3E Bh (Some 2)) t /\ out_ok (length (t_codes t)) 1 out1 /\ out_ok (length (t_codes t)) 4 out2 /\
    acc_pot_dispatch exFO exFD (ex3E Bh (Some 2)) (exFK false) (fun l => l) false QPot t theta (F32 1 0) (F32 0 0) [] out1 = Ok o1 /\
    acc_pot_dispatch exFO exFD (ex3E Bh (Some 2)) (exFK false) (fun l => l) false QBoth t theta (F32 1 0) (F32 0 0) [] out2 = Ok o2 /\
    nth_error (nth 0 o1 []) 0 <> nth_error (nth 3 o2 []) 0.
Proof.
  destruct (exF_reachable (Some 2) (or_intror eq_refl)) as (H1 & H2 & H3).
  assert (X : match exF_run (Some 2) false (fun l => l) false QPot (F32 3 (-2)), exF_run (Some 2) false (fun l => l) false QBoth (F32 3 (-2)) with
    | Ok o1, Ok o2 => nth_error (nth 0 (sf o1) []) 0 <> nth_error (nth 3 (sf o2) []) 0 | _, _ => False end) by (vm_compute; discriminate).
  destruct (exF_run (Some 2) false (fun l => l) false QPot (F32 3 (-2))) as [o1|e|] eqn:R1; [|destruct X|destruct X].
  destruct (exF_run (Some 2) false (fun l => l) false QBoth (F32 3 (-2))) as [o2|e|] eqn:R2; [|destruct X|destruct X].
  exists (exF_tree (Some 2)), (F32 3 (-2)), (repeat (repeat (F32 0 0) 6) 1), (repeat (repeat (F32 0 0) 6) 4), o1, o2.
  split; [exact H1|]. split; [unfold room; rewrite H2; vm_compute; discriminate|]. split; [rewrite H2; split; [reflexivity|repeat constructor]|].
  split; [rewrite H2; split; [reflexivity|repeat constructor]|]. split; [exact R1|]. split; [exact R2|].
  intros Z. apply X. unfold sf.
  change (@nil SpecFloat.spec_float) with (map (@B2SF 24 128) []). rewrite !(map_nth (map _)). rewrite !nth_error_map. now rewrite Z.
Qed.
Print Assumptions C46_vector_potentials_refuted.

(** C61. No undefined behaviour in a call, whatever the parameters and the number of particles, if shifts by too large amounts
    have some value and the output ranges are long enough. *)
Theorem C61_no_undefined_behaviour :
  forall (F D : Type) (O : fops F) (OD : fops D) (E : env) (K : platform F) (ord : list cnode -> list cnode) (ordered : bool) (q : quant) (t : @tree F)
    (theta G eps : F) (split : list D) (out : list (list F))
    (HE : env_ok E) (HK : benign_shift K) (Ht : reachable O E t) (Hord : reorders ord) (Hout : out_ok (length (t_codes t)) (nvecs_res E q) out),
  acc_pot_dispatch O OD E K ord ordered q t theta G eps split out <> UB.
Proof.
  intros F D O OD E K ord ordered q t theta G eps split out HE HK Ht.
  exact (dispatch_safe O OD E K HE HK ord ordered q t theta G eps split out (reachable_inv O E HE t Ht)).
Qed.
Print Assumptions C61_no_undefined_behaviour.

Example C61_ex : benign_shift (exFK false) /\ reachable exFO (ex3E Bh (Some 2)) (exF_tree (Some 2)) /\ out_ok 6 3 (repeat (repeat (F32 0 0) 6) 3) /\
  acc_pot_dispatch exFO exFD (ex3E Bh (Some 2)) (exFK false) (fun l => l) false QAcc (exF_tree (Some 2)) (F32 3 (-2)) (F32 1 0) (F32 0 0) [] (repeat (repeat (F32 0 0) 5) 3) = UB.
Proof.
  split; [apply masked_benign|]. split; [exact (proj1 (exF_reachable (Some 2) (or_intror eq_refl)))|]. split; [split; [reflexivity|repeat constructor]|]. now vm_compute.
Qed.
