(** Combinations of the results about the force computation, in the form of the property statements. Nothing here models code. *)
From Coq Require Import List Arith NArith ZArith Lia Bool Permutation Reals Lra.
From Verif Require Import Base Config Morton Build TreeSpec FOps NodeProps Tree TreeInv TreeProofs TreeSafe Kernels Force RSum NodeGeom NodesR
  TravProofs KernLoops KernR ForceGen ForceOut ForceR ForceTop ForceRTop ForceMore ForceQ ForceProps.
Import ListNotations.
Local Open Scope nat_scope.

Section Last.

Context {D : Type}.
Variable OD : fops D.
Variable E : env.
Variable K : platform R.
Hypothesis HE : env_ok E.
Hypothesis HK : benign_shift K.
Hypothesis HX : exact_rsqrt K.
Notation c := (e_cfg E).

(** C26: the results are those of the exact computation. *)
Lemma dispatch_exact : forall ord ordered q t P theta G eps split out, reachable Rops E t -> room E t -> reorders ord -> particles_of t P ->
  (0 < theta)%R -> (0 <= eps)%R -> check_split OD split = Ok tt -> length split <= 1 ->
  out_ok (length (t_codes t)) (nvecs_res E q) out ->
  none_separated E t theta P \/ (masses_nonneg t P /\ (0 < t_box t)%R /\ (theta * sqrt (INR (dim c)) * pow2R (cbitsc c) <= 1)%R) ->
  exists out', acc_pot_dispatch Rops OD E K ord ordered q t theta G eps split out = Ok out' /\
    forall i, i < length (t_codes t) -> exists row, exact_acc_pot Rops E ordered q t i G eps = Ok row /\ length row = nvecs_res E q /\
      forall j, j < nvecs_res E q -> nth_error (nth j out' []) i = nth_error row j.
Proof.
  intros ord ordered q t P theta G eps split out Hreach Hroom Hord HP Hth Heps Hs1 Hs2 Ho N.
  assert (N' : none_separated E t theta P) by (destruct N as [N|(N1 & N2 & N3)]; [exact N|now apply small_theta]).
  destruct (dispatch_direct OD E K HE HK HX ord ordered q t P theta G eps split out Hreach Hroom Hord HP Hth Heps Hs1 Hs2 Ho N') as (out' & E1 & O1 & V).
  exists out'. split; [exact E1|]. intros k Hk.
  destruct (dst_onto Rops E ordered t (reachable_inv Rops E HE t Hreach) k Hk) as (i & Hi & ->).
  destruct (exact_R E HE ordered q t P G eps i Hreach HP Heps Hi) as (row & R1 & R2 & R3). exists row. split; [exact R1|]. split; [exact R2|].
  intros j Hj. now rewrite V, R3.
Qed.

(** C34. *)
Lemma dispatch_momentum : forall ord q t P theta G eps split out, reachable Rops E t -> room E t -> reorders ord -> particles_of t P ->
  (0 < theta)%R -> (0 <= eps)%R -> check_split OD split = Ok tt -> length split <= 1 ->
  out_ok (length (t_codes t)) (nvecs_res E q) out -> none_separated E t theta P -> has_acc q = true ->
  exists out', acc_pot_dispatch Rops OD E K ord false q t theta G eps split out = Ok out' /\
    forall j, j < dim c -> rsum (fun i => snd (P i) * nth i (nth j out' []) 0)%R (seq 0 (length (t_codes t))) = 0%R.
Proof.
  intros ord q t P theta G eps split out Hreach Hroom Hord HP Hth Heps Hs1 Hs2 Ho N Hq.
  destruct (dispatch_direct OD E K HE HK HX ord false q t P theta G eps split out Hreach Hroom Hord HP Hth Heps Hs1 Hs2 Ho N) as (out' & E1 & O1 & V).
  exists out'. split; [exact E1|]. intros j Hj.
  assert (Hj' : j < nvecs_res E q) by (destruct q; cbn in *; [lia|discriminate|lia]).
  rewrite (rsum_ext _ _ (fun i => G * (snd (P i) * direct E q eps P (length (t_codes t)) i j))%R).
  - rewrite rsum_scal, momentum by assumption. lra.
  - intros i Hi. apply in_seq in Hi. specialize (V i j ltac:(lia) Hj'). unfold dst in V.
    rewrite (nth_error_nth _ _ 0%R V). lra.
Qed.

(** C46, the potentials of the vector code path. *)
Lemma dispatch_pots_R : forall ord1 ord2 ordered t P theta G eps split out1 out2, reachable Rops E t -> room E t -> reorders ord1 -> reorders ord2 -> particles_of t P ->
  (0 < theta)%R -> (0 <= eps)%R -> check_split OD split = Ok tt -> length split <= 1 ->
  out_ok (length (t_codes t)) 1 out1 -> out_ok (length (t_codes t)) (dim c + 1) out2 ->
  exists o1 o2, acc_pot_dispatch Rops OD E K ord1 ordered QPot t theta G eps split out1 = Ok o1 /\
    acc_pot_dispatch Rops OD E K ord2 ordered QBoth t theta G eps split out2 = Ok o2 /\
    forall i, i < length (t_codes t) -> nth_error (nth 0 o1 []) i = nth_error (nth (dim c) o2 []) i.
Proof.
  intros ord1 ord2 ordered t P theta G eps split out1 out2 Hreach Hroom H1 H2 HP Hth Heps Hs1 Hs2 Ho1 Ho2.
  pose proof (reachable_inv Rops E HE t Hreach) as Ht.
  pose proof (params_R OD E t theta G eps split Hth Heps Hs1 Hs2) as Hp.
  pose proof Hp as (Hmv & _). set (mv := match e_mac E with Bh => _ | BhGeom => _ end) in *.
  destruct (dispatch_ok Rops OD E K HE HK ord1 ordered QPot t theta G eps split mv _ out1 Ht Hroom H1 Hp Ho1) as (o1 & E1 & _ & V1 & _).
  destruct (dispatch_ok Rops OD E K HE HK ord2 ordered QBoth t theta G eps split mv _ out2 Ht Hroom H2 Hp Ho2) as (o2 & E2 & _ & V2 & _).
  exists o1, o2. split; [exact E1|]. split; [exact E2|]. intros k Hk.
  destruct (dst_onto Rops E ordered t Ht k Hk) as (i & Hi & ->). cbn [nvecs_res] in V1, V2. rewrite V1, V2 by lia.
  destruct (crit_of E t i Ht Hi) as (cn & Hcn & Hci & He).
  destruct (result_R E K HE HK HX t P theta mv eps cn Hreach Hroom HP Hmv Hcn) as (A & Dl & S & R).
  destruct (R QPot G i Hci) as [_ R1]. destruct (R QBoth G i Hci) as [_ R2]. cbn [nvecs_res] in R1, R2. rewrite R1, R2 by lia.
  do 2 f_equal. unfold bh_sum, pull, is_acc. cbn [has_acc andb]. now rewrite Nat.ltb_irrefl.
Qed.

End Last.

Section Writes.

Context {F D : Type}.
Variable O : fops F.
Variable OD : fops D.
Variable E : env.
Variable K : platform F.
Hypothesis HE : env_ok E.
Hypothesis HK : benign_shift K.

(** C30: the work for a critical node writes the elements of its particles, and nothing else; what it writes does
    not depend on the contents of the output. *)
Lemma crit_writes : forall ordered q t mv G eps2 pad cn out1 out2, tree_inv O E t -> room E t -> In cn (t_crit t) ->
  out_ok (length (t_codes t)) (nvecs_res E q) out1 -> out_ok (length (t_codes t)) (nvecs_res E q) out2 ->
  exists o1 o2, crit_run O E K q t mv G eps2 pad (dest_of ordered t) out1 cn = Ok o1 /\
    crit_run O E K q t mv G eps2 pad (dest_of ordered t) out2 cn = Ok o2 /\
    forall j k, j < nvecs_res E q -> k < length (t_codes t) ->
      ((exists i, c_begin cn <= i < c_end cn /\ k = dst ordered t i) -> nth_error (nth j o1 []) k = nth_error (nth j o2 []) k) /\
      (~ (exists i, c_begin cn <= i < c_end cn /\ k = dst ordered t i) ->
         nth_error (nth j o1 []) k = nth_error (nth j out1 []) k /\ nth_error (nth j o2 []) k = nth_error (nth j out2 []) k).
Proof.
  intros ordered q t mv G eps2 pad cn out1 out2 Ht Hr Hcn H1 H2.
  pose proof (crit_run_ok O E K HE HK (length (t_codes t)) (dst ordered t) (dest_of ordered t) (dst_ok O E ordered t Ht) (dst_inj O E ordered t Ht) q t Ht eq_refl
    mv G eps2 pad Hr cn) as C.
  destruct (C out1 Hcn H1) as (o1 & E1 & _ & V1 & U1 & _). destruct (C out2 Hcn H2) as (o2 & E2 & _ & V2 & U2 & _).
  exists o1, o2. split; [exact E1|]. split; [exact E2|]. intros j k Hj Hk. split.
  - intros (i & Hi & ->). now rewrite V1, V2.
  - intros N. split; [apply U1|apply U2]; intros i Hi ->; apply N; eauto.
Qed.

Lemma crit_partition : forall ordered t, tree_inv O E t -> forall k, k < length (t_codes t) ->
  exists cn, In cn (t_crit t) /\ (exists i, c_begin cn <= i < c_end cn /\ k = dst ordered t i) /\
    forall cn', In cn' (t_crit t) -> (exists i, c_begin cn' <= i < c_end cn' /\ k = dst ordered t i) -> cn' = cn.
Proof.
  intros ordered t Ht k Hk. destruct (dst_onto O E ordered t Ht k Hk) as (i & Hi & ->).
  destruct (tiles_find _ _ _ _ i (crit_tiles O E t Ht)) as (cn & Hcn & Hc); [lia|]. cbn [fst snd] in Hc.
  exists cn. split; [exact Hcn|]. split; [exists i; split; [exact Hc|reflexivity]|].
  intros cn' Hcn' (i' & Hi' & Ei). destruct (crit_node O E t cn' Ht Hcn') as (_ & _ & _ & _ & _ & N5).
  apply (dst_inj O E ordered t Ht) in Ei; [|lia|lia]. subst i'. symmetry. 
  apply (tiles_unique _ _ _ _ cn cn' i (crit_tiles O E t Ht) Hcn Hcn'); cbn [fst snd]; assumption.
Qed.

End Writes.
