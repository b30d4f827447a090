(** Property C65: how fast the error of the approximation goes to zero.
    [direct E q eps P n i j] is the sum over all the other particles of what they contribute to the component [j] of the result of the particle [i];
    [k] is the opening angle times the square root of the number of dimensions. *)
From Coq Require Import List Arith NArith ZArith Lia Bool Reals Lra Permutation.
From Verif Require Import Base Config Morton Build TreeSpec FOps Disc NodeProps Tree TreeInv TreeProofs TreeSafe TreeEx RSum NodeGeom NodesR
  Kernels Force TravProofs KernLoops SelfSum KernR ForceGen ForceOut ForceR ForceTop ForceRTop Geometry ForceMore ForceAcc ForceEx Gpu GpuOut GpuTop GpuSplit GpuR GpuMain.
Import ListNotations.
Local Open Scope nat_scope.

(** C65. The error of a potential is of second order in the opening angle, relative to the potential. *)
Theorem C65_potential_second_order :
  forall (D : Type) (OD : fops D) (E : env) (K : platform R) (ord : list cnode -> list cnode) (ordered : bool) (q : quant) (t : @tree R)
    (P : nat -> @prow R) (theta G eps : R) (split : list D) (out : list (list R))
    (HE : env_ok E) (HK : benign_shift K) (HX : exact_rsqrt K) (Ht : reachable Rops E t) (Hroom : room E t) (Hord : reorders ord)
    (HP : particles_of t P) (Htheta : (0 < theta)%R) (Heps : (0 <= eps)%R) (Hsplit : check_split OD split = Ok tt) (Hcpu : length split <= 1)
    (Hout : out_ok (length (t_codes t)) (nvecs_res E q) out)
    (Hmass : masses_nonneg t P) (Hbox : (0 < t_box t)%R) (Hapart : apart eps P (length (t_codes t))),
  exists out', acc_pot_dispatch Rops OD E K ord ordered q t theta G eps split out = Ok out' /\
    forall i j, i < length (t_codes t) -> j < nvecs_res E q -> is_acc (dim (e_cfg E)) q j = false ->
      exists v, nth_error (nth j out' []) (dst ordered t i) = Some v /\
        let k := (theta * sqrt (INR (dim (e_cfg E))))%R in let d := (G * direct E q eps P (length (t_codes t)) i j)%R in
        (Rabs (v - d) <= k * k * (3 + k) / 2 * Rabs d)%R.
Proof.
  intros D OD E K ord ordered q t P theta G eps split out HE HK HX Ht Hroom Hord HP Htheta Heps Hsplit Hcpu Hout Hmass Hbox Hapart.
  destruct (dispatch_error2 OD E K HE HK HX ord ordered q t P theta G eps split out Ht Hroom Hord HP Htheta Heps Hsplit Hcpu Hout Hmass Hbox Hapart) as (out' & E1 & V).
  exists out'. split; [exact E1|]. intros i j Hi Hj Hpot. destruct (V i j Hi Hj) as (v & V1 & V2 & _). exists v. split; [exact V1|exact (V2 Hpot)].
Qed.
Print Assumptions C65_potential_second_order.

(** C65. The error of each component of an acceleration is of second order in the opening angle, relative to the sum of the strengths of the
    attractions by all the other particles. *)
Theorem C65_acceleration_second_order :
  forall (D : Type) (OD : fops D) (E : env) (K : platform R) (ord : list cnode -> list cnode) (ordered : bool) (q : quant) (t : @tree R)
    (P : nat -> @prow R) (theta G eps : R) (split : list D) (out : list (list R))
    (HE : env_ok E) (HK : benign_shift K) (HX : exact_rsqrt K) (Ht : reachable Rops E t) (Hroom : room E t) (Hord : reorders ord)
    (HP : particles_of t P) (Htheta : (0 < theta)%R) (Heps : (0 <= eps)%R) (Hsplit : check_split OD split = Ok tt) (Hcpu : length split <= 1)
    (Hout : out_ok (length (t_codes t)) (nvecs_res E q) out)
    (Hmass : masses_nonneg t P) (Hbox : (0 < t_box t)%R) (Hapart : apart eps P (length (t_codes t)))
    (Hangle : (theta * sqrt (INR (dim (e_cfg E))) < 1)%R),
  exists out', acc_pot_dispatch Rops OD E K ord ordered q t theta G eps split out = Ok out' /\
    forall i j, i < length (t_codes t) -> j < nvecs_res E q -> is_acc (dim (e_cfg E)) q j = true ->
      exists v, nth_error (nth j out' []) (dst ordered t i) = Some v /\
        let k := (theta * sqrt (INR (dim (e_cfg E))))%R in
        (Rabs (v - G * direct E q eps P (length (t_codes t)) i j) <=
         k * k * (3 / 2 * ((1 + k) * (1 + k)) + 4 * (1 + k) + 3 + 2 / (1 - k)) *
         (Rabs G * rsum (fun l => snd (P l) / (sep2 (fst (P l)) (fst (P i)) + eps * eps)) (others 0 (length (t_codes t)) i)))%R.
Proof.
  intros D OD E K ord ordered q t P theta G eps split out HE HK HX Ht Hroom Hord HP Htheta Heps Hsplit Hcpu Hout Hmass Hbox Hapart Hangle.
  destruct (dispatch_error2 OD E K HE HK HX ord ordered q t P theta G eps split out Ht Hroom Hord HP Htheta Heps Hsplit Hcpu Hout Hmass Hbox Hapart) as (out' & E1 & V).
  exists out'. split; [exact E1|]. intros i j Hi Hj Hacc. destruct (V i j Hi Hj) as (v & V1 & _ & V2). exists v. split; [exact V1|exact (V2 Hacc Hangle)].
Qed.
Print Assumptions C65_acceleration_second_order.

Example C65_ex : exists (t : @tree R) P, reachable Rops (ex3E BhGeom (Some 4)) t /\ particles_of t P /\ masses_nonneg t P /\ (0 < t_box t)%R /\
  apart 0 P (length (t_codes t)) /\ length (t_codes t) = 4 /\ (1 / 2 * sqrt (INR (dim (e_cfg (ex3E BhGeom (Some 4%nat))))) < 1)%R.
Proof.
  destruct (ex3_tree BhGeom) as (t & P & H1 & H2 & H3 & H4 & H5 & H6 & H7). exists t, P. rewrite H3, H4.
  split; [exact H1|]. split; [exact H5|]. split; [exact H6|]. split; [lra|]. split; [auto|]. split; [auto|].
  change (dim (e_cfg (ex3E BhGeom (Some 4)))) with 3. assert (sqrt (INR 3) < 2)%R; [|lra]. rewrite <- (sqrt_square 2) by lra. apply sqrt_lt_1_alt. cbn [INR]. lra.
Qed.

(** C65. The same bounds hold when the particles are split between the CPU and accelerators. *)
Theorem C65_split_second_order :
  forall (D : Type) (OD : fops D) (npF : N -> D) (E : env) (K : platform R) (g : gpu)
    (ord : list cnode -> list cnode) (order : list (@task R) -> list (@task R)) (ordered : bool) (q : quant) (t : @tree R) (P : nat -> @prow R)
    (theta G eps : R) (split : list D) (out out' : list (list R))
    (HE : env_ok E) (HK : benign_shift K) (HX : exact_rsqrt K) (Hw : 0 < g_warp g) (Ht : reachable Rops E t) (Hroom : room E t) (Hcopy : copies_fresh E g t)
    (Hord : reorders ord) (Horder : reorders order) (Hout : out_ok (length (t_codes t)) (nvecs_res E q) out) (HP : particles_of t P)
    (Hmass : masses_nonneg t P) (Hbox : (0 < t_box t)%R) (Htheta : (0 < theta)%R) (Heps : (0 <= eps)%R) (Hapart : apart eps P (length (t_codes t)))
    (Hcall : hetero_dispatch Rops OD npF E K g ord order ordered q t theta G eps split out = Ok out'),
  forall i j, i < length (t_codes t) -> j < nvecs_res E q ->
    exists v, nth_error (nth j out' []) (dst ordered t i) = Some v /\
      let k := (theta * sqrt (INR (dim (e_cfg E))))%R in let d := (G * direct E q eps P (length (t_codes t)) i j)%R in
      (is_acc (dim (e_cfg E)) q j = false -> (Rabs (v - d) <= k * k * (3 + k) / 2 * Rabs d)%R) /\
      (is_acc (dim (e_cfg E)) q j = true -> (k < 1)%R ->
       (Rabs (v - d) <= k * k * (3 / 2 * ((1 + k) * (1 + k)) + 4 * (1 + k) + 3 + 2 / (1 - k)) *
          (Rabs G * rsum (fun l => snd (P l) / (sep2 (fst (P l)) (fst (P i)) + eps * eps)) (others 0 (length (t_codes t)) i)))%R).
Proof.
  intros D OD npF E K g ord order ordered q t P theta G eps split out out' HE HK HX Hw Ht Hroom Hcopy Hord Horder Hout HP Hmass Hbox Htheta Heps Hapart Hcall.
  exact (hetero_error2 OD npF E K g HE HK HX Hw ord order ordered q t P theta G eps split out out' Ht Hroom Hcopy Hord Horder Hout HP Hmass Hbox Htheta Heps Hapart Hcall).
Qed.
Print Assumptions C65_split_second_order.
