(** Property C75: the units. In exact arithmetic, measuring the lengths (coordinates, box, softening) in a unit [1/a] times as large and the masses in a unit [1/b] times as
    large changes the units of the results and nothing else. [view_cols true t] are the particles in the original order, as the ordered iterators present them: columns of
    coordinates, then the column of masses. *)
From Coq Require Import List Arith ZArith NArith Reals Bool Lra Lia.
From Verif Require Import Base Config Morton Build TreeSpec FOps Disc NodeProps Tree TreeInv TreeProofs TreeProps TreeEx Kernels
  Force TravProofs KernLoops KernR ForceGen ForceOut ForceR ForceTop ForceRTop ForceEx Unique UniqueR Rebuild Scale ScaleEx.
Import ListNotations.
Local Open Scope nat_scope.

(** C75. The constructor accepts the particles in the other units. *)
Theorem C75_constructor_units :
  forall (a b : R) (E : env) (s s' : sched) (bx : R) (cols : list (list R)) (mln nc : option nat) (np : nat) (t : @tree R)
    (Ha : (0 < a)%R) (HE : env_ok E) (Hs : sched_ok s) (Hs' : sched_ok s') (Halloc : forall k, s_alloc s k = true) (Halloc' : forall k, s_alloc s' k = true)
    (Hcols : length cols = dim (e_cfg E) + 1 /\ Forall (fun col => length col = np) cols)
    (Hdiff : (N.of_nat np <= diff_max)%N) (Hcount : (N.of_nat np * cbitsc (e_cfg E) < 2 ^ 64 - 1)%N)
    (Hmln : mln <> Some 0) (Hnc : nc <> Some 0) (Hbx : (0 < bx)%R)
    (Hrun : generic_ctor Rops E s (Some bx) (Ranges cols) mln nc = Ok t),
  let cols' := map (map (Rmult a)) (firstn (dim (e_cfg E)) cols) ++ map (map (Rmult b)) (skipn (dim (e_cfg E)) cols) in
  exists u, generic_ctor Rops E s' (Some (a * bx)%R) (Ranges cols') mln nc = Ok u /\
    view_cols true t = Ok cols /\ view_cols true u = Ok cols' /\ t_box u = (a * t_box t)%R /\ t_mln u = t_mln t /\ t_ncrit u = t_ncrit t.
Proof.
  intros a b E s s' bx cols mln nc np t Ha HE Hs Hs' Hal Hal' Hcols Hd Hc Hm Hn Hbx Hrun.
  exact (units_ctor a b Ha E s s' bx cols mln nc np t HE Hs Hs' Hal Hal' Hcols Hd Hc Hm Hn Hbx Hrun).
Qed.
Print Assumptions C75_constructor_units.

Example C75_constructor_ex : exists t : @tree R,
  generic_ctor Rops (ex3E Bh (Some 4)) (ex_sched false) (Some 1%R) (Ranges ex3_cols) (Some 1) (Some 2) = Ok t /\
  length ex3_cols = dim (e_cfg (ex3E Bh (Some 4))) + 1 /\ Forall (fun col => length col = 4) ex3_cols.
Proof. destruct (ex3_ctor Bh) as [t Ht]. exists t. split; [exact Ht|]. split; [reflexivity|]. repeat constructor. Qed.

(** C75. The size of a deduced box is a length. *)
Theorem C75_deduced_box_units :
  forall (a b : R) (E : env) (t u : @tree R) (v : list (list R))
    (Ha : (0 < a)%R) (Hb : b <> 0%R) (HE : env_ok E) (Ht : reachable Rops E t) (Hu : reachable Rops E u)
    (Hvt : view_cols true t = Ok v)
    (Hvu : view_cols true u = Ok (map (map (Rmult a)) (firstn (dim (e_cfg E)) v) ++ map (map (Rmult b)) (skipn (dim (e_cfg E)) v)))
    (Hdt : t_ded t = true) (Hdu : t_ded u = true),
  t_box u = (a * t_box t)%R.
Proof. intros a b E t u v Ha Hb HE Ht Hu Hvt Hvu Hdt Hdu. exact (units_box a b Ha Hb E t u v HE Ht Hu Hvt Hvu Hdt Hdu). Qed.
Print Assumptions C75_deduced_box_units.

Example C75_deduced_box_ex : exists (t u : @tree R) v, reachable Rops (ex3E BhGeom (Some 4)) t /\ reachable Rops (ex3E BhGeom (Some 4)) u /\
  view_cols true t = Ok v /\ view_cols true u = Ok (map (map (Rmult 3)) (firstn 3 v) ++ map (map (Rmult (1 / 2))) (skipn 3 v)) /\
  t_ded t = true /\ t_ded u = true /\ length (t_codes t) = 4.
Proof. exact (units_deduced_ex BhGeom). Qed.

(** C75. The nodes are the same; their masses and centres of mass are expressed in the other units. *)
Theorem C75_node_units :
  forall (a b : R) (E : env) (t u : @tree R) (v : list (list R))
    (Ha : (0 < a)%R) (Hb : b <> 0%R) (HE : env_ok E) (Ht : reachable Rops E t) (Hu : reachable Rops E u)
    (Hvt : view_cols true t = Ok v)
    (Hvu : view_cols true u = Ok (map (map (Rmult a)) (firstn (dim (e_cfg E)) v) ++ map (map (Rmult b)) (skipn (dim (e_cfg E)) v)))
    (Hbox : t_box u = (a * t_box t)%R) (Hmln : t_mln u = t_mln t) (Hncrit : t_ncrit u = t_ncrit t),
  t_codes u = t_codes t /\
  map (fun nd => (n_begin nd, n_end nd, n_children nd, n_code nd, n_level nd, p_com (n_props nd), p_mass (n_props nd))) (t_nodes u) =
  map (fun nd => (n_begin nd, n_end nd, n_children nd, n_code nd, n_level nd, map (Rmult a) (p_com (n_props nd)), (b * p_mass (n_props nd))%R)) (t_nodes t) /\
  t_crit u = t_crit t.
Proof.
  intros a b E t u v Ha Hb HE Ht Hu Hvt Hvu Hbox Hmln Hncrit.
  exact (units_fields a b Ha Hb E HE t u (reachable_inv Rops E HE t Ht) (reachable_inv Rops E HE u Hu) v Hvt Hvu Hbox Hmln Hncrit).
Qed.
Print Assumptions C75_node_units.

(** C75. Accelerations are multiplied by [b/a^2] and potentials, which are energies in this library, by [b^2/a]. [ord] and [ord'] are the orders in which the
    parallel loops treat the critical nodes. *)
Theorem C75_force_units :
  forall (D : Type) (OD : fops D) (a b : R) (E : env) (K : platform R) (t u : @tree R) (v : list (list R))
    (ord ord' : list cnode -> list cnode) (q : quant) (theta G eps : R) (split : list D) (out o : list (list R))
    (Ha : (0 < a)%R) (Hb : b <> 0%R) (HE : env_ok E) (HK : benign_shift K) (Hsqrt : exact_rsqrt K) (Ht : reachable Rops E t) (Hu : reachable Rops E u)
    (Hvt : view_cols true t = Ok v)
    (Hvu : view_cols true u = Ok (map (map (Rmult a)) (firstn (dim (e_cfg E)) v) ++ map (map (Rmult b)) (skipn (dim (e_cfg E)) v)))
    (Hbox : t_box u = (a * t_box t)%R) (Hmln : t_mln u = t_mln t) (Hncrit : t_ncrit u = t_ncrit t)
    (Hroom : room E t) (Hord : reorders ord) (Hord' : reorders ord')
    (Hout : length out = nvecs_res E q /\ Forall (fun col => length (t_codes t) <= length col) out)
    (Hrun : acc_pot_dispatch Rops OD E K ord true q t theta G eps split out = Ok o),
  exists o', acc_pot_dispatch Rops OD E K ord' true q u theta G (a * eps)%R split out = Ok o' /\
    forall j k, j < nvecs_res E q -> k < length (t_codes t) ->
      nth k (nth j o' []) 0%R =
      ((if match q with QPot => false | QAcc | QBoth => j <? dim (e_cfg E) end then b / (a * a) else b * b / a) * nth k (nth j o []) 0)%R.
Proof.
  intros D OD a b E K t u v ord ord' q theta G eps split out o Ha Hb HE HK HX Ht Hu Hvt Hvu Hbox Hmln Hncrit Hroom Ho Ho' Hout Hrun.
  exact (units_results OD a b Ha Hb E K HE HK HX t u (reachable_inv Rops E HE t Ht) (reachable_inv Rops E HE u Hu) v Hvt Hvu Hbox Hmln Hncrit
    ord ord' q theta G eps split out o Hroom Ho Ho' Hout Hrun).
Qed.
Print Assumptions C75_force_units.

(** Lengths times 3, masses halved; a call on the first tree that returns. *)
Example C75_force_ex : exists (t u : @tree R) v o, reachable Rops (ex3E Bh (Some 4)) t /\ reachable Rops (ex3E Bh (Some 4)) u /\
  view_cols true t = Ok v /\ view_cols true u = Ok (map (map (Rmult 3)) (firstn 3 v) ++ map (map (Rmult (1 / 2))) (skipn 3 v)) /\
  t_box u = (3 * t_box t)%R /\ t_mln u = t_mln t /\ t_ncrit u = t_ncrit t /\ room (ex3E Bh (Some 4)) t /\ length (t_codes t) = 4 /\
  benign_shift ex3_K /\ exact_rsqrt ex3_K /\
  acc_pot_dispatch Rops Rops (ex3E Bh (Some 4)) ex3_K (fun l => l) true QBoth t (1 / 2)%R 1%R 0%R [] (repeat (repeat 0%R 4) 4) = Ok o.
Proof. exact (units_forces_ex Bh). Qed.
