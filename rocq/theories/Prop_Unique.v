(** Properties C63 and C64: a tree is determined by its particles and its parameters, whatever the program did before and however the
    threads were scheduled. [view_cols true t] are the particles in the original order, as the ordered iterators present them. *)
From Coq Require Import List Arith ZArith NArith Reals Bool Lra Lia.
From Flocq Require Import BinarySingleNaN.
From Verif Require Import Base Config Morton Build TreeSpec FOps Disc NodeProps Tree TreeInv TreeProofs TreeProps TreeEx Kernels
  Force TravProofs KernLoops KernR ForceGen ForceOut ForceR ForceTop ForceRTop ForceEx Coll CollLast Unique UniqueR Rebuild UniqueColl.
Import ListNotations.
Local Open Scope nat_scope.

(** C63. Two trees that went through any operations, with the same particles, box and parameters: same codes, same nodes up to their
    masses and centres of mass, same critical nodes. Any arithmetic. *)
Theorem C63_structure :
  forall (F : Type) (O : fops F) (E : env) (t u : @tree F) (v : list (list F))
    (HE : env_ok E) (Ht : reachable O E t) (Hu : reachable O E u)
    (Hvt : view_cols true t = Ok v) (Hvu : view_cols true u = Ok v)
    (Hbox : t_box t = t_box u) (Hmln : t_mln t = t_mln u) (Hncrit : t_ncrit t = t_ncrit u),
  t_codes u = t_codes t /\
  map (fun nd => (n_begin nd, n_end nd, n_children nd, n_code nd, n_level nd)) (t_nodes u) =
    map (fun nd => (n_begin nd, n_end nd, n_children nd, n_code nd, n_level nd)) (t_nodes t) /\
  t_crit u = t_crit t.
Proof.
  intros F O E t u v HE Ht Hu Hvt Hvu Hbox Hmln Hncrit. pose proof (reachable_inv O E HE t Ht) as It. pose proof (reachable_inv O E HE u Hu) as Iu.
  exact (conj (same_codes O E t u It Iu v Hvt Hvu Hbox)
    (conj (eq_sym (proj1 (same_frames O E t u It Iu v Hvt Hvu Hbox Hmln Hncrit))) (eq_sym (proj2 (same_frames O E t u It Iu v Hvt Hvu Hbox Hmln Hncrit))))).
Qed.
Print Assumptions C63_structure.

(** One tree from a construction, the other from an update; the order of two particles at the same position is not the same. *)
Example C63_ex : exists v, reachable exO (exE false) ex_tree /\ reachable exO (exE false) hist_tree /\
  view_cols true ex_tree = Ok v /\ view_cols true hist_tree = Ok v /\
  t_box ex_tree = t_box hist_tree /\ t_mln ex_tree = t_mln hist_tree /\ t_ncrit ex_tree = t_ncrit hist_tree /\
  t_perm ex_tree <> t_perm hist_tree /\ length (t_nodes ex_tree) > 1.
Proof.
  destruct hist_views as (v & H1 & H2 & H3 & H4 & H5 & H6). exists v. split; [exact tree_reachable|]. split; [exact hist_reachable|].
  repeat (split; [assumption|]). vm_compute. lia.
Qed.

(** C63. In exact arithmetic the nodes are the same. *)
Theorem C63_exact_nodes :
  forall (E : env) (t u : @tree R) (v : list (list R))
    (HE : env_ok E) (Ht : reachable Rops E t) (Hu : reachable Rops E u)
    (Hvt : view_cols true t = Ok v) (Hvu : view_cols true u = Ok v)
    (Hbox : t_box t = t_box u) (Hmln : t_mln t = t_mln u) (Hncrit : t_ncrit t = t_ncrit u),
  t_nodes t = t_nodes u /\ t_crit t = t_crit u.
Proof.
  intros E t u v HE Ht Hu Hvt Hvu Hbox Hmln Hncrit.
  exact (same_nodes E HE t u (reachable_inv Rops E HE t Ht) (reachable_inv Rops E HE u Hu) v Hvt Hvu Hbox Hmln Hncrit).
Qed.
Print Assumptions C63_exact_nodes.

(** C63. In exact arithmetic every computation of accelerations or potentials in the original order gives the same results, or the same
    exception. [ord] and [ord'] are the orders in which the parallel loops treat the critical nodes. *)
Theorem C63_exact_forces :
  forall (D : Type) (OD : fops D) (E : env) (K : platform R) (t u : @tree R) (v : list (list R))
    (ord ord' : list cnode -> list cnode) (q : quant) (theta G eps : R) (split : list D) (out : list (list R))
    (HE : env_ok E) (HK : benign_shift K) (Hsqrt : exact_rsqrt K) (Ht : reachable Rops E t) (Hu : reachable Rops E u)
    (Hvt : view_cols true t = Ok v) (Hvu : view_cols true u = Ok v)
    (Hbox : t_box t = t_box u) (Hmln : t_mln t = t_mln u) (Hncrit : t_ncrit t = t_ncrit u)
    (Hroom : room E t) (Hord : reorders ord) (Hord' : reorders ord')
    (Hout : length out = nvecs_res E q /\ Forall (fun col => length (t_codes t) <= length col) out),
  acc_pot_dispatch Rops OD E K ord true q t theta G eps split out = acc_pot_dispatch Rops OD E K ord' true q u theta G eps split out.
Proof.
  intros D OD E K t u v ord ord' q theta G eps split out HE HK HX Ht Hu Hvt Hvu Hbox Hmln Hncrit Hroom Ho Ho' Hout.
  exact (same_forces OD E K HE HK HX t u (reachable_inv Rops E HE t Ht) (reachable_inv Rops E HE u Hu) v Hvt Hvu Hbox Hmln Hncrit ord ord' q theta G eps split out Hroom Ho Ho' Hout).
Qed.
Print Assumptions C63_exact_forces.

(** C63. In exact arithmetic the collision graphs in the original order are the same. *)
Theorem C63_exact_collisions :
  forall (E : env) (K : platform R) (t u : @tree R) (v : list (list R)) (sizes : list R) sch1 sch2 old sch1' sch2' old'
    (HE : env_ok E) (Ht : reachable Rops E t) (Hu : reachable Rops E u)
    (Hvt : view_cols true t = Ok v) (Hvu : view_cols true u = Ok v)
    (Hbox : t_box t = t_box u) (Hmln : t_mln t = t_mln u) (Hncrit : t_ncrit t = t_ncrit u)
    (Hpos : (0 < t_box t)%R) (HK : full_shift E K t)
    (Hs1 : reorders sch1) (Hs2 : reorders sch2) (Hs1' : reorders sch1') (Hs2' : reorders sch2')
    (Hlen : length (t_codes t) <= length sizes) (Hcount : (N.of_nat (length (t_codes t)) * cbitsc (e_cfg E) < diff_max)%N)
    (Hsizes : forall s, In s sizes -> (0 <= s)%R),
  compute_cgraph Rops E K true t sizes sch1 sch2 old = compute_cgraph Rops E K true u sizes sch1' sch2' old'.
Proof.
  intros E K t u v sizes sch1 sch2 old sch1' sch2' old' HE Ht Hu Hvt Hvu Hbox Hmln Hncrit Hpos HK R1 R2 R1' R2' Hl Hc Hs.
  exact (same_graphs E K HE t u Ht Hu v Hvt Hvu Hbox Hmln Hncrit sizes sch1 sch2 old sch1' sch2' old' Hpos HK R1 R2 R1' R2' Hl Hc Hs).
Qed.
Print Assumptions C63_exact_collisions.

(** Four particles, constructed with two different schedules. *)
Example C63_exact_ex : forall m, exists (t u : @tree R) v, reachable Rops (ex3E m (Some 4)) t /\ reachable Rops (ex3E m (Some 4)) u /\
  view_cols true t = Ok v /\ view_cols true u = Ok v /\ t_box t = t_box u /\ t_mln t = t_mln u /\ t_ncrit t = t_ncrit u /\
  length (t_codes t) = 4 /\ t_box t = 1%R /\ room (ex3E m (Some 4)) t.
Proof. exact two_trees. Qed.

(** C63. In floating-point arithmetic the masses of the nodes may differ. *)
Theorem C63_float_refuted :
  exists (t u : @tree (binary_float 24 128)) v, reachable exO (exE false) t /\ reachable exO (exE false) u /\
    view_cols true t = Ok v /\ view_cols true u = Ok v /\ t_box t = t_box u /\ t_mln t = t_mln u /\ t_ncrit t = t_ncrit u /\
    map (fun nd => B2SF (p_mass (n_props nd))) (t_nodes t) = [B2SF (F32 8388608 1)] /\
    map (fun nd => B2SF (p_mass (n_props nd))) (t_nodes u) = [B2SF (F32 8388609 1)].
Proof. exact tie_differ. Qed.
Print Assumptions C63_float_refuted.

(** C64. A new tree has the given parameters, or the defaults. *)
Theorem C64_parameters :
  forall (F : Type) (O : fops F) (E : env) (s : sched) (box : option F) (inp : @input F) (mln nc : option nat) (t : tree)
    (Hctor : generic_ctor O E s box inp mln nc = Ok t),
  t_mln t = match mln with Some k => k | None => 16 end /\
  t_ncrit t = match nc with Some k => k | None => e_ncrit E end /\
  t_ded t = (match box with Some _ => false | None => true end) /\ (forall b, box = Some b -> t_box t = b).
Proof. exact @ctor_params. Qed.
Print Assumptions C64_parameters.

(** C64. Updates keep the parameters, and the box unless it is deduced. *)
Theorem C64_updates_keep_parameters :
  forall (F : Type) (O : fops F) (E : env) (s : sched) (ordered : bool) f g (t t' : @tree F)
    (HE : env_ok E) (Hs : sched_ok s) (Ht : reachable O E t),
  (update_particles O E s ordered f t = Ok (t', None) ->
     t_mln t' = t_mln t /\ t_ncrit t' = t_ncrit t /\ t_ded t' = t_ded t /\ (t_ded t = false -> t_box t' = t_box t) /\
     length (t_codes t') = length (t_codes t)) /\
  (update_masses O E ordered g t = Ok (t', None) ->
     t_mln t' = t_mln t /\ t_ncrit t' = t_ncrit t /\ t_ded t' = t_ded t /\ t_box t' = t_box t /\ t_codes t' = t_codes t).
Proof. intros F O E s ordered f g t t' HE Hs Ht. exact (update_params O E HE s ordered f g t t' Hs Ht). Qed.
Print Assumptions C64_updates_keep_parameters.

(** C64. IEEE arithmetic: an updated tree and a new tree with the updated particles and the parameters of the old tree (box given only if it
    was given) have the same box, codes, nodes up to masses and centres of mass, and critical nodes. *)
Theorem C64_update_is_rebuild :
  forall (prec emax : Z) (Hprec : FLX.Prec_gt_0 prec) (Hemax : Prec_lt_emax prec emax) (fused : bool) (Hp8 : (8 <= prec)%Z)
    (E : env) (s s' : sched) (ordered : bool) f (t t' u : @tree (binary_float prec emax)) v'
    (HE : env_ok E) (Hs : sched_ok s) (Hs' : sched_ok s') (Ht : reachable (Bops prec emax Hprec Hemax fused) E t)
    (Hupd : update_particles (Bops prec emax Hprec Hemax fused) E s ordered f t = Ok (t', None))
    (Hview : view_cols true t' = Ok v')
    (Hctor : generic_ctor (Bops prec emax Hprec Hemax fused) E s' (if t_ded t then None else Some (t_box t)) (Ranges v')
               (Some (t_mln t)) (Some (t_ncrit t)) = Ok u),
  view_cols true u = Ok v' /\ t_box u = t_box t' /\ t_mln u = t_mln t' /\ t_ncrit u = t_ncrit t' /\ t_ded u = t_ded t' /\
  t_codes u = t_codes t' /\
  map (fun nd => (n_begin nd, n_end nd, n_children nd, n_code nd, n_level nd)) (t_nodes u) =
    map (fun nd => (n_begin nd, n_end nd, n_children nd, n_code nd, n_level nd)) (t_nodes t') /\
  t_crit u = t_crit t'.
Proof.
  intros prec emax Hprec Hemax fused Hp8 E s s' ordered f t t' u v' HE Hs Hs' Ht Hupd Hview Hctor.
  exact (update_anew_float prec emax Hprec Hemax fused Hp8 E s s' ordered f t t' u v' HE Hs Hs' Ht Hupd Hview Hctor).
Qed.
Print Assumptions C64_update_is_rebuild.

Example C64_ex :
  match generic_ctor exO (exE false) (ex_sched false) None (Ranges ex_cols) (Some 2) None with
  | Ok t =>
      match update_particles exO (exE false) (ex_sched false) true ex_out t with
      | Ok (t', None) => match view_cols true t' with
          | Ok v' => match generic_ctor exO (exE false) (ex_sched true) None (Ranges v') (Some (t_mln t)) (Some (t_ncrit t)) with
              | Ok u => t_ded t = true /\ flt exO (t_box t) (t_box t') = true /\ t_perm u <> t_perm t' /\ length (t_nodes u) = 7
              | _ => False
              end
          | _ => False
          end
      | _ => False
      end
  | _ => False
  end.
Proof. vm_compute. repeat split. discriminate. Qed.

(** C64. Exact arithmetic: constructing a tree anew from its particles and parameters succeeds and gives the same nodes. *)
Theorem C64_exact_rebuild :
  forall (E : env) (s : sched) (t : @tree R) (v : list (list R))
    (HE : env_ok E) (Hs : sched_ok s) (Halloc : forall k, s_alloc s k = true) (Ht : reachable Rops E t)
    (Hview : view_cols true t = Ok v) (Hpos : (0 < t_box t)%R)
    (Hcount : (N.of_nat (length (t_codes t)) * cbitsc (e_cfg E) < 2 ^ 64 - 1)%N),
  exists u, generic_ctor Rops E s (if t_ded t then None else Some (t_box t)) (Ranges v) (Some (t_mln t)) (Some (t_ncrit t)) = Ok u /\
    reachable Rops E u /\ view_cols true u = Ok v /\ t_box u = t_box t /\ t_codes u = t_codes t /\ t_nodes u = t_nodes t /\ t_crit u = t_crit t.
Proof. intros E s t v HE Hs Ha Ht Hv Hp Hc. exact (anew_R E s t v HE Hs Ha Ht Hv Hp Hc). Qed.
Print Assumptions C64_exact_rebuild.

Example C64_exact_ex : exists (t : @tree R) v, reachable Rops (ex3E Bh (Some 4)) t /\ view_cols true t = Ok v /\ (0 < t_box t)%R /\
  (N.of_nat (length (t_codes t)) * cbitsc (e_cfg (ex3E Bh (Some 4%nat))) < 2 ^ 64 - 1)%N.
Proof.
  destruct (two_trees Bh) as (t & _ & v & H1 & _ & H2 & _ & _ & _ & _ & H3 & H4 & _). exists t, v. rewrite H3, H4. split; [exact H1|]. split; [exact H2|]. split; [lra|vm_compute; reflexivity].
Qed.
