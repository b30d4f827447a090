(** Property C76: the order of the particles. Two trees of the same particles, given in different orders, with the same box and parameters. [view_cols true t] are the
    particles in the original order, as the ordered iterators present them; [permuted s l l'] says that element [i] of [l'] is element [s_i] of [l]. *)
From Coq Require Import List Arith ZArith NArith Reals Bool Lra Lia.
From Flocq Require Import Core BinarySingleNaN.
From Verif Require Import Base Config Morton Build TreeSpec FOps Disc NodeProps Tree TreeInv TreeProofs TreeProps TreeEx Kernels
  Force TravProofs KernR ForceOut ForceTop ForceEx Coll CollEx CollLast Relabel OrderEx.
Import ListNotations.
Local Open Scope nat_scope.

(** C76. In any arithmetic the codes, the ranges, children, codes and levels of the nodes, and the critical nodes do not depend on the order. *)
Theorem C76_structure :
  forall (F : Type) (O : fops F) (E : env) (t u : @tree F) (v v' : list (list F)) (s : list nat)
    (HE : env_ok E) (Ht : reachable O E t) (Hu : reachable O E u)
    (Hs : is_perm s (length (t_codes t))) (Hvt : view_cols true t = Ok v) (Hvu : view_cols true u = Ok v') (Hsv : Forall2 (permuted s) v v')
    (Hbox : t_box t = t_box u) (Hmln : t_mln t = t_mln u) (Hncrit : t_ncrit t = t_ncrit u),
  t_codes u = t_codes t /\
  map (fun nd => (n_begin nd, n_end nd, n_children nd, n_code nd, n_level nd)) (t_nodes u) =
  map (fun nd => (n_begin nd, n_end nd, n_children nd, n_code nd, n_level nd)) (t_nodes t) /\
  t_crit u = t_crit t.
Proof.
  intros F O E t u v v' s HE Ht Hu Hs Hvt Hvu Hsv Hbox Hmln Hncrit.
  exact (orders_structure O E t u (reachable_inv O E HE t Ht) (reachable_inv O E HE u Hu) v v' s Hs Hvt Hvu Hsv Hbox Hmln Hncrit).
Qed.
Print Assumptions C76_structure.

(** Three particles in single precision; the order is [2, 0, 1]. *)
Example C76_structure_ex : exists (t u : @tree (binary_float 24 128)) v v' s, reachable exO (exE false) t /\ reachable exO (exE false) u /\
  view_cols true t = Ok v /\ view_cols true u = Ok v' /\ is_perm s (length (t_codes t)) /\ Forall2 (permuted s) v v' /\ s <> [0; 1; 2] /\
  t_box t = t_box u /\ t_mln t = t_mln u /\ t_ncrit t = t_ncrit u /\ NoDup (t_codes t) /\ length (t_codes t) = 3 /\ room (exE false) t.
Proof. exact od_views. Qed.

(** C76. In any arithmetic, if no two particles are in the same smallest cell: the stored particles and the nodes with their properties are the same, and the
    permutations differ by the order. *)
Theorem C76_distinct_cells :
  forall (F : Type) (O : fops F) (E : env) (t u : @tree F) (v v' : list (list F)) (s : list nat)
    (HE : env_ok E) (Ht : reachable O E t) (Hu : reachable O E u)
    (Hs : is_perm s (length (t_codes t))) (Hvt : view_cols true t = Ok v) (Hvu : view_cols true u = Ok v') (Hsv : Forall2 (permuted s) v v')
    (Hbox : t_box t = t_box u) (Hmln : t_mln t = t_mln u) (Hncrit : t_ncrit t = t_ncrit u) (Hcells : NoDup (t_codes t)),
  t_parts u = t_parts t /\ t_nodes u = t_nodes t /\ t_crit u = t_crit t /\
  forall i, i < length (t_codes t) -> nth_error (t_perm t) i = Some (nth (nth i (t_perm u) 0) s 0).
Proof.
  intros F O E t u v v' s HE Ht Hu Hs Hvt Hvu Hsv Hbox Hmln Hncrit Hcells.
  exact (orders_distinct O E t u (reachable_inv O E HE t Ht) (reachable_inv O E HE u Hu) v v' s Hs Hvt Hvu Hsv Hbox Hmln Hncrit Hcells).
Qed.
Print Assumptions C76_distinct_cells.

(** C76. Then the results of a call are the same, bit for bit, for every particle. [ord] and [ord'] are the orders in which the parallel loops treat the critical
    nodes. *)
Theorem C76_distinct_forces :
  forall (F D : Type) (O : fops F) (OD : fops D) (E : env) (K : platform F) (t u : @tree F) (v v' : list (list F)) (s : list nat)
    (ord ord' : list cnode -> list cnode) (q : quant) (theta G eps : F) (split : list D) (out o : list (list F))
    (HE : env_ok E) (HK : benign_shift K) (Ht : reachable O E t) (Hu : reachable O E u)
    (Hs : is_perm s (length (t_codes t))) (Hvt : view_cols true t = Ok v) (Hvu : view_cols true u = Ok v') (Hsv : Forall2 (permuted s) v v')
    (Hbox : t_box t = t_box u) (Hmln : t_mln t = t_mln u) (Hncrit : t_ncrit t = t_ncrit u) (Hcells : NoDup (t_codes t))
    (Hroom : room E t) (Hord : reorders ord) (Hord' : reorders ord')
    (Hout : length out = nvecs_res E q /\ Forall (fun col => length (t_codes t) <= length col) out)
    (Hrun : acc_pot_dispatch O OD E K ord true q t theta G eps split out = Ok o),
  exists o', acc_pot_dispatch O OD E K ord' true q u theta G eps split out = Ok o' /\
    forall j k, j < nvecs_res E q -> k < length (t_codes t) -> nth_error (nth j o' []) k = nth_error (nth j o []) (nth k s 0).
Proof.
  intros F D O OD E K t u v v' s ord ord' q theta G eps split out o HE HK Ht Hu Hs Hvt Hvu Hsv Hbox Hmln Hncrit Hcells Hroom Ho Ho' Hout Hrun.
  exact (orders_distinct_forces O E t u (reachable_inv O E HE t Ht) (reachable_inv O E HE u Hu) v v' s Hs Hvt Hvu Hsv Hbox Hmln Hncrit OD K HE HK
    ord ord' q theta G eps split out o Hcells Hroom Ho Ho' Hout Hrun).
Qed.
Print Assumptions C76_distinct_forces.

(** The trees of the example above and a call that returns. *)
Example C76_distinct_ex : benign_shift (exFK false) /\
  (forall b, reachable exO (exE false) (od_tree b) /\ view_cols true (od_tree b) = Ok (if b then od_cols' else od_cols) /\
    t_box (od_tree b) = F32 1 0 /\ t_mln (od_tree b) = 1 /\ t_ncrit (od_tree b) = 2 /\ length (t_codes (od_tree b)) = 3) /\
  NoDup (t_codes (od_tree false)) /\
  exists o, acc_pot_dispatch exO exFD (exE false) (exFK false) (fun l => l) true QAcc (od_tree false) (F32 3 (-2)) (F32 1 0) (F32 0 0) []
    (repeat (repeat (F32 0 0) 3) 2) = Ok o.
Proof. split; [apply masked_benign|]. split; [exact od_facts|]. split; [exact od_distinct|exact od_call_ok]. Qed.

(** C76. In exact arithmetic the results and the nodes are the same even if particles share a cell. *)
Theorem C76_exact_forces :
  forall (D : Type) (OD : fops D) (E : env) (K : platform R) (t u : @tree R) (v v' : list (list R)) (s : list nat)
    (ord ord' : list cnode -> list cnode) (q : quant) (theta G eps : R) (split : list D) (out o : list (list R))
    (HE : env_ok E) (HK : benign_shift K) (Hsqrt : exact_rsqrt K) (Ht : reachable Rops E t) (Hu : reachable Rops E u)
    (Hs : is_perm s (length (t_codes t))) (Hvt : view_cols true t = Ok v) (Hvu : view_cols true u = Ok v') (Hsv : Forall2 (permuted s) v v')
    (Hbox : t_box t = t_box u) (Hmln : t_mln t = t_mln u) (Hncrit : t_ncrit t = t_ncrit u)
    (Hroom : room E t) (Hord : reorders ord) (Hord' : reorders ord')
    (Hout : length out = nvecs_res E q /\ Forall (fun col => length (t_codes t) <= length col) out)
    (Hrun : acc_pot_dispatch Rops OD E K ord true q t theta G eps split out = Ok o),
  t_nodes u = t_nodes t /\
  exists o', acc_pot_dispatch Rops OD E K ord' true q u theta G eps split out = Ok o' /\
    forall j k, j < nvecs_res E q -> k < length (t_codes t) -> nth_error (nth j o' []) k = nth_error (nth j o []) (nth k s 0).
Proof.
  intros D OD E K t u v v' s ord ord' q theta G eps split out o HE HK HX Ht Hu Hs Hvt Hvu Hsv Hbox Hmln Hncrit Hroom Ho Ho' Hout Hrun.
  exact (conj (proj1 (orders_nodes E HE t u v v' s Hs Hvt Hvu Hsv Hbox Hmln Hncrit (reachable_inv Rops E HE t Ht) (reachable_inv Rops E HE u Hu)))
    (orders_forces E HE t u v v' s Hs Hvt Hvu Hsv Hbox Hmln Hncrit OD K ord ord' q theta G eps split out o HK HX
      (reachable_inv Rops E HE t Ht) (reachable_inv Rops E HE u Hu) Hroom Ho Ho' Hout Hrun)).
Qed.
Print Assumptions C76_exact_forces.

(** Four particles; the order is [3, 1, 0, 2]. *)
Example C76_exact_ex : exists (t u : @tree R) v v' s o, reachable Rops (ex3E Bh (Some 4)) t /\ reachable Rops (ex3E Bh (Some 4)) u /\
  view_cols true t = Ok v /\ view_cols true u = Ok v' /\ is_perm s (length (t_codes t)) /\ Forall2 (permuted s) v v' /\ s <> [0; 1; 2; 3] /\
  t_box t = t_box u /\ t_mln t = t_mln u /\ t_ncrit t = t_ncrit u /\ room (ex3E Bh (Some 4)) t /\ length (t_codes t) = 4 /\
  benign_shift ex3_K /\ exact_rsqrt ex3_K /\
  acc_pot_dispatch Rops Rops (ex3E Bh (Some 4)) ex3_K (fun l => l) true QBoth t (1 / 2)%R 1%R 0%R [] (repeat (repeat 0%R 4) 4) = Ok o.
Proof.
  destruct (oe_views Bh) as (t & u & v & v' & s & H1 & H2 & H3 & H4 & H5 & H6 & H7 & H8 & H9 & H10 & H11 & H12 & _).
  destruct (oe_run Bh t H1 H12 H11) as [o Ho]. exists t, u, v, v', s, o. repeat (split; [assumption|]).
  split; [apply masked_benign|]. split; [exact ex3_exact|exact Ho].
Qed.

(** C76. In exact arithmetic the collision graphs of the two trees, with the sizes given in the corresponding orders, are the same graph. *)
Theorem C76_exact_collisions :
  forall (E : env) (K : platform R) (t u : @tree R) (v v' : list (list R)) (s : list nat) (sizes sizes' : list R) sch1 sch2 old sch1' sch2' old'
    (HE : env_ok E) (Ht : reachable Rops E t) (Hu : reachable Rops E u)
    (Hs : is_perm s (length (t_codes t))) (Hvt : view_cols true t = Ok v) (Hvu : view_cols true u = Ok v') (Hsv : Forall2 (permuted s) v v')
    (Hbox : t_box t = t_box u) (Hmln : t_mln t = t_mln u) (Hncrit : t_ncrit t = t_ncrit u)
    (Hpos : (0 < t_box t)%R) (HK : full_shift E K t)
    (Hs1 : reorders sch1) (Hs2 : reorders sch2) (Hs1' : reorders sch1') (Hs2' : reorders sch2')
    (Hlen : length sizes = length (t_codes t)) (Hss : permuted s sizes sizes') (Hcount : (N.of_nat (length (t_codes t)) * cbitsc (e_cfg E) < diff_max)%N)
    (Hsizes : forall x, In x sizes -> (0 <= x)%R),
  exists g g', compute_cgraph Rops E K true t sizes sch1 sch2 old = Ok g /\ compute_cgraph Rops E K true u sizes' sch1' sch2' old' = Ok g' /\
    length g = length (t_codes t) /\ length g' = length (t_codes t) /\
    forall i j row row', nth_error g' i = Some row' -> nth_error g (nth i s 0) = Some row -> j < length (t_codes t) ->
      (In j row' <-> In (nth j s 0) row).
Proof.
  intros E K t u v v' s sizes sizes' sch1 sch2 old sch1' sch2' old' HE Ht Hu Hs Hvt Hvu Hsv Hbox Hmln Hncrit Hpos HK R1 R2 R1' R2' Hl Hss Hc Hsz.
  exact (orders_graphs E HE t u v v' s Hs Hvt Hvu Hsv Hbox Hmln Hncrit K sizes sizes' sch1 sch2 old sch1' sch2' old' Ht Hu Hpos HK R1 R2 R1' R2' Hl Hss Hc Hsz).
Qed.
Print Assumptions C76_exact_collisions.

Example C76_collisions_ex : exists (t u : @tree R) v v' s, reachable Rops (ex3E Bh (Some 4)) t /\ reachable Rops (ex3E Bh (Some 4)) u /\
  view_cols true t = Ok v /\ view_cols true u = Ok v' /\ is_perm s (length (t_codes t)) /\ Forall2 (permuted s) v v' /\ s <> [0; 1; 2; 3] /\
  t_box t = t_box u /\ t_mln t = t_mln u /\ t_ncrit t = t_ncrit u /\ t_box t = 1%R /\ full_shift (ex3E Bh (Some 4)) zero_shift t /\
  length [1 / 2; 1 / 4; 0; 3]%R = length (t_codes t) /\ (exists sizes', permuted s [1 / 2; 1 / 4; 0; 3]%R sizes') /\ (N.of_nat (length (t_codes t)) * cbitsc C3_64 < diff_max)%N /\
  forall x, In x [1 / 2; 1 / 4; 0; 3]%R -> (0 <= x)%R.
Proof.
  destruct (oe_views Bh) as (t & u & v & v' & s & H1 & H2 & H3 & H4 & H5 & H6 & H7 & H8 & H9 & H10 & H11 & H12 & H13).
  exists t, u, v, v', s. repeat (split; [assumption|]). split; [now left|]. split; [now rewrite H11|].
  split; [exists (OrderEx.pick s 0%R [1 / 2; 1 / 4; 0; 3]%R); apply pick_permuted; now rewrite H11 in H5|]. rewrite H11. split; [reflexivity|].
  cbn [In]. intros x H. decompose [or] H; subst; lra || contradiction.
Qed.
