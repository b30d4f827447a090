(** Properties C20, C21, C59 and C60: node properties, box size and acceptance of data. *)
From Coq Require Import List Arith ZArith NArith Reals Bool Lra Lia.
From Verif Require Import Base Config Morton Build TreeSpec FOps Disc NodeProps Tree TreeInv TreeProofs TreeSafe TreeEx
  RSum NodeGeom NodesR BoxInv NodesEx.
Import ListNotations.
Local Open Scope nat_scope.

(** C20. [total] is the sum of the masses and [weighted] the sum of the masses times a coordinate over the particles of the
    node. The cell [q] is identified by the particles in it. *)
Theorem C20_node_mass_and_centre :
  forall (E : env) (t : @tree R) (nd : node (props R))
    (HE : env_ok E) (Ht : reachable Rops E t) (Hnd : In nd (t_nodes t)),
  exists mcol q, nth_error (t_parts t) (dim (e_cfg E)) = Some mcol /\
    length q = dim (e_cfg E) /\
    let M := total mcol (n_begin nd) (n_end nd) in
    p_mass (n_props nd) = M /\
    (M <> 0%R -> p_com (n_props nd) =
       map (fun col => (weighted mcol col (n_begin nd) (n_end nd) / M)%R) (firstn (dim (e_cfg E)) (t_parts t))) /\
    (M = 0%R -> p_com (n_props nd) = cell_centre (t_box t) (n_level nd) q) /\
    ((0 < t_box t)%R -> forall i xs, i < length (t_codes t) -> row (firstn (dim (e_cfg E)) (t_parts t)) i xs ->
       (n_begin nd <= i < n_end nd <-> in_cell (t_box t) (n_level nd) q xs)).
Proof.
  intros E t nd HE Ht Hnd.
  destruct (node_facts E t nd HE (reachable_inv Rops E HE t Ht) Hnd) as (q & mcol & H1 & _ & _ & _ & H5 & H6 & H7 & H8 & _ & H10 & _).
  exists mcol, q. exact (conj H5 (conj H1 (conj H6 (conj H8 (conj H7 H10))))).
Qed.
Print Assumptions C20_node_mass_and_centre.

Example C20_ex : exists t nd, reachable Rops (mkEnv C2_32 Bh (Some 4) 128 false []) t /\ In nd (t_nodes t) /\ t_box t = 1%R /\
  length (t_codes t) = 4.
Proof.
  destruct (exR_tree false Bh) as (t & H1 & H2 & H3 & H4). destruct (t_nodes t) as [|nd l] eqn:N; [now elim H3|].
  exists t, nd. rewrite N. split; [exact H1|]. split; [now left|]. auto.
Qed.

(** C21. The cell of a node, its particles, its centre of mass and the data of the acceptance criterion. *)
Theorem C21_node_cells :
  forall (E : env) (t : @tree R) (nd : node (props R))
    (HE : env_ok E) (Ht : reachable Rops E t) (Hnd : In nd (t_nodes t)) (Hbox : (0 < t_box t)%R),
  exists mcol q, nth_error (t_parts t) (dim (e_cfg E)) = Some mcol /\
    length q = dim (e_cfg E) /\ Forall (fun k => (k < 2 ^ n_level nd)%N) q /\
    get_node_centre Rops (e_cfg E) (n_code nd) (t_box t) = Ok (cell_centre (t_box t) (n_level nd) q) /\
    (forall i xs, i < length (t_codes t) -> row (firstn (dim (e_cfg E)) (t_parts t)) i xs ->
       (n_begin nd <= i < n_end nd <-> in_cell (t_box t) (n_level nd) q xs)) /\
    ((forall i, n_begin nd <= i < n_end nd -> (0 <= nth i mcol 0)%R) ->
       in_cell (t_box t) (n_level nd) q (p_com (n_props nd))) /\
    p_mac (n_props nd) = (let s := (t_box t / pow2R (n_level nd))%R in
      match e_mac E with
      | Bh => DBh (s * s)%R
      | BhGeom => DGeom s (distance (p_com (n_props nd)) (cell_centre (t_box t) (n_level nd) q))
      end).
Proof. exact node_cells. Qed.
Print Assumptions C21_node_cells.

Example C21_ex : exists t nd, reachable Rops (mkEnv C2_32 BhGeom (Some 4) 128 true []) t /\ In nd (t_nodes t) /\ (0 < t_box t)%R.
Proof.
  destruct (exR_tree true BhGeom) as (t & H1 & H2 & H3 & H4). destruct (t_nodes t) as [|nd l] eqn:N; [now elim H3|].
  exists t, nd. rewrite N, H4. split; [exact H1|]. split; [now left|]. lra.
Qed.
Example C21_cells_ex : in_cell 1 1 [1; 0]%N [1 / 4; - (1 / 4)]%R /\ cell_centre 1 1 [1; 0]%N = [- 1 / 2 + (1 + 1 / 2) * (1 / 2); - 1 / 2 + (0 + 1 / 2) * (1 / 2)]%R.
Proof.
  split; [|reflexivity]. unfold in_cell, pow2R, IZRN. cbn. constructor; [cbn; lra|]. constructor; [cbn; lra|constructor].
Qed.

(** C59. *)
Theorem C59_box_follows_particles :
  forall (F : Type) (O : fops F) (E : env) (HE : env_ok E),
  (* a deduced size is always the one deduced from the current particles (in some order) *)
  (forall t, reachable O E t -> t_ded t = true ->
    exists p rs r, is_perm p (length (t_codes t)) /\
      Forall2 (fun i xs => row (firstn (dim (e_cfg E)) (t_parts t)) i xs) p rs /\
      spans r 0 (length rs) /\ determine_box_size O (dim (e_cfg E)) rs r = Ok (t_box t)) /\
  (* a given size is never changed by an update *)
  (forall s ord f t t', sched_ok s -> reachable O E t -> update_particles O E s ord f t = Ok (t', None) ->
    t_ded t' = t_ded t /\ (t_ded t = false -> t_box t' = t_box t)).
Proof.
  intros F O E HE. split; [exact (deduced O E HE)|].
  intros s ord f t t' Hs Ht H. exact (given_box_kept O E s ord f t t' Hs (reachable_inv O E HE t Ht) H).
Qed.
Print Assumptions C59_box_follows_particles.

Theorem C59_box_value_exact :
  forall (E : env) (t : @tree R) (HE : env_ok E) (Ht : reachable Rops E t) (Hded : t_ded t = true),
  exists M, t_box t = (21 / 10 * M)%R /\
    (forall col x, In col (firstn (dim (e_cfg E)) (t_parts t)) -> In x col -> (Rabs x <= M)%R) /\
    (M = 0%R \/ exists col x, In col (firstn (dim (e_cfg E)) (t_parts t)) /\ In x col /\ Rabs x = M).
Proof. exact deduced_R. Qed.
Print Assumptions C59_box_value_exact.

(** Deduction, then an update that flips a coordinate. *)
Example C59_ex :
  match generic_ctor exO (exE false) (ex_sched true) None (Ranges ex_cols) (Some 2) None with
  | Ok t => t_ded t = true /\
      match update_particles exO (exE false) (ex_sched false) true ex_out t with
      | Ok (t', None) => t_ded t' = true /\ flt exO (t_box t) (t_box t') = true
      | _ => False
      end
  | _ => False
  end.
Proof. vm_compute. repeat split. Qed.

(** C60. [given inp] are the arrays of coordinates followed by the masses. *)
Theorem C60_valid_data_accepted :
  forall (E : env) (s : sched) (inp : @input R) (mln nc : option nat) (n : nat)
    (HE : env_ok E) (Hs : sched_ok s) (Halloc : forall k, s_alloc s k = true)
    (Hcols : length (given inp) = dim (e_cfg E) + 1) (Hlen : Forall (fun col => length col = n) (given inp))
    (Hit : match inp with Iterators cols k => k = n /\ Forall (fun col => k <= length col) cols | _ => True end)
    (Hdiff : (N.of_nat n <= diff_max)%N) (Hcount : (N.of_nat n * cbitsc (e_cfg E) < 2 ^ 64 - 1)%N)
    (Hmln : mln <> Some 0) (Hnc : nc <> Some 0),
  let coords := firstn (dim (e_cfg E)) (given inp) in
  (* box size given *)
  (forall b, (0 < b)%R ->
    ((exists t, generic_ctor Rops E s (Some b) inp mln nc = Ok t) <->
       forall col x, In col coords -> In x col -> (- b / 2 <= x < b / 2)%R) /\
    ((exists col x, In col coords /\ In x col /\ ~ (- b / 2 <= x < b / 2)%R) ->
       generic_ctor Rops E s (Some b) inp mln nc = Throw InvalidArgument)) /\
  (* box size deduced *)
  ((exists col x, In col coords /\ In x col /\ x <> 0%R) -> exists t, generic_ctor Rops E s None inp mln nc = Ok t).
Proof.
  intros E s inp mln nc n HE Hs Ha Hc Hl Hit Hd Hn Hm Hnc coords.
  destruct (ctor_R E s (Some 0%R) inp mln nc n HE Hs Ha (conj (conj Hc Hl) Hit) Hd Hn Hm Hnc) as [_ H2].
  split; [|exact H2]. intros b Hb.
  destruct (ctor_R E s (Some b) inp mln nc n HE Hs Ha (conj (conj Hc Hl) Hit) Hd Hn Hm Hnc) as [H1 _].
  exact (H1 b eq_refl Hb).
Qed.
Print Assumptions C60_valid_data_accepted.

Example C60_ex : exists t, generic_ctor Rops (exE false) (ex_sched false) (Some 1%R) (Ranges exR_cols) (Some 1) None = Ok t.
Proof.
  pose proof (exR_given false) as [[H1 H2] _].
  destruct (C60_valid_data_accepted (exE false) (ex_sched false) (Ranges exR_cols) (Some 1) None 4 (exE_ok false) (ex_sched_ok R false)
    (fun _ => eq_refl) H1 H2 I ltac:(vm_compute; discriminate) ltac:(vm_compute; reflexivity) ltac:(discriminate) ltac:(discriminate)) as [H _].
  destruct (H 1%R ltac:(lra)) as [[_ G] _]. apply G. intros col x Hc Hx. cbn [e_cfg exE dim given exR_cols firstn] in Hc.
  destruct Hc as [<-|[<-|[]]]; cbn [In] in Hx; decompose [or] Hx; subst; try lra; contradiction.
Qed.
