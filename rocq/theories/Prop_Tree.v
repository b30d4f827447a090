(** Properties C11-C13, C41-C44, C52, C55 and C58: tree objects. *)
From Coq Require Import List Arith ZArith NArith Bool Permutation Lia.
From Flocq Require Import Core BinarySingleNaN.
From Verif Require Import Base Config Morton Build TreeSpec FOps Disc FOpsProofs DiscProofs NodeProps
  Tree TreeInv TreeProofs TreeSafe TreeProps TreeEx.
Import ListNotations.
Local Open Scope nat_scope.

(** The example tree: five particles, a small leaf size, two equal codes. *)
Example ex_tree_ok :
  t_perm ex_tree = [2; 3; 1; 4; 0] /\ length (t_nodes ex_tree) = 6 /\
  t_codes ex_tree = [234881024; 721420288; 956301312; 956301312; 1056964608]%N /\ t_inv ex_tree = [4; 2; 0; 1; 3].
Proof. vm_compute. repeat split. Qed.
Example ex_ctor_ok : op_ok (exE false) ex_ctor.
Proof. split; [apply ex_sched_ok|reflexivity]. Qed.
Example ex_tree_reachable : reachable exO (exE false) ex_tree.
Proof.
  exists [ex_ctor]. unfold ex_tree, ex_obj. destruct (run exO (exE false) [ex_ctor] []) as [w|e|] eqn:R.
  - exists w. split; [constructor; [exact ex_ctor_ok|constructor]|]. split; [reflexivity|].
    destruct w as [|t w]; [|now left]. exfalso.
    assert (G : match run exO (exE false) [ex_ctor] [] with Ok [] => false | _ => true end = true) by (vm_compute; reflexivity).
    rewrite R in G. discriminate.
  - exfalso. assert (G : match run exO (exE false) [ex_ctor] [] with Throw _ => false | _ => true end = true) by (vm_compute; reflexivity).
    rewrite R in G. discriminate.
  - exfalso. assert (G : match run exO (exE false) [ex_ctor] [] with UB => false | _ => true end = true) by (vm_compute; reflexivity).
    rewrite R in G. discriminate.
Qed.

(** C11. *)
Theorem C11_construction_stores_permutation :
  forall (F : Type) (O : fops F) (E : env) (s : sched) (box : option F) (inp : input)
    (max_leaf_n ncrit : option nat) (t : tree)
    (Hs : sched_ok s)
    (Hinp : match inp with RangesMoved cols | Ranges cols | Iterators cols _ => length cols = dim (e_cfg E) + 1 end)
    (Hbuilt : generic_ctor O E s box inp max_leaf_n ncrit = Ok t),
  exists n, Forall (fun col => length col = n) (given inp) /\ length (t_codes t) = n /\
    is_perm (t_perm t) n /\ inverse (t_perm t) (t_inv t) /\ t_last t = t_perm t /\
    Forall2 (permuted (t_perm t)) (given inp) (t_parts t) /\
    sorted_codes (t_codes t) /\
    (forall i x, nth_error (t_codes t) i = Some x ->
       exists xs, row (firstn (dim (e_cfg E)) (t_parts t)) i xs /\
         particle_code O (e_cfg E) xs (fdiv O (fofZ O 1%Z) (t_box t)) = Ok x) /\
    ((N.of_nat n <= diff_max)%N -> view_cols true t = Ok (given inp)) /\
    (forall b, box = Some b -> t_box t = b).
Proof. exact (fun F O E => construction O E). Qed.
Print Assumptions C11_construction_stores_permutation.

(** Tree order: particles 2, 3, 1, 4, 0; the other tie-breaking of the sort exchanges 1 and 4. *)
Example C11_ex : sched_ok (@ex_sched (binary_float 24 128) true) /\
  match generic_ctor exO (exE false) (ex_sched true) (Some (F32 1 0)) (Ranges ex_cols) (Some 2) None with
  | Ok t => t_perm t = [2; 3; 4; 1; 0] /\ sf (t_parts t) =
      [ map (fun z => B2SF (F32 z (-3))) [-2; -3; 1; 1; 3]%Z;
        map (fun z => B2SF (F32 z (-3))) [-1; 3; 2; 2; 3]%Z;
        map (fun z => B2SF (F32 z 0)) [3; 4; 5; 2; 1]%Z ]
  | _ => False
  end.
Proof. split; [apply ex_sched_ok|]. vm_compute. repeat split. Qed.

(** C12. *)
Theorem C12_ordered_views_follow_history :
  forall (F : Type) (O : fops F) (E : env) (s : sched) (box : option F) (inp : input)
    (max_leaf_n ncrit : option nat) (t : tree) (us : list upd) (t' : tree) (perms : list (list nat))
    (Hs : sched_ok s)
    (Hinp : match inp with RangesMoved cols | Ranges cols | Iterators cols _ => length cols = dim (e_cfg E) + 1 end)
    (Hbuilt : generic_ctor O E s box inp max_leaf_n ncrit = Ok t)
    (Hsize : (N.of_nat (length (t_codes t)) <= diff_max)%N)
    (Hupdates : updates O E t us t' perms),
  exists a, ref_hist E perms us (given inp) a /\ view_cols true t' = Ok a.
Proof. exact (fun F O E => constructed_history O E). Qed.
Print Assumptions C12_ordered_views_follow_history.

(** An ordered flip of the first coordinate and an ordered change of the masses; then the ordered view. *)
Example C12_ex :
  match update_particles exO (exE false) (ex_sched true) true ex_flip ex_tree with
  | Ok (t1, None) =>
    t_perm t1 = [2; 0; 4; 1; 3] /\
    match update_masses exO (exE false) true ex_masses t1 with
    | Ok (t2, None) =>
      match view_cols true t2 with
      | Ok v => sf v = [ map (fun z => B2SF (F32 z (-3))) [-3; -1; 2; 3; -1]%Z;
                         map (fun z => B2SF (F32 z (-3))) [3; 2; -1; 3; 2]%Z;
                         map (fun z => B2SF (F32 z 0)) [11; 12; 13; 14; 15]%Z ]
      | _ => False
      end
    | _ => False
    end
  | _ => False
  end.
Proof. vm_compute. repeat split. Qed.

(** C13. [mid] is the data in the previous tree order, with the changes of the functor. *)
Theorem C13_last_permutation :
  forall (F : Type) (O : fops F) (E : env) (HE : env_ok E) (s : sched) (ordered : bool)
    (f : list (list F) -> outcome (list (list F))) (t t' : tree)
    (Hs : sched_ok s) (Ht : reachable O E t)
    (Hupdate : update_particles O E s ordered f t = Ok (t', None)),
  exists v v' mid, view_cols ordered t = Ok v /\ f v = Ok v' /\
    (if ordered
     then Forall2 (permuted (t_inv t)) (t_parts t) v /\ Forall2 (permuted (t_inv t)) mid v'
     else v = t_parts t /\ mid = v') /\
    is_perm (t_last t') (length (t_codes t)) /\
    Forall2 (permuted (t_last t')) mid (t_parts t') /\
    permuted (t_last t') (t_perm t) (t_perm t') /\
    inverse (t_perm t') (t_inv t').
Proof. exact (fun F O E HE => last_permutation O E HE). Qed.
Print Assumptions C13_last_permutation.

Example C13_ex :
  match update_particles exO (exE false) (ex_sched true) false ex_flip ex_tree with
  | Ok (t', None) => t_last t' = [0; 4; 3; 2; 1] /\ t_perm t' = [2; 0; 4; 1; 3] /\ t_inv t' = [1; 3; 0; 4; 2]
  | _ => False
  end.
Proof. vm_compute. repeat split. Qed.

(** C41. Whatever fails, the object is a default tree; a functor that throws or particles that cannot
    be encoded in a box of given size do fail. *)
Theorem C41_failing_update_gives_default_tree :
  forall (prec emax : Z) (Hprec : Prec_gt_0 prec) (Hemax : Prec_lt_emax prec emax) (fused : bool)
    (Hprec2 : (2 <= prec)%Z) (E : env) (HE : env_ok E) (Hwide : (Z.of_N (cbitsc (e_cfg E)) < emax)%Z),
  let O := Bops prec emax Hprec Hemax fused in
  forall (t : tree) (Ht : reachable O E t),
  (forall s ordered f t' e, update_particles O E s ordered f t = Ok (t', Some e) -> t' = default_tree O E) /\
  (forall ordered f t' e, update_masses O E ordered f t = Ok (t', Some e) -> t' = default_tree O E) /\
  (forall s ordered f v e, view_cols ordered t = Ok v -> f v = Throw e ->
     update_particles O E s ordered f t = Ok (default_tree O E, Some e)) /\
  (forall ordered f v m e, view_cols ordered t = Ok v -> nth_error v (dim (e_cfg E)) = Some m -> f m = Throw e ->
     update_masses O E ordered f t = Ok (default_tree O E, Some e)) /\
  (forall s ordered f v v' i xs, sched_ok s -> t_ded t = false -> view_cols ordered t = Ok v -> f v = Ok v' ->
     (forall w w', f w = Ok w' -> shape w' = shape w) -> (forall w, f w <> UB) ->
     row (firstn (dim (e_cfg E)) v') i xs ->
     (forall x, particle_code O (e_cfg E) xs (fdiv O (fofZ O 1%Z) (t_box t)) <> Ok x) ->
     exists e, update_particles O E s ordered f t = Ok (default_tree O E, Some e)) /\
  reachable O E (default_tree O E).
Proof. exact failures. Qed.
Print Assumptions C41_failing_update_gives_default_tree.

Example C41_ex :
  (exists e, update_particles exO (exE false) (ex_sched true) true ex_out ex_tree = Ok (default_tree exO (exE false), Some e)) /\
  update_particles exO (exE false) (ex_sched true) true (fun _ => Throw (UserExn 7)) ex_tree = Ok (default_tree exO (exE false), Some (UserExn 7)).
Proof. split; [exists InvalidArgument|]; vm_compute; reflexivity. Qed.

(** C42. *)
Theorem C42_copies_and_moves :
  forall (F : Type) (O : fops F) (E : env) (HE : env_ok E) (w : list tree) (Hw : reachable_world O E w),
  (forall i t, nth_error w i = Some t ->
     exists t', step O E w (OCopy i) = Ok (w ++ [t'], None) /\ same_data t' t /\ view_fresh E t') /\
  (forall i t, nth_error w i = Some t ->
     exists t', step O E w (OMove i) = Ok (set_nth w i (default_tree O E) ++ [t'], None) /\ same_data t' t /\ view_fresh E t') /\
  (forall i j t u, i <> j -> nth_error w i = Some t -> nth_error w j = Some u ->
     exists t', step O E w (OAssign i j None) = Ok (set_nth w i t', None) /\ same_data t' u /\ view_fresh E t') /\
  (forall i j k t u, i <> j -> nth_error w i = Some t -> nth_error w j = Some u ->
     step O E w (OAssign i j (Some k)) = Ok (set_nth w i (default_tree O E), Some BadAlloc)) /\
  (forall i j t u, i <> j -> nth_error w i = Some t -> nth_error w j = Some u ->
     exists t', step O E w (OMoveAssign i j) = Ok (set_nth (set_nth w i t') j (default_tree O E), None) /\
       same_data t' u /\ view_fresh E t') /\
  (forall i fail t, nth_error w i = Some t ->
     step O E w (OAssign i i fail) = Ok (w, None) /\ step O E w (OMoveAssign i i) = Ok (w, None)) /\
  (forall i t, nth_error w i = Some t -> step O E w (OClear i) = Ok (set_nth w i (default_tree O E), None)).
Proof. exact (fun F O E HE => copies O E HE). Qed.
Print Assumptions C42_copies_and_moves.

(** C42, independence: an operation changes the objects it is applied to and no other. *)
Theorem C42_independence :
  forall (F : Type) (O : fops F) (E : env) (w : list tree) (o : op) (w' : list tree) (e : option exn)
    (k : nat) (t : tree)
    (Hstep : step O E w o = Ok (w', e)) (Hk : nth_error w k = Some t) (Htouch : ~ touches o k),
  nth_error w' k = Some t.
Proof. exact (fun F O E => step_frame O E). Qed.
Print Assumptions C42_independence.

(** A copy is not affected by an update of the original nor by a move from it. *)
Example C42_ex :
  match run exO (exE false) [ex_ctor; OCopy 0; OUpdateParticles 0 (ex_sched true) true ex_flip; OMove 0; OAssign 0 1 None] [] with
  | Ok [a; b; d] => t_perm a = [2; 3; 1; 4; 0] /\ t_perm b = [2; 3; 1; 4; 0] /\ t_perm d = [2; 0; 4; 1; 3]
  | _ => False
  end.
Proof. vm_compute. repeat split. Qed.

(** C43. *)
Theorem C43_invariants_hold_after_every_history :
  forall (F : Type) (O : fops F) (E : env) (HE : env_ok E) (t : tree) (Ht : reachable O E t),
  tree_inv O E t.
Proof. exact (fun F O E HE => reachable_inv O E HE). Qed.
Print Assumptions C43_invariants_hold_after_every_history.

(** A history with a failing update, a copy and a move. *)
Example C43_ex :
  match run exO (exE false) [ex_ctor; OCopy 0; OUpdateParticles 0 (ex_sched true) true ex_out; OMoveAssign 0 1; OUpdateMasses 0 false ex_masses] [] with
  | Ok [a; b] => t_perm a = [2; 3; 1; 4; 0] /\ t_perm b = [] /\ env_ok (exE false)
  | _ => False
  end.
Proof. vm_compute. repeat split; try discriminate. lia. Qed.

(** C44. *)
Theorem C44_mass_update_is_rebuild :
  forall (F : Type) (O : fops F) (E : env) (HE : env_ok E) (ordered : bool)
    (f : list F -> outcome (list F)) (t t' : tree) (Ht : reachable O E t)
    (Hupdate : update_masses O E ordered f t = Ok (t', None)),
  exists v m m', view_cols ordered t = Ok v /\ nth_error v (dim (e_cfg E)) = Some m /\ f m = Ok m' /\
    t_box t' = t_box t /\ t_ded t' = t_ded t /\ t_mln t' = t_mln t /\ t_ncrit t' = t_ncrit t /\
    t_codes t' = t_codes t /\ t_perm t' = t_perm t /\ t_last t' = t_last t /\ t_inv t' = t_inv t /\
    t_crit t' = t_crit t /\ firstn (dim (e_cfg E)) (t_parts t') = firstn (dim (e_cfg E)) (t_parts t) /\
    view_cols ordered t' = Ok (set_nth v (dim (e_cfg E)) m') /\
    (forall split st sc, reorders st -> reorders sc ->
      build_tree (e_cfg E) (t_codes t) (t_mln t) (t_ncrit t) (cnp O E (t_parts t') (t_box t)) split st sc
      = Ok (t_nodes t', t_crit t)) /\
    map (fun nd => (n_begin nd, n_end nd, n_children nd, n_code nd, n_level nd)) (t_nodes t') =
    map (fun nd => (n_begin nd, n_end nd, n_children nd, n_code nd, n_level nd)) (t_nodes t).
Proof. exact (fun F O E HE => mass_update O E HE). Qed.
Print Assumptions C44_mass_update_is_rebuild.

(** C44: the update succeeds exactly if the construction with the new masses does. *)
Theorem C44_mass_update_succeeds_iff_rebuild :
  forall (F : Type) (O : fops F) (E : env) (HE : env_ok E) (ordered : bool)
    (f : list F -> outcome (list F)) (t : tree) (v : list (list F)) (m m' ms : list F)
    (Ht : reachable O E t)
    (Hv : view_cols ordered t = Ok v) (Hm : nth_error v (dim (e_cfg E)) = Some m)
    (Hf : f m = Ok m') (Hlen : length m' = length m)
    (Hms : length ms = length (t_codes t)) (Hord : if ordered then permuted (t_inv t) ms m' else ms = m'),
  (exists split st sc r, reorders st /\ reorders sc /\
     build_tree (e_cfg E) (t_codes t) (t_mln t) (t_ncrit t)
       (cnp O E (set_nth (t_parts t) (dim (e_cfg E)) ms) (t_box t)) split st sc = Ok r) <->
  (exists t', update_masses O E ordered f t = Ok (t', None)).
Proof. exact (fun F O E HE => mass_update_ok O E HE). Qed.
Print Assumptions C44_mass_update_succeeds_iff_rebuild.

(** The total mass in the root goes from 15 to 65. *)
Example C44_ex :
  match update_masses exO (exE false) true ex_masses ex_tree with
  | Ok (t', None) =>
    map (fun nd => B2SF (p_mass (n_props nd))) (firstn 1 (t_nodes ex_tree)) = [B2SF (F32 15 0)] /\
    map (fun nd => B2SF (p_mass (n_props nd))) (firstn 1 (t_nodes t')) = [B2SF (F32 65 0)]
  | _ => False
  end.
Proof. vm_compute. repeat split. Qed.

(** C52. *)
Theorem C52_inconsistent_sizes_rejected :
  forall (F : Type) (O : fops F) (E : env) (s : sched) (box : option F) (inp : input)
    (max_leaf_n ncrit : option nat) (cols : list (list F))
    (Hinp : inp = Ranges cols \/ inp = RangesMoved cols)
    (Hcols : length cols = dim (e_cfg E) + 1)
    (Hsizes : ~ (exists n, Forall (fun col => length col = n) cols)),
  generic_ctor O E s box inp max_leaf_n ncrit = Throw InvalidArgument.
Proof. exact (fun F O E => sizes_rejected O E). Qed.
Print Assumptions C52_inconsistent_sizes_rejected.

Example C52_ex : ~ (exists n, Forall (fun col => length col = n) [[1; 2]; [3; 4]; [5; 6; 7]]).
Proof. intros [n H]. inversion_clear H. inversion_clear H1. inversion_clear H2. simpl in *. lia. Qed.

(** C55, refuted: with device views, after a mass update they are not those of the current data. *)
Theorem C55_views_refreshed_refuted :
  exists t : @tree (binary_float 24 128), reachable exO (exE true) t /\ ~ view_fresh (exE true) t.
Proof. exact views_stale. Qed.
Print Assumptions C55_views_refreshed_refuted.

(** C55, what does hold: mass updates are the only exception. *)
Theorem C55_views_fresh_without_mass_updates :
  forall (F : Type) (O : fops F) (E : env) (HE : env_ok E) (ops : list op) (w : list tree)
    (Hops : Forall (op_ok E) ops) (Hnomass : forall i ordered f, ~ In (OUpdateMasses i ordered f) ops)
    (Hrun : run O E ops [] = Ok w),
  Forall (view_fresh E) w.
Proof. exact (fun F O E HE => fresh_run O E HE). Qed.
Print Assumptions C55_views_fresh_without_mass_updates.

Example C55_ex :
  match run exO (exE true) [ex_ctor; OUpdateParticles 0 (ex_sched true) true ex_flip; OCopy 0] [] with
  | Ok [a; b] => match t_view a, t_view b with Some _, Some _ => True | _, _ => False end
  | _ => False
  end.
Proof. vm_compute. exact I. Qed.

(** C58. No program has undefined behaviour, if the objects it names exist, the iterators it gives to
    constructors are valid for the stated number of particles, and the user functors have none and
    write only through the iterators. *)
Theorem C58_no_undefined_behaviour :
  forall (prec emax : Z) (Hprec : Prec_gt_0 prec) (Hemax : Prec_lt_emax prec emax) (fused : bool)
    (Hprec2 : (2 <= prec)%Z) (E : env) (HE : env_ok E) (Hwide : (Z.of_N (cbitsc (e_cfg E)) < emax)%Z),
  let O := Bops prec emax Hprec Hemax fused in
  forall (ops : list op) (Hops : Forall (op_ok E) ops)
    (Hsafe : forall before o after w, ops = before ++ o :: after -> run O E before [] = Ok w ->
               op_safe E (length w) o),
  exists w, run O E ops [] = Ok w.
Proof. exact programs_safe. Qed.
Print Assumptions C58_no_undefined_behaviour.

Example C58_ex : exists w, run exO (exE false)
    [ODefault; ex_ctor; OUpdateMasses 0 true (fun m => Ok m); OAssign 0 1 (Some 4); OUpdateParticles 1 (ex_sched false) true ex_out] [] = Ok w
  /\ length w = 2.
Proof. eexists. split; [vm_compute; reflexivity|reflexivity]. Qed.
