(** Property C84: failures in the parallel loops. *)
From Coq Require Import List Arith NArith ZArith Bool Lia.
From Flocq Require Import Core BinarySingleNaN.
From Verif Require Import Base Config Morton Build TreeSpec FOps Disc NodeProps Tree TreeInv TreeEx TreeProofs TreeSafe TreeProps UniqueColl BoxProofs Par ParTree ParProofs ParTop ParTop2 ParLast
  ParExn ParExnTop.
Import ListNotations.
Local Open Scope nat_scope.

(** C84. [all_runs_x q m Q X]: no interleaving of [q] from [m] has a data race, is stuck or goes on for ever, those that end normally give a memory
    in [Q], the others end with an exception in [X].

    Masses: either all the interleavings of the loop over the nodes end normally, with the properties of the updated tree, or all of them fail with
    the exception of the update; then the tree is the one of the default constructor. *)
Theorem C84_masses_failure :
  forall (prec emax : Z) (Hprec : Prec_gt_0 prec) (Hemax : Prec_lt_emax prec emax) (fused : bool) (H2 : (2 <= prec)%Z) (E : env) (HE : env_ok E)
    (Hwide : (Z.of_N (cbitsc (e_cfg E)) < emax)%Z), let O := Bops prec emax Hprec Hemax fused in
  forall (t : tree) (ms : list (binary_float prec emax)) (q : xcmd loc (val (binary_float prec emax))) (m : loc -> val (binary_float prec emax))
    (Ht : reachable O E t) (Hms : length ms = length (t_codes t))
    (Hparts : forall j col, nth_error (set_nth (t_parts t) (dim (e_cfg E)) ms) j = Some col -> holds m (Part j) VF col)
    (Hnodes : holds m Nodes VN (t_nodes t))
    (Hq : xpfor (xprops_task O E (t_box t) (length (t_codes t))) 0 (length (t_nodes t)) q),
  match update_masses O E false (fun _ => Ok ms) t with
  | Ok (t', None) => all_runs_x loc (val _) loc_eq q m (fun m' => forall k nd, nth_error (t_nodes t') k = Some nd -> m' (Props, k) = VP (n_props nd)) (fun _ => False)
  | Ok (t', Some e) => e = InvalidArgument /\ t' = default_tree O E /\ all_runs_x loc (val _) loc_eq q m (fun _ => False) (fun e' => e' = e)
  | _ => False
  end.
Proof.
  intros prec emax Hprec Hemax fused H2 E HE Hwide O t ms q m Ht Hms Hparts Hnodes Hq.
  exact (masses_x O E (disc_no_UB prec emax Hprec Hemax fused H2 _ Hwide) t ms q m HE (reachable_inv O E HE t Ht) Hms Hparts Hnodes Hq).
Qed.
Print Assumptions C84_masses_failure.

(** Six nodes. The masses of two particles become infinite: the tasks of five of the nodes fail. Two of the interleavings. *)
Definition ex84_inf : binary_float 24 128 := B754_infinity false.
Definition ex84_ms : list (binary_float 24 128) := [F32 1 0; ex84_inf; F32 2 0; F32 3 0; ex84_inf].
Definition ex84_parts (ms : list (binary_float 24 128)) := set_nth (t_parts ex_tree) 2 ms.
Definition ex84_mem (parts : list (list (binary_float 24 128))) : loc -> val (binary_float 24 128) := mem_of (fun a => match a with
    | Part j => map VF (nth j parts []) | Nodes => map VN (t_nodes ex_tree) | _ => [] end).
Definition ex84_prog : xcmd loc (val (binary_float 24 128)) := xhalve 9 (xprops_task exO (exE false) (t_box ex_tree) 5) 0 6.
Definition ex84_end (eager : bool) (ms : list (binary_float 24 128)) := xdrive loc_eq eager 500 (fun k => k * 3 + k / 2) ex84_prog (ex84_mem (ex84_parts ms)).
Definition ex84_update (ms : list (binary_float 24 128)) := match update_masses exO (exE false) false (fun _ => Ok ms) ex_tree with Ok (t', x) => Some (length (t_nodes t'), x) | _ => None end.

Example C84_masses_ex : reachable exO (exE false) ex_tree /\ length ex84_ms = 5 /\ length (t_codes ex_tree) = 5 /\ length (t_nodes ex_tree) = 6 /\
  (forall ms j col, nth_error (set_nth (t_parts ex_tree) 2 ms) j = Some col -> holds (ex84_mem (ex84_parts ms)) (Part j) VF col) /\
  (forall ms, holds (ex84_mem (ex84_parts ms)) Nodes VN (t_nodes ex_tree)) /\
  xpfor (xprops_task exO (exE false) (t_box ex_tree) 5) 0 6 ex84_prog /\
  ex84_update ex84_ms = Some (0, Some InvalidArgument) /\ outcome_of (snd (snd (ex84_end true ex84_ms))) = Some (Some InvalidArgument) /\
  outcome_of (snd (snd (ex84_end false ex84_ms))) = Some (Some InvalidArgument) /\ fst (ex84_end true ex84_ms) <> fst (ex84_end false ex84_ms) /\
  ex84_update (repeat (F32 3 0) 5) = Some (6, None) /\ outcome_of (snd (snd (ex84_end true (repeat (F32 3 0) 5)))) = Some None.
Proof.
  split; [exact tree_reachable|]. split; [reflexivity|]. split; [now vm_compute|]. split; [now vm_compute|]. split.
  { intros ms j col Hj. apply mem_of_holds. f_equal. now apply nth_error_nth. }
  split; [intros ms; now apply mem_of_holds|]. split; [apply xhalve_pfor; lia|]. split; [now vm_compute|]. split; [now vm_compute|]. split; [now vm_compute|].
  split; [vm_compute; discriminate|]. split; now vm_compute.
Qed.

(** Positions: [box_of] says which box size is used. Either all the interleavings of the loop that computes the Morton codes end normally, with the
    codes of the particles, or all of them fail; then the update fails with the same exception, whatever the schedule of the rest, and the tree
    is the one of the default constructor. *)
Theorem C84_positions_failure :
  forall (prec emax : Z) (Hprec : Prec_gt_0 prec) (Hemax : Prec_lt_emax prec emax) (fused : bool) (H2 : (2 <= prec)%Z) (E : env) (HE : env_ok E)
    (Hwide : (Z.of_N (cbitsc (e_cfg E)) < emax)%Z), let O := Bops prec emax Hprec Hemax fused in
  forall (s : sched) (t : tree) (cols : list (list (binary_float prec emax))) (box : binary_float prec emax)
    (q : xcmd loc (val (binary_float prec emax))) (m : loc -> val (binary_float prec emax))
    (Ht : reachable O E t) (Hncols : length cols = dim (e_cfg E) + 1) (Hcols : Forall (fun col => length col = length (t_codes t)) cols) (Hbox : box_of O E s t cols box)
    (Hparts : forall j col, nth_error cols j = Some col -> holds m (Part j) VF col)
    (Hq : xpfor (xcode_task O E (fdiv O (fofZ O 1%Z) box)) 0 (length (t_codes t)) q),
  (exists codes, length codes = length (t_codes t) /\
     (forall i xs, row (firstn (dim (e_cfg E)) cols) i xs -> exists k, nth_error codes i = Some k /\ particle_code O (e_cfg E) xs (fdiv O (fofZ O 1%Z) box) = Ok k) /\
     all_runs_x loc (val _) loc_eq q m (fun m' => forall i k, nth_error codes i = Some k -> m' (Codes, i) = VU k) (fun _ => False)) \/
  (update_particles O E s false (fun _ => Ok cols) t = Ok (default_tree O E, Some InvalidArgument) /\
   all_runs_x loc (val _) loc_eq q m (fun _ => False) (fun e => e = InvalidArgument)).
Proof.
  intros prec emax Hprec Hemax fused H2 E HE Hwide O s t cols box q m Ht Hncols Hcols Hbox Hparts Hq.
  exact (positions_x O E (disc_no_UB prec emax Hprec Hemax fused H2 _ Hwide) s t cols box q m (reachable_inv O E HE t Ht) (conj Hncols Hcols) Hbox Hparts Hq).
Qed.
Print Assumptions C84_positions_failure.

(** Two of five particles leave the box. *)
Definition ex84_cols (z : Z) : list (list (binary_float 24 128)) := [map (fun z => F32 z (-3)) [3; z; -2; z; 1]%Z; map (fun z => F32 z (-3)) [3; 2; -1; 3; 2]%Z; repeat (F32 1 0) 5].
Definition ex84_codes : xcmd loc (val (binary_float 24 128)) := xhalve 9 (xcode_task exO (exE false) (fdiv exO (fofZ exO 1%Z) (t_box ex_tree))) 0 5.
Definition ex84_codes_end (z : Z) := xdrive loc_eq false 500 (fun k => k * 3 + k / 2) ex84_codes (ex84_mem (ex84_cols z)).

Example C84_positions_ex : reachable exO (exE false) ex_tree /\ length (ex84_cols 5) = 3 /\ Forall (fun col => length col = length (t_codes ex_tree)) (ex84_cols 5) /\
  box_of exO (exE false) (ex_sched false) ex_tree (ex84_cols 5) (t_box ex_tree) /\
  (forall j col, nth_error (ex84_cols 5) j = Some col -> holds (ex84_mem (ex84_cols 5)) (Part j) VF col) /\
  xpfor (xcode_task exO (exE false) (fdiv exO (fofZ exO 1%Z) (t_box ex_tree))) 0 5 ex84_codes /\
  outcome_of (snd (snd (ex84_codes_end 5))) = Some (Some InvalidArgument) /\ outcome_of (snd (snd (ex84_codes_end 2))) = Some None.
Proof.
  split; [exact tree_reachable|]. split; [reflexivity|]. split; [repeat constructor; now vm_compute|].
  split; [unfold box_of; now replace (t_ded ex_tree) with false by now vm_compute|]. split.
  { intros j col Hj. apply mem_of_holds. f_equal. now apply nth_error_nth. }
  split; [apply xhalve_pfor; lia|]. split; now vm_compute.
Qed.

(** Deduction of the box size: the program is that of a reduction of any shape [r']. Either all its interleavings end normally with the same box
    size, or all of them end with the same exception, and neither depends on the shape. *)
Theorem C84_box_failure :
  forall (prec emax : Z) (Hprec : Prec_gt_0 prec) (Hemax : Prec_lt_emax prec emax) (fused : bool), let O := Bops prec emax Hprec Hemax fused in
  forall (d : nat) (parts : list (list (binary_float prec emax))) (r r' : red) (m : rloc -> rval (binary_float prec emax))
    (Hd : 0 < d) (Hparts : Forall (fun p => length p = d) parts) (Hr : spans r 0 (length parts)) (Hr' : spans r' 0 (length parts))
    (Hm : forall i row j x, nth_error parts i = Some row -> nth_error row j = Some x -> m (RPart j i) = RF x),
  match determine_box_size O d parts r with
  | Ok box => all_runs_x rloc (rval _) rloc_eq (box_prog O d (length parts) r') m (fun m' => m' RBox = RF box) (fun _ => False)
  | Throw e => all_runs_x rloc (rval _) rloc_eq (box_prog O d (length parts) r') m (fun _ => False) (fun e' => e' = e)
  | UB => False
  end.
Proof.
  intros prec emax Hprec Hemax fused O d parts r r' m Hd Hparts Hr Hr' Hm. exact (box_ieee prec emax Hprec Hemax fused d parts r r' m Hd Hparts Hr Hr' Hm).
Qed.
Print Assumptions C84_box_failure.

(** Five particles in three subranges, two of them at the same time. Without and with a coordinate that is not finite. *)
Definition ex84_rows (x : binary_float 24 128) : list (list (binary_float 24 128)) := [[F32 1 0; F32 2 0]; [F32 3 0; F32 1 0]; [F32 (-9) 0; F32 0 0]; [x; F32 4 0]; [F32 5 0; x]].
Definition ex84_red : red := Join (Feed (Feed Start 0 1) 1 2) (Join (Feed Start 2 4) (Feed Start 4 5)).
Definition ex84_rmem (x : binary_float 24 128) : rloc -> rval (binary_float 24 128) := fun l => match l with RPart j i => RF (nth j (nth i (ex84_rows x) []) (F32 0 0)) | _ => RV [] end.
Definition ex84_box_end (x : binary_float 24 128) := xdrive rloc_eq false 500 (fun k => k * 3 + k / 2) (box_prog exO 2 5 ex84_red) (ex84_rmem x).

Example C84_box_ex : (forall x, Forall (fun p => length p = 2) (ex84_rows x)) /\ (forall x, spans ex84_red 0 (length (ex84_rows x))) /\
  (forall x i row j y, nth_error (ex84_rows x) i = Some row -> nth_error row j = Some y -> ex84_rmem x (RPart j i) = RF y) /\
  match determine_box_size exO 2 (ex84_rows (F32 7 0)) (Feed Start 0 5) with Ok b => B2SF b = B2SF (F32 9909043 (-19)) | _ => False end /\
  outcome_of (snd (snd (ex84_box_end (F32 7 0)))) = Some None /\
  match fst (snd (ex84_box_end (F32 7 0))) RBox with RF b => B2SF b = B2SF (F32 9909043 (-19)) | _ => False end /\
  determine_box_size exO 2 (ex84_rows ex84_inf) (Feed Start 0 5) = Throw InvalidArgument /\
  outcome_of (snd (snd (ex84_box_end ex84_inf))) = Some (Some InvalidArgument).
Proof.
  split; [intros x; repeat constructor|]. split; [intros x; cbn; eexists; repeat split; try eexists; repeat split; lia|]. split.
  { intros x i row j y Hi Hj. unfold ex84_rmem. now rewrite (nth_error_nth _ _ _ Hi), (nth_error_nth _ _ _ Hj). }
  split; [now vm_compute|]. split; [now vm_compute|]. split; [now vm_compute|]. split; now vm_compute.
Qed.
