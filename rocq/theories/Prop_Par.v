(** Property C73: the parallel loops and task groups are free of data races, and all their interleavings give the same result. *)
From Coq Require Import List Arith NArith ZArith Bool Lia Permutation.
From Flocq Require Import Core BinarySingleNaN.
From Verif Require Import Base Config Morton Build TreeSpec FOps Disc NodeProps Tree TreeInv TreeEx TravProofs Kernels Force ForceGen ForceOut ForceTop ForceEx UniqueColl OutEx
  Par ParTree ParProofs ParTop ParTop2 ParLast.
Import ListNotations.
Local Open Scope nat_scope.

Notation pmem F := (loc -> val F).
Notation all_runs := (Par.all_runs loc (val _) loc_eq).
Notation prog F := (cmd loc (val F)).

(** C73. Construction: for every way of dividing the loops among threads and every interleaving of the accesses. *)
Theorem C73_construction_interleavings :
  forall (F : Type) (O : fops F) (E : env) (s : sched) (box : option F) (inp : input) (max_leaf_n ncrit : option nat) (t : tree) (q : prog F) (m : pmem F)
    (Hs : sched_ok s)
    (Hinp : match inp with RangesMoved cols | Ranges cols | Iterators cols _ => length cols = dim (e_cfg E) + 1 end)
    (Hbuilt : generic_ctor O E s box inp max_leaf_n ncrit = Ok t)
    (Hm : forall j col, nth_error (given inp) j = Some col -> holds m (Part j) VF col)
    (Hq : ctor_prog O E (s_sort s) (fdiv O (fofZ O 1%Z) (t_box t)) (length (t_codes t)) q),
  all_runs q m (fun m' => holds m' Codes VU (t_codes t) /\ (forall j col, nth_error (t_parts t) j = Some col -> holds m' (Part j) VF col) /\
    holds m' Perm VI (t_perm t) /\ holds m' Last VI (t_last t) /\ holds m' Inv VI (t_inv t)).
Proof. intros F O E s box inp mln nc t q m Hs Hinp Hb Hm Hq. exact (generic_ctor_runs O E s box inp mln nc t q m Hs Hinp Hb Hm Hq). Qed.
Print Assumptions C73_construction_interleavings.

(** The tree of five particles, all ranges divided up to single elements. *)
Definition ex73_prog (n : nat) (ibs : binary_float 24 128) : prog (binary_float 24 128) :=
  let isort a := app (halve 9 (isort_body a Perm) 0 n) (inorder (move_body a) n) in
  app (halve 9 (iota_body Perm) 0 n) (app (halve 9 (code_body exO (exE false) ibs) 0 n)
    (app (sort_prog (sort_idx false) Perm n)
      (group [isort Codes; isort (Part 0); isort (Part 1); isort (Part 2); halve 9 inv_body 0 n; halve 9 (copy_body Perm Last) 0 n]))).
Definition ex73_mem : pmem (binary_float 24 128) := mem_of (fun a => match a with Part j => map VF (nth j ex_cols []) | _ => [] end).
Definition ex73_end := drive loc_eq 400 (fun k => k * 7 + k / 3) (ex73_prog 5 (F32 1 0)) ex73_mem.

Example C73_ex :
  match generic_ctor exO (exE false) (ex_sched false) (Some (F32 1 0)) (Ranges ex_cols) (Some 2) None with
  | Ok t => length (t_codes t) = 5 /\ t_codes t = t_codes ex_tree /\ B2SF (t_box t) = B2SF (F32 1 0)
  | _ => False
  end /\
  (forall j col, nth_error ex_cols j = Some col -> holds ex73_mem (Part j) VF col) /\
  ctor_prog exO (exE false) (s_sort (@ex_sched (binary_float 24 128) false)) (F32 1 0) 5 (ex73_prog 5 (F32 1 0)) /\
  (* one of the interleavings *)
  Par.exec loc (val _) loc_eq (fst ex73_end) ex73_mem (ex73_prog 5 (F32 1 0)) (fst (snd ex73_end)) (snd (snd ex73_end)) /\
  fst ex73_end = 188 /\ is_ret (snd (snd ex73_end)) = true /\
  map (fun i => match fst (snd ex73_end) (Codes, i) with VU x => x | _ => 0%N end) (seq 0 5) = t_codes ex_tree /\
  map (fun i => match fst (snd ex73_end) (Inv, i) with VI x => x | _ => 9 end) (seq 0 5) = [4; 2; 0; 1; 3].
Proof.
  split; [vm_compute; repeat split|]. split.
  { intros j col Hj. apply mem_of_holds. cbn [fst]. f_equal. now apply nth_error_nth. }
  split.
  { unfold ctor_prog. do 3 eexists. split; [apply halve_pfor; lia|]. split; [apply halve_pfor; lia|]. split; [|reflexivity].
    eexists. split; [|reflexivity]. cbn [ctor_tasks exE e_cfg dim seq map List.app Nat.add].
    repeat constructor; try (eexists; split; [apply halve_pfor; lia|reflexivity]); apply halve_pfor; lia. }
  split; [apply drive_exec|]. split; [now vm_compute|]. split; [now vm_compute|]. split; now vm_compute.
Qed.

(** Races are possible in the model: the inverse of something that is not a permutation. *)
Definition ex73_bad : pmem nat := mem_of (fun a => match a with Perm => [VI 1; VI 1] | _ => [] end).
Example C73_race_ex : exists q n m', pfor inv_body 0 2 q /\ (exists c', Par.exec loc (val nat) loc_eq n ex73_bad q m' c' /\ racing c') /\
  exists m1 m2, Par.exec loc (val nat) loc_eq 5 ex73_bad q m1 Ret /\ Par.exec loc (val nat) loc_eq 5 ex73_bad q m2 Ret /\ m1 (Inv, 1) = VI 0 /\ m2 (Inv, 1) = VI 1.
Proof.
  exists (halve 2 inv_body 0 2), 2. eexists. split; [apply halve_pfor; lia|]. split.
  - eexists. split.
    + eapply Par.e_step; [apply Par.s_left, Par.s_rd|]. eapply Par.e_step; [apply Par.s_right, Par.s_rd|]. apply Par.e_nil.
    + cbn. eapply Par.r_now; [apply Par.p_wr|apply Par.p_wr|reflexivity].
  - do 2 eexists. split; [|split].
    + eapply Par.e_step; [apply Par.s_right, Par.s_rd|]. eapply Par.e_step; [apply Par.s_right, Par.s_wr|].
      eapply Par.e_step; [apply Par.s_left, Par.s_rd|]. eapply Par.e_step; [apply Par.s_left, Par.s_wr|]. eapply Par.e_step; [apply Par.s_join|]. apply Par.e_nil.
    + eapply Par.e_step; [apply Par.s_left, Par.s_rd|]. eapply Par.e_step; [apply Par.s_left, Par.s_wr|].
      eapply Par.e_step; [apply Par.s_right, Par.s_rd|]. eapply Par.e_step; [apply Par.s_right, Par.s_wr|]. eapply Par.e_step; [apply Par.s_join|]. apply Par.e_nil.
    + split; reflexivity.
Qed.

(** Update of the particles: the arrays contain what the functor wrote. *)
Theorem C73_update_interleavings :
  forall (F : Type) (O : fops F) (E : env) (s : sched) (t : tree) (parts : list (list F)) (t' : tree) (q : prog F) (m : pmem F)
    (HE : env_ok E) (Ht : reachable O E t) (Hs : sched_ok s) (Hshape : shape parts = shape (t_parts t))
    (Hsync : sync O E s (set_parts t parts) = Ok t')
    (Hm : forall j col, nth_error parts j = Some col -> holds m (Part j) VF col) (Hperm : holds m Perm VI (t_perm t))
    (Hq : sync_prog O E (s_sort s) (fdiv O (fofZ O 1%Z) (t_box t')) (length (t_codes t)) q),
  all_runs q m (fun m' => holds m' Codes VU (t_codes t') /\ (forall j col, nth_error (t_parts t') j = Some col -> holds m' (Part j) VF col) /\
    holds m' Perm VI (t_perm t') /\ holds m' Last VI (t_last t') /\ holds m' Inv VI (t_inv t')).
Proof. intros F O E s t parts t' q m HE Ht Hs Hsh Hsync Hm Hp Hq. exact (update_runs O E s t parts t' q m HE Ht Hs Hsh Hsync Hm Hp Hq). Qed.
Print Assumptions C73_update_interleavings.

(** The memory of a tree, with given values of the particles and of the output arrays. *)
Definition tree_mem {F} (t : @tree F) (parts out : list (list F)) : pmem F :=
  mem_of (fun a => match a with
    | Part j => map VF (nth j parts []) | Perm => map VI (t_perm t) | Nodes => map VN (t_nodes t) | Crits => map VC (t_crit t) | Out j => map VF (nth j out [])
    | _ => []
    end).
Definition ex73_parts : list (list (binary_float 24 128)) := map (fopp exO) (nth 0 (t_parts ex_tree) []) :: tl (t_parts ex_tree).
Definition ex73_sync_prog (n : nat) (ibs : binary_float 24 128) : prog (binary_float 24 128) :=
  let isort a := app (halve 9 (isort_body a Last) 0 n) (inorder (move_body a) n) in
  app (halve 9 (code_body exO (exE false) ibs) 0 n) (app (halve 9 (iota_body Last) 0 n)
    (app (sort_prog (sort_idx false) Last n)
      (group [isort Codes; isort (Part 0); isort (Part 1); isort (Part 2); app (isort Perm) (halve 9 inv_body 0 n)]))).
Definition ex73_sync_end := drive loc_eq 400 (fun k => k * 5 + k / 7) (ex73_sync_prog 5 (F32 1 0)) (tree_mem ex_tree ex73_parts []).

Example C73_update_ex : reachable exO (exE false) ex_tree /\ shape ex73_parts = shape (t_parts ex_tree) /\
  match sync exO (exE false) (ex_sched false) (set_parts ex_tree ex73_parts) with
  | Ok t' => t_perm t' = [2; 0; 1; 4; 3] /\ B2SF (t_box t') = B2SF (F32 1 0)
  | _ => False
  end /\
  (forall j col, nth_error ex73_parts j = Some col -> holds (tree_mem ex_tree ex73_parts []) (Part j) VF col) /\
  holds (tree_mem ex_tree ex73_parts []) Perm VI (t_perm ex_tree) /\
  sync_prog exO (exE false) (s_sort (@ex_sched (binary_float 24 128) false)) (F32 1 0) 5 (ex73_sync_prog 5 (F32 1 0)) /\
  Par.exec loc (val _) loc_eq (fst ex73_sync_end) (tree_mem ex_tree ex73_parts []) (ex73_sync_prog 5 (F32 1 0)) (fst (snd ex73_sync_end)) (snd (snd ex73_sync_end)) /\
  is_ret (snd (snd ex73_sync_end)) = true /\
  map (fun i => match fst (snd ex73_sync_end) (Perm, i) with VI x => x | _ => 9 end) (seq 0 5) = [2; 0; 1; 4; 3].
Proof.
  split; [exact tree_reachable|]. split; [now vm_compute|]. split; [vm_compute; split; reflexivity|]. split.
  { intros j col Hj. apply mem_of_holds. f_equal. now apply nth_error_nth. }
  split; [now apply mem_of_holds|]. split.
  { unfold sync_prog. do 3 eexists. split; [apply halve_pfor; lia|]. split; [apply halve_pfor; lia|]. split; [|reflexivity].
    eexists. split; [|reflexivity]. cbn [sync_tasks exE e_cfg dim seq map List.app Nat.add].
    repeat constructor; try (eexists; split; [apply halve_pfor; lia|reflexivity]).
    do 2 eexists. split; [eexists; split; [apply halve_pfor; lia|reflexivity]|]. split; [apply halve_pfor; lia|reflexivity]. }
  split; [apply drive_exec|]. split; now vm_compute.
Qed.

(** Subtrees and lists of critical nodes that other threads built are copied to their places. *)
Theorem C73_merge_interleavings :
  forall (F : Type) (root : node (props F)) (trees : list (list (node (props F)))) (crits : list (list cnode)) (q : prog F) (m : pmem F)
    (Hroot : m (Nodes, 0) = VN root)
    (Htrees : forall i l, nth_error trees i = Some l -> holds m (SubTree i) VN l)
    (Hcrits : forall i l, nth_error crits i = Some l -> holds m (SubCrit i) VC l)
    (Hq : merge_prog (map (@length _) trees) (map (@length _) crits) q),
  all_runs q m (fun m' => holds m' Nodes VN (root :: concat trees) /\ holds m' Crits VC (concat crits)).
Proof. intros F root trees crits q m Hr Ht Hc Hq. exact (merge_runs root trees crits q m Hq Hr Ht Hc). Qed.
Print Assumptions C73_merge_interleavings.

(** Two subtrees, with two and one nodes, and two lists of critical nodes. *)
Definition ex73_nd (k : nat) : node (props nat) := mkNode k (S k) 0 (N.of_nat k) 1 (mkProps [k] 0 (DBh 0)).
Definition ex73_cn (k : nat) : cnode := mkCnode (N.of_nat k) k (S k).
Definition ex73_subs : pmem nat := mem_of (fun a => match a with
  | Nodes => [VN (ex73_nd 9)] | SubTree 0 => [VN (ex73_nd 0); VN (ex73_nd 1)] | SubTree 1 => [VN (ex73_nd 2)]
  | SubCrit 0 => [VC (ex73_cn 0)] | SubCrit 1 => [VC (ex73_cn 1); VC (ex73_cn 2)] | _ => [] end).
Definition ex73_loop (src : nat -> arr) (d : arr) (sizes : list nat) (start : nat) : prog nat :=
  halve 3 (fun i => halve 3 (fun k => Rd (src i, k) (fun x => Wr (d, start + list_sum (firstn i sizes) + k) x Ret)) 0 (nth i sizes 0)) 0 (length sizes).
Definition ex73_merge : prog nat := group [ex73_loop SubTree Nodes [2; 1] 1; ex73_loop SubCrit Crits [1; 2] 0].
Definition ex73_merge_end := drive loc_eq 60 (fun k => k * 3 + k / 2) ex73_merge ex73_subs.
Example C73_merge_ex :
  ex73_subs (Nodes, 0) = VN (ex73_nd 9) /\ (forall i l, nth_error [[ex73_nd 0; ex73_nd 1]; [ex73_nd 2]] i = Some l -> holds ex73_subs (SubTree i) VN l) /\
  (forall i l, nth_error [[ex73_cn 0]; [ex73_cn 1; ex73_cn 2]] i = Some l -> holds ex73_subs (SubCrit i) VC l) /\
  merge_prog (map (@length _) [[ex73_nd 0; ex73_nd 1]; [ex73_nd 2]]) (map (@length _) [[ex73_cn 0]; [ex73_cn 1; ex73_cn 2]]) ex73_merge /\
  Par.exec loc (val _) loc_eq (fst ex73_merge_end) ex73_subs ex73_merge (fst (snd ex73_merge_end)) (snd (snd ex73_merge_end)) /\
  is_ret (snd (snd ex73_merge_end)) = true /\
  map (fun i => fst (snd ex73_merge_end) (Nodes, i)) (seq 0 4) = map VN [ex73_nd 9; ex73_nd 0; ex73_nd 1; ex73_nd 2] /\
  map (fun i => fst (snd ex73_merge_end) (Crits, i)) (seq 0 3) = map VC [ex73_cn 0; ex73_cn 1; ex73_cn 2].
Proof.
  split; [reflexivity|]. split; [|split; [|split]].
  - intros [|[|i]] l H; [injection H as <-|injection H as <-|destruct i; discriminate]; now apply mem_of_holds.
  - intros [|[|i]] l H; [injection H as <-|injection H as <-|destruct i; discriminate]; now apply mem_of_holds.
  - eexists. split; [|reflexivity]. repeat constructor.
    + exists (fun i => halve 3 (fun k => Rd (SubTree i, k) (fun x => Wr (Nodes, 1 + list_sum (firstn i [2; 1]) + k) x Ret)) 0 (nth i [2; 1] 0)).
      split; [intros; apply halve_pfor; lia|apply halve_pfor; cbn; lia].
    + exists (fun i => halve 3 (fun k => Rd (SubCrit i, k) (fun x => Wr (Crits, 0 + list_sum (firstn i [1; 2]) + k) x Ret)) 0 (nth i [1; 2] 0)).
      split; [intros; apply halve_pfor; lia|apply halve_pfor; cbn; lia].
  - split; [apply drive_exec|]. split; [now vm_compute|]. split; now vm_compute.
Qed.

(** Update of the masses: the properties of all the nodes. *)
Theorem C73_masses_interleavings :
  forall (F : Type) (O : fops F) (E : env) (box : F) (n : nat) (cols : list (list F)) (nodes : list (node (props F))) (ps : list (props F)) (q : prog F) (m : pmem F)
    (Hcols : length cols = dim (e_cfg E) + 1) (Hlen : Forall (fun col => length col = n) cols)
    (Hprops : mapM (fun nd => cnp O E cols box (n_begin nd) (n_end nd) (n_code nd) (n_level nd)) nodes = Ok ps)
    (Hm : forall j col, nth_error cols j = Some col -> holds m (Part j) VF col) (Hnodes : holds m Nodes VN nodes)
    (Hq : pfor (props_body O E box n) 0 (length nodes) q),
  all_runs q m (fun m' => holds m' Props VP ps /\ forall a i, a <> Props -> m' (a, i) = m (a, i)).
Proof. intros F O E box n cols nodes ps q m Hc Hl Hp Hm Hn Hq. exact (props_runs O E box n cols nodes ps q m Hc Hl Hp Hq Hm Hn). Qed.
Print Assumptions C73_masses_interleavings.

Definition ex73_props_end :=
  drive loc_eq 400 (fun k => k * 3 + k / 2) (halve 9 (props_body exO (exE false) (t_box ex_tree) 5) 0 (length (t_nodes ex_tree))) (tree_mem ex_tree (t_parts ex_tree) []).
Example C73_masses_ex :
  length (t_parts ex_tree) = dim (e_cfg (exE false)) + 1 /\ map (@length _) (t_parts ex_tree) = [5; 5; 5] /\ length (t_nodes ex_tree) = 6 /\
  match mapM (fun nd => cnp exO (exE false) (t_parts ex_tree) (t_box ex_tree) (n_begin nd) (n_end nd) (n_code nd) (n_level nd)) (t_nodes ex_tree) with
  | Ok ps => map (fun p => B2SF (p_mass p)) ps = map (fun z => B2SF (F32 z 0)) [15; 3; 4; 8; 7; 1]%Z
  | _ => False
  end /\
  (forall j col, nth_error (t_parts ex_tree) j = Some col -> holds (tree_mem ex_tree (t_parts ex_tree) []) (Part j) VF col) /\
  holds (tree_mem ex_tree (t_parts ex_tree) []) Nodes VN (t_nodes ex_tree) /\
  is_ret (snd (snd ex73_props_end)) = true /\
  map (fun i => match fst (snd ex73_props_end) (Props, i) with VP p => B2SF (p_mass p) | _ => B2SF (F32 0 0) end) (seq 0 6) = map (fun z => B2SF (F32 z 0)) [15; 3; 4; 8; 7; 1]%Z.
Proof.
  split; [now vm_compute|]. split; [now vm_compute|]. split; [now vm_compute|]. split; [now vm_compute|]. split.
  { intros j col Hj. apply mem_of_holds. f_equal. now apply nth_error_nth. }
  split; [now apply mem_of_holds|]. split; now vm_compute.
Qed.

(** Accelerations and potentials: the tasks of the critical nodes read the tree and write their results; in the end the outputs contain the
    result of the call. *)
Theorem C73_force_interleavings :
  forall (F D : Type) (O : fops F) (OD : fops D) (E : env) (K : platform F) (ord : list cnode -> list cnode) (ordered : bool) (qn : quant) (t : @tree F)
    (theta G eps : F) (split : list D) (mv eps2 : F) (out out' : list (list F)) (q : prog F) (m : pmem F)
    (HE : env_ok E) (HK : benign_shift K) (Ht : reachable O E t) (Hroom : room E t) (Hord : reorders ord)
    (Hpar : params O OD E t theta G eps split mv eps2) (Hout : out_ok (length (t_codes t)) (nvecs_res E qn) out)
    (Hcall : acc_pot_dispatch O OD E K ord ordered qn t theta G eps split out = Ok out')
    (Hparts : forall j col, nth_error (t_parts t) j = Some col -> holds m (Part j) VF col)
    (Hnodes : holds m Nodes VN (t_nodes t)) (Hperm : holds m Perm VI (t_perm t)) (Hcrit : holds m Crits VC (t_crit t))
    (Hm : forall j, j < nvecs_res E qn -> holds m (Out j) VF (nth j out []))
    (Hq : pfor (force_task O E K ordered qn (t_box t) mv G eps2 (length (t_codes t)) (length (t_nodes t))) 0 (length (t_crit t)) q),
  all_runs q m (fun m' => forall j, j < nvecs_res E qn -> holds m' (Out j) VF (nth j out' [])).
Proof.
  intros F D O OD E K ord ordered qn t theta G eps split mv eps2 out out' q m HE HK Ht Hroom Hord Hpar Hout Hcall H1 H2 H3 H4 H5 Hq.
  exact (force_task_runs O E OD K ord ordered qn t theta G eps split mv eps2 out out' q m HE HK Ht Hroom Hord Hpar Hout Hcall H1 H2 H3 H4 H5 Hq).
Qed.
Print Assumptions C73_force_interleavings.

(** Six critical nodes, six tasks. *)
Definition ex73_T := exF_tree (Some 2).
Definition ex73_out : list (list (binary_float 24 128)) := [repeat (F32 0 0) 6].
Definition ex73_mv : binary_float 24 128 := match mac_value_of exFO (ex3E Bh (Some 2)) (F32 3 (-2)) with Ok x => x | _ => F32 0 0 end.
Definition ex73_tasks := halve 9 (force_task exFO (ex3E Bh (Some 2)) (exFK false) true QPot (t_box ex73_T) ex73_mv (F32 1 0) (F32 0 0) 6 (length (t_nodes ex73_T))) 0 6.
Definition ex73_force_end := drive loc_eq 900 (fun k => k * 5 + k / 3) ex73_tasks (tree_mem ex73_T (t_parts ex73_T) ex73_out).
Example C73_force_ex :
  reachable exFO (ex3E Bh (Some 2)) ex73_T /\ room (ex3E Bh (Some 2)) ex73_T /\
  params exFO exFD (ex3E Bh (Some 2)) ex73_T (F32 3 (-2)) (F32 1 0) (F32 0 0) [] ex73_mv (match compute_eps2 exFO (F32 0 0) with Ok x => x | _ => F32 1 0 end) /\
  length (t_crit ex73_T) = 6 /\ length (t_codes ex73_T) = 6 /\
  is_ret (snd (snd ex73_force_end)) = true /\
  Ok [map (fun i => match fst (snd ex73_force_end) (Out 0, i) with VF x => B2SF x | _ => B2SF (F32 0 0) end) (seq 0 6)] =
  exF_show (exF_run (Some 2) false (fun l => l) true QPot (F32 3 (-2))).
Proof.
  destruct (exF_reachable (Some 2) (or_intror eq_refl)) as (H1 & H2 & H3). split; [exact H1|]. split; [exact exF_room|]. split.
  { assert (M : match mac_value_of exFO (ex3E Bh (Some 2)) (F32 3 (-2)) with Ok _ => True | _ => False end) by (vm_compute; exact I).
    assert (P : match compute_eps2 exFO (F32 0 0) with Ok _ => True | _ => False end) by (vm_compute; exact I).
    split; [unfold ex73_mv; destruct (mac_value_of _ _ _); [reflexivity|contradiction|contradiction]|].
    split; [destruct (compute_eps2 _ _); [reflexivity|contradiction|contradiction]|]. repeat split; try (cbn; lia); vm_compute; reflexivity. }
  split; [pose proof (f_equal (@length _) H3) as L; now rewrite map_length in L|]. split; [exact H2|]. split; now vm_compute.
Qed.
