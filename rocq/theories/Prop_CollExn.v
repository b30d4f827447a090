(** C86: failures in the computation of the collision graph by concurrent tasks. *)
From Coq Require Import List Arith NArith ZArith Bool Lia.
From Flocq Require Import Core BinarySingleNaN.
From Verif Require Import Base Config Morton Build TreeSpec FOps Disc NodeProps Tree TreeInv TreeEx Kernels Coll CollEx CollWit CollProps CollLast ParBag ParColl ParCollProofs ParCollEx
  ParBagExn ParBuildExnTop ParSpec ParCollExn.
Import ListNotations.
Local Open Scope nat_scope.

(** C86. The program [q] is that of the whole computation with any division of its loops; a task throws at the first particle of its leaf whose size is rejected,
    after it has added the particles before to the shared vectors, and while the rows of the graph are being cleared. Either the graph is returned, and all the interleavings end
    normally with its rows; or the function throws std::invalid_argument, and all of them end with this exception, wherever the other tasks are cancelled. *)
Theorem C86_collision_failure :
  forall (prec emax : Z) (Hprec : Prec_gt_0 prec) (Hemax : Prec_lt_emax prec emax) (fused : bool) (E : env)
    (K : platform (binary_float prec emax)) (t : @tree (binary_float prec emax)) (ordered : bool) (sizes : list (binary_float prec emax)) sch1 sch2 (old : list (list nat))
    (q : ecmd cloc (cval (binary_float prec emax))) (m : cloc -> cval (binary_float prec emax)),
  let O := Bops prec emax Hprec Hemax fused in
  forall (Hp2 : (2 <= prec)%Z) (Hcb : (Z.of_N (cbitsc (e_cfg E)) < emax)%Z) (HE : env_ok E) (Ht : reachable O E t) (HK : full_shift E K t)
    (R1 : reorders sch1) (R2 : reorders sch2) (Hlen : length (t_codes t) <= length sizes)
    (Hn : (N.of_nat (length (t_codes t)) * cbitsc (e_cfg E) < diff_max)%N)
    (Hparts : forall j col, nth_error (t_parts t) j = Some col -> choldsin m (CPart j) XF col)
    (Hnodes : choldsin m CNodes XN (t_nodes t)) (Hperm : choldsin m CPerm XI (t_perm t)) (Hcodes : choldsin m CCodes XU (t_codes t)) (Hsizes : choldsin m CSizes XF sizes)
    (Hadd : forall k, k < length (coll_leaves (t_nodes t)) -> m (CAdd, k) = XL [])
    (Hrows : forall i, i < length (t_codes t) -> m (CRow, i) = XL (nth i old []))
    (Hq : ecoll_prog O E K (match old with [] => true | _ => false end) ordered (t_box t) (length (t_codes t)) (length (t_nodes t)) (length sizes)
       (length (coll_leaves (t_nodes t))) q),
  match compute_cgraph O E K ordered t sizes sch1 sch2 old with
  | Ok g => all_runs_e cloc (cval _) cloc_eq cop q m (fun m' => forall i row, nth_error g i = Some row -> m' (CRow, i) = XR row) (fun _ => False)
  | Throw e => e = InvalidArgument /\ all_runs_e cloc (cval _) cloc_eq cop q m (fun _ => False) (fun e' => e' = InvalidArgument)
  | UB => False
  end.
Proof.
  intros prec emax Hprec Hemax fused E K t ordered sizes sch1 sch2 old q m O Hp2 Hcb HE Ht HK R1 R2 Hlen Hn H1 H2 H3 H4 H5 Ha Hr Hq.
  exact (coll_e O E K t ordered sizes sch1 sch2 old q m HE Ht (disc_total_B prec emax Hprec Hemax fused E Hp2 Hcb) HK R1 R2 Hlen Hn
    (conj H1 (conj H2 (conj H3 (conj H4 H5)))) Ha Hr Hq).
Qed.
Print Assumptions C86_collision_failure.

(** Six particles, two rows with old content; two of the sizes are [x]. *)
Definition ex86_sizes (x : f32) : list f32 := [F32 1 (-1); x; F32 1 (-2); F32 1 (-2); x; F32 1 (-3)].
Definition ex86_prog (nn nl : nat) : ecmd cloc (cval f32) :=
  eapp cloc (cval f32) (EFork (ehalve 9 (fun i => lift (clear_body i)) 0 6) (ehalve 9 (eextras_body exCO exCE zero_shift true (t_box ex77_T) 6 nn 6) 0 nl) ERet)
    (eapp cloc (cval f32) (ehalve 9 (fun k => lift (pairs_body exCO exCE true (t_box ex77_T) 6 nn 6 k)) 0 nl) (ehalve 9 (fun i => lift (dedup_body i)) 0 6)).
Definition ex86_end (eager : bool) (x : f32) := edrive cloc_eq cop eager 3000 (fun k => k * 3 + k / 2) (ex86_prog (length (t_nodes ex77_T)) ex77_nl) (ex77_mem ex77_T (ex86_sizes x) ex77_old).

Example C86_ex : reachable exCO exCE ex77_T /\ full_shift exCE zero_shift ex77_T /\ length (t_codes ex77_T) = 6 /\
  (forall x, coll_mem ex77_T (ex86_sizes x) (ex77_mem ex77_T (ex86_sizes x) ex77_old)) /\
  ecoll_prog exCO exCE zero_shift false true (t_box ex77_T) 6 (length (t_nodes ex77_T)) 6 ex77_nl (ex86_prog (length (t_nodes ex77_T)) ex77_nl) /\
  compute_cgraph exCO exCE zero_shift true ex77_T (ex86_sizes (F32 1 (-2))) (@rev _) (@rev _) ex77_old = Ok [[1; 2; 3; 4; 5]; [0; 3; 5]; [0; 4]; [0; 1]; [0; 2]; [0; 1]] /\
  end_of (snd (snd (ex86_end false (F32 1 (-2))))) = Some None /\
  compute_cgraph exCO exCE zero_shift true ex77_T (ex86_sizes (F32 (-1) 0)) (@rev _) (@rev _) ex77_old = Throw InvalidArgument /\
  end_of (snd (snd (ex86_end false (F32 (-1) 0)))) = Some (Some InvalidArgument) /\ end_of (snd (snd (ex86_end true (F32 (-1) 0)))) = Some (Some InvalidArgument) /\
  fst (ex86_end true (F32 (-1) 0)) < fst (ex86_end false (F32 (-1) 0)).
Proof.
  split; [exact ex_span_reachable|]. split; [left; now vm_compute|]. split; [now vm_compute|]. split; [intros x; exact (ex77_mem_ok _ _ _)|].
  split. { eexists _, _, _, _. split; [|split; [|split; [|split; [|reflexivity]]]]; apply ehalve_pfor; lia. }
  split; [vm_compute; reflexivity|]. split; [vm_compute; reflexivity|]. split; [vm_compute; reflexivity|]. split; [vm_compute; reflexivity|]. split; [vm_compute; reflexivity|].
  apply Nat.ltb_lt. vm_compute. reflexivity.
Qed.
