(** Property C77: the computation of the collision graph by concurrent tasks is free of data races, and all the interleavings give the same graph. *)
From Coq Require Import List Arith NArith ZArith Bool Lia Permutation.
From Flocq Require Import Core BinarySingleNaN.
From Verif Require Import Base Config Morton Build TreeSpec FOps Disc NodeProps Tree TreeInv TreeEx Kernels Coll CollEx CollWit ParBag ParColl ParCollProofs ParCollEx.
Import ListNotations.
Local Open Scope nat_scope.

(** C77. For every way of dividing the loops among threads and every interleaving of the accesses, including the appends to the shared vectors: no two tasks access the same
    location at the same time unless both read or both append, all the executions end, and the rows are those of the graph. *)
Theorem C77_collision_interleavings :
  forall (F : Type) (O : fops F) (E : env) (K : platform F) (ordered : bool) (t : @tree F) (sizes : list F) (sch1 sch2 : list (nat * nat) -> list (nat * nat))
    (old g : list (list nat)) (q : cmd cloc (cval F)) (m : cloc -> cval F)
    (HE : env_ok E) (Ht : reachable O E t) (R1 : reorders sch1) (R2 : reorders sch2)
    (Hg : compute_cgraph O E K ordered t sizes sch1 sch2 old = Ok g)
    (Hparts : forall j col, nth_error (t_parts t) j = Some col -> choldsin m (CPart j) XF col)
    (Hnodes : choldsin m CNodes XN (t_nodes t)) (Hperm : choldsin m CPerm XI (t_perm t)) (Hcodes : choldsin m CCodes XU (t_codes t)) (Hsizes : choldsin m CSizes XF sizes)
    (Hadd : forall k, k < length (coll_leaves (t_nodes t)) -> m (CAdd, k) = XL [])
    (Hrows : forall i, i < length (t_codes t) -> m (CRow, i) = XL (nth i old []))
    (Hq : coll_prog O E K (match old with [] => true | _ => false end) ordered (t_box t) (length (t_codes t)) (length (t_nodes t)) (length sizes)
       (length (coll_leaves (t_nodes t))) q),
  all_runs cloc (cval F) cloc_eq cop q m (fun m' => forall i row, nth_error g i = Some row -> m' (CRow, i) = XR row).
Proof.
  intros F O E K ordered t sizes sch1 sch2 old g q m HE Ht R1 R2 Hg H1 H2 H3 H4 H5 Ha Hr Hq.
  exact (coll_task_runs O E K ordered t sizes sch1 sch2 old g q m HE Ht R1 R2 Hg (conj H1 (conj H2 (conj H3 (conj H4 H5)))) Ha Hr Hq).
Qed.
Print Assumptions C77_collision_interleavings.

(** Six particles, two of the rows with old content, all loops divided up to single elements, and one of the interleavings. *)
Example C77_ex :
  reachable exCO exCE ex77_T /\ length (t_codes ex77_T) = 6 /\ 2 <= ex77_nl /\ length ex77_sizes = 6 /\
  compute_cgraph exCO exCE (exCK true) true ex77_T ex77_sizes (@rev _) (@rev _) ex77_old = Ok [[1; 2; 3; 5]; [0; 3; 5]; [0]; [0; 1]; []; [0; 1]] /\
  coll_mem ex77_T ex77_sizes (ex77_mem ex77_T ex77_sizes ex77_old) /\
  coll_prog exCO exCE (exCK true) false true (t_box ex77_T) 6 (length (t_nodes ex77_T)) 6 ex77_nl (ex77_prog (length (t_nodes ex77_T)) ex77_nl) /\
  (forall f, exec cloc (cval f32) cloc_eq cop (fst (ex77_end f)) (ex77_mem ex77_T ex77_sizes ex77_old) (ex77_prog (length (t_nodes ex77_T)) ex77_nl)
     (fst (snd (ex77_end f))) (snd (snd (ex77_end f)))) /\
  bis_ret (snd (snd (ex77_end (fun k => k mod 13)))) = true /\ ex77_rows (ex77_end (fun k => k mod 13)) = [[1; 2; 3; 5]; [0; 3; 5]; [0]; [0; 1]; []; [0; 1]].
Proof.
  split; [exact ex_span_reachable|]. split; [now vm_compute|]. split; [apply Nat.leb_le; now vm_compute|]. split; [reflexivity|]. split; [now vm_compute|].
  split; [exact (ex77_mem_ok _ _ _)|]. split; [exact (ex77_prog_ok _ _)|]. split; [intros f; exact (bdrive_exec cloc_eq cop 3000 f _ _)|]. split; now vm_compute.
Qed.

(** Races are possible in the model: the pairs of a leaf while the additional particles of another leaf are still being found. *)
Definition ex77_two := exC_tree exC_two.
Definition ex77_mix : cmd cloc (cval f32) :=
  Fork (extras_body exCO exCE (exCK true) false (t_box ex77_two) 2 (length (t_nodes ex77_two)) 2 0)
    (pairs_body exCO exCE false (t_box ex77_two) 2 (length (t_nodes ex77_two)) 2 1) Ret.
Example C77_race_ex : exists n m' c', exec cloc (cval f32) cloc_eq cop n (ex77_mem ex77_two (repeat (F32 1 (-1)) 2) []) ex77_mix m' c' /\ racing cloc (cval f32) c'.
Proof.
  pose (r := bdrive cloc_eq cop (length (coll_reads exCE 2 (length (t_nodes ex77_two)) 2)) (fun _ => 0) ex77_mix (ex77_mem ex77_two (repeat (F32 1 (-1)) 2) [])).
  exists (fst r), (fst (snd r)), (snd (snd r)). split; [apply bdrive_exec|].
  assert (H : match snd (snd r) with Fork (At (CAdd, 1) _ _) (Rd (CAdd, 1) _) _ => True | _ => False end) by (vm_compute; exact I).
  destruct (snd (snd r)) as [| | | |a b k]; try contradiction. destruct a as [| | |[[] [|[|]]]|]; try contradiction. destruct b as [|[[] [|[|]]]| | |]; try contradiction.
  eapply r_now; [apply p_at|apply p_rd|reflexivity].
Qed.
