(** Property C83: accelerations and potentials of one tree can be computed by several threads at the same time. *)
From Coq Require Import List Arith NArith ZArith Bool Lia Permutation.
From Flocq Require Import Core BinarySingleNaN.
From Verif Require Import Base Config Morton Build TreeSpec FOps Disc NodeProps Tree TreeInv TreeEx TravProofs Kernels Force ForceGen ForceOut ForceTop ForceEx UniqueColl OutEx
  Par ParTree ParProofs ParTop ParTop2 ParLast ParCalls.
Import ListNotations.
Local Open Scope nat_scope.

(** C83. Any number of calls for the same tree, with any arguments, every one with output arrays of its own, arranged in any way one after the
    other or one beside the other: no interleaving has a data race or is stuck, the tree is not changed, and every call gives the results
    that it gives alone. *)
Theorem C83_concurrent_calls :
  forall (F D : Type) (O : fops F) (OD : fops D) (E : env) (K : platform F) (t : @tree F)
    (calls : list (call * list (list F))) (progs : list (cmd uloc (val F))) (q : cmd uloc (val F)) (m : uloc -> val F)
    (HE : env_ok E) (HK : benign_shift K) (Ht : reachable O E t) (Hroom : room E t)
    (Halone : forall k x res, nth_error calls k = Some (x, res) -> @alone F D O OD E K t x res)
    (Hparts : forall j col i x, nth_error (t_parts t) j = Some col -> nth_error col i = Some x -> m (0, (Part j, i)) = VF x)
    (Hnodes : forall i x, nth_error (t_nodes t) i = Some x -> m (0, (Nodes, i)) = VN x)
    (Hperm : forall i x, nth_error (t_perm t) i = Some x -> m (0, (Perm, i)) = VI x)
    (Hcrit : forall i x, nth_error (t_crit t) i = Some x -> m (0, (Crits, i)) = VC x)
    (Hout : forall k x res, nth_error calls k = Some (x, res) -> forall j i y, j < nvecs_res E (ca_q x) ->
       nth_error (nth j (ca_out x) []) i = Some y -> m (S k, (Out j, i)) = VF y)
    (Hlen : length progs = length calls)
    (Hprogs : forall k x res p, nth_error calls k = Some (x, res) -> nth_error progs k = Some p -> call_prog O E K t k x p)
    (Hq : arranged progs q),
  Par.all_runs uloc (val F) uloc_eq q m (fun m' =>
    (forall k x res, nth_error calls k = Some (x, res) -> forall j i y, j < nvecs_res E (ca_q x) ->
       nth_error (nth j res []) i = Some y -> m' (S k, (Out j, i)) = VF y) /\
    forall l, m' (0, l) = m (0, l)).
Proof.
  intros F D O OD E K t calls progs q m HE HK Ht Hroom Halone Hparts Hnodes Hperm Hcrit Hout Hlen Hprogs Hq.
  exact (calls_api O OD E K t calls progs q m HE HK Ht Hroom Halone Hparts Hnodes Hperm Hcrit Hout Hlen Hprogs Hq).
Qed.
Print Assumptions C83_concurrent_calls.

(** Six particles, six critical nodes: potentials in the original order and, at the same time, accelerations in the order of the tree. *)
Definition ex83_E := ex3E Bh (Some 2).
Definition ex83_T := exF_tree (Some 2).
Definition ex83_mv : binary_float 24 128 := match mac_value_of exFO ex83_E (F32 3 (-2)) with Ok x => x | _ => F32 0 0 end.
Definition ex83_eps2 : binary_float 24 128 := match compute_eps2 exFO (F32 0 0) with Ok x => x | _ => F32 1 0 end.
Definition ex83_call (ordered : bool) (q : quant) : @call (binary_float 24 128) (binary_float 53 1024) :=
  mkCall (fun l => l) ordered q (F32 3 (-2)) (F32 1 0) (F32 0 0) [] (repeat (repeat (F32 0 0) 6) (nvecs_res ex83_E q)) ex83_mv ex83_eps2.
Definition ex83_res (ordered : bool) (q : quant) := match exF_run (Some 2) false (fun l => l) ordered q (F32 3 (-2)) with Ok r => r | _ => [] end.
Definition ex83_prog (fuel : nat) (k : nat) (ordered : bool) (q : quant) : cmd uloc (val (binary_float 24 128)) :=
  rename (place k) (halve fuel (force_task exFO ex83_E (exFK false) ordered q (t_box ex83_T) ex83_mv (F32 1 0) ex83_eps2 6 (length (t_nodes ex83_T))) 0 6).
Definition ex83_mem : uloc -> val (binary_float 24 128) := fun l => match l with
  | (0, (Part j, i)) => nth i (map VF (nth j (t_parts ex83_T) [])) (VI 0)
  | (0, (Perm, i)) => nth i (map VI (t_perm ex83_T)) (VI 0)
  | (0, (Nodes, i)) => nth i (map VN (t_nodes ex83_T)) (VI 0)
  | (0, (Crits, i)) => nth i (map VC (t_crit ex83_T)) (VI 0)
  | (S _, _) => VF (F32 0 0)
  | _ => VI 0
  end.
Definition ex83_calls := [(ex83_call true QPot, ex83_res true QPot); (ex83_call false QAcc, ex83_res false QAcc)].
Definition ex83_progs := [ex83_prog 9 0 true QPot; ex83_prog 9 1 false QAcc].
Definition ex83_end := drive uloc_eq 1500 (fun k => k * 5 + k / 3) (group ex83_progs) ex83_mem.
Definition ex83_show (m : uloc -> val (binary_float 24 128)) (k nv : nat) :=
  map (fun j => map (fun i => match m (S k, (Out j, i)) with VF x => B2SF x | _ => SpecFloat.S754_nan end) (seq 0 6)) (seq 0 nv).
Lemma ex83_alone : forall k x res, nth_error ex83_calls k = Some (x, res) -> alone exFO exFD ex83_E (exFK false) ex83_T x res.
Proof.
  assert (P : params exFO exFD ex83_E ex83_T (F32 3 (-2)) (F32 1 0) (F32 0 0) [] ex83_mv ex83_eps2).
  { assert (M : match mac_value_of exFO ex83_E (F32 3 (-2)) with Ok _ => True | _ => False end) by (vm_compute; exact I).
    assert (P : match compute_eps2 exFO (F32 0 0) with Ok _ => True | _ => False end) by (vm_compute; exact I).
    split; [unfold ex83_mv; destruct (mac_value_of _ _ _); [reflexivity|contradiction|contradiction]|].
    split; [unfold ex83_eps2; destruct (compute_eps2 _ _); [reflexivity|contradiction|contradiction]|]. repeat split; try (cbn; lia); vm_compute; reflexivity. }
  destruct (exF_reachable (Some 2) (or_intror eq_refl)) as (_ & L & _).
  assert (G : forall ordered q, match exF_run (Some 2) false (fun l => l) ordered q (F32 3 (-2)) with Ok _ => true | _ => false end = true ->
    alone exFO exFD ex83_E (exFK false) ex83_T (ex83_call ordered q) (ex83_res ordered q)).
  { intros ordered q H. split; [intros l; apply Permutation_refl|]. split; [exact P|]. split.
    - unfold ex83_T. rewrite L. split; [apply repeat_length|]. apply Forall_forall. intros l Hl. apply repeat_spec in Hl. subst l. rewrite repeat_length. apply le_n.
    - unfold ex83_res. fold (exF_run (Some 2) false (fun l => l) ordered q (F32 3 (-2))).
      change (exF_run (Some 2) false (fun l => l) ordered q (F32 3 (-2)) = Ok (match exF_run (Some 2) false (fun l => l) ordered q (F32 3 (-2)) with Ok r => r | _ => [] end)).
      destruct (exF_run (Some 2) false (fun l => l) ordered q (F32 3 (-2))); [reflexivity|discriminate H|discriminate H]. }
  apply (two_calls (alone exFO exFD ex83_E (exFK false) ex83_T)); apply G; now vm_compute.
Qed.

Example C83_ex :
  reachable exFO ex83_E ex83_T /\ room ex83_E ex83_T /\
  (forall k x res, nth_error ex83_calls k = Some (x, res) -> alone exFO exFD ex83_E (exFK false) ex83_T x res) /\
  call_prog exFO ex83_E (exFK false) ex83_T 0 (ex83_call true QPot) (ex83_prog 9 0 true QPot) /\
  call_prog exFO ex83_E (exFK false) ex83_T 1 (ex83_call false QAcc) (ex83_prog 9 1 false QAcc) /\
  arranged ex83_progs (Fork (ex83_prog 9 0 true QPot) (ex83_prog 9 1 false QAcc) Ret) /\
  (* one of the interleavings *)
  is_ret (snd (snd ex83_end)) = true /\
  Ok (ex83_show (fst (snd ex83_end)) 0 1) = exF_show (exF_run (Some 2) false (fun l => l) true QPot (F32 3 (-2))) /\
  Ok (ex83_show (fst (snd ex83_end)) 1 3) = exF_show (exF_run (Some 2) false (fun l => l) false QAcc (F32 3 (-2))).
Proof.
  destruct (exF_reachable (Some 2) (or_intror eq_refl)) as (H1 & H2 & H3).
  assert (L : length (t_crit ex83_T) = 6) by (pose proof (f_equal (@length _) H3) as L; now rewrite map_length in L).
  split; [exact H1|]. split; [exact exF_room|]. split; [exact ex83_alone|].
  assert (Q : forall k ordered q, call_prog exFO ex83_E (exFK false) ex83_T k (ex83_call ordered q) (ex83_prog 9 k ordered q)).
  { intros k ordered q. eexists. split; [|reflexivity]. rewrite L. unfold ex83_T. rewrite H2. apply halve_pfor. lia. }
  split; [apply Q|]. split; [apply Q|]. split; [apply (ar_beside [_] [_]); apply ar_one|].
  split; [now vm_compute|]. split; now vm_compute.
Qed.

(** The output arrays must be different ones: two calls at the same time with the same output arrays have a data race, although both of them
    write the same numbers. *)
Lemma ex83_race : races uloc_eq (snd (snd (drive uloc_eq 78 (fun k => k) (Fork (ex83_prog 0 0 true QPot) (ex83_prog 0 0 true QPot) Ret) ex83_mem))) = true.
Proof. now vm_compute. Qed.
Theorem C83_shared_outputs_refuted :
  exists (q : cmd uloc (val (binary_float 24 128))) (n : nat) (m' : uloc -> val (binary_float 24 128)) (q' : cmd uloc (val (binary_float 24 128))),
    arranged [ex83_prog 0 0 true QPot; ex83_prog 0 0 true QPot] q /\
    Par.exec uloc (val _) uloc_eq n ex83_mem q m' q' /\ racing q'.
Proof. exact (race_found uloc_eq 78 (fun k => k) (ex83_prog 0 0 true QPot) (ex83_prog 0 0 true QPot) ex83_mem ex83_race). Qed.
Print Assumptions C83_shared_outputs_refuted.
