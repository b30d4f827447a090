(** Property C81: the work buffers of the threads do not influence the results. *)
From Coq Require Import List Arith ZArith NArith Bool Lia Permutation.
From Flocq Require Import Core BinarySingleNaN.
From Verif Require Import Base Config Morton Build TreeSpec FOps NodeProps Tree TreeInv TreeProofs TreeEx Kernels TravProofs Force ForceOut ForceTop ForceEx Scratch ScratchProofs.
Import ListNotations.
Local Open Scope nat_scope.

(** C81. [bacc_pot] computes with the work buffers [mem] of the threads, which keep what earlier computations left there, and in which elements that were never
    written have no value. Whatever their sizes and contents, and whichever thread processes which critical node in which order, the outcome is that of [acc_pot_dispatch]. *)
Theorem C81_buffers_do_not_matter :
  forall (F D : Type) (O : fops F) (OD : fops D) (E : env) (K : platform F) (work : list cnode -> list (nat * cnode)) (ordered : bool) (q : quant) (t : @tree F)
    (theta G eps : F) (split : list D) (mem : @memory F) (out : list (list F))
    (HE : env_ok E) (HK : benign_shift K) (Ht : reachable O E t) (Hwork : reorders (fun l => map snd (work l))) (Hmem : forall i, scratch_ok E (mem i)),
  exists mem', (forall i, scratch_ok E (mem' i)) /\
    bacc_pot O OD E K work ordered q t theta G eps split mem out =
    match acc_pot_dispatch O OD E K (fun l => map snd (work l)) ordered q t theta G eps split out with Ok o => Ok (mem', o) | Throw e => Throw e | UB => UB end.
Proof.
  intros F D O OD E K work ordered q t theta G eps split mem out HE HK Ht Hwork Hmem.
  exact (call_same O OD E K HE HK work ordered q t theta G eps split mem out (reachable_inv O E HE t Ht) Hwork Hmem).
Qed.
Print Assumptions C81_buffers_do_not_matter.

(** C81. No value is read from an element that was not written by the same computation: nothing is undefined. *)
Theorem C81_no_uninitialised_value :
  forall (F D : Type) (O : fops F) (OD : fops D) (E : env) (K : platform F) (work : list cnode -> list (nat * cnode)) (ordered : bool) (q : quant) (t : @tree F)
    (theta G eps : F) (split : list D) (mem : @memory F) (out : list (list F))
    (HE : env_ok E) (HK : benign_shift K) (Ht : reachable O E t) (Hwork : reorders (fun l => map snd (work l))) (Hmem : forall i, scratch_ok E (mem i))
    (Hout : out_ok (length (t_codes t)) (nvecs_res E q) out),
  bacc_pot O OD E K work ordered q t theta G eps split mem out <> UB.
Proof.
  intros F D O OD E K work ordered q t theta G eps split mem out HE HK Ht Hwork Hmem Hout.
  exact (call_safe O OD E K HE HK work ordered q t theta G eps split mem out (reachable_inv O E HE t Ht) Hwork Hmem Hout).
Qed.
Print Assumptions C81_no_uninitialised_value.

(** Two threads. The buffers hold NaN, infinities and elements without value, and are too short or too long; then a call for accelerations and potentials, and with the
    buffers it leaves a call for potentials in the original order. The results are those of calls without history; an element that is not written has no value. *)
Definition ex81_op : @op (binary_float 24 128) := OConstruct (ex_sched false) (Some (F32 1 0)) (Ranges exF_cols) (Some 2) (Some 3).
Definition ex81_tree : @tree (binary_float 24 128) := match run exFO (ex3E Bh (Some 2)) [ex81_op] [] with Ok (t :: _) => t | _ => default_tree exFO (ex3E Bh (Some 2)) end.
Definition ex81_garbage (i : nat) : @scratch (binary_float 24 128) :=
  let junk k := repeat (Some B754_nan) (i + k) ++ [None; Some (B754_infinity true)] in
  mkScratch (fun q => map junk (seq 0 (nvecs_tmp (ex3E Bh (Some 2)) q))) (fun q => map junk (seq 1 (nvecs_res (ex3E Bh (Some 2)) q))) (map junk (seq 4 4)).
Definition ex81_work (l : list cnode) : list (nat * cnode) := combine (concat (repeat [1; 0; 1] (length l))) (rev l).
Definition ex81_run :=
  do r <- bacc_pot exFO exFD (ex3E Bh (Some 2)) (exFK false) ex81_work false QBoth ex81_tree (F32 3 (-2)) (F32 2 0) (F32 0 0) [] ex81_garbage (repeat (repeat (F32 0 0) 6) 4);
  do r' <- bacc_pot exFO exFD (ex3E Bh (Some 2)) (exFK false) ex81_work true QPot ex81_tree (F32 3 (-2)) (F32 1 0) (F32 0 0) [] (fst r) (repeat (repeat (F32 0 0) 6) 1);
  Ok (map (map B2SF) (snd r), map (map B2SF) (snd r')).
Definition ex81_ref :=
  do r <- acc_pot_dispatch exFO exFD (ex3E Bh (Some 2)) (exFK false) (fun l => map snd (ex81_work l)) false QBoth ex81_tree (F32 3 (-2)) (F32 2 0) (F32 0 0) [] (repeat (repeat (F32 0 0) 6) 4);
  do r' <- acc_pot_dispatch exFO exFD (ex3E Bh (Some 2)) (exFK false) (fun l => map snd (ex81_work l)) true QPot ex81_tree (F32 3 (-2)) (F32 1 0) (F32 0 0) [] (repeat (repeat (F32 0 0) 6) 1);
  Ok (map (map B2SF) r, map (map B2SF) r').
Example C81_ex : (forall i, scratch_ok (ex3E Bh (Some 2)) (ex81_garbage i)) /\ reorders (fun l => map snd (ex81_work l)) /\
  reachable exFO (ex3E Bh (Some 2)) ex81_tree /\ map (fun x => c_end x - c_begin x) (t_crit ex81_tree) = [1; 1; 1; 3] /\ is_ok (ex81_run) = true /\ ex81_run = ex81_ref /\
  bget (vresize 3 (@nil (option (binary_float 24 128)))) 2 = UB.
Proof.
  split; [intros i; repeat split; intros []; reflexivity|]. split.
  { intros l. unfold ex81_work. eapply perm_trans; [|apply Permutation_sym, Permutation_rev]. replace (map snd (combine (concat (repeat [1; 0; 1] (length l))) (rev l))) with (rev l); [apply Permutation_refl|].
    rewrite <- (rev_length l). generalize (rev l). intros r. assert (H : length r <= length (concat (repeat [1; 0; 1] (length r)))).
    { induction (length r) as [|k IH]; cbn [repeat concat app length]; lia. }
    revert H. generalize (concat (repeat [1; 0; 1] (length r))). induction r as [|x r IH]; intros [|a l0] H; cbn [length combine map] in *; try reflexivity; try lia.
    now rewrite <- IH by lia. }
  split.
  { unfold ex81_tree. assert (G : match run exFO (ex3E Bh (Some 2)) [ex81_op] [] with Ok [t] => True | _ => False end) by (vm_compute; auto).
    destruct (run exFO (ex3E Bh (Some 2)) [ex81_op] []) as [[|t [|u w]]|e|] eqn:R; try contradiction.
    exists [ex81_op], [t]. split; [|split; [exact R|now left]]. constructor; [split; [apply ex_sched_ok|reflexivity]|constructor]. }
  split; [vm_compute; reflexivity|]. split; [vm_compute; reflexivity|]. split; [vm_compute; reflexivity|reflexivity].
Qed.
