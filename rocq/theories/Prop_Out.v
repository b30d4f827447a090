(** Property C68: what the functions that compute accelerations and potentials leave in their output. [fs] fixes the order in which the critical nodes are
    processed, which allocations fail, and which critical nodes are still processed after a failure. *)
From Coq Require Import List Arith ZArith NArith Bool Lia Permutation.
From Flocq Require Import BinarySingleNaN.
From Verif Require Import Base Config Morton Build TreeSpec FOps NodeProps Tree TreeInv TreeProofs TreeSafe TreeEx Kernels Force TravProofs KernLoops ForceGen ForceOut
  ForceTop ForceEx Kw Out OutProofs OutEx.
Import ListNotations.
Local Open Scope nat_scope.

(** C68. A call that throws anything but [bad_alloc] has written nothing. Vectors have been resized, unless a keyword argument could not be converted. *)
Theorem C68_rejected_calls :
  forall (F D : Type) (O : fops F) (OD : fops D) (E : env) (K : platform F) (fs : fsched) (ordered : bool) (q : quant) (t : @tree F) (theta : F)
    (args : list arg) (st : list (obj F D)) (d : dest F) (out' : list (list F)) (e : exn)
    (HE : env_ok E) (HK : benign_shift K) (Ht : reachable O E t) (Hroom : room E t) (Hord : reorders (f_order fs))
    (Hlong : match d with DIters out | DList out => Forall (fun col => length (t_codes t) <= length col) out | DVectors _ => True end)
    (Hcall : force_call O OD E K fs ordered q t theta args st d = Some (out', Throw e)) (He : e <> BadAlloc),
  match d with
  | DIters out | DList out => out' = out
  | DVectors out => (e = BadNumericCast /\ out' = out) \/
      (e <> BadNumericCast /\ out' = map (fun col => firstn (nparts t) col ++ repeat (fofZ O 0%Z) (nparts t - length col)) out)
  end /\
  match d with DList out => length out <> nvecs_res E q -> e = InvalidArgument | _ => True end.
Proof.
  intros F D O OD E K fs ordered q t theta args st d out' e HE HK Ht Hroom Hord Hlong Hcall He.
  exact (rejected_calls O OD E K HE HK fs ordered q t theta args st d out' e (reachable_inv O E HE t Ht) Hroom Hord Hlong Hcall He).
Qed.
Print Assumptions C68_rejected_calls.

(** C68. If memory runs out while the results are computed, every value of the output is the one before the call or the one that a call with enough memory writes;
    if it runs out while the vectors are resized, the first ones have been resized and the others are as before. Without failures the call does not throw [bad_alloc]. *)
Theorem C68_out_of_memory :
  forall (F D : Type) (O : fops F) (OD : fops D) (E : env) (K : platform F) (fs : fsched) (ordered : bool) (q : quant) (t : @tree F) (theta : F)
    (args : list arg) (st : list (obj F D)) (d : dest F) (out' : list (list F))
    (HE : env_ok E) (HK : benign_shift K) (Ht : reachable O E t) (Hroom : room E t) (Hord : reorders (f_order fs))
    (Hlong : match d with DIters out | DList out => Forall (fun col => length (t_codes t) <= length col) out | DVectors _ => True end)
    (Hcall : force_call O OD E K fs ordered q t theta args st d = Some (out', Throw BadAlloc)),
  let grown col := firstn (nparts t) col ++ repeat (fofZ O 0%Z) (nparts t - length col) in
  let start := match d with DIters out | DList out => out | DVectors out => map grown out end in
  (exists out m, d = DVectors out /\ m < length out /\ length (nth m out []) < nparts t /\ f_resize fs m = false /\ out' = map grown (firstn m out) ++ skipn m out) \/
  ((exists cn, In cn (t_crit t) /\ f_alloc fs cn = false) /\ length out' = length start /\ (forall j, length (nth j out' []) = length (nth j start [])) /\
   exists full, (forall fs', reorders (f_order fs') -> (forall j, f_resize fs' j = true) -> (forall cn, f_alloc fs' cn = true) ->
                   force_call O OD E K fs' ordered q t theta args st d = Some (full, Ok tt)) /\
     forall j k, nth_error (nth j out' []) k = nth_error (nth j start []) k \/ nth_error (nth j out' []) k = nth_error (nth j full []) k).
Proof.
  intros F D O OD E K fs ordered q t theta args st d out' HE HK Ht Hroom Hord Hlong Hcall.
  exact (out_of_memory O OD E K HE HK fs ordered q t theta args st d out' (reachable_inv O E HE t Ht) Hroom Hord Hlong Hcall).
Qed.
Print Assumptions C68_out_of_memory.

(** C68. The overloads agree: a list with the right number of iterators is the same as an array of them; vectors, whatever their size and contents, end with the values
    written to the iterators. All are the results of the computation (C23-C34). *)
Theorem C68_overloads_agree :
  forall (F D : Type) (O : fops F) (OD : fops D) (E : env) (K : platform F) (fs : fsched) (ordered : bool) (q : quant) (t : @tree F) (theta : F)
    (args : list arg) (st : list (obj F D)) (out res : list (list F))
    (HE : env_ok E) (HK : benign_shift K) (Ht : reachable O E t) (Hroom : room E t) (Hord : reorders (f_order fs))
    (Hlong : Forall (fun col => length (t_codes t) <= length col) out)
    (Hcall : force_call O OD E K fs ordered q t theta args st (DIters out) = Some (res, Ok tt)),
  (forall ord, reorders ord -> kw_accpot O OD E K ord ordered q t theta args st out = Some (Ok res)) /\
  (q <> QPot -> force_call O OD E K fs ordered q t theta args st (DList out) = Some (res, Ok tt)) /\
  forall fs' vecs, reorders (f_order fs') -> length vecs = nvecs_res E q ->
    exists x, force_call O OD E K fs' ordered q t theta args st (DVectors vecs) = Some x /\ (snd x = Throw BadAlloc \/ x = (map (firstn (nparts t)) res, Ok tt)) /\
      ((forall j, f_resize fs' j = true) -> (forall cn, f_alloc fs' cn = true) -> snd x <> Throw BadAlloc).
Proof.
  intros F D O OD E K fs ordered q t theta args st out res HE HK Ht Hroom Hord Hlong Hcall.
  exact (overloads_agree O OD E K HE HK fs ordered q t theta args st out res (reachable_inv O E HE t Ht) Hroom Hord Hlong Hcall).
Qed.
Print Assumptions C68_overloads_agree.

(** C68. A failed call can leave a mixture of old and new values in the output. *)
Theorem C68_unchanged_if_failed_refuted :
  exists (fs : fsched) (t : @tree (binary_float 24 128)) (out out' full : list (list (binary_float 24 128))),
    reachable exFO (ex3E Bh (Some 2)) t /\ room (ex3E Bh (Some 2)) t /\ reorders (f_order fs) /\ Forall (fun col => length (t_codes t) <= length col) out /\
    force_call exFO exFD (ex3E Bh (Some 2)) (exFK false) fs true QPot t (F32 3 (-2)) [] [] (DIters out) = Some (out', Throw BadAlloc) /\
    force_call exFO exFD (ex3E Bh (Some 2)) (exFK false) (mkFS (f_order fs) (f_resize fs) (fun _ => true) (f_after fs)) true QPot t (F32 3 (-2)) [] [] (DIters out) = Some (full, Ok tt) /\
    out' <> out /\ out' <> full.
Proof. exact mixture. Qed.
Print Assumptions C68_unchanged_if_failed_refuted.

(** Vectors of other sizes: a rejected parameter, and an accepted call. *)
Example C68_ex : forall bad, exists out' e,
  force_call exFO exFD (ex3E Bh (Some 2)) (exFK false) (ex_fs (fun _ => true)) false QAcc (exF_tree (Some 2)) (if bad : bool then F32 0 0 else F32 3 (-2)) [] []
    (DVectors [[F32 7 0]; []; repeat (F32 9 0) 8]) = Some (out', e) /\ map (@length _) out' = [6; 6; 6] /\
  (bad = true -> e = Throw DomainError) /\ (bad = false -> e = Ok tt).
Proof. exact vectors_example. Qed.
