(** Trees of the same particles in different orders: examples for C76. *)
From Coq Require Import List Arith NArith ZArith Lia Bool Reals Lra Permutation.
From Flocq Require Import Core BinarySingleNaN.
From Verif Require Import Base Config Morton Build TreeSpec FOps FOpsProofs Disc NodeProps Tree TreeInv TreeProofs TreeSafe TreeProps TreeEx Kernels Force
  TravProofs NodesR KernR ForceGen ForceOut ForceR ForceTop ForceRTop ForceEx Coll CollLast Unique UniqueR Rebuild ScaleEx.
Import ListNotations.
Local Open Scope nat_scope.

(** The order of the second tree: particle [i] is particle [ord_ex_i] of the first. *)
Definition pick {A} (s : list nat) (d : A) (l : list A) : list A := map (fun i => nth i l d) s.

Lemma pick_permuted : forall {A} s (d : A) l, is_perm s (length l) -> permuted s l (pick s d l).
Proof.
  intros A s d l Hs. unfold pick. split; [apply map_length|]. intros i k Hi. rewrite nth_error_map, Hi. cbn [option_map].
  assert (Hk : k < length l). { assert (I : In k (seq 0 (length l))) by (apply (Permutation_in _ Hs), (nth_error_In _ _ Hi)). apply in_seq in I. lia. }
  split; [symmetry; now apply nth_error_nth'|exact Hk].
Qed.

Lemma picks_permuted : forall {A} s (d : A) n cols, is_perm s n -> Forall (fun col => length col = n) cols -> Forall2 (permuted s) cols (map (pick s d) cols).
Proof.
  intros A s d n cols Hs H. induction H as [|col cols H1 H IH]; cbn [map]; constructor; [|exact IH]. apply pick_permuted. now rewrite H1.
Qed.

(** ** Single precision, three particles *)

Definition od_cols : list (list (binary_float 24 128)) :=
  [[F32 1 (-2); F32 (-1) (-2); F32 1 (-3)]; [F32 1 (-2); F32 1 (-3); F32 (-3) (-3)]; [F32 1 24; F32 1 0; F32 3 0]].
Definition od_perm : list nat := [2; 0; 1].
Definition od_cols' := map (pick od_perm (F32 0 0)) od_cols.
Definition od_run (b : bool) := generic_ctor exO (exE false) (ex_sched b) (Some (F32 1 0)) (Ranges (if b then od_cols' else od_cols)) (Some 1) (Some 2).
Definition od_tree (b : bool) := match od_run b with Ok t => t | _ => default_tree exO (exE false) end.

Lemma od_ctor : forall b, od_run b = Ok (od_tree b).
Proof.
  intros b. unfold od_tree. assert (G : match od_run b with Ok _ => true | _ => false end = true) by (destruct b; vm_compute; reflexivity).
  destruct (od_run b); [reflexivity|discriminate|discriminate].
Qed.

Lemma od_perm_ok : is_perm od_perm 3.
Proof. unfold is_perm, od_perm. cbn [seq]. apply Permutation_sym. etransitivity; [apply perm_skip, perm_swap|apply perm_swap]. Qed.

Lemma od_facts : forall b, reachable exO (exE false) (od_tree b) /\ view_cols true (od_tree b) = Ok (if b then od_cols' else od_cols) /\
  t_box (od_tree b) = F32 1 0 /\ t_mln (od_tree b) = 1 /\ t_ncrit (od_tree b) = 2 /\ length (t_codes (od_tree b)) = 3.
Proof.
  intros b. pose proof (od_ctor b) as Ht. unfold od_run in Ht. set (cols := if b then od_cols' else od_cols) in *.
  assert (L : length cols = 3) by (unfold cols; destruct b; reflexivity). assert (LF : Forall (fun col => length col = 3) cols) by (unfold cols; destruct b; repeat constructor).
  destruct (ctor_params exO (exE false) _ _ _ _ _ _ Ht) as (P1 & P2 & _ & P4).
  destruct (construction exO (exE false) _ _ (Ranges cols) _ _ _ (ex_sched_ok _ b) L Ht) as (n & Hn & Hc & _ & _ & _ & _ & _ & _ & Hv & Hb).
  assert (n = 3) as -> by (cbn [given] in Hn; destruct cols; [discriminate|]; inversion Hn; inversion LF; congruence).
  split; [|split; [apply Hv; vm_compute; discriminate|split; [now apply P4|split; [exact P1|split; [exact P2|exact Hc]]]]].
  exists [OConstruct (ex_sched b) (Some (F32 1 0)) (Ranges cols) (Some 1) (Some 2)], [od_tree b].
  split; [constructor; [split; [apply ex_sched_ok|exact L]|constructor]|]. split; [|now left]. unfold run. cbn [foldM step]. rewrite Ht. reflexivity.
Qed.

Lemma od_distinct : NoDup (t_codes (od_tree false)).
Proof.
  assert (H : exists a b d, t_codes (od_tree false) = [a; b; d] /\ a <> b /\ a <> d /\ b <> d).
  { do 3 eexists. split; [vm_compute; reflexivity|]. repeat split; discriminate. }
  destruct H as (a & b & d & -> & H1 & H2 & H3). repeat constructor; cbn [In]; intuition congruence.
Qed.

Lemma od_views : exists (t u : @tree (binary_float 24 128)) v v' s, reachable exO (exE false) t /\ reachable exO (exE false) u /\
  view_cols true t = Ok v /\ view_cols true u = Ok v' /\ is_perm s (length (t_codes t)) /\ Forall2 (permuted s) v v' /\ s <> [0; 1; 2] /\
  t_box t = t_box u /\ t_mln t = t_mln u /\ t_ncrit t = t_ncrit u /\ NoDup (t_codes t) /\ length (t_codes t) = 3 /\ room (exE false) t.
Proof.
  destruct (od_facts false) as (A1 & A2 & A3 & A4 & A5 & A6). destruct (od_facts true) as (B1 & B2 & B3 & B4 & B5 & B6).
  exists (od_tree false), (od_tree true), od_cols, od_cols', od_perm. rewrite A6, A3, A4, A5, B3, B4, B5.
  split; [exact A1|]. split; [exact B1|]. split; [exact A2|]. split; [exact B2|]. split; [exact od_perm_ok|].
  split; [apply (picks_permuted _ _ 3); [exact od_perm_ok|repeat constructor]|]. split; [discriminate|]. repeat (split; [reflexivity|]). split; [exact od_distinct|]. split; [reflexivity|].
  unfold room. rewrite A6. vm_compute. discriminate.
Qed.

(** ** Exact arithmetic, four particles *)

Definition oe_perm : list nat := [3; 1; 0; 2].
Lemma oe_perm_ok : is_perm oe_perm 4.
Proof.
  unfold is_perm, oe_perm. cbn [seq]. apply NoDup_Permutation_bis; [repeat constructor; cbn [In]; lia|reflexivity|]. intros x Hx. cbn [In] in *. lia.
Qed.

Definition oe_cols' := map (pick oe_perm 0%R) ex3_cols.

Lemma oe_views : forall m, exists (t u : @tree R) v v' s, reachable Rops (ex3E m (Some 4)) t /\ reachable Rops (ex3E m (Some 4)) u /\
  view_cols true t = Ok v /\ view_cols true u = Ok v' /\ is_perm s (length (t_codes t)) /\ Forall2 (permuted s) v v' /\ s <> [0; 1; 2; 3] /\
  t_box t = t_box u /\ t_mln t = t_mln u /\ t_ncrit t = t_ncrit u /\ length (t_codes t) = 4 /\ room (ex3E m (Some 4)) t /\ t_box t = 1%R.
Proof.
  intros m. set (E := ex3E m (Some 4)). assert (HE : env_ok E) by (apply ex3E_ok; lia).
  assert (T : table E oe_cols' 4) by (split; [reflexivity|]; repeat constructor).
  destruct (ex3_ctor m) as [t Ht].
  assert (CU : exists u, generic_ctor Rops E (ex_sched true) (Some 1%R) (Ranges oe_cols') (Some 1) (Some 2) = Ok u).
  { destruct (ctor_R E (ex_sched true) (Some 1%R) (Ranges oe_cols') (Some 1) (Some 2) 4) as [H _]; auto.
    - apply ex_sched_ok.
    - split; [exact T|exact I].
    - vm_compute. discriminate.
    - vm_compute. reflexivity.
    - discriminate.
    - discriminate.
    - destruct (H 1%R eq_refl ltac:(lra)) as [[_ H1] _]. apply H1.
      intros col x Hc Hx. cbn [e_cfg E ex3E dim given oe_cols' ex3_cols map pick oe_perm nth firstn] in Hc.
      destruct Hc as [<-|[<-|[<-|[]]]]; cbn [In] in Hx; decompose [or] Hx; subst; try lra; contradiction. }
  destruct CU as [u Hu].
  assert (CS : forall r cols w, table E cols 4 -> generic_ctor Rops E (ex_sched r) (Some 1%R) (Ranges cols) (Some 1) (Some 2) = Ok w ->
    reachable Rops E w /\ view_cols true w = Ok cols /\ t_box w = 1%R /\ t_mln w = 1 /\ t_ncrit w = 2 /\ length (t_codes w) = 4).
  { intros r cols w [T1 T2] Hw. split; [exact (ctor_reachable m r _ _ _ _ _ T1 Hw)|].
    destruct (construction Rops E _ _ (Ranges cols) _ _ _ (ex_sched_ok R r) T1 Hw) as (n & Hn & Hc & _ & _ & _ & _ & _ & _ & Hv & _).
    destruct (ctor_params Rops E _ _ _ _ _ _ Hw) as (P1 & P2 & _ & P4).
    assert (n = 4) as -> by (cbn [given] in Hn; destruct cols; [discriminate|]; inversion Hn; inversion T2; congruence).
    split; [apply Hv; vm_compute; discriminate|]. repeat split; auto. }
  destruct (CS _ _ _ (ex3_table m) Ht) as (A1 & A2 & A3 & A4 & A5 & A6). destruct (CS _ _ _ T Hu) as (B1 & B2 & B3 & B4 & B5 & B6).
  exists t, u, ex3_cols, oe_cols', oe_perm. rewrite A6, A3, A4, A5, B3, B4, B5.
  split; [exact A1|]. split; [exact B1|]. split; [exact A2|]. split; [exact B2|]. split; [exact oe_perm_ok|].
  split; [apply (picks_permuted _ _ 4); [exact oe_perm_ok|repeat constructor]|]. split; [discriminate|]. repeat (split; [reflexivity|]). split; [|reflexivity].
  unfold room. rewrite A6. vm_compute. discriminate.
Qed.

(** A call on the first tree that returns. *)
Lemma oe_run : forall m (t : @tree R), reachable Rops (ex3E m (Some 4)) t -> room (ex3E m (Some 4)) t -> length (t_codes t) = 4 ->
  exists o, acc_pot_dispatch Rops Rops (ex3E m (Some 4)) ex3_K (fun l => l) true QBoth t (1 / 2)%R 1%R 0%R [] (repeat (repeat 0%R 4) 4) = Ok o.
Proof.
  intros m t Rt HR A8. set (E := ex3E m (Some 4)) in *. assert (HE : env_ok E) by (apply ex3E_ok; lia).
  assert (Hp : params Rops Rops E t (1 / 2)%R 1%R 0%R [] (match e_mac E with Bh => (1 / ((1 / 2) * (1 / 2)))%R | BhGeom => (1 / (1 / 2))%R end) (0 * 0)%R).
  { apply params_R; [lra|lra|reflexivity|cbn; lia]. }
  destruct (dispatch_ok Rops Rops E ex3_K HE (masked_benign R None 64%N) (fun l => l) true QBoth t _ _ _ _ _ _ (repeat (repeat 0%R 4) 4) (reachable_inv Rops E HE t Rt) HR (fun l => Permutation_refl l) Hp) as (o & Ho & _); [|eauto].
  split; [reflexivity|]. rewrite A8. repeat constructor.
Qed.

Definition od_call := acc_pot_dispatch exO exFD (exE false) (exFK false) (fun l => l) true QAcc (od_tree false) (F32 3 (-2)) (F32 1 0) (F32 0 0) [] (repeat (repeat (F32 0 0) 3) 2).
Lemma od_call_ok : exists o, od_call = Ok o.
Proof.
  assert (G : match od_call with Ok _ => true | _ => false end = true) by (vm_compute; reflexivity).
  destruct od_call as [o|e|]; [now exists o|discriminate|discriminate].
Qed.
