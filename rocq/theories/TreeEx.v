(** A concrete environment and schedule for the examples about trees. Nothing here models code. *)
From Coq Require Import List Arith ZArith NArith Bool Permutation Lia.
From Flocq Require Import Core BinarySingleNaN.
From Verif Require Import Base Config Morton Build TreeSpec FOps Disc NodeProps Tree TreeInv.
Import ListNotations.
Local Open Scope nat_scope.

(** Insertion sort of the indices by code; an index is put before the equal ones. *)
Fixpoint ins_idx (codes : list N) (i : nat) (l : list nat) : list nat :=
  match l with
  | [] => [i]
  | j :: t => if (nth i codes 0%N <=? nth j codes 0%N)%N then i :: j :: t else j :: ins_idx codes i t
  end.
Definition sort_idx (rev_first : bool) (codes : list N) : list nat :=
  let s := seq 0 (length codes) in
  fold_right (ins_idx codes) [] (if rev_first then rev s else s).

Lemma ins_idx_perm : forall codes i l, Permutation (ins_idx codes i l) (i :: l).
Proof.
  intros codes i l. induction l as [|j t IH]; simpl; [reflexivity|].
  destruct (_ <=? _)%N; [reflexivity|]. rewrite IH. apply perm_swap.
Qed.

Definition srt (codes : list N) (l : list nat) : Prop :=
  forall i j a b, i <= j -> nth_error l i = Some a -> nth_error l j = Some b -> (nth a codes 0 <= nth b codes 0)%N.

Lemma srt_cons : forall codes a l, srt codes (a :: l) <->
  (forall b, In b l -> (nth a codes 0 <= nth b codes 0)%N) /\ srt codes l.
Proof.
  intros codes a l. split.
  - intros H. split.
    + intros b Hb. apply In_nth_error in Hb as [j Hj]. apply (H 0 (S j) a b); [lia|reflexivity|exact Hj].
    + intros i j x y Hij Hi Hj. apply (H (S i) (S j) x y); [lia|exact Hi|exact Hj].
  - intros [H1 H2] [|i] [|j] x y Hij Hi Hj; simpl in *; try lia.
    + injection Hi as ->. injection Hj as ->. lia.
    + injection Hi as ->. apply H1. eapply nth_error_In; eauto.
    + apply (H2 i j x y); [lia|assumption|assumption].
Qed.

Lemma ins_idx_srt : forall codes i l, srt codes l -> srt codes (ins_idx codes i l).
Proof.
  intros codes i l. induction l as [|j t IH]; intros H; simpl.
  - apply srt_cons. split; [intros b []|exact H].
  - destruct (N.leb_spec (nth i codes 0%N) (nth j codes 0%N)).
    + apply srt_cons. split; [|exact H]. apply srt_cons in H as [H1 H2]. intros b [<-|Hb]; [assumption|].
      specialize (H1 b Hb). lia.
    + apply srt_cons in H as [H1 H2]. apply srt_cons. split; [|now apply IH].
      intros b Hb. apply (Permutation_in _ (ins_idx_perm codes i t)) in Hb. destruct Hb as [<-|Hb]; [lia|auto].
Qed.

Lemma sort_idx_ok : forall r codes, Permutation (sort_idx r codes) (seq 0 (length codes)) /\
  sorted_codes (map (fun i => nth i codes 0%N) (sort_idx r codes)).
Proof.
  intros r codes. unfold sort_idx.
  assert (A : forall l, Permutation (fold_right (ins_idx codes) [] l) l /\ srt codes (fold_right (ins_idx codes) [] l)).
  { induction l as [|a l [IH1 IH2]]; simpl; [split; [constructor|intros [|i] ? ? ? ? ?; discriminate]|].
    split; [rewrite ins_idx_perm; now constructor|now apply ins_idx_srt]. }
  destruct (A (if r then rev (seq 0 (length codes)) else seq 0 (length codes))) as [A1 A2]. split.
  - rewrite A1. destruct r; [symmetry; apply Permutation_rev|reflexivity].
  - intros i j x y Hij Hi Hj. rewrite nth_error_map in Hi, Hj.
    destruct (nth_error _ i) as [a|] eqn:Ea in Hi; [|discriminate].
    destruct (nth_error _ j) as [b|] eqn:Eb in Hj; [|discriminate].
    injection Hi as <-. injection Hj as <-. apply (A2 i j a b Hij Ea Eb).
Qed.

Definition ex_sched {F} (r : bool) : @sched F :=
  mkSched (fun n => Join (Feed Start 0 (n / 2)) (Feed Start (n / 2) n)) (sort_idx r) 2 (@rev _) (@rev _) (fun _ => true).

Lemma ex_sched_ok : forall F r, sched_ok (@ex_sched F r).
Proof.
  intros F r. assert (R : forall A, reorders (@rev A)).
  { intros A l. apply Permutation_sym, Permutation_rev. }
  split; [|split; [|split]]; cbn [ex_sched s_red s_sort s_t s_c]; auto.
  - intros n. exists (n / 2). assert (n / 2 <= n) by (apply Nat.div_le_upper_bound; lia).
    cbn [spans]. repeat split; lia.
  - apply sort_idx_ok.
Qed.

(** Two-dimensional trees with 32-bit codes and single-precision coordinates. *)
Definition exE (rocm : bool) : env := mkEnv C2_32 Bh None 128 rocm [].
Definition exO : fops (binary_float 24 128) := F32ops false.
Definition sf (l : list (list (binary_float 24 128))) := map (map (fun x => B2SF x)) l.

Lemma exE_ok : forall b, env_ok (exE b).
Proof. intros b. split; simpl; [lia|discriminate]. Qed.

(** Five particles: x, y and masses. The second and the fifth are at the same position. *)
Definition ex_cols : list (list (binary_float 24 128)) :=
  [ map (fun z => F32 z (-3)) [3; 1; -2; -3; 1]%Z;
    map (fun z => F32 z (-3)) [3; 2; -1; 3; 2]%Z;
    map (fun z => F32 z 0) [1; 2; 3; 4; 5]%Z ].

(** A tree built from them with at most two particles per leaf. *)
Definition ex_ctor : @op (binary_float 24 128) :=
  OConstruct (ex_sched false) (Some (F32 1 0)) (Ranges ex_cols) (Some 2) None.

(** Functors: change the sign of the first coordinate, permute the masses, throw. *)
Definition ex_flip (v : list (list (binary_float 24 128))) : outcome (list (list (binary_float 24 128))) :=
  match v with x :: r => Ok (map (fopp exO) x :: r) | [] => Ok [] end.
Definition ex_masses (v : list (binary_float 24 128)) : outcome (list (binary_float 24 128)) :=
  Ok (map (fadd exO (F32 10 0)) v).
Definition ex_out (v : list (list (binary_float 24 128))) : outcome (list (list (binary_float 24 128))) :=
  match v with x :: r => Ok (map (fun _ => F32 1 1) x :: r) | [] => Ok [] end.

(** Object 0 of the world reached by a program. *)
Definition ex_obj (rocm : bool) (ops : list (@op (binary_float 24 128))) : @tree (binary_float 24 128) :=
  match run exO (exE rocm) ops [] with
  | Ok (t :: _) => t
  | _ => default_tree exO (exE rocm)
  end.
Definition ex_tree : @tree (binary_float 24 128) := ex_obj false [ex_ctor].

Lemma views_stale : exists t : @tree (binary_float 24 128), reachable exO (exE true) t /\ ~ view_fresh (exE true) t.
Proof.
  set (ops := [ex_ctor; OUpdateMasses 0 true ex_masses]).
  assert (G : match run exO (exE true) ops [] with
    | Ok [t] => match t_view t with
                | Some (parts, _, _) => sf parts <> sf (t_parts t)
                | None => False
                end
    | _ => False
    end) by (vm_compute; discriminate).
  destruct (run exO (exE true) ops []) as [[|t [|u w]]|e|] eqn:R; try contradiction.
  exists t. split.
  - exists ops, [t]. split; [|split; [exact R|now left]].
    constructor; [split; [apply ex_sched_ok|reflexivity]|]. constructor; [exact I|constructor].
  - intros H. rewrite H in G. cbn [e_rocm exE] in G. now apply G.
Qed.
