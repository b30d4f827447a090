(** A tree in exact arithmetic for the examples. Nothing here models code. *)
From Coq Require Import List Arith ZArith NArith Reals Bool Lra Lia.
From Verif Require Import Base Config Morton Build TreeSpec BuildProps FOps Disc NodeProps Tree TreeInv TreeProofs TreeSafe TreeProps TreeEx
  NodesR.
Import ListNotations.
Local Open Scope nat_scope.

(** Four particles of the plane, the first two at the same position. *)
Definition exR_cols : list (list R) :=
  [ [1 / 4; 1 / 4; - (1 / 4); 1 / 8]%R; [1 / 8; 1 / 8; - (3 / 8); - (1 / 2)]%R; [1; 2; 3; 4]%R ].

Lemma exR_given : forall b, given_table (exE b) (Ranges exR_cols) 4.
Proof. intros b. split; [|exact I]. split; [reflexivity|]. repeat constructor. Qed.

Lemma exR_ctor : forall b m, exists t, generic_ctor Rops (mkEnv C2_32 m (Some 4) 128 b []) (ex_sched false) (Some 1%R) (Ranges exR_cols) (Some 1) None = Ok t.
Proof.
  intros b m. set (E := mkEnv C2_32 m (Some 4) 128 b []).
  assert (HE : env_ok E) by (split; cbn; [lia|intros bw H; injection H as <-; lia]).
  assert (Hg : given_table E (Ranges exR_cols) 4).
  { split; [|exact I]. split; [reflexivity|]. repeat constructor. }
  destruct (ctor_R E (ex_sched false) (Some 1%R) (Ranges exR_cols) (Some 1) None 4) as [H _]; auto.
  - apply ex_sched_ok.
  - vm_compute. discriminate.
  - vm_compute. reflexivity.
  - discriminate.
  - discriminate.
  - destruct (H 1%R eq_refl ltac:(lra)) as [[_ H1] _]. apply H1.
    intros col x Hc Hx. cbn [e_cfg E dim given exR_cols firstn] in Hc.
    destruct Hc as [<-|[<-|[]]]; cbn [In] in Hx; decompose [or] Hx; subst; try lra; contradiction.
Qed.

Lemma exR_tree : forall b m, exists t, reachable Rops (mkEnv C2_32 m (Some 4) 128 b []) t /\ length (t_codes t) = 4 /\
  t_nodes t <> [] /\ t_box t = 1%R.
Proof.
  intros b m. destruct (exR_ctor b m) as [t Ht]. exists t. set (E := mkEnv C2_32 m (Some 4) 128 b []) in *.
  assert (Hr : reachable Rops E t).
  { exists [OConstruct (ex_sched false) (Some 1%R) (Ranges exR_cols) (Some 1) None], [t].
    split; [constructor; [split; [apply ex_sched_ok|reflexivity]|constructor]|].
    split; [|now left]. unfold run. cbn [foldM step]. rewrite Ht. reflexivity. }
  split; [exact Hr|].
  destruct (construction Rops E _ _ (Ranges exR_cols) _ _ _ (ex_sched_ok R false) eq_refl Ht) as (n & Hn & Hc & _ & _ & _ & _ & _ & _ & _ & Hb).
  assert (Hn4 : n = 4) by (inversion Hn as [|? ? Hl _]; symmetry; exact Hl). rewrite Hn4 in Hc.
  split; [exact Hc|]. split; [|now apply Hb].
  - assert (HE : env_ok E) by (split; cbn; [lia|intros bw H; injection H as <-; lia]).
    pose proof (reachable_inv Rops E HE t Hr) as Hi. intros Hnil.
    assert (R : forall A, reorders (fun l : list A => l)) by (intros A l; apply Permutation.Permutation_refl).
    pose proof (inv_nodes _ _ _ Hi 0 _ _ (R _) (R _)) as HB.
    destruct (built _ _ _ _ _ _ (inv_valid_codes Rops E t Hi) 0 _ _ _ _ (R _) (R _) HB) as [(Hz & _)|(_ & HF & _)].
    + rewrite Hz in Hc. discriminate.
    + rewrite Hnil in HF. inversion HF.
Qed.
