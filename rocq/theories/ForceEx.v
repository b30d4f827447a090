(** Trees for the examples about the force computation. Nothing here models code. *)
From Coq Require Import List Arith ZArith NArith Bool Reals Lra Lia Permutation.
From Flocq Require Import Core BinarySingleNaN.
From Verif Require Import Base Config Morton Build TreeSpec FOps Disc NodeProps Tree TreeInv TreeProofs TreeSafe TreeProps TreeEx Kernels Force
  NodesR TravProofs KernR ForceTop ForceRTop ForceMore.
Import ListNotations.
Local Open Scope nat_scope.

(** Multiplication of IEEE numbers (with one NaN) is commutative. *)
Lemma Bmult_comm : forall prec emax (p : Prec_gt_0 prec) (e : Prec_lt_emax prec emax) md (x y : binary_float prec emax),
  @Bmult prec emax p e md x y = @Bmult prec emax p e md y x.
Proof.
  intros prec emax p e md x y. apply B2SF_inj.
  destruct x as [sx|sx| |sx mx ex Hx], y as [sy|sy| |sy my ey Hy]; cbn [Bmult B2SF]; try reflexivity; try (now rewrite xorb_comm).
  rewrite !B2SF_SF2B. now rewrite xorb_comm, Pos.mul_comm, Z.add_comm.
Qed.

(** * Exact arithmetic: four particles in space, vector code paths with batches of four. *)
Definition ex3E (m : mac) (simd : option nat) : env := mkEnv C3_64 m simd 128 false [].

Lemma ex3E_ok : forall m bw, 0 < bw -> env_ok (ex3E m (Some bw)).
Proof. intros m bw H. split; cbn; [lia|]. intros b E. injection E as <-. exact H. Qed.

Definition ex3_cols : list (list R) :=
  [ [1 / 4; 1 / 4; - (1 / 4); 1 / 8]%R; [1 / 8; - (1 / 8); - (3 / 8); - (1 / 2)]%R; [1 / 8; 1 / 8; - (3 / 8); 1 / 4]%R; [1; 2; 3; 4]%R ].
Definition ex3_P (k : nat) : @prow R := (map (fun col => nth k col 0%R) (firstn 3 ex3_cols), nth k (nth 3 ex3_cols []) 0%R).

Definition ex3_K : platform R := mkPlatform None (masked_shift 64).

Lemma ex3_exact : exact_rsqrt ex3_K.
Proof. exact I. Qed.

Lemma permuted_row : forall p (cols parts : list (list R)) i k d, Forall2 (permuted p) cols parts -> nth_error p i = Some k ->
  row parts i (map (fun col => nth k col d) cols).
Proof.
  intros p cols parts i k d H Hk. unfold row. induction H as [|old new cols parts [_ H1] H IH]; cbn [map]; constructor; [|exact IH].
  destruct (H1 i k Hk) as [-> L]. now apply nth_error_nth'.
Qed.

Lemma ex3_tree : forall m, exists (t : @tree R) P, reachable Rops (ex3E m (Some 4)) t /\ room (ex3E m (Some 4)) t /\
  length (t_codes t) = 4 /\ t_box t = 1%R /\ particles_of t P /\ masses_nonneg t P /\ apart 0 P 4.
Proof.
  intros m. set (E := ex3E m (Some 4)).
  assert (HE : env_ok E) by (apply ex3E_ok; lia).
  assert (Hg : given_table E (Ranges ex3_cols) 4).
  { split; [|exact I]. split; [reflexivity|]. repeat constructor. }
  assert (CT : exists t, generic_ctor Rops E (ex_sched false) (Some 1%R) (Ranges ex3_cols) (Some 1) (Some 2) = Ok t).
  { destruct (ctor_R E (ex_sched false) (Some 1%R) (Ranges ex3_cols) (Some 1) (Some 2) 4) as [H _]; auto.
    - apply ex_sched_ok.
    - vm_compute. discriminate.
    - vm_compute. reflexivity.
    - discriminate.
    - discriminate.
    - destruct (H 1%R eq_refl ltac:(lra)) as [[_ H1] _]. apply H1.
      intros col x Hc Hx. cbn [e_cfg E ex3E dim given ex3_cols firstn] in Hc.
      destruct Hc as [<-|[<-|[<-|[]]]]; cbn [In] in Hx; decompose [or] Hx; subst; try lra; contradiction. }
  destruct CT as [t Ht]. exists t.
  assert (Hr : reachable Rops E t).
  { exists [OConstruct (ex_sched false) (Some 1%R) (Ranges ex3_cols) (Some 1) (Some 2)], [t].
    split; [constructor; [split; [apply ex_sched_ok|reflexivity]|constructor]|].
    split; [|now left]. unfold run. cbn [foldM step]. rewrite Ht. reflexivity. }
  destruct (construction Rops E _ _ (Ranges ex3_cols) _ _ _ (ex_sched_ok R false) eq_refl Ht) as (n & Hn & Hc & Hp & _ & _ & Hparts & _ & _ & _ & Hb).
  assert (Hn4 : n = 4) by (inversion Hn as [|? ? Hl _]; symmetry; exact Hl). rewrite Hn4 in *.
  exists (fun i => ex3_P (nth i (t_perm t) 0)).
  pose proof (Permutation_length Hp) as Lp. rewrite seq_length in Lp.
  assert (Lt : forall i, i < 4 -> nth i (t_perm t) 0 < 4).
  { intros i Hi. assert (In (nth i (t_perm t) 0) (seq 0 4)) by (apply (Permutation_in _ Hp), nth_In; lia). apply in_seq in H. lia. }
  split; [exact Hr|]. split; [unfold room; rewrite Hc; vm_compute; discriminate|]. split; [exact Hc|]. split; [now apply Hb|].
  split; [|split].
  - intros i Hi. rewrite Hc in Hi. specialize (Lt i Hi). assert (Hk : nth_error (t_perm t) i = Some (nth i (t_perm t) 0)) by (apply nth_error_nth'; lia).
    exact (permuted_row (t_perm t) ex3_cols (t_parts t) i _ 0%R Hparts Hk).
  - intros i Hi. rewrite Hc in Hi. specialize (Lt i Hi). destruct (nth i (t_perm t) 0) as [|[|[|[|k]]]]; [| | | |lia]; cbn; lra.
  - intros i k Hi Hk N. right. assert (NK : nth i (t_perm t) 0 <> nth k (t_perm t) 0).
    { intros Z. apply N. assert (ND : NoDup (t_perm t)) by (apply (Permutation_NoDup (Permutation_sym Hp)), seq_NoDup).
      apply (proj1 (List.NoDup_nth (t_perm t) 0) ND); [lia|lia|exact Z]. }
    pose proof (Lt i Hi) as L1. pose proof (Lt k Hk) as L2. revert NK L1 L2. generalize (nth i (t_perm t) 0) (nth k (t_perm t) 0). intros a b.
    destruct a as [|[|[|[|a]]]]; [| | | |lia]; (destruct b as [|[|[|[|b]]]]; [| | | |lia]); intros NK _ _; try lia;
      cbn; intros Z; pose proof (f_equal (fun l => nth 0 l 0%R) Z) as Z1; pose proof (f_equal (fun l => nth 1 l 0%R) Z) as Z2;
      pose proof (f_equal (fun l => nth 2 l 0%R) Z) as Z3; cbn in Z1, Z2, Z3; lra.
Qed.

(** * Single precision *)
Definition exFO : fops (binary_float 24 128) := F32ops true.
Definition exFD : fops (binary_float 53 1024) := F64ops true.
Definition exFK (strict : bool) : platform (binary_float 24 128) := mkPlatform None (if strict then strict_shift else masked_shift 64).

Definition exF_cols : list (list (binary_float 24 128)) :=
  map (map (fun '(m, e) => F32 m e))
  [ [(1, -2); (1, -2); (-3, -3); (1, -4); (-1, -5); (3, -4)];
    [(1, -3); (3, -3); (-1, -3); (1, -5); (-3, -3); (1, -3)];
    [(1, -3); (3, -4); (-1, -2); (1, -5); (1, -4); (-3, -3)];
    [(11184811, -24); (9586981, -23); (14913081, -24); (13421773, -24); (15099495, -24); (12079595, -23)] ]%Z.

Definition exF_op : @op (binary_float 24 128) := OConstruct (ex_sched false) (Some (F32 1 0)) (Ranges exF_cols) (Some 1) (Some 2).
Definition exF_tree (simd : option nat) : @tree (binary_float 24 128) :=
  match run exFO (ex3E Bh simd) [exF_op] [] with Ok (t :: _) => t | _ => default_tree exFO (ex3E Bh simd) end.

Lemma exF_reachable : forall simd, simd = None \/ simd = Some 2 -> reachable exFO (ex3E Bh simd) (exF_tree simd) /\ length (t_codes (exF_tree simd)) = 6 /\
  map (fun x => (c_begin x, c_end x)) (t_crit (exF_tree simd)) = [(0, 1); (1, 2); (2, 3); (3, 4); (4, 5); (5, 6)].
Proof.
  intros simd H. unfold exF_tree.
  assert (G : match run exFO (ex3E Bh simd) [exF_op] [] with Ok [t] => length (t_codes t) = 6 /\
     map (fun x => (c_begin x, c_end x)) (t_crit t) = [(0, 1); (1, 2); (2, 3); (3, 4); (4, 5); (5, 6)] | _ => False end).
  { destruct H as [-> | ->]; vm_compute; auto. }
  destruct (run exFO (ex3E Bh simd) [exF_op] []) as [[|t [|u w]]|e|] eqn:R; try contradiction.
  split; [|exact G]. exists [exF_op], [t]. split; [|split; [exact R|now left]].
  constructor; [split; [apply ex_sched_ok|reflexivity]|constructor].
Qed.

(** Results of the six particles: theta = 3/4. *)
Definition exF_run (simd : option nat) (strict : bool) (ord : list cnode -> list cnode) (ordered : bool) (q : quant) (theta : binary_float 24 128) :=
  acc_pot_dispatch exFO exFD (ex3E Bh simd) (exFK strict) ord ordered q (exF_tree simd) theta (F32 1 0) (F32 0 0) []
    (repeat (repeat (F32 0 0) 6) (nvecs_res (ex3E Bh simd) q)).
Definition exF_show (x : outcome (list (list (binary_float 24 128)))) : outcome (list (list SpecFloat.spec_float)) :=
  do l <- x; Ok (sf l).
