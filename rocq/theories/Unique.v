(** Trees with the same particles in the original order and the same parameters: which of their data agree, whatever their histories. *)
From Coq Require Import List Arith NArith ZArith Lia Bool Permutation.
From Verif Require Import Base Config Morton Build TreeSpec BuildSpec BuildProofs BuildProps FOps Disc NodeProps Tree TreeInv TreeProofs TreeSafe TreeProps.
Import ListNotations.
Local Open Scope nat_scope.

Lemma sorted_unique : forall l1 l2 : list N, sorted_codes l1 -> sorted_codes l2 -> Permutation l1 l2 -> l1 = l2.
Proof.
  assert (T : forall x l, sorted_codes (x :: l) -> sorted_codes l /\ forall y, In y l -> (x <= y)%N).
  { intros x l H. split.
    - intros i j a b Hij Ha Hb. apply (H (S i) (S j) a b); [lia|exact Ha|exact Hb].
    - intros y Hy. apply In_nth_error in Hy as [j Hj]. apply (H 0 (S j) x y); [lia|reflexivity|exact Hj]. }
  induction l1 as [|x l1 IH]; intros l2 S1 S2 HP; [apply Permutation_nil in HP; now subst|].
  destruct l2 as [|y l2]; [apply Permutation_sym, Permutation_nil in HP; discriminate|].
  destruct (T _ _ S1) as [S1' L1]. destruct (T _ _ S2) as [S2' L2].
  assert (x = y).
  { pose proof (Permutation_in x HP (or_introl eq_refl)) as [->|I1]; [reflexivity|].
    pose proof (Permutation_in y (Permutation_sym HP) (or_introl eq_refl)) as [->|I2]; [reflexivity|].
    specialize (L1 _ I2). specialize (L2 _ I1). lia. }
  subst y. f_equal. apply IH; auto. eapply Permutation_cons_inv; eauto.
Qed.

(** The shape of a node: range, size of the subtree, code and level. *)
Definition frame {P} (nd : node P) := (n_begin nd, n_end nd, n_children nd, n_code nd, n_level nd).

(** The nodes are determined by the codes but for their properties. *)
Lemma build_frames : forall c codes mln ncrit P Q cnp1 cnp2 s1 st1 sc1 s2 st2 sc2 tree1 crit1 tree2 crit2, valid_codes c codes ->
  reorders st1 -> reorders sc1 -> reorders st2 -> reorders sc2 ->
  build_tree c codes mln ncrit (P := P) cnp1 s1 st1 sc1 = Ok (tree1, crit1) ->
  build_tree c codes mln ncrit (P := Q) cnp2 s2 st2 sc2 = Ok (tree2, crit2) ->
  map frame tree1 = map frame tree2 /\ crit1 = crit2.
Proof.
  intros c codes mln ncrit P Q cnp1 cnp2 s1 st1 sc1 s2 st2 sc2 tree1 crit1 tree2 crit2 Hv R1 R2 R3 R4 B1 B2. pose proof Hv as [Hs Hr].
  destruct codes as [|x0 t0] eqn:Ec.
  { unfold build_tree in *. simpl in *. injection B1 as <- <-. injection B2 as <- <-. auto. }
  rewrite <- Ec in *. assert (Hne : codes <> []) by congruence. clear x0 t0 Ec.
  pose proof (build_tree_spec c codes mln ncrit P cnp1 s1 Hs Hr st1 sc1 R1 R2 Hne) as C1. rewrite B1 in C1. destruct C1 as (F1 & -> & _).
  pose proof (build_tree_spec c codes mln ncrit Q cnp2 s2 Hs Hr st2 sc2 R3 R4 Hne) as C2. rewrite B2 in C2. destruct C2 as (F2 & -> & _).
  split; [|reflexivity]. clear B1 B2. revert tree2 F2. 
  induction F1 as [|a x la lx Ha HF IH]; intros tb Hb; inversion Hb as [|b ? lb ? Hbx Hb']; subst; [reflexivity|].
  cbn [map]. f_equal; [|now apply IH]. destruct Ha as (A1 & A2 & A3 & A4 & A5 & _). destruct Hbx as (B1 & B2 & B3 & B4 & B5 & _).
  unfold frame. congruence.
Qed.

Lemma permuted_lengths : forall {A} (p : list nat) (l v : list (list A)), Forall2 (permuted p) l v -> Forall (fun col => length col = length p) v.
Proof. intros A p l v H. induction H as [|x y lx ly [Hxy _] _ IH]; constructor; auto. Qed.

Section Same.

Context {F : Type}.
Variable O : fops F.
Variable E : env.
Hypothesis HE : env_ok E.
Notation c := (e_cfg E).
Variables t u : @tree F.
Hypothesis Ht : tree_inv O E t.
Hypothesis Hu : tree_inv O E u.
Variable v : list (list F).
Hypothesis Hvt : view_cols true t = Ok v.
Hypothesis Hvu : view_cols true u = Ok v.
Hypothesis Hbox : t_box t = t_box u.

Notation n := (length (t_codes t)).

(** Where the particle [i] of [t] is in [u]. *)
Definition pos (i : nat) : nat := nth (nth i (t_perm t) 0) (t_inv u) 0.

Lemma view_lengths : Forall (fun col => length col = n) v /\ Forall (fun col => length col = length (t_codes u)) v /\ length v = dim c + 1.
Proof.
  assert (X : forall w, tree_inv O E w -> view_cols true w = Ok v -> Forall (fun col => length col = length (t_codes w)) v /\ length v = dim c + 1).
  { intros w Hw Hv. pose proof (view_cols_ordered O E w v Hw Hv) as Ho. pose proof (is_perm_length _ _ (inv_is_perm O E w Hw)) as L.
    unfold original_order in Ho. split.
    - pose proof (permuted_lengths _ _ _ Ho) as Q. rewrite L in Q. exact Q.
    - rewrite <- (inv_ncols _ _ _ Hw). symmetry. exact (Forall2_len _ _ _ Ho). }
  destruct (X t Ht Hvt) as [A B]. destruct (X u Hu Hvu) as [C _]. auto.
Qed.

Lemma same_count : length (t_codes u) = n.
Proof.
  destruct view_lengths as (A & B & L). destruct v as [|col v']; [cbn in L; lia|].
  pose proof (Forall_inv A). pose proof (Forall_inv B). congruence.
Qed.

Lemma pos_spec : forall i, i < n -> pos i < n /\ nth_error (t_perm u) (pos i) = nth_error (t_perm t) i /\
  nth (pos i) (t_perm u) 0 = nth i (t_perm t) 0.
Proof.
  intros i Hi. destruct (is_perm_at _ _ i (inv_perm _ _ _ Ht) Hi) as (k & Ek & Hk).
  pose proof (inv_is_perm O E u Hu) as Hiu. rewrite same_count in Hiu.
  destruct (is_perm_at _ _ k Hiu Hk) as (p & Ep & Hp).
  assert (X : pos i = p) by (unfold pos; rewrite (nth_error_nth _ _ 0 Ek); exact (nth_error_nth _ _ 0 Ep)). rewrite X.
  pose proof (inverse_sym _ _ _ (inv_perm _ _ _ Hu) (inv_inv _ _ _ Hu)) as [_ I]. pose proof (I k p Ep) as Ek'.
  split; [exact Hp|]. split; [congruence|]. rewrite (nth_error_nth _ _ 0 Ek), (nth_error_nth _ _ 0 Ek'). reflexivity.
Qed.

Lemma pos_inj : forall i j, i < n -> j < n -> pos i = pos j -> i = j.
Proof.
  intros i j Hi Hj H. destruct (pos_spec i Hi) as (_ & A & _). destruct (pos_spec j Hj) as (_ & B & _). rewrite H in A.
  destruct (is_perm_at _ _ i (inv_perm _ _ _ Ht) Hi) as (k & Ek & _).
  apply (is_perm_inj _ _ i j k (inv_perm _ _ _ Ht)); congruence.
Qed.

Lemma pos_perm : Permutation (map pos (seq 0 n)) (seq 0 n).
Proof.
  apply NoDup_Permutation_bis.
  - assert (X : forall l, NoDup l -> (forall i, In i l -> i < n) -> NoDup (map pos l)).
    { induction l as [|a l IH]; intros Hl Hb; cbn [map]; constructor; inversion Hl; subst.
      - intros Hin. apply in_map_iff in Hin as (b & Hb' & Hbl). apply pos_inj in Hb'; [congruence|apply Hb; now right|apply Hb; now left].
      - apply IH; auto. intros i Hi. apply Hb. now right. }
    apply X; [apply seq_NoDup|]. intros i Hi. apply in_seq in Hi. lia.
  - rewrite map_length. lia.
  - intros k Hk. apply in_map_iff in Hk as (i & <- & Hi). apply in_seq in Hi. apply in_seq. destruct (pos_spec i ltac:(lia)). lia.
Qed.

(** A set of positions that is mapped to itself. *)
Lemma pos_stable : forall l, NoDup l -> (forall i, In i l -> i < n /\ In (pos i) l) -> Permutation (map pos l) l.
Proof.
  intros l Hl H. apply NoDup_Permutation_bis.
  - assert (X : forall m, NoDup m -> incl m l -> NoDup (map pos m)).
    { induction m as [|a m IH]; intros Hm Hb; cbn [map]; constructor; inversion Hm; subst.
      - intros Hin. apply in_map_iff in Hin as (b & Hb' & Hbl). apply pos_inj in Hb'; [congruence|apply H, Hb; now right|apply H, Hb; now left].
      - apply IH; auto. intros i Hi. apply Hb. now right. }
    apply X; [exact Hl|apply incl_refl].
  - rewrite map_length. lia.
  - intros k Hk. apply in_map_iff in Hk as (i & <- & Hi). now apply H.
Qed.

(** The particle is the same. *)
Lemma pos_cols : forall j, nth_error (t_parts t) j <> None -> exists ct cu, nth_error (t_parts t) j = Some ct /\ nth_error (t_parts u) j = Some cu /\
  forall i, i < n -> nth_error cu (pos i) = nth_error ct i.
Proof.
  intros j Hj. destruct (nth_error (t_parts t) j) as [ct|] eqn:Ect; [|now elim Hj].
  pose proof (original_permuted O E t v Ht (view_cols_ordered O E t v Ht Hvt)) as Pt.
  pose proof (original_permuted O E u v Hu (view_cols_ordered O E u v Hu Hvu)) as Pu.
  destruct (Forall2_nth_error _ _ _ _ _ Pt Ect) as (vj & Evj & Qt).
  assert (X : exists cu, nth_error (t_parts u) j = Some cu /\ permuted (t_perm u) vj cu).
  { clear - Pu Evj. revert j Evj. induction Pu as [|a b la lb Hab Pu IH]; intros [|j] Hj; cbn in *; try discriminate; [injection Hj as ->; eauto|eauto]. }
  destruct X as (cu & Ecu & Qu). exists ct, cu. do 2 (split; [reflexivity||exact Ecu|]).
  intros i Hi. destruct (pos_spec i Hi) as (_ & A & _). destruct (is_perm_at _ _ i (inv_perm _ _ _ Ht) Hi) as (k & Ek & _).
  rewrite Ek in A. destruct Qt as [_ Qt]. destruct Qu as [_ Qu]. rewrite (proj1 (Qt i k Ek)), (proj1 (Qu (pos i) k A)). reflexivity.
Qed.

Lemma Forall2_nth_eq : forall {A} (l1 l2 : list A) (R : A -> A -> Prop), length l1 = length l2 ->
  (forall j a, nth_error l1 j = Some a -> exists b, nth_error l2 j = Some b /\ R a b) -> Forall2 R l1 l2.
Proof.
  induction l1 as [|a l1 IH]; intros [|b l2] R L H; try discriminate; constructor.
  - destruct (H 0 a eq_refl) as (b' & Hb & HR). injection Hb as ->. exact HR.
  - apply IH; [cbn in L; lia|]. intros j x Hx. exact (H (S j) x Hx).
Qed.

Lemma pos_row : forall i xs, i < n -> row (firstn (dim c) (t_parts t)) i xs -> row (firstn (dim c) (t_parts u)) (pos i) xs.
Proof.
  intros i xs Hi H. pose proof (inv_ncols _ _ _ Ht) as L1. pose proof (inv_ncols _ _ _ Hu) as L2. unfold row in *.
  assert (X : Forall2 (fun ct cu => nth_error cu (pos i) = nth_error ct i) (firstn (dim c) (t_parts t)) (firstn (dim c) (t_parts u))).
  { apply Forall2_nth_eq; [rewrite !firstn_length; congruence|]. intros j ct Hj.
    assert (Lj : j < dim c). { apply nth_error_lt in Hj. rewrite firstn_length in Hj. lia. }
    rewrite nth_error_firstn in Hj. rewrite nth_error_firstn. rewrite (proj2 (Nat.ltb_lt _ _) Lj) in *.
    destruct (pos_cols j ltac:(congruence)) as (ct' & cu & A & B & C). exists cu. split; [exact B|]. replace ct with ct' by congruence. now apply C. }
  revert X H. generalize (firstn (dim c) (t_parts t)) as A, (firstn (dim c) (t_parts u)) as B. intros A B X. revert xs.
  induction X as [|a b la lb Hab X IH]; intros xs H; inversion H; subst; constructor; [congruence|auto].
Qed.

Lemma pos_code : forall i, i < n -> nth_error (t_codes u) (pos i) = nth_error (t_codes t) i.
Proof.
  intros i Hi. destruct (nth_error (t_codes t) i) as [x|] eqn:Ex; [|apply nth_error_None in Ex; lia].
  destruct (pos_spec i Hi) as (Hp & _). destruct (nth_error (t_codes u) (pos i)) as [y|] eqn:Ey; [|apply nth_error_None in Ey; rewrite same_count in Ey; lia].
  destruct (inv_codes _ _ _ Ht i x Ex) as (xs & Hx & Cx). destruct (inv_codes _ _ _ Hu (pos i) y Ey) as (ys & Hy & Cy).
  pose proof (pos_row i xs Hi Hx) as Hx'. pose proof (row_fun _ _ _ _ Hx' Hy) as <-. rewrite Hbox in Cx. congruence.
Qed.

Lemma same_codes : t_codes u = t_codes t.
Proof.
  apply sorted_unique; [apply Hu|apply Ht|]. apply Permutation_sym.
  assert (X : t_codes t = map (fun k => nth k (t_codes u) 0%N) (map pos (seq 0 n))).
  { apply list_ext. intros i. rewrite map_map, nth_error_map. destruct (Nat.lt_ge_cases i n) as [L|L].
    - rewrite nth_error_nth' with (d := 0) by (now rewrite seq_length). rewrite seq_nth by exact L. cbn [option_map plus].
      rewrite <- (pos_code i L). apply nth_error_nth'. rewrite same_count. now apply pos_spec.
    - rewrite (proj2 (nth_error_None _ i)) by lia. rewrite (proj2 (nth_error_None _ i)) by (rewrite seq_length; lia). reflexivity. }
  rewrite X at 1. etransitivity; [apply Permutation_map, pos_perm|]. rewrite <- same_count. clear.
  assert (Y : map (fun k => nth k (t_codes u) 0%N) (seq 0 (length (t_codes u))) = t_codes u).
  { apply list_ext. intros i. rewrite nth_error_map. destruct (Nat.lt_ge_cases i (length (t_codes u))) as [L|L].
    - rewrite nth_error_nth' with (d := 0) by (now rewrite seq_length). rewrite seq_nth by exact L. cbn [option_map plus]. symmetry. now apply nth_error_nth'.
    - rewrite (proj2 (nth_error_None _ i)) by (rewrite seq_length; lia). symmetry. cbn. now apply nth_error_None. }
  rewrite Y. reflexivity.
Qed.

(** A node contains the same particles. *)
Lemma pos_node : forall a i, In a (t_nodes t) -> n_begin a <= i < n_end a -> i < n /\ n_begin a <= pos i < n_end a.
Proof.
  intros a i Ha Hi.
  assert (R : forall A, reorders (fun l : list A => l)) by (intros A l; apply Permutation_refl).
  pose proof (inv_nodes _ _ _ Ht 0 _ _ (R _) (R _)) as HB.
  destruct (node_ranges c (t_codes t) (t_mln t) (t_ncrit t) _ _ (inv_valid_codes O E t Ht) 0 _ _ _ _ (R _) (R _) HB a Ha)
    as (p & H1 & H2 & H3 & H4 & H5).
  assert (Hn : i < n) by lia. split; [exact Hn|]. destruct (pos_spec i Hn) as [Hp _].
  destruct (nth_error (t_codes t) i) as [x|] eqn:Ex; [|apply nth_error_None in Ex; lia].
  pose proof (pos_code i Hn) as Ec. rewrite same_codes, Ex in Ec. apply (H5 (pos i) x Ec). now apply (H5 i x Ex).
Qed.

Hypothesis Hmln : t_mln t = t_mln u.
Hypothesis Hncrit : t_ncrit t = t_ncrit u.

Lemma same_frames : map frame (t_nodes t) = map frame (t_nodes u) /\ t_crit t = t_crit u.
Proof.
  assert (R : forall A, reorders (fun l : list A => l)) by (intros A l; apply Permutation_refl).
  pose proof (inv_nodes _ _ _ Ht 0 _ _ (R _) (R _)) as B1. pose proof (inv_nodes _ _ _ Hu 0 _ _ (R _) (R _)) as B2.
  rewrite same_codes, <- Hmln, <- Hncrit in B2.
  exact (build_frames c (t_codes t) (t_mln t) (t_ncrit t) _ _ _ _ _ _ _ _ _ _ _ _ _ _ (inv_valid_codes O E t Ht) (R _) (R _) (R _) (R _) B1 B2).
Qed.

End Same.
