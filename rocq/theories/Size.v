(** Number of nodes, leaves and critical nodes of a tree. *)
From Coq Require Import List Arith NArith Bool Lia Permutation.
From Verif Require Import Base Config Morton Build TreeSpec BuildProps FOps Disc NodeProps Tree TreeInv TreeProofs TreeSafe.
Import ListNotations.
Local Open Scope nat_scope.

Lemma NoDup_flat_map : forall {A B} (f : A -> list B) l, NoDup l -> (forall x, NoDup (f x)) ->
  (forall x y z, In x l -> In y l -> In z (f x) -> In z (f y) -> x = y) -> NoDup (flat_map f l).
Proof.
  intros A B f l H Hf. induction H as [|x l Hx H IH]; intros D; [constructor|]. cbn [flat_map].
  assert (IH' : NoDup (flat_map f l)) by (apply IH; intros y y' z Hy Hy'; apply D; now right).
  assert (S : forall z, In z (f x) -> ~ In z (flat_map f l)).
  { intros z Hz Hz'. apply in_flat_map in Hz' as (y & Hy & Hz'). assert (x = y) by (apply (D x y z); auto; [now left|now right]). now subst. }
  revert S. generalize (Hf x). generalize (f x) as u. intros u Hu. induction Hu as [|z u Hz Hu IHu]; intros S; [exact IH'|]. cbn [List.app]. constructor.
  - intros X. apply in_app_iff in X as [X|X]; [contradiction|]. apply (S z); [now left|exact X].
  - apply IHu. intros y Hy. apply S. now right.
Qed.

Lemma flat_map_ge : forall {A B} (f : A -> list B) s l, (forall x, In x l -> s <= length (f x)) -> s * length l <= length (flat_map f l).
Proof.
  intros A B f s l. induction l as [|x l IH]; intros H; [cbn; lia|]. cbn [flat_map length]. rewrite app_length.
  pose proof (H x (or_introl eq_refl)). assert (s * length l <= length (flat_map f l)) by (apply IH; intros; apply H; now right). lia.
Qed.

Lemma tiles_count : forall l b e, tiles b l e -> b + length l <= e.
Proof. induction l as [|[x y] l IH]; intros b e H; cbn [tiles length] in *; [lia|]. destruct H as (-> & H1 & H2). apply IH in H2. lia. Qed.

Lemma NoDup_map_filter : forall {A B} (f : A -> B) g l, NoDup (map f l) -> NoDup (map f (filter g l)).
Proof.
  intros A B f g l. induction l as [|x l IH]; intros H; [constructor|]. cbn [map filter] in *. inversion H as [|? ? H1 H2]; subst.
  destruct (g x); [|auto]. cbn [map]. constructor; [|auto]. intros X. apply H1. apply in_map_iff in X as (y & <- & Hy). apply filter_In in Hy as [Hy _]. now apply in_map.
Qed.

Lemma pow_split : forall d l p, (p < 2 ^ (d * l))%N -> (0 < d)%N -> N.log2 (2 ^ (d * l) + p) = (d * l)%N.
Proof. intros d l p H Hd. apply N.log2_unique; [lia|]. rewrite N.pow_succ_r by lia. lia. Qed.

Lemma N_le_nat : forall a b : N, (a <= b)%N <-> N.to_nat a <= N.to_nat b.
Proof. intros a b. lia. Qed.

Section Size.

Variable c : cfg.
Variable codes : list N.
Variables mln ncrit : nat.
Context {P : Type}.
Variable cnp : nat -> nat -> N -> N -> outcome P.
Hypothesis Hcodes : valid_codes c codes.
Variables (split : nat) (st : list (list (node P)) -> list (list (node P))) (sc : list (list cnode) -> list (list cnode)) (tree : list (node P)) (crit : list cnode).
Hypothesis Hst : reorders st.
Hypothesis Hsc : reorders sc.
Hypothesis HB : build_tree c codes mln ncrit cnp split st sc = Ok (tree, crit).

Notation n := (length codes).
Notation d := (dimN c).
Notation L nd := (N.to_nat (n_level nd)).

Lemma d_pos : (0 < d)%N.
Proof. destruct c; vm_compute; reflexivity. Qed.

Definition cover (nd : node P) : list (nat * nat) := map (fun i => (L nd, i)) (seq (n_begin nd) (n_end nd - n_begin nd)).

Lemma NoDup_codes : NoDup (map (fun nd => n_code nd) tree).
Proof. exact (proj2 (which_nodes c codes mln ncrit P cnp Hcodes split st sc tree crit Hst Hsc HB)). Qed.

Lemma code_inj : forall a b, In a tree -> In b tree -> n_code a = n_code b -> a = b.
Proof.
  pose proof NoDup_codes as H. revert H. generalize tree as l. induction l as [|x l IH]; intros H a b Ha Hb E; [destruct Ha|].
  cbn [map] in H. inversion H as [|? ? H1 H2]; subst. destruct Ha as [<-|Ha], Hb as [<-|Hb]; auto.
  - exfalso. apply H1. rewrite E. now apply (in_map (fun nd => n_code nd)).
  - exfalso. apply H1. rewrite <- E. now apply (in_map (fun nd => n_code nd)).
Qed.

Notation ranges := (node_ranges c codes mln ncrit P cnp Hcodes split st sc tree crit Hst Hsc HB).

Lemma cover_inj : forall a b z, In a tree -> In b tree -> In z (cover a) -> In z (cover b) -> a = b.
Proof.
  intros a b z Ha Hb Hza Hzb. apply in_map_iff in Hza as (i & <- & Hi). apply in_map_iff in Hzb as (j & X & Hj). injection X as X ->.
  apply in_seq in Hi, Hj. destruct (ranges a Ha) as (p & _ & _ & A1 & A2 & A3). destruct (ranges b Hb) as (p' & _ & _ & B1 & B2 & B3).
  assert (LL : n_level a = n_level b) by lia. destruct (nth_error codes i) as [x|] eqn:Ex; [|apply nth_error_None in Ex; lia].
  apply code_inj; auto. rewrite A1, B1, LL. f_equal. rewrite <- (proj1 (A3 i x Ex) ltac:(lia)), <- (proj1 (B3 i x Ex) ltac:(lia)). now rewrite LL.
Qed.

(** Nodes of [k] levels with at least [s] particles. *)
Lemma count : forall g lo k s, (forall nd, In nd tree -> g nd = true -> lo <= L nd < lo + k /\ s <= n_end nd - n_begin nd) -> s * length (filter g tree) <= k * n.
Proof.
  intros g lo k s H. transitivity (length (flat_map cover (filter g tree))).
  - apply flat_map_ge. intros nd Hnd. apply filter_In in Hnd as [H1 H2]. unfold cover. rewrite map_length, seq_length. now apply H.
  - replace (k * n) with (length (list_prod (seq lo k) (seq 0 n))) by (rewrite prod_length, !seq_length; reflexivity).
    apply NoDup_incl_length.
    + apply NoDup_flat_map.
      * apply NoDup_filter. eapply NoDup_map_inv. exact NoDup_codes.
      * intros x. unfold cover. apply FinFun.Injective_map_NoDup; [intros i j X; congruence|apply seq_NoDup].
      * intros x y z Hx Hy. apply filter_In in Hx as [Hx _], Hy as [Hy _]. now apply cover_inj.
    + intros [l i] X. apply in_flat_map in X as (nd & Hnd & X). apply filter_In in Hnd as [H1 H2]. apply in_map_iff in X as (j & X & Hj). injection X as <- <-.
      apply in_seq in Hj. destruct (ranges nd H1) as (_ & _ & _ & _ & R & _). apply in_prod; apply in_seq; [destruct (H nd H1 H2); lia|lia].
Qed.

Definition top (nd : node P) : bool := (n_level nd =? 0)%N.
Definition inner (nd : node P) : bool := negb (n_children nd =? 0).

Lemma filter_both : forall {A} (g : A -> bool) l, length (filter g l) + length (filter (fun x => negb (g x)) l) = length l.
Proof. intros A g l. induction l as [|x l IH]; [reflexivity|]. cbn [filter]. destruct (g x); cbn [negb length]; lia. Qed.

Lemma one_root : length (filter top tree) <= 1.
Proof.
  rewrite <- (map_length (fun nd => n_code nd)). change 1 with (length [1%N]). apply NoDup_incl_length; [apply NoDup_map_filter, NoDup_codes|].
  intros z Hz. apply in_map_iff in Hz as (nd & <- & Hnd). apply filter_In in Hnd as [H1 H2]. apply N.eqb_eq in H2.
  destruct (ranges nd H1) as (p & _ & A1 & A2 & _). rewrite H2 in A1, A2. rewrite N.mul_0_r, N.pow_0_r in A1, A2. left. lia.
Qed.

Lemma parent : forall nd, In nd tree -> n_level nd <> 0%N -> exists a, In a tree /\ n_children a <> 0 /\ n_code a = (n_code nd / 2 ^ d)%N.
Proof.
  intros nd Hnd Hl. pose proof d_pos as Hd. destruct (ranges nd Hnd) as (p & L1 & A1 & A2 & _).
  destruct (which_nodes c codes mln ncrit P cnp Hcodes split st sc tree crit Hst Hsc HB) as [W _].
  set (l := n_level nd) in *. set (l' := (l - 1)%N). assert (El : l = (l' + 1)%N) by (unfold l'; lia).
  destruct (proj1 (W l p L1 A1) (ex_intro _ nd (conj Hnd A2))) as [_ W2].
  assert (Epow : (2 ^ (d * l) = 2 ^ (d * l') * 2 ^ d)%N) by (rewrite <- N.pow_add_r; f_equal; lia).
  assert (Hp2 : (2 ^ d <> 0)%N) by (apply N.pow_nonzero; lia).
  assert (Anc : forall m, (m <= l')%N -> ancestor c m l' (p / 2 ^ d) = ancestor c m l p).
  { intros m Hm. unfold ancestor. rewrite N.div_div by (apply N.pow_nonzero; discriminate). rewrite <- N.pow_add_r. f_equal. f_equal. replace (l - m)%N with (l' - m + 1)%N by lia. rewrite N.mul_add_distr_l. lia. }
  assert (Pp : (p / 2 ^ d < 2 ^ (d * l'))%N) by (apply N.div_lt_upper_bound; [exact Hp2|]; rewrite N.mul_comm, <- Epow; exact A1).
  assert (X : exists a, In a tree /\ n_code a = (2 ^ (d * l') + p / 2 ^ d)%N).
  { apply (W l' (p / 2 ^ d)%N); [lia|exact Pp|]. split.
    - pose proof (W2 l' ltac:(lia)) as Y. rewrite <- Anc in Y by lia. unfold ancestor in Y. rewrite N.sub_diag, N.mul_0_r, N.pow_0_r, N.div_1_r in Y. lia.
    - intros m Hm. rewrite Anc by lia. apply W2. lia. }
  destruct X as (a & Ha & Ca). exists a. assert (Cd : n_code a = (n_code nd / 2 ^ d)%N).
  { rewrite Ca, A2, Epow. rewrite N.div_add_l by exact Hp2. reflexivity. }
  split; [exact Ha|]. split; [|exact Cd].
  destruct (ranges a Ha) as (pa & _ & B1 & B2 & _).
  assert (La : n_level a = l').
  { assert (X : (d * n_level a = d * l')%N) by (rewrite <- (pow_split d _ pa B1 Hd), <- (pow_split d l' (p / 2 ^ d) Pp Hd); f_equal; congruence). nia. }
  apply In_nth_error in Ha as (i & Hi). apply In_nth_error in Hnd as (j & Hj).
  destruct (depth_first c codes mln ncrit P cnp Hcodes split st sc tree crit Hst Hsc HB i a Hi) as [_ D].
  destruct (D j nd Hj) as [D1 _]. assert (Y : i < j <= i + n_children a); [|lia]. apply D1. fold l. rewrite La. split; [lia|].
  replace (l - l')%N with 1%N by lia. rewrite N.mul_1_r. now symmetry.
Qed.

Lemma children_count : length (filter (fun nd => negb (top nd)) tree) <= 2 ^ dim c * length (filter inner tree).
Proof.
  set (kids := fun a : node P => map (fun k => (n_code a * 2 ^ d + N.of_nat k)%N) (seq 0 (2 ^ dim c))).
  rewrite <- (map_length (fun nd => n_code nd)). transitivity (length (flat_map kids (filter inner tree))).
  - apply NoDup_incl_length; [apply NoDup_map_filter, NoDup_codes|]. intros z Hz. apply in_map_iff in Hz as (nd & <- & Hnd). apply filter_In in Hnd as [H1 H2].
    unfold top in H2. rewrite negb_true_iff, N.eqb_neq in H2. destruct (parent nd H1 H2) as (a & Ha & Hc & E). apply in_flat_map. exists a. split.
    + apply filter_In. split; [exact Ha|]. unfold inner. now rewrite negb_true_iff, Nat.eqb_neq.
    + apply in_map_iff. exists (N.to_nat (n_code nd mod 2 ^ d)). assert (Hp2 : (2 ^ d <> 0)%N) by (apply N.pow_nonzero; lia).
      split; [rewrite E, N2Nat.id, N.mul_comm; symmetry; now apply N.div_mod|]. apply in_seq. split; [lia|].
      pose proof (N.mod_lt (n_code nd) _ Hp2). assert (X : 2 ^ dim c = N.to_nat (2 ^ d)) by (destruct c; reflexivity). lia.
  - generalize (filter inner tree) as l. induction l as [|a l IH]; [cbn; lia|]. cbn [flat_map length]. rewrite app_length. unfold kids at 1. rewrite map_length, seq_length. lia.
Qed.

Lemma size_bounds :
  length (filter (fun nd => n_children nd =? 0) tree) <= n /\ length crit <= n /\
  length tree <= 1 + N.to_nat (cbitsc c) * n /\ (mln + 1) * (length tree - 1) <= 2 ^ dim c * N.to_nat (cbitsc c) * n /\
  (forall nd, In nd tree -> (n_level nd <= cbitsc c)%N).
Proof.
  destruct (leaves_partition c codes mln ncrit P cnp Hcodes split st sc tree crit Hst Hsc HB) as [T1 T2].
  destruct (crit_partition c codes mln ncrit P cnp Hcodes split st sc tree crit Hst Hsc HB) as [C1 _].
  apply tiles_count in T1, C1. rewrite map_length in T1, C1.
  pose proof one_root as R. pose proof (filter_both top tree) as FB.
  assert (N1 : 1 * length (filter (fun nd => negb (top nd)) tree) <= N.to_nat (cbitsc c) * n).
  { apply (count _ 1). intros nd Hnd H. unfold top in H. rewrite negb_true_iff, N.eqb_neq in H. destruct (ranges nd Hnd) as (p & L1 & _ & _ & A & _). lia. }
  assert (N2 : (mln + 1) * length (filter inner tree) <= N.to_nat (cbitsc c) * n).
  { apply (count _ 0). intros nd Hnd H. unfold inner in H. rewrite negb_true_iff, Nat.eqb_neq in H. destruct (ranges nd Hnd) as (p & L1 & _ & _ & A & _).
    assert (X : ~ (n_end nd - n_begin nd <= mln \/ n_level nd = cbitsc c)) by (intros X; now apply H, T2). lia. }
  pose proof children_count as N3. split; [lia|]. split; [lia|]. split; [lia|]. split.
  - transitivity ((mln + 1) * (2 ^ dim c * length (filter inner tree))); [apply Nat.mul_le_mono_l; lia|]. nia.
  - intros nd Hnd. destruct (ranges nd Hnd) as (p & L1 & _). exact L1.
Qed.

End Size.

Lemma tree_size : forall {F} (O : fops F) E t, env_ok E -> reachable O E t ->
  let c := e_cfg E in let n := length (t_codes t) in
  length (filter (fun nd => n_children nd =? 0) (t_nodes t)) <= n /\ length (t_crit t) <= n /\
  length (t_nodes t) <= 1 + N.to_nat (cbitsc c) * n /\ (t_mln t + 1) * (length (t_nodes t) - 1) <= 2 ^ dim c * N.to_nat (cbitsc c) * n /\
  (forall nd, In nd (t_nodes t) -> (n_level nd <= cbitsc c)%N).
Proof.
  intros F O E t HE Hr c n. pose proof (reachable_inv O E HE t Hr) as Ht.
  assert (R : forall A, reorders (fun l : list A => l)) by (intros A l; apply Permutation_refl).
  exact (size_bounds c (t_codes t) (t_mln t) (t_ncrit t) _ (inv_valid_codes O E t Ht) 0 _ _ _ _ (R _) (R _) (inv_nodes _ _ _ Ht 0 _ _ (R _) (R _))).
Qed.
