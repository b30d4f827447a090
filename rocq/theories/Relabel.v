(** Giving the particles in another order changes the order of the results and nothing else. *)
From Coq Require Import List Arith NArith ZArith Lia Bool Reals Lra Permutation Sorted.
From Verif Require Import Base Config Morton Build TreeSpec FOps FOpsProofs Disc NodeProps Tree TreeInv TreeProofs TreeSafe TreeProps Kernels Force
  TravProofs KernLoops KernR ForceGen ForceOut ForceR ForceTop ForceRTop Coll CollLast Unique UniqueR Rebuild UniqueColl.
Import ListNotations.
Local Open Scope nat_scope.

Definition comp_perm (p q : list nat) : list nat := map (fun i => nth i q 0) p.

Lemma comp_perm_at : forall p q n i k, is_perm q n -> nth_error p i = Some k -> k < n -> nth_error (comp_perm p q) i = nth_error q k.
Proof.
  intros p q n i k Hq Hi Hk. unfold comp_perm. rewrite nth_error_map, Hi. cbn [option_map].
  destruct (is_perm_at q n k Hq Hk) as (x & Ex & _). rewrite Ex. f_equal. exact (nth_error_nth _ _ 0 Ex).
Qed.

Lemma comp_perm_ok : forall p q n, is_perm p n -> is_perm q n -> is_perm (comp_perm p q) n.
Proof.
  intros p q n Hp Hq. unfold is_perm, comp_perm. rewrite (Permutation_map _ Hp).
  assert (X : map (fun i => nth i q 0) (seq 0 n) = q).
  { rewrite <- (is_perm_length q n Hq). apply list_ext. intros k. rewrite nth_error_map. destruct (Nat.lt_ge_cases k (length q)) as [L|L].
    - rewrite (nth_error_nth' (seq 0 (length q)) 0) by (rewrite seq_length; lia). rewrite seq_nth by lia. cbn [option_map plus]. symmetry. now apply nth_error_nth'.
    - rewrite (proj2 (nth_error_None _ _)) by (rewrite seq_length; lia). symmetry. now apply nth_error_None. }
  now rewrite X.
Qed.

Lemma comp_perm_inverse : forall p p' q q' n, is_perm p n -> is_perm q n -> inverse p p' -> inverse q q' -> inverse (comp_perm p q) (comp_perm q' p').
Proof.
  intros p p' q q' n Hp Hq Ip Iq. pose proof (inverse_is_perm _ _ _ Hp Ip) as Hp'. pose proof (inverse_is_perm _ _ _ Hq Iq) as Hq'. split.
  - unfold comp_perm. rewrite !map_length, (is_perm_length _ _ Hp), (is_perm_length _ _ Hq'). reflexivity.
  - intros i k Hik. assert (Hi : i < n). { pose proof (nth_error_lt _ _ _ Hik) as L. unfold comp_perm in L. rewrite map_length, (is_perm_length _ _ Hp) in L. exact L. }
    destruct (is_perm_at p n i Hp Hi) as (j & Ej & Hj). rewrite (comp_perm_at p q n i j Hq Ej Hj) in Hik.
    pose proof (proj2 Iq j k Hik) as Ekj. rewrite (comp_perm_at q' p' n k j Hp' Ekj Hj). exact (proj2 Ip i j Ej).
Qed.

Lemma permuted_unique : forall {A} (p : list nat) (x y z : list A), permuted p x y -> permuted p x z -> y = z.
Proof.
  intros A p x y z [L1 H1] [L2 H2]. apply list_ext. intros i. destruct (nth_error p i) as [k|] eqn:Ek.
  - rewrite (proj1 (H1 i k Ek)), (proj1 (H2 i k Ek)). reflexivity.
  - apply nth_error_None in Ek. rewrite (proj2 (nth_error_None y i)), (proj2 (nth_error_None z i)) by lia. reflexivity.
Qed.

Lemma permuted_comp : forall {A} (p q : list nat) n (x y z : list A), is_perm p n -> is_perm q n -> permuted q x y -> permuted p y z -> permuted (comp_perm p q) x z.
Proof.
  intros A p q n x y z Hp Hq [L1 H1] [L2 H2]. split; [unfold comp_perm; now rewrite map_length|]. intros i k Hik.
  assert (Hi : i < n). { pose proof (nth_error_lt _ _ _ Hik) as L. unfold comp_perm in L. rewrite map_length, (is_perm_length _ _ Hp) in L. exact L. }
  destruct (is_perm_at p n i Hp Hi) as (j & Ej & Hj). rewrite (comp_perm_at p q n i j Hq Ej Hj) in Hik.
  destruct (H2 i j Ej) as [A1 _]. destruct (H1 j k Hik) as [A2 A3]. split; [congruence|exact A3].
Qed.

Section Relabel.

Context {F : Type}.
Variable O : fops F.
Variable E : env.
Notation c := (e_cfg E).
Variable t : @tree F.
Hypothesis Ht : tree_inv O E t.
Notation n := (length (t_codes t)).
(** Particle [i] of the new order is particle [s_i] of the old one; [r] is the inverse. *)
Variables s r : list nat.
Hypothesis Hs : is_perm s n.
Hypothesis Hr : inverse s r.

(** The same tree with the labels in the other order. *)
Definition rl_tree : @tree F :=
  mkTree (t_box t) (t_ded t) (t_mln t) (t_ncrit t) (t_parts t) (t_codes t) (comp_perm (t_perm t) r) (t_last t) (comp_perm s (t_inv t)) (t_nodes t) (t_crit t) (t_view t).

Lemma relabel_inv : tree_inv O E rl_tree.
Proof.
  pose proof (inverse_is_perm _ _ _ Hs Hr) as Hr'.
  constructor; cbn [rl_tree t_parts t_codes t_perm t_last t_inv t_nodes t_crit t_mln t_ncrit t_box t_ded]; try apply Ht.
  - apply comp_perm_ok; [apply Ht|exact Hr'].
  - apply comp_perm_inverse with (n := n); [apply Ht|exact Hr'|apply Ht|]. exact (inverse_sym _ _ _ Hs Hr).
Qed.

Lemma relabel_view : forall v v', view_cols true t = Ok v -> Forall2 (permuted s) v v' -> view_cols true rl_tree = Ok v'.
Proof.
  intros v v' Hv HF. pose proof (view_cols_ordered O E t v Ht Hv) as Ho. unfold original_order in Ho.
  unfold view_cols in *. apply bind_Ok in Hv as ([] & Hd & _). change (nparts rl_tree) with (nparts t). rewrite Hd. cbn [bind].
  pose proof (inv_is_perm O E rl_tree relabel_inv) as Hi.
  destruct (mapM_gather _ _ _ Hi (inv_cols _ _ _ relabel_inv)) as (w & E1 & P1). rewrite E1. f_equal.
  cbn [rl_tree t_parts t_inv] in P1. clear E1 Hd. revert w v' HF P1. induction Ho as [|x y lx ly Hxy Ho IH]; intros w v' HF P1; inversion P1 as [|? b ? w' Q1 Q2]; subst; inversion HF as [|? z ? v2 R1 R2]; subst; [reflexivity|].
  f_equal; [|exact (IH _ _ R2 Q2)].
  apply (permuted_unique _ _ _ _ Q1). apply (permuted_comp s (t_inv t) n x y z Hs (inv_is_perm O E t Ht) Hxy R1).
Qed.

Lemma relabel_dst : forall i, i < n -> dst true rl_tree i < n /\ nth (dst true rl_tree i) s 0 = dst true t i.
Proof.
  intros i Hi. unfold dst. cbn [rl_tree t_perm]. destruct (is_perm_at _ _ i (inv_perm _ _ _ Ht) Hi) as (k & Ek & Hk).
  pose proof (inverse_is_perm _ _ _ Hs Hr) as Hr'. pose proof (comp_perm_at (t_perm t) r n i k Hr' Ek Hk) as Z.
  destruct (is_perm_at r n k Hr' Hk) as (x & Ex & Hx). rewrite Ex in Z. rewrite (nth_error_nth _ _ 0 Z), (nth_error_nth _ _ 0 Ek). split; [exact Hx|].
  apply nth_error_nth. exact (proj2 (inverse_sym _ _ _ Hs Hr) k x Ex).
Qed.

End Relabel.

(** * Particles in different cells: the order in the tree is unique *)

Section Distinct.

Context {F : Type}.
Variable O : fops F.
Variable E : env.
Notation c := (e_cfg E).
Variables t u : @tree F.
Hypothesis Ht : tree_inv O E t.
Hypothesis Hu : tree_inv O E u.
Variable v : list (list F).
Hypothesis Hvt : view_cols true t = Ok v.
Hypothesis Hvu : view_cols true u = Ok v.
Hypothesis Hbox : t_box t = t_box u.
Hypothesis Hmln : t_mln t = t_mln u.
Hypothesis Hncrit : t_ncrit t = t_ncrit u.
Hypothesis Hdist : NoDup (t_codes t).
Notation n := (length (t_codes t)).

Lemma pos_id : forall i, i < n -> pos t u i = i.
Proof.
  intros i Hi. pose proof (pos_code O E t u Ht Hu v Hvt Hvu Hbox i Hi) as P. rewrite (same_codes O E t u Ht Hu v Hvt Hvu Hbox) in P.
  apply (proj1 (NoDup_nth_error (t_codes t)) Hdist); [|exact P]. exact (proj1 (pos_spec O E t u Ht Hu v Hvt Hvu i Hi)).
Qed.

Lemma distinct_perm : t_perm u = t_perm t /\ t_inv u = t_inv t.
Proof.
  assert (P : t_perm u = t_perm t).
  { apply list_ext. intros i. destruct (Nat.lt_ge_cases i n) as [L|L].
    - destruct (pos_spec O E t u Ht Hu v Hvt Hvu i L) as (_ & A & _). rewrite (pos_id i L) in A. exact A.
    - pose proof (is_perm_length _ _ (inv_perm _ _ _ Ht)) as L1. pose proof (is_perm_length _ _ (inv_perm _ _ _ Hu)) as L2.
      rewrite (same_codes O E t u Ht Hu v Hvt Hvu Hbox) in L2. rewrite (proj2 (nth_error_None (t_perm u) i)), (proj2 (nth_error_None (t_perm t) i)) by lia. reflexivity. }
  split; [exact P|]. pose proof (inv_inv _ _ _ Ht) as [L1 I1]. pose proof (inv_inv _ _ _ Hu) as [L2 I2]. rewrite P in L2, I2.
  apply list_ext. intros k. destruct (Nat.lt_ge_cases k n) as [L|L].
  - apply (is_perm_In _ _ (inv_perm _ _ _ Ht)) in L. apply In_nth_error in L as [i Hi]. rewrite (I1 i k Hi), (I2 i k Hi). reflexivity.
  - pose proof (is_perm_length _ _ (inv_perm _ _ _ Ht)) as L3. rewrite (proj2 (nth_error_None (t_inv u) k)), (proj2 (nth_error_None (t_inv t) k)) by lia. reflexivity.
Qed.

Lemma distinct_parts : t_parts u = t_parts t.
Proof.
  destruct (inv_table O E t Ht) as [T1 T2]. destruct (inv_table O E u Hu) as [U1 U2]. rewrite (same_codes O E t u Ht Hu v Hvt Hvu Hbox) in U2.
  apply nth_ext with (d := []) (d' := []); [lia|]. intros j Hj.
  destruct (pos_cols O E t u Ht Hu v Hvt Hvu j) as (ct & cu & A & B & C); [apply nth_error_Some; lia|].
  rewrite (nth_error_nth _ _ [] A), (nth_error_nth _ _ [] B). apply list_ext. intros i. destruct (Nat.lt_ge_cases i n) as [L|L].
  - specialize (C i L). rewrite (pos_id i L) in C. exact C.
  - rewrite Forall_forall in T2, U2. pose proof (T2 ct (nth_error_In _ _ A)). pose proof (U2 cu (nth_error_In _ _ B)).
    rewrite (proj2 (nth_error_None cu i)), (proj2 (nth_error_None ct i)) by lia. reflexivity.
Qed.

Lemma distinct_nodes : t_nodes u = t_nodes t /\ t_crit u = t_crit t.
Proof.
  assert (R : forall A, reorders (fun l : list A => l)) by (intros A l; apply Permutation_refl).
  pose proof (inv_nodes _ _ _ Ht 0 _ _ (R _) (R _)) as N1. pose proof (inv_nodes _ _ _ Hu 0 _ _ (R _) (R _)) as N2.
  rewrite (same_codes O E t u Ht Hu v Hvt Hvu Hbox), distinct_parts, <- Hbox, <- Hmln, <- Hncrit in N2. rewrite N1 in N2. injection N2 as -> ->. auto.
Qed.

End Distinct.

(** The results are functions of these fields. *)
Lemma dispatch_fields : forall {F D} (O : fops F) (OD : fops D) E K ord ordered q (w u : @tree F) theta G eps split out,
  t_box w = t_box u -> t_parts u = t_parts w -> t_codes u = t_codes w -> t_perm u = t_perm w -> t_nodes u = t_nodes w -> t_crit u = t_crit w ->
  acc_pot_dispatch O OD E K ord ordered q u theta G eps split out = acc_pot_dispatch O OD E K ord ordered q w theta G eps split out.
Proof.
  intros F D O OD E K ord ordered q w u theta G eps split out H1 H2 H3 H4 H5 H6. destruct w as [w1 w2 w3 w4 w5 w6 w7 w8 w9 w10 w11 w12], u as [u1 u2 u3 u4 u5 u6 u7 u8 u9 u10 u11 u12].
  cbn [t_box t_ded t_mln t_ncrit t_parts t_codes t_perm t_last t_inv t_nodes t_crit t_view] in *. subst. reflexivity.
Qed.

(** * Trees of the same particles in different orders *)

Section Orders.

Context {F : Type}.
Variable O : fops F.
Variable E : env.
Notation c := (e_cfg E).
Variables t u : @tree F.
Hypothesis Ht : tree_inv O E t.
Hypothesis Hu : tree_inv O E u.
Variables v v' : list (list F).
Variable s : list nat.
Hypothesis Hs : is_perm s (length (t_codes t)).
Hypothesis Hvt : view_cols true t = Ok v.
Hypothesis Hvu : view_cols true u = Ok v'.
Hypothesis Hsv : Forall2 (permuted s) v v'.
Hypothesis Hbox : t_box t = t_box u.
Hypothesis Hmln : t_mln t = t_mln u.
Hypothesis Hncrit : t_ncrit t = t_ncrit u.
Notation n := (length (t_codes t)).

Lemma relabelled : exists r, inverse s r /\ tree_inv O E (rl_tree t s r) /\ view_cols true (rl_tree t s r) = Ok v'.
Proof.
  destruct (perm_to_inv_perm_ok s (repeat 0 n) n Hs (repeat_length _ _)) as (r & _ & Hr). exists r. split; [exact Hr|].
  split; [exact (relabel_inv O E t Ht s r Hs Hr)|exact (relabel_view O E t Ht s r Hs Hr v v' Hvt Hsv)].
Qed.

Lemma orders_structure : t_codes u = t_codes t /\ map frame (t_nodes u) = map frame (t_nodes t) /\ t_crit u = t_crit t.
Proof.
  destruct relabelled as (r & Hr & I & V).
  split; [exact (same_codes O E (rl_tree t s r) u I Hu v' V Hvu Hbox)|].
  destruct (same_frames O E (rl_tree t s r) u I Hu v' V Hvu Hbox Hmln Hncrit) as [A B]. split; symmetry; assumption.
Qed.

(** Particles in different cells, any arithmetic. *)
Lemma orders_distinct : NoDup (t_codes t) ->
  t_parts u = t_parts t /\ t_nodes u = t_nodes t /\ t_crit u = t_crit t /\
  forall i, i < n -> nth_error (t_perm t) i = Some (nth (nth i (t_perm u) 0) s 0).
Proof.
  intros Hd. destruct relabelled as (r & Hr & I & V).
  split; [exact (distinct_parts O E (rl_tree t s r) u I Hu v' V Hvu Hbox Hmln Hncrit Hd)|].
  destruct (distinct_nodes O E (rl_tree t s r) u I Hu v' V Hvu Hbox Hmln Hncrit Hd) as [A B]. split; [exact A|]. split; [exact B|].
  intros i Hi. destruct (distinct_perm O E (rl_tree t s r) u I Hu v' V Hvu Hbox Hmln Hncrit Hd) as [P _]. rewrite P.
  destruct (relabel_dst O E t Ht s r Hs Hr i Hi) as [_ Z]. unfold dst in Z. rewrite Z. apply nth_error_nth'. rewrite (is_perm_length _ _ (inv_perm _ _ _ Ht)). exact Hi.
Qed.

Context {D : Type}.
Variable OD : fops D.
Variable K : platform F.
Hypothesis HE : env_ok E.
Hypothesis HK : benign_shift K.

(** The results of the relabelled tree. *)
Lemma relabel_forces : forall r ord q theta G eps split out o, inverse s r -> room E t -> reorders ord -> out_ok n (nvecs_res E q) out ->
  acc_pot_dispatch O OD E K ord true q t theta G eps split out = Ok o ->
  exists o', acc_pot_dispatch O OD E K ord true q (rl_tree t s r) theta G eps split out = Ok o' /\
    forall j k, j < nvecs_res E q -> k < n -> nth_error (nth j o' []) k = nth_error (nth j o []) (nth k s 0).
Proof.
  intros r ord q theta G eps split out o Hr Hroom Ho Hout Hrun.
  pose proof (relabel_inv O E t Ht s r Hs Hr) as I. set (w := rl_tree t s r) in *.
  destruct (params_dec O OD E t theta G eps split) as [(mv & eps2 & Hp)|Hn].
  - assert (Hp' : params O OD E w theta G eps split mv eps2) by exact Hp.
    destruct (dispatch_ok O OD E K HE HK ord true q t theta G eps split mv eps2 out Ht Hroom Ho Hp Hout) as (o1 & R1 & _ & V1 & _ & _).
    destruct (dispatch_ok O OD E K HE HK ord true q w theta G eps split mv eps2 out I Hroom Ho Hp' Hout) as (o2 & R2 & _ & V2 & _ & _).
    assert (o1 = o) as -> by congruence. exists o2. split; [exact R2|]. intros j k Hj Hk.
    destruct (dst_onto O E true w I k Hk) as (i & Hi & ->). change (i < n) in Hi. rewrite (V2 j i Hj Hi).
    pose proof (proj2 (relabel_dst O E t Ht s r Hs Hr i Hi)) as Z. fold w in Z. rewrite Z. symmetry. exact (V1 j i Hj Hi).
  - exfalso. destruct (dispatch_not_params O OD E K t theta G eps split Ht Hroom Hn) as (e & _ & H). rewrite H in Hrun. discriminate.
Qed.

Lemma orders_distinct_forces : forall ord ord' q theta G eps split out o, NoDup (t_codes t) -> room E t -> reorders ord -> reorders ord' -> out_ok n (nvecs_res E q) out ->
  acc_pot_dispatch O OD E K ord true q t theta G eps split out = Ok o ->
  exists o', acc_pot_dispatch O OD E K ord' true q u theta G eps split out = Ok o' /\
    forall j k, j < nvecs_res E q -> k < n -> nth_error (nth j o' []) k = nth_error (nth j o []) (nth k s 0).
Proof.
  intros ord ord' q theta G eps split out o Hd Hroom Ho Ho' Hout Hrun. destruct relabelled as (r & Hr & I & V).
  assert (Hrun' : exists o1, acc_pot_dispatch O OD E K ord' true q t theta G eps split out = Ok o1 /\ forall j k, j < nvecs_res E q -> k < n -> nth_error (nth j o1 []) k = nth_error (nth j o []) k).
  { destruct (params_dec O OD E t theta G eps split) as [(mv & eps2 & Hp)|Hn].
    - destruct (dispatch_ok O OD E K HE HK ord true q t theta G eps split mv eps2 out Ht Hroom Ho Hp Hout) as (o1 & R1 & _ & V1 & _ & _).
      destruct (dispatch_ok O OD E K HE HK ord' true q t theta G eps split mv eps2 out Ht Hroom Ho' Hp Hout) as (o2 & R2 & _ & V2 & _ & _).
      assert (o1 = o) as -> by congruence. exists o2. split; [exact R2|]. intros j k Hj Hk. destruct (dst_onto O E true t Ht k Hk) as (i & Hi & ->). rewrite (V1 j i Hj Hi), (V2 j i Hj Hi). reflexivity.
    - exfalso. destruct (dispatch_not_params O OD E K t theta G eps split Ht Hroom Hn) as (e & _ & H). rewrite H in Hrun. discriminate. }
  destruct Hrun' as (o1 & Hrun' & W). destruct (relabel_forces r ord' q theta G eps split out o1 Hr Hroom Ho' Hout Hrun') as (o' & R & Z). exists o'. split.
  - rewrite <- R. destruct (distinct_perm O E (rl_tree t s r) u I Hu v' V Hvu Hbox Hmln Hncrit Hd) as [P Q].
    pose proof (distinct_parts O E (rl_tree t s r) u I Hu v' V Hvu Hbox Hmln Hncrit Hd) as A. destruct (distinct_nodes O E (rl_tree t s r) u I Hu v' V Hvu Hbox Hmln Hncrit Hd) as [B C].
    pose proof (same_codes O E (rl_tree t s r) u I Hu v' V Hvu Hbox) as S. now apply dispatch_fields.
  - intros j k Hj Hk. rewrite (Z j k Hj Hk). apply W; [exact Hj|]. destruct (is_perm_at s n k Hs Hk) as (x & Ex & Hx). rewrite (nth_error_nth _ _ 0 Ex). exact Hx.
Qed.

End Orders.

Section Exact.

Variable E : env.
Hypothesis HE : env_ok E.
Notation c := (e_cfg E).
Variables t u : @tree R.
Variables v v' : list (list R).
Variable s : list nat.
Hypothesis Hs : is_perm s (length (t_codes t)).
Hypothesis Hvt : view_cols true t = Ok v.
Hypothesis Hvu : view_cols true u = Ok v'.
Hypothesis Hsv : Forall2 (permuted s) v v'.
Hypothesis Hbox : t_box t = t_box u.
Hypothesis Hmln : t_mln t = t_mln u.
Hypothesis Hncrit : t_ncrit t = t_ncrit u.
Notation n := (length (t_codes t)).

Lemma orders_nodes : tree_inv Rops E t -> tree_inv Rops E u -> t_nodes u = t_nodes t /\ t_crit u = t_crit t.
Proof.
  intros Ht Hu. destruct (relabelled Rops E t Ht v v' s Hs Hvt Hsv) as (r & Hr & I & V).
  destruct (same_nodes E HE (rl_tree t s r) u I Hu v' V Hvu Hbox Hmln Hncrit) as [A B]. split; symmetry; assumption.
Qed.

Lemma orders_forces : forall {D} (OD : fops D) (K : platform R) ord ord' q theta G eps split out o, benign_shift K -> exact_rsqrt K ->
  tree_inv Rops E t -> tree_inv Rops E u -> room E t -> reorders ord -> reorders ord' -> out_ok n (nvecs_res E q) out ->
  acc_pot_dispatch Rops OD E K ord true q t theta G eps split out = Ok o ->
  exists o', acc_pot_dispatch Rops OD E K ord' true q u theta G eps split out = Ok o' /\
    forall j k, j < nvecs_res E q -> k < n -> nth_error (nth j o' []) k = nth_error (nth j o []) (nth k s 0).
Proof.
  intros D OD K ord ord' q theta G eps split out o HK HX Ht Hu Hroom Ho Ho' Hout Hrun.
  destruct (relabelled Rops E t Ht v v' s Hs Hvt Hsv) as (r & Hr & I & V).
  destruct (relabel_forces Rops E t Ht s Hs OD K HE HK r ord q theta G eps split out o Hr Hroom Ho Hout Hrun) as (o' & R & Z).
  exists o'. split; [|exact Z]. rewrite <- R. symmetry.
  exact (same_forces OD E K HE HK HX (rl_tree t s r) u I Hu v' V Hvu Hbox Hmln Hncrit ord ord' q theta G eps split out Hroom Ho Ho' Hout).
Qed.

(** The collision graphs. *)
Lemma orders_graphs : forall (K : platform R) sizes sizes' sch1 sch2 old sch1' sch2' old', reachable Rops E t -> reachable Rops E u -> (0 < t_box t)%R -> full_shift E K t ->
  reorders sch1 -> reorders sch2 -> reorders sch1' -> reorders sch2' -> length sizes = n -> permuted s sizes sizes' ->
  (N.of_nat n * cbitsc c < diff_max)%N -> (forall x, In x sizes -> (0 <= x)%R) ->
  exists g g', compute_cgraph Rops E K true t sizes sch1 sch2 old = Ok g /\ compute_cgraph Rops E K true u sizes' sch1' sch2' old' = Ok g' /\
    length g = n /\ length g' = n /\
    forall i j row row', nth_error g' i = Some row' -> nth_error g (nth i s 0) = Some row -> j < n -> (In j row' <-> In (nth j s 0) row).
Proof.
  intros K sizes sizes' sch1 sch2 old sch1' sch2' old' Rt Ru Hb HK R1 R2 R1' R2' Hlen Hps Hn Hpos.
  pose proof (reachable_inv Rops E HE t Rt) as Ht. pose proof (reachable_inv Rops E HE u Ru) as Hu.
  destruct (orders_nodes Ht Hu) as [HN HC].
  assert (HK' : full_shift E K u) by (unfold full_shift in *; now rewrite HN).
  destruct (relabelled Rops E t Ht v v' s Hs Hvt Hsv) as (r & Hr & I & V). set (w := rl_tree t s r) in *.
  pose proof (same_codes Rops E w u I Hu v' V Hvu Hbox) as HCo. change (t_codes w) with (t_codes t) in HCo.
  pose proof (is_perm_length _ _ Hs) as Ls.
  assert (Hlen' : length (t_codes u) <= length sizes') by (rewrite HCo, (proj1 Hps); lia).
  assert (Hpos' : forall x, In x sizes' -> (0 <= x)%R).
  { intros x Hx. apply In_nth_error in Hx as [i Hi]. destruct (nth_error s i) as [k|] eqn:Ek.
    - destruct (proj2 Hps i k Ek) as [Z _]. apply Hpos. apply (nth_error_In sizes k). congruence.
    - apply nth_error_None in Ek. pose proof (nth_error_lt _ _ _ Hi) as L. rewrite (proj1 Hps) in L. lia. }
  destruct (exact_edges E K t true sizes sch1 sch2 old HE Rt Hb HK R1 R2 ltac:(lia) Hn Hpos) as (g & Hg & Lg & G).
  destruct (exact_edges E K u true sizes' sch1' sch2' old' HE Ru ltac:(now rewrite <- Hbox) HK' R1' R2' Hlen' ltac:(now rewrite HCo) Hpos') as (g' & Hg' & Lg' & G').
  rewrite HCo in Lg', G'. exists g, g'. split; [exact Hg|]. split; [exact Hg'|]. split; [exact Lg|]. split; [exact Lg'|].
  assert (At : forall k, k < n -> exists p x xs, p < n /\ CollProps.vertex t true p (nth k s 0) /\ pos w u p < n /\ CollProps.vertex u true (pos w u p) k /\
    nth_error sizes' k = Some x /\ nth_error sizes (nth k s 0) = Some x /\ row (firstn (dim c) (t_parts t)) p xs /\ row (firstn (dim c) (t_parts u)) (pos w u p) xs).
  { intros k Hk. destruct (dst_onto Rops E true w I k Hk) as (p & Hp & Ek). change (p < n) in Hp.
    destruct (pos_spec Rops E w u I Hu v' V Hvu p Hp) as (P1 & P2 & P3).
    destruct (relabel_dst Rops E t Ht s r Hs Hr p Hp) as [_ Z]. fold w in Z. rewrite <- Ek in Z.
    destruct (is_perm_at s n k Hs Hk) as (kk & Ekk & Hkk). destruct (proj2 Hps k kk Ekk) as [Q _]. rewrite (nth_error_nth _ _ 0 Ekk) in Z |- *.
    destruct (nth_error sizes kk) as [x|] eqn:Ex; [|apply nth_error_None in Ex; lia].
    destruct (nth_error (t_codes t) p) as [cd|] eqn:Ec; [|apply nth_error_None in Ec; lia].
    destruct (inv_codes _ _ _ Ht p cd Ec) as (xs & Hx & _). exists p, x, xs. unfold CollProps.vertex.
    split; [exact Hp|]. split.
    { rewrite Z. unfold dst. apply nth_error_nth'. rewrite (is_perm_length _ _ (inv_perm _ _ _ Ht)). exact Hp. }
    split; [exact P1|]. split.
    { rewrite P2, Ek. unfold dst. apply nth_error_nth'. rewrite (is_perm_length _ _ (inv_perm _ _ _ I)). exact Hp. }
    split; [congruence|]. split; [reflexivity|]. split; [exact Hx|]. exact (pos_row Rops E w u I Hu v' V Hvu p xs Hp Hx). }
  intros i j rw rw' Er' Er Hj. assert (Hi : i < n) by (rewrite <- Lg'; eapply nth_error_lt; eauto).
  destruct (At i Hi) as (p & x1 & xs1 & A1 & A2 & A3 & A4 & A5 & A6 & A7 & A8). destruct (At j Hj) as (q & x2 & xs2 & B1 & B2 & B3 & B4 & B5 & B6 & B7 & B8).
  rewrite (G p q _ _ x1 x2 xs1 xs2 rw A1 B1 A2 B2 A6 B6 A7 B7 Er), (G' (pos w u p) (pos w u q) i j x1 x2 xs1 xs2 rw' A3 B3 A4 B4 A5 B5 A8 B8 Er').
  split; intros (Hne & Hrest); (split; [|exact Hrest]).
  - intros ->. now apply Hne.
  - intros Hpp. apply Hne. exact (pos_inj Rops E w u I Hu v' V Hvu p q A1 B1 Hpp).
Qed.

End Exact.
