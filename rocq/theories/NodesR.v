(** Masses, centres and cells of the nodes of a tree, in exact arithmetic; existence of trees. *)
From Coq Require Import List Arith ZArith NArith Reals Bool Lra Lia Permutation.
From Verif Require Import Base Config Morton MortonProofs CodesProofs Build TreeSpec BuildSpec BuildProofs BuildProps
  FOps Disc DiscProofs NodeProps Tree TreeInv TreeProofs TreeSafe TreeProps RSum NodeGeom BoxProofs BoxMore.
Import ListNotations.
Local Open Scope nat_scope.

(** Centre of the cell with integer coordinates [q] of the grid of level [l] of a box of size [b]. *)
Definition cell_centre (b : R) (l : N) (q : list N) : list R :=
  map (fun k => (- b / 2 + (IZRN k + 1 / 2) * (b / pow2R l))%R) q.

(** The point [xs] is in that (half-open) cell. *)
Definition in_cell (b : R) (l : N) (q : list N) (xs : list R) : Prop :=
  Forall2 (fun x k => (- b / 2 + IZRN k * (b / pow2R l) <= x < - b / 2 + (IZRN k + 1) * (b / pow2R l))%R) xs q.

Definition distance (xs ys : list R) : R := sqrt (rsum (fun '(x, y) => ((x - y) * (x - y))%R) (combine xs ys)).

Lemma interval_unique : forall a s x j k, (0 < s)%R ->
  (a + IZRN j * s <= x < a + (IZRN j + 1) * s)%R -> (a + IZRN k * s <= x < a + (IZRN k + 1) * s)%R -> j = k.
Proof.
  intros a s x j k Hs [H1 H2] [H3 H4].
  assert (A : (IZRN j < IZRN k + 1)%R) by nra. assert (B : (IZRN k < IZRN j + 1)%R) by nra.
  unfold IZRN in A, B. rewrite <- plus_IZR in A, B. apply lt_IZR in A. apply lt_IZR in B. lia.
Qed.

(** A point is in exactly one cell of a level, found from the integer coordinates. *)
Lemma cell_iff : forall c b l q xs ks, (0 < b)%R -> (l <= cbitsc c)%N ->
  mapM (fun x => disc_single_coord Rops c false x (1 / b)%R) xs = Ok ks ->
  (map (fun k => (k / 2 ^ (cbitsc c - l))%N) ks = q <-> in_cell b l q xs).
Proof.
  intros c b l q xs ks Hb Hl. revert q ks. induction xs as [|x xs IH]; intros q ks H; cbn [mapM] in H.
  - injection H as <-. cbn [map]. split; [intros <-; constructor|]. intros H. now inversion H.
  - apply bind_Ok in H as (k & Hk & H). apply bind_Ok in H as (ks' & Hks & H). injection H as <-. cbn [map].
    pose proof (disc_in_cell c x b k _ l Hb Hl Hk eq_refl) as Hc. split.
    + intros <-. constructor; [exact Hc|]. now apply (IH _ ks').
    + intros Hin. inversion Hin as [|x' k' xs' q' Hx Hr]; subst. f_equal.
      * eapply interval_unique; [|exact Hc|exact Hx]. apply Rdiv_lt_0_compat; [exact Hb|apply pow2R_pos].
      * apply IH; assumption.
Qed.

Section Nodes.

Variable E : env.
Notation c := (e_cfg E).
Notation tree_inv := (tree_inv Rops E).

Lemma node_payload : forall t nd, tree_inv t -> In nd (t_nodes t) ->
  exists p, (n_level nd <= cbitsc c)%N /\ (p < 2 ^ (dimN c * n_level nd))%N /\
    n_code nd = (2 ^ (dimN c * n_level nd) + p)%N /\
    n_begin nd < n_end nd <= length (t_codes t) /\
    (forall i x, nth_error (t_codes t) i = Some x -> (n_begin nd <= i < n_end nd <-> prefix c (n_level nd) x = p)) /\
    cnp Rops E (t_parts t) (t_box t) (n_begin nd) (n_end nd) (n_code nd) (n_level nd) = Ok (n_props nd).
Proof.
  intros t nd Ht Hin.
  assert (R : forall A, reorders (fun l : list A => l)) by (intros A l; apply Permutation_refl).
  pose proof (inv_nodes _ _ _ Ht 0 _ _ (R _) (R _)) as HB.
  pose proof (inv_valid_codes Rops E t Ht) as Hv.
  destruct (node_ranges c (t_codes t) (t_mln t) (t_ncrit t) _ _ Hv 0 _ _ _ _ (R _) (R _) HB nd Hin)
    as (p & H1 & H2 & H3 & H4 & H5).
  exists p. do 5 (split; [assumption|]).
  destruct (built c (t_codes t) (t_mln t) (t_ncrit t) _ _ Hv 0 _ _ _ _ (R _) (R _) HB) as [(_ & HN & _)|(_ & HF & _)].
  { rewrite HN in Hin. destruct Hin. }
  destruct (tree_nodes _ _ _ _ _ _ HF nd Hin) as (l & p' & _ & (E1 & E2 & _ & E4 & E5 & E6)).
  cbn [fst snd] in *. unfold cnp_of in E6. cbn [fst snd] in E6. rewrite E1, E2, E4, E5. exact E6.
Qed.

Lemma dist2_R : forall xs ys, dist2 Rops xs ys = rsum (fun '(x, y) => ((x - y) * (x - y))%R) (combine xs ys).
Proof.
  intros xs ys. unfold dist2. destruct (combine xs ys) as [|[x y] t]; [reflexivity|].
  rewrite rsum_cons. cbn [fsub fmul ffma Rops].
  assert (G : forall (l : list (R * R)) s,
    fold_left (fun s '(x, y) => ((x - y) * (x - y) + s)%R) l s = (s + rsum (fun '(x, y) => ((x - y) * (x - y))%R) l)%R).
  { induction l as [|[u v] l IH]; intros s; cbn [fold_left]; [rewrite rsum_nil; lra|]. rewrite IH, rsum_cons. lra. }
  apply G.
Qed.

Lemma node_facts : forall t nd, env_ok E -> tree_inv t -> In nd (t_nodes t) ->
  exists q mcol, length q = dim c /\ Forall (fun k => (k < 2 ^ n_level nd)%N) q /\
    (n_level nd <= cbitsc c)%N /\ n_begin nd < n_end nd <= length (t_codes t) /\
    nth_error (t_parts t) (dim c) = Some mcol /\
    let M := total mcol (n_begin nd) (n_end nd) in
    let P := n_props nd in
    p_mass P = M /\
    (M = 0%R -> p_com P = cell_centre (t_box t) (n_level nd) q) /\
    (M <> 0%R -> p_com P = map (fun col => (weighted mcol col (n_begin nd) (n_end nd) / M)%R) (firstn (dim c) (t_parts t))) /\
    p_mac P = (let s := (t_box t / pow2R (n_level nd))%R in
               match e_mac E with
               | Bh => DBh (s * s)%R
               | BhGeom => DGeom s (distance (p_com P) (cell_centre (t_box t) (n_level nd) q))
               end) /\
    ((0 < t_box t)%R -> forall i xs, i < length (t_codes t) -> row (firstn (dim c) (t_parts t)) i xs ->
       (n_begin nd <= i < n_end nd <-> in_cell (t_box t) (n_level nd) q xs)) /\
    get_node_centre Rops c (n_code nd) (t_box t) = Ok (cell_centre (t_box t) (n_level nd) q).
Proof.
  intros t nd HE Ht Hin.
  destruct (node_payload t nd Ht Hin) as (p & H1 & H2 & H3 & H4 & H5 & H6).
  destruct (node_centre c (n_level nd) p (t_box t) H1 H2) as (q & Q1 & Q2 & Q3 & Q4).
  destruct (inv_table Rops E t Ht) as [T1 T2].
  assert (Hm : exists mcol, nth_error (t_parts t) (dim c) = Some mcol).
  { destruct (nth_error (t_parts t) (dim c)) eqn:X; [eauto|]. apply nth_error_None in X. lia. }
  destruct Hm as [mcol Hm]. exists q, mcol. do 5 (split; [assumption|]). intros M P.
  unfold cnp, compute_node_properties in H6. unfold rd in H6. rewrite Hm in H6. cbn [bind] in H6.
  rewrite (node_sums_R c (e_simd E) (e_hadd E) (firstn (dim c) (t_parts t)) mcol (length (t_codes t))) in H6.
  2:{ apply HE. }
  2:{ rewrite firstn_length. lia. }
  2:{ apply Forall_forall. intros col Hc. apply firstn_In in Hc. rewrite Forall_forall in T2. auto. }
  2:{ rewrite Forall_forall in T2. apply T2. eapply nth_error_In; eauto. }
  2:{ lia. }
  cbn [bind] in H6. rewrite H3, Q3 in H6. cbn [bind] in H6. fold M in H6.
  cbn [feq ffin fdiv fmul fsqrt fofZ Rops] in H6.
  assert (Hfin : forall l : list R, forallb (fun _ => true) l = true) by (induction l; auto).
  rewrite Hfin in H6. cbn [negb] in H6.
  fold (cell_centre (t_box t) (n_level nd) q) in H6.
  set (com := if Reqb M 0 then _ else _) in H6.
  assert (Hcom : (M = 0%R -> com = cell_centre (t_box t) (n_level nd) q) /\
    (M <> 0%R -> com = map (fun col => (weighted mcol col (n_begin nd) (n_end nd) / M)%R) (firstn (dim c) (t_parts t)))).
  { unfold com, Reqb. destruct (Req_EM_T M 0) as [Z|Z]; split; intros Z'; try contradiction; [reflexivity|].
    rewrite map_map. apply map_ext. intros col. field. exact Z. }
  assert (HP : P = mkProps com M (let s := (t_box t / pow2R (n_level nd))%R in
               match e_mac E with
               | Bh => DBh (s * s)%R
               | BhGeom => DGeom s (distance com (cell_centre (t_box t) (n_level nd) q))
               end)).
  { unfold P, distance. rewrite <- dist2_R. destruct (e_mac E); injection H6 as <-; reflexivity. }
  rewrite HP. cbn [p_mass p_com p_mac]. destruct Hcom as [C1 C2].
  split; [reflexivity|]. split; [exact C1|]. split; [exact C2|]. split; [reflexivity|]. split; [|rewrite H3; exact Q3].
  intros Hbox i xs Hi Hrow.
  destruct (nth_error (t_codes t) i) as [x|] eqn:Ex; [|apply nth_error_None in Ex; lia].
  destruct (inv_codes _ _ _ Ht i x Ex) as (xs' & Hrow' & Hcode).
  pose proof (row_fun _ _ _ _ Hrow Hrow') as <-. clear Hrow'.
  rewrite (H5 i x Ex). unfold particle_code in Hcode. apply bind_Ok in Hcode as (ks & Hks & Hcode).
  cbn [fdiv fofZ Rops] in Hks. rewrite (Q4 ks x).
  - apply cell_iff; assumption.
  - destruct (mapM_disc_lt _ _ _ _ _ Hks) as [-> _]. rewrite (eq_sym (Forall2_length_eq _ _ _ Hrow)), firstn_length. lia.
  - now destruct (mapM_disc_lt _ _ _ _ _ Hks).
  - exact Hcode.
Qed.

Lemma weighted_bounds : forall mcol col b e lo hi, b < e -> (forall i, b <= i < e -> (0 <= nth i mcol 0)%R) ->
  (forall i, b <= i < e -> (lo <= nth i col 0 < hi)%R) -> total mcol b e <> 0%R ->
  (lo <= weighted mcol col b e / total mcol b e < hi)%R.
Proof.
  intros mcol col b e lo hi Hbe Hm Hc Ht.
  assert (H0 : (0 <= total mcol b e)%R).
  { apply rsum_nonneg. intros i Hi. apply in_seq in Hi. apply Hm. lia. }
  assert (Hpos : (0 < total mcol b e)%R) by lra.
  assert (L : (lo * total mcol b e <= weighted mcol col b e)%R).
  { unfold total, weighted. rewrite <- rsum_scal. apply rsum_le. intros i Hi. apply in_seq in Hi.
    pose proof (Hm i ltac:(lia)). pose proof (Hc i ltac:(lia)). nra. }
  assert (U : (weighted mcol col b e < hi * total mcol b e)%R).
  { assert (D : (0 < rsum (fun i => nth i mcol 0 * (hi - nth i col 0))%R (seq b (e - b)))%R).
    { destruct (Rle_lt_or_eq_dec 0 (rsum (fun i => nth i mcol 0 * (hi - nth i col 0))%R (seq b (e - b)))) as [P|Z]; auto.
      - apply rsum_nonneg. intros i Hi. apply in_seq in Hi. pose proof (Hm i ltac:(lia)). pose proof (Hc i ltac:(lia)). nra.
      - exfalso. apply Ht. unfold total.
        assert (Hz : forall l, (forall i, In i l -> b <= i < e) -> rsum (fun i => nth i mcol 0 * (hi - nth i col 0))%R l = 0%R ->
          rsum (fun i => nth i mcol 0%R) l = 0%R).
        { induction l as [|a l IH]; intros Hl Hs; [reflexivity|]. rewrite rsum_cons in *.
          assert (N1 : (0 <= rsum (fun i => nth i mcol 0 * (hi - nth i col 0))%R l)%R).
          { apply rsum_nonneg. intros i Hi. pose proof (Hm i (Hl i (or_intror Hi))). pose proof (Hc i (Hl i (or_intror Hi))). nra. }
          pose proof (Hm a (Hl a (or_introl eq_refl))). pose proof (Hc a (Hl a (or_introl eq_refl))).
          assert (nth a mcol 0%R * (hi - nth a col 0) = 0)%R by nra.
          assert (nth a mcol 0%R = 0%R) by nra.
          rewrite IH; [lra|intros i Hi; apply Hl; now right|lra]. }
        apply Hz; [|lra]. intros i Hi. apply in_seq in Hi. lia. }
    assert (DE : rsum (fun i => nth i mcol 0 * (hi - nth i col 0))%R (seq b (e - b)) = (hi * total mcol b e - weighted mcol col b e)%R).
    { unfold total, weighted. rewrite <- rsum_scal, <- rsum_minus. apply rsum_ext. intros i _. ring. }
    lra. }
  split.
  - apply Rmult_le_reg_r with (total mcol b e); [exact Hpos|]. unfold Rdiv. rewrite Rmult_assoc, Rinv_l by lra. lra.
  - apply Rmult_lt_reg_r with (total mcol b e); [exact Hpos|]. unfold Rdiv. rewrite Rmult_assoc, Rinv_l by lra. lra.
Qed.

Lemma cell_centre_in : forall b l q, (0 < b)%R -> in_cell b l q (cell_centre b l q).
Proof.
  intros b l q Hb. unfold in_cell, cell_centre. induction q as [|k q IH]; [constructor|]. cbn [map]. constructor; [|exact IH].
  assert (0 < b / pow2R l)%R by (apply Rdiv_lt_0_compat; [exact Hb|apply pow2R_pos]). nra.
Qed.

(** The centre of mass is in the cell. *)
Lemma com_in_cell : forall t nd q mcol, tree_inv t -> (0 < t_box t)%R -> n_begin nd < n_end nd <= length (t_codes t) ->
  length q = dim c -> nth_error (t_parts t) (dim c) = Some mcol ->
  (forall i, n_begin nd <= i < n_end nd -> (0 <= nth i mcol 0)%R) ->
  (total mcol (n_begin nd) (n_end nd) = 0%R -> p_com (n_props nd) = cell_centre (t_box t) (n_level nd) q) ->
  (total mcol (n_begin nd) (n_end nd) <> 0%R -> p_com (n_props nd) = map (fun col => (weighted mcol col (n_begin nd) (n_end nd) / total mcol (n_begin nd) (n_end nd))%R) (firstn (dim c) (t_parts t))) ->
  (forall i xs, i < length (t_codes t) -> row (firstn (dim c) (t_parts t)) i xs ->
       (n_begin nd <= i < n_end nd <-> in_cell (t_box t) (n_level nd) q xs)) ->
  in_cell (t_box t) (n_level nd) q (p_com (n_props nd)).
Proof.
  intros t nd q mcol Ht Hb Hr Hq Hmc Hm C1 C2 Hrow.
  destruct (Req_EM_T (total mcol (n_begin nd) (n_end nd)) 0) as [Z|Z].
  { rewrite (C1 Z). now apply cell_centre_in. }
  rewrite (C2 Z). clear C1 C2.
  destruct (inv_table Rops E t Ht) as [T1 T2].
  assert (Hcols : Forall (fun col => length col = length (t_codes t)) (firstn (dim c) (t_parts t))).
  { apply Forall_forall. intros col Hc. apply firstn_In in Hc. rewrite Forall_forall in T2. auto. }
  assert (Hin : forall i, n_begin nd <= i < n_end nd -> in_cell (t_box t) (n_level nd) q (map (fun col => nth i col 0%R) (firstn (dim c) (t_parts t)))).
  { intros i Hi. apply (Hrow i); [lia| |exact Hi]. clear - Hcols Hi Hr. unfold row. induction Hcols as [|col cols Hl H IH]; [constructor|].
    cbn [map]. constructor; [|exact IH]. apply nth_error_nth'. lia. }
  assert (Hlen : length (firstn (dim c) (t_parts t)) = length q) by (rewrite firstn_length; lia).
  clear - Hin Hlen Hm Z Hr. revert q Hin Hlen. induction (firstn (dim c) (t_parts t)) as [|col cols IH]; intros q Hin Hlen.
  - destruct q; [constructor|discriminate].
  - destruct q as [|k q]; [discriminate|]. cbn [map]. constructor.
    + apply weighted_bounds; [lia|exact Hm| |exact Z]. intros i Hi. specialize (Hin i Hi). now inversion Hin.
    + apply IH; [|now injection Hlen]. intros i Hi. specialize (Hin i Hi). now inversion Hin.
Qed.

Lemma node_cells : forall t nd, env_ok E -> reachable Rops E t -> In nd (t_nodes t) -> (0 < t_box t)%R ->
  exists mcol q, nth_error (t_parts t) (dim c) = Some mcol /\
    length q = dim c /\ Forall (fun k => (k < 2 ^ n_level nd)%N) q /\
    get_node_centre Rops c (n_code nd) (t_box t) = Ok (cell_centre (t_box t) (n_level nd) q) /\
    (forall i xs, i < length (t_codes t) -> row (firstn (dim c) (t_parts t)) i xs ->
       (n_begin nd <= i < n_end nd <-> in_cell (t_box t) (n_level nd) q xs)) /\
    ((forall i, n_begin nd <= i < n_end nd -> (0 <= nth i mcol 0)%R) ->
       in_cell (t_box t) (n_level nd) q (p_com (n_props nd))) /\
    p_mac (n_props nd) = (let s := (t_box t / pow2R (n_level nd))%R in
      match e_mac E with
      | Bh => DBh (s * s)%R
      | BhGeom => DGeom s (distance (p_com (n_props nd)) (cell_centre (t_box t) (n_level nd) q))
      end).
Proof.
  intros t nd HE Hr Hnd Hb. pose proof (reachable_inv Rops E HE t Hr) as Ht.
  destruct (node_facts t nd HE Ht Hnd) as (q & mcol & H1 & H2 & H3 & H4 & H5 & H6 & H7 & H8 & H9 & H10 & H11).
  exists mcol, q. split; [exact H5|]. split; [exact H1|]. split; [exact H2|]. split; [exact H11|].
  split; [exact (H10 Hb)|]. split; [|exact H9].
  intros Hm. eapply com_in_cell; eauto.
Qed.

End Nodes.

(** * Construction succeeds on valid data *)
Section Succeeds.

Context {F : Type}.
Variable O : fops F.
Variable E : env.
Notation c := (e_cfg E).

Lemma not_throw_ok : forall A (x : outcome A), x <> UB -> (forall e, x <> Throw e) -> exists a, x = Ok a.
Proof. intros A [a|e|] H1 H2; [eauto|now elim (H2 e)|now elim H1]. Qed.

Lemma construct_succeeds : forall s box bx (ded : bool) d mln ncrit cols np, sched_ok s -> env_ok E -> (forall k, s_alloc s k = true) ->
  ffin O box = true -> flt O box (fofZ O 0) = false -> 0 < mln -> 0 < ncrit ->
  load d = Ok cols -> table E cols np ->
  (if ded then exists rs, rows E cols np = Ok rs /\ determine_box_size O (dim c) rs (s_red s np) = Ok bx else bx = box) ->
  (exists codes, encode_all O E cols (fdiv O (fofZ O 1) bx) np = Ok codes) ->
  (N.of_nat np * cbitsc c < 2 ^ 64 - 1)%N ->
  (forall pm cols' b e l p, is_perm pm np -> Forall2 (permuted pm) cols cols' -> table E cols' np -> b < e <= np -> (l <= cbitsc c)%N -> (p < 2 ^ (dimN c * l))%N ->
     exists pr, cnp O E cols' bx b e (2 ^ (dimN c * l) + p) l = Ok pr) ->
  exists t, construct O E s box ded d mln ncrit = Ok t.
Proof.
  intros s box bx ded d mln ncrit cols np Hs HE Ha Hf Hl Hm Hn Hload [T1 T2] Hbox [codes0 Hc] Hsize Hcnp.
  unfold construct. rewrite Hf, Hl. cbn [negb orb].
  destruct (Nat.eqb_spec mln 0); [lia|]. destruct (Nat.eqb_spec ncrit 0); [lia|].
  unfold alloc. rewrite !Ha. cbn [bind]. rewrite Hload. cbn [bind]. cbv zeta.
  assert (Hnp : length (hd [] cols) = np).
  { destruct cols as [|c0 cols]; [cbn [length] in T1; lia|]. now inversion T2. }
  rewrite Hnp.
  assert (Hb : (if ded return outcome F then do rs <- rows E cols np; determine_box_size O (dim c) rs (s_red s np) else Ok box) = Ok bx).
  { destruct ded; [destruct Hbox as (rs & -> & H); exact H|now subst]. }
  rewrite Hb. cbn [bind]. rewrite Hc. cbn [bind].
  pose proof (encode_all_inv O E cols _ np codes0 Hc) as [Hlen _].
  pose proof Hs as (_ & Hsort & Hst & Hsc). destruct (Hsort codes0) as [Hp _]. rewrite Hlen in Hp.
  fold (is_perm (s_sort s codes0) np) in Hp.
  destruct (apply_isort_ok codes0 (s_sort s codes0) np Hp Hlen) as [codes Hcodes]. rewrite Hcodes. cbn [bind].
  assert (Hparts : exists cols', mapM (fun col => apply_isort col (s_sort s codes0)) cols = Ok cols').
  { apply not_throw_ok.
    - apply mapM_safe. intros col Hin. apply apply_isort_safe with (n := np); [exact Hp|]. rewrite Forall_forall in T2. auto.
    - intros e. clear - Hp T2. revert T2. induction cols as [|col cols IH]; intros T2; cbn [mapM]; [discriminate|].
      inversion T2 as [|? ? L1 L2]; subst. destruct (apply_isort_ok col (s_sort s codes0) _ Hp eq_refl) as [v ->]. cbn [bind].
      destruct (mapM _ cols) as [vs|e'|] eqn:X; cbn [bind]; [discriminate| |discriminate]. intros K. injection K as ->. now apply IH in L2. }
  destruct Hparts as [cols' Hparts]. rewrite Hparts. cbn [bind].
  destruct (perm_to_inv_perm_ok (s_sort s codes0) (repeat 0 np) np Hp (repeat_length _ _)) as (inv & -> & _). cbn [bind].
  destruct (resorted O E s _ _ _ _ _ _ Hs Hc Hcodes Hparts) as (R1 & R2 & R3 & R4 & R5 & R6 & R7 & R8).
  assert (Hv : valid_codes c codes) by (eapply codes_valid; eauto).
  assert (Ht' : table E cols' np) by (split; [now rewrite <- (Forall2_length_eq _ _ _ R6)|exact R5]).
  pose proof (no_overflow c codes mln ncrit _ (cnp O E cols' bx) Hv (s_split s) (s_t s) (s_c s) Hst Hsc) as B.
  rewrite R2 in B. specialize (B Hsize).
  destruct (build_tree _ _ _ _ _ _ _ _) as [r|e|] eqn:HB; [eexists; reflexivity| |].
  - destruct B as (b & e' & l & p & B1 & B2 & B3 & B4). destruct (Hcnp _ cols' b e' l p Hp R6 Ht' B1 B2 B3) as [pr Hpr]. congruence.
  - destruct B as (b & e' & l & p & B1 & B2 & B3 & B4). destruct (Hcnp _ cols' b e' l p Hp R6 Ht' B1 B2 B3) as [pr Hpr]. congruence.
Qed.

End Succeeds.

Lemma disc_R_ok : forall c x b, (0 < b)%R ->
  ((exists k, disc_single_coord Rops c false x (1 / b)%R = Ok k) <-> (- b / 2 <= x < b / 2)%R) /\
  (~ (- b / 2 <= x < b / 2)%R -> disc_single_coord Rops c false x (1 / b)%R = Throw InvalidArgument).
Proof.
  intros c x b Hb. pose proof (disc_R_accept c x b Hb) as A.
  destruct (disc_single_coord Rops c false x (1 / b)%R) as [k|e|]; [| |destruct A].
  - split; [split; [intros _; exact A|eauto]|]. intros H. now elim H.
  - destruct A as [-> A]. split; [|reflexivity]. split; [intros [k H]; discriminate|]. intros H. now elim A.
Qed.

Section Given.

Context {F : Type}.
Variable O : fops F.
Variable E : env.
Notation c := (e_cfg E).

(** What a constructor call provides besides the parameters. *)
Definition given_table (inp : @input F) (np : nat) : Prop :=
  table E (given inp) np /\ match inp with Iterators cols n => n = np /\ Forall (fun col => n <= length col) cols | _ => True end.

Lemma given_load : forall inp np, given_table inp np -> (N.of_nat np <= diff_max)%N ->
  exists d, load d = Ok (given inp) /\
    forall s b mln nc, generic_ctor O E s b inp mln nc =
      construct O E s (match b with Some b => b | None => fofZ O 0%Z end) (match b with Some _ => false | None => true end) d
        (match mln with Some k => k | None => default_max_leaf_n end) (match nc with Some k => k | None => e_ncrit E end).
Proof.
  intros inp np [Ht Hi] Hd. assert (HD : it_diff_check np = Ok tt).
  { unfold it_diff_check. destruct (N.ltb_spec diff_max (N.of_nat np)); [lia|reflexivity]. }
  assert (HL : forall cols : list (list F), Forall (fun col => np <= length col) cols ->
     load (Iters cols np) = Ok (map (firstn np) cols)).
  { intros cols Hc. unfold load. rewrite HD. cbn [bind]. apply mapM_map. intros col Hin. rewrite Forall_forall in Hc.
    specialize (Hc col Hin). destruct (Nat.ltb_spec (length col) np); [lia|reflexivity]. }
  destruct inp as [cols|cols|cols n]; cbn [given] in *.
  - exists (Moved cols). split; [reflexivity|]. intros s b mln nc. unfold generic_ctor.
    rewrite (proj2 (proj2 (ranges_check_iff E cols (proj1 Ht)) np) (proj2 Ht)). cbn [bind]. destruct b; reflexivity.
  - exists (Iters cols np). split.
    + rewrite HL; [f_equal; apply firstn_cols, Ht|]. eapply Forall_impl; [|apply Ht]. cbn. intros; lia.
    + intros s b mln nc. unfold generic_ctor.
      rewrite (proj2 (proj2 (ranges_check_iff E cols (proj1 Ht)) np) (proj2 Ht)). cbn [bind]. destruct b; reflexivity.
  - destruct Hi as [-> Hi]. exists (Iters cols np). split; [now apply HL|].
    intros s b mln nc. unfold generic_ctor. destruct b; reflexivity.
Qed.

Lemma rows_R : forall (cols : list (list F)) np, table E cols np -> exists rs, rows E cols np = Ok rs /\ length rs = np /\
  Forall (fun r => length r = dim c) rs /\
  (forall x, (exists r, In r rs /\ In x r) <-> exists col, In col (firstn (dim c) cols) /\ In x col).
Proof.
  intros cols np Ht.
  destruct (not_throw_ok _ (rows E cols np)) as [rs Hrs].
  - now apply rows_safe.
  - intros e H. unfold rows in H.
    assert (G : forall l, mapM (coords E cols) l <> Throw e).
    { clear H. induction l as [|i l IH]; cbn [mapM]; [discriminate|]. intros H.
      apply bind_Throw in H as [H|(k & _ & H)].
      - unfold coords in H. clear - H. revert H. induction (firstn (dim c) cols) as [|col l IH]; cbn [mapM]; [discriminate|].
        intros H. apply bind_Throw in H as [H|(a & _ & H)]; [now apply rd_not_throw in H|].
        apply bind_Throw in H as [H|(bs & _ & H)]; [auto|discriminate].
      - apply bind_Throw in H as [H|(bs & _ & H)]; [auto|discriminate]. }
    now apply G in H.
  - exists rs. split; [exact Hrs|]. pose proof (mapM_length _ _ _ Hrs) as Hl. rewrite seq_length in Hl.
    split; [exact Hl|]. split; [eapply rows_length; eauto|].
    unfold rows in Hrs. apply mapM_Ok in Hrs as [_ Hrs]. intros x. split.
    + intros (r & Hr & Hx). apply In_nth_error in Hr as [i Hi]. pose proof (nth_error_lt _ _ _ Hi) as Hlt.
      destruct (Hrs i i (nth_error_seq np i ltac:(lia))) as (r' & Hr' & Hc). rewrite Hi in Hr'. injection Hr' as <-.
      apply coords_row in Hc. apply In_nth_error in Hx as [j Hj].
      destruct (Forall2_nth_r _ _ _ _ _ Hc Hj) as (col & Hcol & Hn). exists col.
      split; eapply nth_error_In; eauto.
    + intros (col & Hcol & Hx). apply In_nth_error in Hx as [i Hi].
      assert (Hlen : length col = np).
      { destruct Ht as [_ Ht]. rewrite Forall_forall in Ht. apply Ht. eapply firstn_In; eauto. }
      pose proof (nth_error_lt _ _ _ Hi) as Hlt.
      destruct (Hrs i i (nth_error_seq np i ltac:(lia))) as (r & Hr & Hc). apply coords_row in Hc.
      apply In_nth_error in Hcol as [j Hj]. destruct (Forall2_nth _ _ _ _ _ Hc Hj) as (x' & Hx' & Hx'').
      rewrite Hi in Hx''. injection Hx'' as <-. exists r. split; eapply nth_error_In; eauto.
Qed.

End Given.

Section SucceedsR.

Variable E : env.
Notation c := (e_cfg E).

Lemma cnp_R_ok : forall cols np bx b e l p, env_ok E -> table E cols np -> b < e <= np -> (l <= cbitsc c)%N ->
  (p < 2 ^ (dimN c * l))%N -> exists pr, cnp Rops E cols bx b e (2 ^ (dimN c * l) + p) l = Ok pr.
Proof.
  intros cols np bx b e l p HE [T1 T2] Hbe Hl Hp. unfold cnp, compute_node_properties.
  assert (Hm : exists mcol, nth_error cols (dim c) = Some mcol).
  { destruct (nth_error cols (dim c)) eqn:X; [eauto|]. apply nth_error_None in X. lia. }
  destruct Hm as [mcol Hm]. unfold rd. rewrite Hm. cbn [bind].
  destruct (node_centre c l p bx Hl Hp) as (q & _ & _ & Q3 & _).
  rewrite (node_sums_R c (e_simd E) (e_hadd E) (firstn (dim c) cols) mcol np).
  2:{ apply HE. }
  2:{ rewrite firstn_length. lia. }
  2:{ apply Forall_forall. intros col Hc. apply firstn_In in Hc. rewrite Forall_forall in T2. auto. }
  2:{ rewrite Forall_forall in T2. apply T2. eapply nth_error_In; eauto. }
  2:{ lia. }
  cbn [bind]. rewrite Q3. cbn [bind ffin Rops].
  assert (Hfin : forall l : list R, forallb (fun _ => true) l = true) by (induction l0; auto).
  rewrite Hfin. cbn [negb]. destruct (e_mac E); eexists; reflexivity.
Qed.

Lemma encode_all_R : forall cols np b, table E cols np -> (0 < b)%R ->
  Forall (Forall (fun x => (- b / 2 <= x < b / 2)%R)) (firstn (dim c) cols) ->
  exists codes, encode_all Rops E cols (1 / b)%R np = Ok codes.
Proof.
  intros cols np b [T1 T2] Hb Hin. unfold encode_all.
  assert (G : forall i, i < np -> exists k, (do xs <- coords E cols i; particle_code Rops c xs (1 / b)%R) = Ok k).
  { intros i Hi. unfold coords.
    assert (Hc : Forall (fun col => length col = np) (firstn (dim c) cols)).
    { apply Forall_forall. intros col Hc. apply firstn_In in Hc. rewrite Forall_forall in T2. auto. }
    assert (Hl : length (firstn (dim c) cols) = dim c) by (rewrite firstn_length; lia).
    assert (K : exists xs ks, mapM (fun col => rd col i) (firstn (dim c) cols) = Ok xs /\
      mapM (fun x => disc_single_coord Rops c false x (1 / b)%R) xs = Ok ks /\ length ks = length (firstn (dim c) cols)).
    { clear Hl. induction (firstn (dim c) cols) as [|col l IH]; [exists [], []; auto|].
      inversion Hc; inversion Hin; subst. destruct IH as (xs & ks & E1 & E2 & E3); auto.
      cbn [mapM]. destruct (rd_lt col i Hi) as [x Hx]. rewrite Hx, E1. cbn [bind].
      assert (Hxin : (- b / 2 <= x < b / 2)%R).
      { apply rd_Ok in Hx. apply nth_error_In in Hx. rewrite Forall_forall in H5. auto. }
      destruct (proj1 (disc_R_ok c x b Hb)) as [_ Hk]. destruct (Hk Hxin) as [k Hk']. clear Hk. rename Hk' into Hk. exists (x :: xs), (k :: ks). split; [reflexivity|].
      cbn [mapM]. rewrite Hk, E2. cbn [bind length]. auto. }
    destruct K as (xs & ks & E1 & E2 & E3). rewrite E1. cbn [bind]. unfold particle_code. rewrite E2. cbn [bind].
    rewrite Hl in E3. clear - E3. destruct c; vm_compute in E3;
    (do 2 (destruct ks as [|? ks]; [discriminate|])); try (destruct ks as [|? ks]; [discriminate|]);
    (destruct ks as [|? ks]; [eexists; reflexivity|discriminate]). }
  assert (G' : forall l, (forall i, In i l -> i < np) ->
    exists codes, mapM (fun i => do xs <- coords E cols i; particle_code Rops c xs (1 / b)%R) l = Ok codes).
  { induction l as [|i l IH]; intros Hl; [exists []; reflexivity|]. cbn [mapM].
    destruct (G i (Hl i (or_introl eq_refl))) as [k ->]. cbn [bind].
    destruct IH as [ks ->]; [intros; apply Hl; now right|]. eexists; reflexivity. }
  apply G'. intros i Hi. apply in_seq in Hi. lia.
Qed.

Lemma encode_all_R_throws : forall cols np b, table E cols np -> (0 < b)%R ->
  ~ Forall (Forall (fun x => (- b / 2 <= x < b / 2)%R)) (firstn (dim c) cols) ->
  encode_all Rops E cols (1 / b)%R np = Throw InvalidArgument.
Proof.
  intros cols np b Ht Hb Hn.
  assert (Hdisc : forall x, (exists k, disc_single_coord Rops c false x (1 / b)%R = Ok k) \/
    disc_single_coord Rops c false x (1 / b)%R = Throw InvalidArgument).
  { intros x. destruct (disc_R_ok c x b Hb) as [D1 D2].
    destruct (Rle_dec (- b / 2) x) as [L|L]; [|right; apply D2; lra].
    destruct (Rlt_dec x (b / 2)) as [U|U]; [|right; apply D2; lra]. left. apply D1. lra. }
  assert (HT : forall cols i e, table E cols np -> i < np -> (do xs <- coords E cols i; particle_code Rops c xs (1 / b)%R) = Throw e -> e = InvalidArgument).
  { intros cols0 i e Ht0 Hi H. apply bind_Throw in H as [H|(xs & _ & H)].
    - exfalso. unfold coords in H. clear - H. revert H. induction (firstn (dim c) cols0) as [|col l IH]; cbn [mapM]; [discriminate|].
      intros H. apply bind_Throw in H as [H|(a & _ & H)]; [now apply rd_not_throw in H|].
      apply bind_Throw in H as [H|(bs & _ & H)]; [auto|discriminate].
    - unfold particle_code in H. apply bind_Throw in H as [H|(ks & _ & H)].
      + clear - H Hdisc. induction xs as [|x xs IH]; cbn [mapM] in H; [discriminate|].
        apply bind_Throw in H as [H|(a & _ & H)].
        * destruct (Hdisc x) as [[k Hk]|Hk]; rewrite Hk in H; [discriminate|congruence].
        * apply bind_Throw in H as [H|(bs & _ & H)]; [auto|discriminate].
      + exfalso. clear - H. destruct c; destruct ks as [|? [|? [|? [|? ?]]]]; discriminate. }
  assert (HU : encode_all Rops E cols (1 / b)%R np <> UB).
  { unfold encode_all. apply mapM_safe. intros i Hi. apply in_seq in Hi. apply bind_safe.
    - apply (coords_safe E cols np); [exact Ht|lia].
    - intros xs Hxs. apply bind_safe.
      + apply mapM_safe. intros x _. destruct (Hdisc x) as [[k ->]| ->]; discriminate.
      + intros ks Hks. apply morton_encode_safe. apply mapM_length in Hks. rewrite Hks. eapply coords_length; eauto. }
  destruct (encode_all Rops E cols (1 / b)%R np) as [codes|e|] eqn:He; [exfalso| |now elim HU].
  - apply Hn. apply Forall_forall. intros col Hcol. apply Forall_forall. intros x Hx.
    apply In_nth_error in Hx as [i Hi].
    assert (Hlen : length col = np).
    { destruct Ht as [_ Ht]. rewrite Forall_forall in Ht. apply Ht. eapply firstn_In; eauto. }
    pose proof (nth_error_lt _ _ _ Hi) as Hlt. rewrite Hlen in Hlt.
    apply encode_all_inv in He as [Hl He].
    destruct (nth_error codes i) as [k|] eqn:Ek; [|apply nth_error_None in Ek; lia].
    destruct (He i k Ek) as (xs & Hrow & Hcode). unfold particle_code in Hcode. apply bind_Ok in Hcode as (ks & Hks & _).
    apply In_nth_error in Hcol as [j Hj].
    destruct (Forall2_nth _ _ _ _ _ Hrow Hj) as (x' & Hx' & Hx''). rewrite Hi in Hx''. injection Hx'' as <-.
    apply mapM_Ok in Hks as [_ Hks]. destruct (Hks j x Hx') as (kk & _ & Hkk).
    apply (disc_R_ok c x b Hb). eauto.
  - f_equal. unfold encode_all in He.
    assert (G : forall l, (forall i, In i l -> i < np) ->
      mapM (fun i => do xs <- coords E cols i; particle_code Rops c xs (1 / b)%R) l = Throw e -> e = InvalidArgument).
    { induction l as [|i l IH]; intros Hl H; cbn [mapM] in H; [discriminate|].
      apply bind_Throw in H as [H|(k & _ & H)]; [eapply HT; eauto; apply Hl; now left|].
      apply bind_Throw in H as [H|(bs & _ & H)]; [apply IH; auto; intros; apply Hl; now right|discriminate]. }
    eapply G; [|exact He]. intros i Hi. apply in_seq in Hi. lia.
Qed.

Lemma ctor_R : forall s box inp mln nc np, env_ok E -> sched_ok s -> (forall k, s_alloc s k = true) ->
  given_table E inp np -> (N.of_nat np <= diff_max)%N -> (N.of_nat np * cbitsc c < 2 ^ 64 - 1)%N ->
  mln <> Some 0 -> nc <> Some 0 ->
  (forall b, box = Some b -> (0 < b)%R ->
     ((exists t, generic_ctor Rops E s (Some b) inp mln nc = Ok t) <->
       forall col x, In col (firstn (dim c) (given inp)) -> In x col -> (- b / 2 <= x < b / 2)%R) /\
     ((exists col x, In col (firstn (dim c) (given inp)) /\ In x col /\ ~ (- b / 2 <= x < b / 2)%R) ->
       generic_ctor Rops E s (Some b) inp mln nc = Throw InvalidArgument)) /\
  ((exists col x, In col (firstn (dim c) (given inp)) /\ In x col /\ x <> 0%R) ->
     exists t, generic_ctor Rops E s None inp mln nc = Ok t).
Proof.
  intros s box inp mln nc np HE Hs Ha Hg Hd Hsz Hm Hn. pose proof Hg as [Ht _].
  destruct (given_load Rops E inp np Hg Hd) as (d & Hload & Hctor).
  set (mln' := match mln with Some k => k | None => default_max_leaf_n end) in *.
  set (nc' := match nc with Some k => k | None => e_ncrit E end) in *.
  assert (Hm' : 0 < mln') by (unfold mln', default_max_leaf_n; destruct mln as [[|k]|]; [congruence|lia|lia]).
  assert (Hn' : 0 < nc') by (unfold nc'; destruct nc as [[|k]|]; [congruence|lia|exact (proj1 HE)]).
  assert (Hlt : forall b, (0 <= b)%R -> flt Rops b (fofZ Rops 0) = false).
  { intros b Hb. cbn [flt fofZ Rops]. unfold Rltb. destruct (Rlt_dec b 0); [lra|reflexivity]. }
  split.
  - intros b -> Hb. rewrite Hctor. fold mln' nc'.
    assert (HT : ~ Forall (Forall (fun x => (- b / 2 <= x < b / 2)%R)) (firstn (dim c) (given inp)) ->
      construct Rops E s b false d mln' nc' = Throw InvalidArgument).
    { intros Hout. unfold construct. cbn [ffin Rops negb orb]. rewrite (Hlt b) by lra.
      destruct (Nat.eqb_spec mln' 0); [lia|]. destruct (Nat.eqb_spec nc' 0); [lia|].
      unfold alloc. rewrite !Ha. cbn [bind]. rewrite Hload. cbn [bind]. cbv zeta.
      assert (Hnp : length (hd [] (given inp)) = np).
      { destruct Ht as [T1 T2]. destruct (given inp) as [|c0 cols]; [cbn [length] in T1; lia|]. now inversion T2. }
      rewrite Hnp. cbn [fdiv fofZ Rops]. now rewrite encode_all_R_throws. }
    split; [split|].
    + intros [t Hok]. intros col x Hcol Hx.
      destruct (Rle_dec (- b / 2) x) as [L|L]; [destruct (Rlt_dec x (b / 2)) as [U|U]; [lra|]|];
        (rewrite HT in Hok; [discriminate|]; intros HF; rewrite Forall_forall in HF; specialize (HF col Hcol);
         rewrite Forall_forall in HF; specialize (HF x Hx); lra).
    + intros Hin. apply (construct_succeeds Rops E s b b false d mln' nc' (given inp) np); auto.
      * apply Hlt. lra.
      * cbn [fdiv fofZ Rops]. apply encode_all_R; auto. apply Forall_forall. intros col Hcol. apply Forall_forall. eauto.
      * intros. eapply cnp_R_ok; eauto.
    + intros (col & x & Hcol & Hx & Hout). apply HT. intros HF. rewrite Forall_forall in HF. specialize (HF col Hcol).
      rewrite Forall_forall in HF. apply Hout. auto.
  - intros (col & x & Hcol & Hx & Hnz). rewrite Hctor. fold mln' nc'.
    destruct (rows_R E (given inp) np Ht) as (rs & Hrs & Hrl & Hrd & Hrin).
    assert (HM : (0 < max_abs (concat rs))%R).
    { assert (HA : (Rabs x <= max_abs (concat rs))%R).
      { apply max_abs_In, in_concat. destruct (proj2 (Hrin x)) as (r & Hr & Hxr); [eauto|]. eauto. }
      pose proof (Rabs_pos_lt x Hnz). lra. }
    apply (construct_succeeds Rops E s 0%R (21 / 10 * max_abs (concat rs))%R true d mln' nc' (given inp) np); auto.
    + apply Hlt. lra.
    + exists rs. split; [exact Hrs|]. apply boxR; auto; [destruct c; cbn; lia| |now rewrite Hrl].
      rewrite Hrl. apply Hs.
    + cbn [fdiv fofZ Rops]. apply encode_all_R; auto; [lra|].
      apply Forall_forall. intros cl Hcl. apply Forall_forall. intros y Hy.
      apply (disc_R_ok c y (21 / 10 * max_abs (concat rs))%R ltac:(lra)).
      apply boxR_accepts; auto. apply Hrin. eauto.
    + intros. eapply cnp_R_ok; eauto.
Qed.

End SucceedsR.
