(** Collision detection: the search for the leaves that overlap a cell. *)
From Coq Require Import List Arith ZArith NArith Bool Lia Permutation.
From Verif Require Import Base Config Morton MortonProofs CodesProofs Build TreeSpec FOps Disc NodeProps Tree Kernels Coll.
Import ListNotations.
Local Open Scope nat_scope.

Lemma bsearch_ok : forall before Q fuel first len, len < fuel ->
  (forall k, first <= k < first + len -> before k = Ok (Q k)) ->
  (forall j k, first <= j <= k -> k < first + len -> Q k = true -> Q j = true) ->
  exists r, bsearch before fuel first len = Ok r /\ first <= r <= first + len /\
    (forall k, first <= k < first + len -> (k < r <-> Q k = true)).
Proof.
  intros before Q fuel. induction fuel as [|fuel IH]; intros first len Hf Hb Hm; [lia|].
  cbn [bsearch]. destruct (len =? 0) eqn:L.
  - apply Nat.eqb_eq in L. exists first. split; [reflexivity|]. split; [lia|]. intros k Hk. lia.
  - apply Nat.eqb_neq in L.
    assert (Hh : len / 2 < len) by (apply Nat.div_lt; lia).
    remember (len / 2) as h eqn:Eh. clear Eh. cbv zeta.
    rewrite (Hb (first + h)) by lia. cbn [bind].
    destruct (Q (first + h)) eqn:QE.
    + destruct (IH (first + h + 1) (len - h - 1)) as (r & Hr & Hr2 & Hr3); try lia.
      * intros k Hk. apply Hb. lia.
      * intros j k Hj Hk. apply Hm; lia.
      * exists r. split; [exact Hr|]. split; [lia|]. intros k Hk.
        destruct (Nat.le_gt_cases k (first + h)) as [Hle|Hgt].
        -- split; [|lia]. intros _. apply (Hm k (first + h)); [lia|lia|exact QE].
        -- apply Hr3. lia.
    + destruct (IH first h) as (r & Hr & Hr2 & Hr3); try lia.
      * intros k Hk. apply Hb. lia.
      * intros j k Hj Hk. apply Hm; lia.
      * exists r. split; [exact Hr|]. split; [lia|]. intros k Hk.
        destruct (Nat.lt_ge_cases k (first + h)) as [Hlt|Hge].
        -- apply Hr3. lia.
        -- split; [lia|]. intros HQ. rewrite (Hm (first + h) k) in QE; [discriminate|lia|lia|exact HQ].
Qed.

Lemma tiles_ordered : forall L b e, tiles b L e -> forall i j x y x' y', (i < j)%nat ->
  nth_error L i = Some (x, y) -> nth_error L j = Some (x', y') -> (y <= x')%nat.
Proof.
  induction L as [|[u v] L IH]; intros b e HT i j x y x' y' Hij H1 H2; [destruct i; discriminate|].
  destruct HT as (-> & Huv & HT). destruct j; [lia|]. destruct i.
  - injection H1 as -> ->. simpl in H2.
    assert (forall L b e j x' y', tiles b L e -> nth_error L j = Some (x', y') -> (b <= x')%nat) as HB.
    { clear. induction L as [|[u v] L IH]; intros b e j x' y' HT H; [destruct j; discriminate|].
      destruct HT as (-> & Huv & HT). destruct j; [injection H as -> ->; lia|].
      pose proof (IH _ _ _ _ _ HT H). lia. }
    exact (HB _ _ _ _ _ _ HT H2).
  - apply (IH v e HT i j x y x' y'); [lia|exact H1|exact H2].
Qed.

Section Search.

Context {F : Type}.
Variable E : env.
Variable K : platform F.
Notation c := (e_cfg E).
Notation w := (width c).
Notation d := (dimN c).
Notation cb := (cbitsc c).
Notation nd_t := (node (props F)).
Local Open Scope N_scope.

(** The number of codes of a cell of level [l]. *)
Definition csize (l : N) : N := 2 ^ (d * (cb - l)).
Definition top : N := 2 ^ (d * cb).

Lemma csize_pos : forall l, 0 < csize l.
Proof. intros l. unfold csize. apply N.neq_0_lt_0. apply N.pow_nonzero. lia. Qed.
Lemma dw : 0 < d /\ d < w /\ d * cb < w /\ 1 <= cb.
Proof. destruct c; vm_compute; intuition congruence. Qed.
Lemma cb_cbits : cb = cbits w d.
Proof. destruct c; reflexivity. Qed.

Lemma cell_top : forall l p, l <= cb -> p < 2 ^ (d * l) -> p * csize l + csize l <= top.
Proof.
  intros l p Hl Hp. unfold top, csize. replace (d * cb) with (d * l + d * (cb - l)) by nia. rewrite N.pow_add_r. nia.
Qed.

Lemma top_w : 2 * top <= 2 ^ w.
Proof.
  destruct dw as (_ & _ & H & _). unfold top. rewrite <- (N.pow_succ_r' 2). apply N.pow_le_mono_r; lia.
Qed.

Lemma ones_shift : forall a, a <= w -> N.shiftr (2 ^ w - 1) (w - a) = 2 ^ a - 1.
Proof.
  intros a Ha. rewrite N.shiftr_div_pow2. symmetry. apply (N.div_unique _ _ _ (2 ^ (w - a) - 1)).
  - assert (0 < 2 ^ (w - a)) by (apply N.neq_0_lt_0, N.pow_nonzero; lia). lia.
  - replace w with (a + (w - a)) at 1 by lia. rewrite N.pow_add_r.
    assert (0 < 2 ^ (w - a)) by (apply N.neq_0_lt_0, N.pow_nonzero; lia).
    assert (0 < 2 ^ a) by (apply N.neq_0_lt_0, N.pow_nonzero; lia).
    nia.
Qed.

(** What the shift by the full width of line 172 gives. *)
Definition shift_zero : Prop := k_ovs K (2 ^ w - 1) w = Ok 0.
Definition shift_none : Prop := k_ovs K (2 ^ w - 1) w = Ok (2 ^ w - 1).

Lemma node_range_ok : forall l p, l <= cb -> p < 2 ^ (d * l) -> l < cb \/ shift_zero ->
  node_range E K (nodal d l p) l = Ok (top + p * csize l, top + p * csize l + csize l - 1).
Proof.
  intros l p Hl Hp HK. unfold node_range. destruct dw as (Hd & Hw & Hdw & Hcb).
  pose proof (nodal_shl w d l p Hd Hw) as HS. rewrite <- cb_cbits in HS. rewrite HS by assumption.
  cbn [bind]. unfold first_cell. fold top. fold (csize l).
  assert (Hs : (cb - l) * d <= w) by nia.
  pose proof (cell_top l p Hl Hp) as HT. pose proof top_w as HW. pose proof (csize_pos l) as HP.
  assert (Hwrap : forall y, y < 2 ^ w -> wrap w y = y) by (intros y Hy; apply N.mod_small; exact Hy).
  destruct (w - (cb - l) * d <? w) eqn:A.
  - apply N.ltb_lt in A. cbn [bind]. rewrite ones_shift by exact Hs.
    replace ((cb - l) * d) with (d * (cb - l)) by lia. fold (csize l).
    rewrite Hwrap by (destruct (N.eq_dec top 0); lia). f_equal. f_equal. lia.
  - apply N.ltb_ge in A. assert (l = cb) by nia. subst l. destruct HK as [HK|HK]; [lia|].
    replace (w - (cb - cb) * d) with w by (rewrite N.sub_diag; lia). rewrite HK. cbn [bind].
    rewrite Hwrap; [|destruct (N.eq_dec top 0); lia]. f_equal. f_equal.
    unfold csize. rewrite N.sub_diag, N.mul_0_r. change (2 ^ 0) with 1. lia.
Qed.

Lemma node_range_none : forall p, p < top -> shift_none ->
  node_range E K (nodal d cb p) cb = Ok (top + p, top + p - 1).
Proof.
  intros p Hp HK. unfold node_range. destruct dw as (Hd & Hw & Hdw & Hcb).
  pose proof (nodal_shl w d cb p Hd Hw) as HS. rewrite <- cb_cbits in HS. rewrite HS by (try assumption; lia).
  cbn [bind]. unfold first_cell. fold top. pose proof top_w as HW.
  rewrite N.sub_diag, N.mul_0_l, N.mul_0_r. change (2 ^ 0) with 1. rewrite N.mul_1_r, N.sub_0_r, N.ltb_irrefl, HK.
  cbn [bind]. f_equal. f_equal. unfold wrap.
  replace (top + p + (2 ^ w - 1)) with (top + p - 1 + 1 * 2 ^ w) by lia.
  rewrite N.mod_add by (apply N.pow_nonzero; lia). apply N.mod_small. lia.
Qed.

Lemma in_cell : forall l p x, prefix c l x = p <-> p * csize l <= x /\ x < p * csize l + csize l.
Proof.
  intros l p x. unfold prefix. fold (csize l). pose proof (csize_pos l) as HP. split.
  - intros <-. pose proof (N.div_mod x (csize l) ltac:(lia)). pose proof (N.mod_lt x (csize l) ltac:(lia)). nia.
  - intros [H1 H2]. symmetry. apply (N.div_unique _ _ _ (x - p * csize l)); nia.
Qed.

Lemma csize_mul : forall l m, l <= m -> m <= cb -> csize l = csize m * 2 ^ (d * (m - l)).
Proof.
  intros l m H1 H2. unfold csize. rewrite <- N.pow_add_r. f_equal. nia.
Qed.

(** The cell of a node. *)
Definition cellp (n : nd_t) : N := n_code n - 2 ^ (d * n_level n).

(** The cell [p] of level [l] has a code in common with the leaf [n]. *)
Definition meets (l p : N) (n : nd_t) : Prop :=
  p * csize l < cellp n * csize (n_level n) + csize (n_level n) /\
  cellp n * csize (n_level n) < p * csize l + csize l.

Lemma prefix_lt : forall l x, l <= cb -> x < top -> prefix c l x < 2 ^ (d * l).
Proof.
  intros l x Hl Hx. unfold prefix. apply N.div_lt_upper_bound; [apply N.pow_nonzero; lia|].
  rewrite <- N.pow_add_r. replace (d * (cb - l) + d * l) with (d * cb) by nia. exact Hx.
Qed.

Lemma prefix_up : forall l m x, l <= m -> m <= cb -> prefix c l x = prefix c m x / 2 ^ (d * (m - l)).
Proof.
  intros l m x H1 H2. unfold prefix. rewrite N.div_div by (apply N.pow_nonzero; lia). rewrite <- N.pow_add_r.
  do 2 f_equal. nia.
Qed.

Lemma prefix_eq_up : forall l m x y, l <= m -> m <= cb -> prefix c m x = prefix c m y -> prefix c l x = prefix c l y.
Proof. intros l m x y H1 H2 H. rewrite !(prefix_up l m) by assumption. now rewrite H. Qed.

Lemma meets_point : forall l x n, prefix c (n_level n) x = cellp n -> meets l (prefix c l x) n.
Proof.
  intros l x n H. apply in_cell in H. pose proof (proj1 (in_cell l _ x) eq_refl). unfold meets. lia.
Qed.

Lemma meets_up : forall l m x n, l <= m -> m <= cb -> meets m (prefix c m x) n -> meets l (prefix c l x) n.
Proof.
  intros l m x n Hl Hm (M1 & M2). unfold meets. rewrite (prefix_up l m) by assumption.
  set (p := prefix c m x) in *. rewrite (csize_mul l m) by assumption.
  pose proof (csize_pos m). set (s := csize m) in *. set (q := 2 ^ (d * (m - l))) in *.
  assert (Hq : q <> 0) by (apply N.pow_nonzero; lia).
  pose proof (N.div_mod p q Hq). pose proof (N.mod_lt p q Hq). set (r := p / q) in *. clearbody r s q p.
  assert (r * (s * q) <= p * s) by nia. assert (p * s + s <= r * (s * q) + s * q) by nia. lia.
Qed.

Lemma shr_prefix : forall l x, l <= cb -> shr w x ((cb - l) * d) = Ok (prefix c l x).
Proof.
  intros l x Hl. destruct dw as (_ & _ & Hdw & _). unfold shr.
  replace ((cb - l) * d <? w) with true by (symmetry; apply N.ltb_lt; nia).
  rewrite N.shiftr_div_pow2. unfold prefix. do 3 f_equal. lia.
Qed.

Lemma shr_nodal : forall l m p, l <= m -> m <= cb -> p < 2 ^ (d * m) ->
  shr w (nodal d m p) ((m - l) * d) = Ok (nodal d l (p / 2 ^ (d * (m - l)))).
Proof.
  intros l m p Hl Hm Hp. destruct dw as (_ & _ & Hdw & _). unfold shr.
  replace ((m - l) * d <? w) with true by (symmetry; apply N.ltb_lt; nia).
  f_equal. rewrite N.shiftr_div_pow2. unfold nodal. replace ((m - l) * d) with (d * (m - l)) by lia.
  replace (d * m) with (d * l + d * (m - l)) by nia. rewrite N.pow_add_r.
  rewrite N.div_add_l by (apply N.pow_nonzero; lia). reflexivity.
Qed.

Variable codes : list N.
Variable leaves : list nd_t.
Hypothesis Hv : valid_codes c codes.
Hypothesis Hleaf : forall k n, nth_error leaves k = Some n ->
  n_level n <= cb /\ cellp n < 2 ^ (d * n_level n) /\ n_code n = nodal d (n_level n) (cellp n) /\
  (n_begin n < n_end n <= length codes)%nat /\
  (forall i x, nth_error codes i = Some x -> ((n_begin n <= i < n_end n)%nat <-> prefix c (n_level n) x = cellp n)).
Hypothesis Htiles : tiles 0 (map (fun n => (n_begin n, n_end n)) leaves) (length codes).

Lemma leaves_sorted : forall j k a b, (j < k)%nat -> nth_error leaves j = Some a -> nth_error leaves k = Some b ->
  cellp a * csize (n_level a) + csize (n_level a) <= cellp b * csize (n_level b).
Proof.
  intros j k a b Hjk Ha Hb.
  destruct (Hleaf j a Ha) as (La & Pa & _ & Ra & Ia). destruct (Hleaf k b Hb) as (Lb & Pb & _ & Rb & Ib).
  assert (Hord : (n_end a <= n_begin b)%nat).
  { eapply (tiles_ordered _ _ _ Htiles j k); [exact Hjk| |]; rewrite nth_error_map.
    - rewrite Ha. reflexivity.
    - rewrite Hb. reflexivity. }
  destruct (nth_error codes (n_begin a)) as [x|] eqn:Hx; [|apply nth_error_None in Hx; lia].
  destruct (nth_error codes (n_begin b)) as [y|] eqn:Hy; [|apply nth_error_None in Hy; lia].
  assert (Hxy : x <= y) by (apply (proj1 Hv (n_begin a) (n_begin b)); [lia|assumption|assumption]).
  pose proof (proj1 (Ia _ _ Hx) ltac:(lia)) as Ex. pose proof (proj1 (Ib _ _ Hy) ltac:(lia)) as Ey.
  apply in_cell in Ex. apply in_cell in Ey.
  destruct (N.le_gt_cases (cellp a * csize (n_level a) + csize (n_level a)) (cellp b * csize (n_level b))) as [|Hc]; [assumption|].
  exfalso. destruct (N.le_ge_cases (n_level a) (n_level b)) as [Hl|Hl].
  - assert (prefix c (n_level a) y = cellp a).
    { apply in_cell. split; [lia|]. rewrite (csize_mul _ _ Hl Lb) in *.
      pose proof (csize_pos (n_level b)). set (s := csize (n_level b)) in *. set (q := 2 ^ (d * (n_level b - n_level a))) in *.
      assert (cellp b + 1 <= cellp a * q + q) by nia. nia. }
    apply (Ia _ _ Hy) in H. lia.
  - assert (prefix c (n_level b) x = cellp b).
    { apply in_cell. split; [|lia]. rewrite (csize_mul _ _ Hl La) in *.
      pose proof (csize_pos (n_level a)). set (s := csize (n_level a)) in *. set (q := 2 ^ (d * (n_level a - n_level b))) in *.
      assert (cellp b * q <= cellp a) by nia. nia. }
    apply (Ib _ _ Hx) in H. lia.
Qed.

(** The shift by the full width either gives zero, or gives its argument and there are no leaves at the maximum level. *)
Definition shift_ok : Prop :=
  shift_zero \/ shift_none /\ (forall k n, nth_error leaves k = Some n -> n_level n < cb).

Lemma leaf_range : shift_ok -> forall k n, nth_error leaves k = Some n ->
  node_range E K (n_code n) (n_level n) =
  Ok (top + cellp n * csize (n_level n), top + cellp n * csize (n_level n) + csize (n_level n) - 1).
Proof.
  intros HK k n Hn. destruct (Hleaf k n Hn) as (L & P & C & _). rewrite C. apply node_range_ok; auto.
  destruct HK as [HK|[_ HK]]; [right; exact HK|left; exact (HK k n Hn)].
Qed.

Lemma find_leaves_ok : shift_ok -> forall l p, l <= cb -> p < 2 ^ (d * l) ->
  exists b e, find_leaves E K leaves (nodal d l p) l = Ok (b, e) /\ (b <= e <= length leaves)%nat /\
    ((b < e)%nat \/ l < cb \/ shift_zero ->
     forall k n, nth_error leaves k = Some n -> ((b <= k < e)%nat <-> meets l p n)).
Proof.
  intros HK l p Hl Hp. unfold find_leaves.
  destruct leaves as [|n0 lv] eqn:EL.
  { assert (exists r, node_range E K (nodal d l p) l = Ok r) as [r Hr].
    { destruct HK as [HK|[HK _]].
      - eexists. apply node_range_ok; auto.
      - destruct (N.eq_dec l cb) as [->|]; [eexists; apply node_range_none; auto|].
        eexists. apply node_range_ok; auto. left; lia. }
    rewrite Hr. cbn. exists 0%nat, 0%nat. split; [reflexivity|]. split; [lia|]. intros _ k n Hn. destruct k; discriminate. }
  rewrite <- EL in *. clear EL lv.
  set (nd := fun k => nth k leaves n0).
  assert (Hnd : forall k, (k < length leaves)%nat -> nth_error leaves k = Some (nd k)) by (intros k Hk; now apply nth_error_nth').
  assert (Hnd' : forall k n, nth_error leaves k = Some n -> (k < length leaves)%nat /\ n = nd k).
  { intros k n Hn. assert (k < length leaves)%nat by (eapply nth_error_lt; eassumption). rewrite Hnd in Hn by assumption. split; [assumption|congruence]. }
  assert (S : forall slo shi, node_range E K (nodal d l p) l = Ok (slo, shi) ->
    exists b e, find_leaves E K leaves (nodal d l p) l = Ok (b, e) /\ (b <= e <= length leaves)%nat /\
      (forall k, (k < length leaves)%nat -> ((k < b)%nat <-> top + cellp (nd k) * csize (n_level (nd k)) + csize (n_level (nd k)) - 1 < slo)) /\
      (forall k, (b <= k < length leaves)%nat -> ((k < e)%nat <-> top + cellp (nd k) * csize (n_level (nd k)) <= shi))).
  { intros slo shi Hs. unfold find_leaves. rewrite Hs. cbn [bind fst snd].
    destruct (bsearch_ok (fun k => do n <- rd leaves k; do r <- node_range E K (n_code n) (n_level n); Ok (snd r <? slo))
      (fun k => top + cellp (nd k) * csize (n_level (nd k)) + csize (n_level (nd k)) - 1 <? slo) (length leaves + 1) 0 (length leaves))
      as (b & Hb & Hb2 & Hb3); [lia| | |].
    { intros k Hk. unfold rd. rewrite Hnd by lia. cbn [bind]. rewrite (leaf_range HK k) by (apply Hnd; lia). reflexivity. }
    { intros i k Hi Hk Q. apply N.ltb_lt in Q. apply N.ltb_lt.
      destruct (Nat.eq_dec i k) as [->|Hne]; [assumption|].
      pose proof (leaves_sorted i k (nd i) (nd k) ltac:(lia) (Hnd i ltac:(lia)) (Hnd k ltac:(lia))) as Hs'.
      pose proof (csize_pos (n_level (nd k))). pose proof (csize_pos (n_level (nd i))). lia. }
    rewrite Hb. cbn [bind].
    destruct (bsearch_ok (fun k => do n <- rd leaves k; do r <- node_range E K (n_code n) (n_level n); Ok (negb (shi <? fst r)))
      (fun k => negb (shi <? top + cellp (nd k) * csize (n_level (nd k)))) (length leaves + 1) b (length leaves - b))
      as (e & He & He2 & He3); [lia| | |].
    { intros k Hk. unfold rd. rewrite Hnd by lia. cbn [bind]. rewrite (leaf_range HK k) by (apply Hnd; lia). reflexivity. }
    { intros i k Hi Hk Q. apply negb_true_iff, N.ltb_ge in Q. apply negb_true_iff, N.ltb_ge.
      destruct (Nat.eq_dec i k) as [->|Hne]; [assumption|].
      pose proof (leaves_sorted i k (nd i) (nd k) ltac:(lia) (Hnd i ltac:(lia)) (Hnd k ltac:(lia))) as Hs'.
      pose proof (csize_pos (n_level (nd k))). pose proof (csize_pos (n_level (nd i))). lia. }
    rewrite He. cbn [bind]. exists b, e. split; [reflexivity|]. split; [lia|]. split.
    - intros k Hk. rewrite (Hb3 k) by lia. apply N.ltb_lt.
    - intros k Hk. rewrite (He3 k) by lia. rewrite negb_true_iff. apply N.ltb_ge. }
  change (exists b e, find_leaves E K leaves (nodal d l p) l = Ok (b, e) /\ (b <= e <= length leaves)%nat /\
    ((b < e)%nat \/ l < cb \/ shift_zero -> forall k n, nth_error leaves k = Some n -> ((b <= k < e)%nat <-> meets l p n))).
  destruct (N.lt_ge_cases l cb) as [Hlt|Hge]; [|destruct HK as [HK|[HK Hno]]].
  3: {
    assert (l = cb) by lia. subst l.
    destruct (S _ _ (node_range_none p Hp HK)) as (b & e & Hf & Hbe & Hb & He).
    exists b, e. split; [exact Hf|]. split; [exact Hbe|]. intros Hcase k n Hn.
    destruct (Hnd' _ _ Hn) as [Hk ->]. unfold meets.
    assert (C1 : csize cb = 1) by (unfold csize; now rewrite N.sub_diag, N.mul_0_r). rewrite C1, N.mul_1_r.
    pose proof (csize_pos (n_level (nd k))) as Pk. pose proof (Hb k Hk) as Hbk.
    destruct Hcase as [Hbe'|[?|Hz]]; [|lia|].
    2: { unfold shift_zero in Hz. unfold shift_none in HK. rewrite Hz in HK. injection HK as HK.
         pose proof top_w. unfold top in *. assert (0 < 2 ^ (d * cb)) by (apply N.neq_0_lt_0, N.pow_nonzero; lia). lia. }
    assert (Hbb : (b < length leaves)%nat) by lia.
    pose proof (proj1 (He b ltac:(lia)) ltac:(lia)) as Hbe2.
    assert (Hb0 : ~ (b < b)%nat) by lia. rewrite (Hb b Hbb) in Hb0.
    pose proof (csize_pos (n_level (nd b))) as Pb.
    assert (T : 0 < top) by (unfold top; apply N.neq_0_lt_0, N.pow_nonzero; lia).
    destruct (Nat.lt_trichotomy k b) as [Hkb|[->|Hkb]].
    - split; [lia|]. pose proof (proj1 Hbk Hkb). lia.
    - split; [|lia]. intros _. lia.
    - pose proof (leaves_sorted b k (nd b) (nd k) Hkb (Hnd b Hbb) (Hnd k Hk)) as Hs'.
      pose proof (He k ltac:(lia)) as Hek. split; [|lia]. intros Hke. destruct Hke as [_ Hke]. apply Hek in Hke. lia. }
  all: destruct (S _ _ (node_range_ok l p Hl Hp ltac:(auto))) as (b & e & Hf & Hbe & Hb & He);
    exists b, e; (split; [exact Hf|]); (split; [exact Hbe|]); intros _ k n Hn;
    destruct (Hnd' _ _ Hn) as [Hk ->]; unfold meets;
    pose proof (csize_pos (n_level (nd k))) as Pk; pose proof (csize_pos l) as Pl; pose proof (Hb k Hk) as Hbk;
    destruct (Nat.lt_ge_cases k b) as [Hkb|Hkb];
    [split; [lia|]; pose proof (proj1 Hbk Hkb); lia
    |assert (Hn' : ~ (k < b)%nat) by lia; rewrite Hbk in Hn'; pose proof (He k ltac:(lia)) as Hek; split; [intros [_ Hke]; apply Hek in Hke; lia
      |intros [M1 M2]; split; [assumption|]; apply Hek; lia]].
Qed.


Lemma zoom_ok : shift_ok -> leaves <> [] -> forall ll lp v, ll <= cb -> lp < 2 ^ (d * ll) -> v < top ->
  forall fuel al, al <= cb -> fuel = N.to_nat al ->
  (zoom E K leaves (nodal d ll lp) ll v fuel al = Ok None /\ ll <= al /\ prefix c ll v = lp) \/
  exists b e m, zoom E K leaves (nodal d ll lp) ll v fuel al = Ok (Some (b, e)) /\ m <= al /\ (b < e <= length leaves)%nat /\
    (forall k n, nth_error leaves k = Some n -> ((b <= k < e)%nat <-> meets m (prefix c m v) n)).
Proof.
  intros HK Hne ll lp v Hll Hlp Hv' fuel. induction fuel as [|fuel IH]; intros al Hal Hf;
    destruct dw as (Hd & Hw & Hdw & Hcb); pose proof (prefix_lt al v Hal Hv') as Hp;
    cbn [zoom]; rewrite shr_prefix by assumption; cbn [bind];
    assert (H1 : shl w 1 (al * d) = Ok (2 ^ (d * al)))
      by (unfold shl; replace (al * d <? w) with true by (symmetry; apply N.ltb_lt; nia);
          f_equal; rewrite N.shiftl_mul_pow2, N.mul_1_l; replace (al * d) with (d * al) by lia;
          apply N.mod_small; apply N.pow_lt_mono_r; nia);
    rewrite H1; cbn [bind];
    replace (wrap w (prefix c al v + 2 ^ (d * al))) with (nodal d al (prefix c al v))
      by (unfold nodal; rewrite (N.add_comm (prefix c al v)); symmetry; apply N.mod_small; rewrite cb_cbits in Hal;
          pose proof (nodal_lt w d al (prefix c al v) Hd Hw Hal Hp) as HN; exact HN).
  all: destruct (find_leaves_ok HK al (prefix c al v) Hal Hp) as (b & e & Hfl & Hbe & Hiff).
  all: assert (HF : exists fits, (if ll <=? al then do x <- shr w (nodal d al (prefix c al v)) ((al - ll) * d); Ok (x =? nodal d ll lp) else Ok false) = Ok fits /\
    (fits = true -> ll <= al /\ prefix c ll v = lp)).
  1, 3: destruct (N.leb_spec ll al) as [Hle|Hgt]; [|exists false; split; [reflexivity|discriminate]];
    rewrite shr_nodal by assumption; cbn [bind]; eexists; split; [reflexivity|]; intros HE; apply N.eqb_eq in HE;
    split; [assumption|]; rewrite (prefix_up ll al) by assumption; unfold nodal in HE; lia.
  all: destruct HF as (fits & -> & HF); cbn [bind]; destruct fits; [left; split; [reflexivity|]; auto|];
    rewrite Hfl; cbn [bind fst snd]; destruct (b =? e)%nat eqn:BE.
  - exfalso. apply Nat.eqb_eq in BE. subst e. assert (al = 0) by lia. subst al.
    destruct leaves as [|n0 lv] eqn:EL; [congruence|]. rewrite <- EL in *.
    assert (Hn0 : nth_error leaves 0 = Some n0) by (rewrite EL; reflexivity).
    pose proof (Hleaf 0 n0 Hn0) as (L0 & P0 & _). pose proof (cell_top _ _ L0 P0) as HT.
    assert ((b <= 0 < b)%nat); [|lia]. apply (Hiff ltac:(right; left; lia) 0%nat n0 Hn0).
    replace (prefix c 0 v) with 0. 2: { rewrite N.mul_0_r in Hp. change (2 ^ 0) with 1 in Hp. lia. }
    assert (C0 : csize 0 = top) by (unfold csize; now rewrite N.sub_0_r).
    unfold meets. rewrite N.mul_0_l, C0. pose proof (csize_pos (n_level n0)). lia.
  - apply Nat.eqb_neq in BE. right. exists b, e, al. split; [reflexivity|]. split; [lia|]. split; [lia|]. apply Hiff. left. lia.
  - destruct (N.eq_dec al 0) as [->|Hz]; [discriminate|].
    destruct (IH (al - 1)) as [(A1 & A2 & A3)|(b' & e' & m & A1 & A2 & A3 & A4)]; try lia.
    + left. split; [exact A1|]. split; [lia|assumption].
    + right. exists b', e', m. split; [exact A1|]. split; [lia|]. split; [lia|exact A4].
  - apply Nat.eqb_neq in BE. right. exists b, e, al. split; [reflexivity|]. split; [lia|]. split; [lia|]. apply Hiff. left. lia.
Qed.

End Search.
