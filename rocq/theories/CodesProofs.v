(** Consequences for codes: round trips, prefixes and cells, levels, node ordering. *)
From Coq Require Import List Arith NArith ZArith Lia Bool.
From Coq Require Import ZifyBool ZifyN ZifyNat.
From Verif Require Import Base Config MortonLUT Morton MortonProofs.
Import ListNotations.
Open Scope N_scope.
Ltac Zify.zify_post_hook ::= Z.div_mod_to_equations.

Lemma dimN_pos : forall c, 0 < dimN c.
Proof. destruct c; simpl; lia. Qed.

Lemma dim_dimN : forall c, N.of_nat (dim c) = dimN c.
Proof. destruct c; reflexivity. Qed.

Lemma morton_encode_ok_inv : forall c cs code, morton_encode c cs = Ok code -> length cs = dim c.
Proof.
  intros c cs code H. destruct c; cbn [morton_encode] in H;
    destruct cs as [|x [|y [|z [|u cs]]]]; try discriminate; reflexivity.
Qed.

Lemma nth_ext_N : forall (l1 l2 : list N) n, length l1 = n -> length l2 = n ->
  (forall k, k < N.of_nat n -> nth (N.to_nat k) l1 0 = nth (N.to_nat k) l2 0) -> l1 = l2.
Proof.
  intros l1 l2 n H1 H2 H. apply nth_ext with (d := 0) (d' := 0); [congruence|].
  intros i Hi. specialize (H (N.of_nat i)). rewrite Nnat.Nat2N.id in H. apply H. lia.
Qed.

Lemma decode_encode : forall c cs code,
  length cs = dim c -> Forall (fun x => x < 2 ^ cbitsc c) cs ->
  morton_encode c cs = Ok code -> morton_decode c code = cs.
Proof.
  intros c cs code Hl HF He.
  pose proof (morton_encode_lt c cs code Hl HF He) as Hlt.
  destruct (morton_encode_testbit c cs Hl HF) as [code' [He' Hb]].
  rewrite He in He'. injection He' as <-.
  destruct (morton_decode_testbit c code Hlt) as [Hdl Hd].
  apply nth_ext_N with (n := dim c); try assumption.
  intros k Hk. rewrite dim_dimN in Hk.
  apply N.bits_inj. intros j. rewrite Hd by exact Hk. rewrite Hb.
  pose proof (dimN_pos c).
  replace ((dimN c * j + k) mod dimN c) with k.
  2:{ rewrite N.add_comm, N.mul_comm, N.mod_add by lia. symmetry. now apply N.mod_small. }
  replace ((dimN c * j + k) / dimN c) with j; [reflexivity|].
  rewrite N.mul_comm, N.add_comm, N.div_add by lia. rewrite N.div_small by exact Hk. lia.
Qed.

Lemma decode_range : forall c code, code < 2 ^ (dimN c * cbitsc c) ->
  length (morton_decode c code) = dim c /\
  Forall (fun x => x < 2 ^ cbitsc c) (morton_decode c code).
Proof.
  intros c code H. destruct (morton_decode_testbit c code H) as [Hl Hd]. split; [exact Hl|].
  apply Forall_forall. intros x Hx. apply In_nth with (d := 0) in Hx.
  destruct Hx as [k [Hk <-]]. apply lt_pow2_testbit. intros j Hj.
  specialize (Hd (N.of_nat k) j). rewrite Nnat.Nat2N.id in Hd.
  rewrite Hd; [|rewrite Hl in Hk; pose proof (dim_dimN c); lia].
  eapply testbit_lt_pow2; [exact H|]. pose proof (dimN_pos c). nia.
Qed.

Lemma encode_decode : forall c code, code < 2 ^ (dimN c * cbitsc c) ->
  morton_encode c (morton_decode c code) = Ok code.
Proof.
  intros c code H. destruct (decode_range c code H) as [Hl HF].
  destruct (morton_encode_testbit c _ Hl HF) as [code' [He Hb]].
  rewrite He. f_equal. apply N.bits_inj. intros j. rewrite Hb.
  destruct (morton_decode_testbit c code H) as [_ Hd].
  pose proof (dimN_pos c).
  rewrite Hd by (apply N.mod_lt; lia). f_equal.
  symmetry. rewrite N.add_comm. rewrite (N.div_mod j (dimN c)) at 1 by lia. lia.
Qed.

(** * Prefixes and cells *)

Lemma shiftr_eq_testbit : forall x y s,
  N.shiftr x s = N.shiftr y s <-> (forall j, s <= j -> N.testbit x j = N.testbit y j).
Proof.
  intros x y s. split.
  - intros H j Hj. assert (E : N.testbit (N.shiftr x s) (j - s) = N.testbit (N.shiftr y s) (j - s))
      by (rewrite H; reflexivity).
    rewrite !N.shiftr_spec' in E. replace (j - s + s) with j in E by lia. exact E.
  - intros H. apply N.bits_inj. intros j. rewrite !N.shiftr_spec'. apply H. lia.
Qed.

Lemma prefix_cells : forall c cs1 cs2 code1 code2 s,
  length cs1 = dim c -> Forall (fun x => x < 2 ^ cbitsc c) cs1 ->
  length cs2 = dim c -> Forall (fun x => x < 2 ^ cbitsc c) cs2 ->
  morton_encode c cs1 = Ok code1 -> morton_encode c cs2 = Ok code2 ->
  (N.shiftr code1 (dimN c * s) = N.shiftr code2 (dimN c * s) <->
   map (fun x => N.shiftr x s) cs1 = map (fun x => N.shiftr x s) cs2).
Proof.
  intros c cs1 cs2 code1 code2 s Hl1 HF1 Hl2 HF2 He1 He2.
  destruct (morton_encode_testbit c cs1 Hl1 HF1) as [c1 [E1 Hb1]].
  destruct (morton_encode_testbit c cs2 Hl2 HF2) as [c2 [E2 Hb2]].
  rewrite He1 in E1. injection E1 as <-. rewrite He2 in E2. injection E2 as <-.
  pose proof (dimN_pos c) as Hd. pose proof (dim_dimN c) as Hdd.
  rewrite shiftr_eq_testbit. split.
  - intros H. apply nth_ext_N with (n := dim c); try (rewrite map_length; assumption).
    intros k Hk.
    rewrite <- (N.shiftr_0_l s), !(map_nth (fun x => N.shiftr x s)).
    apply shiftr_eq_testbit. intros j Hj.
    assert (Hq : (dimN c * j + k) mod dimN c = k).
    { rewrite N.add_comm, N.mul_comm, N.mod_add by lia. apply N.mod_small. lia. }
    assert (Hr : (dimN c * j + k) / dimN c = j).
    { rewrite N.mul_comm, N.add_comm, N.div_add by lia. rewrite N.div_small; lia. }
    specialize (H (dimN c * j + k)). rewrite Hb1, Hb2, Hq, Hr in H. apply H. nia.
  - intros H j Hj. rewrite Hb1, Hb2.
    assert (E : nth (N.to_nat (j mod dimN c)) (map (fun x => N.shiftr x s) cs1) (N.shiftr 0 s)
              = nth (N.to_nat (j mod dimN c)) (map (fun x => N.shiftr x s) cs2) (N.shiftr 0 s))
      by (rewrite H; reflexivity).
    rewrite !(map_nth (fun x => N.shiftr x s)) in E.
    rewrite shiftr_eq_testbit in E. apply E.
    apply N.div_le_lower_bound; lia.
Qed.

(** * Levels *)

Lemma cbits_spec : forall w d, 0 < d -> d < w ->
  d * cbits w d < w /\ w <= d * (cbits w d + 1) /\ 1 <= cbits w d.
Proof.
  intros w d Hd Hw. unfold cbits.
  pose proof (N.div_mod w d ltac:(lia)) as E.
  pose proof (N.mod_lt w d ltac:(lia)) as L.
  set (q := w / d) in *. set (r := w mod d) in *. clearbody q r.
  destruct (r =? 0) eqn:Er.
  - apply N.eqb_eq in Er. subst r.
    assert (2 <= q) by nia. nia.
  - apply N.eqb_neq in Er. rewrite N.sub_0_r. assert (1 <= q) by nia. nia.
Qed.

Lemma log2_nodal : forall d l p, p < 2 ^ (d * l) -> N.log2 (nodal d l p) = d * l.
Proof.
  intros d l p Hp. unfold nodal. apply N.log2_unique; [lia|].
  rewrite N.pow_succ_r by lia. lia.
Qed.

Lemma tree_level_nodal : forall w d l p, 0 < d -> d * l < w -> p < 2 ^ (d * l) ->
  tree_level w d (nodal d l p) = l.
Proof.
  intros w d l p Hd Hl Hp. unfold tree_level, clz. rewrite log2_nodal by exact Hp.
  replace (w - 1 - (w - 1 - d * l)) with (l * d) by lia. apply N.div_mul. lia.
Qed.

Lemma nodal_inj : forall d l1 p1 l2 p2, 0 < d -> p1 < 2 ^ (d * l1) -> p2 < 2 ^ (d * l2) ->
  nodal d l1 p1 = nodal d l2 p2 -> l1 = l2 /\ p1 = p2.
Proof.
  intros d l1 p1 l2 p2 Hd H1 H2 H.
  assert (E : d * l1 = d * l2).
  { rewrite <- (log2_nodal d l1 p1 H1), <- (log2_nodal d l2 p2 H2). now rewrite H. }
  assert (l1 = l2) by nia. subst l2. unfold nodal in H. split; [reflexivity|lia].
Qed.

Lemma nodal_lt : forall w d l p, 0 < d -> d < w -> l <= cbits w d -> p < 2 ^ (d * l) ->
  nodal d l p < 2 ^ w.
Proof.
  intros w d l p Hd Hw Hl Hp. destruct (cbits_spec w d Hd Hw) as [Hc _].
  unfold nodal. assert (2 ^ (d * l + 1) <= 2 ^ w) by (apply pow2_mono; nia).
  rewrite N.add_1_r, N.pow_succ_r' in H. lia.
Qed.

(** First cell (at the finest level) of a cell [p] of level [l]. *)
Definition first_cell (d cb l p : N) : N := p * 2 ^ (d * (cb - l)).

Lemma nodal_shl : forall w d l p, 0 < d -> d < w -> l <= cbits w d -> p < 2 ^ (d * l) ->
  shl w (nodal d l p) ((cbits w d - l) * d)
  = Ok (2 ^ (d * cbits w d) + first_cell d (cbits w d) l p).
Proof.
  intros w d l p Hd Hw Hl Hp. destruct (cbits_spec w d Hd Hw) as [Hc [_ Hc1]].
  unfold shl.
  replace ((cbits w d - l) * d <? w) with true by (symmetry; nia).
  f_equal. rewrite wrap_small.
  - rewrite N.shiftl_mul_pow2. unfold nodal, first_cell.
    replace (d * cbits w d) with (d * l + (cbits w d - l) * d) by nia.
    rewrite N.pow_add_r. replace (d * (cbits w d - l)) with ((cbits w d - l) * d) by nia. nia.
  - rewrite N.shiftl_mul_pow2. unfold nodal.
    apply N.lt_le_trans with (2 ^ (d * l + 1) * 2 ^ ((cbits w d - l) * d)).
    + apply N.mul_lt_mono_pos_r.
      * apply N.neq_0_lt_0. apply N.pow_nonzero. lia.
      * rewrite N.add_1_r, N.pow_succ_r'. lia.
    + rewrite <- N.pow_add_r. apply pow2_mono. nia.
Qed.

Lemma node_compare_nodal : forall w d l1 p1 l2 p2, 0 < d -> d < w ->
  l1 <= cbits w d -> p1 < 2 ^ (d * l1) -> l2 <= cbits w d -> p2 < 2 ^ (d * l2) ->
  node_compare w d (nodal d l1 p1) (nodal d l2 p2)
  = Ok ((first_cell d (cbits w d) l1 p1 <? first_cell d (cbits w d) l2 p2) ||
        ((first_cell d (cbits w d) l1 p1 =? first_cell d (cbits w d) l2 p2) && (l1 <? l2))).
Proof.
  intros w d l1 p1 l2 p2 Hd Hw Hl1 Hp1 Hl2 Hp2.
  destruct (cbits_spec w d Hd Hw) as [Hc [_ Hc1]].
  unfold node_compare.
  rewrite !tree_level_nodal by (try assumption; nia).
  rewrite !nodal_shl by assumption. cbn [bind].
  f_equal. f_equal; [|f_equal]; lia.
Qed.

(** [p2] (level [l2]) lies inside [p1] (level [l1]). *)
Definition inside (d l1 p1 l2 p2 : N) : Prop := l1 <= l2 /\ N.shiftr p2 (d * (l2 - l1)) = p1.
