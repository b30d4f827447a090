(** The table-driven encoders and decoders are bit interleaving and de-interleaving. *)
From Coq Require Import List Arith NArith ZArith Lia Bool.
From Coq Require Import ZifyBool ZifyN ZifyNat.
From Verif Require Import Base Config MortonLUT Morton.
Import ListNotations.
Open Scope N_scope.
Ltac Zify.zify_post_hook ::= Z.div_mod_to_equations.

Lemma wrap_testbit : forall w x j, N.testbit (wrap w x) j = (j <? w) && N.testbit x j.
Proof.
  intros w x j. unfold wrap.
  destruct (j <? w) eqn:E.
  - rewrite N.mod_pow2_bits_low by (apply N.ltb_lt; exact E). reflexivity.
  - rewrite N.mod_pow2_bits_high by (apply N.ltb_ge; exact E). reflexivity.
Qed.

Lemma testbit_lt_pow2 : forall x n j, x < 2 ^ n -> n <= j -> N.testbit x j = false.
Proof.
  intros x n j Hx Hj.
  rewrite <- (N.mod_small x (2 ^ n)) by exact Hx.
  now apply N.mod_pow2_bits_high.
Qed.

Lemma lt_pow2_testbit : forall x n, (forall j, n <= j -> N.testbit x j = false) -> x < 2 ^ n.
Proof.
  intros x n H.
  assert (E : x mod 2 ^ n = x).
  { apply N.bits_inj. intros j. destruct (j <? n) eqn:Ej.
    - apply N.mod_pow2_bits_low. now apply N.ltb_lt.
    - apply N.ltb_ge in Ej. rewrite N.mod_pow2_bits_high by exact Ej. symmetry. now apply H. }
  rewrite <- E. apply N.mod_lt. apply N.pow_nonzero. lia.
Qed.

Lemma land_ones_testbit : forall x n j,
  N.testbit (N.land x (N.ones n)) j = (j <? n) && N.testbit x j.
Proof.
  intros. rewrite N.land_spec. destruct (j <? n) eqn:E.
  - rewrite N.ones_spec_low by (now apply N.ltb_lt). apply andb_true_r.
  - rewrite N.ones_spec_high by (now apply N.ltb_ge). apply andb_false_r.
Qed.

(** * Table checks *)

Lemma lut_lengths :
  map (@length N)
    [Morton3D_encode_x_256; Morton3D_encode_y_256; Morton3D_encode_z_256;
     Morton2D_encode_x_256; Morton2D_encode_y_256;
     Morton2D_decode_x_256; Morton2D_decode_y_256] = repeat 256%nat 7
  /\ map (@length N) [Morton3D_decode_x_512; Morton3D_decode_y_512; Morton3D_decode_z_512]
     = repeat 512%nat 3.
Proof. split; vm_compute; reflexivity. Qed.

Lemma in_upto : forall n i, In i (upto n) <-> i < N.of_nat n.
Proof.
  induction n as [|n IH]; intros i; cbn [upto].
  - simpl. lia.
  - rewrite in_app_iff, IH. simpl. lia.
Qed.

(** [enc_ok d k t]: entry [b] of [t] spreads the 8 bits of [b] to the positions [d*i+k]. *)
Definition enc_ok (d k : N) (t : list N) : Prop :=
  forall b j, b < 256 ->
    N.testbit (lut t b) j = (j mod d =? k) && (j / d <? 8) && N.testbit b (j / d).

Definition enc_check (d k : N) (t : list N) : bool :=
  forallb (fun b =>
    (lut t b <? 2 ^ (8 * d)) &&
    forallb (fun j => eqb (N.testbit (lut t b) j) ((j mod d =? k) && N.testbit b (j / d)))
      (upto (N.to_nat (8 * d)))) (upto 256).

Lemma enc_check_ok : forall d k t, 0 < d -> enc_check d k t = true -> enc_ok d k t.
Proof.
  intros d k t Hd H b j Hb. unfold enc_check in H.
  rewrite forallb_forall in H.
  assert (Hin : In b (upto 256)) by (apply in_upto; lia).
  specialize (H b Hin). apply andb_true_iff in H. destruct H as [Hlt H].
  rewrite forallb_forall in H.
  destruct (j <? 8 * d) eqn:Ej.
  - apply N.ltb_lt in Ej.
    assert (Hj : In j (upto (N.to_nat (8 * d)))) by (apply in_upto; lia).
    specialize (H j Hj). apply eqb_prop in H. rewrite H.
    assert (Hq : (j / d <? 8) = true).
    { apply N.ltb_lt. apply N.div_lt_upper_bound; lia. }
    rewrite Hq, andb_true_r. reflexivity.
  - apply N.ltb_ge in Ej.
    assert (Hq : (j / d <? 8) = false).
    { apply N.ltb_ge. apply N.div_le_lower_bound; lia. }
    rewrite Hq, andb_false_r. simpl.
    apply testbit_lt_pow2 with (n := 8 * d); [now apply N.ltb_lt | exact Ej].
Qed.

Lemma enc3_x : enc_ok 3 0 Morton3D_encode_x_256.
Proof. apply enc_check_ok; [lia | vm_compute; reflexivity]. Qed.
Lemma enc3_y : enc_ok 3 1 Morton3D_encode_y_256.
Proof. apply enc_check_ok; [lia | vm_compute; reflexivity]. Qed.
Lemma enc3_z : enc_ok 3 2 Morton3D_encode_z_256.
Proof. apply enc_check_ok; [lia | vm_compute; reflexivity]. Qed.
Lemma enc2_x : enc_ok 2 0 Morton2D_encode_x_256.
Proof. apply enc_check_ok; [lia | vm_compute; reflexivity]. Qed.
Lemma enc2_y : enc_ok 2 1 Morton2D_encode_y_256.
Proof. apply enc_check_ok; [lia | vm_compute; reflexivity]. Qed.

(** [dec_ok d k n t]: entry [b < 2^(d*n)] of [t] gathers the [n] bits of [b] at positions [d*i+k]. *)
Definition dec_ok (d k n : N) (t : list N) : Prop :=
  forall b j, b < 2 ^ (d * n) ->
    N.testbit (lut t b) j = (j <? n) && N.testbit b (d * j + k).

Definition dec_check (d k n : N) (t : list N) : bool :=
  forallb (fun b =>
    (lut t b <? 2 ^ n) &&
    forallb (fun j => eqb (N.testbit (lut t b) j) (N.testbit b (d * j + k)))
      (upto (N.to_nat n))) (upto (N.to_nat (2 ^ (d * n)))).

Lemma dec_check_ok : forall d k n t, dec_check d k n t = true -> dec_ok d k n t.
Proof.
  intros d k n t H b j Hb. unfold dec_check in H.
  rewrite forallb_forall in H.
  assert (Hin : In b (upto (N.to_nat (2 ^ (d * n))))) by (apply in_upto; lia).
  specialize (H b Hin). apply andb_true_iff in H. destruct H as [Hlt H].
  rewrite forallb_forall in H.
  destruct (j <? n) eqn:Ej.
  - apply N.ltb_lt in Ej.
    assert (Hj : In j (upto (N.to_nat n))) by (apply in_upto; lia).
    specialize (H j Hj). apply eqb_prop in H. rewrite H. reflexivity.
  - apply N.ltb_ge in Ej. simpl.
    apply testbit_lt_pow2 with (n := n); [now apply N.ltb_lt | exact Ej].
Qed.

Lemma dec3_x : dec_ok 3 0 3 Morton3D_decode_x_512.
Proof. apply dec_check_ok. vm_compute; reflexivity. Qed.
Lemma dec3_y : dec_ok 3 1 3 Morton3D_decode_y_512.
Proof. apply dec_check_ok. vm_compute; reflexivity. Qed.
Lemma dec3_z : dec_ok 3 2 3 Morton3D_decode_z_512.
Proof. apply dec_check_ok. vm_compute; reflexivity. Qed.
Lemma dec2_x : dec_ok 2 0 4 Morton2D_decode_x_256.
Proof. apply dec_check_ok. vm_compute; reflexivity. Qed.
Lemma dec2_y : dec_ok 2 1 4 Morton2D_decode_y_256.
Proof. apply dec_check_ok. vm_compute; reflexivity. Qed.

(** * Encoding *)

Lemma byte_testbit : forall x s j,
  N.testbit (N.land (N.shiftr x s) 255) j = (j <? 8) && N.testbit x (j + s).
Proof.
  intros. change 255 with (N.ones 8). rewrite land_ones_testbit, N.shiftr_spec'. reflexivity.
Qed.

Lemma byte_lt : forall x s, N.land (N.shiftr x s) 255 < 256.
Proof.
  intros. change 256 with (2 ^ 8). apply lt_pow2_testbit. intros j Hj.
  rewrite byte_testbit. replace (j <? 8) with false by (symmetry; lia). reflexivity.
Qed.

Lemma enc_entry : forall d k t x s j, 0 < d -> enc_ok d k t ->
  N.testbit (lut t (N.land (N.shiftr x s) 255)) j
  = (j mod d =? k) && (j / d <? 8) && N.testbit x (j / d + s).
Proof.
  intros d k t x s j Hd H. rewrite H by apply byte_lt. rewrite byte_testbit.
  destruct (j mod d =? k), (j / d <? 8); simpl; reflexivity.
Qed.

(** Selection of the coordinate a bit of the code comes from. *)
Definition sel3 (x y z k : N) : N := if k =? 0 then x else if k =? 1 then y else z.
Definition sel2 (x y k : N) : N := if k =? 0 then x else y.

Definition inv3 (w x y z s a : N) : Prop :=
  forall j, N.testbit a j = (j <? w) && N.testbit (sel3 x y z (j mod 3)) (j / 3 + s).

Lemma shiftl_testbit : forall a n j,
  N.testbit (N.shiftl a n) j = (n <=? j) && N.testbit a (j - n).
Proof.
  intros. destruct (n <=? j) eqn:E.
  - rewrite N.shiftl_spec_high'; [reflexivity | lia].
  - rewrite N.shiftl_spec_low; [reflexivity | lia].
Qed.

Lemma m3D_step_inv : forall w x y z a i,
  1 <= i -> inv3 w x y z (i * 8) a ->
  inv3 w x y z ((i - 1) * 8) (m3D_e_step w x y z a i).
Proof.
  intros w x y z a i Hi Ha j. unfold m3D_e_step. cbv zeta.
  rewrite wrap_testbit. destruct (j <? w) eqn:Ew; [|reflexivity]. cbn [andb].
  rewrite !N.lor_spec, wrap_testbit, Ew, shiftl_testbit, Ha.
  rewrite (enc_entry 3 2) by (try lia; apply enc3_z).
  rewrite (enc_entry 3 1) by (try lia; apply enc3_y).
  rewrite (enc_entry 3 0) by (try lia; apply enc3_x).
  cbn [andb].
  destruct (24 <=? j) eqn:E24.
  - assert (Hq : (j / 3 <? 8) = false) by lia. rewrite Hq, !andb_false_r. cbn [andb orb].
    rewrite !orb_false_r.
    assert (Hw : (j - 24 <? w) = true) by lia. rewrite Hw. cbn [andb].
    f_equal; [f_equal|]; lia.
  - assert (Hq : (j / 3 <? 8) = true) by lia. rewrite Hq, !andb_true_r. cbn [andb orb].
    unfold sel3.
    assert (Hk : j mod 3 = 0 \/ j mod 3 = 1 \/ j mod 3 = 2) by lia.
    destruct Hk as [-> | [-> | ->]]; cbn [N.eqb Pos.eqb andb orb]; rewrite ?orb_false_r; reflexivity.
Qed.

Lemma m3D_e_sLUT_testbit : forall w x y z j,
  x < 2 ^ 32 -> y < 2 ^ 32 -> z < 2 ^ 32 ->
  N.testbit (m3D_e_sLUT w x y z) j = (j <? w) && N.testbit (sel3 x y z (j mod 3)) (j / 3).
Proof.
  intros w x y z j Hx Hy Hz.
  assert (H0 : inv3 w x y z (4 * 8) 0).
  { intros i. rewrite N.bits_0. symmetry. apply andb_false_intro2.
    unfold sel3. destruct (i mod 3 =? 0); [|destruct (i mod 3 =? 1)];
      (eapply testbit_lt_pow2; [eassumption|]; lia). }
  apply m3D_step_inv in H0; [|lia]. change ((4 - 1) * 8) with (3 * 8) in H0.
  apply m3D_step_inv in H0; [|lia]. change ((3 - 1) * 8) with (2 * 8) in H0.
  apply m3D_step_inv in H0; [|lia]. change ((2 - 1) * 8) with (1 * 8) in H0.
  apply m3D_step_inv in H0; [|lia]. change ((1 - 1) * 8) with 0 in H0.
  specialize (H0 j). rewrite N.add_0_r in H0. exact H0.
Qed.

Definition inv2 (w x y s a : N) : Prop :=
  forall j, N.testbit a j = (j <? w) && N.testbit (sel2 x y (j mod 2)) (j / 2 + s).

Lemma m2D_step_inv : forall w x y a i,
  1 <= i -> inv2 w x y (i * 8) a ->
  inv2 w x y ((i - 1) * 8) (m2D_e_step w x y a i).
Proof.
  intros w x y a i Hi Ha j. unfold m2D_e_step. cbv zeta.
  rewrite wrap_testbit. destruct (j <? w) eqn:Ew; [|reflexivity]. cbn [andb].
  rewrite !N.lor_spec, wrap_testbit, Ew, shiftl_testbit, Ha.
  rewrite (enc_entry 2 1) by (try lia; apply enc2_y).
  rewrite (enc_entry 2 0) by (try lia; apply enc2_x).
  cbn [andb].
  destruct (16 <=? j) eqn:E16.
  - assert (Hq : (j / 2 <? 8) = false) by lia. rewrite Hq, !andb_false_r. cbn [andb orb].
    rewrite !orb_false_r.
    assert (Hw : (j - 16 <? w) = true) by lia. rewrite Hw. cbn [andb].
    f_equal; [f_equal|]; lia.
  - assert (Hq : (j / 2 <? 8) = true) by lia. rewrite Hq, !andb_true_r. cbn [andb orb].
    unfold sel2.
    assert (Hk : j mod 2 = 0 \/ j mod 2 = 1) by lia.
    destruct Hk as [-> | ->]; cbn [N.eqb Pos.eqb andb orb]; rewrite ?orb_false_r; reflexivity.
Qed.

Lemma m2D_e_sLUT_testbit : forall w x y j,
  x < 2 ^ 32 -> y < 2 ^ 32 ->
  N.testbit (m2D_e_sLUT w x y) j = (j <? w) && N.testbit (sel2 x y (j mod 2)) (j / 2).
Proof.
  intros w x y j Hx Hy.
  assert (H0 : inv2 w x y (4 * 8) 0).
  { intros i. rewrite N.bits_0. symmetry. apply andb_false_intro2.
    unfold sel2. destruct (i mod 2 =? 0);
      (eapply testbit_lt_pow2; [eassumption|]; lia). }
  apply m2D_step_inv in H0; [|lia]. change ((4 - 1) * 8) with (3 * 8) in H0.
  apply m2D_step_inv in H0; [|lia]. change ((3 - 1) * 8) with (2 * 8) in H0.
  apply m2D_step_inv in H0; [|lia]. change ((2 - 1) * 8) with (1 * 8) in H0.
  apply m2D_step_inv in H0; [|lia]. change ((1 - 1) * 8) with 0 in H0.
  specialize (H0 j). rewrite N.add_0_r in H0. exact H0.
Qed.

Lemma wrap_small : forall w x, x < 2 ^ w -> wrap w x = x.
Proof. intros. unfold wrap. now apply N.mod_small. Qed.

Lemma pow2_mono : forall a b, a <= b -> 2 ^ a <= 2 ^ b.
Proof. intros. apply N.pow_le_mono_r; lia. Qed.

Lemma cbitsc_val : forall c,
  cbitsc c = match c with C3_64 => 21 | C3_32 => 10 | C2_64 => 31 | C2_32 => 15 end.
Proof. destruct c; reflexivity. Qed.

(** Main encoder lemma: bit [j] of the code is bit [j / d] of coordinate [j mod d]. *)
Lemma morton_encode_testbit : forall c cs,
  length cs = dim c -> Forall (fun x => x < 2 ^ cbitsc c) cs ->
  exists code, morton_encode c cs = Ok code /\
    forall j, N.testbit code j = N.testbit (nth (N.to_nat (j mod dimN c)) cs 0) (j / dimN c).
Proof.
  intros c cs Hl HF.
  assert (H32 : 2 ^ cbitsc c <= 2 ^ 32) by (apply pow2_mono; rewrite cbitsc_val; destruct c; lia).
  assert (Hcb := cbitsc_val c).
  destruct c; cbn [dim dimN] in *;
  (destruct cs as [|x [|y [|z [|u cs]]]]; try discriminate);
  repeat match goal with H : Forall _ (_ :: _) |- _ => inversion H; subst; clear H end;
  (eexists; split; [reflexivity|]); intros j;
  repeat rewrite (wrap_small 32) by lia.
  - rewrite m3D_e_sLUT_testbit by lia.
    assert (Hk : j mod 3 = 0 \/ j mod 3 = 1 \/ j mod 3 = 2) by lia.
    destruct (j <? 64) eqn:Ej; cbn [andb].
    + destruct Hk as [-> | [-> | ->]]; reflexivity.
    + symmetry. destruct Hk as [-> | [-> | ->]];
        (eapply testbit_lt_pow2; [eassumption | rewrite Hcb; lia]).
  - rewrite m3D_e_sLUT_testbit by lia.
    assert (Hk : j mod 3 = 0 \/ j mod 3 = 1 \/ j mod 3 = 2) by lia.
    destruct (j <? 32) eqn:Ej; cbn [andb].
    + destruct Hk as [-> | [-> | ->]]; reflexivity.
    + symmetry. destruct Hk as [-> | [-> | ->]];
        (eapply testbit_lt_pow2; [eassumption | rewrite Hcb; lia]).
  - rewrite m2D_e_sLUT_testbit by lia.
    assert (Hk : j mod 2 = 0 \/ j mod 2 = 1) by lia.
    destruct (j <? 64) eqn:Ej; cbn [andb].
    + destruct Hk as [-> | ->]; reflexivity.
    + symmetry. destruct Hk as [-> | ->];
        (eapply testbit_lt_pow2; [eassumption | rewrite Hcb; lia]).
  - rewrite m2D_e_sLUT_testbit by lia.
    assert (Hk : j mod 2 = 0 \/ j mod 2 = 1) by lia.
    destruct (j <? 32) eqn:Ej; cbn [andb].
    + destruct Hk as [-> | ->]; reflexivity.
    + symmetry. destruct Hk as [-> | ->];
        (eapply testbit_lt_pow2; [eassumption | rewrite Hcb; lia]).
Qed.

Lemma morton_encode_lt : forall c cs code,
  length cs = dim c -> Forall (fun x => x < 2 ^ cbitsc c) cs ->
  morton_encode c cs = Ok code -> code < 2 ^ (dimN c * cbitsc c).
Proof.
  intros c cs code Hl HF He.
  destruct (morton_encode_testbit c cs Hl HF) as [code' [He' Hb]].
  rewrite He in He'. injection He' as <-.
  apply lt_pow2_testbit. intros j Hj. rewrite Hb.
  assert (Hd : 0 < dimN c) by (destruct c; simpl; lia).
  assert (Hk : (N.to_nat (j mod dimN c) < length cs)%nat).
  { rewrite Hl. assert (j mod dimN c < dimN c) by (apply N.mod_lt; lia).
    destruct c; cbn [dim dimN] in *; lia. }
  eapply testbit_lt_pow2 with (n := cbitsc c).
  - rewrite Forall_forall in HF. apply HF. now apply nth_In.
  - apply N.div_le_lower_bound; lia.
Qed.

(** * Decoding *)

Lemma chunk_testbit : forall x s n j,
  N.testbit (N.land (N.shiftr x s) (N.ones n)) j = (j <? n) && N.testbit x (j + s).
Proof. intros. rewrite land_ones_testbit, N.shiftr_spec'. reflexivity. Qed.

Lemma chunk_lt : forall x s n, N.land (N.shiftr x s) (N.ones n) < 2 ^ n.
Proof.
  intros. apply lt_pow2_testbit. intros j Hj. rewrite chunk_testbit.
  replace (j <? n) with false by (symmetry; lia). reflexivity.
Qed.

Lemma decode_loop : forall d k n t w m L, 0 < n -> 0 < d -> k < d ->
  dec_ok d k n t -> n * N.of_nat L <= w ->
  forall j,
  N.testbit (fold_left
    (fun a i => N.lor a (wrap w (N.shiftl (lut t (N.land (N.shiftr m (i * (d * n))) (N.ones (d * n)))) (n * i))))
    (upto L) 0) j = (j <? n * N.of_nat L) && N.testbit m (d * j + k).
Proof.
  intros d k n t w m L Hn Hd Hk Ht. induction L as [|L IH]; intros HL j.
  - cbn [upto fold_left]. rewrite N.bits_0. replace (n * N.of_nat 0) with 0 by lia.
    replace (j <? 0) with false by (symmetry; lia). reflexivity.
  - cbn [upto]. rewrite fold_left_app. cbn [fold_left].
    rewrite N.lor_spec, IH by nia.
    rewrite wrap_testbit, shiftl_testbit.
    rewrite Ht by apply chunk_lt. rewrite chunk_testbit.
    set (l := N.of_nat L) in *.
    replace (N.of_nat (S L)) with (l + 1) in * by lia.
    destruct (j <? n * l) eqn:E1.
    + replace (n * l <=? j) with false by (symmetry; nia).
      rewrite andb_false_r. cbn [andb]. rewrite orb_false_r.
      replace (j <? n * (l + 1)) with true by (symmetry; nia). reflexivity.
    + cbn [andb orb].
      replace (n * l <=? j) with true by (symmetry; nia). cbn [andb].
      destruct (j <? n * (l + 1)) eqn:E2.
      * replace (j - n * l <? n) with true by (symmetry; nia).
        replace (j <? w) with true by (symmetry; nia). cbn [andb].
        replace (d * (j - n * l) + k <? d * n) with true by (symmetry; nia). cbn [andb].
        f_equal. nia.
      * replace (j - n * l <? n) with false by (symmetry; nia).
        rewrite andb_false_r. reflexivity.
Qed.

Lemma fold_left_ext_in : forall {A B} (f g : A -> B -> A) l a,
  (forall a b, f a b = g a b) -> fold_left f l a = fold_left g l a.
Proof. induction l; intros; simpl; auto. rewrite H. apply IHl; auto. Qed.

Lemma decode3_testbit : forall w cw m k t j, (w = 32 \/ w = 64) -> cw * 2 = w -> k < 3 ->
  dec_ok 3 k 3 t -> m < 2 ^ (3 * cbits w 3) ->
  N.testbit (morton3D_DecodeCoord_LUT256 w cw m t) j = N.testbit m (3 * j + k).
Proof.
  intros w cw m k t j Hw Hcw Hk Ht Hm. unfold morton3D_DecodeCoord_LUT256.
  rewrite wrap_testbit.
  pose proof (decode_loop 3 k 3 t w m (if w <=? 32 then 4%nat else 7%nat)) as HD.
  change (N.ones (3 * 3)) with 511 in HD. change (3 * 3) with 9 in HD.
  rewrite HD; try lia; try assumption.
  2:{ destruct Hw as [-> | ->]; simpl; lia. }
  assert (Hcut : forall b, 3 * b <= 3 * j -> 3 * cbits w 3 <= 3 * b -> N.testbit m (3 * j + k) = false).
  { intros b H1 H2. eapply testbit_lt_pow2; [exact Hm | lia]. }
  destruct Hw as [-> | ->]; cbn [N.leb N.compare Pos.compare Pos.compare_cont].
  - assert (Hc : cbits 32 3 = 10) by reflexivity. rewrite Hc in *.
    destruct (j <? cw) eqn:E1; destruct (j <? 3 * N.of_nat 4) eqn:E2; cbn [andb]; try reflexivity;
      symmetry; apply (Hcut 10); lia.
  - assert (Hc : cbits 64 3 = 21) by reflexivity. rewrite Hc in *.
    destruct (j <? cw) eqn:E1; destruct (j <? 3 * N.of_nat 7) eqn:E2; cbn [andb]; try reflexivity;
      symmetry; apply (Hcut 21); lia.
Qed.

Lemma decode2_testbit : forall w cw m k t j, (w = 32 \/ w = 64) -> cw * 2 = w -> k < 2 ->
  dec_ok 2 k 4 t -> m < 2 ^ (2 * cbits w 2) ->
  N.testbit (morton2D_DecodeCoord_LUT256 w cw m t) j = N.testbit m (2 * j + k).
Proof.
  intros w cw m k t j Hw Hcw Hk Ht Hm. unfold morton2D_DecodeCoord_LUT256.
  rewrite wrap_testbit.
  pose proof (decode_loop 2 k 4 t w m (N.to_nat (w / 8))) as HD.
  change (N.ones (2 * 4)) with 255 in HD. change (2 * 4) with 8 in HD.
  rewrite HD; try lia; try assumption.
  assert (Hcut : forall b, 2 * b <= 2 * j -> 2 * cbits w 2 <= 2 * b -> N.testbit m (2 * j + k) = false).
  { intros b H1 H2. eapply testbit_lt_pow2; [exact Hm | lia]. }
  destruct Hw as [-> | ->].
  - assert (Hc : cbits 32 2 = 15) by reflexivity. rewrite Hc in *.
    destruct (j <? cw) eqn:E1; destruct (j <? 4 * N.of_nat (N.to_nat (32 / 8))) eqn:E2; cbn [andb];
      try reflexivity; symmetry; apply (Hcut 15); lia.
  - assert (Hc : cbits 64 2 = 31) by reflexivity. rewrite Hc in *.
    destruct (j <? cw) eqn:E1; destruct (j <? 4 * N.of_nat (N.to_nat (64 / 8))) eqn:E2; cbn [andb];
      try reflexivity; symmetry; apply (Hcut 31); lia.
Qed.

(** Main decoder lemma. *)
Lemma morton_decode_testbit : forall c code, code < 2 ^ (dimN c * cbitsc c) ->
  length (morton_decode c code) = dim c /\
  forall k j, k < dimN c ->
    N.testbit (nth (N.to_nat k) (morton_decode c code) 0) j = N.testbit code (dimN c * j + k).
Proof.
  intros c code H. split; [destruct c; reflexivity|]. intros k j Hk.
  destruct c; cbn [dimN] in *; unfold morton_decode.
  - assert (Hc : k = 0 \/ k = 1 \/ k = 2) by lia.
    destruct Hc as [-> | [-> | ->]]; cbn [nth N.to_nat Pos.to_nat Pos.iter_op];
      apply decode3_testbit; try (right; reflexivity); try lia; try exact H;
      first [apply dec3_x | apply dec3_y | apply dec3_z].
  - assert (Hc : k = 0 \/ k = 1 \/ k = 2) by lia.
    destruct Hc as [-> | [-> | ->]]; cbn [nth N.to_nat Pos.to_nat Pos.iter_op];
      apply decode3_testbit; try (left; reflexivity); try lia; try exact H;
      first [apply dec3_x | apply dec3_y | apply dec3_z].
  - assert (Hc : k = 0 \/ k = 1) by lia.
    destruct Hc as [-> | ->]; cbn [nth N.to_nat Pos.to_nat Pos.iter_op];
      apply decode2_testbit; try (right; reflexivity); try lia; try exact H;
      first [apply dec2_x | apply dec2_y].
  - assert (Hc : k = 0 \/ k = 1) by lia.
    destruct Hc as [-> | ->]; cbn [nth N.to_nat Pos.to_nat Pos.iter_op];
      apply decode2_testbit; try (left; reflexivity); try lia; try exact H;
      first [apply dec2_x | apply dec2_y].
Qed.
