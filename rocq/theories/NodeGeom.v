(** Geometry of the cells and properties of the nodes in exact arithmetic. *)
From Coq Require Import List Arith ZArith NArith Reals Bool Lra Lia Permutation.
From Verif Require Import Base Config Morton MortonProofs CodesProofs Build TreeSpec BuildSpec BuildProofs BuildProps
  FOps FOpsProofs Disc DiscProofs NodeProps Tree TreeInv TreeProofs TreeSafe TreeProps RSum.
Import ListNotations.
Local Open Scope nat_scope.

Definition IZRN (n : N) : R := IZR (Z.of_N n).
Definition pow2R (l : N) : R := IZRN (2 ^ l).

Lemma pow2R_pos : forall l, (0 < pow2R l)%R.
Proof. intros l. unfold pow2R, IZRN. apply IZR_lt. assert (2 ^ l <> 0)%N by (apply N.pow_nonzero; lia). lia. Qed.

Lemma pow2R_add : forall a b, pow2R (a + b) = (pow2R a * pow2R b)%R.
Proof. intros a b. unfold pow2R, IZRN. now rewrite N.pow_add_r, N2Z.inj_mul, mult_IZR. Qed.

(** * Cells *)
Section Cells.

Variable c : cfg.
Notation cb := (cbitsc c).
Notation d := (dimN c).

Lemma low_zero : forall x s, (forall i, (i < s)%N -> N.testbit x i = false) -> x = (x / 2 ^ s * 2 ^ s)%N.
Proof.
  intros x s H. apply N.bits_inj. intros i. rewrite <- N.shiftl_mul_pow2, <- N.shiftr_div_pow2.
  destruct (N.lt_ge_cases i s) as [Hi|Hi].
  - rewrite N.shiftl_spec_low by exact Hi. now apply H.
  - rewrite N.shiftl_spec_high' by exact Hi. rewrite N.shiftr_spec'. f_equal. lia.
Qed.

Lemma usub_nodal : forall l p, (l <= cb)%N -> (p < 2 ^ (d * l))%N ->
  usub (width c) (2 ^ (d * l) + p) (2 ^ (d * l)) = p.
Proof.
  intros l p Hl Hp. unfold usub. assert (2 ^ (d * l) < 2 ^ width c)%N.
  { apply N.pow_lt_mono_r; [lia|]. rewrite N.mul_comm. now apply level_shift. }
  unfold wrap. replace (2 ^ (d * l) + p + 2 ^ width c - 2 ^ (d * l))%N with (p + 1 * 2 ^ width c)%N by lia.
  rewrite N.mod_add by (apply N.pow_nonzero; lia). apply N.mod_small. lia.
Qed.

(** First finest cell of a cell, and its coordinates. *)
Lemma first_cell_coords : forall l p, (l <= cb)%N -> (p < 2 ^ (d * l))%N ->
  let code := (p * 2 ^ (d * (cb - l)))%N in
  exists q, length q = dim c /\ Forall (fun k => (k < 2 ^ l)%N) q /\
    (code < 2 ^ (d * cb))%N /\
    morton_decode c code = map (fun k => (k * 2 ^ (cb - l))%N) q /\
    forall ks x, length ks = dim c -> Forall (fun k => (k < 2 ^ cb)%N) ks -> morton_encode c ks = Ok x ->
      (prefix c l x = p <-> map (fun k => (k / 2 ^ (cb - l))%N) ks = q).
Proof.
  intros l p Hl Hp code.
  assert (Hd : (0 < d)%N) by (destruct c; reflexivity).
  assert (Hcode : (code < 2 ^ (d * cb))%N).
  { unfold code. replace (d * cb)%N with (d * l + d * (cb - l))%N by nia. rewrite N.pow_add_r.
    apply N.mul_lt_mono_pos_r; [|exact Hp]. apply N.neq_0_lt_0, N.pow_nonzero. lia. }
  destruct (morton_decode_testbit c code Hcode) as [Hlen Hbits].
  destruct (decode_range c code Hcode) as [_ Hrange]. pose proof (encode_decode c code Hcode) as Henc.
  set (ks0 := morton_decode c code) in *.
  exists (map (fun k => (k / 2 ^ (cb - l))%N) ks0).
  split; [now rewrite map_length|]. split.
  { apply Forall_map. eapply Forall_impl; [|exact Hrange]. cbv beta. intros k Hk.
    apply N.div_lt_upper_bound; [apply N.pow_nonzero; lia|]. rewrite <- N.pow_add_r. now replace (cb - l + l)%N with cb by lia. }
  split; [exact Hcode|]. split.
  - rewrite map_map. rewrite <- (map_id ks0) at 1. apply map_ext_in. intros k Hk.
    apply low_zero. intros i Hi. apply In_nth with (d := 0%N) in Hk as (j & Hj & <-).
    rewrite <- (Nnat.Nat2N.id j). rewrite Hbits by (rewrite <- dim_dimN; lia).
    unfold code. rewrite <- N.shiftl_mul_pow2. apply N.shiftl_spec_low.
    assert (N.of_nat j < d)%N by (rewrite <- dim_dimN; lia). nia.
  - intros ks x Hk Hr He. assert (Hpc : prefix c l code = p).
    { unfold prefix, code. apply N.div_mul. apply N.pow_nonzero. lia. }
    rewrite <- Hpc at 1. unfold prefix.
    pose proof (prefix_cells c ks ks0 x code (cb - l)%N Hk Hr Hlen Hrange He Henc) as PC.
    rewrite !N.shiftr_div_pow2 in PC. rewrite PC.
    assert (Hmm : forall (z : list N), map (fun x => N.shiftr x (cb - l)) z = map (fun k => (k / 2 ^ (cb - l))%N) z)
      by (intros z; apply map_ext; intros; apply N.shiftr_div_pow2).
    rewrite !Hmm. reflexivity.
Qed.

(** The centre of a cell (R). *)
Lemma node_centre : forall l p b, (l <= cb)%N -> (p < 2 ^ (d * l))%N ->
  exists q, length q = dim c /\ Forall (fun k => (k < 2 ^ l)%N) q /\
    get_node_centre Rops c (2 ^ (d * l) + p) b
      = Ok (map (fun k => (- b / 2 + (IZRN k + 1 / 2) * (b / pow2R l))%R) q) /\
    forall ks x, length ks = dim c -> Forall (fun k => (k < 2 ^ cb)%N) ks -> morton_encode c ks = Ok x ->
      (prefix c l x = p <-> map (fun k => (k / 2 ^ (cb - l))%N) ks = q).
Proof.
  intros l p b Hl Hp. destruct (first_cell_coords l p Hl Hp) as (q & Hq & Hql & Hc & Hdec & Hiff).
  exists q. split; [exact Hq|]. split; [exact Hql|]. split; [|exact Hiff].
  assert (Hd : (0 < d)%N) by (destruct c; reflexivity).
  unfold get_node_centre. cbv zeta.
  assert (Hlev : tree_level (width c) d (2 ^ (d * l) + p) = l).
  { apply (tree_level_nodal (width c) d l p); [exact Hd|rewrite N.mul_comm; now apply level_shift|exact Hp]. }
  rewrite Hlev. unfold shl.
  assert (H1 : (l * d < width c)%N) by (now apply level_shift).
  assert (H2 : ((cb - l) * d < width c)%N) by (apply level_shift; lia).
  pose proof H1 as H1'. apply N.ltb_lt in H1. rewrite H1. cbn [bind]. apply N.ltb_lt in H2. rewrite H2. cbn [bind].
  rewrite (N.shiftl_mul_pow2 1), N.mul_1_l. rewrite (wrap_small (width c) (2 ^ (l * d))) by (apply N.pow_lt_mono_r; lia).
  rewrite (N.mul_comm l d). rewrite usub_nodal by assumption.
  rewrite N.shiftl_mul_pow2, (N.mul_comm (cb - l) d). rewrite wrap_small.
  2:{ eapply N.lt_le_trans; [exact Hc|]. apply N.pow_le_mono_r; [lia|]. destruct (cbitsc_spec c). nia. }
  rewrite Hdec, map_map. f_equal. apply map_ext. intros k.
  unfold get_node_dim. cbn [Rops ffma fofZ fmul fdiv fsub].
  change (IZR (Z.of_N (2 ^ l))) with (pow2R l). change (IZR (Z.of_N (2 ^ cb))) with (pow2R cb).
  assert (Hk : IZR (Z.of_N (k * 2 ^ (cb - l))) = (IZRN k * pow2R (cb - l))%R).
  { unfold IZRN, pow2R. unfold IZRN. now rewrite N2Z.inj_mul, mult_IZR. }
  rewrite Hk. pose proof (pow2R_pos l). pose proof (pow2R_pos (cb - l)).
  assert (Hcb : pow2R cb = (pow2R l * pow2R (cb - l))%R) by (rewrite <- pow2R_add; f_equal; lia).
  rewrite Hcb. field. lra.
Qed.

(** A coordinate whose index is in a cell is within the cell (R). *)
Lemma disc_in_cell : forall x b k q l, (0 < b)%R -> (l <= cb)%N ->
  disc_single_coord Rops c false x (1 / b)%R = Ok k -> (k / 2 ^ (cb - l))%N = q ->
  (- b / 2 + IZRN q * (b / pow2R l) <= x < - b / 2 + (IZRN q + 1) * (b / pow2R l))%R.
Proof.
  intros x b k q l Hb Hl Hk Hq. apply (disc_R_iff c x b k Hb) in Hk as (Hk & H1 & H2).
  change (IZR (Z.of_N (2 ^ cb))) with (pow2R cb) in *. change (IZR (Z.of_N k)) with (IZRN k) in *.
  pose proof (pow2R_pos l) as P1. pose proof (pow2R_pos (cb - l)) as P2.
  assert (Hcb : pow2R cb = (pow2R l * pow2R (cb - l))%R) by (rewrite <- pow2R_add; f_equal; lia).
  rewrite Hcb in *.
  assert (Hkq : (IZRN q * pow2R (cb - l) <= IZRN k /\ IZRN k + 1 <= (IZRN q + 1) * pow2R (cb - l))%R).
  { subst q. unfold pow2R, IZRN. rewrite <- !mult_IZR, <- !plus_IZR, <- mult_IZR.
    assert (2 ^ (cb - l) <> 0)%N by (apply N.pow_nonzero; lia).
    pose proof (N.mul_div_le k (2 ^ (cb - l)) H). pose proof (N.mul_succ_div_gt k (2 ^ (cb - l)) H).
    split; apply IZR_le; lia. }
  destruct Hkq as [K1 K2].
  assert (U : (0 < b / (pow2R l * pow2R (cb - l)))%R) by (apply Rdiv_lt_0_compat; [lra|nra]).
  set (u := (b / (pow2R l * pow2R (cb - l)))%R) in *.
  replace (b / pow2R l)%R with (pow2R (cb - l) * u)%R by (unfold u; field; lra).
  replace (IZRN k * b / (pow2R l * pow2R (cb - l)))%R with (IZRN k * u)%R in H1 by (unfold u; field; lra).
  replace ((IZRN k + 1) * b / (pow2R l * pow2R (cb - l)))%R with ((IZRN k + 1) * u)%R in H2 by (unfold u; field; lra).
  split; nra.
Qed.

End Cells.

(** * Sums over the particles of a node *)
Section Sums.

Variable c : cfg.
Notation accR := (@acc R).

Definition step_acc (ccols : list (list R)) (mcol : list R) (a : accR) (i : nat) : accR :=
  ((fst a + nth i mcol 0)%R, map (fun '(col, s) => (nth i mcol 0 * nth i col 0 + s)%R) (combine ccols (snd a))).

Lemma rd_nth_R : forall (l : list R) i n, length l = n -> i < n -> rd l i = Ok (nth i l 0%R).
Proof. intros l i n Hl Hi. unfold rd. rewrite (nth_error_nth' l 0%R) by lia. reflexivity. Qed.

Lemma acc_step_R : forall ccols mcol (a : accR) i n, Forall (fun col => length col = n) ccols -> length mcol = n -> i < n ->
  acc_step Rops ccols mcol a i = Ok (step_acc ccols mcol a i).
Proof.
  intros ccols mcol a i n Hc Hm Hi. unfold acc_step, step_acc. rewrite (rd_nth_R mcol i n Hm Hi). cbn [bind].
  assert (G : mapM (fun '(col, s) => do x <- rd col i; Ok (ffma Rops (nth i mcol 0%R) x s)) (combine ccols (snd a))
    = Ok (map (fun '(col, s) => (nth i mcol 0 * nth i col 0 + s)%R) (combine ccols (snd a)))).
  { generalize (snd a) as ss. induction Hc as [|col ccols Hcol Hc IH]; intros [|s ss]; try reflexivity.
    cbn [combine mapM map]. rewrite (rd_nth_R col i n Hcol Hi). cbn [bind]. rewrite IH. reflexivity. }
  rewrite G. reflexivity.
Qed.

(** Sums of masses and of mass-weighted coordinates over a list of indices, added to [a]. *)
Definition sum_acc (ccols : list (list R)) (mcol : list R) (a : accR) (l : list nat) : accR :=
  ((fst a + rsum (fun i => nth i mcol 0) l)%R,
   map (fun '(col, s) => (s + rsum (fun i => nth i mcol 0 * nth i col 0) l)%R) (combine ccols (snd a))).

Lemma map_combine_map : forall A B (f : A * B -> B) (g : A * B -> B) (la : list A) (lb : list B),
  map g (combine la (map f (combine la lb))) = map (fun '(a, b) => g (a, f (a, b))) (combine la lb).
Proof. intros A B f g la. induction la as [|a la IH]; intros [|b lb]; try reflexivity. simpl. f_equal. apply IH. Qed.

Lemma foldM_acc_R : forall ccols mcol n l (a : accR), Forall (fun col => length col = n) ccols -> length mcol = n ->
  length (snd a) = length ccols -> (forall i, In i l -> i < n) ->
  foldM (acc_step Rops ccols mcol) l a = Ok (sum_acc ccols mcol a l).
Proof.
  intros ccols mcol n l. induction l as [|i l IH]; intros a Hc Hm Ha Hl; cbn [foldM].
  - f_equal. unfold sum_acc. destruct a as [m0 ss]. cbn [fst snd] in *. f_equal; [rewrite rsum_nil; lra|].
    revert ss Ha. clear. induction ccols as [|col ccols IH]; intros [|s ss] H; try discriminate; [reflexivity|].
    cbn [combine map]. rewrite rsum_nil, Rplus_0_r. f_equal. apply IH. now injection H.
  - rewrite (acc_step_R ccols mcol a i n Hc Hm) by (apply Hl; now left). cbn [bind].
    rewrite IH; auto.
    + f_equal. unfold sum_acc, step_acc. cbn [fst snd]. f_equal; [rewrite rsum_cons; lra|].
      rewrite map_combine_map. apply map_ext. intros [col s]. rewrite rsum_cons. lra.
    + unfold step_acc. cbn [snd]. rewrite map_length, combine_length. lia.
    + intros k Hk. apply Hl. now right.
Qed.

(** Vector loop: lane [k] sums the indices congruent to [k]. *)
Lemma vec_step_R : forall ccols mcol n (lanes : list accR) i, Forall (fun col => length col = n) ccols -> length mcol = n ->
  i + length lanes <= n ->
  vec_step Rops ccols mcol lanes i
  = Ok (map (fun '(k, a) => step_acc ccols mcol a (i + k)) (combine (seq 0 (length lanes)) lanes)).
Proof.
  intros ccols mcol n lanes i Hc Hm Hi. unfold vec_step.
  assert (G : forall s (l : list accR), i + s + length l <= n ->
    mapM (fun '(k, a) => acc_step Rops ccols mcol a (i + k)) (combine (seq s (length l)) l)
    = Ok (map (fun '(k, a) => step_acc ccols mcol a (i + k)) (combine (seq s (length l)) l))).
  { intros s l. revert s. induction l as [|a l IH]; intros s H; [reflexivity|]. cbn [length seq combine mapM map] in *.
    rewrite (acc_step_R ccols mcol a (i + s) n Hc Hm) by lia. cbn [bind]. rewrite IH by lia. reflexivity. }
  apply G. lia.
Qed.

Lemma hadd_R : forall plan l, hadd Rops plan l = rsum (fun x => x) l.
Proof.
  assert (Base : forall l, (match l with [] => fofZ Rops 0 | x :: t => fold_left (fadd Rops) t x end) = rsum (fun x : R => x) l).
  { intros [|x l]; [reflexivity|]. cbn [fadd Rops]. rewrite (fold_left_Rplus R (fun y => y)). reflexivity. }
  induction plan as [|[i j] plan IH]; intros l; [exact (Base l)|].
  destruct l as [|a [|b l]]; [exact (Base [])|exact (Base [a])|]. cbn [hadd].
  destruct (pick Rops i (a :: b :: l)) as [x l1] eqn:E1. destruct (pick Rops j l1) as [y l2] eqn:E2.
  pose proof (pick_perm Rops i (a :: b :: l) ltac:(discriminate)) as P1. rewrite E1 in P1. cbn [fst snd] in P1.
  assert (N1 : l1 <> []). { intros ->. apply Permutation_length in P1. cbn in P1. lia. }
  pose proof (pick_perm Rops j l1 N1) as P2. rewrite E2 in P2. cbn [fst snd] in P2.
  rewrite IH, (rsum_perm R (fun x => x) _ _ P1). apply (rsum_perm R (fun x => x)) in P2. rewrite (rsum_cons _ _ x l1), P2, !rsum_cons. cbn [fadd Rops]. lra.
Qed.

Lemma lane_sum : forall (f : nat -> R) (g : accR -> R) (h : accR -> nat -> accR) lanes i s,
  (forall a k, In a lanes -> g (h a k) = (g a + f k)%R) ->
  rsum g (map (fun '(k, a) => h a (i + k)) (combine (seq s (length lanes)) lanes))
  = (rsum g lanes + rsum f (seq (i + s) (length lanes)))%R.
Proof.
  intros f g h lanes i. induction lanes as [|a lanes IH]; intros s Hg; [cbn; lra|].
  cbn [length seq combine map]. rewrite !rsum_cons, IH, Hg by (try (now left); intros; apply Hg; now right).
  rewrite Nat.add_succ_r. lra.
Qed.

(** Sums of the lanes. *)
Lemma vec_loop_R : forall ccols mcol n bw q (lanes0 : list accR) b, Forall (fun col => length col = n) ccols -> length mcol = n ->
  length lanes0 = bw -> Forall (fun a => length (snd a) = length ccols) lanes0 ->
  b + q * bw <= n ->
  exists lanes, foldM (vec_step Rops ccols mcol) (map (fun k => b + k * bw) (seq 0 q)) lanes0 = Ok lanes /\
    length lanes = bw /\ Forall (fun a => length (snd a) = length ccols) lanes /\
    rsum (fun a : accR => fst a) lanes = (rsum (fun a : accR => fst a) lanes0 + rsum (fun i => nth i mcol 0) (seq b (q * bw)))%R /\
    forall j, j < length ccols ->
      rsum (fun a : accR => nth j (snd a) 0%R) lanes
      = (rsum (fun a : accR => nth j (snd a) 0) lanes0 + rsum (fun i => nth i mcol 0 * nth i (nth j ccols []) 0) (seq b (q * bw)))%R.
Proof.
  intros ccols mcol n bw q. induction q as [|q IH]; intros lanes0 b Hc Hm Hl Hs Hn.
  - exists lanes0. cbn [Nat.mul seq map foldM]. split; [reflexivity|]. split; [exact Hl|]. split; [exact Hs|]. split; [rewrite rsum_nil; lra|]. intros j Hj. rewrite rsum_nil. lra.
  - destruct (IH lanes0 b) as (lanes & E1 & L1 & S1 & M1 & P1); auto; try lia.
    rewrite seq_S, map_app. cbn [map]. rewrite TreeProps.foldM_app, E1. cbn [bind foldM Nat.add].
    rewrite (vec_step_R ccols mcol n lanes (b + q * bw) Hc Hm) by (rewrite L1; clear - Hn; nia). cbn [bind].
    eexists. split; [reflexivity|].
    assert (Hbw : seq b (S q * bw) = seq b (q * bw) ++ seq (b + q * bw) bw).
    { replace (S q * bw) with (q * bw + bw) by lia. apply seq_app. }
    split; [rewrite map_length, combine_length, seq_length; lia|]. split; [|split].
    + apply Forall_forall. intros a Ha. apply in_map_iff in Ha as ([k a'] & <- & Ha). apply in_combine_r in Ha.
      unfold step_acc. cbn [snd]. rewrite map_length, combine_length. rewrite Forall_forall in S1. rewrite (S1 _ Ha). lia.
    + rewrite (lane_sum (fun i => nth i mcol 0%R) (fun a : accR => fst a) (fun a i => step_acc ccols mcol a i)) by reflexivity.
      rewrite M1, Hbw, rsum_app, L1, Nat.add_0_r. lra.
    + intros j Hj.
      rewrite (lane_sum (fun i => (nth i mcol 0 * nth i (nth j ccols []) 0)%R) (fun a : accR => nth j (snd a) 0%R) (fun a i => step_acc ccols mcol a i)).
      * rewrite P1, Hbw, rsum_app, L1, Nat.add_0_r by exact Hj. lra.
      * intros a k Ha. rewrite Forall_forall in S1. specialize (S1 _ Ha). unfold step_acc. cbn [snd].
        set (f := fun '(col, s) => (nth k mcol 0 * nth k col 0 + s)%R).
        rewrite (nth_indep _ 0%R (f ([], 0%R))) by (rewrite map_length, combine_length; lia).
        rewrite map_nth, combine_nth by lia. unfold f. lra.
Qed.

Definition total (mcol : list R) (b e : nat) : R := rsum (fun i => nth i mcol 0%R) (seq b (e - b)).
Definition weighted (mcol col : list R) (b e : nat) : R := rsum (fun i => (nth i mcol 0 * nth i col 0)%R) (seq b (e - b)).

Lemma node_sums_R : forall simd plan ccols mcol n b e, (forall bw, simd = Some bw -> 0 < bw) ->
  length ccols = dim c -> Forall (fun col => length col = n) ccols -> length mcol = n -> b <= e <= n ->
  node_sums Rops c simd plan ccols mcol b e = Ok (total mcol b e, map (fun col => weighted mcol col b e) ccols).
Proof.
  intros simd plan ccols mcol n b e Hsimd Hd Hc Hm Hbe.
  assert (Hz : forall l, (forall i, In i l -> i < n) ->
    foldM (acc_step Rops ccols mcol) l (zero_acc Rops c)
    = Ok (rsum (fun i => nth i mcol 0%R) l, map (fun col => rsum (fun i => (nth i mcol 0 * nth i col 0)%R) l) ccols)).
  { intros l Hl. rewrite (foldM_acc_R ccols mcol n l); auto; [|unfold zero_acc; cbn [snd]; rewrite repeat_length; now rewrite Hd].
    f_equal. unfold sum_acc, zero_acc. cbn [fst snd Rops fofZ]. f_equal; [lra|]. rewrite <- Hd. clear.
    induction ccols as [|col ccols IH]; [reflexivity|]. cbn [length repeat combine map]. f_equal; [lra|exact IH]. }
  unfold node_sums. cbv zeta.
  assert (Hscalar : foldM (acc_step Rops ccols mcol) (seq b (e - b)) (zero_acc Rops c)
     = Ok (total mcol b e, map (fun col => weighted mcol col b e) ccols)).
  { rewrite Hz; [reflexivity|]. intros i Hi. apply in_seq in Hi. lia. }
  destruct simd as [bw|]; [|exact Hscalar].
  destruct (dim c) as [|[|[|[|k]]]] eqn:Ed; try exact Hscalar.
  pose proof (Hsimd bw eq_refl) as Hbw. set (size := e - b) in *.
  pose proof (Nat.div_mod size bw ltac:(lia)) as DM.
  assert (HQ : size / bw * bw <= size) by (rewrite Nat.mul_comm; apply Nat.mul_div_le; lia).
  assert (Hsz : b + size <= n) by (unfold size; lia).
  destruct (vec_loop_R ccols mcol n bw (size / bw) (repeat (zero_acc Rops c) bw) b Hc Hm) as (lanes & E1 & L1 & S1 & M1 & P1).
  { apply repeat_length. }
  { apply Forall_forall. intros a Ha. apply repeat_spec in Ha. subst a. unfold zero_acc. cbn [snd]. rewrite repeat_length. lia. }
  { lia. }
  rewrite E1. cbn [bind].
  assert (Hvs : size - size mod bw = size / bw * bw) by (revert DM; clearbody size; clear; generalize (size / bw) (size mod bw); intros; nia). rewrite Hvs.
  assert (Z1 : forall g : accR -> R, g (zero_acc Rops c) = 0%R -> rsum g (repeat (zero_acc Rops c) bw) = 0%R).
  { intros g Hg. clear - Hg. induction bw as [|w IH]; [reflexivity|]. cbn [repeat]. rewrite rsum_cons, IH, Hg. lra. }
  rewrite (foldM_acc_R ccols mcol n); auto.
  - f_equal. unfold sum_acc. cbn [fst snd].
    assert (HM : hadd Rops plan (map fst lanes) = rsum (fun i => nth i mcol 0%R) (seq b (size / bw * bw))).
    { rewrite hadd_R, rsum_map. etransitivity; [exact M1|]. rewrite (Z1 (fun a => fst a)) by reflexivity. lra. }
    rewrite HM.
    assert (Hsplit : seq b size = seq b (size / bw * bw) ++ seq (b + size / bw * bw) (size - size / bw * bw)).
    { rewrite <- seq_app. f_equal. lia. }
    unfold total, weighted. fold size. rewrite Hsplit. f_equal; [rewrite rsum_app; lra|].
    assert (G : forall s (cs : list (list R)), (forall j, j < length cs -> nth j cs [] = nth (s + j) ccols []) -> s + length cs <= length ccols ->
      map (fun '(col, x) => (x + rsum (fun i => nth i mcol 0 * nth i col 0) (seq (b + size / bw * bw) (size - size / bw * bw)))%R)
        (combine cs (map (fun j => hadd Rops plan (map (fun a : accR => nth j (snd a) (fofZ Rops 0)) lanes)) (seq s (length cs))))
      = map (fun col => rsum (fun i => (nth i mcol 0 * nth i col 0)%R) (seq b (size / bw * bw) ++ seq (b + size / bw * bw) (size - size / bw * bw))) cs).
    { intros s cs. revert s. induction cs as [|col cs IH]; intros s Hcs Hlen; [reflexivity|].
      cbn [length seq map combine] in *. f_equal.
      - assert (HP : hadd Rops plan (map (fun a : accR => nth s (snd a) (fofZ Rops 0)) lanes)
          = rsum (fun i => (nth i mcol 0 * nth i (nth s ccols []) 0)%R) (seq b (size / bw * bw))).
        { rewrite hadd_R, rsum_map. etransitivity; [apply (P1 s); lia|].
          rewrite (Z1 (fun a => nth s (snd a) 0%R)) by (unfold zero_acc; cbn [snd]; apply nth_repeat). lra. }
        rewrite HP, rsum_app. assert (H0 := Hcs 0 ltac:(lia)). rewrite Nat.add_0_r in H0. cbn [nth] in H0. rewrite <- H0. lra.
      - apply IH; [|lia]. intros j Hj. replace (S s + j) with (s + S j) by lia. apply (Hcs (S j)). lia. }
    specialize (G 0 ccols). rewrite Hd in G. apply G; [reflexivity|lia].
  - intros i Hi. apply in_seq in Hi. lia.
Qed.

End Sums.
