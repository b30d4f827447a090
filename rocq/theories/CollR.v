(** Collision detection in exact arithmetic. *)
From Coq Require Import List Arith ZArith NArith Bool Lia Permutation Sorted Reals Lra.
From Flocq Require Import Core.
From Verif Require Import Base Config Morton MortonProofs CodesProofs Build TreeSpec FOps Disc DiscProofs NodeProps Tree TreeInv TreeProofs FOpsProofs NodeGeom Kernels Coll CollSearch CollProofs CollCover.
Import ListNotations.
Local Open Scope nat_scope.

(** * The loop over all particles *)

Lemma mapM_class : forall {A B} (f : A -> outcome B) e l, (forall a, In a l -> (exists b, f a = Ok b) \/ f a = Throw e) ->
  (exists l', mapM f l = Ok l') \/ mapM f l = Throw e /\ exists a, In a l /\ f a = Throw e.
Proof.
  intros A B f e l. induction l as [|a l IH]; intros H; cbn [mapM]; [eauto|].
  destruct (H a (or_introl eq_refl)) as [(b & ->)|Ha]; cbn [bind].
  - destruct IH as [(l' & ->)|(-> & a' & Ha' & Hf)]; [intros; apply H; now right| |]; cbn [bind]; [eauto|].
    right. split; [reflexivity|]. exists a'. cbn; auto.
  - right. rewrite Ha. split; [reflexivity|]. exists a. cbn; auto.
Qed.

Section Loop.

Context {F : Type}.
Variable O : fops F.
Variable E : env.
Variable K : platform F.
Variable t : @tree F.
Hypothesis Hinv : tree_inv O E t.
Notation n := (length (t_codes t)).
Notation leaves := (coll_leaves (t_nodes t)).
Variable ordered : bool.
Variable sizes : list F.

Lemma extras_class : forall e, (forall kl lnode p, nth_error leaves kl = Some lnode -> n_begin lnode <= p < n_end lnode ->
    (exists evs, extra O E K ordered t sizes leaves lnode p = Ok evs) \/ extra O E K ordered t sizes leaves lnode p = Throw e) ->
  (exists evs, extras O E K ordered t sizes leaves = Ok evs) \/
  extras O E K ordered t sizes leaves = Throw e /\
    exists kl lnode p, nth_error leaves kl = Some lnode /\ n_begin lnode <= p < n_end lnode /\ extra O E K ordered t sizes leaves lnode p = Throw e.
Proof.
  intros e H. unfold extras.
  destruct (mapM_class (fun lnode => mapM (extra O E K ordered t sizes leaves lnode) (seq (n_begin lnode) (n_end lnode - n_begin lnode))) e leaves)
    as [(l & ->)|(-> & lnode & Hl & Hm)].
  - intros lnode Hl. apply In_nth_error in Hl. destruct Hl as (kl & Hkl).
    destruct (mapM_class (extra O E K ordered t sizes leaves lnode) e (seq (n_begin lnode) (n_end lnode - n_begin lnode))) as [Hc|(Hc & _)]; auto.
    intros p Hp. apply in_seq in Hp. apply (H kl lnode p Hkl). lia.
  - cbn [bind]. eauto.
  - right. cbn [bind]. split; [reflexivity|]. apply In_nth_error in Hl. destruct Hl as (kl & Hkl).
    destruct (mapM_class (extra O E K ordered t sizes leaves lnode) e (seq (n_begin lnode) (n_end lnode - n_begin lnode))) as [(l & Hc)|(_ & p & Hp & Hf)].
    + intros p Hp. apply in_seq in Hp. apply (H kl lnode p Hkl). lia.
    + congruence.
    + apply in_seq in Hp. exists kl, lnode, p. split; [exact Hkl|]. split; [lia|exact Hf].
Qed.

Lemma extras_each : forall evs, extras O E K ordered t sizes leaves = Ok evs ->
  forall kl lnode p, nth_error leaves kl = Some lnode -> n_begin lnode <= p < n_end lnode ->
  exists l, extra O E K ordered t sizes leaves lnode p = Ok l /\ forall e, In e l -> In e evs.
Proof.
  intros evs H kl lnode p Hkl Hp. unfold extras in H. apply bind_Ok in H. destruct H as (ll & Hll & H). injection H as <-.
  destruct (mapM_in_l _ _ _ lnode Hll (nth_error_In _ _ Hkl)) as (l1 & Hl1 & Hm).
  destruct (mapM_in_l _ _ _ p Hm) as (l & Hl & Hf); [apply in_seq; lia|].
  exists l. split; [exact Hf|]. intros e He. apply in_concat. exists (concat l1). split; [now apply in_map|]. apply in_concat. eauto.
Qed.

End Loop.

Local Open Scope R_scope.

Section ExactColl.

Variable E : env.
Variable K : platform R.
Notation c := (e_cfg E).
Notation cb := (cbitsc c).
Notation fac := (pow2R cb).

Definition clampR (v : R) : R := if Rltb v 0 then 0 else if Rltb (fac - / 2) v then fac - / 2 else v.

Lemma pow2R_ge1 : forall l, 1 <= pow2R l.
Proof.
  intros l. unfold pow2R, IZRN. apply IZR_le. assert (0 < 2 ^ l)%N by (apply N.neq_0_lt_0, N.pow_nonzero; lia). lia.
Qed.

Lemma clampR_range : forall v, 0 <= clampR v <= fac - / 2.
Proof.
  intros v. unfold clampR. pose proof (pow2R_ge1 cb). destruct (Rltb v 0) eqn:A; [lra|]. apply Rltb_ge in A.
  destruct (Rltb (fac - / 2) v) eqn:B; [lra|]. apply Rltb_ge in B. lra.
Qed.
Lemma clampR_mono : forall u v, u <= v -> clampR u <= clampR v.
Proof.
  intros u v H. unfold clampR. pose proof (pow2R_ge1 cb).
  destruct (Rltb u 0) eqn:A, (Rltb v 0) eqn:A'; try apply Rltb_lt in A; try apply Rltb_ge in A; try apply Rltb_lt in A'; try apply Rltb_ge in A'; try lra;
  destruct (Rltb (fac - / 2) u) eqn:B, (Rltb (fac - / 2) v) eqn:B'; try apply Rltb_lt in B; try apply Rltb_ge in B; try apply Rltb_lt in B'; try apply Rltb_ge in B'; lra.
Qed.
Lemma clampR_lip : forall u v, u <= v -> clampR v - clampR u <= v - u.
Proof.
  intros u v H. unfold clampR. pose proof (pow2R_ge1 cb).
  destruct (Rltb u 0) eqn:A, (Rltb v 0) eqn:A'; try apply Rltb_lt in A; try apply Rltb_ge in A; try apply Rltb_lt in A'; try apply Rltb_ge in A'; try lra;
  destruct (Rltb (fac - / 2) u) eqn:B, (Rltb (fac - / 2) v) eqn:B'; try apply Rltb_lt in B; try apply Rltb_ge in B; try apply Rltb_lt in B'; try apply Rltb_ge in B'; lra.
Qed.

Lemma disc_clamp_R : forall x inv, exists k, disc_single_coord Rops c true x inv = Ok k /\ (k < 2 ^ cb)%N /\
  IZRN k <= clampR ((x * inv + 1 / 2) * fac) < IZRN k + 1.
Proof.
  intros x inv. unfold disc_single_coord. cbv zeta.
  cbn [ffin Rops negb bind fmul ffma fdiv fofZ fpred flt].
  set (v := (x * inv + 1 / 2) * fac). change (IZR (Z.of_N (2 ^ cb))) with fac. fold v.
  replace (fclamp Rops v 0 (fac - / 2)) with (clampR v) by reflexivity.
  pose proof (clampR_range v) as [C0 C1].
  assert (HB : (0 <= Ztrunc (clampR v) < 2 ^ Z.of_N cb)%Z).
  { apply Ztrunc_bounds; [exact C0|]. rewrite <- ZofN_pow. change (clampR v < fac). lra. }
  destruct (cast_in_range c _ HB) as [A B].
  unfold cast_uint. cbn [ffin Rops ftrunc]. rewrite andb_true_l, A. cbn [bind]. rewrite B.
  exists (Z.to_N (Ztrunc (clampR v))). split; [reflexivity|]. split.
  - apply N2Z.inj_lt. rewrite Z2N.id, ZofN_pow by lia. lia.
  - unfold IZRN. rewrite Z2N.id by lia. rewrite Ztrunc_floor by exact C0.
    split; [apply Zfloor_lb|apply Zfloor_ub].
Qed.

Lemma disc_mono_R : forall x y inv kx ky, x <= y -> 0 <= inv ->
  disc_single_coord Rops c true x inv = Ok kx -> disc_single_coord Rops c true y inv = Ok ky -> (kx <= ky)%N.
Proof.
  intros x y inv kx ky Hxy Hi Hx Hy.
  destruct (disc_clamp_R x inv) as (k & Hk & _ & L1 & _). destruct (disc_clamp_R y inv) as (k' & Hk' & _ & _ & U1).
  rewrite Hx in Hk. injection Hk as <-. rewrite Hy in Hk'. injection Hk' as <-.
  pose proof (pow2R_pos cb).
  assert (x * inv <= y * inv) by nra.
  assert ((x * inv + 1 / 2) * fac <= (y * inv + 1 / 2) * fac) by nra.
  pose proof (clampR_mono _ _ H1).
  assert (IZRN kx < IZRN ky + 1) by lra. unfold IZRN in H3. rewrite <- plus_IZR in H3. apply lt_IZR in H3. lia.
Qed.

Lemma level_R : forall fuel r s cur, 0 < s -> let al := level_loop Rops fuel r s cur in
  (al = r \/ exists k, al = (r + k)%N /\ s < cur / pow2R k).
Proof.
  induction fuel as [|fuel IH]; intros r s cur Hs; cbn [level_loop]; [now left|].
  cbn [fle Rops fmul fdiv fofZ]. destruct (Rleb (cur * (1 / 2)) s) eqn:B; [now left|].
  apply Rleb_gt in B. right. destruct (IH (r + 1)%N s (cur * (1 / 2)) Hs) as [->|(k & -> & Hk)].
  - exists 1%N. split; [reflexivity|]. unfold pow2R, IZRN. cbn. lra.
  - exists (1 + k)%N. split; [lia|]. rewrite pow2R_add. replace (pow2R 1) with 2 by reflexivity.
    pose proof (pow2R_pos k). replace (cur / (2 * pow2R k)) with (cur * (1 / 2) / pow2R k) by (field; lra). exact Hk.
Qed.

Lemma size_to_level_R : forall s b, 0 < s -> let al := size_to_level Rops E s b in
  al = 0%N \/ s < b / pow2R al.
Proof.
  intros s b Hs. unfold size_to_level. destruct (level_R (N.to_nat cb) 0 s b Hs) as [->|(k & -> & Hk)]; [now left|right].
  now rewrite N.add_0_l.
Qed.

(** The extents of a cube span at most two cells of its level in each dimension. *)
Lemma span_R : forall x s b r, 0 < s -> 0 < b -> disc_extent Rops E x s (1 / b) r ->
  let sh := (cb - size_to_level Rops E s b)%N in (N.shiftr (snd r) sh <= N.shiftr (fst r) sh + 1)%N.
Proof.
  intros x s b [lo hi] Hs Hb (H1 & H2) sh. cbn [fst snd] in *. cbn [fmul fdiv fofZ fsub fadd Rops] in H1, H2.
  destruct (disc_clamp_R (x - s * (1 / 2)) (1 / b)) as (k & Hk & Lk & A1 & A2). rewrite H1 in Hk. injection Hk as <-.
  destruct (disc_clamp_R (x + s * (1 / 2)) (1 / b)) as (k & Hk & Lk' & B1 & B2). rewrite H2 in Hk. injection Hk as <-.
  pose proof (size_to_level_le Rops E s b) as Hal.
  set (al := size_to_level Rops E s b) in *.
  assert (Hz : (al = 0%N -> N.shiftr hi sh <= N.shiftr lo sh + 1)%N).
  { intros Hz. unfold sh. rewrite Hz, N.sub_0_r, !N.shiftr_div_pow2. rewrite !N.div_small by assumption. lia. }
  destruct (size_to_level_R s b Hs) as [H0|Hlt]; [exact (Hz H0)|]. fold al in Hlt.
  assert (Hfac : fac = pow2R al * pow2R sh) by (rewrite <- pow2R_add; f_equal; unfold sh; lia).
  assert (Hinc : (x - s * (1 / 2)) * (1 / b) <= (x + s * (1 / 2)) * (1 / b)).
  { apply Rmult_le_compat_r; [|lra]. apply Rlt_le, Rdiv_lt_0_compat; lra. }
  pose proof (pow2R_pos cb) as Pf. pose proof (pow2R_pos al) as Pa. pose proof (pow2R_pos sh) as Ps.
  assert (Hd : clampR (((x + s * (1 / 2)) * (1 / b) + 1 / 2) * fac) - clampR (((x - s * (1 / 2)) * (1 / b) + 1 / 2) * fac) < pow2R sh).
  { eapply Rle_lt_trans; [apply clampR_lip; nra|].
    replace (((x + s * (1 / 2)) * (1 / b) + 1 / 2) * fac - ((x - s * (1 / 2)) * (1 / b) + 1 / 2) * fac) with (s / b * fac) by (field; lra).
    rewrite Hfac. replace (s / b * (pow2R al * pow2R sh)) with ((s * pow2R al / b) * pow2R sh) by (field; lra).
    rewrite <- (Rmult_1_l (pow2R sh)) at 2. apply Rmult_lt_compat_r; [exact Ps|].
    apply Rmult_lt_reg_r with b; [exact Hb|]. replace (s * pow2R al / b * b) with (s * pow2R al) by (field; lra).
    apply Rmult_lt_reg_r with (/ pow2R al); [now apply Rinv_0_lt_compat|].
    replace (s * pow2R al * / pow2R al) with s by (field; lra). replace (1 * b * / pow2R al) with (b / pow2R al) by (field; lra). exact Hlt. }
  assert (HI : (hi <= lo + 2 ^ sh)%N).
  { assert (HR : IZRN hi < IZRN lo + 1 + pow2R sh) by lra. unfold pow2R, IZRN in HR. rewrite <- !plus_IZR in HR. apply lt_IZR in HR. lia. }
  rewrite !N.shiftr_div_pow2. assert (P : (2 ^ sh <> 0)%N) by (apply N.pow_nonzero; lia).
  replace (lo / 2 ^ sh + 1)%N with ((lo + 1 * 2 ^ sh) / 2 ^ sh)%N by (apply N.div_add; exact P).
  apply N.div_le_mono; [exact P|]. lia.
Qed.

Lemma aabb_codes_R : forall xs s inv, length xs = dim c -> 0 <= s -> exists vs, aabb_codes Rops E xs s inv = Ok vs.
Proof.
  intros xs s inv Hl Hs. unfold aabb_codes.
  assert (exists mm, min_max Rops s xs = Ok mm /\ length mm = dim c) as (mm & -> & Lm).
  { unfold min_max. destruct (mapM_all (fun x => if negb (ffin Rops (fsub Rops x (fmul Rops s (fdiv Rops (fofZ Rops 1) (fofZ Rops 2)))))
       || negb (ffin Rops (fadd Rops x (fmul Rops s (fdiv Rops (fofZ Rops 1) (fofZ Rops 2)))))
       || flt Rops (fadd Rops x (fmul Rops s (fdiv Rops (fofZ Rops 1) (fofZ Rops 2)))) (fsub Rops x (fmul Rops s (fdiv Rops (fofZ Rops 1) (fofZ Rops 2))))
      then Throw InvalidArgument
      else Ok (fsub Rops x (fmul Rops s (fdiv Rops (fofZ Rops 1) (fofZ Rops 2))), fadd Rops x (fmul Rops s (fdiv Rops (fofZ Rops 1) (fofZ Rops 2))))) xs) as (mm & Hmm).
    - intros x _. cbn [ffin Rops negb orb flt fadd fsub fmul fdiv fofZ].
      destruct (Rltb (x + s * (1 / 2)) (x - s * (1 / 2))) eqn:B; [apply Rltb_lt in B; lra|]. eauto.
    - exists mm. split; [exact Hmm|]. apply mapM_Ok in Hmm. lia. }
  cbn [bind]. apply mapM_all. intros i _.
  destruct (mapM_all (fun '(j, (mn, mx)) => disc_single_coord Rops c true (if N.testbit (N.of_nat i) (N.of_nat j) then mx else mn) inv) (combine (seq 0 (length mm)) mm)) as (ds & Hds).
  { intros [j [mn mx]] _. destruct (disc_clamp_R (if N.testbit (N.of_nat i) (N.of_nat j) then mx else mn) inv) as (k & -> & _). eauto. }
  rewrite Hds. cbn [bind].
  destruct (encode_total E ds) as (x & -> & _); [| |eauto].
  - apply mapM_Ok in Hds. destruct Hds as [-> _]. rewrite combine_length, seq_length. lia.
  - apply Forall_forall. intros k Hk. destruct (mapM_in _ _ _ _ Hds Hk) as ([j [mn mx]] & _ & HD). exact (disc_lt Rops c true _ _ _ HD).
Qed.

Section Tree.

Variable t : @tree R.
Hypothesis Hinv : tree_inv Rops E t.
Notation n := (length (t_codes t)).
Notation leaves := (coll_leaves (t_nodes t)).
Hypothesis HK : shift_ok E K leaves.
Hypothesis Hbox : 0 < t_box t.
Variable ordered : bool.
Variable sizes : list R.
Hypothesis Hs : (n <= length sizes)%nat.
Notation size_of := (aabb_of ordered t sizes).

Lemma extra_R : forall kl lnode p, nth_error leaves kl = Some lnode -> (n_begin lnode <= p < n_end lnode)%nat ->
  exists s, size_of p = Ok s /\ (if Rltb s 0 then extra Rops E K ordered t sizes leaves lnode p = Throw InvalidArgument
                                 else exists evs, extra Rops E K ordered t sizes leaves lnode p = Ok evs).
Proof.
  intros kl lnode p Hk Hp. destruct (extra_cases Rops E K t Hinv HK ordered sizes Hs kl lnode p Hk Hp) as (s & xs & Es & Ex & Lx & HC).
  exists s. split; [exact Es|]. unfold bad_size in HC. cbn [ffin Rops negb orb flt fofZ feq] in HC.
  destruct (Rltb s 0) eqn:B; [exact HC|]. apply Rltb_ge in B.
  destruct (Reqb s 0); [eauto|].
  destruct (aabb_codes_R xs s (1 / t_box t) Lx B) as (vs & Hvs). cbn [fdiv fofZ Rops] in HC. rewrite Hvs in HC.
  destruct HC as (evs & Hevs & _). eauto.
Qed.

(** [y] is a point of the closed cube of size [s] centred in [xs]. *)
Definition in_cube (xs : list R) (s : R) (y : list R) : Prop :=
  Forall2 (fun x v => x - s / 2 <= v <= x + s / 2) xs y.

Lemma covers_R : forall evs p s xs y dc x, extras Rops E K ordered t sizes leaves = Ok evs ->
  (p < n)%nat -> size_of p = Ok s -> 0 < s -> position E t p = Ok xs -> in_cube xs s y ->
  mapM (fun v => disc_single_coord Rops c true v (1 / t_box t)) y = Ok dc -> morton_encode c dc = Ok x ->
  covers E t evs x p.
Proof.
  intros evs p s xs y dc x Hev Hpn Es Hs0 Ex Hy Hdc Hx.
  destruct (own_leaf Rops E t Hinv p Hpn) as (kl & lnode & Hkl & Hp).
  destruct (extra_cases Rops E K t Hinv HK ordered sizes Hs kl lnode p Hkl Hp) as (s' & xs' & Es' & Ex' & Lx & HC).
  rewrite Es in Es'. injection Es' as <-. rewrite Ex in Ex'. injection Ex' as <-.
  unfold bad_size in HC. cbn [ffin Rops negb orb flt fofZ feq] in HC.
  destruct (Rltb s 0) eqn:B; [apply Rltb_lt in B; lra|]. destruct (Reqb s 0) eqn:B'; [apply Reqb_eq in B'; lra|].
  destruct (aabb_codes_R xs s (1 / t_box t) Lx ltac:(lra)) as (vs & Hvs). cbn [fdiv fofZ Rops] in HC. rewrite Hvs in HC.
  destruct HC as (l & Hl & Hadd).
  destruct (extras_each Rops E K t ordered sizes evs Hev kl lnode p Hkl Hp) as (l' & Hl' & Hsub). rewrite Hl in Hl'. injection Hl' as <-.
  destruct (aabb_codes_inv Rops E xs s (1 / t_box t) vs Lx Hvs) as (rs & Hrs & Frs & Hpick & _).
  assert (Lrs : length rs = dim c) by (rewrite <- (Forall2_length_eq _ _ _ Hrs); exact Lx).
  apply (cover_point Rops E t Hinv sizes Hs kl lnode p s l vs evs dc x rs); auto.
  - assert (Hinvb : 0 <= 1 / t_box t) by (apply Rlt_le, Rdiv_lt_0_compat; lra).
    clear - Hy Hdc Hrs Hinvb. revert rs dc Hrs Hdc. unfold in_cube in Hy. induction Hy as [|x0 v xs y Hv Hy IH]; intros rs dc Hrs Hdc.
    + inversion Hrs; subst. cbn in Hdc. injection Hdc as <-. constructor.
    + cbn [mapM] in Hdc. apply bind_Ok in Hdc. destruct Hdc as (k & Hk & Hdc). apply bind_Ok in Hdc. destruct Hdc as (ks & Hks & Hdc). injection Hdc as <-.
      destruct rs as [|r rs]; [inversion Hrs|]. assert (HF : disc_extent Rops E x0 s (1 / t_box t) r /\ Forall2 (fun x r => disc_extent Rops E x s (1 / t_box t) r) xs rs) by (inversion Hrs; subst; split; assumption).
      clear Hrs. destruct HF as [(D1 & D2) Hrs]. constructor; [|apply IH; assumption].
      cbn [fmul fdiv fofZ fsub fadd Rops] in D1, D2. split; [split|].
      * eapply (disc_mono_R (x0 - s * (1 / 2)) v); [lra|exact Hinvb|exact D1|exact Hk].
      * eapply (disc_mono_R v (x0 + s * (1 / 2))); [lra|exact Hinvb|exact Hk|exact D2].
      * exact (disc_lt Rops c true _ _ _ Hk).
  - apply Forall_forall. intros r Hr.
    assert (exists x0, disc_extent Rops E x0 s (1 / t_box t) r) as (x0 & Hx0).
    { clear - Hr Hrs. induction Hrs as [|a b la lb Hab Hrs IH]; [destruct Hr|]. destruct Hr as [->|Hr]; eauto. }
    exact (span_R x0 s (t_box t) r Hs0 Hbox Hx0).
Qed.

(** The final test, in terms of common points. *)
Lemma overlap_R : forall s1 s2 x1 x2, 0 <= s1 -> 0 <= s2 -> length x1 = length x2 ->
  (overlap Rops (extent Rops s1 x1) (extent Rops s2 x2) = true <-> exists y, in_cube x1 s1 y /\ in_cube x2 s2 y).
Proof.
  intros s1 s2 x1 x2 H1 H2. revert x2. unfold in_cube. induction x1 as [|a x1 IH]; intros [|b x2] HL; try discriminate.
  - cbn. split; [|reflexivity]. intros _. exists []. split; constructor.
  - cbn [extent map combine overlap forallb]. cbn [ffma fdiv fopp fofZ Rops fle]. rewrite !andb_true_iff, !Rleb_le.
    change (forallb (fun '(p0, p1) => let '(min1, max1) := p0 in let '(min2, max2) := p1 in fle Rops min2 max1 && fle Rops min1 max2) (combine (extent Rops s1 x1) (extent Rops s2 x2)) = true) with (overlap Rops (extent Rops s1 x1) (extent Rops s2 x2) = true).
    injection HL as HL. specialize (IH x2 HL). split.
    + intros [[A B] C]. apply IH in C. destruct C as (y & C1 & C2).
      exists (Rmax (a - s1 / 2) (b - s2 / 2) :: y). split; constructor; auto;
        (split; [first [apply Rmax_l|apply Rmax_r]|apply Rmax_lub; lra]).
    + intros (y & C1 & C2). inversion C1 as [|? v ? y1 A1 A2]; subst. inversion C2 as [|? ? ? ? B1 B2]; subst.
      split; [split; lra|]. apply IH. eauto.
Qed.

(** C35 in exact arithmetic. *)
Theorem exact_graph : forall sch1 sch2 old, reorders sch1 -> reorders sch2 -> representable t ->
  (forall i s, (i < n)%nat -> nth_error sizes i = Some s -> 0 <= s) ->
  exists g, compute_cgraph Rops E K ordered t sizes sch1 sch2 old = Ok g /\ length g = n /\
    forall i r, nth_error g i = Some r -> StronglySorted lt r /\
      forall j, In j r <-> exists p q s1 s2 x1 x2 y, p <> q /\ label ordered t p = Ok i /\ label ordered t q = Ok j /\
        (p < n)%nat /\ (q < n)%nat /\ nth_error sizes i = Some s1 /\ nth_error sizes j = Some s2 /\ s1 <> 0 /\ s2 <> 0 /\
        row (firstn (dim c) (t_parts t)) p x1 /\ row (firstn (dim c) (t_parts t)) q x2 /\ in_cube x1 s1 y /\ in_cube x2 s2 y.
Proof.
  intros sch1 sch2 old R1 R2 Hrep Hpos.
  pose proof (graph_spec Rops E K t Hinv ordered sizes sch1 sch2 old R1 R2 Hs Hrep) as HG.
  assert (Hsize : forall p i s, (p < n)%nat -> label ordered t p = Ok i -> (size_of p = Ok s <-> nth_error sizes i = Some s)).
  { intros p i s _ HL. unfold aabb_of. rewrite HL. cbn [bind]. apply rd_Ok. }
  assert (Hpos' : forall p s, (p < n)%nat -> size_of p = Ok s -> 0 <= s).
  { intros p s Hp HSz. destruct (label_ok Rops E t Hinv ordered p Hp) as (i & HL & Hi). apply (Hpos i s Hi). now apply (Hsize p i s Hp HL). }
  assert (exists evs, extras Rops E K ordered t sizes leaves = Ok evs) as (evs & Hev).
  { destruct (extras_class Rops E K t ordered sizes InvalidArgument) as [Hc|(_ & kl & lnode & p & Hkl & Hp & Hf)]; [|exact Hc|].
    - intros kl lnode p Hkl Hp. destruct (extra_R kl lnode p Hkl Hp) as (s & _ & HX). destruct (Rltb s 0); auto.
    - exfalso. destruct (extra_R kl lnode p Hkl Hp) as (s & Es & HX). pose proof (leaf_facts Rops E t Hinv kl lnode Hkl) as HLF.
      assert (Hpn : (p < n)%nat) by lia. pose proof (Hpos' p s Hpn Es).
      destruct (Rltb s 0) eqn:B; [apply Rltb_lt in B; lra|]. destruct HX as (l & HX). congruence. }
  rewrite Hev in HG. destruct HG as (g & Hg & Lg & HG). exists g. split; [exact Hg|]. split; [exact Lg|].
  intros i r Hr. destruct (HG i r Hr) as [Hsort Hin]. split; [exact Hsort|]. intros j. rewrite Hin. clear Hin HG.
  assert (Hrow : forall p xs, (p < n)%nat -> row (firstn (dim c) (t_parts t)) p xs -> position E t p = Ok xs).
  { intros p xs Hp Hrow. destruct (position_ok Rops E t Hinv p Hp) as (xs' & H1 & _ & H3). rewrite H1. f_equal.
    unfold row in *. clear - Hrow H3. revert xs Hrow. induction H3; intros xs Hrow; inversion Hrow; subst; [reflexivity|]. f_equal; [congruence|auto]. }
  assert (Hlen : forall p xs, (p < n)%nat -> position E t p = Ok xs -> length xs = dim c /\ row (firstn (dim c) (t_parts t)) p xs).
  { intros p xs Hp HX. destruct (position_ok Rops E t Hinv p Hp) as (xs' & H1 & H2 & H3). rewrite HX in H1. injection H1 as <-. auto. }
  split.
  - intros (p & q & Hne & (k & Mp & Mq) & (s1 & s2 & x1 & x2 & S1 & S2 & Z1 & Z2 & X1 & X2 & OV) & Lp & Lq).
    pose proof (member_lt Rops E K t Hinv ordered sizes evs k p Hev Mp) as Hp. pose proof (member_lt Rops E K t Hinv ordered sizes evs k q Hev Mq) as Hq.
    pose proof (Hpos' p s1 Hp S1) as P1. pose proof (Hpos' q s2 Hq S2) as P2.
    destruct (Hlen p x1 Hp X1) as [Lx1 Rx1]. destruct (Hlen q x2 Hq X2) as [Lx2 Rx2].
    apply overlap_R in OV; [|exact P1|exact P2|congruence]. destruct OV as (y & Y1 & Y2).
    exists p, q, s1, s2, x1, x2, y. apply (Hsize p i s1 Hp Lp) in S1. apply (Hsize q j s2 Hq Lq) in S2.
    cbn [feq Rops fofZ] in Z1, Z2. 
    assert (s1 <> 0) by (intros ->; unfold Reqb in Z1; destruct (Req_EM_T 0 0); [discriminate|congruence]).
    assert (s2 <> 0) by (intros ->; unfold Reqb in Z2; destruct (Req_EM_T 0 0); [discriminate|congruence]).
    repeat split; auto.
  - intros (p & q & s1 & s2 & x1 & x2 & y & Hne & Lp & Lq & Hp & Hq & S1 & S2 & Z1 & Z2 & Rx1 & Rx2 & Y1 & Y2).
    apply (Hsize p i s1 Hp Lp) in S1. apply (Hsize q j s2 Hq Lq) in S2.
    pose proof (Hpos' p s1 Hp S1) as P1. pose proof (Hpos' q s2 Hq S2) as P2.
    pose proof (Hrow p x1 Hp Rx1) as X1. pose proof (Hrow q x2 Hq Rx2) as X2.
    destruct (Hlen p x1 Hp X1) as [Lx1 _]. destruct (Hlen q x2 Hq X2) as [Lx2 _].
    exists p, q. split; [exact Hne|]. split; [|split; [|split; assumption]].
    + assert (Ly : length y = dim c) by (rewrite <- Lx1; symmetry; exact (Forall2_length_eq _ _ _ Y1)).
      destruct (mapM_all (fun v => disc_single_coord Rops c true v (1 / t_box t)) y) as (dc & Hdc).
      { intros v _. destruct (disc_clamp_R v (1 / t_box t)) as (k & Hk & _). eauto. }
      destruct (encode_total E dc) as (x & Hx & _).
      { apply mapM_Ok in Hdc. destruct Hdc as [-> _]. exact Ly. }
      { apply Forall_forall. intros k Hk. destruct (mapM_in _ _ _ _ Hdc Hk) as (v & _ & HD). exact (disc_lt Rops c true _ _ _ HD). }
      apply (covers_share Rops E t Hinv sizes Hs evs x p q).
      * apply (covers_R evs p s1 x1 y dc x); auto. lra.
      * apply (covers_R evs q s2 x2 y dc x); auto. lra.
    + exists s1, s2, x1, x2. repeat split; auto.
      * cbn [feq Rops fofZ]. destruct (Reqb s1 0) eqn:B; [apply Reqb_eq in B; contradiction|reflexivity].
      * cbn [feq Rops fofZ]. destruct (Reqb s2 0) eqn:B; [apply Reqb_eq in B; contradiction|reflexivity].
      * apply overlap_R; [exact P1|exact P2|congruence|eauto].
Qed.

End Tree.

End ExactColl.
