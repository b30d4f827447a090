(** The indices at which the particles are divided, with IEEE arithmetic. *)
From Coq Require Import List ZArith NArith Reals Bool Lia Lra Psatz.
From Flocq Require Import Core BinarySingleNaN.
From Verif Require Import Base Config Build TreeSpec BuildSpec BuildProofs FOps FOpsProofs NodeProps Tree Kernels Force Gpu.
Import ListNotations.
Local Open Scope R_scope.

Section IEEE.

Variables prec emax : Z.
Context (Hprec : Prec_gt_0 prec).
Context (Hemax : Prec_lt_emax prec emax).
Variable fused : bool.
Hypothesis Hp2 : (2 <= prec)%Z.
Hypothesis He : (65 <= emax)%Z.

Notation bf := (binary_float prec emax).
Notation OD := (Bops prec emax Hprec Hemax fused).
Notation fexp := (SpecFloat.fexp prec emax).
Notation rnd := (round radix2 fexp ZnearestE).

Local Instance valid_fexp' : Valid_exp fexp := valid_fexp prec emax Hprec.

Lemma rnd_1 : rnd 1 = 1.
Proof.
  apply round_generic; auto with typeclass_instances. change 1 with (bpow radix2 0). apply format_pow; [exact Hprec|exact Hp2|].
  assert (prec < emax)%Z by exact Hemax. lia.
Qed.

Lemma rnd_nonneg : forall x, 0 <= x -> 0 <= rnd x.
Proof. intros x H. rewrite <- (rnd_0 prec emax). apply rnd_le; auto. Qed.

(** The projection of a fraction. *)
Section Frac.

Variable npF : bf.
Hypothesis Hn1 : is_finite npF = true.
Hypothesis Hn2 : 0 <= B2R npF < bpow radix2 64.

Lemma frac : forall x acc : bf, is_finite x = true -> is_finite acc = true -> 0 < B2R acc -> 0 <= B2R x <= B2R acc ->
  let v := fmul OD (fdiv OD x acc) npF in
  is_finite v = true /\ B2R v = rnd (rnd (B2R x / B2R acc) * B2R npF) /\ 0 <= B2R v <= B2R npF.
Proof.
  intros x acc Fx Fa Ha Hx v. unfold v. cbn [fmul fdiv Bops].
  assert (Q : 0 <= B2R x / B2R acc <= 1).
  { split; [apply Rmult_le_pos; [tauto|]; apply Rlt_le, Rinv_0_lt_compat, Ha|]. apply Rmult_le_reg_r with (B2R acc); [exact Ha|].
    unfold Rdiv. rewrite Rmult_assoc, Rinv_l by lra. lra. }
  assert (R : 0 <= rnd (B2R x / B2R acc) <= 1).
  { split; [apply rnd_nonneg; tauto|]. apply Rle_trans with (rnd 1); [apply rnd_le; tauto|right; apply rnd_1]. }
  assert (P1 : 1 < bpow radix2 emax) by (change 1 with (bpow radix2 0); apply bpow_lt; lia).
  destruct (div_finite prec emax Hprec Hemax x acc Fx) as [D1 D2].
  { lra. } { rewrite Rabs_pos_eq; lra. }
  assert (P2 : 0 <= rnd (B2R x / B2R acc) * B2R npF <= B2R npF) by nra.
  assert (P3 : 0 <= rnd (rnd (B2R x / B2R acc) * B2R npF) <= B2R npF).
  { split; [apply rnd_nonneg; tauto|]. rewrite <- (rnd_B2R prec emax npF) at 2. apply rnd_le; tauto. }
  assert (P4 : bpow radix2 64 < bpow radix2 emax) by (apply bpow_lt; lia).
  assert (M : is_finite (Bmult mode_NE (Bdiv mode_NE x acc) npF) = true).
  { apply (mult_finite prec emax Hprec Hemax); auto. rewrite D2, Rabs_pos_eq; lra. }
  destruct (mult_fin prec emax Hprec Hemax _ _ M) as (_ & _ & V). rewrite D2 in V. rewrite V. auto.
Qed.

Lemma cast_val : forall v : bf, is_finite v = true -> 0 <= B2R v <= B2R npF ->
  numeric_cast_size OD v = Ok (Z.to_N (Ztrunc (B2R v))).
Proof.
  intros v Fv Hv. unfold numeric_cast_size. cbn [fle ffin ftrunc Bops].
  assert (P : (prec < emax)%Z) by exact Hemax.
  assert (T : is_finite (fofZ OD (-1)) = true /\ B2R (fofZ OD (-1)) = -1).
  { destruct (ofZ_exact prec emax Hprec Hemax fused Hp2 (-1)) as [A B].
    - change (Z.abs (-1)) with 1%Z. change 1%Z with (2 ^ 0)%Z. apply Z.pow_lt_mono_r; lia.
    - auto. }
  destruct T as [T1 T2].
  destruct (ofZ_pow prec emax Hprec Hemax fused Hp2 64) as [S1 S2]; [lia|].
  destruct (Bleb v _) eqn:E1. { apply (leb_le prec emax) in E1; auto. rewrite T2 in E1. lra. }
  destruct (Bleb _ v) eqn:E2. { apply (leb_le prec emax) in E2; auto. rewrite S1 in E2. lra. }
  rewrite Fv. cbn [negb]. f_equal. now rewrite (trunc_val prec emax Hemax).
Qed.

Definition project (x acc : bf) : N := Z.to_N (Ztrunc (rnd (rnd (B2R x / B2R acc) * B2R npF))).

Lemma project_mono : forall x y acc, is_finite x = true -> is_finite y = true -> is_finite acc = true -> 0 < B2R acc ->
  0 <= B2R x <= B2R y -> B2R y <= B2R acc ->
  (project x acc <= project y acc)%N /\ (project y acc <= Z.to_N (Ztrunc (B2R npF)))%N.
Proof.
  intros x y acc Fx Fy Fa Ha Hxy Hy. unfold project.
  destruct (frac x acc Fx Fa Ha) as (_ & X & Bx); [lra|]. destruct (frac y acc Fy Fa Ha) as (_ & Y & By); [lra|]. rewrite X in Bx. rewrite Y in By.
  split; apply Z2N.inj_le; try (rewrite <- (Ztrunc_IZR 0); apply Ztrunc_le; lra); apply Ztrunc_le; [|tauto].
  apply rnd_le; [exact Hprec|]. apply Rmult_le_compat_r; [tauto|]. apply rnd_le; [exact Hprec|]. apply Rmult_le_compat_r; [|tauto].
  apply Rlt_le, Rinv_0_lt_compat, Ha.
Qed.

Lemma plus_val : forall x y : bf, is_finite x = true -> is_finite y = true -> 0 <= B2R x -> 0 <= B2R y ->
  is_finite (Bplus mode_NE x y) = true -> B2R x <= B2R (Bplus mode_NE x y) /\ B2R (Bplus mode_NE x y) = rnd (B2R x + B2R y).
Proof.
  intros x y Fx Fy Hx Hy H. destruct (plus_fin prec emax Hprec Hemax x y H) as (_ & _ & V). split; [|exact V]. rewrite V.
  rewrite <- (rnd_B2R prec emax x) at 1. apply rnd_le; [exact Hprec|]. lra.
Qed.

Lemma fold_fin : forall rest acc, is_finite (fold_left (fadd OD) rest acc) = true -> is_finite acc = true.
Proof.
  induction rest as [|s rest IH]; intros acc H; cbn [fold_left] in H; [exact H|]. apply IH in H. cbn [fadd Bops] in H.
  now apply (plus_fin prec emax Hprec Hemax) in H.
Qed.

Lemma fold_mono : forall rest acc, Forall (fun s : bf => is_finite s = true /\ 0 <= B2R s) rest -> 0 <= B2R acc ->
  is_finite (fold_left (fadd OD) rest acc) = true -> B2R acc <= B2R (fold_left (fadd OD) rest acc).
Proof.
  induction rest as [|s rest IH]; intros acc Hs Ha H; cbn [fold_left] in *; [lra|]. inversion Hs as [|? ? [S1 S2] Hs']; subst.
  pose proof (fold_fin _ _ H) as F1. cbn [fadd Bops] in F1 |- *. destruct (plus_fin prec emax Hprec Hemax _ _ F1) as (F2 & _).
  destruct (plus_val acc s F2 S1 Ha S2 F1) as [L _]. specialize (IH (Bplus mode_NE acc s) Hs'). cbn [fadd Bops] in IH, H. apply Rle_trans with (1 := L). apply IH; [lra|exact H].
Qed.

Lemma raw_spec : forall rest acc0 tmp A, Forall (fun s : bf => is_finite s = true /\ 0 <= B2R s) rest ->
  is_finite tmp = true -> B2R tmp = B2R acc0 -> 0 <= B2R tmp -> fold_left (fadd OD) rest acc0 = A -> is_finite A = true -> 0 < B2R A ->
  exists raw, cuda_raw OD npF A tmp rest = Ok raw /\ length raw = length rest /\
    sorted_codes raw /\ Forall (fun i => (project tmp A <= i)%N /\ (i <= Z.to_N (Ztrunc (B2R npF)))%N) raw.
Proof.
  induction rest as [|s rest IH]; intros acc0 tmp A Hs Ft Et Ht HA FA PA.
  - exists []. split; [reflexivity|]. split; [reflexivity|]. split; [|constructor]. intros i j x y _ Hi. destruct i; discriminate.
  - inversion Hs as [|? ? [S1 S2] Hs']; subst. cbn [fold_left] in FA, PA.
    set (A := fold_left (fadd OD) rest (fadd OD acc0 s)) in *.
    pose proof (fold_fin _ _ FA) as F1. cbn [fadd Bops] in F1.
    destruct (plus_fin prec emax Hprec Hemax _ _ F1) as (F2 & _ & V1).
    assert (F3 : is_finite (Bplus mode_NE tmp s) = true).
    { apply (plus_finite prec emax Hprec Hemax); auto. rewrite Et, <- V1. apply abs_B2R_lt_emax. }
    destruct (plus_val tmp s Ft S1 Ht S2 F3) as [L V2].
    assert (V3 : B2R (fadd OD tmp s) = B2R (fadd OD acc0 s)) by (cbn [fadd Bops]; rewrite V2, V1, Et; reflexivity).
    assert (L2 : B2R (fadd OD tmp s) <= B2R A).
    { rewrite V3. apply fold_mono; auto. rewrite <- V3. cbn [fadd Bops]. lra. }
    cbn [fadd Bops] in L2.
    destruct (frac tmp A Ft FA PA) as (X1 & X2 & X3); [lra|].
    cbn [cuda_raw]. cbn [fold_left]. fold A. rewrite (cast_val _ X1 X3), X2. fold (project tmp A). cbn [bind].
    destruct (IH (fadd OD acc0 s) (fadd OD tmp s) A Hs' F3 V3) as (raw & -> & Lr & Sr & Br); [cbn [fadd Bops]; lra|reflexivity|exact FA|exact PA|].
    cbn [bind]. exists (project tmp A :: raw). split; [reflexivity|]. split; [cbn [length]; lia|].
    destruct (project_mono tmp (Bplus mode_NE tmp s) A Ft F3 FA PA) as [M1 M2]; [lra|lra|]. cbn [fadd Bops] in Br.
    rewrite Forall_forall in Br. split.
    + intros [|i] [|j] x y Hij Hi Hj; cbn [nth_error] in Hi, Hj; [assert (x = y) by congruence; lia| |lia|].
      * injection Hi as <-. apply nth_error_In in Hj. specialize (Br _ Hj). lia.
      * apply (Sr i j); [lia|exact Hi|exact Hj].
    + apply Forall_forall. intros i [<-|Hi]; [|specialize (Br _ Hi)]; lia.
Qed.

(** What [check_split] accepts. *)
Lemma split_accepted : forall split, check_split OD split = Ok tt -> split <> [] ->
  Forall (fun s : bf => is_finite s = true /\ 0 <= B2R s) split /\ exists s, In s split /\ 0 < B2R s.
Proof.
  intros split H Hne. unfold check_split in H. cbv zeta in H.
  destruct (existsb (fun x => negb (ffin OD x)) split) eqn:E1; [discriminate|].
  destruct (existsb (fun x => flt OD x (fofZ OD 0)) split) eqn:E2; [discriminate|].
  assert (A : forall x, In x split -> is_finite x = true).
  { intros x Hx. destruct (is_finite x) eqn:Ex; [reflexivity|]. assert (existsb (fun x => negb (ffin OD x)) split = true); [|congruence].
    apply existsb_exists. exists x. split; [exact Hx|]. cbn [ffin Bops]. now rewrite Ex. }
  destruct (ofZ_0 prec emax Hprec Hemax fused) as [Z1 Z2].
  assert (B : forall x, In x split -> 0 <= B2R x).
  { intros x Hx. destruct (Rle_dec 0 (B2R x)) as [L|L]; [exact L|]. assert (existsb (fun x => flt OD x (fofZ OD 0)) split = true); [|congruence].
    apply existsb_exists. exists x. split; [exact Hx|]. cbn [flt Bops]. apply (ltb_lt prec emax); [auto|exact Z2|]. rewrite Z1. lra. }
  split; [apply Forall_forall; auto|].
  destruct (forallb (fun x => feq OD x (fofZ OD 0)) split) eqn:E3.
  { destruct split; [congruence|]. discriminate. }
  assert (X : exists x, In x split /\ feq OD x (fofZ OD 0) = false).
  { clear - E3. induction split as [|x l IH]; [discriminate|]. cbn [forallb] in E3. apply andb_false_iff in E3 as [E|E]; [exists x; split; [now left|exact E]|].
    destruct (IH E) as (y & H1 & H2). exists y. split; [now right|exact H2]. }
  destruct X as (x & Hx & Ex). exists x. split; [exact Hx|]. cbn [feq Bops] in Ex.
  rewrite (Beqb_correct prec emax) in Ex by auto. revert Ex. rewrite Z1. case Req_bool_spec; [discriminate|]. intros Hne' _. pose proof (B x Hx). lra.
Qed.

Lemma fold_pos : forall rest acc, Forall (fun s : bf => is_finite s = true /\ 0 <= B2R s) rest -> 0 <= B2R acc ->
  is_finite (fold_left (fadd OD) rest acc) = true -> (0 < B2R acc \/ exists s, In s rest /\ 0 < B2R s) -> 0 < B2R (fold_left (fadd OD) rest acc).
Proof.
  induction rest as [|s rest IH]; intros acc Hs Ha H [Hp|(x & Hx & Px)]; cbn [fold_left] in *; try lra; [destruct Hx| |].
  - pose proof (fold_mono (s :: rest) acc Hs Ha H). cbn [fold_left] in *. lra.
  - inversion Hs as [|? ? [S1 S2] Hs']; subst. pose proof (fold_fin _ _ H) as F1. cbn [fadd Bops] in F1.
    destruct (plus_fin prec emax Hprec Hemax _ _ F1) as (F2 & _). destruct (plus_val acc s F2 S1 Ha S2 F1) as [L V].
    apply IH; auto; cbn [fadd Bops]; [lra|]. destruct Hx as [->|Hx]; [left|right; eauto].
    apply Rlt_le_trans with (1 := Px). rewrite V. rewrite <- (rnd_B2R prec emax x) at 1. apply rnd_le; [exact Hprec|]. lra.
Qed.

(** The raw indices for an accepted split whose sum does not overflow. *)
Lemma cuda_raw_ok : forall s0 rest, check_split OD (s0 :: rest) = Ok tt ->
  is_finite (fold_left (fadd OD) (s0 :: rest) (fofZ OD 0)) = true ->
  exists raw, cuda_raw OD npF (fold_left (fadd OD) (s0 :: rest) (fofZ OD 0)) s0 rest = Ok raw /\ length raw = length rest /\
    sorted_codes raw /\ Forall (fun i => (i <= Z.to_N (Ztrunc (B2R npF)))%N) raw.
Proof.
  intros s0 rest Hc HF. destruct (split_accepted _ Hc) as [HA HP]; [discriminate|]. inversion HA as [|? ? [S1 S2] Hs]; subst.
  destruct (ofZ_0 prec emax Hprec Hemax fused) as [Z1 Z2].
  assert (Fp : is_finite (fadd OD (fofZ OD 0) s0) = true) by (cbn [fold_left] in HF; now apply fold_fin in HF).
  assert (V : B2R (fadd OD (fofZ OD 0) s0) = B2R s0).
  { destruct (plus_fin prec emax Hprec Hemax _ _ Fp) as (_ & _ & V). cbn [fadd Bops]. rewrite V, Z1, Rplus_0_l. now apply rnd_B2R. }
  assert (PA : 0 < B2R (fold_left (fadd OD) (s0 :: rest) (fofZ OD 0))).
  { apply fold_pos; [exact HA|rewrite Z1; lra|exact HF|right; exact HP]. }
  destruct (raw_spec rest (fadd OD (fofZ OD 0) s0) s0 (fold_left (fadd OD) (s0 :: rest) (fofZ OD 0)) Hs S1) as (raw & H1 & H2 & H3 & H4); auto.
  exists raw. split; [exact H1|]. split; [exact H2|]. split; [exact H3|]. eapply Forall_impl; [|exact H4]. cbn beta. intros; tauto.
Qed.

End Frac.

(** ** CUDA *)

(** The indices exist, whatever the rounding of the number of particles. *)
Lemma cuda_indices_total : forall np npF begins split, is_finite npF = true -> 0 <= B2R npF < bpow radix2 64 -> sorted_codes begins ->
  check_split OD split = Ok tt -> split <> [] -> is_finite (fold_left (fadd OD) split (fofZ OD 0)) = true ->
  exists k idx, cuda_indices OD np npF begins split = Ok (k, idx) /\ length idx = length split.
Proof.
  intros np npF begins split N1 N2 Hs Hc Hne HF. destruct split as [|s0 rest]; [congruence|].
  destruct (cuda_raw_ok npF N1 N2 s0 rest Hc HF) as (raw & E & L & _). unfold cuda_indices. cbv zeta. rewrite E. cbn [bind].
  assert (La : length (raw ++ [np]) = S (length rest)) by (rewrite app_length; cbn [length]; lia).
  destruct (raw ++ [np]) as [|i0 is_] eqn:Ea; [discriminate|]. unfold split_node.
  rewrite bsearch_spec; [|exact Hs|lia|lia|pose proof (cntf_le (bpred false 0 i0) begins); lia]. cbn [bind fst snd].
  eexists _, _. split; [reflexivity|]. cbn [length]. rewrite map_length. cbn [length] in La. lia.
Qed.

(** If the number of particles is converted exactly, the indices are sorted and none exceeds it. *)
Lemma cuda_indices_sorted : forall np npF begins split k idx, is_finite npF = true -> B2R npF = IZR (Z.of_N np) -> (np < 2 ^ 64)%N ->
  sorted_codes begins -> Forall (fun b => (b <= np)%N) begins ->
  check_split OD split = Ok tt -> is_finite (fold_left (fadd OD) split (fofZ OD 0)) = true ->
  cuda_indices OD np npF begins split = Ok (k, idx) ->
  sorted_codes idx /\ Forall (fun i => (i <= np)%N) idx.
Proof.
  intros np npF begins split k idx N1 N2 N3 Hs Hb Hc HF Hi. destruct split as [|s0 rest]; [discriminate|].
  assert (N4 : 0 <= B2R npF < bpow radix2 64).
  { rewrite N2. split; [apply IZR_le; lia|]. change (bpow radix2 64) with (IZR (2 ^ 64)). apply IZR_lt. lia. }
  destruct (cuda_raw_ok npF N1 N4 s0 rest Hc HF) as (raw & E & L & Sr & Br). unfold cuda_indices in Hi. cbv zeta in Hi. rewrite E in Hi. cbn [bind] in Hi.
  rewrite N2, Ztrunc_IZR, N2Z.id in Br.
  assert (Sa : sorted_codes (raw ++ [np])).
  { intros i j x y Hij Hx Hy. destruct (Nat.lt_ge_cases j (length raw)) as [Lj|Lj].
    - rewrite nth_error_app1 in Hx, Hy by lia. apply (Sr i j); auto.
    - rewrite (nth_error_app2 raw [np]) in Hy by lia. destruct (j - length raw)%nat as [|[|?]]; cbn in Hy; try discriminate. injection Hy as <-.
      apply nth_error_In, in_app_or in Hx as [Hx|[<-|[]]]; [|lia]. rewrite Forall_forall in Br. auto. }
  assert (Ba : Forall (fun i => (i <= np)%N) (raw ++ [np])) by (apply Forall_app; split; [exact Br|constructor; [lia|constructor]]).
  destruct (raw ++ [np]) as [|i0 is_] eqn:Ea; [discriminate|].
  destruct (split_node np begins i0) as [[k' first]| |] eqn:En; try discriminate. cbn [bind fst snd] in Hi. injection Hi as <- <-.
  assert (Bf : (first <= np)%N).
  { unfold split_node in En. destruct (bsearch _ _ _ _ _ _ _) as [k''| |]; try discriminate. cbn [bind] in En. injection En as <- <-.
    destruct (nth_error begins k'') as [b|] eqn:Eb; [|lia]. apply nth_error_In in Eb. rewrite Forall_forall in Hb. auto. }
  inversion Ba as [|? ? B0 Bs]; subst. split.
  - intros i j x y Hij Hx Hy. destruct i as [|i], j as [|j]; cbn [nth_error] in Hx, Hy; [assert (x = y) by congruence; lia| |lia|].
    + injection Hx as <-. rewrite nth_error_map in Hy. destruct (nth_error is_ j) as [z|]; [|discriminate]. injection Hy as <-.
      destruct (N.ltb_spec z first); lia.
    + rewrite nth_error_map in Hx, Hy. destruct (nth_error is_ i) as [z|] eqn:Ez; [|discriminate]. destruct (nth_error is_ j) as [z'|] eqn:Ez'; [|discriminate].
      injection Hx as <-. injection Hy as <-. pose proof (Sa (S i) (S j) z z' ltac:(lia) Ez Ez'). destruct (N.ltb_spec z first), (N.ltb_spec z' first); lia.
  - constructor; [exact Bf|]. apply Forall_forall. intros x Hx. apply in_map_iff in Hx as (z & <- & Hz). rewrite Forall_forall in Bs. specialize (Bs z Hz).
    destruct (N.ltb_spec z first); lia.
Qed.

(** ** ROCm: the index always exists. *)
Lemma rocm_index_ok : forall np s0 s1, (np < 2 ^ 53)%N -> (53 <= prec)%Z -> check_split OD [s0; s1] = Ok tt ->
  exists i, rocm_index OD np s0 s1 = Ok i /\ (i <= np)%N.
Proof.
  intros np s0 s1 Hn Hp Hc. destruct (split_accepted _ Hc) as [HA HP]; [discriminate|].
  inversion HA as [|? ? [S1 S2] HA']; subst. inversion HA' as [|? ? [S3 S4] _]; subst.
  assert (Hn' : (Z.abs (Z.of_N np) < 2 ^ prec)%Z).
  { rewrite Z.abs_eq by lia. apply Z.lt_le_trans with (2 ^ 53)%Z; [lia|]. apply Z.pow_le_mono_r; lia. }
  destruct (ofZ_exact prec emax Hprec Hemax fused Hp2 (Z.of_N np) Hn') as [N1 N2].
  assert (N3 : 0 <= B2R (fofZ OD (Z.of_N np)) < bpow radix2 64).
  { rewrite N1. split; [apply IZR_le; lia|]. change (bpow radix2 64) with (IZR (2 ^ 64)). apply IZR_lt.
    apply Z.lt_trans with (2 ^ 53)%Z; [lia|reflexivity]. }
  unfold rocm_index. destruct (is_finite (Bplus mode_NE s0 s1)) eqn:Fs.
  - destruct (plus_val s0 s1 S1 S3 S2 S4 Fs) as [L V].
    assert (P : 0 < B2R (Bplus mode_NE s0 s1)).
    { destruct HP as (x & Hx & Px). apply Rlt_le_trans with (1 := Px). rewrite V. rewrite <- (rnd_B2R prec emax x). apply rnd_le; [exact Hprec|].
      destruct Hx as [->|[->|[]]]; lra. }
    destruct (frac (fofZ OD (Z.of_N np)) N2 N3 s0 (Bplus mode_NE s0 s1) S1 Fs P ltac:(lra)) as (X1 & X2 & X3).
    cbn [fadd Bops] in *. rewrite (cast_val (fofZ OD (Z.of_N np)) N3 _ X1 X3). eexists. split; [reflexivity|]. rewrite X2 in *. rewrite N1 in X3.
    match goal with |- (Z.to_N ?z <= _)%N => assert (Hz : (0 <= z <= Z.of_N np)%Z); [|lia] end.
    rewrite N1. split; [rewrite <- (Ztrunc_IZR 0); apply Ztrunc_le; tauto|]. rewrite <- (Ztrunc_IZR (Z.of_N np)) at 2. apply Ztrunc_le. tauto.
  - (* the sum overflows *)
    pose proof (Bplus_correct prec emax _ _ mode_NE s0 s1 S1 S3) as C. destruct (Rlt_bool _ _) in C; [destruct C as (_ & C & _); congruence|].
    destruct C as [C Cs].
    assert (Hsg : Bsign s0 = false).
    { destruct s0 as [[]|[]| |[] m e B]; try reflexivity; try discriminate.
      - exfalso. cbn [Bsign] in Cs. destruct s1 as [[]|[]| |[] m1 e1 B1]; cbn [Bsign] in Cs; try discriminate.
      - exfalso. cbn in S2. apply (Rlt_not_le 0 (F2R (Float radix2 (Z.neg m) e))); [|exact S2]. now apply F2R_lt_0. }
    rewrite Hsg in C.
    assert (Es : Bplus mode_NE s0 s1 = B754_infinity false).
    { destruct (Bplus mode_NE s0 s1) as [?|[]| |]; try discriminate. reflexivity. }
    cbn [fadd Bops]. rewrite Es.
    assert (Ed : fdiv OD s0 (B754_infinity false) = B754_zero false).
    { cbn [fdiv Bops]. destruct s0 as [[]|[]| |[] m e B]; try discriminate; reflexivity. }
    rewrite Ed.
    set (nz := fofZ OD (Z.of_N np)) in *.
    assert (Em : exists sg, fmul OD (B754_zero false) nz = B754_zero sg).
    { cbn [fmul Bops]. destruct nz as [?|?| |? m e B]; try discriminate; cbn; eauto. }
    destruct Em as [sg ->]. rewrite (cast_val nz N3 (B754_zero sg) eq_refl ltac:(cbn [B2R]; lra)).
    eexists. split; [reflexivity|]. cbn [B2R]. rewrite (Ztrunc_IZR 0). cbn. lia.
Qed.

End IEEE.

(** The conversions of the number of particles. *)
Lemma np_double_exact : forall n, (n < 2 ^ 53)%N -> is_finite (np_double n) = true /\ B2R (np_double n) = IZR (Z.of_N n).
Proof.
  intros n Hn. destruct (ofZ_exact 53 1024 prec64 emax64 false ltac:(lia) (Z.of_N n)) as [A B]; [rewrite Z.abs_eq by lia; lia|]. auto.
Qed.

Lemma widen_exact : forall x, is_finite x = true -> is_finite (widen x) = true /\ B2R (widen x) = B2R x.
Proof.
  intros x Hx. unfold widen. destruct x as [s|s| |s m e Bd]; try discriminate; [split; reflexivity|].
  pose proof (binary_normalize_correct 53 1024 prec64 emax64 mode_NE (if s then Z.neg m else Z.pos m) e s) as C. cbv zeta in C.
  assert (Ev : F2R (Float radix2 (if s then Z.neg m else Z.pos m) e) = B2R (B754_finite s m e Bd)) by (destruct s; reflexivity).
  rewrite Ev in C.
  assert (Hr : round radix2 (SpecFloat.fexp 53 1024) (round_mode mode_NE) (B2R (B754_finite s m e Bd)) = B2R (B754_finite s m e Bd)).
  { apply round_generic; [apply valid_rnd_round_mode|].
    pose proof (generic_format_B2R 24 128 (B754_finite s m e Bd)) as G.
    apply (generic_inclusion_mag radix2 (SpecFloat.fexp 24 128)); [|exact G]. intros _. unfold SpecFloat.fexp, SpecFloat.emin. lia. }
  rewrite Hr in C. rewrite Rlt_bool_true in C.
  - destruct C as (C1 & C2 & _). auto.
  - apply Rlt_trans with (bpow radix2 128); [apply (abs_B2R_lt_emax 24 128)|apply bpow_lt; lia].
Qed.

Lemma np_float_exact : forall n, (n < 2 ^ 24)%N -> is_finite (np_float n) = true /\ B2R (np_float n) = IZR (Z.of_N n).
Proof.
  intros n Hn. destruct (ofZ_exact 24 128 prec32 emax32 false ltac:(lia) (Z.of_N n)) as [A B]; [rewrite Z.abs_eq by lia; lia|].
  rewrite <- A. now apply widen_exact.
Qed.

(** Whatever the number of particles, its conversion is finite and not too large. *)
Lemma ofZ_range : forall prec emax (Hprec : Prec_gt_0 prec) (Hemax : Prec_lt_emax prec emax), (2 <= prec)%Z -> (65 <= emax)%Z ->
  forall n, (n <= 2 ^ 63)%N -> let x := fofZ (Bops prec emax Hprec Hemax false) (Z.of_N n) in is_finite x = true /\ 0 <= B2R x < bpow radix2 64.
Proof.
  intros prec emax Hprec Hemax Hp He n Hn x. unfold x. cbn [fofZ Bops].
  pose proof (binary_normalize_correct prec emax Hprec Hemax mode_NE (Z.of_N n) 0 false) as C. cbv zeta in C.
  assert (Ev : F2R (Float radix2 (Z.of_N n) 0) = IZR (Z.of_N n)) by (unfold F2R; simpl; lra). rewrite Ev in C. simpl round_mode in C.
  assert (R1 : 0 <= round radix2 (SpecFloat.fexp prec emax) ZnearestE (IZR (Z.of_N n))).
  { apply rnd_nonneg; [exact Hprec|]. apply IZR_le. lia. }
  assert (R2 : round radix2 (SpecFloat.fexp prec emax) ZnearestE (IZR (Z.of_N n)) <= bpow radix2 63).
  { pose proof (valid_fexp prec emax Hprec). apply round_le_generic; auto with typeclass_instances.
    - apply format_pow; [exact Hprec|exact Hp|]. assert (0 < prec)%Z by exact Hprec. lia.
    - change (bpow radix2 63) with (IZR (2 ^ 63)). apply IZR_le. lia. }
  assert (R3 : bpow radix2 63 < bpow radix2 64) by (apply bpow_lt; lia).
  assert (R4 : bpow radix2 64 < bpow radix2 emax) by (apply bpow_lt; lia).
  rewrite Rlt_bool_true in C by (rewrite Rabs_pos_eq; lra). destruct C as (C1 & C2 & _). rewrite C1. split; [exact C2|lra].
Qed.

Lemma np_double_range : forall n, (n <= 2 ^ 63)%N -> is_finite (np_double n) = true /\ 0 <= B2R (np_double n) < bpow radix2 64.
Proof. intros n Hn. now apply (ofZ_range 53 1024 prec64 emax64). Qed.

Lemma np_float_range : forall n, (n <= 2 ^ 63)%N -> is_finite (np_float n) = true /\ 0 <= B2R (np_float n) < bpow radix2 64.
Proof.
  intros n Hn. destruct (ofZ_range 24 128 prec32 emax32 ltac:(lia) ltac:(lia) n Hn) as [A B]. cbv zeta in A, B.
  unfold np_float. destruct (widen_exact (fofZ (F32ops false) (Z.of_N n)) A) as [-> ->]. auto.
Qed.
