(** In exact arithmetic the trees do not depend on the SIMD batch size. *)
From Coq Require Import List Arith NArith ZArith Lia Bool Reals Lra FunctionalExtensionality.
From Verif Require Import Base Config Morton Build FOps NodeProps Tree TreeSafe RSum NodeGeom.
Import ListNotations.
Local Open Scope nat_scope.

(** The same configuration with another batch size. *)
Definition with_simd (E : env) (simd : option nat) (plan : list (nat * nat)) : env := mkEnv (e_cfg E) (e_mac E) simd (e_ncrit E) (e_rocm E) plan.

Lemma foldM_ub : forall {A S} (P : S -> Prop) (f : S -> A -> outcome S) l,
  (forall s x, P s -> f s x = UB \/ exists s', f s x = Ok s' /\ P s') ->
  forall s, P s -> (exists x, In x l /\ forall s, P s -> f s x = UB) -> foldM f l s = UB.
Proof.
  intros A S P f l H. induction l as [|y l IH]; intros s Hs (x & Hx & Hu); [destruct Hx|]. cbn [foldM].
  destruct (H s y Hs) as [-> |(s' & E1 & Hs')]; [reflexivity|]. destruct Hx as [->|Hx].
  - rewrite (Hu s Hs) in E1. discriminate.
  - rewrite E1. cbn [bind]. apply IH; eauto.
Qed.

Lemma foldM_inv : forall {A S} (P : S -> Prop) (f : S -> A -> outcome S) l,
  (forall s x, P s -> f s x = UB \/ exists s', f s x = Ok s' /\ P s') ->
  forall s, P s -> foldM f l s = UB \/ exists s', foldM f l s = Ok s' /\ P s'.
Proof.
  intros A S P f l H. induction l as [|y l IH]; intros s Hs; cbn [foldM]; [eauto|].
  destruct (H s y Hs) as [-> |(s' & -> & Hs')]; [now left|]. cbn [bind]. auto.
Qed.

Lemma foldM_ext_in : forall {A S} (f g : S -> A -> outcome S) l s, (forall s x, In x l -> f s x = g s x) -> foldM f l s = foldM g l s.
Proof.
  intros A S f g l. induction l as [|y l IH]; intros s H; cbn [foldM]; [reflexivity|]. rewrite H by (now left).
  destruct (g s y); cbn [bind]; auto. apply IH. intros. apply H. now right.
Qed.

Lemma mapM_ext_in0 : forall {A B} (f g : A -> outcome B) l, (forall a, In a l -> f a = g a) -> mapM f l = mapM g l.
Proof.
  intros A B f g l. induction l as [|a l IH]; intros H; cbn [mapM]; [reflexivity|]. rewrite (H a) by (now left).
  rewrite IH by (intros; apply H; now right). reflexivity.
Qed.

Section Sums.

Variable c : cfg.
Variables (ccols : list (list R)) (mcol : list R).

Notation accR := (@NodeProps.acc R).
Definition wide (a : accR) : Prop := length (snd a) = length ccols.
Definition readable (i : nat) : Prop := i < length mcol /\ Forall (fun col => i < length col) ccols.

Lemma readable_dec : forall i, {readable i} + {~ readable i}.
Proof.
  intros i. unfold readable. destruct (lt_dec i (length mcol)) as [H|H]; [|right; tauto].
  destruct (Forall_dec (fun col : list R => i < length col) (fun col => lt_dec i (length col)) ccols); [left|right]; tauto.
Defined.

Lemma acc_step_readable : forall a i, wide a -> readable i -> exists a', acc_step Rops ccols mcol a i = Ok a' /\ wide a'.
Proof.
  intros [m xs] i W [H1 H2]. unfold acc_step, wide in *. cbn [fst snd] in *. unfold rd at 1.
  destruct (nth_error mcol i) as [x|] eqn:X; [|apply nth_error_None in X; lia]. cbn [bind].
  assert (G : forall cols ys, length ys = length cols -> Forall (fun col => i < length col) cols ->
    exists l, mapM (fun '(col, s) => do x0 <- rd col i; Ok (ffma Rops x x0 s)) (combine cols ys) = Ok l /\ length l = length cols).
  { induction cols as [|col cols IH]; intros [|y ys] L F; try discriminate; [exists []; auto|]. cbn [combine mapM]. unfold rd at 1.
    pose proof (Forall_inv F) as F1. destruct (nth_error col i) eqn:Y; [|apply nth_error_None in Y; cbn in F1; lia]. cbn [bind].
    destruct (IH ys ltac:(cbn in L; lia) (Forall_inv_tail F)) as (l & -> & L'). cbn [bind]. eexists. split; [reflexivity|]. cbn [length]. lia. }
  destruct (G ccols xs W H2) as (l & -> & L). cbn [bind]. eexists. split; [reflexivity|]. exact L.
Qed.

Lemma acc_step_unreadable : forall a i, wide a -> ~ readable i -> acc_step Rops ccols mcol a i = UB.
Proof.
  intros [m xs] i W H. unfold acc_step, wide, readable in *. cbn [fst snd] in *. unfold rd at 1.
  destruct (nth_error mcol i) as [x|] eqn:X; [|reflexivity]. cbn [bind]. assert (X' : i < length mcol) by (apply nth_error_Some; congruence).
  assert (G : forall cols ys, length ys = length cols -> ~ Forall (fun col => i < length col) cols ->
    mapM (fun '(col, s) => do x0 <- rd col i; Ok (ffma Rops x x0 s)) (combine cols ys) = UB).
  { induction cols as [|col cols IH]; intros [|y ys] L F; try discriminate; [now elim F|]. cbn [combine mapM]. unfold rd at 1.
    destruct (nth_error col i) eqn:Y; [|reflexivity]. cbn [bind].
    assert (Y' : i < length col) by (apply nth_error_Some; congruence).
    rewrite (IH ys); [reflexivity|cbn in L; lia|]. intros F'. apply F. now constructor. }
  rewrite G; [reflexivity|exact W|tauto].
Qed.

Lemma acc_step_two : forall a i, wide a -> acc_step Rops ccols mcol a i = UB \/ exists a', acc_step Rops ccols mcol a i = Ok a' /\ wide a'.
Proof. intros a i W. destruct (readable_dec i); [right; now apply acc_step_readable|left; now apply acc_step_unreadable]. Qed.

Lemma vec_step_two : forall lanes i, Forall wide lanes ->
  vec_step Rops ccols mcol lanes i = UB \/ exists l, vec_step Rops ccols mcol lanes i = Ok l /\ (Forall wide l /\ length l = length lanes).
Proof.
  intros lanes i. unfold vec_step. generalize 0 as k. induction lanes as [|a lanes IH]; intros k W.
  { right. exists []. auto. }
  cbn [length seq combine mapM]. destruct (acc_step_two a (i + k) (Forall_inv W)) as [-> |(a' & -> & Wa)]; [now left|]. cbn [bind].
  destruct (IH (S k) (Forall_inv_tail W)) as [-> |(l & -> & Wl & L)]; [now left|]. right. cbn [bind]. eexists. split; [reflexivity|]. split; [now constructor|]. cbn. lia.
Qed.

Lemma vec_step_unreadable : forall lanes i j, Forall wide lanes -> i <= j < i + length lanes -> ~ readable j ->
  vec_step Rops ccols mcol lanes i = UB.
Proof.
  intros lanes i j W Hj Hu. unfold vec_step.
  assert (G : forall k, i + k <= j < i + k + length lanes ->
    mapM (fun '(k, a) => acc_step Rops ccols mcol a (i + k)) (combine (seq k (length lanes)) lanes) = UB).
  { clear Hj. induction lanes as [|a lanes IH]; intros k Hk; [cbn in Hk; lia|]. cbn [length seq combine mapM] in *.
    destruct (Nat.eq_dec (i + k) j) as [->|Hne].
    - now rewrite (acc_step_unreadable a j (Forall_inv W) Hu).
    - destruct (acc_step_two a (i + k) (Forall_inv W)) as [-> |(a' & -> & Wa)]; [reflexivity|]. cbn [bind].
      rewrite (IH (Forall_inv_tail W) (S k)) by lia. reflexivity. }
  apply (G 0). lia.
Qed.

(** Some particle of the range cannot be read. *)
Lemma node_sums_unreadable : forall simd plan b e, (forall bw, simd = Some bw -> 0 < bw) -> length ccols = dim c ->
  (exists j, b <= j < e /\ ~ readable j) -> node_sums Rops c simd plan ccols mcol b e = UB.
Proof.
  intros simd plan b e Hs Hd (j & Hj & Hu).
  assert (W0 : wide (zero_acc Rops c)) by (unfold wide, zero_acc; cbn [snd]; now rewrite repeat_length).
  assert (SC : foldM (acc_step Rops ccols mcol) (seq b (e - b)) (zero_acc Rops c) = UB).
  { apply (foldM_ub wide); [apply acc_step_two|exact W0|]. exists j. split; [apply in_seq; lia|]. intros. now apply acc_step_unreadable. }
  unfold node_sums. destruct simd as [bw|]; [|exact SC]. destruct (dim c) as [|[|[|[|k]]]] eqn:D; try exact SC. clear SC. rewrite <- D.
  specialize (Hs bw eq_refl). set (size := e - b) in *.
  pose proof (Nat.div_mod size bw ltac:(lia)) as DM. pose proof (Nat.mod_upper_bound size bw ltac:(lia)) as MU.
  set (q := size / bw) in *. set (r := size mod bw) in *.
  set (PL := fun lanes : list accR => Forall wide lanes /\ length lanes = bw).
  assert (P0 : PL (repeat (zero_acc Rops c) bw)). { split; [apply Forall_forall; intros x Hx; apply repeat_spec in Hx; now subst|apply repeat_length]. }
  assert (ST : forall lanes i, PL lanes -> vec_step Rops ccols mcol lanes i = UB \/ exists l, vec_step Rops ccols mcol lanes i = Ok l /\ PL l).
  { intros lanes i [W L]. destruct (vec_step_two lanes i W) as [H|(l & H & Wl & Ll)]; [now left|right]. exists l. split; [exact H|]. split; [exact Wl|congruence]. }
  destruct (Nat.lt_ge_cases (j - b) (q * bw)) as [Hv|Hv].
  - rewrite (foldM_ub PL _ _ ST _ P0); [reflexivity|]. exists (b + (j - b) / bw * bw).
    pose proof (Nat.div_mod (j - b) bw ltac:(lia)) as DJ. pose proof (Nat.mod_upper_bound (j - b) bw ltac:(lia)) as MJ.
    split.
    + apply in_map_iff. exists ((j - b) / bw). split; [reflexivity|]. apply in_seq.
      assert ((j - b) / bw < q) by (apply Nat.div_lt_upper_bound; [lia|]; rewrite Nat.mul_comm; exact Hv). split; [apply Nat.le_0_l|assumption].
    + intros lanes [W L]. apply (vec_step_unreadable lanes _ j W); [|exact Hu]. rewrite L. rewrite (Nat.mul_comm _ bw). clear - DJ MJ Hj. revert DJ MJ. generalize ((j - b) / bw) ((j - b) mod bw). intros; nia.
  - destruct (foldM_inv PL _ (map (fun q => b + q * bw) (seq 0 q)) ST _ P0) as [-> |(lanes & -> & _)]; [reflexivity|]. cbn [bind].
    apply (foldM_ub wide); [apply acc_step_two| |].
    + unfold wide. cbn [snd]. rewrite map_length, seq_length. congruence.
    + exists j. split; [apply in_seq; rewrite (Nat.mul_comm q bw) in Hv; lia|]. intros. now apply acc_step_unreadable.
Qed.

End Sums.

(** Only the first [n] elements of the columns matter. *)
Lemma node_sums_truncate : forall c simd plan ccols mcol b e, (forall bw, simd = Some bw -> 0 < bw) -> length ccols = dim c ->
  node_sums Rops c simd plan ccols mcol b e = node_sums Rops c simd plan (map (firstn e) ccols) (firstn e mcol) b e.
Proof.
  intros c simd plan ccols mcol b e Hs Hd.
  assert (RD : forall (l : list R) i, i < e -> rd (firstn e l) i = rd l i) by (intros l i Hi; unfold rd; rewrite nth_error_firstn; destruct (Nat.ltb_spec i e); [reflexivity|lia]).
  assert (ST : forall a i, i < e -> acc_step Rops ccols mcol a i = acc_step Rops (map (firstn e) ccols) (firstn e mcol) a i).
  { intros [m xs] i Hi. unfold acc_step. rewrite RD by exact Hi. destruct (rd mcol i) as [x| |]; cbn [bind]; [|reflexivity|reflexivity]. cbn [snd fst].
    assert (G : mapM (fun '(col, s) => do x0 <- rd col i; Ok (ffma Rops x x0 s)) (combine ccols xs) =
                mapM (fun '(col, s) => do x0 <- rd col i; Ok (ffma Rops x x0 s)) (combine (map (firstn e) ccols) xs)).
    { clear - RD Hi. revert xs. induction ccols as [|col cols IH]; intros [|y ys]; cbn [map combine mapM]; try reflexivity. now rewrite RD, IH. }
    now rewrite G. }
  assert (SC : forall l a, (forall i, In i l -> i < e) -> foldM (acc_step Rops ccols mcol) l a = foldM (acc_step Rops (map (firstn e) ccols) (firstn e mcol)) l a).
  { intros l a Hl. apply foldM_ext_in. intros s x Hx. apply ST. auto. }
  unfold node_sums. destruct simd as [bw|].
  2:{ apply SC. intros i Hi. apply in_seq in Hi. lia. }
  destruct (dim c) as [|[|[|[|k]]]] eqn:D; try (apply SC; intros i Hi; apply in_seq in Hi; lia). rewrite <- D.
  specialize (Hs bw eq_refl). set (size := e - b) in *.
  pose proof (Nat.div_mod size bw ltac:(lia)) as DM. pose proof (Nat.mod_upper_bound size bw ltac:(lia)) as MU.
  set (q := size / bw) in *. set (r := size mod bw) in *.
  assert (VS : foldM (vec_step Rops ccols mcol) (map (fun q => b + q * bw) (seq 0 q)) (repeat (zero_acc Rops c) bw) =
               foldM (vec_step Rops (map (firstn e) ccols) (firstn e mcol)) (map (fun q => b + q * bw) (seq 0 q)) (repeat (zero_acc Rops c) bw)).
  { assert (G : forall l s, length s = bw -> (forall i, In i l -> i + bw <= e) ->
      foldM (vec_step Rops ccols mcol) l s = foldM (vec_step Rops (map (firstn e) ccols) (firstn e mcol)) l s).
    { induction l as [|i l IH]; intros s Ls Hl; [reflexivity|]. cbn [foldM].
      assert (H1 : vec_step Rops ccols mcol s i = vec_step Rops (map (firstn e) ccols) (firstn e mcol) s i).
      { unfold vec_step. apply mapM_ext_in0. intros [k a] Hk. apply in_combine_l in Hk. apply in_seq in Hk. apply ST.
        specialize (Hl i (or_introl eq_refl)). lia. }
      rewrite H1. destruct (vec_step Rops (map (firstn e) ccols) (firstn e mcol) s i) as [s'| |] eqn:V; cbn [bind]; [|reflexivity|reflexivity].
      apply IH; [|intros; apply Hl; now right]. unfold vec_step in V. apply mapM_length in V. rewrite V, combine_length, seq_length. lia. }
    apply G; [apply repeat_length|]. intros i Hi. apply in_map_iff in Hi as (k & <- & Hk). apply in_seq in Hk.
    assert ((k + 1) * bw <= q * bw) by (apply Nat.mul_le_mono_r; lia). rewrite (Nat.mul_comm q bw) in H. lia. }
  rewrite VS. clear VS. match goal with |- bind ?x _ = bind ?x _ => destruct x as [lanes| |] end; cbn [bind]; [|reflexivity|reflexivity].
  apply SC. intros i Hi. apply in_seq in Hi. lia.
Qed.

(** tree.hpp 1120-1168: the vector loop and the scalar loop compute the same sums. *)
Theorem node_sums_simd : forall c simd plan ccols mcol b e, (forall bw, simd = Some bw -> 0 < bw) -> length ccols = dim c ->
  node_sums Rops c simd plan ccols mcol b e = node_sums Rops c None plan ccols mcol b e.
Proof.
  intros c simd plan ccols mcol b e Hs Hd. assert (Hn : forall bw, @None nat = Some bw -> 0 < bw) by discriminate.
  destruct (Nat.le_gt_cases e b) as [Hbe|Hbe].
  - (* no particles *)
    assert (G : forall s, node_sums Rops c s plan ccols mcol b e = node_sums Rops c s plan (repeat [] (dim c)) [] 0 0).
    { intros s. unfold node_sums. replace (e - b) with 0 by lia. destruct s as [bw|]; [|reflexivity].
      destruct (dim c) as [|[|[|[|k]]]] eqn:D; try reflexivity. destruct bw; reflexivity. }
    rewrite (G simd), (G None). assert (L : length (repeat (@nil R) (dim c)) = dim c) by apply repeat_length.
    assert (F : Forall (fun col => length col = 0) (repeat (@nil R) (dim c))) by (apply Forall_forall; intros x Hx; apply repeat_spec in Hx; now subst).
    now rewrite (node_sums_R _ simd plan _ [] 0 0 0 Hs L F eq_refl ltac:(lia)), (node_sums_R _ None plan _ [] 0 0 0 Hn L F eq_refl ltac:(lia)).
  - destruct (Forall_dec (readable ccols mcol) (readable_dec ccols mcol) (seq b (e - b))) as [A|A].
    + rewrite (node_sums_truncate c simd plan), (node_sums_truncate c None plan) by assumption.
      rewrite Forall_forall in A. destruct (A (e - 1)) as [A1 A2]; [apply in_seq; lia|].
      assert (L : length (map (firstn e) ccols) = dim c) by (now rewrite map_length).
      assert (F : Forall (fun col => length col = e) (map (firstn e) ccols)).
      { apply Forall_forall. intros x Hx. apply in_map_iff in Hx as (col & <- & Hc). rewrite Forall_forall in A2. specialize (A2 col Hc). rewrite firstn_length. lia. }
      assert (M : length (firstn e mcol) = e) by (rewrite firstn_length; lia).
      now rewrite (node_sums_R _ simd plan _ _ e b e Hs L F M ltac:(lia)), (node_sums_R _ None plan _ _ e b e Hn L F M ltac:(lia)).
    + assert (X : exists j, b <= j < e /\ ~ readable ccols mcol j).
      { apply Exists_Forall_neg in A; [|intros x; destruct (readable_dec ccols mcol x); tauto]. apply Exists_exists in A as (j & Hj & Hu). apply in_seq in Hj. exists j. split; [lia|exact Hu]. }
      now rewrite (node_sums_unreadable c _ _ simd plan b e Hs Hd X), (node_sums_unreadable c _ _ None plan b e Hn Hd X).
Qed.

Lemma node_properties_simd : forall c m simd plan cols box b e code level, (forall bw, simd = Some bw -> 0 < bw) ->
  compute_node_properties Rops c m simd plan cols box b e code level = compute_node_properties Rops c m None plan cols box b e code level.
Proof.
  intros c m simd plan cols box b e code level Hs. unfold compute_node_properties. unfold rd.
  destruct (nth_error cols (dim c)) as [mcol|] eqn:M; [|reflexivity]. cbn [bind].
  rewrite node_sums_simd; [reflexivity|exact Hs|]. rewrite firstn_length.
  assert (dim c < length cols) by (apply nth_error_Some; congruence). lia.
Qed.

Lemma cnp_simd : forall E simd simd' plan plan', (forall bw, simd = Some bw -> 0 < bw) -> (forall bw, simd' = Some bw -> 0 < bw) ->
  cnp Rops (with_simd E simd plan) = cnp Rops (with_simd E simd' plan').
Proof.
  intros E simd simd' plan plan' H H'. extensionality cols. extensionality box. extensionality b. extensionality e. extensionality code. extensionality level.
  unfold cnp. cbn [with_simd e_cfg e_mac e_simd e_hadd]. now rewrite (node_properties_simd _ _ simd plan _ _ _ _ _ _ H), (node_properties_simd _ _ simd' plan' _ _ _ _ _ _ H').
Qed.

Section Run.

Variables (E : env) (simd : option nat) (plan : list (nat * nat)).
Hypothesis Hs : forall bw, simd = Some bw -> 0 < bw.
Hypothesis Hs' : forall bw, e_simd E = Some bw -> 0 < bw.

Notation E' := (with_simd E simd plan).

Lemma cnp_env : cnp Rops E' = cnp Rops E.
Proof. transitivity (cnp Rops (with_simd E (e_simd E) (e_hadd E))); [now apply cnp_simd|]. destruct E; reflexivity. Qed.

Lemma construct_simd : forall s box ded d mln nc, construct Rops E' s box ded d mln nc = construct Rops E s box ded d mln nc.
Proof. intros. unfold construct. rewrite cnp_env. reflexivity. Qed.

Lemma sync_simd : forall s t, sync Rops E' s t = sync Rops E s t.
Proof. intros. unfold sync. rewrite cnp_env. reflexivity. Qed.

Lemma step_simd : forall w o, step Rops E' w o = step Rops E w o.
Proof.
  intros w o. destruct o; [reflexivity| |reflexivity|reflexivity|reflexivity|reflexivity|reflexivity| |].
  - cbn [step]. unfold generic_ctor. change (ranges_check E') with (ranges_check (F := R) E).
    destruct box_size, inp; cbn [with_simd e_cfg e_ncrit]; try destruct (ranges_check E cols); cbn [bind]; rewrite ?construct_simd; reflexivity.
  - cbn [step]. destruct (rd w i) as [t| |]; cbn [bind]; [|reflexivity|reflexivity]. unfold update_particles.
    replace (sync Rops E' s) with (sync Rops E s) by (extensionality x; symmetry; apply sync_simd). reflexivity.
  - cbn [step]. destruct (rd w i) as [t| |]; cbn [bind]; [|reflexivity|reflexivity]. unfold update_masses. rewrite cnp_env. reflexivity.
Qed.

(** The same program makes the same trees, whatever the batch size. *)
Theorem run_simd : forall ops w, run Rops E' ops w = run Rops E ops w.
Proof. intros. unfold run. apply foldM_ext_in. intros s x _. now rewrite step_simd. Qed.

End Run.
