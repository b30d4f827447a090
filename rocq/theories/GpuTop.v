(** The computation with accelerators as a whole. *)
From Coq Require Import List Arith NArith ZArith Lia Bool Permutation.
From Verif Require Import Base Config Morton Build TreeSpec BuildSpec BuildProofs BuildProps FOps NodeProps Tree TreeInv TreeProofs TreeSafe
  Kernels Force TravProofs KernLoops ForceGen ForceOut ForceTop Gpu GpuKernel GpuOut.
Import ListNotations.
Local Open Scope nat_scope.

Section Top.

Context {F : Type}.
Variable O : fops F.
Context {D : Type}.
Variable OD : fops D.
Variable npF : N -> D.
Variable E : env.
Variable K : platform F.
Variable g : gpu.
Hypothesis HE : env_ok E.
Hypothesis HK : benign_shift K.
Hypothesis Hw : 0 < g_warp g.

Notation c := (e_cfg E).
Notation tree_inv := (tree_inv O E).
Notation nv q := (nvecs_res E q).
Notation pad t mv := (pad_coord O E (t_box t) mv).

(** The parameters other than the split. *)
Definition gparams (theta G eps : F) (mac_value eps2 : F) : Prop :=
  mac_value_of O E theta = Ok mac_value /\ compute_eps2 O eps = Ok eps2 /\ check_G_const O G = Ok tt.

(** The indices could be computed. *)
Definition cast_ok (t : @tree F) (split : list D) : Prop :=
  match g_backend g with
  | Rocm => match split with [s0; s1] => rocm_index OD (N.of_nat (nparts t)) s0 s1 <> UB | _ => True end
  | Cuda => length split <= 1 \/ cuda_indices OD (N.of_nat (nparts t)) (npF (N.of_nat (nparts t))) (crit_begins t) split <> UB
  end.

(** The conditions under which the split is accepted and the devices work. *)
Definition accepts (t : @tree F) (mv : F) (split : list D) : Prop :=
  ffin O (pad t mv) = true /\
  match g_backend g with
  | Rocm => length split <= 2 /\ forall s0 s1, split = [s0; s1] ->
      t_view t <> None /\ g_types g = true /\ g_fail g = None /\ (N.of_nat (nparts t) <= int_max)%N /\
      exists i, rocm_index OD (N.of_nat (nparts t)) s0 s1 = Ok i
  | Cuda => length split <= S (g_ndev g) /\ (1 < length split ->
      g_types g = true /\ g_fail g = None /\
      exists k idx, cuda_indices OD (N.of_nat (nparts t)) (npF (N.of_nat (nparts t))) (crit_begins t) split = Ok (k, idx) /\
        (run_cuda idx = true -> cuda_checks (g_fsize g) (N.of_nat (length (t_nodes t))) idx = Ok tt))
  end.

(** The device copy of the data is that of the tree. *)
Definition copy_ok (t : @tree F) : Prop :=
  g_backend g = Rocm -> forall v, t_view t = Some v -> v = (t_parts t, t_codes t, t_nodes t).

(** The value [v] for particle [i] was computed by a device: [i] belongs to a warp, whose threads visited
    nodes that cover all the particles. *)
Definition from_device (t : @tree F) (ps : list (@prow F)) (mv eps2 : F) (q : quant) (G : F) (b i : nat) (v : list F) : Prop :=
  exists idxs r, In i idxs /\ (forall i', In i' idxs -> b <= i' < length (t_codes t)) /\
    lane_result O E t ps mv eps2 q G idxs i r /\ v = fst r ++ snd r.

Definition good_vals (t : @tree F) (ps : list (@prow F)) (mv eps2 : F) (q : quant) (G : F) (vals : nat -> list F) : Prop :=
  exists b, b <= length (t_codes t) /\ (forall i, i < b -> vals i = result_row O E K q t mv G eps2 i) /\
    forall i, b <= i < length (t_codes t) -> from_device t ps mv eps2 q G b i (vals i).

Definition writes_vals (t : @tree F) (ordered : bool) (q : quant) (vals : nat -> list F) (out out' : list (list F)) : Prop :=
  out_ok (length (t_codes t)) (nv q) out' /\
  (forall j i, j < nv q -> i < length (t_codes t) -> nth_error (nth j out' []) (dst ordered t i) = nth_error (vals i) j) /\
  (forall j k, length (t_codes t) <= k -> nth_error (nth j out' []) k = nth_error (nth j out []) k) /\
  (forall j, length (nth j out' []) = length (nth j out [])).

Definition outcome_as (t : @tree F) (ordered : bool) (q : quant) (pl : outcome (nat -> list F)) (out : list (list F)) (x : outcome (list (list F))) : Prop :=
  match pl with
  | Ok vals => exists out', x = Ok out' /\ writes_vals t ordered q vals out out'
  | Throw e => x = Throw e
  | UB => x = UB
  end.

Section One.

Variable t : @tree F.
Hypothesis Ht : tree_inv t.
Hypothesis Hr : room E t.
Variable ps : list (@prow F).
Hypothesis Hps : rows_of E t ps.
Variable q : quant.
Variables mv eps2 G : F.

Notation n := (length (t_codes t)).

(** The devices. *)
Lemma devices_ok : forall idx b, tiles b (combine idx (tl idx)) n -> g_fail g = None ->
  exists writes, devices_run O E K g q mv G eps2 (t_parts t) (t_codes t) (t_nodes t) idx = Ok writes /\
    map (fun x : nat * nat * list (@rrow F) => fst x) writes = combine idx (tl idx) /\
    forall b' e' rows, In (b', e', rows) writes -> b' <= e' /\ e' <= n /\ length rows = e' - b' /\
      Forall (fun r : @rrow F => length (fst r ++ snd r) = nv q) rows /\
      forall k r, nth_error rows k = Some r -> from_device t ps mv eps2 q G b (b' + k) (fst r ++ snd r).
Proof.
  intros idx b HT Hf. unfold devices_run. rewrite Hf. generalize dependent (combine idx (tl idx)). intros l HT. clear idx.
  assert (X : forall l b0, tiles b0 l n -> b <= b0 ->
    exists writes, mapM (fun '(b, e) => do rows <- kernel_run O c K (g_warp g) q mv G eps2 (t_parts t) (t_codes t) (t_nodes t) b e; Ok (b, e, rows)) l = Ok writes /\
    map (fun x : nat * nat * list (@rrow F) => fst x) writes = l /\
    forall b' e' rows, In (b', e', rows) writes -> b' <= e' /\ e' <= n /\ length rows = e' - b' /\
      Forall (fun r : @rrow F => length (fst r ++ snd r) = nv q) rows /\
      forall k r, nth_error rows k = Some r -> from_device t ps mv eps2 q G b (b' + k) (fst r ++ snd r)).
  { clear l HT. induction l as [|[x y] l IH]; intros b0 HT Hb; [exists []; split; [reflexivity|]; split; [reflexivity|]; intros b' e' rows []|].
    cbn [tiles] in HT. destruct HT as (-> & L & HT). pose proof (tiles_le _ _ _ HT) as Ly. cbn [mapM].
    destruct (kernel_run_spec O E K t Ht ps Hps mv eps2 q G (g_warp g) b0 y Hw ltac:(lia)) as (rows & -> & Lr & Vr). cbn [bind].
    destruct (IH y HT ltac:(lia)) as (writes & -> & Mw & Vw). cbn [bind]. exists ((b0, y, rows) :: writes).
    split; [reflexivity|]. split; [cbn [map fst]; now rewrite Mw|]. intros b' e' rows' [Hin|Hin]; [|now apply Vw]. injection Hin as <- <- <-.
    split; [lia|]. split; [lia|]. split; [exact Lr|]. split.
    - apply Forall_forall. intros r Hin. apply In_nth_error in Hin as [k Hk]. pose proof (nth_error_lt _ _ _ Hk).
      destruct (Vr k r Hk) as (idxs & H1 & H2 & H3). apply shape_length.
      eapply (result_shape O E t Ht ps Hps); [|exact H3]. lia.
    - intros k r Hk. destruct (Vr k r Hk) as (idxs & H1 & H2 & H3). exists idxs, r. split; [exact H1|].
      split; [|split; [exact H3|reflexivity]]. intros i Hi. specialize (H2 i Hi). lia. }
  apply (X l b HT). lia.
Qed.

(** The value for particle [i] among the results of the tasks. *)
Definition vals_of (b : nat) (writes : list (nat * nat * list (@rrow F))) (i : nat) : list F :=
  if i <? b then result_row O E K q t mv G eps2 i
  else match find (fun x => (fst (fst x) <=? i) && (i <? snd (fst x))) writes with
       | Some (b', e', rows) => match nth_error rows (i - b') with Some r => fst r ++ snd r | None => [] end
       | None => []
       end.

Definition writes_ok (b : nat) (writes : list (nat * nat * list (@rrow F))) : Prop :=
  tiles b (map (fun x => fst x) writes) n /\
  forall b' e' rows, In (b', e', rows) writes -> b' <= e' /\ e' <= n /\ length rows = e' - b' /\
      Forall (fun r : @rrow F => length (fst r ++ snd r) = nv q) rows /\
      forall k r, nth_error rows k = Some r -> from_device t ps mv eps2 q G b (b' + k) (fst r ++ snd r).

Lemma vals_good : forall b writes, b <= n -> writes_ok b writes -> good_vals t ps mv eps2 q G (vals_of b writes).
Proof.
  intros b writes Hb (HT & HW). exists b. split; [exact Hb|]. split.
  - intros i Hi. unfold vals_of. now destruct (Nat.ltb_spec i b); [|lia].
  - intros i Hi. unfold vals_of. destruct (Nat.ltb_spec i b); [lia|].
    destruct (tiles_find (fun x : nat * nat * list (@rrow F) => fst x) _ _ _ i HT ltac:(lia)) as (x & Hx & Rx).
    destruct (find _ writes) as [[[b' e'] rows]|] eqn:Ef.
    + apply find_some in Ef as [H1 H2]. cbn [fst snd] in H2. apply andb_true_iff in H2 as [H2 H3]. apply Nat.leb_le in H2. apply Nat.ltb_lt in H3.
      destruct (HW _ _ _ H1) as (W1 & W2 & W3 & W4 & W5).
      destruct (nth_error rows (i - b')) as [r|] eqn:Er; [|apply nth_error_None in Er; lia].
      specialize (W5 _ _ Er). now replace (b' + (i - b')) with i in W5 by lia.
    + pose proof (find_none _ _ Ef x Hx) as X. cbn beta in X. apply andb_false_iff in X as [X|X]; [apply Nat.leb_gt in X|apply Nat.ltb_ge in X]; lia.
Qed.

Lemma hetero_run_ok : forall order ordered k b gres out, reorders order -> out_ok n (nv q) out ->
  k <= length (t_crit t) -> b <= n -> tiles 0 (map cn_range (slice (t_crit t) 0 k)) b ->
  (forall w, gres = Ok w -> writes_ok b w) ->
  outcome_as t ordered q (match gres with UB => UB | _ => if negb (ffin O (pad t mv)) then Throw InvalidArgument else do w <- gres; Ok (vals_of b w) end) out
    (hetero_run O E K order q t mv G eps2 (dest_of ordered t) k gres out).
Proof.
  intros order ordered k b gres out Hord Ho Hk Hb HT Hg. unfold hetero_run. cbv zeta.
  assert (T : forall writes, (writes = [] \/ writes_ok b writes) ->
    exists out', foldM (task_run O E K q t mv G eps2 (pad t mv) (dest_of ordered t))
                       (order (map inl (slice (t_crit t) 0 k) ++ map inr writes)) out = Ok out' /\
                 (writes_ok b writes -> writes_vals t ordered q (vals_of b writes) out out')).
  { intros writes HW. set (tasks := map inl (slice (t_crit t) 0 k) ++ map inr writes).
    assert (HC : forall cn, In cn (slice (t_crit t) 0 k) -> In cn (t_crit t)).
    { intros cn Hcn. unfold slice in Hcn. cbn [skipn] in Hcn. rewrite <- (firstn_skipn (k - 0) (t_crit t)). apply in_or_app. now left. }
    assert (HP : Permutation (order tasks) tasks) by apply Hord.
    assert (Hgood : forall x, In x (order tasks) -> task_good E n q t x).
    { intros x Hx. apply (Permutation_in _ HP) in Hx. unfold tasks in Hx. apply in_app_or in Hx as [Hx|Hx]; apply in_map_iff in Hx as (y & <- & Hy).
      - cbn. auto.
      - destruct y as [[b' e'] rows]. cbn. destruct HW as [->|[_ HW]]; [destruct Hy|]. destruct (HW _ _ _ Hy) as (W1 & W2 & W3 & W4 & _). auto. }
    assert (HTT : exists e, tiles 0 (map task_range tasks) e).
    { unfold tasks. rewrite map_app, !map_map.
      replace (map (fun x => task_range (inl x)) (slice (t_crit t) 0 k)) with (map cn_range (slice (t_crit t) 0 k)) by reflexivity.
      destruct HW as [->|[HW _]].
      - exists b. cbn [map]. now rewrite app_nil_r.
      - exists n. eapply tiles_app; [exact HT|]. erewrite map_ext; [exact HW|]. intros [[b' e'] rows]. reflexivity. }
    destruct HTT as [e HTT].
    destruct (task_runs_ok O E K HE HK n (dst ordered t) (dest_of ordered t) (dst_ok O E ordered t Ht) (dst_inj O E ordered t Ht) q t Ht eq_refl
      mv G eps2 (pad t mv) Hr (order tasks) out Hgood) as (out' & E1 & O1 & V & U & L).
    { intros x y i Hx Hy Ix Iy. apply (Permutation_in _ HP) in Hx. apply (Permutation_in _ HP) in Hy.
      apply (tiles_unique task_range tasks 0 e x y i HTT Hx Hy Ix Iy). }
    { exact Ho. }
    exists out'. split; [exact E1|]. intros HW'. split; [exact O1|]. split; [|split; [|exact L]].
    - intros j i Hj Hi. destruct (Nat.lt_ge_cases i b) as [Lb|Lb].
      + destruct (tiles_find cn_range _ _ _ i HT ltac:(lia)) as (cn & Hcn & Hc). cbn [fst snd] in Hc.
        rewrite (V j i (inl cn) Hj).
        * unfold vals_of. destruct (Nat.ltb_spec i b); [|lia]. reflexivity.
        * apply (Permutation_in _ (Permutation_sym HP)). apply in_or_app. left. now apply in_map.
        * exact Hc.
      + destruct HW' as [HW1 HW2].
        destruct (tiles_find (fun x : nat * nat * list (@rrow F) => fst x) _ _ _ i HW1 ltac:(lia)) as (x & Hx & Rx).
        assert (Ex : find (fun x : nat * nat * list (@rrow F) => (fst (fst x) <=? i) && (i <? snd (fst x))) writes = Some x).
        { destruct (find _ writes) as [x'|] eqn:Ef.
          - apply find_some in Ef as [H1 H2]. apply andb_true_iff in H2 as [H2 H3]. apply Nat.leb_le in H2. apply Nat.ltb_lt in H3.
            f_equal. apply (tiles_unique (fun x : nat * nat * list (@rrow F) => fst x) writes b n x' x i HW1 H1 Hx); lia.
          - pose proof (find_none _ _ Ef x Hx) as X. cbn beta in X. apply andb_false_iff in X as [X|X]; [apply Nat.leb_gt in X|apply Nat.ltb_ge in X]; lia. }
        rewrite (V j i (inr x) Hj).
        * unfold vals_of. destruct (Nat.ltb_spec i b); [lia|]. rewrite Ex. destruct x as [[b' e'] rows]. reflexivity.
        * apply (Permutation_in _ (Permutation_sym HP)). apply in_or_app. right. now apply in_map.
        * destruct x as [[b' e'] rows]. exact Rx.
    - intros j k' Hk'. apply U. intros i x Hx Hi. pose proof (task_bound O E n q t Ht eq_refl x (Hgood x Hx)) as B.
      pose proof (proj2 (dst_ok O E ordered t Ht i ltac:(lia))). lia. }
  destruct gres as [w|e|]; [| |reflexivity].
  - destruct (ffin O (pad t mv)); cbn [negb]; [|reflexivity]. cbn [bind].
    destruct (T w (or_intror (Hg w eq_refl))) as (out' & -> & X). cbn [bind outcome_as]. exists out'. split; [reflexivity|]. apply X, Hg. reflexivity.
  - destruct (ffin O (pad t mv)); cbn [negb]; [|reflexivity]. cbn [bind].
    destruct (T [] (or_introl eq_refl)) as (out' & H & _). rewrite H. reflexivity.
Qed.

Lemma cpu_ok : forall ord ordered out, reorders ord -> out_ok n (nv q) out ->
  outcome_as t ordered q (if negb (ffin O (pad t mv)) then Throw InvalidArgument else Ok (result_row O E K q t mv G eps2)) out
    (cpu_run O E K ord q t mv G eps2 (dest_of ordered t) 0 (length (t_crit t)) out).
Proof.
  intros ord ordered out Hord Ho. unfold cpu_run. cbv zeta. destruct (ffin O (pad t mv)); cbn [negb]; [|reflexivity].
  rewrite slice_whole. cbn [outcome_as].
  destruct (crit_runs_ok O E K HE HK n (dst ordered t) (dest_of ordered t) (dst_ok O E ordered t Ht) (dst_inj O E ordered t Ht) q t Ht eq_refl
    mv G eps2 (pad t mv) Hr (ord (t_crit t)) out) as (out' & E1 & O1 & V & U & L).
  { intros cn Hcn. eapply Permutation_in; [apply Hord|exact Hcn]. }
  { exact Ho. }
  exists out'. split; [exact E1|]. split; [exact O1|]. split; [|split; [|exact L]].
  - intros j i Hj Hi. destruct (tiles_find _ _ _ _ i (crit_tiles O E t Ht)) as (cn & Hcn & Hc); [lia|]. cbn [fst snd] in Hc.
    apply (V j i cn); auto. eapply Permutation_in; [apply Permutation_sym, Hord|exact Hcn].
  - intros j k Hk. apply U. intros i cn Hcn Hi.
    destruct (crit_node O E t cn Ht) as (_ & _ & _ & _ & _ & N5). { eapply Permutation_in; [apply Hord|exact Hcn]. }
    pose proof (proj2 (dst_ok O E ordered t Ht i ltac:(lia))). lia.
Qed.

Lemma cpu_good : good_vals t ps mv eps2 q G (result_row O E K q t mv G eps2).
Proof. exists n. split; [lia|]. split; [reflexivity|]. intros; lia. Qed.

Definition is_outcome (split : list D) (pl : outcome (nat -> list F)) : Prop :=
  (pl = UB -> ~ cast_ok t split) /\ (forall vals, pl = Ok vals -> good_vals t ps mv eps2 q G vals) /\
  (accepts t mv split -> exists vals, pl = Ok vals).

Lemma cpu_is : forall split, is_outcome split (if negb (ffin O (pad t mv)) then Throw InvalidArgument else Ok (result_row O E K q t mv G eps2)).
Proof.
  intros split. split; [|split]; destruct (ffin O (pad t mv)) eqn:Ep; cbn [negb]; try discriminate; [| |].
  - intros vals [= <-]. apply cpu_good.
  - intros _. eauto.
  - intros [H _]. congruence.
Qed.

Lemma crit_len : it_diff_check (length (t_crit t)) = Ok tt.
Proof.
  unfold it_diff_check. pose proof (tiles_length _ _ _ (crit_tiles O E t Ht)) as L. rewrite map_length in L. unfold room in Hr.
  destruct (N.ltb_spec diff_max (N.of_nat (length (t_crit t)))); [lia|reflexivity].
Qed.

Lemma rocm_plan : g_backend g = Rocm -> copy_ok t -> forall split,
  exists pl, is_outcome split pl /\
  forall ord order ordered out, reorders ord -> reorders order -> out_ok n (nv q) out ->
    outcome_as t ordered q pl out (rocm_impl O OD E K g ord order q t mv G eps2 split (dest_of ordered t) out).
Proof.
  intros Hb Hc split. unfold rocm_impl. cbv zeta.
  assert (C : exists pl, is_outcome split pl /\
    forall ord (order : list (@task F) -> list task) ordered out, reorders ord -> reorders order -> out_ok n (nv q) out ->
      outcome_as t ordered q pl out (cpu_run O E K ord q t mv G eps2 (dest_of ordered t) 0 (length (t_crit t)) out)).
  { eexists. split; [apply cpu_is|]. intros. now apply cpu_ok. }
  assert (I : (accepts t mv split -> False) -> exists pl, is_outcome split pl /\
    forall (ord : list cnode -> list cnode) (order : list (@task F) -> list task) ordered out, reorders ord -> reorders order -> out_ok n (nv q) out ->
      outcome_as t ordered q pl out (Throw InvalidArgument)).
  { intros HI. exists (Throw InvalidArgument). split; [split; [discriminate|]; split; [discriminate|]; intros HA; destruct (HI HA)|reflexivity]. }
  destruct (Nat.ltb_spec 2 (length split)). { apply I. unfold accepts. rewrite Hb. intros (_ & HA & _). lia. }
  destruct split as [|s0 [|s1 [|s2 split]]]; try exact C.
  destruct (t_view t) as [v|] eqn:Ev.
  2:{ apply I. unfold accepts. rewrite Hb. intros (_ & _ & HA). destruct (HA s0 s1 eq_refl) as (HA1 & _). congruence. }
  rewrite (Hc Hb v Ev).
  destruct (g_types g) eqn:Et; cbn [negb].
  2:{ apply I. unfold accepts. rewrite Hb. intros (_ & _ & HA). destruct (HA s0 s1 eq_refl) as (_ & HA1 & _). congruence. }
  destruct (rocm_index OD (N.of_nat (nparts t)) s0 s1) as [i|e|] eqn:Ei; cbn [bind].
  - destruct (split_node_spec O E t i Ht) as (k & b & Es & Hk & Hbn & HT & _). rewrite Es. cbn [bind fst snd]. rewrite Nat2N.id.
    destruct (Nat.leb_spec (g_warp g) (nparts t - b)) as [Lw|Lw]; [|exact C]. rewrite crit_len. cbn [bind].
    rewrite nparts_codes with (O := O) (E := E) in * by exact Ht. rewrite Nat.eqb_refl.
    set (gres := do _ <- to_int (N.of_nat b); _).
    assert (Hg : (forall w, gres = Ok w -> writes_ok b w) /\ gres <> UB).
    { unfold gres, to_int. destruct (_ <? _)%N; [split; discriminate|]. destruct (_ <? _)%N; [split; discriminate|]. cbn [bind].
      destruct (g_fail g) as [e|] eqn:Ef. { unfold devices_run. rewrite Ef. split; discriminate. }
      destruct (devices_ok [b; n] b) as (w' & E1 & M & V); [cbn; lia|exact Ef|]. rewrite E1. split; [|discriminate]. intros w [= <-].
      split; [rewrite M; cbn; lia|exact V]. }
    destruct Hg as [Hg1 Hg2]. eexists. split; [|intros; apply hetero_run_ok with (b := b); assumption]. split; [|split].
    + destruct gres as [w|e|]; [| |congruence]; destruct (ffin O (pad t mv)); cbn [negb]; try discriminate.
    + intros vals. destruct gres as [w|e|] eqn:Eg; [| |discriminate]; destruct (ffin O (pad t mv)); cbn [negb]; try discriminate. cbn [bind]. intros [= <-]. apply vals_good; [exact Hbn|]. apply Hg1. reflexivity.
    + unfold accepts. rewrite Hb. intros (HA1 & _ & HA2). destruct (HA2 s0 s1 eq_refl) as (_ & _ & HA3 & HA4 & _). rewrite HA1. cbn [negb].
      rewrite nparts_codes with (O := O) (E := E) in HA4 by exact Ht.
      assert (X : exists w, gres = Ok w); [|destruct X as [w ->]; cbn [bind]; eauto].
      unfold gres, to_int. destruct (N.ltb_spec int_max (N.of_nat b)); [lia|]. destruct (N.ltb_spec int_max (N.of_nat n)); [lia|]. cbn [bind].
      destruct (devices_ok [b; n] b) as (w' & E1 & _); [cbn; lia|exact HA3|]. eauto.
  - exists (Throw e). split; [split; [discriminate|]; split; [discriminate|]|reflexivity].
    unfold accepts. rewrite Hb. intros (_ & _ & HA). destruct (HA s0 s1 eq_refl) as (_ & _ & _ & _ & i & HA1). congruence.
  - exists UB. split; [split; [|split; [discriminate|]]|reflexivity].
    + intros _. unfold cast_ok. rewrite Hb. intros X. now apply X.
    + unfold accepts. rewrite Hb. intros (_ & _ & HA). destruct (HA s0 s1 eq_refl) as (_ & _ & _ & _ & i & HA1). congruence.
Qed.

Lemma cuda_plan : g_backend g = Cuda -> forall split,
  exists pl, is_outcome split pl /\
  forall ord order ordered out, reorders ord -> reorders order -> out_ok n (nv q) out ->
    outcome_as t ordered q pl out (cuda_impl O OD npF E K g ord order q t mv G eps2 split (dest_of ordered t) out).
Proof.
  intros Hb split. unfold cuda_impl. cbv zeta.
  assert (C : exists pl, is_outcome split pl /\
    forall ord (order : list (@task F) -> list task) ordered out, reorders ord -> reorders order -> out_ok n (nv q) out ->
      outcome_as t ordered q pl out (cpu_run O E K ord q t mv G eps2 (dest_of ordered t) 0 (length (t_crit t)) out)).
  { eexists. split; [apply cpu_is|]. intros. now apply cpu_ok. }
  assert (I : (accepts t mv split -> False) -> exists pl, is_outcome split pl /\
    forall (ord : list cnode -> list cnode) (order : list (@task F) -> list task) ordered out, reorders ord -> reorders order -> out_ok n (nv q) out ->
      outcome_as t ordered q pl out (Throw InvalidArgument)).
  { intros HI. exists (Throw InvalidArgument). split; [split; [discriminate|]; split; [discriminate|]; intros HA; destruct (HI HA)|reflexivity]. }
  destruct (_ && _) eqn:En.
  { apply I. unfold accepts. rewrite Hb. intros (_ & HA & _). apply andb_true_iff in En as [En1 En2]. apply Nat.ltb_lt in En2. lia. }
  destruct (Nat.leb_spec (length split) 1) as [L1|L1]; [exact C|].
  destruct (g_types g) eqn:Et; cbn [negb].
  2:{ apply I. unfold accepts. rewrite Hb. intros (_ & _ & HA). destruct (HA L1) as (HA1 & _). congruence. }
  destruct (cuda_indices OD _ _ _ split) as [[k idx]|e|] eqn:Ei; cbn [bind fst snd].
  - destruct (run_cuda idx) eqn:Er; [|exact C]. rewrite crit_len. cbn [bind].
    assert (X : exists b, hd_error idx = Some (N.of_nat b) /\ last idx 0%N = N.of_nat n /\ k <= length (t_crit t) /\ b <= n /\ tiles 0 (map cn_range (slice (t_crit t) 0 k)) b).
    { unfold cuda_indices in Ei. destruct split as [|s0 rest]; [discriminate|]. cbv zeta in Ei. rewrite nparts_codes with (O := O) (E := E) in Ei by exact Ht.
      destruct (cuda_raw OD _ _ s0 rest) as [raw| |] eqn:Ew; try discriminate. cbn [bind] in Ei.
      assert (Lw : length raw = length rest).
      { clear - Ew. revert Ew. generalize (fold_left (fadd OD) (s0 :: rest) (fofZ OD 0%Z)) as acc. intros acc. revert s0 raw. induction rest as [|s rest IH]; intros s0 raw Ew; cbn [cuda_raw] in Ew; [now injection Ew as <-|].
        destruct (numeric_cast_size _ _) as [i| |]; try discriminate. cbn [bind] in Ew. destruct (cuda_raw OD _ _ _ rest) as [l| |] eqn:El; try discriminate.
        cbn [bind] in Ew. injection Ew as <-. cbn [length]. f_equal. eapply IH; eauto. }
      destruct (raw ++ [N.of_nat n]) as [|i0 is_] eqn:Ea; [destruct raw; discriminate|].
      destruct (split_node_spec O E t i0 Ht) as (k' & b & Es & Hk & Hbn & HT & _). rewrite nparts_codes with (O := O) (E := E) in Es by exact Ht. rewrite Es in Ei. cbn [bind fst snd] in Ei.
      injection Ei as <- <-. exists b. split; [reflexivity|]. split; [|auto].
      destruct raw as [|r0 raw]; [cbn in Lw, L1; lia|]. cbn [app] in Ea. injection Ea as <- <-.
      rewrite map_app. cbn [map]. rewrite app_comm_cons, last_last. destruct (N.ltb_spec (N.of_nat n) (N.of_nat b)); [lia|reflexivity]. }
    destruct X as (b & Hd & Hl & Hk & Hbn & HT).
    set (gres := do _ <- cuda_checks _ _ _; _).
    assert (Hg : (forall w, gres = Ok w -> writes_ok b w) /\ gres <> UB /\
      (cuda_checks (g_fsize g) (N.of_nat (length (t_nodes t))) idx = Ok tt -> g_fail g = None -> exists w, gres = Ok w)).
    { unfold gres. assert (N1 : cuda_checks (g_fsize g) (N.of_nat (length (t_nodes t))) idx <> UB).
      { unfold cuda_checks. destruct (existsb _ _); [discriminate|]. generalize (combine idx (tl idx)). induction l as [|[x y] l IH]; [discriminate|].
        cbn [foldM]. destruct (_ <? _)%N; [discriminate|]. unfold to_int at 1 2 3. destruct (_ <? x)%N; [discriminate|]. destruct (_ <? y)%N; [discriminate|].
        cbn [bind]. destruct (_ <? _)%N; [discriminate|]. exact IH. }
      destruct (cuda_checks _ _ _) as [[]|e|] eqn:Ec; [|split; [|split]; discriminate|congruence]. cbn [bind].
      pose proof (consecutive _ _ _ Ec Er _ _ Hd Hl) as HT2. rewrite !Nat2N.id in HT2.
      destruct (g_fail g) as [e|] eqn:Ef. { unfold devices_run. rewrite Ef. split; [|split]; discriminate. }
      destruct (devices_ok (map N.to_nat idx) b HT2 Ef) as (w' & E1 & M & V). rewrite E1. split; [|split; [discriminate|eauto]]. intros w [= <-].
      split; [now rewrite M|exact V]. }
    destruct Hg as (Hg1 & Hg2 & Hg3). eexists. split; [|intros; apply hetero_run_ok with (b := b); assumption]. split; [|split].
    + destruct gres as [w|e|]; [| |congruence]; destruct (ffin O (pad t mv)); cbn [negb]; try discriminate.
    + intros vals. destruct gres as [w|e|] eqn:Eg; [| |discriminate]; destruct (ffin O (pad t mv)); cbn [negb]; try discriminate. cbn [bind]. intros [= <-]. apply vals_good; [exact Hbn|]. apply Hg1. reflexivity.
    + unfold accepts. rewrite Hb. intros (HA1 & _ & HA2). destruct (HA2 L1) as (_ & HA3 & k' & idx' & HA4 & HA5). rewrite HA1. cbn [negb].
      assert (idx' = idx) as -> by congruence. destruct (Hg3 (HA5 Er) HA3) as [w ->]. cbn [bind]. eauto.
  - exists (Throw e). split; [split; [discriminate|]; split; [discriminate|]|reflexivity].
    unfold accepts. rewrite Hb. intros (_ & _ & HA). destruct (HA L1) as (_ & _ & k' & idx' & HA1 & _). congruence.
  - exists UB. split; [split; [|split; [discriminate|]]|reflexivity].
    + intros _. unfold cast_ok. rewrite Hb. intros [X|X]; [lia|now apply X].
    + unfold accepts. rewrite Hb. intros (_ & _ & HA). destruct (HA L1) as (_ & _ & k' & idx' & HA1 & _). congruence.
Qed.

End One.

(** The outcome of a call does not depend on the order in which things are done, nor on the previous contents
    of the output. *)
Lemma hetero_plan : forall t ps q theta G eps split, tree_inv t -> room E t -> copy_ok t -> rows_of E t ps ->
  exists pl,
    (pl = UB -> ~ cast_ok t split) /\
    (forall vals, pl = Ok vals -> exists mv eps2, gparams theta G eps mv eps2 /\ check_split OD split = Ok tt /\ good_vals t ps mv eps2 q G vals) /\
    (forall mv eps2, gparams theta G eps mv eps2 -> check_split OD split = Ok tt -> accepts t mv split -> exists vals, pl = Ok vals) /\
    forall ord order ordered out, reorders ord -> reorders order -> out_ok (length (t_codes t)) (nv q) out ->
      outcome_as t ordered q pl out (hetero_dispatch O OD npF E K g ord order ordered q t theta G eps split out).
Proof.
  intros t ps q theta G eps split Ht Hr Hc Hps.
  assert (M : (exists mv, mac_value_of O E theta = Ok mv) \/ mac_value_of O E theta = Throw DomainError).
  { unfold mac_value_of. cbv zeta. destruct (_ || _); [now right|]. destruct (negb (ffin O match e_mac E with Bh => _ | BhGeom => _ end) || _); [now right|left; eauto]. }
  destruct M as [[mv M]|M]; [|exists (Throw DomainError); split; [discriminate|]; split; [discriminate|]; split; [intros ? ? (? & ? & ?); congruence|]; intros; unfold hetero_dispatch; now rewrite M].
  assert (M2 : (exists e2, compute_eps2 O eps = Ok e2) \/ compute_eps2 O eps = Throw DomainError).
  { unfold compute_eps2. destruct (_ || _); [now right|]. cbv zeta. destruct (_ || _); [now right|left; eauto]. }
  destruct M2 as [[eps2 M2]|M2]; [|exists (Throw DomainError); split; [discriminate|]; split; [discriminate|]; split; [intros ? ? (? & ? & ?); congruence|]; intros; unfold hetero_dispatch; rewrite M; cbn [bind]; now rewrite M2].
  assert (M3 : check_G_const O G = Ok tt \/ check_G_const O G = Throw DomainError) by (unfold check_G_const; destruct (negb _); auto).
  destruct M3 as [M3|M3]; [|exists (Throw DomainError); split; [discriminate|]; split; [discriminate|]; split; [intros ? ? (? & ? & ?); congruence|]; intros; unfold hetero_dispatch; rewrite M; cbn [bind]; rewrite M2; cbn [bind]; now rewrite M3].
  assert (X : forall ord order ordered out, hetero_dispatch O OD npF E K g ord order ordered q t theta G eps split out =
    hetero_impl O OD npF E K g ord order q t mv G eps2 split (dest_of ordered t) out).
  { intros. unfold hetero_dispatch. rewrite M. cbn [bind]. rewrite M2. cbn [bind]. rewrite M3. cbn [bind]. unfold dest_of. destruct ordered; [|reflexivity].
    unfold it_diff_check. rewrite nparts_codes with (O := O) (E := E) by exact Ht.
    unfold room in Hr. destruct (N.ltb_spec diff_max (N.of_nat (length (t_codes t)))); [lia|]. reflexivity. }
  assert (M4 : check_split OD split = Ok tt \/ check_split OD split = Throw InvalidArgument).
  { unfold check_split. cbv zeta. destruct (existsb _ split); [auto|]. destruct (existsb _ split); [auto|]. destruct (_ && _); auto. }
  destruct M4 as [M4|M4]; [|exists (Throw InvalidArgument); split; [discriminate|]; split; [discriminate|]; split; [congruence|]; intros; rewrite X; unfold hetero_impl; now rewrite M4].
  assert (Y : exists pl, is_outcome t ps q mv eps2 G split pl /\
    forall ord order ordered out, reorders ord -> reorders order -> out_ok (length (t_codes t)) (nv q) out ->
      outcome_as t ordered q pl out (hetero_impl O OD npF E K g ord order q t mv G eps2 split (dest_of ordered t) out)).
  { unfold hetero_impl. rewrite M4. cbn [bind]. destruct (g_backend g) eqn:Hb.
    - apply (rocm_plan t Ht Hr ps Hps q mv eps2 G Hb Hc split).
    - apply (cuda_plan t Ht Hr ps Hps q mv eps2 G Hb split). }
  destruct Y as (pl & (Y1 & Y2 & Y4) & Y3). exists pl. split; [exact Y1|]. split; [|split].
  - intros vals Hv. exists mv, eps2. split; [repeat split; assumption|]. split; [exact M4|]. now apply Y2.
  - intros mv' eps2' (Z1 & Z2 & Z3) _ HA. assert (mv' = mv) as -> by congruence. now apply Y4.
  - intros. rewrite X. now apply Y3.
Qed.

End Top.
