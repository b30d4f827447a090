(** The merge of the subtrees, the update of the masses and the force computation: no data races, and the results of the model for
    every interleaving. *)
From Coq Require Import List Arith NArith ZArith Bool Lia Permutation.
From Verif Require Import Base Config Morton Build TreeSpec FOps Disc NodeProps Tree TreeInv TreeProofs Kernels Force TravProofs KernLoops ForceGen ForceOut ForceTop
  Par ParTree ParProofs ParTop.
Import ListNotations.
Local Open Scope nat_scope.

Section Merge.

Context {F : Type}.
Notation val := (val F).
Notation prog := (cmd loc val).
Notation mem := (loc -> val).
Notation run := (Par.run loc val loc_eq).
Notation foot := (Par.foot loc val loc_eq).
Notation safe := (Par.safe loc val loc_eq).
Notation all_runs := (Par.all_runs loc val loc_eq).

Lemma sum_firstn : forall s i j, i < j -> j <= length s -> list_sum (firstn i s) + nth i s 0 <= list_sum (firstn j s).
Proof.
  induction s as [|a s IH]; intros i j Hij Hj; [cbn in Hj; lia|]. destruct j as [|j]; [lia|]. cbn [length] in Hj. cbn [firstn]. unfold list_sum in *.
  destruct i as [|i]; cbn [firstn fold_right nth]; [lia|]. pose proof (IH i j ltac:(lia) ltac:(lia)). cbn [fold_right]. lia.
Qed.

Lemma NoDup_map_inj : forall {A B} (g : A -> B) l, (forall x y, In x l -> In y l -> g x = g y -> x = y) -> NoDup l -> NoDup (map g l).
Proof.
  intros A B g l H ND. induction ND as [|a l Ha ND IH]; [constructor|]. cbn [map]. constructor.
  - intros X. apply in_map_iff in X as (y & Y & Hy). apply Ha. rewrite <- (H y a); [exact Hy|now right|now left|exact Y].
  - apply IH. intros x y Hx Hy. apply H; now right.
Qed.

Lemma concat_at : forall {A} (ls : list (list A)) pos x, nth_error (concat ls) pos = Some x ->
  exists i l k, nth_error ls i = Some l /\ nth_error l k = Some x /\ pos = list_sum (firstn i (map (@length A) ls)) + k.
Proof.
  intros A ls. induction ls as [|l ls IH]; intros pos x H; cbn [concat] in H; [destruct pos; discriminate|].
  destruct (Nat.lt_ge_cases pos (length l)) as [Hp|Hp].
  - rewrite nth_error_app1 in H by exact Hp. exists 0, l, pos. split; [reflexivity|]. split; [exact H|]. reflexivity.
  - rewrite nth_error_app2 in H by exact Hp. destruct (IH _ _ H) as (i & l' & k & H1 & H2 & H3). exists (S i), l', k. split; [exact H1|]. split; [exact H2|].
    cbn [map firstn list_sum fold_right] in *. unfold list_sum in *. cbn [fold_right]. lia.
Qed.

Lemma merge_spec : forall {A} (f : A -> val) (src : nat -> arr) dstA (ls : list (list A)) start (q : prog) (m : mem),
  (forall i, src i <> dstA) -> (forall i l, nth_error ls i = Some l -> holds m (src i) f l) -> merge_loop src dstA (map (@length A) ls) start q ->
  safe q m /\ (forall k x, nth_error (concat ls) k = Some x -> run q m (dstA, start + k) = f x) /\ (forall k, k < start -> run q m (dstA, k) = m (dstA, k)) /\
  (forall w l, In (w, l) (foot q m) -> fst l = dstA \/ exists i, i < length ls /\ fst l = src i).
Proof.
  intros A f src dstA ls start q m Hs Hm (body & HB & Hq). set (sizes := map (@length A) ls) in *.
  assert (Lz : length sizes = length ls) by apply map_length.
  set (off := fun i => start + list_sum (firstn i sizes)) in *.
  assert (IN : forall i, i < length sizes -> safe (body i) m /\ (forall k, k < nth i sizes 0 -> run (body i) m (dstA, off i + k) = m (src i, k)) /\
    (forall w l, In (w, l) (foot (body i) m) -> exists k, k < nth i sizes 0 /\ ((w = true /\ l = (dstA, off i + k)) \/ (w = false /\ l = (src i, k)))) /\
    (forall k, k < nth i sizes 0 -> In (true, (dstA, off i + k)) (foot (body i) m))).
  { intros i Hi. set (b := fun (i k : nat) => Rd (src i, k) (fun x : val => Wr (dstA, off i + k) x (@Ret loc val))). assert (HBi : pfor (b i) 0 (nth i sizes 0) (body i)) by exact (HB i Hi).
    assert (ONE : forall k, k < nth i sizes 0 -> one m (b i k) [(src i, k)] (dstA, off i + k) (m (src i, k))).
    { intros k Hk. unfold one, b. cbn [Par.safe Par.foot Par.run map List.app]. split; [exact I|]. split; [reflexivity|apply upd_same]. }
    destruct (loop_one (b i) (nth i sizes 0) (body i) m (fun k => [(src i, k)]) (fun k => (dstA, off i + k)) (fun k => m (src i, k)) HBi ONE) as (A1 & A2 & A3 & A4).
    { intros x y _ _ Hxy X. injection X as X. lia. }
    { intros x y _ _ _ [X|[]]. injection X as X _. exact (Hs i X). }
    split; [exact A1|]. split; [exact A2|]. split.
    - intros w l X. destruct (A4 _ _ X) as (k & Hk & Y). exists k. split; [exact Hk|]. destruct Y as [Y|[Y [Z|[]]]]; auto.
    - intros k Hk. destruct (dec_in loc loc_eq (foot (body i) m) (true, (dstA, off i + k))) as [X|X]; [exact X|]. exfalso.
      (* the loop writes every element *)
      clear - HBi ONE Hk X Hs. revert X. assert (G : forall bb ee qq, pfor (b i) bb ee qq -> ee <= nth i sizes 0 -> bb <= k < ee -> forall m', In (true, (dstA, off i + k)) (foot qq m')).
      { intros bb ee qq H. induction H as [bb ee Hle|bb x ee c1 c2 H1 IH1 H2 IH2]; intros He Hb m'.
        - replace (seq bb (ee - bb)) with (seq bb (k - bb) ++ k :: seq (S k) (ee - S k)).
          2:{ replace (ee - bb) with ((k - bb) + (1 + (ee - S k))) by lia. rewrite seq_app. f_equal. replace (bb + (k - bb)) with k by lia. cbn [Nat.add seq]. f_equal. }
          rewrite map_app, fold_right_app. cbn [map fold_right]. generalize (seq bb (k - bb)) as l. intros l. revert m'. induction l as [|y l IHl]; intros m'.
          + cbn [map fold_right]. rewrite foot_app. apply in_or_app. left. unfold b. cbn [Par.foot]. right. now left.
          + cbn [map fold_right]. rewrite foot_app. apply in_or_app. right. apply IHl.
        - cbn [Par.foot]. destruct (Nat.lt_ge_cases k x).
          + apply in_or_app. left. apply IH1; [|lia]. assert (x <= ee) by (clear - H2; induction H2; lia). lia.
          + apply in_or_app. right. apply in_or_app. left. apply IH2; lia. }
      intros X. apply X. apply (G 0 (nth i sizes 0) (body i) HBi); lia. }
  assert (OFF : forall i j k k', i < length sizes -> j < length sizes -> i <> j -> k < nth i sizes 0 -> k' < nth j sizes 0 -> off i + k <> off j + k').
  { intros i j k k' Hi Hj Hij Hk Hk'. unfold off. destruct (Nat.lt_total i j) as [L|[L|L]]; [|contradiction|].
    - pose proof (sum_firstn sizes i j L ltac:(lia)). lia.
    - pose proof (sum_firstn sizes j i L ltac:(lia)). lia. }
  destruct (loop_spec body 0 (length sizes) q m Hq) as (L1 & L2 & L3 & L4).
  { intros i Hi. apply IN. lia. }
  { intros i j Hi Hj Hij w w' l Hl Hl'. destruct (IN i ltac:(lia)) as (_ & _ & Fi & _). destruct (IN j ltac:(lia)) as (_ & _ & Fj & _).
    destruct (Fi _ _ Hl) as (k & Hk & [[-> ->]|[-> ->]]), (Fj _ _ Hl') as (k' & Hk' & [[-> X]|[-> X]]); [| | |auto]; exfalso.
    - injection X as X. apply (OFF i j k k'); auto; lia.
    - injection X as X _. apply (Hs j). auto.
    - injection X as X _. apply (Hs i). auto. }
  split; [exact L1|]. split; [|split].
  - intros pos x Hx. destruct (concat_at ls pos x Hx) as (i & l & k & Hi & Hk & ->). fold sizes.
    assert (Hi' : i < length sizes) by (rewrite Lz; eapply nth_error_lt; exact Hi).
    assert (Hk' : k < nth i sizes 0). { unfold sizes. rewrite (nth_error_nth _ _ 0 (map_nth_error (@length A) _ _ Hi)). eapply nth_error_lt; exact Hk. }
    destruct (IN i Hi') as (_ & V & _ & W). rewrite Nat.add_assoc. fold (off i). rewrite (L2 i _ ltac:(lia) (W k Hk')), V by exact Hk'. now apply (Hm i l Hi).
  - intros k Hk. apply L3. intros i Hi X. destruct (IN i ltac:(lia)) as (_ & _ & Fi & _). destruct (Fi _ _ X) as (k' & _ & [[_ Y]|[Y _]]); [|discriminate].
    injection Y as Y. unfold off in Y. lia.
  - intros w l X. destruct (L4 _ X) as (i & Hi & Y). destruct (IN i ltac:(lia)) as (_ & _ & Fi & _). destruct (Fi _ _ Y) as (k & _ & [[_ ->]|[_ ->]]); [now left|].
    right. exists i. split; [lia|reflexivity].
Qed.

Lemma merge_runs : forall root (trees : list (list (node (props F)))) (crits : list (list cnode)) (q : prog) (m : mem),
  merge_prog (map (@length _) trees) (map (@length _) crits) q -> m (Nodes, 0) = VN root ->
  (forall i l, nth_error trees i = Some l -> holds m (SubTree i) VN l) -> (forall i l, nth_error crits i = Some l -> holds m (SubCrit i) VC l) ->
  all_runs q m (fun m' => holds m' Nodes VN (root :: concat trees) /\ holds m' Crits VC (concat crits)).
Proof.
  intros root trees crits q m (qs & Hqs & ->) Hr Ht Hc.
  set (o1 := Nodes :: map SubTree (seq 0 (length trees))). set (o2 := Crits :: map SubCrit (seq 0 (length crits))).
  set (s1 := merge_loop (F := F) SubTree Nodes (map (@length _) trees) 1) in *. set (s2 := merge_loop (F := F) SubCrit Crits (map (@length _) crits) 0) in *.
  destruct (group_local [o1; o2] [s1; s2] qs m Codes) as (G1 & G2 & _); [|exact Hqs| | |].
  - constructor; [|constructor; [|constructor]]; intros q Hq.
    + destruct (merge_spec VN SubTree Nodes trees 1 q m) as (S1 & _ & _ & S4); auto; [discriminate|]. split; [exact S1|]. intros w l X. left.
      destruct (S4 _ _ X) as [-> |(i & Hi & ->)]; [now left|]. right. apply in_map, in_seq. lia.
    + destruct (merge_spec VC SubCrit Crits crits 0 q m) as (S1 & _ & _ & S4); auto; [discriminate|]. split; [exact S1|]. intros w l X. left.
      destruct (S4 _ _ X) as [-> |(i & Hi & ->)]; [now left|]. right. apply in_map, in_seq. lia.
  - cbn [concat]. rewrite app_nil_r. unfold o1, o2.
    assert (NB : NoDup (Crits :: map SubCrit (seq 0 (length crits)))).
    { constructor; [intros X; apply in_map_iff in X as (i & X & _); discriminate|]. apply FinFun.Injective_map_NoDup; [intros a b X; now injection X|apply seq_NoDup]. }
    cbn [List.app]. constructor.
    + intros X. apply in_app_iff in X as [X|[X|X]]; [apply in_map_iff in X as (i & X & _); discriminate|discriminate|apply in_map_iff in X as (i & X & _); discriminate].
    + assert (GG : forall k b, NoDup (map SubTree (seq b k) ++ Crits :: map SubCrit (seq 0 (length crits)))); [|apply GG].
      induction k as [|k IH]; intros b; [exact NB|]. cbn [seq map List.app]. constructor; [|apply IH].
      intros X. apply in_app_iff in X as [X|[X|X]]; [|discriminate|apply in_map_iff in X as (i & X & _); discriminate].
      apply in_map_iff in X as (i & X & Hi). injection X as ->. apply in_seq in Hi. lia.
  - cbn [concat]. rewrite app_nil_r. unfold o1, o2. intros X. apply in_app_iff in X as [[X|X]|[X|X]]; try discriminate; apply in_map_iff in X as (i & X & _); discriminate.
  - apply all_runs_intro; [exact G1|]. intros m' Hm'. split.
    + destruct (G2 0 o1 s1 eq_refl eq_refl) as (q & Hq & Hrun). destruct (merge_spec VN SubTree Nodes trees 1 q m) as (_ & S2 & S3 & _); auto; [discriminate|].
      intros i x Hx. rewrite Hm', (Hrun Nodes i) by now left. destruct i as [|i]; cbn [nth_error] in Hx.
      * injection Hx as <-. rewrite S3 by lia. exact Hr.
      * apply (S2 i x Hx).
    + destruct (G2 1 o2 s2 eq_refl eq_refl) as (q & Hq & Hrun). destruct (merge_spec VC SubCrit Crits crits 0 q m) as (_ & S2 & _); auto; [discriminate|].
      intros i x Hx. rewrite Hm', (Hrun Crits i) by now left. exact (S2 i x Hx).
Qed.

End Merge.

Section Loops.

Context {F : Type}.
Variable O : fops F.
Variable E : env.
Notation c := (e_cfg E).
Notation val := (val F).
Notation prog := (cmd loc val).
Notation mem := (loc -> val).
Notation run := (Par.run loc val loc_eq).
Notation foot := (Par.foot loc val loc_eq).
Notation safe := (Par.safe loc val loc_eq).
Notation all_runs := (Par.all_runs loc val loc_eq).
Notation holdsF m cols := (forall j col, nth_error cols j = Some col -> holds m (Part j) VF col).

Lemma particle_reads : forall (m : mem) n (cols : list (list F)), holdsF m cols -> Forall (fun col => length col = n) cols ->
  map m (flat_map (fun j => map (fun i => (Part j, i)) (seq 0 n)) (seq 0 (length cols))) = map VF (concat cols).
Proof.
  intros m n cols Hm Hl.
  assert (G : forall l b, (forall j col, nth_error l j = Some col -> holds m (Part (b + j)) VF col) -> Forall (fun col => length col = n) l ->
    map m (flat_map (fun j => map (fun i => (Part j, i)) (seq 0 n)) (seq b (length l))) = map VF (concat l)).
  { induction l as [|col l IH]; intros b H1 H2; [reflexivity|]. inversion H2 as [|? ? L1 L2]; subst. cbn [length seq flat_map concat]. rewrite !map_app. f_equal.
    - rewrite map_map. apply map_ext_nth. intros i x Hx. cbn [Nat.add]. pose proof (H1 0 col eq_refl i x Hx) as X. now rewrite Nat.add_0_r in X.
    - apply IH; [|exact L2]. intros j cl Hj. pose proof (H1 (S j) cl Hj) as X. now replace (b + S j) with (S b + j) in X by lia. }
  apply (G cols 0); [exact Hm|exact Hl].
Qed.

Lemma chunks_concat : forall {A} (cols : list (list A)) n, Forall (fun col => length col = n) cols -> chunks (length cols) n (concat cols) = cols.
Proof.
  intros A cols n H. induction H as [|col cols Hc H IH]; [reflexivity|]. cbn [length chunks concat]. subst n.
  rewrite firstn_app, Nat.sub_diag, firstn_all, firstn_O, app_nil_r. f_equal. rewrite skipn_app, Nat.sub_diag, skipn_all. exact IH.
Qed.

(** * The properties of the nodes after an update of the masses *)
Lemma props_runs : forall box n (cols : list (list F)) (nodes : list (node (props F))) ps (q : prog) (m : mem),
  length cols = dim c + 1 -> Forall (fun col => length col = n) cols ->
  mapM (fun nd => cnp O E cols box (n_begin nd) (n_end nd) (n_code nd) (n_level nd)) nodes = Ok ps ->
  pfor (props_body O E box n) 0 (length nodes) q -> holdsF m cols -> holds m Nodes VN nodes ->
  all_runs q m (fun m' => holds m' Props VP ps /\ forall a i, a <> Props -> m' (a, i) = m (a, i)).
Proof.
  intros box n cols nodes ps q m Hlc Hl Hps Hq Hm Hn. apply mapM_Ok in Hps as [Lp Hp].
  assert (RD : forall k nd, nth_error nodes k = Some nd -> exists p, nth_error ps k = Some p /\ one m (props_body O E box n k) ((Nodes, k) :: particle_locs E n) (Props, k) (VP p)).
  { intros k nd Hk. destruct (Hp k nd Hk) as (p & P1 & P2). exists p. split; [exact P1|]. unfold one, props_body. cbn [Par.safe Par.foot Par.run].
    rewrite (Hn k nd Hk). rewrite safe_collect, foot_collect, run_collect. unfold particle_locs. rewrite <- Hlc, (particle_reads m n cols Hm Hl), floats_VF, (chunks_concat cols n Hl), P2.
    cbn [Par.safe Par.foot Par.run]. split; [exact I|]. split; [reflexivity|apply upd_same]. }
  assert (NP : forall k i, ~ In (Props, i) ((Nodes, k) :: particle_locs E n)).
  { intros k i [X|X]; [discriminate|]. unfold particle_locs in X. apply in_flat_map in X as (j & _ & X). apply in_map_iff in X as (y & X & _). discriminate. }
  destruct ps as [|p0 ps0] eqn:Eps.
  { destruct nodes; [|discriminate]. cbn [length] in Hq.
    destruct (loop_one (props_body O E box n) 0 q m (fun k => []) (fun k => (Props, k)) (fun k => m (Props, k)) Hq) as (A1 & _ & A3 & _); try (intros; lia).
    apply all_runs_intro; [exact A1|]. intros m' Hm'. split; [intros i x Hx; destruct i; discriminate|]. intros a i _. rewrite Hm'. apply A3. intros; lia. }
  rewrite <- Eps in *. clear ps0 Eps.
  destruct (loop_one (props_body O E box n) (length nodes) q m (fun k => (Nodes, k) :: particle_locs E n) (fun k => (Props, k)) (fun k => VP (nth k ps p0)) Hq) as (A1 & A2 & A3 & A4).
  { intros k Hk. destruct (nth_error nodes k) as [nd|] eqn:En; [|apply nth_error_None in En; lia]. destruct (RD k nd En) as (p & P1 & P2). now rewrite (nth_error_nth _ _ p0 P1). }
  { intros i j _ _ Hij X. injection X as X. contradiction. }
  { intros i j _ _ _. apply NP. }
  apply all_runs_intro; [exact A1|]. intros m' Hm'. split.
  - intros i x Hx. rewrite Hm', A2; [f_equal; now apply nth_error_nth|]. rewrite <- Lp. eapply nth_error_lt; exact Hx.
  - intros a i Ha. rewrite Hm'. apply A3. intros k _ X. injection X as X. contradiction.
Qed.

(** * The loop over the critical nodes *)
Context {D : Type}.
Variable OD : fops D.
Variable K : platform F.
Hypothesis HE : env_ok E.
Hypothesis HK : benign_shift K.

Lemma tiles_apart : forall (l : list cnode) b e, tiles b (map (fun x => (c_begin x, c_end x)) l) e ->
  (forall k x, nth_error l k = Some x -> b <= c_begin x) /\ forall k1 k2 x1 x2, k1 < k2 -> nth_error l k1 = Some x1 -> nth_error l k2 = Some x2 -> c_end x1 <= c_begin x2.
Proof.
  induction l as [|x l IH]; intros b e H; cbn [map tiles] in H.
  - split; intros; destruct k || destruct k1; discriminate.
  - destruct H as (H0 & H1 & H2). destruct (IH _ _ H2) as [I1 I2]. split.
    + intros [|k] y Hy; cbn [nth_error] in Hy; [injection Hy as <-; lia|]. pose proof (I1 k y Hy). lia.
    + intros [|k1] [|k2] y1 y2 Hk H3 H4; cbn [nth_error] in H3, H4; try lia.
      * injection H3 as <-. exact (I1 k2 y2 H4).
      * apply (I2 k1 k2); auto. lia.
Qed.

Lemma force_safe : forall ord ordered qn t theta G eps split mv eps2 out out' (ls : nat -> list loc) (f : nat -> list val -> list (loc * val)) (q : prog) (m : mem),
  tree_inv O E t -> room E t -> reorders ord -> params O OD E t theta G eps split mv eps2 -> out_ok (length (t_codes t)) (nvecs_res E qn) out ->
  acc_pot_dispatch O OD E K ord ordered qn t theta G eps split out = Ok out' ->
  (forall k a i, In (a, i) (ls k) -> forall j, a <> Out j) ->
  (forall k cn alone, nth_error (t_crit t) k = Some cn ->
     crit_run O E K qn t mv G eps2 (pad_coord O E (t_box t) mv) (dest_of ordered t) out cn = Ok alone ->
     f k (map m (ls k)) = force_writes (fofZ O 0%Z) (dst ordered t) (nvecs_res E qn) (c_begin cn) (c_end cn) alone) ->
  (forall j, j < nvecs_res E qn -> holds m (Out j) VF (nth j out [])) ->
  pfor (force_body ls f) 0 (length (t_crit t)) q ->
  safe q m /\ (forall w l, In (w, l) (foot q m) -> (w = false /\ forall j, fst l <> Out j) \/ exists j i, l = (Out j, i)) /\
  forall m', (forall l, m' l = run q m l) -> forall j, j < nvecs_res E qn -> holds m' (Out j) VF (nth j out' []).
Proof.
  intros ord ordered qn t theta G eps split mv eps2 out out' ls f q m Ht Hr Hord Hp Ho Hd Hls Hf Hm Hq.
  set (nv := nvecs_res E qn) in *. set (n := length (t_codes t)) in *.
  destruct (dispatch_ok O OD E K HE HK ord ordered qn t theta G eps split mv eps2 out Ht Hr Hord Hp Ho) as (o' & E1 & O1 & V & U & L).
  rewrite Hd in E1. injection E1 as <-.
  assert (CR : forall k cn, nth_error (t_crit t) k = Some cn -> c_begin cn < c_end cn <= n /\
    exists ws, f k (map m (ls k)) = ws /\ NoDup (@map (loc * val) loc fst ws) /\
    (forall l v, In (l, v) ws -> exists j i, j < nv /\ c_begin cn <= i < c_end cn /\ l = (Out j, dst ordered t i) /\ nth_error (result_row O E K qn t mv G eps2 i) j = nth_error (nth j out' []) (dst ordered t i) /\
       exists x, nth_error (nth j out' []) (dst ordered t i) = Some x /\ v = VF x) /\
    (forall j i, j < nv -> c_begin cn <= i < c_end cn -> In (Out j, dst ordered t i) (@map (loc * val) loc fst ws))).
  { intros k cn Hk. pose proof (nth_error_In _ _ Hk) as Hin. destruct (crit_node O E t cn Ht Hin) as (_ & _ & _ & _ & _ & Hc). split; [exact Hc|].
    destruct (crit_run_ok O E K HE HK n (dst ordered t) (dest_of ordered t) (dst_ok O E ordered t Ht) (dst_inj O E ordered t Ht) qn t Ht eq_refl
      mv G eps2 (pad_coord O E (t_box t) mv) Hr cn out Hin Ho) as (alone & X1 & X2 & X3 & X4 & X5).
    rewrite (Hf k cn alone Hk X1). eexists. split; [reflexivity|]. unfold force_writes. fold nv. split; [|split].
    - rewrite flat_map_concat_map, concat_map, map_map.
      rewrite (map_ext _ (fun j => map (fun i => (Out j, dst ordered t i)) (seq (c_begin cn) (c_end cn - c_begin cn)))) by (intros j; rewrite map_map; reflexivity).
      assert (G0 : forall k0 b0, NoDup (concat (map (fun j => map (fun i => (Out j, dst ordered t i)) (seq (c_begin cn) (c_end cn - c_begin cn))) (seq b0 k0)))).
      { induction k0 as [|k0 IH]; intros b0; [constructor|]. cbn [seq map concat]. 
        assert (N1 : NoDup (map (fun i => (Out b0, dst ordered t i)) (seq (c_begin cn) (c_end cn - c_begin cn)))).
        { apply NoDup_map_inj; [|apply seq_NoDup]. intros x y Hx Hy X. injection X as X. apply in_seq in Hx, Hy. apply (dst_inj O E ordered t Ht) in X; auto; lia. }
        assert (N2 : forall x, In x (map (fun i => (Out b0, dst ordered t i)) (seq (c_begin cn) (c_end cn - c_begin cn))) ->
          ~ In x (concat (map (fun j => map (fun i => (Out j, dst ordered t i)) (seq (c_begin cn) (c_end cn - c_begin cn))) (seq (S b0) k0)))).
        { intros x Hx Hx'. apply in_map_iff in Hx as (i & <- & _). apply in_concat in Hx' as (l & Hl & Hx'). apply in_map_iff in Hl as (j & <- & Hj).
          apply in_map_iff in Hx' as (i' & X & _). injection X as X _. apply in_seq in Hj. lia. }
        revert N1 N2. generalize (map (fun i => (Out b0, dst ordered t i)) (seq (c_begin cn) (c_end cn - c_begin cn))) as l1. specialize (IH (S b0)). revert IH.
        generalize (concat (map (fun j => map (fun i => (Out j, dst ordered t i)) (seq (c_begin cn) (c_end cn - c_begin cn))) (seq (S b0) k0))) as l2.
        intros l2 IH l1 N1 N2. induction l1 as [|x l1 IHl]; [exact IH|]. inversion N1 as [|? ? M1 M2]; subst. cbn [List.app]. constructor.
        - intros X. apply in_app_iff in X as [X|X]; [contradiction|]. apply (N2 x); [now left|exact X].
        - apply IHl; [exact M2|]. intros y Hy. apply N2. now right. }
      apply G0.
    - intros l v X. apply in_flat_map in X as (j & Hj & X). apply in_map_iff in X as (i & X & Hi). injection X as <- <-. apply in_seq in Hj, Hi.
      assert (Hj' : j < nv) by lia. assert (Hi' : c_begin cn <= i < c_end cn) by lia.
      exists j, i. split; [exact Hj'|]. split; [exact Hi'|]. split; [reflexivity|]. pose proof (V j i Hj' ltac:(lia)) as Vj. split; [now symmetry|].
      pose proof (X3 j i Hj' Hi') as Xj. fold (result_row O E K qn t mv G eps2 i) in Xj.
      destruct (nth_error (nth j out' []) (dst ordered t i)) as [x|] eqn:Ex.
      + exists x. split; [reflexivity|]. f_equal. apply nth_error_nth. congruence.
      + exfalso. apply nth_error_None in Ex. destruct O1 as [O1 O2]. rewrite Forall_forall in O2. assert (Y : n <= length (nth j out' [])) by (apply O2, nth_In; lia).
        pose proof (proj2 (dst_ok O E ordered t Ht i ltac:(lia))). lia.
    - intros j i Hj Hi. apply in_map_iff. eexists. split; [|apply in_flat_map; exists j; split; [apply in_seq; lia|apply in_map_iff; exists i; split; [reflexivity|apply in_seq; lia]]]. reflexivity. }
  assert (FT : forall k cn, nth_error (t_crit t) k = Some cn -> safe (force_body ls f k) m /\ forall w l, In (w, l) (foot (force_body ls f k) m) ->
     (w = false /\ forall j, fst l <> Out j) \/ exists j i, j < nv /\ c_begin cn <= i < c_end cn /\ l = (Out j, dst ordered t i)).
  { intros k cn Hk. destruct (CR k cn Hk) as (_ & ws & Ew & _ & W & _). unfold force_body. rewrite safe_collect, foot_collect. split; [apply safe_writes|].
    intros w l X. apply in_app_iff in X as [X|X].
    - apply in_map_iff in X as (y & X & Hy). injection X as <- <-. left. split; [reflexivity|]. destruct y as [a i]. cbn [fst]. now apply (Hls k a i).
    - rewrite foot_writes, Ew in X. apply in_map_iff in X as ([y v] & X & Hy). injection X as <- <-. cbn [fst]. right. destruct (W _ _ Hy) as (j & i & H1 & H2 & H3 & _). eauto. }
  destruct (tiles_apart _ _ _ (crit_tiles O E t Ht)) as [_ TA].
  destruct (loop_spec (force_body ls f) 0 (length (t_crit t)) q m Hq) as (L1 & L2 & L3 & L4).
  { intros k Hk. destruct (nth_error (t_crit t) k) as [cn|] eqn:Ek; [|apply nth_error_None in Ek; lia]. now apply (FT k cn). }
  { intros k1 k2 H1 H2 H12 w w' l Hl Hl'. destruct (nth_error (t_crit t) k1) as [c1|] eqn:E1; [|apply nth_error_None in E1; lia].
    destruct (nth_error (t_crit t) k2) as [c2|] eqn:E2; [|apply nth_error_None in E2; lia].
    destruct (CR k1 c1 E1) as (C1 & _). destruct (CR k2 c2 E2) as (C2 & _).
    destruct (proj2 (FT k1 c1 E1) _ _ Hl) as [[-> X]|(j & i & Hj & Hi & ->)], (proj2 (FT k2 c2 E2) _ _ Hl') as [[-> Y]|(j' & i' & Hj' & Hi' & Y)]; [auto| | |]; exfalso.
    - subst l. now apply (X j').
    - now apply (Y j).
    - injection Y as Y1 Y2. apply (dst_inj O E ordered t Ht) in Y2; [|lia|lia]. subst i'.
      destruct (Nat.lt_total k1 k2) as [T|[T|T]]; [|contradiction|].
      + pose proof (TA k1 k2 c1 c2 T E1 E2). lia.
      + pose proof (TA k2 k1 c2 c1 T E2 E1). lia. }
  split; [exact L1|]. split.
  { intros w l X. destruct (L4 _ X) as (k & Hk & Y). destruct (nth_error (t_crit t) k) as [cn|] eqn:Ek; [|apply nth_error_None in Ek; lia].
    destruct (proj2 (FT k cn Ek) _ _ Y) as [Z|(j & i & _ & _ & Z)]; [now left|right; eauto]. }
  intros m' Hm' j Hj d x Hx. rewrite Hm'.
  destruct (Nat.lt_ge_cases d n) as [Hdn|Hdn].
  - destruct (dst_onto O E ordered t Ht d Hdn) as (i & Hi & ->).
    destruct (tiles_find _ _ _ _ i (crit_tiles O E t Ht)) as (cn & Hcn & Hc); [unfold n in *; lia|]. cbn [fst snd] in Hc.
    apply In_nth_error in Hcn as [k Hk]. destruct (CR k cn Hk) as (_ & ws & Ew & ND & W & IN).
    assert (Hkl : k < length (t_crit t)) by (eapply nth_error_lt; exact Hk).
    pose proof (IN j i Hj Hc) as X. apply in_map_iff in X as ([l v] & X & Hlv). cbn [fst] in X. subst l.
    assert (FX : In (true, (Out j, dst ordered t i)) (foot (force_body ls f k) m)).
    { unfold force_body. rewrite foot_collect, foot_writes, Ew. apply in_or_app. right. apply in_map_iff. exists ((Out j, dst ordered t i), v). auto. }
    rewrite (L2 k _ ltac:(lia) FX). unfold force_body. rewrite run_collect, Ew, (run_writes_in ws m _ v ND Hlv).
    destruct (W _ _ Hlv) as (j' & i' & _ & Hi' & Y & _ & x' & X1 & ->). injection Y as <- Y. rewrite <- Y in X1. congruence.
  - rewrite L3.
    + apply (Hm j Hj). rewrite <- (U j d Hdn). exact Hx.
    + intros k Hk X. destruct (nth_error (t_crit t) k) as [cn|] eqn:Ek; [|apply nth_error_None in Ek; lia]. destruct (CR k cn Ek) as (C1 & _).
      destruct (proj2 (FT k cn Ek) _ _ X) as [[Y _]|(j' & i & _ & Hi & Y)]; [discriminate|]. injection Y as _ ->.
      pose proof (proj2 (dst_ok O E ordered t Ht i ltac:(lia))). unfold n in *. lia.
Qed.

End Loops.
