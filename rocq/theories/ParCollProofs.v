(** The collision graph: no interleaving has a data race, and all of them end with the graph of the sequential model. *)
From Coq Require Import List Arith NArith ZArith Bool Lia Permutation.
From Verif Require Import Base Config Morton Build TreeSpec FOps Disc NodeProps Tree TreeInv TreeProofs Kernels Coll CollProofs ParBag ParColl.
From Verif Require ParTree.
Import ListNotations.
Local Open Scope nat_scope.

Section P.

Context {F : Type}.
Variable O : fops F.
Variable E : env.
Variable K : platform F.
Notation c := (e_cfg E).
Notation cval := (cval F).
Notation prog := (cmd cloc cval).
Notation mem := (cloc -> cval).
Notation run := (ParBag.run cloc cval cloc_eq cop).
Notation runs := (ParBag.runs cloc cval cloc_eq cop).
Notation foot := (ParBag.foot cloc cval cloc_eq cop).
Notation safe := (ParBag.safe cloc cval cloc_eq cop alike).
Notation upd := (ParBag.upd cloc cval cloc_eq).
Notation all_runs := (ParBag.all_runs cloc cval cloc_eq cop).

Lemma alike_refl : forall x : cval, alike x x.
Proof. intros []; cbn; auto. Qed.
Lemma alike_sym : forall x y : cval, alike x y -> alike y x.
Proof. intros [] []; cbn; try congruence. apply Permutation_sym. Qed.
Lemma alike_trans : forall x y z : cval, alike x y -> alike y z -> alike x z.
Proof. intros [] [] []; cbn; try congruence. apply perm_trans. Qed.
Lemma alike_op : forall v x y : cval, alike x y -> alike (cop v x) (cop v y).
Proof.
  intros v x y H. destruct x, y; cbn in H; try discriminate H; try (injection H as <-; apply alike_refl).
  destruct v; cbn; auto. now apply Permutation_app_tail.
Qed.
Lemma cop_comm : forall v w x : cval, alike (cop v (cop w x)) (cop w (cop v x)).
Proof.
  intros v w x. destruct v, w, x; cbn; auto; try apply Permutation_refl. rewrite <- !app_assoc. apply Permutation_app_head. apply perm_swap.
Qed.

Lemma alike_row : forall (x : cval) l, alike x (XR l) -> x = XR l.
Proof. intros x l H. destruct x; cbn in H; try discriminate H; exact H. Qed.

(** * Reads and pushes *)
Lemma run_collect : forall ls (k : list cval -> prog) m, run (ccollect ls k) m = run (k (map m ls)) m.
Proof. induction ls as [|l ls IH]; intros k m; cbn [ccollect map ParBag.run]; [reflexivity|apply IH]. Qed.
Lemma foot_collect : forall ls (k : list cval -> prog) m, foot (ccollect ls k) m = map (pair KR) ls ++ foot (k (map m ls)) m.
Proof. induction ls as [|l ls IH]; intros k m; cbn [ccollect map ParBag.foot List.app]; [reflexivity|]. now rewrite IH. Qed.

Definition plain (x : cval) : Prop := match x with XL _ => False | _ => True end.
Lemma plain_eq : forall x y : cval, plain x -> alike y x -> y = x.
Proof. intros [] [] Hx; cbn in *; try congruence; contradiction. Qed.

Lemma safe_collect : forall ls (k : list cval -> prog) m, (forall l, In l ls -> plain (m l)) -> safe (k (map m ls)) m -> safe (ccollect ls k) m.
Proof.
  induction ls as [|l ls IH]; intros k m Hp HS; cbn [ccollect map ParBag.safe] in *; [exact HS|]. split.
  - intros y Hy. now rewrite (plain_eq _ _ (Hp l (or_introl eq_refl)) Hy).
  - apply IH; [intros x Hx; apply Hp; now right|exact HS].
Qed.

Lemma safe_pushes : forall a ev m, safe (pushes a ev) m.
Proof. intros a ev. induction ev as [|[i x] ev IH]; intros m; cbn [pushes ParBag.safe]; auto. Qed.
Lemma foot_pushes : forall a ev m, foot (pushes a ev) m = map (fun e => (KA, (a, fst e))) ev.
Proof. intros a ev. induction ev as [|[i x] ev IH]; intros m; cbn [pushes ParBag.foot map fst]; [reflexivity|]. now rewrite IH. Qed.
Lemma run_pushes : forall a ev m k l, m (a, k) = XL l -> run (pushes a ev) m (a, k) = XL (l ++ append ev k).
Proof.
  intros a ev. induction ev as [|[i x] ev IH]; intros m k l H; cbn [pushes ParBag.run]; [now rewrite app_nil_r|].
  unfold append. cbn [filter fst]. destruct (Nat.eqb_spec i k) as [->|Hne].
  - rewrite (IH _ k (l ++ [x])); [cbn [map snd]; now rewrite <- app_assoc|]. rewrite upd_same, H. reflexivity.
  - apply IH. rewrite upd_other; [exact H|congruence].
Qed.
Lemma run_pushes_out : forall a ev m l, fst l <> a -> run (pushes a ev) m l = m l.
Proof.
  intros a ev. induction ev as [|[i x] ev IH]; intros m l H; cbn [pushes ParBag.run]; [reflexivity|]. rewrite IH by exact H. apply upd_other. now intros ->.
Qed.

Lemma append_app : forall ev ev' k, append (ev ++ ev') k = append ev k ++ append ev' k.
Proof. intros ev ev' k. unfold append. now rewrite filter_app, map_app. Qed.

(** * What the tasks see *)
Definition choldsin {A} (m : mem) (a : carr) (f : A -> cval) (l : list A) : Prop := forall i x, nth_error l i = Some x -> m (a, i) = f x.

Variable ordered : bool.
Variable t : @tree F.
Variable sizes : list F.
Notation n := (length (t_codes t)).
Notation nn := (length (t_nodes t)).
Notation ns := (length sizes).
Notation reads := (coll_reads E n nn ns).

(** The tree and the sizes are in memory. *)
Definition coll_mem (m : mem) : Prop :=
  (forall j col, nth_error (t_parts t) j = Some col -> choldsin m (CPart j) XF col) /\
  choldsin m CNodes XN (t_nodes t) /\ choldsin m CPerm XI (t_perm t) /\ choldsin m CCodes XU (t_codes t) /\ choldsin m CSizes XF sizes.

Hypothesis Hcols : length (t_parts t) = dim c + 1.
Hypothesis Hlen : Forall (fun col => length col = n) (t_parts t).
Hypothesis Hperm : length (t_perm t) = n.

Lemma range_back : forall {A} (m : mem) a (f : A -> cval) l k, choldsin m a f l -> length l = k -> map m (range a k) = map f l.
Proof.
  intros A m a f l k H <-. unfold range. rewrite map_map. apply list_ext. intros i. rewrite !nth_error_map.
  destruct (Nat.lt_ge_cases i (length l)) as [L|L].
  - rewrite nth_error_nth' with (d := 0) by (now rewrite seq_length). rewrite seq_nth by exact L. cbn [option_map Nat.add].
    destruct (nth_error l i) as [x|] eqn:Hx; [cbn; now rewrite (H i x Hx)|]. apply nth_error_None in Hx. lia.
  - rewrite (proj2 (nth_error_None _ _)) by (rewrite seq_length; lia). now rewrite (proj2 (nth_error_None _ _)) by lia.
Qed.

Definition vals : list cval := map XF (concat (t_parts t)) ++ map XN (t_nodes t) ++ map XI (t_perm t) ++ map XU (t_codes t) ++ map XF sizes.

Lemma parts_back : forall (m : mem) cols s, (forall j col, nth_error cols j = Some col -> choldsin m (CPart (s + j)) XF col) -> Forall (fun col => length col = n) cols ->
  map m (flat_map (fun j => range (CPart j) n) (seq s (length cols))) = map XF (concat cols).
Proof.
  intros m cols. induction cols as [|col cols IH]; intros s H HL; cbn [length seq flat_map concat map]; [reflexivity|]. inversion_clear HL as [|? ? L1 L2].
  rewrite !map_app. f_equal.
  - apply range_back; [|exact L1]. specialize (H 0 col eq_refl). now rewrite Nat.add_0_r in H.
  - apply IH; [|exact L2]. intros j col' Hj. specialize (H (S j) col' Hj). now replace (S s + j) with (s + S j) by lia.
Qed.

Lemma reads_vals : forall m, coll_mem m -> map m reads = vals.
Proof.
  intros m (H1 & H2 & H3 & H4 & H5). unfold coll_reads, vals. rewrite !map_app. rewrite <- Hcols.
  rewrite (parts_back m (t_parts t) 0) by (auto). repeat f_equal; apply range_back; auto.
Qed.

Lemma fm_none : forall {A B X} (f : X -> list B) (g : A -> X) l, (forall x, f (g x) = []) -> flat_map f (map g l) = [].
Proof. intros A B X f g l H. induction l as [|x l IH]; [reflexivity|]. cbn [map flat_map]. now rewrite H, IH. Qed.
Lemma fm_all : forall {A X} (f : X -> list A) (g : A -> X) l, (forall x, f (g x) = [x]) -> flat_map f (map g l) = l.
Proof. intros A X f g l H. induction l as [|x l IH]; [reflexivity|]. cbn [map flat_map]. now rewrite H, IH. Qed.

Lemma chunks_prefix : forall {A} (cols : list (list A)) k r, Forall (fun col => length col = k) cols -> ParTree.chunks (length cols) k (concat cols ++ r) = cols.
Proof.
  intros A cols k r H. induction H as [|col cols H1 H2 IH]; cbn [length ParTree.chunks concat]; [reflexivity|].
  rewrite <- app_assoc. rewrite firstn_app, skipn_app, H1, Nat.sub_diag, firstn_O, skipn_O, app_nil_r.
  rewrite firstn_all2, skipn_all2 by lia. cbn [List.app]. now rewrite IH.
Qed.

Lemma concat_len : forall {A} (cols : list (list A)) k, Forall (fun col => length col = k) cols -> length (concat cols) = length cols * k.
Proof. intros A cols k H. induction H as [|col cols H1 H2 IH]; cbn [concat length]; [reflexivity|]. rewrite app_length. lia. Qed.

Lemma xfloats_vals : xfloats vals = concat (t_parts t) ++ sizes.
Proof.
  unfold vals, xfloats. rewrite !flat_map_app. rewrite (fm_all _ XF (concat (t_parts t))), (fm_none _ XN), (fm_none _ XI), (fm_none _ XU), (fm_all _ XF sizes) by reflexivity. reflexivity.
Qed.

Definition seen_t : @tree F := mkTree (t_box t) false 0 0 (t_parts t) (t_codes t) (t_perm t) [] [] (t_nodes t) [] None.

Lemma seen_vals : seen E (t_box t) n vals = seen_t /\ seen_sizes E n vals = sizes.
Proof.
  unfold seen, seen_sizes, seen_t. rewrite xfloats_vals. split.
  - f_equal.
    + rewrite <- Hcols. now apply chunks_prefix.
    + unfold vals, xcodes. rewrite !flat_map_app. rewrite (fm_none _ XF), (fm_none _ XN), (fm_none _ XI), (fm_all _ XU), (fm_none _ XF) by reflexivity. cbn. apply app_nil_r.
    + unfold vals, xindices. rewrite !flat_map_app. rewrite (fm_none _ XF), (fm_none _ XN), (fm_all _ XI), (fm_none _ XU), (fm_none _ XF) by reflexivity. cbn. apply app_nil_r.
    + unfold vals, xnodes. rewrite !flat_map_app. rewrite (fm_none _ XF), (fm_all _ XN), (fm_none _ XI), (fm_none _ XU), (fm_none _ XF) by reflexivity. cbn. apply app_nil_r.
  - rewrite skipn_app. rewrite (concat_len _ n Hlen), Hcols, Nat.sub_diag, skipn_O. now rewrite skipn_all2 by (rewrite (concat_len _ n Hlen), Hcols; lia).
Qed.

Lemma extra_seen : forall leaves lnode p, extra O E K ordered seen_t sizes leaves lnode p = extra O E K ordered t sizes leaves lnode p.
Proof. reflexivity. Qed.
Lemma events_seen : forall lnode va, leaf_events O E ordered seen_t sizes lnode va = leaf_events O E ordered t sizes lnode va.
Proof. reflexivity. Qed.

Lemma in_range : forall a k l, In l (range a k) -> fst l = a.
Proof. intros a k l H. apply in_map_iff in H as (i & <- & _). reflexivity. Qed.

Lemma reads_arr : forall l, In l reads -> fst l <> CAdd /\ fst l <> CRow.
Proof.
  intros l H. unfold coll_reads in H. rewrite !in_app_iff in H. destruct H as [H|[H|[H|[H|H]]]]; [|apply in_range in H; rewrite H; split; discriminate..].
  apply in_flat_map in H as (j & _ & H). apply in_range in H. rewrite H. split; discriminate.
Qed.

Lemma reads_plain : forall m l, coll_mem m -> In l reads -> plain (m l).
Proof.
  intros m l Hm Hl. assert (H : In (m l) (map m reads)) by now apply in_map. rewrite (reads_vals m Hm) in H. unfold vals in H. rewrite !in_app_iff in H.
  destruct H as [H|[H|[H|[H|H]]]]; apply in_map_iff in H as (x & <- & _); exact I.
Qed.

Lemma coll_mem_ext : forall m m', coll_mem m -> (forall l, fst l <> CAdd -> fst l <> CRow -> m' l = m l) -> coll_mem m'.
Proof.
  intros m m' (H1 & H2 & H3 & H4 & H5) H.
  split; [intros j col Hj i x Hx; rewrite H by discriminate; exact (H1 j col Hj i x Hx)|].
  split; [intros i x Hx; rewrite H by discriminate; now apply H2|]. split; [intros i x Hx; rewrite H by discriminate; now apply H3|].
  split; [intros i x Hx; rewrite H by discriminate; now apply H4|]. intros i x Hx; rewrite H by discriminate; now apply H5.
Qed.

Notation leaves := (coll_leaves (t_nodes t)).
Notation nl := (length leaves).

(** * The loop of the additional particles *)
Notation xbody := (extras_body O E K ordered (t_box t) n nn ns).

Lemma xbody_spec : forall k m lnode l, coll_mem m -> nth_error leaves k = Some lnode ->
  mapM (extra O E K ordered t sizes leaves lnode) (seq (n_begin lnode) (n_end lnode - n_begin lnode)) = Ok l ->
  safe (xbody k) m /\ run (xbody k) m = run (pushes CAdd (concat l)) m /\ foot (xbody k) m = map (pair KR) reads ++ map (fun e => (KA, (CAdd, fst e))) (concat l).
Proof.
  intros k m lnode l Hm Hk Hl. unfold extras_body.
  match goal with |- context [ccollect _ ?f] => set (kk := f) end.
  assert (EQ : kk vals = pushes CAdd (concat l)).
  { unfold kk. destruct seen_vals as [-> ->]. cbv zeta. change (t_nodes seen_t) with (t_nodes t). rewrite Hk.
    rewrite (mapM_ext _ (extra O E K ordered t sizes leaves lnode)) by (intros; apply extra_seen). now rewrite Hl. }
  split; [|split].
  - apply safe_collect; [intros x Hx; now apply reads_plain|]. rewrite (reads_vals m Hm), EQ. apply safe_pushes.
  - now rewrite run_collect, (reads_vals m Hm), EQ.
  - now rewrite foot_collect, (reads_vals m Hm), EQ, foot_pushes.
Qed.

Lemma firstn_S : forall {A} (l : list A) i x, nth_error l i = Some x -> firstn (S i) l = firstn i l ++ [x].
Proof.
  intros A l. induction l as [|y l IH]; intros [|i] x H; cbn [nth_error firstn] in *; try discriminate; [now injection H as ->|]. cbn [List.app]. f_equal. now apply IH.
Qed.

Lemma runs_S : forall (body : nat -> prog) i m, runs (map body (seq 0 (S i))) m = run (body i) (runs (map body (seq 0 i)) m).
Proof. intros body i m. rewrite seq_S, map_app. cbn [map Nat.add]. unfold ParBag.runs. now rewrite fold_left_app. Qed.

Lemma extras_runs : forall m evs, coll_mem m -> (forall k, k < nl -> m (CAdd, k) = XL []) ->
  mapM (fun lnode => mapM (extra O E K ordered t sizes leaves lnode) (seq (n_begin lnode) (n_end lnode - n_begin lnode))) leaves = Ok evs ->
  forall i, i <= nl -> let m' := runs (map xbody (seq 0 i)) m in
    (forall l, fst l <> CAdd -> m' l = m l) /\ forall k, k < nl -> m' (CAdd, k) = XL (append (concat (map (@concat _) (firstn i evs))) k).
Proof.
  intros m evs Hm Ha He i. apply mapM_Ok in He as [He1 He2]. induction i as [|i IH]; intros Hi; cbn zeta.
  - cbn [seq map]. split; [reflexivity|exact Ha].
  - destruct (IH ltac:(lia)) as [I1 I2]. rewrite runs_S. set (m1 := runs (map xbody (seq 0 i)) m) in *.
    destruct (nth_error leaves i) as [lnode|] eqn:Hn; [|apply nth_error_None in Hn; lia]. destruct (He2 i lnode Hn) as (l & Hl1 & Hl2).
    assert (Hm1 : coll_mem m1) by (apply (coll_mem_ext m); auto).
    destruct (xbody_spec i m1 lnode l Hm1 Hn Hl2) as (_ & R1 & _). rewrite R1. split.
    + intros x Hx. rewrite run_pushes_out by exact Hx. now apply I1.
    + intros k Hk. rewrite (run_pushes CAdd _ _ _ _ (I2 k Hk)). rewrite (firstn_S _ _ _ Hl1), map_app, concat_app, append_app. cbn [map concat]. now rewrite app_nil_r.
Qed.

(** * The loop of the pairs *)
Notation pbody := (pairs_body O E ordered (t_box t) n nn ns).

Lemma nsort_Permutation : forall l, Permutation (nsort l) l.
Proof.
  assert (I : forall x l, Permutation (ninsert x l) (x :: l)).
  { intros x l. induction l as [|y l IH]; cbn [ninsert]; [apply Permutation_refl|]. destruct (x <=? y); [apply Permutation_refl|]. rewrite IH. apply perm_swap. }
  induction l as [|x l IH]; cbn [nsort]; [constructor|]. rewrite I. now constructor.
Qed.

Lemma leaf_events_sorted : forall lnode va, leaf_events O E ordered t sizes lnode (nsort va) = leaf_events O E ordered t sizes lnode va.
Proof. intros lnode va. unfold leaf_events. now rewrite (nsort_perm (nsort va) va (nsort_Permutation va)). Qed.

Lemma pbody_spec : forall k m lnode va ev, coll_mem m -> nth_error leaves k = Some lnode -> m (CAdd, k) = XL va -> leaf_events O E ordered t sizes lnode va = Ok ev ->
  safe (pbody k) m /\ run (pbody k) m = run (pushes CRow ev) (upd m (CAdd, k) (XL [])) /\
  foot (pbody k) m = (KR, (CAdd, k)) :: (KW, (CAdd, k)) :: map (pair KR) reads ++ map (fun e => (KA, (CRow, fst e))) ev.
Proof.
  intros k m lnode va ev Hm Hk Ha He. unfold pairs_body. cbn [ParBag.safe ParBag.run ParBag.foot]. rewrite Ha. unfold pairs_task. cbn [ParBag.safe ParBag.run ParBag.foot].
  set (m1 := upd m (CAdd, k) (XL [])). assert (Hm1 : coll_mem m1).
  { apply (coll_mem_ext m); [exact Hm|]. intros l H1 H2. unfold m1. apply upd_other. now intros ->. }
  match goal with |- context [ccollect _ ?f] => set (kk := f) end.
  assert (EQ : kk vals = pushes CRow ev).
  { unfold kk. destruct seen_vals as [-> ->]. cbv zeta. change (t_nodes seen_t) with (t_nodes t). rewrite Hk. rewrite events_seen, leaf_events_sorted. now rewrite He. }
  split; [|split].
  - split.
    + intros y Hy. destruct y; cbn in Hy; try discriminate Hy. unfold kk. now rewrite (nsort_perm _ _ Hy).
    + apply safe_collect; [intros x Hx; now apply reads_plain|]. rewrite (reads_vals m1 Hm1), EQ. apply safe_pushes.
  - now rewrite run_collect, (reads_vals m1 Hm1), EQ.
  - now rewrite foot_collect, (reads_vals m1 Hm1), EQ, foot_pushes.
Qed.

Lemma pairs_runs : forall m evs (vas : nat -> list nat), coll_mem m -> (forall k, k < nl -> m (CAdd, k) = XL (vas k)) -> (forall i, i < n -> m (CRow, i) = XL []) ->
  length evs = nl -> (forall k lnode ev, nth_error leaves k = Some lnode -> nth_error evs k = Some ev -> leaf_events O E ordered t sizes lnode (vas k) = Ok ev) ->
  forall i, i <= nl -> let m' := runs (map pbody (seq 0 i)) m in
    (forall l, fst l <> CAdd -> fst l <> CRow -> m' l = m l) /\ (forall k, i <= k < nl -> m' (CAdd, k) = XL (vas k)) /\
    forall k, k < n -> m' (CRow, k) = XL (append (concat (firstn i evs)) k).
Proof.
  intros m evs vas Hm Ha Hr HL He i. induction i as [|i IH]; intros Hi; cbn zeta.
  - cbn [seq map]. split; [reflexivity|]. split; [intros k Hk; apply Ha; lia|exact Hr].
  - destruct (IH ltac:(lia)) as (I1 & I2 & I3). rewrite runs_S. set (m1 := runs (map pbody (seq 0 i)) m) in *.
    destruct (nth_error leaves i) as [lnode|] eqn:Hn; [|apply nth_error_None in Hn; lia].
    destruct (nth_error evs i) as [ev|] eqn:Hev; [|apply nth_error_None in Hev; lia].
    assert (Hm1 : coll_mem m1) by (apply (coll_mem_ext m); auto).
    destruct (pbody_spec i m1 lnode (vas i) ev Hm1 Hn (I2 i ltac:(lia)) (He i lnode ev Hn Hev)) as (_ & R1 & _). rewrite R1. split; [|split].
    + intros x Hx Hx'. rewrite run_pushes_out by exact Hx'. rewrite upd_other by (now intros ->). now apply I1.
    + intros k Hk. rewrite run_pushes_out by discriminate. rewrite upd_other; [apply I2; lia|]. intros X. injection X as ->. lia.
    + intros k Hk. rewrite (run_pushes CRow _ _ _ (append (concat (firstn i evs)) k)) by (rewrite upd_other by discriminate; now apply I3).
      rewrite (firstn_S _ _ _ Hev), concat_app, append_app. cbn [concat]. now rewrite app_nil_r.
Qed.

(** * The loops on the rows *)
Lemma clear_runs : forall m i, let m' := runs (map clear_body (seq 0 i)) m in
  (forall l, fst l <> CRow -> m' l = m l) /\ forall k, k < i -> m' (CRow, k) = XL [].
Proof.
  intros m i. induction i as [|i IH]; cbn zeta; [split; [reflexivity|lia]|]. destruct IH as [I1 I2]. rewrite runs_S. cbn [clear_body ParBag.run]. split.
  - intros l Hl. rewrite upd_other by (now intros ->). now apply I1.
  - intros k Hk. destruct (Nat.eq_dec k i) as [->|Hne]; [apply upd_same|]. rewrite upd_other by congruence. apply I2. lia.
Qed.

Lemma dedup_runs : forall m (rows : nat -> list nat), (forall k, k < n -> m (CRow, k) = XL (rows k)) ->
  forall i, i <= n -> let m' := runs (map dedup_body (seq 0 i)) m in
  (forall k, i <= k < n -> m' (CRow, k) = XL (rows k)) /\ forall k, k < i -> m' (CRow, k) = XR (nunique (nsort (rows k))).
Proof.
  intros m rows Hr i. induction i as [|i IH]; intros Hi; cbn zeta; [cbn [seq map]; split; [intros k Hk; apply Hr; lia|lia]|].
  destruct (IH ltac:(lia)) as [I1 I2]. rewrite runs_S. cbn [dedup_body ParBag.run]. rewrite (I1 i ltac:(lia)). cbn [ParBag.run]. split.
  - intros k Hk. rewrite upd_other; [apply I1; lia|]. intros X. injection X as ->. lia.
  - intros k Hk. destruct (Nat.eq_dec k i) as [->|Hne]; [apply upd_same|]. rewrite upd_other by congruence. apply I2. lia.
Qed.

(** * The whole program *)
Lemma coll_runs : forall sch1 sch2 old g q m, reorders sch1 -> reorders sch2 -> nparts t = n ->
  compute_cgraph O E K ordered t sizes sch1 sch2 old = Ok g ->
  coll_mem m -> (forall k, k < nl -> m (CAdd, k) = XL []) -> (forall i, i < n -> m (CRow, i) = XL (nth i old [])) ->
  coll_prog O E K (match old with [] => true | _ => false end) ordered (t_box t) n nn ns nl q ->
  all_runs q m (fun m' => forall i row, nth_error g i = Some row -> m' (CRow, i) = XR row).
Proof.
  intros sch1 sch2 old g q m R1 R2 Hnp Hg Hm Ha Hr (q1 & q2 & q3 & q4 & Q1 & Q2 & Q3 & Q4 & ->).
  rewrite (schedule O E K ordered t sizes sch1 sch2 (fun l => l) (fun l => l) old old R1 R2 (fun l => Permutation_refl l) (fun l => Permutation_refl l)) in Hg.
  unfold compute_cgraph in Hg. rewrite rows_nil, Hnp in Hg. apply bind_Ok in Hg as ([] & _ & Hg). apply bind_Ok in Hg as ([] & _ & Hg).
  apply bind_Ok in Hg as (ev1 & Hx & Hg). apply bind_Ok in Hg as ([] & _ & Hg). apply bind_Ok in Hg as (evs2 & Hev2 & Hg). apply bind_Ok in Hg as ([] & _ & Hg).
  injection Hg as <-. unfold extras in Hx. apply bind_Ok in Hx as (evs1 & Hev1 & Hx). injection Hx as <-. set (ev1 := concat (map (@concat _) evs1)) in *.
  pose proof Hev1 as Hev1'. apply mapM_Ok in Hev1' as [L1 X1]. apply mapM_Ok in Hev2 as [L2 X2].
  assert (LL : length (combine (seq 0 nl) leaves) = nl) by (rewrite combine_length, seq_length; lia). rewrite LL in L2.
  assert (HP : forall k lnode ev, nth_error leaves k = Some lnode -> nth_error evs2 k = Some ev -> leaf_events O E ordered t sizes lnode (append ev1 k) = Ok ev).
  { intros k lnode ev Hk Hev. destruct (X2 k (k, lnode)) as (ev' & H1 & H2).
    - assert (Hkl : k < nl) by (apply nth_error_Some; congruence).
      rewrite (nth_error_nth' _ (0, lnode)) by (rewrite LL; exact Hkl). f_equal. rewrite combine_nth by apply seq_length. rewrite seq_nth by exact Hkl.
      f_equal. now apply nth_error_nth.
    - congruence. }
  (* the first task *)
  assert (C1 : safe q1 m /\ (forall x, In x (foot q1 m) -> exists i, x = (KW, (CRow, i))) /\ (forall l, fst l <> CRow -> run q1 m l = m l) /\ forall i, i < n -> run q1 m (CRow, i) = XL []).
  { destruct old as [|o old].
    - subst q1. split; [exact I|]. split; [intros x []|]. split; [reflexivity|]. intros i Hi. cbn [ParBag.run]. rewrite (Hr i Hi). now destruct i.
    - destruct (safe_pfor _ _ cloc_eq cop alike alike_refl alike_trans alike_op _ _ _ _ m Q1) as [S1 F1].
      + intros i _. exact I.
      + intros i j _ _ Hij w w' l [X|[]] [Y|[]]. congruence.
      + split; [exact S1|]. split; [intros x Hx; destruct (F1 x Hx) as (i & _ & [<-|[]]); eauto|]. rewrite (run_pfor _ _ cloc_eq cop _ _ _ _ m Q1), Nat.sub_0_r.
        destruct (clear_runs m n) as [D1 D2]. split; [exact D1|exact D2]. }
  destruct C1 as (S1 & F1 & M1 & M1').
  (* the second one *)
  assert (X1' : forall k, k < nl -> exists lnode l, nth_error leaves k = Some lnode /\ nth_error evs1 k = Some l /\
    mapM (extra O E K ordered t sizes leaves lnode) (seq (n_begin lnode) (n_end lnode - n_begin lnode)) = Ok l).
  { intros k Hk. destruct (nth_error leaves k) as [lnode|] eqn:Hn; [|apply nth_error_None in Hn; lia]. destruct (X1 k lnode Hn) as (l & H1 & H2). eauto. }
  assert (C2 : safe q2 m /\ forall x, In x (foot q2 m) -> (exists l, In l reads /\ x = (KR, l)) \/ exists k, x = (KA, (CAdd, k))).
  { assert (FT : forall i x, i < nl -> In x (foot (xbody i) m) -> (exists l, In l reads /\ x = (KR, l)) \/ exists k, x = (KA, (CAdd, k))).
    { intros i x Hi Hx. destruct (X1' i Hi) as (lnode & l & H1 & H2 & H3). destruct (xbody_spec i m lnode l Hm H1 H3) as (_ & _ & HF). rewrite HF in Hx.
      apply in_app_iff in Hx as [Hx|Hx]; apply in_map_iff in Hx as (y & <- & Hy); [left; eauto|right; eauto]. }
    destruct (safe_pfor _ _ cloc_eq cop alike alike_refl alike_trans alike_op _ _ _ _ m Q2) as [S2 F2].
    - intros i Hi. destruct (X1' i ltac:(lia)) as (lnode & l & H1 & H2 & H3). now destruct (xbody_spec i m lnode l Hm H1 H3).
    - intros i j Hi Hj Hij w w' l Hw Hw'. destruct (FT i _ ltac:(lia) Hw) as [(x & Hx & X)|(k & X)]; destruct (FT j _ ltac:(lia) Hw') as [(y & Hy & Y)|(k' & Y)].
      + now injection X as -> _; injection Y as -> _.
      + injection X as -> <-; injection Y as -> ->. now elim (proj1 (reads_arr _ Hx)).
      + injection X as -> ->; injection Y as -> <-. now elim (proj1 (reads_arr _ Hy)).
      + now injection X as -> _; injection Y as -> _.
    - split; [exact S2|]. intros x Hx. destruct (F2 x Hx) as (i & Hi & Hy). apply (FT i x ltac:(lia) Hy). }
  destruct C2 as [S2 F2].
  destruct (independent _ _ cloc_eq cop alike alike_refl alike_trans alike_op q1 q2 m S1 S2) as (_ & SF & _).
  { intros w w' l Hw Hw'. destruct (F1 _ Hw) as (i & X). destruct (F2 _ Hw') as [(y & Hy & Y)|(k' & Y)].
    - injection X as -> ->. injection Y as -> <-. now elim (proj2 (reads_arr _ Hy)).
    - injection X as -> ->. discriminate Y. }
  (* memory after the first region *)
  set (m1 := run (Fork q1 q2 Ret) m).
  assert (M2 : coll_mem m1 /\ (forall k, k < nl -> m1 (CAdd, k) = XL (append ev1 k)) /\ forall i, i < n -> m1 (CRow, i) = XL []).
  { unfold m1. cbn [ParBag.run]. rewrite (run_pfor _ _ cloc_eq cop _ _ _ _ (run q1 m) Q2), Nat.sub_0_r.
    destruct (extras_runs (run q1 m) evs1) with (i := nl) as [D1 D2]; auto.
    - apply (coll_mem_ext m); auto.
    - intros k Hk. rewrite M1 by discriminate. now apply Ha.
    - split; [|split].
      + apply (coll_mem_ext m); [exact Hm|]. intros l H1 H2. rewrite D1 by exact H1. now apply M1.
      + intros k Hk. rewrite D2 by exact Hk. unfold ev1. now rewrite <- L1, firstn_all.
      + intros i Hi. rewrite D1 by discriminate. now apply M1'. }
  destruct M2 as (M2 & M2a & M2r).
  (* the loop of the pairs *)
  assert (HP' : forall k, k < nl -> exists lnode ev, nth_error leaves k = Some lnode /\ leaf_events O E ordered t sizes lnode (append ev1 k) = Ok ev).
  { intros k Hk. destruct (nth_error leaves k) as [lnode|] eqn:Hn; [|apply nth_error_None in Hn; lia].
    destruct (nth_error evs2 k) as [ev|] eqn:He; [|apply nth_error_None in He; lia]. eauto. }
  assert (S3 : safe q3 m1).
  { apply (safe_pfor _ _ cloc_eq cop alike alike_refl alike_trans alike_op _ _ _ _ m1 Q3).
    - intros i Hi. destruct (HP' i ltac:(lia)) as (lnode & ev & H1 & H2). now destruct (pbody_spec i m1 lnode _ ev M2 H1 (M2a i ltac:(lia)) H2).
    - assert (FT : forall i x, i < nl -> In x (foot (pbody i) m1) ->
        x = (KR, (CAdd, i)) \/ x = (KW, (CAdd, i)) \/ (exists l, In l reads /\ x = (KR, l)) \/ exists k, x = (KA, (CRow, k))).
      { intros i x Hi Hx. destruct (HP' i Hi) as (lnode & ev & H1 & H2). destruct (pbody_spec i m1 lnode _ ev M2 H1 (M2a i Hi) H2) as (_ & _ & HF). rewrite HF in Hx.
        destruct Hx as [<-|[<-|Hx]]; auto. apply in_app_iff in Hx as [Hx|Hx]; apply in_map_iff in Hx as (y & <- & Hy); eauto 6. }
      intros i j Hi Hj Hij w w' l Hw Hw'.
      destruct (FT i _ ltac:(lia) Hw) as [X|[X|[(x & Hx & X)|(k & X)]]]; destruct (FT j _ ltac:(lia) Hw') as [Y|[Y|[(y & Hy & Y)|(k' & Y)]]];
        injection X as X1x X2x; injection Y as Y1 Y2; subst; try reflexivity; try discriminate; try congruence;
        solve [exfalso; match goal with HH : In _ (coll_reads _ _ _ _) |- _ => destruct (reads_arr _ HH) as [Z1 Z2]; now (apply Z1 || apply Z2) end]. }
  set (m2 := run q3 m1).
  assert (M3 : forall k, k < n -> m2 (CRow, k) = XL (append (concat evs2) k)).
  { intros k Hk. unfold m2. rewrite (run_pfor _ _ cloc_eq cop _ _ _ _ m1 Q3), Nat.sub_0_r.
    destruct (pairs_runs m1 evs2 (append ev1)) with (i := nl) as (_ & _ & D3); auto. rewrite D3 by exact Hk. now rewrite <- L2, firstn_all. }
  (* the rows *)
  assert (S4 : safe q4 m2).
  { apply (safe_pfor _ _ cloc_eq cop alike alike_refl alike_trans alike_op _ _ _ _ m2 Q4).
    - intros i Hi. cbn [dedup_body ParBag.safe]. rewrite (M3 i ltac:(lia)). split; [|exact I]. intros y Hy. destruct y; cbn in Hy; try discriminate. now rewrite (nsort_perm _ _ Hy).
    - intros i j Hi Hj Hij w w' l. cbn [dedup_body ParBag.foot]. rewrite (M3 i ltac:(lia)), (M3 j ltac:(lia)). cbn [ParBag.foot]. intros [X|[X|[]]] [Y|[Y|[]]]; congruence. }
  apply (all_runs_intro _ _ cloc_eq cop alike alike_refl alike_sym alike_trans alike_op cop_comm).
  - apply safe_app; [exact SF|]. apply safe_app; [exact S3|exact S4].
  - intros m' Hm' i row Hi. apply alike_row. specialize (Hm' (CRow, i)). rewrite !run_app in Hm'. fold m1 in Hm'. fold m2 in Hm'.
    assert (Hin : i < n). { assert (X : i < length (map (fun '(i, row) => nunique (nsort (row ++ append (concat evs2) i))) (combine (seq 0 (length (repeat (@nil nat) n))) (repeat [] n)))) by (apply nth_error_Some; congruence).
      rewrite map_length, combine_length, seq_length, repeat_length in X. lia. }
    rewrite (run_pfor _ _ cloc_eq cop _ _ _ _ m2 Q4), Nat.sub_0_r in Hm'. destruct (dedup_runs m2 (append (concat evs2)) M3 n ltac:(lia)) as [_ D2].
    rewrite (D2 i Hin) in Hm'. rewrite nth_error_map in Hi. rewrite repeat_length in Hi.
    rewrite (nth_error_nth' _ (0, [])) in Hi by (rewrite combine_length, seq_length, repeat_length; lia). rewrite combine_nth in Hi by (now rewrite seq_length, repeat_length).
    rewrite seq_nth in Hi by exact Hin. rewrite nth_repeat in Hi. cbn [option_map List.app Nat.add] in Hi. injection Hi as <-. exact Hm'.
Qed.

End P.

Lemma coll_task_runs : forall {F} (O : fops F) (E : env) (K : platform F) (ordered : bool) (t : @tree F) (sizes : list F) sch1 sch2 (old g : list (list nat)) q m,
  env_ok E -> reachable O E t -> reorders sch1 -> reorders sch2 ->
  compute_cgraph O E K ordered t sizes sch1 sch2 old = Ok g -> coll_mem t sizes m ->
  (forall k, k < length (coll_leaves (t_nodes t)) -> m (CAdd, k) = XL []) -> (forall i, i < length (t_codes t) -> m (CRow, i) = XL (nth i old [])) ->
  coll_prog O E K (match old with [] => true | _ => false end) ordered (t_box t) (length (t_codes t)) (length (t_nodes t)) (length sizes) (length (coll_leaves (t_nodes t))) q ->
  ParBag.all_runs cloc (cval F) cloc_eq cop q m (fun m' => forall i row, nth_error g i = Some row -> m' (CRow, i) = XR row).
Proof.
  intros F O E K ordered t sizes sch1 sch2 old g q m HE Ht R1 R2 Hg Hm Ha Hr Hq. pose proof (reachable_inv O E HE t Ht) as Hinv.
  assert (HP : length (t_perm t) = length (t_codes t)) by (pose proof (inv_perm _ _ _ Hinv) as P; apply Permutation_length in P; now rewrite seq_length in P).
  exact (coll_runs O E K ordered t sizes (inv_ncols _ _ _ Hinv) (inv_cols _ _ _ Hinv) HP sch1 sch2 old g q m R1 R2 (nparts_codes O E t Hinv) Hg Hm Ha Hr Hq).
Qed.
