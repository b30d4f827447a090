(** Division of the particles among the CPU and the devices, and where the results are written. *)
From Coq Require Import List Arith NArith ZArith Lia Bool Permutation.
From Verif Require Import Base Config Morton Build TreeSpec BuildSpec BuildProofs BuildProps FOps NodeProps Tree TreeInv TreeProofs TreeSafe
  Kernels Force TravProofs KernLoops ForceGen ForceOut ForceTop Gpu GpuKernel.
Import ListNotations.
Local Open Scope nat_scope.

Notation cn_range := (fun x : cnode => (c_begin x, c_end x)).

Lemma tiles_le : forall l b e, tiles b l e -> b <= e.
Proof. induction l as [|[x y] l IH]; intros b e H; cbn [tiles] in H; [lia|]. destruct H as (-> & L & H). specialize (IH _ _ H). lia. Qed.

Lemma tiles_cut : forall (l : list cnode) k b e, tiles b (map cn_range l) e -> k <= length l ->
  exists m, tiles b (map cn_range (firstn k l)) m /\ tiles m (map cn_range (skipn k l)) e /\
    m = match nth_error l k with Some cn => c_begin cn | None => e end.
Proof.
  induction l as [|x l IH]; intros [|k] b e H Hk; cbn [length] in Hk; try lia.
  - exists b. cbn in *. auto.
  - exists b. cbn in *. destruct H as (<- & H). repeat split; tauto.
  - cbn [map tiles] in H. destruct H as (L0 & L & H). destruct (IH k _ _ H ltac:(lia)) as (m & H1 & H2 & H3).
    exists m. cbn [firstn skipn map tiles nth_error]. auto.
Qed.

Lemma tiles_begins : forall l b e, tiles b l e -> sorted_codes (map (fun x => N.of_nat (fst x)) l).
Proof.
  assert (B : forall l b e, tiles b l e -> forall x, In x l -> b <= fst x).
  { induction l as [|[x y] l IH]; intros b e H z Hz; [destruct Hz|]. cbn [tiles] in H. destruct H as (-> & L & H).
    destruct Hz as [<-|Hz]; [reflexivity|]. specialize (IH _ _ H _ Hz). lia. }
  induction l as [|[x y] l IH]; intros b e H i j u v Hij Hi Hj; [destruct i; discriminate|].
  cbn [tiles map] in *. destruct H as (-> & L & H).
  destruct i as [|i], j as [|j]; cbn [nth_error fst] in *; [assert (u = v) by congruence; lia| |lia|].
  - injection Hi as <-. rewrite nth_error_map in Hj. destruct (nth_error l j) as [z|] eqn:Ez; [|discriminate]. injection Hj as <-.
    apply nth_error_In in Ez. specialize (B _ _ _ H _ Ez). lia.
  - apply (IH _ _ H i j); auto. lia.
Qed.

(** * The indices *)
Lemma consecutive : forall fsize ts idx, cuda_checks fsize ts idx = Ok tt -> run_cuda idx = true ->
  forall b e, hd_error idx = Some b -> last idx 0%N = e -> tiles (N.to_nat b) (combine (map N.to_nat idx) (tl (map N.to_nat idx))) (N.to_nat e).
Proof.
  intros fsize ts idx H HR. unfold cuda_checks in H. destruct (existsb _ _); [discriminate|]. revert H HR. unfold run_cuda.
  induction idx as [|a idx IH]; intros H HR b e Hb He; [discriminate|]. injection Hb as ->.
  destruct idx as [|a' idx]; [cbn in *; congruence|].
  cbn [combine tl map] in *. change (workloads (b :: a' :: idx)) with (usub 64 a' b :: workloads (a' :: idx)) in HR. cbn [foldM] in H. cbn [forallb] in HR. apply andb_true_iff in HR as [HR1 HR2].
  destruct (N.ltb_spec (uint_max - 31) (usub 64 a' b)); [discriminate|].
  unfold to_int at 1 2 in H. destruct (N.ltb_spec int_max b); [discriminate|]. destruct (N.ltb_spec int_max a'); [discriminate|].
  cbn [bind] in H. destruct (to_int ts) as [?| |]; [|discriminate|discriminate]. cbn [bind] in H.
  assert (L : (b < a')%N).
  { destruct (N.ltb_spec b a'); [assumption|]. exfalso. unfold usub, wrap, uint_max, int_max, cuda_min_size in *.
    change (2 ^ 64)%N with 18446744073709551616%N in *.
    destruct (N.eq_dec a' b) as [->|Hne].
    - replace (b + 18446744073709551616 - b)%N with 18446744073709551616%N in HR1 by lia.
      vm_compute in HR1. discriminate.
    - rewrite (N.mod_small (a' + _ - _)) in H0 by lia. lia. }
  cbn [tiles]. split; [reflexivity|]. split; [lia|]. apply IH; auto.
Qed.

Section Out.

Context {F : Type}.
Variable O : fops F.
Variable E : env.
Variable K : platform F.
Hypothesis HE : env_ok E.

Notation c := (e_cfg E).
Notation tree_inv := (tree_inv O E).

Lemma split_node_spec : forall t v, tree_inv t ->
  exists k b, split_node (N.of_nat (nparts t)) (crit_begins t) v = Ok (k, N.of_nat b) /\ k <= length (t_crit t) /\
    b <= length (t_codes t) /\ tiles 0 (map cn_range (slice (t_crit t) 0 k)) b /\
    (forall cn, In cn (slice (t_crit t) 0 k) -> (N.of_nat (c_begin cn) < v)%N) /\
    ((v <= N.of_nat b)%N \/ b = length (t_codes t)).
Proof.
  intros t v Ht. pose proof (crit_tiles O E t Ht) as HT. unfold split_node, crit_begins.
  set (begins := map _ (t_crit t)).
  assert (Hs : sorted_codes begins).
  { apply tiles_begins in HT. rewrite map_map in HT. exact HT. }
  assert (Lb : length begins = length (t_crit t)) by (unfold begins; now rewrite map_length).
  pose proof (cntf_le (bpred false 0 v) begins) as Hc. set (k := cntf (bpred false 0 v) begins) in *.
  rewrite bsearch_spec; [|exact Hs|lia|lia|fold k; lia]. cbn [bind]. fold k.
  destruct (tiles_cut (t_crit t) k 0 _ HT ltac:(lia)) as (b & H1 & H2 & H3).
  exists k, b. split; [|split; [lia|]; split; [now apply tiles_le in H2|]; split; [|split]].
  - f_equal. f_equal. rewrite nparts_codes with (O := O) (E := E) by exact Ht. unfold begins. rewrite nth_error_map.
    destruct (nth_error (t_crit t) k) as [cn|]; cbn; now subst.
  - unfold slice. rewrite Nat.sub_0_r. cbn [skipn]. exact H1.
  - intros cn Hcn. unfold slice in Hcn. rewrite Nat.sub_0_r in Hcn. cbn [skipn] in Hcn. apply In_nth_error in Hcn as [i Hi].
    assert (Li : i < k) by (assert (i < length (firstn k (t_crit t))) by (apply nth_error_Some; congruence); rewrite firstn_length in *; lia).
    assert (Hi' : nth_error begins i = Some (N.of_nat (c_begin cn))).
    { unfold begins. rewrite nth_error_map. rewrite <- (firstn_skipn k (t_crit t)), nth_error_app1 by (rewrite firstn_length; lia). now rewrite Hi. }
    apply (cntf_sorted (bpred false 0 v) begins Hs (bpred_down false 0 v) i _ Hi') in Li. unfold bpred in Li. rewrite N.shiftr_0_r in Li.
    now apply N.ltb_lt.
  - destruct (nth_error (t_crit t) k) as [cn|] eqn:En; [left|now right]. subst b.
    assert (Hi' : nth_error begins k = Some (N.of_nat (c_begin cn))) by (unfold begins; now rewrite nth_error_map, En).
    pose proof (cntf_sorted (bpred false 0 v) begins Hs (bpred_down false 0 v) k _ Hi') as W. fold k in W.
    unfold bpred in W. rewrite N.shiftr_0_r in W. destruct (N.ltb_spec (N.of_nat (c_begin cn)) v); [|assumption].
    destruct W as [_ W]. specialize (W eq_refl). lia.
Qed.

(** * Writing the results *)
Section Write.

Hypothesis HK : benign_shift K.
Variable n : nat.
Variable p : nat -> nat.
Variable dest : nat -> outcome nat.
Hypothesis Hdest : forall i, i < n -> dest i = Ok (p i) /\ p i < n.
Hypothesis Hinj : forall i i', i < n -> i' < n -> p i = p i' -> i = i'.
Variable q : quant.
Variable t : @tree F.
Hypothesis Ht : tree_inv t.
Hypothesis Hn : n = length (t_codes t).
Variables mac_value G eps2 pad : F.
Hypothesis Hsmall : (N.of_nat n + N.of_nat (match e_simd E with Some b => b | None => 1 end) <= diff_max)%N.

Notation nv := (nvecs_res E q).

Definition task_range (x : @task F) : nat * nat :=
  match x with inl cn => (c_begin cn, c_end cn) | inr (b, e, _) => (b, e) end.
Definition task_good (x : @task F) : Prop :=
  match x with
  | inl cn => In cn (t_crit t)
  | inr (b, e, rows) => b <= e /\ e <= n /\ length rows = e - b /\ Forall (fun r : @rrow F => length (fst r ++ snd r) = nv) rows
  end.
Definition task_val (x : @task F) (i : nat) : list F :=
  match x with
  | inl _ => row_at O E K q t mac_value G eps2 pad i
  | inr (b, e, rows) => match nth_error rows (i - b) with Some r => fst r ++ snd r | None => [] end
  end.
Notation inr_ i x := (fst (task_range x) <= i < snd (task_range x)).

Lemma task_bound : forall x, task_good x -> snd (task_range x) <= n.
Proof.
  clear Hdest Hinj Hsmall dest p. intros [cn|[[b e] rows]] H; cbn in H |- *; [|tauto].
  destruct (crit_node O E t cn Ht H) as (_ & _ & _ & _ & _ & Hc). rewrite <- Hn in Hc. lia.
Qed.

Lemma task_run_ok : forall x out, task_good x -> out_ok n nv out ->
  exists out', task_run O E K q t mac_value G eps2 pad dest out x = Ok out' /\ out_ok n nv out' /\
  (forall j i, j < nv -> inr_ i x -> nth_error (nth j out' []) (p i) = nth_error (task_val x i) j) /\
  (forall j i', (forall i, inr_ i x -> i' <> p i) -> nth_error (nth j out' []) i' = nth_error (nth j out []) i') /\
  (forall j, length (nth j out' []) = length (nth j out [])).
Proof.
  intros [cn|[[b e] rows]] out Hx Ho; cbn [task_run task_good task_range task_val fst snd] in *.
  - apply (crit_run_ok O E K HE HK n p dest Hdest Hinj q t Ht Hn mac_value G eps2 pad Hsmall); assumption.
  - destruct Hx as (L1 & L2 & L3 & Hs).
    destruct (write_out_ok n p dest Hdest Hinj nv rows b (e - b) out Hs) as (out' & E1 & O1 & V & U & L); try lia; [exact Ho|].
    exists out'. split; [exact E1|]. split; [exact O1|]. split; [|split; [|exact L]].
    + intros j i Hj Hi. destruct (nth_error rows (i - b)) as [r|] eqn:Hr; [|apply nth_error_None in Hr; lia].
      replace i with (b + (i - b)) by lia. apply V; [exact Hj|lia|exact Hr].
    + intros j i' Hi'. apply U. intros k Hk. apply Hi'. lia.
Qed.

Lemma task_runs_ok : forall l out, (forall x, In x l -> task_good x) ->
  (forall x y i, In x l -> In y l -> inr_ i x -> inr_ i y -> x = y) -> out_ok n nv out ->
  exists out', foldM (task_run O E K q t mac_value G eps2 pad dest) l out = Ok out' /\ out_ok n nv out' /\
  (forall j i x, j < nv -> In x l -> inr_ i x -> nth_error (nth j out' []) (p i) = nth_error (task_val x i) j) /\
  (forall j i', (forall i x, In x l -> inr_ i x -> i' <> p i) -> nth_error (nth j out' []) i' = nth_error (nth j out []) i') /\
  (forall j, length (nth j out' []) = length (nth j out [])).
Proof.
  induction l as [|z l IH]; intros out Hg Hu Ho; cbn [foldM].
  - exists out. split; [reflexivity|]. split; [exact Ho|]. split; [intros j i x _ []|]. split; reflexivity.
  - destruct (task_run_ok z out (Hg z (or_introl eq_refl)) Ho) as (o1 & -> & O1 & V1 & U1 & L1). cbn [bind].
    destruct (IH o1 (fun x H => Hg x (or_intror H)) (fun x y i Hx Hy => Hu x y i (or_intror Hx) (or_intror Hy)) O1) as (o2 & -> & O2 & V2 & U2 & L2).
    exists o2. split; [reflexivity|]. split; [exact O2|]. split; [|split].
    + intros j i x Hj Hx Hi.
      destruct (existsb (fun y => (fst (task_range y) <=? i) && (i <? snd (task_range y))) l) eqn:Ex.
      * apply existsb_exists in Ex as (y & Hy & Ey). apply andb_true_iff in Ey as [Y1 Y2]. apply Nat.leb_le in Y1. apply Nat.ltb_lt in Y2.
        rewrite (Hu x y i Hx (or_intror Hy) Hi (conj Y1 Y2)). now apply V2.
      * assert (N : forall y, In y l -> ~ inr_ i y).
        { intros y Hy Hi'. assert (X : existsb (fun y => (fst (task_range y) <=? i) && (i <? snd (task_range y))) l = true); [|congruence].
          apply existsb_exists. exists y. split; [exact Hy|]. apply andb_true_iff. split; [apply Nat.leb_le|apply Nat.ltb_lt]; lia. }
        destruct Hx as [<-|Hx]; [|now apply N in Hx]. rewrite U2; [now apply V1|].
        intros i2 y Hy Hi2 Hp. pose proof (task_bound z (Hg z (or_introl eq_refl))). pose proof (task_bound y (Hg y (or_intror Hy))).
        apply Hinj in Hp; [|lia|lia]. subst i2. exact (N y Hy Hi2).
    + intros j i' Hi'. rewrite U2, U1; [reflexivity| |]; intros i; [|intros y Hy]; intros; eapply Hi'; eauto; [now left|now right].
    + intros j. now rewrite L2, L1.
Qed.

End Write.

End Out.
