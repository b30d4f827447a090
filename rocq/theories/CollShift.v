(** When the shift of the code ranges is well defined. *)
From Coq Require Import List Arith ZArith NArith Bool Lia Permutation Sorted.
From Verif Require Import Base Config Morton MortonProofs CodesProofs Build TreeSpec FOps Disc NodeProps Tree TreeInv TreeProofs NodeGeom Kernels Coll CollSearch CollProofs CollCover CollR CollProps.
Import ListNotations.
Local Open Scope nat_scope.

Lemma bind_ext : forall {A B} (x : outcome A) (f g : A -> outcome B), (forall a, x = Ok a -> f a = g a) -> bind x f = bind x g.
Proof. intros A B [a| |] f g H; cbn [bind]; auto. Qed.

Section Shift.

Context {F : Type}.
Variable O : fops F.
Variable E : env.
Variables K K' : platform F.
Notation c := (e_cfg E).
Notation cb := (cbitsc c).
Notation w := (width c).
Notation half := (fdiv O (fofZ O 1%Z) (fofZ O 2%Z)).
Notation nd_t := (node (props F)).

Lemma range_same : forall code level, (level < cb)%N -> node_range E K code level = node_range E K' code level.
Proof.
  intros code level H. unfold node_range. destruct (shl w code ((cb - level) * dimN c)) as [mn| |]; [|reflexivity|reflexivity]. cbn [bind].
  assert (0 < (cb - level) * dimN c)%N by (assert (0 < dimN c)%N by (destruct c; reflexivity); apply N.mul_pos_pos; lia).
  assert (HW : (w - (cb - level) * dimN c <? w)%N = true) by (apply N.ltb_lt; clear - H0; assert (0 < w)%N by (destruct c; reflexivity); lia). now rewrite HW.
Qed.

Lemma bsearch_ext : forall f g, (forall k, f k = g k) -> forall fuel a b, bsearch f fuel a b = bsearch g fuel a b.
Proof.
  intros f g H. induction fuel as [|fuel IH]; intros a b; cbn [bsearch]; [reflexivity|].
  destruct (b =? 0); [reflexivity|]. rewrite H. destruct (g (a + b / 2)) as [[|]| |]; cbn [bind]; auto.
Qed.

Variable leaves : list nd_t.
Hypothesis Hl : forall nd, In nd leaves -> (n_level nd < cb)%N.

Lemma leaves_same : forall s_code level, (level < cb)%N -> find_leaves E K leaves s_code level = find_leaves E K' leaves s_code level.
Proof.
  intros s_code level H. unfold find_leaves. rewrite (range_same _ _ H). destruct (node_range E K' s_code level) as [r| |]; [|reflexivity|reflexivity]. cbn [bind]. cbv zeta.
  assert (HR : forall {A} (h : N * N -> outcome A) k, (do n <- rd leaves k; do r <- node_range E K (n_code n) (n_level n); h r) =
                                 (do n <- rd leaves k; do r <- node_range E K' (n_code n) (n_level n); h r)).
  { intros A h k. destruct (rd leaves k) as [nd| |] eqn:R; [|reflexivity|reflexivity]. cbn [bind]. apply rd_Ok in R. rewrite range_same; [reflexivity|].
    apply Hl. eapply nth_error_In. exact R. }
  rewrite (bsearch_ext _ (fun k => do n <- rd leaves k; do r0 <- node_range E K' (n_code n) (n_level n); Ok (snd r0 <? fst r)%N)); [|intros k; apply HR].
  destruct (bsearch _ _ 0 _) as [b| |]; [|reflexivity|reflexivity]. cbn [bind].
  rewrite (bsearch_ext _ (fun k => do n <- rd leaves k; do r0 <- node_range E K' (n_code n) (n_level n); Ok (negb (snd r <? fst r0)%N))); [reflexivity|intros k; apply HR].
Qed.

Lemma zoom_same : forall lcode llevel vcode fuel al, (al < cb)%N ->
  zoom E K leaves lcode llevel vcode fuel al = zoom E K' leaves lcode llevel vcode fuel al.
Proof.
  intros lcode llevel vcode. induction fuel as [|fuel IH]; intros al Hal; cbn [zoom];
    apply bind_ext; intros a _; apply bind_ext; intros one _; apply bind_ext; intros fits _; (destruct fits; [reflexivity|]);
    rewrite (leaves_same _ _ Hal); apply bind_ext; intros r _; (destruct (fst r =? snd r); [|reflexivity]); [reflexivity|apply IH; lia].
Qed.

(** [b] halved [k] times. *)
Fixpoint halved (k : nat) (b : F) : F := match k with 0 => b | S k => halved k (fmul O b half) end.

Lemma level_bound : forall fuel r s cur k, k <= fuel -> fle O (halved k (fmul O cur half)) s = true -> k < fuel ->
  (level_loop O fuel r s cur <= r + N.of_nat k)%N.
Proof.
  induction fuel as [|fuel IH]; intros r s cur k Hk Hle Hlt; [lia|]. cbn [level_loop].
  destruct (fle O (fmul O cur half) s) eqn:B; [lia|]. destruct k as [|k].
  - cbn [halved] in Hle. congruence.
  - cbn [halved] in Hle. specialize (IH (r + 1)%N s (fmul O cur half) k ltac:(lia) Hle ltac:(lia)). lia.
Qed.

End Shift.

Section Graph.

Context {F : Type}.
Variable O : fops F.
Variable E : env.
Notation c := (e_cfg E).
Notation cb := (cbitsc c).
Variable t : @tree F.
Hypothesis Hinv : tree_inv O E t.
Notation n := (length (t_codes t)).
Notation leaves := (coll_leaves (t_nodes t)).

Lemma mapM_ext_in : forall {A B} (f g : A -> outcome B) l, (forall a, In a l -> f a = g a) -> mapM f l = mapM g l.
Proof.
  intros A B f g l. induction l as [|a l IH]; intros H; cbn [mapM]; [reflexivity|].
  rewrite (H a (or_introl eq_refl)), IH; [reflexivity|]. intros x Hx. apply H. now right.
Qed.

(** No cell of the maximum depth is involved: all platforms give the same outcome. *)
Lemma platform_free : forall K K' ordered sizes sch1 sch2 old,
  (forall nd, In nd (t_nodes t) -> n_children nd = 0 -> (n_level nd < cb)%N) ->
  (forall s, In s sizes -> feq O s (fofZ O 0%Z) = true \/ exists k, (1 <= k <= N.to_nat cb)%nat /\ fle O (halved O k (t_box t)) s = true) ->
  compute_cgraph O E K ordered t sizes sch1 sch2 old = compute_cgraph O E K' ordered t sizes sch1 sch2 old.
Proof.
  intros K K' ordered sizes sch1 sch2 old HL HS.
  assert (HL' : forall nd, In nd leaves -> (n_level nd < cb)%N).
  { intros nd Hnd. unfold coll_leaves in Hnd. apply filter_In in Hnd. destruct Hnd as [H1 H2]. apply Nat.eqb_eq in H2. auto. }
  assert (HX : extras O E K ordered t sizes leaves = extras O E K' ordered t sizes leaves).
  2: { unfold compute_cgraph. apply bind_ext. intros u1 _. cbv zeta. apply bind_ext. intros u2 _. now rewrite HX. }
  unfold extras. rewrite (mapM_ext_in _ (fun lnode => mapM (extra O E K' ordered t sizes leaves lnode) (seq (n_begin lnode) (n_end lnode - n_begin lnode)))); [reflexivity|].
  intros lnode Hln. apply mapM_ext_in. intros p _. unfold extra. apply bind_ext. intros s Hs.
  destruct (negb (ffin O s) || flt O s (fofZ O 0)); [reflexivity|].
  assert (Hin : In s sizes).
  { unfold aabb_of in Hs. apply bind_Ok in Hs. destruct Hs as (i & _ & Hs). apply rd_Ok in Hs. eapply nth_error_In. exact Hs. }
  destruct (HS s Hin) as [Z|(k & Hk & Hle)]; [now rewrite Z|].
  destruct (feq O s (fofZ O 0)); [reflexivity|].
  apply bind_ext. intros xs _. apply bind_ext. intros vs _. apply bind_ext. intros pc _. apply bind_ext. intros st _.
  destruct (negb st); [reflexivity|]. cbv zeta.
  assert (Hlev : (size_to_level O E s (t_box t) < cb)%N).
  { unfold size_to_level. destruct k as [|k]; [lia|]. cbn [halved] in Hle.
    pose proof (level_bound O (N.to_nat cb) 0 s (t_box t) k ltac:(lia) Hle ltac:(lia)). lia. }
  f_equal. apply mapM_ext_in. intros v _. rewrite (zoom_same E K K' leaves HL' _ _ v _ _ Hlev). reflexivity.
Qed.

(** Then there is no undefined behaviour even if the shift is. *)
Lemma defined : forall K ordered sizes sch1 sch2 old, disc_total O E -> reorders sch1 -> reorders sch2 -> n <= length sizes -> representable t ->
  (forall nd, In nd (t_nodes t) -> n_children nd = 0 -> (n_level nd < cb)%N) ->
  (forall s, In s sizes -> feq O s (fofZ O 0%Z) = true \/ exists k, (1 <= k <= N.to_nat cb)%nat /\ fle O (halved O k (t_box t)) s = true) ->
  (exists g, compute_cgraph O E K ordered t sizes sch1 sch2 old = Ok g) \/ compute_cgraph O E K ordered t sizes sch1 sch2 old = Throw InvalidArgument.
Proof.
  intros K ordered sizes sch1 sch2 old HD R1 R2 Hs Hrep HL HS.
  rewrite (platform_free K (mkPlatform None (fun _ _ => Ok 0%N)) ordered sizes sch1 sch2 old HL HS).
  apply (outcomes O E _ t Hinv ordered sizes sch1 sch2 old); auto. left. reflexivity.
Qed.

End Graph.
