(** Where the results of the force computation are written. *)
From Coq Require Import List Arith NArith ZArith Lia Bool Permutation.
From Verif Require Import Base Config Morton Build TreeSpec BuildProofs BuildProps FOps NodeProps Tree TreeInv TreeProofs TreeSafe Kernels Force
  TravProofs KernLoops ForceGen.
Import ListNotations.
Local Open Scope nat_scope.

Lemma set_nth_at : forall {A} (l : list A) i a k, i < length l ->
  nth_error (set_nth l i a) k = if k =? i then Some a else nth_error l k.
Proof.
  intros A l i a k Hi. destruct (Nat.eqb_spec k i) as [->|H]; [now apply nth_error_set_nth_same|].
  apply nth_error_set_nth_other. congruence.
Qed.

Lemma tiles_unique : forall {A} (f : A -> nat * nat) l b e x y i, tiles b (map f l) e -> In x l -> In y l ->
  fst (f x) <= i < snd (f x) -> fst (f y) <= i < snd (f y) -> x = y.
Proof.
  intros A f. 
  assert (B : forall l b e x, tiles b (map f l) e -> In x l -> b <= fst (f x)).
  { induction l as [|z l IH]; intros b e x H Hx; [destruct Hx|]. cbn [map tiles] in H. destruct (f z) as [z1 z2] eqn:Ez.
    cbn [tiles] in H. destruct H as (H1 & H2 & H3). destruct Hx as [<-|Hx]; [rewrite Ez; cbn; lia|]. specialize (IH _ _ _ H3 Hx). lia. }
  induction l as [|z l IH]; intros b e x y i H Hx Hy Rx Ry; [destruct Hx|]. cbn [map] in H. destruct (f z) as [z1 z2] eqn:Ez.
  cbn [tiles] in H. destruct H as (H1 & H2 & H3). destruct Hx as [<-|Hx], Hy as [<-|Hy].
  - reflexivity.
  - pose proof (B _ _ _ _ H3 Hy). rewrite Ez in Rx. cbn in Rx. lia.
  - pose proof (B _ _ _ _ H3 Hx). rewrite Ez in Ry. cbn in Ry. lia.
  - eapply IH; eauto.
Qed.

Lemma tiles_find : forall {A} (f : A -> nat * nat) l b e i, tiles b (map f l) e -> b <= i < e ->
  exists x, In x l /\ fst (f x) <= i < snd (f x).
Proof.
  intros A f. induction l as [|z l IH]; intros b e i H Hi; cbn [map tiles] in H; [lia|]. destruct (f z) as [z1 z2] eqn:Ez.
  cbn [tiles] in H. destruct H as (H1 & H2 & H3). destruct (Nat.lt_ge_cases i z2) as [L|L].
  - exists z. rewrite Ez. cbn. split; [now left|lia].
  - destruct (IH z2 e i H3 ltac:(lia)) as (x & Hx & R). exists x. split; [now right|exact R].
Qed.

Section Out.

Context {F : Type}.
Variable O : fops F.
Variable E : env.
Variable K : platform F.
Hypothesis HE : env_ok E.
Hypothesis HK : benign_shift K.

Notation c := (e_cfg E).

(** Destinations: particle [i] goes to element [p i]. *)
Variable n : nat.
Variable p : nat -> nat.
Variable dest : nat -> outcome nat.
Hypothesis Hdest : forall i, i < n -> dest i = Ok (p i) /\ p i < n.
Hypothesis Hinj : forall i i', i < n -> i' < n -> p i = p i' -> i = i'.

Definition out_ok (nv : nat) (out : list (list F)) : Prop := length out = nv /\ Forall (fun col => n <= length col) out.

Lemma write_col : forall nv (res : list (@rrow F)) j b, j < nv -> Forall (fun r => length (fst r ++ snd r) = nv) res ->
  forall len k0 (col : list F), b + k0 + len <= n -> k0 + len <= length res -> n <= length col ->
  exists col', foldM (fun col k => do r <- rd res k; do x <- rd (fst r ++ snd r) j; do i <- dest (b + k); wr col i x) (seq k0 len) col
    = Ok col' /\ length col' = length col /\
  (forall k r, k0 <= k < k0 + len -> nth_error res k = Some r -> nth_error col' (p (b + k)) = nth_error (fst r ++ snd r) j) /\
  (forall i, (forall k, k0 <= k < k0 + len -> i <> p (b + k)) -> nth_error col' i = nth_error col i).
Proof.
  intros nv res j b Hj Hs. induction len as [|len IH]; intros k0 col Hb Hl Hc.
  - exists col. cbn [seq foldM]. split; [reflexivity|]. split; [reflexivity|]. split; [intros; lia|reflexivity].
  - cbn [seq foldM]. destruct (rd_lt res k0 ltac:(lia)) as [r Hr]. rewrite Hr. cbn [bind]. apply rd_Ok in Hr.
    assert (Lr : length (fst r ++ snd r) = nv) by (rewrite Forall_forall in Hs; apply Hs; eapply nth_error_In; eauto).
    destruct (rd_lt (fst r ++ snd r) j ltac:(lia)) as [x Hx]. rewrite Hx. cbn [bind]. apply rd_Ok in Hx.
    destruct (Hdest (b + k0) ltac:(lia)) as [-> Hp]. cbn [bind]. unfold wr at 1.
    destruct (Nat.ltb_spec (p (b + k0)) (length col)); [|lia]. cbn [bind].
    destruct (IH (S k0) (set_nth col (p (b + k0)) x)) as (col' & E1 & L & V & U); [lia|lia|rewrite set_nth_length; lia|].
    rewrite set_nth_length in L. exists col'. split; [exact E1|]. split; [exact L|]. split.
    + intros k r' Hk Hr'. destruct (Nat.eq_dec k k0) as [->|Hne].
      * rewrite U.
        -- rewrite set_nth_at by lia. rewrite Nat.eqb_refl. assert (r' = r) by congruence. subst r'. now rewrite Hx.
        -- intros k Hk' Heq. apply Hinj in Heq; lia.
      * apply V; [lia|exact Hr'].
    + intros i Hi. rewrite U by (intros; apply Hi; lia). rewrite set_nth_at by lia.
      destruct (Nat.eqb_spec i (p (b + k0))) as [->|]; [|reflexivity]. exfalso. apply (Hi k0); [lia|reflexivity].
Qed.

Lemma write_out_ok : forall nv (res : list (@rrow F)) b len out, Forall (fun r => length (fst r ++ snd r) = nv) res ->
  b + len <= n -> len <= length res -> out_ok nv out -> (N.of_nat n <= diff_max)%N ->
  exists out', write_out dest b len nv res out = Ok out' /\ out_ok nv out' /\
  (forall j k r, j < nv -> k < len -> nth_error res k = Some r ->
     nth_error (nth j out' []) (p (b + k)) = nth_error (fst r ++ snd r) j) /\
  (forall j i, (forall k, k < len -> i <> p (b + k)) -> nth_error (nth j out' []) i = nth_error (nth j out []) i) /\
  (forall j, length (nth j out' []) = length (nth j out [])).
Proof.
  intros nv res b len out Hs Hb Hl [Lo Ho] Hd. unfold write_out.
  destruct (N.ltb_spec diff_max (N.of_nat b)); [lia|]. cbn [bind].
  set (body := fun j => do col <- rd out j; _).
  assert (B : forall j, j < nv -> exists col', body j = Ok col' /\ length col' = length (nth j out []) /\
     (forall k r, k < len -> nth_error res k = Some r -> nth_error col' (p (b + k)) = nth_error (fst r ++ snd r) j) /\
     (forall i, (forall k, k < len -> i <> p (b + k)) -> nth_error col' i = nth_error (nth j out []) i)).
  { intros j Hj. unfold body. destruct (rd_lt out j ltac:(lia)) as [col Hc]. rewrite Hc. cbn [bind]. apply rd_Ok in Hc.
    rewrite (nth_error_nth _ _ [] Hc).
    assert (n <= length col) by (rewrite Forall_forall in Ho; apply Ho; eapply nth_error_In; eauto).
    destruct (write_col nv res j b Hj Hs len 0 col) as (col' & -> & L & V & U); [lia|lia|lia|].
    exists col'. split; [reflexivity|]. split; [exact L|]. split.
    - intros k r Hk. apply V. lia.
    - intros i Hi. apply U. intros k Hk. apply Hi. lia. }
  assert (M : forall m j0, j0 + m <= nv -> exists cols, mapM body (seq j0 m) = Ok cols /\ length cols = m /\
     forall j, j < m -> body (j0 + j) = Ok (nth j cols [])).
  { induction m as [|m IH]; intros j0 Hm; cbn [seq mapM]; [exists []; split; [reflexivity|]; split; [reflexivity|]; intros; lia|].
    destruct (B j0 ltac:(lia)) as (col & Hc & _). rewrite Hc. cbn [bind]. destruct (IH (S j0) ltac:(lia)) as (cols & -> & L & V). cbn [bind].
    exists (col :: cols). split; [reflexivity|]. split; [cbn [length]; lia|]. intros [|j] Hj; [now rewrite Nat.add_0_r|].
    cbn [nth]. rewrite <- V by lia. f_equal. lia. }
  destruct (M nv 0 ltac:(lia)) as (out' & E1 & L' & V). cbn [Nat.add] in V. exists out'. split; [exact E1|].
  assert (C : forall j, j < nv -> length (nth j out' []) = length (nth j out []) /\
     (forall k r, k < len -> nth_error res k = Some r -> nth_error (nth j out' []) (p (b + k)) = nth_error (fst r ++ snd r) j) /\
     (forall i, (forall k, k < len -> i <> p (b + k)) -> nth_error (nth j out' []) i = nth_error (nth j out []) i)).
  { intros j Hj. destruct (B j Hj) as (col & Hc & H1). rewrite (V j Hj) in Hc. injection Hc as ->. exact H1. }
  split.
  { split; [exact L'|]. apply Forall_forall. intros col Hcol. apply (In_nth _ _ []) in Hcol as (j & Hj & <-).
    destruct (C j ltac:(lia)) as [-> _]. rewrite Forall_forall in Ho. apply Ho, nth_In. lia. }
  split; [intros j k r Hj; now apply C|]. split.
  - intros j i Hi. destruct (Nat.lt_ge_cases j nv) as [Lj|Lj]; [now apply C|]. now rewrite !nth_overflow by lia.
  - intros j. destruct (Nat.lt_ge_cases j nv) as [Lj|Lj]; [now apply C|]. now rewrite !nth_overflow by lia.
Qed.

Variable q : quant.
Variable t : @tree F.
Hypothesis Ht : tree_inv O E t.
Hypothesis Hn : n = length (t_codes t).
Variables mac_value G eps2 pad : F.

Notation nv := (nvecs_res E q).
Notation range := (fun x : cnode => (c_begin x, c_end x)).

(** The result for particle [i]: the one computed by the critical node that contains it. *)
Definition row_at (i : nat) : list F :=
  match find (fun x : cnode => (c_begin x <=? i) && (i <? c_end x)) (t_crit t) with
  | Some cn => match crit_rows O E K q t mac_value G eps2 pad cn with
               | Ok res => match nth_error res (i - c_begin cn) with Some r => fst r ++ snd r | None => [] end
               | _ => []
               end
  | None => []
  end.

Lemma row_at_crit : forall cn res k r, In cn (t_crit t) -> crit_rows O E K q t mac_value G eps2 pad cn = Ok res ->
  c_begin cn + k < c_end cn -> nth_error res k = Some r -> row_at (c_begin cn + k) = fst r ++ snd r.
Proof.
  intros cn res k r Hin Hres Hk Hr. clear Hdest Hinj Hn dest p n. unfold row_at.
  destruct (find _ _) as [cn'|] eqn:Ef.
  - apply find_some in Ef as [H1 H2]. apply andb_true_iff in H2 as [H2 H3]. apply Nat.leb_le in H2. apply Nat.ltb_lt in H3.
    assert (cn' = cn) as ->.
    { apply (tiles_unique range _ _ _ cn' cn (c_begin cn + k) (crit_tiles O E t Ht) H1 Hin); cbn [fst snd]; lia. }
    rewrite Hres. replace (c_begin cn + k - c_begin cn) with k by lia. now rewrite Hr.
  - pose proof (find_none _ _ Ef cn Hin) as H. cbn beta in H. apply andb_false_iff in H as [H|H].
    + apply Nat.leb_gt in H. lia.
    + apply Nat.ltb_ge in H. lia.
Qed.

(** Enough room in the index types. *)
Hypothesis Hsmall : (N.of_nat n + N.of_nat (match e_simd E with Some b => b | None => 1 end) <= diff_max)%N.

Lemma psize_total : forall m, m <= n -> exists ps, pdata_size E m = Ok ps.
Proof.
  intros m Hm. clear - Hsmall Hm. unfold pdata_size. destruct (e_simd E) as [b|]; [|eauto].
  assert (diff_max < size_max)%N by (vm_compute; reflexivity).
  destruct (N.ltb_spec (size_max - N.of_nat m) (N.of_nat (b - 1))); [lia|eauto].
Qed.

Lemma crit_run_ok : forall cn out, In cn (t_crit t) -> out_ok nv out ->
  exists out', crit_run O E K q t mac_value G eps2 pad dest out cn = Ok out' /\ out_ok nv out' /\
  (forall j i, j < nv -> c_begin cn <= i < c_end cn -> nth_error (nth j out' []) (p i) = nth_error (row_at i) j) /\
  (forall j i', (forall i, c_begin cn <= i < c_end cn -> i' <> p i) -> nth_error (nth j out' []) i' = nth_error (nth j out []) i') /\
  (forall j, length (nth j out' []) = length (nth j out [])).
Proof.
  intros cn out Hin Ho. rewrite crit_run_rows.
  destruct (crit_node O E t cn Ht Hin) as (_ & _ & _ & _ & _ & Hc). rewrite <- Hn in Hc.
  destruct (psize_total (c_end cn - c_begin cn) ltac:(lia)) as [psize Hp].
  destruct (crit_rows_ok O E K HE HK q t mac_value G eps2 pad cn psize Ht Hin Hp) as (res & Er & Lr & Sr).
  rewrite Er. cbn [bind]. pose proof (psize_ok E HE _ _ Hp) as (_ & Hps & _).
  destruct (write_out_ok nv res (c_begin cn) (c_end cn - c_begin cn) out) as (out' & E1 & O1 & V & U & L).
  { eapply Forall_impl; [|exact Sr]. intros r Hr. now apply shape_length. }
  { lia. } { lia. } { exact Ho. } { lia. }
  exists out'. split; [exact E1|]. split; [exact O1|]. split; [|split; [|exact L]].
  - intros j i Hj Hi. destruct (nth_error res (i - c_begin cn)) as [r|] eqn:Hr; [|apply nth_error_None in Hr; lia].
    replace i with (c_begin cn + (i - c_begin cn)) by lia. rewrite (row_at_crit cn res _ r Hin Er) by (lia || exact Hr).
    apply V; [exact Hj|lia|exact Hr].
  - intros j i' Hi'. apply U. intros k Hk. apply Hi'. lia.
Qed.

Lemma crit_runs_ok : forall l out, (forall cn, In cn l -> In cn (t_crit t)) -> out_ok nv out ->
  exists out', foldM (crit_run O E K q t mac_value G eps2 pad dest) l out = Ok out' /\ out_ok nv out' /\
  (forall j i cn, j < nv -> In cn l -> c_begin cn <= i < c_end cn -> nth_error (nth j out' []) (p i) = nth_error (row_at i) j) /\
  (forall j i', (forall i cn, In cn l -> c_begin cn <= i < c_end cn -> i' <> p i) -> nth_error (nth j out' []) i' = nth_error (nth j out []) i') /\
  (forall j, length (nth j out' []) = length (nth j out [])).
Proof.
  induction l as [|cn l IH]; intros out Hl Ho; cbn [foldM].
  - exists out. split; [reflexivity|]. split; [exact Ho|]. split; [intros j i cn _ []|]. split; reflexivity.
  - destruct (crit_run_ok cn out (Hl cn (or_introl eq_refl)) Ho) as (o1 & -> & O1 & V1 & U1 & L1). cbn [bind].
    destruct (IH o1 (fun x H => Hl x (or_intror H)) O1) as (o2 & -> & O2 & V2 & U2 & L2).
    exists o2. split; [reflexivity|]. split; [exact O2|]. split; [|split].
    + intros j i x Hj Hx Hi.
      destruct (existsb (fun y : cnode => (c_begin y <=? i) && (i <? c_end y)) l) eqn:Ex.
      * apply existsb_exists in Ex as (y & Hy & Ey). apply andb_true_iff in Ey as [Y1 Y2]. apply Nat.leb_le in Y1. apply Nat.ltb_lt in Y2.
        apply (V2 j i y); auto.
      * destruct Hx as [<-|Hx].
        -- rewrite U2; [now apply V1|]. intros i2 y Hy Hi2 Hp.
           destruct (crit_node O E t cn Ht (Hl cn (or_introl eq_refl))) as (_ & _ & _ & _ & _ & C1).
           destruct (crit_node O E t y Ht (Hl y (or_intror Hy))) as (_ & _ & _ & _ & _ & C2).
           apply Hinj in Hp; [|lia|lia]. subst i2. assert (existsb (fun y : cnode => (c_begin y <=? i) && (i <? c_end y)) l = true).
           { apply existsb_exists. exists y. split; [exact Hy|]. apply andb_true_iff. split; [apply Nat.leb_le|apply Nat.ltb_lt]; lia. }
           congruence.
        -- apply (V2 j i x); auto.
    + intros j i' Hi'. rewrite U2, U1; [reflexivity| |]; intros i; [|intros y Hy]; intros; eapply Hi'; eauto; [now left|now right].
    + intros j. now rewrite L2, L1.
Qed.

End Out.
