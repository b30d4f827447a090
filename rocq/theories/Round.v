(** Rounding errors of the masses and centres of mass of the nodes in IEEE arithmetic. *)
From Coq Require Import List Arith ZArith NArith Reals Bool Lra Lia Permutation.
From Flocq Require Import Core BinarySingleNaN Relative Plus_error.
From Verif Require Import Base Config Morton Build TreeSpec BuildSpec BuildProofs BuildProps FOps FOpsProofs Disc NodeProps Tree TreeInv TreeProofs TreeSafe TreeProps RSum BoxAccept.
Import ListNotations.
Local Open Scope nat_scope.

(** * The shape of the sums, in any arithmetic *)

Section Shape.

Context {F : Type}.
Variable O : fops F.
Let zero := fofZ O 0%Z.

(** [gsum step s l d]: [s] is obtained from zeros by the steps for the indices [l] and additions; at most [d] operations on any path. *)
Inductive gsum (step : F -> nat -> F -> Prop) : F -> list nat -> nat -> Prop :=
| g0 : gsum step zero [] 0
| g1 : forall s l d i s', gsum step s l d -> step s i s' -> gsum step s' (i :: l) (S d)
| g2 : forall s1 l1 d1 s2 l2 d2, gsum step s1 l1 d1 -> gsum step s2 l2 d2 -> gsum step (fadd O s1 s2) (l1 ++ l2) (S (Nat.max d1 d2)).

Definition mstep (mcol : list F) (s : F) (i : nat) (s' : F) : Prop := exists m, nth_error mcol i = Some m /\ s' = fadd O s m.
Definition cstep (mcol col : list F) (s : F) (i : nat) (s' : F) : Prop :=
  exists m x, nth_error mcol i = Some m /\ nth_error col i = Some x /\ s' = ffma O m x s.

Definition acc_ok (ccols : list (list F)) (mcol : list F) (l : list nat) (d : nat) (a : acc) : Prop :=
  gsum (mstep mcol) (fst a) l d /\ length (snd a) = length ccols /\
  forall j, j < length ccols -> gsum (cstep mcol (nth j ccols [])) (nth j (snd a) zero) l d.

Lemma rd_some : forall A (l : list A) i x, rd l i = Ok x -> nth_error l i = Some x.
Proof. intros A l i x H. unfold rd in H. destruct (nth_error l i); [now injection H as ->|discriminate]. Qed.

Lemma acc_step_shape : forall ccols mcol (a0 a1 : @acc F) i, acc_step O ccols mcol a0 i = Ok a1 -> length (snd a0) = length ccols ->
  length (snd a1) = length ccols /\ mstep mcol (fst a0) i (fst a1) /\ forall j, j < length ccols -> cstep mcol (nth j ccols []) (nth j (snd a0) zero) i (nth j (snd a1) zero).
Proof.
  intros ccols mcol a0 a1 i H L0. unfold acc_step in H. destruct (rd mcol i) as [m| |] eqn:Em; try discriminate. cbn [bind] in H.
  destruct (mapM _ _) as [com| |] eqn:Ec in H; try discriminate. cbn [bind] in H. injection H as <-. apply rd_some in Em. cbn [fst snd].
  assert (X : length com = length ccols /\ forall j, j < length ccols -> cstep mcol (nth j ccols []) (nth j (snd a0) zero) i (nth j com zero)).
  { revert L0 com Ec. generalize (snd a0) as ss. induction ccols as [|col cs IHc]; intros [|s ss] L0 com Ec; try discriminate; cbn [combine mapM] in Ec.
    - injection Ec as <-. split; [reflexivity|]. cbn. lia.
    - destruct (rd col i) as [x| |] eqn:Ex; try discriminate. cbn [bind] in Ec. destruct (mapM _ _) as [com'| |] eqn:Ec' in Ec; try discriminate. cbn [bind] in Ec. injection Ec as <-.
      destruct (IHc ss ltac:(now injection L0) com' Ec') as [L' C]. split; [cbn; lia|]. intros [|j] Hj; cbn [nth]; [|apply C; cbn in Hj; lia].
      exists m, x. split; [exact Em|]. split; [now apply rd_some|reflexivity]. }
  destruct X as [X1 X2]. split; [exact X1|]. split; [exists m; auto|exact X2].
Qed.

Lemma acc_step_ok : forall ccols mcol l d a i a', acc_ok ccols mcol l d a -> acc_step O ccols mcol a i = Ok a' -> acc_ok ccols mcol (i :: l) (S d) a'.
Proof.
  intros ccols mcol l d a i a' (G1 & L & G2) H. destruct (acc_step_shape _ _ _ _ _ H L) as (X1 & X2 & X3). split; [|split; [exact X1|]].
  - econstructor 2; eauto.
  - intros j Hj. econstructor 2; eauto.
Qed.

Lemma acc_fold_ok : forall ccols mcol is l d a a', acc_ok ccols mcol l d a -> foldM (acc_step O ccols mcol) is a = Ok a' -> acc_ok ccols mcol (rev is ++ l) (length is + d) a'.
Proof.
  intros ccols mcol is. induction is as [|i is IH]; intros l d a a' Ha H; cbn [foldM] in H.
  - injection H as <-. exact Ha.
  - destruct (acc_step _ _ _ _ _) as [a1| |] eqn:E1; try discriminate. cbn [bind] in H. cbn [rev length]. rewrite <- app_assoc. cbn [app].
    replace (S (length is) + d) with (length is + S d) by lia. eapply IH; [|exact H]. eapply acc_step_ok; eassumption.
Qed.

Lemma zero_acc_ok : forall c ccols mcol, length ccols = dim c -> acc_ok ccols mcol [] 0 (zero_acc O c).
Proof.
  intros c ccols mcol L. split; [constructor|]. unfold zero_acc. cbn [snd]. split; [rewrite repeat_length; auto|]. intros j Hj. rewrite nth_repeat. constructor.
Qed.

Definition lanes_ok (ccols : list (list F)) (mcol : list F) (d : nat) (lanes : list acc) (ls : list (list nat)) : Prop :=
  Forall2 (fun a l => acc_ok ccols mcol l d a) lanes ls.

Lemma vec_step_ok : forall ccols mcol d lanes ls i lanes', lanes_ok ccols mcol d lanes ls -> vec_step O ccols mcol lanes i = Ok lanes' ->
  exists ls', lanes_ok ccols mcol (S d) lanes' ls' /\ length lanes' = length lanes /\ Permutation (concat ls') (seq i (length lanes) ++ concat ls).
Proof.
  intros ccols mcol d lanes ls i lanes' HF H. unfold vec_step in H.
  assert (G : forall s, mapM (fun '(k, a) => acc_step O ccols mcol a (i + k)) (combine (seq s (length lanes)) lanes) = Ok lanes' ->
    exists ls', lanes_ok ccols mcol (S d) lanes' ls' /\ length lanes' = length lanes /\ Permutation (concat ls') (seq (i + s) (length lanes) ++ concat ls)).
  { clear H. revert lanes'. induction HF as [|a l lanes ls Ha HF IH]; intros lanes' s H; cbn [length seq combine mapM] in H.
    - injection H as <-. exists []. split; [constructor|]. split; [reflexivity|]. constructor.
    - destruct (acc_step _ _ _ _ _) as [a1| |] eqn:E1; try discriminate. cbn [bind] in H. destruct (mapM _ _) as [la| |] eqn:E2 in H; try discriminate. cbn [bind] in H. injection H as <-.
      destruct (IH la (S s) E2) as (ls' & H1 & H2 & H3). exists (((i + s) :: l) :: ls'). split; [constructor; [eapply acc_step_ok; eassumption|exact H1]|].
      split; [cbn; lia|]. cbn [concat length seq app]. apply perm_skip. rewrite <- Nat.add_succ_r.
      eapply perm_trans; [apply Permutation_app_head; exact H3|]. rewrite !app_assoc. apply Permutation_app_tail, Permutation_app_comm. }
  specialize (G 0 H). now rewrite Nat.add_0_r in G.
Qed.

Lemma vec_loop_ok : forall ccols mcol q b d lanes ls lanes', lanes_ok ccols mcol d lanes ls ->
  foldM (vec_step O ccols mcol) (map (fun k => b + k * length lanes) (seq 0 q)) lanes = Ok lanes' ->
  exists ls', lanes_ok ccols mcol (q + d) lanes' ls' /\ length lanes' = length lanes /\ Permutation (concat ls') (seq b (q * length lanes) ++ concat ls).
Proof.
  intros ccols mcol q. induction q as [|q IH]; intros b d lanes ls lanes' HL H.
  - cbn in H. injection H as <-. exists ls. auto.
  - rewrite seq_S, map_app, TreeProps.foldM_app in H. destruct (foldM _ _ _) as [l1| |] eqn:E1 in H; try discriminate. cbn [bind map foldM Nat.add] in H.
    destruct (vec_step _ _ _ _ _) as [l2| |] eqn:E2 in H; try discriminate. cbn [bind] in H. injection H as <-.
    destruct (IH _ _ _ _ _ HL E1) as (ls1 & A1 & A2 & A3). destruct (vec_step_ok _ _ _ _ _ _ _ A1 E2) as (ls2 & B1 & B2 & B3). exists ls2.
    split; [exact B1|]. split; [lia|]. eapply perm_trans; [exact B3|]. rewrite A2. replace (S q * length lanes) with (q * length lanes + length lanes) by lia. rewrite seq_app.
    eapply perm_trans; [apply Permutation_app_head; exact A3|]. rewrite !app_assoc. apply Permutation_app_tail, Permutation_app_comm.
Qed.

(** A term of the sum over the lanes: its value, the particles in it and the number of lanes. *)
Definition item : Type := F * list nat * nat.
Definition iv (x : item) : F := fst (fst x).
Definition il (x : item) : list nat := snd (fst x).

Lemma pick_items : forall i (it : list item), it <> [] -> exists x it', Permutation it (x :: it') /\ pick O i (map iv it) = (iv x, map iv it').
Proof.
  intros i it Hi. unfold pick. rewrite map_length. set (k := i mod length it). assert (Hk : k < length it) by (apply Nat.mod_upper_bound; destruct it; [congruence|discriminate]).
  clearbody k. clear Hi. revert k Hk. induction it as [|y it IH]; intros k Hk; [cbn in Hk; lia|]. destruct k as [|k].
  - exists y, it. split; [apply Permutation_refl|reflexivity].
  - cbn [length] in Hk. destruct (IH k ltac:(lia)) as (x & it' & P & E). exists x, (y :: it'). split; [eapply perm_trans; [apply perm_skip, P|apply perm_swap]|].
    cbn [map nth firstn skipn app]. injection E as E1 E2. rewrite E1. cbn [map]. f_equal. f_equal. exact E2.
Qed.

Lemma concat_perm : forall (a b : list item), Permutation a b -> Permutation (concat (map il a)) (concat (map il b)) /\ list_sum (map snd a) = list_sum (map snd b).
Proof.
  intros a b H. induction H as [|x a b _ [IH1 IH2]|x y a|a b d _ [A1 A2] _ [B1 B2]]; unfold list_sum in *; cbn [map concat fold_right] in *.
  - split; [apply Permutation_refl|reflexivity].
  - split; [now apply Permutation_app_head|lia].
  - split; [apply Permutation_app_swap_app|lia].
  - split; [eapply perm_trans; eassumption|lia].
Qed.

Lemma hadd_items : forall step d plan (it : list item), Forall (fun x => 0 < snd x /\ exists e, S e <= d + snd x /\ gsum step (iv x) (il x) e) it ->
  exists e l, e <= d + list_sum (map snd it) /\ Permutation l (concat (map il it)) /\ gsum step (hadd O plan (map iv it)) l e.
Proof.
  intros step d plan. assert (Base : forall it, Forall (fun x => 0 < snd x /\ exists e, S e <= d + snd x /\ gsum step (iv x) (il x) e) it ->
    exists e l, e <= d + list_sum (map snd it) /\ Permutation l (concat (map il it)) /\ gsum step (match map iv it with [] => zero | x :: t => fold_left (fadd O) t x end) l e).
  { intros it HF. destruct HF as [|x it (W & e & E1 & G1) HF]; [exists 0, []; split; [cbn; lia|split; [apply Permutation_refl|constructor]]|]. cbn [map concat].
    change (list_sum (snd x :: map snd it)) with (snd x + list_sum (map snd it)). revert W E1 G1. generalize (iv x) (il x) (snd x).
    revert e. induction HF as [|y it (W & e' & E1' & G1') HF IH]; intros e s l w W0 E1 G1.
    - exists e, l. cbn [map concat list_sum fold_right fold_left]. rewrite app_nil_r. split; [lia|]. split; [apply Permutation_refl|exact G1].
    - cbn [map concat fold_left]. change (list_sum (snd y :: map snd it)) with (snd y + list_sum (map snd it)).
      destruct (IH (S (Nat.max e e')) (fadd O s (iv y)) (l ++ il y) (w + snd y) ltac:(lia) ltac:(lia) ltac:(now constructor)) as (e2 & l2 & X1 & X2 & X3).
      exists e2, l2. split; [lia|]. split; [now rewrite app_assoc|exact X3]. }
  induction plan as [|[i j] plan IH]; intros it HF; [exact (Base it HF)|].
  destruct it as [|a [|b it]]; [exact (Base _ HF)|exact (Base _ HF)|]. cbn [map hadd].
  destruct (pick_items i (a :: b :: it) ltac:(discriminate)) as (x & it1 & P1 & E1). cbn [map] in E1. rewrite E1.
  assert (N1 : it1 <> []). { intros ->. apply Permutation_length in P1. cbn in P1. lia. }
  destruct (pick_items j it1 N1) as (y & it2 & P2 & E2). rewrite E2.
  assert (P : Permutation (a :: b :: it) (x :: y :: it2)) by (eapply perm_trans; [exact P1|now apply perm_skip]).
  apply (Permutation_Forall P) in HF. inversion HF as [|x' l' (Wx & ex & Ex & Gx) HF']. subst x' l'. inversion HF' as [|y' l' (Wy & ey & Ey & Gy) HF2]. subst y' l'.
  destruct (IH ((fadd O (iv x) (iv y), il x ++ il y, snd x + snd y) :: it2)) as (e & l & X1 & X2 & X3).
  { constructor; [|exact HF2]. cbn [snd]. split; [lia|]. exists (S (Nat.max ex ey)). split; [lia|]. unfold iv, il. cbn [fst snd]. now constructor. }
  destruct (concat_perm _ _ P) as [C1 C2]. exists e, l. change (snd a :: snd b :: map snd it) with (map snd (a :: b :: it)). rewrite C2. unfold list_sum in *. cbn [map fold_right snd] in X1 |- *. split; [lia|]. split; [|exact X3].
  eapply perm_trans; [exact X2|]. eapply perm_trans; [|apply Permutation_sym, C1]. cbn [map concat]. unfold il at 1. cbn [fst snd]. rewrite app_assoc. apply Permutation_refl.
Qed.

Lemma hadd_ok : forall step d plan vals ls, Forall2 (fun v l => gsum step v l d) vals ls ->
  exists e l, e <= d + length vals /\ Permutation l (concat ls) /\ gsum step (hadd O plan vals) l e.
Proof.
  intros step d plan vals ls HF. set (it := map (fun p : F * list nat => (fst p, snd p, 1)) (combine vals ls)).
  assert (L : length vals = length ls) by (clear - HF; induction HF; cbn; congruence).
  assert (X : map iv it = vals /\ map il it = ls /\ list_sum (map snd it) = length vals).
  { unfold it. clear it HF. revert ls L. induction vals as [|v vals IH]; intros [|l ls] L; try discriminate; [auto|]. injection L as L. destruct (IH ls L) as (A1 & A2 & A3).
    cbn [combine map list_sum fold_right length] in *. unfold iv, il in *. cbn [fst snd] in *. rewrite A1, A2. unfold list_sum in A3. rewrite A3. auto. }
  destruct X as (X1 & X2 & X3). pose proof (hadd_items step d plan it) as HI. rewrite X1, X2, X3 in HI. apply HI. unfold it. clear - HF. induction HF; cbn [combine map]; constructor; auto.
  cbn [snd]. split; [lia|]. exists d. split; [lia|exact H].
Qed.

Definition lanes_of (simd : option nat) : nat := match simd with Some bw => bw | None => 0 end.

Lemma node_sums_shape : forall c simd plan ccols mcol b e a, length ccols = dim c -> (forall bw, simd = Some bw -> 0 < bw) -> node_sums O c simd plan ccols mcol b e = Ok a ->
  length (snd a) = dim c /\
  (exists l d, d <= (e - b) + lanes_of simd /\ Permutation l (seq b (e - b)) /\ gsum (mstep mcol) (fst a) l d) /\
  forall j, j < dim c -> exists l d, d <= (e - b) + lanes_of simd /\ Permutation l (seq b (e - b)) /\ gsum (cstep mcol (nth j ccols [])) (nth j (snd a) zero) l d.
Proof.
  intros c simd plan ccols mcol b e a L Hsimd H. unfold node_sums in H. cbv zeta in H.
  assert (S0 : foldM (acc_step O ccols mcol) (seq b (e - b)) (zero_acc O c) = Ok a -> length (snd a) = dim c /\
    (exists l d, d <= (e - b) + lanes_of simd /\ Permutation l (seq b (e - b)) /\ gsum (mstep mcol) (fst a) l d) /\
    forall j, j < dim c -> exists l d, d <= (e - b) + lanes_of simd /\ Permutation l (seq b (e - b)) /\ gsum (cstep mcol (nth j ccols [])) (nth j (snd a) zero) l d).
  { intros H0. destruct (acc_fold_ok _ _ _ _ _ _ _ (zero_acc_ok c ccols mcol L) H0) as (G1 & G2 & G3). rewrite app_nil_r, Nat.add_0_r, seq_length in *.
    split; [congruence|]. split; [|intros j Hj]; exists (rev (seq b (e - b))), (e - b); (split; [lia|]); (split; [apply Permutation_sym, Permutation_rev|]); auto. apply G3. lia. }
  destruct simd as [bw|]; [|exact (S0 H)]. destruct (dim c) as [|[|[|[|k]]]] eqn:Ed; try exact (S0 H). clear S0. cbn [lanes_of].
  pose proof (Hsimd bw eq_refl) as Hbw. set (size := e - b) in *. destruct (foldM _ _ (repeat _ _)) as [lanes| |] eqn:E1 in H; try discriminate. cbn [bind] in H.
  pose proof (vec_loop_ok ccols mcol (size / bw) b 0 (repeat (zero_acc O c) bw) (repeat [] bw) lanes) as V. rewrite repeat_length in V.
  destruct V as (ls & V1 & V2 & V3); [|exact E1|].
  { clear - L Ed. induction bw as [|bw IH]; cbn [repeat]; constructor; [apply zero_acc_ok; lia|exact IH]. }
  assert (C0 : concat (repeat (@nil nat) bw) = []) by (clear; induction bw; auto). rewrite C0, app_nil_r in V3. rewrite Nat.add_0_r in V1.
  assert (DM := Nat.div_mod size bw ltac:(lia)). assert (ML := Nat.mod_upper_bound size bw ltac:(lia)).
  assert (Hvs : size - size mod bw = size / bw * bw) by (revert DM; clearbody size; clear; generalize (size / bw) (size mod bw); intros; nia). rewrite Hvs in H.
  assert (HQ : size / bw * bw <= size) by (rewrite Nat.mul_comm; apply Nat.mul_div_le; lia). assert (HQ2 : size / bw <= size / bw * bw) by (clear - Hbw; generalize (size / bw); intros; nia).
  assert (PS : forall l0, Permutation l0 (seq b (size / bw * bw)) -> Permutation (rev (seq (b + size / bw * bw) (size - size / bw * bw)) ++ l0) (seq b size)).
  { intros l0 P0. assert (Hsplit : seq b size = seq b (size / bw * bw) ++ seq (b + size / bw * bw) (size - size / bw * bw)) by (rewrite <- seq_app; f_equal; lia). rewrite Hsplit. eapply perm_trans; [apply Permutation_app_comm|].
    apply Permutation_app; [exact P0|apply Permutation_sym, Permutation_rev]. }
  assert (HD : size - size / bw * bw + (size / bw + bw) <= size + bw) by (revert HQ HQ2; clear; generalize (size / bw * bw) (size / bw); intros; lia).
  assert (FF : forall (step : F -> nat -> F -> Prop) (g : acc -> F) (vals : list F), vals = map g lanes -> (forall a0 l0, acc_ok ccols mcol l0 (size / bw) a0 -> gsum step (g a0) l0 (size / bw)) ->
    exists e0 l0, e0 <= size / bw + bw /\ Permutation l0 (concat ls) /\ gsum step (hadd O plan vals) l0 e0).
  { intros step g vals -> Hg. destruct (hadd_ok step (size / bw) plan (map g lanes) ls) as (e0 & l0 & E0 & P0 & G0).
    - clear - V1 Hg. unfold lanes_ok in V1. induction V1; cbn [map]; constructor; auto.
    - rewrite map_length, V2 in E0. eauto. }
  destruct (FF (mstep mcol) fst (map fst lanes) eq_refl ltac:(now intros a0 l0 (X & _))) as (em & lm & Em & Pm & Gm).
  (* the remaining particles *)
  assert (R : forall is (a0 : @acc F), foldM (acc_step O ccols mcol) is a0 = Ok a -> length (snd a0) = length ccols ->
    length (snd a) = length ccols /\ (forall l0 d0, gsum (mstep mcol) (fst a0) l0 d0 -> gsum (mstep mcol) (fst a) (rev is ++ l0) (length is + d0)) /\
    forall j l0 d0, j < length ccols -> gsum (cstep mcol (nth j ccols [])) (nth j (snd a0) zero) l0 d0 -> gsum (cstep mcol (nth j ccols [])) (nth j (snd a) zero) (rev is ++ l0) (length is + d0)).
  { clear - H. intros is. clear H. induction is as [|i is IH]; intros a0 H0 L0; cbn [foldM] in H0.
    - injection H0 as <-. auto.
    - destruct (acc_step _ _ _ _ _) as [a1| |] eqn:E1; try discriminate. cbn [bind] in H0.
      destruct (acc_step_shape _ _ _ _ _ E1 L0) as (S1 & S2 & S3). destruct (IH a1 H0 S1) as (I1 & I2 & I3). split; [exact I1|]. cbn [rev length]. split.
      + intros l0 d0 G. rewrite <- app_assoc. cbn [app]. replace (S (length is) + d0) with (length is + S d0) by lia. apply I2. econstructor 2; eauto.
      + intros j l0 d0 Hj G. rewrite <- app_assoc. cbn [app]. replace (S (length is) + d0) with (length is + S d0) by lia. apply I3; auto. econstructor 2; eauto. }
  destruct (R _ _ H) as (R1 & R2 & R3); [cbn [snd]; rewrite map_length, seq_length; congruence|]. cbn [fst snd] in R2, R3. rewrite seq_length in R2, R3.
  split; [congruence|]. split.
  - exists (rev (seq (b + size / bw * bw) (size - size / bw * bw)) ++ lm), (size - size / bw * bw + em). split; [lia|]. split; [apply PS; eapply perm_trans; eassumption|]. now apply R2.
  - intros j Hj. destruct (FF (cstep mcol (nth j ccols [])) (fun a0 : acc => nth j (snd a0) zero) _ eq_refl) as (ec & lc & Ec & Pc & Gc).
    { intros a0 l0 (_ & _ & X). apply X. lia. }
    exists (rev (seq (b + size / bw * bw) (size - size / bw * bw)) ++ lc), (size - size / bw * bw + ec). split; [lia|]. split; [apply PS; eapply perm_trans; eassumption|]. apply R3; [lia|].
    assert (NM : forall (f : nat -> F) n k, k < n -> nth k (map f (seq 0 n)) zero = f k).
    { intros f n k Hk. rewrite (nth_indep _ zero (f 0)) by (rewrite map_length, seq_length; exact Hk). rewrite map_nth, seq_nth by exact Hk. reflexivity. }
    rewrite NM by exact Hj. exact Gc.
Qed.

End Shape.

(** * IEEE arithmetic *)

Section IEEE.

Variables prec emax : Z.
Context (Hprec : Prec_gt_0 prec).
Context (Hemax : Prec_lt_emax prec emax).
Variable fused : bool.
Hypothesis Hp2 : (2 <= prec)%Z.

Notation bf := (binary_float prec emax).
Notation O := (Bops prec emax Hprec Hemax fused).
Notation fexp := (SpecFloat.fexp prec emax).
Notation rnd := (round radix2 fexp ZnearestE).
Notation zero := (fofZ O 0%Z).

Local Open Scope R_scope.

(** Half of the distance of 1 from the next larger number, the factor [1 / (1 - u)], and the smallest positive number. *)
Definition uR : R := bpow radix2 (- prec).
Definition gR : R := / (1 - uR).
Definition etaR : R := bpow radix2 (3 - emax - prec).

Lemma uR_bounds : 0 < uR <= / 4.
Proof.
  split; [apply bpow_gt_0|]. unfold uR. change (/ 4) with (bpow radix2 (-2)). apply bpow_le. lia.
Qed.

Lemma gR_facts : 1 + uR <= gR /\ 1 <= gR /\ (1 - uR) = / gR.
Proof.
  pose proof uR_bounds as U. unfold gR. rewrite Rinv_inv. assert (1 + uR <= / (1 - uR)).
  { apply Rmult_le_reg_r with (1 - uR); [lra|]. rewrite Rinv_l by lra. nra. }
  repeat split; lra.
Qed.

Lemma g_pow1 : forall n, 1 <= gR ^ n.
Proof. intros n. apply pow_R1_Rle. apply gR_facts. Qed.

Lemma g_mono : forall m n, (m <= n)%nat -> gR ^ m <= gR ^ n.
Proof. intros m n H. apply Rle_pow; [apply gR_facts|exact H]. Qed.

Lemma uro : u_ro radix2 prec = uR.
Proof. unfold u_ro, uR. rewrite bpow_plus. change (bpow radix2 1) with 2. lra. Qed.

Lemma plus_rel : forall x y : bf, exists d, Rabs d <= uR /\ rnd (B2R x + B2R y) = (B2R x + B2R y) * (1 + d).
Proof.
  intros x y. destruct (FLT_plus_error_N_ex radix2 (3 - emax - prec) prec (fun x => negb (Z.even x)) (B2R x) (B2R y)) as (d & Hd & E);
    [apply generic_format_B2R|apply generic_format_B2R|].
  exists d. split; [|exact E]. rewrite uro in Hd. eapply Rle_trans; [exact Hd|]. pose proof uR_bounds. apply Rmult_le_reg_r with (1 + uR); [lra|].
  unfold Rdiv. rewrite Rmult_assoc, Rinv_l by lra. nra.
Qed.

Lemma any_err : forall x, exists d h, Rabs d <= uR /\ Rabs h <= etaR /\ rnd x = x * (1 + d) + h.
Proof.
  intros x. destruct (error_N_FLT radix2 (3 - emax - prec) prec Hprec (fun x => negb (Z.even x)) x) as (d & h & Hd & Hh & _ & E).
  exists d, h. split; [|split; [|exact E]].
  - eapply Rle_trans; [exact Hd|]. unfold uR. rewrite bpow_plus. change (bpow radix2 1) with 2. lra.
  - eapply Rle_trans; [exact Hh|]. unfold etaR. pose proof (bpow_gt_0 radix2 (3 - emax - prec)). lra.
Qed.

Lemma normal_err : forall y, bpow radix2 (2 - emax) <= Rabs y -> Rabs (rnd y - y) <= uR * Rabs y.
Proof.
  intros y Hy. pose proof (relative_error_N_FLT radix2 (3 - emax - prec) prec Hprec (fun x => negb (Z.even x)) y) as R. unfold uR.
  replace (bpow radix2 (- prec)) with (/ 2 * bpow radix2 (- prec + 1)); [apply R|].
  - replace (3 - emax - prec + prec - 1)%Z with (2 - emax)%Z by lia. exact Hy.
  - rewrite bpow_plus. change (bpow radix2 1) with 2. lra.
Qed.

(** [s] differs from the exact sum [S] as if every term had been rounded [e] times; [k] products may have been rounded to subnormal numbers. *)
Definition approx (e : nat) (k : R) (s S a : R) : Prop := Rabs (s - S) <= (gR ^ e - 1) * a + k * etaR * gR ^ e.

Lemma approx_plus : forall e k1 k2 s1 S1 a1 s2 S2 a2 d, approx e k1 s1 S1 a1 -> approx e k2 s2 S2 a2 -> Rabs S1 <= a1 -> Rabs S2 <= a2 -> 0 <= k1 -> 0 <= k2 ->
  Rabs d <= uR -> approx (S e) (k1 + k2) ((s1 + s2) * (1 + d)) (S1 + S2) (a1 + a2).
Proof.
  unfold approx. intros e k1 k2 s1 S1 a1 s2 S2 a2 d H1 H2 HS1 HS2 K1 K2 Hd. pose proof uR_bounds as U. destruct gR_facts as (G1 & G2 & _). pose proof (g_pow1 e) as G3.
  replace ((s1 + s2) * (1 + d) - (S1 + S2)) with ((1 + d) * (s1 - S1) + ((1 + d) * (s2 - S2) + d * (S1 + S2))) by ring.
  eapply Rle_trans; [apply Rabs_triang|]. eapply Rle_trans; [apply Rplus_le_compat_l, Rabs_triang|]. rewrite !Rabs_mult.
  assert (D1 : Rabs (1 + d) <= 1 + uR). { eapply Rle_trans; [apply Rabs_triang|]. rewrite Rabs_R1. lra. }
  assert (D2 : Rabs (S1 + S2) <= a1 + a2). { eapply Rle_trans; [apply Rabs_triang|]. lra. }
  pose proof (Rabs_pos (s1 - S1)) as P1. pose proof (Rabs_pos (s2 - S2)) as P2. pose proof (Rabs_pos S1). pose proof (Rabs_pos S2). pose proof (Rabs_pos (S1 + S2)) as P3. pose proof (Rabs_pos d) as P4. pose proof (Rabs_pos (1 + d)) as P5.
  assert (T1 : Rabs (1 + d) * Rabs (s1 - S1) <= (1 + uR) * ((gR ^ e - 1) * a1 + k1 * etaR * gR ^ e)) by (apply Rmult_le_compat; assumption).
  assert (T2 : Rabs (1 + d) * Rabs (s2 - S2) <= (1 + uR) * ((gR ^ e - 1) * a2 + k2 * etaR * gR ^ e)) by (apply Rmult_le_compat; assumption).
  assert (T3 : Rabs d * Rabs (S1 + S2) <= uR * (a1 + a2)) by (apply Rmult_le_compat; assumption).
  assert (PE : 0 < etaR) by apply bpow_gt_0.
  assert (T4 : (1 + uR) * gR ^ e <= gR ^ S e) by (cbn [pow]; apply Rmult_le_compat_r; lra).
  assert (T5 : (1 + uR) * gR ^ e * (a1 + a2) <= gR ^ S e * (a1 + a2)) by (apply Rmult_le_compat_r; lra).
  assert (T6 : (1 + uR) * gR ^ e * ((k1 + k2) * etaR) <= gR ^ S e * ((k1 + k2) * etaR)) by (apply Rmult_le_compat_r; [apply Rmult_le_pos; lra|exact T4]).
  lra.
Qed.

Lemma approx_mono : forall e e' k k' s S a, approx e k s S a -> (e <= e')%nat -> 0 <= k <= k' -> 0 <= a -> approx e' k' s S a.
Proof.
  unfold approx. intros e e' k k' s S a H He Hk Ha. pose proof (g_mono e e' He) as G. pose proof (g_pow1 e). assert (PE : 0 < etaR) by apply bpow_gt_0.
  eapply Rle_trans; [exact H|]. apply Rplus_le_compat; [apply Rmult_le_compat_r; lra|].
  apply Rmult_le_compat; try lra; [apply Rmult_le_pos; lra|]. apply Rmult_le_compat_r; lra.
Qed.

(** The multiply-add. *)
Lemma approx_fma : forall e k m x s S a (v : bf), B2R v = s -> approx (Datatypes.S e) k s S a -> Rabs S <= a -> 0 <= k ->
  approx (Datatypes.S (Datatypes.S e)) (k + 1) (fma_val prec emax fused m x s) (S + m * x) (a + Rabs (m * x)).
Proof.
  intros e k m x s S a v Hv HA HS Hk. pose proof uR_bounds as U. destruct gR_facts as (G1 & G2 & _). pose proof (g_pow1 e) as G3. assert (PE : 0 < etaR) by apply bpow_gt_0.
  pose proof (Rabs_pos (m * x)) as PM. pose proof (Rabs_pos S) as PS.
  assert (GE : gR <= gR ^ Datatypes.S e) by (cbn [pow]; rewrite <- (Rmult_1_r gR) at 1; apply Rmult_le_compat_l; lra).
  unfold fma_val. destruct fused.
  - destruct (any_err (m * x + s)) as (d & h & Hd & Hh & ->). unfold approx in *. pose proof (Rabs_pos (s - S)) as P1.
    replace ((m * x + s) * (1 + d) + h - (S + m * x)) with ((1 + d) * (s - S) + (d * (m * x + S) + h)) by ring.
    eapply Rle_trans; [apply Rabs_triang|]. eapply Rle_trans; [apply Rplus_le_compat_l, Rabs_triang|]. rewrite !Rabs_mult.
    assert (D1 : Rabs (1 + d) <= 1 + uR). { eapply Rle_trans; [apply Rabs_triang|]. rewrite Rabs_R1. lra. }
    assert (D2 : Rabs (m * x + S) <= Rabs (m * x) + a). { eapply Rle_trans; [apply Rabs_triang|]. lra. }
    rewrite <- (Rabs_mult m x). set (w := Rabs (m * x)) in *. set (p := gR ^ Datatypes.S e) in *.
    change (gR ^ Datatypes.S (Datatypes.S e)) with (gR * p).
    assert (T1 : Rabs (1 + d) * Rabs (s - S) <= (1 + uR) * ((p - 1) * a + k * etaR * p)) by (apply Rmult_le_compat; auto using Rabs_pos).
    assert (T2 : Rabs d * Rabs (m * x + S) <= uR * (w + a)) by (apply Rmult_le_compat; auto using Rabs_pos).
    assert (T3 : (1 + uR) * p <= gR * p) by (apply Rmult_le_compat_r; lra).
    assert (T4 : (1 + uR) * p * a <= gR * p * a) by (apply Rmult_le_compat_r; lra).
    assert (T5 : (1 + uR) * p * (k * etaR) <= gR * p * (k * etaR)) by (apply Rmult_le_compat_r; [apply Rmult_le_pos; lra|exact T3]).
    assert (T6 : 1 * etaR <= gR * p * etaR) by (apply Rmult_le_compat_r; [lra|]; nra).
    assert (T7 : (1 + uR) * w <= gR * p * w) by (apply Rmult_le_compat_r; [exact PM|]; nra).
    lra.
  - destruct (any_err (m * x)) as (d & h & Hd & Hh & EP).
    assert (FP : generic_format radix2 fexp (rnd (m * x))) by (apply generic_format_round; [apply (valid_fexp prec emax Hprec)|apply valid_rnd_N]).
    assert (FS : generic_format radix2 fexp s) by (rewrite <- Hv; apply generic_format_B2R).
    destruct (FLT_plus_error_N_ex radix2 (3 - emax - prec) prec (fun x => negb (Z.even x)) _ _ FP FS) as (d' & Hd' & E').
    change (rnd (rnd (m * x) + s) = (rnd (m * x) + s) * (1 + d')) in E'. rewrite E'.
    assert (U' : Rabs d' <= uR). { rewrite uro in Hd'. eapply Rle_trans; [exact Hd'|]. apply Rmult_le_reg_r with (1 + uR); [lra|]. unfold Rdiv. rewrite Rmult_assoc, Rinv_l by lra. nra. }
    rewrite (Rplus_comm (rnd (m * x))). apply approx_plus; auto; try lra.
    unfold approx. rewrite EP. replace (m * x * (1 + d) + h - m * x) with (d * (m * x) + h) by ring. eapply Rle_trans; [apply Rabs_triang|]. rewrite Rabs_mult.
    set (p := gR ^ Datatypes.S e) in *.
    assert (T1 : Rabs d * Rabs (m * x) <= (p - 1) * Rabs (m * x)) by (apply Rmult_le_compat_r; lra).
    assert (T2 : 1 * etaR <= p * etaR) by (apply Rmult_le_compat_r; lra). lra.
Qed.

Definition nthR (col : list bf) (i : nat) : R := B2R (nth i col zero).
Definition fin_at (col : list bf) (i : nat) : Prop := exists x, nth_error col i = Some x /\ is_finite x = true.

Lemma nthR_some : forall col i x, nth_error col i = Some x -> nthR col i = B2R x.
Proof. intros col i x H. unfold nthR. now rewrite (nth_error_nth col i zero H). Qed.

Lemma B2R_zero : B2R zero = 0.
Proof. apply (ofZ_0 prec emax Hprec Hemax fused). Qed.

Lemma rsum_abs_le : forall A (f : A -> R) l, Rabs (rsum f l) <= rsum (fun a => Rabs (f a)) l.
Proof. exact rsum_abs. Qed.

Lemma mass_approx : forall mcol s l d, gsum O (mstep O mcol) s l d -> is_finite s = true ->
  (forall i, In i l -> fin_at mcol i) /\ approx d 0 (B2R s) (rsum (nthR mcol) l) (rsum (fun i => Rabs (nthR mcol i)) l) /\
  ((forall i, In i l -> 0 <= nthR mcol i) -> rsum (nthR mcol) l * / gR ^ d <= B2R s <= rsum (nthR mcol) l * gR ^ d).
Proof.
  intros mcol s l d H. pose proof uR_bounds as U. destruct gR_facts as (G1 & G2 & G3).
  induction H as [|s l d i s' H IH (m & Hm & ->)|s1 l1 d1 s2 l2 d2 H1 IH1 H2 IH2]; intros Hf.
  - split; [intros i []|]. unfold approx. rewrite B2R_zero, !rsum_nil. cbn [pow]. rewrite Rminus_0_r, Rabs_R0. split; intros; [|lra]. assert (0 < etaR) by apply bpow_gt_0. lra.
  - apply plus_fin in Hf as (F1 & F2 & V). destruct (IH F1) as (I1 & I2 & I3). destruct (plus_rel s m) as (dd & Hd & E). rewrite E in V.
    pose proof (nthR_some mcol i m Hm) as Em. split; [|split].
    + intros k [<-|Hk]; [exists m; auto|auto].
    + cbn [fadd Bops]. rewrite V, !rsum_cons, Em.
      pose proof (approx_plus d 0 0 (B2R s) (rsum (nthR mcol) l) (rsum (fun i => Rabs (nthR mcol i)) l) (B2R m) (B2R m) (Rabs (B2R m)) dd I2) as A.
      rewrite Rplus_0_r in A. rewrite (Rplus_comm (B2R m)), (Rplus_comm (Rabs (B2R m))). apply A; try lra; auto using rsum_abs.
      unfold approx. rewrite Rminus_eq_0, Rabs_R0. pose proof (g_pow1 d). pose proof (Rabs_pos (B2R m)). assert (0 < etaR) by apply bpow_gt_0. nra.
    + intros Hn. cbn [fadd Bops]. rewrite V, rsum_cons, Em. assert (N1 : 0 <= B2R m) by (rewrite <- Em; apply Hn; now left). specialize (I3 ltac:(intros k Hk; apply Hn; now right)).
      pose proof (g_pow1 d) as P. assert (N2 : 0 <= rsum (nthR mcol) l) by (apply rsum_nonneg; intros k Hk; apply Hn; now right).
      assert (PI : 0 < / gR ^ d <= 1). { split; [apply Rinv_0_lt_compat; lra|]. rewrite <- Rinv_1. apply Rinv_le_contravar; lra. }
      assert (B1 : (rsum (nthR mcol) l + B2R m) * / gR ^ d <= B2R s + B2R m) by nra.
      assert (B2 : B2R s + B2R m <= (rsum (nthR mcol) l + B2R m) * gR ^ d) by nra.
      assert (PS : 0 <= B2R s) by nra.
      cbn [pow]. rewrite Rinv_mult, <- G3. apply Rabs_def2b in Hd. split.
      * replace ((B2R m + rsum (nthR mcol) l) * ((1 - uR) * / gR ^ d)) with ((rsum (nthR mcol) l + B2R m) * / gR ^ d * (1 - uR)) by ring.
        apply Rmult_le_compat; try lra. apply Rmult_le_pos; lra.
      * replace ((B2R m + rsum (nthR mcol) l) * (gR * gR ^ d)) with ((rsum (nthR mcol) l + B2R m) * gR ^ d * gR) by ring. apply Rmult_le_compat; lra.
  - apply plus_fin in Hf as (F1 & F2 & V). destruct (IH1 F1) as (I1 & I2 & I3). destruct (IH2 F2) as (J1 & J2 & J3). destruct (plus_rel s1 s2) as (dd & Hd & E). rewrite E in V. split; [|split].
    + intros k Hk. apply in_app_or in Hk as [Hk|Hk]; auto.
    + cbn [fadd Bops]. rewrite V, !rsum_app. replace 0 with (0 + 0) at 1 by ring. apply approx_plus; try lra; auto using rsum_abs.
      * eapply approx_mono; [exact I2|lia|lra|]. apply rsum_nonneg. intros; apply Rabs_pos.
      * eapply approx_mono; [exact J2|lia|lra|]. apply rsum_nonneg. intros; apply Rabs_pos.
    + intros Hn. cbn [fadd Bops]. rewrite V, rsum_app. specialize (I3 ltac:(intros k Hk; apply Hn, in_or_app; now left)). specialize (J3 ltac:(intros k Hk; apply Hn, in_or_app; now right)).
      set (d := Nat.max d1 d2). pose proof (g_pow1 d) as P. pose proof (g_pow1 d1) as P1. pose proof (g_pow1 d2) as P2. pose proof (g_mono d1 d ltac:(lia)) as M1. pose proof (g_mono d2 d ltac:(lia)) as M2.
      assert (N1 : 0 <= rsum (nthR mcol) l1) by (apply rsum_nonneg; intros k Hk; apply Hn, in_or_app; now left).
      assert (N2 : 0 <= rsum (nthR mcol) l2) by (apply rsum_nonneg; intros k Hk; apply Hn, in_or_app; now right).
      assert (Q1 : / gR ^ d <= / gR ^ d1) by (apply Rinv_le_contravar; lra). assert (Q2 : / gR ^ d <= / gR ^ d2) by (apply Rinv_le_contravar; lra).
      assert (PI : 0 < / gR ^ d) by (apply Rinv_0_lt_compat; lra).
      assert (B1 : (rsum (nthR mcol) l1 + rsum (nthR mcol) l2) * / gR ^ d <= B2R s1 + B2R s2) by nra.
      assert (B2 : B2R s1 + B2R s2 <= (rsum (nthR mcol) l1 + rsum (nthR mcol) l2) * gR ^ d) by nra.
      cbn [pow]. rewrite Rinv_mult, <- G3. apply Rabs_def2b in Hd. split.
      * replace ((rsum (nthR mcol) l1 + rsum (nthR mcol) l2) * ((1 - uR) * / gR ^ d)) with ((rsum (nthR mcol) l1 + rsum (nthR mcol) l2) * / gR ^ d * (1 - uR)) by ring.
        apply Rmult_le_compat; try lra. apply Rmult_le_pos; lra.
      * replace ((rsum (nthR mcol) l1 + rsum (nthR mcol) l2) * (gR * gR ^ d)) with ((rsum (nthR mcol) l1 + rsum (nthR mcol) l2) * gR ^ d * gR) by ring.
        assert (0 <= B2R s1 + B2R s2) by (eapply Rle_trans; [|exact B1]; apply Rmult_le_pos; lra). apply Rmult_le_compat; lra.
Qed.

Lemma com_approx : forall mcol col s l d, gsum O (cstep O mcol col) s l d -> is_finite s = true ->
  (forall i, In i l -> fin_at mcol i /\ fin_at col i) /\
  approx (S d) (INR (length l)) (B2R s) (rsum (fun i => nthR mcol i * nthR col i) l) (rsum (fun i => Rabs (nthR mcol i * nthR col i)) l).
Proof.
  intros mcol col s l d H. pose proof uR_bounds as U. destruct gR_facts as (G1 & G2 & G3). assert (PE : 0 < etaR) by apply bpow_gt_0.
  induction H as [|s l d i s' H IH (m & x & Hm & Hx & ->)|s1 l1 d1 s2 l2 d2 H1 IH1 H2 IH2]; intros Hf.
  - split; [intros i []|]. unfold approx. rewrite B2R_zero, !rsum_nil. rewrite Rminus_0_r, Rabs_R0. cbn [length INR]. lra.
  - apply fma_fin in Hf as (F1 & F2 & F3 & V). destruct (IH F3) as (I1 & I2). split.
    + intros k [<-|Hk]; [split; [exists m|exists x]; auto|auto].
    + rewrite V, !rsum_cons, (nthR_some mcol i m Hm), (nthR_some col i x Hx). cbn [length]. rewrite S_INR, (Rplus_comm (B2R m * B2R x)), (Rplus_comm (Rabs (B2R m * B2R x))).
      eapply approx_fma; [reflexivity|exact I2|apply rsum_abs|apply pos_INR].
  - apply plus_fin in Hf as (F1 & F2 & V). destruct (IH1 F1) as (I1 & I2). destruct (IH2 F2) as (J1 & J2). destruct (plus_rel s1 s2) as (dd & Hd & E). rewrite E in V. split.
    + intros k Hk. apply in_app_or in Hk as [Hk|Hk]; auto.
    + cbn [fadd Bops]. rewrite V, !rsum_app, app_length, plus_INR. apply approx_plus; auto using rsum_abs, pos_INR.
      * eapply approx_mono; [exact I2|lia|split; [apply pos_INR|lra]|]. apply rsum_nonneg. intros; apply Rabs_pos.
      * eapply approx_mono; [exact J2|lia|split; [apply pos_INR|lra]|]. apply rsum_nonneg. intros; apply Rabs_pos.
Qed.

End IEEE.
