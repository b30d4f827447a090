(** The recursive parallel construction: no interleaving has a data race, and all of them publish the partial trees and the lists of critical nodes of the sequential model. *)
From Coq Require Import List Arith NArith ZArith Bool Lia Permutation.
From Verif Require Import Base Config Morton Build ParBag ParBuild.
Import ListNotations.
Local Open Scope nat_scope.

Section P.

Variable c : cfg.
Variable codes : list N.
Variables max_leaf_n ncrit : nat.
Context {P : Type}.
Variable cnp : nat -> nat -> N -> N -> outcome P.
Variable split_nparts : nat.
Notation w := (width c).
Notation d := (dimN c).
Notation cb := (cbitsc c).
Notation bval := (bval P).
Notation prog := (cmd bloc bval).
Notation mem := (bloc -> bval).
Notation run := (ParBag.run bloc bval bloc_eq bop).
Notation runs := (ParBag.runs bloc bval bloc_eq bop).
Notation foot := (ParBag.foot bloc bval bloc_eq bop).
Notation safe := (ParBag.safe bloc bval bloc_eq bop balike).
Notation upd := (ParBag.upd bloc bval bloc_eq).
Notation all_runs := (ParBag.all_runs bloc bval bloc_eq bop).
Notation app := (ParBag.app bloc bval).
Notation par_prog := (par_prog c codes max_leaf_n ncrit cnp split_nparts).
Notation child_prog := (child_prog c codes max_leaf_n ncrit cnp split_nparts).
Notation child_of := (child_of c codes max_leaf_n ncrit cnp split_nparts).
Notation build_par := (build_par c codes max_leaf_n ncrit cnp split_nparts).

Lemma balike_refl : forall x : bval, balike x x.
Proof. intros []; cbn; auto. Qed.
Lemma balike_sym : forall x y : bval, balike x y -> balike y x.
Proof. intros [] []; cbn; try congruence. apply Permutation_sym. Qed.
Lemma balike_trans : forall x y z : bval, balike x y -> balike y z -> balike x z.
Proof. intros [] [] []; cbn; try congruence. apply perm_trans. Qed.
Lemma balike_op : forall v x y : bval, balike x y -> balike (bop v x) (bop v y).
Proof.
  intros v x y H. destruct x, y; cbn in H; try discriminate H; try (injection H as <-; apply balike_refl).
  destruct v; cbn; auto. now apply Permutation_app_tail.
Qed.
Lemma bop_comm : forall v u x : bval, balike (bop v (bop u x)) (bop u (bop v x)).
Proof.
  intros v u x. destruct v, u, x; cbn; auto; try apply Permutation_refl; [f_equal; lia|]. rewrite <- !app_assoc. apply Permutation_app_head. apply Permutation_app_comm.
Qed.

Definition bplain (x : bval) : Prop := match x with YB _ => False | _ => True end.
Lemma bplain_eq : forall x y : bval, bplain x -> balike y x -> y = x.
Proof. intros [] [] Hx; cbn in *; try congruence; contradiction. Qed.

(** What the task of the child [i] of [p] accesses, and what the task of [p] accesses. *)
Definition below (i : nat) (p : list nat) (x : kind * bloc) : Prop :=
  (exists a s, (a = BTree \/ a = BCrit \/ a = BCount) /\ snd x = (a, s ++ i :: p)) \/ x = (KA, (BCount, p)) \/ x = (KA, (BTrees, [])) \/ x = (KA, (BCrits, [])).
Definition within (p : list nat) (x : kind * bloc) : Prop :=
  (exists a s i, (a = BTree \/ a = BCrit \/ a = BCount) /\ snd x = (a, s ++ i :: p)) \/ snd x = (BCount, p) \/ x = (KA, (BTrees, [])) \/ x = (KA, (BCrits, [])).

Lemma path_inj : forall (s s' : list nat) i j p, s ++ i :: p = s' ++ j :: p -> i = j.
Proof.
  intros s s' i j p H. replace (s ++ i :: p) with ((s ++ [i]) ++ p) in H by now rewrite <- app_assoc. replace (s' ++ j :: p) with ((s' ++ [j]) ++ p) in H by now rewrite <- app_assoc.
  apply app_inv_tail in H. apply app_inj_tail in H. tauto.
Qed.
Lemma path_neq : forall (s : list nat) i p, s ++ i :: p <> p.
Proof. intros s i p H. apply (f_equal (@length _)) in H. rewrite app_length in H. cbn in H. lia. Qed.

Lemma below_apart : forall i j p f g, i <> j -> (forall x, In x f -> below i p x) -> (forall x, In x g -> below j p x) -> apart bloc f g.
Proof.
  intros i j p f g Hij Hf Hg k k' l H H'. apply Hf in H. apply Hg in H'. unfold below in H, H'. cbn [snd] in H, H'.
  destruct H as [(a & s & Ha & ->)|[X|[X|X]]].
  - destruct H' as [(a' & s' & Ha' & Y)|[Y|[Y|Y]]].
    + injection Y as <- Y. apply path_inj in Y. congruence.
    + injection Y as _ -> Y. now apply path_neq in Y.
    + injection Y as _ -> _. destruct Ha as [|[|]]; discriminate.
    + injection Y as _ -> _. destruct Ha as [|[|]]; discriminate.
  - injection X as -> ->. destruct H' as [(a' & s' & Ha' & Y)|[Y|[Y|Y]]]; [|now injection Y as ->|discriminate Y|discriminate Y].
    injection Y as _ Y. symmetry in Y. now apply path_neq in Y.
  - injection X as -> ->. destruct H' as [(a' & s' & Ha' & Y)|[Y|[Y|Y]]]; [|discriminate Y|now injection Y as ->|discriminate Y].
    injection Y as <- _. destruct Ha' as [|[|]]; discriminate.
  - injection X as -> ->. destruct H' as [(a' & s' & Ha' & Y)|[Y|[Y|Y]]]; [|discriminate Y|discriminate Y|now injection Y as ->].
    injection Y as <- _. destruct Ha' as [|[|]]; discriminate.
Qed.

Lemma below_within : forall i p x, below i p x -> within p x.
Proof. intros i p x [(a & s & Ha & E)|[E|[E|E]]]; try subst x; unfold within; cbn [snd]; eauto 8. Qed.
Lemma within_below : forall i p x, within (i :: p) x -> below i p x.
Proof.
  intros i p x [(a & s & j & Ha & E)|[E|[E|E]]]; unfold below; auto.
  - left. exists a, (s ++ [j]). split; [exact Ha|]. rewrite E. now rewrite <- app_assoc.
  - left. exists BCount, []. auto.
Qed.

(** * The effect of a program that adds partial trees *)
Record adds (ok : kind * bloc -> Prop) (q : prog) (m : mem) (ids : list (list nat)) (ts : list (list (node P))) (cs : list (list cnode)) : Prop := {
  a_safe : safe q m;
  a_foot : forall x, In x (foot q m) -> ok x;
  a_trees : forall l, m (BTrees, []) = YB l -> run q m (BTrees, []) = YB (l ++ ids);
  a_crits : forall l, m (BCrits, []) = YB l -> run q m (BCrits, []) = YB (l ++ ids);
  a_ts : Forall2 (fun id t => run q m (BTree, id) = YT t) ids ts;
  a_cs : Forall2 (fun id l => run q m (BCrit, id) = YK l) ids cs
}.

Definition counts (q : prog) (m : mem) (p : list nat) (k : nat) : Prop := forall r, m (BCount, p) = YC r -> run q m (BCount, p) = YC (r + k).

Ltac u := first [rewrite upd_same | rewrite upd_other by congruence].

Lemma add_count_spec : forall p i m nd t, m (BTree, i :: p) = YT (nd :: t) ->
  safe (add_count p (i :: p)) m /\ (forall x, In x (foot (add_count p (i :: p)) m) -> below i p x) /\
  (forall l, l <> (BCount, p) -> run (add_count p (i :: p)) m l = m l) /\ counts (add_count p (i :: p)) m p (n_children nd + 1).
Proof.
  intros p i m nd t H. unfold add_count. cbn [ParBag.safe ParBag.foot ParBag.run]. unfold counts. cbn [ParBag.run]. rewrite H. cbn [ParBag.safe ParBag.foot ParBag.run]. split; [|split; [|split]].
  - split; [|exact I]. intros y Hy. destruct y; cbn in Hy; try discriminate. now injection Hy as ->.
  - intros x [<-|[<-|[<-|[]]]]; unfold below; auto. left. exists BTree, []. auto.
  - intros l Hl. now rewrite !upd_other by exact Hl.
  - intros r Hr. rewrite upd_same, upd_same, Hr. cbn [bop]. f_equal. lia.
Qed.

Lemma below_self : forall k a i p, a = BTree \/ a = BCrit \/ a = BCount -> below i p (k, (a, i :: p)).
Proof. intros k a i p H. left. exists a, []. auto. Qed.

(** After the publication; [k] is the rest of the task. *)
Definition pub_mem (m : mem) (id : list nat) t l : mem :=
  let m1 := upd m (BTree, id) (YT []) in
  let m2 := upd m1 (BTrees, []) (bop (YB [id]) (m1 (BTrees, []))) in
  let m3 := upd (upd m2 (BTree, id) (YT t)) (BCrit, id) (YK l) in
  upd m3 (BCrits, []) (bop (YB [id]) (m3 (BCrits, []))).

Lemma publish_spec : forall i p t l (k : prog) m,
  run (publish (i :: p) t l k) m = run k (pub_mem m (i :: p) t l) /\
  (safe k (pub_mem m (i :: p) t l) -> safe (publish (i :: p) t l k) m) /\
  ((forall x, In x (foot k (pub_mem m (i :: p) t l)) -> below i p x) -> forall x, In x (foot (publish (i :: p) t l k) m) -> below i p x).
Proof.
  intros i p t l k m. split; [reflexivity|]. split; [intros H; exact H|]. intros H x Hx. unfold publish in Hx. cbn [ParBag.foot] in Hx.
  destruct Hx as [<-|[<-|[<-|[<-|[<-|Hx]]]]]; [apply below_self; auto|unfold below; auto|apply below_self; auto|apply below_self; auto|unfold below; auto|now apply H].
Qed.

Lemma pub_trees : forall m id t l x, m (BTrees, []) = YB x -> pub_mem m id t l (BTrees, []) = YB (x ++ [id]).
Proof. intros m id t l x H. unfold pub_mem. cbv zeta. do 3 u. u. u. rewrite H. reflexivity. Qed.
Lemma pub_crits : forall m id t l x, m (BCrits, []) = YB x -> pub_mem m id t l (BCrits, []) = YB (x ++ [id]).
Proof. intros m id t l x H. unfold pub_mem. cbv zeta. u. do 4 u. rewrite H. reflexivity. Qed.
Lemma pub_tree : forall m id t l, pub_mem m id t l (BTree, id) = YT t.
Proof. intros m id t l. unfold pub_mem. cbv zeta. u. u. now u. Qed.
Lemma pub_crit : forall m id t l, pub_mem m id t l (BCrit, id) = YK l.
Proof. intros m id t l. unfold pub_mem. cbv zeta. u. now u. Qed.
Lemma pub_count : forall m id t l p, pub_mem m id t l (BCount, p) = m (BCount, p).
Proof. intros m id t l p. unfold pub_mem. cbv zeta. now repeat u. Qed.

(** The recursive calls. *)
Definition par_ok (rem : nat) : Prop := forall p pc b e ca trees crits trees' crits' n q,
  build_par rem trees crits pc b e ca = Ok (trees', crits', n) -> par_prog rem p pc b e ca q ->
  exists ids ts cs, trees' = trees ++ ts /\ crits' = crits ++ cs /\ Forall (fun id => exists s i, id = s ++ i :: p) ids /\
    forall m, adds (within p) q m ids ts cs /\ run q m (BCount, p) = YC n.

(** One iteration of the loop. *)
Definition child_step (rem : nat) (pc : N) (b e : nat) (ca : bool) (st : list (list (node P)) * list (list cnode) * nat) (i : N) : outcome (list (list (node P)) * list (list cnode) * nat) :=
  let '(trees, crits, retval) := st in
  do ch <- child_of rem pc b e ca i;
  match ch with
  | NoChild => Ok (trees, crits, retval)
  | _ =>
    do tc <- match ch with
             | Leaf t l => Ok (trees ++ [t], crits ++ [l])
             | Serial t l t' l' => Ok (trees ++ [t'], crits ++ [l'])
             | Parallel t l code b' e' ca' =>
               do r <- build_par rem (trees ++ [t]) (crits ++ [l]) code b' e' ca';
               let '(ts2, cs2, children_count) := r in
               do t2 <- rd ts2 (length trees);
               do t3 <- set_children t2 0 children_count;
               do ts3 <- wr ts2 (length trees) t3;
               Ok (ts3, cs2)
             | NoChild => UB
             end;
    let '(trees4, crits4) := tc in
    do t4 <- rd trees4 (length trees);
    do nd <- rd t4 0;
    do retval1 <- checked_uinc retval (n_children nd);
    do retval2 <- checked_uinc retval1 1;
    Ok (trees4, crits4, retval2)
  end.

Lemma foldM_same : forall {A S} (f g : S -> A -> outcome S) l s, (forall s a, f s a = g s a) -> foldM f l s = foldM g l s.
Proof. intros A S f g l. induction l as [|a l IH]; intros s H; [reflexivity|]. cbn [foldM]. rewrite H. destruct (g s a); cbn [bind]; auto. Qed.

Lemma build_par_steps : forall rem trees crits pc b e ca one, shl w 1 ((cb - N.of_nat (S rem)) * d) = Ok one ->
  build_par (S rem) trees crits pc b e ca = foldM (child_step rem pc b e ca) (upto (N.to_nat (2 ^ d))) (trees, crits, 0).
Proof.
  intros rem trees crits pc b e ca one H1. cbn [Build.build_par]. rewrite H1. cbn [bind]. apply foldM_same. intros [[ts cs] r] i. unfold child_step, ParBuild.child_of. rewrite H1. cbn [bind].
  destruct (shl w (usub w pc one) d) as [pre|x|]; cbn [bind]; try reflexivity.
  destruct (equal_range _ _ _ _ _) as [[lo hi]|x|]; cbn [bind]; try reflexivity.
  destruct (hi - lo =? 0); cbn [bind]; [reflexivity|].
  destruct (shl w pc d) as [pc'|x|]; cbn [bind]; try reflexivity.
  destruct (cnp _ _ _ _) as [props|x|]; cbn [bind]; try reflexivity.
  destruct (max_leaf_n <? hi - lo); cbn [bind]; [|reflexivity].
  destruct (hi - lo <? split_nparts); cbn [bind]; [|reflexivity].
  destruct (build_ser _ _ _ _ _ _ _ _ _ _ _ _) as [[[t2 l2] n2]|x|]; cbn [bind]; try reflexivity.
  destruct (set_children t2 0 n2) as [t3|x|]; cbn [bind]; reflexivity.
Qed.

Lemma uinc_Ok : forall a b x, checked_uinc a b = Ok x -> x = a + b.
Proof. intros a b x H. unfold checked_uinc in H. destruct (_ <? _)%N; congruence. Qed.

(** The end of an iteration. *)
Lemma tail_Ok : forall (trees : list (list (node P))) (crits' : list (list cnode)) t ts r out,
  (do t4 <- rd (trees ++ t :: ts) (length trees); do nd <- rd t4 0; do r1 <- checked_uinc r (n_children nd); do r2 <- checked_uinc r1 1; Ok (trees ++ t :: ts, crits', r2)) = Ok out ->
  exists nd t0, t = nd :: t0 /\ out = (trees ++ t :: ts, crits', r + (n_children nd + 1)).
Proof.
  intros trees crits' t ts r out H. rewrite rd_app_mid in H. cbn [bind] in H. destruct t as [|nd t0]; [discriminate H|]. cbn [rd nth_error bind] in H.
  apply bind_Ok in H as (r1 & H1 & H). apply bind_Ok in H as (r2 & H2 & H). apply uinc_Ok in H1, H2. subst. injection H as <-. exists nd, t0. split; [reflexivity|]. f_equal. lia.
Qed.

Lemma child_ok : forall rem p pc b e ca i q trees crits r trees' crits' r', par_ok rem ->
  child_prog (par_prog rem) rem p pc b e ca i q -> child_step rem pc b e ca (trees, crits, r) (N.of_nat i) = Ok (trees', crits', r') ->
  exists ids ts cs k, trees' = trees ++ ts /\ crits' = crits ++ cs /\ r' = r + k /\ Forall (fun id => exists s, id = s ++ i :: p) ids /\
    forall m, adds (below i p) q m ids ts cs /\ counts q m p k.
Proof.
  intros rem p pc b e ca i q trees crits r trees' crits' r' IH Hq Hs. unfold child_step in Hs. apply bind_Ok in Hs as (ch & Hch & Hs). unfold ParBuild.child_prog in Hq. rewrite Hch in Hq.
  destruct ch as [|t l|t l t' l'|t l code b' e' ca'].
  - injection Hs as <- <- <-. subst q. exists [], [], [], 0. rewrite !app_nil_r, Nat.add_0_r. do 3 (split; [reflexivity|]). split; [constructor|]. intros m. split; [split|].
    + exact I.
    + intros x [].
    + intros x Hx. now rewrite app_nil_r.
    + intros x Hx. now rewrite app_nil_r.
    + constructor.
    + constructor.
    + intros x Hx. now rewrite Nat.add_0_r.
  - cbn [bind] in Hs. apply tail_Ok in Hs as (nd & t0 & -> & X). injection X as -> -> ->. subst q. exists [i :: p], [nd :: t0], [l], (n_children nd + 1).
    do 3 (split; [reflexivity|]). split; [constructor; [exists []; reflexivity|constructor]|]. intros m.
    destruct (publish_spec i p (nd :: t0) l (add_count p (i :: p)) m) as (P1 & P2 & P3).
    destruct (add_count_spec p i (pub_mem m (i :: p) (nd :: t0) l) nd t0 (pub_tree _ _ _ _)) as (A1 & A2 & A3 & A4).
    split; [split|].
    + now apply P2.
    + now apply P3.
    + intros x Hx. rewrite P1, A3 by congruence. now apply pub_trees.
    + intros x Hx. rewrite P1, A3 by congruence. now apply pub_crits.
    + constructor; [|constructor]. rewrite P1, A3 by congruence. apply pub_tree.
    + constructor; [|constructor]. rewrite P1, A3 by congruence. apply pub_crit.
    + intros x Hx. rewrite P1. apply A4. now rewrite pub_count.
  - cbn [bind] in Hs. apply tail_Ok in Hs as (nd & t0 & -> & X). injection X as -> -> ->. subst q. exists [i :: p], [nd :: t0], [l'], (n_children nd + 1).
    set (k0 := Wr (BTree, i :: p) (YT (nd :: t0)) (Wr (BCrit, i :: p) (YK l') (add_count p (i :: p)))).
    do 3 (split; [reflexivity|]). split; [constructor; [exists []; reflexivity|constructor]|]. intros m.
    destruct (publish_spec i p t l k0 m) as (P1 & P2 & P3). set (m1 := pub_mem m (i :: p) t l) in *.
    set (m2 := upd (upd m1 (BTree, i :: p) (YT (nd :: t0))) (BCrit, i :: p) (YK l')).
    assert (T2 : m2 (BTree, i :: p) = YT (nd :: t0)) by (unfold m2; u; now u).
    assert (R2 : run k0 m1 = run (add_count p (i :: p)) m2) by reflexivity.
    destruct (add_count_spec p i m2 nd t0 T2) as (A1 & A2 & A3 & A4).
    split; [split|].
    + now apply P2.
    + apply P3. intros x [<-|[<-|Hx]]; [apply below_self; auto|apply below_self; auto|now apply A2].
    + intros x Hx. rewrite P1, R2, A3 by congruence. unfold m2. u. u. now apply pub_trees.
    + intros x Hx. rewrite P1, R2, A3 by congruence. unfold m2. u. u. now apply pub_crits.
    + constructor; [|constructor]. rewrite P1, R2, A3 by congruence. exact T2.
    + constructor; [|constructor]. rewrite P1, R2, A3 by congruence. unfold m2. now u.
    + intros x Hx. rewrite P1, R2. apply A4. unfold m2. u. u. unfold m1. now rewrite pub_count.
  - destruct Hq as (q0 & Hq0 & ->). apply bind_Ok in Hs as ([ts4 cs4] & Hb & Hs). apply bind_Ok in Hb as ([[ts2 cs2] n] & Hb & H3).
    destruct (IH _ _ _ _ _ _ _ _ _ _ _ Hb Hq0) as (ids & ts & cs & -> & -> & Hids & Hadds).
    rewrite <- !app_assoc in H3. cbn [List.app] in H3. rewrite rd_app_mid in H3. cbn [bind] in H3. apply bind_Ok in H3 as (t3 & Ht3 & H3). rewrite wr_app_mid in H3. cbn [bind] in H3.
    injection H3 as <- <-. apply tail_Ok in Hs as (nd & t0 & -> & X). injection X as -> -> ->.
    exists ((i :: p) :: ids), ((nd :: t0) :: ts), (l :: cs), (n_children nd + 1).
    split; [reflexivity|]. split; [reflexivity|]. split; [reflexivity|]. split.
    { constructor; [now exists []|]. eapply Forall_impl; [|exact Hids]. intros id (s & j & ->). exists (s ++ [j]). now rewrite <- app_assoc. }
    intros m. destruct (publish_spec i p t l (app q0 (take_count p (i :: p))) m) as (P1 & P2 & P3). set (m1 := pub_mem m (i :: p) t l) in *.
    destruct (Hadds m1) as [[S1 F1 B1 B2 T1 C1] N1]. set (m2 := run q0 m1) in *.
    assert (U : forall a x, (a = BTree \/ a = BCrit \/ a = BCount) -> (a, x) <> (BCount, i :: p) -> (forall s j, x <> s ++ j :: i :: p) -> m2 (a, x) = m1 (a, x)).
    { intros a x Ha Hx Hn. unfold m2. apply untouched; intros HI; apply F1 in HI; destruct HI as [(a' & s & j & _ & E)|[E|[E|E]]]; cbn [snd] in E;
        try (injection E as _ E; now apply Hn in E); try congruence; injection E as E _; subst a; destruct Ha as [|[|]]; discriminate. }
    assert (T2 : m2 (BTree, i :: p) = YT t) by (rewrite U; [apply pub_tree|auto|congruence|intros s j X; symmetry in X; now apply path_neq in X]).
    assert (R2 : run (take_count p (i :: p)) m2 = run (add_count p (i :: p)) (upd m2 (BTree, i :: p) (YT (nd :: t0)))).
    { unfold take_count. cbn [ParBag.run]. rewrite N1. cbn [ParBag.run]. rewrite T2, Ht3. reflexivity. }
    set (m3 := upd m2 (BTree, i :: p) (YT (nd :: t0))) in *.
    destruct (add_count_spec p i m3 nd t0) as (A1 & A2 & A3 & A4); [apply upd_same|].
    assert (RR : run (publish (i :: p) t l (app q0 (take_count p (i :: p)))) m = run (add_count p (i :: p)) m3) by (rewrite P1, run_app; exact R2).
    split; [split|].
    + apply P2, safe_app; [exact S1|]. fold m2. unfold take_count. cbn [ParBag.safe]. rewrite N1. split; [intros y Hy; now rewrite (bplain_eq (YC n) y I Hy)|]. cbn [ParBag.safe]. rewrite T2, Ht3.
      split; [intros y Hy; rewrite (bplain_eq (YT t) y I Hy), Ht3; reflexivity|]. exact A1.
    + apply P3. intros x Hx. rewrite foot_app in Hx. apply in_app_iff in Hx as [Hx|Hx]; [apply within_below; now apply F1|]. fold m2 in Hx.
      unfold take_count in Hx. cbn [ParBag.foot] in Hx. rewrite N1 in Hx. cbn [ParBag.foot] in Hx. rewrite T2, Ht3 in Hx. cbn [ParBag.foot] in Hx.
      destruct Hx as [<-|[<-|[<-|Hx]]]; [apply below_self; auto|apply below_self; auto|apply below_self; auto|now apply A2].
    + intros x Hx. rewrite RR, A3 by congruence. unfold m3. u. rewrite (B1 (x ++ [i :: p])) by (now apply pub_trees). now rewrite <- app_assoc.
    + intros x Hx. rewrite RR, A3 by congruence. unfold m3. u. rewrite (B2 (x ++ [i :: p])) by (now apply pub_crits). now rewrite <- app_assoc.
    + rewrite RR. constructor; [rewrite A3 by congruence; apply upd_same|]. rewrite Forall_forall in Hids. clear - T1 A3 Hids.
      assert (forall id, In id ids -> run (add_count p (i :: p)) m3 (BTree, id) = m2 (BTree, id)).
      { intros id Hid. rewrite A3 by congruence. unfold m3. apply upd_other. intros X. injection X as ->. destruct (Hids _ Hid) as (s & j & X). symmetry in X. now apply path_neq in X. }
      clear A3 Hids. induction T1 as [|id t1 ids ts H1 H2 IH]; constructor; [rewrite H by (now left); exact H1|]. apply IH. intros x Hx. apply H. now right.
    + rewrite RR. constructor.
      { rewrite A3 by congruence. unfold m3. u. rewrite U; [apply pub_crit|auto|congruence|intros s j X; symmetry in X; now apply path_neq in X]. }
      assert (forall id, In id ids -> run (add_count p (i :: p)) m3 (BCrit, id) = m2 (BCrit, id)) by (intros id Hid; rewrite A3 by congruence; unfold m3; now u).
      clear - C1 H. induction C1 as [|id t1 ids ts H1 H2 IH]; constructor; [rewrite H by (now left); exact H1|]. apply IH. intros x Hx. apply H. now right.
    + intros x Hx. rewrite RR. apply A4. unfold m3. u. rewrite U; [unfold m1; now rewrite pub_count|auto| |].
      * intros X. injection X as X. apply (f_equal (@length _)) in X. cbn in X. lia.
      * intros s j X. apply (f_equal (@length _)) in X. rewrite app_length in X. cbn in X. lia.
Qed.

Lemma runs_other : forall (body : nat -> prog) i p a s is m, a = BTree \/ a = BCrit -> ~ In i is -> (forall j, In j is -> forall m x, In x (foot (body j) m) -> below j p x) ->
  runs (map body is) m (a, s ++ i :: p) = m (a, s ++ i :: p).
Proof.
  intros body i p a s is. induction is as [|j is IH]; intros m Ha N1 SF; [reflexivity|]. change (runs (map body (j :: is)) m) with (runs (map body is) (run (body j) m)).
  rewrite IH; [|exact Ha|intros X; apply N1; now right|intros x Hx; apply SF; now right].
  apply untouched; intros HI; apply (SF j (or_introl eq_refl)) in HI; destruct HI as [(a' & s' & _ & E)|[E|[E|E]]]; cbn [snd] in E;
    try (injection E as _ E; apply path_inj in E; apply N1; now left); try discriminate E; injection E as E _; subst a; destruct Ha; discriminate.
Qed.

(** The loop. *)
Lemma loop_ok : forall rem p pc b e ca (body : nat -> prog) is, par_ok rem -> NoDup is -> (forall i, In i is -> child_prog (par_prog rem) rem p pc b e ca i (body i)) ->
  forall trees crits r trees' crits' r', foldM (child_step rem pc b e ca) (map N.of_nat is) (trees, crits, r) = Ok (trees', crits', r') ->
  (forall i, In i is -> forall m, safe (body i) m /\ forall x, In x (foot (body i) m) -> below i p x) /\
  exists ids ts cs k, trees' = trees ++ ts /\ crits' = crits ++ cs /\ r' = r + k /\ Forall (fun id => exists s i, In i is /\ id = s ++ i :: p) ids /\
    forall m, let m' := runs (map body is) m in
      (forall l, m (BTrees, []) = YB l -> m' (BTrees, []) = YB (l ++ ids)) /\ (forall l, m (BCrits, []) = YB l -> m' (BCrits, []) = YB (l ++ ids)) /\
      Forall2 (fun id t => m' (BTree, id) = YT t) ids ts /\ Forall2 (fun id l => m' (BCrit, id) = YK l) ids cs /\ (forall x, m (BCount, p) = YC x -> m' (BCount, p) = YC (x + k)).
Proof.
  intros rem p pc b e ca body is IH. induction is as [|i is IHl]; intros ND HB trees crits r trees' crits' r' H; cbn [map foldM] in H.
  - injection H as <- <- <-. split; [intros i []|]. exists [], [], [], 0. rewrite !app_nil_r, Nat.add_0_r. repeat split; auto; cbn; intros x Hx; rewrite ?app_nil_r, ?Nat.add_0_r; exact Hx.
  - apply bind_Ok in H as ([[trees1 crits1] r1] & H1 & H2). inversion ND as [|? ? N1 N2]; subst.
    destruct (child_ok rem p pc b e ca i (body i) trees crits r trees1 crits1 r1 IH (HB i (or_introl eq_refl)) H1) as (ids1 & ts1 & cs1 & k1 & -> & -> & -> & Hi1 & A1).
    destruct (IHl N2 (fun j Hj => HB j (or_intror Hj)) _ _ _ _ _ _ H2) as (SF & ids2 & ts2 & cs2 & k2 & -> & -> & -> & Hi2 & A2).
    split.
    { intros j [<-|Hj] m; [|now apply SF]. destruct (A1 m) as [[S1 F1 _ _ _ _] _]. auto. }
    exists (ids1 ++ ids2), (ts1 ++ ts2), (cs1 ++ cs2), (k1 + k2). rewrite !app_assoc, Nat.add_assoc. repeat split; auto.
    { apply Forall_app. split; eapply Forall_impl; [|exact Hi1| |exact Hi2]; [intros id (s & ->); exists s, i; split; [now left|reflexivity]|intros id (s & j & Hj & ->); exists s, j; split; [now right|reflexivity]]. }
    all: change (runs (map body (i :: is)) m) with (runs (map body is) (run (body i) m)); destruct (A1 m) as [[S1 F1 B1 B2 T1 C1] K1]; set (m1 := run (body i) m) in *;
      destruct (A2 m1) as (D1 & D2 & D3 & D4 & D5).
    + intros l Hl. rewrite (D1 (l ++ ids1)) by (now apply B1). now rewrite app_assoc.
    + intros l Hl. rewrite (D2 (l ++ ids1)) by (now apply B2). now rewrite app_assoc.
    + apply Forall2_app; [|exact D3]. assert (U : forall s, runs (map body is) m1 (BTree, s ++ i :: p) = m1 (BTree, s ++ i :: p)) by (intros s; apply runs_other; [auto|exact N1|intros j Hj m'; now apply SF]).
      clear - T1 Hi1 U. induction T1 as [|id t ids ts H1 H2 IHT]; [constructor|]. inversion_clear Hi1 as [|? ? (s & Es) Hr]. constructor; [rewrite Es, U, <- Es; exact H1|now apply IHT].
    + apply Forall2_app; [|exact D4]. assert (U : forall s, runs (map body is) m1 (BCrit, s ++ i :: p) = m1 (BCrit, s ++ i :: p)) by (intros s; apply runs_other; [auto|exact N1|intros j Hj m'; now apply SF]).
      clear - C1 Hi1 U. induction C1 as [|id t ids ts H1 H2 IHT]; [constructor|]. inversion_clear Hi1 as [|? ? (s & Es) Hr]. constructor; [rewrite Es, U, <- Es; exact H1|now apply IHT].
    + intros x Hx. rewrite (D5 (x + k1)) by (now apply K1). f_equal. lia.
Qed.

Lemma upto_seq : forall k, upto k = map N.of_nat (seq 0 k).
Proof. induction k as [|k IH]; [reflexivity|]. rewrite seq_S, map_app, <- IH. reflexivity. Qed.

Lemma par_all : forall rem, par_ok rem.
Proof.
  induction rem as [|rem IH]; intros p pc b e ca trees crits trees' crits' n q Hb Hq.
  - cbn in Hb. injection Hb as <- <- <-. cbn in Hq. subst q. exists [], [], []. rewrite !app_nil_r. split; [reflexivity|]. split; [reflexivity|]. split; [constructor|].
    intros m. split; [split; cbn [ParBag.run ParBag.foot ParBag.safe]|apply upd_same].
    + exact I.
    + intros x [<-|[]]. right. now left.
    + intros l Hl. u. now rewrite app_nil_r.
    + intros l Hl. u. now rewrite app_nil_r.
    + constructor.
    + constructor.
  - assert (HO : exists one, shl w 1 ((cb - N.of_nat (S rem)) * d) = Ok one).
    { cbn [Build.build_par] in Hb. apply bind_Ok in Hb as (one & H1 & _). eauto. }
    destruct HO as (one & H1). rewrite (build_par_steps rem trees crits pc b e ca one H1) in Hb. rewrite upto_seq in Hb. cbn [ParBuild.par_prog] in Hq. destruct Hq as (body & q1 & HB & Hp & ->).
    assert (HB' : forall i, In i (seq 0 (N.to_nat (2 ^ d))) -> child_prog (par_prog rem) rem p pc b e ca i (body i)) by (intros i Hi; apply in_seq in Hi; apply HB; lia).
    destruct (loop_ok rem p pc b e ca body (seq 0 (N.to_nat (2 ^ d))) IH (seq_NoDup _ _) HB' _ _ _ _ _ _ Hb) as (SF & ids & ts & cs & k & -> & -> & -> & Hi & A).
    exists ids, ts, cs. split; [reflexivity|]. split; [reflexivity|]. split; [eapply Forall_impl; [|exact Hi]; intros id (s & i & _ & ->); eauto|].
    intros m. cbn [ParBag.run]. set (m0 := upd m (BCount, p) (YC 0)). destruct (A m0) as (D1 & D2 & D3 & D4 & D5).
    pose proof (run_pfor _ _ bloc_eq bop body 0 _ q1 m0 Hp) as RP. rewrite Nat.sub_0_r in RP. rewrite <- RP in D1, D2, D3, D4, D5.
    destruct (safe_pfor _ _ bloc_eq bop balike balike_refl balike_trans balike_op body 0 _ q1 m0 Hp) as [S1 F1].
    { intros i Hj. apply SF. apply in_seq. lia. }
    { intros i j Hii Hj Hij. apply (below_apart i j p); [exact Hij|apply SF; apply in_seq; lia|apply SF; apply in_seq; lia]. }
    split; [split|].
    + cbn [ParBag.safe]. exact S1.
    + cbn [ParBag.foot]. intros x [<-|Hx]; [right; now left|]. destruct (F1 x Hx) as (i & Hj & Hx'). apply (below_within i). apply (SF i ltac:(apply in_seq; lia) m0). exact Hx'.
    + intros l Hl. cbn [ParBag.run]. fold m0. apply D1. unfold m0. now u.
    + intros l Hl. cbn [ParBag.run]. fold m0. apply D2. unfold m0. now u.
    + exact D3.
    + exact D4.
    + apply (D5 0). unfold m0. apply upd_same.
Qed.

(** * Any permutation is what some schedule does *)
Definition pick {A} (idx : list nat) (l : list A) : list A := flat_map (fun i => match nth_error l i with Some x => [x] | None => [] end) idx.

Lemma pick_all : forall {A} (l pre : list A), pick (seq (length pre) (length l)) (pre ++ l) = l.
Proof.
  intros A. induction l as [|x l IH]; intros pre; [reflexivity|]. cbn [length seq pick flat_map]. rewrite nth_error_app2, Nat.sub_diag by lia. cbn [nth_error List.app]. f_equal.
  specialize (IH (pre ++ [x])). rewrite app_length, <- app_assoc in IH. cbn [length List.app] in IH. now rewrite Nat.add_1_r in IH.
Qed.

Lemma in_combine_nth : forall {A} (l pre : list A) i x, In (i, x) (combine (seq (length pre) (length l)) l) -> nth_error (pre ++ l) i = Some x.
Proof.
  intros A. induction l as [|y l IH]; intros pre i x H; [destruct H|]. cbn [length seq combine] in H. destruct H as [E|H].
  - injection E as <- <-. now rewrite nth_error_app2, Nat.sub_diag by lia.
  - specialize (IH (pre ++ [y]) i x). rewrite app_length, <- app_assoc in IH. cbn [length List.app] in IH. rewrite Nat.add_1_r in IH. now apply IH.
Qed.

Lemma snd_combine : forall {A} (s : list nat) (l : list A), length s = length l -> map snd (combine s l) = l /\ map fst (combine s l) = s.
Proof.
  intros A. induction s as [|y s IH]; intros [|x l] HL; try discriminate; [now split|]. cbn in HL |- *. destruct (IH l ltac:(lia)) as [-> ->]. now split.
Qed.

Lemma schedule_for : forall {A} (l l' : list A), Permutation l l' -> exists st, (forall k, Permutation (st k) k) /\ st l = l'.
Proof.
  intros A l l' H. destruct (snd_combine (seq 0 (length l)) l (seq_length _ _)) as [E1 E2]. rewrite <- E1 in H at 1. apply Permutation_sym, Permutation_map_inv in H as (l3 & -> & H3).
  exists (fun k => if length k =? length l then pick (map fst l3) k else k). split.
  - intros k. destruct (Nat.eqb_spec (length k) (length l)) as [E|]; [|apply Permutation_refl].
    rewrite <- (pick_all k []) at 2. cbn [length List.app]. unfold pick. apply Permutation_flat_map. rewrite E, <- E2. now apply Permutation_map, Permutation_sym.
  - rewrite Nat.eqb_refl. assert (HI : forall x, In x l3 -> nth_error l (fst x) = Some (snd x)).
    { intros [i x] Hx. apply (in_combine_nth l []). apply (Permutation_in _ (Permutation_sym H3)). exact Hx. }
    clear -HI. induction l3 as [|x l3 IH]; [reflexivity|]. unfold pick in *. cbn [map flat_map]. rewrite (HI x ltac:(now left)). cbn [List.app]. f_equal. apply IH. intros y Hy. apply HI. now right.
Qed.

(** * The whole construction *)
Lemma balike_YB : forall (x : bval) l, balike x (YB l) -> exists l', x = YB l' /\ Permutation l l'.
Proof. intros [] k H; cbn in H; try discriminate. eexists. split; [reflexivity|]. now apply Permutation_sym. Qed.

Lemma Forall2_alike : forall (m m' : mem) (a : barr) (V : Type) (Y : V -> bval) ids ts, (forall v, bplain (Y v)) -> (forall l, balike (m' l) (m l)) ->
  Forall2 (fun id t => m (a, id) = Y t) ids ts -> Forall2 (fun id t => m' (a, id) = Y t) ids ts.
Proof. intros m m' a V Y ids ts HY H F. induction F as [|id t ids ts E F IH]; constructor; [|exact IH]. apply bplain_eq; [apply HY|]. rewrite <- E. apply H. Qed.

Lemma build_runs : forall nodes crit (q : prog) (m : mem), codes <> [] ->
  (forall st sc, (forall l, Permutation (st l) l) -> (forall l, Permutation (sc l) l) -> build_tree c codes max_leaf_n ncrit cnp split_nparts st sc = Ok (nodes, crit)) ->
  m (BTrees, []) = YB [] -> m (BCrits, []) = YB [] -> m (BRoot, []) = YC 0 ->
  build_prog c codes max_leaf_n ncrit cnp split_nparts q ->
  all_runs q m (fun m' => built c codes m' nodes crit).
Proof.
  intros nodes crit q m Hne HB M1 M2 M3 (props & q0 & Hp & Hq0 & ->).
  set (n := length codes) in *. set (rc := (n <=? ncrit) || (n <=? max_leaf_n)) in *.
  assert (Hn : (n =? 0) = false) by (apply Nat.eqb_neq; unfold n; destruct codes; [congruence|discriminate]).
  set (crits0 := if rc then [[mkCnode 1 0 n]] else []). set (cids0 := if rc then [[]] else [] : list (list nat)).
  assert (HT : exists trees crits n_ch, (if max_leaf_n <? n then build_par (N.to_nat cb) [] crits0 1%N 0 n rc else Ok ([], crits0, 0)) = Ok (trees, crits, n_ch) /\
     forall st sc, (forall l, Permutation (st l) l) -> (forall l, Permutation (sc l) l) -> exists sts scs, sortM (trees_lt c) (st trees) = Ok sts /\ sortM crits_lt (sc crits) = Ok scs /\
       nodes = mkNode 0 n n_ch 1%N 0%N props :: concat sts /\ crit = concat scs).
  { assert (HB1 : forall st sc, (forall l, Permutation (st l) l) -> (forall l, Permutation (sc l) l) ->
      exists r, (if max_leaf_n <? n then build_par (N.to_nat cb) [] crits0 1%N 0 n rc else Ok ([], crits0, 0)) = Ok r /\
       exists sts scs, sortM (trees_lt c) (st (fst (fst r))) = Ok sts /\ sortM crits_lt (sc (snd (fst r))) = Ok scs /\
       nodes = mkNode 0 n (snd r) 1%N 0%N props :: concat sts /\ crit = concat scs).
    { intros st sc Hst Hsc. specialize (HB st sc Hst Hsc). unfold build_tree in HB. fold n in HB. cbv zeta in HB. rewrite Hn in HB.
      apply bind_Ok in HB as (u0 & _ & HB). rewrite Hp in HB. cbn [bind] in HB. apply bind_Ok in HB as (r & Hr & HB). exists r. split; [exact Hr|]. destruct r as [[trees crits] n_ch].
      apply bind_Ok in HB as (sts & S1 & HB). apply bind_Ok in HB as (u1 & _ & HB). apply bind_Ok in HB as (scs & S2 & HB). apply bind_Ok in HB as (u2 & _ & HB).
      injection HB as <- <-. exists sts, scs. auto. }
    destruct (HB1 (fun l => l) (fun l => l) (fun l => Permutation_refl l) (fun l => Permutation_refl l)) as ([[trees crits] n_ch] & Hr & _).
    exists trees, crits, n_ch. split; [exact Hr|]. intros st sc Hst Hsc. destruct (HB1 st sc Hst Hsc) as (r & Hr' & H). rewrite Hr in Hr'. injection Hr' as <-. exact H. }
  destruct HT as (trees & crits & n_ch & Hr & HS). clear HB.
  set (m1 := upd m (BProps, []) (YP props)).
  set (m2 := if rc then let m' := upd m1 (BCrit, []) (YK [mkCnode 1 0 n]) in upd m' (BCrits, []) (bop (YB [[]]) (m' (BCrits, []))) else m1).
  assert (N1 : m2 (BTrees, []) = YB []). { unfold m2, m1. destruct rc; cbv zeta; repeat u; exact M1. }
  assert (N2 : m2 (BCrits, []) = YB cids0). { unfold m2, m1, cids0. destruct rc; cbv zeta; repeat u; rewrite M2; reflexivity. }
  assert (N3 : m2 (BRoot, []) = YC 0). { unfold m2, m1. destruct rc; cbv zeta; repeat u; exact M3. }
  assert (N4 : m2 (BProps, []) = YP props). { unfold m2, m1. destruct rc; cbv zeta; repeat u; reflexivity. }
  assert (N5 : Forall2 (fun id l => m2 (BCrit, id) = YK l) cids0 crits0). { unfold m2, m1, cids0, crits0. destruct rc; constructor; [|constructor]. cbv zeta. now repeat u. }
  set (q1 := if max_leaf_n <? n then app q0 (Rd (BCount, []) (fun v => match v with YC k => Wr (BRoot, []) (YC k) Ret | _ => Ret end)) else Ret).
  (* The second task, after the critical node of the root. *)
  assert (A : exists ids cs, crits = crits0 ++ cs /\ safe q1 m2 /\ (forall x, In x (foot q1 m2) -> within [] x \/ snd x = (BRoot, [])) /\
     run q1 m2 (BTrees, []) = YB ids /\ Forall2 (fun id t => run q1 m2 (BTree, id) = YT t) ids trees /\
     run q1 m2 (BCrits, []) = YB (cids0 ++ ids) /\ Forall2 (fun id l => run q1 m2 (BCrit, id) = YK l) (cids0 ++ ids) crits /\
     run q1 m2 (BProps, []) = YP props /\ run q1 m2 (BRoot, []) = YC n_ch).
  { unfold q1. destruct (max_leaf_n <? n).
    - destruct (par_all _ _ _ _ _ _ _ _ _ _ _ _ Hr Hq0) as (ids & ts & cs & -> & -> & Hi & A). destruct (A m2) as ([A1 A2 A3 A4 A5 A6] & A7). cbn [List.app].
      set (k := Rd (BCount, []) _). set (mf := run q0 m2) in *.
      assert (K : run (app q0 k) m2 = upd mf (BRoot, []) (YC n_ch)). { rewrite run_app. fold mf. unfold k. cbn [ParBag.run]. rewrite A7. reflexivity. }
      assert (W : forall a, a = BProps \/ a = BCrit -> mf (a, []) = m2 (a, [])).
      { intros a Ha. apply untouched; intros Hx; apply A2 in Hx; destruct Hx as [(a' & s & i & Ha' & E)|[E|[E|E]]]; cbn in E; try (destruct Ha as [->| ->]; discriminate E);
          injection E as _ E; destruct s; discriminate E. }
      exists ids, cs. split; [reflexivity|]. split; [|split].
      + apply safe_app; [exact A1|]. fold mf. unfold k. cbn [ParBag.safe]. rewrite A7. cbn [ParBag.safe]. split; [|exact I].
        intros y Hy. destruct y; cbn in Hy; try discriminate. now injection Hy as ->.
      + intros x Hx. rewrite foot_app in Hx. apply in_app_or in Hx as [Hx|Hx]; [left; now apply A2|]. fold mf in Hx. unfold k in Hx. cbn [ParBag.foot] in Hx. rewrite A7 in Hx.
        cbn [ParBag.foot] in Hx. destruct Hx as [<-|[<-|[]]]; [left; right; now left|right; reflexivity].
      + rewrite K. repeat u. split; [exact (A3 _ N1)|]. split; [|split; [exact (A4 _ N2)|split; [|split; [now rewrite (W BProps) by auto|reflexivity]]]].
        * clear -A5. induction A5 as [|id t ids ts E F IH]; constructor; [now u|exact IH].
        * apply Forall2_app; [|clear -A6; induction A6 as [|id t ids ts E F IH]; constructor; [now u|exact IH]].
          clear -N5 W. unfold cids0, crits0 in *. destruct rc; [|constructor]. inversion_clear N5 as [|? ? ? ? E F]. constructor; [|constructor]. u. rewrite (W BCrit) by auto. exact E.
    - injection Hr as <- <- <-. exists [], []. rewrite !app_nil_r. cbn [ParBag.run ParBag.safe ParBag.foot]. split; [reflexivity|]. split; [exact I|]. split; [intros x []|]. auto 10. }
  destruct A as (ids & cs & -> & A1 & A2 & A3 & A4 & A5 & A6 & A7 & A8).
  set (q2 := if rc then Wr (BCrit, []) (YK [mkCnode 1 0 n]) (At (BCrits, []) (YB [[]]) q1) else q1).
  assert (R2 : run q2 m1 = run q1 m2) by (unfold q2, m2; destruct rc; reflexivity).
  assert (S2 : safe q2 m1) by (unfold q2; unfold m2 in A1; destruct rc; exact A1).
  assert (F2 : forall x, In x (foot q2 m1) -> snd x <> (BProps, [])).
  { assert (F1 : forall x, In x (foot q1 m2) -> snd x <> (BProps, [])).
    { intros x Hx E. apply A2 in Hx. destruct Hx as [[(a' & s & i & Ha' & E')|[E'|[E'|E']]]|E']; try (subst x; discriminate E); rewrite E in E'; try discriminate E'.
      injection E' as <- _. destruct Ha' as [Ha'|[Ha'|Ha']]; discriminate Ha'. }
    unfold q2. unfold m2 in F1. destruct rc; [|exact F1]. cbn [ParBag.foot]. intros x [<-|[<-|Hx]]; [discriminate|discriminate|now apply F1]. }
  apply (all_runs_intro _ _ bloc_eq bop balike balike_refl balike_sym balike_trans balike_op bop_comm).
  - cbn [ParBag.safe ParBag.run ParBag.foot]. fold m1. fold q1. fold q2. split; [exact I|]. split; [exact S2|]. split; [|exact I].
    intros k k' l [E|[]] Hl. injection E as <- <-. now apply F2 in Hl.
  - intros m' Hm. change (forall l, balike (m' l) (run q2 m1 l)) in Hm. rewrite R2 in Hm.
    pose proof (Hm (BTrees, [])) as H1. rewrite A3 in H1. apply balike_YB in H1 as (ids' & E1 & P1).
    pose proof (Hm (BCrits, [])) as H2. rewrite A5 in H2. apply balike_YB in H2 as (cids' & E2 & P2).
    apply (Forall2_alike _ m' BTree _ YT) in A4; [|intros v; exact I|exact Hm]. apply (Forall2_alike _ m' BCrit _ YK) in A6; [|intros v; exact I|exact Hm].
    destruct (Permutation_Forall2 P1 A4) as (ts' & Q1 & G1). destruct (Permutation_Forall2 P2 A6) as (cs' & Q2 & G2).
    destruct (schedule_for _ _ Q1) as (st & Hst & <-). destruct (schedule_for _ _ Q2) as (sc & Hsc & <-).
    destruct (HS st sc Hst Hsc) as (sts & scs & S3 & S4 & S5 & S6).
    exists ids', cids', (st trees), (sc (crits0 ++ cs)), sts, scs, props, n_ch. repeat (split; [assumption|]).
    split; [apply bplain_eq; [exact I|]; rewrite <- A7; apply Hm|]. split; [apply bplain_eq; [exact I|]; rewrite <- A8; apply Hm|]. split; [exact S5|exact S6].
Qed.

End P.
