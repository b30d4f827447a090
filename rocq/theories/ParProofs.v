(** The parallel parts of the library have no data races, and all their interleavings give the results of the sequential model. *)
From Coq Require Import List Arith NArith ZArith Bool Lia Permutation.
From Verif Require Import Base Config Morton Build TreeSpec FOps Disc NodeProps Tree TreeInv TreeProofs Par ParTree.
Import ListNotations.
Local Open Scope nat_scope.

Section P.

Context {F : Type}.
Notation val := (val F).
Notation prog := (cmd loc val).
Notation mem := (loc -> val).
Notation run := (Par.run loc val loc_eq).
Notation foot := (Par.foot loc val loc_eq).
Notation safe := (Par.safe loc val loc_eq).
Notation upd := (Par.upd loc val loc_eq).
Notation apart := (Par.apart loc).

(** The array [a] contains the elements of [l]. *)
Definition holds {A} (m : mem) (a : arr) (f : A -> val) (l : list A) : Prop := forall i x, nth_error l i = Some x -> m (a, i) = f x.

(** A program that reads [rs] and then writes one location. *)
Definition one (m : mem) (q : prog) (rs : list loc) (w : loc) (v : val) : Prop :=
  safe q m /\ foot q m = map (pair false) rs ++ [(true, w)] /\ run q m w = v.

Lemma loop_spec : forall (body : nat -> prog) b n q m, pfor body b n q -> (forall i, b <= i < n -> safe (body i) m) ->
  (forall i j, b <= i < n -> b <= j < n -> i <> j -> apart (foot (body i) m) (foot (body j) m)) ->
  safe q m /\ (forall i l, b <= i < n -> In (true, l) (foot (body i) m) -> run q m l = run (body i) m l) /\
  (forall l, (forall i, b <= i < n -> ~ In (true, l) (foot (body i) m)) -> run q m l = m l) /\
  (forall x, In x (foot q m) -> exists i, b <= i < n /\ In x (foot (body i) m)).
Proof.
  intros body b n q m H HS HA. destruct (behaves_pfor loc val loc_eq body b n q m H) as (Hb & B1 & B2 & B3 & B4); [split; auto|].
  split; [exact B1|]. split; [|split].
  - intros i l Hi Hl. apply B3; [|exact Hl]. apply in_map, in_seq. lia.
  - intros l Hl. apply B4. intros f Hf. apply in_map_iff in Hf as (i & <- & Hi). apply in_seq in Hi. apply Hl. lia.
  - intros x Hx. destruct (B2 x Hx) as (f & Hf & Hx'). apply in_map_iff in Hf as (i & <- & Hi). apply in_seq in Hi. exists i. split; [lia|exact Hx'].
Qed.

Lemma in_one : forall (rs : list loc) w0 w l, In (w, l) (map (pair false) rs ++ [(true, w0)]) <-> (w = true /\ l = w0) \/ (w = false /\ In l rs).
Proof.
  intros rs w0 w l. rewrite in_app_iff, in_map_iff. cbn [In]. split.
  - intros [(x & X & Hx)|[X|[]]]; injection X as -> ->; [right|left]; auto.
  - intros [[-> ->]|[-> H]]; [right; now left|left; exists l; auto].
Qed.

Lemma loop_one : forall (body : nat -> prog) n q m (rs : nat -> list loc) (w : nat -> loc) (v : nat -> val), pfor body 0 n q ->
  (forall i, i < n -> one m (body i) (rs i) (w i) (v i)) ->
  (forall i j, i < n -> j < n -> i <> j -> w i <> w j) -> (forall i j, i < n -> j < n -> i <> j -> ~ In (w i) (rs j)) ->
  safe q m /\ (forall i, i < n -> run q m (w i) = v i) /\ (forall l, (forall i, i < n -> l <> w i) -> run q m l = m l) /\
  (forall b l, In (b, l) (foot q m) -> exists i, i < n /\ ((b = true /\ l = w i) \/ (b = false /\ In l (rs i)))).
Proof.
  intros body n q m rs w v H H1 H2 H3. destruct (loop_spec body 0 n q m H) as (L1 & L2 & L3 & L4).
  - intros i Hi. apply H1. lia.
  - intros i j Hi Hj Hij. destruct (H1 i ltac:(lia)) as (_ & Fi & _). destruct (H1 j ltac:(lia)) as (_ & Fj & _). rewrite Fi, Fj.
    intros b b' l Hb Hb'. apply in_one in Hb, Hb'. destruct Hb as [[-> ->]|[-> Hb]], Hb' as [[-> Hb']|[-> Hb']]; [| | |auto]; exfalso.
    + apply (H2 i j); auto; lia.
    + apply (H3 i j); auto; lia.
    + subst l. apply (H3 j i); auto; lia.
  - split; [exact L1|]. split; [|split].
    + intros i Hi. destruct (H1 i Hi) as (_ & Fi & Ri). rewrite (L2 i (w i)); [exact Ri|lia|]. rewrite Fi. apply in_one. now left.
    + intros l Hl. apply L3. intros i Hi. destruct (H1 i ltac:(lia)) as (_ & Fi & _). rewrite Fi. intros X. apply in_one in X as [[_ X]|[X _]]; [|discriminate].
      apply (Hl i); [lia|exact X].
    + intros b l Hl. destruct (L4 _ Hl) as (i & Hi & X). destruct (H1 i ltac:(lia)) as (_ & Fi & _). rewrite Fi in X. apply in_one in X. exists i. split; [lia|exact X].
Qed.

(** * Reads and writes *)
Lemma run_collect : forall ls (k : list val -> prog) m, run (collect ls k) m = run (k (map m ls)) m.
Proof. induction ls as [|l ls IH]; intros k m; cbn [collect Par.run map]; [reflexivity|]. now rewrite IH. Qed.

Lemma foot_collect : forall ls (k : list val -> prog) m, foot (collect ls k) m = map (pair false) ls ++ foot (k (map m ls)) m.
Proof. induction ls as [|l ls IH]; intros k m; cbn [collect Par.foot map List.app]; [reflexivity|]. now rewrite IH. Qed.

Lemma safe_collect : forall ls (k : list val -> prog) m, safe (collect ls k) m <-> safe (k (map m ls)) m.
Proof. induction ls as [|l ls IH]; intros k m; cbn [collect Par.safe map]; [tauto|]. apply IH. Qed.

Lemma safe_writes : forall ws m, safe (writes ws) m.
Proof. induction ws as [|[l v] ws IH]; intros m; cbn [writes Par.safe]; [exact I|apply IH]. Qed.

Lemma foot_writes : forall ws m, foot (writes ws) m = map (fun x => (true, fst x)) ws.
Proof. induction ws as [|[l v] ws IH]; intros m; cbn [writes Par.foot map fst]; [reflexivity|]. now rewrite IH. Qed.

Lemma run_writes_out : forall ws m l, ~ In l (map fst ws) -> run (writes ws) m l = m l.
Proof.
  intros ws m l H. apply unwritten. rewrite foot_writes. intros X. apply in_map_iff in X as (y & X & Hy). injection X as <-. apply H. now apply in_map.
Qed.

Lemma run_writes_in : forall ws m l v, NoDup (map fst ws) -> In (l, v) ws -> run (writes ws) m l = v.
Proof.
  induction ws as [|[l0 v0] ws IH]; intros m l v ND H; [destruct H|]. cbn [map fst] in ND. inversion ND as [|? ? N1 N2]; subst. cbn [writes Par.run].
  destruct H as [H|H]; [|now apply IH]. injection H as <- <-. rewrite run_writes_out by exact N1. apply upd_same.
Qed.

(** * [apply_isort] and the other loops *)
Lemma fresh_neq : forall a, a <> Fresh a.
Proof.
  intros a. assert (W : forall x y, (fix d (z : arr) : nat := match z with Fresh z => S (d z) | _ => 0 end) x <> (fix d (z : arr) : nat := match z with Fresh z => S (d z) | _ => 0 end) y -> x <> y) by (intros x y H ->; now apply H).
  apply W. cbn. lia.
Qed.

(** What a task accesses: its own arrays, and [p] for reading. *)
Definition local (m : mem) (own : list arr) (p : arr) (q : prog) : Prop :=
  safe q m /\ forall w l, In (w, l) (foot q m) -> In (fst l) own \/ (w = false /\ fst l = p).

Lemma pfor_inorder : forall (body : nat -> prog) n, pfor body 0 n (inorder body n).
Proof. intros body n. unfold inorder. pose proof (pf_chunk loc val body 0 n (Nat.le_0_l n)) as H. now rewrite Nat.sub_0_r in H. Qed.

Lemma isort_spec : forall a p n (q : prog) m (P : nat -> nat), isort a p n q -> (forall i, i < n -> m (p, i) = VI (P i)) -> p <> a -> p <> Fresh a ->
  local m [a; Fresh a] p q /\ (forall i, i < n -> run q m (a, i) = m (a, P i)) /\
  (forall b i, b <> a -> b <> Fresh a -> run q m (b, i) = m (b, i)).
Proof.
  intros a p n q m P (loop & HL & ->) HP Hpa Hpf. pose proof (fresh_neq a) as NF.
  destruct (loop_one (isort_body a p) n loop m (fun i => [(p, i); (a, P i)]) (fun i => (Fresh a, i)) (fun i => m (a, P i)) HL) as (A1 & A2 & A3 & A4).
  { intros i Hi. unfold one, isort_body. cbn [Par.safe Par.foot Par.run]. rewrite (HP i Hi). cbn [Par.safe Par.foot Par.run map List.app]. split; [exact I|]. split; [reflexivity|apply upd_same]. }
  { intros i j _ _ Hij X. injection X as X. contradiction. }
  { intros i j _ _ _ [X|[X|[]]]; injection X as X; congruence. }
  set (m1 := run loop m) in *.
  destruct (loop_one (move_body a) n _ m1 (fun i => [(Fresh a, i)]) (fun i => (a, i)) (fun i => m1 (Fresh a, i)) (pfor_inorder _ n)) as (B1 & B2 & B3 & B4).
  { intros i Hi. unfold one, move_body. cbn [Par.safe Par.foot Par.run map List.app]. split; [exact I|]. split; [reflexivity|apply upd_same]. }
  { intros i j _ _ Hij X. injection X as X. contradiction. }
  { intros i j _ _ _ [X|[]]; injection X as X; congruence. }
  split; [|split].
  - split; [apply safe_app; auto|]. intros w l. rewrite foot_app, in_app_iff. intros [X|X].
    + destruct (A4 _ _ X) as (i & _ & [[-> ->]|[-> [<-|[<-|[]]]]]); cbn [fst In]; auto.
    + fold m1 in X. destruct (B4 _ _ X) as (i & _ & [[-> ->]|[-> [<-|[]]]]); cbn [fst In]; auto.
  - intros i Hi. rewrite run_app. fold m1. rewrite (B2 i Hi). apply (A2 i Hi).
  - intros b i Hb Hb'. rewrite run_app. fold m1. rewrite B3; [apply A3|]; intros k _ X; injection X as X; contradiction.
Qed.

Lemma inv_spec : forall n (q : prog) m (P : nat -> nat), pfor inv_body 0 n q -> (forall i, i < n -> m (Perm, i) = VI (P i)) ->
  (forall i j, i < n -> j < n -> P i = P j -> i = j) ->
  local m [Inv] Perm q /\ (forall i, i < n -> run q m (Inv, P i) = VI i) /\ (forall b i, b <> Inv -> run q m (b, i) = m (b, i)).
Proof.
  intros n q m P HL HP Hinj.
  destruct (loop_one inv_body n q m (fun i => [(Perm, i)]) (fun i => (Inv, P i)) (fun i => VI i) HL) as (A1 & A2 & A3 & A4).
  { intros i Hi. unfold one, inv_body. cbn [Par.safe Par.foot Par.run]. rewrite (HP i Hi). cbn [Par.safe Par.foot Par.run map List.app]. split; [exact I|]. split; [reflexivity|apply upd_same]. }
  { intros i j Hi Hj Hij X. injection X as X. apply Hij. now apply Hinj. }
  { intros i j _ _ _ [X|[]]; discriminate X. }
  split; [|split; [exact A2|]].
  - split; [exact A1|]. intros w l X. destruct (A4 _ _ X) as (i & _ & [[-> ->]|[-> [<-|[]]]]); cbn [fst In]; auto.
  - intros b i Hb. apply A3. intros k _ X. injection X as X. contradiction.
Qed.

Lemma copy_spec : forall a b n (q : prog) m, pfor (copy_body a b) 0 n q -> a <> b ->
  local m [b] a q /\ (forall i, i < n -> run q m (b, i) = m (a, i)) /\ (forall x i, x <> b -> run q m (x, i) = m (x, i)).
Proof.
  intros a b n q m HL Hab.
  destruct (loop_one (copy_body a b) n q m (fun i => [(a, i)]) (fun i => (b, i)) (fun i => m (a, i)) HL) as (A1 & A2 & A3 & A4).
  { intros i Hi. unfold one, copy_body. cbn [Par.safe Par.foot Par.run map List.app]. split; [exact I|]. split; [reflexivity|apply upd_same]. }
  { intros i j _ _ Hij X. injection X as X. contradiction. }
  { intros i j _ _ _ [X|[]]; injection X as X; congruence. }
  split; [|split; [exact A2|]].
  - split; [exact A1|]. intros w l X. destruct (A4 _ _ X) as (i & _ & [[-> ->]|[-> [<-|[]]]]); cbn [fst In]; auto.
  - intros x i Hx. apply A3. intros k _ X. injection X as X. contradiction.
Qed.

Lemma iota_spec : forall p n (q : prog) m, pfor (iota_body p) 0 n q ->
  safe q m /\ (forall i, i < n -> run q m (p, i) = VI i) /\ (forall x i, x <> p -> run q m (x, i) = m (x, i)).
Proof.
  intros p n q m HL.
  destruct (loop_one (iota_body p) n q m (fun i => []) (fun i => (p, i)) (fun i => VI i) HL) as (A1 & A2 & A3 & A4).
  { intros i Hi. unfold one, iota_body. cbn [Par.safe Par.foot Par.run map List.app]. split; [exact I|]. split; [reflexivity|apply upd_same]. }
  { intros i j _ _ Hij X. injection X as X. contradiction. }
  { intros i j _ _ _ []. }
  split; [exact A1|]. split; [exact A2|]. intros x i Hx. apply A3. intros k _ X. injection X as X. contradiction.
Qed.

(** * Groups of tasks that own their arrays *)
Lemma concat_disjoint : forall {A} (ls : list (list A)) i j a b x, NoDup (concat ls) -> i <> j -> nth_error ls i = Some a -> nth_error ls j = Some b -> In x a -> In x b -> False.
Proof.
  intros A ls. induction ls as [|l ls IH]; intros i j a b x ND Hij Ha Hb Hxa Hxb; [destruct i; discriminate|].
  cbn [concat] in ND. assert (ND2 : NoDup (concat ls)) by (clear - ND; induction l as [|z l IHl]; [exact ND|]; inversion ND; auto).
  assert (D : forall y, In y l -> In y (concat ls) -> False).
  { clear - ND. induction l as [|z l IH]; intros y Hy Hc; [destruct Hy|]. cbn [List.app] in ND. inversion ND as [|? ? N1 N2]; subst.
    destruct Hy as [->|Hy]; [apply N1, in_or_app; now right|exact (IH N2 y Hy Hc)]. }
  destruct i as [|i], j as [|j]; [lia| | |].
  - injection Ha as ->. apply (D x Hxa). apply in_concat. exists b. split; [eapply nth_error_In; exact Hb|exact Hxb].
  - injection Hb as ->. apply (D x Hxb). apply in_concat. exists a. split; [eapply nth_error_In; exact Ha|exact Hxa].
  - apply (IH i j a b x ND2); auto.
Qed.

Lemma Forall2_nth : forall {A B} (R : A -> B -> Prop) la lb, Forall2 R la lb -> forall i,
  match nth_error la i, nth_error lb i with Some a, Some b => R a b | None, None => True | _, _ => False end.
Proof. intros A B R la lb H. induction H as [|a b la lb H1 H2 IH]; intros [|i]; cbn [nth_error]; auto. apply IH. Qed.

Lemma group_local : forall (owns : list (list arr)) (specs : list (prog -> Prop)) qs m p,
  Forall2 (fun own (s : prog -> Prop) => forall q, s q -> local m own p q) owns specs -> Forall2 (fun (s : prog -> Prop) x => s x) specs qs ->
  NoDup (concat owns) -> ~ In p (concat owns) ->
  safe (group qs) m /\
  (forall k own (s : prog -> Prop), nth_error owns k = Some own -> nth_error specs k = Some s ->
     exists q, s q /\ forall a i, In a own -> run (group qs) m (a, i) = run q m (a, i)) /\
  (forall a i, ~ In a (concat owns) -> run (group qs) m (a, i) = m (a, i)).
Proof.
  intros owns specs qs m p H1 H2 ND Np.
  assert (L : forall k q, nth_error qs k = Some q -> exists own s, nth_error owns k = Some own /\ nth_error specs k = Some s /\ s q /\ local m own p q).
  { intros k q Hq. pose proof (Forall2_nth _ _ _ H1 k) as X1. pose proof (Forall2_nth _ _ _ H2 k) as X2. rewrite Hq in X2.
    destruct (nth_error specs k) as [s|]; [|destruct X2]. destruct (nth_error owns k) as [own|]; [|destruct X1]. exists own, s. auto. }
  assert (NP : forall k own a, nth_error owns k = Some own -> In a own -> a <> p).
  { intros k own a Ho Ha ->. apply Np, in_concat. exists own. split; [eapply nth_error_In; exact Ho|exact Ha]. }
  destruct (behaves_group loc val loc_eq qs m) as (B1 & B2 & B3 & B4).
  { intros q Hq. apply In_nth_error in Hq as [k Hk]. destruct (L k q Hk) as (own & s & _ & _ & _ & S1 & _). exact S1. }
  { intros i j q q' Hij Hq Hq'. destruct (L i q Hq) as (own & s & O1 & _ & _ & _ & F1). destruct (L j q' Hq') as (own' & s' & O2 & _ & _ & _ & F2).
    intros w w' l Hl Hl'. destruct (F1 _ _ Hl) as [X|[-> X]], (F2 _ _ Hl') as [Y|[-> Y]].
    - exfalso. exact (concat_disjoint owns i j own own' (fst l) ND Hij O1 O2 X Y).
    - exfalso. exact (NP i own (fst l) O1 X Y).
    - exfalso. exact (NP j own' (fst l) O2 Y X).
    - auto. }
  assert (W : forall k q a i, nth_error qs k = Some q -> In (true, (a, i)) (foot q m) -> exists own, nth_error owns k = Some own /\ In a own).
  { intros k q a i Hq X. destruct (L k q Hq) as (own & s & O1 & _ & _ & _ & F1). exists own. split; [exact O1|]. destruct (F1 _ _ X) as [Y|[Y _]]; [exact Y|discriminate]. }
  split; [exact B1|]. split.
  - intros k own s Ho Hs. pose proof (Forall2_nth _ _ _ H2 k) as X2. rewrite Hs in X2. destruct (nth_error qs k) as [q|] eqn:Hq; [|destruct X2].
    exists q. split; [exact X2|]. intros a i Ha. destruct (dec_in loc loc_eq (foot q m) (true, (a, i))) as [X|X].
    + apply B3; [eapply nth_error_In; exact Hq|exact X].
    + rewrite (unwritten _ _ _ q m (a, i) X). apply B4. intros f Hf Y. apply In_nth_error in Hf as [j Hj]. destruct (Nat.eq_dec j k) as [->|Hjk]; [assert (f = q) by congruence; subst f; contradiction|].
      destruct (W j f a i Hj Y) as (own' & O' & A'). exact (concat_disjoint owns j k own' own a ND Hjk O' Ho A' Ha).
  - intros a i Ha. apply B4. intros f Hf Y. apply In_nth_error in Hf as [j Hj]. destruct (W j f a i Hj Y) as (own' & O' & A').
    apply Ha, in_concat. exists own'. split; [eapply nth_error_In; exact O'|exact A'].
Qed.

Lemma local_mono : forall m own own' p q, incl own own' -> local m own p q -> local m own' p q.
Proof. intros m own own' p q H [H1 H2]. split; [exact H1|]. intros w l X. destruct (H2 w l X) as [Y|Y]; auto. Qed.

End P.
