(** The parallel programs of the constructor, of [sync], of the merge of the subtrees, of the update of the masses and of the force
    computation: no data races, and the results of the model for every interleaving. *)
From Coq Require Import List Arith NArith ZArith Bool Lia Permutation.
From Verif Require Import Base Config Morton Build TreeSpec FOps Disc NodeProps Tree TreeInv TreeProofs Par ParTree ParProofs.
Import ListNotations.
Local Open Scope nat_scope.

Section Top.

Context {F : Type}.
Variable O : fops F.
Variable E : env.
Notation c := (e_cfg E).
Notation val := (val F).
Notation prog := (cmd loc val).
Notation mem := (loc -> val).
Notation run := (Par.run loc val loc_eq).
Notation foot := (Par.foot loc val loc_eq).
Notation safe := (Par.safe loc val loc_eq).
Notation all_runs := (Par.all_runs loc val loc_eq).
Notation holdsF m cols := (forall j col, nth_error cols j = Some col -> holds m (Part j) VF col).

Lemma holds_ext : forall {A} (m m' : mem) a (f : A -> val) l, (forall i, m' (a, i) = m (a, i)) -> holds m a f l -> holds m' a f l.
Proof. intros A m m' a f l H H1 i x Hx. rewrite H. now apply H1. Qed.

Lemma floats_VF : forall xs : list F, floats (map VF xs) = xs.
Proof. induction xs as [|x xs IH]; [reflexivity|]. unfold floats in *. cbn [map flat_map List.app]. now rewrite IH. Qed.

Lemma code_vals_VU : forall xs : list N, code_vals (map (@VU F) xs) = xs.
Proof. induction xs as [|x xs IH]; [reflexivity|]. unfold code_vals in *. cbn [map flat_map List.app]. now rewrite IH. Qed.

Lemma map_ext_nth : forall {A B} (f : A -> B) (g : nat -> B) (l : list A) b, (forall i x, nth_error l i = Some x -> g (b + i) = f x) -> map g (seq b (length l)) = map f l.
Proof.
  intros A B f g l. induction l as [|a l IH]; intros b H; [reflexivity|]. cbn [length seq map]. f_equal.
  - rewrite <- (H 0 a eq_refl). f_equal. lia.
  - apply IH. intros i x Hx. rewrite <- (H (S i) x Hx). f_equal. lia.
Qed.

(** * Codes and sort *)
Lemma row_reads : forall (m : mem) (cols : list (list F)) i xs k, holdsF m cols -> row (firstn k cols) i xs -> k <= length cols ->
  map m (map (fun j => (Part j, i)) (seq 0 k)) = map VF xs.
Proof.
  intros m cols i xs k H R Hk. assert (L : length xs = k). { rewrite <- (Forall2_length_eq _ _ _ R), firstn_length. lia. }
  rewrite map_map, <- L. apply map_ext_nth. intros j x Hx. cbn [Nat.add].
  pose proof (Forall2_nth _ _ _ R j) as X. rewrite Hx in X. destruct (nth_error (firstn k cols) j) as [col|] eqn:Ec; [|destruct X].
  apply (H j col); [|exact X]. rewrite <- (firstn_skipn k cols). rewrite nth_error_app1; [exact Ec|]. eapply nth_error_lt; exact Ec.
Qed.

Lemma code_spec : forall (cols : list (list F)) ibs n codes q (m : mem), encode_all O E cols ibs n = Ok codes -> dim c <= length cols -> holdsF m cols ->
  pfor (code_body O E ibs) 0 n q ->
  safe q m /\ length codes = n /\ holds (run q m) Codes VU codes /\ (forall a i, a <> Codes -> run q m (a, i) = m (a, i)).
Proof.
  intros cols ibs n codes q m He Hd Hm Hq. destruct (encode_all_inv O E cols ibs n codes He) as [Hl Hc].
  destruct (loop_one (code_body O E ibs) n q m (fun i => map (fun j => (Part j, i)) (seq 0 (dim c))) (fun i => (Codes, i)) (fun i => VU (nth i codes 0%N)) Hq)
    as (A1 & A2 & A3 & A4).
  { intros i Hi. rewrite <- Hl in Hi. destruct (nth_error codes i) as [x|] eqn:Ex; [|apply nth_error_None in Ex; lia].
    destruct (Hc i x Ex) as (xs & R & Px). unfold one, code_body. rewrite safe_collect, foot_collect, run_collect.
    rewrite (row_reads m cols i xs (dim c) Hm R Hd), floats_VF, Px. cbn [Par.safe Par.foot Par.run]. split; [exact I|]. split; [reflexivity|].
    rewrite upd_same. f_equal. symmetry. now apply nth_error_nth. }
  { intros i j _ _ Hij X. injection X as X. contradiction. }
  { intros i j _ _ _ X. apply in_map_iff in X as (k & X & _). discriminate X. }
  split; [exact A1|]. split; [exact Hl|]. split.
  - intros i x Hx. rewrite (A2 i); [f_equal; now apply nth_error_nth|]. rewrite <- Hl. eapply nth_error_lt; exact Hx.
  - intros a i Ha. apply A3. intros k _ X. injection X as X. contradiction.
Qed.

Lemma sort_spec : forall sort p n codes (m : mem), holds m Codes VU codes -> length codes = n -> length (sort codes) = n ->
  let q := sort_prog sort p n in
  safe q m /\ holds (run q m) p VI (sort codes) /\ (forall a i, a <> p -> run q m (a, i) = m (a, i)).
Proof.
  intros sort p n codes m Hm Hn Hs q. subst q. unfold sort_prog. rewrite safe_collect, run_collect.
  assert (E1 : map m (map (fun i => (Codes, i)) (seq 0 n)) = map VU codes).
  { rewrite map_map, <- Hn. apply map_ext_nth. intros i x Hx. cbn [Nat.add]. now apply Hm. }
  rewrite E1, code_vals_VU. set (ws := map _ _). assert (K : @map (loc * val) loc fst ws = map (pair p) (seq 0 n)).
  { subst ws. rewrite map_map. rewrite <- (map_map (fun x : nat * nat => fst x) (pair p)) at 1 || idtac.
    transitivity (map (pair p) (map fst (combine (seq 0 n) (sort codes)))).
    - rewrite map_map. apply map_ext. now intros [i k].
    - f_equal. clear - Hs. remember 0 as b eqn:Eb. clear Eb. revert b n Hs. induction (sort codes) as [|x l IH]; intros b n Hs; destruct n; cbn [seq combine map length fst] in *; try discriminate; try reflexivity.
      f_equal. apply IH. lia. }
  split; [apply safe_writes|]. split.
  - intros i x Hx. apply run_writes_in.
    + rewrite K. apply FinFun.Injective_map_NoDup; [intros a b X; now injection X|apply seq_NoDup].
    + subst ws. apply in_map_iff. exists (i, x). split; [reflexivity|].
      assert (Hi : i < n) by (rewrite <- Hs; eapply nth_error_lt; exact Hx).
      assert (X : nth_error (combine (seq 0 n) (sort codes)) i = Some (i, x)).
      { clear - Hx Hi. assert (G : forall l b n i, i < n -> nth_error l i = Some x -> nth_error (combine (seq b n) l) i = Some (b + i, x)).
        { induction l as [|y l IH]; intros b n0 i0 H1 H2; [destruct i0; discriminate|]. destruct n0; [lia|]. destruct i0 as [|i0]; cbn [seq combine nth_error] in *.
          - injection H2 as ->. do 2 f_equal. lia.
          - rewrite (IH (S b) n0 i0) by (lia || exact H2). do 2 f_equal. lia. }
        exact (G _ 0 n i Hi Hx). }
      eapply nth_error_In; exact X.
  - intros a i Ha. apply run_writes_out. rewrite K. intros X. apply in_map_iff in X as (k & X & _). injection X as X. congruence.
Qed.

(** * The permutation of an array *)
Lemma isort_holds : forall {A} a p n (q : prog) (m : mem) perm (f : A -> val) old new, isort a p n q -> is_perm perm n -> holds m p VI perm ->
  p <> a -> p <> Fresh a -> holds m a f old -> permuted perm old new ->
  local m [a; Fresh a] p q /\ holds (run q m) a f new /\ (forall b i, b <> a -> b <> Fresh a -> run q m (b, i) = m (b, i)).
Proof.
  intros A a p n q m perm f old new Hq Hp Hm N1 N2 Ho [Hl Hpm].
  destruct (isort_spec a p n q m (fun i => nth i perm 0) Hq) as (S1 & S2 & S3); auto.
  { intros i Hi. destruct (is_perm_at perm n i Hp Hi) as (k & Hk & _). rewrite (Hm i k Hk). f_equal. symmetry. now apply nth_error_nth. }
  split; [exact S1|]. split; [|exact S3]. intros i x Hx. assert (Hi : i < n).
  { rewrite <- (is_perm_length perm n Hp), <- Hl. eapply nth_error_lt; exact Hx. }
  rewrite (S2 i Hi). destruct (is_perm_at perm n i Hp Hi) as (k & Hk & _). rewrite (nth_error_nth _ _ 0 Hk). apply Ho. destruct (Hpm i k Hk) as [X _]. congruence.
Qed.

Lemma inv_holds : forall n (q : prog) (m : mem) perm inv, pfor inv_body 0 n q -> is_perm perm n -> holds m Perm VI perm -> inverse perm inv ->
  local m [Inv] Perm q /\ holds (run q m) Inv VI inv /\ (forall b i, b <> Inv -> run q m (b, i) = m (b, i)).
Proof.
  intros n q m perm inv Hq Hp Hm Hi. assert (A : forall i, i < n -> nth_error perm i = Some (nth i perm 0)).
  { intros i Hi'. destruct (is_perm_at perm n i Hp Hi') as (k & Hk & _). now rewrite (nth_error_nth _ _ 0 Hk). }
  destruct (inv_spec n q m (fun i => nth i perm 0) Hq) as (S1 & S2 & S3).
  { intros i Hi'. apply Hm. now apply A. }
  { intros i j Hi1 Hj X. eapply (is_perm_inj perm n i j); [exact Hp|now apply A|]. rewrite X. now apply A. }
  split; [exact S1|]. split; [|exact S3]. intros i x Hx. pose proof (inverse_sym perm inv n Hp Hi) as [_ Hs].
  specialize (Hs i x Hx). assert (Hxn : x < n) by (rewrite <- (is_perm_length perm n Hp); eapply nth_error_lt; exact Hs).
  rewrite <- (S2 x Hxn). do 2 f_equal. symmetry. now apply nth_error_nth.
Qed.

Lemma part_owns : forall k s x, In x (concat (map (fun j => [Part j; Fresh (Part j)]) (seq s k))) <-> exists j, s <= j < s + k /\ (x = Part j \/ x = Fresh (Part j)).
Proof.
  intros k s x. rewrite in_concat. split.
  - intros (l & Hl & Hx). apply in_map_iff in Hl as (j & <- & Hj). apply in_seq in Hj. exists j. split; [lia|]. destruct Hx as [<-|[<-|[]]]; auto.
  - intros (j & Hj & Hx). exists [Part j; Fresh (Part j)]. split; [apply in_map_iff; exists j; split; [reflexivity|apply in_seq; lia]|]. destruct Hx as [->| ->]; cbn; auto.
Qed.

Lemma NoDup_parts : forall k s l, NoDup l -> (forall x j, In x l -> x <> Part j /\ x <> Fresh (Part j)) ->
  NoDup (concat (map (fun j => [Part j; Fresh (Part j)]) (seq s k)) ++ l).
Proof.
  induction k as [|k IH]; intros s l Hl HN; [exact Hl|]. cbn [seq map concat List.app]. constructor; [|constructor; [|now apply IH]].
  - intros [X|X]; [discriminate|]. apply in_app_iff in X as [X|X]; [apply part_owns in X as (j & Hj & [X|X]); [injection X as X; lia|discriminate]|].
    destruct (HN _ s X). congruence.
  - intros X. apply in_app_iff in X as [X|X]; [apply part_owns in X as (j & Hj & [X|X]); [discriminate|injection X as X; lia]|].
    destruct (HN _ s X). congruence.
Qed.

Lemma nth_parts : forall {A} (x : A) (f : nat -> A) k r j, j < k -> nth_error (x :: map f (seq 0 k) ++ r) (S j) = Some (f j).
Proof. intros A x f k r j Hj. cbn [nth_error]. rewrite nth_error_app1 by (rewrite map_length, seq_length; exact Hj). rewrite nth_error_map, nth_error_seq by exact Hj. reflexivity. Qed.

Lemma nth_rest : forall {A} (x : A) (f : nat -> A) k r j, nth_error (x :: map f (seq 0 k) ++ r) (S (k + j)) = nth_error r j.
Proof. intros A x f k r j. cbn [nth_error]. rewrite nth_error_app2 by (rewrite map_length, seq_length; lia). rewrite map_length, seq_length. f_equal. lia. Qed.

Lemma Forall2_map_seq : forall {A B} (R : A -> B -> Prop) (f : nat -> A) (g : nat -> B) s k, (forall j, s <= j < s + k -> R (f j) (g j)) -> Forall2 R (map f (seq s k)) (map g (seq s k)).
Proof. intros A B R f g s k. revert s. induction k as [|k IH]; intros s H; constructor; [apply H; lia|]. apply IH. intros j Hj. apply H. lia. Qed.

(** The columns are permuted together, each by its task; what the other tasks do does not matter. *)
Lemma columns_lemma : forall p n perm (cols cols' : list (list F)) codes0 codes (m : mem) (rest_o : list (list arr)) rest_s qs,
  (p = Perm \/ p = Last) -> is_perm perm n -> holds m p VI perm -> holds m Codes VU codes0 -> holdsF m cols -> length cols = dim c + 1 ->
  permuted perm codes0 codes -> Forall2 (permuted perm) cols cols' ->
  Forall2 (fun own (s : prog -> Prop) => forall q, s q -> local m own p q) rest_o rest_s ->
  NoDup (concat rest_o) -> (forall x, In x (concat rest_o) -> x <> p /\ x <> Codes /\ x <> Fresh Codes /\ forall j, x <> Part j /\ x <> Fresh (Part j)) ->
  Forall2 (fun (s : prog -> Prop) x => s x) (isort Codes p n :: map (fun j => isort (Part j) p n) (seq 0 (dim c + 1)) ++ rest_s) qs ->
  safe (group qs) m /\ holds (run (group qs) m) Codes VU codes /\ holdsF (run (group qs) m) cols' /\
  (forall k own (s : prog -> Prop), nth_error rest_o k = Some own -> nth_error rest_s k = Some s ->
     exists q, s q /\ forall a i, In a own -> run (group qs) m (a, i) = run q m (a, i)) /\
  (forall i, run (group qs) m (p, i) = m (p, i)).
Proof.
  intros p n perm cols cols' codes0 codes m rest_o rest_s qs Hpp Hp Hmp Hmc Hmf Hlen Hpc Hpf Hrest ND Hd Hqs.
  assert (Np : forall j, p <> Part j /\ p <> Fresh (Part j) /\ p <> Codes /\ p <> Fresh Codes) by (intros j; destruct Hpp as [-> | ->]; repeat split; discriminate).
  set (owns := [Codes; Fresh Codes] :: map (fun j => [Part j; Fresh (Part j)]) (seq 0 (dim c + 1)) ++ rest_o).
  assert (CO : concat owns = Codes :: Fresh Codes :: concat (map (fun j => [Part j; Fresh (Part j)]) (seq 0 (dim c + 1))) ++ concat rest_o).
  { subst owns. cbn [concat List.app]. now rewrite concat_app. }
  match type of Hqs with Forall2 _ ?sp _ => set (specs := sp) in * end.
  destruct (group_local owns specs qs m p) as (G1 & G2 & G3); [|exact Hqs| | |].
  - subst owns specs. constructor.
    + intros q Hq. destruct (isort_holds Codes p n q m perm VU codes0 codes Hq Hp Hmp) as (X & _); auto; apply (Np 0).
    + apply Forall2_app; [|exact Hrest]. apply Forall2_map_seq. intros j Hj q Hq.
      destruct (nth_error cols j) as [col|] eqn:Ec; [|apply nth_error_None in Ec; lia].
      pose proof (Forall2_nth _ _ _ Hpf j) as X. rewrite Ec in X. destruct (nth_error cols' j) as [col'|] eqn:Ec'; [|destruct X].
      destruct (isort_holds (Part j) p n q m perm VF col col' Hq Hp Hmp) as (Y & _); auto; apply (Np j).
  - rewrite CO. constructor; [|constructor; [|apply NoDup_parts; [exact ND|]]].
    + intros [X|X]; [discriminate|]. apply in_app_iff in X as [X|X]; [apply part_owns in X as (j & _ & [X|X]); discriminate|]. destruct (Hd _ X) as (_ & Y & _). congruence.
    + intros X. apply in_app_iff in X as [X|X]; [apply part_owns in X as (j & _ & [X|X]); discriminate|]. destruct (Hd _ X) as (_ & _ & Y & _). congruence.
    + intros x j Hx. destruct (Hd x Hx) as (_ & _ & _ & Y). apply Y.
  - rewrite CO. intros [X|[X|X]]; [destruct (Np 0); intuition congruence|destruct (Np 0); intuition congruence|].
    apply in_app_iff in X as [X|X]; [apply part_owns in X as (j & _ & [X|X]); [destruct (Np j); intuition congruence|destruct (Np j); intuition congruence]|]. destruct (Hd _ X) as (Y & _); congruence.
  - split; [exact G1|]. split; [|split; [|split]].
    + destruct (G2 0 [Codes; Fresh Codes] (isort Codes p n) eq_refl eq_refl) as (q & Hq & Hr).
      destruct (isort_holds Codes p n q m perm VU codes0 codes Hq Hp Hmp) as (_ & X & _); auto; try apply (Np 0).
      eapply holds_ext; [|exact X]. intros i. apply Hr. now left.
    + intros j col' Ec'. pose proof (Forall2_nth _ _ _ Hpf j) as X. rewrite Ec' in X. destruct (nth_error cols j) as [col|] eqn:Ec; [|destruct X].
      assert (Hj : j < dim c + 1) by (rewrite <- Hlen; eapply nth_error_lt; exact Ec).
      destruct (G2 (S j) [Part j; Fresh (Part j)] (isort (Part j) p n)) as (q & Hq & Hr); [subst owns; now rewrite nth_parts|subst specs; now rewrite nth_parts|].
      destruct (isort_holds (Part j) p n q m perm VF col col' Hq Hp Hmp) as (_ & Y & _); auto; try apply (Np j).
      eapply holds_ext; [|exact Y]. intros i. apply Hr. now left.
    + intros k own s Ho Hs. apply (G2 (S (dim c + 1 + k)) own s); [subst owns|subst specs]; now rewrite nth_rest.
    + intros i. apply G3. rewrite CO. intros [X|[X|X]]; [destruct (Np 0); intuition congruence|destruct (Np 0); intuition congruence|].
      apply in_app_iff in X as [X|X]; [apply part_owns in X as (j & _ & [X|X]); [destruct (Np j); intuition congruence|destruct (Np j); intuition congruence]|]. destruct (Hd _ X) as (Y & _); congruence.
Qed.

(** * The constructor *)
Lemma ctor_runs : forall s box ded d mln ncrit t, sched_ok s ->
  length match d with Moved cols => cols | Iters cols _ => cols end = dim c + 1 ->
  construct O E s box ded d mln ncrit = Ok t ->
  exists cols, load d = Ok cols /\ length cols = dim c + 1 /\
  forall q (m : mem), ctor_prog O E (s_sort s) (fdiv O (fofZ O 1%Z) (t_box t)) (length (t_codes t)) q -> holdsF m cols ->
    all_runs q m (fun m' => holds m' Codes VU (t_codes t) /\ holdsF m' (t_parts t) /\ holds m' Perm VI (t_perm t) /\ holds m' Last VI (t_last t) /\ holds m' Inv VI (t_inv t)).
Proof.
  intros s box ded d mln ncrit t Hs Hd H. unfold construct in H.
  destruct (negb (ffin O box) || flt O box (fofZ O 0%Z)) eqn:E1; [discriminate|].
  destruct (Nat.eqb_spec mln 0); [discriminate|]. destruct (Nat.eqb_spec ncrit 0); [discriminate|].
  apply bind_Ok in H as (_ & _ & H). apply bind_Ok in H as (cols & Hload & H). cbv zeta in H.
  apply bind_Ok in H as (bx & Hbox & H). apply bind_Ok in H as (codes0 & Henc & H).
  apply bind_Ok in H as (_ & _ & H). apply bind_Ok in H as (codes & Hcodes & H).
  apply bind_Ok in H as (parts & Hparts & H). apply bind_Ok in H as (inv & Hinv & H).
  apply bind_Ok in H as (_ & _ & H). apply bind_Ok in H as ([nodes crit] & Hb & H). injection H as <-.
  destruct (resorted O E _ _ _ _ _ _ _ Hs Henc Hcodes Hparts) as (R1 & R2 & R3 & R4 & R5 & R6 & R7 & R8).
  set (np := length (hd [] cols)) in *.
  assert (Hlc : length cols = dim c + 1).
  { destruct d as [l|l n1]; simpl in Hload; [now injection Hload as <-|].
    apply bind_Ok in Hload as (_ & _ & Hload). apply mapM_Ok in Hload as [-> _]. exact Hd. }
  destruct (perm_to_inv_perm_ok (s_sort s codes0) (repeat 0 np) np R1 (repeat_length _ _)) as (i' & Hi & Hi').
  rewrite Hi in Hinv. injection Hinv as <-.
  exists cols. split; [exact Hload|]. split; [exact Hlc|]. cbn [t_codes t_box t_parts t_perm t_last t_inv rocm_init]. rewrite R2.
  set (perm := s_sort s codes0) in *. set (ibs := fdiv O (fofZ O 1%Z) bx) in *.
  intros q m (q1 & q2 & q3 & H1 & H2 & (qs & H3 & ->) & ->) Hm.
  destruct (iota_spec Perm np q1 m H1) as (A1 & _ & A3). set (m1 := run q1 m) in *.
  assert (Hm1 : holdsF m1 cols). { intros j col Hc. eapply holds_ext; [|exact (Hm j col Hc)]. intros i. apply A3. discriminate. }
  destruct (code_spec cols ibs np codes0 q2 m1 Henc ltac:(lia) Hm1 H2) as (B1 & B2 & B3 & B4). set (m2 := run q2 m1) in *.
  assert (Hm2 : holdsF m2 cols). { intros j col Hc. eapply holds_ext; [|exact (Hm1 j col Hc)]. intros i. apply B4. discriminate. }
  destruct (sort_spec (s_sort s) Perm np codes0 m2 B3 B2) as (C1 & C2 & C3); [now apply is_perm_length|]. fold perm in C2.
  set (sp := sort_prog (s_sort s) Perm np) in *. set (m3 := run sp m2) in *.
  assert (Hm3 : holdsF m3 cols). { intros j col Hc. eapply holds_ext; [|exact (Hm2 j col Hc)]. intros i. apply C3. discriminate. }
  assert (Hc3 : holds m3 Codes VU codes0) by (eapply holds_ext; [|exact B3]; intros i; apply C3; discriminate).
  destruct (columns_lemma Perm np perm cols parts codes0 codes m3 [[Inv]; [Last]] [pfor inv_body 0 np; pfor (copy_body Perm Last) 0 np] qs) as (D1 & D2 & D3 & D4 & D5); auto.
  { constructor; [|constructor; [|constructor]].
    - intros q Hq. now destruct (inv_holds np q m3 perm i' Hq R1 C2 Hi').
    - intros q Hq. now destruct (copy_spec Perm Last np q m3 Hq ltac:(discriminate)). }
  { cbn [concat List.app]. repeat (apply NoDup_cons; [cbn [In]; intuition discriminate|]). apply NoDup_nil. }
  { intros x [<-|[<-|[]]]; repeat split; discriminate. }
  apply all_runs_intro.
  - rewrite safe_app. split; [exact A1|]. fold m1. rewrite safe_app. split; [exact B1|]. fold m2. rewrite safe_app. split; [exact C1|exact D1].
  - intros m' Hm'. assert (X : forall l, m' l = run (group qs) m3 l) by (intros l; rewrite Hm', !run_app; reflexivity).
    split; [eapply holds_ext; [|exact D2]; intros i; apply X|]. split; [intros j col Hc; eapply holds_ext; [|exact (D3 j col Hc)]; intros i; apply X|].
    split; [eapply holds_ext; [|exact C2]; intros i; rewrite X; apply D5|]. split.
    + destruct (D4 1 [Last] (pfor (copy_body Perm Last) 0 np) eq_refl eq_refl) as (q & Hq & Hr).
      destruct (copy_spec Perm Last np q m3 Hq ltac:(discriminate)) as (_ & Y & _). intros i x Hx. rewrite X, (Hr Last i) by now left.
      rewrite Y; [now apply C2|]. rewrite <- (is_perm_length perm np R1). eapply nth_error_lt; exact Hx.
    + destruct (D4 0 [Inv] (pfor inv_body 0 np) eq_refl eq_refl) as (q & Hq & Hr).
      destruct (inv_holds np q m3 perm i' Hq R1 C2 Hi') as (_ & Y & _). eapply holds_ext; [|exact Y]. intros i. rewrite X. apply Hr. now left.
Qed.

(** * [sync] *)
Lemma sync_runs : forall s t t' n, sched_ok s -> length (t_parts t) = dim c + 1 -> nparts t = n -> is_perm (t_perm t) n -> length (t_inv t) = n ->
  sync O E s t = Ok t' ->
  forall q (m : mem), sync_prog O E (s_sort s) (fdiv O (fofZ O 1%Z) (t_box t')) n q -> holdsF m (t_parts t) -> holds m Perm VI (t_perm t) ->
    all_runs q m (fun m' => holds m' Codes VU (t_codes t') /\ holdsF m' (t_parts t') /\ holds m' Perm VI (t_perm t') /\ holds m' Last VI (t_last t') /\ holds m' Inv VI (t_inv t')).
Proof.
  intros s t t' n Hs Hnc Hn Hp Hi H. unfold sync in H. cbv zeta in H.
  unfold nparts, rocm_reset in H. cbn [t_box t_ded t_parts t_mln t_ncrit t_perm t_inv] in H.
  fold (nparts t) in H. rewrite Hn in H.
  apply bind_Ok in H as (bx & Hbox & H). apply bind_Ok in H as (codes0 & Henc & H).
  apply bind_Ok in H as (_ & _ & H). apply bind_Ok in H as (codes & Hcodes & H).
  apply bind_Ok in H as (parts & Hparts & H). apply bind_Ok in H as (perm & Hperm & H).
  apply bind_Ok in H as (inv & Hinv & H).
  apply bind_Ok in H as (_ & _ & H). apply bind_Ok in H as ([nodes crit] & Hb & H). injection H as <-.
  destruct (resorted O E _ _ _ _ _ _ _ Hs Henc Hcodes Hparts) as (R1 & R2 & R3 & R4 & R5 & R6 & R7 & R8).
  apply apply_isort_inv in Hperm as [_ Hperm]. pose proof (permuted_is_perm _ _ _ _ R1 Hp Hperm) as Hp'.
  destruct (perm_to_inv_perm_ok perm (t_inv t) n Hp' Hi) as (i' & Hi1 & Hi2). rewrite Hi1 in Hinv. injection Hinv as <-.
  cbn [t_codes t_box t_parts t_perm t_last t_inv rocm_init].
  set (last := s_sort s codes0) in *. set (ibs := fdiv O (fofZ O 1%Z) bx) in *.
  intros q m (q1 & q2 & q3 & H1 & H2 & (qs & H3 & ->) & ->) Hm HmP.
  destruct (code_spec (t_parts t) ibs n codes0 q1 m Henc ltac:(lia) Hm H1) as (B1 & B2 & B3 & B4). set (m1 := run q1 m) in *.
  destruct (iota_spec Last n q2 m1 H2) as (A1 & _ & A3). set (m2 := run q2 m1) in *.
  assert (B3' : holds m2 Codes VU codes0) by (eapply holds_ext; [|exact B3]; intros i; apply A3; discriminate).
  destruct (sort_spec (s_sort s) Last n codes0 m2 B3' B2) as (C1 & C2 & C3); [now apply is_perm_length|]. fold last in C2.
  set (sp := sort_prog (s_sort s) Last n) in *. set (m3 := run sp m2) in *.
  assert (SAME : forall a i, a <> Codes -> a <> Last -> m3 (a, i) = m (a, i)).
  { intros a i X1 X2. unfold m3. rewrite C3 by exact X2. unfold m2. rewrite A3 by exact X2. unfold m1. now apply B4. }
  assert (Hm3 : holdsF m3 (t_parts t)). { intros j col Hc. eapply holds_ext; [|exact (Hm j col Hc)]. intros i. apply SAME; discriminate. }
  assert (Hc3 : holds m3 Codes VU codes0) by (eapply holds_ext; [|exact B3']; intros i; apply C3; discriminate).
  assert (HP3 : holds m3 Perm VI (t_perm t)) by (eapply holds_ext; [|exact HmP]; intros i; apply SAME; discriminate).
  assert (T3 : forall q, (exists q1 q2, isort Perm Last n q1 /\ pfor inv_body 0 n q2 /\ q = app q1 q2) ->
    local m3 [Perm; Fresh Perm; Inv] Last q /\ holds (run q m3) Perm VI perm /\ holds (run q m3) Inv VI i').
  { intros q (p1 & p2 & P1 & P2 & ->).
    destruct (isort_holds Perm Last n p1 m3 last VI (t_perm t) perm P1 R1 C2) as ([X1 X1'] & X2 & X3); auto; try discriminate.
    destruct (inv_holds n p2 (run p1 m3) perm i' P2 Hp' X2 Hi2) as ([Y1 Y1'] & Y2 & Y3). rewrite run_app. split; [|split; [|exact Y2]].
    - split; [apply safe_app; auto|]. intros w l. rewrite foot_app, in_app_iff. intros [X|X].
      + destruct (X1' _ _ X) as [Z|Z]; [left; cbn [In] in *; tauto|now right].
      + destruct (Y1' _ _ X) as [Z|[_ Z]]; left; cbn [In] in *; intuition.
    - eapply holds_ext; [|exact X2]. intros i. apply Y3. discriminate. }
  destruct (columns_lemma Last n last (t_parts t) parts codes0 codes m3 [[Perm; Fresh Perm; Inv]]
    [fun q => exists q1 q2, isort Perm Last n q1 /\ pfor inv_body 0 n q2 /\ q = app q1 q2] qs) as (D1 & D2 & D3 & D4 & D5); auto.
  { constructor; [|constructor]. intros q Hq. now destruct (T3 q Hq). }
  { cbn [concat List.app]. repeat (apply NoDup_cons; [cbn [In]; intuition discriminate|]). apply NoDup_nil. }
  { intros x [<-|[<-|[<-|[]]]]; repeat split; discriminate. }
  apply all_runs_intro.
  - rewrite safe_app. split; [exact B1|]. fold m1. rewrite safe_app. split; [exact A1|]. fold m2. rewrite safe_app. split; [exact C1|exact D1].
  - intros m' Hm'. assert (X : forall l, m' l = run (group qs) m3 l) by (intros l; rewrite Hm', !run_app; reflexivity).
    destruct (D4 0 _ _ eq_refl eq_refl) as (q & Hq & Hr). destruct (T3 q Hq) as (_ & Y1 & Y2).
    split; [eapply holds_ext; [|exact D2]; intros i; apply X|]. split; [intros j col Hc; eapply holds_ext; [|exact (D3 j col Hc)]; intros i; apply X|].
    split; [eapply holds_ext; [|exact Y1]; intros i; rewrite X; apply Hr; now left|].
    split; [eapply holds_ext; [|exact C2]; intros i; rewrite X; apply D5|].
    eapply holds_ext; [|exact Y2]. intros i. rewrite X. apply Hr. cbn [In]. tauto.
Qed.

End Top.
