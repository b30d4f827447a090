(** Several calls that compute accelerations and potentials of the same tree, made by concurrent threads of the user. *)
From Coq Require Import List Arith NArith ZArith Bool Lia Permutation.
From Verif Require Import Base Config Morton Build TreeSpec FOps Disc NodeProps Tree TreeInv TreeProofs Kernels Force TravProofs KernLoops ForceGen ForceOut ForceTop
  Par ParTree ParProofs ParTop ParTop2 ParLast.
Import ListNotations.
Local Open Scope nat_scope.

(** * The same program with other locations *)
Section Rename.

Context {L L' V : Type}.
Variable eqL : forall a b : L, {a = b} + {a <> b}.
Variable eqL' : forall a b : L', {a = b} + {a <> b}.
Variable f : L -> L'.

(** No code of the library: the accesses of a program at the places given by [f]. *)
Fixpoint rename (c : cmd L V) : cmd L' V :=
  match c with
  | Ret => Ret
  | Rd l k => Rd (f l) (fun v => rename (k v))
  | Wr l v k => Wr (f l) v (rename k)
  | Fork a b k => Fork (rename a) (rename b) (rename k)
  end.

Hypothesis inj : forall a b, f a = f b -> a = b.

Definition moved (x : bool * L) : bool * L' := (fst x, f (snd x)).

Lemma apart_moved : forall g h, Par.apart L g h -> Par.apart L' (map moved g) (map moved h).
Proof.
  intros g h H w w' l X Y. apply in_map_iff in X as ([w1 l1] & X & X1). apply in_map_iff in Y as ([w2 l2] & Y & Y1).
  unfold moved in X, Y. cbn [fst snd] in X, Y. injection X as <- <-. injection Y as <- Y. apply inj in Y. subst l2. exact (H w1 w2 l1 X1 Y1).
Qed.

Lemma renamed : forall c (m : L -> V) (M : L' -> V), (forall l, M (f l) = m l) ->
  Par.foot L' V eqL' (rename c) M = map moved (Par.foot L V eqL c m) /\
  (forall l, Par.run L' V eqL' (rename c) M (f l) = Par.run L V eqL c m l) /\
  (Par.safe L V eqL c m -> Par.safe L' V eqL' (rename c) M).
Proof.
  induction c as [|l k IH|l v k IH|a IHa b IHb k IHk]; intros m M H; cbn [rename Par.foot Par.run Par.safe map].
  - split; [reflexivity|]. split; [exact H|auto].
  - rewrite H. destruct (IH (m l) m M H) as (I1 & I2 & I3). rewrite I1. auto.
  - destruct (IH (Par.upd L V eqL m l v) (Par.upd L' V eqL' M (f l) v)) as (I1 & I2 & I3).
    { intros x. unfold Par.upd. destruct (eqL x l) as [->|N]; destruct (eqL' _ _) as [X|X]; [reflexivity|now elim X|now elim N; apply inj|apply H]. }
    rewrite I1. auto.
  - destruct (IHa m M H) as (A1 & A2 & A3). destruct (IHb _ _ A2) as (B1 & B2 & B3). destruct (IHk _ _ B2) as (K1 & K2 & K3).
    rewrite A1, B1, K1, !map_app. split; [reflexivity|]. split; [exact K2|]. intros (S1 & S2 & S3 & S4). split; [auto|]. split; [auto|].
    split; [now apply apart_moved|auto].
Qed.

End Rename.

(** * Programs made of parts, one after the other or one beside the other *)
Section Arrange.

Context {L V : Type}.
Variable eqL : forall a b : L, {a = b} + {a <> b}.

(** No code of the library: the threads of the user. *)
Inductive arranged : list (cmd L V) -> cmd L V -> Prop :=
| ar_one c : arranged [c] c
| ar_then fs gs a b : arranged fs a -> arranged gs b -> arranged (fs ++ gs) (app a b)
| ar_beside fs gs a b : arranged fs a -> arranged gs b -> arranged (fs ++ gs) (Fork a b Ret).

Lemma pairs_app : forall (R : cmd L V -> cmd L V -> Prop) fs gs, ForallOrdPairs R (fs ++ gs) ->
  ForallOrdPairs R fs /\ ForallOrdPairs R gs /\ forall f g, In f fs -> In g gs -> R f g.
Proof.
  intros R fs gs. induction fs as [|x fs IH]; cbn [List.app]; intros H.
  - split; [constructor|]. split; [exact H|]. intros f g [].
  - inversion H as [|? ? H1 H2]; subst. destruct (IH H2) as (I1 & I2 & I3). rewrite Forall_forall in H1. split; [|split; [exact I2|]].
    + constructor; [|exact I1]. apply Forall_forall. intros y Hy. apply H1, in_or_app. now left.
    + intros f g [<-|Hf] Hg; [apply H1, in_or_app; now right|auto].
Qed.

Lemma arranged_behaves : forall fs c m, arranged fs c -> (forall f, In f fs -> Par.safe L V eqL f m) ->
  ForallOrdPairs (fun f g => Par.apart L (Par.foot L V eqL f m) (Par.foot L V eqL g m)) fs -> Par.behaves L V eqL c m fs.
Proof.
  intros fs c m H. induction H as [c|fs gs a b H1 IH1 H2 IH2|fs gs a b H1 IH1 H2 IH2]; intros HS HP.
  - apply Par.behaves_one, HS. now left.
  - destruct (pairs_app _ _ _ HP) as (P1 & P2 & P3).
    refine (proj2 (proj2 (Par.behaves_both L V eqL a b m fs gs (IH1 _ P1) (IH2 _ P2) P3))); intros f Hf; apply HS, in_or_app; auto.
  - destruct (pairs_app _ _ _ HP) as (P1 & P2 & P3).
    apply Par.behaves_fork; [apply IH1; [|exact P1]|apply IH2; [|exact P2]|exact P3]; intros f Hf; apply HS, in_or_app; auto.
Qed.

End Arrange.

(** * Calls *)

(** The memory of the user: the data members of the tree at [(0, _)], the output arrays of call [k] at [(S k, _)]. *)
Definition uloc : Type := nat * loc.
Definition uloc_eq : forall a b : uloc, {a = b} + {a <> b}.
Proof. decide equality; [apply loc_eq|apply Nat.eq_dec]. Defined.
Definition place (k : nat) (l : loc) : uloc := match fst l with Out _ => (S k, l) | _ => (0, l) end.

Lemma place_inj : forall k a b, place k a = place k b -> a = b.
Proof. intros k [a i] [b j]. unfold place. cbn [fst]. destruct a, b; congruence. Qed.

Lemma place_shared : forall k l, (forall j, fst l <> Out j) -> place k l = (0, l).
Proof. intros k [a i] H. unfold place. cbn [fst] in *. destruct a; try reflexivity. now elim (H j). Qed.

Section Calls.

Context {F D : Type}.
Variable O : fops F.
Variable OD : fops D.
Variable E : env.
Variable K : platform F.

(** A call of one of the functions of tree.hpp 3336-3530: its arguments, the contents of the output arrays before the call, and the
    two numbers computed from the arguments (tree.hpp 3298-3316, 3268-3281). *)
Record call := mkCall { ca_ord : list cnode -> list cnode; ca_ordered : bool; ca_q : quant; ca_theta : F; ca_G : F; ca_eps : F; ca_split : list D;
  ca_out : list (list F); ca_mv : F; ca_eps2 : F }.

(** The call is made alone, and gives [res]. *)
Definition alone (t : @tree F) (x : call) (res : list (list F)) : Prop :=
  reorders (ca_ord x) /\ params O OD E t (ca_theta x) (ca_G x) (ca_eps x) (ca_split x) (ca_mv x) (ca_eps2 x) /\
  out_ok (length (t_codes t)) (nvecs_res E (ca_q x)) (ca_out x) /\
  acc_pot_dispatch O OD E K (ca_ord x) (ca_ordered x) (ca_q x) t (ca_theta x) (ca_G x) (ca_eps x) (ca_split x) (ca_out x) = Ok res.

(** The program of a call: any division of the loop over the critical nodes (tree.hpp 2923-3022), output arrays of call [k]. *)
Definition call_prog (t : @tree F) (k : nat) (x : call) (q : cmd uloc (val F)) : Prop :=
  exists q0, pfor (force_task O E K (ca_ordered x) (ca_q x) (t_box t) (ca_mv x) (ca_G x) (ca_eps2 x) (length (t_codes t)) (length (t_nodes t)))
    0 (length (t_crit t)) q0 /\ q = rename (place k) q0.

Definition at_call (m : uloc -> val F) (k : nat) : loc -> val F := fun l => m (place k l).

Lemma calls_run : forall t (xs : list (call * list (list F))) (qs : list (cmd uloc (val F))) (q : cmd uloc (val F)) (m : uloc -> val F),
  env_ok E -> benign_shift K -> reachable O E t -> room E t ->
  (forall k x res, nth_error xs k = Some (x, res) -> alone t x res) ->
  (forall j col, nth_error (t_parts t) j = Some col -> holds (at_call m 0) (Part j) VF col) -> holds (at_call m 0) Nodes VN (t_nodes t) ->
  holds (at_call m 0) Perm VI (t_perm t) -> holds (at_call m 0) Crits VC (t_crit t) ->
  (forall k x res, nth_error xs k = Some (x, res) -> forall j, j < nvecs_res E (ca_q x) -> holds (at_call m k) (Out j) VF (nth j (ca_out x) [])) ->
  length qs = length xs ->
  (forall k x res p, nth_error xs k = Some (x, res) -> nth_error qs k = Some p -> call_prog t k x p) ->
  arranged qs q ->
  Par.all_runs uloc (val F) uloc_eq q m (fun m' =>
    (forall k x res, nth_error xs k = Some (x, res) -> forall j, j < nvecs_res E (ca_q x) -> holds (at_call m' k) (Out j) VF (nth j res [])) /\
    forall l, m' (0, l) = m (0, l)).
Proof.
  intros t xs qs q m HE HK Hr Hroom HA H1 H2 H3 H4 H5 HL HP HQ.
  assert (ONE : forall k p, nth_error qs k = Some p -> exists x res, nth_error xs k = Some (x, res) /\ Par.safe uloc (val F) uloc_eq p m /\
    (forall w l, In (w, l) (Par.foot uloc (val F) uloc_eq p m) -> (w = false /\ fst l = 0) \/ fst l = S k) /\
    forall j, j < nvecs_res E (ca_q x) -> holds (at_call (Par.run uloc (val F) uloc_eq p m) k) (Out j) VF (nth j res [])).
  { intros k p Hp. destruct (nth_error xs k) as [[x res]|] eqn:Hx.
    2: { apply nth_error_None in Hx. pose proof (nth_error_lt _ _ _ Hp). lia. }
    exists x, res. split; [reflexivity|]. destruct (HP k x res p Hx Hp) as (q0 & Q1 & ->). destruct (HA k x res Hx) as (A1 & A2 & A3 & A4).
    assert (SH : forall a i, (forall j, a <> Out j) -> at_call m k (a, i) = at_call m 0 (a, i)).
    { intros a i Ha. unfold at_call. now rewrite !place_shared. }
    destruct (force_task_safe O E OD K (ca_ord x) (ca_ordered x) (ca_q x) t (ca_theta x) (ca_G x) (ca_eps x) (ca_split x) (ca_mv x) (ca_eps2 x)
      (ca_out x) res q0 (at_call m k) HE HK Hr Hroom A1 A2 A3 A4) as (S1 & S2 & S3); [| | | |now apply (H5 k x res)|exact Q1|].
    - intros j col Hj i y Hy. rewrite SH by discriminate. exact (H1 j col Hj i y Hy).
    - intros i y Hy. rewrite SH by discriminate. exact (H2 i y Hy).
    - intros i y Hy. rewrite SH by discriminate. exact (H3 i y Hy).
    - intros i y Hy. rewrite SH by discriminate. exact (H4 i y Hy).
    - destruct (renamed loc_eq uloc_eq (place k) (place_inj k) q0 (at_call m k) m (fun l => eq_refl)) as (R1 & R2 & R3). split; [auto|]. split.
      + intros w l X. rewrite R1 in X. apply in_map_iff in X as ([w0 l0] & X & Y). unfold moved in X. cbn [fst snd] in X. injection X as <- <-.
        destruct (S2 _ _ Y) as [[-> Z]|(j & i & ->)]; [left; split; [reflexivity|now rewrite place_shared]|right; reflexivity].
      + apply S3. exact R2. }
  assert (B : Par.behaves uloc (val F) uloc_eq q m qs).
  { apply arranged_behaves; [exact HQ| |].
    - intros p Hp. apply In_nth_error in Hp as [k Hk]. destruct (ONE k p Hk) as (x & res & _ & S1 & _). exact S1.
    - assert (G : forall l b, (forall k p, nth_error l k = Some p -> forall w y, In (w, y) (Par.foot uloc (val F) uloc_eq p m) ->
          (w = false /\ fst y = 0) \/ fst y = S (b + k)) ->
        ForallOrdPairs (fun f g => Par.apart uloc (Par.foot uloc (val F) uloc_eq f m) (Par.foot uloc (val F) uloc_eq g m)) l).
      { induction l as [|p l IH]; intros b HB; constructor.
        - apply Forall_forall. intros g Hg w w' y Y1 Y2. apply In_nth_error in Hg as [k Hk].
          destruct (HB 0 p eq_refl w y Y1) as [[-> Z]|Z], (HB (S k) g Hk w' y Y2) as [[-> Z']|Z']; auto; lia.
        - apply (IH (S b)). intros k g Hk w y Y. destruct (HB (S k) g Hk w y Y) as [Z|Z]; [now left|right; lia]. }
      apply (G qs 0). intros k p Hk. now destruct (ONE k p Hk) as (x & res & _ & _ & S2 & _). }
  destruct B as (B1 & _ & B3 & B4). apply Par.all_runs_intro; [exact B1|]. intros m' Hm'. split.
  - intros k x res Hx j Hj i y Hy. unfold at_call. rewrite Hm'.
    destruct (nth_error qs k) as [p|] eqn:Hp.
    2: { apply nth_error_None in Hp. pose proof (nth_error_lt _ _ _ Hx). lia. }
    destruct (ONE k p Hp) as (x' & res' & X & _ & _ & S3). rewrite Hx in X. injection X as <- <-.
    pose proof (S3 j Hj i y Hy) as S4. unfold at_call in S4.
    destruct (Par.dec_in uloc uloc_eq (Par.foot uloc (val F) uloc_eq p m) (true, place k (Out j, i))) as [Y|Y].
    + rewrite (B3 p _ (nth_error_In _ _ Hp) Y). exact S4.
    + rewrite <- S4. rewrite (Par.unwritten _ _ _ p m _ Y). apply B4. intros g Hg Z. apply In_nth_error in Hg as [k' Hk'].
      destruct (ONE k' g Hk') as (_ & _ & _ & _ & S2 & _). destruct (S2 _ _ Z) as [[W _]|W]; [discriminate|]. cbn [place fst] in W.
      injection W as <-. rewrite Hp in Hk'. injection Hk' as <-. contradiction.
  - intros l. rewrite Hm'. apply B4. intros g Hg Z. apply In_nth_error in Hg as [k' Hk'].
    destruct (ONE k' g Hk') as (_ & _ & _ & _ & S2 & _). destruct (S2 _ _ Z) as [[W _]|W]; [discriminate|]. cbn [fst] in W. discriminate.
Qed.

Lemma calls_api : forall t (xs : list (call * list (list F))) (qs : list (cmd uloc (val F))) (q : cmd uloc (val F)) (m : uloc -> val F),
  env_ok E -> benign_shift K -> reachable O E t -> room E t ->
  (forall k x res, nth_error xs k = Some (x, res) -> alone t x res) ->
  (forall j col i x, nth_error (t_parts t) j = Some col -> nth_error col i = Some x -> m (0, (Part j, i)) = VF x) ->
  (forall i x, nth_error (t_nodes t) i = Some x -> m (0, (Nodes, i)) = VN x) ->
  (forall i x, nth_error (t_perm t) i = Some x -> m (0, (Perm, i)) = VI x) ->
  (forall i x, nth_error (t_crit t) i = Some x -> m (0, (Crits, i)) = VC x) ->
  (forall k x res, nth_error xs k = Some (x, res) -> forall j i y, j < nvecs_res E (ca_q x) ->
     nth_error (nth j (ca_out x) []) i = Some y -> m (S k, (Out j, i)) = VF y) ->
  length qs = length xs ->
  (forall k x res p, nth_error xs k = Some (x, res) -> nth_error qs k = Some p -> call_prog t k x p) ->
  arranged qs q ->
  Par.all_runs uloc (val F) uloc_eq q m (fun m' =>
    (forall k x res, nth_error xs k = Some (x, res) -> forall j i y, j < nvecs_res E (ca_q x) ->
       nth_error (nth j res []) i = Some y -> m' (S k, (Out j, i)) = VF y) /\
    forall l, m' (0, l) = m (0, l)).
Proof.
  intros t xs qs q m HE HK Hr Hroom HA H1 H2 H3 H4 H5 HL HP HQ.
  destruct (calls_run t xs qs q m HE HK Hr Hroom HA) as [A B]; auto.
  - intros j col Hj i x Hx. exact (H1 j col i x Hj Hx).
  - intros k x res Hx j Hj i y Hy. exact (H5 k x res Hx j i y Hj Hy).
  - split; [|exact B]. intros n m' c' X. destruct (A n m' c' X) as (A1 & A2 & A3). split; [exact A1|]. split; [|exact A3].
    intros Z. destruct (A2 Z) as [Y1 Y2]. split; [|exact Y2]. intros k x res Hx j i y Hj Hy. exact (Y1 k x res Hx j Hj i y Hy).
Qed.

End Calls.

(** * For the examples: a test that finds races *)
Lemma two_calls : forall {A B : Type} (P : A -> B -> Prop) a1 b1 a2 b2, P a1 b1 -> P a2 b2 ->
  forall k x res, nth_error [(a1, b1); (a2, b2)] k = Some (x, res) -> P x res.
Proof.
  intros A B P a1 b1 a2 b2 H1 H2 [|[|k]] x res H; cbn [nth_error] in H; [now injection H as <- <-|now injection H as <- <-|destruct k; discriminate H].
Qed.

Section Find.

Context {L V : Type}.
Variable eqL : forall a b : L, {a = b} + {a <> b}.

Fixpoint next (c : cmd L V) : list (bool * L) :=
  match c with
  | Ret => []
  | Rd l _ => [(false, l)]
  | Wr l _ _ => [(true, l)]
  | Fork a b _ => next a ++ next b
  end.
Fixpoint races (c : cmd L V) : bool :=
  match c with
  | Fork a b _ => existsb (fun x => existsb (fun y => (fst x || fst y) && if eqL (snd x) (snd y) then true else false) (next b)) (next a) || races a || races b
  | _ => false
  end.

Lemma next_pending : forall c w l, In (w, l) (next c) -> Par.pending L V c w l.
Proof.
  induction c as [|l0 k IH|l0 v k IH|a IHa b IHb k IHk]; intros w l H; cbn [next] in H; [destruct H| | |].
  - destruct H as [X|[]]. injection X as <- <-. constructor.
  - destruct H as [X|[]]. injection X as <- <-. constructor.
  - apply in_app_iff in H as [H|H]; [now apply Par.p_left, IHa|now apply Par.p_right, IHb].
Qed.

Lemma races_racing : forall c, races c = true -> racing c.
Proof.
  induction c as [|l0 k IH|l0 v k IH|a IHa b IHb k IHk]; cbn [races]; intros H; [discriminate|discriminate|discriminate|].
  apply orb_true_iff in H as [H|H]; [apply orb_true_iff in H as [H|H]|].
  - apply existsb_exists in H as ([w l] & H1 & H). apply existsb_exists in H as ([w' l'] & H2 & H). cbn [fst snd] in H.
    apply andb_true_iff in H as [H3 H4]. destruct (eqL l l') as [<-|]; [|discriminate].
    eapply Par.r_now; [apply next_pending, H1|apply next_pending, H2|exact H3].
  - apply Par.r_left. auto.
  - apply Par.r_right. auto.
Qed.

Lemma race_found : forall fuel choice (a b : cmd L V) m, races (snd (snd (drive eqL fuel choice (Fork a b Ret) m))) = true ->
  exists q n m' q', arranged [a; b] q /\ Par.exec L V eqL n m q m' q' /\ racing q'.
Proof.
  intros fuel choice a b m H. exists (Fork a b Ret). do 3 eexists. split; [apply (ar_beside [a] [b]); apply ar_one|].
  split; [apply (drive_exec eqL fuel choice)|]. apply races_racing, H.
Qed.

End Find.
