(** Collision detection: outcomes of the first phase, and the leaves a particle is added to. *)
From Coq Require Import List Arith ZArith NArith Bool Lia Permutation Sorted.
From Verif Require Import Base Config Morton MortonProofs CodesProofs Build TreeSpec FOps Disc NodeProps Tree TreeInv TreeProofs Kernels Coll CollSearch CollProofs.
Import ListNotations.
Local Open Scope nat_scope.

(** A number with the given binary digits. *)
Lemma bits_index : forall bs : list bool, exists i, i < 2 ^ length bs /\
  forall j b, nth_error bs j = Some b -> N.testbit (N.of_nat i) (N.of_nat j) = b.
Proof.
  induction bs as [|b bs (i & Hi & IH)].
  - exists 0. split; [cbn; lia|]. intros [|j] b H; discriminate.
  - exists (2 * i + (if b then 1 else 0)). cbn [length]. rewrite Nat.pow_succ_r'. split; [destruct b; lia|].
    intros [|j] b' H; cbn [nth_error] in H.
    + injection H as <-. replace (N.of_nat (2 * i + (if b then 1 else 0))) with (2 * N.of_nat i + N.b2n b)%N by (destruct b; cbn [N.b2n]; lia).
      change (N.of_nat 0) with 0%N. rewrite N.testbit_0_r. reflexivity.
    + replace (N.of_nat (2 * i + (if b then 1 else 0))) with (2 * N.of_nat i + N.b2n b)%N by (destruct b; cbn [N.b2n]; lia).
      replace (N.of_nat (S j)) with (N.succ (N.of_nat j)) by lia.
      rewrite N.testbit_succ_r. now apply IH.
Qed.

Definition pick (b : bool) (r : N * N) : N := if b then snd r else fst r.

Lemma shiftr_mono : forall a b s, (a <= b)%N -> (N.shiftr a s <= N.shiftr b s)%N.
Proof. intros a b s H. rewrite !N.shiftr_div_pow2. apply N.div_le_mono; [apply N.pow_nonzero; lia|exact H]. Qed.

Section Cover.

Context {F : Type}.
Variable O : fops F.
Variable E : env.
Variable K : platform F.
Notation c := (e_cfg E).
Notation d := (dimN c).
Notation cb := (cbitsc c).
Notation w := (width c).
Notation zero := (fofZ O 0%Z).

(** Extents of a cube in discretised coordinates. *)
Definition disc_extent (x s inv : F) (r : N * N) : Prop :=
  let h := fmul O s (fdiv O (fofZ O 1%Z) (fofZ O 2%Z)) in
  disc_single_coord O c true (fsub O x h) inv = Ok (fst r) /\ disc_single_coord O c true (fadd O x h) inv = Ok (snd r).

Lemma level_le : forall fuel r s cur, (level_loop O fuel r s cur <= r + N.of_nat fuel)%N.
Proof.
  induction fuel as [|fuel IH]; intros r s cur; cbn [level_loop]; [lia|].
  destruct (fle O _ s); [lia|]. pose proof (IH (r + 1)%N s (fmul O cur (fdiv O (fofZ O 1) (fofZ O 2)))). lia.
Qed.
Lemma size_to_level_le : forall s b, (size_to_level O E s b <= cb)%N.
Proof. intros s b. unfold size_to_level. pose proof (level_le (N.to_nat cb) 0%N s b). lia. Qed.

Lemma encode_total : forall ds, length ds = dim c -> Forall (fun x => (x < 2 ^ cb)%N) ds ->
  exists x, morton_encode c ds = Ok x /\ (x < top E)%N.
Proof.
  intros ds Hl HF. destruct (morton_encode_testbit c ds Hl HF) as (x & Hx & _). exists x. split; [exact Hx|].
  exact (morton_encode_lt c ds x Hl HF Hx).
Qed.

Lemma Forall2_nth_both : forall {A B} (R : A -> B -> Prop) la lb, Forall2 R la lb ->
  forall i a b, nth_error la i = Some a -> nth_error lb i = Some b -> R a b.
Proof.
  induction 1; intros [|i] x' y' Ha Hb; cbn in *; try discriminate.
  - injection Ha as <-. injection Hb as <-. assumption.
  - eauto.
Qed.

Lemma min_max_inv : forall s xs mm, min_max O s xs = Ok mm ->
  mm = map (fun x => (fsub O x (fmul O s (fdiv O (fofZ O 1%Z) (fofZ O 2%Z))), fadd O x (fmul O s (fdiv O (fofZ O 1%Z) (fofZ O 2%Z))))) xs.
Proof.
  intros s xs mm. unfold min_max. revert mm. induction xs as [|x xs IH]; intros mm H; cbn [mapM] in H.
  - injection H as <-. reflexivity.
  - apply bind_Ok in H. destruct H as (y & Hy & H). apply bind_Ok in H. destruct H as (ys & Hys & H). injection H as <-.
    rewrite (IH _ Hys). cbn [map]. f_equal. destruct (_ || _ || _); [discriminate|]. now injection Hy as <-.
Qed.

(** The vertices. *)
Lemma aabb_codes_inv : forall xs s inv vs, length xs = dim c -> aabb_codes O E xs s inv = Ok vs ->
  exists rs, Forall2 (fun x r => disc_extent x s inv r) xs rs /\ Forall (fun r => (fst r < 2 ^ cb /\ snd r < 2 ^ cb)%N) rs /\
    (forall bs, length bs = dim c -> exists v, In v vs /\ morton_encode c (map (fun '(b, r) => pick b r) (combine bs rs)) = Ok v) /\
    (forall v, In v vs -> (v < top E)%N).
Proof.
  intros xs s inv vs Hl H. unfold aabb_codes in H. apply bind_Ok in H. destruct H as (mm & Hmm & H).
  pose proof (min_max_inv _ _ _ Hmm) as Emm. set (h := fmul O s (fdiv O (fofZ O 1) (fofZ O 2))) in *.
  assert (Lmm : length mm = dim c) by (rewrite Emm, map_length; exact Hl).
  set (D := fun i => fun '(j, (mn, mx)) => disc_single_coord O c true (if N.testbit (N.of_nat i) (N.of_nat j) then mx else mn) inv) in *.
  change (mapM (fun i => do ds <- mapM (D i) (combine (seq 0 (length mm)) mm); morton_encode c ds) (seq 0 (2 ^ dim c)) = Ok vs) in H.
  (* each index below 2^dim succeeds *)
  assert (Hidx : forall i, i < 2 ^ dim c -> exists ds v, mapM (D i) (combine (seq 0 (length mm)) mm) = Ok ds /\ morton_encode c ds = Ok v /\ In v vs).
  { intros i Hi. destruct (mapM_in_l _ _ _ i H) as (v & Hv & Hf); [apply in_seq; lia|]. apply bind_Ok in Hf. destruct Hf as (ds & Hds & Hf). eauto. }
  assert (Hdisc : forall i ds j x, mapM (D i) (combine (seq 0 (length mm)) mm) = Ok ds -> nth_error xs j = Some x ->
    exists k, nth_error ds j = Some k /\ disc_single_coord O c true (if N.testbit (N.of_nat i) (N.of_nat j) then fadd O x h else fsub O x h) inv = Ok k).
  { intros i ds j x Hds Hx. apply mapM_Ok in Hds. destruct Hds as [_ Hds].
    assert (Hm : nth_error mm j = Some (fsub O x h, fadd O x h)) by (rewrite Emm, nth_error_map, Hx; reflexivity).
    destruct (Hds j _ (nth_combine_seq mm 0 j _ Hm)) as (k & Hk & HD). exists k. split; [exact Hk|exact HD]. }
  assert (Hlen : forall i ds, mapM (D i) (combine (seq 0 (length mm)) mm) = Ok ds -> length ds = dim c).
  { intros i ds Hds. apply mapM_Ok in Hds. destruct Hds as [Hds _]. rewrite Hds, combine_length, seq_length. lia. }
  assert (Hlt : forall i ds, mapM (D i) (combine (seq 0 (length mm)) mm) = Ok ds -> Forall (fun k => (k < 2 ^ cb)%N) ds).
  { intros i ds Hds. apply Forall_forall. intros k Hk. destruct (mapM_in _ _ _ _ Hds Hk) as ([j [mn mx]] & _ & HD). exact (disc_lt O c true _ _ _ HD). }
  (* all low, all high *)
  destruct (bits_index (repeat false (dim c))) as (i0 & Hi0 & B0). destruct (bits_index (repeat true (dim c))) as (i1 & Hi1 & B1).
  rewrite repeat_length in Hi0, Hi1.
  destruct (Hidx i0 Hi0) as (lo & v0 & Hlo & _). destruct (Hidx i1 Hi1) as (hi & v1 & Hhi & _).
  assert (Hj : forall j x, nth_error xs j = Some x -> j < dim c) by (intros j x Hx; apply nth_error_lt in Hx; lia).
  assert (Dlo : forall j x, nth_error xs j = Some x -> exists k, nth_error lo j = Some k /\ disc_single_coord O c true (fsub O x h) inv = Ok k).
  { intros j x Hx. destruct (Hdisc i0 lo j x Hlo Hx) as (k & Hk & HD). rewrite (B0 j false) in HD by (apply nth_error_repeat; eauto). eauto. }
  assert (Dhi : forall j x, nth_error xs j = Some x -> exists k, nth_error hi j = Some k /\ disc_single_coord O c true (fadd O x h) inv = Ok k).
  { intros j x Hx. destruct (Hdisc i1 hi j x Hhi Hx) as (k & Hk & HD). rewrite (B1 j true) in HD by (apply nth_error_repeat; eauto). eauto. }
  pose proof (Hlen _ _ Hlo) as Llo. pose proof (Hlen _ _ Hhi) as Lhi.
  assert (Hcomb : forall {A B} (la : list A) (lb : list B) j a b, nth_error la j = Some a -> nth_error lb j = Some b -> nth_error (combine la lb) j = Some (a, b)).
  { clear. induction la as [|a0 la IH]; intros [|b0 lb] [|j] a b Ha Hb; cbn in *; try discriminate; try congruence. auto. }
  assert (Hcomb' : forall {A B} (la : list A) (lb : list B) j a b, nth_error (combine la lb) j = Some (a, b) -> nth_error la j = Some a /\ nth_error lb j = Some b).
  { clear. induction la as [|a0 la IH]; intros [|b0 lb] [|j] a b Ha; cbn in *; try discriminate; [split; congruence|auto]. }
  exists (combine lo hi). split; [|split; [|split]].
  - assert (HF : forall la (lb : list (N * N)), length la = length lb -> (forall j x r, nth_error la j = Some x -> nth_error lb j = Some r -> disc_extent x s inv r) -> Forall2 (fun x r => disc_extent x s inv r) la lb).
    { clear. induction la as [|x la IH]; intros [|r lb] HL HH; try discriminate; constructor; [apply (HH 0); reflexivity|].
      apply IH; [cbn in HL; lia|]. intros j. exact (HH (S j)). }
    apply HF; [rewrite combine_length; lia|]. intros j x [a b] Hx Hr. apply Hcomb' in Hr. destruct Hr as [Ha Hb].
    destruct (Dlo j x Hx) as (k & Hk & HD). destruct (Dhi j x Hx) as (k' & Hk' & HD'). unfold disc_extent. fold h. cbn [fst snd]. split; congruence.
  - apply Forall_forall. intros [a b] Hab. split; cbn [fst snd].
    + apply in_combine_l in Hab. exact (proj1 (Forall_forall _ _) (Hlt _ _ Hlo) a Hab).
    + apply in_combine_r in Hab. exact (proj1 (Forall_forall _ _) (Hlt _ _ Hhi) b Hab).
  - intros bs Hbs. destruct (bits_index bs) as (i & Hi & B). rewrite Hbs in Hi.
    destruct (Hidx i Hi) as (ds & v & Hds & Hv & HI). exists v. split; [exact HI|]. rewrite <- Hv. f_equal.
    apply list_ext. intros j. destruct (Nat.lt_ge_cases j (dim c)) as [Hjd|Hjd].
    + destruct (nth_error xs j) as [x|] eqn:Hx; [|apply nth_error_None in Hx; lia].
      destruct (nth_error bs j) as [b|] eqn:Hb; [|apply nth_error_None in Hb; lia].
      destruct (Hdisc i ds j x Hds Hx) as (k & Hk & HD). rewrite Hk.
      destruct (Dlo j x Hx) as (k0 & Hk0 & HD0). destruct (Dhi j x Hx) as (k1 & Hk1 & HD1).
      rewrite nth_error_map, (Hcomb _ _ bs (combine lo hi) j b (k0, k1) Hb (Hcomb _ _ _ _ _ _ _ Hk0 Hk1)). cbn [option_map].
      rewrite (B j b Hb) in HD. unfold pick. destruct b; cbn [fst snd]; congruence.
    + assert (LL : forall (l : list N), length l = dim c -> nth_error l j = None) by (intros l HL; apply nth_error_None; lia).
      rewrite !LL; [reflexivity|exact (Hlen _ _ Hds)|]. rewrite map_length, !combine_length. lia.
  - intros v Hv. destruct (mapM_in _ _ _ _ H Hv) as (i & _ & Hf). apply bind_Ok in Hf. destruct Hf as (ds & Hds & Hf).
    destruct (encode_total ds (Hlen _ _ Hds) (Hlt _ _ Hds)) as (x & Hx & Hxt). congruence.
Qed.

Section Tree.

Variable t : @tree F.
Hypothesis Hinv : tree_inv O E t.
Notation n := (length (t_codes t)).
Notation leaves := (coll_leaves (t_nodes t)).
Hypothesis HK : shift_ok E K leaves.
Variable ordered : bool.
Variable sizes : list F.
Hypothesis Hs : n <= length sizes.
Notation size_of := (aabb_of ordered t sizes).
Notation inv_box := (fdiv O (fofZ O 1%Z) (t_box t)).

(** An invalid size. *)
Definition bad_size (s : F) : bool := negb (ffin O s) || flt O s zero.

(** What the particle [p] of the leaf [lnode] adds. *)
Definition added (lnode : node (props F)) (al : N) (evs : list (nat * nat)) (p : nat) (v : N) : Prop :=
  (n_level lnode <= al)%N /\ prefix c (n_level lnode) v = cellp E lnode \/
  exists m, (m <= al)%N /\ (exists k nd, nth_error leaves k = Some nd /\ meets E m (prefix c m v) nd) /\
    forall k nd, nth_error leaves k = Some nd -> meets E m (prefix c m v) nd -> n_code nd = n_code lnode \/ In (k, p) evs.

Lemma extra_cases : forall kl lnode p, nth_error leaves kl = Some lnode -> n_begin lnode <= p < n_end lnode ->
  exists s xs, size_of p = Ok s /\ position E t p = Ok xs /\ length xs = dim c /\
  ( if bad_size s then extra O E K ordered t sizes leaves lnode p = Throw InvalidArgument
    else if feq O s zero then extra O E K ordered t sizes leaves lnode p = Ok []
    else match aabb_codes O E xs s inv_box with
         | Ok vs => exists evs, extra O E K ordered t sizes leaves lnode p = Ok evs /\
             ((forall v, In v vs -> prefix c (n_level lnode) v = cellp E lnode) \/
              forall v, In v vs -> added lnode (size_to_level O E s (t_box t)) evs p v)
         | Throw e => extra O E K ordered t sizes leaves lnode p = Throw e
         | UB => extra O E K ordered t sizes leaves lnode p = UB
         end).
Proof.
  intros kl lnode p Hk Hp. destruct (leaf_facts O E t Hinv kl lnode Hk) as (HL & HP & HC & HR & HI).
  assert (Hpn : p < n) by lia.
  destruct (size_of_ok O E t Hinv ordered sizes Hs p Hpn) as (s & Es).
  destruct (position_ok O E t Hinv p Hpn) as (xs & Ex & Lx & _).
  exists s, xs. split; [exact Es|]. split; [exact Ex|]. split; [exact Lx|].
  unfold extra. rewrite Es. cbn [bind]. fold (bad_size s). destruct (bad_size s); [reflexivity|].
  destruct (feq O s zero); [reflexivity|]. rewrite Ex. cbn [bind].
  destruct (aabb_codes O E xs s inv_box) as [vs|e|] eqn:EV; cbn [bind]; [|reflexivity|reflexivity].
  destruct (rd_lt (t_codes t) p Hpn) as (pc & Hpc). rewrite Hpc. cbn [bind]. apply rd_Ok in Hpc.
  unfold straddles. rewrite shr_prefix by exact HL. cbn [bind].
  rewrite (mapM_map (fun v => shr w v ((cb - n_level lnode) * d)) (prefix c (n_level lnode))) by (intros; now apply shr_prefix).
  cbn [bind]. pose proof (proj1 (HI _ _ Hpc) Hp) as Hown.
  destruct (existsb _ _) eqn:ST; cbn [negb].
  2: { exists []. split; [reflexivity|]. left. intros v Hv. rewrite <- Hown.
       destruct (N.eq_dec (prefix c (n_level lnode) v) (prefix c (n_level lnode) pc)) as [|Hne]; [assumption|].
       assert (existsb (fun p0 => negb (p0 =? prefix c (n_level lnode) pc)%N) (map (prefix c (n_level lnode)) vs) = true); [|congruence].
       apply existsb_exists. exists (prefix c (n_level lnode) v). split; [now apply in_map|]. now apply negb_true_iff, N.eqb_neq. }
  destruct (aabb_codes_inv xs s inv_box vs Lx EV) as (_ & _ & _ & _ & Hvt).
  set (al := size_to_level O E s (t_box t)) in *.
  assert (Hal : (al <= cb)%N) by apply size_to_level_le.
  assert (Hne : leaves <> []) by (intros HN; rewrite HN in Hk; destruct kl; discriminate).
  set (G := fun v => do z <- zoom E K leaves (n_code lnode) (n_level lnode) v (N.to_nat al) al;
        match z with
        | None => Ok []
        | Some (b, e) =>
          do ks <- mapM (fun k => do n <- rd leaves k; Ok (k, n_code n)) (seq b (e - b));
          Ok (map (fun k => (fst k, p)) (filter (fun k => negb (snd k =? n_code lnode)%N) ks))
        end).
  assert (HG : forall v, In v vs -> exists l, G v = Ok l /\
    ((n_level lnode <= al)%N /\ prefix c (n_level lnode) v = cellp E lnode \/
     exists m, (m <= al)%N /\ (exists k nd, nth_error leaves k = Some nd /\ meets E m (prefix c m v) nd) /\
     forall k nd, nth_error leaves k = Some nd -> meets E m (prefix c m v) nd -> n_code nd = n_code lnode \/ In (k, p) l)).
  { intros v Hv. unfold G. rewrite HC.
    destruct (zoom_ok E K (t_codes t) leaves (inv_valid_codes O E t Hinv) (leaf_facts O E t Hinv) (leaf_tiles O E t Hinv) HK Hne
       (n_level lnode) (cellp E lnode) v HL HP (Hvt v Hv) (N.to_nat al) al Hal eq_refl) as [(Z1 & Z2 & Z3)|(b & e & m & Z1 & Z2 & Z3 & Z4)].
    - rewrite Z1. cbn [bind]. eexists. split; [reflexivity|]. left. auto.
    - rewrite Z1. cbn [bind].
      destruct (mapM_all (fun k => do n <- rd leaves k; Ok (k, n_code n)) (seq b (e - b))) as (ks & Hks).
      { intros k Hkk. apply in_seq in Hkk. destruct (rd_lt leaves k ltac:(lia)) as (nd & ->). cbn [bind]. eauto. }
      rewrite Hks. cbn [bind]. eexists. split; [reflexivity|]. right. exists m. split; [exact Z2|]. split.
      + destruct (nth_error leaves b) as [nd|] eqn:Hnb; [|apply nth_error_None in Hnb; lia]. exists b, nd. split; [exact Hnb|]. apply (Z4 b nd Hnb). lia.
      + intros k nd Hnd HM. apply (Z4 k nd Hnd) in HM.
        destruct (N.eq_dec (n_code nd) (n_code lnode)) as [Hn|Hn]; [left; congruence|]. right.
        destruct (mapM_in_l _ _ _ k Hks) as ([k' cd] & Hin & Hf); [apply in_seq; lia|].
        apply rd_Ok in Hnd. rewrite Hnd in Hf. cbn [bind] in Hf. injection Hf as <- <-.
        apply in_map_iff. exists (k, n_code nd). split; [reflexivity|]. apply filter_In. split; [exact Hin|].
        cbn [snd]. apply negb_true_iff, N.eqb_neq. rewrite <- HC. exact Hn. }
  destruct (mapM_all G vs) as (ll & Hll); [intros v Hv; destruct (HG v Hv) as (l & Hl & _); eauto|].
  change (exists evs, (do l <- mapM G vs; Ok (concat l)) = Ok evs /\
    ((forall v, In v vs -> prefix c (n_level lnode) v = cellp E lnode) \/ (forall v, In v vs -> added lnode al evs p v))).
  rewrite Hll. cbn [bind]. eexists. split; [reflexivity|]. right. intros v Hv.
  destruct (HG v Hv) as (l & Hl & HA). destruct (mapM_in_l _ _ _ v Hll Hv) as (l' & Hl' & Hf). rewrite Hl in Hf. injection Hf as <-.
  unfold added. destruct HA as [HA|(m & A1 & A2 & A3)]; [now left|]. right. exists m. split; [exact A1|]. split; [exact A2|].
  intros k nd Hnd HM. destruct (A3 k nd Hnd HM) as [|Hin]; [now left|]. right. apply in_concat. eauto.
Qed.

(** The point with code [x] is covered: each leaf that overlaps some cell around it knows [p]. *)
Definition covers (evs : list (nat * nat)) (x : N) (p : nat) : Prop :=
  (exists k nd, nth_error leaves k = Some nd /\ n_begin nd <= p < n_end nd /\ prefix c (n_level nd) x = cellp E nd) \/
  exists m, (m <= cb)%N /\ (exists k nd, nth_error leaves k = Some nd /\ meets E m (prefix c m x) nd) /\
    forall k nd, nth_error leaves k = Some nd -> meets E m (prefix c m x) nd -> member t evs k p.

Lemma leaf_contains_unique : forall k k' a b x, nth_error leaves k = Some a -> nth_error leaves k' = Some b ->
  prefix c (n_level a) x = cellp E a -> prefix c (n_level b) x = cellp E b -> k = k'.
Proof.
  intros k k' a b x Ha Hb Pa Pb. apply in_cell in Pa. apply in_cell in Pb.
  pose proof (leaves_sorted E (t_codes t) leaves (inv_valid_codes O E t Hinv) (leaf_facts O E t Hinv) (leaf_tiles O E t Hinv)) as HS.
  destruct (Nat.lt_trichotomy k k') as [H|[H|H]]; [|exact H|].
  - pose proof (HS _ _ _ _ H Ha Hb). lia.
  - pose proof (HS _ _ _ _ H Hb Ha). lia.
Qed.

Lemma covers_share : forall evs x p q, covers evs x p -> covers evs x q -> exists k, member t evs k p /\ member t evs k q.
Proof.
  intros evs x p q [(k & a & Ha & Rp & Px)|(m & Hm & (k0 & a0 & Ha0 & M0) & Hp)] [(k' & b & Hb & Rq & Py)|(m' & Hm' & (k1 & a1 & Ha1 & M1) & Hq)].
  - assert (k = k') by (eapply leaf_contains_unique; eauto). subst k'. exists k. split; [exists a|exists b]; auto.
  - exists k. split; [exists a; auto|]. apply (Hq k a Ha). now apply meets_point.
  - exists k'. split; [|exists b; auto]. apply (Hp k' b Hb). now apply meets_point.
  - destruct (N.le_ge_cases m m') as [HL|HL].
    + exists k1. split; [|exact (Hq k1 a1 Ha1 M1)]. apply (Hp k1 a1 Ha1). exact (meets_up E m m' x a1 HL Hm' M1).
    + exists k0. split; [exact (Hp k0 a0 Ha0 M0)|]. apply (Hq k0 a0 Ha0). exact (meets_up E m' m x a0 HL Hm M0).
Qed.

(** The points of the discretised extent. *)
Lemma prefix_shiftr : forall l x, prefix c l x = N.shiftr x (d * (cb - l)).
Proof. intros. unfold prefix. now rewrite N.shiftr_div_pow2. Qed.

Lemma cover_point : forall kl lnode p s xs vs evs dc x rs, nth_error leaves kl = Some lnode -> n_begin lnode <= p < n_end lnode ->
  length rs = dim c -> Forall (fun r => (fst r < 2 ^ cb /\ snd r < 2 ^ cb)%N) rs -> 
  (forall bs, length bs = dim c -> exists v, In v vs /\ morton_encode c (map (fun '(b, r) => pick b r) (combine bs rs)) = Ok v) ->
  (forall k q, In (k, q) xs -> In (k, q) evs) ->
  ((forall v, In v vs -> prefix c (n_level lnode) v = cellp E lnode) \/
              forall v, In v vs -> added lnode (size_to_level O E s (t_box t)) xs p v) ->
  Forall2 (fun k r => (fst r <= k <= snd r)%N /\ (k < 2 ^ cb)%N) dc rs ->
  Forall (fun r => let sh := (cb - size_to_level O E s (t_box t))%N in (N.shiftr (snd r) sh <= N.shiftr (fst r) sh + 1)%N) rs ->
  morton_encode c dc = Ok x -> covers evs x p.
Proof.
  intros kl lnode p s xs vs evs dc x rs Hk Hp Lrs Frs Hpick Hsub Hadd Hdc Hspan Hx.
  destruct (leaf_facts O E t Hinv kl lnode Hk) as (HL & HP & HC & HR & HI).
  assert (Ldc : length dc = dim c) by (rewrite <- Lrs; exact (Forall2_length_eq _ _ _ Hdc)).
  assert (Fdc : Forall (fun k => (k < 2 ^ cb)%N) dc).
  { clear - Hdc. induction Hdc as [|k r dc rs [_ Hkr] Hdc IH]; constructor; assumption. }
  assert (Lp : forall bs, length bs = dim c -> length (map (fun '(b, r) => pick b r) (combine bs rs)) = dim c) by (intros bs Hbs; rewrite map_length, combine_length; lia).
  assert (Fp : forall bs, Forall (fun k => (k < 2 ^ cb)%N) (map (fun '(b, r) => pick b r) (combine bs rs))).
  { intros bs. apply Forall_forall. intros k Hk'. apply in_map_iff in Hk'. destruct Hk' as ([b r] & <- & Hin). apply in_combine_r in Hin.
    pose proof (proj1 (Forall_forall _ _) Frs r Hin) as Hr. unfold pick. destruct b; apply Hr. }
  set (al := size_to_level O E s (t_box t)) in *.
  assert (Hal : (al <= cb)%N) by apply size_to_level_le.
  destruct Hadd as [Hall|Hadd].
  - (* no straddling *)
    left. exists kl, lnode. split; [exact Hk|]. split; [exact Hp|].
    destruct (Hpick (repeat false (dim c)) (repeat_length _ _)) as (v0 & Hv0 & E0).
    destruct (Hpick (repeat true (dim c)) (repeat_length _ _)) as (v1 & Hv1 & E1).
    rewrite <- (Hall v0 Hv0). pose proof (eq_trans (Hall v0 Hv0) (eq_sym (Hall v1 Hv1))) as H01.
    rewrite !prefix_shiftr in *.
    apply (prefix_cells c _ _ _ _ _ (Lp _ (repeat_length _ _)) (Fp _) (Lp _ (repeat_length _ _)) (Fp _) E0 E1) in H01.
    apply (prefix_cells c _ _ _ _ _ Ldc Fdc (Lp _ (repeat_length _ _)) (Fp _) Hx E0).
    set (sh := (cb - n_level lnode)%N) in *. clearbody sh. clear - Hdc H01 Lrs.
    revert Lrs H01. generalize (dim c). induction Hdc as [|k r dc rs Hkr Hdc IH]; intros dm L H01; destruct dm; try discriminate; [reflexivity|].
    cbn in H01, L |- *. injection H01 as A B. injection L as L. f_equal; [|apply IH; assumption].
    destruct Hkr as [[B1 B2] _]. pose proof (shiftr_mono _ _ sh B1). pose proof (shiftr_mono _ _ sh B2). lia.
  - set (sh := (cb - al)%N) in *.
    set (bs := map (fun '(k, r) => negb (N.shiftr k sh =? N.shiftr (fst r) sh)%N) (combine dc rs)).
    assert (Lbs : length bs = dim c) by (unfold bs; rewrite map_length, combine_length; lia).
    destruct (Hpick bs Lbs) as (v & Hv & Ev).
    assert (Hpre : prefix c al x = prefix c al v).
    { rewrite !prefix_shiftr. apply (prefix_cells c _ _ _ _ _ Ldc Fdc (Lp _ Lbs) (Fp _) Hx Ev). fold sh. unfold bs. clearbody sh. clear - Hdc Hspan.
      induction Hdc as [|k r dc rs Hkr Hdc IH]; [reflexivity|]. cbn. inversion Hspan as [|? ? S1 S2]; subst. f_equal; [|apply IH; assumption].
      destruct Hkr as [[B1 B2] _]. pose proof (shiftr_mono _ _ sh B1). pose proof (shiftr_mono _ _ sh B2). cbv zeta in S1.
      destruct (N.eqb_spec (N.shiftr k sh) (N.shiftr (fst r) sh)); cbn [negb pick]; lia. }
    destruct (Hadd v Hv) as [[A1 A2]|(m & A1 & (k0 & nd0 & N0 & M0) & A3)].
    + left. exists kl, lnode. split; [exact Hk|]. split; [exact Hp|]. rewrite <- A2. exact (prefix_eq_up E _ _ _ _ A1 Hal Hpre).
    + right. exists m. rewrite (prefix_eq_up E _ _ _ _ A1 Hal Hpre). split; [lia|]. split; [eauto|].
      intros k nd Hnd HM. exists nd. split; [exact Hnd|]. destruct (A3 k nd Hnd HM) as [HCC|Hin]; [left|right; auto].
      apply (same_code_range O E t Hinv k kl nd lnode p Hnd Hk HCC); [lia|exact Hp].
Qed.

End Tree.

End Cover.
