(** Absence of undefined behaviour in the operations on trees. *)
From Coq Require Import List Arith ZArith NArith Bool Permutation Lia.
From Coq Require Import ZifyBool ZifyN ZifyNat.
From Verif Require Import Base Config Morton MortonProofs CodesProofs Build TreeSpec BuildSpec BuildProofs BuildProps
  FOps Disc NodeProps Tree TreeInv TreeProofs.
Import ListNotations.
Local Open Scope nat_scope.

(** * Monadic plumbing *)
Lemma bind_safe : forall {A B} (x : outcome A) (f : A -> outcome B),
  x <> UB -> (forall a, x = Ok a -> f a <> UB) -> bind x f <> UB.
Proof. intros A B [a|e|] f H1 H2; simpl; [now apply H2|discriminate|congruence]. Qed.

Lemma mapM_safe : forall {A B} (f : A -> outcome B) l, (forall a, In a l -> f a <> UB) -> mapM f l <> UB.
Proof.
  intros A B f. induction l as [|a l IH]; intros H; cbn [mapM]; [discriminate|].
  apply bind_safe; [apply H; now left|]. intros b _. apply bind_safe; [apply IH; intros; apply H; now right|].
  discriminate.
Qed.

Lemma foldM_safe : forall {A S} (I : S -> Prop) (f : S -> A -> outcome S) l s, I s ->
  (forall s a, I s -> In a l -> f s a <> UB) -> (forall s a s', I s -> In a l -> f s a = Ok s' -> I s') ->
  foldM f l s <> UB.
Proof.
  intros A S I f. induction l as [|a l IH]; intros s Hs H1 H2; cbn [foldM]; [discriminate|].
  apply bind_safe; [apply H1; [exact Hs|now left]|]. intros s' E. apply IH.
  - eapply H2; [exact Hs|now left|exact E].
  - intros s0 x Hs0 Hx. apply H1; [assumption|now right].
  - intros s0 x s1 Hs0 Hx He. eapply H2; [exact Hs0|right; exact Hx|exact He].
Qed.

Lemma foldM_inv : forall {A S} (I : S -> Prop) (f : S -> A -> outcome S) l s s', I s ->
  (forall s a s', I s -> In a l -> f s a = Ok s' -> I s') -> foldM f l s = Ok s' -> I s'.
Proof.
  intros A S I f. induction l as [|a l IH]; intros s s' Hs H2 H; cbn [foldM] in H.
  - now injection H as <-.
  - apply bind_Ok in H as (s1 & H1 & H). eapply IH; [|intros s0 x s2 Hs0 Hx He; eapply H2; [exact Hs0|right; exact Hx|exact He]|exact H].
    eapply H2; [exact Hs|now left|exact H1].
Qed.

Lemma rd_safe : forall {A} (l : list A) i, i < length l -> rd l i <> UB.
Proof. intros A l i H. destruct (rd_lt l i H) as [a ->]. discriminate. Qed.

Lemma wr_safe : forall {A} (l : list A) i a, i < length l -> wr l i a <> UB.
Proof. intros A l i a H. unfold wr. apply Nat.ltb_lt in H. rewrite H. discriminate. Qed.

Lemma it_diff_safe : forall n, it_diff_check n <> UB.
Proof. intros n. unfold it_diff_check. destruct (_ <? _)%N; discriminate. Qed.

Lemma alloc_safe : forall F (s : @sched F) k, alloc s k <> UB.
Proof. intros. unfold alloc. destruct (s_alloc s k); discriminate. Qed.

Lemma dim_pos : forall c, 2 <= dim c.
Proof. destruct c; vm_compute; lia. Qed.

Lemma morton_encode_safe : forall c cs, length cs = dim c -> morton_encode c cs <> UB.
Proof.
  intros c cs H. destruct c; vm_compute in H;
    (do 2 (destruct cs as [|? cs]; [discriminate|])); try (destruct cs as [|? cs]; [discriminate|]);
    (destruct cs as [|? cs]; [cbn [morton_encode]; discriminate|discriminate]).
Qed.

Lemma firstn_In : forall {A} n (l : list A) x, In x (firstn n l) -> In x l.
Proof. intros A n l x H. rewrite <- (firstn_skipn n l). apply in_or_app. now left. Qed.

Lemma skipn_In : forall {A} n (l : list A) x, In x (skipn n l) -> In x l.
Proof. intros A n l x H. rewrite <- (firstn_skipn n l). apply in_or_app. now right. Qed.

Lemma dimN_pos : forall c, (0 < dimN c)%N.
Proof. destruct c; vm_compute; reflexivity. Qed.

Lemma level_shift : forall c l, (l <= cbitsc c)%N -> (l * dimN c < width c)%N.
Proof.
  intros c l H. assert (A : (cbitsc c * dimN c < width c)%N) by (destruct c; vm_compute; reflexivity).
  pose proof (dimN_pos c). nia.
Qed.

Lemma mapM_length : forall {A B} (f : A -> outcome B) l l', mapM f l = Ok l' -> length l' = length l.
Proof. intros A B f l l' H. now apply mapM_Ok in H. Qed.

Section Safe.

Context {F : Type}.
Variable O : fops F.
Variable E : env.
Hypothesis HE : env_ok E.
Let c := e_cfg E.
Hypothesis Hdisc : forall clamp x inv, disc_single_coord O c clamp x inv <> UB.

Notation tree := (@tree F).
Notation tree_inv := (tree_inv O E).

(** A table of [dim + 1] columns of [n] elements. *)
Definition table (cols : list (list F)) (n : nat) : Prop :=
  length cols = dim c + 1 /\ Forall (fun col => length col = n) cols.

Lemma coords_safe : forall cols n i, table cols n -> i < n -> coords E cols i <> UB.
Proof.
  intros cols n i [_ H] Hi. unfold coords. apply mapM_safe. intros col Hc. apply rd_safe.
  apply firstn_In in Hc. rewrite Forall_forall in H. now rewrite (H col Hc).
Qed.

Lemma coords_length : forall cols n i xs, table cols n -> coords E cols i = Ok xs -> length xs = dim c.
Proof.
  intros cols n i xs [H _] Hx. unfold coords in Hx. apply mapM_length in Hx. rewrite Hx, firstn_length.
  fold c. lia.
Qed.

Lemma rows_safe : forall cols n, table cols n -> rows E cols n <> UB.
Proof.
  intros cols n H. unfold rows. apply mapM_safe. intros i Hi. apply in_seq in Hi.
  eapply coords_safe; [exact H|lia].
Qed.

Lemma rows_length : forall cols n rs, table cols n -> rows E cols n = Ok rs -> Forall (fun r => length r = dim c) rs.
Proof.
  intros cols n rs H Hr. unfold rows in Hr. apply mapM_Ok in Hr as [Hl Hr]. apply Forall_forall.
  intros r Hin. apply In_nth_error in Hin as [i Hi]. pose proof (nth_error_lt _ _ _ Hi) as Hlt.
  rewrite Hl, seq_length in Hlt. destruct (Hr i i (nth_error_seq n i Hlt)) as (b & Hb & Hc).
  rewrite Hi in Hb. injection Hb as <-. eapply coords_length; eauto.
Qed.

Lemma encode_all_safe : forall cols inv n, table cols n -> encode_all O E cols inv n <> UB.
Proof.
  intros cols inv n H. unfold encode_all. apply mapM_safe. intros i Hi. apply in_seq in Hi.
  apply bind_safe; [eapply coords_safe; [exact H|lia]|]. intros xs Hx. unfold particle_code.
  apply bind_safe; [apply mapM_safe; intros; apply Hdisc|]. intros ds Hd. apply morton_encode_safe.
  rewrite (mapM_length _ _ _ Hd). eapply coords_length; eauto.
Qed.

Lemma run_red_safe : forall parts r, Forall (fun p => length p = dim c) parts ->
  run_red O (dim c) parts r <> UB /\ forall v, run_red O (dim c) parts r = Ok v -> length v = dim c.
Proof.
  intros parts r Hp. induction r as [|r IH b e|l IHl r IHr]; cbn [run_red].
  - split; [discriminate|]. intros v H. injection H as <-. apply repeat_length.
  - destruct IH as [IH1 IH2].
    assert (Hstep : forall s a s', length s = dim c -> In a (slice parts b e) -> max_step O s a = Ok s' -> length s' = dim c).
    { intros s a s' Hs Ha H. unfold max_step in H. apply mapM_length in H. rewrite H, combine_length, Hs.
      unfold slice in Ha. apply firstn_In in Ha. apply skipn_In in Ha. rewrite Forall_forall in Hp.
      rewrite (Hp a Ha). apply Nat.min_id. }
    split.
    + apply bind_safe; [exact IH1|]. intros v Hv. apply foldM_safe with (I := fun s => length s = dim c); auto.
      intros s a _ _. unfold max_step. apply mapM_safe. intros [m x] _. destruct (ffin O _); discriminate.
    + intros v H. apply bind_Ok in H as (v0 & H0 & H). eapply foldM_inv with (I := fun s => length s = dim c); eauto.
  - destruct IHl as [L1 L2]. destruct IHr as [R1 R2]. split.
    + apply bind_safe; [exact L1|]. intros a _. apply bind_safe; [exact R1|]. discriminate.
    + intros v H. apply bind_Ok in H as (a & Ha & H). apply bind_Ok in H as (b & Hb & H). injection H as <-.
      rewrite map_length, combine_length, (L2 a Ha), (R2 b Hb). apply Nat.min_id.
Qed.

Lemma box_safe : forall parts r, Forall (fun p => length p = dim c) parts -> determine_box_size O (dim c) parts r <> UB.
Proof.
  intros parts r Hp. destruct (run_red_safe parts r Hp) as [H1 H2]. unfold determine_box_size.
  apply bind_safe; [apply it_diff_safe|]. intros _ _. apply bind_safe; [exact H1|]. intros v Hv.
  specialize (H2 v Hv). pose proof (dim_pos c). destruct v as [|m0 mt]; [simpl in H2; lia|].
  cbv zeta. destruct (ffin O _); discriminate.
Qed.

(** * Node properties *)
Lemma acc_step_safe : forall (ccols : list (list F)) mcol a idx n, Forall (fun col => length col = n) ccols -> length mcol = n ->
  idx < n -> acc_step O ccols mcol a idx <> UB.
Proof.
  intros ccols mcol a idx n Hc Hm Hi. unfold acc_step. apply bind_safe; [apply rd_safe; lia|]. intros mass _.
  apply bind_safe; [|discriminate]. apply mapM_safe. intros [col s] Hin. apply in_combine_l in Hin.
  apply bind_safe; [|discriminate]. apply rd_safe. rewrite Forall_forall in Hc. now rewrite (Hc col Hin).
Qed.

Lemma node_sums_safe : forall ccols mcol b e n, Forall (fun col => length col = n) ccols -> length mcol = n ->
  b <= e <= n -> node_sums O c (e_simd E) (e_hadd E) ccols mcol b e <> UB.
Proof.
  intros ccols mcol b e n Hc Hm Hbe. unfold node_sums. cbv zeta.
  assert (Hscalar : forall s m a, b <= s -> s + m <= e -> foldM (acc_step O ccols mcol) (seq s m) a <> UB).
  { intros s m a Hs Hm2. apply foldM_safe with (I := fun _ => True); auto. intros s0 i _ Hi. apply in_seq in Hi.
    apply acc_step_safe with (n := n); auto. lia. }
  destruct (e_simd E) as [bw|] eqn:Es.
  - assert (Hbw : 0 < bw) by (destruct HE as [_ H]; now apply H).
    assert (Hgen : (do lanes <- foldM (vec_step O ccols mcol) (map (fun q => b + q * bw) (seq 0 ((e - b) / bw))) (repeat (zero_acc O c) bw);
      foldM (acc_step O ccols mcol) (seq (b + ((e - b) - (e - b) mod bw)) (e - b - ((e - b) - (e - b) mod bw)))
        (hadd O (e_hadd E) (map fst lanes), map (fun j => hadd O (e_hadd E) (map (fun a : acc => nth j (snd a) (fofZ O 0%Z)) lanes)) (seq 0 (dim c)))) <> UB).
    { pose proof (Nat.div_mod (e - b) bw ltac:(lia)) as Hdm.
      pose proof (Nat.mod_upper_bound (e - b) bw ltac:(lia)) as Hmb.
      set (q := (e - b) / bw) in *. set (r := (e - b) mod bw) in *.
      apply bind_safe.
      - apply foldM_safe with (I := fun l : list acc => length l = bw).
        + apply repeat_length.
        + intros lanes i Hl Hi. apply in_map_iff in Hi as (q' & <- & Hq). apply in_seq in Hq.
          unfold vec_step. apply mapM_safe. intros [k a] Hin. apply in_combine_l in Hin. apply in_seq in Hin.
          rewrite Hl in Hin. apply acc_step_safe with (n := n); auto. nia.
        + intros lanes i l' Hl _ H. unfold vec_step in H. apply mapM_length in H.
          rewrite H, combine_length, seq_length, Hl. apply Nat.min_id.
      - intros lanes _. apply Hscalar; lia. }
    destruct (dim c) as [|[|[|[|k]]]] eqn:Ed; try (apply Hscalar; lia). exact Hgen.
  - apply Hscalar; lia.
Qed.

Lemma get_node_centre_safe : forall l p box, (l <= cbitsc c)%N -> (p < 2 ^ (dimN c * l))%N ->
  get_node_centre O c (2 ^ (dimN c * l) + p)%N box <> UB.
Proof.
  intros l p box Hl Hp. unfold get_node_centre. cbv zeta.
  assert (Hlev : tree_level (width c) (dimN c) (2 ^ (dimN c * l) + p) = l).
  { apply (tree_level_nodal (width c) (dimN c) l p); [apply dimN_pos|rewrite N.mul_comm; now apply level_shift|exact Hp]. }
  rewrite Hlev. unfold shl.
  assert (H1 : (l * dimN c < width c)%N) by (now apply level_shift).
  assert (H2 : ((cbitsc c - l) * dimN c < width c)%N) by (apply level_shift; lia).
  apply N.ltb_lt in H1. rewrite H1. cbn [bind]. apply N.ltb_lt in H2. rewrite H2. cbn [bind]. discriminate.
Qed.

Lemma cnp_safe : forall cols n box b e l p, table cols n -> b <= e <= n -> (l <= cbitsc c)%N -> (p < 2 ^ (dimN c * l))%N ->
  cnp O E cols box b e (2 ^ (dimN c * l) + p)%N l <> UB.
Proof.
  intros cols n box b e l p [Hl Hc] Hbe Hlv Hp. unfold cnp, compute_node_properties. cbv zeta. fold c.
  apply bind_safe; [apply rd_safe; lia|]. intros mcol Hm. apply rd_Ok in Hm.
  apply bind_safe.
  - apply node_sums_safe with (n := n); auto.
    + apply Forall_forall. intros col Hin. apply firstn_In in Hin. rewrite Forall_forall in Hc. auto.
    + rewrite Forall_forall in Hc. apply Hc. eapply nth_error_In; eauto.
  - intros [tot com] _. apply bind_safe; [now apply get_node_centre_safe|]. intros geo _.
    destruct (negb _); [discriminate|]. destruct (negb _); [discriminate|].
    destruct (e_mac E); [destruct (ffin O _); discriminate|]. destruct (negb _); [discriminate|].
    destruct (ffin O _); discriminate.
Qed.

Lemma build_safe : forall cols n box codes mln ncrit split st sc, table cols n -> length codes = n -> valid_codes c codes ->
  reorders st -> reorders sc ->
  build_tree c codes mln ncrit (cnp O E cols box) split st sc <> UB.
Proof.
  intros cols n box codes mln ncrit split st sc Ht Hn Hv Hst Hsc. pose proof Hv as [Hs Hr].
  destruct codes as [|x0 t0] eqn:Ec.
  { unfold build_tree. simpl. discriminate. }
  rewrite <- Ec in *. assert (Hne : codes <> []) by congruence.
  pose proof (build_tree_spec c codes mln ncrit (props F) (cnp O E cols box) split Hs Hr st sc Hst Hsc Hne) as B.
  intros HU. rewrite HU in B. destruct B as ([l p] & Hx & Hc).
  destruct (cell_bounds c codes mln ncrit (props F) (cnp O E cols box) l p Hx) as [Hl Hp].
  unfold cok, cnp_of in Hc. apply bind_UB in Hc as [Hc|(a & _ & Hc)]; [|discriminate].
  cbn [fst snd] in Hc. unfold nodal in Hc. revert Hc. apply cnp_safe with (n := n); auto.
  pose proof (clt_le_length c codes l (p + 1)). rewrite clt_succ in *. rewrite <- Hn. lia.
Qed.

(** * Construction *)
Lemma apply_isort_safe : forall {A} (v : list A) p n, is_perm p n -> length v = n -> apply_isort v p <> UB.
Proof. intros A v p n Hp Hl. destruct (apply_isort_ok v p n Hp Hl) as [v' ->]. discriminate. Qed.

Lemma table_permuted : forall p n cols cols', is_perm p n -> table cols n -> Forall2 (permuted p) cols cols' -> table cols' n.
Proof.
  intros p n cols cols' Hp [H1 H2] HF. split; [now rewrite <- (Forall2_length_eq _ _ _ HF)|].
  clear - HF Hp. induction HF; constructor; auto. eapply permuted_length; eauto.
Qed.

Lemma resort_safe : forall s (cols : list (list F)) inv n mln ncrit box Q (g : list nat -> outcome Q)
  (k : list N -> list (list F) -> list N -> Q -> list (node (props F)) * list cnode -> outcome tree),
  sched_ok s -> table cols n ->
  (forall perm, is_perm perm n -> g perm <> UB) ->
  (forall c0 p c q r, k c0 p c q r <> UB) ->
  forall a b,
  (do codes0 <- encode_all O E cols inv n;
   do _ <- alloc s a;
   do codes <- apply_isort codes0 (s_sort s codes0);
   do parts' <- mapM (fun col => apply_isort col (s_sort s codes0)) cols;
   do q <- g (s_sort s codes0);
   do _ <- alloc s b;
   do r <- build_tree c codes mln ncrit (cnp O E parts' box) (s_split s) (s_t s) (s_c s);
   k codes0 parts' codes q r) <> UB.
Proof.
  intros s cols inv n mln ncrit box Q g k Hs Ht Hg Hk a b.
  apply bind_safe; [now apply encode_all_safe|]. intros codes0 Henc.
  pose proof (encode_all_inv O E cols inv n codes0 Henc) as [Hlen _].
  pose proof Hs as (_ & Hsort & Hst & Hsc). destruct (Hsort codes0) as [Hp _]. rewrite Hlen in Hp.
  fold (is_perm (s_sort s codes0) n) in Hp.
  apply bind_safe; [apply alloc_safe|]. intros _ _.
  apply bind_safe; [now apply apply_isort_safe with (n := n)|]. intros codes Hcodes.
  apply bind_safe.
  { apply mapM_safe. intros col Hin. apply apply_isort_safe with (n := n); [exact Hp|].
    destruct Ht as [_ Ht]. rewrite Forall_forall in Ht. auto. }
  intros parts' Hparts. apply bind_safe; [now apply Hg|]. intros q _.
  apply bind_safe; [apply alloc_safe|]. intros _ _.
  destruct (resorted O E s _ _ _ _ _ _ Hs Henc Hcodes Hparts) as (R1 & R2 & R3 & R4 & R5 & R6 & R7 & R8).
  apply bind_safe; [|intros; apply Hk].
  apply build_safe with (n := n); auto.
  - eapply table_permuted; eauto.
  - eapply codes_valid; eauto.
Qed.

Lemma load_table : forall d cols, length match d with Moved cols => cols | Iters cols _ => cols end = dim c + 1 ->
  match d with Moved cols => exists n, Forall (fun col => length col = n) cols | Iters _ _ => True end ->
  load d = Ok cols -> table cols (length (hd [] cols)).
Proof.
  intros d cols Hd Hm H. destruct d as [l|l n1]; simpl in H.
  - injection H as <-. split; [exact Hd|]. destruct Hm as [n Hm]. destruct l as [|c0 l]; [constructor|].
    inversion Hm; subst. exact Hm.
  - apply bind_Ok in H as (_ & _ & H). pose proof (mapM_length _ _ _ H) as Hl.
    assert (Hn : Forall (fun col => length col = n1) cols).
    { apply Forall_forall. intros col Hin. apply In_nth_error in Hin as [i Hi].
      apply mapM_Ok in H as [_ H]. pose proof (nth_error_lt _ _ _ Hi) as Hlt. rewrite Hl in Hlt.
      apply nth_error_Some in Hlt. destruct (nth_error l i) as [c0|] eqn:E0; [|congruence].
      destruct (H i c0 E0) as (b & Hb & Hc). rewrite Hi in Hb. injection Hb as <-.
      destruct (Nat.ltb_spec (length c0) n1); [discriminate|]. injection Hc as <-. rewrite firstn_length. lia. }
    split; [now rewrite Hl|]. destruct cols as [|c0 cols]; [constructor|]. inversion Hn; subst. exact Hn.
Qed.

Lemma construct_safe : forall s box ded d mln ncrit, sched_ok s ->
  length match d with Moved cols => cols | Iters cols _ => cols end = dim c + 1 ->
  match d with Moved cols => exists n, Forall (fun col => length col = n) cols
             | Iters cols n => Forall (fun col => n <= length col) cols end ->
  construct O E s box ded d mln ncrit <> UB.
Proof.
  intros s box ded d mln ncrit Hs Hd Hm. unfold construct.
  destruct (_ || _); [discriminate|]. destruct (_ =? _); [discriminate|]. destruct (_ =? _); [discriminate|].
  apply bind_safe; [apply alloc_safe|]. intros _ _.
  apply bind_safe.
  { destruct d as [l|l n]; simpl; [discriminate|]. apply bind_safe; [apply it_diff_safe|]. intros _ _.
    apply mapM_safe. intros col Hin. rewrite Forall_forall in Hm. specialize (Hm col Hin).
    destruct (Nat.ltb_spec (length col) n); [lia|discriminate]. }
  intros cols Hload. cbv zeta.
  assert (Ht : table cols (length (hd [] cols))).
  { eapply load_table; eauto. destruct d; auto. }
  set (np := length (hd [] cols)) in *.
  apply bind_safe.
  { destruct ded; [|discriminate]. apply bind_safe; [now apply rows_safe|]. intros rs Hrs. apply box_safe.
    eapply rows_length; eauto. }
  intros bx _. fold c.
  apply (resort_safe s cols _ np mln ncrit bx _ (fun p => perm_to_inv_perm p (repeat 0 np))
    (fun codes0 parts' codes inv r => Ok (rocm_init E (mkTree bx ded mln ncrit parts' codes (s_sort s codes0)
       (s_sort s codes0) inv (fst r) (snd r) None)))); auto.
  - intros perm Hperm. destruct (perm_to_inv_perm_ok perm (repeat 0 np) np Hperm (repeat_length _ _)) as (i & -> & _). discriminate.
  - discriminate.
Qed.

Lemma bind_assoc : forall {A B C} (x : outcome A) (f : A -> outcome B) (g : B -> outcome C),
  (do a <- x; do b <- f a; g b) = (do b <- (do a <- x; f a); g b).
Proof. intros A B C [a|e|] f g; reflexivity. Qed.

Lemma sync_safe : forall s t n, sched_ok s -> table (t_parts t) n -> is_perm (t_perm t) n -> length (t_inv t) = n ->
  sync O E s t <> UB.
Proof.
  intros s t n Hs Ht Hp Hi. unfold sync. cbv zeta.
  assert (Hn : nparts (rocm_reset t) = n).
  { unfold nparts, rocm_reset. cbn [t_parts]. destruct Ht as [H1 H2].
    destruct (t_parts t) as [|c0 l]; [simpl in H1; lia|]. simpl. now inversion H2. }
  rewrite Hn. unfold rocm_reset. cbn [t_box t_ded t_parts t_mln t_ncrit t_perm t_inv]. fold c.
  apply bind_safe.
  { destruct (t_ded t); [|discriminate]. apply bind_safe; [now apply rows_safe|]. intros rs Hrs. apply box_safe.
    eapply rows_length; eauto. }
  intros bx _.
  pose proof (resort_safe s (t_parts t) (fdiv O (fofZ O 1%Z) bx) n (t_mln t) (t_ncrit t) bx _
    (fun last => do perm <- apply_isort (t_perm t) last; do inv <- perm_to_inv_perm perm (t_inv t); Ok (perm, inv))
    (fun codes0 parts codes pi r => Ok (rocm_init E (mkTree bx (t_ded t) (t_mln t) (t_ncrit t) parts codes (fst pi)
       (s_sort s codes0) (snd pi) (fst r) (snd r) None))) Hs Ht) as G.
  assert (G1 : forall perm, is_perm perm n ->
    (do perm <- apply_isort (t_perm t) perm; do inv <- perm_to_inv_perm perm (t_inv t); Ok (perm, inv)) <> UB).
  { intros last Hl. destruct (apply_isort_ok (t_perm t) last n Hl) as (perm & Eq); [now apply is_perm_length|].
    rewrite Eq. cbn [bind]. apply apply_isort_inv in Eq as [_ Eq]. pose proof (permuted_is_perm _ _ _ _ Hl Hp Eq) as Hp'.
    destruct (perm_to_inv_perm_ok perm (t_inv t) n Hp' Hi) as (i & -> & _). discriminate. }
  specialize (G G1 ltac:(discriminate) 0 1).
  intros HU. apply G. rewrite <- HU. clear.
  destruct (encode_all O E (t_parts t) (fdiv O (fofZ O 1%Z) bx) n) as [codes0|e|]; cbn [bind]; try reflexivity.
  destruct (alloc s 0) as [[]|e|]; cbn [bind]; try reflexivity.
  destruct (apply_isort codes0 _) as [codes|e|]; cbn [bind]; try reflexivity.
  destruct (mapM _ (t_parts t)) as [parts|e|]; cbn [bind]; try reflexivity.
  destruct (apply_isort (t_perm t) _) as [perm|e|]; cbn [bind]; try reflexivity.
  destruct (perm_to_inv_perm perm (t_inv t)) as [inv|e|]; cbn [bind]; reflexivity.
Qed.

Lemma inv_table : forall t, tree_inv t -> table (t_parts t) (length (t_codes t)).
Proof. intros t H. split; apply H. Qed.

Lemma view_cols_safe : forall ord t, tree_inv t -> view_cols ord t <> UB.
Proof.
  intros ord t H. unfold view_cols. destruct ord; [|discriminate]. apply bind_safe; [apply it_diff_safe|]. intros _ _.
  destruct (mapM_gather _ _ _ (inv_is_perm O E t H) (inv_cols _ _ _ H)) as (v & -> & _). discriminate.
Qed.

Lemma view_table : forall ord t v, tree_inv t -> view_cols ord t = Ok v -> table v (length (t_codes t)).
Proof.
  intros ord t v Ht H. destruct ord.
  - pose proof (view_cols_ordered O E t v Ht H) as Ho. unfold original_order in Ho. split.
    + rewrite <- (Forall2_length_eq _ _ _ Ho). apply Ht.
    + pose proof (inv_is_perm O E t Ht) as Hp. clear - Ho Hp. induction Ho; constructor; auto. eapply permuted_length; eauto.
  - injection H as <-. now apply inv_table.
Qed.

Lemma guarded_safe : forall t r, r <> UB -> guarded O E t r <> UB.
Proof. intros t r H HU. apply guarded_UB in HU. contradiction. Qed.

Lemma same_shape_ok : forall (a b : list (list F)), shape a = shape b -> same_shape a b = Ok tt.
Proof. intros a b H. unfold same_shape. destruct (list_eq_dec _ _ _); [reflexivity|contradiction]. Qed.

Lemma update_particles_safe : forall s ord f t, sched_ok s -> tree_inv t ->
  (forall v, f v <> UB) -> (forall v v', f v = Ok v' -> shape v' = shape v) ->
  update_particles O E s ord f t <> UB.
Proof.
  intros s ord f t Hs Ht Hf Hshape. unfold update_particles. apply guarded_safe.
  apply bind_safe; [now apply view_cols_safe|]. intros v Hv. apply bind_safe; [apply Hf|]. intros v' Hv'.
  rewrite (same_shape_ok v v') by (symmetry; now apply Hshape). cbn [bind].
  destruct (view_table ord t v Ht Hv) as [Hl1 Hl2]. apply Hshape in Hv'.
  destruct (shape_lengths _ v v' (eq_sym Hv') Hl2) as [Hl3 Hl4].
  pose proof (inv_table t Ht) as [Hl5 Hl6]. pose proof (inv_is_perm O E t Ht) as Hip.
  set (n := length (t_codes t)) in *.
  assert (Hmid : exists mid, mapM (fun '(old, new) => write_back ord (t_inv t) old new) (combine (t_parts t) v') = Ok mid /\ table mid n).
  { destruct ord.
    - destruct (write_back_ordered (t_inv t) n (t_parts t) v' Hip) as (mid & E1 & P1 & L1); auto; try lia.
      exists mid. split; [exact E1|]. split; [|exact L1]. rewrite (Forall2_length_eq _ _ _ P1). lia.
    - exists v'. split; [apply write_back_unordered; lia|]. split; [lia|assumption]. }
  destruct Hmid as (mid & -> & Hmid). cbn [bind].
  apply sync_safe with (n := n); simpl; auto.
  - apply Ht.
  - now apply is_perm_length.
Qed.

Lemma node_code_shape : forall t nd, tree_inv t -> In nd (t_nodes t) ->
  exists p, n_code nd = (2 ^ (dimN c * n_level nd) + p)%N /\ (p < 2 ^ (dimN c * n_level nd))%N /\
    (n_level nd <= cbitsc c)%N /\ n_begin nd <= n_end nd <= length (t_codes t).
Proof.
  intros t nd Ht Hin.
  assert (R : forall A, reorders (fun l : list A => l)) by (intros A l; apply Permutation_refl).
  pose proof (inv_nodes _ _ _ Ht 0 _ _ (R _) (R _)) as HB.
  destruct (node_ranges c (t_codes t) (t_mln t) (t_ncrit t) _ _ (inv_valid_codes O E t Ht) 0 _ _ _ _ (R _) (R _) HB nd Hin)
    as (p & H1 & H2 & H3 & H4 & _).
  exists p. repeat split; auto; try lia.
Qed.

Lemma update_masses_safe : forall ord f t, tree_inv t ->
  (forall v, f v <> UB) -> (forall v v', f v = Ok v' -> length v' = length v) ->
  update_masses O E ord f t <> UB.
Proof.
  intros ord f t Ht Hf Hshape. unfold update_masses. apply guarded_safe. fold c.
  apply bind_safe; [now apply view_cols_safe|]. intros v Hv.
  destruct (view_table ord t v Ht Hv) as [Hl1 Hl2]. pose proof (inv_table t Ht) as [Hl5 Hl6].
  pose proof (inv_is_perm O E t Ht) as Hip. set (n := length (t_codes t)) in *.
  apply bind_safe; [apply rd_safe; lia|]. intros mv Hmv. apply rd_Ok in Hmv.
  apply bind_safe; [apply Hf|]. intros mv' Hmv'. apply Hshape in Hmv'.
  rewrite same_shape_ok by (cbn; congruence). cbn [bind].
  apply bind_safe; [apply rd_safe; lia|]. intros old Hold. apply rd_Ok in Hold.
  assert (Lm : length mv' = n) by (rewrite Hmv'; rewrite Forall_forall in Hl2; apply Hl2; eapply nth_error_In; eauto).
  assert (Lo : length old = n) by (rewrite Forall_forall in Hl6; apply Hl6; eapply nth_error_In; eauto).
  assert (Hms : exists ms, write_back ord (t_inv t) old mv' = Ok ms /\ length ms = n).
  { destruct ord; simpl; [|eauto]. destruct (scatter_gather (t_inv t) n mv' old Hip Lm Lo) as (col & E1 & _ & L1). eauto. }
  destruct Hms as (ms & -> & Lms). cbn [bind].
  apply bind_safe; [apply wr_safe; lia|]. intros parts Hparts. apply wr_Ok in Hparts as [_ ->].
  apply bind_safe; [|discriminate]. apply mapM_safe. intros nd Hin. apply bind_safe; [|discriminate].
  destruct (node_code_shape t nd Ht Hin) as (p & -> & Hp & Hlv & Hbe).
  apply cnp_safe with (n := n); auto. split; [rewrite set_nth_length; exact Hl5|]. now apply Forall_set_nth.
Qed.

(** * Operations *)
Lemma ranges_check_ok : forall (cols : list (list F)) n, length cols = dim c + 1 -> ranges_check E cols = Ok n ->
  Forall (fun col => length col = n) cols.
Proof.
  intros cols n Hl H. unfold ranges_check in H. fold c in H. apply bind_Ok in H as (c0 & H0 & H). cbv zeta in H.
  destruct (existsb _ _) eqn:Ex; [discriminate|]. apply bind_Ok in H as (ms & Hms & H).
  destruct (Nat.eqb_spec (length ms) (length c0)) as [Em|]; [|discriminate]. injection H as <-.
  apply rd_Ok in H0. apply rd_Ok in Hms.
  apply Forall_forall. intros col Hin. apply In_nth_error in Hin as [i Hi].
  pose proof (nth_error_lt _ _ _ Hi) as Hlt.
  destruct (Nat.eq_dec i 0) as [->|Hi0]; [congruence|].
  destruct (Nat.eq_dec i (dim c)) as [->|Hid]; [congruence|].
  destruct (Nat.eqb_spec (length col) (length c0)) as [|Hne]; [assumption|exfalso].
  assert (Hex : existsb (fun col : list F => negb (length col =? length c0)) (slice cols 1 (dim c)) = true).
  { apply existsb_exists. exists col. split.
    - apply nth_error_In with (n := i - 1). rewrite nth_error_slice.
      destruct (Nat.ltb_spec (i - 1) (dim c - 1)); [|lia]. replace (1 + (i - 1)) with i by lia. exact Hi.
    - apply Nat.eqb_neq in Hne. now rewrite Hne. }
  congruence.
Qed.

Lemma ranges_check_safe : forall (cols : list (list F)), length cols = dim c + 1 -> ranges_check E cols <> UB.
Proof.
  intros cols Hl. unfold ranges_check. fold c. apply bind_safe; [apply rd_safe; lia|]. intros c0 _. cbv zeta.
  destruct (existsb _ _); [discriminate|]. apply bind_safe; [apply rd_safe; lia|]. intros ms _.
  destruct (_ =? _); discriminate.
Qed.

Lemma ranges_check_iff : forall (cols : list (list F)), length cols = dim c + 1 ->
  (ranges_check E cols = Throw InvalidArgument <-> ~ exists n, Forall (fun col => length col = n) cols) /\
  (forall n, ranges_check E cols = Ok n <-> Forall (fun col => length col = n) cols).
Proof.
  intros cols Hl.
  assert (Hok : forall n, Forall (fun col => length col = n) cols -> ranges_check E cols = Ok n).
  { intros n H. unfold ranges_check. fold c. rewrite Forall_forall in H.
    destruct (rd_lt cols 0 ltac:(lia)) as [c0 H0]. rewrite H0. cbn [bind]. cbv zeta. apply rd_Ok in H0.
    rewrite (H c0) by (eapply nth_error_In; eauto).
    destruct (existsb _ _) eqn:Ex.
    { apply existsb_exists in Ex as (col & Hin & Hx). unfold slice in Hin. apply firstn_In in Hin. apply skipn_In in Hin.
      rewrite (H col Hin), Nat.eqb_refl in Hx. discriminate. }
    destruct (rd_lt cols (dim c) ltac:(lia)) as [ms Hms]. rewrite Hms. cbn [bind]. apply rd_Ok in Hms.
    rewrite (H ms) by (eapply nth_error_In; eauto). rewrite Nat.eqb_refl. reflexivity. }
  split.
  - split.
    + intros HT [n H]. rewrite (Hok n H) in HT. discriminate.
    + intros Hn. destruct (ranges_check E cols) as [n|e|] eqn:Er.
      * exfalso. apply Hn. exists n. now apply ranges_check_ok.
      * unfold ranges_check in Er. apply bind_Throw in Er as [Er|(c0 & _ & Er)].
        { unfold rd in Er. destruct (nth_error cols 0); discriminate. }
        cbv zeta in Er. destruct (existsb _ _); [congruence|]. apply bind_Throw in Er as [Er|(ms & _ & Er)].
        { unfold rd in Er. destruct (nth_error cols _); discriminate. }
        destruct (_ =? _); [discriminate|congruence].
      * exfalso. revert Er. now apply ranges_check_safe.
  - intros n. split; [now apply ranges_check_ok|apply Hok].
Qed.

Lemma generic_ctor_safe : forall s b inp mln nc, sched_ok s ->
  match inp with RangesMoved cols | Ranges cols => length cols = dim c + 1
  | Iterators cols n => length cols = dim c + 1 /\ Forall (fun col => n <= length col) cols end ->
  generic_ctor O E s b inp mln nc <> UB.
Proof.
  intros s b inp mln nc Hs Hl. unfold generic_ctor.
  destruct (match b with Some x => (x, false) | None => (fofZ O 0%Z, true) end) as [box ded].
  cbv zeta. destruct inp as [cols|cols|cols n].
  - apply bind_safe; [now apply ranges_check_safe|]. intros n Hn. apply construct_safe; auto.
    exists n. now apply ranges_check_ok.
  - apply bind_safe; [now apply ranges_check_safe|]. intros n Hn. apply construct_safe; auto.
    apply ranges_check_ok in Hn; [|exact Hl]. eapply Forall_impl; [|exact Hn]. cbv beta. intros; lia.
  - destruct Hl. apply construct_safe; auto.
Qed.

Lemma step_safe : forall w o, Forall tree_inv w -> op_ok E o -> op_safe E (length w) o -> step O E w o <> UB.
Proof.
  intros w o Hw Ho Hs. destruct o as [|s b inp mln nc|i|i|i j fl|i j|i|i s ord f|i ord f]; cbn [step op_safe op_ok] in *.
  - discriminate.
  - destruct Ho as [Ho1 Ho2].
    assert (G : generic_ctor O E s b inp mln nc <> UB).
    { apply generic_ctor_safe; [exact Ho1|]. destruct inp; auto. }
    destruct (generic_ctor O E s b inp mln nc); [discriminate|discriminate|congruence].
  - apply bind_safe; [now apply rd_safe|]. discriminate.
  - apply bind_safe; [now apply rd_safe|]. intros t _. destruct (move_ctor O E t). apply bind_safe; [now apply wr_safe|]. discriminate.
  - destruct Hs as [H1 H2]. apply bind_safe; [now apply rd_safe|]. intros t _. apply bind_safe; [now apply rd_safe|].
    intros u _. destruct (i =? j); [discriminate|]. destruct (copy_assign O E fl t u).
    apply bind_safe; [now apply wr_safe|]. discriminate.
  - destruct Hs as [H1 H2]. apply bind_safe; [now apply rd_safe|]. intros t _. apply bind_safe; [now apply rd_safe|].
    intros u _. destruct (i =? j); [discriminate|]. destruct (move_assign O E t u).
    apply bind_safe; [now apply wr_safe|]. intros w1 Hw1. apply wr_Ok in Hw1 as [_ ->].
    apply bind_safe; [apply wr_safe; now rewrite set_nth_length|]. discriminate.
  - apply bind_safe; [now apply rd_safe|]. intros t _. apply bind_safe; [now apply wr_safe|]. discriminate.
  - destruct Hs as (H1 & H2 & H3). apply bind_safe; [now apply rd_safe|]. intros t Ht. apply bind_safe.
    + apply update_particles_safe; auto. eapply Forall_rd; eauto.
    + intros r _. apply bind_safe; [now apply wr_safe|]. discriminate.
  - destruct Hs as (H1 & H2 & H3). apply bind_safe; [now apply rd_safe|]. intros t Ht. apply bind_safe.
    + apply update_masses_safe; auto. eapply Forall_rd; eauto.
    + intros r _. apply bind_safe; [now apply wr_safe|]. discriminate.
Qed.

End Safe.
