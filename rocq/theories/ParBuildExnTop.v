(** Failures in the construction of the nodes by concurrent tasks: the constructor and the updates of the positions; programs and interleavings for examples. *)
From Coq Require Import List Arith NArith ZArith Bool Lia Permutation.
From Verif Require Import Base Config Morton Build MortonProofs TreeSpec BuildSpec FOps Disc NodeProps Tree TreeInv TreeProofs TreeSafe TreeProps ParExnTop BuildProofs BuildProps ParBag ParBuild ParBuildProofs
  ParBagExn ParBuildExn.
Import ListNotations.
Local Open Scope nat_scope.

Section Tree.

Context {F : Type}.
Variable O : fops F.
Variable E : env.
Hypothesis HE : env_ok E.
Hypothesis Hdisc : forall clamp x inv, disc_single_coord O (e_cfg E) clamp x inv <> UB.
Notation c := (e_cfg E).
Notation eprog := (ecmd bloc (bval (props F))).
Notation all_runs_e := (ParBagExn.all_runs_e bloc (bval (props F)) bloc_eq bop).

Definition start (m : bloc -> bval (props F)) : Prop := m (BTrees, []) = YB [] /\ m (BCrits, []) = YB [] /\ m (BRoot, []) = YC 0.

Lemma build_e : forall cols n box codes mln ncrit split st sc split' (q : eprog) m, table E cols n -> length codes = n -> 0 < n -> valid_codes c codes ->
  (N.of_nat n * cbitsc c < 2 ^ 64 - 1)%N -> reorders st -> reorders sc -> start m -> ebuild_prog c codes mln ncrit (cnp O E cols box) split' q ->
  match build_tree c codes mln ncrit (cnp O E cols box) split st sc with
  | Ok (nodes, crit) => all_runs_e q m (fun m' => built c codes m' nodes crit) (fun _ => False)
  | Throw e => e = InvalidArgument /\ all_runs_e q m (fun _ => False) (fun e' => e' = InvalidArgument)
  | UB => False
  end.
Proof.
  intros cols n box codes mln ncrit split st sc split' q m Ht Hn Hpos Hv Hsz Hst Hsc (M1 & M2 & M3) Hq. pose proof Hv as [Hs Hr].
  assert (Hne : codes <> []) by (intros ->; cbn in Hn; lia). subst n.
  assert (Hon : forall y, In y (all_cells c codes mln) -> only InvalidArgument (cok c codes (props F) (cnp O E cols box) y)).
  { intros [l p] Hy. destruct (cell_bounds c codes mln ncrit (props F) (cnp O E cols box) l p Hy) as [Hl Hp]. unfold cok. apply only_bind; [|intros; apply only_ok].
    unfold cnp_of. cbn [fst snd]. split; [|intros e X; eapply cnp_throws; exact X].
    unfold nodal. apply (cnp_safe O E HE Hdisc) with (n := length codes); auto.
    pose proof (clt_le_length c codes l (p + 1)%N) as Z. rewrite clt_succ in Z |- *. lia. }
  pose proof (ebuild_runs c codes mln ncrit (cnp O E cols box) split' Hs st sc q m Hst Hsc Hne Hr Hsz Hon M1 M2 M3 Hq) as A.
  pose proof (no_overflow c codes mln ncrit (props F) (cnp O E cols box) Hv split st sc Hst Hsc Hsz) as B.
  pose proof (build_safe O E HE Hdisc cols (length codes) box codes mln ncrit split st sc Ht eq_refl Hv Hst Hsc) as U.
  destruct (build_tree c codes mln ncrit (cnp O E cols box) split st sc) as [r|e|] eqn:E1.
  - rewrite (deterministic c codes mln ncrit (props F) (cnp O E cols box) Hv _ _ _ split' _ _ _ Hst Hsc Hst Hsc E1) in A. destruct r as [nodes crit]. exact A.
  - destruct B as (b & e' & l & p & _ & _ & _ & X). apply cnp_throws in X. subst e. split; [reflexivity|].
    destruct (build_tree c codes mln ncrit (cnp O E cols box) split' st sc) as [r|e|] eqn:E2; [|exact (proj2 A)|destruct A].
    rewrite (deterministic c codes mln ncrit (props F) (cnp O E cols box) Hv _ _ _ split _ _ _ Hst Hsc Hst Hsc E2) in E1. discriminate E1.
  - now elim U.
Qed.

(** tree.hpp 1436-1471: the codes and the columns that the nodes are built from. *)
Definition sorted_input (s : @sched F) (cols : list (list F)) (box : F) (n : nat) (codes : list N) (cols' : list (list F)) : Prop :=
  exists codes0, encode_all O E cols (fdiv O (fofZ O 1%Z) box) n = Ok codes0 /\ apply_isort codes0 (s_sort s codes0) = Ok codes /\
    mapM (fun col => apply_isort col (s_sort s codes0)) cols = Ok cols'.

Lemma construct_e : forall s box cols n mln ncrit codes cols' split (q : eprog) m, sched_ok s -> (forall k, s_alloc s k = true) ->
  ffin O box = true -> flt O box (fofZ O 0%Z) = false -> 0 < mln -> 0 < ncrit -> table E cols n -> 0 < n -> (N.of_nat n * cbitsc c < 2 ^ 64 - 1)%N ->
  sorted_input s cols box n codes cols' -> start m -> ebuild_prog c codes mln ncrit (cnp O E cols' box) split q ->
  match construct O E s box false (Moved cols) mln ncrit with
  | Ok t => all_runs_e q m (fun m' => built c (t_codes t) m' (t_nodes t) (t_crit t)) (fun _ => False)
  | Throw e => e = InvalidArgument /\ all_runs_e q m (fun _ => False) (fun e' => e' = InvalidArgument)
  | UB => False
  end.
Proof.
  intros s box cols n mln ncrit codes cols' split q m Hs Ha Hb1 Hb2 Hm Hnc Ht Hn Hsz (codes0 & He & Hc & Hp) HM Hq.
  destruct (resorted O E s _ _ _ _ _ _ Hs He Hc Hp) as (R1 & R2 & R3 & R4 & R5 & R6 & R7 & R8). pose proof Hs as (_ & _ & Hst & Hsc).
  assert (Hv : valid_codes c codes) by (eapply codes_valid; eassumption).
  assert (Ht' : table E cols' n) by (eapply table_permuted; eassumption).
  pose proof (build_e cols' n box codes mln ncrit (s_split s) (s_t s) (s_c s) split q m Ht' R2 Hn Hv Hsz Hst Hsc HM Hq) as B.
  assert (NP : length (hd [] cols) = n). { destruct Ht as [T1 T2]. destruct cols as [|col cols]; [cbn in T1; lia|]. now inversion T2. }
  unfold construct. rewrite Hb1, Hb2. cbn [negb orb]. replace (mln =? 0) with false by (symmetry; apply Nat.eqb_neq; lia). replace (ncrit =? 0) with false by (symmetry; apply Nat.eqb_neq; lia).
  unfold alloc. rewrite !Ha. cbn [bind load]. cbv zeta. rewrite NP, He. cbn [bind]. rewrite Hc. cbn [bind]. rewrite Hp. cbn [bind].
  destruct (perm_to_inv_perm_ok (s_sort s codes0) (repeat 0 n) n R1 (repeat_length _ _)) as (i & -> & _). cbn [bind].
  destruct (build_tree c codes mln ncrit (cnp O E cols' box) (s_split s) (s_t s) (s_c s)) as [[nodes crit]|e|]; cbn [bind]; [|exact B|exact B].
  unfold rocm_init. destruct (e_rocm E); exact B.
Qed.

Lemma update_e : forall s t cols box codes cols' split (q : eprog) m, sched_ok s -> (forall k, s_alloc s k = true) -> tree_inv O E t ->
  table E cols (length (t_codes t)) -> box_of O E s t cols box -> 0 < length (t_codes t) -> (N.of_nat (length (t_codes t)) * cbitsc c < 2 ^ 64 - 1)%N ->
  sorted_input s cols box (length (t_codes t)) codes cols' -> start m -> ebuild_prog c codes (t_mln t) (t_ncrit t) (cnp O E cols' box) split q ->
  (exists t', update_particles O E s false (fun _ => Ok cols) t = Ok (t', None) /\
     all_runs_e q m (fun m' => built c (t_codes t') m' (t_nodes t') (t_crit t')) (fun _ => False)) \/
  (update_particles O E s false (fun _ => Ok cols) t = Ok (default_tree O E, Some InvalidArgument) /\ all_runs_e q m (fun _ => False) (fun e => e = InvalidArgument)).
Proof.
  intros s t cols box codes cols' split q m Hs Ha Hinv Ht Hb Hn Hsz (codes0 & He & Hc & Hp) HM Hq. set (n := length (t_codes t)) in *.
  destruct (resorted O E s _ _ _ _ _ _ Hs He Hc Hp) as (R1 & R2 & R3 & R4 & R5 & R6 & R7 & R8). pose proof Hs as (_ & _ & Hst & Hsc).
  assert (Hv : valid_codes c codes) by (eapply codes_valid; eassumption).
  assert (Ht' : table E cols' n) by (eapply table_permuted; eassumption).
  pose proof (build_e cols' n box codes (t_mln t) (t_ncrit t) (s_split s) (s_t s) (s_c s) split q m Ht' R2 Hn Hv Hsz Hst Hsc HM Hq) as B.
  pose proof (inv_table O E t Hinv) as [T1 T2]. fold n in T2. destruct Ht as [U1 U2].
  unfold update_particles, view_cols. cbn [bind]. rewrite same_shape_ok.
  2:{ unfold shape. clear - T1 T2 U1 U2. revert cols T1 T2 U1 U2. generalize (dim c + 1) as d. generalize (t_parts t) as l. induction l as [|a l IH]; intros d cols T1 T2 U1 U2.
      - cbn in T1. subst d. destruct cols; [reflexivity|discriminate].
      - destruct cols as [|b cols]; [cbn in *; congruence|]. inversion T2; inversion U2; subst. cbn [map]. f_equal; [congruence|]. apply (IH (length l)); auto; cbn in *; lia. }
  cbn [bind]. assert (W : mapM (fun '(old, new) => write_back false (t_inv t) old new) (combine (t_parts t) cols) = Ok cols).
  { assert (Z : length (t_parts t) = length cols) by congruence. revert Z. clear. generalize (t_parts t) as l. revert cols. intros cols l; revert cols.
    induction l as [|a l IH]; intros [|b cols] Z; try discriminate Z; [reflexivity|]. cbn [combine mapM write_back bind]. rewrite IH by (cbn in Z; lia). reflexivity. }
  rewrite W. cbn [bind]. rewrite <- (clear_default O E t) by apply Hinv. unfold sync. cbv zeta.
  assert (NP : nparts (rocm_reset (set_parts t cols)) = n).
  { unfold nparts. cbn [rocm_reset set_parts t_parts]. destruct cols as [|col cols]; [pose proof (dim_pos c); cbn in U1; lia|]. now inversion U2. }
  rewrite NP. cbn [rocm_reset set_parts t_parts t_ded t_box t_perm t_inv t_mln t_ncrit].
  assert (X : (if t_ded t then do rs <- rows E cols n; determine_box_size O (dim c) rs (s_red s n) else Ok (t_box t)) = Ok box).
  { unfold box_of in Hb. fold n in Hb. destruct (t_ded t); [|now subst box]. destruct Hb as (rs & -> & X). exact X. }
  rewrite X. cbn [bind]. rewrite He. cbn [bind]. unfold alloc. rewrite !Ha. cbn [bind]. rewrite Hc. cbn [bind]. rewrite Hp. cbn [bind].
  pose proof (inv_perm _ _ _ Hinv) as HP. fold n in HP. destruct (apply_isort_ok (t_perm t) _ n R1 (is_perm_length _ _ HP)) as (perm & Eq).
  rewrite Eq. cbn [bind]. apply apply_isort_inv in Eq as [_ Eq]. pose proof (permuted_is_perm _ _ _ _ R1 HP Eq) as HP'.
  destruct (inv_inv _ _ _ Hinv) as [HI _]. rewrite (is_perm_length _ _ HP) in HI.
  destruct (perm_to_inv_perm_ok perm (t_inv t) n HP' HI) as (i & -> & _). cbn [bind].
  destruct (build_tree c codes (t_mln t) (t_ncrit t) (cnp O E cols' box) (s_split s) (s_t s) (s_c s)) as [[nodes crit]|e|]; cbn [bind].
  - left. eexists. split; [reflexivity|]. unfold rocm_init. destruct (e_rocm E); exact B.
  - right. destruct B as [-> B]. split; [reflexivity|exact B].
  - destruct B.
Qed.

(** Updates through the views in the original order are updates through the views in Morton order. *)
Lemma ordered_updates : forall s f t v v', tree_inv O E t -> view_cols true t = Ok v -> f v = Ok v' -> table E v' (length (t_codes t)) ->
  exists cols, table E cols (length (t_codes t)) /\
    (forall j col new, nth_error cols j = Some col -> nth_error v' j = Some new -> forall i k, nth_error (t_inv t) i = Some k -> nth_error col k = nth_error new i) /\
    update_particles O E s true f t = update_particles O E s false (fun _ => Ok cols) t.
Proof.
  intros s f t v v' Hinv Hv Hf [U1 U2]. set (n := length (t_codes t)) in *. pose proof (inv_table O E t Hinv) as [T1 T2]. fold n in T2.
  pose proof (inv_perm _ _ _ Hinv) as HP. fold n in HP. pose proof (inverse_is_perm _ _ _ HP (inv_inv _ _ _ Hinv)) as HI.
  destruct (write_back_ordered (t_inv t) n (t_parts t) v' HI) as (cols & W & P & L); [congruence|exact T2|exact U2|].
  assert (N : length cols = dim c + 1) by (clear - P U1; revert U1; generalize (dim c + 1); induction P; intros k Hk; [exact Hk|destruct k; [discriminate Hk|cbn in *; f_equal; apply IHP; lia]]).
  assert (S : forall a b : list (list F), length a = length b -> Forall (fun x => length x = n) a -> Forall (fun x => length x = n) b -> shape a = shape b).
  { induction a as [|x a IH]; intros [|y b] Z X Y; try discriminate Z; [reflexivity|]. inversion X; inversion Y; subst. unfold shape in *. cbn [map]. f_equal; [congruence|].
    apply IH; auto. }
  exists cols. split; [now split|]. split.
  - intros j col new Hj Hj' i k Hk. pose proof (ParProofs.Forall2_nth _ _ _ P j) as X. rewrite Hj, Hj' in X. destruct X as [_ X]. destruct (X i k Hk) as [X1 _]. now symmetry.
  - assert (V : length v = dim c + 1 /\ Forall (fun x => length x = n) v).
    { pose proof (view_cols_ordered O E t v Hinv Hv) as Y. unfold original_order in Y. rewrite <- T1. rewrite <- (is_perm_length _ _ HI). clear - Y.
      induction Y as [|x y lx ly [Y1 _] Y IH]; [now split|]. destruct IH as [I1 I2]. split; [cbn; congruence|]. constructor; [exact Y1|exact I2]. }
    unfold update_particles. rewrite Hv. unfold view_cols. cbn [bind]. rewrite Hf. cbn [bind].
    rewrite (same_shape_ok v v') by (apply S; [destruct V; congruence|apply V|exact U2]). rewrite (same_shape_ok (t_parts t) cols) by (apply S; [congruence|exact T2|exact L]).
    cbn [bind]. rewrite W. rewrite (write_back_unordered (t_inv t) (t_parts t) cols) by congruence. reflexivity.
Qed.

Lemma ordered_updates_flat : forall s f t v v', tree_inv O E t -> view_cols true t = Ok v -> f v = Ok v' -> table E v' (length (t_codes t)) ->
  exists cols, length cols = dim c + 1 /\ Forall (fun col => length col = length (t_codes t)) cols /\
    (forall j col new, nth_error cols j = Some col -> nth_error v' j = Some new -> forall i k, nth_error (t_inv t) i = Some k -> nth_error col k = nth_error new i) /\
    update_particles O E s true f t = update_particles O E s false (fun _ => Ok cols) t.
Proof.
  intros s f t v v' Hinv Hv Hf Ht. destruct (ordered_updates s f t v v' Hinv Hv Hf Ht) as (cols & [A1 A2] & A3 & A4). exists cols. repeat (split; [assumption|]). exact A4.
Qed.

End Tree.

(** * Executable programs and interleavings, for the examples. Nothing below models code. *)
Section Ex.

Variables L V : Type.
Variable eqL : forall a b : L, {a = b} + {a <> b}.
Variable op : V -> V -> V.

Fixpoint ehalve (fuel : nat) (body : nat -> ecmd L V) (b e : nat) : ecmd L V :=
  match fuel with
  | 0 => fold_right (eapp L V) ERet (map body (seq b (e - b)))
  | S fuel => if e - b <=? 1 then fold_right (eapp L V) ERet (map body (seq b (e - b)))
              else EFork (ehalve fuel body b ((b + e) / 2)) (ehalve fuel body ((b + e) / 2) e) ERet
  end.

Lemma ehalve_pfor : forall body fuel b e, b <= e -> epfor L V body b e (ehalve fuel body b e).
Proof.
  intros body fuel. induction fuel as [|fuel IH]; intros b e H; cbn [ehalve]; [now constructor|].
  destruct (e - b <=? 1); [now constructor|]. assert (b <= (b + e) / 2 <= e).
  { split; [apply Nat.div_le_lower_bound; lia|apply Nat.div_le_upper_bound; lia]. }
  econstructor; apply IH; lia.
Qed.

(** One step; the bits of [n] choose the task. An exception cancels the other side at once if [eager], otherwise when nothing else is left. *)
Fixpoint estepf (eager : bool) (n : nat) (c : ecmd L V) (m : L -> V) : option ((L -> V) * ecmd L V) :=
  match c with
  | ERet | ERaise _ => None
  | ERd l k => Some (m, k (m l))
  | EWr l v k => Some (ParBag.upd L V eqL m l v, k)
  | EAt l v k => Some (ParBag.upd L V eqL m l (op v (m l)), k)
  | EFork a b k =>
    let l := match estepf eager (n / 2) a m with Some (m', a') => Some (m', EFork a' b k) | None => None end in
    let r := match estepf eager (n / 2) b m with Some (m', b') => Some (m', EFork a b' k) | None => None end in
    let j := match a, b with ERet, ERet => Some (m, k) | ERaise e, _ => Some (m, ERaise e) | _, ERaise e => Some (m, ERaise e) | _, _ => None end in
    let s := if Nat.even n then match l with Some x => Some x | None => r end else match r with Some x => Some x | None => l end in
    if eager then match j with Some x => Some x | None => s end else match s with Some x => Some x | None => j end
  end.
Fixpoint edrive (eager : bool) (fuel : nat) (choice : nat -> nat) (c : ecmd L V) (m : L -> V) : nat * ((L -> V) * ecmd L V) :=
  match fuel with
  | 0 => (0, (m, c))
  | S fuel => match estepf eager (choice fuel) c m with
              | Some (m', c') => let r := edrive eager fuel choice c' m' in (S (fst r), snd r)
              | None => (0, (m, c))
              end
  end.

Lemma estepf_step : forall eager c n m m' c', estepf eager n c m = Some (m', c') -> estep L V eqL op m c m' c'.
Proof.
  intros eager c. induction c as [|e|l k IH|l v k IH|l v k IH|a IHa b IHb k IHk]; intros n m m' c' H; cbn [estepf] in H; try discriminate.
  - injection H as <- <-. constructor.
  - injection H as <- <-. constructor.
  - injection H as <- <-. constructor.
  - set (lo := match estepf eager (n / 2) a m with Some (m', a') => Some (m', EFork a' b k) | None => None end) in *.
    set (ro := match estepf eager (n / 2) b m with Some (m', b') => Some (m', EFork a b' k) | None => None end) in *.
    assert (A : lo = Some (m', c') -> estep L V eqL op m (EFork a b k) m' c').
    { unfold lo. destruct (estepf eager (n / 2) a m) as [[m1 a1]|] eqn:S1; [|discriminate]. intros X. injection X as <- <-. constructor. eapply IHa; exact S1. }
    assert (B : ro = Some (m', c') -> estep L V eqL op m (EFork a b k) m' c').
    { unfold ro. destruct (estepf eager (n / 2) b m) as [[m1 a1]|] eqn:S1; [|discriminate]. intros X. injection X as <- <-. constructor. eapply IHb; exact S1. }
    set (jo := match a, b with ERet, ERet => Some (m, k) | ERaise e, _ => Some (m, ERaise e) | _, ERaise e => Some (m, ERaise e) | _, _ => None end) in *.
    assert (C : jo = Some (m', c') -> estep L V eqL op m (EFork a b k) m' c').
    { unfold jo. destruct a, b; intros X; try discriminate X; injection X as <- <-; constructor. }
    clearbody lo ro jo. cbv zeta in H. destruct eager, (Nat.even n), lo, ro, jo; auto; discriminate.
Qed.

(** What [edrive] computes is an interleaving. *)
Lemma edrive_exec : forall eager fuel choice c m, let r := edrive eager fuel choice c m in eexec L V eqL op (fst r) m c (fst (snd r)) (snd (snd r)).
Proof.
  induction fuel as [|fuel IH]; intros choice c m; cbn [edrive]; [constructor|].
  destruct (estepf eager (choice fuel) c m) as [[m' c']|] eqn:S1; [|constructor]. cbn [fst snd]. econstructor; [eapply estepf_step; exact S1|apply IH].
Qed.

Definition end_of (c : ecmd L V) : option (option exn) := match c with ERet => Some None | ERaise e => Some (Some e) | _ => None end.

End Ex.
Arguments ehalve {L V}. Arguments edrive {L V}. Arguments end_of {L V}.

Section Prog.

Variable c : cfg.
Variable codes : list N.
Variables max_leaf_n ncrit : nat.
Context {P : Type}.
Variable cnp : nat -> nat -> N -> N -> outcome P.
Variable split_nparts : nat.
Notation eprog := (ecmd bloc (bval P)).

(** All loops are divided up to single iterations; a failing iteration throws early. *)
Definition echild_cmd (sub : list nat -> N -> nat -> nat -> bool -> eprog) (rem : nat) (p : list nat) (pc : N) (b e : nat) (ca : bool) (i : nat) : eprog :=
  let id := i :: p in
  match child_of c codes max_leaf_n ncrit cnp split_nparts rem pc b e ca (N.of_nat i) with
  | Ok (Leaf t l) => epublish id t l (eadd_count p id)
  | Ok (Serial t l t' l') => epublish id t l (EWr (BTree, id) (YT t') (EWr (BCrit, id) (YK l') (eadd_count p id)))
  | Ok (Parallel t l code b' e' ca) => epublish id t l (eapp bloc (bval P) (sub id code b' e' ca) (etake_count p id))
  | Throw x => EWr (BTree, id) (YT []) (EAt (BTrees, []) (YB [id]) (ERaise x))
  | _ => ERet
  end.
Fixpoint epar_cmd (rem : nat) (p : list nat) (pc : N) (b e : nat) (ca : bool) : eprog :=
  match rem with
  | O => EWr (BCount, p) (YC 0) ERet
  | S rem => EWr (BCount, p) (YC 0) (ehalve (N.to_nat (2 ^ dimN c)) (echild_cmd (epar_cmd rem) rem p pc b e ca) 0 (N.to_nat (2 ^ dimN c)))
  end.

Lemma epar_cmd_ok : forall rem p pc b e ca, epar_prog c codes max_leaf_n ncrit cnp split_nparts rem p pc b e ca (epar_cmd rem p pc b e ca).
Proof.
  induction rem as [|rem IH]; intros p pc b e ca; [reflexivity|]. cbn [epar_prog epar_cmd]. eexists _, _. split; [|split; [apply ehalve_pfor; lia|reflexivity]].
  intros i _. unfold echild_prog, echild_cmd. destruct (child_of _ _ _ _ _ _ _ _ _ _ _ _) as [[]| |]; try reflexivity; [|now left]. eexists. split; [apply IH|reflexivity].
Qed.

Definition ebuild_cmd : eprog :=
  let n := length codes in
  let root_is_crit := (n <=? ncrit) || (n <=? max_leaf_n) in
  let rest := eapp bloc (bval P) (epar_cmd (N.to_nat (cbitsc c)) [] 1%N 0 n root_is_crit)
    (ERd (BCount, []) (fun v => match v with YC k => EWr (BRoot, []) (YC k) ERet | _ => ERet end)) in
  let q1 := if max_leaf_n <? n then rest else ERet in
  EFork (match cnp 0 n 1%N 0%N with Ok props => EWr (BProps, []) (YP props) ERet | Throw x => ERaise x | UB => ERet end)
    (if root_is_crit then EWr (BCrit, []) (YK [mkCnode 1 0 n]) (EAt (BCrits, []) (YB [[]]) q1) else q1) ERet.

(** There is such a program for every input. *)
Lemma ebuild_cmd_ok : ebuild_prog c codes max_leaf_n ncrit cnp split_nparts ebuild_cmd.
Proof.
  exists (if max_leaf_n <? length codes then epar_cmd (N.to_nat (cbitsc c)) [] 1%N 0 (length codes) ((length codes <=? ncrit) || (length codes <=? max_leaf_n)) else ERet).
  unfold ebuild_cmd. cbv zeta. destruct (max_leaf_n <? length codes); [split; [apply epar_cmd_ok|reflexivity]|split; reflexivity].
Qed.

End Prog.
