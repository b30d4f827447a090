(** Parallel loops whose tasks can throw, with shared memory: Morton codes, properties of the nodes, deduction of the box size. *)
From Coq Require Import List Arith NArith ZArith Bool Lia.
From Verif Require Import Base Config Morton Build TreeSpec FOps Disc NodeProps Tree TreeInv TreeProofs TreeSafe TreeProps BoxProofs Par ParTree ParProofs ParTop ParTop2 ParExn.
Import ListNotations.
Local Open Scope nat_scope.

(** * Tasks that read, compute, and write one location or throw *)
Section Map.

Context {L V : Type}.
Variable eqL : forall a b : L, {a = b} + {a <> b}.
Notation xrun := (ParExn.xrun L V eqL).
Notation xfoot := (ParExn.xfoot L V eqL).
Notation xsafe := (ParExn.xsafe L V eqL).
Notation all_runs_x := (ParExn.all_runs_x L V eqL).

(** No code of the library: reads and a function of what was read; the result is written to [w] or thrown. Undefined behaviour does nothing here,
    it is excluded separately. *)
Fixpoint xcollect (ls : list L) (k : list V -> xcmd L V) : xcmd L V :=
  match ls with
  | [] => k []
  | l :: r => XRd l (fun v => xcollect r (fun vs => k (v :: vs)))
  end.
Definition xfinish (w : L) (x : outcome V) : xcmd L V := match x with Ok v => XWr w v XRet | Throw e => XRaise e | UB => XRet end.
Definition xtask (rs : nat -> list L) (w : nat -> L) (g : nat -> list V -> outcome V) (i : nat) : xcmd L V := xcollect (rs i) (fun vs => xfinish (w i) (g i vs)).

Lemma xrun_collect : forall ls k m, xrun (xcollect ls k) m = xrun (k (map m ls)) m.
Proof. induction ls as [|l ls IH]; intros k m; cbn [xcollect ParExn.xrun map]; [reflexivity|]. now rewrite IH. Qed.
Lemma xfoot_collect : forall ls k m, xfoot (xcollect ls k) m = map (pair false) ls ++ xfoot (k (map m ls)) m.
Proof. induction ls as [|l ls IH]; intros k m; cbn [xcollect ParExn.xfoot map List.app]; [reflexivity|]. now rewrite IH. Qed.
Lemma xsafe_collect : forall ls k m, xsafe (xcollect ls k) m <-> xsafe (k (map m ls)) m.
Proof. induction ls as [|l ls IH]; intros k m; cbn [xcollect ParExn.xsafe map]; [tauto|]. apply IH. Qed.

Definition only {A} (e0 : exn) (x : outcome A) : Prop := x <> UB /\ forall e, x = Throw e -> e = e0.

Lemma only_bind : forall {A B} e0 (x : outcome A) (f : A -> outcome B), only e0 x -> (forall a, x = Ok a -> only e0 (f a)) -> only e0 (bind x f).
Proof.
  intros A B e0 [a|e|] f [H1 H2] H; cbn [bind]; [now apply H| |now elim H1]. split; [discriminate|]. intros e' X. injection X as <-. now apply H2.
Qed.
Lemma only_ok : forall {A} e0 (a : A), only e0 (Ok a).
Proof. intros. split; discriminate. Qed.
Lemma only_throw : forall {A} e0, only e0 (@Throw A e0).
Proof. intros. split; [discriminate|]. intros e X. now injection X. Qed.
Lemma only_mapM : forall {A B} e0 (f : A -> outcome B) l, (forall a, In a l -> only e0 (f a)) -> only e0 (mapM f l).
Proof.
  intros A B e0 f l. induction l as [|a l IH]; intros H; cbn [mapM]; [apply only_ok|].
  apply only_bind; [apply H; now left|]. intros b _. apply only_bind; [apply IH; intros x Hx; apply H; now right|]. intros; apply only_ok.
Qed.

Lemma map_loop : forall rs w g n q m e0, xpfor (xtask rs w g) 0 n q ->
  (forall i j, i < n -> j < n -> i <> j -> w i <> w j) -> (forall i j, i < n -> j < n -> ~ In (w i) (rs j)) ->
  (forall i, i < n -> only e0 (g i (map m (rs i)))) ->
  match mapM (fun i => g i (map m (rs i))) (seq 0 n) with
  | Ok vs => all_runs_x q m (fun m' => (forall i v, nth_error vs i = Some v -> m' (w i) = v) /\ forall l, (forall i, i < n -> l <> w i) -> m' l = m l) (fun _ => False)
  | Throw e => e = e0 /\ all_runs_x q m (fun _ => False) (fun e' => e' = e0)
  | UB => False
  end.
Proof.
  intros rs w g n q m e0 Hq Hw Hr Hg.
  assert (T : forall i, i < n -> xsafe (xtask rs w g i) m /\ (forall b l, In (b, l) (xfoot (xtask rs w g i) m) -> (b = false /\ In l (rs i)) \/ (b = true /\ l = w i)) /\
    match g i (map m (rs i)) with
    | Ok v => snd (xrun (xtask rs w g i) m) = [] /\ In (true, w i) (xfoot (xtask rs w g i) m) /\ fst (xrun (xtask rs w g i) m) (w i) = v
    | Throw e => snd (xrun (xtask rs w g i) m) = [e0]
    | UB => False
    end).
  { intros i Hi. destruct (Hg i Hi) as [G1 G2]. unfold xtask. rewrite xsafe_collect, xfoot_collect, xrun_collect.
    destruct (g i (map m (rs i))) as [v|e|] eqn:Eg; cbn [xfinish ParExn.xsafe ParExn.xfoot ParExn.xrun fst snd]; [| |now elim G1].
    - split; [exact I|]. split.
      + intros b l X. apply in_app_iff in X as [X|[X|[]]]; [apply in_map_iff in X as (y & X & Y); injection X as <- <-; auto|injection X as <- <-; auto].
      + split; [reflexivity|]. split; [apply in_or_app; right; now left|]. unfold xupd. destruct (eqL (w i) (w i)) as [_|X]; [reflexivity|now elim X].
    - split; [exact I|]. split.
      + intros b l X. apply in_app_iff in X as [X|[]]. apply in_map_iff in X as (y & X & Y). injection X as <- <-. auto.
      + now rewrite (G2 e eq_refl). }
  destruct (xloop_ok L V eqL (xtask rs w g) 0 n q m Hq) as (A1 & A2 & A3 & A4).
  { split; [intros i Hi; now apply T|]. intros i j Hi Hj Hij b b' l X Y.
    destruct (proj1 (proj2 (T i ltac:(lia))) _ _ X) as [[-> X1]|[-> ->]], (proj1 (proj2 (T j ltac:(lia))) _ _ Y) as [[-> Y1]|[-> Y1]]; [auto| | |]; exfalso.
    - subst l. apply (Hr j i); auto; lia.
    - apply (Hr i j); auto; lia.
    - apply (Hw i j); auto; lia. }
  assert (EX : forall e, In e (snd (xrun q m)) -> e = e0).
  { intros e He. destruct (A3 e He) as (i & Hi & X). destruct (T i ltac:(lia)) as (_ & _ & Y). destruct (g i (map m (rs i))); [|rewrite Y in X; destruct X as [<-|[]]; reflexivity|destruct Y].
    destruct Y as (Y & _). rewrite Y in X. destruct X. }
  destruct (mapM (fun i => g i (map m (rs i))) (seq 0 n)) as [vs|e|] eqn:Em.
  - apply mapM_Ok in Em as [Lv Ev]. rewrite seq_length in Lv.
    assert (OKS : forall i, i < n -> exists v, nth_error vs i = Some v /\ g i (map m (rs i)) = Ok v) by (intros i Hi; apply Ev; now apply nth_error_seq).
    assert (NE : snd (xrun q m) = []).
    { destruct (snd (xrun q m)) as [|e es]; [reflexivity|exfalso]. destruct (A3 e (or_introl eq_refl)) as (i & Hi & X). destruct (T i ltac:(lia)) as (_ & _ & Y).
      destruct (OKS i ltac:(lia)) as (v & _ & Z). rewrite Z in Y. destruct Y as (Y & _). rewrite Y in X. destruct X. }
    apply all_runs_ok; [exact A1|exact NE|]. intros m' Hm'. destruct (A4 NE) as [_ B]. split.
    + intros i v Hv. assert (Hi : i < n) by (rewrite <- Lv; eapply nth_error_lt; exact Hv). destruct (OKS i Hi) as (v' & Z1 & Z2). rewrite Hv in Z1. injection Z1 as <-.
      destruct (T i Hi) as (_ & _ & Y). rewrite Z2 in Y. destruct Y as (_ & Y1 & Y2). rewrite Hm', (B i (w i) ltac:(lia) Y1). exact Y2.
    + intros l Hl. rewrite Hm'. apply xunwritten. intros X. destruct (A2 _ X) as (i & Hi & Y). destruct (proj1 (proj2 (T i ltac:(lia))) _ _ Y) as [[Z _]|[_ Z]]; [discriminate Z|].
      now apply (Hl i ltac:(lia)).
  - assert (E0 : e = e0). { assert (O : only e0 (mapM (fun i => g i (map m (rs i))) (seq 0 n))) by (apply only_mapM; intros i Hi; apply in_seq in Hi; apply Hg; lia). now apply O. }
    split; [exact E0|]. apply all_runs_fail; [exact A1| |exact EX]. intros NE. destruct (A4 NE) as [B _].
    destruct (mapM_fails (fun i => g i (map m (rs i))) (seq 0 n)) as (i & Hi & F1); [rewrite Em; discriminate|]. apply in_seq in Hi. destruct (T i ltac:(lia)) as (_ & _ & Y).
    destruct (g i (map m (rs i))) as [v| |]; [now elim (F1 v)| |exact Y]. rewrite (B i ltac:(lia)) in Y. discriminate Y.
  - assert (O : only e0 (mapM (fun i => g i (map m (rs i))) (seq 0 n))) by (apply only_mapM; intros i Hi; apply in_seq in Hi; apply Hg; lia). now apply O.
Qed.

End Map.

(** * The loops of the tree *)
Section Tree.

Context {F : Type}.
Variable O : fops F.
Variable E : env.
Notation c := (e_cfg E).
Notation mem := (loc -> val F).
Notation holdsF m cols := (forall j col, nth_error cols j = Some col -> holds m (Part j) VF col).
Notation all_runs_x := (ParExn.all_runs_x loc (val F) loc_eq).
Hypothesis Hdisc : forall clamp x inv, disc_single_coord O c clamp x inv <> UB.

Definition to_val {A B} (f : A -> B) (x : outcome A) : outcome B := do a <- x; Ok (f a).

(** tree.hpp 1441-1450, 3694-3701: Morton codes, with exceptions. *)
Definition xcode_task (inv_box_size : F) : nat -> xcmd loc (val F) :=
  xtask (fun i => map (fun j => (Part j, i)) (seq 0 (dim c))) (fun i => (Codes, i)) (fun _ vs => to_val VU (particle_code O c (floats vs) inv_box_size)).

(** tree.hpp 3795-3799: properties of the nodes after an update of the masses, with exceptions. *)
Definition xprops_task (box : F) (n : nat) : nat -> xcmd loc (val F) :=
  xtask (fun k => (Nodes, k) :: particle_locs E n) (fun k => (Props, k)) (fun _ vs => match vs with
    | VN nd :: r => to_val VP (cnp O E (chunks (dim c + 1) n (floats r)) box (n_begin nd) (n_end nd) (n_code nd) (n_level nd))
    | _ => UB
    end).

Lemma only_rd : forall {A} e0 (l : list A) i, i < length l -> only e0 (rd l i).
Proof. intros A e0 l i H. destruct (rd_lt l i H) as [a ->]. apply only_ok. Qed.

Lemma no_throw_mapM : forall {A B} (f : A -> outcome B) l e, (forall a e, f a <> Throw e) -> mapM f l <> Throw e.
Proof.
  intros A B f l e H. induction l as [|a l IH]; cbn [mapM]; [discriminate|]. intros X. apply bind_Throw in X as [X|(b & _ & X)]; [now elim (H a e)|].
  apply bind_Throw in X as [X|(bs & _ & X)]; [contradiction|discriminate].
Qed.
Lemma no_throw_foldM : forall {A S} (f : S -> A -> outcome S) l s e, (forall s a e, f s a <> Throw e) -> foldM f l s <> Throw e.
Proof.
  intros A S f l. induction l as [|a l IH]; intros s e H; cbn [foldM]; [discriminate|]. intros X. apply bind_Throw in X as [X|(b & _ & X)]; [now elim (H s a e)|].
  now apply (IH b e H).
Qed.

Lemma acc_no_throw : forall ccols mcol s i e, acc_step O ccols mcol s i <> Throw e.
Proof.
  intros ccols mcol s i e X. unfold acc_step in X. apply bind_Throw in X as [X|(mass & _ & X)]; [now apply rd_not_throw in X|].
  apply bind_Throw in X as [X|(com & _ & X)]; [|discriminate]. revert X. apply no_throw_mapM. intros [col y] e' X.
  apply bind_Throw in X as [X|(z & _ & X)]; [now apply rd_not_throw in X|discriminate].
Qed.

Lemma shl_no_throw : forall w x s e, shl w x s <> Throw e.
Proof. intros w x s e. unfold shl. destruct (_ <? _)%N; discriminate. Qed.

(** All the failures of the computation of the properties of a node are the same exception. *)
Lemma cnp_throws : forall cols box b e code level ex, cnp O E cols box b e code level = Throw ex -> ex = InvalidArgument.
Proof.
  intros cols box b e code level ex X. unfold cnp, compute_node_properties in X. cbv zeta in X.
  apply bind_Throw in X as [X|(mcol & _ & X)]; [now apply rd_not_throw in X|].
  apply bind_Throw in X as [X|([tot com] & _ & X)].
  { exfalso. unfold node_sums in X. cbv zeta in X.
    assert (S : forall l s, foldM (acc_step O (firstn (dim c) cols) mcol) l s <> Throw ex) by (intros l s; apply no_throw_foldM; intros; apply acc_no_throw).
    assert (V : forall l s, foldM (vec_step O (firstn (dim c) cols) mcol) l s <> Throw ex).
    { intros l s. apply no_throw_foldM. intros s0 a e0. unfold vec_step. apply no_throw_mapM. intros [k y] e1. apply acc_no_throw. }
    destruct (e_simd E) as [bw|]; [|now apply S in X]. destruct (dim c) as [|[|[|[|d]]]] eqn:Ed; try (now apply S in X).
    apply bind_Throw in X as [X|(lanes & _ & X)]; [now apply V in X|now apply S in X]. }
  apply bind_Throw in X as [X|(geo & _ & X)].
  { exfalso. unfold get_node_centre in X. cbv zeta in X. apply bind_Throw in X as [X|(one & _ & X)]; [now apply shl_no_throw in X|].
    apply bind_Throw in X as [X|(cc & _ & X)]; [now apply shl_no_throw in X|discriminate]. }
  destruct (negb _); [congruence|]. destruct (negb _); [congruence|]. destruct (e_mac E).
  - destruct (ffin O _); congruence.
  - destruct (negb _); [congruence|]. destruct (ffin O _); congruence.
Qed.

Lemma disc_throws : forall clamp x inv ex, disc_single_coord O c clamp x inv = Throw ex -> ex = InvalidArgument.
Proof.
  intros clamp x inv ex X. unfold disc_single_coord in X. cbv zeta in X. destruct (negb _); [congruence|].
  apply bind_Throw in X as [X|(t & _ & X)].
  - destruct clamp; [discriminate|]. destruct (_ || _); [congruence|discriminate].
  - apply bind_Throw in X as [X|(r & _ & X)]; [unfold cast_uint in X; destruct (_ && _); discriminate|]. destruct (_ <=? _)%N; [congruence|discriminate].
Qed.

Lemma mapM_map : forall {A B C} (f : B -> outcome C) (g : A -> B) l, mapM f (map g l) = mapM (fun a => f (g a)) l.
Proof. intros A B C f g l. induction l as [|a l IH]; [reflexivity|]. cbn [map mapM]. now rewrite IH. Qed.
Lemma mapM_same : forall {A B} (f g : A -> outcome B) l, (forall a, In a l -> f a = g a) -> mapM f l = mapM g l.
Proof.
  intros A B f g l. induction l as [|a l IH]; intros H; [reflexivity|]. cbn [mapM]. rewrite (H a) by now left. rewrite IH; [reflexivity|]. intros x Hx. apply H. now right.
Qed.
Lemma mapM_to_val : forall {A B C} (h : B -> C) (f : A -> outcome B) l, mapM (fun a => to_val h (f a)) l = to_val (map h) (mapM f l).
Proof.
  intros A B C h f l. unfold to_val. induction l as [|a l IH]; [reflexivity|]. cbn [mapM]. destruct (f a); cbn [bind]; [|reflexivity|reflexivity]. rewrite IH.
  destruct (mapM f l); reflexivity.
Qed.
Lemma mapM_seq : forall {A B} (f : A -> outcome B) (g : nat -> outcome B) l b, (forall i a, nth_error l i = Some a -> g (b + i) = f a) -> mapM g (seq b (length l)) = mapM f l.
Proof.
  intros A B f g l. induction l as [|a l IH]; intros b H; [reflexivity|]. cbn [length seq mapM]. rewrite <- (H 0 a eq_refl), Nat.add_0_r.
  rewrite (IH (S b)); [reflexivity|]. intros i x Hx. rewrite <- (H (S i) x Hx). f_equal. lia.
Qed.

(** Update of the masses. *)
Lemma masses_x : forall t ms q (m : mem), env_ok E -> tree_inv O E t -> length ms = length (t_codes t) ->
  (forall j col, nth_error (set_nth (t_parts t) (dim c) ms) j = Some col -> holds m (Part j) VF col) -> holds m Nodes VN (t_nodes t) ->
  xpfor (xprops_task (t_box t) (length (t_codes t))) 0 (length (t_nodes t)) q ->
  match update_masses O E false (fun _ => Ok ms) t with
  | Ok (t', None) => all_runs_x q m (fun m' => forall k nd, nth_error (t_nodes t') k = Some nd -> m' (Props, k) = VP (n_props nd)) (fun _ => False)
  | Ok (t', Some e) => e = InvalidArgument /\ t' = default_tree O E /\ all_runs_x q m (fun _ => False) (fun e' => e' = e)
  | _ => False
  end.
Proof.
  intros t ms q m HE Ht Hms Hm Hn Hq. set (cols := set_nth (t_parts t) (dim c) ms) in *. set (n := length (t_codes t)) in *.
  pose proof (inv_table O E t Ht) as [T1 T2]. fold n in T2.
  assert (Hlc : length cols = dim c + 1) by (unfold cols; now rewrite set_nth_length).
  assert (Hl : Forall (fun col => length col = n) cols) by now apply Forall_set_nth.
  pose (P := fun nd : node (props F) => cnp O E cols (t_box t) (n_begin nd) (n_end nd) (n_code nd) (n_level nd)).
  assert (PS : forall nd, In nd (t_nodes t) -> only InvalidArgument (P nd)).
  { intros nd Hin. split; [|intros e X; eapply cnp_throws; exact X]. unfold P.
    destruct (node_code_shape O E t nd Ht Hin) as (p & -> & Hp & Hlv & Hbe). apply (cnp_safe O E HE Hdisc) with (n := n); auto. split; assumption. }
  assert (UM : update_masses O E false (fun _ => Ok ms) t = guarded O E t
     (do nodes <- mapM (fun nd => do p <- P nd; Ok (mkNode (n_begin nd) (n_end nd) (n_children nd) (n_code nd) (n_level nd) p)) (t_nodes t);
      Ok (mkTree (t_box t) (t_ded t) (t_mln t) (t_ncrit t) cols (t_codes t) (t_perm t) (t_last t) (t_inv t) nodes (t_crit t) (t_view t)))).
  { unfold update_masses, view_cols. cbn [bind]. destruct (rd_lt (t_parts t) (dim c) ltac:(lia)) as [mv Hmv]. rewrite Hmv. cbn [bind].
    assert (Lv : length mv = n) by (apply rd_Ok in Hmv; rewrite Forall_forall in T2; apply T2; eapply nth_error_In; exact Hmv).
    rewrite same_shape_ok by (cbn; congruence). cbn [bind write_back]. unfold wr. replace (dim c <? length (t_parts t)) with true by (symmetry; apply Nat.ltb_lt; lia). reflexivity. }
  rewrite UM. clear UM.
  pose proof (map_loop loc_eq _ _ _ (length (t_nodes t)) q m InvalidArgument Hq) as ML. cbv beta in ML.
  assert (RD : forall k nd, nth_error (t_nodes t) k = Some nd -> map m ((Nodes, k) :: particle_locs E n) = VN nd :: map VF (concat cols)).
  { intros k nd Hk. cbn [map]. rewrite (Hn k nd Hk). f_equal. unfold particle_locs. rewrite <- Hlc. now apply particle_reads. }
  assert (G : forall k nd, nth_error (t_nodes t) k = Some nd -> match map m ((Nodes, k) :: particle_locs E n) with
     | VN nd :: r => to_val VP (cnp O E (chunks (dim c + 1) n (floats r)) (t_box t) (n_begin nd) (n_end nd) (n_code nd) (n_level nd)) | _ => UB end = to_val VP (P nd)).
  { intros k nd Hk. rewrite (RD k nd Hk), floats_VF, <- Hlc, (chunks_concat cols n Hl). reflexivity. }
  rewrite (mapM_seq (fun nd => to_val VP (P nd)) _ (t_nodes t) 0 G), mapM_to_val in ML.
  assert (A : match to_val (map VP) (mapM P (t_nodes t)) with
    | Ok vs => all_runs_x q m (fun m' => (forall i v, nth_error vs i = Some v -> m' (Props, i) = v) /\ forall l, (forall i, i < length (t_nodes t) -> l <> (Props, i)) -> m' l = m l) (fun _ => False)
    | Throw e => e = InvalidArgument /\ all_runs_x q m (fun _ => False) (fun e' => e' = InvalidArgument)
    | UB => False end).
  { apply ML.
    - intros i j _ _ Hij X. injection X as X. contradiction.
    - intros i j _ _ [X|X]; [discriminate X|]. unfold particle_locs in X. apply in_flat_map in X as (j0 & _ & X). apply in_map_iff in X as (y & X & _). discriminate X.
    - intros k Hk. destruct (nth_error (t_nodes t) k) as [nd|] eqn:En; [|apply nth_error_None in En; lia]. rewrite (G k nd En). unfold to_val.
      apply only_bind; [apply PS; eapply nth_error_In; exact En|intros; apply only_ok]. }
  clear ML.
  assert (MP : mapM (fun nd => do p <- P nd; Ok (mkNode (n_begin nd) (n_end nd) (n_children nd) (n_code nd) (n_level nd) p)) (t_nodes t) =
    do ps <- mapM P (t_nodes t); Ok (map (fun x => mkNode (n_begin (fst x)) (n_end (fst x)) (n_children (fst x)) (n_code (fst x)) (n_level (fst x)) (snd x)) (combine (t_nodes t) ps))).
  { generalize (t_nodes t) as l. induction l as [|nd l IH]; [reflexivity|]. cbn [mapM]. destruct (P nd); cbn [bind]; [|reflexivity|reflexivity]. rewrite IH. destruct (mapM P l); reflexivity. }
  rewrite MP. clear MP. destruct (mapM P (t_nodes t)) as [ps|e|] eqn:Ep; cbn [bind guarded to_val] in *.
  - cbn [t_nodes]. destruct A as [A B]. split; [|exact B]. intros k m' q' X. destruct (A k m' q' X) as (A1 & A2 & A3 & A4). split; [exact A1|]. split; [|split; [exact A3|exact A4]].
    intros Z. destruct (A2 Z) as [Y _]. intros i nd Hi. apply Y. rewrite nth_error_map in Hi. destruct (nth_error (combine (t_nodes t) ps) i) as [[nd0 p]|] eqn:Ec; [|discriminate Hi]. injection Hi as <-. cbn [n_props snd].
    apply map_nth_error. rewrite nth_error_combine in Ec. destruct (nth_error (t_nodes t) i), (nth_error ps i); try discriminate Ec. now injection Ec as _ ->.
  - destruct A as [-> A]. split; [reflexivity|]. split; [apply clear_default, Ht|exact A].
  - exact A.
Qed.

(** Morton codes. *)
Lemma code_only : forall xs ibs, length xs = dim c -> only InvalidArgument (particle_code O c xs ibs).
Proof.
  intros xs ibs Hl. unfold particle_code. apply only_bind.
  - apply only_mapM. intros x _. split; [apply Hdisc|]. intros e. apply disc_throws.
  - intros ds Hd. split; [apply morton_encode_safe; now rewrite (mapM_length _ _ _ Hd)|].
    intros e X. exfalso. destruct c; destruct ds as [|? [|? [|? [|? ?]]]]; discriminate.
Qed.

Lemma coords_ok : forall (cols : list (list F)) n i, table E cols n -> i < n -> exists xs, coords E cols i = Ok xs /\ length xs = dim c /\ row (firstn (dim c) cols) i xs.
Proof.
  intros cols n i HT Hi. destruct (coords E cols i) as [xs|e|] eqn:Ex.
  - exists xs. split; [reflexivity|]. split; [eapply coords_length; eauto|now apply coords_row].
  - exfalso. revert Ex. unfold coords. apply no_throw_mapM. intros. apply rd_not_throw.
  - now elim (coords_safe E cols n i HT Hi).
Qed.

Lemma codes_x : forall (cols : list (list F)) ibs n q (m : mem), table E cols n -> holdsF m cols -> xpfor (xcode_task ibs) 0 n q ->
  match encode_all O E cols ibs n with
  | Ok codes => all_runs_x q m (fun m' => holds m' Codes VU codes) (fun _ => False)
  | Throw e => e = InvalidArgument /\ all_runs_x q m (fun _ => False) (fun e' => e' = InvalidArgument)
  | UB => False
  end.
Proof.
  intros cols ibs n q m HT Hm Hq. pose proof (map_loop loc_eq _ _ _ n q m InvalidArgument Hq) as ML. cbv beta in ML.
  assert (R : forall i, i < n -> exists xs, coords E cols i = Ok xs /\ length xs = dim c /\ floats (map m (map (fun j => (Part j, i)) (seq 0 (dim c)))) = xs).
  { intros i Hi. destruct (coords_ok cols n i HT Hi) as (xs & X1 & X2 & X3). exists xs. split; [exact X1|]. split; [exact X2|].
    rewrite (row_reads m cols i xs (dim c) Hm X3), floats_VF; [reflexivity|]. destruct HT as [HT _]. lia. }
  rewrite (mapM_same _ (fun i => to_val VU (do xs <- coords E cols i; particle_code O c xs ibs))) in ML.
  2:{ intros i Hi. apply in_seq in Hi. destruct (R i ltac:(lia)) as (xs & X1 & _ & X3). now rewrite X1, X3. }
  rewrite mapM_to_val in ML. fold (encode_all O E cols ibs n) in ML.
  assert (A : match to_val (map VU) (encode_all O E cols ibs n) with
    | Ok vs => all_runs_x q m (fun m' => (forall i v, nth_error vs i = Some v -> m' (Codes, i) = v) /\ forall l, (forall i, i < n -> l <> (Codes, i)) -> m' l = m l) (fun _ => False)
    | Throw e => e = InvalidArgument /\ all_runs_x q m (fun _ => False) (fun e' => e' = InvalidArgument)
    | UB => False end).
  { apply ML.
    - intros i j _ _ Hij X. injection X as X. contradiction.
    - intros i j _ _ X. apply in_map_iff in X as (y & X & _). discriminate X.
    - intros i Hi. destruct (R i Hi) as (xs & _ & X2 & X3). rewrite X3. unfold to_val. apply only_bind; [now apply code_only|intros; apply only_ok]. }
  clear ML. destruct (encode_all O E cols ibs n) as [codes|e|]; cbn [to_val bind] in A; [|exact A|exact A].
  destruct A as [A B]. split; [|exact B]. intros k m' q' X. destruct (A k m' q' X) as (A1 & A2 & A3 & A4). split; [exact A1|]. split; [|split; [exact A3|exact A4]].
  intros Z. destruct (A2 Z) as [Y _]. intros i x Hx. apply Y. now apply map_nth_error.
Qed.

(** The box size that the codes are computed with during an update of the positions to [cols]. *)
Definition box_of (s : @sched F) (t : @tree F) (cols : list (list F)) (box : F) : Prop :=
  if t_ded t then exists rs, rows E cols (length (t_codes t)) = Ok rs /\ determine_box_size O (dim c) rs (s_red s (length (t_codes t))) = Ok box else box = t_box t.

Lemma positions_x : forall (s : @sched F) t (cols : list (list F)) box q (m : mem), tree_inv O E t -> table E cols (length (t_codes t)) -> box_of s t cols box -> holdsF m cols ->
  xpfor (xcode_task (fdiv O (fofZ O 1%Z) box)) 0 (length (t_codes t)) q ->
  (exists codes, length codes = length (t_codes t) /\
     (forall i xs, row (firstn (dim c) cols) i xs -> exists k, nth_error codes i = Some k /\ particle_code O c xs (fdiv O (fofZ O 1%Z) box) = Ok k) /\
     all_runs_x q m (fun m' => forall i k, nth_error codes i = Some k -> m' (Codes, i) = VU k) (fun _ => False)) \/
  (update_particles O E s false (fun _ => Ok cols) t = Ok (default_tree O E, Some InvalidArgument) /\ all_runs_x q m (fun _ => False) (fun e => e = InvalidArgument)).
Proof.
  intros s t cols box q m Ht HT Hb Hm Hq. pose proof (codes_x cols _ _ q m HT Hm Hq) as C. set (ibs := fdiv O (fofZ O 1%Z) box) in *. set (n := length (t_codes t)) in *.
  destruct (encode_all O E cols ibs n) as [codes|e|] eqn:Ee; [left|right|destruct C].
  - exists codes. destruct (encode_all_inv O E cols ibs n codes Ee) as [Hl Hc]. split; [exact Hl|]. split; [|exact C].
    intros i xs Hr. assert (Hi : i < n).
    { destruct HT as [T1 T2]. destruct cols as [|col cols]; [pose proof (dim_pos c); cbn in T1; lia|]. pose proof (dim_pos c). destruct (dim c) as [|d]; [lia|].
      cbn [firstn] in Hr. inversion Hr as [|? x ? xs' X Y]; subst. inversion T2; subst. rewrite <- H2. eapply nth_error_lt; exact X. }
    destruct (nth_error codes i) as [k|] eqn:Ek; [|apply nth_error_None in Ek; lia]. exists k. split; [reflexivity|].
    destruct (Hc i k Ek) as (xs' & R' & P'). replace xs with xs'; [exact P'|].
    clear - Hr R'. revert xs' R'. induction Hr as [|col x l xs X Y IH]; intros xs' R'; inversion R'; subst; [reflexivity|]. f_equal; [congruence|now apply IH].
  - destruct C as [-> C]. split; [|exact C]. pose proof (inv_table O E t Ht) as [T1 T2]. fold n in T2. destruct HT as [U1 U2].
    unfold update_particles, view_cols. cbn [bind]. rewrite same_shape_ok.
    2:{ unfold shape. clear - T1 T2 U1 U2. revert cols T1 T2 U1 U2. generalize (dim c + 1) as d. generalize (t_parts t) as l. induction l as [|a l IH]; intros d cols T1 T2 U1 U2.
        - cbn in T1. subst d. destruct cols; [reflexivity|discriminate].
        - destruct cols as [|b cols]; [cbn in *; congruence|]. inversion T2; inversion U2; subst. cbn [map]. f_equal; [congruence|]. apply (IH (length l)); auto; cbn in *; lia. }
    cbn [bind]. assert (W : mapM (fun '(old, new) => write_back false (t_inv t) old new) (combine (t_parts t) cols) = Ok cols).
    { assert (Z : length (t_parts t) = length cols) by congruence. revert Z. clear. generalize (t_parts t) as l. revert cols. intros cols l; revert cols.
      induction l as [|a l IH]; intros [|b cols] Z; try discriminate Z; [reflexivity|]. cbn [combine mapM write_back bind]. rewrite IH by (cbn in Z; lia). reflexivity. }
    rewrite W. cbn [bind]. rewrite <- (clear_default O E t) by apply Ht. unfold sync. cbv zeta.
    assert (NP : nparts (rocm_reset (set_parts t cols)) = n).
    { unfold nparts. cbn [rocm_reset set_parts t_parts]. destruct cols as [|col cols]; [pose proof (dim_pos c); cbn in U1; lia|]. now inversion U2. }
    rewrite NP. cbn [rocm_reset set_parts t_parts t_ded t_box].
    assert (B : (if t_ded t then do rs <- rows E cols n; determine_box_size O (dim c) rs (s_red s n) else Ok (t_box t)) = Ok box).
    { unfold box_of in Hb. fold n in Hb. destruct (t_ded t); [|now subst box]. destruct Hb as (rs & -> & B). exact B. }
    rewrite B. cbn [bind]. fold ibs. rewrite Ee. reflexivity.
Qed.

End Tree.

(** * Deduction of the box size *)
(** Locations: coordinates of the input, the values of the subtrees of the reduction, the result. *)
Inductive rloc := RPart (j i : nat) | RAcc (p : list bool) | RBox.
Inductive rval F := RF (x : F) | RV (v : list F).
Arguments RF {F}.
Arguments RV {F}.

Definition rloc_eq : forall a b : rloc, {a = b} + {a <> b}.
Proof. decide equality; try apply Nat.eq_dec. apply list_eq_dec, Bool.bool_dec. Defined.

Section Red.

Context {F : Type}.
Variable O : fops F.
Variable d : nat.
Notation xrun := (ParExn.xrun rloc (rval F) rloc_eq).
Notation xfoot := (ParExn.xfoot rloc (rval F) rloc_eq).
Notation xsafe := (ParExn.xsafe rloc (rval F) rloc_eq).
Notation all_runs_x := (ParExn.all_runs_x rloc (rval F) rloc_eq).

Definition scalars (vs : list (rval F)) : list F := flat_map (fun v => match v with RF x => [x] | RV _ => [] end) vs.

(** tree.hpp 1291-1301: one particle; the running maxima are those of the subtree [p]. *)
Definition max_task (p : list bool) (i : nat) : xcmd rloc (rval F) :=
  xtask (fun i => RAcc p :: map (fun j => RPart j i) (seq 0 d)) (fun _ => RAcc p)
        (fun _ vs => match vs with RV v :: r => to_val RV (max_step O v (scalars r)) | _ => UB end) i.

(** tree.hpp 1303-1309: the values of two subtrees. *)
Definition join_task (p : list bool) : xcmd rloc (rval F) :=
  xtask (fun _ => [RAcc (false :: p); RAcc (true :: p)]) (fun _ => RAcc p)
        (fun _ vs => match vs with [RV a; RV b] => Ok (RV (map (fun '(x, y) => fmax O x y) (combine a b))) | _ => UB end) 0.

(** tree.hpp 1288-1311: the reduction of shape [r], with the value at [RAcc p]. The particles of a subrange are processed one after the other,
    the two sides of a [Join] at the same time. *)
Fixpoint red_prog (p : list bool) (r : red) : xcmd rloc (rval F) :=
  match r with
  | Start => XWr (RAcc p) (RV (repeat (fofZ O 0%Z) d)) XRet
  | Feed r b e => xapp (red_prog p r) (fold_right xapp XRet (map (max_task p) (seq b (e - b))))
  | Join l r => XFork (red_prog (false :: p) l) (red_prog (true :: p) r) (join_task p)
  end.

(** tree.hpp 1278-1319, [determine_box_size]. *)
Definition box_prog (n : nat) (r : red) : xcmd rloc (rval F) :=
  match it_diff_check n with
  | Ok _ => xapp (red_prog [] r) (xtask (fun _ => [RAcc []]) (fun _ => RBox) (fun _ vs =>
      match vs with
      | [RV (m0 :: mt)] =>
        let retval := fmul O (max_element O m0 mt) (fofZ O 2%Z) in
        let retval := ffma O retval (fdiv O (fofZ O 1%Z) (fofZ O 20%Z)) retval in
        if ffin O retval then Ok (RF retval) else Throw InvalidArgument
      | _ => UB
      end) 0)
  | Throw e => XRaise e
  | UB => XRet
  end.

(** The memory holds the rows [parts]. *)
Definition holds_rows (m : rloc -> rval F) (parts : list (list F)) : Prop :=
  forall i row j x, nth_error parts i = Some row -> nth_error row j = Some x -> m (RPart j i) = RF x.

Definition below (p : list bool) (bl : bool * rloc) : Prop :=
  match snd bl with RPart _ _ => fst bl = false | RAcc p' => exists x, p' = x ++ p | RBox => False end.

Lemma below_step : forall p b bl, below (b :: p) bl -> below p bl.
Proof. intros p b [w [j i|p'|]] H; cbn in *; auto. destruct H as [x ->]. exists (x ++ [b]). now rewrite <- app_assoc. Qed.

Lemma below_apart : forall p f g, Forall (below (false :: p)) f -> Forall (below (true :: p)) g -> xapart rloc f g.
Proof.
  intros p f g Hf Hg w w' l X Y. rewrite Forall_forall in Hf, Hg. specialize (Hf _ X). specialize (Hg _ Y). destruct l as [j i|p'|]; cbn in *; auto; [|destruct Hf].
  destruct Hf as [x ->], Hg as [y Z]. change (false :: p) with ([false] ++ p) in Z. change (true :: p) with ([true] ++ p) in Z. rewrite !app_assoc in Z.
  apply app_inv_tail in Z. apply app_inj_tail in Z as [_ Z]. discriminate Z.
Qed.

Lemma row_scalars : forall m parts i row, holds_rows m parts -> nth_error parts i = Some row -> length row = d ->
  scalars (map m (map (fun j => RPart j i) (seq 0 d))) = row.
Proof.
  intros m parts i row Hm Hi Hl. rewrite map_map, <- Hl. clear Hl.
  assert (G : forall r k, (forall j x, nth_error r j = Some x -> m (RPart (k + j) i) = RF x) -> scalars (map (fun j => m (RPart j i)) (seq k (length r))) = r).
  { induction r as [|x r IH]; intros k H; [reflexivity|]. cbn [length seq map scalars flat_map]. pose proof (H 0 x eq_refl) as H0. rewrite Nat.add_0_r in H0. rewrite H0. cbn [List.app].
    f_equal. apply IH. intros j y Hy. rewrite <- (H (S j) y Hy). f_equal. f_equal. lia. }
  apply (G row 0). intros j x Hx. cbn [Nat.add]. eapply Hm; eauto.
Qed.

Lemma max_step_only : forall v xs, only InvalidArgument (max_step O v xs).
Proof. intros v xs. unfold max_step. apply only_mapM. intros [a x] _. cbv zeta. destruct (ffin O (fabs O x)); [apply only_ok|apply only_throw]. Qed.

Lemma max_step_length : forall v xs w, length xs = d -> length v = d -> max_step O v xs = Ok w -> length w = d.
Proof. intros v xs w H1 H2 H. apply mapM_length in H. rewrite combine_length in H. lia. Qed.

(** What is known of a piece of the reduction with the value at [RAcc p]. *)
Definition piece (p : list bool) (q : xcmd rloc (rval F)) (m : rloc -> rval F) (x : outcome (list F)) : Prop :=
  xsafe q m /\ Forall (below p) (xfoot q m) /\ (forall e, In e (snd (xrun q m)) -> e = InvalidArgument) /\
  match x with
  | Ok v => length v = d /\ snd (xrun q m) = [] /\ fst (xrun q m) (RAcc p) = RV v
  | Throw e => e = InvalidArgument /\ snd (xrun q m) <> []
  | UB => False
  end.

Lemma below_rows : forall p q m parts, Forall (below p) (xfoot q m) -> holds_rows m parts -> holds_rows (fst (xrun q m)) parts.
Proof.
  intros p q m parts Hf Hm i row j x Hi Hj. rewrite xunwritten; [now apply (Hm i row)|]. intros X. rewrite Forall_forall in Hf. specialize (Hf _ X). discriminate Hf.
Qed.

Lemma feed_piece : forall parts p l m v, Forall (fun r => length r = d) parts -> holds_rows m parts -> m (RAcc p) = RV v -> length v = d ->
  (forall i, In i l -> i < length parts) ->
  piece p (fold_right xapp XRet (map (max_task p) l)) m (foldM (max_step O) (map (fun i => nth i parts []) l) v).
Proof.
  intros parts p l. induction l as [|i l IH]; intros m v HF Hm Hv Lv Hl.
  - cbn [map fold_right foldM]. unfold piece. cbn [ParExn.xsafe ParExn.xfoot ParExn.xrun fst snd]. split; [exact I|]. split; [constructor|]. split; [intros e []|]. auto.
  - cbn [map fold_right foldM]. pose proof (Hl i (or_introl eq_refl)) as Hi. destruct (nth_error parts i) as [row|] eqn:Er; [|apply nth_error_None in Er; lia].
    rewrite (nth_error_nth _ _ _ Er). assert (Lr : length row = d) by (rewrite Forall_forall in HF; apply HF; eapply nth_error_In; exact Er).
    assert (S1 : xsafe (max_task p i) m /\ Forall (below p) (xfoot (max_task p i) m) /\ xrun (max_task p i) m =
      match max_step O v row with Ok w => (xupd rloc (rval F) rloc_eq m (RAcc p) (RV w), []) | Throw e => (m, [InvalidArgument]) | UB => (m, []) end).
    { unfold max_task, xtask. rewrite xsafe_collect, xfoot_collect, xrun_collect. cbn [map]. rewrite Hv, (row_scalars m parts i row Hm Er Lr).
      assert (B : Forall (below p) (map (pair false) (RAcc p :: map (fun j => RPart j i) (seq 0 d)))).
      { cbn [map]. constructor; [exists []; reflexivity|]. apply Forall_forall. intros y Hy. apply in_map_iff in Hy as (z & <- & Hz). apply in_map_iff in Hz as (j & <- & _). reflexivity. }
      pose proof (max_step_only v row) as [M1 M2]. destruct (max_step O v row) as [w|e|]; cbn [to_val bind xfinish ParExn.xsafe ParExn.xfoot ParExn.xrun]; [| |now elim M1].
      - split; [exact I|]. split; [|reflexivity]. apply Forall_app. split; [exact B|]. constructor; [exists []; reflexivity|constructor].
      - split; [exact I|]. split; [rewrite app_nil_r; exact B|]. now rewrite (M2 e eq_refl). }
    destruct S1 as (S1 & S2 & S3). pose proof (max_step_only v row) as [M1 M2]. unfold piece. rewrite xsafe_app, xfoot_app, xrun_app, S3.
    destruct (max_step O v row) as [w|e|] eqn:Em; cbn [fst snd bind]; [| |now elim M1].
    + destruct (IH (xupd rloc (rval F) rloc_eq m (RAcc p) (RV w)) w HF) as (I1 & I2 & I3 & I4).
      { intros i0 row0 j x Hi0 Hj. unfold xupd. destruct (rloc_eq (RPart j i0) (RAcc p)) as [X|_]; [discriminate X|]. now apply (Hm i0 row0). }
      { unfold xupd. destruct (rloc_eq (RAcc p) (RAcc p)) as [_|X]; [reflexivity|now elim X]. }
      { now apply max_step_length with v row. }
      { intros i0 H0. apply Hl. now right. }
      split; [split; assumption|]. split; [apply Forall_app; split; assumption|]. split; [exact I3|exact I4].
    + split; [split; [exact S1|exact I]|]. split; [rewrite app_nil_r; exact S2|]. split; [intros e' [<-|[]]; reflexivity|]. split; [now apply M2|discriminate].
Qed.

Lemma slice_nth : forall (parts : list (list F)) b e, b <= e -> e <= length parts -> slice parts b e = map (fun i => nth i parts []) (seq b (e - b)).
Proof.
  intros parts b e Hb He. unfold slice. apply (nth_ext _ _ [] []).
  - rewrite map_length, seq_length, firstn_length, skipn_length. lia.
  - rewrite firstn_length, skipn_length. intros k Hk.
    assert (A : nth_error (firstn (e - b) (skipn b parts)) k = nth_error parts (b + k)) by (rewrite nth_error_firstn, nth_error_skipn; replace (k <? e - b) with true by (symmetry; apply Nat.ltb_lt; lia); reflexivity).
    destruct (nth_error parts (b + k)) as [x|] eqn:Ex; [|apply nth_error_None in Ex; lia].
    rewrite (nth_error_nth _ _ _ A). symmetry. apply nth_error_nth. rewrite nth_error_map.
    rewrite (nth_error_nth' _ 0) by (rewrite seq_length; lia). rewrite seq_nth by lia. cbn [option_map]. f_equal. now apply nth_error_nth.
Qed.

Lemma red_piece : forall parts, Forall (fun r => length r = d) parts -> forall r p b e m, spans r b e -> e <= length parts -> holds_rows m parts ->
  piece p (red_prog p r) m (run_red O d parts r).
Proof.
  intros parts HF r. induction r as [|r IH b' e'|l IHl r IHr]; intros p b e m Hs He Hm; cbn [red_prog run_red].
  - unfold piece. cbn [ParExn.xsafe ParExn.xfoot ParExn.xrun fst snd]. split; [exact I|]. split; [constructor; [exists []; reflexivity|constructor]|]. split; [intros x []|].
    split; [apply repeat_length|]. split; [reflexivity|]. unfold xupd. destruct (rloc_eq (RAcc p) (RAcc p)) as [_|X]; [reflexivity|now elim X].
  - destruct Hs as (-> & Hbe & Hs). destruct (IH p b b' m Hs ltac:(lia) Hm) as (I1 & I2 & I3 & I4). unfold piece. rewrite xsafe_app, xfoot_app, xrun_app.
    destruct (run_red O d parts r) as [v|x|]; cbn [bind].
    + destruct I4 as (Lv & I4 & I5). rewrite I4. rewrite (slice_nth parts b' e) by lia.
      destruct (feed_piece parts p (seq b' (e - b')) (fst (xrun (red_prog p r) m)) v HF (below_rows p _ _ _ I2 Hm) I5 Lv) as (J1 & J2 & J3 & J4).
      { intros i Hi. apply in_seq in Hi. lia. }
      split; [split; assumption|]. split; [apply Forall_app; split; assumption|]. split; [exact J3|exact J4].
    + destruct I4 as (-> & I4). destruct (snd (xrun (red_prog p r) m)) as [|e0 es] eqn:Es; [now elim I4|]. rewrite Es. split; [split; [exact I1|exact I]|].
      split; [rewrite app_nil_r; exact I2|]. split; [exact I3|]. split; [reflexivity|discriminate].
    + destruct I4.
  - destruct Hs as (x & Hl & Hr). pose proof (BoxProofs.spans_le _ _ _ Hr). destruct (IHl (false :: p) b x m Hl ltac:(lia) Hm) as (I1 & I2 & I3 & I4).
    set (ra := xrun (red_prog (false :: p) l) m) in *.
    destruct (IHr (true :: p) x e (fst ra) Hr He (below_rows _ _ _ _ I2 Hm)) as (J1 & J2 & J3 & J4). set (rb := xrun (red_prog (true :: p) r) (fst ra)) in *.
    assert (AP : xapart rloc (xfoot (red_prog (false :: p) l) m) (xfoot (red_prog (true :: p) r) (fst ra))) by (eapply below_apart; eassumption).
    assert (FF : Forall (below p) (xfoot (red_prog (false :: p) l) m ++ xfoot (red_prog (true :: p) r) (fst ra))).
    { apply Forall_app. split; (eapply Forall_impl; [|eassumption]); intros bl; apply below_step. }
    unfold piece. cbn [ParExn.xsafe ParExn.xfoot ParExn.xrun]. cbv zeta. fold ra. fold rb.
    assert (EE : forall e1, In e1 (snd ra ++ snd rb) -> e1 = InvalidArgument) by (intros e1 X; apply in_app_iff in X as [X|X]; auto).
    destruct (snd ra ++ snd rb) as [|e0 es] eqn:Es.
    + apply app_eq_nil in Es as [Ea Eb]. destruct (run_red O d parts l) as [va|? |]; [|destruct I4 as (_ & X); now rewrite Ea in X|destruct I4].
      destruct (run_red O d parts r) as [vb|? |]; [|destruct J4 as (_ & X); now rewrite Eb in X|destruct J4]. cbn [bind].
      destruct I4 as (La & _ & A), J4 as (Lb & _ & B).
      assert (A' : fst rb (RAcc (false :: p)) = RV va).
      { rewrite <- A. unfold rb. apply xunwritten. intros X. rewrite Forall_forall in J2. specialize (J2 _ X). cbn in J2. destruct J2 as [y Z].
        apply (f_equal (@length bool)) in Z as Z1. rewrite app_length in Z1. cbn [length] in Z1. destruct y; [discriminate Z|cbn [length] in Z1; lia]. }
      unfold join_task, xtask. rewrite xsafe_collect, xfoot_collect, xrun_collect. cbn [map]. rewrite A', B. cbn [xfinish ParExn.xsafe ParExn.xfoot ParExn.xrun fst snd].
      split; [exact (conj I1 (conj J1 (conj AP I)))|]. split.
      { rewrite app_assoc. apply Forall_app. split; [exact FF|]. cbn [List.app]. constructor; [exists [false]; reflexivity|]. constructor; [exists [true]; reflexivity|].
        constructor; [exists []; reflexivity|constructor]. }
      split; [intros e1 []|]. split; [rewrite map_length, combine_length; lia|]. split; [reflexivity|].
      unfold xupd. destruct (rloc_eq (RAcc p) (RAcc p)) as [_|X]; [reflexivity|now elim X].
    + split; [exact (conj I1 (conj J1 (conj AP I)))|]. split; [rewrite ?app_nil_r; exact FF|]. cbn [fst snd]. split; [exact EE|].
      destruct (run_red O d parts l) as [va|ea|]; cbn [bind]; [|destruct I4 as (-> & _); split; [reflexivity|discriminate]|destruct I4].
      destruct (run_red O d parts r) as [vb|eb|]; cbn [bind]; [|destruct J4 as (-> & _); split; [reflexivity|discriminate]|destruct J4].
      exfalso. destruct I4 as (_ & X & _), J4 as (_ & Y & _). rewrite X, Y in Es. discriminate Es.
Qed.

Lemma box_x : forall parts r m, 0 < d -> Forall (fun r => length r = d) parts -> spans r 0 (length parts) -> holds_rows m parts ->
  match determine_box_size O d parts r with
  | Ok box => all_runs_x (box_prog (length parts) r) m (fun m' => m' RBox = RF box) (fun _ => False)
  | Throw e => all_runs_x (box_prog (length parts) r) m (fun _ => False) (fun e' => e' = e)
  | UB => False
  end.
Proof.
  intros parts r m Hd HF Hs Hm. unfold determine_box_size, box_prog.
  assert (D : it_diff_check (length parts) <> UB) by (unfold it_diff_check; destruct (_ <? _)%N; discriminate).
  destruct (it_diff_check (length parts)) as [u|e|]; cbn [bind]; [| |now elim D].
  2:{ apply all_runs_fail; cbn; [exact I|discriminate|]. intros e' [<-|[]]. reflexivity. }
  destruct (red_piece parts HF r [] 0 (length parts) m Hs (le_n _) Hm) as (I1 & I2 & I3 & I4). set (fin := xtask _ _ _ _).
  assert (SA : snd (xrun (red_prog [] r) m) <> [] -> xsafe (xapp (red_prog [] r) fin) m /\ xrun (xapp (red_prog [] r) fin) m = xrun (red_prog [] r) m).
  { intros N. rewrite xsafe_app, xrun_app. destruct (snd (xrun (red_prog [] r) m)); [now elim N|]. auto. }
  destruct (run_red O d parts r) as [v|e|]; cbn [bind].
  - destruct I4 as (Lv & I4 & I5). destruct v as [|m0 mt]; [cbn in Lv; lia|]. set (rv := ffma O _ _ _).
    assert (R : xsafe (xapp (red_prog [] r) fin) m /\ xrun (xapp (red_prog [] r) fin) m =
      if ffin O rv then (xupd rloc (rval F) rloc_eq (fst (xrun (red_prog [] r) m)) RBox (RF rv), []) else (fst (xrun (red_prog [] r) m), [InvalidArgument])).
    { rewrite xsafe_app, xrun_app, I4. unfold fin, xtask. rewrite xsafe_collect, xrun_collect. cbn [map]. rewrite I5. fold rv. cbv zeta. fold rv.
      destruct (ffin O rv); cbn [xfinish ParExn.xsafe ParExn.xrun]; auto. }
    destruct R as [R1 R2]. destruct (ffin O rv).
    + apply all_runs_ok; [exact R1|now rewrite R2|]. intros m' H. rewrite H, R2. cbn [fst]. unfold xupd. destruct (rloc_eq RBox RBox) as [_|X]; [reflexivity|now elim X].
    + apply all_runs_fail; [exact R1|rewrite R2; discriminate|]. rewrite R2. cbn [snd]. intros e [<-|[]]. reflexivity.
  - destruct I4 as (-> & I4). destruct (SA I4) as [S1 S2]. apply all_runs_fail; [exact S1|now rewrite S2|]. rewrite S2. exact I3.
  - exact I4.
Qed.

End Red.

Lemma box_ieee : forall prec emax Hprec Hemax fused d parts r r' m, 0 < d -> Forall (fun p => length p = d) parts -> spans r 0 (length parts) -> spans r' 0 (length parts) ->
  holds_rows m parts ->
  match determine_box_size (Bops prec emax Hprec Hemax fused) d parts r with
  | Ok box => all_runs_x rloc (rval _) rloc_eq (box_prog (Bops prec emax Hprec Hemax fused) d (length parts) r') m (fun m' => m' RBox = RF box) (fun _ => False)
  | Throw e => all_runs_x rloc (rval _) rloc_eq (box_prog (Bops prec emax Hprec Hemax fused) d (length parts) r') m (fun _ => False) (fun e' => e' = e)
  | UB => False
  end.
Proof.
  intros prec emax Hprec Hemax fused d parts r r' m Hd HF Hr Hr' Hm. rewrite (box_schedule prec emax Hprec Hemax fused d parts r r' HF Hr Hr'). now apply box_x.
Qed.

(** * For the examples: one interleaving *)
Section Ex.

Context {L V : Type}.
Variable eqL : forall a b : L, {a = b} + {a <> b}.

(** Ranges are divided in two halves until they have one element. *)
Fixpoint xhalve (fuel : nat) (body : nat -> xcmd L V) (b e : nat) : xcmd L V :=
  match fuel with
  | 0 => fold_right xapp XRet (map body (seq b (e - b)))
  | S fuel => if e - b <=? 1 then fold_right xapp XRet (map body (seq b (e - b)))
              else XFork (xhalve fuel body b ((b + e) / 2)) (xhalve fuel body ((b + e) / 2) e) XRet
  end.

Lemma xhalve_pfor : forall body fuel b e, b <= e -> xpfor body b e (xhalve fuel body b e).
Proof.
  intros body fuel. induction fuel as [|fuel IH]; intros b e H; cbn [xhalve]; [now constructor|].
  destruct (e - b <=? 1); [now constructor|]. assert (b <= (b + e) / 2 <= e).
  { split; [apply Nat.div_le_lower_bound; lia|apply Nat.div_le_upper_bound; lia]. }
  econstructor; apply IH; lia.
Qed.

(** One step; the bits of [n] choose the task. An exception cancels the other side at once if [eager], otherwise when nothing else is left. *)
Fixpoint xstepf (eager : bool) (n : nat) (c : xcmd L V) (m : L -> V) : option ((L -> V) * xcmd L V) :=
  match c with
  | XRet | XRaise _ => None
  | XRd l k => Some (m, k (m l))
  | XWr l v k => Some (xupd L V eqL m l v, k)
  | XFork a b k =>
    let l := match xstepf eager (n / 2) a m with Some (m', a') => Some (m', XFork a' b k) | None => None end in
    let r := match xstepf eager (n / 2) b m with Some (m', b') => Some (m', XFork a b' k) | None => None end in
    let j := match a, b with XRet, XRet => Some (m, k) | XRaise e, _ => Some (m, XRaise e) | _, XRaise e => Some (m, XRaise e) | _, _ => None end in
    let s := if Nat.even n then match l with Some x => Some x | None => r end else match r with Some x => Some x | None => l end in
    if eager then match j with Some x => Some x | None => s end else match s with Some x => Some x | None => j end
  end.
Fixpoint xdrive (eager : bool) (fuel : nat) (choice : nat -> nat) (c : xcmd L V) (m : L -> V) : nat * ((L -> V) * xcmd L V) :=
  match fuel with
  | 0 => (0, (m, c))
  | S fuel => match xstepf eager (choice fuel) c m with
              | Some (m', c') => let r := xdrive eager fuel choice c' m' in (S (fst r), snd r)
              | None => (0, (m, c))
              end
  end.

Lemma xstepf_step : forall eager c n m m' c', xstepf eager n c m = Some (m', c') -> xstep L V eqL m c m' c'.
Proof.
  intros eager c. induction c as [|e|l k IH|l v k IH|a IHa b IHb k IHk]; intros n m m' c' H; cbn [xstepf] in H; try discriminate.
  - injection H as <- <-. constructor.
  - injection H as <- <-. constructor.
  - set (lo := match xstepf eager (n / 2) a m with Some (m', a') => Some (m', XFork a' b k) | None => None end) in *.
    set (ro := match xstepf eager (n / 2) b m with Some (m', b') => Some (m', XFork a b' k) | None => None end) in *.
    assert (A : lo = Some (m', c') -> xstep L V eqL m (XFork a b k) m' c').
    { unfold lo. destruct (xstepf eager (n / 2) a m) as [[m1 a1]|] eqn:S1; [|discriminate]. intros X. injection X as <- <-. constructor. eapply IHa; exact S1. }
    assert (B : ro = Some (m', c') -> xstep L V eqL m (XFork a b k) m' c').
    { unfold ro. destruct (xstepf eager (n / 2) b m) as [[m1 a1]|] eqn:S1; [|discriminate]. intros X. injection X as <- <-. constructor. eapply IHb; exact S1. }
    set (jo := match a, b with XRet, XRet => Some (m, k) | XRaise e, _ => Some (m, XRaise e) | _, XRaise e => Some (m, XRaise e) | _, _ => None end) in *.
    assert (C : jo = Some (m', c') -> xstep L V eqL m (XFork a b k) m' c').
    { unfold jo. destruct a, b; intros X; try discriminate X; injection X as <- <-; constructor. }
    clearbody lo ro jo. cbv zeta in H. destruct eager, (Nat.even n), lo, ro, jo; auto; discriminate.
Qed.

Lemma xdrive_exec : forall eager fuel choice c m, let r := xdrive eager fuel choice c m in xexec L V eqL (fst r) m c (fst (snd r)) (snd (snd r)).
Proof.
  induction fuel as [|fuel IH]; intros choice c m; cbn [xdrive]; [constructor|].
  destruct (xstepf eager (choice fuel) c m) as [[m' c']|] eqn:S1; [|constructor]. cbn [fst snd]. econstructor; [eapply xstepf_step; exact S1|apply IH].
Qed.

Definition outcome_of (c : xcmd L V) : option (option exn) := match c with XRet => Some None | XRaise e => Some (Some e) | _ => None end.

End Ex.
