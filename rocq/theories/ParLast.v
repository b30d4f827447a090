(** The statements about interleavings for the public interface; ways to make programs, memories and executions for the examples. *)
From Coq Require Import List Arith NArith ZArith Bool Lia Permutation.
From Verif Require Import Base Config Morton Build TreeSpec FOps Disc NodeProps Tree TreeInv TreeProofs TreeSafe TreeProps Kernels Force TravProofs KernLoops ForceGen ForceOut ForceTop
  Par ParTree ParProofs ParTop ParTop2.
Import ListNotations.
Local Open Scope nat_scope.

Section Api.

Context {F : Type}.
Variable O : fops F.
Variable E : env.
Notation c := (e_cfg E).
Notation mem := (loc -> val F).
Notation all_runs := (Par.all_runs loc (val F) loc_eq).
Notation run := (Par.run loc (val F) loc_eq).
Notation foot := (Par.foot loc (val F) loc_eq).
Notation safe := (Par.safe loc (val F) loc_eq).

(** The arrays of a tree are those in memory. *)
Definition in_memory (m : mem) (t : @tree F) : Prop :=
  holds m Codes VU (t_codes t) /\ (forall j col, nth_error (t_parts t) j = Some col -> holds m (Part j) VF col) /\
  holds m Perm VI (t_perm t) /\ holds m Last VI (t_last t) /\ holds m Inv VI (t_inv t).

Lemma generic_ctor_runs : forall s b inp mln nc t q (m : mem), sched_ok s ->
  match inp with RangesMoved cols | Ranges cols | Iterators cols _ => length cols = dim c + 1 end ->
  generic_ctor O E s b inp mln nc = Ok t ->
  (forall j col, nth_error (given inp) j = Some col -> holds m (Part j) VF col) ->
  ctor_prog O E (s_sort s) (fdiv O (fofZ O 1%Z) (t_box t)) (length (t_codes t)) q ->
  all_runs q m (fun m' => in_memory m' t).
Proof.
  intros s b inp mln nc t q m Hs Hi H Hm Hq.
  assert (G : exists d box ded, construct O E s box ded d (match mln with Some k => k | None => default_max_leaf_n end)
                (match nc with Some k => k | None => e_ncrit E end) = Ok t /\
              length match d with Moved cols => cols | Iters cols _ => cols end = dim c + 1 /\
              (forall cols, load d = Ok cols -> cols = given inp)).
  { unfold generic_ctor in H.
    assert (Hb : exists box ded, match b with Some x => (x, false) | None => (fofZ O 0%Z, true) end = (box, ded)) by (destruct b; do 2 eexists; reflexivity).
    destruct Hb as (box & ded & Hb). rewrite Hb in H. destruct inp as [cols|cols|cols n].
    - apply bind_Ok in H as (n & Hn & H). exists (Moved cols), box, ded. repeat split; auto. intros cols' Hl. now injection Hl as <-.
    - apply bind_Ok in H as (n & Hn & H). exists (Iters cols n), box, ded. repeat split; auto.
      intros cols' Hl. apply load_iters in Hl. rewrite Hl. apply firstn_cols. now apply (ranges_check_ok E).
    - exists (Iters cols n), box, ded. repeat split; auto. intros cols' Hl. now apply load_iters in Hl. }
  destruct G as (d & box & ded & HC & Hd & Hgiven).
  destruct (ctor_runs O E s box ded d _ _ t Hs Hd HC) as (cols & Hload & _ & R). rewrite (Hgiven _ Hload) in R. exact (R q m Hq Hm).
Qed.

(** [t] with new values of the particles, then [sync]. *)
Lemma update_runs : forall s t parts t' q (m : mem), env_ok E -> reachable O E t -> sched_ok s -> shape parts = shape (t_parts t) ->
  sync O E s (set_parts t parts) = Ok t' ->
  (forall j col, nth_error parts j = Some col -> holds m (Part j) VF col) -> holds m Perm VI (t_perm t) ->
  sync_prog O E (s_sort s) (fdiv O (fofZ O 1%Z) (t_box t')) (length (t_codes t)) q ->
  all_runs q m (fun m' => in_memory m' t').
Proof.
  intros s t parts t' q m HE Hr Hs Hsh H Hm Hp Hq. pose proof (reachable_inv O E HE t Hr) as Ht.
  assert (Hlen : length parts = dim c + 1). { rewrite <- (inv_ncols _ _ _ Ht). unfold shape in Hsh. rewrite <- (map_length (@length F) parts), Hsh. apply map_length. }
  apply (sync_runs O E s (set_parts t parts) t' (length (t_codes t)) Hs Hlen); auto.
  - cbn [nparts set_parts t_parts]. rewrite <- (nparts_codes O E t Ht). unfold nparts. cbn [t_parts set_parts]. unfold shape in Hsh.
    destruct parts, (t_parts t); cbn in *; congruence.
  - apply Ht.
  - cbn [t_inv set_parts]. destruct (inv_inv _ _ _ Ht) as [X _]. rewrite X. apply is_perm_length, Ht.
Qed.

(** * The task of a critical node *)
Context {D : Type}.
Variable OD : fops D.
Variable K : platform F.

Definition nodes_of (vs : list (val F)) : list (node (props F)) := flat_map (fun v => match v with VN x => [x] | _ => [] end) vs.
Definition indices_of (vs : list (val F)) : list nat := flat_map (fun v => match v with VI x => [x] | _ => [] end) vs.

(** tree.hpp 2929-3008: the task reads the critical node [k], and no more than all the particles, all the nodes and the permutation (through the
    iterators of the ordered results, tree.hpp 3322-3329); the computation with what was read; then the results are written. The temporary vectors
    are local to the thread (tree.hpp 1976-2005). *)
Definition force_reads (n nn k : nat) : list loc := (Crits, k) :: particle_locs E n ++ @map nat loc (fun i => (Nodes, i)) (seq 0 nn) ++ @map nat loc (fun i => (Perm, i)) (seq 0 n).
Definition force_results (ordered : bool) (qn : quant) (box mv G eps2 : F) (n : nat) (vs : list (val F)) : list (loc * val F) :=
  match vs with
  | VC cn :: r =>
    let t := mkTree box false 0 0 (chunks (dim c + 1) n (floats r)) [] (indices_of r) [] [] (nodes_of r) [] None in
    match crit_rows O E K qn t mv G eps2 (pad_coord O E box mv) cn with
    | Ok res => flat_map (fun j => map (fun i => ((Out j, dst ordered t i),
                  VF (match nth_error res (i - c_begin cn) with Some x => nth j (fst x ++ snd x) (fofZ O 0%Z) | None => fofZ O 0%Z end)))
                  (seq (c_begin cn) (c_end cn - c_begin cn))) (seq 0 (nvecs_res E qn))
    | _ => []
    end
  | _ => []
  end.
Definition force_task (ordered : bool) (qn : quant) (box mv G eps2 : F) (n nn : nat) : nat -> cmd loc (val F) :=
  force_body (force_reads n nn) (fun _ => force_results ordered qn box mv G eps2 n).

Lemma fm_none : forall {A B X} (f : X -> list B) (g : A -> X) l, (forall x, f (g x) = []) -> flat_map f (map g l) = [].
Proof. intros A B X f g l H. induction l as [|x l IH]; [reflexivity|]. cbn [map flat_map]. now rewrite H, IH. Qed.
Lemma fm_all : forall {A X} (f : X -> list A) (g : A -> X) l, (forall x, f (g x) = [x]) -> flat_map f (map g l) = l.
Proof. intros A X f g l H. induction l as [|x l IH]; [reflexivity|]. cbn [map flat_map]. now rewrite H, IH. Qed.

Lemma decode : forall (a : list F) (b : list (node (props F))) (l : list nat), let vs := map VF a ++ map VN b ++ map VI l in
  floats vs = a /\ nodes_of vs = b /\ indices_of vs = l.
Proof.
  intros a b l vs. unfold vs, floats, nodes_of, indices_of. rewrite !flat_map_app. split; [|split].
  - rewrite (fm_all _ VF a), (fm_none _ VN b), (fm_none _ VI l) by reflexivity. apply app_nil_r.
  - rewrite (fm_none _ VF a), (fm_all _ VN b), (fm_none _ VI l) by reflexivity. apply app_nil_r.
  - rewrite (fm_none _ VF a), (fm_none _ VN b), (fm_all _ VI l) by reflexivity. reflexivity.
Qed.

Lemma reads_back : forall {A} (m : mem) a (g : A -> val F) l, holds m a g l -> map m (@map nat loc (fun i => (a, i)) (seq 0 (length l))) = map g l.
Proof. intros A m a g l H. rewrite map_map. apply map_ext_nth. intros i x Hx. cbn [Nat.add]. exact (H i x Hx). Qed.

Lemma force_task_safe : forall ord ordered qn t theta G eps split mv eps2 out out' q (m : mem), env_ok E -> benign_shift K -> reachable O E t -> room E t ->
  reorders ord -> params O OD E t theta G eps split mv eps2 -> out_ok (length (t_codes t)) (nvecs_res E qn) out ->
  acc_pot_dispatch O OD E K ord ordered qn t theta G eps split out = Ok out' ->
  (forall j col, nth_error (t_parts t) j = Some col -> holds m (Part j) VF col) -> holds m Nodes VN (t_nodes t) -> holds m Perm VI (t_perm t) ->
  holds m Crits VC (t_crit t) -> (forall j, j < nvecs_res E qn -> holds m (Out j) VF (nth j out [])) ->
  pfor (force_task ordered qn (t_box t) mv G eps2 (length (t_codes t)) (length (t_nodes t))) 0 (length (t_crit t)) q ->
  safe q m /\ (forall w l, In (w, l) (foot q m) -> (w = false /\ forall j, fst l <> Out j) \/ exists j i, l = (Out j, i)) /\
  forall m', (forall l, m' l = run q m l) -> forall j, j < nvecs_res E qn -> holds m' (Out j) VF (nth j out' []).
Proof.
  intros ord ordered qn t theta G eps split mv eps2 out out' q m HE HK Hr Hroom Hord Hp Ho Hd H1 H2 H3 H4 H5 Hq.
  pose proof (reachable_inv O E HE t Hr) as Ht.
  refine (force_safe O E OD K HE HK ord ordered qn t theta G eps split mv eps2 out out' _ _ q m Ht Hroom Hord Hp Ho Hd _ _ H5 Hq).
  - intros k a i [X|X] j; [injection X as <- <-; discriminate|]. apply in_app_iff in X as [X|X].
    + unfold particle_locs in X. apply in_flat_map in X as (j0 & _ & X). apply in_map_iff in X as (y & X & _). injection X as <- <-. discriminate.
    + apply in_app_iff in X as [X|X]; apply in_map_iff in X as (y & X & _); injection X as <- <-; discriminate.
  - intros k cn alone Hk Ha. pose proof (nth_error_In _ _ Hk) as Hin.
    assert (Hcols : Forall (fun col => length col = length (t_codes t)) (t_parts t)) by (apply (inv_cols _ _ _ Ht)).
    unfold force_reads. cbn [map]. rewrite (H4 k cn Hk), !map_app. unfold particle_locs. rewrite <- (inv_ncols _ _ _ Ht), (particle_reads m _ _ H1 Hcols).
    rewrite (reads_back m Nodes VN _ H2). pose proof (reads_back m Perm VI _ H3) as RP. rewrite (is_perm_length _ _ (inv_perm _ _ _ Ht)) in RP. rewrite RP.
    unfold force_results. destruct (decode (concat (t_parts t)) (t_nodes t) (t_perm t)) as (-> & -> & ->).
    rewrite <- (inv_ncols _ _ _ Ht), (chunks_concat _ _ Hcols).
    pose proof Ha as Hb. rewrite crit_run_rows in Hb. apply bind_Ok in Hb as (res & Er & _).
    match goal with |- context [crit_rows O E K qn ?t' _ _ _ _ _] => change (crit_rows O E K qn t' mv G eps2 (pad_coord O E (t_box t) mv) cn) with
      (crit_rows O E K qn t mv G eps2 (pad_coord O E (t_box t) mv) cn) end.
    rewrite Er. unfold force_writes.
    destruct (crit_run_ok O E K HE HK _ (dst ordered t) (dest_of ordered t) (dst_ok O E ordered t Ht) (dst_inj O E ordered t Ht) qn t Ht eq_refl
      mv G eps2 (pad_coord O E (t_box t) mv) Hroom cn out Hin Ho) as (alone' & X1 & _ & X3 & _ & _).
    rewrite Ha in X1. injection X1 as <-.
    rewrite !flat_map_concat_map. f_equal. apply map_ext_in. intros j Hj. apply in_seq in Hj. apply map_ext_in. intros i Hi. apply in_seq in Hi. f_equal. f_equal.
    assert (Hi' : c_begin cn <= i < c_end cn) by lia. pose proof (X3 j i ltac:(lia) Hi') as X.
    destruct (crit_node O E t cn Ht Hin) as (_ & _ & _ & _ & _ & Hc).
    destruct (psize_total E (length (t_codes t)) Hroom (c_end cn - c_begin cn) ltac:(lia)) as [psize Hps].
    destruct (crit_rows_ok O E K HE HK qn t mv G eps2 (pad_coord O E (t_box t) mv) cn psize Ht Hin Hps) as (res' & Er' & Lr & Sr).
    rewrite Er in Er'. injection Er' as <-. pose proof (psize_ok E HE _ _ Hps) as (_ & Hps' & _).
    destruct (nth_error res (i - c_begin cn)) as [r|] eqn:Hrr; [|apply nth_error_None in Hrr; lia].
    replace i with (c_begin cn + (i - c_begin cn)) in X by lia.
    rewrite (row_at_crit O E K qn t Ht mv G eps2 _ cn res _ r Hin Er) in X by (lia || exact Hrr).
    replace (c_begin cn + (i - c_begin cn)) with i in X by lia.
    rewrite Forall_forall in Sr. pose proof (shape_length E qn r (Sr r (nth_error_In _ _ Hrr))) as Ls.
    destruct (nth_error (fst r ++ snd r) j) as [x|] eqn:Ex; [|apply nth_error_None in Ex; lia].
    rewrite (nth_error_nth _ _ _ Ex). symmetry. now apply nth_error_nth.
Qed.

Lemma force_task_runs : forall ord ordered qn t theta G eps split mv eps2 out out' q (m : mem), env_ok E -> benign_shift K -> reachable O E t -> room E t ->
  reorders ord -> params O OD E t theta G eps split mv eps2 -> out_ok (length (t_codes t)) (nvecs_res E qn) out ->
  acc_pot_dispatch O OD E K ord ordered qn t theta G eps split out = Ok out' ->
  (forall j col, nth_error (t_parts t) j = Some col -> holds m (Part j) VF col) -> holds m Nodes VN (t_nodes t) -> holds m Perm VI (t_perm t) ->
  holds m Crits VC (t_crit t) -> (forall j, j < nvecs_res E qn -> holds m (Out j) VF (nth j out [])) ->
  pfor (force_task ordered qn (t_box t) mv G eps2 (length (t_codes t)) (length (t_nodes t))) 0 (length (t_crit t)) q ->
  all_runs q m (fun m' => forall j, j < nvecs_res E qn -> holds m' (Out j) VF (nth j out' [])).
Proof.
  intros ord ordered qn t theta G eps split mv eps2 out out' q m HE HK Hr Hroom Hord Hp Ho Hd H1 H2 H3 H4 H5 Hq.
  destruct (force_task_safe ord ordered qn t theta G eps split mv eps2 out out' q m HE HK Hr Hroom Hord Hp Ho Hd H1 H2 H3 H4 H5 Hq) as (S1 & _ & S3).
  now apply all_runs_intro.
Qed.

End Api.

(** * Programs, memories and executions for the examples *)
Section Ex.

Context {L V : Type}.
Variable eqL : forall a b : L, {a = b} + {a <> b}.

(** Ranges are divided in two halves until they have one element. *)
Fixpoint halve (fuel : nat) (body : nat -> cmd L V) (b e : nat) : cmd L V :=
  match fuel with
  | 0 => fold_right app Ret (map body (seq b (e - b)))
  | S fuel => if e - b <=? 1 then fold_right app Ret (map body (seq b (e - b)))
              else Fork (halve fuel body b ((b + e) / 2)) (halve fuel body ((b + e) / 2) e) Ret
  end.

Lemma halve_pfor : forall body fuel b e, b <= e -> pfor body b e (halve fuel body b e).
Proof.
  intros body fuel. induction fuel as [|fuel IH]; intros b e H; cbn [halve]; [now constructor|].
  destruct (e - b <=? 1); [now constructor|]. assert (b <= (b + e) / 2 <= e).
  { split; [apply Nat.div_le_lower_bound; lia|apply Nat.div_le_upper_bound; lia]. }
  econstructor; apply IH; lia.
Qed.

(** One step; the bits of [n] choose the task. *)
Definition is_ret (c : cmd L V) : bool := match c with Ret => true | _ => false end.
Fixpoint stepf (n : nat) (c : cmd L V) (m : L -> V) : option ((L -> V) * cmd L V) :=
  match c with
  | Ret => None
  | Rd l k => Some (m, k (m l))
  | Wr l v k => Some (Par.upd L V eqL m l v, k)
  | Fork a b k =>
    if is_ret a && is_ret b then Some (m, k)
    else if negb (is_ret a) && (is_ret b || Nat.even n) then match stepf (n / 2) a m with Some (m', a') => Some (m', Fork a' b k) | None => None end
    else match stepf (n / 2) b m with Some (m', b') => Some (m', Fork a b' k) | None => None end
  end.
Fixpoint drive (fuel : nat) (choice : nat -> nat) (c : cmd L V) (m : L -> V) : nat * ((L -> V) * cmd L V) :=
  match fuel with
  | 0 => (0, (m, c))
  | S fuel => match stepf (choice fuel) c m with
              | Some (m', c') => let r := drive fuel choice c' m' in (S (fst r), snd r)
              | None => (0, (m, c))
              end
  end.

Lemma stepf_step : forall c n m m' c', stepf n c m = Some (m', c') -> Par.step L V eqL m c m' c'.
Proof.
  induction c as [|l k IH|l v k IH|a IHa b IHb k IHk]; intros n m m' c' H; cbn [stepf] in H; [discriminate| | |].
  - injection H as <- <-. constructor.
  - injection H as <- <-. constructor.
  - destruct (is_ret a && is_ret b) eqn:B.
    + apply andb_true_iff in B as [B1 B2]. destruct a; try discriminate. destruct b; try discriminate. injection H as <- <-. constructor.
    + destruct (negb (is_ret a) && (is_ret b || Nat.even n)).
      * destruct (stepf (n / 2) a m) as [[m1 a1]|] eqn:S1; [|discriminate]. injection H as <- <-. apply Par.s_left. eapply IHa; exact S1.
      * destruct (stepf (n / 2) b m) as [[m1 b1]|] eqn:S1; [|discriminate]. injection H as <- <-. apply Par.s_right. eapply IHb; exact S1.
Qed.

Lemma drive_exec : forall fuel choice c m, let r := drive fuel choice c m in Par.exec L V eqL (fst r) m c (fst (snd r)) (snd (snd r)).
Proof.
  induction fuel as [|fuel IH]; intros choice c m; cbn [drive]; [constructor|].
  destruct (stepf (choice fuel) c m) as [[m' c']|] eqn:S1; [|constructor]. cbn [fst snd]. econstructor; [eapply stepf_step; exact S1|apply IH].
Qed.

End Ex.

Section ExMem.
Context {F : Type}.
Definition mem_of (f : arr -> list (val F)) : loc -> val F := fun l => nth (snd l) (f (fst l)) (VI 0).
Lemma mem_of_holds : forall {A} (f : arr -> list (val F)) a (g : A -> val F) l, f a = map g l -> holds (mem_of f) a g l.
Proof. intros A f a g l H i x Hx. unfold mem_of. cbn [fst snd]. rewrite H. apply nth_error_nth. now apply map_nth_error. Qed.
End ExMem.
