(** Executable interleavings of the programs with atomic updates, for the examples. Nothing here models code. *)
From Coq Require Import List Arith NArith ZArith Bool Lia.
From Flocq Require Import Core BinarySingleNaN.
From Verif Require Import Base Config Morton Build FOps NodeProps Tree TreeEx Kernels Coll CollEx CollWit ParBag ParColl ParCollProofs.
Import ListNotations.
Local Open Scope nat_scope.

Section Ex.

Context {L V : Type}.
Variable eqL : forall a b : L, {a = b} + {a <> b}.
Variable op : V -> V -> V.

(** Ranges are divided in two halves until they have one element. *)
Fixpoint bhalve (fuel : nat) (body : nat -> cmd L V) (b e : nat) : cmd L V :=
  match fuel with
  | 0 => fold_right (app L V) Ret (map body (seq b (e - b)))
  | S fuel => if e - b <=? 1 then fold_right (app L V) Ret (map body (seq b (e - b)))
              else Fork (bhalve fuel body b ((b + e) / 2)) (bhalve fuel body ((b + e) / 2) e) Ret
  end.

Lemma bhalve_pfor : forall body fuel b e, b <= e -> pfor L V body b e (bhalve fuel body b e).
Proof.
  intros body fuel. induction fuel as [|fuel IH]; intros b e H; cbn [bhalve]; [now constructor|].
  destruct (e - b <=? 1); [now constructor|]. assert (b <= (b + e) / 2 <= e).
  { split; [apply Nat.div_le_lower_bound; lia|apply Nat.div_le_upper_bound; lia]. }
  econstructor; apply IH; lia.
Qed.

(** One step; the bits of [n] choose the task. *)
Definition bis_ret (c : cmd L V) : bool := match c with Ret => true | _ => false end.
Fixpoint bstepf (n : nat) (c : cmd L V) (m : L -> V) : option ((L -> V) * cmd L V) :=
  match c with
  | Ret => None
  | Rd l k => Some (m, k (m l))
  | Wr l v k => Some (upd L V eqL m l v, k)
  | At l v k => Some (upd L V eqL m l (op v (m l)), k)
  | Fork a b k =>
    if bis_ret a && bis_ret b then Some (m, k)
    else if negb (bis_ret a) && (bis_ret b || Nat.even n) then match bstepf (n / 2) a m with Some (m', a') => Some (m', Fork a' b k) | None => None end
    else match bstepf (n / 2) b m with Some (m', b') => Some (m', Fork a b' k) | None => None end
  end.
Fixpoint bdrive (fuel : nat) (choice : nat -> nat) (c : cmd L V) (m : L -> V) : nat * ((L -> V) * cmd L V) :=
  match fuel with
  | 0 => (0, (m, c))
  | S fuel => match bstepf (choice fuel) c m with
              | Some (m', c') => let r := bdrive fuel choice c' m' in (S (fst r), snd r)
              | None => (0, (m, c))
              end
  end.

Lemma bstepf_step : forall c n m m' c', bstepf n c m = Some (m', c') -> step L V eqL op m c m' c'.
Proof.
  induction c as [|l k IH|l v k IH|l v k IH|a IHa b IHb k IHk]; intros n m m' c' H; cbn [bstepf] in H; [discriminate| | | |].
  - injection H as <- <-. constructor.
  - injection H as <- <-. constructor.
  - injection H as <- <-. constructor.
  - destruct (bis_ret a && bis_ret b) eqn:B.
    + apply andb_true_iff in B as [B1 B2]. destruct a; try discriminate. destruct b; try discriminate. injection H as <- <-. constructor.
    + destruct (negb (bis_ret a) && (bis_ret b || Nat.even n)).
      * destruct (bstepf (n / 2) a m) as [[m1 a1]|] eqn:S1; [|discriminate]. injection H as <- <-. apply s_left. eapply IHa; exact S1.
      * destruct (bstepf (n / 2) b m) as [[m1 b1]|] eqn:S1; [|discriminate]. injection H as <- <-. apply s_right. eapply IHb; exact S1.
Qed.

Lemma bdrive_exec : forall fuel choice c m, let r := bdrive fuel choice c m in exec L V eqL op (fst r) m c (fst (snd r)) (snd (snd r)).
Proof.
  induction fuel as [|fuel IH]; intros choice c m; cbn [bdrive]; [constructor|].
  destruct (bstepf (choice fuel) c m) as [[m' c']|] eqn:S1; [|constructor]. cbn [fst snd]. econstructor; [eapply bstepf_step; exact S1|apply IH].
Qed.

End Ex.

(** Six particles, two of the rows with old content, all loops divided up to single elements, and one of the interleavings. *)
Definition ex77_T := exC_tree exC_span.
Definition ex77_sizes := f32s [(1, -1); (1, -2); (1, -2); (1, -2); (0, 0); (1, -3)]%Z.
Definition ex77_old : list (list nat) := [[7; 7]; [0]].
Definition ex77_mem (t : @tree f32) (sizes : list f32) (old : list (list nat)) : cloc -> cval f32 := fun l =>
  let '(a, i) := l in
  match a with
  | CPart j => nth i (map XF (nth j (t_parts t) [])) (XI 0)
  | CPerm => nth i (map XI (t_perm t)) (XI 0)
  | CCodes => nth i (map XU (t_codes t)) (XI 0)
  | CNodes => nth i (map XN (t_nodes t)) (XI 0)
  | CSizes => nth i (map XF sizes) (XI 0)
  | CAdd => XL []
  | CRow => XL (nth i old [])
  end.
Definition ex77_nl := length (coll_leaves (t_nodes ex77_T)).
Definition ex77_prog (nn nl : nat) : cmd cloc (cval f32) :=
  app cloc (cval f32) (Fork (bhalve 9 clear_body 0 6) (bhalve 9 (extras_body exCO exCE (exCK true) true (t_box ex77_T) 6 nn 6) 0 nl) Ret)
    (app cloc (cval f32) (bhalve 9 (pairs_body exCO exCE true (t_box ex77_T) 6 nn 6) 0 nl) (bhalve 9 dedup_body 0 6)).
Definition ex77_end (f : nat -> nat) := bdrive cloc_eq cop 3000 f (ex77_prog (length (t_nodes ex77_T)) ex77_nl) (ex77_mem ex77_T ex77_sizes ex77_old).
Definition ex77_rows (r : nat * ((cloc -> cval f32) * cmd cloc (cval f32))) : list (list nat) :=
  map (fun i => match fst (snd r) (CRow, i) with XR l => l | _ => [99] end) (seq 0 6).

Lemma ex77_holds : forall {A} (f : A -> cval f32) l i x d, nth_error l i = Some x -> nth i (map f l) d = f x.
Proof. intros A f l i x d H. apply nth_error_nth. now apply map_nth_error. Qed.

Lemma ex77_mem_ok : forall t sizes old, coll_mem t sizes (ex77_mem t sizes old).
Proof.
  intros t sizes old. split; [intros j col Hj i x Hx; cbn [ex77_mem]; rewrite (nth_error_nth _ _ [] Hj); now apply ex77_holds|].
  split; [intros i x Hx; now apply ex77_holds|]. split; [intros i x Hx; now apply ex77_holds|]. split; intros i x Hx; now apply ex77_holds.
Qed.

Lemma ex77_prog_ok : forall nn nl, coll_prog exCO exCE (exCK true) false true (t_box ex77_T) 6 nn 6 nl (ex77_prog nn nl).
Proof.
  intros nn nl. unfold ex77_prog. generalize (t_box ex77_T). intros box. do 4 eexists. split; [apply bhalve_pfor; lia|]. split; [apply bhalve_pfor; lia|].
  split; [apply bhalve_pfor; lia|]. split; [apply bhalve_pfor; lia|reflexivity].
Qed.
