(** Proofs about [Out]: what is written by successful and by failed calls. *)
From Coq Require Import List Arith NArith ZArith Bool Lia Permutation.
From Verif Require Import Base Config Morton Build TreeSpec FOps NodeProps Tree TreeInv TreeProofs TreeSafe Kernels Force TravProofs KernLoops ForceGen ForceOut
  ForceTop Kw Out.
Import ListNotations.
Local Open Scope nat_scope.

(** Every value of [out'] is the one of [out] or the one of [full]. *)
Definition between {F} (out full out' : list (list F)) : Prop :=
  length out' = length out /\ (forall j, length (nth j out' []) = length (nth j out [])) /\
  forall j k, nth_error (nth j out' []) k = nth_error (nth j out []) k \/ nth_error (nth j out' []) k = nth_error (nth j full []) k.

Section Out.

Context {F : Type}.
Variable O : fops F.
Context {D : Type}.
Variable OD : fops D.
Variable E : env.
Variable K : platform F.
Hypothesis HE : env_ok E.
Hypothesis HK : benign_shift K.

Notation nv q := (nvecs_res E q).
Notation room := (room E).

(** The loop performs the computation for some of the nodes, for all of them if it does not throw; a failure comes from an allocation. *)
Lemma nodes_fx_spec : forall fs (run : list (list F) -> cnode -> outcome (list (list F))) (P : list (list F) -> Prop) l out failed,
  P out -> (forall o cn, In cn l -> P o -> exists o', run o cn = Ok o' /\ P o') ->
  exists done out', nodes_fx fs (fun o cn => if f_alloc fs cn then run o cn else Throw BadAlloc) l out failed =
      (out', match failed with Some e => Throw e | None => if forallb (f_alloc fs) l then Ok tt else Throw BadAlloc end) /\
    foldM run done out = Ok out' /\ (forall cn, In cn done -> In cn l) /\ (failed = None -> forallb (f_alloc fs) l = true -> done = l).
Proof.
  intros fs run P l. induction l as [|cn l IH]; intros out failed Ho Hr; cbn [nodes_fx forallb].
  - exists [], out. split; [destruct failed; reflexivity|]. split; [reflexivity|]. split; [intros ? []|reflexivity].
  - assert (Hl : forall o x, In x l -> P o -> exists o', run o x = Ok o' /\ P o') by (intros; apply Hr; [now right|assumption]).
    assert (Skip : forall f2, failed = Some f2 -> exists done out', nodes_fx fs (fun o cn => if f_alloc fs cn then run o cn else Throw BadAlloc) l out failed =
      (out', match failed with Some e => Throw e | None => if f_alloc fs cn && forallb (f_alloc fs) l then Ok tt else Throw BadAlloc end) /\
      foldM run done out = Ok out' /\ (forall x, In x done -> In x (cn :: l)) /\ (failed = None -> f_alloc fs cn && forallb (f_alloc fs) l = true -> done = cn :: l)).
    { intros f2 ->. destruct (IH out (Some f2) Ho Hl) as (d & o' & H1 & H2 & H3 & _). exists d, o'. split; [exact H1|]. split; [exact H2|].
      split; [intros x Hx; right; now apply H3|discriminate]. }
    destruct (match failed with Some _ => f_after fs cn | None => true end) eqn:A.
    + destruct (f_alloc fs cn) eqn:B.
      * destruct (Hr out cn (or_introl eq_refl) Ho) as (o1 & H1 & Ho1). rewrite H1.
        destruct (IH o1 failed Ho1 Hl) as (d & o' & Q1 & Q2 & Q3 & Q4). exists (cn :: d), o'. cbn [andb]. split; [exact Q1|].
        split; [cbn [foldM]; now rewrite H1|]. split; [intros x [->|Hx]; [now left|right; now apply Q3]|]. intros X Y. now rewrite (Q4 X Y).
      * cbn [andb]. destruct failed as [e|]; [destruct (Skip e eq_refl) as (d & o' & H); exists d, o'; exact H|].
        destruct (IH out (Some BadAlloc) Ho Hl) as (d & o' & H1 & H2 & H3 & _). exists d, o'. split; [exact H1|]. split; [exact H2|].
        split; [intros x Hx; right; now apply H3|discriminate].
    + destruct failed as [e|]; [|discriminate]. destruct (Skip e eq_refl) as (d & o' & H). exists d, o'. exact H.
Qed.

Lemma nodes_fx_ext : forall fs run1 run2 l out failed, (forall o cn, In cn l -> run1 o cn = run2 o cn) -> nodes_fx (F := F) fs run1 l out failed = nodes_fx fs run2 l out failed.
Proof.
  intros fs run1 run2 l. induction l as [|cn l IH]; intros out failed H; cbn [nodes_fx]; [reflexivity|].
  rewrite H by now left. destruct (match failed with Some _ => _ | None => _ end); [|apply IH; intros; apply H; now right].
  destruct (run2 out cn); [| |reflexivity]; apply IH; intros; apply H; now right.
Qed.

Lemma between_done : forall ordered q t mv G eps2 done ord out out' full, tree_inv O E t -> room t -> reorders ord ->
  out_ok (length (t_codes t)) (nv q) out -> (forall cn, In cn done -> In cn (t_crit t)) ->
  foldM (crit_run O E K q t mv G eps2 (pad_coord O E (t_box t) mv) (dest_of ordered t)) done out = Ok out' ->
  impl O E K ord q t mv G eps2 (dest_of ordered t) out = Ok full -> between out full out'.
Proof.
  intros ordered q t mv G eps2 done ord out out' full Ht Hr Hord Ho Hd H1 H2. unfold impl in H2.
  set (pad := pad_coord O E (t_box t) mv) in *.
  pose proof (crit_runs_ok O E K HE HK (length (t_codes t)) (dst ordered t) (dest_of ordered t) (dst_ok O E ordered t Ht) (dst_inj O E ordered t Ht) q t Ht eq_refl
    mv G eps2 pad Hr) as R.
  destruct (R done out Hd Ho) as (o1 & E1 & [L1 _] & V1 & U1 & N1). assert (o1 = out') by congruence. subst o1.
  assert (Hc : forall cn, In cn (ord (t_crit t)) -> In cn (t_crit t)) by (intros cn H; eapply Permutation_in; [apply Hord|exact H]).
  destruct (R (ord (t_crit t)) out Hc Ho) as (o2 & E2 & [L2 _] & V2 & U2 & N2). assert (o2 = full) by congruence. subst o2.
  split; [rewrite L1; symmetry; apply Ho|]. split; [exact N1|]. intros j k.
  destruct (Nat.lt_ge_cases k (length (t_codes t))) as [Lk|Lk].
  - destruct (dst_onto O E ordered t Ht k Lk) as (i0 & Hi0 & ->).
    destruct (existsb (fun y : cnode => (c_begin y <=? i0) && (i0 <? c_end y)) done) eqn:Ex.
    + apply existsb_exists in Ex as (y & Hy & Ey). apply andb_true_iff in Ey as [Y1 Y2]. apply Nat.leb_le in Y1. apply Nat.ltb_lt in Y2.
      destruct (Nat.lt_ge_cases j (nv q)) as [Lj|Lj]; [|left; destruct Ho as [Lo _]; now rewrite !nth_overflow by lia].
      right. rewrite (V1 j i0 y Lj Hy) by lia. symmetry. apply (V2 j i0 y Lj); [|lia]. eapply Permutation_in; [apply Permutation_sym, Hord|]. now apply Hd.
    + left. apply U1. intros i cn Hcn Hi Hp. destruct (crit_node O E t cn Ht (Hd cn Hcn)) as (_ & _ & _ & _ & _ & C1).
      apply (dst_inj O E ordered t Ht) in Hp; [|lia|lia]. subst i. assert (X : existsb (fun y : cnode => (c_begin y <=? i0) && (i0 <? c_end y)) done = true).
      { apply existsb_exists. exists cn. split; [exact Hcn|]. apply andb_true_iff. split; [apply Nat.leb_le|apply Nat.ltb_lt]; lia. }
      congruence.
  - left. apply U1. intros i cn Hcn Hi Hp. destruct (crit_node O E t cn Ht (Hd cn Hcn)) as (_ & _ & _ & _ & _ & C1).
    pose proof (proj2 (dst_ok O E ordered t Ht i ltac:(lia))). lia.
Qed.

(** The overload for iterators. *)
Definition as_dispatch (fs : fsched) (ordered : bool) (q : quant) (t : @tree F) (theta G eps : F) (split : list D) (out : list (list F))
    (x : list (list F) * outcome unit) : Prop :=
  match x with
  | (out', Ok _) => forall ord, reorders ord -> acc_pot_dispatch O OD E K ord ordered q t theta G eps split out = Ok out'
  | (out', Throw e) =>
    (out' = out /\ (e = DomainError \/ e = InvalidArgument) /\ forall ord, reorders ord -> acc_pot_dispatch O OD E K ord ordered q t theta G eps split out = Throw e) \/
    (e = BadAlloc /\ (exists cn, In cn (t_crit t) /\ f_alloc fs cn = false) /\
     exists full, (forall ord, reorders ord -> acc_pot_dispatch O OD E K ord ordered q t theta G eps split out = Ok full) /\ between out full out')
  | (_, UB) => False
  end.

Lemma iters_fx_spec : forall fs ordered q t theta G eps split out, tree_inv O E t -> room t -> reorders (f_order fs) ->
  out_ok (length (t_codes t)) (nv q) out -> as_dispatch fs ordered q t theta G eps split out (iters_fx O OD E K fs ordered q t theta G eps split out).
Proof.
  intros fs ordered q t theta G eps split out Ht Hr Hord Ho.
  destruct (params_dec O OD E t theta G eps split) as [(mv & eps2 & Hp)|Hn].
  - destruct (dispatch_ok O OD E K HE HK (f_order fs) ordered q t theta G eps split mv eps2 out Ht Hr Hord Hp Ho) as (full & Hf & _).
    assert (Hall : forall ord, reorders ord -> acc_pot_dispatch O OD E K ord ordered q t theta G eps split out = Ok full).
    { intros ord H. rewrite <- Hf. now apply (dispatch_order O OD E K HE HK). }
    rewrite (dispatch_params O OD E K (f_order fs) ordered q t theta G eps split mv eps2 out Ht Hr Hp) in Hf.
    pose proof Hp as (P1 & P2 & P3 & P4 & P5 & P6).
    set (pad := pad_coord O E (t_box t) mv) in *.
    set (run := crit_run O E K q t mv G eps2 pad (dest_of ordered t)).
    assert (Hi : iters_fx O OD E K fs ordered q t theta G eps split out =
      nodes_fx fs (fun o cn => if f_alloc fs cn then run o cn else Throw BadAlloc) (f_order fs (t_crit t)) out None).
    { unfold iters_fx. rewrite P1. cbn [guard]. rewrite P2. cbn [guard]. rewrite P3. cbn [guard].
      assert (I : impl_fx O OD E K fs q t mv G eps2 split (dest_of ordered t) out =
        nodes_fx fs (fun o cn => if f_alloc fs cn then run o cn else Throw BadAlloc) (f_order fs (t_crit t)) out None).
      { unfold impl_fx. rewrite P4. cbn [guard]. destruct (Nat.ltb_spec 1 (length split)); [lia|]. cbv zeta. fold pad. rewrite P6. cbn [negb].
        apply nodes_fx_ext. intros o cn Hcn. unfold node_fx.
        destruct (crit_node O E t cn Ht) as (_ & _ & _ & _ & _ & N5). { eapply Permutation_in; [apply Hord|exact Hcn]. }
        destruct (psize_total E (length (t_codes t)) Hr (c_end cn - c_begin cn) ltac:(lia)) as [ps ->]. reflexivity. }
      destruct ordered; [|exact I]. unfold it_diff_check. rewrite (nparts_codes O E t Ht). unfold ForceTop.room in Hr.
      destruct (N.ltb_spec diff_max (N.of_nat (length (t_codes t)))); [lia|]. exact I. }
    rewrite Hi.
    destruct (nodes_fx_spec fs run (out_ok (length (t_codes t)) (nv q)) (f_order fs (t_crit t)) out None Ho) as (done & out' & H1 & H2 & H3 & H4).
    { intros o cn Hcn Hoo.
      destruct (crit_run_ok O E K HE HK (length (t_codes t)) (dst ordered t) (dest_of ordered t) (dst_ok O E ordered t Ht) (dst_inj O E ordered t Ht) q t Ht eq_refl
        mv G eps2 pad Hr cn o) as (o' & E1 & O1 & _); [eapply Permutation_in; [apply Hord|exact Hcn]|exact Hoo|]. exists o'. split; assumption. }
    rewrite H1. unfold as_dispatch. destruct (forallb (f_alloc fs) (f_order fs (t_crit t))) eqn:A.
    + specialize (H4 eq_refl eq_refl). subst done. intros ord Hor. rewrite (Hall ord Hor). f_equal. unfold impl in Hf. fold pad run in Hf. congruence.
    + right. split; [reflexivity|]. split.
      * assert (N : ~ (forall cn, In cn (t_crit t) -> f_alloc fs cn = true)).
        { intros N. assert (forallb (f_alloc fs) (f_order fs (t_crit t)) = true); [|congruence]. apply forallb_forall. intros cn Hcn. apply N.
          eapply Permutation_in; [apply Hord|exact Hcn]. }
        destruct (existsb (fun cn => negb (f_alloc fs cn)) (t_crit t)) eqn:X.
        { apply existsb_exists in X as (cn & Hcn & X). exists cn. split; [exact Hcn|]. now apply negb_true_iff in X. }
        exfalso. apply N. intros cn Hcn. destruct (f_alloc fs cn) eqn:Y; [reflexivity|].
        assert (existsb (fun cn => negb (f_alloc fs cn)) (t_crit t) = true); [|congruence]. apply existsb_exists. exists cn. split; [exact Hcn|now rewrite Y].
      * exists full. split; [exact Hall|]. apply (between_done ordered q t mv G eps2 done (f_order fs)); auto.
        intros cn Hcn. eapply Permutation_in; [apply Hord|now apply H3].
  - destruct (dispatch_not_params O OD E K t theta G eps split Ht Hr Hn) as (e & He & H).
    assert (X : iters_fx O OD E K fs ordered q t theta G eps split out = (out, Throw e)).
    { specialize (H (f_order fs) ordered q out). unfold acc_pot_dispatch in H. unfold iters_fx.
      destruct (mac_value_of O E theta) as [mv|e1|] eqn:M1; cbn [bind guard] in *; [|congruence|congruence].
      destruct (compute_eps2 O eps) as [e2|e1|] eqn:M2; cbn [bind guard] in *; [|congruence|congruence].
      destruct (check_G_const O G) as [[]|e1|] eqn:M3; cbn [bind guard] in *; [|congruence|congruence].
      assert (I : forall dst, acc_pot_impl O OD E K (f_order fs) q t mv G e2 split dst out = Throw e -> impl_fx O OD E K fs q t mv G e2 split dst out = (out, Throw e)).
      { intros dst I. unfold acc_pot_impl in I. unfold impl_fx.
        destruct (check_split OD split) as [[]|e1|] eqn:M4; cbn [bind guard] in *; [|congruence|congruence].
        destruct (Nat.ltb_spec 1 (length split)) as [Ls|Ls]; [congruence|]. unfold cpu_run in I. cbv zeta in *.
        destruct (ffin O (pad_coord O E (t_box t) mv)) eqn:M5; cbn [negb] in *; [|congruence].
        exfalso. apply (Hn mv e2). repeat split; auto. }
      destruct ordered; [|now apply I]. destruct (it_diff_check (nparts t)) as [[]|e1|] eqn:M6; cbn [bind guard] in *; [now apply I|congruence|congruence]. }
    rewrite X. cbn [as_dispatch]. left. split; [reflexivity|]. split; [exact He|]. intros ord _. apply H.
Qed.

(** Resizing. *)
Lemma resize_fx_spec : forall fs n out j,
  (resize_fx O fs n j out = (map (resize O n) out, Ok tt)) \/
  (exists m, m < length out /\ length (nth m out []) < n /\ f_resize fs (j + m) = false /\
     resize_fx O fs n j out = (map (resize O n) (firstn m out) ++ skipn m out, Throw BadAlloc)).
Proof.
  intros fs n out. induction out as [|col l IH]; intros j; cbn [resize_fx map]; [now left|].
  destruct ((n <=? length col) || f_resize fs j) eqn:A.
  - destruct (IH (S j)) as [->|(m & M1 & M2 & M3 & ->)]; [now left|]. right. exists (S m). cbn [length nth firstn skipn map app].
    split; [lia|]. split; [exact M2|]. split; [|reflexivity]. rewrite <- M3. f_equal. lia.
  - apply orb_false_iff in A as [A1 A2]. apply Nat.leb_gt in A1. right. exists 0. cbn [length nth firstn skipn map app].
    split; [lia|]. split; [exact A1|]. split; [now rewrite Nat.add_0_r|reflexivity].
Qed.

(** The results of the overloads for vectors and for iterators. *)
Lemma dispatch_contents : forall ord ordered q t theta G eps split out1 out2 o1, tree_inv O E t -> room t -> reorders ord ->
  out_ok (length (t_codes t)) (nv q) out1 -> length out2 = nv q -> Forall (fun col => length col = length (t_codes t)) out2 ->
  acc_pot_dispatch O OD E K ord ordered q t theta G eps split out1 = Ok o1 ->
  acc_pot_dispatch O OD E K ord ordered q t theta G eps split out2 = Ok (map (firstn (length (t_codes t))) o1).
Proof.
  intros ord ordered q t theta G eps split out1 out2 o1 Ht Hr Hord Ho1 L2 F2 H1.
  destruct (params_dec O OD E t theta G eps split) as [(mv & eps2 & Hp)|Hn].
  - assert (Ho2 : out_ok (length (t_codes t)) (nv q) out2). { split; [exact L2|]. eapply Forall_impl; [|exact F2]. cbn beta. intros. lia. }
    destruct (dispatch_ok O OD E K HE HK ord ordered q t theta G eps split mv eps2 out1 Ht Hr Hord Hp Ho1) as (o & X & [La Aa] & V1 & _ & N1).
    assert (o = o1) by congruence. subst o.
    destruct (dispatch_ok O OD E K HE HK ord ordered q t theta G eps split mv eps2 out2 Ht Hr Hord Hp Ho2) as (o2 & -> & [Lb _] & V2 & _ & N2).
    f_equal. apply nth_ext with (d := []) (d' := []); [rewrite map_length; congruence|]. intros j Hj. rewrite Lb in Hj.
    assert (Ln : length (nth j o2 []) = length (t_codes t)). { rewrite N2. rewrite Forall_forall in F2. apply F2, nth_In. lia. }
    replace (nth j (map (firstn (length (t_codes t))) o1) []) with (firstn (length (t_codes t)) (nth j o1 [])).
    2:{ pose proof (map_nth (firstn (length (t_codes t))) o1 [] j) as Q. rewrite firstn_nil in Q. symmetry. exact Q. }
    apply list_ext. intros k. destruct (Nat.lt_ge_cases k (length (t_codes t))) as [Lk|Lk].
    + destruct (dst_onto O E ordered t Ht k Lk) as (i & Hi & ->).
      rewrite (V2 j i Hj Hi), <- (V1 j i Hj Hi).
      assert (length (t_codes t) <= length (nth j o1 [])). { rewrite Forall_forall in Aa. apply Aa, nth_In. lia. }
      rewrite <- (firstn_skipn (length (t_codes t)) (nth j o1 [])) at 1. rewrite nth_error_app1; [reflexivity|]. rewrite firstn_length.
      pose proof (proj2 (dst_ok O E ordered t Ht i Hi)). lia.
    + rewrite (proj2 (nth_error_None _ _)) by lia. symmetry. apply nth_error_None. rewrite firstn_length. lia.
  - destruct (dispatch_not_params O OD E K t theta G eps split Ht Hr Hn) as (e & _ & H). rewrite H in H1. discriminate.
Qed.

(** The arguments of a call. *)
Lemma args_throw : forall args st e, accpot_args (F := F) (D := D) O args st = Throw e -> e = BadNumericCast.
Proof.
  intros args st e. unfold accpot_args.
  assert (N : forall x e, opt x (@num_F F D st) = Throw e -> e = BadNumericCast).
  { intros [[ty o]|] e'; cbn [opt]; [|discriminate]. unfold num_F. destruct (nth_error st o) as [[xs|[x|] n|l]|]; cbn [bind cast]; congruence. }
  destruct (opt (fetch args KwG) (num_F st)) as [g|e1|] eqn:A; cbn [bind]; [|intros H; injection H as <-; now apply N in A|discriminate].
  destruct (opt (fetch args KwEps) (num_F st)) as [ep|e1|] eqn:B; cbn [bind]; [|intros H; injection H as <-; now apply N in B|discriminate].
  destruct (fetch args KwSplit) as [[ty o]|]; cbn [opt]; [|discriminate]. unfold split_of. destruct (nth_error st o) as [[xs|x n|l]|]; cbn [bind]; discriminate.
Qed.

Notation call := (force_call O OD E K).
Notation kwcall := (kw_accpot O OD E K).

(** Iterators, or a list with the right number of them. *)
Lemma call_iters : forall fs ordered q t theta args st out x, tree_inv O E t -> room t -> reorders (f_order fs) -> out_ok (length (t_codes t)) (nv q) out ->
  call fs ordered q t theta args st (DIters out) = Some x ->
  match x with
  | (out', Ok _) => forall ord, reorders ord -> kwcall ord ordered q t theta args st out = Some (Ok out')
  | (out', Throw e) =>
    (out' = out /\ (e = DomainError \/ e = InvalidArgument \/ e = BadNumericCast) /\ forall ord, reorders ord -> kwcall ord ordered q t theta args st out = Some (Throw e)) \/
    (e = BadAlloc /\ (exists cn, In cn (t_crit t) /\ f_alloc fs cn = false) /\
     exists full, (forall ord, reorders ord -> kwcall ord ordered q t theta args st out = Some (Ok full)) /\ between out full out')
  | (out', UB) => accpot_args O args st = UB
  end.
Proof.
  intros fs ordered q t theta args st out x Ht Hr Hord Ho H. unfold force_call in H. unfold kw_accpot.
  destruct (accpot_compiles args); [|discriminate]. cbn [andb] in H. destruct (dest_compiles E q (DIters out)); [|discriminate]. injection H as <-.
  destruct (accpot_args O args st) as [[[G eps] split]|e|] eqn:A; cbn [guard bind].
  - pose proof (iters_fx_spec fs ordered q t theta G eps split out Ht Hr Hord Ho) as S.
    destruct (iters_fx O OD E K fs ordered q t theta G eps split out) as [out' [[]|e|]]; cbn [as_dispatch] in S.
    + intros ord Hor. now rewrite S.
    + destruct S as [(-> & He & S)|(-> & C & full & S & B)]; [left|right].
      * split; [reflexivity|]. split; [tauto|]. intros ord Hor. now rewrite S.
      * split; [reflexivity|]. split; [exact C|]. exists full. split; [|exact B]. intros ord Hor. now rewrite S.
    + destruct S.
  - left. split; [reflexivity|]. split; [right; right; now apply (args_throw args st)|]. reflexivity.
  - reflexivity.
Qed.

Lemma call_vectors : forall fs ordered q t theta args st out x, tree_inv O E t -> room t -> reorders (f_order fs) ->
  call fs ordered q t theta args st (DVectors out) = Some x ->
  length out = nv q /\
  match x with
  | (out', Ok _) => forall ord, reorders ord -> kwcall ord ordered q t theta args st (map (resize O (nparts t)) out) = Some (Ok out')
  | (out', Throw e) =>
    (out' = out /\ e = BadNumericCast) \/
    (out' = map (resize O (nparts t)) out /\ (e = DomainError \/ e = InvalidArgument)) \/
    (e = BadAlloc /\ exists m, m < length out /\ length (nth m out []) < nparts t /\ f_resize fs m = false /\ out' = map (resize O (nparts t)) (firstn m out) ++ skipn m out) \/
    (e = BadAlloc /\ (exists cn, In cn (t_crit t) /\ f_alloc fs cn = false) /\
     exists full, (forall ord, reorders ord -> kwcall ord ordered q t theta args st (map (resize O (nparts t)) out) = Some (Ok full)) /\
       between (map (resize O (nparts t)) out) full out')
  | (out', UB) => accpot_args O args st = UB
  end.
Proof.
  intros fs ordered q t theta args st out x Ht Hr Hord H. unfold force_call in H. unfold kw_accpot.
  destruct (accpot_compiles args); [|discriminate]. cbn [andb] in H. destruct (dest_compiles E q (DVectors out)) eqn:C; [|discriminate]. injection H as <-.
  cbn [dest_compiles] in C. apply Nat.eqb_eq in C. split; [exact C|].
  destruct (accpot_args O args st) as [[[G eps] split]|e|] eqn:A; cbn [guard bind].
  - unfold vectors_fx. destruct (resize_fx_spec fs (nparts t) out 0) as [->|(m & M1 & M2 & M3 & ->)].
    + destruct (resized O E q t out Ht C) as [Ho _].
      pose proof (iters_fx_spec fs ordered q t theta G eps split _ Ht Hr Hord Ho) as S.
      destruct (iters_fx O OD E K fs ordered q t theta G eps split (map (resize O (nparts t)) out)) as [out' [[]|e|]]; cbn [as_dispatch] in S.
      * intros ord Hor. now rewrite S.
      * destruct S as [(-> & He & S)|(-> & Cn & full & S & B)]; [right; left; tauto|right; right; right].
        split; [reflexivity|]. split; [exact Cn|]. exists full. split; [|exact B]. intros ord Hor. now rewrite S.
      * destruct S.
    + right. right. left. split; [reflexivity|]. exists m. auto.
  - left. split; [reflexivity|now apply (args_throw args st)].
  - reflexivity.
Qed.

Lemma call_list : forall fs ordered q t theta args st out, q <> QPot ->
  call fs ordered q t theta args st (DList out) =
    if length out =? nv q then call fs ordered q t theta args st (DIters out)
    else if accpot_compiles args then Some (out, Throw InvalidArgument) else None.
Proof.
  intros fs ordered q t theta args st out Hq. unfold force_call, dest_compiles. destruct (accpot_compiles args); cbn [andb]; [|now destruct (_ =? _)].
  destruct q; [|congruence|]; destruct (length out =? _); reflexivity.
Qed.

(** The three overloads compute the same. *)
Lemma calls_agree : forall fs1 fs2 ordered q t theta args st out1 out2 o1 x, tree_inv O E t -> room t -> reorders (f_order fs1) -> reorders (f_order fs2) ->
  out_ok (length (t_codes t)) (nv q) out1 ->
  call fs1 ordered q t theta args st (DIters out1) = Some (o1, Ok tt) -> call fs2 ordered q t theta args st (DVectors out2) = Some x ->
  snd x = Throw BadAlloc \/ x = (map (firstn (nparts t)) o1, Ok tt).
Proof.
  intros fs1 fs2 ordered q t theta args st out1 out2 o1 x Ht Hr H1 H2 Ho A B.
  pose proof (call_iters fs1 ordered q t theta args st out1 _ Ht Hr H1 Ho A (f_order fs2) H2) as S1. cbn beta iota in S1.
  destruct (call_vectors fs2 ordered q t theta args st out2 x Ht Hr H2 B) as [L2 S2].
  destruct (resized O E q t out2 Ht L2) as [_ F2].
  assert (Hd : exists G eps split, accpot_args O args st = Ok (G, eps, split) /\ acc_pot_dispatch O OD E K (f_order fs2) ordered q t theta G eps split out1 = Ok o1).
  { unfold kw_accpot in S1. destruct (accpot_compiles args); [|discriminate]. destruct (accpot_args O args st) as [[[G eps] split]|e|] eqn:P; cbn [bind] in S1; [|discriminate..].
    exists G, eps, split. split; [reflexivity|congruence]. }
  destruct Hd as (G & eps & split & P & Hd).
  assert (Hd2 := dispatch_contents (f_order fs2) ordered q t theta G eps split out1 (map (resize O (nparts t)) out2) o1 Ht Hr H2 Ho ltac:(now rewrite map_length) F2 Hd).
  rewrite <- (nparts_codes O E t Ht) in Hd2.
  unfold force_call in B. destruct (accpot_compiles args); [|discriminate]. cbn [andb] in B. destruct (dest_compiles E q (DVectors out2)); [|discriminate]. injection B as <-.
  rewrite P. cbn [guard]. unfold vectors_fx. destruct (resize_fx_spec fs2 (nparts t) out2 0) as [->|(m & _ & _ & _ & ->)]; [|now left].
  destruct (resized O E q t out2 Ht L2) as [Ho2 _].
  pose proof (iters_fx_spec fs2 ordered q t theta G eps split _ Ht Hr H2 Ho2) as S.
  destruct (iters_fx O OD E K fs2 ordered q t theta G eps split (map (resize O (nparts t)) out2)) as [o2 [[]|e|]]; cbn [as_dispatch snd] in *.
  - right. specialize (S (f_order fs2) H2). congruence.
  - left. destruct S as [(_ & _ & S)|(-> & _)]; [|reflexivity]. specialize (S (f_order fs2) H2). congruence.
  - destruct S.
Qed.

Definition long_enough (t : @tree F) (d : dest F) : Prop :=
  match d with DIters out | DList out => Forall (fun col => length (t_codes t) <= length col) out | DVectors _ => True end.
Definition starts_as (t : @tree F) (d : dest F) : list (list F) :=
  match d with DIters out | DList out => out | DVectors out => map (resize O (nparts t)) out end.

Lemma iters_length : forall fs ordered q t theta args st out x, call fs ordered q t theta args st (DIters out) = Some x -> length out = nv q.
Proof.
  intros fs ordered q t theta args st out x H. unfold force_call in H. destruct (accpot_compiles args); [|discriminate]. cbn [andb dest_compiles] in H.
  destruct (Nat.eqb_spec (length out) (nv q)) as [L|L]; [exact L|discriminate].
Qed.

(** A list is an array of iterators, or is rejected. *)
Lemma list_cases : forall fs ordered q t theta args st out x, call fs ordered q t theta args st (DList out) = Some x ->
  (length out = nv q /\ call fs ordered q t theta args st (DIters out) = Some x) \/ (length out <> nv q /\ x = (out, Throw InvalidArgument)).
Proof.
  intros fs ordered q t theta args st out x H. assert (Hq : q <> QPot). { intros ->. unfold force_call in H. rewrite andb_false_r in H. discriminate. }
  rewrite (call_list fs ordered q t theta args st out Hq) in H. destruct (Nat.eqb_spec (length out) (nv q)) as [L|L]; [left; auto|right].
  destruct (accpot_compiles args); [|discriminate]. split; [exact L|congruence].
Qed.

Lemma rejected_calls : forall fs ordered q t theta args st d out' e, tree_inv O E t -> room t -> reorders (f_order fs) -> long_enough t d ->
  call fs ordered q t theta args st d = Some (out', Throw e) -> e <> BadAlloc ->
  match d with
  | DIters out | DList out => out' = out
  | DVectors out => (e = BadNumericCast /\ out' = out) \/ (e <> BadNumericCast /\ out' = map (resize O (nparts t)) out)
  end /\ match d with DList out => length out <> nv q -> e = InvalidArgument | _ => True end.
Proof.
  intros fs ordered q t theta args st d out' e Ht Hr Hord Hl H He. destruct d as [out|out|out]; cbn [long_enough] in Hl.
  - split; [|exact I]. pose proof (iters_length _ _ _ _ _ _ _ _ _ H) as L.
    destruct (call_iters fs ordered q t theta args st out _ Ht Hr Hord (conj L Hl) H) as [(A & _)|(A & _)]; [exact A|contradiction].
  - split; [|exact I]. destruct (call_vectors fs ordered q t theta args st out _ Ht Hr Hord H) as [_ [(A & B)|[(A & B)|[(A & B)|(A & B)]]]]; [left; auto| |contradiction..].
    right. split; [|exact A]. destruct B as [-> | ->]; discriminate.
  - destruct (list_cases _ _ _ _ _ _ _ _ _ H) as [[L H']|[L X]].
    + split; [|contradiction]. destruct (call_iters fs ordered q t theta args st out _ Ht Hr Hord (conj L Hl) H') as [(A & _)|(A & _)]; [exact A|contradiction].
    + injection X as -> ->. auto.
Qed.

Definition plenty (fs : fsched) : Prop := (forall j, f_resize fs j = true) /\ forall cn, f_alloc fs cn = true.

(** With enough memory the calls end as the computation does. *)
Lemma call_plenty : forall fs ordered q t theta args st d full, tree_inv O E t -> room t -> reorders (f_order fs) -> plenty fs -> long_enough t d ->
  length (starts_as t d) = nv q -> (forall out, d = DList out -> q <> QPot) ->
  kwcall (f_order fs) ordered q t theta args st (starts_as t d) = Some (Ok full) -> call fs ordered q t theta args st d = Some (full, Ok tt).
Proof.
  intros fs ordered q t theta args st d full Ht Hr Hord [P1 P2] Hl L Hq H.
  assert (Hi : forall out G eps split, out_ok (length (t_codes t)) (nv q) out ->
    acc_pot_dispatch O OD E K (f_order fs) ordered q t theta G eps split out = Ok full -> iters_fx O OD E K fs ordered q t theta G eps split out = (full, Ok tt)).
  { intros out G eps split Ho Hd. pose proof (iters_fx_spec fs ordered q t theta G eps split out Ht Hr Hord Ho) as S.
    destruct (iters_fx O OD E K fs ordered q t theta G eps split out) as [o [[]|e|]]; cbn [as_dispatch] in S.
    - specialize (S _ Hord). congruence.
    - destruct S as [(_ & _ & S)|(_ & (cn & _ & C) & _)]; [specialize (S _ Hord); congruence|]. rewrite P2 in C. discriminate.
    - destruct S. }
  unfold kw_accpot in H. unfold force_call. destruct (accpot_compiles args); [|discriminate]. cbn [andb].
  destruct (accpot_args O args st) as [[[G eps] split]|e|]; cbn [bind] in H; [|discriminate..]. injection H as H.
  destruct d as [out|out|out]; cbn [starts_as dest_compiles long_enough guard] in *.
  - rewrite L, Nat.eqb_refl. f_equal. apply Hi; [now split|exact H].
  - rewrite map_length in L. rewrite L, Nat.eqb_refl. f_equal. unfold vectors_fx.
    destruct (resize_fx_spec fs (nparts t) out 0) as [->|(m & _ & _ & M & _)]; [|rewrite P1 in M; discriminate].
    apply Hi; [|exact H]. now apply resized.
  - rewrite L, Nat.eqb_refl. destruct q; [|now specialize (Hq out eq_refl)|]; (f_equal; apply Hi; [now split|exact H]).
Qed.

Lemma out_of_memory : forall fs ordered q t theta args st d out', tree_inv O E t -> room t -> reorders (f_order fs) -> long_enough t d ->
  call fs ordered q t theta args st d = Some (out', Throw BadAlloc) ->
  (exists out m, d = DVectors out /\ m < length out /\ length (nth m out []) < nparts t /\ f_resize fs m = false /\
     out' = map (resize O (nparts t)) (firstn m out) ++ skipn m out) \/
  ((exists cn, In cn (t_crit t) /\ f_alloc fs cn = false) /\ length out' = length (starts_as t d) /\ (forall j, length (nth j out' []) = length (nth j (starts_as t d) [])) /\
   exists full, (forall fs', reorders (f_order fs') -> (forall j, f_resize fs' j = true) -> (forall cn, f_alloc fs' cn = true) ->
                   call fs' ordered q t theta args st d = Some (full, Ok tt)) /\
     forall j k, nth_error (nth j out' []) k = nth_error (nth j (starts_as t d) []) k \/ nth_error (nth j out' []) k = nth_error (nth j full []) k).
Proof.
  intros fs ordered q t theta args st d out' Ht Hr Hord Hl H.
  assert (Fin : forall full, length (starts_as t d) = nv q -> (forall out, d = DList out -> q <> QPot) ->
    (exists cn, In cn (t_crit t) /\ f_alloc fs cn = false) -> between (starts_as t d) full out' ->
    (forall ord, reorders ord -> kwcall ord ordered q t theta args st (starts_as t d) = Some (Ok full)) ->
    ((exists cn, In cn (t_crit t) /\ f_alloc fs cn = false) /\ length out' = length (starts_as t d) /\ (forall j, length (nth j out' []) = length (nth j (starts_as t d) [])) /\
     exists full, (forall fs', reorders (f_order fs') -> (forall j, f_resize fs' j = true) -> (forall cn, f_alloc fs' cn = true) ->
                     call fs' ordered q t theta args st d = Some (full, Ok tt)) /\
       forall j k, nth_error (nth j out' []) k = nth_error (nth j (starts_as t d) []) k \/ nth_error (nth j out' []) k = nth_error (nth j full []) k)).
  { intros full L Hq Hc (B1 & B2 & B3) Hk. split; [exact Hc|]. split; [exact B1|]. split; [exact B2|]. exists full. split; [|exact B3].
    intros fs' Ho' P1 P2. apply call_plenty; auto. now split. }
  destruct d as [out|out|out]; cbn [long_enough starts_as] in *.
  - right. pose proof (iters_length _ _ _ _ _ _ _ _ _ H) as L.
    destruct (call_iters fs ordered q t theta args st out _ Ht Hr Hord (conj L Hl) H) as [(_ & [Z|[Z|Z]] & _)|(_ & C & full & S & B)]; [discriminate..|].
    apply (Fin full); auto. discriminate.
  - destruct (call_vectors fs ordered q t theta args st out _ Ht Hr Hord H) as [L [(_ & Z)|[(_ & [Z|Z])|[(_ & m & M)|(_ & C & full & S & B)]]]]; [discriminate..| |].
    + left. exists out, m. tauto.
    + right. apply (Fin full); auto; [now rewrite map_length|discriminate].
  - right. destruct (list_cases _ _ _ _ _ _ _ _ _ H) as [[L H']|[L X]]; [|discriminate].
    destruct (call_iters fs ordered q t theta args st out _ Ht Hr Hord (conj L Hl) H') as [(_ & [Z|[Z|Z]] & _)|(_ & C & full & S & B)]; [discriminate..|].
    apply (Fin full); auto. intros o _ ->. unfold force_call in H. rewrite andb_false_r in H. discriminate.
Qed.

Lemma overloads_agree : forall fs ordered q t theta args st out res, tree_inv O E t -> room t -> reorders (f_order fs) -> long_enough t (DIters out) ->
  call fs ordered q t theta args st (DIters out) = Some (res, Ok tt) ->
  (forall ord, reorders ord -> kwcall ord ordered q t theta args st out = Some (Ok res)) /\
  (q <> QPot -> call fs ordered q t theta args st (DList out) = Some (res, Ok tt)) /\
  forall fs' vecs, reorders (f_order fs') -> length vecs = nv q ->
    exists x, call fs' ordered q t theta args st (DVectors vecs) = Some x /\ (snd x = Throw BadAlloc \/ x = (map (firstn (nparts t)) res, Ok tt)) /\
      ((forall j, f_resize fs' j = true) -> (forall cn, f_alloc fs' cn = true) -> snd x <> Throw BadAlloc).
Proof.
  intros fs ordered q t theta args st out res Ht Hr Hord Hl H. pose proof (iters_length _ _ _ _ _ _ _ _ _ H) as L.
  split; [exact (call_iters fs ordered q t theta args st out _ Ht Hr Hord (conj L Hl) H)|]. split.
  - intros Hq. rewrite (call_list fs ordered q t theta args st out Hq). now rewrite L, Nat.eqb_refl.
  - intros fs' vecs Ho' Lv.
    assert (X : exists x, call fs' ordered q t theta args st (DVectors vecs) = Some x).
    { unfold force_call in *. destruct (accpot_compiles args); [|discriminate]. cbn [andb dest_compiles] in *. rewrite Lv, Nat.eqb_refl. eauto. }
    destruct X as [x X]. exists x. split; [exact X|].
    split; [exact (calls_agree fs fs' ordered q t theta args st out vecs res x Ht Hr Hord Ho' (conj L Hl) H X)|].
    intros P1 P2 Z. destruct x as [o r]. cbn [snd] in Z. subst r.
    destruct (out_of_memory fs' ordered q t theta args st (DVectors vecs) o Ht Hr Ho' I X) as [(? & m & _ & _ & _ & M & _)|((cn & _ & C) & _)].
    + rewrite P1 in M. discriminate.
    + rewrite P2 in C. discriminate.
Qed.

End Out.
