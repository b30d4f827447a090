(** The public force functions, for every arithmetic: success, destinations, orders. *)
From Coq Require Import List Arith NArith ZArith Lia Bool Permutation.
From Verif Require Import Base Config Morton Build TreeSpec FOps NodeProps Tree TreeInv TreeProofs TreeSafe Kernels Force
  TravProofs KernLoops ForceGen ForceOut.
Import ListNotations.
Local Open Scope nat_scope.

Section Top.

Context {F : Type}.
Variable O : fops F.
Context {D : Type}.
Variable OD : fops D.
Variable E : env.
Variable K : platform F.
Hypothesis HE : env_ok E.

Notation c := (e_cfg E).
Notation tree_inv := (tree_inv O E).

(** Where the result of the tree particle [i] is written. *)
Definition dst (ordered : bool) (t : @tree F) (i : nat) : nat := if ordered then nth i (t_perm t) 0 else i.
Definition dest_of (ordered : bool) (t : @tree F) : nat -> outcome nat := if ordered then rd (t_perm t) else Ok.

(** The number of particles leaves room in the index types. *)
Definition room (t : @tree F) : Prop :=
  (N.of_nat (length (t_codes t)) + N.of_nat (match e_simd E with Some b => b | None => 1 end) <= diff_max)%N.

Lemma dst_ok : forall ordered t, tree_inv t -> forall i, i < length (t_codes t) ->
  dest_of ordered t i = Ok (dst ordered t i) /\ dst ordered t i < length (t_codes t).
Proof.
  intros ordered t Ht i Hi. unfold dest_of, dst. destruct ordered; [|split; [reflexivity|exact Hi]].
  pose proof (inv_perm _ _ _ Ht) as Hp. pose proof (Permutation_length Hp) as L. rewrite seq_length in L.
  destruct (rd_lt (t_perm t) i ltac:(lia)) as [k Hk]. rewrite Hk. apply rd_Ok in Hk. rewrite (nth_error_nth _ _ 0 Hk).
  split; [reflexivity|]. apply nth_error_In in Hk. apply (Permutation_in _ Hp) in Hk. apply in_seq in Hk. lia.
Qed.

Lemma dst_inj : forall ordered t, tree_inv t -> forall i i', i < length (t_codes t) -> i' < length (t_codes t) ->
  dst ordered t i = dst ordered t i' -> i = i'.
Proof.
  intros ordered t Ht i i' Hi Hi'. unfold dst. destruct ordered; [|auto].
  pose proof (inv_perm _ _ _ Ht) as Hp. pose proof (Permutation_length Hp) as L. rewrite seq_length in L.
  assert (ND : NoDup (t_perm t)) by (eapply Permutation_NoDup; [apply Permutation_sym; exact Hp|apply seq_NoDup]).
  intros H. rewrite List.NoDup_nth with (d := 0) in ND. apply ND; lia.
Qed.

Lemma dst_onto : forall ordered t, tree_inv t -> forall k, k < length (t_codes t) -> exists i, i < length (t_codes t) /\ k = dst ordered t i.
Proof.
  intros ordered t Ht k Hk. unfold dst. destruct ordered; [|eauto].
  pose proof (inv_perm _ _ _ Ht) as Hp. pose proof (Permutation_length Hp) as L. rewrite seq_length in L.
  assert (I : In k (t_perm t)). { apply (Permutation_in _ (Permutation_sym Hp)). apply in_seq. lia. }
  apply (In_nth _ _ 0) in I as (i & Hi & Hn). exists i. split; [lia|congruence].
Qed.

Lemma nparts_codes : forall t, tree_inv t -> nparts t = length (t_codes t).
Proof.
  intros t Ht. destruct (inv_table O E t Ht) as [T1 T2]. unfold nparts. destruct (t_parts t) as [|col l]; [pose proof (dim_pos c); cbn in T1; lia|].
  inversion T2; auto.
Qed.

(** The parameters accepted by the computation, and what is derived from them. *)
Definition params (t : @tree F) (theta G eps : F) (split : list D) (mac_value eps2 : F) : Prop :=
  mac_value_of O E theta = Ok mac_value /\ compute_eps2 O eps = Ok eps2 /\ check_G_const O G = Ok tt /\
  check_split OD split = Ok tt /\ length split <= 1 /\ ffin O (pad_coord O E (t_box t) mac_value) = true.

Lemma slice_whole : forall {A} (l : list A), slice l 0 (length l) = l.
Proof. intros A l. unfold slice. rewrite Nat.sub_0_r. cbn [skipn]. apply firstn_all. Qed.

Definition impl (ord : list cnode -> list cnode) (q : quant) (t : @tree F) (mac_value G eps2 : F) (dest : nat -> outcome nat) (out : list (list F)) :=
  foldM (crit_run O E K q t mac_value G eps2 (pad_coord O E (t_box t) mac_value) dest) (ord (t_crit t)) out.

Lemma dispatch_params : forall ord ordered q t theta G eps split mv eps2 out, tree_inv t -> room t -> params t theta G eps split mv eps2 ->
  acc_pot_dispatch O OD E K ord ordered q t theta G eps split out = impl ord q t mv G eps2 (dest_of ordered t) out.
Proof.
  intros ord ordered q t theta G eps split mv eps2 out Ht Hr (P1 & P2 & P3 & P4 & P5 & P6).
  unfold acc_pot_dispatch. rewrite P1. cbn [bind]. rewrite P2. cbn [bind]. rewrite P3. cbn [bind].
  assert (I : forall dest, acc_pot_impl O OD E K ord q t mv G eps2 split dest out = impl ord q t mv G eps2 dest out).
  { intros dest. unfold acc_pot_impl. rewrite P4. cbn [bind]. destruct (Nat.ltb_spec 1 (length split)); [lia|].
    unfold cpu_run. rewrite P6. cbn [negb]. now rewrite slice_whole. }
  unfold dest_of. destruct ordered; [|apply I]. unfold it_diff_check. rewrite nparts_codes by exact Ht.
  unfold room in Hr. destruct (N.ltb_spec diff_max (N.of_nat (length (t_codes t)))); [lia|]. cbn [bind]. apply I.
Qed.

Lemma dispatch_not_params : forall t theta G eps split, tree_inv t -> room t -> (forall mv eps2, ~ params t theta G eps split mv eps2) ->
  exists e, (e = DomainError \/ e = InvalidArgument) /\ forall ord ordered q out, acc_pot_dispatch O OD E K ord ordered q t theta G eps split out = Throw e.
Proof.
  intros t theta G eps split Ht Hr H. unfold acc_pot_dispatch.
  assert (M : (exists mv, mac_value_of O E theta = Ok mv) \/ mac_value_of O E theta = Throw DomainError).
  { unfold mac_value_of. cbv zeta. destruct (_ || _); [now right|]. destruct (negb (ffin O match e_mac E with Bh => _ | BhGeom => _ end) || _); [now right|left; eauto]. }
  destruct M as [[mv M]|M]; rewrite M; [|exists DomainError; split; auto]. cbn [bind].
  assert (M2 : (exists e2, compute_eps2 O eps = Ok e2) \/ compute_eps2 O eps = Throw DomainError).
  { unfold compute_eps2. destruct (_ || _); [now right|]. cbv zeta. destruct (_ || _); [now right|left; eauto]. }
  destruct M2 as [[eps2 M2]|M2]; rewrite M2; [|exists DomainError; split; auto]. cbn [bind].
  assert (M3 : check_G_const O G = Ok tt \/ check_G_const O G = Throw DomainError) by (unfold check_G_const; destruct (negb _); auto).
  destruct M3 as [M3|M3]; rewrite M3; [|exists DomainError; split; auto]. cbn [bind].
  exists InvalidArgument. split; [now right|]. intros ord ordered q out.
  assert (I : forall dest, acc_pot_impl O OD E K ord q t mv G eps2 split dest out = Throw InvalidArgument).
  { intros dest. unfold acc_pot_impl.
    assert (M4 : check_split OD split = Ok tt \/ check_split OD split = Throw InvalidArgument).
    { unfold check_split. cbv zeta. destruct (existsb _ split); [auto|]. destruct (existsb _ split); [auto|]. destruct (_ && _); auto. }
    destruct M4 as [M4|M4]; rewrite M4; [|reflexivity]. cbn [bind].
    destruct (Nat.ltb_spec 1 (length split)); [reflexivity|]. unfold cpu_run.
    destruct (ffin O (pad_coord O E (t_box t) mv)) eqn:M5; [|reflexivity]. exfalso. apply (H mv eps2). repeat split; auto. }
  destruct ordered; [|apply I]. unfold it_diff_check. rewrite nparts_codes by exact Ht.
  unfold room in Hr. destruct (N.ltb_spec diff_max (N.of_nat (length (t_codes t)))); [lia|]. cbn [bind]. apply I.
Qed.

Lemma params_dec : forall t theta G eps split, (exists mv eps2, params t theta G eps split mv eps2) \/ (forall mv eps2, ~ params t theta G eps split mv eps2).
Proof.
  intros t theta G eps split. unfold params.
  destruct (mac_value_of O E theta) as [mv|e|] eqn:M; [|right; intros ? ? (H & _); discriminate|right; intros ? ? (H & _); discriminate].
  destruct (compute_eps2 O eps) as [e2|e|] eqn:M2; [|right; intros ? ? (_ & H & _); discriminate|right; intros ? ? (_ & H & _); discriminate].
  destruct (check_G_const O G) as [[]|e|] eqn:M3; [|right; intros ? ? (_ & _ & H & _); discriminate|right; intros ? ? (_ & _ & H & _); discriminate].
  destruct (check_split OD split) as [[]|e|] eqn:M4; [|right; intros ? ? (_ & _ & _ & H & _); discriminate|right; intros ? ? (_ & _ & _ & H & _); discriminate].
  destruct (Nat.le_gt_cases (length split) 1); [|right; intros ? ? (_ & _ & _ & _ & H1 & _); lia].
  destruct (ffin O (pad_coord O E (t_box t) mv)) eqn:M5; [left; exists mv, e2; auto 7|].
  right. intros mv' e2' (H1 & _ & _ & _ & _ & H2). assert (mv' = mv) by congruence. subst. congruence.
Qed.

Section Shift.
Hypothesis HK : benign_shift K.

Notation nv q := (nvecs_res E q).

Definition result_row (q : quant) (t : @tree F) (mv G eps2 : F) (i : nat) : list F :=
  row_at O E K q t mv G eps2 (pad_coord O E (t_box t) mv) i.

Lemma dispatch_ok : forall ord ordered q t theta G eps split mv eps2 out, tree_inv t -> room t -> reorders ord ->
  params t theta G eps split mv eps2 -> out_ok (length (t_codes t)) (nv q) out ->
  exists out', acc_pot_dispatch O OD E K ord ordered q t theta G eps split out = Ok out' /\ out_ok (length (t_codes t)) (nv q) out' /\
    (forall j i, j < nv q -> i < length (t_codes t) ->
       nth_error (nth j out' []) (dst ordered t i) = nth_error (result_row q t mv G eps2 i) j) /\
    (forall j k, length (t_codes t) <= k -> nth_error (nth j out' []) k = nth_error (nth j out []) k) /\
    (forall j, length (nth j out' []) = length (nth j out [])).
Proof.
  intros ord ordered q t theta G eps split mv eps2 out Ht Hr Hord Hp Ho.
  rewrite (dispatch_params ord ordered q t theta G eps split mv eps2 out Ht Hr Hp). unfold impl.
  destruct (crit_runs_ok O E K HE HK (length (t_codes t)) (dst ordered t) (dest_of ordered t) (dst_ok ordered t Ht) (dst_inj ordered t Ht) q t Ht eq_refl
    mv G eps2 (pad_coord O E (t_box t) mv) Hr (ord (t_crit t)) out) as (out' & E1 & O1 & V & U & L).
  { intros cn Hcn. eapply Permutation_in; [apply Hord|exact Hcn]. }
  { exact Ho. }
  exists out'. split; [exact E1|]. split; [exact O1|]. split; [|split; [|exact L]].
  - intros j i Hj Hi. destruct (tiles_find _ _ _ _ i (crit_tiles O E t Ht)) as (cn & Hcn & Hc); [lia|]. cbn [fst snd] in Hc.
    apply (V j i cn); auto. eapply Permutation_in; [apply Permutation_sym, Hord|exact Hcn].
  - intros j k Hk. apply U. intros i cn Hcn Hi. 
    destruct (crit_node O E t cn Ht) as (_ & _ & _ & _ & _ & N5). { eapply Permutation_in; [apply Hord|exact Hcn]. }
    pose proof (proj2 (dst_ok ordered t Ht i ltac:(lia))). lia.
Qed.

(** The outcome does not depend on the order in which the critical nodes are processed. *)
Lemma dispatch_order : forall ord1 ord2 ordered q t theta G eps split out, tree_inv t -> room t -> reorders ord1 -> reorders ord2 ->
  out_ok (length (t_codes t)) (nv q) out ->
  acc_pot_dispatch O OD E K ord1 ordered q t theta G eps split out = acc_pot_dispatch O OD E K ord2 ordered q t theta G eps split out.
Proof.
  intros ord1 ord2 ordered q t theta G eps split out Ht Hr H1 H2 Ho.
  destruct (params_dec t theta G eps split) as [(mv & eps2 & Hp)|Hn].
  - destruct (dispatch_ok ord1 ordered q t theta G eps split mv eps2 out Ht Hr H1 Hp Ho) as (o1 & -> & [L1 _] & V1 & U1 & N1).
    destruct (dispatch_ok ord2 ordered q t theta G eps split mv eps2 out Ht Hr H2 Hp Ho) as (o2 & -> & [L2 _] & V2 & U2 & N2).
    f_equal. apply nth_ext with (d := []) (d' := []); [congruence|]. intros j Hj. rewrite L1 in Hj. apply list_ext. intros k.
    destruct (Nat.lt_ge_cases k (length (t_codes t))) as [L|L].
    + destruct (dst_onto ordered t Ht k L) as (i & Hi & ->). now rewrite V1, V2.
    + now rewrite U1, U2.
  - destruct (dispatch_not_params t theta G eps split Ht Hr Hn) as (e & _ & H). now rewrite !H.
Qed.

(** Ordered and unordered results. *)
Lemma dispatch_ordered : forall ord1 ord2 q t theta G eps split out1 out2, tree_inv t -> room t -> reorders ord1 -> reorders ord2 ->
  out_ok (length (t_codes t)) (nv q) out1 -> out_ok (length (t_codes t)) (nv q) out2 ->
  match acc_pot_dispatch O OD E K ord1 true q t theta G eps split out1, acc_pot_dispatch O OD E K ord2 false q t theta G eps split out2 with
  | Ok o1, Ok o2 => forall j i k, j < nv q -> nth_error (t_perm t) i = Some k -> nth_error (nth j o1 []) k = nth_error (nth j o2 []) i
  | Throw e1, Throw e2 => e1 = e2
  | _, _ => False
  end.
Proof.
  intros ord1 ord2 q t theta G eps split out1 out2 Ht Hr H1 H2 Ho1 Ho2.
  destruct (params_dec t theta G eps split) as [(mv & eps2 & Hp)|Hn].
  - destruct (dispatch_ok ord1 true q t theta G eps split mv eps2 out1 Ht Hr H1 Hp Ho1) as (o1 & -> & [L1 _] & V1 & U1 & N1).
    destruct (dispatch_ok ord2 false q t theta G eps split mv eps2 out2 Ht Hr H2 Hp Ho2) as (o2 & -> & [L2 _] & V2 & U2 & N2).
    intros j i k Hj Hi. pose proof (inv_perm _ _ _ Ht) as Hpm. pose proof (Permutation_length Hpm) as L. rewrite seq_length in L.
    pose proof (nth_error_lt _ _ _ Hi) as Hl. specialize (V1 j i Hj ltac:(lia)). specialize (V2 j i Hj ltac:(lia)).
    unfold dst in V1, V2. rewrite (nth_error_nth _ _ 0 Hi) in V1. congruence.
  - destruct (dispatch_not_params t theta G eps split Ht Hr Hn) as (e & _ & H). now rewrite !H.
Qed.

(** No undefined behaviour, whatever the number of particles. *)
Lemma write_out_safe : forall n (p : nat -> nat) dest b len m (res : list (@rrow F)) out,
  (forall i, i < n -> dest i = Ok (p i) /\ p i < n) -> Forall (fun r => length (fst r ++ snd r) = m) res ->
  b + len <= n -> len <= length res -> out_ok n m out ->
  write_out dest b len m res out <> UB /\ forall out', write_out dest b len m res out = Ok out' -> out_ok n m out'.
Proof.
  intros n p dest b len m res out Hd Hs Hb Hl [Lo Ho]. unfold write_out.
  set (body := fun (j : nat) => _ : outcome (list F)).
  assert (B : forall j, j < m -> exists col', body j = Ok col' /\ n <= length col').
  { intros j Hj. unfold body. destruct (rd_lt out j ltac:(lia)) as [col Hc]. rewrite Hc. cbn [bind]. apply rd_Ok in Hc.
    assert (Hn : n <= length col) by (rewrite Forall_forall in Ho; apply Ho; eapply nth_error_In; eauto).
    clear Hc. assert (Hx : 0 + len <= length res) by lia. assert (Hy : b + 0 + len <= n) by lia. clear Hl Hb.
    revert Hx Hy col Hn. generalize 0 at 1 2 3 as k0. induction len as [|m' IH]; intros k0 Hx Hy col Hn; cbn [seq foldM]; [eauto|].
    destruct (rd_lt res k0 ltac:(lia)) as [r Hr]. rewrite Hr. cbn [bind]. apply rd_Ok in Hr.
    assert (Lr : length (fst r ++ snd r) = m) by (rewrite Forall_forall in Hs; apply Hs; eapply nth_error_In; eauto).
    destruct (rd_lt (fst r ++ snd r) j ltac:(lia)) as [x ->]. cbn [bind].
    destruct (Hd (b + k0) ltac:(lia)) as [-> Hp]. cbn [bind]. unfold wr at 1. destruct (Nat.ltb_spec (p (b + k0)) (length col)); [|lia]. cbn [bind].
    apply IH; [lia|lia|rewrite set_nth_length; lia]. }
  assert (M : forall k j0, j0 + k <= m -> exists cols, mapM body (seq j0 k) = Ok cols /\ length cols = k /\ Forall (fun col => n <= length col) cols).
  { induction k as [|k IH]; intros j0 Hk; cbn [seq mapM]; [exists []; auto|].
    destruct (B j0 ltac:(lia)) as (col & -> & Hc). cbn [bind]. destruct (IH (S j0) ltac:(lia)) as (cols & -> & L & A). cbn [bind].
    exists (col :: cols). cbn [length]. auto. }
  destruct (M m 0 ltac:(lia)) as (cols & Hcols & L & A).
  destruct (diff_max <? N.of_nat b)%N; cbn [bind].
  - split; [discriminate|intros; discriminate].
  - rewrite Hcols. split; [discriminate|]. intros out' H. injection H as <-. split; assumption.
Qed.

Lemma dispatch_safe : forall ord ordered q t theta G eps split out, tree_inv t -> reorders ord -> out_ok (length (t_codes t)) (nv q) out ->
  acc_pot_dispatch O OD E K ord ordered q t theta G eps split out <> UB.
Proof.
  intros ord ordered q t theta G eps split out Ht Hord Ho. unfold acc_pot_dispatch.
  apply bind_safe; [unfold mac_value_of; cbv zeta; destruct (_ || _); [discriminate|]; destruct (_ || _); discriminate|]. intros mv _.
  apply bind_safe; [unfold compute_eps2; cbv zeta; destruct (_ || _); [discriminate|]; destruct (_ || _); discriminate|]. intros eps2 _.
  apply bind_safe; [unfold check_G_const; destruct (negb _); discriminate|]. intros _ _.
  assert (I : acc_pot_impl O OD E K ord q t mv G eps2 split (dest_of ordered t) out <> UB).
  { unfold acc_pot_impl. apply bind_safe.
    { unfold check_split. cbv zeta. destruct (existsb _ split); [discriminate|]. destruct (existsb _ split); [discriminate|]. destruct (_ && _); discriminate. }
    intros _ _. destruct (1 <? length split); [discriminate|]. unfold cpu_run. cbv zeta. destruct (negb _); [discriminate|].
    assert (S : forall o cn, out_ok (length (t_codes t)) (nv q) o -> In cn (t_crit t) ->
      crit_run O E K q t mv G eps2 (pad_coord O E (t_box t) mv) (dest_of ordered t) o cn <> UB /\
      forall o', crit_run O E K q t mv G eps2 (pad_coord O E (t_box t) mv) (dest_of ordered t) o cn = Ok o' -> out_ok (length (t_codes t)) (nv q) o').
    { intros o cn Hoo Hcn. rewrite crit_run_rows.
      destruct (crit_node O E t cn Ht Hcn) as (_ & _ & _ & _ & _ & N5).
      assert (Z : (exists ps, pdata_size E (c_end cn - c_begin cn) = Ok ps) \/ pdata_size E (c_end cn - c_begin cn) = Throw OverflowError).
      { unfold pdata_size. destruct (e_simd E); [|eauto]. destruct (_ <? _)%N; eauto. }
      destruct Z as [[ps Z]|Z].
      - destruct (crit_rows_ok O E K HE HK q t mv G eps2 (pad_coord O E (t_box t) mv) cn ps Ht Hcn Z) as (res & -> & Lr & Sr). cbn [bind].
        pose proof (psize_ok E HE _ _ Z) as (_ & Hps & _).
        apply (write_out_safe (length (t_codes t)) (dst ordered t) (dest_of ordered t)); auto; [apply (dst_ok ordered t Ht)| |lia|lia].
        eapply Forall_impl; [|exact Sr]. intros r Hr. now apply shape_length.
      - unfold crit_rows. cbv zeta. rewrite Z. cbn [bind]. split; [discriminate|intros; discriminate]. }
    apply foldM_safe with (I := out_ok (length (t_codes t)) (nv q)); [exact Ho| |].
    - intros o cn Hoo Hcn. apply S; [exact Hoo|]. rewrite slice_whole in Hcn. eapply Permutation_in; [apply Hord|exact Hcn].
    - intros o cn o' Hoo Hcn. apply S; [exact Hoo|]. rewrite slice_whole in Hcn. eapply Permutation_in; [apply Hord|exact Hcn]. }
  unfold dest_of in I. destruct ordered; [|exact I]. apply bind_safe; [apply it_diff_safe|]. intros _ _. exact I.
Qed.

(** The vector overloads. *)
Lemma resized : forall q t (out : list (list F)), tree_inv t -> length out = nv q ->
  out_ok (length (t_codes t)) (nv q) (map (resize O (nparts t)) out) /\ Forall (fun col => length col = length (t_codes t)) (map (resize O (nparts t)) out).
Proof.
  intros q t out Ht Ho. rewrite nparts_codes by exact Ht.
  assert (A : Forall (fun col => length col = length (t_codes t)) (map (resize O (length (t_codes t))) out)).
  { apply Forall_forall. intros col Hc. apply in_map_iff in Hc as (l & <- & _). unfold resize. rewrite app_length, firstn_length, repeat_length. lia. }
  split; [|exact A]. split; [now rewrite map_length|]. eapply Forall_impl; [|exact A]. cbn beta. intros. lia.
Qed.

Lemma vectors_ok : forall ord ordered q t theta G eps split mv eps2 out, tree_inv t -> room t -> reorders ord ->
  params t theta G eps split mv eps2 -> length out = nv q ->
  exists out', acc_pot_vectors O OD E K ord ordered q t theta G eps split out = Ok out' /\ length out' = nv q /\
    Forall (fun col => length col = length (t_codes t)) out' /\
    (forall j i, j < nv q -> i < length (t_codes t) ->
       nth_error (nth j out' []) (dst ordered t i) = nth_error (result_row q t mv G eps2 i) j).
Proof.
  intros ord ordered q t theta G eps split mv eps2 out Ht Hr Hord Hp Ho. unfold acc_pot_vectors.
  destruct (resized q t out Ht Ho) as [R1 R2].
  destruct (dispatch_ok ord ordered q t theta G eps split mv eps2 _ Ht Hr Hord Hp R1) as (o1 & H1 & [L1 A1] & V1 & U1 & N1).
  exists o1. split; [exact H1|]. split; [exact L1|]. split; [|exact V1].
  apply Forall_forall. intros col Hc. apply (In_nth _ _ []) in Hc as (j & Hj & <-). rewrite N1.
  rewrite Forall_forall in R2. apply R2. apply nth_In. rewrite map_length. lia.
Qed.

End Shift.

End Top.
