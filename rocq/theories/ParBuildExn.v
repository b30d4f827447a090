(** The recursive construction of the nodes, as in [ParBuild], by tasks that can fail (tree.hpp 841-983). *)
From Coq Require Import List Arith NArith ZArith Bool Lia Permutation.
From Verif Require Import Base Config Morton Build MortonProofs TreeSpec BuildSpec ParExnTop BuildProofs BuildProps ParBag ParBuild ParBuildProofs ParBagExn.
Import ListNotations.
Local Open Scope nat_scope.

Section Prog.

Variable c : cfg.
Variable codes : list N.
Variables max_leaf_n ncrit : nat.
Context {P : Type}.
Variable cnp : nat -> nat -> N -> N -> outcome P.
Variable split_nparts : nat.
Notation w := (width c).
Notation d := (dimN c).
Notation cb := (cbitsc c).
Notation bval := (bval P).
Notation prog := (cmd bloc bval).
Notation eprog := (ecmd bloc bval).
Notation eapp := (ParBagExn.eapp bloc bval).
Notation epfor := (ParBagExn.epfor bloc bval).
Notation eacc := (ParBagExn.eacc bloc bval).
Notation essafe := (ParBagExn.essafe bloc bval).
Notation eexns := (ParBagExn.eexns bloc bval).
Notation ebound := (ParBagExn.ebound bloc bval).
Notation emust := (ParBagExn.emust bloc bval).
Notation esim := (ParBagExn.esim bloc bval).
Notation eapart := (ParBagExn.eapart bloc).
Notation child_of := (child_of c codes max_leaf_n ncrit cnp split_nparts).

(** tree.hpp 870-896, 922-923, 917, as in [ParBuild]. *)
Definition epublish (id : list nat) (t : list (node P)) (l : list cnode) (k : eprog) : eprog :=
  EWr (BTree, id) (YT []) (EAt (BTrees, []) (YB [id]) (EWr (BTree, id) (YT t) (EWr (BCrit, id) (YK l) (EAt (BCrits, []) (YB [id]) k)))).
Definition eadd_count (p id : list nat) : eprog :=
  ERd (BTree, id) (fun v => match v with YT (nd :: _) => EAt (BCount, p) (YC (n_children nd)) (EAt (BCount, p) (YC 1) ERet) | _ => ERet end).
Definition etake_count (p id : list nat) : eprog :=
  ERd (BCount, id) (fun v => match v with
    | YC n => ERd (BTree, id) (fun v => match v with
        | YT t => match set_children t 0 n with Ok t' => EWr (BTree, id) (YT t') (eadd_count p id) | _ => ERet end
        | _ => ERet end)
    | _ => ERet end).

(** tree.hpp 857-927, one iteration of the loop. If it fails, this happens while the properties of its node are computed (tree.hpp 876), when the new partial tree
    is still empty, or in the serial construction of the descendants (tree.hpp 908), after the publication of the list of critical nodes; which of them
    is left open. *)
Definition echild_prog (sub : list nat -> N -> nat -> nat -> bool -> eprog -> Prop) (rem : nat) (p : list nat) (parent_code : N) (b e : nat) (crit_ancestor : bool) (i : nat)
    (q : eprog) : Prop :=
  let id := i :: p in
  match child_of rem parent_code b e crit_ancestor (N.of_nat i) with
  | Ok (Leaf t l) => q = epublish id t l (eadd_count p id)
  | Ok (Serial t l t' l') => q = epublish id t l (EWr (BTree, id) (YT t') (EWr (BCrit, id) (YK l') (eadd_count p id)))
  | Ok (Parallel t l code b' e' ca) => exists q0, sub id code b' e' ca q0 /\ q = epublish id t l (eapp q0 (etake_count p id))
  | Throw x => q = EWr (BTree, id) (YT []) (EAt (BTrees, []) (YB [id]) (ERaise x)) \/ exists t l, q = epublish id t l (ERaise x)
  | _ => q = ERet
  end.

(** tree.hpp 841-931. *)
Fixpoint epar_prog (rem : nat) (p : list nat) (parent_code : N) (b e : nat) (crit_ancestor : bool) (q : eprog) : Prop :=
  match rem with
  | O => q = EWr (BCount, p) (YC 0) ERet
  | S rem => exists body q1, (forall i, i < N.to_nat (2 ^ d) -> echild_prog (epar_prog rem) rem p parent_code b e crit_ancestor i (body i)) /\
      epfor body 0 (N.to_nat (2 ^ d)) q1 /\ q = EWr (BCount, p) (YC 0) q1
  end.

(** tree.hpp 964-980. The exception of the task that computes the properties of the root is rethrown by [wait] (tree.hpp 980). If the other task fails first,
    the destructor of the task group cancels the task and waits for it; its exception, if any, is dropped. *)
Definition ebuild_prog (q : eprog) : Prop :=
  let n := length codes in
  let root_is_crit := (n <=? ncrit) || (n <=? max_leaf_n) in
  let crit k := if root_is_crit then EWr (BCrit, []) (YK [mkCnode 1 0 n]) (EAt (BCrits, []) (YB [[]]) k) else k in
  let rest q0 := eapp q0 (ERd (BCount, []) (fun v => match v with YC k => EWr (BRoot, []) (YC k) ERet | _ => ERet end)) in
  let root := match cnp 0 n 1%N 0%N with Ok props => EWr (BProps, []) (YP props) ERet | Throw x => ERaise x | UB => ERet end in
  exists q0, (if max_leaf_n <? n then epar_prog (N.to_nat cb) [] 1%N 0 n root_is_crit q0 else q0 = ERet) /\
    q = EFork root (crit (if max_leaf_n <? n then rest q0 else ERet)) ERet.

(** * What a task finds *)
Hypothesis Hsorted : sorted_codes codes.
Notation clt := (clt c codes).
Notation count := (count c codes).
Notation sub := (sub c codes max_leaf_n).
Notation cok := (cok c codes P cnp).
Notation level_ok := (level_ok c).

(** The cells of the nodes below and including a child. *)
Definition part (r : nat) (l Q : N) : list cell :=
  if count (l + 1) Q =? 0 then [] else (l + 1, Q)%N :: (if max_leaf_n <? count (l + 1) Q then sub r (l + 1)%N Q else []).

Lemma child_case : forall r l p ca i, level_ok (S r) l p -> (i < 2 ^ d)%N -> let Q := (p * 2 ^ d + i)%N in
  match child_of r (nodal d l p) (clt l p) (clt l (p + 1)) ca i with
  | Ok NoChild => part r l Q = []
  | Ok (Leaf _ _) | Ok (Serial _ _ _ _) => forall y, In y (part r l Q) -> cok y = Ok tt
  | Ok (Parallel _ _ code b e _) => code = nodal d (l + 1) Q /\ b = clt (l + 1) Q /\ e = clt (l + 1) (Q + 1) /\ part r l Q = (l + 1, Q)%N :: sub r (l + 1)%N Q /\
      cok (l + 1, Q)%N = Ok tt
  | Throw e => (exists y, In y (part r l Q) /\ cok y = Throw e) \/ (size_max < N.of_nat (length (part r l Q)))%N
  | UB => exists y, In y (part r l Q) /\ cok y = UB
  end.
Proof.
  intros r l p ca i Hlv Hi Q. pose proof Hlv as (Hr & Hl & Hp). assert (Hl1 : (l + 1 <= cb)%N) by lia.
  unfold ParBuild.child_of. replace (cb - N.of_nat (S r))%N with l by lia.
  assert (Hone : shl w 1 (l * d) = Ok (2 ^ (d * l))%N) by (apply step_one; exact Hl1).
  assert (Hpr : usub w (nodal d l p) (2 ^ (d * l)) = p) by (apply step_prefix; assumption).
  rewrite Hone. cbn [bind]. cbv zeta. rewrite Hpr.
  assert (Hpre : shl w p d = Ok (p * 2 ^ d)%N) by (eapply step_pre; eassumption).
  rewrite Hpre. cbn [bind].
  assert (Hch : wrap w (p * 2 ^ d + i) = (p * 2 ^ d + i)%N) by (eapply step_child; eassumption).
  rewrite Hch. rewrite (child_range c codes P cnp Hsorted r l p i Hlv Hi). cbn [bind].
  assert (Hpc : shl w (nodal d l p) d = Ok (nodal d l p * 2 ^ d)%N) by (eapply step_pc; eassumption).
  assert (Hcode : wrap w (nodal d l p * 2 ^ d + i) = nodal d (l + 1) (p * 2 ^ d + i)) by (eapply step_code; eassumption).
  pose proof (level_ok_child c r l p i Hlv Hi) as Hlv'. fold Q in Hcode, Hlv' |- *. unfold part.
  assert (Ecnt : clt (l + 1) (Q + 1) - clt (l + 1) Q = count (l + 1) Q) by (rewrite clt_succ; lia).
  rewrite !Ecnt. destruct (count (l + 1) Q =? 0) eqn:E0; [reflexivity|].
  rewrite Hpc. cbn [bind]. rewrite Hcode. set (x := (l + 1, Q)%N : cell). change (cnp _ _ _ _) with (cnp_of c codes P cnp x).
  assert (Hx : cok x = (do _ <- cnp_of c codes P cnp x; Ok tt)) by reflexivity.
  destruct (cnp_of c codes P cnp x) as [props|e|]; cbn [bind] in Hx |- *.
  2:{ left. exists x. split; [now left|exact Hx]. }
  2:{ exists x. split; [now left|exact Hx]. }
  destruct (max_leaf_n <? count (l + 1) Q); [|intros y [<-|[]]; exact Hx].
  destruct (count (l + 1) Q <? split_nparts); [|repeat split; exact Hx].
  set (tr := [mkNode _ _ _ _ _ _]). set (cr := if critical_node _ _ _ _ _ _ then _ else _). set (ca' := _ || ca).
  pose proof (build_ser_spec c codes max_leaf_n ncrit P cnp Hsorted r (l + 1)%N Q tr cr ca' Hlv') as IHs.
  unfold post_ser, post in IHs. rewrite flat_map_flat1 in IHs.
  destruct (build_ser _ _ _ _ _ _ _ _ _ _ _ _) as [[[t c'] n]|e|]; cbn [bind].
  - destruct IHs as (new & -> & Hf & _ & _). unfold set_children, tr. cbn [List.app].
    change (rd (?a :: new) 0) with (Ok a). cbn [bind]. change (wr (_ :: new) 0 ?a) with (Ok (a :: new)). cbn [bind].
    intros y [<-|Hy]; [exact Hx|]. apply In_nth_error in Hy as [k Hy]. destruct (Forall2_nth_r _ _ _ _ _ Hf Hy) as (a & _ & (_ & _ & _ & _ & _ & X)).
    unfold BuildProofs.cok. now rewrite X.
  - destruct IHs as [(y & Hy & Hc)|[-> Ho]]; [left; exists y; split; [now right|exact Hc]|right; cbn [length]; lia].
  - destruct IHs as (y & Hy & Hc). exists y. split; [now right|exact Hc].
Qed.

Lemma sub_parts : forall r l p, sub (S r) l p = flat_map (fun i => part r l (p * 2 ^ d + i)%N) (upto (N.to_nat (2 ^ d))).
Proof. reflexivity. Qed.

Lemma part_in : forall r l p i y, (i < 2 ^ d)%N -> In y (part r l (p * 2 ^ d + i)%N) -> In y (sub (S r) l p).
Proof. intros r l p i y Hi Hy. rewrite sub_parts. apply in_flat_map. exists i. split; [|exact Hy]. apply in_upto. lia. Qed.

Lemma flat_map_length_in : forall {A B} (f : A -> list B) l a, In a l -> length (f a) <= length (flat_map f l).
Proof. intros A B f. induction l as [|x l IH]; intros a H; [destruct H|]. cbn [flat_map]. rewrite app_length. destruct H as [->|H]; [lia|]. specialize (IH a H). lia. Qed.

Lemma part_length : forall r l p i, (i < 2 ^ d)%N -> length (part r l (p * 2 ^ d + i)%N) <= length (sub (S r) l p).
Proof. intros r l p i Hi. rewrite sub_parts. apply (flat_map_length_in (fun i => part r l (p * 2 ^ d + i)%N)). apply in_upto. lia. Qed.

(** * Accesses, exceptions and lengths *)
Notation IA := (fun e => e = InvalidArgument).
Notation par_prog := (par_prog c codes max_leaf_n ncrit cnp split_nparts).
Notation child_prog := (child_prog c codes max_leaf_n ncrit cnp split_nparts).

Definition good (q : eprog) (A : kind * bloc -> Prop) : Prop := eacc q A /\ essafe q /\ eexns q IA /\ exists n, ebound q n.

Lemma epublish_ok : forall i p t l k, good k (below i p) -> good (epublish (i :: p) t l k) (below i p).
Proof.
  intros i p t l k (K1 & K2 & K3 & n & K4). split; [|split; [exact K2|split; [exact K3|]]].
  - cbn [epublish ParBagExn.eacc]. repeat (split; [first [apply below_self; now auto|unfold below; now auto]|]). exact K1.
  - exists (S (S (S (S (S n))))). cbn [epublish ParBagExn.ebound]. do 4 (eexists; split; [apply Nat.lt_succ_diag_r|]). exists n. split; [lia|exact K4].
Qed.

Lemma eadd_count_ok : forall i p, good (eadd_count p (i :: p)) (below i p).
Proof.
  intros i p. split; [|split; [|split]].
  - cbn. split; [apply below_self; auto|]. intros [[|nd t]|l|n|l|x]; cbn; auto. unfold below. auto 8.
  - cbn. intros [[|nd t]|l|n|l|x]; cbn; auto.
  - cbn. intros [[|nd t]|l|n|l|x]; cbn; auto.
  - exists 3. cbn. exists 2. split; [lia|]. intros [[|nd t]|l|n|l|x]; cbn; auto. exists 1. split; [lia|]. exists 0. auto.
Qed.

Lemma etake_count_ok : forall i p, good (etake_count p (i :: p)) (below i p).
Proof.
  intros i p. destruct (eadd_count_ok i p) as (K1 & K2 & K3 & n & K4). unfold etake_count. split; [|split; [|split]].
  - cbn [ParBagExn.eacc]. split; [apply below_self; auto|]. intros [t|l|k|l|x]; try exact I. cbn [ParBagExn.eacc]. split; [apply below_self; auto|].
    intros [t|l|k'|l|x]; try exact I. destruct (set_children t 0 k); try exact I. cbn [ParBagExn.eacc]. split; [apply below_self; auto|exact K1].
  - cbn [ParBagExn.essafe]. intros [t|l|k|l|x]; try exact I. cbn [ParBagExn.essafe]. intros [t|l|k'|l|x]; try exact I. destruct (set_children t 0 k); try exact I. exact K2.
  - cbn [ParBagExn.eexns]. intros [t|l|k|l|x]; try exact I. cbn [ParBagExn.eexns]. intros [t|l|k'|l|x]; try exact I. destruct (set_children t 0 k); try exact I. exact K3.
  - exists (S (S (S n))). cbn [ParBagExn.ebound]. exists (S (S n)). split; [lia|]. intros [t|l|k|l|x]; try exact I. cbn [ParBagExn.ebound]. exists (S n). split; [lia|].
    intros [t|l|k'|l|x]; try exact I. destruct (set_children t 0 k); try exact I. cbn [ParBagExn.ebound]. exists n. split; [lia|exact K4].
Qed.

Lemma good_app : forall q1 q2 A, good q1 A -> good q2 A -> good (eapp q1 q2) A.
Proof.
  intros q1 q2 A (A1 & A2 & A3 & n & A4) (B1 & B2 & B3 & n' & B4). split; [now apply eacc_app|]. split; [now apply essafe_app|]. split; [now apply eexns_app|].
  eexists. apply ebound_app; eassumption.
Qed.

Lemma good_impl : forall q (A B : kind * bloc -> Prop), (forall x, A x -> B x) -> good q A -> good q B.
Proof. intros q A B H (A1 & A2). split; [exact (eacc_impl bloc bval q A B H A1)|exact A2]. Qed.

Lemma good_wr : forall l v k (A : kind * bloc -> Prop), A (KW, l) -> good k A -> good (EWr l v k) A.
Proof. intros l v k A H (A1 & A2 & A3 & n & A4). split; [split; assumption|]. split; [exact A2|]. split; [exact A3|]. exists (S n). cbn. exists n. split; [lia|exact A4]. Qed.

Lemma esim_publish : forall id t l k k', esim k k' -> esim (publish id t l k) (epublish id t l k').
Proof. intros. unfold publish, epublish. repeat constructor. assumption. Qed.
Lemma esim_add_count : forall p id, esim (add_count p id) (eadd_count p id).
Proof. intros p id. constructor. intros [[|nd t]|l|n|l|x]; repeat constructor. Qed.
Lemma esim_take_count : forall p id, esim (take_count p id) (etake_count p id).
Proof.
  intros p id. constructor. intros [t|l|n|l|x]; try constructor. intros [t|l|n'|l|x]; try constructor. destruct (set_children t 0 n); try constructor. apply esim_add_count.
Qed.

Lemma pick_fun : forall {A} (a0 : A) (R : nat -> A -> Prop) n, (forall i, i < n -> exists y, R i y) -> exists f, forall i, i < n -> R i (f i).
Proof.
  intros A a0 R. induction n as [|n IH]; intros H; [exists (fun _ => a0); lia|]. destruct IH as [f Hf]; [intros; apply H; lia|]. destruct (H n ltac:(lia)) as [y Hy].
  exists (fun i => if i =? n then y else f i). intros i Hi. destruct (Nat.eqb_spec i n) as [->|]; [exact Hy|apply Hf; lia].
Qed.

Definition epar_ok (rem : nat) : Prop := forall path l p ca q, level_ok rem l p -> (N.of_nat (length (sub rem l p)) <= size_max)%N ->
  (forall y, In y (sub rem l p) -> only InvalidArgument (cok y)) -> epar_prog rem path (nodal d l p) (clt l p) (clt l (p + 1)) ca q ->
  good q (within path) /\ ((exists y e, In y (sub rem l p) /\ cok y = Throw e) -> emust q) /\
  ((forall y, In y (sub rem l p) -> cok y = Ok tt) -> exists q', par_prog rem path (nodal d l p) (clt l p) (clt l (p + 1)) ca q' /\ esim q' q).

Lemma echild_ok : forall r path l p ca i q, epar_ok r -> level_ok (S r) l p -> (N.of_nat i < 2 ^ d)%N -> let Q := (p * 2 ^ d + N.of_nat i)%N in
  (N.of_nat (length (part r l Q)) <= size_max)%N -> (forall y, In y (part r l Q) -> only InvalidArgument (cok y)) ->
  echild_prog (epar_prog r) r path (nodal d l p) (clt l p) (clt l (p + 1)) ca i q ->
  good q (below i path) /\ ((exists y e, In y (part r l Q) /\ cok y = Throw e) -> emust q) /\
  ((forall y, In y (part r l Q) -> cok y = Ok tt) -> exists q', child_prog (par_prog r) r path (nodal d l p) (clt l p) (clt l (p + 1)) ca i q' /\ esim q' q).
Proof.
  intros r path l p ca i q IH Hlv Hi Q Hsz Hon Hq. pose proof (child_case r l p ca (N.of_nat i) Hlv Hi) as C. cbv zeta in C. fold Q in C.
  unfold echild_prog in Hq. unfold ParBuild.child_prog.
  destruct (child_of r (nodal d l p) (clt l p) (clt l (p + 1)) ca (N.of_nat i)) as [[|t l0|t l0 t' l0'|t l0 code b e ca']|e|].
  - subst q. split; [split; [exact I|split; [exact I|split; [exact I|now exists 0]]]|]. split; [rewrite C; intros (y & e & [] & _)|]. intros _. exists Ret. split; [reflexivity|constructor].
  - subst q. split; [apply epublish_ok, eadd_count_ok|]. split; [intros (y & e & Hy & X); rewrite (C y Hy) in X; discriminate X|].
    intros _. eexists. split; [reflexivity|]. apply esim_publish, esim_add_count.
  - subst q. split; [apply epublish_ok, good_wr; [apply below_self; auto|]; apply good_wr; [apply below_self; auto|]; apply eadd_count_ok|].
    split; [intros (y & e & Hy & X); rewrite (C y Hy) in X; discriminate X|].
    intros _. eexists. split; [reflexivity|]. apply esim_publish. do 2 constructor. apply esim_add_count.
  - destruct Hq as (q0 & Hq0 & ->). destruct C as (-> & -> & -> & Ep & Cx). rewrite Ep in Hsz, Hon |- *.
    destruct (IH (i :: path) (l + 1)%N Q ca' q0) as (G & M & S0); [now apply level_ok_child|cbn [length] in Hsz; lia|intros y Hy; apply Hon; now right|exact Hq0|].
    split; [apply epublish_ok, good_app; [eapply good_impl; [|exact G]; apply within_below|apply etake_count_ok]|].
    split.
    + intros (y & e & [<-|Hy] & X); [rewrite Cx in X; discriminate X|]. cbn [epublish ParBagExn.emust]. apply emust_app. left. apply M. eauto.
    + intros H. destruct S0 as (q' & H1 & H2); [intros y Hy; apply H; now right|]. eexists. split; [exists q'; split; [exact H1|reflexivity]|].
      apply esim_publish, esim_app; [exact H2|apply esim_take_count].
  - assert (Ee : e = InvalidArgument /\ exists y, In y (part r l Q) /\ cok y = Throw e).
    { destruct C as [(y & Hy & X)|C]; [|lia]. split; [|eauto]. exact (proj2 (Hon y Hy) e X). }
    destruct Ee as (-> & y & Hy & X). assert (GR : good (ERaise InvalidArgument) (below i path)) by (split; [exact I|split; [exact I|split; [reflexivity|now exists 0]]]).
    split; [|split; [intros _|intros H; rewrite (H y Hy) in X; discriminate X]].
    + destruct Hq as [->|(t & l0 & ->)]; [|now apply epublish_ok]. apply good_wr; [apply below_self; auto|]. split; [split; [unfold below; auto|exact I]|]. split; [exact I|]. split; [reflexivity|].
      exists 1. exists 0. split; [lia|exact I].
    + destruct Hq as [->|(t & l0 & ->)]; exact I.
  - destruct C as (y & Hy & X). elim (proj1 (Hon y Hy)). exact X.
Qed.

Lemma epar_all : forall rem, epar_ok rem.
Proof.
  induction rem as [|r IH]; intros path l p ca q Hlv Hsz Hon Hq.
  - cbn [epar_prog] in Hq. subst q. split; [apply good_wr; [unfold within; auto|]; split; [exact I|split; [exact I|split; [exact I|now exists 0]]]|].
    split; [intros (y & e & [] & _)|]. intros _. eexists. split; [reflexivity|]. repeat constructor.
  - cbn [epar_prog] in Hq. destruct Hq as (body & q1 & Hb & Hp & ->).
    assert (CH : forall i, i < N.to_nat (2 ^ d) -> let Q := (p * 2 ^ d + N.of_nat i)%N in good (body i) (below i path) /\
      ((exists y e, In y (part r l Q) /\ cok y = Throw e) -> emust (body i)) /\
      ((forall y, In y (part r l Q) -> cok y = Ok tt) -> exists q', child_prog (par_prog r) r path (nodal d l p) (clt l p) (clt l (p + 1)) ca i q' /\ esim q' (body i))).
    { intros i Hi Q. assert (Hi' : (N.of_nat i < 2 ^ d)%N) by lia. apply echild_ok; [exact IH|exact Hlv|exact Hi'| | |now apply Hb].
      - pose proof (part_length r l p (N.of_nat i) Hi'). unfold Q. lia.
      - intros y Hy. apply Hon. eapply part_in; eassumption. }
    destruct (epfor_ok bloc bval body 0 (N.to_nat (2 ^ d)) q1 (fun i => below i path) IA Hp) as (A1 & A2 & A3 & A4 & A5).
    { intros i Hi. apply (CH i); lia. }
    { intros i j Hi Hj Hij w0 w' x H1 H2. apply (below_apart 0 cnp i j path [(w0, x)] [(w', x)] Hij) with (l := x); [intros y [<-|[]]; exact H1|intros y [<-|[]]; exact H2|now left|now left]. }
    split; [|split].
    + apply good_wr; [unfold within; auto|]. split; [|split; [exact A2|split; [exact A3|exact A4]]]. eapply eacc_impl; [|exact A1]. intros x (i & _ & Hx). eapply below_within, Hx.
    + intros (y & e & Hy & X). cbn [ParBagExn.emust]. apply A5. rewrite sub_parts in Hy. apply in_flat_map in Hy as (i & Hi & Hy). apply in_upto in Hi.
      exists (N.to_nat i). split; [lia|]. apply (CH (N.to_nat i)); [lia|]. rewrite N2Nat.id. eauto.
    + intros H. destruct (pick_fun Ret (fun i q' => child_prog (par_prog r) r path (nodal d l p) (clt l p) (clt l (p + 1)) ca i q' /\ esim q' (body i)) (N.to_nat (2 ^ d))) as (f & Hf).
      { intros i Hi. apply (CH i Hi). intros y Hy. apply H. eapply part_in; [|exact Hy]. lia. }
      destruct (esim_pfor bloc bval f body 0 (N.to_nat (2 ^ d)) q1 Hp) as (q' & P1 & P2); [intros i Hi; apply Hf; lia|].
      eexists. split; [exists f, q'; split; [intros i Hi; now apply Hf|]; split; [exact P1|reflexivity]|]. constructor. exact P2.
Qed.

(** * The whole construction *)
Notation all_runs_e := (ParBagExn.all_runs_e bloc bval bloc_eq bop).

Lemma ebuild_runs : forall st sc (q : eprog) (m : bloc -> bval), (forall l, Permutation (st l) l) -> (forall l, Permutation (sc l) l) -> codes <> [] ->
  Forall (fun x => (x < 2 ^ (d * cb))%N) codes -> (N.of_nat (length codes) * cb < 2 ^ 64 - 1)%N ->
  (forall y, In y (all_cells c codes max_leaf_n) -> only InvalidArgument (cok y)) ->
  m (BTrees, []) = YB [] -> m (BCrits, []) = YB [] -> m (BRoot, []) = YC 0 -> ebuild_prog q ->
  match build_tree c codes max_leaf_n ncrit cnp split_nparts st sc with
  | Ok (nodes, crit) => all_runs_e q m (fun m' => built c codes m' nodes crit) (fun _ => False)
  | Throw e => e = InvalidArgument /\ all_runs_e q m (fun _ => False) IA
  | UB => False
  end.
Proof.
  intros st sc q m Hst Hsc Hne Hr Hn Hon M1 M2 M3 (q0 & Hq0 & ->).
  assert (Hv : valid_codes c codes) by (split; assumption).
  pose proof (build_tree_spec c codes max_leaf_n ncrit P cnp split_nparts Hsorted Hr st sc Hst Hsc Hne) as B.
  pose proof (all_cells_length c codes max_leaf_n Hr) as HL.
  assert (Hcb : (10 <= cb)%N) by (destruct c; vm_compute; discriminate).
  set (n := length codes) in *. set (rc := (n <=? ncrit) || (n <=? max_leaf_n)) in *.
  assert (E0 : clt 0 0 = 0) by now apply clt00. assert (E1 : clt 0 1 = n) by now apply clt01. assert (E2 : nodal d 0 0 = 1%N) by (unfold nodal; rewrite N.mul_0_r; reflexivity).
  assert (EC : count 0 0 = n) by now apply count00.
  assert (Croot : cok (0, 0)%N = (do _ <- cnp 0 n 1%N 0%N; Ok tt)).
  { unfold BuildProofs.cok, cnp_of. cbn [fst snd]. rewrite N.add_0_l, E0, E1, E2. reflexivity. }
  assert (AC : all_cells c codes max_leaf_n = (0, 0)%N :: (if max_leaf_n <? n then sub (N.to_nat cb) 0%N 0%N else [])).
  { unfold all_cells, desc. cbn [fst snd]. rewrite EC, N.sub_0_r. reflexivity. }
  assert (HS : (max_leaf_n <? n) = true -> good q0 (within []) /\ ((exists y e, In y (sub (N.to_nat cb) 0%N 0%N) /\ cok y = Throw e) -> emust q0) /\
    ((forall y, In y (sub (N.to_nat cb) 0%N 0%N) -> cok y = Ok tt) -> exists q', par_prog (N.to_nat cb) [] 1%N 0 n rc q' /\ esim q' q0)).
  { intros Hm. rewrite Hm in AC, Hq0. rewrite AC in HL, Hon. cbn [length] in HL.
    pose proof (epar_all (N.to_nat cb) [] 0%N 0%N rc q0 (level_ok_root c)) as K. rewrite N.add_0_l, E0, E1, E2 in K.
    apply K; [unfold size_max; nia|intros y Hy; apply Hon; now right|exact Hq0]. }
  destruct (build_tree c codes max_leaf_n ncrit cnp split_nparts st sc) as [[nodes crit]|e|] eqn:EB.
  - destruct B as (HF & _). assert (Hall : forall y, In y (all_cells c codes max_leaf_n) -> cok y = Ok tt).
    { intros y Hy. apply In_nth_error in Hy as [k Hy]. destruct (Forall2_nth_r _ _ _ _ _ HF Hy) as (a & _ & (_ & _ & _ & _ & _ & X)). unfold BuildProofs.cok. now rewrite X. }
    rewrite AC in Hall. pose proof (Hall _ (or_introl eq_refl)) as Hroot. rewrite Croot in Hroot. destruct (cnp 0 n 1%N 0%N) as [props|e|] eqn:Ec; cbn [bind] in Hroot; try discriminate Hroot.
    assert (SQ : exists q', (if max_leaf_n <? n then par_prog (N.to_nat cb) [] 1%N 0 n rc q' else q' = Ret) /\ esim q' q0).
    { destruct (max_leaf_n <? n); [|exists Ret; split; [reflexivity|rewrite Hq0; constructor]]. apply HS; [reflexivity|]. intros y Hy. apply Hall. now right. }
    destruct SQ as (q' & Q1 & Q2). eapply esim_runs; [|eapply (build_runs c codes max_leaf_n ncrit cnp split_nparts nodes crit); [exact Hne| |exact M1|exact M2|exact M3|]].
    2:{ intros st' sc' H1 H2. exact (deterministic c codes max_leaf_n ncrit P cnp Hv _ _ _ _ _ _ _ Hst Hsc H1 H2 EB). }
    2:{ exists props, q'. split; [exact Ec|]. split; [exact Q1|reflexivity]. }
    fold n rc. constructor; [repeat constructor| |constructor].
    assert (SR : esim (if max_leaf_n <? n then app bloc bval q' (Rd (BCount, []) (fun v => match v with YC k => Wr (BRoot, []) (YC k) Ret | _ => Ret end)) else Ret)
      (if max_leaf_n <? n then eapp q0 (ERd (BCount, []) (fun v => match v with YC k => EWr (BRoot, []) (YC k) ERet | _ => ERet end)) else ERet)).
    { destruct (max_leaf_n <? n); [|constructor]. apply esim_app; [exact Q2|]. constructor. intros [t|l|k|l|x]; repeat constructor. }
    destruct rc; [do 2 constructor|]; exact SR.
  - assert (HT : exists y, In y (all_cells c codes max_leaf_n) /\ cok y = Throw e).
    { destruct B as [B|[_ [Ho|Ho]]]; [exact B| |]; exfalso; [unfold size_max in Ho|unfold diff_max in Ho]; nia. }
    destruct HT as (y & Hy & X). split; [exact (proj2 (Hon y Hy) e X)|].
    set (root := match cnp 0 n 1%N 0%N with Ok props => EWr (BProps, []) (YP props) ERet | Throw x => ERaise x | UB => ERet end).
    set (rest := if max_leaf_n <? n then eapp q0 (ERd (BCount, []) (fun v => match v with YC k => EWr (BRoot, []) (YC k) ERet | _ => ERet end)) else ERet).
    assert (GR : good root (fun x => fst (snd x) = BProps) /\ (cok (0, 0)%N = Throw e -> emust root)).
    { pose proof (Hon (0, 0)%N ltac:(rewrite AC; now left)) as O0. rewrite Croot in O0 |- *. unfold root. destruct (cnp 0 n 1%N 0%N) as [props|e'|]; cbn [bind] in O0 |- *.
      - split; [apply good_wr; [reflexivity|]; split; [exact I|split; [exact I|split; [exact I|now exists 0]]]|discriminate].
      - split; [|intros _; exact I]. split; [exact I|]. split; [exact I|]. split; [exact (proj2 O0 e' eq_refl)|now exists 0].
      - now elim (proj1 O0). }
    assert (GS : good rest (fun x => fst (snd x) <> BProps) /\ ((exists z e, In z (if max_leaf_n <? n then sub (N.to_nat cb) 0%N 0%N else []) /\ cok z = Throw e) -> emust rest)).
    { unfold rest. destruct (max_leaf_n <? n) eqn:Em.
      - destruct (HS eq_refl) as (G & MU & _). split; [apply good_app|].
        + eapply good_impl; [|exact G]. intros x [(a & s & i & Ha & Z0)|[Z0|[Z0|Z0]]]; [rewrite Z0; cbn; destruct Ha as [-> | [-> | ->]]; discriminate|rewrite Z0; discriminate|subst x; discriminate|subst x; discriminate].
        + split; [cbn; split; [discriminate|]; intros [t|l|k|l|x]; cbn; auto; split; [discriminate|exact I]|]. split; [cbn; intros [t|l|k|l|x]; exact I|].
          split; [cbn; intros [t|l|k|l|x]; exact I|]. exists 2. cbn. exists 1. split; [lia|]. intros [t|l|k|l|x]; cbn; auto. exists 0. auto.
        + intros Z. apply emust_app. left. now apply MU.
      - split; [split; [exact I|split; [exact I|split; [exact I|now exists 0]]]|]. intros (z & e' & [] & _). }
    set (side := if rc then EWr (BCrit, []) (YK [mkCnode 1 0 n]) (EAt (BCrits, []) (YB [[]]) rest) else rest).
    assert (GD : good side (fun x => fst (snd x) <> BProps) /\ (emust rest -> emust side)).
    { unfold side. destruct rc; [|split; [exact (proj1 GS)|auto]]. split; [|auto]. apply good_wr; [discriminate|]. destruct GS as [(A1 & A2 & A3 & k & A4) _].
      split; [split; [discriminate|exact A1]|]. split; [exact A2|]. split; [exact A3|]. exists (S k). exists k. split; [lia|exact A4]. }
    destruct GR as [(R1 & R2 & R3 & kr & R4) R5]. destruct GD as [(D1 & D2 & D3 & kd & D4) D5].
    apply (all_runs_must bloc bval bloc_eq bop _ m _ (S (kr + kd))).
    + cbn [ParBagExn.essafe]. split; [exact R2|]. split; [exact D2|]. split; [exact I|]. eexists _, _. split; [exact R1|]. split; [exact D1|]. intros w0 w' x H1 H2. cbn [snd] in H1, H2. now elim H2.
    + cbn [ParBagExn.emust]. rewrite AC in Hy. destruct Hy as [<-|Hy]; [left; now apply R5|right; left]. apply D5, GS. eauto.
    + cbn [ParBagExn.eexns]. auto.
    + cbn [ParBagExn.ebound]. exists kr, kd, 0. split; [lia|]. auto.
  - destruct B as (y & Hy & X). now elim (proj1 (Hon y Hy)).
Qed.

End Prog.
