(** The statements of C75 from the lemmas of [Scale], and two trees in different units. *)
From Coq Require Import List Arith NArith ZArith Lia Bool Reals Lra Permutation.
From Verif Require Import Base Config Morton Build TreeSpec FOps FOpsProofs Disc NodeProps Tree TreeInv TreeProofs TreeSafe TreeProps TreeEx Kernels Force
  TravProofs KernLoops RSum NodeGeom NodesR BoxInv KernR ForceGen ForceOut ForceR ForceTop ForceRTop ForceEx Unique UniqueR Rebuild Scale.
Import ListNotations.
Local Open Scope nat_scope.

Lemma units_fields : forall a b, (0 < a)%R -> b <> 0%R -> forall E, env_ok E -> forall t u : @tree R, tree_inv Rops E t -> tree_inv Rops E u -> forall v,
  view_cols true t = Ok v -> view_cols true u = Ok (sc_cols a b (dim (e_cfg E)) v) -> t_box u = (a * t_box t)%R -> t_mln u = t_mln t -> t_ncrit u = t_ncrit t ->
  t_codes u = t_codes t /\
  map (fun nd => (n_begin nd, n_end nd, n_children nd, n_code nd, n_level nd, p_com (n_props nd), p_mass (n_props nd))) (t_nodes u) =
  map (fun nd => (n_begin nd, n_end nd, n_children nd, n_code nd, n_level nd, map (Rmult a) (p_com (n_props nd)), (b * p_mass (n_props nd))%R)) (t_nodes t) /\
  t_crit u = t_crit t.
Proof.
  intros a b Ha Hb E HE t u Ht Hu v Hvt Hvu Hbox Hmln Hncrit.
  destruct (units_nodes a b Ha Hb E HE t u Ht Hu v Hvt Hvu Hbox Hmln Hncrit) as [H1 H2].
  split; [exact (units_codes a b Ha Hb E HE t u Ht Hu v Hvt Hvu Hbox)|]. split; [|exact H2]. rewrite H1, map_map. reflexivity.
Qed.

Lemma units_results : forall {D} (OD : fops D) a b, (0 < a)%R -> b <> 0%R -> forall E K, env_ok E -> benign_shift K -> exact_rsqrt K ->
  forall t u : @tree R, tree_inv Rops E t -> tree_inv Rops E u -> forall v,
  view_cols true t = Ok v -> view_cols true u = Ok (sc_cols a b (dim (e_cfg E)) v) -> t_box u = (a * t_box t)%R -> t_mln u = t_mln t -> t_ncrit u = t_ncrit t ->
  forall ord ord' q theta G eps split out o, room E t -> reorders ord -> reorders ord' -> out_ok (length (t_codes t)) (nvecs_res E q) out ->
  acc_pot_dispatch Rops OD E K ord true q t theta G eps split out = Ok o ->
  exists o', acc_pot_dispatch Rops OD E K ord' true q u theta G (a * eps)%R split out = Ok o' /\
    forall j k, j < nvecs_res E q -> k < length (t_codes t) ->
      nth k (nth j o' []) 0%R =
      ((if match q with QPot => false | QAcc | QBoth => j <? dim (e_cfg E) end then b / (a * a) else b * b / a) * nth k (nth j o []) 0)%R.
Proof.
  intros D OD a b Ha Hb E K HE HK HX t u Ht Hu v Hvt Hvu Hbox Hmln Hncrit ord ord' q theta G eps split out o Hroom Ho Ho' Hout Hrun.
  destruct (units_forces a b Ha Hb OD E K HE HK HX t u Ht Hu v Hvt Hvu Hbox Hmln Hncrit ord ord' q theta G eps split out o Hroom Ho Ho' Hout Hrun) as (o' & R & V).
  exists o'. split; [exact R|]. intros j k Hj Hk. rewrite (V j k Hj Hk). unfold sc_unit, is_acc. destruct q; reflexivity.
Qed.

Section Ex.

Variable m : mac.
Notation E := (ex3E m (Some 4)).

Lemma ex3_table : table E ex3_cols 4.
Proof. split; [reflexivity|]. repeat constructor. Qed.

Lemma ex3_ctor : exists t, generic_ctor Rops E (ex_sched false) (Some 1%R) (Ranges ex3_cols) (Some 1) (Some 2) = Ok t.
Proof.
  destruct (ctor_R E (ex_sched false) (Some 1%R) (Ranges ex3_cols) (Some 1) (Some 2) 4) as [H _]; auto.
  - apply ex3E_ok. lia.
  - apply ex_sched_ok.
  - split; [exact ex3_table|exact I].
  - vm_compute. discriminate.
  - vm_compute. reflexivity.
  - discriminate.
  - discriminate.
  - destruct (H 1%R eq_refl ltac:(lra)) as [[_ H1] _]. apply H1.
    intros col x Hc Hx. cbn [e_cfg ex3E dim given ex3_cols firstn] in Hc.
    destruct Hc as [<-|[<-|[<-|[]]]]; cbn [In] in Hx; decompose [or] Hx; subst; try lra; contradiction.
Qed.

Lemma ctor_reachable : forall r bx cols mln nc t, length cols = 4 -> generic_ctor Rops E (ex_sched r) bx (Ranges cols) mln nc = Ok t -> reachable Rops E t.
Proof.
  intros r bx cols mln nc t HL Ht. exists [OConstruct (ex_sched r) bx (Ranges cols) mln nc], [t].
  split; [constructor; [split; [apply ex_sched_ok|exact HL]|constructor]|].
  split; [|now left]. unfold run. cbn [foldM step]. rewrite Ht. reflexivity.
Qed.

Lemma units_ex : exists (t u : @tree R), reachable Rops E t /\ reachable Rops E u /\
  view_cols true t = Ok ex3_cols /\ view_cols true u = Ok (sc_cols 3 (1 / 2) 3 ex3_cols) /\
  t_box u = (3 * t_box t)%R /\ t_mln u = t_mln t /\ t_ncrit u = t_ncrit t /\ length (t_codes t) = 4.
Proof.
  destruct ex3_ctor as [t Ht]. assert (HE : env_ok E) by (apply ex3E_ok; lia).
  destruct (units_ctor 3 (1 / 2) ltac:(lra) E (ex_sched false) (ex_sched true) 1 ex3_cols (Some 1) (Some 2) 4 t HE (ex_sched_ok R false) (ex_sched_ok R true)) as (u & Hu & V1 & V2 & B & M & C); auto.
  - exact ex3_table.
  - vm_compute. discriminate.
  - vm_compute. reflexivity.
  - discriminate.
  - discriminate.
  - lra.
  - exists t, u. split; [apply (ctor_reachable _ _ _ _ _ _ (eq_refl : length ex3_cols = 4) Ht)|]. split; [apply (ctor_reachable _ _ _ _ _ _ (eq_refl : length (sc_cols 3 (1 / 2) (dim (e_cfg E)) ex3_cols) = 4) Hu)|].
    repeat (split; [assumption|]).
    destruct (construction Rops E _ _ (Ranges ex3_cols) _ _ _ (ex_sched_ok R false) eq_refl Ht) as (n & Hn & Hc & _). rewrite Hc. inversion Hn as [|? ? Hl _]. symmetry. exact Hl.
Qed.

Lemma units_deduced_ex : exists (t u : @tree R) v, reachable Rops E t /\ reachable Rops E u /\
  view_cols true t = Ok v /\ view_cols true u = Ok (map (map (Rmult 3)) (firstn 3 v) ++ map (map (Rmult (1 / 2))) (skipn 3 v)) /\
  t_ded t = true /\ t_ded u = true /\ length (t_codes t) = 4.
Proof.
  assert (HE : env_ok E) by (apply ex3E_ok; lia).
  assert (CT : forall cols x, table E cols 4 -> In x (nth 0 cols []) -> x <> 0%R -> exists t, generic_ctor Rops E (ex_sched false) None (Ranges cols) (Some 1) (Some 2) = Ok t).
  { intros cols x HT Hx Nx. destruct (ctor_R E (ex_sched false) None (Ranges cols) (Some 1) (Some 2) 4) as [_ H]; auto.
    - apply ex_sched_ok.
    - split; [exact HT|exact I].
    - vm_compute. discriminate.
    - vm_compute. reflexivity.
    - discriminate.
    - discriminate.
    - apply H. destruct HT as [T1 _]. destruct cols as [|c0 cols]; [discriminate|]. exists c0, x. split; [now left|]. split; [exact Hx|exact Nx]. }
  assert (CS : forall cols t, table E cols 4 -> generic_ctor Rops E (ex_sched false) None (Ranges cols) (Some 1) (Some 2) = Ok t ->
    reachable Rops E t /\ view_cols true t = Ok cols /\ t_ded t = true /\ length (t_codes t) = 4).
  { intros cols t [T1 T2] Ht. split; [exact (ctor_reachable _ _ _ _ _ _ T1 Ht)|].
    destruct (construction Rops E _ _ (Ranges cols) _ _ _ (ex_sched_ok R false) T1 Ht) as (n & Hn & Hc & _ & _ & _ & _ & _ & _ & Hv & _).
    destruct (ctor_params Rops E _ _ _ _ _ _ Ht) as (_ & _ & P & _).
    assert (n = 4) as -> by (cbn [given] in Hn; destruct cols; [discriminate|]; inversion Hn; inversion T2; congruence).
    split; [apply Hv; vm_compute; discriminate|]. auto. }
  set (cols' := sc_cols 3 (1 / 2) 3 ex3_cols). assert (HT : table E cols' 4) by (split; [reflexivity|]; repeat constructor).
  destruct (CT ex3_cols (1 / 4)%R ex3_table) as [t Ht]; [now left|lra|]. destruct (CT cols' (3 * (1 / 4))%R HT) as [u Hu]; [now left|lra|].
  destruct (CS _ _ ex3_table Ht) as (A1 & A2 & A3 & A4). destruct (CS _ _ HT Hu) as (B1 & B2 & B3 & B4).
  exists t, u, ex3_cols. repeat (split; [assumption|]). assumption.
Qed.

Lemma units_forces_ex : exists (t u : @tree R) v o, reachable Rops E t /\ reachable Rops E u /\
  view_cols true t = Ok v /\ view_cols true u = Ok (map (map (Rmult 3)) (firstn 3 v) ++ map (map (Rmult (1 / 2))) (skipn 3 v)) /\
  t_box u = (3 * t_box t)%R /\ t_mln u = t_mln t /\ t_ncrit u = t_ncrit t /\ room E t /\ length (t_codes t) = 4 /\
  benign_shift ex3_K /\ exact_rsqrt ex3_K /\
  acc_pot_dispatch Rops Rops E ex3_K (fun l => l) true QBoth t (1 / 2)%R 1%R 0%R [] (repeat (repeat 0%R 4) 4) = Ok o.
Proof.
  destruct units_ex as (t & u & A1 & A2 & A3 & A4 & A5 & A6 & A7 & A8). assert (HE : env_ok E) by (apply ex3E_ok; lia).
  assert (HR : room E t) by (unfold room; rewrite A8; vm_compute; discriminate).
  assert (Hp : params Rops Rops E t (1 / 2)%R 1%R 0%R [] (match e_mac E with Bh => (1 / ((1 / 2) * (1 / 2)))%R | BhGeom => (1 / (1 / 2))%R end) (0 * 0)%R).
  { apply params_R; [lra|lra|reflexivity|cbn; lia]. }
  destruct (dispatch_ok Rops Rops E ex3_K HE (masked_benign R None 64%N) (fun l => l) true QBoth t _ _ _ _ _ _ (repeat (repeat 0%R 4) 4) (reachable_inv Rops E HE t A1) HR (fun l => Permutation_refl l) Hp) as (o & Ho & _).
  { split; [reflexivity|]. rewrite A8. repeat constructor. }
  exists t, u, ex3_cols, o. repeat (split; [assumption|]). split; [apply masked_benign|]. split; [exact ex3_exact|exact Ho].
Qed.

End Ex.
