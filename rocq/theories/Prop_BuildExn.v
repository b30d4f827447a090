(** C85: failures in the concurrent construction of the nodes. *)
From Coq Require Import List Arith NArith ZArith Bool Lia.
From Flocq Require Import Core BinarySingleNaN.
From Verif Require Import Base Config Morton Build FOps FOpsProofs Disc NodeProps Tree TreeInv TreeProofs TreeSafe TreeProps TreeEx CollEx CollWit ParExnTop ParBag ParBuild ParBuildEx ParBuildProofs
  ParBagExn ParBuildExn ParBuildExnTop.
Import ListNotations.
Local Open Scope nat_scope.

(** The nodes of a tree are built by a task for the root and by nested parallel loops over the children of nodes with more than [split] particles, whose iterations
    can be grouped and interleaved in any way; tasks whose nodes have a mass or a centre that is not finite throw, which cancels the others at any moment
    or not at all. The program [q] is any program of this construction, for any [split]; [s] is the schedule of the sequential description. Either the constructor
    succeeds, and no interleaving throws, races, is stuck or goes on for ever, and at the end the concurrent containers hold the nodes and the critical nodes of the
    tree; or the constructor throws std::invalid_argument, and all interleavings end with this exception, without a race. *)
Theorem C85_construction_failure :
  forall (prec emax : Z) (Hprec : Prec_gt_0 prec) (Hemax : Prec_lt_emax prec emax) (fused : bool) (H2 : (2 <= prec)%Z) (E : env) (HE : env_ok E)
    (Hwide : (Z.of_N (cbitsc (e_cfg E)) < emax)%Z), let O := Bops prec emax Hprec Hemax fused in
  forall (s : sched) (box : binary_float prec emax) (cols cols' : list (list (binary_float prec emax))) (n mln ncrit split : nat) (codes0 codes : list N)
    (q : ecmd bloc (bval (props (binary_float prec emax)))) (m : bloc -> bval (props (binary_float prec emax)))
    (Hs : sched_ok s) (Halloc : forall k, s_alloc s k = true) (Hbox : is_finite box = true) (Hbox0 : flt O box (fofZ O 0%Z) = false) (Hmln : 0 < mln) (Hncrit : 0 < ncrit)
    (Hncols : length cols = dim (e_cfg E) + 1) (Hcols : Forall (fun col => length col = n) cols) (Hn : 0 < n) (Hsize : (N.of_nat n * cbitsc (e_cfg E) < 2 ^ 64 - 1)%N)
    (Hcodes0 : encode_all O E cols (fdiv O (fofZ O 1%Z) box) n = Ok codes0) (Hcodes : apply_isort codes0 (s_sort s codes0) = Ok codes)
    (Hcols' : mapM (fun col => apply_isort col (s_sort s codes0)) cols = Ok cols')
    (Hm1 : m (BTrees, []) = YB []) (Hm2 : m (BCrits, []) = YB []) (Hm3 : m (BRoot, []) = YC 0)
    (Hq : ebuild_prog (e_cfg E) codes mln ncrit (cnp O E cols' box) split q),
  match construct O E s box false (Moved cols) mln ncrit with
  | Ok t => all_runs_e bloc (bval _) bloc_eq bop q m (fun m' => built (e_cfg E) (t_codes t) m' (t_nodes t) (t_crit t)) (fun _ => False)
  | Throw e => e = InvalidArgument /\ all_runs_e bloc (bval _) bloc_eq bop q m (fun _ => False) (fun e' => e' = InvalidArgument)
  | UB => False
  end.
Proof.
  intros prec emax Hprec Hemax fused H2 E HE Hwide O s box cols cols' n mln ncrit split codes0 codes q m Hs Halloc Hbox Hbox0 Hmln Hncrit Hncols Hcols Hn Hsize
    Hcodes0 Hcodes Hcols' Hm1 Hm2 Hm3 Hq.
  exact (construct_e O E HE (disc_no_UB prec emax Hprec Hemax fused H2 _ Hwide) s box cols n mln ncrit codes cols' split q m Hs Halloc Hbox Hbox0 Hmln Hncrit
    (conj Hncols Hcols) Hn Hsize (ex_intro _ codes0 (conj Hcodes0 (conj Hcodes Hcols'))) (conj Hm1 (conj Hm2 Hm3)) Hq).
Qed.
Print Assumptions C85_construction_failure.

(** Six particles with masses of one, and the same with the third mass replaced by [x]. *)
Definition ex85_cols (x : f32) : list (list f32) := match exC_cols exC_span with [a; b; ms] => [a; b; firstn 2 ms ++ [x] ++ skipn 3 ms] | l => l end.
Definition ex85_get {A} (d : A) (o : outcome A) : A := match o with Ok a => a | _ => d end.
Definition ex85_codes0 (x : f32) : list N := ex85_get [] (encode_all exCO exCE (ex85_cols x) (fdiv exCO (fofZ exCO 1%Z) (F32 1 0)) 6).
Definition ex85_codes (x : f32) : list N := ex85_get [] (apply_isort (ex85_codes0 x) (s_sort (@ex_sched f32 false) (ex85_codes0 x))).
Definition ex85_sorted (x : f32) : list (list f32) := ex85_get [] (mapM (fun col => apply_isort col (s_sort (@ex_sched f32 false) (ex85_codes0 x))) (ex85_cols x)).
Definition ex85_prog (x : f32) : ecmd bloc (bval (props f32)) := ebuild_cmd (e_cfg exCE) (ex85_codes x) 1 2 (cnp exCO exCE (ex85_sorted x) (F32 1 0)) 2.
Definition ex85_end (eager : bool) (x : f32) := edrive bloc_eq bop eager 3000 (fun k => k * 3 + k / 2) (ex85_prog x) (build_mem (YC 77)).
Definition ex85_inf : f32 := B754_infinity false.
Definition ex85_is {A} (o : outcome A) : option (option exn) := match o with Ok _ => Some None | Throw e => Some (Some e) | UB => None end.

Lemma ex85_got : forall {A} (d : A) (o : outcome A), ex85_is o = Some None -> o = Ok (ex85_get d o).
Proof. intros A d [a|e|] H; [reflexivity|discriminate H|discriminate H]. Qed.

Example C85_ex : forall x, x = F32 1 0 \/ x = ex85_inf ->
  length (ex85_cols x) = dim (e_cfg exCE) + 1 /\ Forall (fun col => length col = 6) (ex85_cols x) /\
  encode_all exCO exCE (ex85_cols x) (fdiv exCO (fofZ exCO 1%Z) (F32 1 0)) 6 = Ok (ex85_codes0 x) /\
  apply_isort (ex85_codes0 x) (s_sort (@ex_sched f32 false) (ex85_codes0 x)) = Ok (ex85_codes x) /\
  mapM (fun col => apply_isort col (s_sort (@ex_sched f32 false) (ex85_codes0 x))) (ex85_cols x) = Ok (ex85_sorted x) /\
  ebuild_prog (e_cfg exCE) (ex85_codes x) 1 2 (cnp exCO exCE (ex85_sorted x) (F32 1 0)) 2 (ex85_prog x).
Proof.
  intros x Hx. assert (A : length (ex85_cols x) =? 3 = true /\ forallb (fun col => length col =? 6) (ex85_cols x) = true).
  { destruct Hx as [-> | ->]; split; now vm_compute. }
  destruct A as [A1 A2]. apply Nat.eqb_eq in A1. split; [exact A1|]. rewrite forallb_forall in A2. split; [apply Forall_forall; intros col Hc; now apply Nat.eqb_eq, A2|].
  assert (B0 : ex85_is (encode_all exCO exCE (ex85_cols x) (fdiv exCO (fofZ exCO 1%Z) (F32 1 0)) 6) = Some None) by (destruct Hx as [-> | ->]; vm_compute; reflexivity).
  assert (B1 : ex85_is (apply_isort (ex85_codes0 x) (s_sort (@ex_sched f32 false) (ex85_codes0 x))) = Some None) by (destruct Hx as [-> | ->]; vm_compute; reflexivity).
  assert (B2 : ex85_is (mapM (fun col => apply_isort col (s_sort (@ex_sched f32 false) (ex85_codes0 x))) (ex85_cols x)) = Some None) by (destruct Hx as [-> | ->]; vm_compute; reflexivity).
  split; [exact (ex85_got [] _ B0)|]. split; [exact (ex85_got [] _ B1)|]. split; [exact (ex85_got [] _ B2)|]. apply ebuild_cmd_ok.
Qed.
Example C85_ends :
  ex85_is (construct exCO exCE (ex_sched false) (F32 1 0) false (Moved (ex85_cols (F32 1 0))) 1 2) = Some None /\
  end_of (snd (snd (ex85_end false (F32 1 0)))) = Some None /\ end_of (snd (snd (ex85_end true (F32 1 0)))) = Some None /\
  ex85_is (construct exCO exCE (ex_sched false) (F32 1 0) false (Moved (ex85_cols ex85_inf)) 1 2) = Some (Some InvalidArgument) /\
  end_of (snd (snd (ex85_end false ex85_inf))) = Some (Some InvalidArgument) /\ end_of (snd (snd (ex85_end true ex85_inf))) = Some (Some InvalidArgument) /\
  fst (ex85_end true ex85_inf) < fst (ex85_end false ex85_inf) /\
  match fst (snd (ex85_end false (F32 1 0))) (BTrees, []) with YB l => length l = 9 | _ => False end.
Proof.
  split; [now vm_compute|]. split; [now vm_compute|]. split; [now vm_compute|]. split; [now vm_compute|]. split; [now vm_compute|]. split; [now vm_compute|].
  split; [apply Nat.ltb_lt; now vm_compute|]. now vm_compute.
Qed.

(** Updates of the positions and masses to [cols] of a tree that any program can have built: the nodes are built anew. Either the update succeeds, and at the end of all
    interleavings the concurrent containers hold the nodes and the critical nodes of the updated tree; or it fails with std::invalid_argument and leaves the tree of
    the default constructor, and all interleavings end with this exception, without a race. *)
Theorem C85_update_failure :
  forall (prec emax : Z) (Hprec : Prec_gt_0 prec) (Hemax : Prec_lt_emax prec emax) (fused : bool) (H2 : (2 <= prec)%Z) (E : env) (HE : env_ok E)
    (Hwide : (Z.of_N (cbitsc (e_cfg E)) < emax)%Z), let O := Bops prec emax Hprec Hemax fused in
  forall (s : sched) (t : tree) (box : binary_float prec emax) (cols cols' : list (list (binary_float prec emax))) (split : nat) (codes0 codes : list N)
    (q : ecmd bloc (bval (props (binary_float prec emax)))) (m : bloc -> bval (props (binary_float prec emax)))
    (Hs : sched_ok s) (Halloc : forall k, s_alloc s k = true) (Ht : reachable O E t)
    (Hncols : length cols = dim (e_cfg E) + 1) (Hcols : Forall (fun col => length col = length (t_codes t)) cols) (Hbox : box_of O E s t cols box)
    (Hn : 0 < length (t_codes t)) (Hsize : (N.of_nat (length (t_codes t)) * cbitsc (e_cfg E) < 2 ^ 64 - 1)%N)
    (Hcodes0 : encode_all O E cols (fdiv O (fofZ O 1%Z) box) (length (t_codes t)) = Ok codes0) (Hcodes : apply_isort codes0 (s_sort s codes0) = Ok codes)
    (Hcols' : mapM (fun col => apply_isort col (s_sort s codes0)) cols = Ok cols')
    (Hm1 : m (BTrees, []) = YB []) (Hm2 : m (BCrits, []) = YB []) (Hm3 : m (BRoot, []) = YC 0)
    (Hq : ebuild_prog (e_cfg E) codes (t_mln t) (t_ncrit t) (cnp O E cols' box) split q),
  (exists t', update_particles O E s false (fun _ => Ok cols) t = Ok (t', None) /\
     all_runs_e bloc (bval _) bloc_eq bop q m (fun m' => built (e_cfg E) (t_codes t') m' (t_nodes t') (t_crit t')) (fun _ => False)) \/
  (update_particles O E s false (fun _ => Ok cols) t = Ok (default_tree O E, Some InvalidArgument) /\
   all_runs_e bloc (bval _) bloc_eq bop q m (fun _ => False) (fun e => e = InvalidArgument)).
Proof.
  intros prec emax Hprec Hemax fused H2 E HE Hwide O s t box cols cols' split codes0 codes q m Hs Halloc Ht Hncols Hcols Hbox Hn Hsize Hcodes0 Hcodes Hcols' Hm1 Hm2 Hm3 Hq.
  exact (update_e O E HE (disc_no_UB prec emax Hprec Hemax fused H2 _ Hwide) s t cols box codes cols' split q m Hs Halloc (reachable_inv O E HE t Ht)
    (conj Hncols Hcols) Hbox Hn Hsize (ex_intro _ codes0 (conj Hcodes0 (conj Hcodes Hcols'))) (conj Hm1 (conj Hm2 Hm3)) Hq).
Qed.
Print Assumptions C85_update_failure.

(** The tree of the six particles, updated to the columns of [C85_ex]: the other hypotheses and the ends of the interleavings are those of [C85_ex] and [C85_ends]. *)
Definition ex85_tree : @tree f32 := exC_tree exC_span.
Definition ex85_update (x : f32) : option (nat * option exn) :=
  match update_particles exCO exCE (ex_sched false) false (fun _ => Ok (ex85_cols x)) ex85_tree with Ok (t, e) => Some (length (t_nodes t), e) | _ => None end.
Example C85_update_ex : reachable exCO exCE ex85_tree /\ length (t_codes ex85_tree) = 6 /\ (forall x, box_of exCO exCE (ex_sched false) ex85_tree (ex85_cols x) (F32 1 0)) /\
  t_mln ex85_tree = 1 /\ t_ncrit ex85_tree = 2 /\ ex85_update (F32 1 0) = Some (10, None) /\ ex85_update ex85_inf = Some (0, Some InvalidArgument).
Proof.
  split; [exact ex_span_reachable|]. split; [now vm_compute|]. split.
  { intros x. unfold box_of. assert (D : t_ded ex85_tree = false) by (vm_compute; reflexivity). rewrite D. symmetry. apply B2SF_inj. vm_compute. reflexivity. }
  split; [now vm_compute|]. split; [now vm_compute|]. split; vm_compute; reflexivity.
Qed.

(** Updates through the views in the original order, by any function [f] of the columns: they are the updates through the views in Morton order that put element [i]
    of a new column at the place [inv_perm()[i]], also if they fail, so that [C85_update_failure] and C84 hold for them. *)
Theorem C85_ordered_updates :
  forall (F : Type) (O : fops F) (E : env) (HE : env_ok E) (s : sched) (f : list (list F) -> outcome (list (list F))) (t : tree) (v v' : list (list F))
    (Ht : reachable O E t) (Hview : view_cols true t = Ok v) (Hf : f v = Ok v')
    (Hncols : length v' = dim (e_cfg E) + 1) (Hcols : Forall (fun col => length col = length (t_codes t)) v'),
  exists cols, length cols = dim (e_cfg E) + 1 /\ Forall (fun col => length col = length (t_codes t)) cols /\
    (forall j col new, nth_error cols j = Some col -> nth_error v' j = Some new -> forall i k, nth_error (t_inv t) i = Some k -> nth_error col k = nth_error new i) /\
    update_particles O E s true f t = update_particles O E s false (fun _ => Ok cols) t.
Proof.
  intros F O E HE s f t v v' Ht Hview Hf Hncols Hcols.
  exact (ordered_updates_flat O E s f t v v' (reachable_inv O E HE t Ht) Hview Hf (conj Hncols Hcols)).
Qed.
Print Assumptions C85_ordered_updates.

(** The order of the six particles is not that of their codes; an ordered update by a function that adds an infinite mass. *)
Example C85_ordered_ex : reachable exCO exCE ex85_tree /\ ex85_is (view_cols true ex85_tree) = Some None /\ t_inv ex85_tree <> seq 0 6 /\
  match update_particles exCO exCE (ex_sched false) true (fun v => Ok (firstn 2 v ++ [repeat (F32 1 0) 5 ++ [ex85_inf]])) ex85_tree with
  | Ok (t, e) => t_nodes t = [] /\ e = Some InvalidArgument | _ => False end /\
  match update_particles exCO exCE (ex_sched false) true (fun v => Ok (firstn 2 v ++ [repeat (F32 1 1) 6])) ex85_tree with
  | Ok (t, e) => length (t_nodes t) = 10 /\ e = None | _ => False end.
Proof.
  split; [exact ex_span_reachable|]. split; [vm_compute; reflexivity|]. split; [intros H; vm_compute in H; discriminate H|]. split; vm_compute; split; reflexivity.
Qed.
