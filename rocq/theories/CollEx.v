(** Trees for the examples about collisions. Nothing here models code. *)
From Coq Require Import List Arith ZArith NArith Bool Reals Lra Lia Permutation.
From Flocq Require Import Core BinarySingleNaN.
From Verif Require Import Base Config Morton Build TreeSpec FOps FOpsProofs Disc NodeProps Tree TreeInv TreeProofs TreeSafe TreeProps TreeEx Kernels Coll CollSearch.
Import ListNotations.
Local Open Scope nat_scope.

Notation f32 := (binary_float 24 128).

(** The plane, 32-bit codes, single precision, box of size one. *)
Definition exCE : env := mkEnv C2_32 Bh None 128 false [].
Definition exCO : fops f32 := F32ops true.
Definition exCK (strict : bool) : platform f32 := mkPlatform None (if strict then strict_shift else masked_shift 32).
(** A platform on which a shift by the full width gives zero. *)
Definition zero_shift {F} : platform F := mkPlatform None (fun _ _ => Ok 0%N).

Definition exC_cols (cols : list (list (Z * Z))) : list (list f32) := map (map (fun '(m, e) => F32 m e)) cols.
Definition exC_op (cols : list (list (Z * Z))) : @op f32 := OConstruct (ex_sched false) (Some (F32 1 0)) (Ranges (exC_cols cols)) (Some 1) (Some 2).
Definition exC_tree (cols : list (list (Z * Z))) : @tree f32 := match run exCO exCE [exC_op cols] [] with Ok (t :: _) => t | _ => default_tree exCO exCE end.
Definition exC_graph (K : platform f32) (ordered : bool) cols (sizes : list (Z * Z)) : outcome (list (list nat)) :=
  compute_cgraph exCO exCE K ordered (exC_tree cols) (map (fun '(m, e) => F32 m e) sizes) (fun l => l) (fun l => l) [].

Lemma exCE_ok : env_ok exCE.
Proof. split; cbn; [lia|]. discriminate. Qed.

Lemma exC_reachable : forall cols, length cols = 3 ->
  match run exCO exCE [exC_op cols] [] with Ok [t] => True | _ => False end -> reachable exCO exCE (exC_tree cols).
Proof.
  intros cols HL H. unfold exC_tree.
  destruct (run exCO exCE [exC_op cols] []) as [[|t [|v w]]|e|] eqn:R; try contradiction.
  exists [exC_op cols], [t]. split; [|split; [exact R|now left]].
  constructor; [|constructor]. split; [apply ex_sched_ok|]. unfold exC_op, exC_cols. cbn. now rewrite map_length.
Qed.

Local Open Scope Z_scope.

(** Two particles at (-1/8, 1/8) and (1/8, 1/8). *)
Definition exC_two : list (list (Z * Z)) := [[(-1, -3); (1, -3)]; [(1, -3); (1, -3)]; [(1, 0); (1, 0)]].
(** The first particle next to the boundary of two leaves. *)
Definition exC_near : list (list (Z * Z)) := [[(-1, -30); (1, -3)]; [(1, -3); (1, -3)]; [(1, 0); (1, 0)]].
(** Two particles at the corner of the box, in the same leaf of maximum depth, and one elsewhere. *)
Definition exC_deep : list (list (Z * Z)) := [[(-1, -1); (-1, -1); (1, -2)]; [(-1, -1); (-1, -1); (1, -2)]; [(1, 0); (1, 0); (1, 0)]].
(** A cube slightly smaller than a quarter of the box around the first particle; the second particle is inside of it. *)
Definition exC_span : list (list (Z * Z)) :=
  [ [(4194303, -25); (7, -5); (-1, -3); (3, -3); (-1, -3); (3, -3)];
    [(1, -4); (1, -5); (-1, -3); (-1, -3); (1, -3); (1, -3)];
    [(1, 0); (1, 0); (1, 0); (1, 0); (1, 0); (1, 0)] ].
