(** Properties of the nodes: mass, centre of mass, MAC data. *)
From Coq Require Import List Arith ZArith NArith Bool Permutation.
From Verif Require Import Base Config Morton Build FOps Disc.
Import ListNotations.
Local Open Scope nat_scope.

(** detail/tree_fwd.hpp 46, [mac]. *)
Inductive mac := Bh | BhGeom.

(** detail/tree_fwd.hpp 77-116: [dim2] for [mac::bh]; [dim] and [delta] for [mac::bh_geom]. *)
Inductive macdata (F : Type) := DBh (dim2 : F) | DGeom (dim delta : F).
Arguments DBh {F} _. Arguments DGeom {F} _ _.

(** detail/tree_fwd.hpp 77-116: [props] (centre of mass and mass) and the MAC data. *)
Record props (F : Type) := mkProps { p_com : list F; p_mass : F; p_mac : macdata F }.
Arguments mkProps {F} _ _ _. Arguments p_com {F} _. Arguments p_mass {F} _. Arguments p_mac {F} _.

Section NodeProps.

Context {F : Type}.
Variable O : fops F.
Variable c : cfg.
Variable m : mac.
(** SIMD batch size ([batch_type::size]), [None] if SIMD is disabled for [F]. *)
Variable simd : option nat.
(** Order of the additions in [xsimd::hadd]. *)
Variable plan : list (nat * nat).

Let zero := fofZ O 0%Z.

(** Accumulated mass and mass-weighted position. *)
Definition acc : Type := F * list F.

(** tree.hpp 1162-1168, one iteration of the scalar loop; [idx] is the particle index, [ccols] the
    coordinate arrays and [mcol] the mass array. The same operations on each lane are the vector
    loop 1145-1155. *)
Definition acc_step (ccols : list (list F)) (mcol : list F) (a : acc) (idx : nat) : outcome acc :=
  do mass <- rd mcol idx;
  do com <- mapM (fun '(col, s) => do x <- rd col idx; Ok (ffma O mass x s)) (combine ccols (snd a));
  Ok (fadd O (fst a) mass, com).

(** 1145-1155: lane [k] of the batch starting at [i] accumulates particle [i + k]. The batch
    accumulators are represented lane by lane. *)
Definition vec_step (ccols : list (list F)) (mcol : list F) (lanes : list acc) (i : nat)
    : outcome (list acc) :=
  mapM (fun '(k, a) => acc_step ccols mcol a (i + k)) (combine (seq 0 (length lanes)) lanes).

(** One element of a list and the others; the index is taken modulo the length. *)
Definition pick (i : nat) (l : list F) : F * list F :=
  let k := i mod length l in (nth k l zero, firstn k l ++ skipn (S k) l).

(** [xsimd::hadd] (used in 1157-1161): sum of the lanes. The order of the additions is that of the library and the instruction set: each entry of [pl]
    adds two of the terms left, and when it is exhausted the rest is added from left to right. See [hadd_pairs] below. *)
Fixpoint hadd (pl : list (nat * nat)) (l : list F) : F :=
  match pl, l with
  | (i, j) :: pl', _ :: _ :: _ =>
    let '(x, l1) := pick i l in let '(y, l2) := pick j l1 in hadd pl' (fadd O x y :: l2)
  | _, [] => zero
  | _, x :: t => fold_left (fadd O) t x
  end.

Definition zero_acc : acc := (zero, repeat zero (dim c)).

(** tree.hpp 1120-1168: total mass and mass-weighted sums over the particles [b, e). *)
Definition node_sums (ccols : list (list F)) (mcol : list F) (b e : nat) : outcome acc :=
  let size := e - b in
  match simd, dim c with
  | Some bw, 3 =>                                                            (* 1135 *)
    let vec_size := size - size mod bw in                                    (* 1138 *)
    do lanes <- foldM (vec_step ccols mcol) (map (fun q => b + q * bw) (seq 0 (size / bw)))
                      (repeat zero_acc bw);                                  (* 1145-1155 *)
    let tot := hadd plan (map fst lanes) in                                       (* 1157-1161 *)
    let com := map (fun j => hadd plan (map (fun a : acc => nth j (snd a) zero) lanes)) (seq 0 (dim c)) in
    foldM (acc_step ccols mcol) (seq (b + vec_size) (size - vec_size)) (tot, com)
  | _, _ => foldM (acc_step ccols mcol) (seq b size) zero_acc
  end.

(** Sum of squares of the differences, 1222-1225. *)
Definition dist2 (xs ys : list F) : F :=
  match combine xs ys with
  | [] => zero
  | (x, y) :: t =>
    fold_left (fun s '(x, y) => ffma O (fsub O x y) (fsub O x y) s) t
              (fmul O (fsub O x y) (fsub O x y))
  end.

(** tree.hpp 1116-1237, [compute_node_properties], for the node with the given begin, end, code and
    level; [cols] is [m_parts]. *)
Definition compute_node_properties (cols : list (list F)) (box_size : F)
    (b e : nat) (code level : N) : outcome (props F) :=
  let ccols := firstn (dim c) cols in
  do mcol <- rd cols (dim c);
  do s <- node_sums ccols mcol b e;
  let '(tot_mass, com0) := s in
  do geo <- get_node_centre O c code box_size;                               (* 1173, 1180 *)
  let com := if feq O tot_mass zero then geo                                 (* 1176-1185 *)
             else let inv := fdiv O (fofZ O 1%Z) tot_mass in
                  map (fun x => fmul O x inv) com0 in                        (* 1186-1192 *)
  if negb (forallb (ffin O) com) then Throw InvalidArgument                  (* 1195-1198 *)
  else if negb (ffin O tot_mass) then Throw InvalidArgument                  (* 1202-1205 *)
  else
    let node_dim := get_node_dim O level box_size in                         (* 1210 *)
    match m with
    | Bh =>
      let dim2 := fmul O node_dim node_dim in                                (* 1212 *)
      if ffin O dim2 then Ok (mkProps com tot_mass (DBh dim2)) else Throw InvalidArgument
    | BhGeom =>
      if negb (ffin O node_dim) then Throw InvalidArgument                   (* 1218-1221 *)
      else
        let delta := fsqrt O (dist2 com geo) in                              (* 1223-1227 *)
        if ffin O delta then Ok (mkProps com tot_mass (DGeom node_dim delta))
        else Throw InvalidArgument
    end.

End NodeProps.

Lemma pick_perm : forall {F} (O : fops F) i (l : list F), l <> [] -> Permutation l (fst (pick O i l) :: snd (pick O i l)).
Proof.
  intros F O i l Hl. unfold pick. cbn [fst snd]. set (k := i mod length l). assert (Hk : k < length l) by (apply Nat.mod_upper_bound; destruct l; [congruence|discriminate]).
  clearbody k. clear Hl. revert k Hk. induction l as [|x l IH]; intros k Hk; [inversion Hk|]. destruct k as [|k]; [apply Permutation_refl|].
  cbn [nth firstn skipn app]. eapply perm_trans; [apply perm_skip, (IH k)|apply perm_swap]. cbn [length] in Hk. now apply Nat.succ_lt_mono.
Qed.

(** The plan of the usual sum in pairs of four lanes. *)
Example hadd_pairs : forall {F} (O : fops F) a b c d, hadd O [(0, 0); (1, 1); (1, 0)] [a; b; c; d] = fadd O (fadd O a b) (fadd O c d).
Proof. reflexivity. Qed.
