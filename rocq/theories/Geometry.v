(** Euclidean distances of points given by lists of coordinates. *)
From Coq Require Import List Arith Lia Reals Lra.
From Verif Require Import RSum NodesR.
Import ListNotations.
Local Open Scope R_scope.

Definition norm (x : list R) : R := sqrt (rsum (fun a => a * a) x).

Lemma sum_sq_nonneg : forall x, 0 <= rsum (fun a => a * a) x.
Proof. intros x. apply rsum_nonneg. intros a _. exact (Rle_0_sqr a). Qed.

Lemma norm_nonneg : forall x, 0 <= norm x.
Proof. intros. apply sqrt_pos. Qed.

Lemma norm_sq : forall x, norm x * norm x = rsum (fun a => a * a) x.
Proof. intros. apply sqrt_sqrt, sum_sq_nonneg. Qed.

Lemma norm_cons : forall h x, norm (h :: x) = sqrt (h * h + norm x * norm x).
Proof. intros. rewrite norm_sq. unfold norm. now rewrite rsum_cons. Qed.

(** Minkowski's inequality in the plane. *)
Lemma mink2 : forall a p b q, sqrt ((a + b) * (a + b) + (p + q) * (p + q)) <= sqrt (a * a + p * p) + sqrt (b * b + q * q).
Proof.
  intros a p b q.
  assert (A : 0 <= a * a + p * p) by nra. assert (B : 0 <= b * b + q * q) by nra.
  pose proof (sqrt_pos (a * a + p * p)) as Pa. pose proof (sqrt_pos (b * b + q * q)) as Pb.
  pose proof (sqrt_sqrt _ A) as Qa. pose proof (sqrt_sqrt _ B) as Qb.
  set (u := sqrt (a * a + p * p)) in *. set (v := sqrt (b * b + q * q)) in *.
  rewrite <- (sqrt_square (u + v)) by lra. apply sqrt_le_1_alt.
  assert (C : a * b + p * q <= u * v).
  { pose proof (Rmult_le_pos _ _ Pa Pb) as P. destruct (Rle_lt_dec (a * b + p * q) 0) as [L|L]; [lra|]. apply Rsqr_incr_0; [|lra|apply Rmult_le_pos; assumption]. unfold Rsqr.
    replace (u * v * (u * v)) with ((u * u) * (v * v)) by ring. rewrite Qa, Qb. 
    pose proof (Rle_0_sqr (a * q - b * p)) as S. unfold Rsqr in S. lra. }
  replace ((u + v) * (u + v)) with (u * u + v * v + 2 * (u * v)) by ring. rewrite Qa, Qb. lra.
Qed.

Lemma norm_add : forall x y, length x = length y -> norm (map (fun '(a, b) => a + b) (combine x y)) <= norm x + norm y.
Proof.
  induction x as [|a x IH]; intros [|b y] L; try discriminate.
  - cbn. unfold norm. rewrite rsum_nil, sqrt_0. lra.
  - cbn [combine map]. rewrite !norm_cons. eapply Rle_trans; [|apply mink2]. apply sqrt_le_1_alt.
    specialize (IH y ltac:(now injection L)). pose proof (norm_nonneg (map (fun '(a, b) => a + b) (combine x y))). 
    pose proof (norm_nonneg x). pose proof (norm_nonneg y). nra.
Qed.

Lemma distance_norm : forall x y, distance x y = norm (map (fun '(a, b) => a - b) (combine x y)).
Proof. intros x y. unfold distance, norm. rewrite rsum_map. f_equal. apply rsum_ext. intros [a b] _. reflexivity. Qed.

Lemma distance_nonneg : forall x y, 0 <= distance x y.
Proof. intros. apply sqrt_pos. Qed.

Lemma distance_sym : forall x y, distance x y = distance y x.
Proof.
  intros x y. unfold distance. f_equal. revert y. induction x as [|a x IH]; intros [|b y]; cbn [combine]; try reflexivity.
  rewrite !rsum_cons, IH. f_equal. ring.
Qed.

Lemma triangle : forall x y z, length x = length y -> length y = length z -> distance x z <= distance x y + distance y z.
Proof.
  intros x y z L1 L2. rewrite !distance_norm.
  eapply Rle_trans; [|apply norm_add; rewrite !map_length, !combine_length; lia].
  apply Req_le. f_equal. revert y z L1 L2. induction x as [|a x IH]; intros [|b y] [|d z] L1 L2; try discriminate; [reflexivity|].
  cbn [combine map]. f_equal; [ring|]. apply IH; [now injection L1|now injection L2].
Qed.

(** Coordinate-wise bound. *)
Lemma distance_le : forall x y s, 0 <= s -> length x = length y -> (forall j, (j < length x)%nat -> Rabs (nth j x 0 - nth j y 0) <= s) ->
  distance x y <= sqrt (INR (length x)) * s.
Proof.
  intros x y s Hs L H. rewrite <- (sqrt_square s) at 1 by exact Hs. rewrite <- sqrt_mult by (try apply pos_INR; nra).
  unfold distance. apply sqrt_le_1_alt. revert y L H. induction x as [|a x IH]; intros [|b y] L H; try discriminate.
  - cbn [combine length]. rewrite rsum_nil. cbn. nra.
  - cbn [combine length]. rewrite rsum_cons, S_INR.
    assert (A : Rabs (a - b) <= s) by (apply (H 0%nat); cbn; lia).
    assert (B : (a - b) * (a - b) <= s * s).
    { pose proof (Rabs_pos (a - b)).  pose proof (Rsqr_abs (a - b)) as Q. unfold Rsqr in Q. rewrite Q. nra. }
    specialize (IH y ltac:(now injection L)). assert (C : rsum (fun '(x0, y0) => (x0 - y0) * (x0 - y0)) (combine x y) <= INR (length x) * (s * s)).
    { apply IH. intros j Hj. apply (H (S j)). cbn. lia. }
    lra.
Qed.

(** Softened distances. *)
Lemma soft_lipschitz : forall e r d, sqrt (r * r + e * e) <= sqrt (d * d + e * e) + Rabs (r - d).
Proof.
  intros e r d. pose proof (mink2 d e (r - d) 0) as M. replace (d + (r - d)) with r in M by ring. rewrite Rplus_0_r in M.
  replace ((r - d) * (r - d) + 0 * 0) with (Rsqr (r - d)) in M by (unfold Rsqr; ring). now rewrite sqrt_Rsqr_abs in M.
Qed.
