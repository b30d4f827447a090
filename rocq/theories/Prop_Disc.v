(** Properties C05-C10 and C57: discretisation and box size deduction. *)
From Coq Require Import List Arith ZArith NArith Reals Bool Lia Lra.
From Flocq Require Import Core BinarySingleNaN.
From Verif Require Import Base Config Morton MortonProofs Build FOps Disc FOpsProofs DiscProofs
  BoxProofs BoxAccept BoxMore.
Import ListNotations.
Local Open Scope R_scope.

(** C05. Range of the result, absence of undefined conversions, and the only cause of failure of the
    clamping variant. [fused] tells whether the multiply-add is fused. *)
Theorem C05_discretisation_range :
  forall (prec emax : Z) (Hprec : Prec_gt_0 prec) (Hemax : Prec_lt_emax prec emax) (fused : bool)
    (Hprec2 : (2 <= prec)%Z) (c : cfg) (Hwide : (Z.of_N (cbitsc c) < emax)%Z)
    (x inv : binary_float prec emax),
  let O := Bops prec emax Hprec Hemax fused in
  (forall clamp,
    match disc_single_coord O c clamp x inv with
    | Ok k => (k < 2 ^ cbitsc c)%N
    | Throw e => e = InvalidArgument
    | UB => False
    end)
  /\ (forall e, disc_single_coord O c true x inv = Throw e <->
      e = InvalidArgument
      /\ is_finite (fmul O (ffma O x inv (fdiv O (fofZ O 1%Z) (fofZ O 2%Z)))
                           (fofZ O (Z.of_N (2 ^ cbitsc c)))) = false).
Proof.
  intros prec emax Hprec Hemax fused Hprec2 c Hwide x inv O. split.
  - intros clamp. exact (disc_range prec emax Hprec Hemax fused Hprec2 c Hwide clamp x inv).
  - exact (clamp_throws_iff prec emax Hprec Hemax fused Hprec2 c Hwide x inv).
Qed.
Print Assumptions C05_discretisation_range.

(** Doubles and floats satisfy the hypotheses; the upper edge, a NaN, an interior point. *)
Example C05_ex :
  (Z.of_N (cbitsc C3_64) < 1024)%Z /\ (Z.of_N (cbitsc C2_64) < 128)%Z /\ (2 <= 24)%Z
  /\ disc_single_coord (F64ops true) C3_64 false (F64 1 (-1)) (F64 1 0) = Throw InvalidArgument
  /\ disc_single_coord (F64ops true) C3_64 true (F64 1 (-1)) (F64 1 0) = Ok 2097151%N
  /\ disc_single_coord (F32ops true) C2_64 false (F32 1 (-2)) B754_nan = Throw InvalidArgument
  /\ disc_single_coord (F32ops false) C2_64 false (F32 1 (-2)) (F32 1 0) = Ok 1610612736%N.
Proof. split; [reflexivity|]. split; [reflexivity|]. split; [lia|]. repeat split; vm_compute; reflexivity. Qed.

(** C06. Monotonicity, for the checking and for the clamping variant. *)
Theorem C06_discretisation_monotone :
  forall (prec emax : Z) (Hprec : Prec_gt_0 prec) (Hemax : Prec_lt_emax prec emax) (fused : bool)
    (Hprec2 : (2 <= prec)%Z) (c : cfg) (Hwide : (Z.of_N (cbitsc c) < emax)%Z)
    (clamp : bool) (x y inv : binary_float prec emax) (kx ky : N)
    (Hxy : Bleb x y = true)
    (Hinv : 0 < B2R inv)
    (Hx : disc_single_coord (Bops prec emax Hprec Hemax fused) c clamp x inv = Ok kx)
    (Hy : disc_single_coord (Bops prec emax Hprec Hemax fused) c clamp y inv = Ok ky),
  (kx <= ky)%N.
Proof.
  intros prec emax Hprec Hemax fused Hprec2 c Hwide clamp x y inv kx ky Hxy Hinv Hx Hy.
  refine (disc_mono prec emax Hprec Hemax fused Hprec2 c Hwide clamp x y inv kx ky Hxy _ Hx Hy).
  destruct (ofZ_exact prec emax Hprec Hemax fused Hprec2 0) as [V F];
    [apply Z.pow_pos_nonneg; lia|].
  apply ltb_lt; [exact F| |rewrite V; exact Hinv].
  destruct inv; simpl in Hinv; try lra; reflexivity.
Qed.
Print Assumptions C06_discretisation_monotone.

Example C06_ex :
  Bleb (F64 (-3) (-3)) (F64 3 (-4)) = true /\ B2R (F64 1 0) = 1
  /\ disc_single_coord (F64ops true) C2_32 false (F64 (-3) (-3)) (F64 1 0) = Ok 4096%N
  /\ disc_single_coord (F64ops true) C2_32 false (F64 3 (-4)) (F64 1 0) = Ok 22528%N.
Proof.
  repeat split; try (vm_compute; reflexivity).
  rewrite <- SF2R_B2SF. vm_compute (B2SF _). unfold SF2R, F2R. simpl. lra.
Qed.

(** C07. Exact arithmetic. *)
Theorem C07_exact_discretisation :
  forall (c : cfg) (x b : R) (Hb : 0 < b),
  (forall k, disc_single_coord Rops c false x (1 / b) = Ok k <->
     (k < 2 ^ cbitsc c)%N
     /\ - b / 2 + IZR (Z.of_N k) * b / IZR (Z.of_N (2 ^ cbitsc c)) <= x
     /\ x < - b / 2 + (IZR (Z.of_N k) + 1) * b / IZR (Z.of_N (2 ^ cbitsc c)))
  /\ ((exists k, disc_single_coord Rops c false x (1 / b) = Ok k) <-> - b / 2 <= x < b / 2)
  /\ (~ (- b / 2 <= x < b / 2) -> disc_single_coord Rops c false x (1 / b) = Throw InvalidArgument).
Proof.
  intros c x b Hb. split; [exact (fun k => disc_R_iff c x b k Hb)|].
  pose proof (disc_R_accept c x b Hb) as A.
  destruct (disc_single_coord Rops c false x (1 / b)) as [k|e|]; [| |destruct A].
  - split; [split; [intros _; exact A|intros _; eexists; reflexivity]|]. intros H. now elim H.
  - destruct A as [-> A]. split; [|reflexivity]. split; [intros [k H]; discriminate|intros H; now elim A].
Qed.
Print Assumptions C07_exact_discretisation.

(** The centre of the box has index 2^(cbits-1). *)
Example C07_ex : disc_single_coord Rops C2_32 false 0 (1 / 4) = Ok 16384%N.
Proof.
  apply (disc_R_iff C2_32 0 4 16384); [lra|]. change (Z.of_N (2 ^ cbitsc C2_32)) with 32768%Z.
  change (Z.of_N 16384) with 16384%Z. split; [reflexivity|]. lra.
Qed.

(** C08, refuted: with or without fused multiply-add, a particle with a coordinate strictly below
    -box_size/2 is accepted (doubles). With fused multiply-add this needs a box so large that its inverse is
    subnormal, see C57. *)
Theorem C08_accepted_inside_box_refuted :
  forall fused : bool, exists (b x y z : binary_float 53 1024) (code : N),
  is_finite b = true
  /\ particle_code (F64ops fused) C3_64 [x; y; z] (fdiv (F64ops fused) (fofZ (F64ops fused) 1%Z) b)
     = Ok code
  /\ B2R x < - (B2R b / 2).
Proof.
  intros [|].
  - exists (F64 3 1022), (F64 (- 6755399441055745) 970), (F64 0 0), (F64 0 0). eexists.
    split; [vm_compute; reflexivity|]. split; [vm_compute; reflexivity|].
    rewrite <- !SF2R_B2SF. vm_compute (B2SF _). unfold SF2R, F2R. cbn [Fnum Fexp cond_Zopp].
    change (bpow radix2 971) with (bpow radix2 (970 + 1)). rewrite bpow_plus.
    pose proof (bpow_gt_0 radix2 970). set (w := bpow radix2 970) in *. clearbody w.
    change (bpow radix2 1) with 2. simpl. lra.
  - exists (F64 3 0), (F64 (- 6755399441055745) (-52)), (F64 0 0), (F64 0 0). eexists.
    split; [vm_compute; reflexivity|]. split; [vm_compute; reflexivity|].
    rewrite <- !SF2R_B2SF. vm_compute (B2SF _). unfold SF2R, F2R. cbn [Fnum Fexp cond_Zopp].
    change (bpow radix2 (-51)) with (bpow radix2 (-52 + 1)). rewrite bpow_plus.
    pose proof (bpow_gt_0 radix2 (-52)). set (w := bpow radix2 (-52)) in *. clearbody w.
    change (bpow radix2 1) with 2. simpl. lra.
Qed.
Print Assumptions C08_accepted_inside_box_refuted.

(** C57. What does hold: accepted coordinates exceed the half box by at most a relative rounding error
    2^(2-prec), and not at all if the multiply-add is fused; box sizes from 2^(10-emax) to
    2^(emax-2) (for which box size and inverse are normal numbers). *)
Theorem C57_accepted_near_box :
  forall (prec emax : Z) (Hprec : Prec_gt_0 prec) (Hemax : Prec_lt_emax prec emax) (fused : bool)
    (Hprec8 : (8 <= prec)%Z) (Hrange : (prec + 4 <= emax)%Z)
    (c : cfg) (Hwide : (Z.of_N (cbitsc c) < emax)%Z)
    (x b : binary_float prec emax) (k : N)
    (Hfin : is_finite b = true)
    (Hb : bpow radix2 (10 - emax) <= B2R b <= bpow radix2 (emax - 2)),
  let O := Bops prec emax Hprec Hemax fused in
  disc_single_coord O c false x (fdiv O (fofZ O 1%Z) b) = Ok k ->
  (- (B2R b / 2) * (1 + bpow radix2 (2 - prec)) < B2R x < B2R b / 2 * (1 + bpow radix2 (2 - prec)))
  /\ (fused = true -> - (B2R b / 2) <= B2R x < B2R b / 2).
Proof.
  intros prec emax Hprec Hemax fused Hprec8 Hrange c Hwide x b k Hfin Hb O H.
  assert (Hc : comfortable prec emax b) by (split; [exact Hfin|exact Hb]). split.
  - exact (accepted_near_box prec emax Hprec Hemax fused Hprec8 Hrange c Hwide x b k Hc H).
  - intros Hf. exact (accepted_in_box_fused prec emax Hprec Hemax fused Hprec8 Hrange c Hwide Hf x b k Hc H).
Qed.
Print Assumptions C57_accepted_near_box.

(** The two neighbours of the lower edge -1.5 of a box of size 3, with and without fusion. *)
Example C57_ex :
  disc_single_coord (F64ops true) C3_64 false (F64 (- 6755399441055745) (-52))
     (fdiv (F64ops true) (F64 1 0) (F64 3 0)) = Throw InvalidArgument
  /\ disc_single_coord (F64ops false) C3_64 false (F64 (- 6755399441055745) (-52))
     (fdiv (F64ops false) (F64 1 0) (F64 3 0)) = Ok 0%N
  /\ disc_single_coord (F64ops true) C3_64 false (F64 (- 3) (-1))
     (fdiv (F64ops true) (F64 1 0) (F64 3 0)) = Ok 0%N.
Proof. repeat split; vm_compute; reflexivity. Qed.

(** C09, exact arithmetic: value of the deduced size, and acceptance. [max_abs] is the largest
    absolute value of a list. *)
Theorem C09_deduced_box_exact :
  forall (c : cfg) (parts : list (list R)) (r : red)
    (Hdim : Forall (fun p => length p = dim c) parts)
    (Hsched : spans r 0 (length parts))
    (Hcount : (N.of_nat (length parts) <= diff_max)%N),
  exists M, determine_box_size Rops (dim c) parts r = Ok (21 / 10 * M)
  /\ (forall p x, In p parts -> In x p -> Rabs x <= M)
  /\ (M = 0 \/ exists p x, In p parts /\ In x p /\ Rabs x = M)
  /\ (forall p x, In p parts -> In x p -> 0 < M ->
        exists k, disc_single_coord Rops c false x (1 / (21 / 10 * M)) = Ok k).
Proof.
  intros c parts r Hdim Hsched Hcount. exists (max_abs (concat parts)).
  split; [apply boxR; auto; destruct c; simpl; lia|]. split; [|split].
  - intros p x Hp Hx. apply max_abs_In, in_concat. eauto.
  - assert (A : forall l, max_abs l = 0 \/ exists x, In x l /\ Rabs x = max_abs l).
    { induction l as [|y l IH]; [now left|]. right. cbn [max_abs fold_right]. fold (max_abs l).
      destruct (Rle_dec (max_abs l) (Rabs y)) as [L|L].
      - exists y. split; [now left|]. now rewrite Rmax_left.
      - assert (0 <= Rabs y) by apply Rabs_pos.
        destruct IH as [IH|(x & Hx & E)]; [lra|]. exists x. split; [now right|].
        rewrite Rmax_right by lra. exact E. }
    destruct (A (concat parts)) as [E|(x & Hx & E)]; [now left|]. right.
    apply in_concat in Hx as (p & Hp & Hx). eauto.
  - intros p x Hp Hx HM. apply boxR_accepts; eauto.
Qed.
Print Assumptions C09_deduced_box_exact.

(** C09, IEEE arithmetic. *)
Theorem C09_deduced_box_accepts :
  forall (prec emax : Z) (Hprec : Prec_gt_0 prec) (Hemax : Prec_lt_emax prec emax) (fused : bool)
    (Hprec8 : (8 <= prec)%Z) (Hrange : (prec + 4 <= emax)%Z)
    (c : cfg) (Hwide : (Z.of_N (cbitsc c) < emax)%Z)
    (parts : list (list (binary_float prec emax))) (r : red)
    (Hdim : Forall (fun p => length p = dim c) parts)
    (Hsched : spans r 0 (length parts)),
  let O := Bops prec emax Hprec Hemax fused in
  (* the deduced size is not smaller than 2 max |x|, and everything is accepted *)
  (forall b, determine_box_size O (dim c) parts r = Ok b ->
     bpow radix2 (10 - emax) <= B2R b <= bpow radix2 (emax - 2) ->
     forall p x, In p parts -> In x p ->
       is_finite x = true
       /\ exists k, disc_single_coord O c false x (fdiv O (fofZ O 1%Z) b) = Ok k)
  (* failures *)
  /\ (forall e, determine_box_size O (dim c) parts r = Throw e ->
        e = InvalidArgument \/ e = OverflowError /\ (diff_max < N.of_nat (length parts))%N)
  /\ determine_box_size O (dim c) parts r <> UB
  (* all coordinates zero *)
  /\ ((N.of_nat (length parts) <= diff_max)%N ->
      Forall (Forall (fun x => is_finite x = true /\ B2R x = 0)) parts ->
      exists b, determine_box_size O (dim c) parts r = Ok b /\ B2R b = 0
        /\ forall p, In p parts -> particle_code O c p (fdiv O (fofZ O 1%Z) b) = Throw InvalidArgument).
Proof.
  intros prec emax Hprec Hemax fused Hprec8 Hrange c Hwide parts r Hdim Hsched O.
  assert (Hd : (0 < dim c)%nat) by (destruct c; simpl; lia).
  pose proof (box_value prec emax Hprec Hemax fused (dim c) parts r Hd Hdim Hsched) as V. fold O in V.
  split; [|split; [|split]].
  - intros b Hb Hr p x Hp Hx. rewrite Hb in V. destruct V as (Vf & M & _ & _ & _ & Vb). split.
    + unfold all_fin in Vf. rewrite Forall_forall in Vf. specialize (Vf p Hp).
      rewrite Forall_forall in Vf. exact (Vf x Hx).
    + refine (deduced_accepts prec emax Hprec Hemax fused Hprec8 Hrange c Hwide (dim c) parts r b
        Hd Hdim Hsched Hb _ p x Hp Hx). split; [exact Vb|exact Hr].
  - intros e He. rewrite He in V. exact V.
  - intros He. rewrite He in V. exact V.
  - intros Hn Hz. exact (all_zero_throws prec emax Hprec Hemax fused Hprec8 c Hwide parts r Hdim Hsched Hn Hz).
Qed.
Print Assumptions C09_deduced_box_accepts.

Definition C09_parts : list (list (binary_float 53 1024)) :=
  [[F64 1 0; F64 (-7) 0]; [F64 3 (-1); F64 0 0]; [F64 5 0; F64 (-1) (-3)]].
Definition C09_sched : red := Join (Feed Start 0 1) (Feed Start 1 3).

Example C09_ex :
  let O := F64ops true in
  spans C09_sched 0 3
  /\ (do b <- determine_box_size O 2 C09_parts C09_sched; Ok (B2SF b)) = Ok (SpecFloat.S754_finite false 8275364315293286 (-49))
  /\ (do b <- determine_box_size O 2 C09_parts C09_sched;
      mapM (fun p => particle_code O C2_64 p (fdiv O (F64 1 0) b)) C09_parts)
     = Ok [1173827279584878926%N; 3481564353152422976%N; 2228693316507017396%N]
  /\ particle_code O C2_64 [F64 0 0; F64 0 0] (fdiv O (F64 1 0) (F64 0 0)) = Throw InvalidArgument.
Proof.
  split; [exists 1%nat; simpl; lia|]. split; [vm_compute; reflexivity|].
  split; vm_compute; reflexivity.
Qed.

(** C10. Any two reduction shapes over the whole range give the same outcome. *)
Theorem C10_box_schedule_independent :
  forall (prec emax : Z) (Hprec : Prec_gt_0 prec) (Hemax : Prec_lt_emax prec emax) (fused : bool)
    (ndim : nat) (parts : list (list (binary_float prec emax))) (r1 r2 : red)
    (Hdim : Forall (fun p => length p = ndim) parts)
    (Hsched1 : spans r1 0 (length parts))
    (Hsched2 : spans r2 0 (length parts)),
  determine_box_size (Bops prec emax Hprec Hemax fused) ndim parts r1 =
  determine_box_size (Bops prec emax Hprec Hemax fused) ndim parts r2.
Proof. exact box_schedule. Qed.
Print Assumptions C10_box_schedule_independent.

Example C10_ex :
  let r1 := Feed Start 0 3 in
  let r2 := Join (Feed Start 0 2) (Join (Feed (Feed Start 2 2) 2 3) Start) in
  spans r1 0 3 /\ spans r2 0 3
  /\ (do b <- determine_box_size (F64ops false) 2 C09_parts r1; Ok (B2SF b))
     = (do b <- determine_box_size (F64ops false) 2 C09_parts r2; Ok (B2SF b))
  /\ determine_box_size (F64ops false) 1 [[F64 1 0]; [B754_nan]; [F64 1 0]] r1 = Throw InvalidArgument.
Proof.
  repeat split; try (vm_compute; reflexivity); try lia.
  exists 2%nat. simpl. repeat split; try lia. exists 3%nat. lia.
Qed.
