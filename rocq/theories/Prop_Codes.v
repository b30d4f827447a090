(** Properties C01-C04: Morton codes and levels. *)
From Coq Require Import List Arith NArith ZArith Lia Bool.
From Verif Require Import Base Config MortonLUT Morton MortonProofs CodesProofs.
Import ListNotations.
Open Scope N_scope.

(** C01. Bit [d*i+k] of the code is bit [i] of coordinate [k], and no other bit is set. *)
Theorem C01_morton_interleaves_bits :
  forall (c : cfg) (cs : list N)
    (Hlen : length cs = dim c)
    (Hrange : Forall (fun x => x < 2 ^ cbitsc c) cs),
  exists code, morton_encode c cs = Ok code
    /\ code < 2 ^ (dimN c * cbitsc c)
    /\ dimN c * cbitsc c < width c
    /\ forall (i : N) (k : nat), (k < dim c)%nat ->
         N.testbit code (dimN c * i + N.of_nat k) = N.testbit (nth k cs 0) i.
Proof.
  intros c cs Hlen Hrange.
  destruct (morton_encode_testbit c cs Hlen Hrange) as [code [He Hb]].
  exists code. split; [exact He|]. split; [exact (morton_encode_lt c cs code Hlen Hrange He)|].
  split; [destruct c; reflexivity|].
  intros i k Hk. rewrite Hb. pose proof (dim_dimN c). pose proof (dimN_pos c).
  rewrite N.add_comm, N.mul_comm, N.mod_add by lia. rewrite N.div_add by lia.
  rewrite N.mod_small, N.div_small by lia. rewrite Nnat.Nat2N.id. reflexivity.
Qed.
Print Assumptions C01_morton_interleaves_bits.

Example C01_ex :
  morton_encode C3_64 [2097151; 0; 1398101] = Ok 6002511960492790605
  /\ Forall (fun x => x < 2 ^ cbitsc C3_64) [2097151; 0; 1398101].
Proof. split; [vm_compute; reflexivity | repeat constructor]. Qed.

(** C02. Round trips, hence injectivity. *)
Theorem C02_morton_round_trip :
  forall (c : cfg),
  (forall cs code (Hlen : length cs = dim c)
     (Hrange : Forall (fun x => x < 2 ^ cbitsc c) cs),
     morton_encode c cs = Ok code -> morton_decode c code = cs)
  /\ (forall code (Hcode : code < 2 ^ (dimN c * cbitsc c)),
     Forall (fun x => x < 2 ^ cbitsc c) (morton_decode c code)
     /\ morton_encode c (morton_decode c code) = Ok code)
  /\ (forall cs1 cs2 (Hlen1 : length cs1 = dim c) (Hlen2 : length cs2 = dim c)
     (Hr1 : Forall (fun x => x < 2 ^ cbitsc c) cs1)
     (Hr2 : Forall (fun x => x < 2 ^ cbitsc c) cs2),
     morton_encode c cs1 = morton_encode c cs2 -> cs1 = cs2).
Proof.
  intros c. split; [|split].
  - intros cs code Hl HF. exact (decode_encode c cs code Hl HF).
  - intros code H. split; [exact (proj2 (decode_range c code H)) | exact (encode_decode c code H)].
  - intros cs1 cs2 Hl1 Hl2 HF1 HF2 H.
    destruct (morton_encode_testbit c cs1 Hl1 HF1) as [code [He _]].
    rewrite <- (decode_encode c cs1 code Hl1 HF1 He).
    rewrite <- (decode_encode c cs2 code Hl2 HF2); [reflexivity | congruence].
Qed.
Print Assumptions C02_morton_round_trip.

Example C02_ex : morton_decode C2_32 123456789 = [15799; 5024]
  /\ morton_encode C2_32 [15799; 5024] = Ok 123456789
  /\ 123456789 < 2 ^ (dimN C2_32 * cbitsc C2_32).
Proof. repeat split; vm_compute; reflexivity. Qed.

(** C03. At level [l], equal code prefixes mean equal grid cells. *)
Theorem C03_code_prefix_is_cell :
  forall (c : cfg) (cs1 cs2 : list N) (code1 code2 l : N)
    (Hlen1 : length cs1 = dim c) (Hlen2 : length cs2 = dim c)
    (Hr1 : Forall (fun x => x < 2 ^ cbitsc c) cs1)
    (Hr2 : Forall (fun x => x < 2 ^ cbitsc c) cs2)
    (He1 : morton_encode c cs1 = Ok code1) (He2 : morton_encode c cs2 = Ok code2)
    (Hl : l <= cbitsc c),
  (code1 / 2 ^ (dimN c * (cbitsc c - l)) = code2 / 2 ^ (dimN c * (cbitsc c - l)) <->
   map (fun x => x / 2 ^ (cbitsc c - l)) cs1 = map (fun x => x / 2 ^ (cbitsc c - l)) cs2).
Proof.
  intros. rewrite <- !N.shiftr_div_pow2.
  rewrite (map_ext _ (fun x => N.shiftr x (cbitsc c - l)) (fun x => eq_sym (N.shiftr_div_pow2 x _)) cs1).
  rewrite (map_ext _ (fun x => N.shiftr x (cbitsc c - l)) (fun x => eq_sym (N.shiftr_div_pow2 x _)) cs2).
  exact (prefix_cells c cs1 cs2 code1 code2 (cbitsc c - l) Hlen1 Hr1 Hlen2 Hr2 He1 He2).
Qed.
Print Assumptions C03_code_prefix_is_cell.

(** Two points in the same quarter of the box, but in different sixteenths. *)
Example C03_ex :
  exists code1 code2,
  morton_encode C2_32 [20000; 3] = Ok code1 /\ morton_encode C2_32 [30000; 4000] = Ok code2
  /\ map (fun x => x / 2 ^ (15 - 1)) [20000; 3] = map (fun x => x / 2 ^ (15 - 1)) [30000; 4000]
  /\ map (fun x => x / 2 ^ (15 - 2)) [20000; 3] <> map (fun x => x / 2 ^ (15 - 2)) [30000; 4000].
Proof. do 2 eexists. repeat split; try (vm_compute; reflexivity). vm_compute. discriminate. Qed.

(** C04. [cbits] is the largest number of bits per coordinate leaving room for the leading 1,
    and the level of the nodal code "1 followed by the [d*l] bits of cell p" is [l]. *)
Theorem C04_levels :
  (forall w d (Hd : 0 < d) (Hw : d < w),
     d * cbits w d < w /\ (forall b, d * b < w -> b <= cbits w d))
  /\ (forall w d l p (Hd : 0 < d) (Hw : d < w) (Hl : l <= cbits w d) (Hp : p < 2 ^ (d * l)),
     2 ^ (d * l) + p < 2 ^ w /\ tree_level w d (2 ^ (d * l) + p) = l).
Proof.
  split.
  - intros w d Hd Hw. destruct (cbits_spec w d Hd Hw) as [H1 [H2 _]].
    split; [exact H1|]. intros b Hb. nia.
  - intros w d l p Hd Hw Hl Hp. destruct (cbits_spec w d Hd Hw) as [H1 [H2 _]].
    split; [exact (nodal_lt w d l p Hd Hw Hl Hp)|].
    apply (tree_level_nodal w d l p Hd); [nia | exact Hp].
Qed.
Print Assumptions C04_levels.

Example C04_ex : cbits 64 3 = 21 /\ cbits 32 2 = 15 /\ tree_level 64 3 (2 ^ (3 * 21) + 5) = 21.
Proof. repeat split; vm_compute; reflexivity. Qed.
