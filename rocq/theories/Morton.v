(** Morton encoders and decoders used by the tree. *)
From Coq Require Import List Arith NArith Lia Bool.
From Verif Require Import Base Config MortonLUT.
Import ListNotations.
Open Scope N_scope.

(** The (dimension, code type) combinations for which tree.hpp 217-372 defines an encoder and a
    decoder; any other combination does not compile. *)
Inductive cfg := C3_64 | C3_32 | C2_64 | C2_32.

Definition dimN (c : cfg) : N := match c with C3_64 | C3_32 => 3 | _ => 2 end.
Definition dim (c : cfg) : nat := match c with C3_64 | C3_32 => 3%nat | _ => 2%nat end.
Definition width (c : cfg) : N := match c with C3_64 | C2_64 => 64 | _ => 32 end.
(** tree.hpp 683, [cbits]. *)
Definition cbitsc (c : cfg) : N := cbits (width c) (dimN c).

(** Table lookup. All the indices below are masked to the table size, so the access is always in
    bounds (see [lut_lengths] in MortonProofs.v). *)
Definition lut (t : list N) (i : N) : N := nth (N.to_nat i) t 0.

(** detail/libmorton/morton3D.h 37-49, [m3D_e_sLUT<morton, uint32_t>], one iteration of the loop;
    [w] is the width of the morton type. *)
Definition m3D_e_step (w x y z : N) (answer i : N) : N :=
  let shift := (i - 1) * 8 in
  wrap w (N.lor (wrap w (N.shiftl answer 24))
    (N.lor (N.lor (lut Morton3D_encode_z_256 (N.land (N.shiftr z shift) 255))
                  (lut Morton3D_encode_y_256 (N.land (N.shiftr y shift) 255)))
           (lut Morton3D_encode_x_256 (N.land (N.shiftr x shift) 255)))).

(** detail/libmorton/morton3D.h 37-49: [i] goes from [sizeof(coord)] = 4 down to 1. *)
Definition m3D_e_sLUT (w x y z : N) : N :=
  fold_left (m3D_e_step w x y z) [4; 3; 2; 1] 0.

(** detail/libmorton/morton2D.h 36-47, [m2D_e_sLUT<morton, uint32_t>], one iteration. *)
Definition m2D_e_step (w x y : N) (answer i : N) : N :=
  let shift := (i - 1) * 8 in
  wrap w (N.lor (N.lor (wrap w (N.shiftl answer 16))
                       (lut Morton2D_encode_y_256 (N.land (N.shiftr y shift) 255)))
                (lut Morton2D_encode_x_256 (N.land (N.shiftr x shift) 255))).

(** detail/libmorton/morton2D.h 36-47. *)
Definition m2D_e_sLUT (w x y : N) : N :=
  fold_left (m2D_e_step w x y) [4; 3; 2; 1] 0.

(** tree.hpp 217-299, [morton_encoder::operator()]: the coordinates are converted to [uint32_t] and
    encoded. A call with a number of coordinates different from the dimension reads out of
    bounds. *)
Definition morton_encode (c : cfg) (cs : list N) : outcome N :=
  match c, cs with
  | C3_64, [x; y; z] => Ok (m3D_e_sLUT 64 (wrap 32 x) (wrap 32 y) (wrap 32 z))
  | C3_32, [x; y; z] => Ok (m3D_e_sLUT 32 (wrap 32 x) (wrap 32 y) (wrap 32 z))
  | C2_64, [x; y] => Ok (m2D_e_sLUT 64 (wrap 32 x) (wrap 32 y))
  | C2_32, [x; y] => Ok (m2D_e_sLUT 32 (wrap 32 x) (wrap 32 y))
  | _, _ => UB
  end.

(** [0; 1; ...; n-1]. *)
Fixpoint upto (n : nat) : list N :=
  match n with O => [] | S n' => upto n' ++ [N.of_nat n'] end.

(** detail/libmorton/morton3D.h 165-173, [morton3D_DecodeCoord_LUT256] with [startshift] = 0;
    [w] is the width of the morton type, [cw] that of the coordinate type. *)
Definition morton3D_DecodeCoord_LUT256 (w cw m : N) (t : list N) : N :=
  let loops := if w <=? 32 then 4%nat else 7%nat in
  wrap cw (fold_left
    (fun a i => N.lor a (wrap w (N.shiftl (lut t (N.land (N.shiftr m (i * 9)) 511)) (3 * i))))
    (upto loops) 0).

(** detail/libmorton/morton2D.h 153-161, [morton2D_DecodeCoord_LUT256] with [startshift] = 0. *)
Definition morton2D_DecodeCoord_LUT256 (w cw m : N) (t : list N) : N :=
  let loops := N.to_nat (w / 8) in
  wrap cw (fold_left
    (fun a i => N.lor a (wrap w (N.shiftl (lut t (N.land (N.shiftr m (i * 8)) 255)) (4 * i))))
    (upto loops) 0).

(** tree.hpp 302-372, [morton_decoder::operator()], through detail/libmorton/morton3D.h 176-181
    ([m3D_d_sLUT]) and detail/libmorton/morton2D.h 164-168 ([m2D_d_sLUT]). *)
Definition morton_decode (c : cfg) (code : N) : list N :=
  match c with
  | C3_64 => [morton3D_DecodeCoord_LUT256 64 32 code Morton3D_decode_x_512;
              morton3D_DecodeCoord_LUT256 64 32 code Morton3D_decode_y_512;
              morton3D_DecodeCoord_LUT256 64 32 code Morton3D_decode_z_512]
  | C3_32 => [morton3D_DecodeCoord_LUT256 32 16 code Morton3D_decode_x_512;
              morton3D_DecodeCoord_LUT256 32 16 code Morton3D_decode_y_512;
              morton3D_DecodeCoord_LUT256 32 16 code Morton3D_decode_z_512]
  | C2_64 => [morton2D_DecodeCoord_LUT256 64 32 code Morton2D_decode_x_256;
              morton2D_DecodeCoord_LUT256 64 32 code Morton2D_decode_y_256]
  | C2_32 => [morton2D_DecodeCoord_LUT256 32 16 code Morton2D_decode_x_256;
              morton2D_DecodeCoord_LUT256 32 16 code Morton2D_decode_y_256]
  end.
