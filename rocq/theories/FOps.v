(** Floating-point interface of the model and its two instances. *)
From Coq Require Import List ZArith NArith Reals Bool.
From Flocq Require Import Core BinarySingleNaN.
From Verif Require Import Base.
Local Open Scope Z_scope.

(** Operations of the C++ floating-point type [F] used by the code. *)
Record fops (F : Type) := mkFops {
  fofZ : Z -> F;                 (* F(n), conversion from an integer *)
  fadd : F -> F -> F;
  fsub : F -> F -> F;
  fmul : F -> F -> F;
  fdiv : F -> F -> F;
  ffma : F -> F -> F -> F;       (* fma_wrap(x, y, z), tree.hpp 182-207 *)
  fsqrt : F -> F;
  fabs : F -> F;
  fopp : F -> F;
  flt : F -> F -> bool;          (* x < y, false on NaN *)
  fle : F -> F -> bool;
  feq : F -> F -> bool;
  ffin : F -> bool;              (* std::isfinite *)
  ftrunc : F -> Z;               (* truncation of a finite value *)
  fpred : F -> F                 (* std::nextafter towards a smaller value *)
}.
Arguments mkFops {F} _ _ _ _ _ _ _ _ _ _ _ _ _ _ _.
Arguments fofZ {F} _ _. Arguments fadd {F} _ _ _. Arguments fsub {F} _ _ _.
Arguments fmul {F} _ _ _. Arguments fdiv {F} _ _ _. Arguments ffma {F} _ _ _ _.
Arguments fsqrt {F} _ _. Arguments fabs {F} _ _. Arguments fopp {F} _ _.
Arguments flt {F} _ _ _. Arguments fle {F} _ _ _. Arguments feq {F} _ _ _.
Arguments ffin {F} _ _. Arguments ftrunc {F} _ _. Arguments fpred {F} _ _.

(** Exact arithmetic. [fpred] has no exact counterpart: [x - 1/2] stands for "a value slightly
    smaller than [x]"; it is applied only to the integer [factor] in the clamping
    discretisation, where every choice in [factor - 1, factor) gives the same result. *)
Definition Rltb (x y : R) : bool := if Rlt_dec x y then true else false.
Definition Rleb (x y : R) : bool := if Rle_dec x y then true else false.
Definition Reqb (x y : R) : bool := if Req_EM_T x y then true else false.

Definition Rops : fops R :=
  mkFops IZR Rplus Rminus Rmult Rdiv (fun x y z => x * y + z)%R sqrt Rabs Ropp
         Rltb Rleb Reqb (fun _ => true) Ztrunc (fun x => x - / 2)%R.

(** IEEE-754 binary floating point: [binary_float prec emax] with correct rounding to nearest even,
    the default environment (all NaNs identified). [float] is (24, 128), [double] (53, 1024), x87
    [long double] (64, 16384). [fused] tells whether [fma_wrap] uses [std::fma] or a
    multiplication followed by an addition (tree.hpp 182-207). *)
Section IEEE.

Variables prec emax : Z.
Context (Hprec : Prec_gt_0 prec).
Context (Hemax : Prec_lt_emax prec emax).
Variable fused : bool.

Notation bf := (binary_float prec emax).

Notation md := mode_NE.

Definition b_fma (x y z : bf) : bf :=
  if fused then Bfma md x y z else Bplus md (Bmult md x y) z.

Definition Bops : fops bf :=
  mkFops (fun n => binary_normalize prec emax _ _ md n 0 false)
         (Bplus md) (Bminus md) (Bmult md) (Bdiv md) b_fma
         (Bsqrt md) (@Babs prec emax) (@Bopp prec emax)
         (@Bltb prec emax) (@Bleb prec emax) (@Beqb prec emax) (@is_finite prec emax)
         (@Btrunc prec emax) (@Bpred prec emax _ _).

End IEEE.

(** Single and double precision, round to nearest even. *)
Definition prec32 : Prec_gt_0 24 := eq_refl.
Definition emax32 : Prec_lt_emax 24 128 := eq_refl.
Definition prec64 : Prec_gt_0 53 := eq_refl.
Definition emax64 : Prec_lt_emax 53 1024 := eq_refl.
Definition F32ops (fused : bool) := Bops 24 128 prec32 emax32 fused.
Definition F64ops (fused : bool) := Bops 53 1024 prec64 emax64 fused.
(** [m * 2^e] as a double / float (for examples). *)
Definition F64 (m e : Z) : binary_float 53 1024 := binary_normalize 53 1024 prec64 emax64 mode_NE m e false.
Definition F32 (m e : Z) : binary_float 24 128 := binary_normalize 24 128 prec32 emax32 mode_NE m e false.
