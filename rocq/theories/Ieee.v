(** IEEE-754 arithmetic (round to nearest even, one NaN) from Flocq as an
    instance of [Arith].  [powf] is not specified by Rust, so the two power
    functions are arguments. *)
From Verif Require Import Base Arith.
From Flocq Require Import IEEE754.BinarySingleNaN Core.Zaux Core.FLX.

Definition b32 := binary_float 24 128.
Definition b64 := binary_float 53 1024.
#[global] Instance prec32 : Prec_gt_0 24 := eq_refl.
#[global] Instance emax32 : Prec_lt_emax 24 128 := eq_refl.
#[global] Instance prec64 : Prec_gt_0 53 := eq_refl.
#[global] Instance emax64 : Prec_lt_emax 53 1024 := eq_refl.

Section Generic.
Variables (prec emax : Z).
Context {Hp : Prec_gt_0 prec} {He : Prec_lt_emax prec emax}.
Notation bf := (binary_float prec emax).

(** [f32::max]/[min]: the other operand if one is NaN. *)
Definition Bmax (x y : bf) : bf :=
  if is_nan x then y else if is_nan y then x else if Bltb x y then y else x.
Definition Bmin (x y : bf) : bf :=
  if is_nan x then y else if is_nan y then x else if Bltb y x then y else x.
Definition BofZ (z : Z) : bf := binary_normalize prec emax Hp He mode_NE z 0 false.
(** [as uN]: truncate, saturate, NaN is 0. *)
Definition Bto_uint (max : Z) (x : bf) : Z :=
  match x with
  | B754_zero _ => 0
  | B754_infinity s => if s then 0 else max
  | B754_nan => 0
  | B754_finite _ _ _ _ => Z.max 0 (Z.min max (Btrunc x))
  end.
End Generic.
Arguments Bmax {prec emax} _ _. Arguments Bmin {prec emax} _ _.
Arguments BofZ prec emax {Hp He} _.
Arguments Bto_uint {prec emax} _ _.

(** [as f64] / [as f32]: exact value, rounded. *)
Definition Bconv {p1 e1} (p2 e2 : Z) {Hp : Prec_gt_0 p2} {He : Prec_lt_emax p2 e2}
  (x : binary_float p1 e1) : binary_float p2 e2 :=
  match x with
  | B754_zero s => B754_zero s
  | B754_infinity s => B754_infinity s
  | B754_nan => B754_nan
  | B754_finite s m e _ => binary_normalize p2 e2 Hp He mode_NE (cond_Zopp s (Zpos m)) e s
  end.

Definition ieee (pow32 : b32 -> b32 -> b32) (pow64 : b64 -> b64 -> b64) : Arith := {|
  f32 := b32; f64 := b64;
  fadd := Bplus mode_NE; fsub := Bminus mode_NE; fmul := Bmult mode_NE; fdiv := Bdiv mode_NE;
  ffma := Bfma mode_NE; fneg := Bopp; fabs := Babs; fsqrt := Bsqrt mode_NE;
  fmax := Bmax; fmin := Bmin; fpow := pow32;
  flt := Bltb; fle := Bleb; feq := Beqb;
  fofZ := BofZ 24 128; fto_u8 := Bto_uint 255; fto_u32 := Bto_uint U32_MAX;
  finf := B754_infinity false; fmaxv := Bmax_float;
  dadd := Bplus mode_NE; dsub := Bminus mode_NE; dmul := Bmult mode_NE; ddiv := Bdiv mode_NE;
  dfma := Bfma mode_NE; dabs := Babs; dmax := Bmax; dmin := Bmin; dpow := pow64;
  dlt := Bltb; dle := Bleb; deq := Beqb;
  dofZ := BofZ 53 1024; dmaxv := Bmax_float;
  f2d := Bconv 53 1024; d2f := Bconv 24 128
|}.
