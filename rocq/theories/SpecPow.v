(** What is assumed about the platform's [powf]: a finite result with a small
    relative error wherever the exact power is well inside the range of the
    type.  (Rust leaves the precision unspecified; common libm's are within a
    few units in the last place, i.e. far more accurate.) *)
From Verif Require Import Base Arith Ieee.
From Flocq Require Import IEEE754.BinarySingleNaN Core.Core.
From Coq Require Import Reals.
Open Scope R_scope.

(** f64: relative error at most 2^-40. *)
Definition pow64_accurate (pow64 : b64 -> b64 -> b64) : Prop :=
  forall x y : b64, is_finite x = true -> is_finite y = true -> 0 < B2R x ->
    bpow radix2 (-1000) <= Rpower (B2R x) (B2R y) <= bpow radix2 1000 ->
    is_finite (pow64 x y) = true /\
    Rabs (B2R (pow64 x y) - Rpower (B2R x) (B2R y)) <= bpow radix2 (-40) * Rpower (B2R x) (B2R y).

(** f32: relative error at most 2^-20 (8 times the spacing of f32), and
    [0.powf(y) = 0], [1.powf(y) = 1] for y > 0. *)
Definition pow32_accurate (pow32 : b32 -> b32 -> b32) : Prop :=
  (forall x y : b32, is_finite x = true -> is_finite y = true -> 0 < B2R x ->
    bpow radix2 (-100) <= Rpower (B2R x) (B2R y) <= bpow radix2 100 ->
    is_finite (pow32 x y) = true /\
    Rabs (B2R (pow32 x y) - Rpower (B2R x) (B2R y)) <= bpow radix2 (-20) * Rpower (B2R x) (B2R y)) /\
  (forall y : b32, is_finite y = true -> 0 < B2R y -> pow32 (B754_zero false) y = B754_zero false).
