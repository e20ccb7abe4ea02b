(** The exact distance between two floating-point colours, in real numbers:
    for each channel the larger of the squared differences on black and on
    white. *)
From Coq Require Import Reals.
From Verif Require Import Base Arith Ieee Pal.
From Flocq Require Import IEEE754.BinarySingleNaN.
Open Scope R_scope.

Section Spec.
Variables (pow32 : b32 -> b32 -> b32) (pow64 : b64 -> b64 -> b64).
Notation Ar := (ieee pow32 pow64).
Definition val (x : b32) : R := B2R x.
Definition exact_dist (s o : @px Ar) : R :=
  let part (c : @px Ar -> b32) :=
    let black := val (c s) - val (c o) in
    let white := black + (val (@pa Ar o) - val (@pa Ar s)) in
    Rmax (black * black) (white * white) in
  sqrt (part (@pr Ar) + part (@pg Ar) + part (@pb Ar)).
(** Colours with all channels between 0 and 1, red and blue at most 1/2: the
    weights of the channels are 0.625, 0.5, 1 and 0.45. *)
Definition in_range (c : @px Ar) : Prop :=
  let within (x : b32) (top : R) := is_finite x = true /\ 0 <= val x <= top in
  within (@pa Ar c) 1 /\ within (@pr Ar c) (/ 2) /\ within (@pg Ar c) 1 /\ within (@pb Ar c) (/ 2).
End Spec.
