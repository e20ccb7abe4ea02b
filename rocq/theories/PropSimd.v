(** The colour difference on the three families of targets (property C52). *)
From Coq Require Import Reals.
From Verif Require Import Base Arith Ieee SmallFloat RealArith Pal PalSimd SimdFacts.
From Flocq Require Import IEEE754.BinarySingleNaN.

(** C52 (I).  The x86-64 vector code computes bit for bit what the portable
    code computes, for all channel values: NaN, infinities and signed zeros
    included (NaN payloads are not modelled). *)
Theorem C52_x86_identical : forall (pow32 : b32 -> b32 -> b32) (pow64 : b64 -> b64 -> b64) (s o : @px (ieee pow32 pow64)),
  @diff_x86 (ieee pow32 pow64) s o = @diff (ieee pow32 pow64) s o.
Proof. exact diff_x86_ieee. Qed.
Print Assumptions C52_x86_identical.

(** C52 (R).  Without rounding all three are the same function. *)
Theorem C52_exact_arithmetic : forall (big : R) (s o : @px (real big)),
  @diff_x86 (real big) s o = @diff (real big) s o /\ @diff_neon (real big) s o = @diff (real big) s o.
Proof. exact (fun big s o => conj (diff_x86_real big s o) (diff_neon_real big s o)). Qed.
Print Assumptions C52_exact_arithmetic.

(** C52 (I).  The NEON code differs from the portable one by at most 2^-21 of
    the difference, for channels of magnitude at most 2^30. *)
Theorem C52_neon_close : forall (pow32 : b32 -> b32 -> b32) (pow64 : b64 -> b64 -> b64) (s o : @px (ieee pow32 pow64)),
  small_px pow32 pow64 s -> small_px pow32 pow64 o ->
  let d := @diff (ieee pow32 pow64) s o : b32 in
  let n := @diff_neon (ieee pow32 pow64) s o : b32 in
  is_finite d = true /\ is_finite n = true /\ (Rabs (B2R n - B2R d) <= / 2097152 * B2R d)%R.
Proof. exact diff_neon_ieee. Qed.
Print Assumptions C52_neon_close.

(** Opaque colours with channels in 4096ths. *)
Definition c12 (pow32 : b32 -> b32 -> b32) (pow64 : b64 -> b64 -> b64) (r g b : Z) : @px (ieee pow32 pow64) :=
  @Px (ieee pow32 pow64) (@fofZ (ieee pow32 pow64) 1) (@flit (ieee pow32 pow64) r 4096) (@flit (ieee pow32 pow64) g 4096) (@flit (ieee pow32 pow64) b 4096).

(** C52: the stronger claim that every target picks the same nearest colour is
    false: black is nearer to one colour on x86-64, and to another with NEON. *)
Theorem C52_neon_nearest_refuted : forall (pow32 : b32 -> b32 -> b32) (pow64 : b64 -> b64 -> b64), exists p c1 c2 : @px (ieee pow32 pow64),
  @flt (ieee pow32 pow64) (@diff_x86 (ieee pow32 pow64) p c1) (@diff_x86 (ieee pow32 pow64) p c2) = true /\
  @flt (ieee pow32 pow64) (@diff_neon (ieee pow32 pow64) p c2) (@diff_neon (ieee pow32 pow64) p c1) = true.
Proof. exact (fun p q => ex_intro _ (c12 p q 0 0 0) (ex_intro _ (c12 p q 3517 2394 2569) (ex_intro _ (c12 p q 2003 3081 3346) (conj eq_refl eq_refl)))). Qed.
Print Assumptions C52_neon_nearest_refuted.

(** The difference of a half transparent red and a blue, the same bits on x86-64 and with NEON: 0.65625. *)
Example C52_example :
  let A := ieee (fun x _ => x) (fun x _ => x) in
  let s := @Px A (@flit A 1 2) (@flit A 1 2) (@fofZ A 0) (@fofZ A 0) in
  let o := @Px A (@flit A 5 8) (@fofZ A 0) (@fofZ A 0) (@flit A 1 2) in
  (Beqb (@diff A s o) (@flit A 21 32), Beqb (@diff_x86 A s o) (@diff A s o), Beqb (@diff_neon A s o) (@diff A s o)) = (true, true, true).
Proof. vm_compute. reflexivity. Qed.
