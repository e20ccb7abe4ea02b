(** The vector versions of [f_pixel::diff] in src/pal.rs.

    [Pal.diff] is the portable version (37-51).  The compiler picks exactly one
    of the three by target: x86-64 (86-114), AArch64 with NEON (53-84), or the
    portable one.  A vector register is modelled by its four lanes; memory
    order is the field order of [ARGBF], so lane 0 is alpha. *)
From Verif Require Import Base Arith Pal.
Section Simd.
Context {A : Arith}.

Record lanes := Lanes { l0 : f32; l1 : f32; l2 : f32; l3 : f32 }.
(** [_mm_loadu_ps] / [vld1q_f32] of an [f_pixel]. *)
Definition load (p : px) : lanes := Lanes (pa p) (pr p) (pg p) (pb p).
(** lane-wise instructions: [_mm_sub_ps], [_mm_add_ps], [_mm_mul_ps] and the
    NEON [vsubq_f32], [vaddq_f32], [vmulq_f32] *)
Definition lanewise (f : f32 -> f32 -> f32) (x y : lanes) : lanes :=
  Lanes (f (l0 x) (l0 y)) (f (l1 x) (l1 y)) (f (l2 x) (l2 y)) (f (l3 x) (l3 y)).
(** [_mm_shuffle_ps(x, x, 0)] / [vdupq_laneq_f32(x, 0)] *)
Definition splat0 (x : lanes) : lanes := Lanes (l0 x) (l0 x) (l0 x) (l0 x).
(** [_mm_sub_ss]: only lane 0 is computed, the others come from the first operand. *)
Definition sub_ss (x y : lanes) : lanes := Lanes (l0 x -f l0 y) (l1 x) (l2 x) (l3 x).
(** One lane of [_mm_max_ps(x, y)]: [x > y ? x : y]; the second operand when
    the two are equal or either is NaN. *)
Definition maxps (x y : f32) : f32 := if x >f y then x else y.
(** One lane of [vmaxq_f32(x, y)]: NaN when either operand is (the sum of the
    operands is then NaN).  The squares it is used on are never negative zero,
    so the sign of a zero maximum is not modelled. *)
Definition fmaxneon (x y : f32) : f32 :=
  if negb (x =f x) || negb (y =f y) then x +f y else if x >f y then x else y.

(** src/pal.rs:86-114 *)
Definition diff_x86 (s o : px) : f32 :=
  let x := load s in
  let y := load o in
  let alphas := splat0 (sub_ss y x) in
  let onblack := lanewise fsub x y in
  let onwhite := lanewise fadd onblack alphas in
  let onblack := lanewise fmul onblack onblack in
  let onwhite := lanewise fmul onwhite onwhite in
  let tmp := lanewise maxps onwhite onblack in
  l1 tmp +f l2 tmp +f l3 tmp.

(** [vpaddq_f32(x, x)]: sums of neighbouring lanes. *)
Definition paddq (x : lanes) : lanes := Lanes (l0 x +f l1 x) (l2 x +f l3 x) (l0 x +f l1 x) (l2 x +f l3 x).

(** src/pal.rs:53-84 *)
Definition diff_neon (s o : px) : f32 :=
  let x := load s in
  let y := load o in
  let alphas := splat0 (lanewise fsub y x) in
  let onblack := lanewise fsub x y in
  let onwhite := lanewise fadd onblack alphas in
  let onblack := lanewise fmul onblack onblack in
  let onwhite := lanewise fmul onwhite onwhite in
  let max := lanewise fmaxneon onwhite onblack in
  l1 max +f l1 (paddq max).
End Simd.
