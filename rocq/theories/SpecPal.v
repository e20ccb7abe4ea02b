(** Small vocabulary for the palette properties. *)
From Verif Require Import Base Arith Pal World Attr Hist ImageM Quant Remap SpecImage Api AttrFacts.
Open Scope Z_scope.

(** An 8-bit value on a grid of [2^(8-b)] levels: its low [b] bits repeat its
    high [b] bits. *)
Definition posterized (b v : Z) : Prop := v mod 2 ^ b = v / 2 ^ (8 - b).
Definition posterized_color (b : Z) (c : rgba) : Prop :=
  posterized b (cr c) /\ posterized b (cg c) /\ posterized b (cb c) /\ posterized b (ca c).
(** What is shown instead of a fully transparent colour. *)
Definition transparent_filler : rgba := Rgba 71 112 76 0.

Section Later.
Context {A : Arith}.
(** [later gam pal q q']: [q'] is [q] after any calls; set_output_gamma only
    if [gam], palette() only if [pal]. *)
Inductive later (gam pal : bool) : qresult -> qresult -> Prop :=
| la_refl q : later gam pal q q
| la_dither q q1 v q2 : later gam pal q q1 -> set_dithering_level q1 v = Ok q2 -> later gam pal q q2
| la_gamma q q1 v q2 : later gam pal q q1 -> gam = true -> set_output_gamma q1 v = Ok q2 -> later gam pal q q2
| la_palette q q1 : later gam pal q q1 -> pal = true -> later gam pal q (snd (palette q1))
| la_remap q q1 u cb i pxs buf w r q2 i' out w' : later gam pal q q1 -> unspec_ok u -> image_r i pxs ->
    remap_into u cb q1 i buf w = (r, (q2, i', out, w')) -> later gam pal q q2
| la_prepare q q1 u i pxs buf w r q2 i' out w' : later gam pal q q1 -> unspec_ok u -> image_r i pxs -> length buf = (i_w i * i_h i)%nat ->
    prepare_for_dithering u q1 i buf w = (r, (q2, i', out, w')) -> later gam pal q q2.
End Later.
