(** Vocabulary for the statement that the arithmetic stays finite. *)
From Verif Require Import Base Arith Pal World Attr Hist ImageM Quant Remap SpecHist SpecImage Api AttrFacts.
Open Scope Z_scope.

(** 255 for each pixel of an image of 2^31 pixels. *)
Definition image_total : Z := 547608330240.
Section Spec.
Context {A : Arith}.
(** How much was counted in a table. *)
Definition counted (h : hist) : Z := zsum (map (fun e => fst (snd e)) (hg_map h)).
(** Objects to quantize that have no fixed colours or are not huge. *)
Definition modest_hist (h : hist) : Prop := hg_fixed h = [] \/ counted h <= image_total.
Definition modest_image (i : image) : Prop := i_fixed i = [] \/ Z.of_nat (i_w i) * Z.of_nat (i_h i) <= 2147483648.
(** [q] was quantized from such an object, at speed 4 or more. *)
Definition swiftly_made u cb a (q : qresult) : Prop := unspec_ok u /\ usable a /\ 4 <= get_speed a /\
  ((exists h w s', hist_r h /\ modest_hist h /\ hist_quantize u cb a (h, w) = (Ok q, s')) \/
   (exists i pxs w s', image_r i pxs /\ modest_image i /\ quantize u cb a (i, w) = (Ok q, s'))).
(** [q'] is [q] after any calls, where a new gamma is a positive number. *)
Inductive then_ : qresult -> qresult -> Prop :=
| th_refl q : then_ q q
| th_dither q q1 v q2 : then_ q q1 -> set_dithering_level q1 v = Ok q2 -> then_ q q2
| th_gamma q q1 v q2 : then_ q q1 -> (d0 <d v)%flt = true -> set_output_gamma q1 v = Ok q2 -> then_ q q2
| th_palette q q1 : then_ q q1 -> then_ q (snd (palette q1))
| th_remap q q1 u cb i pxs buf w r q2 i' out w' : then_ q q1 -> unspec_ok u -> image_r i pxs ->
    remap_into u cb q1 i buf w = (r, (q2, i', out, w')) -> then_ q q2
| th_prepare q q1 u i pxs buf w r q2 i' out w' : then_ q q1 -> unspec_ok u -> image_r i pxs -> length buf = (i_w i * i_h i)%nat ->
    prepare_for_dithering u q1 i buf w = (r, (q2, i', out, w')) -> then_ q q2.
(** Some colour of the table was counted and is not one of the fixed colours,
    or there are no fixed colours. *)
Definition fixed_key (c : rgba) : rgba := if ca c =? 0 then Rgba 0 0 0 0 else c.
Definition ordinary_hist (h : hist) : Prop := hg_fixed h = [] \/
  (counted h <= image_total /\ exists e, In e (hg_map h) /\ 1 <= fst (snd e) /\ ~ In (fst e) (map (fun f => fixed_key (fst f)) (hg_fixed h))).
(** [q] was quantized from such a histogram or from an image without fixed
    colours, at speed 4 or more. *)
Definition ordinarily_made u cb a (q : qresult) : Prop := unspec_ok u /\ usable a /\ 4 <= get_speed a /\
  ((exists h w s', hist_r h /\ ordinary_hist h /\ hist_quantize u cb a (h, w) = (Ok q, s')) \/
   (exists i pxs w s', image_r i pxs /\ i_fixed i = [] /\ quantize u cb a (i, w) = (Ok q, s'))).
End Spec.
