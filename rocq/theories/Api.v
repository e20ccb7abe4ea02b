(** Objects a program can hold: everything obtained from the constructors by
    any calls of the modelled functions (accepted or not), with any callbacks,
    schedules and unspecified behaviour. *)
From Verif Require Import Base Arith Pal World Attr Hist Nearest Kmeans Blur ImageM Quant Remap SpecHist SpecImage ImageFacts AttrFacts.
Section Api.
Context {A : Arith}.
Open Scope Z_scope.

(** [image_r i pxs]: [i] can be held and was made from the pixels [pxs].
    [result_r m q]: [q] can be held and comes from a quantization with
    [max_colors = m].  The hidden [prepare_for_dithering] is called with a
    buffer of the image's size. *)
Inductive hist_r : hist -> Prop :=
| hr_new a : usable a -> hist_r (hist_new a)
| hr_colors h es g h' : hist_r h -> Forall addition_ok es -> add_colors h es g = Ok h' -> hist_r h'
| hr_fixed h c g h' : hist_r h -> rgba_ok c -> hist_add_fixed_color h c g = Ok h' -> hist_r h'
| hr_image u cb a h i pxs w r h' i' w' : unspec_ok u -> usable a -> hist_r h -> image_r i pxs ->
    add_image u cb a (h, i, w) = (r, (h', i', w')) -> hist_r h'
| hr_quantize u cb a h w r h' w' : unspec_ok u -> usable a -> hist_r h ->
    hist_quantize u cb a (h, w) = (r, (h', w')) -> hist_r h'
with image_r : image -> list (list rgba) -> Prop :=
| ir_stride buf w h s g i : 0 <= w -> 0 <= h -> 0 <= s -> Forall rgba_ok buf ->
    image_new_stride buf w h s g = Ok i ->
    image_r i (strided rgba_default buf (Z.to_nat w) (Z.to_nat h) (Z.to_nat s))
| ir_fn cb w h g i : 0 <= w -> 0 <= h ->
    (forall y, (y < Z.to_nat h)%nat -> length (cb y) = Z.to_nat w /\ Forall rgba_ok (cb y)) ->
    image_new_fn cb w h g = Ok i -> image_r i (callback_rows cb (Z.to_nat h))
| ir_imp i pxs m i' : image_r i pxs -> Forall byte m -> set_importance_map i m = Ok i' -> image_r i' pxs
| ir_bg i pxs b bp i' : image_r i pxs -> image_r b bp -> set_background i b = Ok i' -> image_r i' pxs
| ir_fixed i pxs c i' : image_r i pxs -> rgba_ok c -> image_add_fixed_color i c = Ok i' -> image_r i' pxs
| ir_hist u cb a h i pxs w r h' i' w' : unspec_ok u -> usable a -> hist_r h -> image_r i pxs ->
    add_image u cb a (h, i, w) = (r, (h', i', w')) -> image_r i' pxs
| ir_quantize u cb a i pxs w r i' w' : unspec_ok u -> usable a -> image_r i pxs ->
    quantize u cb a (i, w) = (r, (i', w')) -> image_r i' pxs
| ir_remap u cb m q i pxs buf w r q' i' out w' : unspec_ok u -> result_r m q -> image_r i pxs ->
    remap_into u cb q i buf w = (r, (q', i', out, w')) -> image_r i' pxs
| ir_prepare u m q i pxs buf w r q' i' out w' : unspec_ok u -> result_r m q -> image_r i pxs -> length buf = (i_w i * i_h i)%nat ->
    prepare_for_dithering u q i buf w = (r, (q', i', out, w')) -> image_r i' pxs
with result_r : nat -> qresult -> Prop :=
| rr_hist u cb a h w q s' : unspec_ok u -> usable a -> hist_r h ->
    hist_quantize u cb a (h, w) = (Ok q, s') -> result_r (a_max_colors a) q
| rr_image u cb a i pxs w q s' : unspec_ok u -> usable a -> image_r i pxs ->
    quantize u cb a (i, w) = (Ok q, s') -> result_r (a_max_colors a) q
| rr_dither m q v q' : result_r m q -> set_dithering_level q v = Ok q' -> result_r m q'
| rr_gamma m q v q' : result_r m q -> set_output_gamma q v = Ok q' -> result_r m q'
| rr_palette m q : result_r m q -> result_r m (snd (palette q))
| rr_remap u cb m q i pxs buf w r q' i' out w' : unspec_ok u -> result_r m q -> image_r i pxs ->
    remap_into u cb q i buf w = (r, (q', i', out, w')) -> result_r m q'
| rr_prepare u m q i pxs buf w r q' i' out w' : unspec_ok u -> result_r m q -> image_r i pxs -> length buf = (i_w i * i_h i)%nat ->
    prepare_for_dithering u q i buf w = (r, (q', i', out, w')) -> result_r m q'.
End Api.

Scheme hist_r_mut := Minimality for hist_r Sort Prop
  with image_r_mut := Minimality for image_r Sort Prop
  with result_r_mut := Minimality for result_r Sort Prop.
Combined Scheme objects_ind from hist_r_mut, image_r_mut, result_r_mut.
