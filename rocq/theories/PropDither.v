(** C32, C33: error diffusion, and remapping over a background. *)
From Verif Require Import Base BaseFacts Arith Order Pal World Attr Hist Nearest Kmeans Blur ImageM Quant Remap
  SpecHist SpecImage SpecDither ImageFacts AttrFacts Ieee USeq Api ResultFacts RealArith DitherZero DitherSpec DitherReal BgTop BgReal ContrastIeee BgIeee Witness.
From Flocq Require Import IEEE754.BinarySingleNaN.
From Coq Require Import Reals Lra.
Open Scope nat_scope.

(** C32.  Whatever the error and the level, a dithered colour keeps its alpha
    in [[0,1]] and its channels in [[-0.1,1.1]]. *)
Theorem C32_range : forall big, let A := real big in forall (level max_err : f32) (e p : px),
  near_gamut big p -> near_gamut big (get_dithered_pixel level max_err e p).
Proof. exact (fun big level max_err e p => dithered_in_range big level max_err e p). Qed.
Print Assumptions C32_range.
(** C32.  ... and the pixels of every image start in that range. *)
Theorem C32_pixels_in_range : forall big, let A := real big in forall (g : f64) c, (0 < g)%R -> rgba_ok c ->
  near_gamut big (from_rgba (gamma_lut g) c).
Proof. exact pixel_gamut. Qed.
Print Assumptions C32_pixels_in_range.
(** C32.  An error too small to see changes nothing, in any arithmetic. *)
Theorem C32_unnoticeable : forall (A : Arith) (level max_err : f32) (e p : px),
  let s := px_scale e level in
  ((ffma (pr s) (pr s) (pg s *f pg s) +f ffma (pb s) (pb s) (pa s *f pa s)) <f (fofZ 2 /f fofZ 256 /f fofZ 256)) = true ->
  get_dithered_pixel level max_err e p = p.
Proof. exact (fun A level max_err e p H => unnoticed level max_err e p H). Qed.
Print Assumptions C32_unnoticeable.
(** C32.  A dithered remap is an error diffusion with weights 7, 3, 5 and 1
    of 16 in alternating directions, in any arithmetic: every index comes from
    a search for the pixel's colour displaced by the errors of its
    neighbours, or is the transparent one over the background. *)
Theorem C32_diffusion : forall (A : Arith) (O : OrdLaws A) (C : CastLaws A) u rcb m q i pxs buf w q' i' out w',
  unspec_ok u -> result_r m q -> image_r i pxs -> (q_dither q =f f0) = false ->
  remap_into u rcb q i buf w = (Ok tt, (q', i', out, w')) ->
  exists (p : palf) e n E dm bgs os, nearest_new (fst (init_int_palette p (q_gamma q) (q_post q))) = Ok n /\
    q' = set_rem q (Some (snd (init_int_palette p (q_gamma q) (q_post q)), e)) /\
    e_w E = i_w i /\ e_n E = n /\ e_base E = full_level q dm /\ Forall byte dm /\
    (i_bg i = None -> forall y, bgs y = []) /\ (forall b, i_bg i = Some b -> e_tidx E = transparent_idx n) /\
    out = concat (concat os) ++ skipn (i_w i * i_h i) buf /\ length (concat os) = i_h i /\ (q_single q = true -> length os <= 1) /\
    chunks_diffused E (pixel_rows (d_gamma (i_px i)) pxs) bgs dm 0 os.
Proof.
  exact (fun A O C u rcb m q i pxs buf w q' i' out w' U Q I D E =>
    @remap_diffused A u U rcb C q i pxs buf w q' i' out w' (reach_image _ _ I) (reach_pal _ _ Q) D E).
Qed.
Print Assumptions C32_diffusion.
(** C32.  What a row leaves to the next one is 9/16 of its errors: the other
    7/16 went along the row. *)
Theorem C32_conserved : forall big, let A := real big in forall errs : list px, forall ch : px -> R, channel big ch ->
  total big (map (owed errs) (seq 0 (length errs + 2))) ch = (9 / 16 * total big errs ch)%R.
Proof. exact (fun big errs ch C => owed_sum big ch errs C). Qed.
Print Assumptions C32_conserved.

Definition run (q : qresult) (i : image) : res unit * (qresult * image * list nat * world) :=
  remap_into useq never q i (repeat 9 (i_w i * i_h i + 1)) world0.
Definition mix : rgba := Rgba 100 0 125 255.
Definition img_mix : image := get_ok (image_new (repeat mix 12) 4 3 d0) no_image.
Definition img_two : image := get_ok (image_add_fixed_color (get_ok (image_add_fixed_color img2 red) no_image) blue) no_image.
Definition at_two : attrs := get_ok (set_max_colors attrs_new 2) attrs_new.
Definition res_two : qresult := call_r (quantize useq never at_two (img_two, world0)) no_result.
(** A colour half way between two fixed colours becomes a checkerboard. *)
Example C32_checkerboard : fst (run res_two img_mix) = Ok tt /\
  snd (fst (snd (run res_two img_mix))) = [0; 1; 0; 1;  1; 0; 1; 0;  0; 1; 0; 1;  9] /\ fst (palette res_two) = [red; blue].
Proof. vm_compute. repeat split. Qed.
(** A channel pushed far out is stopped at 1.1. *)
Example C32_stopped : forall big, let A := real big in
  pr (get_dithered_pixel (1 : f32)%R (100 : f32)%R (Px (0 : f32) 3 0 0)%R (Px (1 : f32) (8 / 10) 0 0)%R) = (11 / 10)%R.
Proof.
  intros big A. unfold get_dithered_pixel, ratio_step, err_energy, px_scale. cbn.
  repeat match goal with |- context [Rltb ?a ?b] => let E := fresh in destruct (Rltb a b) eqn:E; rbool; try lra end.
  replace ((11 / 10 - 8 / 10) / (3 * 1))%R with (1 / 10)%R by field. rewrite Rmin_right by lra. cbn [pr]. lra.
Qed.

(** C33.  An image over itself: if the palette has a fully transparent colour,
    every pixel of the output is fully transparent, whatever the dithering
    level, in exact arithmetic. *)
Theorem C33_same_background : forall big, (1 <= big)%R -> let A := real big in
  forall u rcb m q i b pxs i1 i2 buf w q2 i3 out w', unspec_ok u -> result_r m q -> image_r i pxs -> image_r b pxs ->
  d_gamma (i_px b) = d_gamma (i_px i) -> set_background i b = Ok i1 -> image_later i1 i2 ->
  remap_into u rcb q i2 buf w = (Ok tt, (q2, i3, out, w')) ->
  (exists s, In s (fst (palette q2)) /\ ca s = 0%Z) ->
  exists k s, nth_error (fst (palette q2)) k = Some s /\ ca s = 0%Z /\
    out = repeat k (i_w i * i_h i) ++ skipn (i_w i * i_h i) buf.
Proof. exact (fun big Hb => self_real big Hb). Qed.
Print Assumptions C33_same_background.
(** C33.  In IEEE arithmetic: if the entry found for transparent black is
    fully transparent, every pixel gets that entry. *)
Theorem C33_same_background_ieee : forall pow32 pow64, pow32_unit pow32 -> let A := ieee pow32 pow64 in
  forall u rcb m q i b pxs i1 i2 buf w q2 i3 out w', unspec_ok u -> result_r m q -> image_r i pxs -> image_r b pxs ->
  d_gamma (i_px b) = d_gamma (i_px i) -> (d0 <d q_gamma q) = true -> set_background i b = Ok i1 -> image_later i1 i2 ->
  remap_into u rcb q i2 buf w = (Ok tt, (q2, i3, out, w')) ->
  exists (p : palf) n k s, fst (palette q2) = snd (init_int_palette p (q_gamma q) (q_post q)) /\
    nearest_new (fst (init_int_palette p (q_gamma q) (q_post q))) = Ok n /\ k = fst (search n px0 0) /\
    nth_error (fst (palette q2)) k = Some s /\
    (ca s = 0%Z -> out = repeat k (i_w i * i_h i) ++ skipn (i_w i * i_h i) buf).
Proof. exact (fun pow32 pow64 PU => self_ieee pow32 pow64 PU). Qed.
Print Assumptions C33_same_background_ieee.
Definition clear : rgba := Rgba 0 0 0 0.
Definition img_clear : image := get_ok (image_add_fixed_color img2 clear) no_image.
Definition res_clear : qresult := call_r (quantize useq never attrs_new (img_clear, world0)) no_result.
Definition plain_clear : qresult := get_ok (set_dithering_level res_clear f0) no_result.
Definition img_self : image := get_ok (set_background img2 img2) no_image.
Example C33_example : fst (palette res_clear) = [clear; blue; red] /\
  fst (run res_clear img_self) = Ok tt /\ snd (fst (snd (run res_clear img_self))) = [0; 0; 9] /\
  fst (run plain_clear img_self) = Ok tt /\ snd (fst (snd (run plain_clear img_self))) = [0; 0; 9] /\
  snd (fst (snd (run plain_clear img2))) = [2; 1; 9].
Proof. vm_compute. repeat split. Qed.
