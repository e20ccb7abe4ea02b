(** C57: colours of the palette are kept, and remapping twice is remapping
    once. *)
From Coq Require Import Reals Lra.
From Verif Require Import Base BaseFacts Arith Order Ieee Pal World Attr Hist Nearest Kmeans Blur ImageM Quant Remap SpecHist SpecImage SpecPow
  SpecAttr AttrFacts Api RealArith ContrastIeee ApartIeee LosslessTop KeepFacts USeq Witness.
From Flocq Require Import IEEE754.BinarySingleNaN Core.Core.
Open Scope nat_scope.

(** C57 (R).  An image without a background whose pixels all are colours of the
    palette is remapped without change, under any schedule, when no draft is
    made first: without dithering, or at speed 7 and above, or when the image
    has been drafted before.  (A draft moves the palette.)  Without dithering
    the reported error is 0. *)
Theorem C57_palette_colours_kept : forall big, (1 <= big)%R -> let A := real big in
  forall u rcb m q i pxs buf w q' i' out w', unspec_ok u -> result_r m q -> image_r i pxs -> i_bg i = None -> d_gamma (i_px i) = q_gamma q ->
  (q_dither q =f f0) = true \/ q_dmap q = DmNone \/ i_dmap i <> None ->
  remap_into u rcb q i buf w = (Ok tt, (q', i', out, w')) ->
  (forall r c, In r pxs -> In c r -> exists s, In s (fst (palette q')) /\ same_look c s) ->
  ((q_dither q =f f0) = true -> option_map snd (q_rem q') = Some (Some 0%R)) /\
  forall y x r c, nth_error pxs y = Some r -> nth_error r x = Some c ->
  exists k s, nth_error out (y * i_w i + x) = Some k /\ nth_error (fst (palette q')) k = Some s /\ same_look c s.
Proof. exact keep_real. Qed.
Print Assumptions C57_palette_colours_kept.

(** C57 (I).  The same in floating point, for gammas between 0.44 and 1 and
    at most 2^29 pixels. *)
Theorem C57_palette_colours_kept_ieee : forall pow32 pow64, pow32_accurate pow32 -> pow32_unit pow32 -> let A := ieee pow32 pow64 in
  forall u rcb m q i pxs buf w q' i' out w', unspec_ok u -> result_r m q -> image_r i pxs -> i_bg i = None -> d_gamma (i_px i) = q_gamma q ->
  (is_finite (q_gamma q : b64) = true /\ 44 / 100 <= B2R (q_gamma q : b64) <= 1)%R ->
  (Z.of_nat (i_w i) * Z.of_nat (i_h i) <= 536870912)%Z ->
  (q_dither q =f f0) = true \/ q_dmap q = DmNone \/ i_dmap i <> None ->
  remap_into u rcb q i buf w = (Ok tt, (q', i', out, w')) ->
  (forall r c, In r pxs -> In c r -> exists s, In s (fst (palette q')) /\ same_look c s) ->
  ((q_dither q =f f0) = true -> option_map snd (q_rem q') = Some (Some d0)) /\
  forall y x r c, nth_error pxs y = Some r -> nth_error r x = Some c ->
  exists k s, nth_error out (y * i_w i + x) = Some k /\ nth_error (fst (palette q')) k = Some s /\ same_look c s.
Proof. exact (fun pow32 pow64 Acc PU => keep_ieee pow32 pow64 Acc PU). Qed.
Print Assumptions C57_palette_colours_kept_ieee.

(** C57 (R).  So remapping is idempotent: the picture that a remap gives (an
    image whose pixels are the colours that its indices stand for) is remapped
    to itself with the same result. *)
Theorem C57_idempotent : forall big, (1 <= big)%R -> let A := real big in
  forall m q u1 cb1 i1 pxs1 buf1 w1 q1 i1' out1 w1' u2 cb2 i2 pxs2 buf2 w2 q2 i2' out2 w2', unspec_ok u1 -> unspec_ok u2 -> result_r m q ->
  image_r i1 pxs1 -> image_r i2 pxs2 -> (q_dither q =f f0) = true \/ q_dmap q = DmNone -> i_bg i2 = None -> d_gamma (i_px i2) = q_gamma q ->
  remap_into u1 cb1 q i1 buf1 w1 = (Ok tt, (q1, i1', out1, w1')) ->
  (forall y x r c, nth_error pxs2 y = Some r -> nth_error r x = Some c ->
     exists k, nth_error out1 (y * i_w i1 + x) = Some k /\ nth_error (fst (palette q1)) k = Some c) ->
  remap_into u2 cb2 q1 i2 buf2 w2 = (Ok tt, (q2, i2', out2, w2')) ->
  fst (palette q2) = fst (palette q1) /\
  forall y x r c, nth_error pxs2 y = Some r -> nth_error r x = Some c ->
  exists k s, nth_error out2 (y * i_w i2 + x) = Some k /\ nth_error (fst (palette q2)) k = Some s /\ same_look c s.
Proof. exact idempotent_real. Qed.
Print Assumptions C57_idempotent.

(** C57 (I).  The same in floating point. *)
Theorem C57_idempotent_ieee : forall pow32 pow64, pow32_accurate pow32 -> pow32_unit pow32 -> let A := ieee pow32 pow64 in
  forall m q u1 cb1 i1 pxs1 buf1 w1 q1 i1' out1 w1' u2 cb2 i2 pxs2 buf2 w2 q2 i2' out2 w2', unspec_ok u1 -> unspec_ok u2 -> result_r m q ->
  image_r i1 pxs1 -> image_r i2 pxs2 -> (q_dither q =f f0) = true \/ q_dmap q = DmNone -> i_bg i2 = None -> d_gamma (i_px i2) = q_gamma q ->
  (is_finite (q_gamma q : b64) = true /\ 44 / 100 <= B2R (q_gamma q : b64) <= 1)%R ->
  (Z.of_nat (i_w i2) * Z.of_nat (i_h i2) <= 536870912)%Z ->
  remap_into u1 cb1 q i1 buf1 w1 = (Ok tt, (q1, i1', out1, w1')) ->
  (forall y x r c, nth_error pxs2 y = Some r -> nth_error r x = Some c ->
     exists k, nth_error out1 (y * i_w i1 + x) = Some k /\ nth_error (fst (palette q1)) k = Some c) ->
  remap_into u2 cb2 q1 i2 buf2 w2 = (Ok tt, (q2, i2', out2, w2')) ->
  fst (palette q2) = fst (palette q1) /\
  forall y x r c, nth_error pxs2 y = Some r -> nth_error r x = Some c ->
  exists k s, nth_error out2 (y * i_w i2 + x) = Some k /\ nth_error (fst (palette q2)) k = Some s /\ same_look c s.
Proof. exact (fun pow32 pow64 Acc PU => idempotent_ieee pow32 pow64 Acc PU). Qed.
Print Assumptions C57_idempotent_ieee.

(** Three colours shown with two: the first remap changes the picture (two
    reds become one), the second does not. *)
Definition reds : list rgba := [Rgba 200 0 0 255; Rgba 180 0 0 255; Rgba 0 0 250 255].
Definition two : attrs := get_ok (set_max_colors attrs_new 2) attrs_new.
Definition img3 : image := get_ok (image_new reds 3 1 d0) no_image.
Definition q3 : qresult := get_ok (set_dithering_level (call_r (quantize useq never two (img3, world0)) no_result) f0) no_result.
Definition pic (o : res unit * (qresult * image * list nat * world)) : list rgba :=
  map (fun k => nth k (fst (palette (fst (fst (fst (snd o)))))) rgba_default) (snd (fst (snd o))).
Definition once := remap_into useq never q3 img3 [9; 9; 9] world0.
Definition again := remap_into useq never (fst (fst (fst (snd once)))) (get_ok (image_new (pic once) 3 1 d0) no_image) [9; 9; 9] world0.
Example C57_example : fst once = Ok tt /\ fst again = Ok tt /\ pic once <> reds /\ pic again = pic once /\ length (fst (palette q3)) = 2.
Proof. 
  assert (P : pic once = [Rgba 190 0 0 255; Rgba 190 0 0 255; Rgba 0 0 250 255]) by vm.
  split; [vm|]. split; [vm|]. split; [rewrite P; discriminate|]. split; [rewrite P; vm|vm].
Qed.

(** With a draft it is false.  Posterization to 4 bits shows the grey 31, which
    is fixed, as 17 and the other entry, about 15.3, as 0; the draft of an
    image of one black pixel and 39 of grey 17 gives them all to the other
    entry and moves it to 16.6, which is also shown as 17, so that black
    becomes grey. *)
Definition gr (v : Z) : rgba := Rgba v v v 255.
Definition coarse : attrs := get_ok (set_min_posterization two 4) attrs_new.
Lemma coarse_usable : usable coarse.
Proof.
  refine (us_call two (CallPosterization 4) coarse (us_call attrs_new (CallMaxColors 2) two us_new _ _) _ _); cbn; try lia; vm.
Qed.
Definition dark_img : image := get_ok (image_new (gr 0 :: repeat (gr 17) 9) 10 1 d0) no_image.
Definition fixed_img : image := get_ok (image_add_fixed_color dark_img (gr 31)) no_image.
Lemma gr_ok k n : (0 <= k <= 255)%Z -> Forall rgba_ok (repeat (gr k) n).
Proof. intros H. apply Forall_forall. intros c Hc. apply repeat_spec in Hc. subst c. repeat split; cbn; lia. Qed.
Lemma fixed_img_r : image_r fixed_img [gr 0 :: repeat (gr 17) 9].
Proof.
  refine (ir_fixed dark_img _ (gr 31) fixed_img (ir_stride (gr 0 :: repeat (gr 17) 9) 10 1 10 d0 dark_img _ _ _ _ _) _ _); try lia; try vm.
  - constructor; [repeat split; cbn; lia|]. apply gr_ok. lia.
  - repeat split; cbn; lia.
Qed.
Definition qc : qresult := call_r (quantize useq never coarse (fixed_img, world0)) no_result.
Definition many_img : image := get_ok (image_new (gr 0 :: repeat (gr 17) 39) 40 1 d0) no_image.
Lemma many_img_r : image_r many_img [gr 0 :: repeat (gr 17) 39].
Proof.
  refine (ir_stride (gr 0 :: repeat (gr 17) 39) 40 1 40 d0 many_img _ _ _ _ _); try lia; try vm.
  constructor; [repeat split; cbn; lia|]. apply gr_ok. lia.
Qed.
Theorem C57_draft_refuted : exists (A : Arith) (C : CastLaws A) u cb m q i pxs buf w q' i' out w',
  unspec_ok u /\ result_r m q /\ image_r i pxs /\ i_bg i = None /\ d_gamma (i_px i) = q_gamma q /\
  (forall r c, In r pxs -> In c r -> exists s, In s (fst (palette q)) /\ same_look c s) /\
  remap_into u cb q i buf w = (Ok tt, (q', i', out, w')) /\
  exists c, nth_error pxs 0 = Some (gr 0 :: c) /\ option_map (nth_error (fst (palette q'))) (nth_error out 0) = Some (Some (gr 17)).
Proof.
  set (st := snd (quantize useq never coarse (fixed_img, world0))). set (o := remap_into useq never qc many_img (repeat 9 40) world0).
  exists toy, toy_cast, useq, never, (a_max_colors coarse), qc, many_img, [gr 0 :: repeat (gr 17) 39], (repeat 9 40), world0.
  exists (fst (fst (fst (snd o)))), (snd (fst (fst (snd o)))), (snd (fst (snd o))), (snd (snd o)).
  split; [exact useq_ok|]. split; [refine (rr_image useq never coarse fixed_img _ world0 qc st useq_ok coarse_usable fixed_img_r _); vm|].
  split; [exact many_img_r|]. split; [vm|]. split; [vm|].
  assert (PAL : fst (palette qc) = [gr 17; gr 0]) by vm. split.
  { rewrite PAL. intros r c [<-|[]] [<-|H]; [exists (gr 0); split; [right; left; auto|reflexivity]|].
    apply repeat_spec in H. subst c. exists (gr 17). split; [left; auto|reflexivity]. }
  split; [vm|]. eexists. split; [reflexivity|vm].
Qed.
Print Assumptions C57_draft_refuted.
