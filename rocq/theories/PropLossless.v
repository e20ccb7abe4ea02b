(** C14: images of few colours are kept. *)
From Verif Require Import Base BaseFacts Arith Order Pal World Attr Hist Nearest Kmeans Blur ImageM Quant Remap SpecHist SpecImage
  ImageFacts QuantFacts AttrFacts Ieee Api ApiFacts RealArith FewFacts FewImage LosslessTop USeq Witness.
From Coq Require Import Reals Lra Permutation.
Open Scope nat_scope.

(** C14.  A histogram without fixed colours that has no more colours than
    allowed becomes the palette, and the error is 0 (any arithmetic, any
    target of quality 100). *)
Theorem C14_palette_is_histogram : forall (A : Arith) (C : CastLaws A) u cb a h w q s',
  unspec_ok u -> usable a -> hist_r h -> hg_fixed h = [] -> length (hg_map h) <= a_max_colors a -> (a_target_mse a =d d0) = true ->
  hist_quantize u cb a (h, w) = (Ok q, s') ->
  q_err q = Some d0 /\
  Permutation (map (fun e => from_rgba (gamma_lut (q_gamma q)) (snd (snd e))) (hg_map h)) (colors_of (q_pal q)).
Proof.
  exact (fun A C u cb a h w q s' U Ha H F L T E =>
    match hist_few u cb a true h w q s' U Ha (proj1 objects_ok h H) F L T E with
    | conj Q1 (conj Q2 Q3) => conj Q1 (eq_ind_r (fun g => Permutation (map (fun e => from_rgba (gamma_lut g) (snd (snd e))) (hg_map h)) (colors_of (q_pal q))) Q3 Q2)
    end).
Qed.
Print Assumptions C14_palette_is_histogram.

(** C14.  In exact arithmetic an image with no more distinct colours than
    allowed ([ks] lists them; all invisible colours count as one) is kept: the
    error is 0, the palette has exactly the image's colours, and every later
    remap of the image, at any dithering level and under any schedule, gives
    each pixel its own colour and reports the error 0.  Quality target 100, no
    posterization, and no pixel excluded by an importance map of the user.  The
    fixed colours of the image count as colours of the image, and none may be
    fixed twice. *)
Theorem C14_lossless : forall big, (1 <= big)%R -> let A := real big in
  forall u cb a i pxs w q i' w' ks, unspec_ok u -> usable a -> image_r i pxs ->
  NoDup (map visible (i_fixed i)) -> image_colors (i_fixed i :: pxs) ks ->
  posterize_bits a = 0%Z -> a_target_mse a = 0%R -> length ks <= a_max_colors a ->
  (forall m, i_imp i = Some m -> Forall (fun z => z <> 0%Z) m) ->
  quantize u cb a (i, w) = (Ok q, (i', w')) ->
  q_err q = Some 0%R /\
  (forall s, In s (fst (palette q)) -> exists r c, In r (i_fixed i :: pxs) /\ In c r /\ same_look c s) /\
  (forall r c, In r (i_fixed i :: pxs) -> In c r -> exists s, In s (fst (palette q)) /\ same_look c s) /\
  forall q1 u2 rcb buf w1 q2 i2 out w2, i_bg i = None -> (q1 = q \/ exists v, set_dithering_level q v = Ok q1) -> unspec_ok u2 ->
    remap_into u2 rcb q1 i' buf w1 = (Ok tt, (q2, i2, out, w2)) ->
    option_map snd (q_rem q2) = Some (Some 0%R) /\
    forall y x r c, nth_error pxs y = Some r -> nth_error r x = Some c ->
    exists k s, nth_error out (y * i_w i + x) = Some k /\ nth_error (fst (palette q2)) k = Some s /\ same_look c s.
Proof. exact lossless. Qed.
Print Assumptions C14_lossless.

(** The same in floating point, by running the model: five colours, one of
    them invisible, dithered. *)
Definition few5 : list rgba := [Rgba 1 2 3 255; Rgba 250 0 90 255; Rgba 9 9 9 0; Rgba 77 77 77 128; Rgba 255 255 255 255; Rgba 1 2 3 255].
Definition img6 : image := get_ok (image_new few5 3 2 d0) no_image.
Definition q6 : qresult := call_r (quantize useq never attrs_new (img6, world0)) no_result.
Definition out6 := remap_into useq never q6 (fst (snd (quantize useq never attrs_new (img6, world0)))) (repeat 0 6) world0.
Definition back6 : list rgba := map (fun k => nth k (fst (palette (fst (fst (fst (snd out6)))))) rgba_default) (snd (fst (snd out6))).
Example C14_example : image_colors [firstn 3 few5; skipn 3 few5] [Rgba 1 2 3 255; Rgba 250 0 90 255; Rgba 0 0 0 0; Rgba 77 77 77 128; Rgba 255 255 255 255] /\
  fst out6 = Ok tt /\
  back6 = [Rgba 1 2 3 255; Rgba 250 0 90 255; Rgba 71 112 76 0; Rgba 77 77 77 128; Rgba 255 255 255 255; Rgba 1 2 3 255].
Proof.
  split; [|split; vm]. intros r c [<-|[<-|[]]] H; cbn in H; repeat (destruct H as [<-|H]; [vm_compute; tauto|]); destruct H.
Qed.

(** With fixed colours: red, which the image has, and a green it has not. *)
Definition green : rgba := Rgba 0 255 0 255.
Definition fixg : image := get_ok (image_add_fixed_color (get_ok (image_add_fixed_color img2 red) no_image) green) no_image.
Definition qfixg : qresult := call_r (quantize useq never attrs_new (fixg, world0)) no_result.
Definition outg := remap_into useq never qfixg (fst (snd (quantize useq never attrs_new (fixg, world0)))) [7; 7] world0.
Example C14_fixed_example : image_r fixg [[red; blue]] /\ NoDup (map visible (i_fixed fixg)) /\ image_colors (i_fixed fixg :: [[red; blue]]) [red; green; blue] /\
  fst outg = Ok tt /\ fst (palette (fst (fst (fst (snd outg))))) = [red; green; blue] /\ snd (fst (snd outg)) = [0; 2].
Proof.
  split.
  { assert (R1 : rgba_ok red) by (repeat split; cbn; lia). assert (R2 : rgba_ok green) by (repeat split; cbn; lia).
    refine (ir_fixed _ _ green _ (ir_fixed img2 _ red (get_ok (image_add_fixed_color img2 red) no_image) img2_r R1 _) R2 _); vm. }
  split. { vm_compute. repeat constructor; cbn; intuition discriminate. }
  split. { intros r c [<-|[<-|[]]] H; vm_compute in H; repeat (destruct H as [<-|H]; [vm_compute; tauto|]); destruct H. }
  split; [vm|]. split; vm.
Qed.

(** Without the condition on fixed colours it fails: a colour fixed twice takes
    two palette entries and pushes out a colour of the image, although there is
    room and the reported error is 0.  Red and blue, with red fixed twice. *)
Definition fix2 : image := get_ok (image_add_fixed_color (get_ok (image_add_fixed_color img2 red) no_image) red) no_image.
Lemma fix2_r : image_r fix2 [[red; blue]].
Proof.
  assert (R : rgba_ok red) by (repeat split; cbn; lia).
  refine (ir_fixed _ _ red _ (ir_fixed img2 _ red (get_ok (image_add_fixed_color img2 red) no_image) img2_r R _) R _); vm.
Qed.
Definition qfix2 : qresult := call_r (quantize useq never attrs_new (fix2, world0)) no_result.
Definition stfix2 : image * world := snd (quantize useq never attrs_new (fix2, world0)).
Theorem C14_duplicate_fixed_refuted : exists (A : Arith) (C : CastLaws A) u cb a i pxs w q i' w' ks q2 i2 out w2,
  unspec_ok u /\ usable a /\ image_r i pxs /\ posterize_bits a = 0%Z /\ (a_target_mse a =d d0) = true /\ i_imp i = None /\
  image_colors pxs ks /\ length ks < a_max_colors a /\ quantize u cb a (i, w) = (Ok q, (i', w')) /\ q_err q = Some d0 /\
  remap_into u cb q i' [7; 7] w' = (Ok tt, (q2, i2, out, w2)) /\
  pxs = [[red; blue]] /\ map (nth_error (fst (palette q2))) out = [Some red; Some red].
Proof.
  exists toy, toy_cast, useq, never, attrs_new, fix2, [[red; blue]], world0, qfix2, (fst stfix2), (snd stfix2), [red; blue].
  set (o := remap_into useq never qfix2 (fst stfix2) [7; 7] (snd stfix2)).
  exists (fst (fst (fst (snd o)))), (snd (fst (fst (snd o)))), (snd (fst (snd o))), (snd (snd o)).
  split; [exact useq_ok|]. split; [exact us_new|]. split; [exact fix2_r|]. split; [vm|]. split; [vm|]. split; [vm|].
  split. { intros r c [<-|[]] H. destruct H as [<-|[<-|[]]]; vm_compute; tauto. }
  split. { apply Nat.ltb_lt. vm. }
  split; [vm|]. split; [vm|]. split; [vm|]. split; [reflexivity|]. vm.
Qed.
Print Assumptions C14_duplicate_fixed_refuted.
