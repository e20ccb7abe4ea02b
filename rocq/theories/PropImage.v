(** C17, C31, C34, C44: image construction, filters, backgrounds, dither map. *)
From Verif Require Import Base Arith Order Pal World Attr Blur ImageM SpecImage BlurFacts Ieee ImageFacts.
Open Scope Z_scope.

(** C17.  A strided buffer is accepted exactly when it fits; a buffer that is
    too short gets BufferTooSmall, everything else that is wrong
    ValueOutOfRange, and nothing else happens. *)
Theorem C17_constructor_accepts_exactly :
  forall (A : Arith) buf w h s (g : f64), 0 <= w -> 0 <= h -> 0 <= s ->
  ((exists i, image_new_stride buf w h s g = Ok i) <->
     dims_ok w h /\ gamma_ok g /\ buffer_ok (Z.of_nat (length buf)) w h s) /\
  match image_new_stride buf w h s g with
  | Ok i => True
  | Err BufferTooSmall => 1 <= w <= U32_MAX /\ 1 <= h <= U32_MAX /\ w <= s <= U32_MAX /\
                          Z.of_nat (length buf) < s * (h - 1) + w
  | Err ValueOutOfRange => ~ (dims_ok w h /\ gamma_ok g /\ w <= s <= U32_MAX)
  | _ => False
  end.
Proof. exact (fun A => @constructor_accepts A). Qed.
Print Assumptions C17_constructor_accepts_exactly.

(** C17.  Row [y] of an accepted image is [buffer[y*stride .. y*stride+width]],
    all of it inside the buffer. *)
Theorem C17_pixels_are_the_buffer :
  forall (A : Arith) buf w h s (g : f64) i, 0 <= w -> 0 <= h -> 0 <= s ->
  image_new_stride buf w h s g = Ok i ->
  i_w i = Z.to_nat w /\ i_h i = Z.to_nat h /\
  forall y, (y < i_h i)%nat ->
    row_rgba (i_px i) y = Ok (map (fun x => nth (y * Z.to_nat s + x) buf rgba_default) (seq 0 (i_w i))) /\
    (y * Z.to_nat s + i_w i <= length buf)%nat.
Proof. exact (fun A => @pixels_are_the_buffer A). Qed.
Print Assumptions C17_pixels_are_the_buffer.

Example C17_example : forall pow32 pow64, let A := ieee pow32 pow64 in
  let buf := map (fun k => Rgba k 0 0 255) [0; 1; 2; 3; 4; 5; 6; 7] in
  dims_ok 2 3 /\ gamma_ok d0 /\ buffer_ok 8 2 3 3 /\ ~ buffer_ok 7 2 3 3 /\
  strided rgba_default buf 2 3 3 = map (map (fun k => Rgba k 0 0 255)) [[0; 1]; [3; 4]; [6; 7]].
Proof.
  intros. unfold dims_ok, buffer_ok, gamma_ok. repeat split; try lia; try reflexivity.
Qed.

(** C31.  The filters, on maps of any size. *)
Theorem C31_max_filter :
  forall w h src dst, (0 < w)%nat -> (0 < h)%nat -> length src = (w * h)%nat -> length dst = (w * h)%nat ->
  exists out, liq_max3 src dst w h = Ok out /\ length out = (w * h)%nat /\
    forall x y, (x < w)%nat -> (y < h)%nat -> is_max (nth (y * w + x) out 0) (plus5 src w h (Z.of_nat x) (Z.of_nat y)).
Proof. exact max3_spec. Qed.
Theorem C31_min_filter :
  forall w h src dst, (0 < w)%nat -> (0 < h)%nat -> length src = (w * h)%nat -> length dst = (w * h)%nat ->
  exists out, liq_min3 src dst w h = Ok out /\ length out = (w * h)%nat /\
    forall x y, (x < w)%nat -> (y < h)%nat -> is_min (nth (y * w + x) out 0) (plus5 src w h (Z.of_nat x) (Z.of_nat y)).
Proof. exact min3_spec. Qed.
(** The blur is a horizontal then vertical average over [2*size] cells
    ([x-size+1 .. x+size]; the code's comment says [2*size+1]); maps smaller
    than [2*size+1] are left alone; a u16 overflow would be a [Panic]. *)
Theorem C31_blur_filter :
  forall src tmp w h size, (0 < size <= 128)%nat -> (0 < w)%nat -> (0 < h)%nat ->
  length src = (w * h)%nat -> length tmp = (w * h)%nat -> Forall byte src ->
  exists out tmp', liq_blur src tmp w h size = Ok (out, tmp') /\ length out = (w * h)%nat /\ length tmp' = (w * h)%nat /\
    (if (Nat.ltb w (2 * size + 1) || Nat.ltb h (2 * size + 1))%bool then out = src /\ tmp' = tmp
     else Forall byte tmp' /\
          forall x y, (x < w)%nat -> (y < h)%nat -> nth (y * w + x) out 0 = blurred src w h size (Z.of_nat x) (Z.of_nat y)).
Proof. exact blur_spec. Qed.
(** The whole chain on the generated maps: no panic, sizes kept, bytes stay
    bytes, and the importance map stays in the range of its input. *)
Theorem C31_filter_chain :
  forall w h noise edges lo hi, (0 < w)%nat -> (0 < h)%nat ->
  length noise = (w * h)%nat -> length edges = (w * h)%nat ->
  Forall byte noise -> Forall byte edges -> Forall (in_range lo hi) noise ->
  exists n e, filter_chain w h noise edges = Ok (n, e) /\ length n = (w * h)%nat /\ length e = (w * h)%nat /\
    Forall byte n /\ Forall byte e /\ Forall (in_range lo hi) n.
Proof. exact filter_chain_spec. Qed.
Print Assumptions C31_max_filter.
Print Assumptions C31_min_filter.
Print Assumptions C31_blur_filter.
Print Assumptions C31_filter_chain.

Example C31_example :
  liq_max3 [1; 5; 2; 0; 0; 9] (repeat 0 6) 3 2 = Ok [5; 5; 9; 1; 9; 9] /\
  liq_min3 [1; 5; 2; 0; 0; 9] (repeat 0 6) 3 2 = Ok [0; 0; 2; 0; 0; 0] /\
  liq_blur [0; 30; 60; 0; 30; 60; 90; 120; 150] (repeat 0 9) 3 3 1 = 
    Ok ([15; 45; 60; 60; 90; 105; 105; 135; 150], [15; 15; 105; 45; 45; 135; 60; 60; 150]).
Proof. repeat split; vm_compute; reflexivity. Qed.

(** C34.  A background is accepted exactly when it has the image's size and no
    background itself; a rejected call has no other effect (it returns no new
    image). *)
Theorem C34_background_accepted_exactly :
  forall (A : Arith) i b,
  (i_bg b = None /\ i_w b = i_w i /\ i_h b = i_h i /\ set_background i b = Ok (set_bg i (Some b))) \/
  (~ (i_bg b = None /\ i_w b = i_w i /\ i_h b = i_h i) /\ exists e, set_background i b = Err e).
Proof. exact (fun A => @set_background_spec A). Qed.
Print Assumptions C34_background_accepted_exactly.

(** C34.  After any history of an image, a background it has fits and has no
    background. *)
Theorem C34_never_nested :
  forall (A : Arith) i, built i -> forall b, i_bg i = Some b -> i_bg b = None /\ i_w b = i_w i /\ i_h b = i_h i.
Proof. exact (fun A => @built_bg A). Qed.
Print Assumptions C34_never_nested.

Definition one_px {A : Arith} (bg : option image) : image := Image (DRows 1 1 None (SrcPixels [rgba_default] [0%nat]) d1) None None None bg [].
Example C34_example : forall (A : Arith),
  set_background (one_px None) (one_px None) = Ok (one_px (Some (one_px None))) /\
  set_background (one_px None) (one_px (Some (one_px None))) = Err Unsupported.
Proof. split; reflexivity. Qed.

(** C44.  Computing the dither map succeeds for every remapped image whose
    indices are in the palette (backgrounds or not); every cell of the map is
    the edge cell or its once-darkened value; the edges are used up. *)
Theorem C44_dither_map_update :
  forall (A : Arith) (C : CastLaws A) i pxs remapped p bg, image_ok i pxs ->
  Forall (fun r => length r = i_w i /\ Forall (fun x => (x < length p)%nat) r) remapped ->
  exists i', update_dither_map i remapped p bg = Ok i' /\ image_ok i' pxs /\ i_w i' = i_w i /\ i_h i' = i_h i /\
    i_bg i' = i_bg i /\ i_fixed i' = i_fixed i /\ same_px (i_px i) (i_px i') /\
    (forall e, i_edges i = Some e -> exists m, i_dmap i' = Some m /\ darkened e m /\ i_edges i' = None).
Proof. exact (fun A C => @update_dither_map_ok A C). Qed.
Print Assumptions C44_dither_map_update.

Example C44_example : forall pow32 pow64, let A := ieee pow32 pow64 in
  dmap_row [] false 4 [0; 0; 1; 1]%nat None (Some [0; 0; 0; 0]%nat) [200; 100; 0; 40] = Ok [155; 108; 60; 0].
Proof. intros. vm_compute. reflexivity. Qed.
