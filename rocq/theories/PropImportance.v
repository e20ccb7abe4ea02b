(** C25, second half: the importance the library generates never drops a pixel. *)
From Verif Require Import Base BaseFacts Arith Order Pal World Attr Hist Nearest Kmeans Blur ImageM Quant Remap SpecImage SpecHist BlurFacts
  ImageFacts AttrFacts HistFacts Api ApiFacts Ieee SpecPow PowRef ContrastLow ContrastIeee KeepPixels RealArith LosslessTop FewImage USeq Witness.
From Coq Require Import Reals.
Open Scope Z_scope.

(** C25.  IEEE arithmetic, with a [powf] that keeps [0, 1] in [0, 1]: if the
    user gave no importance map, whatever map [add_image] leaves in the image
    has all values in 80..255, and (unless the posterization was raised because
    of too many colours) every pixel of the image is counted with at least 80. *)
Theorem C25_generated_importance :
  forall pow32 pow64, pow32_unit pow32 -> let A := ieee pow32 pow64 in
  forall (u : unspec) (cb : callback) a h i pxs w r h' i' w', image_r i pxs -> i_imp i = None ->
  add_image u cb a (h, i, w) = (r, (h', i', w')) ->
  (forall m, i_imp i' = Some m -> Forall (fun v => 80 <= v <= 255) m) /\
  (usable a -> h = hist_new a -> r = Ok tt -> hg_bits h' = posterize_bits a ->
   forall row c, In row pxs -> In c row ->
   exists n c', hm_get (hg_map h') (posterized (posterize_bits a) c) = Some (n, c') /\ 80 <= n).
Proof.
  exact (fun p32 p64 PU u cb a h i pxs w r h' i' w' I N E =>
    let L := ieee_generated_importance p32 p64 PU u cb a h i pxs w r h' i' w' I N E in
    conj L (fun U Hh Hr B => @pixels_kept _ (ieee_cast p32 p64) u cb a i pxs w h' i' w' U
      (proj1 (proj2 (@objects_ok _ (ieee_cast p32 p64))) i pxs I)
      (eq_trans (f_equal (fun x => add_image u cb a (x, i, w)) (eq_sym Hh)) (eq_trans E (f_equal (fun x => (x, _)) Hr))) B L)).
Qed.
Print Assumptions C25_generated_importance.

(** The assumption on [powf] can be met, together with the accuracy assumed elsewhere. *)
Theorem C25_powf_assumption_satisfiable : exists pow32, pow32_accurate pow32 /\ pow32_unit pow32.
Proof. exact (ex_intro _ pow32_ref (conj pow32_ref_accurate pow32_ref_unit)). Qed.
Print Assumptions C25_powf_assumption_satisfiable.

(** C25 in exact arithmetic. *)
Theorem C25_generated_importance_exact :
  forall big : R, (1 <= big)%R -> let A := real big in
  forall (u : unspec) (cb : callback) a h i pxs w r h' i' w', image_r i pxs -> i_imp i = None ->
  add_image u cb a (h, i, w) = (r, (h', i', w')) ->
  forall m, i_imp i' = Some m -> Forall (fun v => 80 <= v <= 255) m.
Proof.
  exact (fun big Hb u cb a h i pxs w r h' i' w' I N E =>
    @add_image_low _ (real_cast big) (fun _ => True) (real_low_px big) u cb a h i w pxs r h' i' w'
      (proj1 (proj2 (@objects_ok _ (real_cast big))) i pxs I) (fun _ _ _ _ => Logic.I) N E).
Qed.
Print Assumptions C25_generated_importance_exact.

(** A 4x4 checkerboard of black and a medium green, with the default settings: a map is
    generated, its values are low, and both colours are counted. *)
Definition checker : list rgba :=
  concat (map (fun y => map (fun x => if Nat.even (x + y) then Rgba 0 0 0 255 else Rgba 0 128 0 255) (seq 0 4)) (seq 0 4)).
Definition checker_image : image := get_ok (image_new checker 4 4 d0) no_image.
Definition checker_add := add_image useq never attrs_new (hist_new attrs_new, checker_image, world0).
Lemma checker_new : image_new_stride checker 4 4 4 d0 = Ok checker_image.
Proof. exact (eq_refl (Ok checker_image) <: image_new_stride checker 4 4 4 d0 = Ok checker_image). Qed.
Example C25_generated_example :
  pow32_unit (fun x _ => x) /\ image_r checker_image (strided rgba_default checker 4 4 4) /\ i_imp checker_image = None /\
  fst checker_add = Ok tt /\ i_imp (snd (fst (snd checker_add))) = Some (repeat 90 16) /\
  map (fun e => fst (snd e)) (hg_map (fst (fst (snd checker_add)))) = [720; 720].
Proof.
  split; [intros x y F X _; auto|]. split.
  { refine (ir_stride checker 4 4 4 d0 checker_image _ _ _ _ checker_new); try lia.
    unfold checker. cbn. repeat (apply Forall_cons || apply Forall_nil); unfold rgba_ok, byte; cbn; lia. }
  split; [reflexivity|]. split; [vm|]. split; vm.
Qed.
