(** C14 in floating point: images of few colours are kept. *)
From Coq Require Import Reals Lra.
From Verif Require Import Base BaseFacts Arith Order Ieee Pal World Attr Hist Nearest Kmeans Blur ImageM Quant Remap SpecHist SpecImage SpecPow
  AttrFacts Api PowRef ColorFacts ContrastIeee FewImage LosslessTop LosslessIeee USeq Witness PropLossless.
From Flocq Require Import IEEE754.BinarySingleNaN Core.Core.
Open Scope R_scope.

(** C14 (I).  [C14_lossless] in floating point, for an image of at most 2^29
    pixels (the C interface allows no more) whose gamma is between 0.44 and 1
    (the default is 0.45455): the error is 0, the palette has exactly the
    image's colours, and every later remap of the image, at any dithering level
    and under any schedule, gives each pixel exactly its own 8-bit colour and
    reports the error 0. *)
Theorem C14_lossless_ieee : forall pow32 pow64, pow32_accurate pow32 -> pow32_unit pow32 -> let A := ieee pow32 pow64 in
  forall u cb a i pxs w q i' w' ks, unspec_ok u -> usable a -> image_r i pxs ->
  NoDup (map visible (i_fixed i)) -> image_colors (i_fixed i :: pxs) ks ->
  posterize_bits a = 0%Z -> (a_target_mse a =d d0)%flt = true -> (length ks <= a_max_colors a)%nat ->
  (forall m, i_imp i = Some m -> Forall (fun z => z <> 0%Z) m) ->
  is_finite (d_gamma (i_px i) : b64) = true /\ 44 / 100 <= B2R (d_gamma (i_px i) : b64) <= 1 ->
  (Z.of_nat (i_w i) * Z.of_nat (i_h i) <= 536870912)%Z ->
  quantize u cb a (i, w) = (Ok q, (i', w')) ->
  q_err q = Some d0 /\
  (forall s, In s (fst (palette q)) -> exists r c, In r (i_fixed i :: pxs) /\ In c r /\ same_look c s) /\
  (forall r c, In r (i_fixed i :: pxs) -> In c r -> exists s, In s (fst (palette q)) /\ same_look c s) /\
  forall q1 u2 rcb buf w1 q2 i2 out w2, i_bg i = None -> (q1 = q \/ exists v, set_dithering_level q v = Ok q1) -> unspec_ok u2 ->
    remap_into u2 rcb q1 i' buf w1 = (Ok tt, (q2, i2, out, w2)) ->
    option_map snd (q_rem q2) = Some (Some d0) /\
    forall y x r c, nth_error pxs y = Some r -> nth_error r x = Some c ->
    exists k s, nth_error out (y * i_w i + x)%nat = Some k /\ nth_error (fst (palette q2)) k = Some s /\ same_look c s.
Proof. exact (fun pow32 pow64 Acc PU => lossless_ieee pow32 pow64 Acc PU). Qed.
Print Assumptions C14_lossless_ieee.

(** The conditions hold for the five-colour image of [C14_example] and exactly
    rounded powers. *)
Section Example.
Variables (pow32 : b32 -> b32 -> b32) (pow64 : b64 -> b64 -> b64).
Definition looks (r : res (@image (ieee pow32 pow64))) : option (SpecFloat.spec_float * bool) :=
  match r with
  | Ok i => Some (B2SF (d_gamma (i_px i) : b64), match i_fixed i, i_imp i, i_bg i with [], None, None => true | _, _, _ => false end)
  | _ => None
  end.
Lemma few5_image : exists i : @image (ieee pow32 pow64), @image_new_stride (ieee pow32 pow64) few5 3 2 3 (@d0 (ieee pow32 pow64)) = Ok i /\
  is_finite (d_gamma (i_px i) : b64) = true /\ 44 / 100 <= B2R (d_gamma (i_px i) : b64) <= 1 /\ i_fixed i = [] /\ i_imp i = None /\ i_bg i = None.
Proof.
  assert (L : looks (@image_new_stride (ieee pow32 pow64) few5 3 2 3 (@d0 (ieee pow32 pow64))) = Some (SpecFloat.S754_finite false 8188444842485036 (-54), true)) by (vm_compute; reflexivity).
  destruct (image_new_stride _ _ _ _ _) as [i| |]; try discriminate. exists i. split; [reflexivity|]. unfold looks in L.
  assert (G : B2SF (d_gamma (i_px i) : b64) = SpecFloat.S754_finite false 8188444842485036 (-54)) by congruence.
  assert (X : match i_fixed i, i_imp i, i_bg i with [], None, None => true | _, _, _ => false end = true) by congruence.
  split. { destruct (d_gamma (i_px i) : b64); try discriminate G; reflexivity. }
  split. { rewrite <- SF2R_B2SF, G. unfold SF2R, F2R. cbn. lra. }
  destruct (i_fixed i); try discriminate. destruct (i_imp i); try discriminate. destruct (i_bg i); try discriminate. auto.
Qed.
End Example.
Example C14_ieee_example : pow32_accurate pow32_ref /\ pow32_unit pow32_ref /\
  exists i : @image (ieee pow32_ref pow64_ref), image_r i [firstn 3 few5; skipn 3 few5] /\ i_fixed i = [] /\ i_imp i = None /\ i_bg i = None /\
    is_finite (d_gamma (i_px i) : b64) = true /\ 44 / 100 <= B2R (d_gamma (i_px i) : b64) <= 1.
Proof.
  split; [exact pow32_ref_accurate|]. split; [exact pow32_ref_unit|].
  destruct (few5_image pow32_ref pow64_ref) as (i & E & D1 & D2 & I1 & I2 & I3). exists i.
  assert (F : Forall rgba_ok few5) by (repeat (constructor; [repeat split; cbn; lia|]); constructor).
  split; [exact (@ir_stride (ieee pow32_ref pow64_ref) few5 3 2 3 _ i ltac:(lia) ltac:(lia) ltac:(lia) F E)|].
  split; [exact I1|]. split; [exact I2|]. split; [exact I3|]. split; [exact D1|exact D2].
Qed.
