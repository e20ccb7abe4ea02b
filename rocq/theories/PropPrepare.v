(** The hidden preparation call for dithering (property C53). *)
From Verif Require Import Base BaseFacts Arith Order Pal World Attr Hist Nearest Kmeans Blur ImageM Quant Remap
  SpecHist SpecImage ImageFacts SearchFacts RemapFacts SpecAttr AttrFacts Api ApiFacts ResultFacts PalFacts FixedFacts PrepareFacts.
Open Scope nat_scope.

(** C53 (O): what preparing cannot break.  With a buffer of the image's size it
    never panics, fails only when the remapping error is not a number (reported
    as OutOfMemory), leaves result and image objects that all other theorems
    apply to, and keeps the size of the palette, its fixed colours, the errors
    and all settings of the result. *)
Theorem C53_prepare_partial : forall (A : Arith) (C : CastLaws A) u m q i pxs buf w, unspec_ok u -> result_r m q -> image_r i pxs ->
  length buf = i_w i * i_h i ->
  let '(r, (q', i', out, w')) := prepare_for_dithering u q i buf w in
  r <> Panic /\ (forall e, r = Err e -> e = OutOfMemory /\ q' = q) /\ length out = length buf /\
  image_r i' pxs /\ result_r m q' /\ palette_len q' = palette_len q /\
  (forall c, has_fixed_color q c -> has_fixed_color q' c) /\
  quantization_error q' = quantization_error q /\ remapping_error q' = remapping_error q /\
  output_gamma q' = output_gamma q /\ q_dither q' = q_dither q.
Proof. exact (fun A C => @prepare_call A C). Qed.
Print Assumptions C53_prepare_partial.

(** C53 (O): nothing at all happens to a result when the image already has a dither map. *)
Theorem C53_prepared_twice : forall (A : Arith) (C : CastLaws A) u q i buf w, i_dmap i <> None ->
  let '(r, (q', i', _, w')) := prepare_for_dithering u q i buf w in r = Ok tt /\ q' = q /\ i' = i /\ w' = w.
Proof. exact (fun A C => @prepare_again A). Qed.
Print Assumptions C53_prepared_twice.

(** C53 (O): as far as the palette goes the call is redundant, when the image
    has a dither map afterwards: preparing and remapping shows the palette that
    a dithered remap alone shows. *)
Theorem C53_same_palette : forall (A : Arith) (C : CastLaws A) u cb1 cb2 m q i pxs buf buf2 w q1 i1 o1 w1 q2 i2 o2 w2 q3 i3 o3 w3,
  unspec_ok u -> result_r m q -> image_r i pxs -> (q_dither q =f f0) = false -> length buf = i_w i * i_h i ->
  prepare_for_dithering u q i buf w = (Ok tt, (q1, i1, o1, w1)) -> i_dmap i1 <> None ->
  remap_into u cb1 q1 i1 buf2 w1 = (Ok tt, (q2, i2, o2, w2)) ->
  remap_into u cb2 q i buf w = (Ok tt, (q3, i3, o3, w3)) ->
  fst (palette q2) = fst (palette q3).
Proof. exact (fun A C u cb1 cb2 m q i pxs buf buf2 w q1 i1 o1 w1 q2 i2 o2 w2 q3 i3 o3 w3 U => @prepared_palette A C u U cb1 cb2 m q i pxs buf buf2 w q1 i1 o1 w1 q2 i2 o2 w2 q3 i3 o3 w3). Qed.
Print Assumptions C53_same_palette.

From Verif Require Import Ieee USeq Witness.
From Flocq Require Import IEEE754.BinarySingleNaN.
Open Scope nat_scope.
Definition ramp : list rgba :=
  [Rgba 10 0 0 255; Rgba 60 0 0 255; Rgba 200 0 0 255; Rgba 250 0 0 255; Rgba 90 0 0 255; Rgba 30 0 0 255; Rgba 220 0 0 255; Rgba 150 0 0 255;
   Rgba 20 0 0 255; Rgba 70 0 0 255; Rgba 130 0 0 255; Rgba 240 0 0 255; Rgba 95 0 0 255; Rgba 35 0 0 255; Rgba 225 0 0 255; Rgba 155 0 0 255].
Definition ramp_img : image := get_ok (image_new ramp 4 4 d0) no_image.
Definition two : attrs := get_ok (set_max_colors attrs_new 2) attrs_new.
Definition ramp_st : image * world := snd (quantize useq never two (ramp_img, world0)).
Definition ramp_q : qresult := call_r (quantize useq never two (ramp_img, world0)) no_result.
Definition ramp_i : image := fst ramp_st.
Lemma ramp_new : image_new_stride ramp 4 4 4 d0 = Ok ramp_img.
Proof. vm. Qed.
Lemma ramp_img_r : image_r ramp_img (strided rgba_default ramp (Z.to_nat 4) (Z.to_nat 4) (Z.to_nat 4)).
Proof. refine (ir_stride ramp 4 4 4 d0 ramp_img _ _ _ _ ramp_new); try lia. repeat constructor; cbn; lia. Qed.
Lemma two_eq : set_max_colors attrs_new 2 = Ok two.
Proof. vm. Qed.
Lemma two_usable : usable two.
Proof. apply (us_call attrs_new (CallMaxColors 2)); [apply us_new|cbn; lia|exact two_eq]. Qed.
Lemma ramp_q_eq : quantize useq never two (ramp_img, world0) = (Ok ramp_q, ramp_st).
Proof. vm. Qed.
Lemma ramp_q_r : result_r 2 ramp_q.
Proof. exact (rr_image useq never two ramp_img _ world0 ramp_q ramp_st useq_ok two_usable ramp_img_r ramp_q_eq). Qed.
Lemma ramp_i_r : image_r ramp_i (strided rgba_default ramp (Z.to_nat 4) (Z.to_nat 4) (Z.to_nat 4)).
Proof.
  refine (ir_quantize useq never two ramp_img _ world0 (Ok ramp_q) ramp_i (snd ramp_st) useq_ok two_usable ramp_img_r _).
  rewrite ramp_q_eq. unfold ramp_i. destruct ramp_st; reflexivity.
Qed.

Definition next_q {X Y Z0} (x : X * (qresult * Y * Z0 * world)) : qresult := fst (fst (fst (snd x))).
Definition next_i {X Y Z0} (x : X * (Y * image * Z0 * world)) : image := snd (fst (fst (snd x))).
Definition is_ok {X Y} (x : res X * Y) : bool := match fst x with Ok _ => true | _ => false end.
Definition err_of {X Y Z0} (x : X * (qresult * Y * Z0 * world)) := remapping_error (next_q x).
Definition differ (a b : option f64) : bool := match a, b with Some x, Some y => (Bltb x y || Bltb y x)%bool | _, _ => false end.
Lemma differ_neq a b : differ a b = true -> a <> b.
Proof.
  intros D ->. unfold differ in D. destruct b as [x|]; [|discriminate].
  rewrite (Bltb_irrefl 53 1024 x) in D. discriminate.
Qed.
(** What a program sees with and without preparing. *)
Definition seen (u : unspec) (q : qresult) (i : image) (n : nat) :=
  let prep := prepare_for_dithering u q i (repeat 0 n) world0 in
  let r1 := remap_into u (fun _ _ => false) q i (repeat 0 n) world0 in
  let r2 := remap_into u (fun _ _ => false) (next_q prep) (next_i prep) (repeat 0 n) world0 in
  (is_ok prep, is_ok r1, is_ok r2, fst (palette (next_q prep)), fst (palette q), differ (err_of r1) (err_of r2),
   is_none (i_dmap (next_i prep)), fst (palette (next_q r1)), fst (palette (next_q r2)), length (snd (fst (snd prep)))).
Lemma seen_ramp : seen useq ramp_q ramp_i 16 =
  (true, true, true, [Rgba 197 0 0 255; Rgba 51 0 0 255], [Rgba 198 0 0 255; Rgba 52 0 0 255], true,
   false, [Rgba 197 0 0 255; Rgba 51 0 0 255], [Rgba 197 0 0 255; Rgba 51 0 0 255], 16).
Proof. vm. Qed.
Lemma ramp_size : i_w ramp_i * i_h ramp_i = 16.
Proof. vm. Qed.
Lemma seen_refutes u q i n : forall c1 c2 d1 d2 l b, seen u q i n = (true, true, true, c1, c2, true, b, d1, d2, l) -> c1 <> c2 ->
  let prep := prepare_for_dithering u q i (repeat 0 n) world0 in
  let r1 := remap_into u (fun _ _ => false) q i (repeat 0 n) world0 in
  let r2 := remap_into u (fun _ _ => false) (next_q prep) (next_i prep) (repeat 0 n) world0 in
  is_ok prep = true /\ is_ok r1 = true /\ is_ok r2 = true /\
  fst (palette (next_q prep)) <> fst (palette q) /\ err_of r1 <> err_of r2.
Proof.
  intros c1 c2 d1 d2 l b E N. unfold seen in E. cbv zeta in *.
  repeat (apply pair_equal_spec in E as [E ?]). repeat split; auto; [congruence|]. apply differ_neq; auto.
Qed.

(** C53: "100% redundant and unnecessary" (quant.rs:74) is false.  Preparing
    changes the palette a result returns, and the error reported after a
    remap that succeeds either way. *)
Theorem C53_redundant_refuted : exists u m (q : qresult) (i : image) pxs, unspec_ok u /\ result_r m q /\ image_r i pxs /\
  let prep := prepare_for_dithering u q i (repeat 0 (i_w i * i_h i)) world0 in
  let r1 := remap_into u (fun _ _ => false) q i (repeat 0 (i_w i * i_h i)) world0 in
  let r2 := remap_into u (fun _ _ => false) (next_q prep) (next_i prep) (repeat 0 (i_w i * i_h i)) world0 in
  is_ok prep = true /\ is_ok r1 = true /\ is_ok r2 = true /\
  fst (palette (next_q prep)) <> fst (palette q) /\ err_of r1 <> err_of r2.
Proof.
  exists useq, 2, ramp_q, ramp_i. eexists. split; [exact useq_ok|]. split; [exact ramp_q_r|]. split; [exact ramp_i_r|].
  rewrite ramp_size. apply (seen_refutes useq ramp_q ramp_i 16 _ _ _ _ _ _ seen_ramp). discriminate.
Qed.
Print Assumptions C53_redundant_refuted.

(** C53: a buffer larger than the image, which remap_into accepts, makes preparing panic. *)
Definition large_seen (u : unspec) (q : qresult) (i : image) (buf : list nat) :=
  (Nat.leb (i_w i * i_h i) (length buf), is_ok (remap_into u (fun _ _ => false) q i buf world0),
   match fst (prepare_for_dithering u q i buf world0) with Panic => true | _ => false end).
Lemma large_ramp : large_seen useq ramp_q ramp_i (repeat 0 20) = (true, true, true).
Proof. vm. Qed.
Lemma large_refutes u q i buf : large_seen u q i buf = (true, true, true) -> i_w i * i_h i <= length buf /\
  is_ok (remap_into u (fun _ _ => false) q i buf world0) = true /\ fst (prepare_for_dithering u q i buf world0) = Panic.
Proof.
  intros E. unfold large_seen in E. repeat (apply pair_equal_spec in E as [E ?]). split; [apply Nat.leb_le; auto|]. split; auto.
  destruct (fst (prepare_for_dithering _ _ _ _ _)); auto; discriminate.
Qed.
Theorem C53_large_buffer_refuted : exists u m (q : qresult) (i : image) pxs buf, unspec_ok u /\ result_r m q /\ image_r i pxs /\
  i_w i * i_h i <= length buf /\
  is_ok (remap_into u (fun _ _ => false) q i buf world0) = true /\ fst (prepare_for_dithering u q i buf world0) = Panic.
Proof.
  exists useq, 2, ramp_q, ramp_i. eexists. exists (repeat 0 20). split; [exact useq_ok|]. split; [exact ramp_q_r|]. split; [exact ramp_i_r|].
  exact (large_refutes useq ramp_q ramp_i (repeat 0 20) large_ramp).
Qed.
Print Assumptions C53_large_buffer_refuted.

(** Preparing an image of sixteen reds for a palette of two colours leaves a
    dither map; the palette after a remap is the same. *)
Example C53_example : result_r 2 ramp_q /\ image_r ramp_i (strided rgba_default ramp (Z.to_nat 4) (Z.to_nat 4) (Z.to_nat 4)) /\
  seen useq ramp_q ramp_i 16 =
  (true, true, true, [Rgba 197 0 0 255; Rgba 51 0 0 255], [Rgba 198 0 0 255; Rgba 52 0 0 255], true,
   false, [Rgba 197 0 0 255; Rgba 51 0 0 255], [Rgba 197 0 0 255; Rgba 51 0 0 255], 16).
Proof. exact (conj ramp_q_r (conj ramp_i_r seen_ramp)). Qed.
