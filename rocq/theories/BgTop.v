(** Remapping an image on top of itself, for reachable objects: exact
    arithmetic and IEEE arithmetic. *)
From Verif Require Import Base BaseFacts Arith Order Pal World Attr Hist MedianCut Nearest Kmeans Blur ImageM Quant Remap
  SpecHist SpecImage BlurFacts ImageFacts HistFacts MedianFacts SearchFacts NearFacts TreeFacts QuantFacts RemapFacts AttrFacts Api ApiFacts ResultFacts ReuseFacts
  PalFacts DitherZero DitherBg.
Open Scope nat_scope.

Section BgTop.
Context {A : Arith}.
(** [i2] is [i1] after calls that take the image by mutable reference. *)
Inductive image_later (i1 : image) : image -> Prop :=
| il_refl : image_later i1 i1
| il_hist u cb a h i w r h' i' w' : image_later i1 i -> unspec_ok u -> usable a -> hist_r h ->
    add_image u cb a (h, i, w) = (r, (h', i', w')) -> image_later i1 i'
| il_quantize u cb a i w r i' w' : image_later i1 i -> unspec_ok u -> usable a ->
    quantize u cb a (i, w) = (r, (i', w')) -> image_later i1 i'
| il_remap u cb m q i buf w r q' i' out w' : image_later i1 i -> unspec_ok u -> result_r m q ->
    remap_into u cb q i buf w = (r, (q', i', out, w')) -> image_later i1 i'
| il_prepare u m q i buf w r q' i' out w' : image_later i1 i -> unspec_ok u -> result_r m q -> length buf = i_w i * i_h i ->
    prepare_for_dithering u q i buf w = (r, (q', i', out, w')) -> image_later i1 i'.

Lemma self_bg_same i i' pxs : i_bg i' = i_bg i -> d_gamma (i_px i') = d_gamma (i_px i) -> self_bg i pxs -> self_bg i' pxs.
Proof. intros B G (b & Eb & S & Gb). exists b. rewrite B, G. auto. Qed.
Context {O : OrdLaws A} {CL : CastLaws A}.
Lemma later_image i1 i pxs : image_later i1 i -> image_r i1 pxs -> self_bg i1 pxs -> i_w i = i_w i1 /\ i_h i = i_h i1 /\ image_r i pxs /\ self_bg i pxs.
Proof.
  intros L R B. induction L as [|u cb a h i w r h' i' w' L IH U Ha H E|u cb a i w r i' w' L IH U Ha E|u cb m q i buf w r q' i' out w' L IH U Q E|u m q i buf w r q' i' out w' L IH U Q Lb E]; auto;
    destruct IH as (W & Hh & I & SB).
  - destruct (add_image_spec u cb a h i w pxs (reach_image _ _ I)) as (i2 & W2 & H2 & _ & S2 & _ & B2 & _ & _ & E2). cbv zeta in E2. rewrite E in E2.
    assert (i' = i2) by (destruct (cb _ _); [|destruct (all_rgba_rows _)]; inversion E2; auto). subst i2.
    split; [congruence|]. split; [congruence|]. split; [eapply ir_hist; eauto|]. eapply self_bg_same; [exact B2|apply S2|exact SB].
  - pose proof (ir_quantize u cb a i pxs w r i' w' U Ha I E) as I'. unfold quantize in E.
    destruct (add_image_spec u cb a (hist_new a) i w pxs (reach_image _ _ I)) as (i2 & W2 & H2 & _ & S2 & _ & B2 & _ & _ & E2). cbv zeta in E2. rewrite E2 in E.
    assert (i' = i2).
    { destruct (cb _ _); [inversion E; auto|]. destruct (all_rgba_rows _); [|inversion E; auto|inversion E; auto].
      destruct (quantize_internal _ _ _ _ _) as [? [? ?]]. inversion E; auto. }
    subst i2. split; [congruence|]. split; [congruence|]. split; [exact I'|]. eapply self_bg_same; [exact B2|apply S2|exact SB].
  - pose proof (remap_into_ok u cb q i pxs buf w U (reach_image _ _ I) (reach_pal _ _ Q)) as P. rewrite E in P. destruct P as (K & _).
    destruct (keeps_dims _ _ K). split; [congruence|]. split; [congruence|]. split; [eapply ir_remap; eauto|]. eapply self_bg_keeps; eauto.
  - pose proof (prepare_ok u q i pxs buf w U (reach_image _ _ I) (reach_pal _ _ Q) Lb) as P. rewrite E in P. destruct P as (K & _).
    destruct (keeps_dims _ _ K). split; [congruence|]. split; [congruence|]. split; [eapply ir_prepare; eauto|]. eapply self_bg_keeps; eauto.
Qed.
Lemma set_self_bg i b pxs i1 : image_r b pxs -> d_gamma (i_px b) = d_gamma (i_px i) -> set_background i b = Ok i1 -> self_bg i1 pxs /\ i_w i1 = i_w i /\ i_h i1 = i_h i.
Proof.
  intros R G E. unfold set_background in E. destruct (i_bg b); [discriminate|]. destruct (negb _); [discriminate|]. inversion E; subst.
  split; [|auto]. exists b. split; [reflexivity|]. split; [apply (im_px _ _ (reach_image _ _ R))|exact G].
Qed.

Lemma dither_unit m q : result_r m q -> (f0 <=f q_dither q) = true /\ (q_dither q <=f f1) = true.
Proof.
  intros R. induction R as [u cb a h w q s' U Ha H E|u cb a i pxs w q s' U Ha H E|m q v q' R IH E|m q v q' R IH E|m q R IH|u cb m q i pxs buf w r q' i' out w' U R IH I E|u m q i pxs buf w r q' i' out w' U R IH I B E].
  - destruct (made_by_fresh u cb a q U Ha) as (_ & _ & _ & ->); [left; eauto|]. split; apply fofZ_le; lia.
  - destruct (made_by_fresh u cb a q U Ha) as (_ & _ & _ & ->); [right; eauto 6|]. split; apply fofZ_le; lia.
  - unfold set_dithering_level in E. destruct (_ <=f _) eqn:E1; [|discriminate]. destruct (v <=f f1) eqn:E2; [|discriminate]. inversion E; subst. auto.
  - unfold set_output_gamma in E. destruct (_ || _)%bool; [discriminate|]. inversion E; subst. auto.
  - unfold palette. destruct (q_rem q) as [[ip e]|]; auto. destruct (q_int q); auto.
  - destruct (remap_step u cb m q i pxs buf w r q' i' out w' U R I E) as [->|(p & e & -> & _)]; auto.
  - destruct (prepare_step u m q i pxs buf w r q' i' out w' U R I B E) as [->|(p & -> & _)]; auto.
Qed.

Lemma post_bound m q : result_r m q -> (0 <= q_post q <= 4)%Z.
Proof.
  intros R. induction R as [u cb a h w q s' U Ha H E|u cb a i pxs w q s' U Ha H E|m q v q' R IH E|m q v q' R IH E|m q R IH|u cb m q i pxs buf w r q' i' out w' U R IH I E|u m q i pxs buf w r q' i' out w' U R IH I B E].
  - destruct (made_by_fresh u cb a q U Ha) as (_ & _ & -> & _); [left; eauto|]. exact (ao_post _ (usable_ok a Ha)).
  - destruct (made_by_fresh u cb a q U Ha) as (_ & _ & -> & _); [right; eauto 6|]. exact (ao_post _ (usable_ok a Ha)).
  - unfold set_dithering_level in E. destruct (_ <=f _); [|discriminate]. destruct (v <=f f1); [|discriminate]. inversion E; subst. auto.
  - unfold set_output_gamma in E. destruct (_ || _)%bool; [discriminate|]. inversion E; subst. auto.
  - unfold palette. destruct (q_rem q) as [[ip e]|]; auto. destruct (q_int q); auto.
  - destruct (remap_step u cb m q i pxs buf w r q' i' out w' U R I E) as [->|(p & e & -> & _)]; auto.
  - destruct (prepare_step u m q i pxs buf w r q' i' out w' U R I B E) as [->|(p & -> & _)]; auto.
Qed.
(** Entries of the rounded palette. *)
Lemma int_colors (p : palf) g post k s : nth_error (snd (init_int_palette p g post)) k = Some s ->
  exists c, nth_error (colors_of (fst (init_int_palette p g post))) k = Some (from_rgba (gamma_lut g) c) /\ ca s = ca c.
Proof.
  unfold init_int_palette, colors_of. cbn [fst snd]. rewrite map_map, !nth_error_map. destruct (nth_error p k) as [e|]; [|discriminate].
  cbn [option_map]. intros H. inversion H. unfold int_entry. cbn [fst snd]. eexists. split; [reflexivity|]. destruct (_ && _)%bool; reflexivity.
Qed.
Lemma int_length (p : palf) g post : length (snd (init_int_palette p g post)) = length (colors_of (fst (init_int_palette p g post))).
Proof. unfold init_int_palette, colors_of. cbn [fst snd]. rewrite !map_length. reflexivity. Qed.
End BgTop.
