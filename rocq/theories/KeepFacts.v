(** An image made of colours of the palette is remapped without change: exact
    arithmetic and floating point. *)
From Coq Require Import Reals Lra.
From Verif Require Import Base BaseFacts Arith Ieee IeeeFacts Order Pal World Attr Hist MedianCut Nearest Kmeans Blur ImageM Quant Remap
  SpecHist SpecImage SpecPow BlurFacts ImageFacts HistFacts SearchFacts NearFacts TreeFacts QuantFacts RemapFacts AttrFacts Api ApiFacts ResultFacts ReuseFacts
  PalFacts RealArith NearReal SearchReal DitherZero LosslessReal FewFacts ContrastLow FewImage LosslessTop FewRemap KeepTop ReportFacts BgTop
  LnFacts ColorFacts SmallFloat MedianIeee AvgIeee MetricIeee NearIeee ContrastIeee BgIeee FiniteRemap ApartIeee AvgSame BackIeee LosslessIeee.
From Flocq Require Import IEEE754.BinarySingleNaN Core.Core.
Open Scope R_scope.

Section Any.
Context {A : Arith} {CL : CastLaws A}.
(** No draft is made before the remap. *)
Definition draftless (q : qresult) (i : image) : Prop := (q_dither q =f f0)%flt = true \/ q_dmap q = DmNone \/ i_dmap i <> None.
Lemma used_palette u cb m q i pxs buf w q' i' out w' : unspec_ok u -> result_r m q -> image_r i pxs -> draftless q i ->
  remap_into u cb q i buf w = (Ok tt, (q', i', out, w')) ->
  exists e, q' = set_rem q (Some (snd (init_int_palette (q_pal q) (q_gamma q) (q_post q)), e)).
Proof.
  intros U R I D E. destruct (q_dither q =f f0)%flt eqn:D0.
  - destruct (plain_remap_eq u cb q i pxs buf w q' i' out w' U (reach_image _ _ I) (reach_pal _ _ R) D0 E) as (n & e & _ & _ & -> & _). eexists. reflexivity.
  - exists (q_err q). destruct D as [D|D]; [congruence|]. exact (no_draft u cb q i buf w q' i' out w' D0 D E).
Qed.
(** Remapping twice, from the statement about one remap. *)
Lemma twice (Hyp : qresult -> image -> Prop) u1 cb1 m q i1 pxs1 buf1 w1 q1 i1' out1 w1' u2 cb2 i2 pxs2 buf2 w2 q2 i2' out2 w2' :
  (forall q' e i, Hyp q' i -> Hyp (set_rem q' e) i) ->
  (forall q0 q', Hyp q0 i2 -> result_r m q0 -> draftless q0 i2 -> remap_into u2 cb2 q0 i2 buf2 w2 = (Ok tt, (q', i2', out2, w2')) ->
     (forall r c, In r pxs2 -> In c r -> exists s, In s (fst (palette q')) /\ same_look c s) ->
     forall y x r c, nth_error pxs2 y = Some r -> nth_error r x = Some c ->
     exists k s, nth_error out2 (y * i_w i2 + x)%nat = Some k /\ nth_error (fst (palette q')) k = Some s /\ same_look c s) ->
  unspec_ok u1 -> unspec_ok u2 -> result_r m q -> image_r i1 pxs1 -> image_r i2 pxs2 -> draftless q i1 -> draftless q i2 -> Hyp q i2 ->
  remap_into u1 cb1 q i1 buf1 w1 = (Ok tt, (q1, i1', out1, w1')) ->
  (forall y x r c, nth_error pxs2 y = Some r -> nth_error r x = Some c ->
     exists k, nth_error out1 (y * i_w i1 + x)%nat = Some k /\ nth_error (fst (palette q1)) k = Some c) ->
  remap_into u2 cb2 q1 i2 buf2 w2 = (Ok tt, (q2, i2', out2, w2')) ->
  fst (palette q2) = fst (palette q1) /\
  forall y x r c, nth_error pxs2 y = Some r -> nth_error r x = Some c ->
  exists k s, nth_error out2 (y * i_w i2 + x)%nat = Some k /\ nth_error (fst (palette q2)) k = Some s /\ same_look c s.
Proof.
  intros KS ONE U1 U2 R I1 I2 D1 D2 H E1 SHOW E2.
  destruct (used_palette u1 cb1 m q i1 pxs1 buf1 w1 q1 i1' out1 w1' U1 R I1 D1 E1) as (e1 & Q1).
  pose proof (rr_remap u1 cb1 m q i1 pxs1 buf1 w1 _ q1 i1' out1 w1' U1 R I1 E1) as R1.
  assert (D2' : draftless q1 i2) by (rewrite Q1; exact D2).
  destruct (used_palette u2 cb2 m q1 i2 pxs2 buf2 w2 q2 i2' out2 w2' U2 R1 I2 D2' E2) as (e2 & Q2).
  assert (PE : fst (palette q2) = fst (palette q1)) by (rewrite Q2, Q1; reflexivity).
  split; [exact PE|]. intros y x r c Y X.
  eapply (ONE q1 q2); eauto; [rewrite Q1; auto|].
  intros r0 c0 Hr Hc. apply In_nth_error in Hr as (y0 & Y0). apply In_nth_error in Hc as (x0 & X0).
  destruct (SHOW y0 x0 r0 c0 Y0 X0) as (k & _ & Hk). exists c0. rewrite PE. split; [eapply nth_error_In; eauto|].
  unfold same_look. destruct (Z.eqb_spec (ca c0) 0); auto.
Qed.
End Any.

Section Exact.
Variable big : R.
Hypothesis Hb : (1 <= big)%R.
Local Notation A := (real big).
Local Hint Extern 0 Arith => exact (real big) : typeclass_instances.
Local Hint Extern 0 (CastLaws _) => exact (real_cast big) : typeclass_instances.
Lemma keep_real u rcb m q i pxs buf w q' i' out w' : unspec_ok u -> result_r m q -> image_r i pxs -> i_bg i = None -> d_gamma (i_px i) = q_gamma q ->
  draftless q i -> remap_into u rcb q i buf w = (Ok tt, (q', i', out, w')) ->
  (forall r c, In r pxs -> In c r -> exists s, In s (fst (palette q')) /\ same_look c s) ->
  ((q_dither q =f f0)%flt = true -> option_map snd (q_rem q') = Some (Some 0)) /\
  forall y x r c, nth_error pxs y = Some r -> nth_error r x = Some c ->
  exists k s, nth_error out (y * i_w i + x)%nat = Some k /\ nth_error (fst (palette q')) k = Some s /\ same_look c s.
Proof.
  intros U R I B GE D E COV.
  assert (GP : 0 < q_gamma q).
  { rewrite <- GE. apply Rltb_lt. exact (@image_gamma_kept A (real_cast big) _ _ I (default_gamma_pos big)). }
  destruct (used_palette u rcb m q i pxs buf w q' i' out w' U R I D E) as (e & Q').
  assert (PE : fst (palette q') = snd (init_int_palette (q_pal q) (q_gamma q) (q_post q))) by (rewrite Q'; reflexivity).
  destruct (@keep_remap A (real_cast big) (fun _ => True) (fun _ => True) (real_zero_laws big) eq_refl (Rplus_0_r 0) u U q (reach_pal _ _ R) (post_bound _ _ R)
    i pxs (reach_image _ _ I) B GE (fun _ => True)) with (9 := E) as (X1 & X2 & X3).
  - auto.
  - intros c c' _ _ V. exact (from_visible big (q_gamma q) c c' V).
  - intros c Rc. exact (back_visible big (q_gamma q) c GP Rc).
  - intros p n _ N c Hc. split; [exact (real_finds big Hb p n c N Hc)|]. intros g. exact (real_hit_dist big Hb p n c g N Hc).
  - change (0 / IZR (wrap32 (Z.of_nat (i_w i) * Z.of_nat (i_h i))) = 0). unfold Rdiv. ring.
  - auto.
  - rewrite <- PE. exact COV.
  - destruct D as [D|D]; [left; exact D|right]. split; [exact D|]. exact (conj Logic.I (conj Logic.I (fun _ _ => Logic.I))).
  - rewrite PE. split; [exact X2|exact X3].
Qed.
End Exact.

Section I.
Variables (pow32 : b32 -> b32 -> b32) (pow64 : b64 -> b64 -> b64) (Acc : pow32_accurate pow32) (PU : pow32_unit pow32).
Notation Ar := (ieee pow32 pow64).
Local Existing Instance ieee.
Lemma keep_ieee u rcb m (q : @qresult Ar) i pxs buf w q' i' out w' : unspec_ok u -> result_r m q -> image_r i pxs -> i_bg i = None -> d_gamma (i_px i) = q_gamma q ->
  gamma_usual (q_gamma q) -> (Z.of_nat (i_w i) * Z.of_nat (i_h i) <= 536870912)%Z ->
  draftless q i -> @remap_into Ar u rcb q i buf w = (Ok tt, (q', i', out, w')) ->
  (forall r c, In r pxs -> In c r -> exists s, In s (fst (palette q')) /\ same_look c s) ->
  (@feq Ar (q_dither q) (@f0 Ar) = true -> option_map snd (q_rem q') = Some (Some (@d0 Ar))) /\
  forall y x r c, nth_error pxs y = Some r -> nth_error r x = Some c ->
  exists k s, nth_error out (y * i_w i + x)%nat = Some k /\ nth_error (fst (palette q')) k = Some s /\ same_look c s.
Proof.
  intros U R I B GE GU CAP D E COV. pose proof (usual_fits _ GU) as GF.
  pose proof (proj1 (proj2 (@objects_ok Ar (ieee_cast pow32 pow64))) i pxs I) as IO.
  destruct (@used_palette Ar (ieee_cast pow32 pow64) u rcb m q i pxs buf w q' i' out w' U R I D E) as (e & Q').
  assert (PE : fst (palette q') = snd (@init_int_palette Ar (q_pal q) (q_gamma q) (q_post q))) by (rewrite Q'; reflexivity).
  assert (POS : (0 < Z.of_nat (i_w i) * Z.of_nat (i_h i))%Z).
  { pose proof (sh_w _ _ (im_px _ _ IO)) as X1. pose proof (sh_h _ _ (im_px _ _ IO)) as X2.
    change (0 < i_w i)%nat in X1. change (0 < i_h i)%nat in X2. nia. }
  destruct (@keep_remap Ar (ieee_cast pow32 pow64) (good pow32 pow64) plus (good_zero pow32 pow64)
    (av_zero _ _ _ _ (ieee_avg_laws pow32 pow64)) (av_zero2 _ _ _ _ (ieee_avg_laws pow32 pow64)) u U q (@reach_pal Ar (ieee_cast pow32 pow64) _ _ R) (@post_bound Ar (ieee_cast pow32 pow64) _ _ R)
    i pxs IO B GE (fun _ => True)) with (9 := E) as (X1 & X2 & X3).
  - intros c Rc. apply (pix_good pow32 pow64 Acc PU); auto.
  - intros c c'. exact (pix_visible pow32 pow64 Acc _ c c' GF).
  - intros c Rc. refine (eq_trans (back_color pow32 pow64 Acc _ c _ GF Rc _) _); [|reflexivity]. apply near_px_refl. apply (pixel_values pow32 pow64 Acc PU); auto.
  - intros p n H N c Hc. refine (found pow32 pow64 Acc PU (q_gamma q) p n c GU _ N Hc).
    intros k Hk. destruct (H k Hk) as (c' & Rc & _ & Ek). eauto.
  - apply zero_div. lia.
  - auto.
  - rewrite <- PE. exact COV.
  - destruct D as [D|D]; [left; exact D|right]. split; [exact D|].
    destruct (@dither_unit Ar (ieee_ord pow32 pow64) (ieee_cast pow32 pow64) _ _ R) as [D0 D1]. exact (ieee_levels pow32 pow64 q D0 D1).
  - rewrite PE. split; [exact X2|exact X3].
Qed.
End I.

Section Twice.
Variable big : R.
Hypothesis Hb : (1 <= big)%R.
Local Notation A := (real big).
Local Hint Extern 0 Arith => exact (real big) : typeclass_instances.
Local Hint Extern 0 (CastLaws _) => exact (real_cast big) : typeclass_instances.
Lemma idempotent_real m q u1 cb1 i1 pxs1 buf1 w1 q1 i1' out1 w1' u2 cb2 i2 pxs2 buf2 w2 q2 i2' out2 w2' : unspec_ok u1 -> unspec_ok u2 -> result_r m q ->
  image_r i1 pxs1 -> image_r i2 pxs2 -> (q_dither q =f f0)%flt = true \/ q_dmap q = DmNone -> i_bg i2 = None -> d_gamma (i_px i2) = q_gamma q ->
  remap_into u1 cb1 q i1 buf1 w1 = (Ok tt, (q1, i1', out1, w1')) ->
  (forall y x r c, nth_error pxs2 y = Some r -> nth_error r x = Some c ->
     exists k, nth_error out1 (y * i_w i1 + x)%nat = Some k /\ nth_error (fst (palette q1)) k = Some c) ->
  remap_into u2 cb2 q1 i2 buf2 w2 = (Ok tt, (q2, i2', out2, w2')) ->
  fst (palette q2) = fst (palette q1) /\
  forall y x r c, nth_error pxs2 y = Some r -> nth_error r x = Some c ->
  exists k s, nth_error out2 (y * i_w i2 + x)%nat = Some k /\ nth_error (fst (palette q2)) k = Some s /\ same_look c s.
Proof.
  intros U1 U2 R I1 I2 D B GE E1 SH E2.
  apply (@twice A (real_cast big) (fun q i => d_gamma (i_px i) = q_gamma q) u1 cb1 m q i1 pxs1 buf1 w1 q1 i1' out1 w1' u2 cb2 i2 pxs2 buf2 w2 q2 i2' out2 w2'); auto.
  - intros q0 q' G0 R0 D0 E0 COV. apply (keep_real big Hb u2 cb2 m q0 i2 pxs2 buf2 w2 q' i2' out2 w2' U2 R0 I2 B G0 D0 E0 COV).
  - unfold draftless. tauto.
  - unfold draftless. tauto.
Qed.
End Twice.

Section TwiceI.
Variables (pow32 : b32 -> b32 -> b32) (pow64 : b64 -> b64 -> b64) (Acc : pow32_accurate pow32) (PU : pow32_unit pow32).
Notation Ar := (ieee pow32 pow64).
Local Existing Instance ieee.
Lemma idempotent_ieee m (q : @qresult Ar) u1 cb1 i1 pxs1 buf1 w1 q1 i1' out1 w1' u2 cb2 i2 pxs2 buf2 w2 q2 i2' out2 w2' : unspec_ok u1 -> unspec_ok u2 -> result_r m q ->
  image_r i1 pxs1 -> image_r i2 pxs2 -> @feq Ar (q_dither q) (@f0 Ar) = true \/ q_dmap q = DmNone -> i_bg i2 = None -> d_gamma (i_px i2) = q_gamma q ->
  gamma_usual (q_gamma q) -> (Z.of_nat (i_w i2) * Z.of_nat (i_h i2) <= 536870912)%Z ->
  @remap_into Ar u1 cb1 q i1 buf1 w1 = (Ok tt, (q1, i1', out1, w1')) ->
  (forall y x r c, nth_error pxs2 y = Some r -> nth_error r x = Some c ->
     exists k, nth_error out1 (y * i_w i1 + x)%nat = Some k /\ nth_error (fst (palette q1)) k = Some c) ->
  @remap_into Ar u2 cb2 q1 i2 buf2 w2 = (Ok tt, (q2, i2', out2, w2')) ->
  fst (palette q2) = fst (palette q1) /\
  forall y x r c, nth_error pxs2 y = Some r -> nth_error r x = Some c ->
  exists k s, nth_error out2 (y * i_w i2 + x)%nat = Some k /\ nth_error (fst (palette q2)) k = Some s /\ same_look c s.
Proof.
  intros U1 U2 R I1 I2 D B GE GU CAP E1 SH E2.
  assert (D1 : draftless q i1) by (unfold draftless; tauto). assert (D2 : draftless q i2) by (unfold draftless; tauto).
  apply (@twice Ar (ieee_cast pow32 pow64) (fun q i => d_gamma (i_px i) = q_gamma q /\ gamma_usual (q_gamma q))
     u1 cb1 m q i1 pxs1 buf1 w1 q1 i1' out1 w1' u2 cb2 i2 pxs2 buf2 w2 q2 i2' out2 w2'); auto.
  intros q0 q' (G0 & G1) R0 D0 E0 COV.
  apply (keep_ieee pow32 pow64 Acc PU u2 cb2 m q0 i2 pxs2 buf2 w2 q' i2' out2 w2' U2 R0 I2 B G0 G1); auto.
Qed.
End TwiceI.
