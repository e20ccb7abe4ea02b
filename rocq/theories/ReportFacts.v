(** The errors and qualities reported by a result. *)
From Verif Require Import Base BaseFacts Arith Order Pal World Attr Hist Nearest Kmeans Blur ImageM Quant Remap SpecHist SpecImage
  AttrFacts ImageFacts SearchFacts RemapFacts Ieee IeeeFacts SpecPow QualityFacts Api ApiFacts NearFacts ResultFacts PalFacts ReuseFacts SpecReport.
From Flocq Require Import IEEE754.BinarySingleNaN.
Open Scope Z_scope.

Lemma dle_flip {A : Arith} {O : OrdLaws A} x s : dle x x = true -> dle s s = true -> dle x s = false -> dle s x = true.
Proof. intros X S N. destruct (dle_total s x S X) as [H|H]; [apply dlt_dle; auto|congruence]. Qed.
Lemma quality_describes : forall pow32 pow64, pow64_accurate pow64 -> let A := ieee pow32 pow64 in
  forall e : f64, describes e (mse_to_quality e).
Proof.
  intros pow32 pow64 Acc A e. destruct (quality_scale pow32 pow64) as (_ & Rg & _ & _ & Ch). fold A in Rg, Ch.
  split; [apply Rg|]. intros a mn a' H E.
  unfold set_quality in E. destruct (negb _ || _)%bool; [discriminate|]. injection E as <-. exists (quality_to_mse mn). split; [reflexivity|].
  destruct (Ch e) as [C1 C2]. specialize (Rg e). split.
  - intros L. specialize (C1 ltac:(lia)). destruct (Z.eq_dec mn (mse_to_quality e)) as [->|N]; [exact C1|].
    pose proof (proj1 (thresholds_apart pow32 pow64 mn (mse_to_quality e) Acc ltac:(lia) ltac:(lia))) as T1.
    pose proof (threshold_self pow32 pow64 mn Acc ltac:(lia)) as T2.
    refine (@dle_trans A (ieee_ord pow32 pow64) _ _ _ C1 _). refine (@dle_trans A (ieee_ord pow32 pow64) _ _ _ _ T2).
    exact (@dle_flip A (ieee_ord pow32 pow64) _ _ (@dle_refl_l A (ieee_ord pow32 pow64) _ _ T2) (@dle_refl_r A (ieee_ord pow32 pow64) _ _ C1) T1).
  - intros L. destruct (Z.le_gt_cases mn (mse_to_quality e)) as [Q|Q]; auto. rewrite (C2 mn) in L by lia. discriminate.
Qed.

(** * What each getter reports *)
Lemma fresh_reports : forall pow32 pow64, pow64_accurate pow64 -> let A := ieee pow32 pow64 in
  forall u cb a (q : qresult), unspec_ok u -> usable a -> made_by u cb a q ->
  remapping_error q = quantization_error q /\ remapping_quality q = quantization_quality q /\
  match quantization_error q, quantization_quality q with
  | Some e, Some v => exists e0, q_err q = Some e0 /\ e = standard e0 /\ describes e0 v
  | None, None => q_err q = None
  | _, _ => False
  end.
Proof.
  intros pow32 pow64 Acc A u cb a q U Ha M.
  assert (C : CastLaws A) by exact (ieee_cast pow32 pow64).
  pose proof (made_by_fresh u cb a q U Ha M) as F. destruct F as (F & _).
  unfold remapping_error, remapping_quality, remap_err, quantization_error, quantization_quality.
  rewrite F. split; [reflexivity|]. split; [reflexivity|].
  destruct (q_err q) as [e|]; cbn [option_map]; [|reflexivity].
  exists e. split; [reflexivity|]. split; [reflexivity|]. exact (quality_describes pow32 pow64 Acc e).
Qed.
Section Remap.
Context {A : Arith} {C : CastLaws A}.
Lemma remap_keeps_error u rcb m q i pxs buf w r q' i' out w' : unspec_ok u -> result_r m q -> image_r i pxs ->
  remap_into u rcb q i buf w = (r, (q', i', out, w')) -> q_err q' = q_err q.
Proof.
  intros U R I E. pose proof (remap_into_ok u rcb q i pxs buf w U (reach_image _ _ I) (reach_pal _ _ R)) as P. rewrite E in P.
  destruct P as (_ & _ & _ & _ & P). destruct r as [[]|e|]; [|destruct P as [-> _]; reflexivity|destruct P].
  destruct P as (_ & _ & ip & e & -> & _). reflexivity.
Qed.
End Remap.
Lemma remap_reports : forall pow32 pow64, pow64_accurate pow64 -> let A := ieee pow32 pow64 in
  forall u rcb m (q : qresult) i pxs buf w q' i' out w', unspec_ok u -> result_r m q -> image_r i pxs ->
  (q_dither q =f f0) = true -> i_bg i = None -> remap_into u rcb q i buf w = (Ok tt, (q', i', out, w')) ->
  quantization_error q' = quantization_error q /\ quantization_quality q' = quantization_quality q /\
  exists dist t v,
    let mean := sum_of_rows (i_w i) dist t /d dofZ ((Z.of_nat (i_w i) * Z.of_nat (i_h i)) mod 2 ^ 32) in
    Permutation (stree_leaves t) (seq 0 (i_h i)) /\
    (forall y x r c, nth_error pxs y = Some r -> nth_error r x = Some c ->
       exists k pc, nth_error out (y * i_w i + x) = Some k /\
         nth_error (colors_of (fst (init_int_palette (q_pal q) (q_gamma q) (q_post q)))) k = Some pc /\
         dist_to (from_rgba (gamma_lut (d_gamma (i_px i))) c) pc (dist y x)) /\
    remapping_error q' = Some (standard mean) /\ remapping_quality q' = Some v /\ describes mean v.
Proof.
  intros pow32 pow64 Acc A u rcb m q i pxs buf w q' i' out w' U R I D B E.
  pose proof (@remap_keeps_error A (ieee_cast pow32 pow64) u rcb m q i pxs buf w _ q' i' out w' U R I E) as K.
  unfold quantization_error, quantization_quality. rewrite K. split; [reflexivity|]. split; [reflexivity|].
  destruct (@plain_error A u rcb m q i pxs buf w q' i' out w' (ieee_cast pow32 pow64) U R I D B E) as (dist & t & T1 & _ & T3 & T4).
  set (mean := sum_of_rows (i_w i) dist t /d dofZ ((Z.of_nat (i_w i) * Z.of_nat (i_h i)) mod 2 ^ 32)) in *.
  exists dist, t, (mse_to_quality mean). fold mean. cbv zeta. split; [exact T1|]. split; [exact T4|].
  unfold remapping_error, remapping_quality. rewrite T3. cbn [option_map].
  split; [reflexivity|]. split; [reflexivity|]. exact (quality_describes pow32 pow64 Acc mean).
Qed.

(** * Dithering without a draft reports the error of the palette search *)
Section Dither.
Context {A : Arith} {C : CastLaws A}.
Lemma no_draft u cb q i buf w q' i' out w' : (q_dither q =f f0) = false -> (q_dmap q = DmNone \/ i_dmap i <> None) ->
  remap_into u cb q i buf w = (Ok tt, (q', i', out, w')) -> q' = set_rem q (Some (snd (init_int_palette (q_pal q) (q_gamma q) (q_post q)), q_err q)).
Proof.
  intros D N E. unfold remap_into in E. destruct (Nat.ltb _ _); [discriminate|].
  set (rows := chunks_exact _ _) in *.
  destruct (write_remapped u cb (RSt q i rows w)) as [r s'] eqn:EW. apply pair_equal_spec in E as [-> E].
  apply pair_equal_spec in E as [E _]. apply pair_equal_spec in E as [E _]. apply pair_equal_spec in E as [EQ _].
  unfold write_remapped in EW. unfold sbind at 1, sget at 1 in EW. cbv zeta in EW. cbn [r_q r_img] in EW.
  unfold sbind at 1, on_world at 1, progress at 1 in EW. cbn [r_w r_q r_img r_out] in EW.
  match type of EW with context [if ?b then _ else _] => destruct b; [discriminate|] end.
  unfold sbind at 1, put_img at 1, smod at 1 in EW. cbn [r_w r_q r_img r_out] in EW. rewrite D in EW.
  unfold sbind at 1 in EW. unfold optionally_generate_dither_map at 1 in EW. unfold sbind at 1, sget at 1 in EW. cbv zeta in EW. cbn [r_img i_dmap set_px] in EW.
  match type of EW with context [negb (?x && is_none ?y)] => assert (G : (x && is_none y)%bool = false) end.
  { destruct N as [-> |N].
    - cbn [dmode_is_always dmode_is_none negb orb]. rewrite Bool.andb_false_r. reflexivity.
    - destruct (i_dmap i); [|congruence]. cbn [is_none]. apply Bool.andb_false_r. }
  rewrite G in EW. cbn [negb] in EW. unfold sret at 1 in EW.
  unfold sbind at 1, on_world at 1, progress at 1 in EW.
  match type of EW with context [if ?b then _ else _] => destruct b; [discriminate|] end.
  destruct (init_int_palette (q_pal q) (q_gamma q) (q_post q)) as [p2 ip] eqn:IP.
  unfold sbind at 1 in EW.
  match type of EW with match ?g with _ => _ end = _ => destruct g as [[[]| |] s2] eqn:EF; try discriminate end.
  unfold put_q, smod in EW. apply pair_equal_spec in EW as [_ EW]. rewrite <- EQ, <- EW. reflexivity.
Qed.
Lemma no_draft_reports u cb q i buf w q' i' out w' : (q_dither q =f f0) = false -> (q_dmap q = DmNone \/ i_dmap i <> None) ->
  remap_into u cb q i buf w = (Ok tt, (q', i', out, w')) ->
  remapping_error q' = quantization_error q /\ remapping_quality q' = quantization_quality q.
Proof.
  intros D N E. rewrite (no_draft _ _ _ _ _ _ _ _ _ _ D N E).
  unfold remapping_error, remapping_quality, remap_err. cbn [q_rem set_rem q_err].
  unfold quantization_error, quantization_quality. destruct (q_err q); auto.
Qed.
End Dither.
