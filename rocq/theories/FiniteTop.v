(** Results made at speed 4 or more have finite palettes, in IEEE arithmetic. *)
From Coq Require Import Reals Lra.
From Verif Require Import Base BaseFacts Arith Order Ieee IeeeFacts SmallFloat Pal World Attr Hist MedianCut Nearest Kmeans Blur ImageM Quant Remap
  SpecHist SpecImage BlurFacts ImageFacts MedianFacts SearchFacts QuantFacts NearFacts RemapFacts AttrFacts Api ApiFacts ResultFacts SpecPal PalFacts FewFacts FewImage SpecFinite
  HistFacts HistWeights MedianIeee ContrastIeee AvgIeee PrepareFacts ReuseFacts FiniteRemap CutInv RoundInv AvgF32 WeightIeee FiniteSearch FiniteStart HistTotal.
From Flocq Require Import IEEE754.BinarySingleNaN Core.Core.
Open Scope Z_scope.

(** * The number of rounds *)
Section Trials.
Context {A : Arith}.
Lemma usable_trials a : usable a -> 1 <= get_speed a <= 10 /\ a_trials a = Z.max (56 - 9 * get_speed a) 0.
Proof.
  unfold get_speed. induction 1 as [|a c a' U IH T E|a b U IH]; [cbn; lia| |exact IH].
  destruct c; cbn [apply_call] in E.
  - unfold set_max_colors in E. destruct (negb _); okinv E. exact IH.
  - assert (Hv := set_speed_range _ _ _ E). revert E. clear - Hv. pattern v. apply speed_cases; auto; intros E; cbn in E; inversion E; subst; cbn; lia.
  - unfold set_min_posterization in E. destruct (negb _); okinv E. exact IH.
  - unfold set_quality in E. destruct (_ || _)%bool; okinv E. exact IH.
Qed.
Lemma swift_trials a n : usable a -> 4 <= get_speed a ->
  0 <= feedback_loop_trials a n <= 20 /\ (5000 < Z.of_nat n -> feedback_loop_trials a n <= 15) /\ (50000 < Z.of_nat n -> feedback_loop_trials a n <= 11).
Proof.
  intros U S. destruct (usable_trials a U) as [R E]. unfold feedback_loop_trials. rewrite E. clear E.
  assert (C : get_speed a = 4 \/ get_speed a = 5 \/ get_speed a = 6 \/ 7 <= get_speed a) by lia. unfold shrink_by_len.
  assert (D : exists t, Z.max (56 - 9 * get_speed a) 0 = t /\ (t = 20 \/ t = 11 \/ t = 2 \/ t = 0)) by (eexists; split; [reflexivity|lia]).
  destruct D as (t & -> & D). clear C R S U.
  destruct (Z.ltb_spec 5000 (Z.of_nat n)); destruct (Z.ltb_spec 25000 (Z.of_nat n)); destruct (Z.ltb_spec 50000 (Z.of_nat n)); destruct (Z.ltb_spec 100000 (Z.of_nat n));
    try lia; destruct D as [->|[->|[->| ->]]]; vm_compute (three_quarters _); repeat split; intros; try lia.
Qed.
End Trials.

(** * What an image's histogram holds *)
Section Image.
Context {A : Arith} {C : CastLaws A}.
Lemma modest_new u cb a i pxs w r h i1 w1 : unspec_ok u -> image_ok i pxs -> modest_image i -> add_image u cb a (hist_new a, i, w) = (r, (h, i1, w1)) -> modest_hist h.
Proof.
  intros U I M E. destruct (add_image_spec u cb a (hist_new a) i w pxs I) as (i2 & _ & _ & I1 & _ & _ & _ & _ & _ & E1). cbv zeta in E1. rewrite E1 in E. clear E1.
  set (h1 := add_image_fixed (with_gamma (hist_new a) (image_gamma i)) (i_fixed i)) in *.
  assert (H1 : hg_map h1 = []) by reflexivity.
  assert (F1 : i_fixed i = [] -> hg_fixed h1 = []). { intros F. unfold h1. rewrite F. reflexivity. }
  assert (K1 : modest_hist h1). { right. unfold counted. rewrite H1. cbn. unfold image_total. lia. }
  destruct (cb _ _); [inversion E; subst; auto|]. destruct (all_rgba_rows (i_px i)); inversion E; subst; auto.
  destruct M as [M|M]; [left|right].
  - rewrite settle_fixed, add_all_fixed. auto.
  - destruct (additions_sum (i_w i) pxs (i_imp i1) (fun m Hm => proj2 (im_imp _ _ I1 m Hm))) as [S1 S2].
    assert (P1 : mpos (hg_map h1)) by (rewrite H1; constructor).
    destruct (add_all_sum _ S1 h1 P1) as [T1 T2]. destruct (settle_sum u _ (posterize_bits a) U T2) as [T3 _].
    assert (L : Z.of_nat (length (concat pxs)) = Z.of_nat (i_w i) * Z.of_nat (i_h i)).
    { rewrite <- Nat2Z.inj_mul. f_equal. rewrite (concat_rows_length (i_w i)); [|eapply Forall_impl; [|apply (sh_rows _ _ (im_px _ _ I))]; cbn; tauto].
      rewrite (sh_len _ _ (im_px _ _ I)). reflexivity. }
    assert (counted h1 = 0) by (unfold counted; rewrite H1; reflexivity).
    unfold image_total. lia.
Qed.
Lemma gamma_used h : hist_r h -> (d0 <d dlit 45455 100000)%flt = true -> (d0 <d used_gamma h)%flt = true.
Proof. intros H L. pose proof (gamma_pos_reach h H L) as G. unfold used_gamma. unfold gamma_pos in G. destruct (hg_gamma h) as [g|]; [apply G; reflexivity|exact L]. Qed.
Lemma modest_counts u h : unspec_ok u -> hist_r h -> modest_hist h ->
  Forall (fun e => 1 <= fst (snd e)) (hg_map (insert_fixed u h)) \/ counted (insert_fixed u h) <= image_total.
Proof.
  intros U H [M|M].
  - left. rewrite (insert_fixed_none u h U M). apply (no_zero_reach h H M).
  - right. apply Z.le_trans with (2 := M). apply (insert_fixed_sum u h (reach_pos h H)).
Qed.
End Image.

(** * Sane results *)
Open Scope R_scope.
Section I.
Variables (pow32 : b32 -> b32 -> b32) (pow64 : b64 -> b64 -> b64).
Hypothesis PU : pow32_unit pow32.
Let Ar : Arith := ieee pow32 pow64.
Local Existing Instance Ar.
Notation box := (box_px pow32 pow64).
Notation sane := (sane pow32 pow64).
Let C : CastLaws Ar := ieee_cast pow32 pow64.
Local Existing Instance C.

Lemma new_box u cb a h g freeze w q w' : unspec_ok u -> usable a -> (4 <= get_speed a)%Z -> hist_wf h -> counts_ok h -> (hg_map h <> [] \/ hg_fixed h <> []) -> (d0 <d g)%flt = true ->
  (Forall (fun e => 1 <= fst (snd e))%Z (hg_map (insert_fixed u h)) \/ (counted (insert_fixed u h) <= image_total)%Z) ->
  result_new u cb a (fst (finalize_builder u h g)) freeze g w = (Ok q, w') ->
  Forall box (colors_of (q_pal q)) /\ q_gamma q = g /\ q_post q = a_post_out a /\
  (Exists (fun e => 1 <= fst (snd e))%Z (hg_map (insert_fixed u h)) -> forall e, q_err q = Some e -> is_finite (e : b64) = true).
Proof.
  intros U Ua Sp W CO NE GP TT E. set (hi := fst (finalize_builder u h g)) in *. set (N := length (hi_items hi)).
  assert (TX : exists t, feedback_loop_trials a N = t /\ (0 <= t <= 20 /\ (5000 < Z.of_nat N -> t <= 15) /\ (50000 < Z.of_nat N -> t <= 11))%Z) by
    (eexists; split; [reflexivity|exact (@swift_trials Ar a N Ua Sp)]).
  destruct TX as (t & Et & T0 & T1 & T2).
  assert (AC : (1 <= a_max_colors a <= 256)%nat).
  { destruct (@usable_ok Ar a Ua) as [[X Y] _ _ _]. split; [exact (Nat.le_trans 1 2 _ ltac:(lia) X)|exact Y]. }
  assert (TR : (feedback_loop_trials a N <= Z.of_nat (Z.to_nat t))%Z) by (rewrite Et; lia).
  assert (FIN : forall X : Prop, (Forall box (colors_of (q_pal q)) /\ q_gamma q = g /\ q_post q = a_post_out a /\ (forall e, q_err q = Some e -> EB pow32 pow64 (hi_total hi) e)) ->
    Forall box (colors_of (q_pal q)) /\ q_gamma q = g /\ q_post q = a_post_out a /\
    (Exists (fun e => 1 <= fst (snd e))%Z (hg_map (insert_fixed u h)) -> forall e, q_err q = Some e -> is_finite (e : b64) = true)).
  { intros _ (B1 & B2 & B3 & B4). split; [exact B1|]. split; [exact B2|]. split; [exact B3|]. intros EX e Ee.
    destruct (finalize_total pow32 pow64 u h g U CO TT EX) as [T3 P3]. exact (B4 e Ee T3 P3). }
  apply (FIN True). clear FIN.
  destruct (Z.le_gt_cases (Z.of_nat N) 50000) as [S|L].
  - destruct (regime_small pow32 pow64 (Z.to_nat t) N S) as [k RG]; [lia|intros; rewrite Z2Nat.id; [auto|lia]|].
    eapply (result_box pow32 pow64 _ _ _ _ _ k (Z.to_nat t) N RG (hi_total hi) u U cb a); [exact AC|exact TR| |exact E].
    exact (finalize_start pow32 pow64 PU u h g _ _ _ _ k _ U W CO NE GP TT RG).
  - destruct (regime_large pow32 pow64 (Z.to_nat t) N) as [k RG]; [rewrite Z2Nat.id; [apply T2; lia|lia]|].
    eapply (result_box pow32 pow64 _ _ _ _ _ k (Z.to_nat t) N RG (hi_total hi) u U cb a); [exact AC|exact TR| |exact E].
    exact (finalize_start pow32 pow64 PU u h g _ _ _ _ k _ U W CO NE GP TT RG).
Qed.
Lemma internal_sane u cb a h freeze w q s' : unspec_ok u -> usable a -> (4 <= get_speed a)%Z -> hist_r h -> modest_hist h ->
  quantize_internal u cb a freeze (h, w) = (Ok q, s') ->
  sane q /\ (Exists (fun e => 1 <= fst (snd e))%Z (hg_map (insert_fixed u h)) -> forall e, q_err q = Some e -> is_finite (e : b64) = true).
Proof.
  intros U Ua Sp H M E. pose proof (@reach_hist Ar C h H) as W. pose proof (@counts_reachable Ar C h H) as CO.
  assert (NE : hg_map h <> [] \/ hg_fixed h <> []).
  { unfold quantize_internal in E. destruct (hg_map h); [|left; congruence]. destruct (hg_fixed h); [discriminate|right; congruence]. }
  assert (GP : (d0 <d used_gamma h)%flt = true).
  { exact (@gamma_used Ar C h H (ieee_default_gamma pow32 pow64)). }
  assert (TT : Forall (fun e => 1 <= fst (snd e))%Z (hg_map (insert_fixed u h)) \/ (counted (insert_fixed u h) <= image_total)%Z).
  { exact (@modest_counts Ar C u h U H M). }
  pose proof (fun w2 q w3 => new_box u cb a h (used_gamma h) freeze w2 q w3 U Ua Sp W CO NE GP TT) as NB.
  unfold quantize_internal in E. destruct (match hg_map h, hg_fixed h with [], [] => true | _, _ => false end); [discriminate|].
  change (unwrap_or (hg_gamma h) (dlit 45455 100000)) with (used_gamma h) in *. cbv zeta in E.
  destruct (@usable_ok Ar a Ua) as [_ AP _ _].
  assert (G : forall w2, (let '(hi, h') := finalize_builder u h (used_gamma h) in
        let '(r, w3) := result_new u cb a hi freeze (used_gamma h) w2 in (r, (h', w3))) = (Ok q, s') ->
        sane q /\ (Exists (fun e => 1 <= fst (snd e))%Z (hg_map (insert_fixed u h)) -> forall e, q_err q = Some e -> is_finite (e : b64) = true)).
  { intros w2 E'. specialize (NB w2). destruct (finalize_builder u h (used_gamma h)) as [hi h']. cbn [fst] in *.
    destruct (result_new u cb a hi freeze (used_gamma h) w2) as [r w3] eqn:RN. apply pair_equal_spec in E' as [-> _].
    destruct (NB q w3 eq_refl) as (B1 & B2 & B3 & B4). split; [|exact B4]. split; [exact B1|]. rewrite B2, B3. split; [exact GP|exact AP]. }
  destruct (progress cb f0 w) as [[[]|e|] w1]; try discriminate;
  (destruct (progress cb _ w1) as [[[]|e2|] w2]; try discriminate; apply (G w2 E)).
Qed.
Lemma made_sane u cb a q : swiftly_made u cb a q -> sane q /\ made_by u cb a q.
Proof.
  intros (U & Ua & Sp & [(h & w & s' & H & M & E)|(i & pxs & w & s' & I & M & E)]).
  - split; [|left; exists h, w, s'; auto]. unfold hist_quantize in E. eapply proj1, internal_sane; eauto.
  - split; [|right; exists i, pxs, w, s'; auto]. unfold quantize in E.
    destruct (add_image u cb a (hist_new a, i, w)) as [r [[h i1] w1]] eqn:AI. destruct r as [[]|e|]; try discriminate.
    destruct (quantize_internal u cb a false (h, w1)) as [r [h2 w2]] eqn:QI. apply pair_equal_spec in E as [-> _].
    eapply proj1, internal_sane; [exact U|exact Ua|exact Sp| | |exact QI].
    + eapply hr_image; [exact U|exact Ua|apply hr_new; exact Ua|exact I|exact AI].
    + eapply modest_new; [exact U|apply (@reach_image Ar C _ _ I)|exact M|exact AI].
Qed.
Lemma then_sane m q q' : then_ q q' -> result_r m q -> sane q -> sane q' /\ result_r m q'.
Proof.
  intros L. induction L as [q|q q1 v q2 L IH E|q q1 v q2 L IH G E|q q1 L IH|q q1 u cb i pxs buf w r q2 i' out w' L IH U I E|q q1 u i pxs buf w r q2 i' out w' L IH U I B E]; intros R S; auto;
    destruct (IH R S) as [S1 R1]; clear IH.
  - split; [|exact (later_reach true true m q1 q2 R1 (la_dither _ _ _ _ v _ (la_refl _ _ _) E))].
    unfold set_dithering_level in E. destruct (negb _); [discriminate|]. injection E as <-. exact S1.
  - split; [|exact (later_reach true true m q1 q2 R1 (la_gamma _ _ _ _ v _ (la_refl _ _ _) eq_refl E))].
    unfold set_output_gamma in E. destruct (_ || _)%bool; [discriminate|]. injection E as <-. destruct S1 as (X1 & X2 & X3). split; [exact X1|]. split; [exact G|exact X3].
  - split; [|exact (later_reach true true m q1 _ R1 (la_palette _ _ _ _ (la_refl _ _ _) eq_refl))].
    unfold palette. destruct (q_rem q1) as [[ip e]|]; [exact S1|]. destruct (q_int q1); [|exact S1].
    destruct S1 as (X1 & X2 & X3). pose proof (int_palette_box pow32 pow64 PU (q_pal q1) (q_gamma q1) (q_post q1) X2 X3) as K.
    destruct (init_int_palette (q_pal q1) (q_gamma q1) (q_post q1)) as [p' ip]. split; [exact K|]. split; [exact X2|exact X3].
  - split; [|exact (later_reach true true m q1 _ R1 (la_remap _ _ _ _ u cb i pxs buf w r q2 i' out w' (la_refl _ _ _) U I E))].
    destruct (@remap_step Ar C u cb m q1 i pxs buf w r q2 i' out w' U R1 I E) as [-> |(p & e & -> & _)]; exact S1.
  - split; [|exact (later_reach true true m q1 _ R1 (la_prepare _ _ _ _ u i pxs buf w r q2 i' out w' (la_refl _ _ _) U I B E))].
    exact (prepare_sane pow32 pow64 PU u m q1 i pxs buf w r q2 i' out w' U R1 I B S1 E).
Qed.
Lemma swift_sane u cb a q q' : swiftly_made u cb a q -> then_ q q' -> sane q' /\ result_r (a_max_colors a) q'.
Proof.
  intros M L. destruct (made_sane u cb a q M) as [S B]. destruct M as (U & Ua & _). apply (then_sane (a_max_colors a) q q' L); auto.
  exact (@made_by_reach Ar u cb a q U Ua B).
Qed.

(** What users see. *)
Lemma swift_colors u cb a q q' : swiftly_made u cb a q -> then_ q q' ->
  Forall (fun c => Forall (fun x : b32 => is_finite x = true /\ 0 <= B2R x <= 1) [pa c; pr c; pg c; pb c]) (colors_of (q_pal q')).
Proof.
  intros M L. destruct (swift_sane u cb a q q' M L) as [(S & _) _]. eapply Forall_impl; [|exact S].
  assert (K : forall k (x : b32), (k <= 0)%Z -> nonneg k x -> is_finite x = true /\ 0 <= B2R x <= 1).
  { intros k x Hk [[F Sx] P]. split; [exact F|]. split; [exact P|]. rewrite Rabs_pos_eq in Sx by exact P. apply Rle_trans with (1 := Sx).
    change 1 with (bpow radix2 0). apply bpow_le. exact Hk. }
  intros c (B1 & B2 & B3 & B4). repeat apply Forall_cons; [| | | |apply Forall_nil]; eapply K; eauto; lia.
Qed.
Lemma swift_remap u cb a q q' u2 cb2 i pxs buf w e s' : swiftly_made u cb a q -> then_ q q' -> unspec_ok u2 -> image_r i pxs ->
  (i_w i * i_h i <= length buf)%nat -> remap_into u2 cb2 q' i buf w = (Err e, s') -> e = Aborted /\ exists told pct, cb2 told pct = true.
Proof.
  intros M L U I Lb E. destruct (swift_sane u cb a q q' M L) as [S R].
  destruct (@remap_again Ar C u2 cb2 _ q' i pxs buf w e s' U R I Lb E) as [H| ->]; [exact H|].
  exfalso. apply (sane_sums pow32 pow64 PU u2 q' i pxs U S I).
  exact (@remap_oom Ar C u2 cb2 q' i pxs buf w s' U (@reach_image Ar C _ _ I) (@reach_pal Ar C _ _ R) E).
Qed.
Lemma swift_prepare u cb a q q' u2 i pxs buf w : swiftly_made u cb a q -> then_ q q' -> unspec_ok u2 -> image_r i pxs ->
  length buf = (i_w i * i_h i)%nat -> fst (prepare_for_dithering u2 q' i buf w) = Ok tt.
Proof.
  intros M L U I Lb. destruct (swift_sane u cb a q q' M L) as [S R].
  pose proof (@prepare_call Ar C u2 _ q' i pxs buf w U R I Lb) as P.
  pose proof (fun e s' => @prepare_oom Ar C u2 q' i pxs buf w e s' U (@reach_image Ar C _ _ I) (@reach_pal Ar C _ _ R) Lb) as O.
  destruct (prepare_for_dithering u2 q' i buf w) as [r [[[q2 i2] o2] w2]]. destruct P as (P1 & _). cbn [fst].
  destruct r as [[]|e|]; [reflexivity| |congruence].
  exfalso. exact (sane_sums pow32 pow64 PU u2 q' i pxs U S I (O e _ eq_refl)).
Qed.

(** The reported error. *)
Lemma insert_other (m : hmap) k v e : In e m -> fst e <> k -> In e (hm_insert m k v).
Proof.
  intros H N. induction m as [|[k' v'] m IH]; [inversion H|]. cbn [hm_insert]. destruct (rgba_eqb k k') eqn:E.
  - apply rgba_eqb_eq in E. subst k'. destruct H as [<-|H]; [exfalso; apply N; reflexivity|right; exact H].
  - destruct H as [<-|H]; [left; reflexivity|right; apply IH; exact H].
Qed.
Lemma insert_fixed_other u (h : @hist Ar) e : unspec_ok u -> In e (hg_map h) -> ~ In (fst e) (map (fun f => fixed_key (fst f)) (hg_fixed h)) -> In e (hg_map (insert_fixed u h)).
Proof.
  intros U H N. unfold insert_fixed. cbn [hg_map with_map].
  assert (N' : ~ In (fst e) (map (fun f => fixed_key (fst f)) (u_set u (hg_fixed h)))).
  { intros X. apply N. eapply Permutation_in; [|exact X]. apply Permutation_map. symmetry. apply (uo_set u U). }
  clear N. revert H N'. generalize (hg_map h), (u_set u (hg_fixed h)). intros m l. revert m. induction l as [|f l IH]; intros m H N; cbn [fold_left]; auto.
  cbn [map In] in N. apply IH; [|tauto]. cbv zeta. apply insert_other; [exact H|]. intros E. apply N. left. rewrite E. unfold fixed_key. destruct (ca (fst f) =? 0)%Z; reflexivity.
Qed.
Lemma ordinary_counted u cb a (h : @hist Ar) freeze w q s' : unspec_ok u -> hist_r h -> ordinary_hist h -> quantize_internal u cb a freeze (h, w) = (Ok q, s') ->
  modest_hist h /\ Exists (fun e => 1 <= fst (snd e))%Z (hg_map (insert_fixed u h)).
Proof.
  intros U H [O|(M & e & I & N & K)] E.
  - split; [left; exact O|]. rewrite (insert_fixed_none u h U O). pose proof (@no_zero_reach Ar C h H O) as NZ.
    unfold quantize_internal in E. rewrite O in E. destruct (hg_map h) as [|e m]; [discriminate|]. constructor. inversion NZ; subst. assumption.
  - split; [right; exact M|]. apply Exists_exists. exists e. split; [|exact N]. apply insert_fixed_other; auto.
Qed.
Lemma error_finite u cb a q e : ordinarily_made u cb a q -> q_err q = Some e -> is_finite (e : b64) = true.
Proof.
  intros (U & Ua & Sp & [(h & w & s' & H & M & E)|(i & pxs & w & s' & I & F & E)]) QE.
  - unfold hist_quantize in E. destruct (ordinary_counted u cb a h _ w q s' U H M E) as [M1 X].
    exact (proj2 (internal_sane u cb a h _ w q s' U Ua Sp H M1 E) X e QE).
  - unfold quantize in E.
    destruct (add_image u cb a (hist_new a, i, w)) as [r [[h i1] w1]] eqn:AI. destruct r as [[]|e1|]; try discriminate.
    destruct (quantize_internal u cb a false (h, w1)) as [r [h2 w2]] eqn:QI. apply pair_equal_spec in E as [-> _].
    assert (HR : hist_r h) by (eapply hr_image; [exact U|exact Ua|apply hr_new; exact Ua|exact I|exact AI]).
    assert (O : ordinary_hist h).
    { left. destruct (@add_image_spec Ar C u cb a (hist_new a) i w pxs (@reach_image Ar C _ _ I)) as (i2 & _ & _ & _ & _ & _ & _ & _ & _ & E1). cbv zeta in E1. rewrite E1 in AI. clear E1.
      rewrite F in AI. destruct (cb _ _); [discriminate|]. destruct (all_rgba_rows (i_px i)); inversion AI; subst. rewrite settle_fixed, add_all_fixed. reflexivity. }
    destruct (ordinary_counted u cb a h _ w1 q _ U HR O QI) as [M1 X].
    exact (proj2 (internal_sane u cb a h _ w1 q _ U Ua Sp HR M1 QI) X e QE).
Qed.
Lemma ordinary_made u cb a q : ordinarily_made u cb a q -> made_by u cb a q.
Proof.
  intros (U & Ua & Sp & [(h & w & s' & H & M & E)|(i & pxs & w & s' & I & F & E)]); [left; exists h, w, s'; auto|right; exists i, pxs, w, s'; auto].
Qed.
End I.
