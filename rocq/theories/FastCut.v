(** At the speeds 8 to 10 without a minimum quality the palette is what median
    cut gives. *)
From Verif Require Import Base BaseFacts Arith Order Pal World Attr Hist Nearest MedianCut Kmeans ImageM Quant Api PalFacts AttrFacts MedianFacts QuantFacts FewFacts FewImage FiniteTop StepOf
  HistTotal HistFacts ImageFacts ApiFacts HistIn SpecHist RealArith MedianReal SpecKmeans SpecPromise SpecCut CutReal CutEnd.
From Coq Require Import Reals Lra Permutation.

Section Any.
Context {A : Arith} {CL : CastLaws A}.
Lemma usable_idle a : usable a -> (8 <= get_speed a)%Z -> a_km_iter a = 0%Z.
Proof.
  unfold get_speed. induction 1 as [|a c a' U IH T E|a b U IH]; [cbn; lia| |exact IH].
  destruct c; cbn [apply_call] in E.
  - unfold set_max_colors in E. destruct (negb _); okinv E. exact IH.
  - assert (Hv := set_speed_range _ _ _ E). revert E. clear - Hv. pattern v. apply speed_cases; auto; intros E; cbn in E; inversion E; subst; cbn; lia.
  - unfold set_min_posterization in E. destruct (negb _); okinv E. exact IH.
  - unfold set_quality in E. destruct (_ || _)%bool; okinv E. exact IH.
Qed.
Lemma usable_plain a : usable a -> a_max_mse a = None -> a_target_mse a = d0.
Proof.
  induction 1 as [|a c a' U IH T E|a b U IH]; [reflexivity| |exact IH].
  destruct c; cbn [apply_call] in E.
  - unfold set_max_colors in E. destruct (negb _); okinv E. exact IH.
  - assert (Hv := set_speed_range _ _ _ E). revert E. clear - Hv IH. pattern v. apply speed_cases; auto; intros E; cbn in E; inversion E; subst; exact IH.
  - unfold set_min_posterization in E. destruct (negb _); okinv E. exact IH.
  - unfold set_quality in E. destruct (_ || _)%bool; okinv E. discriminate.
Qed.
Lemma shrink_0 n : shrink_by_len 0 n = 0%Z.
Proof. unfold shrink_by_len. repeat match goal with |- context [if ?b then _ else _] => destruct b end; reflexivity. Qed.

Definition floor_mse (a : attrs) : f64 := let p := (dofZ (Z.shiftl 1 (a_post_out a)) /d dofZ 1024)%flt in (p *d p)%flt.
Lemma fast_palette u cb a h freeze g w q w' : usable a -> (8 <= get_speed a)%Z -> a_max_mse a = None -> (a_max_colors a < length (hi_items h))%nat ->
  result_new u cb a h freeze g w = (Ok q, w') ->
  let t := dmax d0 (floor_mse a) in
  q_err q = None /\ exists p0 h1 p1, mediancut u h (a_max_colors a) (t *d Arith.d1)%flt (dmax (dmax t (quality_to_mse 1)) (quality_to_mse 51) *d dlit 12 10)%flt = Ok (p0, h1) /\
    with_fixed_colors p0 (a_max_colors a) (hi_fixed h1) = Ok p1 /\ Permutation (colors_of p1) (colors_of (q_pal q)).
Proof.
  intros U SP MM L E. cbv zeta. unfold result_new in E. apply sbind_ok in E as (s1 & w1 & _ & E). destruct s1; [discriminate|].
  unfold target_mse in E. rewrite MM, (usable_plain a U MM) in E. fold (floor_mse a) in E. set (t := dmax d0 (floor_mse a)) in *. cbv zeta in E.
  apply sbind_ok in E as ([p err] & w2 & F & E). apply sbind_ok in E as (s2 & w3 & _ & E). destruct s2; [discriminate|].
  destruct (match err with Some _ => _ | None => _ end); [discriminate|].
  apply sbind_ok in E as (p2 & w4 & E2 & E). unfold slift in E2. inversion E2; subst. unfold sret in E. inversion E; subst. cbn [q_pal q_err]. clear E E2.
  unfold find_best_palette in F. replace (Nat.leb (length (hi_items h)) (a_max_colors a)) with false in F by (symmetry; apply Nat.leb_gt; exact L). cbn [andb] in F.
  assert (TR : feedback_loop_trials a (length (hi_items h)) = 0%Z \/ (feedback_loop_trials a (length (hi_items h)) < 0)%Z).
  { pose proof (few_trials a (length (hi_items h)) U ltac:(lia)). lia. }
  set (n := feedback_loop_trials a (length (hi_items h))) in *. cbv zeta in F.
  replace (0 <? n)%Z with false in F by (symmetry; apply Z.ltb_ge; lia).
  apply sbind_ok in F as ([[h' best] er] & w5 & SL & F). cbn [search_loop] in SL. cbv zeta in SL. cbn [unwrap_or] in SL.
  apply sbind_ok in SL as ([p0 h1] & w6 & MC & SL). apply sbind_ok in SL as (p1 & w7 & WF & SL).
  replace (n <=? 0)%Z with true in SL by (symmetry; apply Z.leb_le; lia). unfold sret in SL. inversion SL; subst. clear SL.
  unfold slift in MC, WF. inversion MC. inversion WF. subst.
  apply sbind_ok in F as ([[h2 p'] err'] & w8 & RF & F). unfold sret in F. inversion F; subst. clear F.
  unfold refine_palette, kmeans_iterations in RF. rewrite MM, (usable_idle a U SP), shrink_0 in RF. cbn in RF. unfold sret in RF. inversion RF; subst.
  split; [reflexivity|]. do 3 eexists. split; [eassumption|]. split; [eassumption|].
  match goal with H : sort_palette a ?x = _ |- _ => destruct (sort_palette_ok a x) as (p3 & E3 & P3); rewrite H in E3 end.
  inversion E3; subst. apply (Permutation_map fst) in P3. fold (colors_of p3) in P3. unfold colors_of. rewrite <- P3.
  destruct freeze; [|reflexivity]. rewrite map_map. reflexivity.
Qed.
End Any.

Open Scope R_scope.
Section E.
Context (big : R).
Local Notation A := (real big).
Local Hint Extern 0 Arith => exact (real big) : typeclass_instances.
Lemma real_quality_order q q' : (1 <= q <= q')%Z -> (q' <= 99)%Z -> (quality_to_mse q' : R) <= quality_to_mse q.
Proof.
  intros H H'. unfold quality_to_mse. replace (q =? 0)%Z with false by (symmetry; apply Z.eqb_neq; lia). replace (q' =? 0)%Z with false by (symmetry; apply Z.eqb_neq; lia).
  replace (100 <=? q)%Z with false by (symmetry; apply Z.leb_gt; lia). replace (100 <=? q')%Z with false by (symmetry; apply Z.leb_gt; lia).
  assert (L : 1 <= IZR q <= IZR q' /\ IZR q' <= 99) by (repeat split; apply IZR_le; lia).
  cbn [real dlit dofZ dmax dadd dsub dmul ddiv dpow d0 LIQ_WEIGHT_MSE f64]. unfold powR. 
  destruct (Rlt_dec 0 (210 + IZR q)); [|lra]. destruct (Rlt_dec 0 (210 + IZR q')); [|lra].
  assert (D1 : 16 / 1000 / (1 / 1000 + IZR q') <= 16 / 1000 / (1 / 1000 + IZR q)).
  { unfold Rdiv. apply Rmult_le_compat_l; [lra|]. apply Rinv_le_contravar; lra. }
  assert (D2 : Rpower (210 + IZR q) (12 / 10) <= Rpower (210 + IZR q') (12 / 10)) by (apply Rle_Rpower_l; lra).
  assert (P1 : 0 < Rpower (210 + IZR q) (12 / 10)) by apply exp_pos.
  assert (D3 : / Rpower (210 + IZR q') (12 / 10) <= / Rpower (210 + IZR q) (12 / 10)) by (apply Rinv_le_contravar; auto).
  assert (P2 : 0 < / Rpower (210 + IZR q') (12 / 10)) by (apply Rinv_0_lt_compat, exp_pos).
  assert (D4 : / Rpower (210 + IZR q') (12 / 10) * (1001 / 10 - IZR q') <= / Rpower (210 + IZR q) (12 / 10) * (1001 / 10 - IZR q)).
  { apply Rmult_le_compat; [apply Rlt_le; auto|lra|auto|lra]. }
  pose proof (Rle_max_compat_r (16 / 1000 / (1 / 1000 + IZR q') - 1 / 1000) (16 / 1000 / (1 / 1000 + IZR q) - 1 / 1000) 0 ltac:(lra)) as D5.
  apply Rmult_le_compat_l; [lra|]. apply Rplus_le_compat; auto. unfold Rdiv in *. rewrite !(Rmult_assoc (25 * / 10)). lra.
Qed.
Lemma real_quality_1 : 6 / 1000 <= (quality_to_mse 1 : R).
Proof.
  unfold quality_to_mse. cbn [Z.eqb Z.leb Z.compare Pos.compare Pos.compare_cont]. unfold LIQ_WEIGHT_MSE. cbn [real dlit dofZ dmax dadd dsub dmul ddiv dpow d0 f64]. unfold powR.
  destruct (Rlt_dec 0 (210 + 1)); [|lra]. assert (P : 0 < / Rpower (210 + 1) (12 / 10)) by (apply Rinv_0_lt_compat, exp_pos).
  pose proof (Rmax_l (16 / 1000 / (1 / 1000 + 1) - 1 / 1000) 0) as M. unfold Rdiv in *. lra.
Qed.
Definition steps (a : attrs) : R := IZR (2 ^ get_min_posterization a) / 1024.
Lemma floor_real a : usable a -> (floor_mse a : R) = steps a ^ 2 /\ 0 <= steps a ^ 2 <= 6 / 1000.
Proof.
  intros U. apply usable_ok, ao_post in U. unfold floor_mse, steps, get_min_posterization. rewrite Z.shiftl_1_l.
  assert (E : (exists x, 2 ^ a_post_out a = x /\ (1 <= x <= 16))%Z).
  { eexists. split; [reflexivity|]. pose proof (Z.pow_le_mono_r 2 (a_post_out a) 4 ltac:(lia) ltac:(lia)). pose proof (Z.pow_pos_nonneg 2 (a_post_out a) ltac:(lia) ltac:(lia)). lia. }
  destruct E as (x & -> & X). assert (L : 1 <= IZR x <= 16) by (split; apply IZR_le; lia).
  split; [cbn [real dofZ ddiv dmul f64]; cbv zeta; ring|]. nra.
Qed.

Lemma limit_eq (f s q1 q20 q51 : R) : f = s -> 0 <= s <= 6 / 1000 -> 6 / 1000 <= q1 -> q20 <= q1 -> q51 <= q1 -> Rmax (Rmax (Rmax (Rmax 0 f) q1) q51 * (12 / 10)) q20 = 12 / 10 * q1.
Proof.
  intros -> H1 H2 H3 H4. rewrite (Rmax_right 0 s) by lra. rewrite (Rmax_right s q1) by lra. rewrite (Rmax_left q1 q51) by lra. rewrite Rmax_left by lra. ring.
Qed.
Lemma goal_eq (f s t : R) : f = s -> 0 <= s -> Rmax 0 f * 1 * t = s * t.
Proof. intros -> H. rewrite Rmax_right by lra. ring. Qed.
Let CL : CastLaws A := real_cast big.
Local Existing Instance CL.
Variable u : unspec.
Hypothesis U : unspec_ok u.
Lemma fast_internal cb a h freeze w q s' : usable a -> (8 <= get_speed a)%Z -> a_max_mse a = None -> hist_r h -> hg_fixed h = [] ->
  (exists e, In e (hg_map h) /\ (0 < fst (snd e))%Z) -> (a_max_colors a < length (hg_map h))%nat ->
  quantize_internal u cb a freeze (h, w) = (Ok q, s') ->
  let hi := fst (finalize_builder u h (used_gamma h)) in
  q_err q = None /\ exists bs bs', starts (hi_clusters hi) (a_max_colors a) (map (fun it => (h_color it, h_adj it : R, h_perc it : R)) (hi_items hi)) bs /\
    cut (a_max_colors a) (12 / 10 * quality_to_mse 1) (steps a ^ 2 * hi_total hi) bs bs' /\ Permutation (map snd bs') (map fst (q_pal q)).
Proof.
  intros Ua SP MM HR FX CNT LEN E. cbv zeta.
  pose proof (proj1 (@objects_ok A CL) h HR) as W. pose proof (usable_ok a Ua) as AO.
  assert (NE : hg_map h <> [] \/ hg_fixed h <> []) by (left; destruct (hg_map h); [cbn in LEN; lia|discriminate]).
  assert (CNT' : exists e, In e (hg_map (insert_fixed u h)) /\ (0 < fst (snd e))%Z) by (rewrite (insert_fixed_none u h U FX); exact CNT).
  destruct (reachable_sound big u U h HR NE CNT') as (CF & NI & SO & TS & TP).
  destruct (QuantFacts.finalize_ok u U h (used_gamma h) W NE) as (_ & _ & FI & LI). 
  rewrite (insert_fixed_none u h U FX) in LI.
  assert (FX' : hi_fixed (fst (finalize_builder u h (used_gamma h))) = []) by (rewrite FX in FI; destruct (hi_fixed _); [reflexivity|discriminate]).
  assert (G : forall w2 w3 r, result_new u cb a (fst (finalize_builder u h (used_gamma h))) freeze (used_gamma h) w2 = (r, w3) -> r = Ok q ->
    q_err q = None /\ exists bs bs', starts (hi_clusters (fst (finalize_builder u h (used_gamma h)))) (a_max_colors a) (map (fun it => (h_color it, h_adj it : R, h_perc it : R)) (hi_items (fst (finalize_builder u h (used_gamma h))))) bs /\
    cut (a_max_colors a) (12 / 10 * quality_to_mse 1) (steps a ^ 2 * hi_total (fst (finalize_builder u h (used_gamma h)))) bs bs' /\ Permutation (map snd bs') (map fst (q_pal q))).
  { intros w2 w3 r RN ->. set (hi := fst (finalize_builder u h (used_gamma h))) in *.
    destruct (fast_palette u cb a hi freeze (used_gamma h) w2 q w3 Ua SP MM ltac:(lia) RN) as (Q & p0 & h1 & p1 & MC & WF & PP). split; [exact Q|].
    match type of MC with mediancut _ _ _ ?x ?y = _ => assert (HF : hi_fixed h1 = []) by (destruct (@mediancut_ok A u U hi (a_max_colors a) x y CF ltac:(destruct AO; lia) ltac:(lia)) as (p0' & h1' & MC' & MO); rewrite MC in MC'; injection MC' as <- <-; decompose [and] MO; congruence) end.
    rewrite HF in WF. apply with_fixed_none in WF. subst p1.
    destruct (floor_real a Ua) as [FE FL]. pose proof real_quality_1 as Q1. pose proof (real_quality_order 1 20 ltac:(lia) ltac:(lia)) as Q20. pose proof (real_quality_order 1 51 ltac:(lia) ltac:(lia)) as Q51.
    destruct (cut_described big u U hi (a_max_colors a) _ _ p0 h1 CF NI ltac:(destruct AO; lia) SO MC) as (bs & bs' & S & C & EP & _).
    exists bs, bs'. split; [exact S|]. split.
    - match type of C with cut _ ?l ?g _ _ => assert (EL : l = 12 / 10 * quality_to_mse 1); [|assert (EG : g = steps a ^ 2 * hi_total hi); [|rewrite EL, EG in C; exact C]] end.
      + exact (limit_eq _ _ _ _ _ FE FL Q1 Q20 Q51).
      + exact (goal_eq _ _ _ FE (proj1 FL)).
    - rewrite EP in PP. unfold colors_of in PP. rewrite map_map in PP. exact PP. }
  unfold quantize_internal in E. destruct (match hg_map h, hg_fixed h with [], [] => true | _, _ => false end); [discriminate|].
  change (unwrap_or (hg_gamma h) (dlit 45455 100000)) with (used_gamma h) in *. cbv zeta in E.
  destruct (finalize_builder u h (used_gamma h)) as [hi h']. cbn [fst] in *.
  destruct (progress cb f0 w) as [[[]|e|] w1]; try discriminate;
  (destruct (progress cb _ w1) as [[[]|e2|] w2]; try discriminate;
   destruct (result_new u cb a hi freeze (used_gamma h) w2) as [r w3] eqn:RN; apply (G w2 w3 r RN); congruence).
Qed.
Lemma fast_image cb a i pxs w h i1 w1 q i' w' : usable a -> (8 <= get_speed a)%Z -> a_max_mse a = None -> image_r i pxs -> i_fixed i = [] ->
  add_image u cb a (hist_new a, i, w) = (Ok tt, (h, i1, w1)) ->
  (exists e, In e (hg_map h) /\ (0 < fst (snd e))%Z) -> (a_max_colors a < length (hg_map h))%nat ->
  quantize u cb a (i, w) = (Ok q, (i', w')) ->
  let hi := fst (finalize_builder u h (used_gamma h)) in
  q_err q = None /\ exists bs bs', starts (hi_clusters hi) (a_max_colors a) (map (fun it => (h_color it, h_adj it : R, h_perc it : R)) (hi_items hi)) bs /\
    cut (a_max_colors a) (12 / 10 * quality_to_mse 1) (steps a ^ 2 * hi_total hi) bs bs' /\ Permutation (map snd bs') (map fst (q_pal q)).
Proof.
  intros Ua SP MM I FX AI CNT LEN E. pose proof (proj1 (proj2 (@objects_ok A CL)) i pxs I) as IO.
  assert (HR : hist_r h) by (apply (hr_image u cb a (hist_new a) i pxs w (Ok tt) h i1 w1); auto; constructor; exact Ua).
  assert (FH : hg_fixed h = []).
  { destruct (add_image_spec u cb a (hist_new a) i w pxs IO) as (i2 & _ & _ & _ & _ & _ & _ & _ & _ & E1). cbv zeta in E1. rewrite E1 in AI. clear E1.
    destruct (cb _ _); [discriminate|]. destruct (all_rgba_rows (i_px i)); try discriminate. inversion AI; subst h. rewrite (settle_fixed (A := A)), (add_all_fixed (A := A)). unfold add_image_fixed. rewrite FX. reflexivity. }
  unfold quantize in E. rewrite AI in E. destruct (quantize_internal u cb a false (h, w1)) as [r [h2 w2]] eqn:QI. inversion E; subst r.
  eapply fast_internal; eauto.
Qed.
End E.
