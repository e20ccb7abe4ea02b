(** Fixed colours in the palettes of the fastest speeds and of few colours. *)
From Verif Require Import Base BaseFacts Arith Order Pal World Attr Hist Nearest MedianCut Kmeans ImageM Quant Api PalFacts AttrFacts MedianFacts SearchFacts QuantFacts FewFacts HistTotal HistFacts ImageFacts ApiFacts HistIn SpecAttr SpecHist
  FewImage FiniteTop StepOf RealArith MedianReal HullReal SpecKmeans SpecPromise HullTop BoundFacts StepReal SpecCut CutReal CutEnd FastCut FastStep SpecFixed FixedNear.
From Coq Require Import Reals Lra Permutation.
Open Scope R_scope.
Section E.
Context (big : R).
Local Notation A := (real big).
Local Hint Extern 0 Arith => exact (real big) : typeclass_instances.
Let CL : CastLaws A := real_cast big.
Local Existing Instance CL.
Variable u : unspec.
Hypothesis U : unspec_ok u.

(** [p'] is [p] with the fixed colours of [h] in it, at most [m] of them; if
    there are more of them than entries, the palette is made longer first. *)
Definition fixed_in (h : hist) (m : nat) (p : palf) (cs : list px) : Prop :=
  exists fs p', Permutation fs (map (fun f => from_rgba (gamma_lut (used_gamma h)) (fst f)) (hg_fixed h)) /\
    @placing big (firstn m fs) (p ++ map (fun c => (c, 0)) (firstn (Nat.min (length fs) m - length p) fs)) p' /\ Permutation (map fst p') cs.

Lemma fixed_fast cb a h freeze w q s' : usable a -> (8 <= get_speed a)%Z -> a_max_mse a = None -> hist_r h ->
  (exists e, In e (hg_map (insert_fixed u h)) /\ (0 < fst (snd e))%Z) -> (a_max_colors a < length (hg_map (insert_fixed u h)))%nat ->
  quantize_internal u cb a freeze (h, w) = (Ok q, s') ->
  let hi := fst (finalize_builder u h (used_gamma h)) in
  q_err q = None /\ exists bs bs', starts (hi_clusters hi) (a_max_colors a) (map (fun it => (h_color it, h_adj it : R, h_perc it : R)) (hi_items hi)) bs /\
    cut (a_max_colors a) (12 / 10 * quality_to_mse 1) (steps big a ^ 2 * hi_total hi) bs bs' /\
    fixed_in h (a_max_colors a) (map (fun b => (snd b, sumR (map wc_pix (fst b)))) bs') (map fst (q_pal q)).
Proof.
  intros Ua SP MM HR CNT LEN E. cbv zeta.
  pose proof (proj1 (@objects_ok A CL) h HR) as W. pose proof (usable_ok a Ua) as AO.
  assert (NE : hg_map h <> [] \/ hg_fixed h <> []) by (unfold quantize_internal in E; destruct (hg_map h); [|left; discriminate]; destruct (hg_fixed h); [discriminate|right; discriminate]).
  destruct (reachable_sound big u U h HR NE CNT) as (CF & NI & SO & TS & TP).
  destruct (QuantFacts.finalize_ok u U h (used_gamma h) W NE) as (_ & _ & FI & LI).
  pose proof (finalize_fixed u h (used_gamma h) U) as PF.
  assert (G : forall w2 w3 r, result_new u cb a (fst (finalize_builder u h (used_gamma h))) freeze (used_gamma h) w2 = (r, w3) -> r = Ok q ->
    q_err q = None /\ exists bs bs', starts (hi_clusters (fst (finalize_builder u h (used_gamma h)))) (a_max_colors a) (map (fun it => (h_color it, h_adj it : R, h_perc it : R)) (hi_items (fst (finalize_builder u h (used_gamma h))))) bs /\
    cut (a_max_colors a) (12 / 10 * quality_to_mse 1) (steps big a ^ 2 * hi_total (fst (finalize_builder u h (used_gamma h)))) bs bs' /\
    fixed_in h (a_max_colors a) (map (fun b => (snd b, sumR (map wc_pix (fst b)))) bs') (map fst (q_pal q))).
  { intros w2 w3 r RN ->. set (hi := fst (finalize_builder u h (used_gamma h))) in *.
    destruct (fast_palette u cb a hi freeze (used_gamma h) w2 q w3 Ua SP MM ltac:(lia) RN) as (Q & p0 & h1 & p1 & MC & WF & PP). split; [exact Q|].
    match type of MC with mediancut _ _ _ ?x ?y = _ => assert (HF : hi_fixed h1 = hi_fixed hi /\ (length p0 <= a_max_colors a)%nat) by (destruct (@mediancut_ok A u U hi (a_max_colors a) x y CF ltac:(destruct AO; lia) ltac:(lia)) as (p0' & h1' & MC' & MO); rewrite MC in MC'; injection MC' as <- <-; decompose [and] MO; split; [congruence|lia]) end.
    destruct HF as [HF L0]. rewrite HF in WF. apply with_fixed_near in WF; [|exact L0].
    destruct (floor_real big a Ua) as [FE FL]. pose proof (real_quality_1 big) as Q1. pose proof (real_quality_order big 1 20 ltac:(lia) ltac:(lia)) as Q20. pose proof (real_quality_order big 1 51 ltac:(lia) ltac:(lia)) as Q51.
    destruct (cut_described big u U hi (a_max_colors a) _ _ p0 h1 CF NI ltac:(destruct AO; lia) SO MC) as (bs & bs' & S & C & EP & _).
    exists bs, bs'. split; [exact S|]. split.
    - match type of C with cut _ ?l ?g _ _ => assert (EL : l = 12 / 10 * quality_to_mse 1); [|assert (EG : g = steps big a ^ 2 * hi_total hi); [|rewrite EL, EG in C; exact C]] end.
      + exact (limit_eq _ _ _ _ _ FE FL Q1 Q20 Q51).
      + exact (goal_eq _ _ _ FE (proj1 FL)).
    - exists (hi_fixed hi), p1. split; [exact PF|]. split; [|exact PP]. rewrite <- EP. exact WF. }
  unfold quantize_internal in E. destruct (match hg_map h, hg_fixed h with [], [] => true | _, _ => false end); [discriminate|].
  change (unwrap_or (hg_gamma h) (dlit 45455 100000)) with (used_gamma h) in *. cbv zeta in E.
  destruct (finalize_builder u h (used_gamma h)) as [hi h']. cbn [fst] in *.
  destruct (progress cb f0 w) as [[[]|e|] w1]; try discriminate;
  (destruct (progress cb _ w1) as [[[]|e2|] w2]; try discriminate;
   destruct (result_new u cb a hi freeze (used_gamma h) w2) as [r w3] eqn:RN; apply (G w2 w3 r RN); congruence).
Qed.
Lemma fixed_few cb a h freeze w q s' : usable a -> hist_r h -> (a_target_mse a : R) = 0 -> (length (hg_map (insert_fixed u h)) <= a_max_colors a)%nat ->
  quantize_internal u cb a freeze (h, w) = (Ok q, s') ->
  exists p, Permutation (map fst p) (map (fun e => from_rgba (gamma_lut (used_gamma h)) (snd (snd e))) (hg_map (insert_fixed u h))) /\
    fixed_in h (a_max_colors a) p (map fst (q_pal q)).
Proof.
  intros Ua HR T L E. pose proof (proj1 (@objects_ok A CL) h HR) as W. pose proof (usable_ok a Ua) as AO.
  assert (NE : hg_map h <> [] \/ hg_fixed h <> []) by (unfold quantize_internal in E; destruct (hg_map h); [|left; discriminate]; destruct (hg_fixed h); [discriminate|right; discriminate]).
  destruct (QuantFacts.finalize_ok u U h (used_gamma h) W NE) as (_ & _ & FI & LI).
  assert (T0 : @deq A (a_target_mse a) d0 = true) by (apply Reqb_eq; exact T).
  destruct (few_internal u cb a freeze h w q s' U W L ltac:(destruct AO; lia) T0 E) as (_ & _ & _ & _ & _ & p & WF & PP).
  eexists. split; [|exists (hi_fixed (hint_of u h)), p; split; [exact (finalize_fixed u h (used_gamma h) U)|]; split; [|exact PP]; apply with_fixed_near; [|exact WF]].
  - rewrite map_map. exact (finalize_items u h (used_gamma h) U W).
  - rewrite map_length. unfold hint_of. lia.
Qed.

Lemma image_internal cb a i pxs w h i1 w1 q i' w' : usable a -> image_r i pxs -> add_image u cb a (hist_new a, i, w) = (Ok tt, (h, i1, w1)) ->
  quantize u cb a (i, w) = (Ok q, (i', w')) -> hist_r h /\ exists s', quantize_internal u cb a false (h, w1) = (Ok q, s').
Proof.
  intros Ua I AI E. split; [apply (hr_image u cb a (hist_new a) i pxs w (Ok tt) h i1 w1); auto; constructor; exact Ua|].
  unfold quantize in E. rewrite AI in E. destruct (quantize_internal u cb a false (h, w1)) as [r [h2 w2]] eqn:QI. inversion E; subst r. eauto.
Qed.
Lemma fixed_fast_image cb a i pxs w h i1 w1 q i' w' : usable a -> (8 <= get_speed a)%Z -> a_max_mse a = None -> image_r i pxs -> add_image u cb a (hist_new a, i, w) = (Ok tt, (h, i1, w1)) ->
  (exists e, In e (hg_map (insert_fixed u h)) /\ (0 < fst (snd e))%Z) -> (a_max_colors a < length (hg_map (insert_fixed u h)))%nat ->
  quantize u cb a (i, w) = (Ok q, (i', w')) ->
  let hi := fst (finalize_builder u h (used_gamma h)) in
  q_err q = None /\ exists bs bs', starts (hi_clusters hi) (a_max_colors a) (map (fun it => (h_color it, h_adj it : R, h_perc it : R)) (hi_items hi)) bs /\
    cut (a_max_colors a) (12 / 10 * quality_to_mse 1) (steps big a ^ 2 * hi_total hi) bs bs' /\
    fixed_in h (a_max_colors a) (map (fun b => (snd b, sumR (map wc_pix (fst b)))) bs') (map fst (q_pal q)).
Proof. intros Ua SP MM I AI CNT LEN E. destruct (image_internal cb a i pxs w h i1 w1 q i' w' Ua I AI E) as (HR & s' & QI). exact (fixed_fast cb a h false w1 q s' Ua SP MM HR CNT LEN QI). Qed.
Lemma fixed_few_image cb a i pxs w h i1 w1 q i' w' : usable a -> image_r i pxs -> (a_target_mse a : R) = 0 -> add_image u cb a (hist_new a, i, w) = (Ok tt, (h, i1, w1)) ->
  (length (hg_map (insert_fixed u h)) <= a_max_colors a)%nat -> quantize u cb a (i, w) = (Ok q, (i', w')) ->
  exists p, Permutation (map fst p) (map (fun e => from_rgba (gamma_lut (used_gamma h)) (snd (snd e))) (hg_map (insert_fixed u h))) /\
    fixed_in h (a_max_colors a) p (map fst (q_pal q)).
Proof. intros Ua I T AI LEN E. destruct (image_internal cb a i pxs w h i1 w1 q i' w' Ua I AI E) as (HR & s' & QI). exact (fixed_few cb a h false w1 q s' Ua HR T LEN QI). Qed.
Hypothesis Hb : 3 < big.
Lemma fixed_step cb a l h freeze w q s' : usable a -> (8 <= get_speed a)%Z -> a_max_mse a = Some l -> (forall t x, cb t x = false) -> hist_r h ->
  (exists e, In e (hg_map (insert_fixed u h)) /\ (0 < fst (snd e))%Z) -> ((length (hg_map (insert_fixed u h)) <= a_max_colors a)%nat -> (a_target_mse a : R) <> 0) ->
  quantize_internal u cb a freeze (h, w) = (Ok q, s') ->
  let hi := fst (finalize_builder u h (used_gamma h)) in let t := goal_of big a l (length (hg_map (insert_fixed u h))) in
  exists bs bs' p items e, starts (hi_clusters hi) (a_max_colors a) (map (fun it => (h_color it, h_adj it : R, h_perc it : R)) (hi_items hi)) bs /\
    cut (a_max_colors a) (12 / 10 * Rmax t (quality_to_mse 1)) (t * hi_total hi) bs bs' /\
    let p00 := map (fun b => (snd b, sumR (map wc_pix (fst b)))) bs' in
    exists fs p0, Permutation fs (map (fun f => from_rgba (gamma_lut (used_gamma h)) (fst f)) (hg_fixed h)) /\
    @placing big (firstn (a_max_colors a) fs) (p00 ++ map (fun c => (c, 0)) (firstn (Nat.min (length fs) (a_max_colors a) - length p00) fs)) p0 /\
    q_err q = Some e /\ mean_distance p0 (weighed u h (used_gamma h)) e /\
    Permutation (map (fun it => (h_color it, h_perc it)) items) (weighed u h (used_gamma h)) /\ length p = length p0 /\
    (forall it, In it items -> exists x, nth_error p0 (h_likely it) = Some x /\ least p0 (h_color it) (diff (h_color it) (fst x))) /\
    (forall j x, nth_error p0 j = Some x -> exists x', nth_error p j = Some x' /\ entry_step (members j items) items x x') /\
    Permutation (if freeze then map (fun x => (fst x, pop_to_fixed (snd x))) p else p) (q_pal q).
Proof.
  intros Ua SP MM NS HR CNT D E. cbv zeta.
  pose proof (proj1 (@objects_ok A CL) h HR) as W. pose proof (usable_ok a Ua) as AO. assert (M : (1 <= a_max_colors a <= 256)%nat) by (destruct AO; lia).
  assert (NE : hg_map h <> [] \/ hg_fixed h <> []) by (unfold quantize_internal in E; destruct (hg_map h); [|left; discriminate]; destruct (hg_fixed h); [discriminate|right; discriminate]).
  destruct (reachable_sound big u U h HR NE CNT) as (CF & NI & SO & TS & TP).
  destruct (finalize_box big u h U HR NE CNT) as (HB & PB & TB).
  destruct (QuantFacts.finalize_ok u U h (used_gamma h) W NE) as (_ & _ & FI & LI).
  pose proof (finalize_fixed u h (used_gamma h) U) as PF.
  assert (RN : exists w2 w3, result_new u cb a (fst (finalize_builder u h (used_gamma h))) freeze (used_gamma h) w2 = (Ok q, w3)).
  { unfold quantize_internal in E. destruct (match hg_map h, hg_fixed h with [], [] => true | _, _ => false end); [discriminate|].
    change (unwrap_or (hg_gamma h) (dlit 45455 100000)) with (used_gamma h) in *. cbv zeta in E.
    destruct (finalize_builder u h (used_gamma h)) as [hi h']. cbn [fst] in *.
    destruct (progress cb f0 w) as [[[]|e|] w1]; try discriminate;
    (destruct (progress cb _ w1) as [[[]|e2|] w2]; try discriminate;
     destruct (result_new u cb a hi freeze (used_gamma h) w2) as [r w3] eqn:RN; exists w2, w3; congruence). }
  clear E. destruct RN as (w2 & w3 & RN). set (hi := fst (finalize_builder u h (used_gamma h))) in *.
  assert (D' : (length (hi_items hi) <= a_max_colors a)%nat -> (@deq A (a_target_mse a) (@d0 A)) = false).
  { intros L. change (Reqb (a_target_mse a) 0 = false). destruct (Reqb (a_target_mse a) 0) eqn:Z; auto. rbool. rewrite LI in L. elim (D L). exact Z. }
  destruct (step_palette u cb a hi freeze (used_gamma h) w2 q w3 l U Ua SP MM NS D' RN) as (p0 & h1 & p1 & th & e & h2 & p2 & MC & WF & CV & IT & QE & PP).
  match type of MC with mediancut _ _ _ ?x ?y = _ => destruct (@mediancut_ok A u U hi (a_max_colors a) x y CF ltac:(lia) ltac:(destruct (hi_items hi); [congruence|cbn; lia])) as (p0' & h1' & MC' & LP & PC & T1 & C1 & F1 & _) end.
  rewrite MC in MC'. injection MC' as <- <-.
  assert (PI : pal_in big inbox p1 /\ HI1 big inbox h1) by (eapply (cut1 big inbox (box_convex big) u U a M hi); [exact HB| |exact MC|exact WF]; lia).
  rewrite F1 in WF. destruct PI as [PI HB1]. destruct (with_fixed_colors_ok p0 (a_max_colors a) (hi_fixed hi) ltac:(lia) ltac:(lia)) as (p1' & WF' & LP1 & _). assert (p1' = p1) by congruence. subst p1'. apply with_fixed_near in WF; [|lia].
  destruct (cut_described big u U hi (a_max_colors a) _ _ p0 h1 CF NI ltac:(lia) SO MC) as (bs & bs' & S & C & EP & _).
  assert (NP : p1 <> []) by (intros Z; apply (f_equal (@length _)) in Z; cbn [length] in Z; lia).
  assert (PM : Permutation (map core2 (hi_items h1)) (@weighed big u h (used_gamma h))) by (rewrite <- (core_core2 _ _ PC); exact PB).
  assert (TT : (hi_total h1 : R) = sumR (map snd (@weighed big u h (used_gamma h)))) by (rewrite T1; exact TB).
  destruct (plain_step big Hb th h1 _ p1 e h2 p2 CV HB1 PI NP PM TT IT) as (S1 & S2 & S3 & S4 & S5).
  exists bs, bs', p2, (hi_items h2), e. split; [exact S|]. split.
  - match type of C with cut _ ?l1 ?g _ _ => assert (EL : l1 = 12 / 10 * Rmax (goal_of big a l (length (hg_map (insert_fixed u h)))) (quality_to_mse 1)); [|assert (EG : g = goal_of big a l (length (hg_map (insert_fixed u h))) * hi_total hi); [|rewrite EL, EG in C; exact C]] end.
    + destruct (floor_real big a Ua) as [FE _]. unfold FastStep.goal_of. rewrite <- FE, <- LI.
      refine (eq_trans (limit_max _ _ _ _ (real_quality_1 big) (real_quality_order big 1 20 ltac:(lia) ltac:(lia)) (real_quality_order big 1 51 ltac:(lia) ltac:(lia))) _). reflexivity.
    + destruct (floor_real big a Ua) as [FE _]. unfold FastStep.goal_of. rewrite <- FE, <- LI. apply (f_equal (fun x => x * (hi_total hi : R))). refine (eq_trans (Rmult_1_r _) _). reflexivity.
  - exists (hi_fixed hi), p1. split; [exact PF|]. split; [rewrite <- EP; exact WF|]. split; [exact QE|]. split; [exact S2|]. split; [exact S1|]. split; [exact S3|]. split; [exact S4|]. split; [exact S5|exact PP].
Qed.
Lemma fixed_step_image cb a l i pxs w h i1 w1 q i' w' : usable a -> (8 <= get_speed a)%Z -> a_max_mse a = Some l -> (forall t x, cb t x = false) -> image_r i pxs -> add_image u cb a (hist_new a, i, w) = (Ok tt, (h, i1, w1)) ->
  (exists e, In e (hg_map (insert_fixed u h)) /\ (0 < fst (snd e))%Z) -> ((length (hg_map (insert_fixed u h)) <= a_max_colors a)%nat -> (a_target_mse a : R) <> 0) ->
  quantize u cb a (i, w) = (Ok q, (i', w')) ->
  let hi := fst (finalize_builder u h (used_gamma h)) in let t := goal_of big a l (length (hg_map (insert_fixed u h))) in
  exists bs bs' p items e, starts (hi_clusters hi) (a_max_colors a) (map (fun it => (h_color it, h_adj it : R, h_perc it : R)) (hi_items hi)) bs /\
    cut (a_max_colors a) (12 / 10 * Rmax t (quality_to_mse 1)) (t * hi_total hi) bs bs' /\
    let p00 := map (fun b => (snd b, sumR (map wc_pix (fst b)))) bs' in
    exists fs p0, Permutation fs (map (fun f => from_rgba (gamma_lut (used_gamma h)) (fst f)) (hg_fixed h)) /\
    @placing big (firstn (a_max_colors a) fs) (p00 ++ map (fun c => (c, 0)) (firstn (Nat.min (length fs) (a_max_colors a) - length p00) fs)) p0 /\
    q_err q = Some e /\ mean_distance p0 (weighed u h (used_gamma h)) e /\
    Permutation (map (fun it => (h_color it, h_perc it)) items) (weighed u h (used_gamma h)) /\ length p = length p0 /\
    (forall it, In it items -> exists x, nth_error p0 (h_likely it) = Some x /\ least p0 (h_color it) (diff (h_color it) (fst x))) /\
    (forall j x, nth_error p0 j = Some x -> exists x', nth_error p j = Some x' /\ entry_step (members j items) items x x') /\
    Permutation p (q_pal q).
Proof. intros Ua SP MM NS I AI CNT D E. destruct (image_internal cb a i pxs w h i1 w1 q i' w' Ua I AI E) as (HR & s' & QI). exact (fixed_step cb a l h false w1 q s' Ua SP MM NS HR CNT D QI). Qed.
End E.
