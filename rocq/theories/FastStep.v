(** At the speeds 8 to 10 with a quality set the palette is one k-means step
    from what median cut gives. *)
From Verif Require Import Base BaseFacts Arith Order Pal World Attr Hist Nearest MedianCut Kmeans ImageM Quant Api PalFacts AttrFacts MedianFacts SearchFacts QuantFacts FewFacts FewImage FiniteTop StepOf
  HistTotal HistFacts ImageFacts ApiFacts HistIn SpecHist RealArith MedianReal HullReal SpecKmeans SpecPromise HullTop BoundFacts StepReal SpecCut CutReal CutEnd FastCut.
From Coq Require Import Reals Lra Permutation.

Section Any.
Context {A : Arith} {CL : CastLaws A}.
Lemma step_palette u cb a h freeze g w q w' l : unspec_ok u -> usable a -> (8 <= get_speed a)%Z -> a_max_mse a = Some l -> (forall t x, cb t x = false) ->
  ((length (hi_items h) <= a_max_colors a)%nat -> (a_target_mse a =d d0)%flt = false) ->
  result_new u cb a h freeze g w = (Ok q, w') ->
  let t := dmin (dmax (a_target_mse a) (floor_mse a)) (l *d (if Nat.leb (length (hi_items h)) MAX_COLORS then dlit 33 100 else Arith.d1))%flt in
  exists p0 h1 p1 th e h2 p2, mediancut u h (a_max_colors a) (t *d Arith.d1)%flt (dmax (dmax t (quality_to_mse 1)) (quality_to_mse 51) *d dlit 12 10)%flt = Ok (p0, h1) /\
    with_fixed_colors p0 (a_max_colors a) (hi_fixed h1) = Ok p1 /\ (forall n, covers n (th n)) /\ iteration_with th h1 p1 false = Ok (e, h2, p2) /\
    q_err q = Some e /\ Permutation (if freeze then map (fun x => (fst x, pop_to_fixed (snd x))) p2 else p2) (q_pal q).
Proof.
  intros UO U SP MM NS D E. cbv zeta. unfold result_new in E. apply sbind_ok in E as (s1 & w1 & _ & E). destruct s1; [discriminate|].
  unfold target_mse in E. rewrite MM in E. fold (floor_mse a) in E. cbv zeta in E. set (t := dmin _ _) in *.
  apply sbind_ok in E as ([p err] & w2 & F & E). apply sbind_ok in E as (s2 & w3 & _ & E). destruct s2; [discriminate|].
  destruct (match err with Some _ => _ | None => _ end); [discriminate|].
  apply sbind_ok in E as (p2 & w4 & E2 & E). unfold slift in E2. inversion E2; subst. unfold sret in E. inversion E; subst. cbn [q_pal q_err]. clear E E2.
  unfold find_best_palette in F. 
  replace (Nat.leb (length (hi_items h)) (a_max_colors a) && (a_target_mse a =d d0)%flt)%bool with false in F.
  2:{ destruct (Nat.leb_spec (length (hi_items h)) (a_max_colors a)) as [L|L]; [rewrite (D L)|]; reflexivity. }
  assert (TR : (feedback_loop_trials a (length (hi_items h)) <= 0)%Z) by (apply few_trials; [exact U|lia]).
  set (n := feedback_loop_trials a (length (hi_items h))) in *. cbv zeta in F.
  replace (0 <? n)%Z with false in F by (symmetry; apply Z.ltb_ge; lia).
  apply sbind_ok in F as ([[h' best] er] & w5 & SL & F). cbn [search_loop] in SL. cbv zeta in SL. cbn [unwrap_or] in SL.
  apply sbind_ok in SL as ([p0 h1] & w6 & MC & SL). apply sbind_ok in SL as (p1 & w7 & WF & SL).
  replace (n <=? 0)%Z with true in SL by (symmetry; apply Z.leb_le; lia). unfold sret in SL. inversion SL; subst. clear SL.
  unfold slift in MC, WF. inversion MC. inversion WF. subst.
  apply sbind_ok in F as ([[h2 p'] err'] & w8 & RF & F). unfold sret in F. inversion F; subst. clear F.
  unfold refine_palette, kmeans_iterations in RF. rewrite MM, (usable_idle a U SP), shrink_0 in RF. cbn [Z.eqb andb negb] in RF. change (Z.to_nat 1) with 1%nat in RF.
  cbn [refine_loop] in RF. change (0 <? 1)%Z with true in RF. cbv beta iota zeta in RF. apply sbind_ok in RF as (s3 & w9 & PR & RF).
  unfold progress in PR. rewrite NS in PR. inversion PR; subst.
  apply sbind_ok in RF as ([[e h3] p3] & w10 & IT & RF).
  match type of RF with (if ?b then _ else _) _ = _ => replace b with false in RF end.
  2:{ destruct (_ <d e)%flt; reflexivity. }
  unfold sret in RF. inversion RF; subst. unfold iteration in IT. apply sbind_ok in IT as (k & w11 & TK & IT). unfold slift in IT. inversion IT; subst.
  exists p0. do 6 eexists. split; [eassumption|]. split; [eassumption|]. split; [|split; [eassumption|split; [reflexivity|]]].
  - intros m. apply (uo_batches u UO).
  - match goal with H : sort_palette a ?x = _ |- _ => destruct (sort_palette_ok a x) as (p4 & E3 & P3); rewrite H in E3 end.
    inversion E3; subst. exact P3.
Qed.
End Any.

Open Scope R_scope.
Section E.
Context (big : R).
Hypothesis Hb : 3 < big.
Local Notation A := (real big).
Local Hint Extern 0 Arith => exact (real big) : typeclass_instances.
Let CL : CastLaws A := real_cast big.
Local Existing Instance CL.
Variable u : unspec.
Hypothesis U : unspec_ok u.
Definition goal_of (a : attrs) (l : R) (n : nat) : R := Rmin (Rmax (a_target_mse a) (steps big a ^ 2)) (l * allowance n).
Lemma limit_max (t q1 q20 q51 : R) : 6 / 1000 <= q1 -> q20 <= q1 -> q51 <= q1 -> Rmax (Rmax (Rmax t q1) q51 * (12 / 10)) q20 = 12 / 10 * Rmax t q1.
Proof.
  intros H2 H3 H4. pose proof (Rmax_r t q1). rewrite (Rmax_left (Rmax t q1) q51) by lra. rewrite Rmax_left by lra. ring.
Qed.
Lemma step_internal cb a l h freeze w q s' : usable a -> (8 <= get_speed a)%Z -> a_max_mse a = Some l -> (forall t x, cb t x = false) -> hist_r h -> hg_fixed h = [] ->
  (exists e, In e (hg_map h) /\ (0 < fst (snd e))%Z) -> ((length (hg_map h) <= a_max_colors a)%nat -> (a_target_mse a : R) <> 0) ->
  quantize_internal u cb a freeze (h, w) = (Ok q, s') ->
  let hi := fst (finalize_builder u h (used_gamma h)) in let t := goal_of a l (length (hg_map h)) in
  exists bs bs' p items e, starts (hi_clusters hi) (a_max_colors a) (map (fun it => (h_color it, h_adj it : R, h_perc it : R)) (hi_items hi)) bs /\
    cut (a_max_colors a) (12 / 10 * Rmax t (quality_to_mse 1)) (t * hi_total hi) bs bs' /\
    let p0 := map (fun b => (snd b, sumR (map wc_pix (fst b)))) bs' in
    q_err q = Some e /\ mean_distance p0 (weighed u h (used_gamma h)) e /\
    Permutation (map (fun it => (h_color it, h_perc it)) items) (weighed u h (used_gamma h)) /\ length p = length p0 /\
    (forall it, In it items -> exists x, nth_error p0 (h_likely it) = Some x /\ least p0 (h_color it) (diff (h_color it) (fst x))) /\
    (forall j x, nth_error p0 j = Some x -> exists x', nth_error p j = Some x' /\ entry_step (members j items) items x x') /\
    Permutation (if freeze then map (fun x => (fst x, pop_to_fixed (snd x))) p else p) (q_pal q).
Proof.
  intros Ua SP MM NS HR FX CNT D E. cbv zeta.
  pose proof (proj1 (@objects_ok A CL) h HR) as W. pose proof (usable_ok a Ua) as AO. assert (M : (1 <= a_max_colors a <= 256)%nat) by (destruct AO; lia).
  assert (NE : hg_map h <> [] \/ hg_fixed h <> []) by (left; destruct CNT as (x & X & _); destruct (hg_map h); [destruct X|discriminate]).
  assert (CNT' : exists e, In e (hg_map (insert_fixed u h)) /\ (0 < fst (snd e))%Z) by (rewrite (insert_fixed_none u h U FX); exact CNT).
  destruct (reachable_sound big u U h HR NE CNT') as (CF & NI & SO & TS & TP).
  destruct (finalize_box big u h U HR NE CNT') as (HB & PB & TB).
  destruct (QuantFacts.finalize_ok u U h (used_gamma h) W NE) as (_ & _ & FI & LI).
  rewrite (insert_fixed_none u h U FX) in LI.
  assert (FX' : hi_fixed (fst (finalize_builder u h (used_gamma h))) = []) by (rewrite FX in FI; destruct (hi_fixed _); [reflexivity|discriminate]).
  assert (RN : exists w2 w3, result_new u cb a (fst (finalize_builder u h (used_gamma h))) freeze (used_gamma h) w2 = (Ok q, w3)).
  { unfold quantize_internal in E. destruct (match hg_map h, hg_fixed h with [], [] => true | _, _ => false end); [discriminate|].
    change (unwrap_or (hg_gamma h) (dlit 45455 100000)) with (used_gamma h) in *. cbv zeta in E.
    destruct (finalize_builder u h (used_gamma h)) as [hi h']. cbn [fst] in *.
    destruct (progress cb f0 w) as [[[]|e|] w1]; try discriminate;
    (destruct (progress cb _ w1) as [[[]|e2|] w2]; try discriminate;
     destruct (result_new u cb a hi freeze (used_gamma h) w2) as [r w3] eqn:RN; exists w2, w3; congruence). }
  clear E. destruct RN as (w2 & w3 & RN). set (hi := fst (finalize_builder u h (used_gamma h))) in *.
  assert (D' : (length (hi_items hi) <= a_max_colors a)%nat -> (@deq A (a_target_mse a) (@d0 A)) = false).
  { intros L. change (Reqb (a_target_mse a) 0 = false). destruct (Reqb (a_target_mse a) 0) eqn:Z; auto. rbool. rewrite LI in L. elim (D L). exact Z. }
  destruct (step_palette u cb a hi freeze (used_gamma h) w2 q w3 l U Ua SP MM NS D' RN) as (p0 & h1 & p1 & th & e & h2 & p2 & MC & WF & CV & IT & QE & PP).
  match type of MC with mediancut _ _ _ ?x ?y = _ => destruct (@mediancut_ok A u U hi (a_max_colors a) x y CF ltac:(lia) ltac:(destruct (hi_items hi); [congruence|cbn; lia])) as (p0' & h1' & MC' & LP & PC & T1 & C1 & F1 & _) end.
  rewrite MC in MC'. injection MC' as <- <-.
  assert (PI : pal_in big inbox p1 /\ HI1 big inbox h1) by (eapply (cut1 big inbox (box_convex big) u U a M hi); [exact HB| |exact MC|exact WF]; lia).
  rewrite F1, FX' in WF. apply with_fixed_none in WF. subst p1. destruct PI as [PI HB1].
  destruct (cut_described big u U hi (a_max_colors a) _ _ p0 h1 CF NI ltac:(lia) SO MC) as (bs & bs' & S & C & EP & _).
  assert (NP : p0 <> []) by (intros Z; rewrite Z in LP; cbn in LP; lia).
  assert (PM : Permutation (map core2 (hi_items h1)) (@weighed big u h (used_gamma h))) by (rewrite <- (core_core2 _ _ PC); exact PB).
  assert (TT : (hi_total h1 : R) = sumR (map snd (@weighed big u h (used_gamma h)))) by (rewrite T1; exact TB).
  destruct (plain_step big Hb th h1 _ p0 e h2 p2 CV HB1 PI NP PM TT IT) as (S1 & S2 & S3 & S4 & S5).
  rewrite EP in S2, S3, S4, S5.
  exists bs, bs', p2, (hi_items h2), e. split; [exact S|]. split.
  - match type of C with cut _ ?l1 ?g _ _ => assert (EL : l1 = 12 / 10 * Rmax (goal_of a l (length (hg_map h))) (quality_to_mse 1)); [|assert (EG : g = goal_of a l (length (hg_map h)) * hi_total hi); [|rewrite EL, EG in C; exact C]] end.
    + destruct (floor_real big a Ua) as [FE _]. unfold goal_of. rewrite <- FE, <- LI.
      refine (eq_trans (limit_max _ _ _ _ (real_quality_1 big) (real_quality_order big 1 20 ltac:(lia) ltac:(lia)) (real_quality_order big 1 51 ltac:(lia) ltac:(lia))) _). reflexivity.
    + destruct (floor_real big a Ua) as [FE _]. unfold goal_of. rewrite <- FE, <- LI. apply (f_equal (fun x => x * (hi_total hi : R))). refine (eq_trans (Rmult_1_r _) _). reflexivity.
  - split; [exact QE|]. split; [exact S2|]. split; [exact S1|]. split; [exact S3|]. split; [exact S4|]. split; [exact S5|exact PP].
Qed.
Lemma step_image cb a l i pxs w h i1 w1 q i' w' : usable a -> (8 <= get_speed a)%Z -> a_max_mse a = Some l -> (forall t x, cb t x = false) -> image_r i pxs -> i_fixed i = [] ->
  add_image u cb a (hist_new a, i, w) = (Ok tt, (h, i1, w1)) ->
  (exists e, In e (hg_map h) /\ (0 < fst (snd e))%Z) -> ((length (hg_map h) <= a_max_colors a)%nat -> (a_target_mse a : R) <> 0) ->
  quantize u cb a (i, w) = (Ok q, (i', w')) ->
  let hi := fst (finalize_builder u h (used_gamma h)) in let t := goal_of a l (length (hg_map h)) in
  exists bs bs' p items e, starts (hi_clusters hi) (a_max_colors a) (map (fun it => (h_color it, h_adj it : R, h_perc it : R)) (hi_items hi)) bs /\
    cut (a_max_colors a) (12 / 10 * Rmax t (quality_to_mse 1)) (t * hi_total hi) bs bs' /\
    let p0 := map (fun b => (snd b, sumR (map wc_pix (fst b)))) bs' in
    q_err q = Some e /\ mean_distance p0 (weighed u h (used_gamma h)) e /\
    Permutation (map (fun it => (h_color it, h_perc it)) items) (weighed u h (used_gamma h)) /\ length p = length p0 /\
    (forall it, In it items -> exists x, nth_error p0 (h_likely it) = Some x /\ least p0 (h_color it) (diff (h_color it) (fst x))) /\
    (forall j x, nth_error p0 j = Some x -> exists x', nth_error p j = Some x' /\ entry_step (members j items) items x x') /\
    Permutation p (q_pal q).
Proof.
  intros Ua SP MM NS I FX AI CNT D E. pose proof (proj1 (proj2 (@objects_ok A CL)) i pxs I) as IO.
  assert (HR : hist_r h) by (apply (hr_image u cb a (hist_new a) i pxs w (Ok tt) h i1 w1); auto; constructor; exact Ua).
  assert (FH : hg_fixed h = []).
  { destruct (add_image_spec u cb a (hist_new a) i w pxs IO) as (i2 & _ & _ & _ & _ & _ & _ & _ & _ & E1). cbv zeta in E1. rewrite E1 in AI. clear E1.
    destruct (cb _ _); [discriminate|]. destruct (all_rgba_rows (i_px i)); try discriminate. inversion AI; subst h. rewrite (settle_fixed (A := A)), (add_all_fixed (A := A)). unfold add_image_fixed. rewrite FX. reflexivity. }
  unfold quantize in E. rewrite AI in E. destruct (quantize_internal u cb a false (h, w1)) as [r [h2 w2]] eqn:QI. inversion E; subst r.
  exact (step_internal cb a l h false w1 q _ Ua SP MM NS HR FH CNT D QI).
Qed.
End E.
