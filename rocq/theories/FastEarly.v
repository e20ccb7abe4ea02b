(** At the speeds 8 to 10 a palette of fewer colours than allowed meets the
    target. *)
From Verif Require Import Base BaseFacts Arith Order Pal World Attr Hist Nearest MedianCut Kmeans ImageM Quant Api PalFacts AttrFacts MedianFacts SearchFacts QuantFacts FewFacts FewImage FiniteTop StepOf
  HistTotal HistFacts ImageFacts ApiFacts HistIn SpecHist RealArith MedianReal NearReal HullReal SpecKmeans KmeansMono SpecPromise HullTop BoundFacts StepReal SpecCut CutReal CutEnd FastCut FastStep MinFacts.
From Coq Require Import Reals Lra Permutation.
Open Scope R_scope.
Section E.
Context (big : R).
Local Notation A := (real big).
Local Hint Extern 0 Arith => exact (real big) : typeclass_instances.
Let CL : CastLaws A := real_cast big.
Local Existing Instance CL.

Lemma least_colors (p p' : palf) c d : Permutation (map fst p) (map fst p') -> least p c d -> least p' c d.
Proof.
  intros P ((e & I & ->) & L). split.
  - assert (J : In (fst e) (map fst p')) by (eapply Permutation_in; [exact P|apply in_map; exact I]). apply in_map_iff in J as (e' & Q & J). exists e'. rewrite Q. auto.
  - intros e' I'. assert (J : In (fst e') (map fst p)) by (eapply Permutation_in; [symmetry; exact P|apply in_map; exact I']). apply in_map_iff in J as (e2 & <- & J). auto.
Qed.
Lemma mean_colors (p p' : palf) l d : Permutation (map fst p) (map fst p') -> mean_distance p l d -> mean_distance p' l d.
Proof. intros P (ds & L & D & E). exists ds. split; [exact L|]. split; [|exact E]. intros k x d1 K1 K2. eapply least_colors; [exact P|]. eapply D; eauto. Qed.
Lemma mean_value (p : palf) (l : list (px * R)) d : p <> [] -> mean_distance p l d -> d = sumR (map (fun x => snd x * near big p (fst x)) l) / sumR (map snd l).
Proof.
  intros NE (ds & L & D & ->). f_equal. revert ds L D. induction l as [|x l IH]; intros [|d ds] L D; try discriminate; [reflexivity|]. cbn [combine map sumR fst snd].
  rewrite (IH ds) by (try (cbn in L; lia); intros k; exact (D (S k))). f_equal. f_equal. eapply least_one; [exact (D 0%nat x d eq_refl eq_refl)|]. apply near_least. exact NE.
Qed.
Lemma mean_items (p : palf) (l l' : list (px * R)) d : p <> [] -> Permutation l l' -> mean_distance p l d -> mean_distance p l' d.
Proof.
  intros NE P M. rewrite (mean_value p l d NE M). rewrite (sumR_perm _ _ (Permutation_map (fun x : px * R => snd x * near big p (fst x)) P)), (sumR_perm _ _ (Permutation_map snd P)).
  apply (mean_near big). exact NE.
Qed.
Lemma mean_one (p : palf) (l : list (px * R)) d d' : p <> [] -> mean_distance p l d -> mean_distance p l d' -> d = d'.
Proof. intros NE M M'. rewrite (mean_value p l d NE M). symmetry. apply mean_value; auto. Qed.

Lemma real_quality_pos q : (0 <= q <= 100)%Z -> 0 <= (quality_to_mse q : R).
Proof.
  intros H. unfold quality_to_mse. destruct (Z.eqb_spec q 0); [change (IZR 0 <= IZR (10 ^ 20)); apply IZR_le; discriminate|]. destruct (Z.leb_spec 100 q); [apply Rle_refl|].
  unfold LIQ_WEIGHT_MSE. cbn [real dlit dofZ dmax dadd dsub dmul ddiv dpow d0 f64]. unfold powR.
  assert (L : 1 <= IZR q <= 99) by (split; apply IZR_le; lia). destruct (Rlt_dec 0 (210 + IZR q)); [|lra].
  assert (P : 0 < / Rpower (210 + IZR q) (12 / 10)) by (apply Rinv_0_lt_compat, exp_pos).
  pose proof (Rmax_r (16 / 1000 / (1 / 1000 + IZR q) - 1 / 1000) 0) as M. apply Rmult_le_pos; [lra|]. unfold Rdiv in *. apply Rplus_le_le_0_compat; [exact M|].
  repeat apply Rmult_le_pos; lra.
Qed.
Lemma goal_pos a l n : usable a -> a_max_mse a = Some l -> 0 <= goal_of big a l n.
Proof.
  intros Ua MM. destruct (usable_min a Ua) as [N|(mn & M & E)]; [congruence|]. assert (EL : l = quality_to_mse mn) by congruence.
  pose proof (real_quality_pos mn M) as Q. rewrite <- EL in Q. unfold goal_of. apply Rmin_glb.
  - apply Rle_trans with (2 := Rmax_r _ _). apply (floor_real big a Ua).
  - apply Rmult_le_pos; [exact Q|]. unfold allowance. destruct (Nat.leb n 256); lra.
Qed.
Variable u : unspec.
Hypothesis U : unspec_ok u.
Lemma stop_early h n bs bs' limit t : hist_r h -> hg_fixed h = [] -> (exists e, In e (hg_map h) /\ (0 < fst (snd e))%Z) -> 0 <= t ->
  let hi := fst (finalize_builder u h (used_gamma h)) in
  starts (hi_clusters hi) n (map (fun it => (h_color it, h_adj it : R, h_perc it : R)) (hi_items hi)) bs ->
  cut n limit (t * hi_total hi) bs bs' -> (length bs' < n)%nat ->
  forall p : palf, map fst p = map snd bs' -> p <> [] /\ exists d, mean_distance p (weighed u h (used_gamma h)) d /\ d <= t.
Proof.
  intros HR FX CNT Ht hi S C LN p EP.
  assert (NE : hg_map h <> [] \/ hg_fixed h <> []) by (left; destruct CNT as (x & X & _); destruct (hg_map h); [destruct X|discriminate]).
  assert (CNT' : exists e, In e (hg_map (insert_fixed u h)) /\ (0 < fst (snd e))%Z) by (rewrite (insert_fixed_none u h U FX); exact CNT).
  destruct (reachable_sound big u U h HR NE CNT') as (CF & NI & F & HT & HP). destruct (finalize_box big u h U HR NE CNT') as (_ & PB & _). fold hi in CF, NI, F, HT, HP, PB.
  set (l := map (fun it : @hitem A => (h_color it, h_adj it : R, h_perc it : R)) (hi_items hi)) in *.
  assert (NE2 : l <> []) by (unfold l; destruct (hi_items hi); [congruence|discriminate]).
  pose proof (cut_central big _ _ _ _ _ C (starts_fine big _ _ _ _ S (proj1 CF) NE2)) as FC.
  assert (PL : Permutation l (concat (map fst bs'))) by (rewrite <- (proj1 S); eapply cut_keeps; eauto).
  assert (FL : Forall (fun c => 0 < wc_adj c /\ 0 <= wc_pix c) (concat (map fst bs'))).
  { eapply Permutation_Forall; [exact PL|]. apply Forall_map. eapply Forall_impl; [|exact F]. intros it (_ & H). exact H. }
  assert (NP : p <> []).
  { intros ->. symmetry in EP. apply map_eq_nil in EP. subst bs'. cbn in PL. apply Permutation_sym, Permutation_nil in PL. auto. }
  assert (IN : Forall (fun b : @sbox big => In (snd b) (map fst p)) bs') by (apply Forall_forall; intros b Hb; rewrite EP; apply in_map; exact Hb).
  split; [exact NP|].
  enough (MD : exists d, mean_distance p (map (fun it : @hitem A => (h_color it, h_perc it : R)) (hi_items hi)) d /\ d <= t).
  { destruct MD as (d & MD & L). exists d. split; [|exact L]. eapply mean_items; [exact NP|exact PB|exact MD]. }
  eexists. split; [apply (StepReal.mean_near big); auto|].
  rewrite !map_map. cbn [fst snd]. rewrite <- HT.
  assert (Q : sumR (map (fun it : @hitem A => (h_perc it : R) * near big p (h_color it)) (hi_items hi)) = sumR (map (fun c => wc_pix c * near big p (wc_px c)) (concat (map fst bs')))).
  { rewrite <- (sumR_perm _ _ (Permutation_map _ PL)). unfold l. rewrite map_map. reflexivity. }
  cbn [f32 real] in *. rewrite Q.
  assert (G : sumR (map (fun c => wc_pix c * near big p (wc_px c)) (concat (map fst bs'))) <= t * hi_total hi).
  { apply Rle_trans with (loss bs'); [apply near_loss; [exact IN|]; eapply Forall_impl; [|exact FL]; intros c []; auto|].
    destruct (cut_stop big _ _ _ _ _ C) as [H|[H|H]]; [lia| |exact H].
    apply Rle_trans with 0; [|apply Rmult_le_pos; [auto|apply Rlt_le; exact HP]]. unfold loss. apply Req_le.
    clear - H FC FL. induction bs' as [|b bs' IH]; cbn [map sumR]; auto. apply Forall_cons_iff in FC as [[N1 N2] FC]. cbn [map concat] in FL. apply Forall_app in FL as [F1 F2].
    rewrite IH; auto; [|intros b' Hb'; apply H; right; auto]. specialize (H b (or_introl eq_refl)). destruct b as [[|c [|c2 lb]] r]; cbn [fst snd length] in *; [congruence| |lia].
    apply Forall_cons_iff in F1 as [[F1 _] _]. rewrite (central_one big c r F1 N2). cbn [map sumR]. rewrite (diff_self big). lra. }
  apply div_le; auto.
Qed.
Lemma fast_early cb a h freeze w q s' : usable a -> (8 <= get_speed a)%Z -> a_max_mse a = None -> hist_r h -> hg_fixed h = [] ->
  (exists e, In e (hg_map h) /\ (0 < fst (snd e))%Z) -> (a_max_colors a < length (hg_map h))%nat ->
  quantize_internal u cb a freeze (h, w) = (Ok q, s') -> (length (q_pal q) < a_max_colors a)%nat ->
  exists d, mean_distance (q_pal q) (weighed u h (used_gamma h)) d /\ d <= steps big a ^ 2.
Proof.
  intros Ua SP MM HR FX CNT LEN E LN. destruct (fast_internal big u U cb a h freeze w q s' Ua SP MM HR FX CNT LEN E) as (_ & bs & bs' & S & C & P).
  assert (LB : length bs' = length (q_pal q)) by (pose proof (Permutation_length P) as PL; rewrite !map_length in PL; exact PL).
  destruct (stop_early h _ bs bs' _ _ HR FX CNT (proj1 (proj2 (floor_real big a Ua))) S C ltac:(lia) (map (fun b => (snd b, 0)) bs')) as (_ & d & MD & L); [rewrite map_map; reflexivity|].
  exists d. split; [|exact L]. eapply mean_colors; [|exact MD]. rewrite map_map. exact P.
Qed.
Hypothesis Hb : 3 < big.
Lemma step_early cb a l h freeze w q s' : usable a -> (8 <= get_speed a)%Z -> a_max_mse a = Some l -> (forall t x, cb t x = false) -> hist_r h -> hg_fixed h = [] ->
  (exists e, In e (hg_map h) /\ (0 < fst (snd e))%Z) -> ((length (hg_map h) <= a_max_colors a)%nat -> (a_target_mse a : R) <> 0) ->
  quantize_internal u cb a freeze (h, w) = (Ok q, s') -> (length (q_pal q) < a_max_colors a)%nat ->
  exists e, q_err q = Some e /\ e <= goal_of big a l (length (hg_map h)).
Proof.
  intros Ua SP MM NS HR FX CNT D E LN. destruct (step_internal big Hb u U cb a l h freeze w q s' Ua SP MM NS HR FX CNT D E) as (bs & bs' & p & items & e & S & C & QE & MD & _ & LP & _ & _ & PP).
  cbv zeta in *. exists e. split; [exact QE|].
  assert (LB : length bs' = length (q_pal q)) by (pose proof (Permutation_length PP) as PL; destruct freeze; rewrite ?map_length in PL; rewrite ?map_length in LP; exact (eq_trans (eq_sym LP) PL)).
  match type of MD with mean_distance ?p0 _ _ => destruct (stop_early h _ bs bs' _ _ HR FX CNT (goal_pos a l _ Ua MM) S C ltac:(lia) p0) as (NP & d & MD' & L) end; [rewrite map_map; reflexivity|].
  rewrite (mean_one _ _ _ _ NP MD MD'). exact L.
Qed.

Lemma image_internal cb a i pxs w h i1 w1 q i' w' : usable a -> image_r i pxs -> i_fixed i = [] -> add_image u cb a (hist_new a, i, w) = (Ok tt, (h, i1, w1)) ->
  quantize u cb a (i, w) = (Ok q, (i', w')) -> hist_r h /\ hg_fixed h = [] /\ exists s', quantize_internal u cb a false (h, w1) = (Ok q, s').
Proof.
  intros Ua I FX AI E. pose proof (proj1 (proj2 (@objects_ok A CL)) i pxs I) as IO. split; [apply (hr_image u cb a (hist_new a) i pxs w (Ok tt) h i1 w1); auto; constructor; exact Ua|]. split.
  - destruct (add_image_spec u cb a (hist_new a) i w pxs IO) as (i2 & _ & _ & _ & _ & _ & _ & _ & _ & E1). cbv zeta in E1. rewrite E1 in AI. clear E1.
    destruct (cb _ _); [discriminate|]. destruct (all_rgba_rows (i_px i)); try discriminate. inversion AI; subst h. rewrite (settle_fixed (A := A)), (add_all_fixed (A := A)). unfold add_image_fixed. rewrite FX. reflexivity.
  - unfold quantize in E. rewrite AI in E. destruct (quantize_internal u cb a false (h, w1)) as [r [h2 w2]] eqn:QI. inversion E; subst r. eauto.
Qed.
Lemma fast_early_image cb a i pxs w h i1 w1 q i' w' : usable a -> (8 <= get_speed a)%Z -> a_max_mse a = None -> image_r i pxs -> i_fixed i = [] ->
  add_image u cb a (hist_new a, i, w) = (Ok tt, (h, i1, w1)) -> (exists e, In e (hg_map h) /\ (0 < fst (snd e))%Z) -> (a_max_colors a < length (hg_map h))%nat ->
  quantize u cb a (i, w) = (Ok q, (i', w')) -> (length (q_pal q) < a_max_colors a)%nat ->
  exists d, mean_distance (q_pal q) (weighed u h (used_gamma h)) d /\ d <= steps big a ^ 2.
Proof.
  intros Ua SP MM I FX AI CNT LEN E LN. destruct (image_internal cb a i pxs w h i1 w1 q i' w' Ua I FX AI E) as (HR & FH & s' & QI). exact (fast_early cb a h false w1 q s' Ua SP MM HR FH CNT LEN QI LN).
Qed.
Lemma step_early_image cb a l i pxs w h i1 w1 q i' w' : usable a -> (8 <= get_speed a)%Z -> a_max_mse a = Some l -> (forall t x, cb t x = false) -> image_r i pxs -> i_fixed i = [] ->
  add_image u cb a (hist_new a, i, w) = (Ok tt, (h, i1, w1)) -> (exists e, In e (hg_map h) /\ (0 < fst (snd e))%Z) -> ((length (hg_map h) <= a_max_colors a)%nat -> (a_target_mse a : R) <> 0) ->
  quantize u cb a (i, w) = (Ok q, (i', w')) -> (length (q_pal q) < a_max_colors a)%nat ->
  exists e, q_err q = Some e /\ e <= goal_of big a l (length (hg_map h)).
Proof.
  intros Ua SP MM NS I FX AI CNT D E LN. destruct (image_internal cb a i pxs w h i1 w1 q i' w' Ua I FX AI E) as (HR & FH & s' & QI). exact (step_early cb a l h false w1 q s' Ua SP MM NS HR FH CNT D QI LN).
Qed.
End E.
