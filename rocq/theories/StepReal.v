(** Exact arithmetic: the palette of a result is a k-means step from a palette
    whose mean distance is the error reported. *)
From Verif Require Import Base BaseFacts Arith Order Pal World Attr Hist Nearest MedianCut Kmeans Blur ImageM Quant Remap Api
  SpecHist AttrFacts ImageFacts HistFacts MedianFacts NearFacts SearchFacts QuantFacts ApiFacts KmeansSched RealArith MedianReal NearReal SearchReal KmeansReal HullReal
  RoundReal HullTop HistWeights SpecKmeans KmeansStep KmeansMono KmeansBad KmeansBox SpecPromise HistIn HistTotal FiniteTop LosslessTop FewFacts BoundFacts StepOf.
From Coq Require Import Reals Lra.
Open Scope R_scope.

Section R.
Variable big : R.
Hypothesis Hb : 3 < big.
Local Notation A := (real big).
Local Hint Extern 0 Arith => exact (real big) : typeclass_instances.
Let Hb1 : 1 <= big. Proof. lra. Qed.
Let Hb0 : 0 <= big. Proof. lra. Qed.
Let CL : CastLaws A := real_cast big.
Local Existing Instance CL.

Lemma box_convex : convex big inbox.
Proof.
  intros t x y T (X2 & X3 & X4 & X5) (Y2 & Y3 & Y4 & Y5). unfold inbox, mix in *. cbv zeta in *. cbn [pa pr pg pb].
  repeat split; unfold f32, real in *; nra.
Qed.
(** A finished histogram: its colours, their weights, and what it holds. *)
Lemma finalize_box u h : unspec_ok u -> hist_r h -> (hg_map h <> [] \/ hg_fixed h <> []) ->
  (exists e, In e (hg_map (insert_fixed u h)) /\ (0 < fst (snd e))%Z) ->
  let hi := fst (finalize_builder u h (used_gamma h)) in
  HI1 big inbox hi /\ Permutation (map core2 (hi_items hi)) (@weighed big u h (used_gamma h)) /\ (hi_total hi : R) = sumR (map snd (@weighed big u h (used_gamma h))).
Proof.
  intros U HR NE CNT hi. pose proof (proj1 (@objects_ok A CL) h HR) as W. pose proof (@counts_reachable A CL h HR) as CO.
  assert (GP : 0 < (used_gamma h : R)).
  { apply Rltb_lt. exact (@gamma_used A CL h HR (default_gamma_pos big)). }
  destruct (finalize_weighs big u h (used_gamma h) U W CO) as [PW TW]. fold hi in PW, TW. cbv zeta in PW.
  destruct (insert_fixed_wf u U h W) as (W1 & _). destruct (weighed_positive big u h (used_gamma h) CO CNT) as [WP WN].
  assert (PW2 : Permutation (map core (hi_items hi)) (map (fun x => (fst x, snd x, snd x)) (@weighed big u h (used_gamma h)))).
  { unfold weighed. cbv zeta. rewrite map_map. cbn [fst snd]. exact PW. }
  assert (PC : Permutation (map core2 (hi_items hi)) (@weighed big u h (used_gamma h))).
  { apply (Permutation_map (fun c : px * R * R => (fst (fst c), snd c))) in PW2. rewrite !map_map in PW2. cbn [fst snd core] in PW2.
    rewrite (map_ext (fun x : px * R => (fst x, snd x)) (fun x => x)) in PW2 by (intros []; reflexivity). rewrite map_id in PW2. exact PW2. }
  split; [|split; [exact PC|]].
  - destruct (QuantFacts.finalize_ok u U h (used_gamma h) W NE) as (HO & _). split; [exact HO|]. split.
    + unfold good. eapply Permutation_Forall; [symmetry; exact PW2|]. apply Forall_map. apply Forall_forall. intros x X. rewrite Forall_forall in WP. pose proof (WP x X) as XP.
      unfold goodc. cbn [fst snd]. split; [|split; exact XP]. unfold weighed in X. apply in_map_iff in X as (e & <- & I). cbn [fst]. apply (pixel_inbox big); [exact GP|].
      destruct W1 as (W1 & _). rewrite Forall_forall in W1. apply W1. exact I.
    + eapply Permutation_Forall; [symmetry; apply (finalize_fixed u h (used_gamma h) U)|]. apply Forall_map. apply Forall_forall. intros f F. apply (pixel_inbox big); [exact GP|].
      destruct W as (_ & W2). rewrite Forall_forall in W2. exact (W2 f F).
  - rewrite TW. transitivity (sumR (map snd (map core2 (hi_items hi)))); [rewrite map_map; reflexivity|]. apply sumR_perm, Permutation_map. exact PC.
Qed.
Lemma mean_near (p : palf) (l : list (px * R)) : p <> [] -> mean_distance p l (sumR (map (fun x => snd x * near big p (fst x)) l) / sumR (map snd l)).
Proof.
  intros NE. exists (map (fun x => near big p (fst x)) l). split; [apply map_length|]. split.
  - intros k x d K1 K2. rewrite nth_error_map, K1 in K2. cbn in K2. inversion K2; subst d. apply near_least. exact NE.
  - f_equal. clear. induction l as [|x l IH]; cbn [map combine sumR]; [reflexivity|]. rewrite IH. reflexivity.
Qed.
(** A plain step, seen from the histogram. *)
Lemma plain_step th (hi : hint) (l : list (px * R)) p0 e hi' p : (forall n, covers n (th n)) -> HI1 big inbox hi -> pal_in big inbox p0 -> p0 <> [] ->
  Permutation (map core2 (hi_items hi)) l -> (hi_total hi : R) = sumR (map snd l) -> iteration_with th hi p0 false = Ok (e, hi', p) ->
  Permutation (map core2 (hi_items hi')) l /\ mean_distance p0 l e /\ length p = length p0 /\
  (forall it, In it (hi_items hi') -> exists x, nth_error p0 (h_likely it) = Some x /\ least p0 (h_color it) (diff (h_color it) (fst x))) /\
  (forall j x, nth_error p0 j = Some x -> exists x', nth_error p j = Some x' /\ entry_step (members j (hi_items hi')) (hi_items hi') x x').
Proof.
  intros CV ((CF & LI0) & G & FX) HP NE PM TT E.
  assert (NI : hi_items hi <> []) by (intros Z; rewrite Z in LI0; cbn in LI0; lia).
  assert (GA : Forall (fun it => goodc big inbox (core it)) (hi_items hi)) by (apply (good_all big inbox); exact G).
  assert (W : Forall (within p0) (hi_items hi)).
  { apply (box_within big); [exact Hb|exact NE|exact HP|]. eapply Forall_impl; [|exact GA]. intros it (X & _). exact X. }
  destruct (step big Hb1 th hi p0 false e hi' p CV NI W E) as (ds & LD & LI & LP & AS & EE & EN & _).
  assert (CS : map core2 (hi_items hi') = map core2 (hi_items hi)).
  { clear - AS LD LI. revert AS LD LI. generalize (hi_items hi) (hi_items hi'). intros m m' AS LD LI.
    revert m' ds AS LD LI. induction m as [|x m IH]; intros [|x' m'] [|d ds] AS LD LI; try discriminate; [reflexivity|]. cbn [map].
    destruct (AS 0%nat x x' d eq_refl eq_refl eq_refl) as (A1 & A2 & _). unfold core2 at 1 3. rewrite A1, A2. f_equal.
    apply (IH m' ds); [|cbn in LD; lia|cbn in LI; lia]. intros k. exact (AS (S k)). }
  split; [rewrite CS; exact PM|]. split; [|split; [exact LP|split; [|exact EN]]].
  - assert (EC : sumR (map (fun x => snd x * h_perc (fst x)) (combine (hi_items hi) ds)) = sumR (map (fun x => snd x * near big p0 (fst x)) l)).
    { rewrite <- (sumR_perm _ _ (Permutation_map _ PM)). rewrite map_map. cbn [fst snd core2].
      assert (GET : forall k it d, nth_error (hi_items hi) k = Some it -> nth_error ds k = Some d -> d = near big p0 (h_color it)).
      { intros k it d K1 K2. assert (B : (k < length (hi_items hi))%nat) by (apply nth_error_Some; congruence).
        destruct (nth_ex (hi_items hi') k _ LI B) as (it' & K3). destruct (AS k it it' d K1 K3 K2) as (_ & _ & q & w & _ & LE & -> & _).
        eapply least_one; [exact LE|]. apply near_least. exact NE. }
      clear - GET LD. revert GET LD. generalize (hi_items hi). intros m. revert ds. induction m as [|it m IH]; intros [|d ds] GET L; try discriminate; [reflexivity|].
      cbn [combine map sumR]. rewrite (IH ds) by (try (cbn in L; lia); intros k; exact (GET (S k))). f_equal. cbn [fst snd].
      rewrite (GET 0%nat it d eq_refl eq_refl). apply Rmult_comm. }
    rewrite EC, TT in EE. rewrite EE. apply mean_near. exact NE.
  - intros it' I. apply In_nth_error in I as (k & K1). assert (B : (k < length (hi_items hi))%nat) by (rewrite <- LI; apply nth_error_Some; congruence).
    destruct (nth_ex (hi_items hi) k _ eq_refl B) as (it & K2). destruct (nth_ex ds k _ LD B) as (d & K3).
    destruct (AS k it it' d K2 K1 K3) as (A1 & _ & q & w & N & LE & _). exists (q, w). split; [exact N|]. rewrite A1. exact LE.
Qed.
Lemma internal_step u cb a h freeze w q s' e : unspec_ok u -> usable a -> hist_r h ->
  (exists x, In x (hg_map (insert_fixed u h)) /\ (0 < fst (snd x))%Z) ->
  ((length (hg_map (insert_fixed u h)) <= a_max_colors a)%nat -> (a_target_mse a : R) <> 0) ->
  (7 <= get_speed a)%Z \/ (forall t x, cb t x = false) ->
  quantize_internal u cb a freeze (h, w) = (Ok q, s') -> q_err q = Some e ->
  exists p0 p items, (1 <= length p0 <= a_max_colors a)%nat /\ length p = length p0 /\
    Permutation (map (fun it => (h_color it, h_perc it)) items) (weighed u h (q_gamma q)) /\ mean_distance p0 (weighed u h (q_gamma q)) e /\
    (forall it, In it items -> exists x, nth_error p0 (h_likely it) = Some x /\ least p0 (h_color it) (diff (h_color it) (fst x))) /\
    (forall j x, nth_error p0 j = Some x -> exists x', nth_error p j = Some x' /\ entry_step (members j items) items x x') /\
    Permutation (if freeze then map (fun x => (fst x, pop_to_fixed (snd x))) p else p) (q_pal q).
Proof.
  intros U Ua HR CNT D CA E QE. pose proof (proj1 (@objects_ok A CL) h HR) as W. pose proof (usable_ok a Ua) as [O1 _ _ _].
  assert (M : (1 <= a_max_colors a <= 256)%nat) by lia.
  assert (NE : hg_map h <> [] \/ hg_fixed h <> []).
  { unfold quantize_internal in E. destruct (hg_map h); [|left; congruence]. destruct (hg_fixed h); [discriminate|right; congruence]. }
  destruct (finalize_box u h U HR NE CNT) as (HB & PB & TB).
  assert (D' : (length (hg_map (insert_fixed u h)) <= a_max_colors a)%nat -> (@deq A (a_target_mse a) (@d0 A)) = false).
  { intros L. change (Reqb (a_target_mse a) 0 = false). destruct (Reqb (a_target_mse a) 0) eqn:Z; auto. rbool. elim (D L). exact Z. }
  destruct (internal_made_in (HI1 big inbox) (pal_in big inbox) u cb a h freeze w q s' e U Ua W E QE D'
    (cut1 big inbox box_convex u U a M) (iter1 big ltac:(lra) inbox box_convex) HB) as (QG & adj & p & (th & hi & p0 & hi' & C1 & (C2 & C2') & (C3 & C3') & C4) & C5 & C6).
  rewrite (C6 CA) in C4. clear C6.
  assert (QG2 : q_gamma q = used_gamma h) by exact QG. clear QG. rewrite QG2 in *. clear QG2.
  assert (NP : p0 <> []) by (intros Z; rewrite Z in C3; cbn in C3; lia).
  assert (PM : Permutation (map core2 (hi_items hi)) (@weighed big u h (used_gamma h))) by (destruct C2 as (C2 & _); rewrite <- C2; exact PB).
  assert (TT : (hi_total hi : R) = sumR (map snd (@weighed big u h (used_gamma h)))) by (destruct C2 as (_ & C2 & _); rewrite C2; exact TB).
  destruct (plain_step th hi _ p0 e hi' p C1 C2' C3' NP PM TT C4) as (S1 & S2 & S3 & S4 & S5).
  exists p0, p, (hi_items hi'). split; [exact C3|]. split; [exact S3|]. split; [exact S1|]. split; [exact S2|]. split; [exact S4|]. split; [exact S5|exact C5].
Qed.
Lemma hist_step u cb a h w q s' e : unspec_ok u -> usable a -> hist_r h ->
  (exists x, In x (hg_map (insert_fixed u h)) /\ (0 < fst (snd x))%Z) ->
  ((length (hg_map (insert_fixed u h)) <= a_max_colors a)%nat -> (a_target_mse a : R) <> 0) ->
  (7 <= get_speed a)%Z \/ (forall t x, cb t x = false) ->
  hist_quantize u cb a (h, w) = (Ok q, s') -> q_err q = Some e ->
  exists p0 p items, (1 <= length p0 <= a_max_colors a)%nat /\ length p = length p0 /\
    Permutation (map (fun it => (h_color it, h_perc it)) items) (weighed u h (q_gamma q)) /\ mean_distance p0 (weighed u h (q_gamma q)) e /\
    (forall it, In it items -> exists x, nth_error p0 (h_likely it) = Some x /\ least p0 (h_color it) (diff (h_color it) (fst x))) /\
    (forall j x, nth_error p0 j = Some x -> exists x', nth_error p j = Some x' /\ entry_step (members j items) items x x') /\
    Permutation (map fst p) (map fst (q_pal q)).
Proof.
  intros U Ua HR CNT D CA E QE. destruct (internal_step u cb a h true w q s' e U Ua HR CNT D CA E QE) as (p0 & p & items & S1 & S2 & S3 & S4 & S5 & S6 & S7).
  exists p0, p, items. split; [exact S1|]. split; [exact S2|]. split; [exact S3|]. split; [exact S4|]. split; [exact S5|]. split; [exact S6|].
  apply (Permutation_map fst) in S7. rewrite map_map in S7. exact S7.
Qed.
Lemma image_step u cb a i pxs w h i1 w1 q s' e : unspec_ok u -> usable a -> image_r i pxs -> add_image u cb a (hist_new a, i, w) = (Ok tt, (h, i1, w1)) ->
  (exists x, In x (hg_map (insert_fixed u h)) /\ (0 < fst (snd x))%Z) ->
  ((length (hg_map (insert_fixed u h)) <= a_max_colors a)%nat -> (a_target_mse a : R) <> 0) ->
  (7 <= get_speed a)%Z \/ (forall t x, cb t x = false) ->
  quantize u cb a (i, w) = (Ok q, s') -> q_err q = Some e ->
  exists p0 p items, (1 <= length p0 <= a_max_colors a)%nat /\ length p = length p0 /\
    Permutation (map (fun it => (h_color it, h_perc it)) items) (weighed u h (q_gamma q)) /\ mean_distance p0 (weighed u h (q_gamma q)) e /\
    (forall it, In it items -> exists x, nth_error p0 (h_likely it) = Some x /\ least p0 (h_color it) (diff (h_color it) (fst x))) /\
    (forall j x, nth_error p0 j = Some x -> exists x', nth_error p j = Some x' /\ entry_step (members j items) items x x') /\
    Permutation p (q_pal q).
Proof.
  intros U Ua I AI CNT D CA E QE. unfold quantize in E. pose proof AI as AI0. rewrite AI in E. destruct (quantize_internal u cb a false (h, w1)) as [r [h2 w2]] eqn:QI. inversion E; subst r.
  eapply (internal_step u cb a h false); eauto. apply (hr_image u cb a (hist_new a) i pxs w (Ok tt) h i1 w1); auto. constructor. exact Ua.
Qed.
End R.
