(** C61 at the fastest speeds with a quality set, in exact arithmetic: one
    k-means step follows median cut. *)
From Verif Require Import Base BaseFacts Arith Order Pal World Attr Hist Nearest MedianCut Kmeans ImageM Quant Api AttrFacts ApiFacts ResultFacts SpecAttr SpecHist FewFacts RealArith MedianReal
  SpecKmeans SpecPromise SpecCut CutReal FastStep FastEarly PropFast.
From Coq Require Import Reals Lra Permutation.
Open Scope R_scope.

(** C61.  At speed 8 and above with a quality set (and unless there are few
    colours and the target is quality 100): median cut aims at the error [t] of
    the target quality, at least that of the posterization and at most what the
    minimum quality allows; the error reported is the mean distance to the
    colours that stand for its boxes, and the palette is one k-means step from
    them (see C59). *)
Theorem C61_quality_histogram : forall big, 3 < big -> let A := real big in
  forall (u : unspec) cb a l (h : hist) w q s', unspec_ok u -> usable a -> (8 <= get_speed a)%Z -> a_max_mse a = Some l -> (forall t x, cb t x = false) ->
  hist_r h -> hg_fixed h = [] -> (exists e, In e (hg_map h) /\ (0 < fst (snd e))%Z) -> ((length (hg_map h) <= a_max_colors a)%nat -> (a_target_mse a : R) <> 0) ->
  hist_quantize u cb a (h, w) = (Ok q, s') ->
  let hi := fst (finalize_builder u h (used_gamma h)) in
  let t := Rmin (Rmax (a_target_mse a) ((IZR (2 ^ get_min_posterization a) / 1024) ^ 2)) (l * allowance (length (hg_map h))) in
  exists bs bs' p items e, starts (hi_clusters hi) (a_max_colors a) (map (fun it => (h_color it, h_adj it : R, h_perc it : R)) (hi_items hi)) bs /\
    cut (a_max_colors a) (12 / 10 * Rmax t (quality_to_mse 1)) (t * hi_total hi) bs bs' /\
    let p0 := map (fun b => (snd b, sumR (map wc_pix (fst b)))) bs' in
    q_err q = Some e /\ mean_distance p0 (weighed u h (used_gamma h)) e /\
    Permutation (map (fun it => (h_color it, h_perc it)) items) (weighed u h (used_gamma h)) /\ length p = length p0 /\
    (forall it, In it items -> exists x, nth_error p0 (h_likely it) = Some x /\ least p0 (h_color it) (diff (h_color it) (fst x))) /\
    (forall j x, nth_error p0 j = Some x -> exists x', nth_error p j = Some x' /\ entry_step (members j items) items x x') /\
    Permutation (map (fun x => (fst x, pop_to_fixed (snd x))) p) (q_pal q).
Proof. exact (fun big B u cb a l h w q s' U => step_internal big B u U cb a l h true w q s'). Qed.
Print Assumptions C61_quality_histogram.
Theorem C61_quality_image : forall big, 3 < big -> let A := real big in
  forall (u : unspec) cb a l i pxs w (h : hist) i1 w1 q i' w', unspec_ok u -> usable a -> (8 <= get_speed a)%Z -> a_max_mse a = Some l -> (forall t x, cb t x = false) ->
  image_r i pxs -> i_fixed i = [] -> add_image u cb a (hist_new a, i, w) = (Ok tt, (h, i1, w1)) ->
  (exists e, In e (hg_map h) /\ (0 < fst (snd e))%Z) -> ((length (hg_map h) <= a_max_colors a)%nat -> (a_target_mse a : R) <> 0) ->
  quantize u cb a (i, w) = (Ok q, (i', w')) ->
  let hi := fst (finalize_builder u h (used_gamma h)) in
  let t := Rmin (Rmax (a_target_mse a) ((IZR (2 ^ get_min_posterization a) / 1024) ^ 2)) (l * allowance (length (hg_map h))) in
  exists bs bs' p items e, starts (hi_clusters hi) (a_max_colors a) (map (fun it => (h_color it, h_adj it : R, h_perc it : R)) (hi_items hi)) bs /\
    cut (a_max_colors a) (12 / 10 * Rmax t (quality_to_mse 1)) (t * hi_total hi) bs bs' /\
    let p0 := map (fun b => (snd b, sumR (map wc_pix (fst b)))) bs' in
    q_err q = Some e /\ mean_distance p0 (weighed u h (used_gamma h)) e /\
    Permutation (map (fun it => (h_color it, h_perc it)) items) (weighed u h (used_gamma h)) /\ length p = length p0 /\
    (forall it, In it items -> exists x, nth_error p0 (h_likely it) = Some x /\ least p0 (h_color it) (diff (h_color it) (fst x))) /\
    (forall j x, nth_error p0 j = Some x -> exists x', nth_error p j = Some x' /\ entry_step (members j items) items x x') /\
    Permutation p (q_pal q).
Proof. exact (fun big B u cb a l i pxs w h i1 w1 q i' w' U => step_image big B u U cb a l i pxs w h i1 w1 q i' w'). Qed.
Print Assumptions C61_quality_image.

(** C61.  At these speeds a palette of fewer colours than allowed meets the
    target: without a quality set the mean distance to the palette is at most the
    square of the posterization step, and with one set the error reported is at
    most the [t] above. *)
Theorem C61_fast_early : forall big, let A := real big in
  forall (u : unspec) cb a (h : hist) w q s', unspec_ok u -> usable a -> (8 <= get_speed a)%Z -> a_max_mse a = None -> hist_r h -> hg_fixed h = [] ->
  (exists e, In e (hg_map h) /\ (0 < fst (snd e))%Z) -> (a_max_colors a < length (hg_map h))%nat ->
  hist_quantize u cb a (h, w) = (Ok q, s') -> (length (q_pal q) < a_max_colors a)%nat ->
  exists d, @mean_distance big (q_pal q) (@weighed big u h (used_gamma h)) d /\ d <= (IZR (2 ^ get_min_posterization a) / 1024) ^ 2.
Proof. exact (fun big u cb a h w q s' U => fast_early big u U cb a h true w q s'). Qed.
Print Assumptions C61_fast_early.
Theorem C61_fast_early_image : forall big, let A := real big in
  forall (u : unspec) cb a i pxs w (h : hist) i1 w1 q i' w', unspec_ok u -> usable a -> (8 <= get_speed a)%Z -> a_max_mse a = None -> image_r i pxs -> i_fixed i = [] ->
  add_image u cb a (hist_new a, i, w) = (Ok tt, (h, i1, w1)) ->
  (exists e, In e (hg_map h) /\ (0 < fst (snd e))%Z) -> (a_max_colors a < length (hg_map h))%nat ->
  quantize u cb a (i, w) = (Ok q, (i', w')) -> (length (q_pal q) < a_max_colors a)%nat ->
  exists d, @mean_distance big (q_pal q) (@weighed big u h (used_gamma h)) d /\ d <= (IZR (2 ^ get_min_posterization a) / 1024) ^ 2.
Proof. exact (fun big u cb a i pxs w h i1 w1 q i' w' U => fast_early_image big u U cb a i pxs w h i1 w1 q i' w'). Qed.
Print Assumptions C61_fast_early_image.
Theorem C61_quality_early : forall big, 3 < big -> let A := real big in
  forall (u : unspec) cb a l (h : hist) w q s', unspec_ok u -> usable a -> (8 <= get_speed a)%Z -> a_max_mse a = Some l -> (forall t x, cb t x = false) ->
  hist_r h -> hg_fixed h = [] -> (exists e, In e (hg_map h) /\ (0 < fst (snd e))%Z) -> ((length (hg_map h) <= a_max_colors a)%nat -> (a_target_mse a : R) <> 0) ->
  hist_quantize u cb a (h, w) = (Ok q, s') -> (length (q_pal q) < a_max_colors a)%nat ->
  exists e, q_err q = Some e /\ e <= Rmin (Rmax (a_target_mse a) ((IZR (2 ^ get_min_posterization a) / 1024) ^ 2)) (l * allowance (length (hg_map h))).
Proof. exact (fun big B u cb a l h w q s' U => step_early big u U B cb a l h true w q s'). Qed.
Print Assumptions C61_quality_early.
Theorem C61_quality_early_image : forall big, 3 < big -> let A := real big in
  forall (u : unspec) cb a l i pxs w (h : hist) i1 w1 q i' w', unspec_ok u -> usable a -> (8 <= get_speed a)%Z -> a_max_mse a = Some l -> (forall t x, cb t x = false) ->
  image_r i pxs -> i_fixed i = [] -> add_image u cb a (hist_new a, i, w) = (Ok tt, (h, i1, w1)) ->
  (exists e, In e (hg_map h) /\ (0 < fst (snd e))%Z) -> ((length (hg_map h) <= a_max_colors a)%nat -> (a_target_mse a : R) <> 0) ->
  quantize u cb a (i, w) = (Ok q, (i', w')) -> (length (q_pal q) < a_max_colors a)%nat ->
  exists e, q_err q = Some e /\ e <= Rmin (Rmax (a_target_mse a) ((IZR (2 ^ get_min_posterization a) / 1024) ^ 2)) (l * allowance (length (hg_map h))).
Proof. exact (fun big B u cb a l i pxs w h i1 w1 q i' w' U => step_early_image big u U B cb a l i pxs w h i1 w1 q i' w'). Qed.
Print Assumptions C61_quality_early_image.

(** The three greys of [C61_fast_example] with qualities from 0 to 90: if a
    palette is returned, it has at most two colours and reports an error.
    [C59_example] runs such a case. *)
Definition swift90 : @attrs (real 4) := match @set_quality (real 4) swift 0 90 with Ok a => a | _ => swift end.
Lemma swift90_usable : @usable (real 4) swift90.
Proof. eapply us_call with (c := CallQuality 0 90); [exact swift_usable|cbn; lia|reflexivity]. Qed.
Example C61_quality_example : forall (u : unspec) w q s', unspec_ok u -> @hist_quantize (real 4) u (fun _ _ => false) swift90 (hist3, w) = (Ok q, s') ->
  (length (q_pal q) <= 2)%nat /\ exists p0 e, q_err q = Some e /\ length (q_pal q) = length p0 /\ @mean_distance 4 p0 (weighed u hist3 (used_gamma hist3)) e.
Proof.
  intros u w q s' U E.
  assert (CN : exists e, In e (hg_map hist3) /\ (0 < fst (snd e))%Z) by (eexists; split; [left; reflexivity|vm_compute; reflexivity]).
  assert (LN : (length (hg_map hist3) <= a_max_colors swift90)%nat -> (a_target_mse swift90 : R) <> 0) by (intros L; vm_compute in L; lia).
  destruct (C61_quality_histogram 4 ltac:(lra) u (fun _ _ => false) swift90 (quality_to_mse 0) hist3 w q s' U swift90_usable ltac:(vm_compute; discriminate) eq_refl (fun _ _ => eq_refl) hist3_r eq_refl CN LN E)
    as (bs & bs' & p & items & e & S & C & QE & MD & _ & LP & _ & _ & PP). cbv zeta in LP.
  assert (LE : length (q_pal q) = length p) by (rewrite <- (Permutation_length PP); apply map_length).
  split; [|do 2 eexists; split; [exact QE|]; split; [rewrite LE; exact LP|exact MD]].
  destruct (@palette_len_bounds (real 4) (real_cast 4) _ _ (rr_hist u (fun _ _ => false) swift90 hist3 w q s' U swift90_usable hist3_r E)) as ((_ & L) & _). exact L.
Qed.
(** And it has both colours unless its error is within the target. *)
Example C61_quality_early_example : forall (u : unspec) w q s', unspec_ok u -> @hist_quantize (real 4) u (fun _ _ => false) swift90 (hist3, w) = (Ok q, s') ->
  length (q_pal q) = 2%nat \/ exists e, q_err q = Some e /\ e <= Rmax (a_target_mse swift90) ((1 / 1024) ^ 2).
Proof.
  intros u w q s' U E.
  assert (CN : exists e, In e (hg_map hist3) /\ (0 < fst (snd e))%Z) by (eexists; split; [left; reflexivity|vm_compute; reflexivity]).
  assert (LN : (length (hg_map hist3) <= a_max_colors swift90)%nat -> (a_target_mse swift90 : R) <> 0) by (intros L; vm_compute in L; lia).
  destruct (@palette_len_bounds (real 4) (real_cast 4) _ _ (rr_hist u (fun _ _ => false) swift90 hist3 w q s' U swift90_usable hist3_r E)) as ((_ & L) & _).
  change (length (q_pal q) <= 2)%nat in L. destruct (Nat.eq_dec (length (q_pal q)) 2) as [->|N]; [auto|right].
  destruct (C61_quality_early 4 ltac:(lra) u (fun _ _ => false) swift90 (quality_to_mse 0) hist3 w q s' U swift90_usable ltac:(vm_compute; discriminate) eq_refl (fun _ _ => eq_refl) hist3_r eq_refl CN LN E) as (e & QE & B);
    [change (length (q_pal q) < 2)%nat; lia|].
  exists e. split; [exact QE|]. eapply Rle_trans; [exact B|]. eapply Rle_trans; [apply Rmin_l|]. apply Rle_refl.
Qed.
(** Without a quality set: both colours, or a mean distance of 2^-20 at most. *)
Example C61_fast_early_example : forall (u : unspec) w q s', unspec_ok u -> @hist_quantize (real 4) u (fun _ _ => false) swift (hist3, w) = (Ok q, s') ->
  length (q_pal q) = 2%nat \/ exists d, @mean_distance 4 (q_pal q) (weighed u hist3 (used_gamma hist3)) d /\ d <= (1 / 1024) ^ 2.
Proof.
  intros u w q s' U E.
  assert (CN : exists e, In e (hg_map hist3) /\ (0 < fst (snd e))%Z) by (eexists; split; [left; reflexivity|vm_compute; reflexivity]).
  assert (LN : (a_max_colors swift < length (hg_map hist3))%nat) by (vm_compute; lia).
  destruct (@palette_len_bounds (real 4) (real_cast 4) _ _ (rr_hist u (fun _ _ => false) swift hist3 w q s' U swift_usable hist3_r E)) as ((_ & L) & _).
  change (length (q_pal q) <= 2)%nat in L. destruct (Nat.eq_dec (length (q_pal q)) 2) as [->|N]; [auto|right].
  exact (C61_fast_early 4 u (fun _ _ => false) swift hist3 w q s' U swift_usable ltac:(vm_compute; discriminate) eq_refl hist3_r eq_refl CN LN E ltac:(change (length (q_pal q) < 2)%nat; lia)).
Qed.
