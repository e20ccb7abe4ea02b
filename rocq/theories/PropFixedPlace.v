(** C62: where fixed colours go in the palette, in exact arithmetic. *)
From Verif Require Import Base BaseFacts Arith Order Pal World Attr Hist Nearest MedianCut Kmeans ImageM Quant Api AttrFacts SearchFacts FewFacts ApiFacts ImageFacts HistTotal SpecAttr SpecHist
  RealArith MedianReal NearReal SpecKmeans SpecPromise SpecCut SpecFixed FixedNear FixedFast.
From Coq Require Import Reals Lra Permutation.
Open Scope R_scope.

(** C62.  Of the fixed colours at most [m] are used, in order; each takes the
    place of the nearest entry that no fixed colour took before.  If they are more
    than the entries, entries are added for them first. *)
Theorem C62_with_fixed : forall big, let A := real big in
  forall (p : palf) m fixed p', (length p <= m)%nat -> with_fixed_colors p m fixed = Ok p' ->
  @placing big (firstn m fixed) (p ++ map (fun c => (c, 0)) (firstn (Nat.min (length fixed) m - length p) fixed)) p'.
Proof. exact with_fixed_near. Qed.
Print Assumptions C62_with_fixed.

(** C62.  At speed 8 and above without a quality set, when there are more colours
    than asked for and not all those counted are fixed: the palette is what one
    median cut gives (see C61), with the fixed colours put in this way, in some
    order [fs]. *)
Theorem C62_fast_histogram : forall big, let A := real big in
  forall (u : unspec) cb a (h : hist) w q s', unspec_ok u -> usable a -> (8 <= get_speed a)%Z -> a_max_mse a = None -> hist_r h ->
  (exists e, In e (hg_map (insert_fixed u h)) /\ (0 < fst (snd e))%Z) -> (a_max_colors a < length (hg_map (insert_fixed u h)))%nat ->
  hist_quantize u cb a (h, w) = (Ok q, s') ->
  let hi := fst (finalize_builder u h (used_gamma h)) in
  q_err q = None /\ exists bs bs',
    starts (hi_clusters hi) (a_max_colors a) (map (fun it => (h_color it, h_adj it : R, h_perc it : R)) (hi_items hi)) bs /\
    cut (a_max_colors a) (12 / 10 * quality_to_mse 1) ((IZR (2 ^ get_min_posterization a) / 1024) ^ 2 * hi_total hi) bs bs' /\
    let p := map (fun b => (snd b, sumR (map wc_pix (fst b)))) bs' in
    exists fs p', Permutation fs (map (fun f => from_rgba (gamma_lut (used_gamma h)) (fst f)) (hg_fixed h)) /\
      @placing big (firstn (a_max_colors a) fs) (p ++ map (fun c => (c, 0)) (firstn (Nat.min (length fs) (a_max_colors a) - length p) fs)) p' /\
      Permutation (map fst p') (map fst (q_pal q)).
Proof. exact (fun big u cb a h w q s' U => fixed_fast big u U cb a h true w q s'). Qed.
Print Assumptions C62_fast_histogram.

(** C62.  When there are no more colours than asked for and the target is quality
    100, the fixed colours are put in this way among all of the colours. *)
Theorem C62_few_histogram : forall big, let A := real big in
  forall (u : unspec) cb a (h : hist) w q s', unspec_ok u -> usable a -> hist_r h -> (a_target_mse a : R) = 0 ->
  (length (hg_map (insert_fixed u h)) <= a_max_colors a)%nat -> hist_quantize u cb a (h, w) = (Ok q, s') ->
  exists p, Permutation (map fst p) (map (fun e => from_rgba (gamma_lut (used_gamma h)) (snd (snd e))) (hg_map (insert_fixed u h))) /\
    exists fs p', Permutation fs (map (fun f => from_rgba (gamma_lut (used_gamma h)) (fst f)) (hg_fixed h)) /\
      @placing big (firstn (a_max_colors a) fs) (p ++ map (fun c => (c, 0)) (firstn (Nat.min (length fs) (a_max_colors a) - length p) fs)) p' /\
      Permutation (map fst p') (map fst (q_pal q)).
Proof. exact (fun big u cb a h w q s' U => fixed_few big u U cb a h true w q s'). Qed.
Print Assumptions C62_few_histogram.

(** The same for images. *)
Theorem C62_fast_image : forall big, let A := real big in
  forall (u : unspec) cb a i pxs w (h : hist) i1 w1 q i' w', unspec_ok u -> usable a -> (8 <= get_speed a)%Z -> a_max_mse a = None -> image_r i pxs ->
  add_image u cb a (hist_new a, i, w) = (Ok tt, (h, i1, w1)) ->
  (exists e, In e (hg_map (insert_fixed u h)) /\ (0 < fst (snd e))%Z) -> (a_max_colors a < length (hg_map (insert_fixed u h)))%nat ->
  quantize u cb a (i, w) = (Ok q, (i', w')) ->
  let hi := fst (finalize_builder u h (used_gamma h)) in
  q_err q = None /\ exists bs bs',
    starts (hi_clusters hi) (a_max_colors a) (map (fun it => (h_color it, h_adj it : R, h_perc it : R)) (hi_items hi)) bs /\
    cut (a_max_colors a) (12 / 10 * quality_to_mse 1) ((IZR (2 ^ get_min_posterization a) / 1024) ^ 2 * hi_total hi) bs bs' /\
    let p := map (fun b => (snd b, sumR (map wc_pix (fst b)))) bs' in
    exists fs p', Permutation fs (map (fun f => from_rgba (gamma_lut (used_gamma h)) (fst f)) (hg_fixed h)) /\
      @placing big (firstn (a_max_colors a) fs) (p ++ map (fun c => (c, 0)) (firstn (Nat.min (length fs) (a_max_colors a) - length p) fs)) p' /\
      Permutation (map fst p') (map fst (q_pal q)).
Proof. exact (fun big u cb a i pxs w h i1 w1 q i' w' U => fixed_fast_image big u U cb a i pxs w h i1 w1 q i' w'). Qed.
Print Assumptions C62_fast_image.
Theorem C62_few_image : forall big, let A := real big in
  forall (u : unspec) cb a i pxs w (h : hist) i1 w1 q i' w', unspec_ok u -> usable a -> image_r i pxs -> (a_target_mse a : R) = 0 ->
  add_image u cb a (hist_new a, i, w) = (Ok tt, (h, i1, w1)) ->
  (length (hg_map (insert_fixed u h)) <= a_max_colors a)%nat -> quantize u cb a (i, w) = (Ok q, (i', w')) ->
  exists p, Permutation (map fst p) (map (fun e => from_rgba (gamma_lut (used_gamma h)) (snd (snd e))) (hg_map (insert_fixed u h))) /\
    exists fs p', Permutation fs (map (fun f => from_rgba (gamma_lut (used_gamma h)) (fst f)) (hg_fixed h)) /\
      @placing big (firstn (a_max_colors a) fs) (p ++ map (fun c => (c, 0)) (firstn (Nat.min (length fs) (a_max_colors a) - length p) fs)) p' /\
      Permutation (map fst p') (map fst (q_pal q)).
Proof. exact (fun big u cb a i pxs w h i1 w1 q i' w' U => fixed_few_image big u U cb a i pxs w h i1 w1 q i' w'). Qed.
Print Assumptions C62_few_image.

(** C62.  With a quality set, at the same speeds: the fixed colours are put in the
    median cut, the error reported is that of the palette with them, and one
    k-means step follows, which leaves them alone (their weights are negative, see
    C59 and C61). *)
Theorem C62_quality_histogram : forall big, 3 < big -> let A := real big in
  forall (u : unspec) cb a l (h : hist) w q s', unspec_ok u -> usable a -> (8 <= get_speed a)%Z -> a_max_mse a = Some l -> (forall t x, cb t x = false) -> hist_r h ->
  (exists e, In e (hg_map (insert_fixed u h)) /\ (0 < fst (snd e))%Z) -> ((length (hg_map (insert_fixed u h)) <= a_max_colors a)%nat -> (a_target_mse a : R) <> 0) ->
  hist_quantize u cb a (h, w) = (Ok q, s') ->
  let hi := fst (finalize_builder u h (used_gamma h)) in
  let t := Rmin (Rmax (a_target_mse a) ((IZR (2 ^ get_min_posterization a) / 1024) ^ 2)) (l * allowance (length (hg_map (insert_fixed u h)))) in
  exists bs bs' p items e, starts (hi_clusters hi) (a_max_colors a) (map (fun it => (h_color it, h_adj it : R, h_perc it : R)) (hi_items hi)) bs /\
    cut (a_max_colors a) (12 / 10 * Rmax t (quality_to_mse 1)) (t * hi_total hi) bs bs' /\
    let p00 := map (fun b => (snd b, sumR (map wc_pix (fst b)))) bs' in
    exists fs p0, Permutation fs (map (fun f => from_rgba (gamma_lut (used_gamma h)) (fst f)) (hg_fixed h)) /\
    @placing big (firstn (a_max_colors a) fs) (p00 ++ map (fun c => (c, 0)) (firstn (Nat.min (length fs) (a_max_colors a) - length p00) fs)) p0 /\
    q_err q = Some e /\ mean_distance p0 (weighed u h (used_gamma h)) e /\
    Permutation (map (fun it => (h_color it, h_perc it)) items) (weighed u h (used_gamma h)) /\ length p = length p0 /\
    (forall it, In it items -> exists x, nth_error p0 (h_likely it) = Some x /\ least p0 (h_color it) (diff (h_color it) (fst x))) /\
    (forall j x, nth_error p0 j = Some x -> exists x', nth_error p j = Some x' /\ entry_step (members j items) items x x') /\
    Permutation (map (fun x => (fst x, pop_to_fixed (snd x))) p) (q_pal q).
Proof. exact (fun big B u cb a l h w q s' U => fixed_step big u U B cb a l h true w q s'). Qed.
Print Assumptions C62_quality_histogram.
Theorem C62_quality_image : forall big, 3 < big -> let A := real big in
  forall (u : unspec) cb a l i pxs w (h : hist) i1 w1 q i' w', unspec_ok u -> usable a -> (8 <= get_speed a)%Z -> a_max_mse a = Some l -> (forall t x, cb t x = false) -> image_r i pxs -> add_image u cb a (hist_new a, i, w) = (Ok tt, (h, i1, w1)) ->
  (exists e, In e (hg_map (insert_fixed u h)) /\ (0 < fst (snd e))%Z) -> ((length (hg_map (insert_fixed u h)) <= a_max_colors a)%nat -> (a_target_mse a : R) <> 0) ->
  quantize u cb a (i, w) = (Ok q, (i', w')) ->
  let hi := fst (finalize_builder u h (used_gamma h)) in
  let t := Rmin (Rmax (a_target_mse a) ((IZR (2 ^ get_min_posterization a) / 1024) ^ 2)) (l * allowance (length (hg_map (insert_fixed u h)))) in
  exists bs bs' p items e, starts (hi_clusters hi) (a_max_colors a) (map (fun it => (h_color it, h_adj it : R, h_perc it : R)) (hi_items hi)) bs /\
    cut (a_max_colors a) (12 / 10 * Rmax t (quality_to_mse 1)) (t * hi_total hi) bs bs' /\
    let p00 := map (fun b => (snd b, sumR (map wc_pix (fst b)))) bs' in
    exists fs p0, Permutation fs (map (fun f => from_rgba (gamma_lut (used_gamma h)) (fst f)) (hg_fixed h)) /\
    @placing big (firstn (a_max_colors a) fs) (p00 ++ map (fun c => (c, 0)) (firstn (Nat.min (length fs) (a_max_colors a) - length p00) fs)) p0 /\
    q_err q = Some e /\ mean_distance p0 (weighed u h (used_gamma h)) e /\
    Permutation (map (fun it => (h_color it, h_perc it)) items) (weighed u h (used_gamma h)) /\ length p = length p0 /\
    (forall it, In it items -> exists x, nth_error p0 (h_likely it) = Some x /\ least p0 (h_color it) (diff (h_color it) (fst x))) /\
    (forall j x, nth_error p0 j = Some x -> exists x', nth_error p j = Some x' /\ entry_step (members j items) items x x') /\
    Permutation p (q_pal q).
Proof. exact (fun big B u cb a l i pxs w h i1 w1 q i' w' U => fixed_step_image big u U B cb a l i pxs w h i1 w1 q i' w'). Qed.
Print Assumptions C62_quality_image.

(** A light red goes where the white was, not where the black was, and takes its
    weight. *)
Definition opaque (r g b : R) : @px (real 4) := @Px (real 4) 1 r g b.
Example C62_example : with_fixed_colors (A := real 4) [(opaque 0 0 0, 3 : R); (opaque 1 1 1, 2 : R)] 2 [opaque 1 (3 / 4) (3 / 4)] =
  Ok [(opaque 1 (3 / 4) (3 / 4), - (2) : R); (opaque 0 0 0, 3 : R)].
Proof.
  destruct (with_fixed_colors_ok (A := real 4) [(opaque 0 0 0, 3 : R); (opaque 1 1 1, 2 : R)] 2 [opaque 1 (3 / 4) (3 / 4)] ltac:(cbn; lia) ltac:(lia)) as (p & E & _).
  rewrite E. apply C62_with_fixed in E; [|cbn; lia]. cbn [firstn length Nat.min Nat.sub map app] in E.
  inversion E as [|f fs c w p1 rest p2 P N PL]; subst. inversion PL as [q q' R'|]; subst.
  assert (I : In (c, w) [(opaque 0 0 0, 3 : R); (opaque 1 1 1, 2 : R)]) by (eapply Permutation_in; [symmetry; exact P|left; reflexivity]).
  destruct I as [I|[I|[]]]; inversion I; subst.
  - exfalso. specialize (N (opaque 1 1 1, 2) ltac:(right; left; reflexivity)). cbn in N. unfold Rmax in N. repeat match type of N with context [Rle_dec ?x ?y] => destruct (Rle_dec x y) end; lra.
  - assert (Q : Permutation [(opaque 0 0 0, 3 : R)] rest) by (apply (Permutation_cons_inv (a := (opaque 1 1 1, 2 : R))); etransitivity; [apply perm_swap|exact P]).
    apply Permutation_length_1_inv in Q. subst rest. apply Permutation_length_1_inv in R'. subst p2. unfold pinned. destruct (Rle_dec 2 0); [lra|]. reflexivity.
Qed.
