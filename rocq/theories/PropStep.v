(** C59: the palette and the error of a result come from the same step. *)
From Verif Require Import Base BaseFacts Arith Order Pal World Attr Hist Nearest MedianCut Kmeans Blur ImageM Quant Remap Api
  SpecHist AttrFacts SearchFacts QuantFacts RealArith SpecKmeans SpecPromise StepOf StepReal Ieee USeq Witness PropPromise.
From Coq Require Import Reals Lra Permutation.
Open Scope R_scope.

(** C59.  Any arithmetic.  Unless the image has few colours and the target
    quality is 100, an error is reported only together with the palette made by
    the step that measured it: the step started from some palette [p0] of at most
    the colours allowed, on the colours of the histogram with their pixel
    weights, in some order.  At speed 7 and above, or if the callback never stops
    the work, it is a step without re-weighting.  A histogram's palette has its
    entries fixed ([pop_to_fixed]). *)
Theorem C59_histogram : forall (A : Arith) (C : CastLaws A) u cb a h w q s' e, unspec_ok u -> usable a -> hist_r h ->
  hist_quantize u cb a (h, w) = (Ok q, s') -> q_err q = Some e ->
  ((length (hg_map (insert_fixed u h)) <= a_max_colors a)%nat -> (a_target_mse a =d d0)%flt = false) ->
  let colours (hi : hint) := map (fun it => (h_color it, h_perc it)) (hi_items hi) in
  let hi0 := fst (finalize_builder u h (q_gamma q)) in
  exists adj p th hi p0 hi', (forall n, covers n (th n)) /\
    (Permutation (colours hi0) (colours hi) /\ hi_total hi = hi_total hi0 /\ hi_clusters hi = hi_clusters hi0 /\ hi_fixed hi = hi_fixed hi0) /\
    (1 <= length p0 <= a_max_colors a)%nat /\ iteration_with th hi p0 adj = Ok (e, hi', p) /\
    Permutation (map (fun x => (fst x, pop_to_fixed (snd x))) p) (q_pal q) /\ ((7 <= get_speed a)%Z \/ (forall t x, cb t x = false) -> adj = false).
Proof. exact (fun A C u cb a h w q s' e => hist_made u cb a h w q s' e). Qed.
Print Assumptions C59_histogram.
Theorem C59_image : forall (A : Arith) (C : CastLaws A) u cb a i pxs w h i1 w1 q s' e, unspec_ok u -> usable a -> image_r i pxs ->
  add_image u cb a (hist_new a, i, w) = (Ok tt, (h, i1, w1)) -> quantize u cb a (i, w) = (Ok q, s') -> q_err q = Some e ->
  ((length (hg_map (insert_fixed u h)) <= a_max_colors a)%nat -> (a_target_mse a =d d0)%flt = false) ->
  let colours (hi : hint) := map (fun it => (h_color it, h_perc it)) (hi_items hi) in
  let hi0 := fst (finalize_builder u h (q_gamma q)) in
  exists adj p th hi p0 hi', (forall n, covers n (th n)) /\
    (Permutation (colours hi0) (colours hi) /\ hi_total hi = hi_total hi0 /\ hi_clusters hi = hi_clusters hi0 /\ hi_fixed hi = hi_fixed hi0) /\
    (1 <= length p0 <= a_max_colors a)%nat /\ iteration_with th hi p0 adj = Ok (e, hi', p) /\
    Permutation p (q_pal q) /\ ((7 <= get_speed a)%Z \/ (forall t x, cb t x = false) -> adj = false).
Proof. exact (fun A C u cb a i pxs w h i1 w1 q s' e => image_made u cb a i pxs w h i1 w1 q s' e). Qed.
Print Assumptions C59_image.

(** C59.  In exact arithmetic (and if any colour is counted): the error reported
    is the weighted mean distance of the histogram's colours to [p0], and the
    palette returned is [p0] after a k-means step: every colour belongs to a
    nearest entry of [p0]; a fixed entry stays, an entry with members becomes
    their weighted mean with their weight as popularity (a transparent one keeps
    its colour), and one without keeps its colour or becomes a colour of the
    histogram.  The means use the weights [h_adj], which rounds of the search at
    speeds 1 to 6 change. *)
Theorem C59_exact_histogram : forall big, 3 < big -> let A := real big in
  forall u cb a h w q s' e, unspec_ok u -> usable a -> hist_r h ->
  (exists x, In x (hg_map (insert_fixed u h)) /\ (0 < fst (snd x))%Z) ->
  ((length (hg_map (insert_fixed u h)) <= a_max_colors a)%nat -> (a_target_mse a : R) <> 0) ->
  (7 <= get_speed a)%Z \/ (forall t x, cb t x = false) ->
  hist_quantize u cb a (h, w) = (Ok q, s') -> q_err q = Some e ->
  exists p0 p items, (1 <= length p0 <= a_max_colors a)%nat /\ length p = length p0 /\
    Permutation (map (fun it => (h_color it, h_perc it)) items) (weighed u h (q_gamma q)) /\ mean_distance p0 (weighed u h (q_gamma q)) e /\
    (forall it, In it items -> exists x, nth_error p0 (h_likely it) = Some x /\ least p0 (h_color it) (diff (h_color it) (fst x))) /\
    (forall j x, nth_error p0 j = Some x -> exists x', nth_error p j = Some x' /\ entry_step (members j items) items x x') /\
    Permutation (map fst p) (map fst (q_pal q)).
Proof. exact (fun big B u cb a h w q s' e => hist_step big B u cb a h w q s' e). Qed.
Print Assumptions C59_exact_histogram.
Theorem C59_exact_image : forall big, 3 < big -> let A := real big in
  forall u cb a i pxs w h i1 w1 q s' e, unspec_ok u -> usable a -> image_r i pxs -> add_image u cb a (hist_new a, i, w) = (Ok tt, (h, i1, w1)) ->
  (exists x, In x (hg_map (insert_fixed u h)) /\ (0 < fst (snd x))%Z) ->
  ((length (hg_map (insert_fixed u h)) <= a_max_colors a)%nat -> (a_target_mse a : R) <> 0) ->
  (7 <= get_speed a)%Z \/ (forall t x, cb t x = false) ->
  quantize u cb a (i, w) = (Ok q, s') -> q_err q = Some e ->
  exists p0 p items, (1 <= length p0 <= a_max_colors a)%nat /\ length p = length p0 /\
    Permutation (map (fun it => (h_color it, h_perc it)) items) (weighed u h (q_gamma q)) /\ mean_distance p0 (weighed u h (q_gamma q)) e /\
    (forall it, In it items -> exists x, nth_error p0 (h_likely it) = Some x /\ least p0 (h_color it) (diff (h_color it) (fst x))) /\
    (forall j x, nth_error p0 j = Some x -> exists x', nth_error p j = Some x' /\ entry_step (members j items) items x x') /\
    Permutation p (q_pal q).
Proof. exact (fun big B u cb a i pxs w h i1 w1 q s' e => image_step big B u cb a i pxs w h i1 w1 q s' e). Qed.
Print Assumptions C59_exact_image.

(** In floating point, by running the model: the result of [C58_example] (eight
    greys to two, speed 10) is one step from the palette of the median cut, which
    is another palette, and reports that step's error. *)
Definition hint8 : hint :=
  let '(_, (h, _, _)) := add_image useq never fast2 (hist_new fast2, img8, world0) in
  fst (finalize_builder useq h (unwrap_or (hg_gamma h) (dlit 45455 100000))).
Definition steps8 : list (list rgba) * option bool :=
  let '(_, tmse, _) := target_mse fast2 (length (hi_items hint8)) in
  match mediancut useq hint8 2 tmse (dmax (dmax tmse (quality_to_mse 1)) (quality_to_mse 51) *d dlit 12 10)%flt with
  | Ok (p0, h1) =>
      match iteration_with (u_batches useq 0) h1 p0 false with
      | Ok (e, _, p) => (map (fun p => map (fun x => to_rgb (fst x) (q_gamma res8)) p) [p0; p; q_pal res8], option_map (fun e' => (e =d e')%flt) (q_err res8))
      | _ => ([], None)
      end
  | _ => ([], None)
  end.
Example C59_example : let grey v := Rgba v v v 255%Z in
  steps8 = ([[grey 205%Z; grey 70%Z]; [grey 205%Z; grey 65%Z]; [grey 65%Z; grey 205%Z]], Some true).
Proof. cbv zeta. vm. Qed.
