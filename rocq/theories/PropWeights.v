(** C48: what the colours weigh when the palette search starts. *)
From Verif Require Import Base BaseFacts Arith Order Pal World Attr Hist Nearest MedianCut Kmeans Blur ImageM Quant Remap Api
  SpecHist ImageFacts HistFacts ApiFacts Ieee RealArith MedianReal HistWeights USeq Witness.
From Coq Require Import Reals Lra.
Open Scope nat_scope.

(** C48.  Of any histogram that can be built: the colours of the search are the
    entries of the table after the fixed colours went in; the weight of each,
    for clustering and for the error, is [colour_weight] of its count among the
    total count; and the total weight is their sum. *)
Theorem C48_weights :
  forall big : R, let A := real big in
  forall u h g, unspec_ok u -> hist_r h ->
  let t := zsum (map (fun e => fst (snd e)) (hg_map (insert_fixed u h))) in
  let hi := fst (finalize_builder u h g) in
  Permutation (map (fun it => (h_color it, h_adj it, h_perc it)) (hi_items hi))
    (map (fun e => (from_rgba (gamma_lut g) (snd (snd e)), colour_weight t (fst (snd e)), colour_weight t (fst (snd e))))
       (hg_map (insert_fixed u h))) /\
  hi_total hi = sumR (map (fun it => h_perc it) (hi_items hi)).
Proof.
  exact (fun big u h g U H => finalize_weighs big u h g U (proj1 (@objects_ok (real big) (real_cast big)) h H)
    (@counts_reachable (real big) (real_cast big) h H)).
Qed.
Print Assumptions C48_weights.

(** C48.  More pixels, more weight; and no counted colour weighs more than a
    tenth of the counted total. *)
Theorem C48_weight_monotone :
  forall t n m, (0 < n <= m)%Z -> (colour_weight t n <= colour_weight t m <= IZR t / 256 / 10)%R.
Proof. exact weight_monotone. Qed.
Print Assumptions C48_weight_monotone.

(** C48.  Clusters, in any arithmetic: the 16 clusters are runs of the colours,
    and cluster [8r+4g+2b+a] holds colours whose channels are in the upper half
    exactly where that digit is 1. *)
Theorem C48_groups :
  forall (A : Arith) (C : CastLaws A) u h g, unspec_ok u -> hist_r h ->
  exists vals : list (Z * rgba),
  Permutation vals (map snd (hg_map (insert_fixed u h))) /\
  map h_color (hi_items (fst (finalize_builder u h g))) = map (fun v => from_rgba (gamma_lut g) (snd v)) vals /\
  length (hi_clusters (fst (finalize_builder u h g))) = 16 /\
  forall k b e, nth_error (hi_clusters (fst (finalize_builder u h g))) k = Some (b, e) ->
    Forall (fun v => group (snd v) = k) (slice vals b e).
Proof. exact (fun A C u h g U H => finalize_groups u h g U (proj1 (@objects_ok A C) h H)). Qed.
Print Assumptions C48_groups.

(** A common colour is capped at a tenth of the total, a rare one weighs its
    share, a fixed one that no pixel has weighs ten times the cap; executed in
    IEEE arithmetic (weights in 1/1024). *)
Definition hist48 : hist :=
  let h := get_ok (add_colors (hist_new attrs_new) [(red, 25600%Z); (blue, 256%Z)] d0) (hist_new attrs_new) in
  get_ok (hist_add_fixed_color h (Rgba 0 200 0 255) d0) h.
Example C48_example : let t := 25856%Z in
  (colour_weight t 25600 = 101 / 10 /\ colour_weight t 256 = 1 /\ colour_weight t 0 = 101)%R /\
  map (fun e => fst (snd e)) (hg_map (insert_fixed useq hist48)) = [25600; 256; 0]%Z /\
  map (fun it => fto_u32 (h_perc it *f fofZ 1024)%flt) (hi_items (fst (finalize_builder useq hist48 (dlit 45455 100000)))) = [1024; 103424; 10342]%Z /\
  hi_clusters (fst (finalize_builder useq hist48 (dlit 45455 100000))) =
    [(0,0); (0,0); (0,0); (0,1); (1,1); (1,2); (2,2); (2,2); (2,2); (2,3); (3,3); (3,3); (3,3); (3,3); (3,3); (3,3)].
Proof.
  split; [|vm_compute; repeat split].
  unfold colour_weight. cbn [Z.eqb]. repeat split; try lra; unfold Rmin; destruct (Rle_dec _ _); lra.
Qed.
