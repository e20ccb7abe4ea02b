(** C39, C40, C35, C46, C47: median cut, refinement, and where the palette
    can lie. *)
From Verif Require Import Base BaseFacts Arith Order Pal World Attr Hist Nearest MedianCut Kmeans Blur ImageM Quant Remap Api
  AttrFacts SpecHist SpecImage ImageFacts HistFacts MedianFacts SearchFacts QuantFacts ApiFacts FewFacts SplitFacts Ieee MedianIeee
  RealArith MedianReal KmeansSched KmeansReal HistIn HullReal HullTop USeq Witness.
From Coq Require Import Reals Lra.
Open Scope nat_scope.

(** C39, any arithmetic.  Median cut never fails on a histogram whose clusters
    cover its colours, gives at most as many palette entries as asked, keeps
    every colour with its weights, and puts every colour in exactly one box:
    the boxes, put together, are the colours, box [k] is marked [k] in all its
    colours, and palette entry [k] has box [k]'s summed weight. *)
Theorem C39_partition :
  forall (A : Arith) (u : unspec), unspec_ok u ->
  forall (h : hint) target t m,
  Forall (fun c => fst c <= snd c) (hi_clusters h) /\ fold_right (fun c s => snd c - fst c + s) 0 (hi_clusters h) = length (hi_items h) ->
  0 < target <= 256 -> 0 < length (hi_items h) ->
  exists (p : palf) (h' : hint), mediancut u h target t m = Ok (p, h') /\ 1 <= length p <= target /\
    Permutation (map (fun i => (h_color i, h_adj i, h_perc i)) (hi_items h)) (map (fun i => (h_color i, h_adj i, h_perc i)) (hi_items h')) /\
    hi_total h' = hi_total h /\ hi_clusters h' = hi_clusters h /\ hi_fixed h' = hi_fixed h /\
    exists boxes, Permutation (concat boxes) (hi_items h') /\ length boxes = length p /\
      forall k b, nth_error boxes k = Some b -> Forall (fun i => h_likely i = k) b /\
        exists c, nth_error p k = Some (c, d2f (dsum (map (fun i => f2d (h_perc i)) b))).
Proof. exact (@mediancut_ok). Qed.
Print Assumptions C39_partition.

(** The histograms the search works on are of that kind. *)
Theorem C39_reachable :
  forall (A : Arith) (C : CastLaws A) (u : unspec) h g, unspec_ok u -> hist_r h -> (hg_map h <> [] \/ hg_fixed h <> []) ->
  let f := fst (finalize_builder u h g) in
  Forall (fun c => fst c <= snd c) (hi_clusters f) /\ fold_right (fun c s => snd c - fst c + s) 0 (hi_clusters f) = length (hi_items f) /\
  0 < length (hi_items f).
Proof.
  exact (fun A C u h g U H NE => match proj1 (@finalize_ok A u U h g (proj1 (@objects_ok A C) h H) NE) with
    conj (conj X Y) Z => conj X (conj Y Z) end).
Qed.
Print Assumptions C39_reachable.

(** C39, the in-place partition alone: it permutes its range, and after it the
    keys before position [k] are at least the key at [k] and those after it at
    most. *)
Theorem C39_qsort_partition :
  forall (A : Arith) (u : unspec), unspec_ok u -> forall base, 0 < length base ->
  exists b k, qsort_partition u base = Ok (b, k) /\ Permutation base b /\ k < length base /\ parted b k.
Proof. exact (@qsort_partition_ok). Qed.
Print Assumptions C39_qsort_partition.

(** C39, no box is ever empty: in exact arithmetic for all weights and colours; *)
Theorem C39_boxes_nonempty_exact :
  forall big : R, let A := real big in
  forall (u : unspec) (h : hint) target t m, unspec_ok u -> clusters_fit (hi_clusters h) (length (hi_items h)) ->
  0 < target <= 256 -> 0 < length (hi_items h) ->
  exists (p : palf) (h' : hint) boxes, mediancut u h target t m = Ok (p, h') /\
    Permutation (concat boxes) (hi_items h') /\ length boxes = length p /\ Forall (fun b => b <> []) boxes.
Proof.
  exact (fun big u h target t m U C T L => match mediancut_nonempty_real big u h target t m U C T L with
    ex_intro _ p (ex_intro _ h' (ex_intro _ g (conj E (conj _ (conj _ (conj (conj P (conj Q _)) N)))))) =>
      ex_intro _ p (ex_intro _ h' (ex_intro _ g (conj E (conj P (conj Q N))))) end).
Qed.
Print Assumptions C39_boxes_nonempty_exact.

(** in floating point for up to 2^40 colours with channels in [-1, 1] and
    adjusted weights in [0, 2^60]. *)
Theorem C39_boxes_nonempty :
  forall pow32 pow64, let A := ieee pow32 pow64 in
  forall (u : unspec) (h : hint) target t m, unspec_ok u -> clusters_fit (hi_clusters h) (length (hi_items h)) ->
  0 < target <= 256 -> 0 < length (hi_items h) -> moderate pow32 pow64 (map core (hi_items h)) ->
  exists (p : palf) (h' : hint) boxes, mediancut u h target t m = Ok (p, h') /\
    Permutation (concat boxes) (hi_items h') /\ length boxes = length p /\ Forall (fun b => b <> []) boxes.
Proof.
  exact (fun p32 p64 u h target t m U C T L M => match mediancut_nonempty_ieee p32 p64 u h target t m U C T L M with
    ex_intro _ p (ex_intro _ h' (ex_intro _ g (conj E (conj _ (conj _ (conj (conj P (conj Q _)) N)))))) =>
      ex_intro _ p (ex_intro _ h' (ex_intro _ g (conj E (conj P (conj Q N))))) end).
Qed.
Print Assumptions C39_boxes_nonempty.
Theorem C39_split_nonempty :
  forall pow32 pow64, let A := ieee pow32 pow64 in
  forall (u : unspec) (b : mbox) others b1 b2, unspec_ok u -> moderate pow32 pow64 (map core (b_items b)) -> 2 <= length (b_items b) ->
  box_split u b others = Ok [b1; b2] -> 0 < length (b_items b1) /\ 0 < length (b_items b2).
Proof. exact (fun p32 p64 => box_split_nonempty_ieee p32 p64). Qed.
Print Assumptions C39_split_nonempty.
Theorem C39_split_nonempty_exact :
  forall big : R, let A := real big in
  forall (u : unspec) (b : mbox) others b1 b2, unspec_ok u -> 2 <= length (b_items b) ->
  box_split u b others = Ok [b1; b2] -> 0 < length (b_items b1) /\ 0 < length (b_items b2).
Proof. exact (fun big => box_split_nonempty_real big). Qed.
Print Assumptions C39_split_nonempty_exact.

(** Four colours cut into three boxes. *)
Definition item4 (v w : Z) : hitem := HItem (from_rgba (gamma_lut d0) (Rgba v (255 - v) 9 255)) (fofZ w) (fofZ w) f0 0.
Definition hist4 : hint := HInt [item4 0 3; item4 200 1; item4 210 5; item4 90 2] (dofZ 11) [(0, 4)] [].
Definition cut4 := get_ok (mediancut useq hist4 3 d0 (dofZ 1)) ([], hist4).
Example C39_example : length (fst cut4) = 3 /\ map (fun i => fto_u8 (h_perc i)) (hi_items (snd cut4)) = [3; 2; 1; 5]%Z /\
  map h_likely (hi_items (snd cut4)) = [1; 2; 0; 0].
Proof. vm_compute. repeat split. Qed.

(** C40, any arithmetic: the colours' assignment to palette entries and their
    new weights do not depend on the schedule. *)
Theorem C40_assignment :
  forall (A : Arith) th1 th2 (h : hint) (p : palf) adj e1 e2 h1 h2 p1 p2,
  (forall n, Permutation (concat (th1 n)) (seq 0 n)) -> (forall n, Permutation (concat (th2 n)) (seq 0 n)) ->
  iteration_with th1 h p adj = Ok (e1, h1, p1) -> iteration_with th2 h p adj = Ok (e2, h2, p2) -> h1 = h2.
Proof. exact (@iteration_items). Qed.
Print Assumptions C40_assignment.

(** C40, exact arithmetic: neither do the new palette and the error; *)
Theorem C40_step_exact :
  forall big : R, let A := real big in
  forall th1 th2 (h : hint) (p : palf) adj,
  (forall n, Permutation (concat (th1 n)) (seq 0 n)) -> (forall n, Permutation (concat (th2 n)) (seq 0 n)) ->
  iteration_with th1 h p adj = iteration_with th2 h p adj.
Proof. exact (fun big th1 th2 h p adj C1 C2 => eq_trans (iteration_round big th1 h p adj C1) (eq_sym (iteration_round big th2 h p adj C2))). Qed.
Print Assumptions C40_step_exact.

(** and so the whole quantization, from an image or a histogram, gives the
    same result, error and progress calls whatever threads do the refining. *)
Theorem C40_quantize_exact :
  forall big : R, let A := real big in
  forall (u : unspec) b cb, unspec_ok u -> (forall t n, Permutation (concat (b t n)) (seq 0 n)) ->
  (forall a i w, quantize (with_batches big u b) cb a (i, w) = quantize u cb a (i, w)) /\
  (forall a h w, hist_quantize (with_batches big u b) cb a (h, w) = hist_quantize u cb a (h, w)).
Proof.
  exact (fun big u b cb U B => conj
    (fun a i w => f_equal (fun f => f a (i, w)) (quantize_batches big u U b B cb))
    (fun a h w => f_equal (fun f => f a (h, w)) (hist_quantize_batches big u U b B cb))).
Qed.
Print Assumptions C40_quantize_exact.

(** Another schedule, in floating point: one of three workers gets no batch,
    and the assignment is the same. *)
Definition par4 : nat -> list (list nat) := fun n => [rev (seq 1 (n - 1)); []; seq 0 (Nat.min n 1)].
Definition big4 : hint := HInt (concat (repeat (hi_items hist4) 150)) (dofZ 1650) [(0, 600)] [].
Definition pal4 : palf := [(from_rgba (gamma_lut d0) red, f1); (from_rgba (gamma_lut d0) (Rgba 0 255 9 255), f1)].
Definition step4 th := get_ok (iteration_with th big4 pal4 true) (d0, hist4, []).
Example C40_example : length (chunks 256 (hi_items big4)) = 3 /\ concat (par4 3) = [2; 1; 0] /\
  map h_likely (hi_items (snd (fst (step4 par4)))) = concat (repeat [1; 0; 0; 1] 150) /\
  map h_likely (hi_items (snd (fst (step4 (fun n => [seq 0 n]))))) = concat (repeat [1; 0; 0; 1] 150).
Proof. vm_compute. repeat split. Qed.

(** ** Where the palette lies, in exact arithmetic *)
Open Scope R_scope.

(** The convex hull of a set of colours: what every convex set around it contains. *)
Definition between {big : R} (t : R) (x y : @px (real big)) : @px (real big) :=
  @Px (real big) (t * pa x + (1 - t) * pa y) (t * pr x + (1 - t) * pr y) (t * pg x + (1 - t) * pg y) (t * pb x + (1 - t) * pb y).
Definition hull {big : R} (S : @px (real big) -> Prop) (c : @px (real big)) : Prop :=
  forall P : @px (real big) -> Prop, (forall t x y, 0 <= t <= 1 -> P x -> P y -> P (between t x y)) -> (forall x, S x -> P x) -> P c.

(** C46.  Every colour of a new result's palette lies in the convex hull of the
    image's pixels and fixed colours, in the internal colour space. *)
Theorem C46_palette_in_hull :
  forall big : R, 0 <= big -> let A := real big in
  forall u cb a i pxs w q i' w', unspec_ok u -> usable a -> image_r i pxs ->
  quantize u cb a (i, w) = (Ok q, (i', w')) ->
  Forall (hull (big := big) (fun c => exists k, c = from_rgba (gamma_lut (q_gamma q)) k /\ (In k (concat pxs) \/ In k (i_fixed i)))) (colors_of (q_pal q)).
Proof. exact hull_image. Qed.
Print Assumptions C46_palette_in_hull.
(** The same for a histogram made by calls that add colours, images and fixed
    colours. *)
Theorem C46_histogram_palette_in_hull :
  forall big : R, 0 <= big -> let A := real big in
  forall u cb a0 a cs w q s', unspec_ok u -> usable a -> Forall hcall_ok cs ->
  hist_quantize u cb a (fst (hrun u (hist_new a0) cs), w) = (Ok q, s') ->
  Forall (hull (big := big) (fun c => exists k, c = from_rgba (gamma_lut (q_gamma q)) k /\ Exists (fun call => In k (call_colors call)) cs)) (colors_of (q_pal q)).
Proof. exact hull_hist. Qed.
Print Assumptions C46_histogram_palette_in_hull.

(** C35.  If all pixels and fixed colours are opaque, so is the whole palette. *)
Theorem C35_opaque :
  forall big : R, 0 <= big -> let A := real big in
  forall u cb a i pxs w q i' w', unspec_ok u -> usable a -> image_r i pxs ->
  (forall c, In c (concat pxs) \/ In c (i_fixed i) -> ca c = 255%Z) ->
  quantize u cb a (i, w) = (Ok q, (i', w')) -> Forall (fun c => ca c = 255%Z) (fst (palette q)).
Proof. exact opaque_image. Qed.
Print Assumptions C35_opaque.
Theorem C35_opaque_histogram :
  forall big : R, 0 <= big -> let A := real big in
  forall u cb a0 a cs w q s', unspec_ok u -> usable a -> Forall hcall_ok cs ->
  (forall call c, In call cs -> In c (call_colors call) -> ca c = 255%Z) ->
  hist_quantize u cb a (fst (hrun u (hist_new a0) cs), w) = (Ok q, s') -> Forall (fun c => ca c = 255%Z) (fst (palette q)).
Proof. exact opaque_hist. Qed.
Print Assumptions C35_opaque_histogram.

(** C47.  If all visible pixels and fixed colours are grey, so are all visible
    colours of the palette. *)
Theorem C47_grey :
  forall big : R, 0 <= big -> let A := real big in
  forall u cb a i pxs w q i' w', unspec_ok u -> usable a -> image_r i pxs ->
  (forall c, In c (concat pxs) \/ In c (i_fixed i) -> ca c <> 0%Z -> cr c = cg c /\ Base.cb c = cg c) ->
  quantize u cb a (i, w) = (Ok q, (i', w')) -> Forall (fun c => ca c <> 0%Z -> cr c = cg c /\ Base.cb c = cg c) (fst (palette q)).
Proof. exact grey_image. Qed.
Print Assumptions C47_grey.
Theorem C47_grey_histogram :
  forall big : R, 0 <= big -> let A := real big in
  forall u cb a0 a cs w q s', unspec_ok u -> usable a -> Forall hcall_ok cs ->
  (forall call c, In call cs -> In c (call_colors call) -> ca c <> 0%Z -> cr c = cg c /\ Base.cb c = cg c) ->
  hist_quantize u cb a (fst (hrun u (hist_new a0) cs), w) = (Ok q, s') ->
  Forall (fun c => ca c <> 0%Z -> cr c = cg c /\ Base.cb c = cg c) (fst (palette q)).
Proof. exact grey_hist. Qed.
Print Assumptions C47_grey_histogram.

(** Five opaque greys and two colours asked for, in floating point. *)
Definition greys : list rgba := map (fun v => Rgba v v v 255) [3; 90; 100; 110; 250]%Z.
Definition img5 : image := get_ok (image_new greys 5 1 d0) no_image.
Definition two : attrs := get_ok (set_max_colors attrs_new 2) attrs_new.
Definition res5 : qresult := call_r (quantize useq never two (img5, world0)) no_result.
Example C35_C46_C47_example : fst (palette res5) = [Rgba 45 45 45 255; Rgba 250 250 250 255].
Proof. vm. Qed.
