(** C09, C10, C15, C16, C20, C21, C38: the palette of a result. *)
From Coq Require Import Sorted.
From Verif Require Import Base BaseFacts Arith Ieee Order SpecPow Pal World Attr Hist Blur ImageM Quant Remap
  SpecHist SpecImage SpecAttr AttrFacts ImageFacts QuantFacts Api SpecPal LnFacts ColorFacts PalFacts FixedFacts FixedIeee GammaFacts SetterFacts PowRef ResultFacts Witness.
From Flocq Require Import IEEE754.BinarySingleNaN.
From Coq Require Import Reals.
Open Scope nat_scope.

(** C38.  Colours survive the conversion to the internal format. *)
Theorem C38_round_trip :
  forall pow32 pow64, pow32_accurate pow32 -> forall (g : b64) c, let A := ieee pow32 pow64 in
  is_finite g = true -> (/ 4 <= B2R g <= 1)%R -> rgba_ok c -> ca c <> 0%Z ->
  to_rgb (from_rgba (gamma_lut g) c) g = c.
Proof. exact (fun p32 p64 Acc g c F R => round_trip_color p32 p64 Acc g c (conj F R)). Qed.
Print Assumptions C38_round_trip.
(** C38.  Fully transparent colours lose their colour. *)
Theorem C38_transparent :
  forall pow32 pow64 (g : b64) lut c, let A := ieee pow32 pow64 in
  ca c = 0%Z -> to_rgb (from_rgba lut c) g = Rgba 0 0 0 0.
Proof. exact transparent_color. Qed.
Print Assumptions C38_transparent.
(** The assumption about [powf] can be met, and the default gamma fits. *)
Example C38_example : pow32_accurate pow32_ref /\ gamma_fits g_default /\ rgba_ok (Rgba 12 0 255 1) /\
  @to_rgb (ieee pow32_ref pow64_ref) (@from_rgba (ieee pow32_ref pow64_ref) (@gamma_lut (ieee pow32_ref pow64_ref) g_default) (Rgba 12 0 255 1)) g_default = Rgba 12 0 255 1.
Proof.
  split; [exact pow32_ref_accurate|]. split; [apply gammas_fit|]. assert (rgba_ok (Rgba 12 0 255 1)) by (repeat split; cbn; lia). split; auto.
  apply round_trip_color; auto; [exact pow32_ref_accurate|apply gammas_fit|discriminate].
Qed.

(** C15.  Order of a new result's palette, if no alpha or popularity in it is
    NaN. *)
Theorem C15_palette_order :
  forall (A : Arith) (O : OrdLaws A) u cb a q, made_by u cb a q -> Forall comparable (q_pal q) ->
  (a_last_transp a = false -> StronglySorted before (q_pal q)) /\
  (a_last_transp a = true -> (exists e, In e (q_pal q) /\ is_transp (fst e) = true) ->
     exists e, nth_error (q_pal q) (length (q_pal q) - 1) = Some e /\ is_transp (fst e) = true /\
               forall x, In x (q_pal q) -> (pa (fst e) <=f pa (fst x)) = true).
Proof. exact (fun A O => @result_order A O). Qed.
Print Assumptions C15_palette_order.
(** C15.  Sorting only reorders (any arithmetic, NaN included). *)
Theorem C15_sort_reorders :
  forall (A : Arith) a (p : palf), exists p', sort_palette a p = Ok p' /\ Permutation p p'.
Proof. exact (fun A => @sort_palette_ok A). Qed.
Print Assumptions C15_sort_reorders.
(** An image with a fixed, almost transparent colour. *)
Definition glass : rgba := Rgba 1 2 3 4.
Definition img3 : image := get_ok (image_add_fixed_color img2 glass) no_image.
Lemma img3_r : image_r img3 [[red; blue]].
Proof. refine (ir_fixed img2 _ glass img3 img2_r _ _); [repeat split; cbn; lia|]. exact (eq_refl (Ok img3) <: image_add_fixed_color img2 glass = Ok img3). Qed.
Definition last_a : attrs := set_last_index_transparent attrs_new true.
Definition res3 : qresult := call_r (quantize useq never attrs_new (img3, world0)) no_result.
Definition res3l : qresult := call_r (quantize useq never last_a (img3, world0)) no_result.
Lemma res3_eq : quantize useq never attrs_new (img3, world0) = (Ok res3, snd (quantize useq never attrs_new (img3, world0))).
Proof. vm. Qed.
Lemma res3l_eq : quantize useq never last_a (img3, world0) = (Ok res3l, snd (quantize useq never last_a (img3, world0))).
Proof. vm. Qed.
Definition cmp_ok (q : qresult) : bool :=
  forallb (fun e => ((pa (fst e) <=f pa (fst e)) && (popularity (snd e) <=f popularity (snd e)))%bool) (q_pal q).
Lemma cmp_ok_spec q : cmp_ok q = true -> Forall comparable (q_pal q).
Proof. unfold cmp_ok. intros H. apply Forall_forall. intros e He. rewrite forallb_forall in H. specialize (H e He). apply andb_prop in H. exact H. Qed.
Example C15_example : made_by useq never attrs_new res3 /\ Forall comparable (q_pal res3) /\ fst (palette res3) = [glass; blue; red] /\
  made_by useq never last_a res3l /\ Forall comparable (q_pal res3l) /\ fst (palette res3l) = [blue; red; glass].
Proof.
  split; [right; eexists img3, _, world0, _; split; [exact img3_r|exact res3_eq]|]. split; [apply cmp_ok_spec; vm|]. split; [vm|].
  split; [right; eexists img3, _, world0, _; split; [exact img3_r|exact res3l_eq]|]. split; [apply cmp_ok_spec; vm|]. vm.
Qed.

(** C16.  After set_min_posterization(b), whatever is called later, every
    returned colour is on the [b]-bit grid, or is the one filler colour that
    stands for "fully transparent". *)
Theorem C16_posterization :
  forall (A : Arith) (C : CastLaws A) u cb a b a0 q q', unspec_ok u -> usable a0 -> set_min_posterization a0 b = Ok a ->
  made_by u cb a q -> later true true q q' ->
  Forall (fun c => c = transparent_filler \/ (posterized_color b c /\ rgba_ok c)) (fst (palette q')).
Proof. exact (fun A C => @posterization_kept A C). Qed.
Print Assumptions C16_posterization.
(** C16.  ... so only [2^(8-b)] levels occur per channel. *)
Theorem C16_levels :
  forall b, (0 <= b <= 4)%Z ->
  length (filter (fun v => (v mod 2 ^ b =? v / 2 ^ (8 - b))%Z) (map Z.of_nat (seq 0 256))) = Z.to_nat (2 ^ (8 - b)).
Proof. exact levels. Qed.
Print Assumptions C16_levels.
(** The filler itself is off the grid: "every returned colour" would be false. *)
Example C16_filler : ca transparent_filler = 0%Z /\ ~ SpecPal.posterized 4 (cr transparent_filler).
Proof. split; [reflexivity|]. unfold SpecPal.posterized. vm_compute. discriminate. Qed.
Definition post_a : attrs := get_ok (set_min_posterization attrs_new 3) attrs_new.
Definition res_post : qresult := call_r (quantize useq never post_a (img2, world0)) no_result.
Example C16_example : made_by useq never post_a res_post /\ fst (palette res_post) = [Rgba 0 0 255 255; Rgba 206 0 0 255].
Proof.
  split; [right; eexists img2, _, world0, (snd (quantize useq never post_a (img2, world0))); split; [exact img2_r|vm]|]. vm.
Qed.

(** C09.  A histogram's fixed colour [c] with number [k] is in the palette if
    at most [max_colors] fixed colours have a number up to [k]. *)
Theorem C09_histogram_fixed :
  forall pow32 pow64 (A := ieee pow32 pow64) u cb a h w q s' c k, unspec_ok u -> usable a -> hist_r h ->
  hist_quantize u cb a (h, w) = (Ok q, s') -> In (c, k) (hg_fixed h) -> rank_of (hg_fixed h) k <= a_max_colors a ->
  exists w, In (from_rgba (gamma_lut (q_gamma q)) c, w) (q_pal q) /\ pop_is_fixed w = true.
Proof. exact (fun p32 p64 u cb a h w q s' c k => @hist_fixed (ieee p32 p64) (ieee_cast p32 p64) u cb a h w q s' c k (fix_law_ieee p32 p64)). Qed.
Print Assumptions C09_histogram_fixed.
(** C09.  The first [max_colors] fixed colours of an image are in the palette. *)
Theorem C09_image_fixed :
  forall pow32 pow64 (A := ieee pow32 pow64) u cb a i pxs w q s' j c, unspec_ok u -> usable a -> image_r i pxs ->
  quantize u cb a (i, w) = (Ok q, s') -> nth_error (i_fixed i) j = Some c -> j < a_max_colors a ->
  exists w, In (from_rgba (gamma_lut (q_gamma q)) c, w) (q_pal q) /\ pop_is_fixed w = true.
Proof. exact (fun p32 p64 u cb a i pxs w q s' j c => @image_fixed (ieee p32 p64) (ieee_cast p32 p64) u cb a i pxs w q s' j c (fix_law_ieee p32 p64)). Qed.
Print Assumptions C09_image_fixed.
(** C09.  A fixed colour in the internal palette stays there and is returned
    exactly by every later palette(), whatever is remapped, if the gamma fits,
    nothing is posterized and the colour is not fully transparent. *)
Theorem C09_fixed_returned :
  forall pow32 pow64 (A := ieee pow32 pow64), pow32_accurate pow32 -> forall u cb a q q' c, unspec_ok u -> usable a ->
  made_by u cb a q -> a_post_out a = 0%Z -> gamma_fits (q_gamma q) -> rgba_ok c -> ca c <> 0%Z ->
  has_fixed_color q c -> later false true q q' ->
  has_fixed_color q' c /\ In c (fst (palette q')).
Proof.
  exact (fun p32 p64 Acc u cb a q q' c U Ha M P G R N F L =>
    let X := @made_by_fresh (ieee p32 p64) (ieee_cast p32 p64) u cb a q U Ha M in
    @fixed_shown (ieee p32 p64) (ieee_cast p32 p64) _ q q' c (@made_by_reach (ieee p32 p64) u cb a q U Ha M)
      (proj1 X) (proj1 (proj2 X)) (eq_trans (proj1 (proj2 (proj2 X))) P) F (round_trip_color p32 p64 Acc (q_gamma q) c G R N) L).
Qed.
Print Assumptions C09_fixed_returned.
Example C09_example : image_r img3 [[red; blue]] /\ nth_error (i_fixed img3) 0 = Some glass /\
  quantize useq never attrs_new (img3, world0) = (Ok res3, snd (quantize useq never attrs_new (img3, world0))) /\
  In glass (fst (palette res3)).
Proof. split; [exact img3_r|]. split; [vm|]. split; [exact res3_eq|]. replace (fst (palette res3)) with [glass; blue; red] by (symmetry; vm). left. auto. Qed.

(** C10.  If palette() is not called in between, a result of
    Histogram::quantize shows, after any remaps and setting changes, its
    original palette converted with the current output gamma. *)
Theorem C10_frozen :
  forall pow32 pow64 (A := ieee pow32 pow64) u cb a h w q s' q', unspec_ok u -> usable a -> hist_r h ->
  hist_quantize u cb a (h, w) = (Ok q, s') -> later true false q q' ->
  fst (palette q') = snd (init_int_palette (q_pal q) (q_gamma q') (q_post q)).
Proof.
  exact (fun p32 p64 u cb a h w q s' q' U Ha H E =>
    let C := ieee_cast p32 p64 in
    let X := @made_by_fresh (ieee p32 p64) C u cb a q U Ha (or_introl (ex_intro _ h (ex_intro _ w (ex_intro _ s' (conj H E))))) in
    @frozen_remaps (ieee p32 p64) C _ q q' (rr_hist u cb a h w q s' U Ha H E)
      (@hist_quantize_frozen (ieee p32 p64) C u cb a h w q s' (fix_law_ieee p32 p64) U Ha H E) (proj1 X) (proj1 (proj2 X))).
Qed.
Print Assumptions C10_frozen.
(** C10.  With palette() calls in between it still never changes, provided
    nothing is posterized, the gamma fits and no alpha is NaN. *)
Theorem C10_frozen_calls :
  forall pow32 pow64 (A := ieee pow32 pow64), pow32_accurate pow32 -> forall u cb a h w q s' q', unspec_ok u -> usable a -> hist_r h ->
  hist_quantize u cb a (h, w) = (Ok q, s') -> a_post_out a = 0%Z -> gamma_fits (q_gamma q) -> alphas_known pow32 pow64 q ->
  later false true q q' -> fst (palette q') = fst (palette q).
Proof.
  exact (fun p32 p64 Acc u cb a h w q s' q' U Ha H E P G N =>
    let C := ieee_cast p32 p64 in
    let X := @made_by_fresh (ieee p32 p64) C u cb a q U Ha (or_introl (ex_intro _ h (ex_intro _ w (ex_intro _ s' (conj H E))))) in
    @frozen_calls (ieee p32 p64) C _ q q' (rr_hist u cb a h w q s' U Ha H E)
      (@hist_quantize_frozen (ieee p32 p64) C u cb a h w q s' (fix_law_ieee p32 p64) U Ha H E)
      (stable_shown_ieee p32 p64 Acc q G (eq_trans (proj1 (proj2 (proj2 X))) P) N) (proj1 X) (proj1 (proj2 X))).
Qed.
Print Assumptions C10_frozen_calls.
(** C10.  With posterization the statement is false: calling palette() before
    remapping makes a nearly transparent frozen colour change. *)
Definition faint : rgba := Rgba 200 0 0 1.
Definition post1_a : attrs := get_ok (set_min_posterization attrs_new 1) attrs_new.
Definition faint_h : hist := get_ok (hist_add_fixed_color (hist_new post1_a) faint d0) (hist_new post1_a).
Definition faint_q : qresult := call_r (hist_quantize useq never post1_a (faint_h, world0)) no_result.
Definition faint_run := remap_into useq never (snd (palette faint_q)) img2 [5; 5] world0.
Definition faint_q' : qresult := fst (fst (fst (snd faint_run))).
Lemma post1_usable : usable post1_a.
Proof. refine (us_call attrs_new (CallPosterization 1) post1_a us_new _ _); [cbn; lia|exact (eq_refl (Ok post1_a) <: set_min_posterization attrs_new 1 = Ok post1_a)]. Qed.
Lemma faint_h_r : hist_r faint_h.
Proof.
  refine (hr_fixed _ faint d0 faint_h (hr_new post1_a post1_usable) _ _); [repeat split; cbn; lia|].
  exact (eq_refl (Ok faint_h) <: hist_add_fixed_color (hist_new post1_a) faint d0 = Ok faint_h).
Qed.
Theorem C10_posterized_refuted :
  exists (A : Arith) (C : CastLaws A) u cb a h w q s' q', unspec_ok u /\ usable a /\ hist_r h /\
  hist_quantize u cb a (h, w) = (Ok q, s') /\ later false true q q' /\ fst (palette q') <> fst (palette q).
Proof.
  exists toy, toy_cast, useq, never, post1_a, faint_h, world0, faint_q, (snd (hist_quantize useq never post1_a (faint_h, world0))), faint_q'.
  split; [exact useq_ok|]. split; [exact post1_usable|]. split; [exact faint_h_r|]. split; [vm|]. split.
  - exact (later_remap false true faint_q (snd (palette faint_q)) useq never img2 [[red; blue]] [5; 5] world0
             (la_palette false true faint_q faint_q (la_refl false true faint_q) eq_refl) useq_ok img2_r).
  - replace (fst (palette faint_q)) with [Rgba 201 0 0 0] by (symmetry; vm).
    replace (fst (palette faint_q')) with [Rgba 0 0 0 0] by (symmetry; vm). discriminate.
Qed.
Print Assumptions C10_posterized_refuted.
Example C10_example : hist_r (grey_hist pow32_ref pow64_ref) /\ gamma_fits g_default /\
  @q_gamma (ieee pow32_ref pow64_ref) (grey_q pow32_ref pow64_ref) = g_default /\ alphas_known pow32_ref pow64_ref (grey_q pow32_ref pow64_ref).
Proof.
  split.
  { refine (@hr_fixed (ieee pow32_ref pow64_ref) _ grey d0 _ (hr_new attrs_new us_new) _ (grey_added pow32_ref pow64_ref)). repeat split; cbn; lia. }
  split; [apply gammas_fit|]. split; [apply grey_rest|].
  unfold alphas_known. rewrite grey_pal. constructor; [vm_compute; reflexivity|constructor].
Qed.

(** C20.  False: after palette() has been called, a new output gamma is
    ignored by palette() (for every result and gamma, in any arithmetic) ... *)
Theorem C20_gamma_ignored :
  forall (A : Arith) (C : CastLaws A) m q v q', result_r m q -> q_rem q = None -> set_output_gamma (snd (palette q)) v = Ok q' ->
  fst (palette q') = fst (palette q).
Proof.
  exact (fun A C m q v q' R N E => @gamma_ignored A q v q' N (Nat.neq_sym _ _ (Nat.lt_neq _ _ (proj1 (@reach_pal A C m q R)))) E).
Qed.
Print Assumptions C20_gamma_ignored.
(** ... which is not what the gamma asks for: the same setting gives another
    palette if palette() was not called before. *)
Theorem C20_gamma_refuted :
  forall pow32 pow64 (A := ieee pow32 pow64), pow32_accurate pow32 ->
  exists q g q1 q2, result_r 256 q /\ set_output_gamma q g = Ok q1 /\ set_output_gamma (snd (palette q)) g = Ok q2 /\
  fst (palette q1) <> fst (palette q2).
Proof. exact gamma_order_matters. Qed.
Print Assumptions C20_gamma_refuted.
(** C20.  What holds: the gamma is used if palette() was never called (or only
    while a remapped palette was shown). *)
Theorem C20_gamma_partial :
  forall (A : Arith) q v q', q_int q = [] -> set_output_gamma q v = Ok q' ->
  fst (palette q') = snd (init_int_palette (q_pal q) v (q_post q)).
Proof. exact (fun A => @gamma_followed A). Qed.
Print Assumptions C20_gamma_partial.
Example C20_example : q_int res2 = [] /\ fst (palette (get_ok (set_output_gamma res2 (dlit 9 10)) no_result)) = [blue; red].
Proof. split; vm. Qed.

(** C21.  Accepted numbers. *)
Theorem C21_dithering_level :
  forall pow32 pow64 (q : @qresult (ieee pow32 pow64)) (v : b32), let A := ieee pow32 pow64 in
  (real_in_01 v -> exists q', set_dithering_level q (v : f32) = Ok q' /\ q_dither q' = v) /\
  (~ real_in_01 v -> set_dithering_level q (v : f32) = Err ValueOutOfRange).
Proof. exact dithering_accepts. Qed.
Theorem C21_image_gamma :
  forall pow32 pow64 buf w h s (v : b64), let A := ieee pow32 pow64 in
  (0 <= w)%Z -> (0 <= h)%Z -> (0 <= s)%Z -> dims_ok w h -> buffer_ok (Z.of_nat (length buf)) w h s ->
  ((exists i, image_new_stride buf w h s (v : f64) = Ok i) <-> real_in_01 v) /\
  (~ real_in_01 v -> image_new_stride buf w h s (v : f64) = Err ValueOutOfRange).
Proof. exact image_gamma_accepts. Qed.
Theorem C21_add_colors_gamma :
  forall pow32 pow64 (h : @hist (ieee pow32 pow64)) es (v : b64), let A := ieee pow32 pow64 in
  es <> [] -> (Z.of_nat (length es) <= 2 ^ 24)%Z ->
  ((exists h', add_colors h es (v : f64) = Ok h') <-> is_finite v = true /\ (0 <= B2R v < 1)%R) /\
  (~ (is_finite v = true /\ (0 <= B2R v < 1)%R) -> add_colors h es (v : f64) = Err ValueOutOfRange).
Proof. exact colors_gamma_accepts. Qed.
(** NaN excluded: *)
Theorem C21_output_gamma_partial :
  forall pow32 pow64 (q : @qresult (ieee pow32 pow64)) (v : b64), let A := ieee pow32 pow64 in is_nan v = false ->
  (is_finite v = true /\ (0 < B2R v < 1)%R -> exists q', set_output_gamma q (v : f64) = Ok q' /\ output_gamma q' = v) /\
  (~ (is_finite v = true /\ (0 < B2R v < 1)%R) -> set_output_gamma q (v : f64) = Err ValueOutOfRange).
Proof. exact gamma_accepts. Qed.
(** ... because a NaN is accepted and stored. *)
Theorem C21_output_gamma_nan_refuted :
  forall pow32 pow64 (q : @qresult (ieee pow32 pow64)), let A := ieee pow32 pow64 in
  exists q', set_output_gamma q (B754_nan : b64) = Ok q' /\ output_gamma q' = (B754_nan : b64).
Proof. exact gamma_accepts_nan. Qed.
(** Also unchecked: the gamma given with a histogram's fixed colour. *)
Theorem C21_fixed_gamma_unchecked :
  forall pow32 pow64 c, let A := ieee pow32 pow64 in
  exists h', hist_add_fixed_color (hist_new attrs_new) c (BofZ 53 1024 7 : f64) = Ok h' /\ hg_gamma h' = Some (BofZ 53 1024 7 : f64).
Proof. exact fixed_gamma_unchecked. Qed.
Print Assumptions C21_dithering_level. Print Assumptions C21_image_gamma. Print Assumptions C21_add_colors_gamma.
Print Assumptions C21_output_gamma_partial. Print Assumptions C21_output_gamma_nan_refuted. Print Assumptions C21_fixed_gamma_unchecked.
Example C21_example : real_in_01 (BofZ 24 128 1) /\ ~ real_in_01 (B754_nan : b32) /\ ~ real_in_01 (B754_infinity false : b64).
Proof. split; [split; [reflexivity|rewrite (proj2 one32); split; [apply Rle_0_1|apply Rle_refl]]|]. split; intros [H _]; discriminate. Qed.
