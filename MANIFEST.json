{
 "claims": [
  {
   "property": "C01",
   "status": "proved",
   "theorems": [
    "C01_settings_follow_the_documentation",
    "C01_settings_any_arithmetic"
   ],
   "note": "IEEE-754 arithmetic, any pow with relative error <= 2^-40; call histories of any length with arguments of the Rust parameter types"
  },
  {
   "property": "C02",
   "status": "proved",
   "theorems": [
    "C02_quality_reads_back"
   ],
   "note": "any double pow with relative error <= 2^-40"
  },
  {
   "property": "C03",
   "status": "proved",
   "theorems": [
    "C03_quality_scale_monotone",
    "C03_thresholds_strictly_decrease"
   ],
   "note": "all doubles incl. NaN and infinities"
  },
  {
   "property": "C04",
   "status": "proved",
   "theorems": [
    "C04_work_plan",
    "C04_faster_is_less_work"
   ],
   "note": "any call history; holds for any arithmetic"
  },
  {
   "property": "C17",
   "status": "proved",
   "theorems": [
    "C17_constructor_accepts_exactly",
    "C17_pixels_are_the_buffer"
   ],
   "note": "any arithmetic; out-of-bounds reads would be Panic in the model"
  },
  {
   "property": "C22",
   "status": "proved",
   "theorems": [
    "C22_histogram_counts",
    "C22_order_irrelevant"
   ],
   "note": "any call history on a histogram (accepted, rejected, aborted calls), any hash order"
  },
  {
   "property": "C23",
   "status": "partial",
   "theorems": [
    "C23_coarsening_partial",
    "C23_total_weight_preserved_refuted"
   ],
   "note": "the property is false for the code (colours that fall together overwrite each other); refuted by an API-level witness, and what does hold is proved"
  },
  {
   "property": "C24",
   "status": "partial",
   "theorems": [
    "C24_add_fixed_color_limit",
    "C24_add_image_limit_refuted"
   ],
   "note": "add_fixed_color part proved; the add_image part is false for the code (witness: 400 fixed colours)"
  },
  {
   "property": "C25",
   "status": "proved",
   "theorems": [
    "C25_zero_importance_ignored",
    "C25_generated_importance",
    "C25_powf_assumption_satisfiable",
    "C25_generated_importance_exact"
   ],
   "note": "the lower bound 80 for IEEE arithmetic assumes that f32 powf maps [0,1] to [0,1] for exponents >= 0 (shown satisfiable); also proved in exact arithmetic without assumption on powf"
  },
  {
   "property": "C31",
   "status": "proved",
   "theorems": [
    "C31_max_filter",
    "C31_min_filter",
    "C31_blur_filter",
    "C31_filter_chain"
   ],
   "note": "the blur window is 2*size cells wide, one less than its comment says"
  },
  {
   "property": "C34",
   "status": "proved",
   "theorems": [
    "C34_background_accepted_exactly",
    "C34_never_nested"
   ],
   "note": "any history of an image"
  },
  {
   "property": "C44",
   "status": "proved",
   "theorems": [
    "C44_dither_map_update"
   ],
   "note": "any arithmetic with byte-valued casts"
  },
  {
   "property": "C08",
   "status": "proved",
   "theorems": [
    "C08_palette_size",
    "C08_palette_size_stable"
   ],
   "note": "any arithmetic, any reachable result object"
  },
  {
   "property": "C11",
   "status": "proved",
   "theorems": [
    "C11_remap_complete"
   ],
   "note": "any arithmetic, schedule, callback and previous buffer contents"
  },
  {
   "property": "C12",
   "status": "proved",
   "theorems": [
    "C12_schedule_independent",
    "C12_repeatable"
   ],
   "note": "any arithmetic; also independent of callbacks and of earlier remaps of the image"
  },
  {
   "property": "C29",
   "status": "proved",
   "theorems": [
    "C29_no_panic",
    "C29_quantize_errors"
   ],
   "note": "modelled entry points add_image, Histogram::quantize, Attributes::quantize, remap_into, remapped; any reachable objects; allocation failure not modelled"
  },
  {
   "property": "C36",
   "status": "proved",
   "theorems": [
    "C36_buffer_too_small"
   ],
   "note": ""
  },
  {
   "property": "C37",
   "status": "proved",
   "theorems": [
    "C37_failed_remap_keeps_result"
   ],
   "note": ""
  },
  {
   "property": "C43",
   "status": "proved",
   "theorems": [
    "C43_settings_reset",
    "C43_clone"
   ],
   "note": ""
  },
  {
   "property": "C09",
   "status": "proved",
   "theorems": [
    "C09_histogram_fixed",
    "C09_image_fixed",
    "C09_fixed_returned"
   ],
   "note": "IEEE; internal presence for any pow, exact 8-bit value for any pow32 with relative error <= 2^-20 and gamma in [0.25,1]"
  },
  {
   "property": "C10",
   "status": "partial",
   "theorems": [
    "C10_frozen",
    "C10_frozen_calls",
    "C10_posterized_refuted"
   ],
   "note": "proved for all sequences without palette() calls; with palette() calls in between proved for no posterization, gamma in [0.25,1] and no NaN alpha; false with posterization (witness)"
  },
  {
   "property": "C15",
   "status": "proved",
   "theorems": [
    "C15_palette_order",
    "C15_sort_reorders"
   ],
   "note": "any ordered arithmetic; alphas and popularities not NaN"
  },
  {
   "property": "C16",
   "status": "proved",
   "theorems": [
    "C16_posterization",
    "C16_levels"
   ],
   "note": "any arithmetic; the only exception is the filler colour for fully transparent entries, which is not a visible colour"
  },
  {
   "property": "C20",
   "status": "partial",
   "theorems": [
    "C20_gamma_ignored",
    "C20_gamma_refuted",
    "C20_gamma_partial"
   ],
   "note": "the property is false for the code: palette() keeps the colours of its first call; refuted for every accurate pow; the case that holds is proved"
  },
  {
   "property": "C21",
   "status": "partial",
   "theorems": [
    "C21_dithering_level",
    "C21_image_gamma",
    "C21_add_colors_gamma",
    "C21_output_gamma_partial",
    "C21_output_gamma_nan_refuted",
    "C21_fixed_gamma_unchecked"
   ],
   "note": "all exact except set_output_gamma, which accepts NaN (refuted); histogram add_fixed_color does not check its gamma"
  },
  {
   "property": "C38",
   "status": "proved",
   "theorems": [
    "C38_round_trip",
    "C38_transparent",
    "C38_small_gamma_refuted"
   ],
   "note": "any pow32 with relative error <= 2^-20 and 0^y = 0; C38_small_gamma_refuted shows that the bound on gamma is needed (1/64 fails)"
  },
  {
   "property": "C19",
   "status": "partial",
   "theorems": [
    "C19_remap_again_partial",
    "C19_requantize_partial",
    "C19_requantize_refuted"
   ],
   "note": "remapping again never fails except for Break or a NaN error sum (C54: no NaN at speed 4 or more); quantizing again works before any remap and is false after two remaps (witness)"
  },
  {
   "property": "C27",
   "status": "partial",
   "theorems": [
    "C27_error_is_mean_partial",
    "C27_large_image_refuted"
   ],
   "note": "the reported error is the mean distance when width*height < 2^32; false for 65536x65536 images (no finite error is ever reported)"
  },
  {
   "property": "C28",
   "status": "partial",
   "theorems": [
    "C28_scratch_unused_partial",
    "C28_scratch_refuted"
   ],
   "note": "true when the image is one chunk or no dither map is generated; false in general (witness: 1x129 image, two CPUs)"
  },
  {
   "property": "C42",
   "status": "partial",
   "theorems": [
    "C42_map_kept_partial",
    "C42_map_refuted"
   ],
   "note": "kept by quantize, add_image and undithered remaps; false for the first dithered remap (witness)"
  },
  {
   "property": "C06",
   "status": "partial",
   "theorems": [
    "C06_quantize_progress",
    "C06_remap_progress_partial",
    "C06_remap_progress_refuted"
   ],
   "note": "quantizing: proved for all inputs, settings and callbacks; remapping: proved for at most 2^24 rows or at most 2048 CPUs; false beyond: f32 rounding exceeds 100 for 21511045 rows on 4639 CPUs (witness); IEEE, any pow"
  },
  {
   "property": "C07",
   "status": "partial",
   "theorems": [
    "C07_break_aborts",
    "C07_single_break_aborts",
    "C07_single_break_refuted"
   ],
   "note": "a callback that keeps breaking always aborts; add_image and remap are aborted by a single Break; a single Break during the palette search is ignored (witness), so the last clause of the property is false"
  },
  {
   "property": "C13",
   "status": "partial",
   "theorems": [
    "C13_minimum_quality_partial",
    "C13_minimum_kept_partial",
    "C13_quality_reported",
    "C13_nan_refuted"
   ],
   "note": "proved whenever the reported error is not NaN, which in IEEE arithmetic is so at speed 4 or more when some counted colour is not a fixed colour (missing: speeds 1 to 3); false for a histogram of only fixed colours, whose error is 0/0 = NaN and is accepted (witness)"
  },
  {
   "property": "C26",
   "status": "proved",
   "theorems": [
    "C26_distance_is_metric",
    "C26_search_nearest",
    "C26_remap_nearest",
    "C26_search_near_ieee",
    "C26_remap_near_ieee",
    "C26_exact_ieee_refuted"
   ],
   "note": "exact (real) arithmetic, as the property says, with a largest-float stand-in >= 1; also in IEEE arithmetic up to a distance of 2^-17 (pow32_unit; output gamma a positive number), and a proof that without the tolerance it is false there"
  },
  {
   "property": "C14",
   "status": "partial",
   "theorems": [
    "C14_palette_is_histogram",
    "C14_lossless",
    "C14_lossless_ieee",
    "C14_duplicate_fixed_refuted",
    "C14_small_gamma_refuted"
   ],
   "note": "palette part proved for any arithmetic; lossless remapping (dithered or not, any schedule), with any distinct fixed colours, proved in exact arithmetic, and in IEEE arithmetic (pow32_accurate, pow32_unit) for images of at most 2^29 pixels, gamma in [0.44, 1]; false when the same colour is fixed twice, and in IEEE arithmetic for gammas near 0 (witnesses); IEEE gammas in between not covered"
  },
  {
   "property": "C39",
   "status": "proved",
   "theorems": [
    "C39_partition",
    "C39_reachable",
    "C39_qsort_partition",
    "C39_boxes_nonempty_exact",
    "C39_boxes_nonempty",
    "C39_split_nonempty",
    "C39_split_nonempty_exact"
   ],
   "note": "partitioning: any arithmetic, any weights; non-empty boxes: exact arithmetic without restriction, IEEE for at most 2^40 colours with channels in [-1,1] and adjusted weights in [0,2^60]"
  },
  {
   "property": "C40",
   "status": "proved",
   "theorems": [
    "C40_assignment",
    "C40_step_exact",
    "C40_quantize_exact"
   ],
   "note": "assignment: any arithmetic; palette and error: exact (real) arithmetic, as the property says, up to the whole quantization"
  },
  {
   "property": "C35",
   "status": "proved",
   "theorems": [
    "C35_opaque",
    "C35_opaque_histogram"
   ],
   "note": "exact (real) arithmetic, as the property says; through to the 8-bit palette, any posterization; histogram: any sequence of adding calls, quantized once"
  },
  {
   "property": "C46",
   "status": "proved",
   "theorems": [
    "C46_palette_in_hull",
    "C46_histogram_palette_in_hull"
   ],
   "note": "exact (real) arithmetic; images, and histograms made by any sequence of adding calls and quantized once"
  },
  {
   "property": "C47",
   "status": "proved",
   "theorems": [
    "C47_grey",
    "C47_grey_histogram"
   ],
   "note": "exact (real) arithmetic, through to the 8-bit palette"
  },
  {
   "property": "C32",
   "status": "proved",
   "theorems": [
    "C32_range",
    "C32_pixels_in_range",
    "C32_unnoticeable",
    "C32_diffusion",
    "C32_conserved"
   ],
   "note": "range and conservation: exact (real) arithmetic; what is diffused where, and that unnoticeable errors change nothing: any arithmetic, through to whole remaps with any background, schedule and dither map"
  },
  {
   "property": "C33",
   "status": "proved",
   "theorems": [
    "C33_same_background",
    "C33_same_background_ieee"
   ],
   "note": "exact arithmetic: whenever the palette has a fully transparent colour; IEEE: relative to the entry the search returns for transparent black, for a powf that maps [0,1] into [0,1] and a positive output gamma"
  },
  {
   "property": "C48",
   "status": "proved",
   "theorems": [
    "C48_weights",
    "C48_weight_monotone",
    "C48_groups"
   ],
   "note": "weights: exact (real) arithmetic, all histograms reachable by any calls including earlier quantizations; grouping: any arithmetic"
  },
  {
   "property": "C18",
   "status": "partial",
   "theorems": [
    "C18_no_released_memory_partial",
    "C18_clone_refuted",
    "C18_released_once"
   ],
   "note": "proved for all programs that clone only images with borrowed pixels, callback images or images whose pixels were already released; false for images that own their pixels (two witnesses); that safe Rust programs release everything exactly once is proved for all clones"
  },
  {
   "property": "C30",
   "status": "partial",
   "theorems": [
    "C30_freed_once_partial",
    "C30_own_rows_refuted"
   ],
   "note": "proved for all programs in which ownership is not requested for rows the library has already dropped and the caller keeps to the documented rules; false otherwise (witness)"
  },
  {
   "property": "C05",
   "status": "partial",
   "theorems": [
    "C05_answers",
    "C05_ranges_partial",
    "C05_truncated_refuted"
   ],
   "note": "exact answers for all arguments; ranges honoured for all colour counts and speeds and for qualities/bits below 256; false above because of truncation to u8 (witnesses)"
  },
  {
   "property": "C41",
   "status": "partial",
   "theorems": [
    "C41_rejects_partial",
    "C41_unchecked_refuted"
   ],
   "note": "proved for 40 of the 49 functions; false for the other nine (a witness for each)"
  },
  {
   "property": "C49",
   "status": "proved",
   "theorems": [
    "C49_accepted_sizes",
    "C49_no_overflow"
   ],
   "note": ""
  },
  {
   "property": "C50",
   "status": "proved",
   "theorems": [
    "C50_frame"
   ],
   "note": ""
  },
  {
   "property": "C51",
   "status": "proved",
   "theorems": [
    "C51_c_programs"
   ],
   "note": "the documented rules are spelled out in FfiReach.v (proper); reading the tag of a released object is taken to give what the destructor left"
  },
  {
   "property": "C52",
   "status": "proved",
   "theorems": [
    "C52_x86_identical",
    "C52_exact_arithmetic",
    "C52_neon_close",
    "C52_neon_nearest_refuted"
   ],
   "note": "NaN payloads not modelled; NEON closeness for channels of magnitude at most 2^30"
  },
  {
   "property": "C53",
   "status": "partial",
   "theorems": [
    "C53_prepare_partial",
    "C53_prepared_twice",
    "C53_same_palette",
    "C53_redundant_refuted",
    "C53_large_buffer_refuted"
   ],
   "note": "safety, frame and palette after the remap proved (the last when a dither map results, i.e. images of at least 4 by 4 pixels); full redundancy is false (two witnesses)"
  },
  {
   "property": "C54",
   "status": "partial",
   "theorems": [
    "C54_palette_finite_partial",
    "C54_remap_succeeds_partial",
    "C54_prepare_succeeds_partial",
    "C54_error_finite_partial",
    "C54_nan_gamma_refuted"
   ],
   "note": "IEEE, all rounding; speed 4 or more, no fixed colours or counts up to 255*2^31; missing: speeds 1 to 3; false after set_output_gamma(NaN) (witness)"
  },
  {
   "property": "C55",
   "status": "partial",
   "theorems": [
    "C55_palette_reported",
    "C55_remap_reported",
    "C55_no_draft",
    "C55_dithered_error_refuted"
   ],
   "note": "IEEE; the palette numbers and undithered remaps are proved; with dithering the documented meaning of the remapping error is false (witness)"
  },
  {
   "property": "C56",
   "status": "proved",
   "theorems": [
    "C56_step",
    "C56_within",
    "C56_colours",
    "C56_no_worse",
    "C56_no_worse_refuted"
   ],
   "note": "exact (real) arithmetic; the last theorem shows that the restriction to one opacity is needed"
  },
  {
   "property": "C57",
   "status": "partial",
   "theorems": [
    "C57_palette_colours_kept",
    "C57_palette_colours_kept_ieee",
    "C57_idempotent",
    "C57_idempotent_ieee",
    "C57_draft_refuted"
   ],
   "note": "exact arithmetic, any gamma; IEEE (pow32_accurate, pow32_unit) for gammas in [0.44, 1] and at most 2^29 pixels; false with a draft pass (witness)"
  },
  {
   "property": "C58",
   "status": "partial",
   "theorems": [
    "C58_histogram_partial",
    "C58_image_partial",
    "C58_duplicate_fixed_refuted",
    "C58_opacities_refuted"
   ],
   "note": "exact arithmetic, speeds 7 to 10, one opacity (missing: speeds 1 to 6, floating point); false for mixed opacities and for colours fixed twice (witnesses)"
  },
  {
   "property": "C59",
   "status": "proved",
   "theorems": [
    "C59_histogram",
    "C59_image",
    "C59_exact_histogram",
    "C59_exact_image"
   ],
   "note": "any arithmetic; the exact_ theorems in real arithmetic"
  },
  {
   "property": "C60",
   "status": "proved",
   "theorems": [
    "C60_histogram",
    "C60_nothing_counted",
    "C60_image",
    "C60_image_map",
    "C60_succeeds"
   ],
   "note": "any arithmetic; C60_image_map and C60_succeeds: IEEE with a powf that maps [0,1] into [0,1]; images that were not remapped before (C19 shows the others can fail)"
  },
  {
   "property": "C61",
   "status": "proved",
   "theorems": [
    "C61_cut",
    "C61_reachable",
    "C61_entries",
    "C61_early",
    "C61_fast_histogram",
    "C61_fast_image",
    "C61_quality_histogram",
    "C61_quality_image",
    "C61_fast_early",
    "C61_fast_early_image",
    "C61_quality_early",
    "C61_quality_early_image"
   ],
   "note": "exact (real) arithmetic; the procedure is spelled out in SpecCut.v; the order along a channel is up to 2/65535, the precision of the sort keys"
  },
  {
   "property": "C62",
   "status": "proved",
   "theorems": [
    "C62_with_fixed",
    "C62_fast_histogram",
    "C62_fast_image",
    "C62_few_histogram",
    "C62_few_image",
    "C62_quality_histogram",
    "C62_quality_image"
   ],
   "note": "exact (real) arithmetic; the procedure is spelled out in SpecFixed.v; for results: speeds 8 to 10, with a quality (one k-means step follows, a callback must not abort) or without, and few colours at quality 100"
  }
 ]
}