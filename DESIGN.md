# Design of the formal model of libimagequant

Source: `/repo` (libimagequant 4.x, Rust, read as text). Prover: Coq 8.16.1 with Flocq for IEEE floats.
Properties: `properties.jsonl`; claims and theorem names: `MANIFEST.json`; wrong-program tests:
`seeded/LOG.jsonl`. Build: `cd rocq && coq_makefile -f _CoqProject -o Makefile && make -j4`.

## 1. The model

The model is a set of total, computable Gallina functions in `rocq/theories/`, written function by
function after the Rust source; each definition cites file and lines. `&mut` becomes "returns the new
value", `Result`/`Option` stay data, and every panic path (index out of bounds, `ArrayVec` overflow,
`expect`, failed `assert!`, integer overflow that would matter) is the explicit value `Panic` of the type
`res`. Because the functions compute, examples and witnesses are evaluated by `vm_compute`.

### Arithmetic
The code computes in `f32`/`f64`. The model is *parametric in the arithmetic*: the class `Arith`
(Arith.v) lists the operations the code uses, without any law. Theorems come in four strengths, and each
says which it is:

* **(G) any arithmetic** - no law assumed, or only `CastLaws`/`OrdLaws` (Order.v): casts to `u8` give
  bytes, comparisons behave like comparisons (NaN allowed). IEEE floats and the reals are both instances
  (`ieee_cast`, `real_cast`), so such theorems hold for IEEE with NaN and infinities, any rounding, any libm.
* **(I) IEEE** - the instance `ieee pow32 pow64` (Ieee.v) built from Flocq's `binary_float 24 128` and
  `53 1024`, round to nearest even. `pow32`/`pow64` are parameters because Rust does not specify `powf`;
  where a value of `powf` matters the theorem has an accuracy hypothesis (SpecPow.v: `pow64_accurate` relative
  error 2^-40, `pow32_accurate` 2^-20; ContrastIeee.v: `pow32_unit`, [0,1] is mapped into [0,1]). PowRef.v
  shows that these hypotheses are satisfiable (the correctly rounded power).
* **(R) exact** - the instance `real big` over Coq's `R` (RealArith.v); `big` stands for the largest float.
  Used where the property itself is about exact arithmetic (geometry, averages, thread independence).

### Unspecified behaviour
HashMap/HashSet iteration order, `select_nth_unstable`, thread schedules and merge order, number of CPUs
and contents of uninitialised buffers are fields of the record `unspec` (World.v), restricted only by the
contract `unspec_ok` that std/rayon document ("is a permutation", "every chunk is processed once"). The
progress callback is a function of everything it has been told before. All theorems quantify over all of
them. USeq.v shows that the contract is satisfiable.

### Reachable objects
`usable` (AttrFacts.v) and the mutually inductive `hist_r`, `image_r`, `result_r` (Api.v) are the objects a
program can obtain through any sequence of calls, accepted or rejected, aborted or not. Theorems about
objects are stated for these, so no theorem rests on an invariant that callers could break. For C callers
`c_reach` (FfiReach.v) plays the same role.

### What is modelled
| Rust file | Coq file | left out |
|---|---|---|
| attr.rs | Attr.v, Quant.v | logging, `new_image*` wrappers (they call the image constructors) |
| pal.rs | Pal.v (portable `diff`), PalSimd.v (x86-64 and NEON `diff`, see C52) | feature `large_palettes` |
| hist.rs | Hist.v | the hash function itself (any iteration order is allowed instead) |
| mediancut.rs | MedianCut.v | nothing |
| nearest.rs | Nearest.v | nothing |
| kmeans.rs | Kmeans.v | allocation failure; thread-local sums are merged in any order |
| blur.rs | Blur.v | nothing (u16 overflow is a `Panic`) |
| rows.rs, image.rs | ImageM.v (values), Mem.v (who owns and frees what) | allocation failure |
| seacow.rs | Mem.v | `RowBitmap`/`MutCow` (row views are lists of rows) |
| quant.rs | Quant.v, Remap.v | `Debug`, thread-pool details |
| remap.rs | Remap.v | scheduling is an oracle |
| rayoff.rs | the one-CPU case of the oracles | - |
| capi.rs, ffi.rs | Ffi.v | `liq_attr_create_with_allocator`, `liq_received_invalid_pointer`, log texts |
| lib.rs, error.rs | Base.v (error codes) | re-exports, `Display` |

Simplifications, repeated at the definitions: allocation never fails; release build (debug assertions off,
integer arithmetic wraps where the code relies on it); 64-bit `usize`; default features; `sort_by` is a
stable insertion sort and sorting with inconsistent comparators (NaN keys) does not panic; the flat `f_pixels`
cache is a list of rows; `Iterator::sum` of floats starts from +0 (newer std starts from -0.0); lifetimes are
taken as enforced by the borrow checker in Rust programs and as obligations in C programs; reading the tag of
a released C object gives what the destructor left there, as ffi.rs hopes.

### Files
Model: Base, Arith, Pal, PalSimd, World, Attr, Hist, MedianCut, Nearest, Kmeans, Blur, ImageM, Quant, Remap, Mem, Ffi.
Specifications written independently of the model: SpecAttr, SpecPow, SpecHist, SpecImage, SpecPal,
SpecProgress, SpecDither, SpecReport, SpecFinite, SpecDist, SpecKmeans, SpecPromise, SpecCut, SpecFixed, and the definitions at the head of the Prop files, MemFacts, FfiFacts, FfiReach.
Theorems: Prop*.v (each with `Print Assumptions` and a concrete `Example`). Everything else is proofs.

## 2. Trusted base
* Coq's kernel including its virtual machine (`vm_compute`), and Flocq's *definitions* of binary floats
  (Flocq adds no axioms).
* The model: that the Gallina functions say what the Rust code does. This is by reading only; the code was not run.
* The contracts `unspec_ok` of std and rayon, and the `powf` hypotheses where a theorem names them.
* Axioms: only those of Coq's standard library that `Print Assumptions` lists, at most these four:
  `ClassicalDedekindReals.sig_not_dec`, `ClassicalDedekindReals.sig_forall_dec`,
  `FunctionalExtensionality.functional_extensionality_dep`, `Classical_Prop.classic` (they come with the reals
  and with Flocq). The table of section 3 gives for each theorem "-" (closed under the global context) or the
  abbreviations N (sig_not_dec), F (sig_forall_dec), E (functional extensionality), C (classic).
* No axioms, parameters, admitted proofs, functors or module types of our own; no kernel check is switched off.

## 3. Properties, theorems and their axioms
"proved" means the statement in `properties.jsonl` holds of the model as stated; "partial" means that the
statement is false for the code, or proved with a restriction, as the note says. A theorem `..._refuted` is a
concrete counterexample to the property; a theorem `..._partial` is the part that holds.

| id | property | status | theorems (axioms) | note |
|---|---|---|---|---|
| C01 | Setting validation and atomic rejection | proved | C01_settings_follow_the_documentation (NFEC), C01_settings_any_arithmetic (-) | IEEE-754 arithmetic, any pow with relative error <= 2^-40; call histories of any length with arguments of the Rust parameter types |
| C02 | quality() reads back what set_quality() stored | proved | C02_quality_reads_back (NFEC) | any double pow with relative error <= 2^-40 |
| C03 | The error-to-quality scale is monotone | proved | C03_quality_scale_monotone (NFEC), C03_thresholds_strictly_decrease (NFEC) | all doubles incl. NaN and infinities |
| C04 | Speed settings give a bounded, well-formed work plan | proved | C04_work_plan (-), C04_faster_is_less_work (-) | any call history; holds for any arithmetic |
| C05 | C setters honour the documented ranges | partial | C05_answers (-), C05_ranges_partial (-), C05_truncated_refuted (-) | exact answers for all arguments; ranges honoured for all colour counts and speeds and for qualities/bits below 256; false above because of truncation to u8 (witnesses) |
| C06 | Progress percentages stay in 0..100 | partial | C06_quantize_progress (NFEC), C06_remap_progress_partial (NFEC), C06_remap_progress_refuted (NFEC) | quantizing: proved for all inputs, settings and callbacks; remapping: proved for at most 2^24 rows or at most 2048 CPUs; false beyond: f32 rounding exceeds 100 for 21511045 rows on 4639 CPUs (witness); IEEE, any pow |
| C07 | Break from the progress callback aborts quantization | partial | C07_break_aborts (-), C07_single_break_aborts (-), C07_single_break_refuted (NFEC) | a callback that keeps breaking always aborts; add_image and remap are aborted by a single Break; a single Break during the palette search is ignored (witness), so the last clause of the property is false |
| C08 | Palette size limit | proved | C08_palette_size (-), C08_palette_size_stable (-) | any arithmetic, any reachable result object |
| C09 | Fixed colours are in the palette | proved | C09_histogram_fixed (NFEC), C09_image_fixed (NFEC), C09_fixed_returned (NFEC) | IEEE; internal presence for any pow, exact 8-bit value for any pow32 with relative error <= 2^-20 and gamma in [0.25,1] |
| C10 | Palettes from Histogram::quantize are frozen | partial | C10_frozen (NFEC), C10_frozen_calls (NFEC), C10_posterized_refuted (NFEC) | proved for all sequences without palette() calls; with palette() calls in between proved for no posterization, gamma in [0.25,1] and no NaN alpha; false with posterization (witness) |
| C11 | Remapped indices are valid and complete | proved | C11_remap_complete (-) | any arithmetic, schedule, callback and previous buffer contents |
| C12 | Undithered remap does not depend on thread scheduling | proved | C12_schedule_independent (-), C12_repeatable (-) | any arithmetic; also independent of callbacks and of earlier remaps of the image |
| C13 | Minimum quality is enforced | partial | C13_minimum_quality_partial (NFEC), C13_minimum_kept_partial (NFEC), C13_quality_reported (-), C13_nan_refuted (NFEC) | proved whenever the reported error is not NaN, which in IEEE arithmetic is so at speed 4 or more when some counted colour is not a fixed colour (missing: speeds 1 to 3); false for a histogram of only fixed colours, whose error is 0/0 = NaN and is accepted (witness) |
| C14 | Images with few colours are kept losslessly | partial | C14_palette_is_histogram (-), C14_lossless (NFEC), C14_lossless_ieee (NFEC), C14_duplicate_fixed_refuted (NFEC), C14_small_gamma_refuted (NFEC) | palette part proved for any arithmetic; lossless remapping (dithered or not, any schedule), with any distinct fixed colours, proved in exact arithmetic, and in IEEE arithmetic (pow32_accurate, pow32_unit) for images of at most 2^29 pixels, gamma in [0.44, 1]; false when the same colour is fixed twice, and in IEEE arithmetic for gammas near 0 (witnesses); IEEE gammas in between not covered |
| C15 | Palette order | proved | C15_palette_order (-), C15_sort_reorders (-) | any ordered arithmetic; alphas and popularities not NaN |
| C16 | Posterization is respected in the returned palette | proved | C16_posterization (-), C16_levels (-) | any arithmetic; the only exception is the filler colour for fully transparent entries, which is not a visible colour |
| C17 | Image constructors accept exactly the buffers that are large enough | proved | C17_constructor_accepts_exactly (-), C17_pixels_are_the_buffer (-) | any arithmetic; out-of-bounds reads would be Panic in the model |
| C18 | Cloned images are independent | partial | C18_no_released_memory_partial (-), C18_clone_refuted (-), C18_released_once (-) | proved for all programs that clone only images with borrowed pixels, callback images or images whose pixels were already released; false for images that own their pixels (two witnesses); that safe Rust programs release everything exactly once is proved for all clones |
| C19 | Image objects can be reused | partial | C19_remap_again_partial (-), C19_requantize_partial (-), C19_requantize_refuted (NFEC) | remapping again never fails except for Break or a NaN error sum (C54: no NaN at speed 4 or more); quantizing again works before any remap and is false after two remaps (witness) |
| C20 | palette() follows the output gamma | partial | C20_gamma_ignored (-), C20_gamma_refuted (NFEC), C20_gamma_partial (-) | the property is false for the code: palette() keeps the colours of its first call; refuted for every accurate pow; the case that holds is proved |
| C21 | Numeric result setters validate their argument | partial | C21_dithering_level (NFEC), C21_image_gamma (NFEC), C21_add_colors_gamma (NFEC), C21_output_gamma_partial (NFEC), C21_output_gamma_nan_refuted (NFEC), C21_fixed_gamma_unchecked (NFEC) | all exact except set_output_gamma, which accepts NaN (refuted); histogram add_fixed_color does not check its gamma |
| C22 | Histogram counting | proved | C22_histogram_counts (-), C22_order_irrelevant (-) | any call history on a histogram (accepted, rejected, aborted calls), any hash order |
| C23 | Coarsening the histogram keeps the total weight | partial | C23_coarsening_partial (-), C23_total_weight_preserved_refuted (NFEC) | the property is false for the code (colours that fall together overwrite each other); refuted by an API-level witness, and what does hold is proved |
| C24 | At most 256 fixed colours | partial | C24_add_fixed_color_limit (-), C24_add_image_limit_refuted (NFEC) | add_fixed_color part proved; the add_image part is false for the code (witness: 400 fixed colours) |
| C25 | Pixels with zero importance are ignored | proved | C25_zero_importance_ignored (-), C25_generated_importance (NFEC), C25_powf_assumption_satisfiable (NFEC), C25_generated_importance_exact (NFEC) | the lower bound 80 for IEEE arithmetic assumes that f32 powf maps [0,1] to [0,1] for exponents >= 0 (shown satisfiable); also proved in exact arithmetic without assumption on powf |
| C26 | Remap picks the nearest palette colour | proved | C26_distance_is_metric (NFEC), C26_search_nearest (NFEC), C26_remap_nearest (NFEC), C26_search_near_ieee (NFEC), C26_remap_near_ieee (NFEC), C26_exact_ieee_refuted (NFEC) | exact (real) arithmetic, as the property says, with a largest-float stand-in >= 1; also in IEEE arithmetic up to a distance of 2^-17 (pow32_unit; output gamma a positive number), and a proof that without the tolerance it is false there |
| C27 | Remapping error is well defined for every accepted image size | partial | C27_error_is_mean_partial (-), C27_large_image_refuted (NFEC) | the reported error is the mean distance when width*height < 2^32; false for 65536x65536 images (no finite error is ever reported) |
| C28 | Dithered output does not depend on uninitialised memory | partial | C28_scratch_unused_partial (-), C28_scratch_refuted (NFEC) | true when the image is one chunk or no dither map is generated; false in general (witness: 1x129 image, two CPUs) |
| C29 | No panics | proved | C29_no_panic (-), C29_quantize_errors (-) | modelled entry points add_image, Histogram::quantize, Attributes::quantize, remap_into, remapped; any reachable objects; allocation failure not modelled |
| C30 | Memory handed over by C callers is freed exactly once | partial | C30_freed_once_partial (-), C30_own_rows_refuted (-) | proved for all programs in which ownership is not requested for rows the library has already dropped and the caller keeps to the documented rules; false otherwise (witness) |
| C31 | Contrast-map filters are exact and overflow free | proved | C31_max_filter (-), C31_min_filter (-), C31_blur_filter (-), C31_filter_chain (-) | the blur window is 2*size cells wide, one less than its comment says |
| C32 | Dithering bounds | proved | C32_range (NFEC), C32_pixels_in_range (NFEC), C32_unnoticeable (-), C32_diffusion (-), C32_conserved (NFEC) | range and conservation: exact (real) arithmetic; what is diffused where, and that unnoticeable errors change nothing: any arithmetic, through to whole remaps with any background, schedule and dither map |
| C33 | A background equal to the image makes the output fully transparent | proved | C33_same_background (NFEC), C33_same_background_ieee (NFEC) | exact arithmetic: whenever the palette has a fully transparent colour; IEEE: relative to the entry the search returns for transparent black, for a powf that maps [0,1] into [0,1] and a positive output gamma |
| C34 | Nested or mismatched backgrounds are rejected | proved | C34_background_accepted_exactly (-), C34_never_nested (-) | any history of an image |
| C35 | Opaque images get opaque palettes | proved | C35_opaque (NFEC), C35_opaque_histogram (NFEC) | exact (real) arithmetic, as the property says; through to the 8-bit palette, any posterization; histogram: any sequence of adding calls, quantized once |
| C36 | Too small output buffers are rejected without side effects | proved | C36_buffer_too_small (-) |  |
| C37 | Failed remaps keep the previous result state | proved | C37_failed_remap_keeps_result (-) |  |
| C38 | 8-bit colours survive the internal float representation | proved | C38_round_trip (NFEC), C38_transparent (NFEC), C38_small_gamma_refuted (NFEC) | any pow32 with relative error <= 2^-20 and 0^y = 0; C38_small_gamma_refuted shows that the bound on gamma is needed (1/64 fails) |
| C39 | Median cut partitions the histogram | proved | C39_partition (-), C39_reachable (-), C39_qsort_partition (-), C39_boxes_nonempty_exact (NFEC), C39_boxes_nonempty (NFEC), C39_split_nonempty (NFEC), C39_split_nonempty_exact (NFEC) | partitioning: any arithmetic, any weights; non-empty boxes: exact arithmetic without restriction, IEEE for at most 2^40 colours with channels in [-1,1] and adjusted weights in [0,2^60] |
| C40 | Palette search does not depend on threads in exact arithmetic | proved | C40_assignment (-), C40_step_exact (NFEC), C40_quantize_exact (NFEC) | assignment: any arithmetic; palette and error: exact (real) arithmetic, as the property says, up to the whole quantization |
| C41 | C API rejects invalid handles | partial | C41_rejects_partial (-), C41_unchecked_refuted (-) | proved for 40 of the 49 functions; false for the other nine (a witness for each) |
| C42 | User's importance map is preserved | partial | C42_map_kept_partial (-), C42_map_refuted (NFEC) | kept by quantize, add_image and undithered remaps; false for the first dithered remap (witness) |
| C43 | Setting changes reset derived results only | proved | C43_settings_reset (-), C43_clone (-) |  |
| C44 | Dither map update is in bounds | proved | C44_dither_map_update (-) | any arithmetic with byte-valued casts |
| C46 | Palettes stay inside the input's colours | proved | C46_palette_in_hull (NFEC), C46_histogram_palette_in_hull (NFEC) | exact (real) arithmetic; images, and histograms made by any sequence of adding calls and quantized once |
| C47 | Grey images get grey palettes | proved | C47_grey (NFEC), C47_grey_histogram (NFEC) | exact (real) arithmetic, through to the 8-bit palette |
| C48 | Colours weigh what they were counted | proved | C48_weights (NFEC), C48_weight_monotone (FE), C48_groups (-) | weights: exact (real) arithmetic, all histograms reachable by any calls including earlier quantizations; grouping: any arithmetic |
| C49 | C images are small enough for 32-bit counts | proved | C49_accepted_sizes (-), C49_no_overflow (-) |  |
| C50 | C calls touch only the objects they are given | proved | C50_frame (-) |  |
| C51 | C programs that keep to the rules are defined and hold only Rust objects | proved | C51_c_programs (-) | the documented rules are spelled out in FfiReach.v (proper); reading the tag of a released object is taken to give what the destructor left |
| C52 | The colour difference is the same function on every target | proved | C52_x86_identical (NFEC), C52_exact_arithmetic (NFEC), C52_neon_close (NFEC), C52_neon_nearest_refuted (NFEC) | NaN payloads not modelled; NEON closeness for channels of magnitude at most 2^30 |
| C53 | Preparing for dithering is redundant | partial | C53_prepare_partial (-), C53_prepared_twice (-), C53_same_palette (-), C53_redundant_refuted (NFEC), C53_large_buffer_refuted (NFEC) | safety, frame and palette after the remap proved (the last when a dither map results, i.e. images of at least 4 by 4 pixels); full redundancy is false (two witnesses) |
| C54 | Palette colours are always numbers, so remapping always succeeds | partial | C54_palette_finite_partial (NFEC), C54_remap_succeeds_partial (NFEC), C54_prepare_succeeds_partial (NFEC), C54_error_finite_partial (NFEC), C54_nan_gamma_refuted (NFEC) | IEEE, all rounding; speed 4 or more, no fixed colours or counts up to 255*2^31; missing: speeds 1 to 3; false after set_output_gamma(NaN) (witness) |
| C55 | Reported errors and qualities mean what they say | partial | C55_palette_reported (NFEC), C55_remap_reported (NFEC), C55_no_draft (-), C55_dithered_error_refuted (NFEC) | IEEE; the palette numbers and undithered remaps are proved; with dithering the documented meaning of the remapping error is false (witness) |
| C56 | One refinement step is a weighted k-means step | proved | C56_step (NFEC), C56_within (NFEC), C56_colours (NFEC), C56_no_worse (NFEC), C56_no_worse_refuted (NFEC) | exact (real) arithmetic; the last theorem shows that the restriction to one opacity is needed |
| C57 | Palette colours are kept; remapping twice is remapping once | partial | C57_palette_colours_kept (NFEC), C57_palette_colours_kept_ieee (NFEC), C57_idempotent (NFEC), C57_idempotent_ieee (NFEC), C57_draft_refuted (NFEC) | exact arithmetic, any gamma; IEEE (pow32_accurate, pow32_unit) for gammas in [0.44, 1] and at most 2^29 pixels; false with a draft pass (witness) |
| C58 | The palette is no worse than the error reported | partial | C58_histogram_partial (NFEC), C58_image_partial (NFEC), C58_duplicate_fixed_refuted (NFEC), C58_opacities_refuted (NFEC) | exact arithmetic, speeds 7 to 10, one opacity (missing: speeds 1 to 6, floating point); false for mixed opacities and for colours fixed twice (witnesses) |
| C59 | Palette and reported error come from the same step | proved | C59_histogram (-), C59_image (-), C59_exact_histogram (NFEC), C59_exact_image (NFEC) | any arithmetic; the exact_ theorems in real arithmetic |
| C60 | Quantization fails only for the documented reasons | proved | C60_histogram (-), C60_nothing_counted (-), C60_image (-), C60_image_map (NFEC), C60_succeeds (NFEC) | any arithmetic; C60_image_map and C60_succeeds: IEEE with a powf that maps [0,1] into [0,1]; images that were not remapped before (C19 shows the others can fail) |
| C61 | Median cut takes the worst box and cuts it at its weighted median | proved | C61_cut (NFEC), C61_reachable (NFEC), C61_entries (NFEC), C61_early (NFEC), C61_fast_histogram (NFEC), C61_fast_image (NFEC), C61_quality_histogram (NFEC), C61_quality_image (NFEC), C61_fast_early (NFEC), C61_fast_early_image (NFEC), C61_quality_early (NFEC), C61_quality_early_image (NFEC) | exact (real) arithmetic; the procedure is spelled out in SpecCut.v; the order along a channel is up to 2/65535, the precision of the sort keys |
| C62 | Fixed colours replace the entries nearest to them | proved | C62_with_fixed (NFEC), C62_fast_histogram (NFEC), C62_fast_image (NFEC), C62_few_histogram (NFEC), C62_few_image (NFEC), C62_quality_histogram (NFEC), C62_quality_image (NFEC) | exact (real) arithmetic; the procedure is spelled out in SpecFixed.v; for results: speeds 8 to 10, with a quality (one k-means step follows, a callback must not abort) or without, and few colours at quality 100 |

## 4. Findings
Refuted by a machine-checked witness (theorem in brackets):

1. Palette search ignores a single `Break` of the progress callback; only a callback that keeps breaking aborts. [C07_single_break_refuted]
2. A colour frozen by `Histogram::quantize` can change between `palette()` and a remap when posterization is on, because `init_int_palette` rounds the palette in place. [C10_posterized_refuted]
3. A histogram with only fixed colours has total weight 0, its error is 0/0 = NaN, which passes the minimum-quality check. [C13_nan_refuted]
4. A colour fixed twice takes two palette entries and pushes out an image colour while the reported error is 0. [C14_duplicate_fixed_refuted]
5. Images that own their pixels are cloned with pointers into the original's buffer: use after free once the original is dropped or remapped twice. [C18_clone_refuted]
6. After two remaps an image's source is freed; quantizing it again fails with `Unsupported`. [C19_requantize_refuted]
7. `palette()` keeps the colours of its first call after `set_output_gamma`. [C20_gamma_refuted]
8. `set_output_gamma` accepts NaN; `Histogram::add_fixed_color` does not check its gamma. [C21_output_gamma_nan_refuted]
9. Coarsening the histogram (`init_posterize_bits`) lets colours that fall together overwrite each other's counts. [C23_total_weight_preserved_refuted]
10. `add_image` does not limit the total number of fixed colours to 256. [C24_add_image_limit_refuted]
11. `width * height` is computed in `u32`: a 65536x65536 image is accepted and never gets a finite remapping error. [C27_large_image_refuted]
12. The warm-up rows of a dithering chunk read an uninitialised output row. [C28_scratch_refuted]
13. `LIQ_OWN_ROWS` after the library has dropped the rows frees a dangling pointer. [C30_own_rows_refuted]
14. The first dithered remap overwrites a user's importance map. [C42_map_refuted]
15. `liq_set_quality` and `liq_set_min_posterization` truncate to `u8`: 300 is taken for 44, 256 for 0. [C05_truncated_refuted]
16. Nine C functions do not check their objects: `liq_set_speed` and `liq_image_create_custom` use anything; the opacity functions ignore the handle; the four destructors and `liq_image_set_background` release the memory whatever the tag says (double free, wrong type, background equal to the image). After `liq_image_set_background` the handed-over object keeps its tag. [C41_unchecked_refuted]
17. Remapping progress can exceed 100 (by 2^-17) on very tall images with very many CPUs: 21511045 rows of 128 pixels on 4639 CPUs; never with at most 2^24 rows or at most 2048 CPUs. [C06_remap_progress_refuted]
18. The NEON colour difference adds in another order, so an AArch64 build can pick another nearest colour than x86-64. [C52_neon_nearest_refuted]
19. The hidden `optionally_prepare_for_dithering_with_background_set` is documented as "100% redundant and unnecessary" but changes what `palette()` returns and the error reported after a remap; it panics on a buffer larger than the image, which `remap_into` accepts. [C53_redundant_refuted, C53_large_buffer_refuted]
20. `liq_get_remapping_error` is documented as the "mean square error of last remapping done", but a dithered remap that makes no draft (speed 7 or more, or an image that already has a dither map) reports the numbers of the palette search: a palette made for a red and blue image reports error 0 and quality 100 after showing black, green, white and grey as red and blue. [C55_dithered_error_refuted]
21. After `set_output_gamma(NaN)`, which is accepted (finding 8), remapping a black pixel without dithering fails with `OutOfMemory`. [C54_nan_gamma_refuted]
22. In floating point the palette search need not return the nearest colour: when two distances differ by less than the arithmetic sees (here by about 2^-40), the hint decides. C26_search_near_ieee bounds the difference by 2^-17. [C26_exact_ieee_refuted]
23. A refinement step (`Kmeans::iteration`) can increase the weighted distance of the histogram to the palette: entries move to the mean of their colours, which is not the point of least sum for a distance that takes the worse of a black and a white background. Three colours of opacity 3/4, 1 and 1/2 raise the sum by a third; among colours of one opacity it never rises (C56_no_worse). [C56_no_worse_refuted]
24. With a draft pass (dithering on, speed 6 or less) an image made only of palette colours need not come back unchanged: the draft assigns pixels to the unrounded palette and moves it, so with posterization two entries can fall together and a colour that the palette had is lost. [C57_draft_refuted]
25. The error a result reports need not bound the error of its palette: a refinement step measures the palette it starts from and returns the one it makes, and for colours of different opacity that one can be worse (finding 23). Five colours of opacities 40 to 255 reduced to two at speed 10: the palette's error is more than 1% above the one reported, so a minimum quality can be missed unnoticed (`C58_opacities_refuted`). With one opacity the reported error is an upper bound in exact arithmetic (`C58_image_partial`), except that with target quality 100 a colour fixed twice pushes out another colour while error 0 is reported (`C58_duplicate_fixed_refuted`).
26. Every constructor accepts a gamma close to 0. The powers of dark channels then underflow: with gamma 1/64 the grey levels 1 and 2 both become 0, so the two colours become one. A histogram of both gives a palette without one of them, although error 0 is reported (`C38_small_gamma_refuted`, `C14_small_gamma_refuted`).

Seen while modelling, not stated as theorems:

* Progress is not monotone. After a `Break` ignored in the search, `palette_error` may be `None`, so the minimum quality is not checked.
* `insert_fixed` overwrites the count of an existing equal colour with 0. Fixed colours of two images share indices, and `HashColor` equality includes the index, so duplicates are kept.
* `add_image` is not atomic: an aborted call may have added rows.
* Posterization is not applied to the filler colour (71,112,76,0) of transparent entries; `< MIN_OPAQUE_A` and `> MIN_OPAQUE_A` leave a gap at equality.
* The blur comment says the window is `2*size+1` cells wide; it is `2*size`.
* `liq_histogram_add_colors` with 0 entries returns LIQ_OK where the Rust function returns an error; `liq_image_set_importance_map` accepts larger buffers; `bad_object` dereferences a reference, so NULL is formally undefined before the check.
* `set_memory_ownership` may have taken the rows before it returns `Unsupported` for the pixels; `LIQ_OWN_PIXELS` does nothing on boxed pixels.
* `liq_image_set_background` with a bad image but good background returns an error and destroys the background.
* `find_best_palette`'s `ValueOutOfRange` branch cannot be reached. NaN sort keys could panic in newer std.
* A second remap of an image uses the dither map of the first.
* Median cut: a box of total weight 0 averages to the all-zero colour.

## 5. Wrong programs
`seeded/LOG.jsonl` has one line per edit of a model definition that makes an English claim false: the
definition, the edit, the claim, the theorems that failed, and the theorems that had to be tightened because
they still held. Edits were made in scratch copies, never in this tree. Theorems tightened as a result are
listed there in the field for tightened theorems.
