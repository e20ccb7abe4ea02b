{"id": "C01", "title": "Setting validation and atomic rejection", "statement": "Each Attributes setter accepts its argument exactly when it lies in the documented range (colors 2-256, speed 1-10, posterization 0-4, quality target <= 100 and minimum <= target); an accepted call makes the matching getter return the new value and leaves every other getter as it was; a rejected call returns ValueOutOfRange and changes no getter.", "quantifier": "every sequence of setter calls with every argument value of the parameter type, starting from a new Attributes", "why_tests_cant": "arbitrary call histories with arbitrary integers; a test fixes a few of them", "anchors": ["src/attr.rs: set_max_colors, set_quality, set_speed, set_min_posterization, quality, speed, max_colors, min_posterization"]}
{"id": "C02", "title": "quality() reads back what set_quality() stored", "statement": "After an accepted set_quality(min, target), quality() returns exactly (min, target) although only two floating-point errors are stored, for any pow() implementation with relative error below 2^-40; a fresh Attributes reports (0, 100).", "quantifier": "all min <= target in 0..=100, all IEEE double pow implementations within the accuracy bound", "why_tests_cant": "depends on the platform's libm pow; tests run against one libm and a few pairs", "anchors": ["src/quant.rs: quality_to_mse, mse_to_quality", "src/attr.rs: set_quality, quality"]}
{"id": "C03", "title": "The error-to-quality scale is monotone", "statement": "A smaller error never gets a lower quality number; the number is always in 0..=100; quality 100 is reported only for errors at most about 1e-6, and a NaN error reads as quality 0.", "quantifier": "all pairs of IEEE double errors, all pow implementations within the accuracy bound", "why_tests_cant": "quantifies over all doubles", "anchors": ["src/quant.rs: mse_to_quality, QuantizationResult::quantization_quality, remapping_quality"]}
{"id": "C04", "title": "Speed settings give a bounded, well-formed work plan", "statement": "For every accepted speed the three progress stages are non-negative and add up to 100, no unsigned subtraction in the setter underflows, palette search runs at most 47 passes and refinement at most 31 iterations for any number of histogram colours, and larger histograms never get more passes.", "quantifier": "all i32 speed values, all histogram sizes", "why_tests_cant": "bounds for every histogram size", "anchors": ["src/attr.rs: set_speed, feedback_loop_trials, kmeans_iterations"]}
{"id": "C05", "title": "C setters honour the documented ranges", "statement": "liq_set_quality and liq_set_min_posterization return LIQ_VALUE_OUT_OF_RANGE for every value outside the documented range (0-100 resp. 0-4).", "quantifier": "all C int / unsigned int arguments", "why_tests_cant": "tests try a handful of integers; truncation only shows at 256 and above", "anchors": ["imagequant-sys/src/ffi.rs: liq_set_quality, liq_set_min_posterization, liq_set_max_colors, liq_set_speed", "imagequant-sys/README.md"]}
{"id": "C06", "title": "Progress percentages stay in 0..100", "statement": "Every number passed to a progress callback during quantize() and remap is between 0 and 100.", "quantifier": "all images, histograms, settings, callback behaviours and image heights", "why_tests_cant": "computed in f32 from loop counters; tests do not enumerate every (trials, iterations, height) combination", "anchors": ["src/attr.rs: progress", "src/quant.rs: find_best_palette, refine_palette, QuantizationResult::new", "src/hist.rs: add_image, quantize_internal", "src/remap.rs: remap_to_palette_floyd"]}
{"id": "C07", "title": "Break from the progress callback aborts quantization", "statement": "If the progress callback returns Break and keeps returning Break, quantize() fails with Aborted (or fails for another reason earlier) and never returns a result; a single Break should have the same effect.", "quantifier": "all callbacks as functions of the whole call history, all inputs", "why_tests_cant": "depends on when in the history the callback breaks", "anchors": ["src/quant.rs: find_best_palette, refine_palette, QuantizationResult::new", "src/hist.rs: quantize_internal, add_image", "src/attr.rs: ControlFlow"]}
{"id": "C08", "title": "Palette size limit", "statement": "A successful quantization yields a palette with at least 1 and at most max_colors entries; palette_len() equals palette().len() before and after any number of remaps and setting changes.", "quantifier": "all histograms/images, all settings, all fixed colours, all callbacks, any floating-point behaviour (including NaN)", "why_tests_cant": "must hold for every image and every execution of a randomised-by-rounding search", "anchors": ["src/quant.rs: find_best_palette, palette_from_histogram, palette_len", "src/mediancut.rs: cut", "src/pal.rs: with_fixed_colors"]}
{"id": "C09", "title": "Fixed colours are in the palette", "statement": "Every one of the first min(n, max_colors) fixed colours (in the order they are kept) is present, unmodified by the search, in the internal palette of the result and stays there through refinement, sorting and remapping; its 8-bit value is returned exactly when its alpha is non-zero, no posterization is requested and pow is accurate.", "quantifier": "all histograms, all lists of fixed colours, all settings, all search executions", "why_tests_cant": "the palette search is a long numeric loop; tests cover one histogram", "anchors": ["src/pal.rs: with_fixed_colors, init_int_palette", "src/kmeans.rs: finalize, replace_unused_colors", "src/quant.rs: sort_palette"]}
{"id": "C10", "title": "Palettes from Histogram::quantize are frozen", "statement": "A result obtained from Histogram::quantize returns the same palette after remapping any images, any number of times, with any dithering level, as palette() would have returned without remapping.", "quantifier": "all histograms, all sequences of remaps and setting changes, all images, all thread schedules", "why_tests_cant": "arbitrary remap histories and schedules", "anchors": ["src/hist.rs: quantize", "src/quant.rs: QuantizationResult::new, write_remapped_image_rows_internal", "src/kmeans.rs: finalize"]}
{"id": "C11", "title": "Remapped indices are valid and complete", "statement": "A successful remap writes every one of the width*height output bytes, and each written index is smaller than the palette length; nothing outside those bytes is written.", "quantifier": "all images, palettes, backgrounds, importance maps, dithering levels, thread schedules, any floating-point behaviour including NaN, any prior buffer contents", "why_tests_cant": "unsafe MaybeUninit buffer filled by parallel code; a test sees one schedule", "anchors": ["src/remap.rs: remap_to_palette, remap_to_palette_floyd, dither_row", "src/quant.rs: remap_into, remap_into_vec", "src/seacow.rs: RowBitmapMut"]}
{"id": "C12", "title": "Undithered remap does not depend on thread scheduling", "statement": "With dithering level 0 the palette and all indices are the same for every assignment of rows to threads and every merge order.", "quantifier": "all schedules, all images, any floating-point behaviour", "why_tests_cant": "schedules cannot be enumerated by tests", "anchors": ["src/remap.rs: remap_to_palette", "src/kmeans.rs: merge, finalize", "src/quant.rs: write_remapped_image_rows_internal"]}
{"id": "C13", "title": "Minimum quality is enforced", "statement": "If set_quality(min, _) was accepted and quantize() returns a result that reports an error value, then the reported quality is at least min; the result always reports an error value if the callback never breaks.", "quantifier": "all images, all settings, all callbacks", "why_tests_cant": "every image", "anchors": ["src/quant.rs: QuantizationResult::new, refine_palette", "src/attr.rs: target_mse, kmeans_iterations"]}
{"id": "C14", "title": "Images with few colours are kept losslessly", "statement": "If the histogram has no more distinct colours than max_colors and the quality target is 100 (default), the palette consists of exactly the histogram's colours, the reported error is 0, and remapping (dithered or not) gives back each pixel's exact colour.", "quantifier": "all images with at most max_colors distinct colours", "why_tests_cant": "combinatorially many images; depends on exact-match behaviour of an approximate-looking search tree and error diffusion", "anchors": ["src/quant.rs: find_best_palette, palette_from_histogram", "src/nearest.rs", "src/remap.rs"]}
{"id": "C15", "title": "Palette order", "statement": "Without last_index_transparent all entries that are (partly) transparent precede all opaque ones, and within each group entries are in order of decreasing popularity; with it, whenever the palette has a transparent entry, the last entry has the lowest alpha of the palette. Sorting neither adds, drops nor changes colours.", "quantifier": "all palettes with finite colours", "why_tests_cant": "all palettes", "anchors": ["src/quant.rs: sort_palette"]}
{"id": "C16", "title": "Posterization is respected in the returned palette", "statement": "With set_min_posterization(b), every channel of every returned visible palette colour is a fixed point of b-bit posterization (low bits replicate the high bits), so at most 2^(8-b) levels occur per channel.", "quantifier": "all palettes, all b in 0..=4, all gammas", "why_tests_cant": "all palettes", "anchors": ["src/pal.rs: posterize_channel, init_int_palette"]}
{"id": "C17", "title": "Image constructors accept exactly the buffers that are large enough", "statement": "new_stride/new_stride_borrowed succeed exactly when the dimensions are non-zero and within limits, stride >= width, gamma is in [0,1] and the buffer holds at least stride*(height-1)+width pixels; then pixel (x,y) is buffer[y*stride+x] and no other memory is ever read.", "quantifier": "all buffer lengths, widths, heights, strides, gammas", "why_tests_cant": "integer overflow and off-by-one boundaries over all usize values", "anchors": ["src/rows.rs: for_pixels, row_rgba", "src/image.rs: new_stride_internal, new_internal, check_image_size"]}
{"id": "C18", "title": "Cloned images are independent", "statement": "Dropping, freeing or remapping one image never invalidates pixels that a clone of it (or an original) still reads: no sequence of safe API calls reads freed memory. Nor does one release memory twice or leak it: the library's live allocations are always those that the images hold, each held once.", "quantifier": "all sequences of create/clone/drop/quantize/remap operations on any number of images", "why_tests_cant": "use-after-free depends on the drop order", "anchors": ["src/rows.rs: Clone for DynamicRows", "src/seacow.rs: Clone for SeaCowInner", "src/image.rs: Clone for Image"]}
{"id": "C19", "title": "Image objects can be reused", "statement": "Once an image has been created it can be remapped any number of times, by any results, without failing; quantizing it again also works.", "quantifier": "all histories of quantize and remap calls on one image, all sizes", "why_tests_cant": "arbitrary histories", "anchors": ["src/rows.rs: free_histogram_inputs, prepare_iter, rgba_rows_iter", "src/quant.rs: write_remapped_image_rows_internal"]}
{"id": "C20", "title": "palette() follows the output gamma", "statement": "After an accepted set_output_gamma(g), palette() returns the palette converted with gamma g, no matter what was called before.", "quantifier": "all histories of palette()/set_output_gamma/set_dithering_level/remap calls", "why_tests_cant": "history dependent cache", "anchors": ["src/quant.rs: set_output_gamma, int_palette"]}
{"id": "C21", "title": "Numeric result setters validate their argument", "statement": "set_output_gamma accepts exactly values strictly between 0 and 1, set_dithering_level exactly values in [0,1], image gamma exactly [0,1], add_colors gamma exactly [0,1); a NaN is always rejected; rejected calls change nothing.", "quantifier": "all f32/f64 values including NaN, infinities and signed zeros; all object states", "why_tests_cant": "every floating point value", "anchors": ["src/quant.rs: set_output_gamma, set_dithering_level", "src/image.rs: new_internal", "src/hist.rs: add_colors, add_fixed_color"]}
{"id": "C22", "title": "Histogram counting", "statement": "Adding colours or image rows makes the histogram equal to the map from (posterized) colour to the saturating sum of the weights added so far; zero-weight colours leave no trace; the order of additions does not matter for the counts.", "quantifier": "all sequences of add_colors/add_image calls with unchanged posterization, all weights", "why_tests_cant": "all histories; saturation at 2^32-1", "anchors": ["src/hist.rs: add_color, add_colors, add_pixel_rows"]}
{"id": "C23", "title": "Coarsening the histogram keeps the total weight", "statement": "When the histogram switches to stronger posterization (too many colours, or an image added with a stronger setting) the weights of colours that fall together are added up, so the total weight is preserved.", "quantifier": "all histograms and all posterization steps, all hash iteration orders", "why_tests_cant": "needs colliding colours and depends on hash order", "anchors": ["src/hist.rs: init_posterize_bits, add_pixel_rows"]}
{"id": "C24", "title": "At most 256 fixed colours", "statement": "add_fixed_color fails once 256 fixed colours are present, and add_image fails with BufferTooSmall if the total number of fixed colours would exceed 256 (as documented).", "quantifier": "all sequences of add_fixed_color/add_image calls", "why_tests_cant": "histories", "anchors": ["src/hist.rs: add_image, add_fixed_color", "src/image.rs: add_fixed_color"]}
{"id": "C25", "title": "Pixels with zero importance are ignored", "statement": "A pixel whose importance is 0 in the user's importance map has no influence on the histogram: the result is the same as if the pixel were not in the image; conversely the automatically generated importance never drops a pixel (it is at least 80).", "quantifier": "all images and importance maps", "why_tests_cant": "all images", "anchors": ["src/hist.rs: add_pixel_rows, add_color", "src/image.rs: contrast_maps, set_importance_map"]}
{"id": "C26", "title": "Remap picks the nearest palette colour", "statement": "Without dithering and background each pixel gets a palette entry whose colour distance to the pixel is minimal over the whole palette, whatever hint or search order is used; the library's distance satisfies the triangle inequality that makes the pruned search exact.", "quantifier": "all palettes, pixels and hints, in exact (real) arithmetic", "why_tests_cant": "pruned tree search; a wrong pruning bound fails on rare geometric configurations only", "anchors": ["src/nearest.rs: Nearest::new, search, vp_create_node, vp_search_node", "src/pal.rs: diff"]}
{"id": "C27", "title": "Remapping error is well defined for every accepted image size", "statement": "For every image size the constructors accept, the number of pixels used as divisor of the remapping error (and in the huge-image test) is the true width*height.", "quantifier": "all accepted widths and heights", "why_tests_cant": "needs images with 2^32 pixels or more", "anchors": ["src/remap.rs: remap_to_palette", "src/quant.rs: optionally_generate_dither_map", "src/image.rs: check_image_size"]}
{"id": "C28", "title": "Dithered output does not depend on uninitialised memory", "statement": "The indices written by a dithered remap are a function of the image, palette and settings only, not of the previous contents of scratch buffers.", "quantifier": "all contents of uninitialised scratch rows, all images higher than 128 rows", "why_tests_cant": "depends on allocator contents", "anchors": ["src/remap.rs: remap_to_palette_floyd, dither_row"]}
{"id": "C29", "title": "No panics", "statement": "quantize() and remap never panic: all slice accesses, fixed-capacity pushes, expects and asserts succeed.", "quantifier": "all valid images, histograms, settings, fixed colours, backgrounds, callbacks, schedules and any floating-point behaviour including NaN", "why_tests_cant": "every input", "anchors": ["src/mediancut.rs", "src/kmeans.rs", "src/nearest.rs", "src/pal.rs", "src/quant.rs", "src/remap.rs", "src/hist.rs: finalize_builder"]}
{"id": "C30", "title": "Memory handed over by C callers is freed exactly once", "statement": "Whatever sequence of ownership calls, quantize, remap and destroy is made on a C image, each buffer whose ownership was transferred is passed to the free function exactly once, not before the image stops using it, and buffers not transferred are never freed.", "quantifier": "all call sequences on an image", "why_tests_cant": "histories of ownership flags", "anchors": ["src/rows.rs: set_memory_ownership, free_histogram_inputs", "src/seacow.rs: make_owned, Drop for SeaCowInner", "imagequant-sys/src/ffi.rs: liq_image_set_memory_ownership"]}
{"id": "C31", "title": "Contrast-map filters are exact and overflow free", "statement": "The 8-bit filters used for importance/edge maps stay in bounds, never overflow u16 sums, and compute exactly the clamped plus-shaped maximum/minimum and the clamped moving average of their input; outputs stay within the range of the inputs.", "quantifier": "all images of all sizes", "why_tests_cant": "all sizes and pixel values", "anchors": ["src/blur.rs: liq_max3, liq_min3, liq_op3, transposing_1d_blur, liq_blur"]}
{"id": "C32", "title": "Dithering bounds", "statement": "The dithered colour fed to the palette search has alpha within [0,1] and colour channels within [-0.1,1.1] whenever the source pixel is in range; pixels without noticeable accumulated error are passed through unchanged; the diffused error is exactly the quantization error (weights 7,3,5,1 of 16) in exact arithmetic.", "quantifier": "all pixels, errors and dithering levels", "why_tests_cant": "all real inputs", "anchors": ["src/remap.rs: get_dithered_pixel, dither_row"]}
{"id": "C33", "title": "A background equal to the image makes the output fully transparent", "statement": "If the background image has the same pixels as the image and the palette's best match for transparent black is fully transparent, every output pixel is that transparent index, with and without dithering.", "quantifier": "all images and palettes", "why_tests_cant": "all images", "anchors": ["src/remap.rs: remap_to_palette, dither_row", "src/image.rs: set_background"]}
{"id": "C34", "title": "Nested or mismatched backgrounds are rejected", "statement": "set_background succeeds exactly for a background of the same size that has no background itself; otherwise the image is unchanged; hence a background never has a background.", "quantifier": "all histories of set_background calls", "why_tests_cant": "histories", "anchors": ["src/image.rs: set_background"]}
{"id": "C35", "title": "Opaque images get opaque palettes", "statement": "If all histogram colours are fully opaque, every palette colour is fully opaque (exact arithmetic).", "quantifier": "all opaque histograms, all searches", "why_tests_cant": "all images", "anchors": ["src/mediancut.rs: weighed_average_color", "src/kmeans.rs: finalize"]}
{"id": "C36", "title": "Too small output buffers are rejected without side effects", "statement": "remap_into fails with BufferTooSmall exactly when the buffer is shorter than width*height, leaving the result, the image and the buffer untouched; a longer buffer is only written in its first width*height bytes.", "quantifier": "all buffer lengths and images", "why_tests_cant": "boundary over all sizes", "anchors": ["src/quant.rs: remap_into"]}
{"id": "C37", "title": "Failed remaps keep the previous result state", "statement": "A remap that fails or is aborted leaves palette(), the error values and settings of the result as they were.", "quantifier": "all failures at any point, all histories", "why_tests_cant": "abort points", "anchors": ["src/quant.rs: write_remapped_image_rows_internal"]}
{"id": "C38", "title": "8-bit colours survive the internal float representation", "statement": "Converting any colour with non-zero alpha to the internal format and back returns the identical 8-bit colour, for every accurate pow implementation; fully transparent colours become transparent black.", "quantifier": "all 2^32 colours, all gammas in [0.25,1], all accurate f32 pow implementations", "why_tests_cant": "2^32 colours times libm variants", "anchors": ["src/pal.rs: from_rgba, to_rgb, gamma_lut"]}
{"id": "C39", "title": "Median cut partitions the histogram", "statement": "Every histogram colour ends up in exactly one box; every split produces two non-empty boxes; nothing is lost or duplicated by the in-place partitioning.", "quantifier": "all histograms and weights", "why_tests_cant": "all inputs of an in-place quickselect", "anchors": ["src/mediancut.rs: qsort_partition, hist_item_sort_half, split, cut"]}
{"id": "C40", "title": "Palette search does not depend on threads in exact arithmetic", "statement": "One refinement step gives the same palette and error for every assignment of histogram batches to threads and every merge order, if additions are exact; the per-colour assignment is the same even with rounding.", "quantifier": "all schedules, all histograms", "why_tests_cant": "schedules", "anchors": ["src/kmeans.rs: iteration, iterate_batch, merge, try_merge"]}
{"id": "C41", "title": "C API rejects invalid handles", "statement": "Every C function that takes an object pointer checks the object's type tag and reports failure for freed or wrong objects instead of using them.", "quantifier": "all functions and all objects", "why_tests_cant": "all functions times all object states", "anchors": ["imagequant-sys/src/ffi.rs: bad_object, liq_set_speed, liq_image_create_custom"]}
{"id": "C42", "title": "User's importance map is preserved", "statement": "A map given with set_importance_map is used unchanged by every later quantize and remap of that image.", "quantifier": "all histories of quantize and remap calls", "why_tests_cant": "history dependent overwrite", "anchors": ["src/image.rs: contrast_maps, update_dither_map, set_importance_map"]}
{"id": "C43", "title": "Setting changes reset derived results only", "statement": "set_dithering_level and set_output_gamma discard the last remapping's palette and error, after which palette(), remapping_error and remapping_quality fall back to the quantization values; cloning a result preserves everything observable except the callback.", "quantifier": "all histories", "why_tests_cant": "histories", "anchors": ["src/quant.rs: set_dithering_level, set_output_gamma, remapping_error, Clone"]}
{"id": "C44", "title": "Dither map update is in bounds", "statement": "Computing the dither map from a remapped image never indexes out of bounds or underflows, keeps the map's size, and changes each cell at most once.", "quantifier": "all remapped images, palettes and edge maps", "why_tests_cant": "all images", "anchors": ["src/image.rs: update_dither_map"]}
{"id": "C46", "title": "Palettes stay inside the input's colours", "statement": "In exact arithmetic every colour of a freshly quantized palette lies in the convex hull (in the internal premultiplied, weighted colour space) of the colours put into the histogram and the fixed colours: no palette colour is outside the range of the image.", "quantifier": "all images and histograms, all settings, schedules and callbacks", "why_tests_cant": "all images", "anchors": ["src/mediancut.rs: weighed_average_color, split", "src/kmeans.rs: finalize, replace_unused_colors", "src/hist.rs: finalize_builder"]}
{"id": "C47", "title": "Grey images get grey palettes", "statement": "If every visible pixel and fixed colour is a shade of grey (red = green = blue), then so is every visible palette colour, in exact arithmetic, for any gamma, posterization and palette size.", "quantifier": "all grey images and histograms, all settings", "why_tests_cant": "all images", "anchors": ["src/mediancut.rs: weighed_average_color", "src/kmeans.rs: finalize", "src/pal.rs: to_rgb"]}
{"id": "C48", "title": "Colours weigh what they were counted", "statement": "Whatever calls built the histogram, every distinct colour enters the palette search with weight min(count/256, a tenth of the total count/256), a fixed colour that was never counted with ten times that cap, the total weight is the sum of the weights, and the 16 starting clusters group colours by which of their channels are in the upper half.", "quantifier": "all histograms built by any calls, all gammas", "why_tests_cant": "all histograms", "anchors": ["src/hist.rs: finalize_builder"]}
{"id": "C49", "title": "C images are small enough for 32-bit counts", "statement": "liq_image_create_rgba accepts a bitmap exactly when both sizes are positive, within INT_MAX/64 by INT_MAX/8 and 4*width*height fits in an int (and gamma is in 0..1); whatever is done with the images of a program afterwards, each has between 1 and INT_MAX/4 pixels, so 32-bit pixel counts do not overflow.", "quantifier": "all sizes, gammas and C programs (liq_image_create_custom restricted to such sizes)", "why_tests_cant": "the limits involve products near 2^31; the invariant is over all call sequences", "anchors": ["imagequant-sys/src/ffi.rs: check_image_size, liq_image_create_rgba, liq_image_create_rgba_rows", "src/remap.rs: width * height"]}
{"id": "C50", "title": "C calls touch only the objects they are given", "statement": "A C call changes no object other than those passed to it; it only adds new objects.", "quantifier": "all states, calls and callbacks", "why_tests_cant": "all functions times all other objects", "anchors": ["imagequant-sys/src/ffi.rs"]}
{"id": "C51", "title": "C programs that keep to the rules are defined and hold only Rust objects", "statement": "In every C program whose calls pass live objects of the right type to the functions that do not check them, never use an image after handing it over as a background, and pass buffers of the documented sizes, every call returns (no undefined behaviour, no abort), and every object is one the Rust interface could have made, so that all properties of the Rust interface hold for it.", "quantifier": "all C call sequences, callbacks, schedules and unspecified behaviour", "why_tests_cant": "quantifies over all programs", "anchors": ["imagequant-sys/src/ffi.rs", "src/capi.rs", "imagequant-sys/libimagequant.h"]}
{"id": "C52", "title": "The colour difference is the same function on every target", "statement": "The x86-64 vector code for the difference of two colours computes bit for bit what the portable code computes; the NEON code computes the same function in exact arithmetic, and in floating point stays within a relative 2^-21 of it for all colours of moderate size. (That all targets therefore pick the same nearest colour is false.)", "quantifier": "all pairs of colours, including NaN and infinite channels for x86-64", "why_tests_cant": "a test run covers one target; 2^256 pairs of colours", "anchors": ["src/pal.rs:37-114"]}
{"id": "C53", "title": "Preparing for dithering is redundant", "statement": "The hidden call optionally_prepare_for_dithering_with_background_set never breaks its objects: with a buffer of the image's size it never panics, fails only with OutOfMemory when the remapping error is not a number, keeps palette size, fixed colours, errors and settings, and a later dithered remap shows the palette it would show without the call. (Its comment, \"100% redundant and unnecessary\", is false: it changes what palette() returns and the error reported after the remap; and it panics on a buffer larger than the image, which remap_into accepts.)", "quantifier": "all images, results, settings, backgrounds, callbacks, schedules and buffers", "why_tests_cant": "the call is hidden and untested; its effect depends on image, palette, dither map and thread schedule", "anchors": ["src/quant.rs:74-81", "src/quant.rs:188-220", "src/remap.rs:29-125"]}
{"id": "C54", "title": "Palette colours are always numbers, so remapping always succeeds", "statement": "Every channel of every palette colour is a finite number between 0 and 1, whatever was quantized and whatever calls follow; so the sum of remapping errors is never NaN, a remap into a large enough buffer fails only when the callback asks to stop, and the preparation call never fails. (Proved for speed 4 and above, and for objects without fixed colours or whose counts sum to at most 255*2^31. False once set_output_gamma was given NaN, which it accepts.)", "quantifier": "all images, histograms, settings with speed 4 or more, callbacks, schedules and later calls", "why_tests_cant": "an overflow of f32 weights needs an adversarial histogram and many search rounds; a NaN would surface as a spurious OutOfMemory only on that input", "anchors": ["src/quant.rs:345-461", "src/kmeans.rs:15-154", "src/mediancut.rs:15-328", "src/hist.rs:150-345", "src/remap.rs:29-125", "src/quant.rs:134-155"]}
{"id": "C55", "title": "Reported errors and qualities mean what they say", "statement": "After quantization the reported quality is the largest minimum quality that would have accepted the reported error, and both stay the palette's numbers through later remaps; after an undithered remap the remapping error is the mean distance between the pixels and the colours chosen for them and the remapping quality is the largest minimum quality that accepts it. (With dithering the documented \"mean square error of last remapping done\" is false: when no draft is made the numbers of the palette search are reported whatever image was remapped.)", "quantifier": "all images, results, settings, callbacks, schedules and f64 errors", "why_tests_cant": "tests check a few reported numbers on fixed images; the meaning is a statement about every error value, threshold and schedule", "anchors": ["src/quant.rs:165-193", "src/remap.rs:29-125", "src/remap.rs:321-323", "imagequant-sys/libimagequant.h"]}
{"id": "C56", "title": "One refinement step is a weighted k-means step", "statement": "In exact arithmetic, whatever the thread schedule: a refinement step gives every histogram colour to a palette entry at the least distance and remembers it; the error it returns is the pixel-weighted mean of the charged distances (of the colour itself, or when re-weighting of the colour mirrored at its entry); re-weighting sets the new weight to (2 old + pixel weight)(1/2 + distance); a fixed entry does not change; an entry with assigned weight becomes the weighted mean of its colours (fully transparent entries keep their colour) and takes that weight as popularity; the entries without weight are refilled in palette order, each with the histogram colour that is then furthest from the palette, and keep their colour only if every histogram colour already is in the palette. Consequently, among colours of one opacity a step without re-weighting never increases the weighted sum of distances to the palette. (Without the restriction on opacity that is false.)", "quantifier": "all histograms, palettes of 1..256 entries, weights and schedules", "why_tests_cant": "tests run a few images on one schedule and look only at the final palette; the step is a statement about every histogram, palette and thread interleaving, and the worsening needs three colours of different opacity", "anchors": ["src/kmeans.rs:15-154", "src/quant.rs:409-435", "src/nearest.rs:127-180"]}
{"id": "C57", "title": "Palette colours are kept; remapping twice is remapping once", "statement": "An image without a background whose pixels all are colours of the result's palette is remapped to itself: every pixel gets an index whose palette colour is exactly its own 8-bit colour (or both are invisible), and without dithering the reported error is 0. So the picture that a remap gives is a fixed point of a second remap with the same result. This needs the image to have the gamma of the result and no draft pass to be made (dithering off, speed 7 or more, or a drafted image); with a draft it is false, because the draft moves the palette.", "quantifier": "all results, images of palette colours, thread schedules, dithering levels", "why_tests_cant": "tests remap a few images once; the claim is about every palette and every image over it, and the failing case needs posterization, a fixed colour and a draft together", "anchors": ["src/remap.rs:15-120", "src/quant.rs:83-118", "src/pal.rs:308-323", "src/nearest.rs:127-180"]}
{"id": "C58", "title": "The palette is no worse than the error reported", "statement": "The error a result reports is an upper bound of the palette's actual error on the histogram it was made of: the mean, under the histogram's weights, of each colour's distance to the nearest palette entry. If a minimum quality is set and the callback lets the work finish, the actual error is also at most what that quality allows (a third of it for an image of up to 256 colours). In exact arithmetic this holds at speeds 7 and above for images and histograms of one opacity (fixed colours only with a target quality below 100). It is false for mixed opacities, because the last refinement step may worsen the palette after its error was measured, and with target quality 100 when a colour is fixed twice.", "quantifier": "all reachable histograms and images of one opacity, all settings of speed 7 to 10, thread schedules, hash orders and callbacks", "why_tests_cant": "tests compare the reported quality with thresholds on a few pictures and never recompute the error of the palette returned; the error is measured one step before the palette that is returned", "anchors": ["src/quant.rs:32-72", "src/quant.rs:356-435", "src/kmeans.rs:15-154", "src/attr.rs:294-327"]}
{"id": "C59", "title": "Palette and reported error come from the same step", "statement": "Unless an image of few colours is kept as it is, a result reports an error only together with the palette made by the very step of the search that measured it: the step starts from a palette of at most the colours allowed and works on the histogram's colours with their pixel weights; the search never pairs one trial's palette with another trial's error. At speed 7 and above, or if the callback never stops the work, the step does not re-weight colours; then, in exact arithmetic, the error reported is the weighted mean distance of the histogram's colours to the palette before the step, and the palette returned is that palette after a k-means step (fixed entries unchanged, entries with members at their weighted mean, unused ones kept or refilled with a histogram colour).", "quantifier": "all reachable histograms and images, settings, thread schedules, hash orders and callbacks; any arithmetic for the pairing, exact arithmetic for its meaning", "why_tests_cant": "tests see only the final palette and a quality number; which of the dozens of trial palettes and errors were paired is not observable from one run", "anchors": ["src/quant.rs:32-72", "src/quant.rs:356-435", "src/kmeans.rs:15-154"]}
{"id": "C60", "title": "Quantization fails only for the documented reasons", "statement": "quantize (of an image that was not remapped before, or of a histogram) fails with Aborted only if the callback asked to stop during that call, with QualityTooLow only if a minimum quality was set, and with Unsupported exactly when nothing counts (an empty histogram; an image without fixed colours whose user-supplied importance map is 0 everywhere), never otherwise; so without a stopping callback and without a minimum quality an image of which any pixel counts is always quantized.", "quantifier": "all images, histograms, settings, callbacks and schedules", "why_tests_cant": "all inputs; includes arithmetic going wrong in the palette search", "anchors": ["src/attr.rs: quantize", "src/hist.rs: quantize_internal, add_image, init_posterize_bits", "src/quant.rs: QuantizationResult::new, find_best_palette"]}
{"id": "C61", "title": "Median cut takes the worst box and cuts it at its weighted median", "statement": "In exact arithmetic the initial palette is made by starting from the histogram's clusters (if they are at most a third of the colours wanted; else from one box) and repeatedly cutting the box of highest priority (weight times largest channel variance, raised if its furthest colour is beyond a limit that grows with the number of boxes) along its channel of largest variance, at the place where half of the total pull of the colours from the median colour is reached, up to the precision of the 16-bit sort keys; every box stands by its weighted mean, or by the member nearest to the mean if it has 3 to 499 colours or the mean is of no use; it stops at the number of colours wanted, when no box has two colours, or when the summed distance is at most the target, so a palette of fewer entries than wanted meets the target; each palette entry has the weight of its box's pixels and each colour is marked with its box. At speeds 8 to 10 this is the whole search: without a quality set the palette is exactly what median cut gives and no error is reported; with one set, the palette is a single k-means step from it and the error reported is that of the median cut's palette; and a palette of fewer colours than allowed has a mean distance of at most the square of the posterization step (without a quality) or a reported error within the target (images without fixed colours).", "quantifier": "all histograms with positive weights and clusters covering the colours, all numbers of colours 1 to 256, targets and limits, all behaviours of the selection and pivot choice", "why_tests_cant": "all histograms; relates the in-place partial quicksort to the weighted median", "anchors": ["src/mediancut.rs: mediancut, MedianCutter, MBox, hist_item_sort_half, qsort_partition"]}
{"id": "C62", "title": "Fixed colours replace the entries nearest to them", "statement": "In exact arithmetic, putting fixed colours into a palette goes one by one, in their order, for at most as many as there may be colours: each takes the place and the weight (negated, to mark it as fixed) of the nearest entry that no fixed colour has taken yet; all other entries keep colour and weight. When there are more fixed colours than entries, entries are added first so that each has a place. For quantization results this is proved at speeds 8 to 10 and for few colours: at speeds 8 to 10 without a quality the palette is the median cut of C61 with the fixed colours put in this way; with a quality, and with no callback aborting, the reported error is that palette's mean distance and the palette returned is one k-means step from it, in which fixed colours stay as they are; for few colours at quality 100 it is all of the colours with the fixed ones put in this way.", "quantifier": "all palettes, all lists of fixed colours, all numbers of colours; for results: all reachable histograms and images, all hash and callback behaviours", "why_tests_cant": "all palettes and fixed colours; the code swaps entries in place while it searches among the rest", "anchors": ["src/pal.rs: with_fixed_colors", "src/quant.rs: find_best_palette, palette_from_histogram"]}
