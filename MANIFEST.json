{
 "claims": [
  {
   "property": "C01",
   "status": "proved",
   "theorems": [
    "C01_two_input_pixelwise",
    "C01_in_place_allowed",
    "C01_separate_allowed",
    "C01_whole_images",
    "C01_value_form"
   ],
   "note": "Region, whole-image and value-returning forms. In-place use is covered through no_hazard (C01_in_place_allowed)."
  },
  {
   "property": "C02",
   "status": "partial",
   "theorems": [
    "C02_subtract_all_layouts_refuted",
    "C02_subtract_partial"
   ],
   "note": "The full claim is false (C02_subtract_all_layouts_refuted): Subtract passes the first input twice to OptimiseRoi, so a padded second input is read with a wrong layout. Proved for the layouts where rows are not merged or both inputs share the row size."
  },
  {
   "property": "C03",
   "status": "proved",
   "theorems": [
    "C03_invert",
    "C03_threshold",
    "C03_threshold_band",
    "C03_threshold_band_rejects",
    "C03_lookup_table",
    "C03_lookup_table_rejects",
    "C03_copy"
   ],
   "note": "Copy needs disjoint regions (memcpy on overlapping ranges is undefined)."
  },
  {
   "property": "C04",
   "status": "proved",
   "theorems": [
    "C04_one_image",
    "C04_two_images",
    "C04_three_images",
    "C04_four_images",
    "C04_resize_transpose",
    "C04_tone_and_morphology",
    "C04_filters"
   ],
   "note": "Invalid-ROI rejection for every modelled region function; the rejected call returns Throw with the memory unchanged."
  },
  {
   "property": "C05",
   "status": "proved",
   "theorems": [
    "C05_two_inputs",
    "C05_same_colour_count",
    "C05_gray",
    "C05_transpose",
    "C05_colour_conversion",
    "C05_split_merge",
    "C05_readers"
   ],
   "note": "All modelled scalar functions; Copy, non-horizontal Flip and Resize (C21, C22) have their own hypotheses because they use memcpy. Histogram is covered for gray scale only (see C17)."
  },
  {
   "property": "C06",
   "status": "proved",
   "theorems": [
    "C06_fill"
   ],
   "note": ""
  },
  {
   "property": "C07",
   "status": "proved",
   "theorems": [
    "C07_flip",
    "C07_flip_twice"
   ],
   "note": ""
  },
  {
   "property": "C08",
   "status": "proved",
   "theorems": [
    "C08_transpose",
    "C08_transpose_twice"
   ],
   "note": ""
  },
  {
   "property": "C09",
   "status": "proved",
   "theorems": [
    "C09_split",
    "C09_merge",
    "C09_split_merge",
    "C09_extract_channel"
   ],
   "note": ""
  },
  {
   "property": "C10",
   "status": "proved",
   "theorems": [
    "C10_rgb_to_bgr",
    "C10_rgb_to_bgr_twice"
   ],
   "note": ""
  },
  {
   "property": "C11",
   "status": "partial",
   "theorems": [
    "C11_rgb_to_bgr_in_place_refuted"
   ],
   "note": "False: the in-place call gives (r,g,r). Separate output: C10."
  },
  {
   "property": "C12",
   "status": "proved",
   "theorems": [
    "C12_to_16bit",
    "C12_to_8bit",
    "C12_round_trip"
   ],
   "note": ""
  },
  {
   "property": "C13",
   "status": "partial",
   "theorems": [
    "C13_colour_offset_refuted"
   ],
   "note": "False: the input column is not multiplied by the colour count. What holds is C12 (column 0 or gray scale)."
  },
  {
   "property": "C14",
   "status": "proved",
   "theorems": [
    "C14_to_rgb",
    "C14_to_gray",
    "C14_same_colour_copies",
    "C14_round_trip"
   ],
   "note": ""
  },
  {
   "property": "C15",
   "status": "partial",
   "theorems": [
    "C15_rgba_to_gray_refuted",
    "C15_rgba_to_rgb_refuted"
   ],
   "note": "False for gray and RGB output: RGBA pixels are read with a stride of 3 and 1 bytes. Memory safety for RGBA input holds (C05_colour_conversion)."
  },
  {
   "property": "C16",
   "status": "proved",
   "theorems": [
    "C16_histogram"
   ],
   "note": ""
  },
  {
   "property": "C17",
   "status": "partial",
   "theorems": [
    "C17_colour_histogram_refuted",
    "C17_colour_histogram_out_of_bounds_refuted"
   ],
   "note": "False: the loop steps by the colour count up to width instead of width*colour count; too few pixels are counted, or, if the width is not a multiple of the colour count, the loop runs out of the image."
  },
  {
   "property": "C18",
   "status": "proved",
   "theorems": [
    "C18_masked_histogram"
   ],
   "note": ""
  },
  {
   "property": "C19",
   "status": "proved",
   "theorems": [
    "C19_vertical",
    "C19_horizontal",
    "C19_profiles_agree_with_sum"
   ],
   "note": ""
  },
  {
   "property": "C20",
   "status": "proved",
   "theorems": [
    "C20_sum",
    "C20_sum_exact"
   ],
   "note": ""
  },
  {
   "property": "C21",
   "status": "proved",
   "theorems": [
    "C21_resize",
    "C21_resize_source_inside",
    "C21_resize_same_size_is_copy"
   ],
   "note": ""
  },
  {
   "property": "C22",
   "status": "partial",
   "theorems": [
    "C22_resize_value_form_refuted",
    "C22_resize_value_form_overflows",
    "C22_resize_safe_partial",
    "C22_resize_more_channels_refuted",
    "C22_resize_value_gray_partial"
   ],
   "note": "False: the value-returning form allocates a gray-scale image for colour input and writes outside it; the region form does the same when the output has fewer channels. Proved: the region form is safe when the input has no more channels than the output; the value form is right for gray scale."
  },
  {
   "property": "C23",
   "status": "partial",
   "theorems": [
    "C23_standard_undefined",
    "C23_claim_refuted",
    "C23_normalize_partial",
    "C23_constant",
    "C23_rejects"
   ],
   "note": "Under the C++ standard Normalize is undefined for nearly every non-constant region (C23_standard_undefined, C23_claim_refuted): table entries no sample uses are converted from doubles outside uint8_t. With any compiler that yields some value there, the claim holds (C23_normalize_partial); an exact half may be rounded either way (C23_case_half). Constant regions: C23_constant, separate output."
  },
  {
   "property": "C24",
   "status": "proved",
   "theorems": [
    "C24_is_equal",
    "C24_is_binary"
   ],
   "note": ""
  },
  {
   "property": "C25",
   "status": "proved",
   "theorems": [
    "C25_accumulate",
    "C25_accumulate_wrong_length"
   ],
   "note": ""
  },
  {
   "property": "C26",
   "status": "proved",
   "theorems": [
    "C26_get_set",
    "C26_get_reads",
    "C26_outside_throws",
    "C26_set_points"
   ],
   "note": ""
  },
  {
   "property": "C27",
   "status": "partial",
   "theorems": [
    "C27_bulk_write_refuted"
   ],
   "note": "False: points before the first invalid one are already written when the exception is thrown."
  },
  {
   "property": "C28",
   "status": "partial",
   "theorems": [
    "C28_dilate_partial",
    "C28_erode_partial",
    "C28_whole_partial",
    "C28_claim_refuted",
    "C28_rejects"
   ],
   "note": "Proved for regions of fewer than 2^31 columns and rows. Beyond that the pointer array is allocated too small (2 * width wraps in 32 bits) and the claim is refuted."
  },
  {
   "property": "C29",
   "status": "partial",
   "theorems": [
    "C29_threshold",
    "C29_threshold_near_optimal",
    "C29_exact_claim_refuted",
    "C29_rejects",
    "C29_gamma_table",
    "C29_gamma_correction",
    "C29_gamma_rejects",
    "C29_gamma_identity"
   ],
   "note": "Threshold: first index maximising the double formula with the value sums in uint32_t, for all histograms of fewer than 2^32 pixels; if the sum of all values fits in 32 bits the result is optimal for the exact variance up to 2^-31. Without that condition the version with exact sums is refuted (C29_exact_claim_refuted). Gamma: pow is an oracle with values in [0,1]."
  },
  {
   "property": "C30",
   "status": "proved",
   "theorems": [
    "C30_replace_channel",
    "C30_rgb_to_rgba",
    "C30_rgba_to_rgb",
    "C30_round_trip"
   ],
   "note": ""
  },
  {
   "property": "C31",
   "status": "partial",
   "theorems": [
    "C31_four_gigabytes_refuted"
   ],
   "note": "False: height*rowSize is computed modulo 2^32; a 65536x65536 image is left untouched by Fill."
  },
  {
   "property": "C32",
   "status": "partial",
   "theorems": [
    "C32_two_input",
    "C32_two_input_rejects",
    "C32_invert",
    "C32_threshold",
    "C32_threshold_band",
    "C32_one_input_rejects",
    "C32_threshold_limits_refuted"
   ],
   "note": "Equality with the scalar functions (values, untouched memory, memory safety, rejected arguments) for every build and every ISA. The clause 'identical exceptions' is false for the two-limit Threshold (C32_threshold_limits_refuted): minThreshold > maxThreshold is rejected by the scalar function only."
  },
  {
   "property": "C33",
   "status": "proved",
   "theorems": [
    "C33_subtract"
   ],
   "note": "Whenever the vector path is taken; the scalar fallback has the defect of C02."
  },
  {
   "property": "C34",
   "status": "proved",
   "theorems": [
    "C34_sum",
    "C34_sum_rejects"
   ],
   "note": ""
  },
  {
   "property": "C35",
   "status": "proved",
   "theorems": [
    "C35_accumulate",
    "C35_accumulate_rejects"
   ],
   "note": "SSE2, NEON and the scalar fallback, gray-scale images (the vector function rejects colour images which the scalar function accepts)."
  },
  {
   "property": "C36",
   "status": "partial",
   "theorems": [
    "C36_avx_accumulate_refuted",
    "C36_avx512_accumulate_refuted"
   ],
   "note": "False: the 256/512-bit unpack instructions work inside 128-bit lanes, so accumulator entries receive the wrong pixels."
  },
  {
   "property": "C37",
   "status": "proved",
   "theorems": [
    "C37_vertical",
    "C37_horizontal",
    "C37_rejects"
   ],
   "note": ""
  },
  {
   "property": "C38",
   "status": "partial",
   "theorems": [
    "C38_avx_horizontal_refuted",
    "C38_avx512_horizontal_refuted",
    "C38_neon_horizontal_refuted"
   ],
   "note": "False on all three: AVX2/AVX-512 permute 128-bit lanes, NEON adds the low half of each register twice."
  },
  {
   "property": "C39",
   "status": "proved",
   "theorems": [
    "C39_to_16bit",
    "C39_to_8bit",
    "C39_any_column",
    "C39_rejects"
   ],
   "note": "Includes agreement of the two implementations for every start column of colour images (C39_any_column), where both share the defect of C13."
  },
  {
   "property": "C40",
   "status": "partial",
   "theorems": [
    "C40_sse_to_16bit_refuted",
    "C40_avx_to_16bit_refuted",
    "C40_avx512_to_16bit_refuted",
    "C40_avx_to_8bit_refuted",
    "C40_avx512_to_8bit_refuted"
   ],
   "note": "False: both stores of ConvertTo16Bit write the low half of the register; the AVX2/AVX-512 pack instructions of ConvertTo8Bit permute lanes."
  },
  {
   "property": "C41",
   "status": "proved",
   "theorems": [
    "C41_to_rgb",
    "C41_to_rgb_copy",
    "C41_flip",
    "C41_rgb_to_bgr",
    "C41_rejects",
    "C41_rejects_colour"
   ],
   "note": "Separate input and output regions; also the rejections and the colour copy of ConvertToRgb."
  },
  {
   "property": "C42",
   "status": "partial",
   "theorems": [
    "C42_to_rgb_refuted",
    "C42_flip_refuted",
    "C42_rgb_to_bgr_refuted"
   ],
   "note": "False: an x86 build with SSE2 but not SSSE3 throws. With SSSE3 or NEON: C41."
  },
  {
   "property": "C43",
   "status": "proved",
   "theorems": [
    "C43_container_consistent",
    "C43_no_leak",
    "C43_images_well_formed",
    "C43_images_disjoint",
    "C43_resize_result"
   ],
   "note": "C++ objects are names in a program state; an exception is caught by the program, which goes on."
  },
  {
   "property": "C44",
   "status": "partial",
   "theorems": [
    "C44_resize_refuted",
    "C44_mutate_refuted",
    "C44_mutate_partial"
   ],
   "note": "False: width*colourCount wraps in uint32_t (C44_resize_refuted) and mutate compares products modulo 2^32, so an empty image becomes 65536x65536 without a buffer (C44_mutate_refuted). Proved below 2^32: C43_container_consistent, C44_mutate_partial."
  },
  {
   "property": "C45",
   "status": "proved",
   "theorems": [
    "C45_copy_construction_equal",
    "C45_copy_assignment_equal",
    "C45_independent",
    "C45_move_transfers",
    "C45_move_construction_transfers"
   ],
   "note": ""
  },
  {
   "property": "C46",
   "status": "partial",
   "theorems": [
    "C46_self_assignment_refuted",
    "C46_self_assignment_empties"
   ],
   "note": "False: self-assignment clears the image before reading the source (C46_self_assignment_empties holds for every image)."
  },
  {
   "property": "C47",
   "status": "proved",
   "theorems": [
    "C47_region_splitter"
   ],
   "note": ""
  },
  {
   "property": "C48",
   "status": "partial",
   "theorems": [
    "C48_two_input",
    "C48_subtract_refuted",
    "C48_subtract_partial",
    "C48_invert",
    "C48_threshold",
    "C48_threshold_band",
    "C48_lookup_table",
    "C48_to_gray",
    "C48_to_rgb",
    "C48_extract_channel",
    "C48_rgb_to_bgr",
    "C48_merge",
    "C48_split",
    "C48_flip",
    "C48_transpose",
    "C48_two_input_rejects",
    "C48_one_input_rejects",
    "C48_no_threads"
   ],
   "note": "Proved for every interleaving of single loads and stores of the strip tasks, every thread count and every region, for AbsoluteDifference, BitwiseAnd/Or/Xor, Maximum, Minimum, Invert, Threshold (both), LookupTable, ConvertToGrayScale, ConvertToRgb, ExtractChannel, RgbToBgr, Merge, Split, Flip and Transpose, with the rejected arguments. For Subtract the full claim is refuted: the single-threaded function merges rows without looking at the layout of the second image (C02), the strips do not, so the two differ; C48_subtract_partial gives the layouts for which they agree."
  },
  {
   "property": "C49",
   "status": "proved",
   "theorems": [
    "C49_sum",
    "C49_histogram",
    "C49_projection_profile",
    "C49_is_equal",
    "C49_rejects"
   ],
   "note": ""
  },
  {
   "property": "C50",
   "status": "partial",
   "theorems": [
    "C50_projection_profile_refuted",
    "C50_vertical_partial",
    "C50_horizontal_throws"
   ],
   "note": "Refuted: for a colour image the horizontal profile of Function_Pool throws (the result vector is given width elements instead of width * colorCount). Missing: the horizontal direction for colour images; the vertical direction is proved for every colour count (C50_vertical_partial)."
  },
  {
   "property": "C51",
   "status": "partial",
   "theorems": [
    "C51_resize_refuted",
    "C51_resize_partial",
    "C51_one_thread_partial"
   ],
   "note": "Refuted: strips are resized one by one, so that source rows differ from the single-threaded result (3 rows to 4 with two threads). Proved where the number of strips divides both extents along the cut axis, in particular for one thread. Missing: all other size pairs, for which the claim is false."
  },
  {
   "property": "C52",
   "status": "partial",
   "theorems": [
    "C52_exactly_once_partial",
    "C52_at_most_once_partial",
    "C52_no_undefined_partial",
    "C52_exactly_once_refuted"
   ],
   "note": "False in general: the comparison of completedTasks with _taskCount at thread_pool.cpp:69 may run after the next group set _taskCount, so wait of the next group returns before its tasks ran (group sizes 2 then 1, two workers). Proved for every interleaving in which no group of a provider is smaller than the one before and nothing is cancelled: each id runs exactly once, wait returns only after all ended and reports success iff none threw, and no undefined step."
  },
  {
   "property": "C53",
   "status": "partial",
   "theorems": [
    "C53_no_deadlock_refuted",
    "C53_progress_partial",
    "C53_fair_completion_partial"
   ],
   "note": "False in general: group sizes 2, 1, 1 reach a state in which no execution finishes the group. Proved when no group of a provider is smaller than the one before and nothing is cancelled: some worker can always step while a group is outstanding, and every fair execution finishes the group."
  },
  {
   "property": "C54",
   "status": "partial",
   "theorems": [
    "C54_cancelled_group_hangs",
    "C54_cancel_refuted",
    "C54_nothing_queued_partial"
   ],
   "note": "False: clear, remove, stop and the destructor drop queued tasks without counting them, and a dropped group is never finished by any continuation (proved for all reachable states with a queued task). Proved: removing a provider with nothing queued changes nothing."
  },
  {
   "property": "C55",
   "status": "partial",
   "theorems": [
    "C55_restart_refuted",
    "C55_resize_partial"
   ],
   "note": "False: stop leaves _exit set for the workers that existed, so resize to the same number starts threads that leave at once. Proved: a pool that is only resized, never stopped, keeps making progress."
  },
  {
   "property": "C56",
   "status": "proved",
   "theorems": [
    "C56_no_overlap",
    "C56_new_range_is_fresh"
   ],
   "note": "new is an oracle constrained to return unused memory; reserve is only called with nothing allocated in the arena (otherwise see C59). Calls from several threads are not interleaved: each operation holds the mutex."
  },
  {
   "property": "C57",
   "status": "proved",
   "theorems": [
    "C57_conservation",
    "C57_each_byte_in_one_chunk"
   ],
   "note": ""
  },
  {
   "property": "C58",
   "status": "partial",
   "theorems": [
    "C58_restore_refuted",
    "C58_restore_partial",
    "C58_restore_history_partial"
   ],
   "note": "False: _merge joins any adjacent chunks of one level, so after freeing 1,2,0,3 the arena stays fragmented. Proved: allocations freed in reverse order restore the allocator exactly, from every reachable state."
  },
  {
   "property": "C59",
   "status": "partial",
   "theorems": [
    "C59_failure_refuted",
    "C59_failed_new_partial"
   ],
   "note": "False: reserve with live allocations throws while holding the mutex; the next allocate blocks forever. Proved: a failing new leaves the allocator unchanged and unlocked."
  },
  {
   "property": "C60",
   "status": "partial",
   "theorems": [
    "C60_components_partial",
    "C60_claim_refuted",
    "C60_rejects"
   ],
   "note": "Proved for every region with (width + 2) * (height + 1) < 2^32. Beyond that the end of the scan wraps in 32 bits and the scan reads outside the map (C60_claim_refuted: a black region of 1 x 1431655765; dark_out for all sizes where the wrapped end is before the start)."
  },
  {
   "property": "C61",
   "status": "partial",
   "theorems": [
    "C61_empty_range_rejected",
    "C61_filters_partial",
    "C61_integer_filters",
    "C61_sort_partial",
    "C61_best_partial",
    "C61_computed",
    "C61_sort_refuted",
    "C61_best_of_none"
   ],
   "note": "Filters: kept iff every enabled measurement lies in its closed interval, for all parameters; the length based ones for regions up to 32768 x 32768 (beyond, the squared distance overflows int32_t) and limits and values that are not NaN; width, height and size limits for every region C60 covers. Empty ranges are rejected for all parameters. Sorting gives a permutation, largest first, for any std::sort that meets its contract, when the criterion was computed; sorting by a criterion no limit was set for reads indeterminate values (C61_sort_refuted); the best of an empty list is undefined."
  },
  {
   "property": "C62",
   "status": "proved",
   "theorems": [
    "C62_file_format",
    "C62_round_trip",
    "C62_whole_image"
   ],
   "note": "Proved up to the exact limits of the format: file below 2^32 bytes, width below 2^31, at least 76 bytes. C62_file_format also says what bytes Save writes."
  },
  {
   "property": "C63",
   "status": "partial",
   "theorems": [
    "C63_small_partial",
    "C63_claim_refuted"
   ],
   "note": "Refuted: a 1 x 1 RGB image gives a file of 58 bytes, which Load takes for no bitmap; C63_small_partial: so for every region whose file is shorter than 76 bytes. C62_round_trip covers all others."
  },
  {
   "property": "C64",
   "status": "partial",
   "theorems": [
    "C64_colours_partial",
    "C64_claim_refuted"
   ],
   "note": "Every row is mapped through the palette except the first one in the file, which Load leaves as it is (C64_claim_refuted)."
  },
  {
   "property": "C65",
   "status": "partial",
   "theorems": [
    "C65_safe_partial",
    "C65_claim_refuted",
    "C65_height_refuted"
   ],
   "note": "Proved for all files that state less than 2^30 pixels, valid or not. Refuted beyond: a file of 1.4 GB whose row of colours wraps to 4 bytes overflows the buffer (C65_claim_refuted); height -2^31 is negated (C65_height_refuted)."
  },
  {
   "property": "C66",
   "status": "proved",
   "theorems": [
    "C66_round_trip",
    "C66_byte_swap",
    "C66_swap_twice"
   ],
   "note": "Any element size; the swap is shown to reverse the bytes of each element."
  },
  {
   "property": "C67",
   "status": "partial",
   "theorems": [
    "C67_padded_partial",
    "C67_claim_refuted"
   ],
   "note": "Refuted: Save writes the padding, Load expects none, so every padded image comes back empty (C67_padded_partial)."
  },
  {
   "property": "C68",
   "status": "proved",
   "theorems": [
    "C68_find",
    "C68_local",
    "C68_short",
    "C68_rejects"
   ],
   "note": "C68_find gives the complete result in terms of a function of one line; C68_local: only ROI pixels matter; short lines and rejected arguments covered as well."
  },
  {
   "property": "C69",
   "status": "partial",
   "theorems": [
    "C69_group_refuted",
    "C69_contrast_refuted"
   ],
   "note": "Refuted twice: a group factor of ROI extent + 2 reads below the region (C69_group_refuted); a right offset near 2^32 wraps and a range outside the line is summed (C69_contrast_refuted). C68 is the safe domain."
  },
  {
   "property": "C70",
   "status": "proved",
   "theorems": [
    "C70_median",
    "C70_middle_unique",
    "C70_rejects",
    "C70_whole_image"
   ],
   "note": "For every std::nth_element that meets its contract; input and output regions do not overlap. The median is unique (C70_middle_unique). Rejected kernel sizes and images covered."
  },
  {
   "property": "C71",
   "status": "partial",
   "theorems": [
    "C71_gradient_filters",
    "C71_rejects",
    "C71_standard_refuted",
    "C71_whole_image"
   ],
   "note": "Proved when the conversion of an out-of-range float gives any value: the result is the exact magnitude to within 1/2 + 2^-12 of an integer, only the image is read, all indices are in range. Read strictly, making the table is undefined behaviour, because entries no gradient reaches exceed 255 (C71_standard_refuted). C71_gradient_filters says exactly which pixels become 0."
  },
  {
   "property": "C72",
   "status": "proved",
   "theorems": [
    "C72_partition",
    "C72_exact"
   ],
   "note": "C72_partition holds for every number type and C library. C72_exact: in exact arithmetic the call returns, the line is one of those asked for and no set of points fitting into a strip of twice the tolerance along a tried line is larger than the one reported. Fewer than 2^31 - 1 steps per side."
  },
  {
   "property": "C73",
   "status": "proved",
   "theorems": [
    "C73_round_trip",
    "C73_ieee",
    "C73_rejects"
   ],
   "note": "Exact arithmetic: the result is the input times (2 c^2)^2, so the input for c = 1/sqrt 2. For float and double and values up to 255 in magnitude the result differs by less than 0.001 (C73_ieee), the tolerance of the unit test. Other sizes are rejected."
  },
  {
   "property": "C74",
   "status": "proved",
   "theorems": [
    "C74_solves",
    "C74_throws",
    "C74_singular",
    "C74_safe",
    "C74_rejects"
   ],
   "note": "Exact arithmetic with any positive pivot limit: the result is the unique solution; singular matrices are reported; an exception implies a vector with an entry 1 that the matrix maps to entries below the limit. Index safety holds for every number type (C74_safe). Sizes below 2^32, output vector at least as long as the system (see C95)."
  },
  {
   "property": "C75",
   "status": "proved",
   "theorems": [
    "C75_product",
    "C75_readout",
    "C75_permutation"
   ],
   "note": "C75_product holds for every number type; C75_readout for even sizes and every conversion to bytes."
  },
  {
   "property": "C76",
   "status": "partial",
   "theorems": [
    "C76_in_place_refuted",
    "C76_readout_refuted",
    "C76_real_partial"
   ],
   "note": "Both halves refuted: in place the new real part is used for the imaginary part (i * i has imaginary part -1); of a 3 x 1 array column 2 is never written. In place is right when the second operand is real (C76_real_partial), which the unit test relies on."
  },
  {
   "property": "C77",
   "status": "proved",
   "theorems": [
    "C77_analysis",
    "C77_roi",
    "C77_flattens"
   ],
   "note": "C77_analysis: when analyze returns and when it throws. C77_roi: the corrected value is p M / v to within 0.52 for every region inside both images. C77_flattens: the analysed image becomes uniform. Gray-scale images (see C99)."
  },
  {
   "property": "C78",
   "status": "partial",
   "theorems": [
    "C78_claim_refuted",
    "C78_failed_claim_refuted",
    "C78_size_claim_refuted",
    "C78_safe_partial"
   ],
   "note": "Refuted three times: before analyze the size is indeterminate; after an analysis that threw the factors are 0 and are divided by; after a successful one an image larger than the analysed one is corrected beyond the end of the factors. Safe for regions inside both images (C78_safe_partial)."
  },
  {
   "property": "C79",
   "status": "proved",
   "theorems": [
    "C79_unknown",
    "C79_merge",
    "C79_rule"
   ],
   "note": "Every history of registrations; the rule (last forced function, else the first one) is stated on its own in C79_rule."
  },
  {
   "property": "C80",
   "status": "partial",
   "theorems": [
    "C80_refuted",
    "C80_partial"
   ],
   "note": "Refuted: setupTable leaves out RgbToRgba, RgbaToRgb and Shift, so with the SIMD table registered first they are lost. C80_partial: all other functions."
  },
  {
   "property": "C81",
   "status": "partial",
   "theorems": [
    "C81_managed_partial",
    "C81_two_partial",
    "C81_one_partial",
    "C81_same_type_partial",
    "C81_refuted"
   ],
   "note": "Refuted: only four functions of the facade convert; Flip of a device image calls the scalar function with device images. C81_managed_partial, C81_two_partial, C81_one_partial: those four (AbsoluteDifference: C110). C81_same_type_partial: without substitution. Images passed twice in one call are not modelled."
  },
  {
   "property": "C82",
   "status": "partial",
   "theorems": [
    "C82_lookup_value_form_refuted",
    "C82_lookup_value_form_gray_partial"
   ],
   "note": "False: the value-returning form creates a gray-scale output, so colour input throws; proved for gray scale."
  },
  {
   "property": "C83",
   "status": "partial",
   "theorems": [
    "C83_resize_wide_refuted"
   ],
   "note": "False: x*widthIn is computed modulo 2^32. The version with products below 2^32 is C21."
  },
  {
   "property": "C84",
   "status": "partial",
   "theorems": [
    "C84_request_size_refuted",
    "C84_request_size_partial"
   ],
   "note": "False: size*sizeof(T) wraps in size_t, allocate<uint32_t>(2^62+1) returns a 4-byte chunk. Proved below 2^63 bytes."
  },
  {
   "property": "C85",
   "status": "partial",
   "theorems": [
    "C85_alignment_refuted",
    "C85_alignment_partial"
   ],
   "note": "False: merging of chunks that are not buddies gives chunks at odd offsets. Proved: when no request of the history is smaller than 2^m bytes (m up to 5), all arena addresses are multiples of 2^m."
  },
  {
   "property": "C86",
   "status": "partial",
   "theorems": [
    "C86_no_late_access_refuted",
    "C86_late_access_partial"
   ],
   "note": "False: a worker that did not finish the group may still be about to read _taskCount at thread_pool.cpp:69 after wait returned. Proved: that single read is the only late access."
  },
  {
   "property": "C87",
   "status": "partial",
   "theorems": [
    "C87_data_race_refuted",
    "C87_exception_race_refuted",
    "C87_wait_flag_partial"
   ],
   "note": "False: _exit is read without lock while stop/resize write it, and two throwing tasks write _exceptionRaised without lock. Proved: the reader of _exceptionRaised never races with its writers."
  },
  {
   "property": "C88",
   "status": "partial",
   "theorems": [
    "C88_center_partial",
    "C88_center_refuted",
    "C88_length_partial",
    "C88_length_refuted",
    "C88_extent"
   ],
   "note": "Width and height proved. The centre is right while the coordinate sums stay below 2^31 and the length while squared distances do; both refuted beyond."
  },
  {
   "property": "C89",
   "status": "partial",
   "theorems": [
    "C89_claim_refuted",
    "C89_vertical_wrong",
    "C89_point"
   ],
   "note": "Refuted for every sane libm: blob_detection.cpp takes the y of the end point from its x, a vertical line of 4 pixels gets elongation 1 instead of 3."
  },
  {
   "property": "C90",
   "status": "proved",
   "theorems": [
    "C90_points"
   ],
   "note": "Coordinates up to 2^24 (float) or 2^53 (double). The error of the position is below 3 * 2^(k-24) resp. 3 * 2^(k-53) for lines up to 2^k. The side contrast is stated for sums up to 2^24, where float sums are exact."
  },
  {
   "property": "C91",
   "status": "proved",
   "theorems": [
    "C91_step"
   ],
   "note": "Coordinates up to 2^23 (float) or 2^52 (double), side contrast check off."
  },
  {
   "property": "C92",
   "status": "partial",
   "theorems": [
    "C92_claim_refuted"
   ],
   "note": "Refuted: the test startX + width + 1 < in.width is off by one, so the last column of a region that ends one pixel before the right side becomes 0 although its neighbours exist; likewise the last row."
  },
  {
   "property": "C93",
   "status": "partial",
   "theorems": [
    "C93_claim_refuted"
   ],
   "note": "Refuted: the coefficient is computed in float even for double; 2 x 2 pixels of value 255 come back off by more than 1e-9. C73_ieee bounds the error by 0.001."
  },
  {
   "property": "C94",
   "status": "partial",
   "theorems": [
    "C94_claim_refuted",
    "C94_safe_partial"
   ],
   "note": "Refuted: width * height is computed modulo 2^64, so 6 x 6148914691236517206 is accepted with vectors of 4 elements. Safe whenever the product is below 2^64 (C94_safe_partial)."
  },
  {
   "property": "C95",
   "status": "partial",
   "theorems": [
    "C95_claim_refuted"
   ],
   "note": "Refuted: the output vector is not resized; an empty one is written out of bounds. C74_safe covers vectors that are long enough."
  },
  {
   "property": "C96",
   "status": "partial",
   "theorems": [
    "C96_claim_refuted"
   ],
   "note": "Refuted with a 2 x 2 system of integers without solution, because 1/49 is rounded and the pivot limit is absolute. In exact arithmetic it holds (C74_singular)."
  },
  {
   "property": "C97",
   "status": "partial",
   "theorems": [
    "C97_claim_refuted",
    "C97_returns_partial"
   ],
   "note": "Refuted: the number of steps is converted to int without a check. Proved for all points when it fits and is below INT_MAX, for float and double (C97_returns_partial)."
  },
  {
   "property": "C98",
   "status": "partial",
   "theorems": [
    "C98_claim_refuted"
   ],
   "note": "Refuted: 256 + 2^-16 is rounded to 256, so of two points in the strip only one is reported. In exact arithmetic it holds (C72_exact)."
  },
  {
   "property": "C99",
   "status": "partial",
   "theorems": [
    "C99_claim_refuted"
   ],
   "note": "Refuted: only width samples of each row are used, a third of an RGB row."
  },
  {
   "property": "C100",
   "status": "proved",
   "theorems": [
    "C100_finds"
   ],
   "note": ""
  },
  {
   "property": "C101",
   "status": "partial",
   "theorems": [
    "C101_claim_refuted"
   ],
   "note": "Refuted: the loops use the analysed size without comparing it with the image."
  },
  {
   "property": "C102",
   "status": "proved",
   "theorems": [
    "C102_convolution"
   ],
   "note": "Exact arithmetic; at most 2^31 - 1 pixels, since kissfft multiplies the dimensions in int."
  },
  {
   "property": "C103",
   "status": "proved",
   "theorems": [
    "C103_identity"
   ],
   "note": "Exact arithmetic, whole program from images to image."
  },
  {
   "property": "C104",
   "status": "partial",
   "theorems": [
    "C104_convolution_partial",
    "C104_refuted"
   ],
   "note": "Refuted with 4 x 2: the dimensions are passed as {width, height}, but kissfft takes the last one as the fastest. C104_convolution_partial says what is computed: the convolution of the arrays read with the height as row length. Square images: C102, C103."
  },
  {
   "property": "C105",
   "status": "partial",
   "theorems": [
    "C105_refuted",
    "C105_resize_partial",
    "C105_set_partial",
    "C105_vector_partial",
    "C105_get_partial",
    "C105_multiply_partial",
    "C105_transform_partial"
   ],
   "note": "Refuted: 65536 x 65536 elements wrap to 0. The C105_..._partial theorems: every operation on objects of less than 2^32 elements is safe and leaves such objects, for every number type and aliasing."
  },
  {
   "property": "C106",
   "status": "proved",
   "theorems": [
    "C106_transform"
   ],
   "note": "Exact arithmetic with exact twiddle factors. Above 2^30 the index twidx of the generic butterfly can overflow int."
  },
  {
   "property": "C107",
   "status": "proved",
   "theorems": [
    "C107_order"
   ],
   "note": "All functions except RgbToRgba, RgbaToRgb and Shift (see C80)."
  },
  {
   "property": "C108",
   "status": "proved",
   "theorems": [
    "C108_conversion",
    "C108_same",
    "C108_types"
   ],
   "note": ""
  },
  {
   "property": "C109",
   "status": "partial",
   "theorems": [
    "C109_refuted",
    "C109_back_refuted",
    "C109_input_partial"
   ],
   "note": "Refuted twice: when the output cannot be converted the destructor reads a clone that does not exist; when it cannot be converted back the destructor throws. C109_input_partial: missing conversions of inputs throw and change nothing."
  },
  {
   "property": "C110",
   "status": "partial",
   "theorems": [
    "C110_partial",
    "C110_refuted"
   ],
   "note": "Refuted with the growth of vectors of libstdc++: the second push_back moves the first clone, to which a reference has been handed out. C110_partial: at most one input needs conversion, or the vector has room for two."
  },
  {
   "property": "C111",
   "status": "proved",
   "theorems": [
    "C111_own",
    "C111_substitute"
   ],
   "note": ""
  },
  {
   "property": "C112",
   "status": "partial",
   "theorems": [
    "C112_shift_safe_refuted",
    "C112_shift_safe_partial"
   ],
   "note": "Refuted: with a shift in (-1, 0], or a shift to the right of a region as wide as the image, the column and row behind the image are read; a NaN shift passes the check and its conversion is undefined. C112_shift_safe_partial: images below 2^31 bytes where those columns and rows exist."
  },
  {
   "property": "C113",
   "status": "partial",
   "theorems": [
    "C113_shift_weights",
    "C113_shift_fraction_partial",
    "C113_shift_whole_off_by_one",
    "C113_shift_whole_refuted",
    "C113_shift_margin_refuted"
   ],
   "note": "Refuted twice: a whole-number shift moves one pixel less than asked in each direction (C113_shift_whole_off_by_one says exactly what it does), and columns left of the image are not left black because the output pointer is not moved. C113_shift_fraction_partial: fractional shifts with rx <= start; C113_shift_weights: what is computed for all."
  },
  {
   "property": "C114",
   "status": "partial",
   "theorems": [
    "C114_rotate_safe_refuted",
    "C114_rotate_safe_partial"
   ],
   "note": "Refuted: a position of 2^32 or more is converted to uint32_t. C114_rotate_safe_partial: centres up to 2^28, width + height up to 2^30, |cos|, |sin| <= 1."
  },
  {
   "property": "C115",
   "status": "proved",
   "theorems": [
    "C115_rotate_interpolates"
   ],
   "note": "cos and sin of the angle are arguments of the model with |cos|, |sin| <= 1."
  },
  {
   "property": "C116",
   "status": "partial",
   "theorems": [
    "C116_no_rotation_partial",
    "C116_no_rotation_refuted"
   ],
   "note": "Refuted: the last row and column become black. C116_no_rotation_partial: all other pixels are copied exactly."
  },
  {
   "property": "C117",
   "status": "proved",
   "theorems": [
    "C117_through",
    "C117_at"
   ],
   "note": "The points are told apart when they differ by the tolerance in x or y. Exact arithmetic; rounding is not covered."
  },
  {
   "property": "C118",
   "status": "partial",
   "theorems": [
    "C118_near_refuted",
    "C118_default_refuted",
    "C118_default",
    "C118_near_partial"
   ],
   "note": "Refuted: two points closer than the tolerance make a horizontal line (C118_near_partial: it contains the first point and misses the second by less than the tolerance), and a default line, which the best fit of fewer than two points returns, has direction (0, 0) and distance 0 from every point."
  },
  {
   "property": "C119",
   "status": "partial",
   "theorems": [
    "C119_claim_refuted",
    "C119_partial",
    "C119_points_partial"
   ],
   "note": "Refuted: lines whose angle has a sine below ten times the tolerance count as parallel. C119_partial, C119_points_partial: otherwise the point found is the only common one."
  },
  {
   "property": "C120",
   "status": "partial",
   "theorems": [
    "C120_fit_partial",
    "C120_collinear_partial",
    "C120_claim_refuted"
   ],
   "note": "Refuted for orthogonal distances. C120_fit_partial: the line through the centre with least squared errors along the axis with the smaller spread; C120_collinear_partial: points of a line are fitted exactly."
  },
  {
   "property": "C121",
   "status": "partial",
   "theorems": [
    "C121_transitive_refuted",
    "C121_different_refuted",
    "C121_symmetric",
    "C121_equal",
    "C121_integers",
    "C121_different_2d"
   ],
   "note": "Refuted: == is not transitive (tolerance), and != of three-dimensional points is that of the base class and ignores z. Symmetry and the meaning of == are proved."
  },
  {
   "property": "C122",
   "status": "proved",
   "theorems": [
    "C122_through",
    "C122_at"
   ],
   "note": "atan2 is any function with r cos (atan2 y x) = x and r sin (atan2 y x) = y; atan2_R_ok shows there is one."
  },
  {
   "property": "C123",
   "status": "proved",
   "theorems": [
    "C123_to_radians",
    "C123_to_degrees",
    "C123_round_trip"
   ],
   "note": "IEEE double arithmetic."
  },
  {
   "property": "C124",
   "status": "proved",
   "theorems": [
    "C124_grid2",
    "C124_grid1"
   ],
   "note": "One and two dimensions. The refusal cases: request beyond the limits, or a uint32_t sum or product that wraps (then the driver refuses an empty grid)."
  },
  {
   "property": "C125",
   "status": "proved",
   "theorems": [
    "C125_two_inputs",
    "C125_invert",
    "C125_copy",
    "C125_threshold",
    "C125_threshold_band",
    "C125_lookup_table",
    "C125_fill",
    "C125_flip",
    "C125_extract_channel",
    "C125_to_gray",
    "C125_to_rgb"
   ],
   "note": "Any interleaving of single loads, stores and atomic updates. The kernel launch by the driver is modelled as accepted exactly when the configuration is within the limits; other driver failures are outside the model."
  },
  {
   "property": "C126",
   "status": "partial",
   "theorems": [
    "C126_non_blocking_stream_refuted",
    "C126_histogram_partial",
    "C126_projection_partial",
    "C126_is_equal_partial"
   ],
   "note": "Refuted when streams are used (setStreamCount): they are made with cudaStreamNonBlocking, so the cudaMemcpy of the result does not wait for the kernel. Proved for the default stream, in all interleavings."
  },
  {
   "property": "C127",
   "status": "partial",
   "theorems": [
    "C127_colour_image_refuted",
    "C127_set_pixel_partial",
    "C127_set_pixels_partial",
    "C127_outside_refused",
    "C127_list_all_or_nothing"
   ],
   "note": "Refuted for colour images: the column is not multiplied by the colour count, so a sample of another pixel is written. Proved for gray-scale images; lists are all or nothing."
  },
  {
   "property": "C128",
   "status": "partial",
   "theorems": [
    "C128_to_device_refuted",
    "C128_from_device_refuted",
    "C128_from_device_overflows",
    "C128_to_device_partial",
    "C128_from_device_partial",
    "C128_round_trip_partial"
   ],
   "note": "Refuted both ways: packed host image and padded device image shears the rows; padded device image and packed host image overflows the host buffer. Proved when the device image is packed (as generate makes it) or the host image is padded, with the round trip."
  },
  {
   "property": "C129",
   "status": "partial",
   "theorems": [
    "C129_negative_count_refuted",
    "C129_search_never_ends",
    "C129_set_threads_partial",
    "C129_bad_count_refused"
   ],
   "note": "Refuted: 2^31 is negative as int and accepted; from then on get2DThreadsPerBlock never ends, for any number of iterations (C129_search_never_ends). Proved below 2^31."
  },
  {
   "property": "C130",
   "status": "partial",
   "theorems": [
    "C130_block_too_large_refuted",
    "C130_block3",
    "C130_grid3_partial"
   ],
   "note": "Refuted: the adjustment of x and y ignores z, a device with block limits 1024 x 8 x 4 gets 4096 threads. Proved when the block before adjustment fits in every direction."
  },
  {
   "property": "C131",
   "status": "partial",
   "theorems": [
    "C131_fill_colour_refuted",
    "C131_threshold_band_refuted",
    "C131_two_inputs_partial",
    "C131_one_input_partial"
   ],
   "note": "Refuted: Fill on colour images (refused by CUDA), Threshold with bounds in the wrong order (accepted by CUDA). Proved for the two-input functions but Subtract (see C02), Invert, Copy, Threshold, Flip, ConvertToGrayScale (RGB), ConvertToRgb, ExtractChannel."
  },
  {
   "property": "C132",
   "status": "proved",
   "theorems": [
    "C132_two_dimensions",
    "C132_one_dimension",
    "C132_three_dimensions"
   ],
   "note": ""
  },
  {
   "property": "C133",
   "status": "proved",
   "theorems": [
    "C133_two_inputs",
    "C133_invert",
    "C133_is_equal",
    "C133_projection",
    "C133_fill_image"
   ],
   "note": ""
  },
  {
   "property": "C134",
   "status": "partial",
   "theorems": [
    "C134_threshold_swapped",
    "C134_threshold_band_swapped",
    "C134_fill_swapped",
    "C134_histogram_swapped",
    "C134_lookup_swapped",
    "C134_to_gray_swapped",
    "C134_to_rgb_swapped",
    "C134_threshold_refuted",
    "C134_threshold_band_refuted",
    "C134_fill_refuted",
    "C134_histogram_refuted",
    "C134_lookup_refuted",
    "C134_to_gray_refuted",
    "C134_to_rgb_refuted",
    "C134_threshold_partial",
    "C134_threshold_band_partial",
    "C134_fill_partial",
    "C134_histogram_partial",
    "C134_lookup_partial",
    "C134_to_gray_partial",
    "C134_to_rgb_partial",
    "C134_threshold_outside",
    "C134_fill_outside"
   ],
   "note": "Refuted for all seven functions: the start of the region is taken at column startY and row startX. Proved: what they do instead, the claim for regions on the diagonal, and that Threshold and Fill leave the buffer for regions that do not fit after the swap."
  },
  {
   "property": "C135",
   "status": "partial",
   "theorems": [
    "C135_actual",
    "C135_copy_refuted",
    "C135_copy_partial",
    "C135_full_height_outside"
   ],
   "note": "Refuted: startX and startY of the input are swapped and the copy always goes to column 0, row 1 of the output. Proved: what it does instead, the claim for an output region at (0, 1), and that a region as high as the output leaves its buffer."
  },
  {
   "property": "C136",
   "status": "partial",
   "theorems": [
    "C136_actual",
    "C136_extract_refuted",
    "C136_extract_partial",
    "C136_outside"
   ],
   "note": "Refuted: startX and startY are swapped and row j of the region is read from row j * colorCount. Proved: what it does instead, the claim for one row or one colour on the diagonal, and that the lower part of an image is read from behind the buffer."
  },
  {
   "property": "C137",
   "status": "partial",
   "theorems": [
    "C137_flip_refuted",
    "C137_flip_partial",
    "C137_outside"
   ],
   "note": "Refuted: the size of the input image is used for the size of the region. Proved: the claim when the region is the whole input image, and that a higher input leaves the buffer of the output."
  },
  {
   "property": "C138",
   "status": "partial",
   "theorems": [
    "C138_normalize_throws",
    "C138_set_pixels_throws",
    "C138_arguments_refuted",
    "C138_set_pixels_refuted"
   ],
   "note": "Refuted: Normalize passes nine arguments to a kernel with six parameters, SetPixel with lists passes arguments that fit neither of the two kernels of that name; proved that both throw for all arguments and leave memory as it was."
  },
  {
   "property": "C139",
   "status": "partial",
   "theorems": [
    "C139_actual",
    "C139_set_pixel_refuted",
    "C139_set_pixel_partial",
    "C139_other_pixels_kept",
    "C139_outside",
    "C139_outside_refused"
   ],
   "note": "Refuted: the pixel (x + y, x + y) is written. Proved: that, the claim for the pixel (0, 0), that no other given pixel changes, that pixels with x + y not below the height are written behind the buffer, and that points outside are refused."
  },
  {
   "property": "C140",
   "status": "partial",
   "theorems": [
    "C140_padded_host_throws",
    "C140_to_device_refuted",
    "C140_from_device_refuted",
    "C140_padded_device_shears",
    "C140_padded_device_overflows",
    "C140_conversion_partial",
    "C140_round_trip_partial"
   ],
   "note": "Refuted: padded host images are refused in both directions, a padded device image shears the rows or overflows the host buffer. Proved for images without padding, with the round trip."
  },
  {
   "property": "C141",
   "status": "partial",
   "theorems": [
    "C141_other_size_throws",
    "C141_whole_image",
    "C141_region_refuted",
    "C141_conversion_partial"
   ],
   "note": "Refuted: the whole image is copied into a new buffer, images of different sizes are refused. Proved: that, and the claim for whole images of one size."
  },
  {
   "property": "C142",
   "status": "partial",
   "theorems": [
    "C142_copy_throws",
    "C142_assignment_partial",
    "C142_move_partial",
    "C142_moved_from_refuses",
    "C142_copy_refuted",
    "C142_moved_refuted"
   ],
   "note": "Both parts refuted. The copy constructor always throws: the base is made with type 0 and refuses an image of another type. A moved-from image has type 0 and refuses any image of its kind. Proved: default construction then assignment copies, the move takes over sizes and pixels."
  },
  {
   "property": "C143",
   "status": "partial",
   "theorems": [
    "C143_lost",
    "C143_assign_refuted",
    "C143_assign_partial",
    "C143_copy_refuted",
    "C143_copy_partial",
    "C143_copy_of_empty"
   ],
   "note": "Refuted: after a failed allocation the size stays, and a vector of the old size is dropped without an exception; copying an empty array throws. Proved for histories without failed allocations, and copies of arrays that are not empty."
  },
  {
   "property": "C144",
   "status": "proved",
   "theorems": [
    "C144_streams_destroyed_once",
    "C144_queues_destroyed_once",
    "C144_held_are_alive",
    "C144_stream_count",
    "C144_queue_count",
    "C144_kept",
    "C144_stream_for_launch",
    "C144_set_current"
   ],
   "note": ""
  },
  {
   "property": "C145",
   "status": "partial",
   "theorems": [
    "C145_no_queue",
    "C145_queue_refuted",
    "C145_queue_partial",
    "C145_stream_refuted",
    "C145_stream_partial"
   ],
   "note": "Refuted: a count of 0 leaves an OpenCL device without a queue and queue() reads outside the vector; a CUDA stream is made on the device that is active, not on the one asked. Proved for positive queue counts, and for streams made while their device is active."
  },
  {
   "property": "C146",
   "status": "partial",
   "theorems": [
    "C146_cuda_device",
    "C146_cuda_count",
    "C146_opencl_outside",
    "C146_opencl_refuted",
    "C146_opencl_partial"
   ],
   "note": "Proved for CUDA. Refuted for OpenCL: device( i ) and setActiveDevice( i ) with i beyond the supported devices read outside the vector as soon as a device is open. Proved for OpenCL with ids of the system."
  },
  {
   "property": "C147",
   "status": "partial",
   "theorems": [
    "C147_none_after_close",
    "C147_cuda_refuted",
    "C147_cuda_partial",
    "C147_cuda_chosen",
    "C147_opencl_partial"
   ],
   "note": "Refuted for CUDA: the destructor of a device makes it active, so closing any open device leaves the manager without a current one. Proved: exactly that, the claim for devices that are not open, that a chosen device stays active while others are initialized, and the claim for OpenCL."
  },
  {
   "property": "C148",
   "status": "partial",
   "theorems": [
    "C148_last",
    "C148_none",
    "C148_unlisted",
    "C148_refuted",
    "C148_partial"
   ],
   "note": "Refuted: the loop that counts usable devices stops at the first unusable one, the devices behind it are lost, and the devices of the last platform are all kept, usable or not. Proved: the exact list, and the claim when every device is usable."
  },
  {
   "property": "C149",
   "status": "partial",
   "theorems": [
    "C149_run",
    "C149_never",
    "C149_refuted",
    "C149_partial"
   ],
   "note": "Refuted: the programs are kept under the id of the device and not dropped when it is closed, so after closing and opening it again every function throws. Proved: exactly when a function runs, that it never does again, and the claim while no device is closed."
  },
  {
   "property": "C150",
   "status": "proved",
   "theorems": [
    "C150_sub_buffers",
    "C150_calls_succeed"
   ],
   "note": ""
  },
  {
   "property": "C151",
   "status": "partial",
   "theorems": [
    "C151_device_memory_returned_refuted",
    "C151_device_memory_returned_partial"
   ],
   "note": "Refuted: images free their memory through the allocator of the active device; while another device is active the sub-buffer is released but its chunk stays allocated for ever, and reserve throws. Proved for memory freed while its device is active: allocated chunks are those of held handles, without any all bytes are free and reserve succeeds."
  },
  {
   "property": "C152",
   "status": "partial",
   "theorems": [
    "C152_cuda_memory_refuted",
    "C152_cuda_memory_partial",
    "C152_other_device_partial"
   ],
   "note": "Refuted: freeing, while another device is active, the range at the start of the reserved memory of a device gives the whole reserved memory back to the driver under all other ranges in it. Proved for memory freed while its device is active (valid, disjoint, can be freed), and exactly what happens otherwise: the first range takes the whole memory along, any other throws."
  },
  {
   "property": "C153",
   "status": "partial",
   "theorems": [
    "C153_cuda_alignment_refuted",
    "C153_cuda_alignment_partial"
   ],
   "note": "Refuted: neighbouring free chunks are merged even when they are not halves of one chunk, so an element of 4 bytes can be at an address that is 2 modulo 4. Proved: when no request is smaller than 2^m bytes, all ranges are at multiples of 2^m (C85 is the same for the CPU allocator)."
  },
  {
   "property": "C154",
   "status": "proved",
   "theorems": [
    "C154_opencl_reserve_throws",
    "C154_cuda_reserve_throws"
   ],
   "note": ""
  },
  {
   "property": "C155",
   "status": "partial",
   "theorems": [
    "C155_png_round_trip_partial",
    "C155_png_round_trip_refuted"
   ],
   "note": "Refuted for images of four channels: Save advances by three bytes a pixel, so colours shift from the second pixel on. Proved for one and three channels, any lossless libpng with a size limit up to 1431655765, with the frame of files and images."
  },
  {
   "property": "C156",
   "status": "partial",
   "theorems": [
    "C156_jpeg_rows_partial",
    "C156_jpeg_rows_refuted"
   ],
   "note": "Refuted: Jpeg_Operation::Save ignores startX and startY and writes the corner of the image. Proved for regions that begin at (0, 0), with size, components and quality."
  },
  {
   "property": "C157",
   "status": "partial",
   "theorems": [
    "C157_load_refuted",
    "C157_save_refuted",
    "C157_save_partial",
    "C157_load_partial"
   ],
   "note": "Refuted: no error handler is installed, so libpng aborts and libjpeg exits the process for a file it cannot read, and for an image of four channels saved as JPEG. Proved: Save returns or throws for every region and failure of the system when sizes and channels are those the library accepts; Load returns or throws for absent and for readable files."
  },
  {
   "property": "C158",
   "status": "proved",
   "theorems": [
    "C158_png_load"
   ],
   "note": ""
  },
  {
   "property": "C159",
   "status": "partial",
   "theorems": [
    "C159_jpeg_load_partial",
    "C159_jpeg_load_refuted"
   ],
   "note": "Refuted: rowSize() * output_scanline is computed in 32 bits, so rows of pictures above 4 GB are stored over the first rows. Proved when the last row begins before 2^32, for any state of the target image."
  },
  {
   "property": "C160",
   "status": "partial",
   "theorems": [
    "C160_same_gray_partial",
    "C160_same_colour_refuted"
   ],
   "note": "Refuted for colour: Load of PNG gives blue, green, red and Load of JPEG red, green, blue. Proved for gray pictures of all depths."
  },
  {
   "property": "C161",
   "status": "proved",
   "theorems": [
    "C161_choice",
    "C161_bitmap_round_trip"
   ],
   "note": ""
  },
  {
   "property": "C162",
   "status": "partial",
   "theorems": [
    "C162_failed_save_partial",
    "C162_save_succeeds",
    "C162_failed_save_refuted"
   ],
   "note": "Refuted: when libpng cannot make its structures, Save throws after it has truncated the file and leaves it open. Proved for every other exception (the whole world is unchanged); success exactly for the regions inside the image."
  },
  {
   "property": "C163",
   "status": "proved",
   "theorems": [
    "C163_quality_range",
    "C163_quality_history"
   ],
   "note": ""
  },
  {
   "property": "C164",
   "status": "proved",
   "theorems": [
    "C164_cuda_one_image",
    "C164_cuda_two_images",
    "C164_cuda_three_images",
    "C164_cuda_colours",
    "C164_cuda_pixels",
    "C164_cuda_transfer"
   ],
   "note": ""
  },
  {
   "property": "C165",
   "status": "proved",
   "theorems": [
    "C165_opencl_one_image",
    "C165_opencl_two_images",
    "C165_opencl_three_images",
    "C165_opencl_colours",
    "C165_opencl_pixels",
    "C165_opencl_transfer"
   ],
   "note": ""
  },
  {
   "property": "C166",
   "status": "partial",
   "theorems": [
    "C166_colour_refuted",
    "C166_normalize_partial",
    "C166_rejects"
   ],
   "note": "False for images of more than one channel, with a counterexample: the pool starts with Histogram, which accepts such images in the pool and reads past them. Proved for gray images, with C48 and C49 for the parts; the proof compares the two tests for a range that needs no change."
  },
  {
   "property": "C167",
   "status": "proved",
   "theorems": [
    "C167_gamma",
    "C167_rejects"
   ],
   "note": "The values of pow are assumed to be from 0 to 1 for arguments from 0 to 1 and an exponent that is not negative (hypothesis gamma_args), as in C29."
  },
  {
   "property": "C168",
   "status": "partial",
   "theorems": [
    "C168_colour_refuted",
    "C168_colours_refused",
    "C168_cuda_partial",
    "C168_opencl_partial",
    "C168_rejects"
   ],
   "note": "False for colour images, with a counterexample: the devices refuse them (C168_colours_refused), the processor corrects them. Proved for gray images on CUDA; on OpenCL for regions of the input that start at (a, a), because LookupTable there reads from the transposed point (C134)."
  },
  {
   "property": "C169",
   "status": "partial",
   "theorems": [
    "C169_size_refuted",
    "C169_kernel_partial",
    "C169_rejects_partial",
    "C169_symmetric",
    "C169_sum_exact",
    "C169_zero_sigma",
    "C169_numbers_refuted"
   ],
   "note": "False twice, with counterexamples: kernelSize * 2 + 1 is computed modulo 2^32, so a half size of 2^31 + 1 is accepted for a 3 x 3 picture and the squares overflow (C169_size_refuted); sigma 0 is accepted and makes every value a NaN (C169_numbers_refuted, C169_zero_sigma for all sizes). Proved for half sizes that fit and width * height below 2^32; refusals for half sizes below 2^31."
  },
  {
   "property": "C170",
   "status": "partial",
   "theorems": [
    "C170_self_assignment",
    "C170_assign_partial",
    "C170_copy",
    "C170_move_assign",
    "C170_move",
    "C170_write",
    "C170_step",
    "C170_history",
    "C170_no_leak",
    "C170_self_refuted",
    "C170_size_refuted"
   ],
   "note": "False twice, with counterexamples: an object assigned to itself is emptied (C170_self_refuted, C170_self_assignment for all objects), and for sizes whose product is 2^32 or more the block has the product modulo 2^32 elements while the copy has all of them, which is undefined (C170_size_refuted). Proved for different objects and products below 2^32; histories may contain assignments of an object to itself."
  },
  {
   "property": "C171",
   "status": "partial",
   "theorems": [
    "C171_safe",
    "C171_heights_partial",
    "C171_flat",
    "C171_heights_refuted"
   ],
   "note": "False, with a counterexample: the product by 100 is computed modulo 2^32, so for counts 0 and 50000000 the highest column is 14 pixels high. Proved when 100 times the range is below 2^32; that nothing outside the image is written and no column is higher than 100 holds for all counts (C171_safe)."
  },
  {
   "property": "C172",
   "status": "partial",
   "theorems": [
    "C172_from_image_partial",
    "C172_any_rows_partial",
    "C172_padding_refuted",
    "C172_from_array",
    "C172_array_refusals",
    "C172_image_refusals"
   ],
   "note": "False, with a counterexample: the kernel ignores the size of a row, so an image with padding gives its first width * height bytes. Proved for images without padding and images of one row (C172_from_image_partial); no access outside the image for any row size (C172_any_rows_partial); arrays of floats in full (C172_from_array)."
  },
  {
   "property": "C173",
   "status": "partial",
   "theorems": [
    "C173_get_partial",
    "C173_refusals",
    "C173_odd_race",
    "C173_odd_refuted"
   ],
   "note": "False for odd sizes greater than 1, with a counterexample: two threads write the same pixel, so that the result depends on the schedule (C173_odd_race), and one pixel is never written. Proved for sizes that are even or 1."
  },
  {
   "property": "C174",
   "status": "partial",
   "theorems": [
    "C174_products_partial",
    "C174_small_executor_refuted",
    "C174_large_executor_refuted",
    "C174_in_place_refuted",
    "C174_refusals"
   ],
   "note": "False, with counterexamples: the size of the executor is not compared with that of the data (a smaller one multiplies a part, a larger one leaves the arrays), and in place, as Gaussian calls it, the imaginary part is computed from the new real part. Proved for an executor of the size of the data and a result in an array of its own."
  },
  {
   "property": "C175",
   "status": "proved",
   "theorems": [
    "C175_safe",
    "C175_refusals",
    "C175_in_place_race"
   ],
   "note": "The hypothesis that out does not overlap in is needed: in place the call is accepted and the result depends on the schedule (C175_in_place_race)."
  },
  {
   "property": "C176",
   "status": "partial",
   "theorems": [
    "C176_rotate_partial",
    "C176_left_border_refuted"
   ],
   "note": "False, with a counterexample: positions with a coordinate between -1 and 0 are truncated to 0 and get an extrapolated value instead of 0. Proved for all other positions, in exact arithmetic (C176_rotate_partial)."
  },
  {
   "property": "C177",
   "status": "partial",
   "theorems": [
    "C177_next_fast_size_partial",
    "C177_outside",
    "C177_zero_refuted"
   ],
   "note": "False, with counterexamples: the call does not end for 0, overflows above 2125764000 and returns negative arguments (C177_outside). Proved for 0 < n <= 2125764000."
  },
  {
   "property": "C178",
   "status": "proved",
   "theorems": [
    "C178_limits",
    "C178_reset"
   ],
   "note": ""
  },
  {
   "property": "C179",
   "status": "proved",
   "theorems": [
    "C179_history",
    "C179_empty"
   ],
   "note": "For blobs with points, as all found ones are; C179_empty shows what a BlobInfo without points gives."
  },
  {
   "property": "C180",
   "status": "proved",
   "theorems": [
    "C180_area"
   ],
   "note": "For regions with (w + 2) * (h + 1) < 2^32, as the property says; for larger ones find itself fails (C60). The rectangle is computed from the contour; that the contour reaches as far as the blob on all sides is proved in Outline.v."
  },
  {
   "property": "C181",
   "status": "partial",
   "theorems": [
    "C181_edges_partial",
    "C181_solid_partial",
    "C181_thin_ring_refuted"
   ],
   "note": "False, with a counterexample: a ring one pixel thick is called solid. Proved: a blob without a hole is called solid, and isSolid is true exactly when every edge point can be reached along the edge from the first point of the blob."
  },
  {
   "property": "C182",
   "status": "partial",
   "theorems": [
    "C182_x11_partial",
    "C182_others",
    "C182_size_refuted"
   ],
   "note": "False, with a counterexample: the size of the vector wraps for 2^30 pixels and more and the stores leave it. Proved when 4 * width * height is less than 2^32."
  },
  {
   "property": "C183",
   "status": "partial",
   "theorems": [
    "C183_x11_shows_first_partial",
    "C183_x11_refuted"
   ],
   "note": "False: X11 windows have no setImage of their own, the picture stays that of the constructor (proved for every sequence of calls). The new image is kept by the base class only."
  },
  {
   "property": "C184",
   "status": "partial",
   "theorems": [
    "C184_unscaled",
    "C184_scaled_wrapped",
    "C184_scaled_partial",
    "C184_scaled_refuted"
   ],
   "note": "Proved without scaling. With scaling it is false for very wide or high images (counterexample); proved when x * width and y * height do not wrap, and with the wrapped products for all images. The size after scaling is any size, not computed from the screen."
  },
  {
   "property": "C185",
   "status": "partial",
   "theorems": [
    "C185_length_partial",
    "C185_overflow_refuted"
   ],
   "note": "False, with a counterexample: the squared distance overflows int for a row of 46342 pixels. Proved for every blob: the length is right if all squared distances are below 2^31, and otherwise the computation overflows (undefined behaviour)."
  },
  {
   "property": "C186",
   "status": "partial",
   "theorems": [
    "C186_contour_partial",
    "C186_inner_refuted"
   ],
   "note": "False, with a counterexample: points around a hole are on the contour when they touch the outer edge. Proved: the contour has no point twice, has the whole outer edge, has edge points only and is connected."
  }
 ]
}