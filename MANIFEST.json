{
 "claims": [
  {
   "property": "C01",
   "status": "proved",
   "theorems": [
    "bbox_contains_exact",
    "bbox_empty_exact",
    "bbox_crop_is_intersection",
    "bbox_grow_is_least_box",
    "bbox_grow_empty_refuted",
    "bbox_shift_moves_points",
    "bbox_expand_is_dilation",
    "bbox_contract_is_erosion",
    "bbox_intersects_exact",
    "bbox_intersects_empty_refuted",
    "bbox_contains_bbox_exact",
    "bbox_scale_points",
    "bbox_area_counts_points",
    "bbox_grow_point_contains_refuted",
    "bbox_expand_vec_is_dilation",
    "bbox_expand_vec_dimension",
    "bbox_volume_counts_points",
    "bbox_scale_roundtrip",
    "bbox_unscale_points",
    "bbox_unscale_contains_refuted",
    "bbox_fully_empty_exact"
   ],
   "note": "Exact for integer boxes of any dimension; the refuted theorems record degenerate boxes where the code departs from the point-set reading."
  },
  {
   "property": "C02",
   "status": "proved",
   "theorems": [
    "bbox_default_grow_tight",
    "bbox_default_neutral",
    "bbox_default_range_refuted",
    "bbox_default_unsigned_refuted",
    "bbox_int_hull_encloses",
    "bbox_int_hull_smallest_refuted"
   ],
   "note": "Holds for coordinates within the sentinel range; refutations show the range and signedness limits."
  },
  {
   "property": "C03",
   "status": "proved",
   "theorems": [
    "subdivide_is_partition",
    "subdivide_full_tiles_only",
    "subdivide_same_size_covers",
    "subdivide_same_size_inside_refuted",
    "subdivide_zero_block_diverges"
   ],
   "note": ""
  },
  {
   "property": "C04",
   "status": "proved",
   "theorems": [
    "block_processor_partition",
    "block_processor_at_most_once",
    "block_processor_terminates",
    "block_processor_empty_region_calls"
   ],
   "note": ""
  },
  {
   "property": "C05",
   "status": "proved",
   "theorems": [
    "block_cache_read",
    "block_cache_rasterize",
    "block_cache_single_block_refuted",
    "default_block_size_ok",
    "default_block_size_empty_refuted"
   ],
   "note": ""
  },
  {
   "property": "C06",
   "status": "proved",
   "theorems": [
    "edge_extension_reads",
    "edge_index_unique",
    "edge_linear_reads",
    "edge_linear_affine",
    "edge_reflect_one_column_refuted",
    "edge_linear_one_column_refuted",
    "edge_periodic_empty_refuted"
   ],
   "note": "Linear mode on integer pixels in exact arithmetic."
  },
  {
   "property": "C07",
   "status": "proved",
   "theorems": [
    "edge_source_covers",
    "edge_linear_source_covers",
    "edge_prerasterized_reads"
   ],
   "note": ""
  },
  {
   "property": "C08",
   "status": "proved",
   "theorems": [
    "orientation_of_views",
    "transpose_transpose",
    "turns_compose",
    "turns_determined_by_matrix",
    "rotation_laws",
    "crop_of_crop",
    "subsample_twice",
    "subsample_pixels",
    "subsample_empty_refuted"
   ],
   "note": "Every word in the orientation views is characterised by its signed permutation matrix. The refuted theorem records the empty image."
  },
  {
   "property": "C09",
   "status": "proved",
   "theorems": [
    "accessor_path_reads",
    "rasterize_copies",
    "rasterize_into_view",
    "rasterize_size_mismatch"
   ],
   "note": "Any nesting of the views, any sequence of accessor moves."
  },
  {
   "property": "C10",
   "status": "proved",
   "theorems": [
    "prerasterize_agrees",
    "view_rasterize_copies",
    "subsample_prerasterize_refuted",
    "subsample_prerasterize_wide_refuted",
    "subsample_planes_refuted"
   ],
   "note": "Proved for equal subsampling factors and one plane; refuted for unequal factors (height computed with the x factor) and for several planes."
  },
  {
   "property": "C11",
   "status": "proved",
   "theorems": [
    "pixels_disjoint_and_inside",
    "set_size_accepts",
    "set_size_refuses",
    "accepted_sizes_safe_refuted"
   ],
   "note": "Holds whenever sizing completes; some sizes accepted by the check overflow int, which is refuted."
  },
  {
   "property": "C12",
   "status": "proved",
   "theorems": [
    "iteration_is_raster_scan",
    "iterator_roundtrip",
    "iterator_arithmetic",
    "iterator_large_refuted",
    "line_iterator_walk",
    "line_iterator_distance"
   ],
   "note": "Up to 2^31 pixels per plane; refuted beyond."
  },
  {
   "property": "C13",
   "status": "proved",
   "theorems": [
    "cache_wellformed",
    "cache_order",
    "cache_total",
    "recency_of_use_refuted"
   ],
   "note": "Single client, pointer level. Recency of use is refuted: a hit does not move the line."
  },
  {
   "property": "C14",
   "status": "proved",
   "theorems": [
    "value_result",
    "value_evicts",
    "value_hit_keeps",
    "resize_bound",
    "resize_returns",
    "resize_waits_refuted",
    "generator_failure_refuted"
   ],
   "note": "Also: a resize with the oldest line in use waits forever, and a throwing generator leaves the line locked."
  },
  {
   "property": "C15",
   "status": "proved",
   "theorems": [
    "held_value_stays",
    "line_exclusive",
    "one_allocator",
    "size_accounting",
    "size_covers",
    "cache_progress",
    "double_generation_refuted"
   ],
   "note": "Interleaving model of threads. Single generation is refuted by an explicit schedule."
  },
  {
   "property": "C16",
   "status": "proved",
   "theorems": [
    "fifo_accounting",
    "fifo_completes",
    "join_means_done",
    "zero_threads_refuted"
   ],
   "note": "Every schedule of clients and workers, at least one thread; with zero threads nothing runs, which is refuted."
  },
  {
   "property": "C17",
   "status": "proved",
   "theorems": [
    "ordered_starts_in_order",
    "ordered_completes",
    "ordered_reuse_refuted"
   ],
   "note": "Distinct non-negative indices; re-using an index is refuted."
  },
  {
   "property": "C18",
   "status": "proved",
   "theorems": [
    "kill_outcome",
    "kill_and_join_refuted"
   ],
   "note": "Exact outcome at rest, and a schedule on which kill_and_join never returns."
  },
  {
   "property": "C19",
   "status": "proved",
   "theorems": [
    "queue_linearizable",
    "queue_order",
    "queue_no_lost_wakeup"
   ],
   "note": "Every schedule, with spurious wake-ups and time-outs."
  },
  {
   "property": "C20",
   "status": "proved",
   "theorems": [
    "ds_partition",
    "ds_calls",
    "ds_log_depth",
    "ds_find_value",
    "ds_rank_bounds_depth_refuted"
   ],
   "note": "Every history of calls, pointer level."
  },
  {
   "property": "C21",
   "status": "proved",
   "theorems": [
    "mst_minimal",
    "mst_apply",
    "mst_constructor_refuted"
   ],
   "note": "Every sorted permutation qsort may produce. Refuted: the constructor tests an uninitialised member and may throw."
  },
  {
   "property": "C22",
   "status": "proved",
   "theorems": [
    "line_walk",
    "line_backwards",
    "line_stop_excluded_refuted"
   ],
   "note": "All octants. The exclusion of the stop point is refuted for backwards lines."
  },
  {
   "property": "C23",
   "status": "proved",
   "theorems": [
    "grassfire_distance",
    "grassfire_ignore_borders",
    "grassfire_thin_refuted"
   ],
   "note": "Every image at least 2x2; one pixel wide or high images are refuted."
  },
  {
   "property": "C24",
   "status": "proved",
   "theorems": [
    "bounded_dist_correct",
    "bounded_dist_rejects",
    "bounded_signed_dist_correct"
   ],
   "note": "Every image and every rational cap; distances compared through their squares."
  },
  {
   "property": "C25",
   "status": "proved",
   "theorems": [
    "sparse_reads",
    "sparse_rejects_overlap",
    "sparse_overlap_accepted_refuted",
    "sparse_lost_patch_refuted",
    "sparse_rejected_partially_refuted"
   ],
   "note": "Every sequence of disjoint patches; overlaps at the end of a row are accepted by the code."
  },
  {
   "property": "C26",
   "status": "proved",
   "theorems": [
    "erode_reads",
    "erode_segments_apart",
    "erode_rejects",
    "erode_rejected_partially_refuted"
   ],
   "note": "Every sequence of blobs. A refused blob leaves its earlier rows masked, which is refuted as all-or-nothing."
  },
  {
   "property": "C27",
   "status": "proved",
   "theorems": [
    "blob_index_components",
    "blob_index_planes",
    "blob_index_labels_refuted",
    "blob_index_empty_refuted"
   ],
   "note": "boost::connected_components is a parameter with its documented contract, shown to be met by a reference function. Refuted: the label image is not renumbered by blob; an empty image is read at its corner."
  },
  {
   "property": "C28",
   "status": "proved",
   "theorems": [
    "blob_contents",
    "blob_takes_rows",
    "blob_refuses_rows",
    "blob_absorbs",
    "blob_on_right",
    "blob_on_bottom",
    "blob_intersects",
    "blob_absorb_gap_refuted",
    "blob_add_row_overlap_refuted",
    "blob_intersects_gap_refuted",
    "blob_sentinel_refuted"
   ],
   "note": "Every history of rows in order and merges. Refuted: merging pieces separated by a blank row reads an empty list; overlapping segments are accepted by add_row."
  },
  {
   "property": "C29",
   "status": "proved",
   "theorems": [
    "census_binary_bits",
    "census_ternary_bits",
    "hamming_counts",
    "census_binary_distance",
    "census_ternary_distance",
    "census_binary_faithful",
    "census_binary_monotone",
    "census_ternary_offset"
   ],
   "note": "All images, positions and window sizes the code supports."
  },
  {
   "property": "C30",
   "status": "proved",
   "theorems": [
    "integral_block_sums",
    "integral_second_derivatives",
    "integral_xy_derivative",
    "integral_haar",
    "integral_flat",
    "integral_large_refuted",
    "integral_even_lobe_refuted"
   ],
   "note": "Single precision modelled as rounding of exact integer operations. Refuted: once the sum exceeds 2^24 block sums lose pixels; an even lobe responds on a uniform image."
  },
  {
   "property": "C31",
   "status": "proved",
   "theorems": [
    "ip_file_round_trip",
    "match_file_round_trip",
    "match_file_unequal",
    "ip_file_injective",
    "ip_file_cut_detected",
    "match_file_cut_detected",
    "match_file_cut_header",
    "ip_file_cut_refuted",
    "match_file_cut_refuted",
    "ip_file_cut_header_refuted"
   ],
   "note": "All point lists and all cut positions. Refuted: every cut inside the last record is accepted and yields a made-up last point; a cut header reads as an empty list."
  },
  {
   "property": "C32",
   "status": "proved",
   "theorems": [
    "match_name_fits",
    "clean_match_name_fits",
    "ip_name_fits",
    "vwip_name_fits",
    "match_name_short",
    "image_name_prefixed",
    "match_name_distinct",
    "match_name_long_distinct",
    "match_name_separator_refuted",
    "match_name_prefix_refuted",
    "match_name_directory_refuted"
   ],
   "note": "All prefixes and names. Refuted: the separator inside names, a prefix occurring in the middle of a name, and equal base names in different directories make different pairs share a file."
  },
  {
   "property": "C33",
   "status": "proved",
   "theorems": [
    "tree_calls_defined",
    "set_data_writes",
    "tree_links_agree",
    "tree_parent_live",
    "set_parent_moves",
    "new_node_adds",
    "destroy_removes",
    "ancestry_lists_ancestors",
    "root_is_top",
    "is_ancestor_of_correct",
    "last_common_ancestor_correct",
    "tree_below",
    "num_offsprings_counts",
    "pre_order_from_root",
    "breadth_first_by_level",
    "clone_copies",
    "recursive_delete_exact",
    "tree_stays_acyclic_refuted",
    "clone_into_itself_refuted",
    "pre_order_stays_below_refuted",
    "post_order_refuted"
   ],
   "note": "Every history of calls on existing nodes. Refuted: moving or cloning a node below itself never returns afterwards; the pre-order from a non-root leaves its subtree; the post-order visits later siblings first; clones reverse the children (clone_copies)."
  },
  {
   "property": "C34",
   "status": "proved",
   "theorems": [
    "spatial_contains_all_exact",
    "spatial_contains_one_exact",
    "spatial_intersects_all_exact",
    "spatial_overlap_pairs_exact",
    "spatial_tree_shape",
    "spatial_tree_deepest",
    "spatial_add_ends",
    "spatial_add_with_limits_returns_refuted",
    "spatial_limits_keep_deepest_refuted",
    "spatial_add_point_outside_refuted",
    "spatial_tree_of_points_refuted",
    "spatial_add_far_refuted"
   ],
   "note": "Coordinates are exact rationals; closest(), printing and check() are not modelled. The _refuted theorems exhibit the failing cases named in the statement."
  },
  {
   "property": "C35",
   "status": "proved",
   "theorems": [
    "histogram_nearest_point",
    "histogram_counts",
    "histogram_counts_inside",
    "histogram_adds_in_range",
    "percentile_first_bin",
    "percentile_empty_throws",
    "median_order_statistic",
    "median_permutation",
    "median_empty",
    "outlier_brackets",
    "outlier_brackets_few",
    "histogram_bin_center_refuted",
    "histogram_ignores_outside_refuted",
    "histogram_no_check_refuted",
    "histogram_flat_range_refuted",
    "percentile_one_double_refuted",
    "outlier_brackets_order_refuted"
   ],
   "note": "Exact rationals for values; the percentile loop also in IEEE binary64 (SpecFloat) for the refutation. mean, standard_deviation and the two point functors are not modelled."
  },
  {
   "property": "C36",
   "status": "proved",
   "theorems": [
    "rule_pattern_matches",
    "rule_accepted_iff",
    "rule_rejected_unchanged",
    "latest_rule_decides",
    "no_rule_defaults",
    "clear_forgets",
    "log_fan_out",
    "log_enabled_iff",
    "default_case_refuted"
   ],
   "note": "Configuration reload and the copying of rule sets are not modelled; lower-casing is that of the C locale."
  },
  {
   "property": "C37",
   "status": "proved",
   "theorems": [
    "log_text_in_order",
    "log_chunks",
    "log_line_flushed",
    "log_write_sent",
    "log_other_threads_untouched",
    "destroy_flushes_all_refuted",
    "destroy_log_stream_refuted"
   ],
   "note": "Each member function is one atomic step under the buffer mutex. Log::operator() iterates the log list without the mutex: not modelled."
  },
  {
   "property": "C38",
   "status": "proved",
   "theorems": [
    "replace_every_occurrence",
    "replace_by_character",
    "replaced_unique",
    "erase_every_other",
    "erase_apart",
    "replace_terminates_iff",
    "separators_become_spaces",
    "replace_terminates_refuted",
    "erase_all_refuted",
    "replace_leaves_none_refuted"
   ],
   "note": "Number parsing by the stream operators is not modelled."
  },
  {
   "property": "C39",
   "status": "proved",
   "theorems": [
    "watch_total",
    "watch_running_constant",
    "watch_running",
    "watch_stops",
    "watch_interval",
    "watch_set_by_name",
    "stray_stop_refuted"
   ],
   "note": "Each member function is one atomic step; report() is not modelled."
  },
  {
   "property": "C40",
   "status": "proved",
   "theorems": [
    "mod_range",
    "round_nearest",
    "floor_exact",
    "nextpow2_least",
    "hamming_counts",
    "hamming_metric",
    "round_clamp_saturates",
    "mod_total_refuted",
    "round_double_refuted",
    "round_float_refuted",
    "round_clamp_64_refuted"
   ],
   "note": "Exact rationals; IEEE arithmetic (SpecFloat) for the refutations. erf and erfc are not modelled."
  },
  {
   "property": "C41",
   "status": "proved",
   "theorems": [
    "clamp_int_saturates",
    "clamp_negative_wraps",
    "clamp_unsigned_to_min",
    "clamp_double_saturates",
    "round_clamp_double_saturates",
    "rescale_exact",
    "rescale_order",
    "rescale_round_trip",
    "rescale_float_round_trip",
    "clamp_mixed_refuted",
    "round_clamp_u32_refuted",
    "rescale_lossy_refuted",
    "rescale_64_refuted",
    "rescale_from_real_saturates"
   ],
   "note": "Rescaling in IEEE arithmetic (SpecFloat), checked for every 8 bit value. Rescaling of wider types is not proved in general."
  },
  {
   "property": "C42",
   "status": "proved",
   "theorems": [
    "box_sum_exact",
    "box_sum_even_kernel",
    "box_sum_small_image_refuted"
   ],
   "note": "Integer pixels; the rounding of the float64 sums is not modelled."
  },
  {
   "property": "C43",
   "status": "proved",
   "theorems": [
    "disparity_is_best_match",
    "disparity_finds_shift",
    "single_candidate_valid_refuted"
   ],
   "note": "AbsoluteCost and SquaredCost on integer pixels; NCCCost is not modelled."
  },
  {
   "property": "C44",
   "status": "proved",
   "theorems": [
    "subdivision_covers",
    "subdivision_failure_adds_nothing"
   ],
   "note": "For every outcome of the comparison of the work estimates."
  },
  {
   "property": "C45",
   "status": "proved",
   "theorems": [
    "skyline_reads_back",
    "skyline_look_refuted",
    "ldl_factors",
    "ldl_positive_pivots",
    "sparse_solve_exact",
    "multi_sparse_solve_exact",
    "reordered_solve_exact",
    "found_skyline",
    "ldl_semi_definite_refuted",
    "sparse_solve_regular_refuted"
   ],
   "note": "Exact rationals instead of doubles; cuthill_mckee_ordering is represented by an arbitrary permutation."
  },
  {
   "property": "C46",
   "status": "proved",
   "theorems": [
    "convolution_value",
    "convolution_rasterize",
    "convolution_total",
    "separable_value",
    "separable_rasterize",
    "separable_agrees",
    "separable_integer_refuted"
   ],
   "note": "Exact rationals for floating point; one plane and one channel."
  },
  {
   "property": "C47",
   "status": "proved",
   "theorems": [
    "inverse_regular",
    "inverse_singular",
    "inverse22_agrees",
    "inverse_tall_refuted",
    "inverse_wide_refuted"
   ],
   "note": "Exact rationals, so no pivot is tiny without being zero."
  },
  {
   "property": "C48",
   "status": "proved",
   "theorems": [
    "det_defined",
    "det_identity",
    "det_row_linear",
    "det_row_swap",
    "det_product",
    "det_zero_iff_singular",
    "det22_agrees",
    "det_empty_refuted"
   ],
   "note": "Exact rationals."
  },
  {
   "property": "C49",
   "status": "proved",
   "theorems": [
    "laplacian_value",
    "laplacian_unsigned_refuted",
    "sobel_value",
    "sobel_sign_refuted",
    "gaussian_taps",
    "gaussian_normalized",
    "gaussian_default_size",
    "derivative_exact",
    "derivative_rejects",
    "derivative_negative_refuted"
   ],
   "note": "Exact rationals; erf is any odd increasing function."
  },
  {
   "property": "C50",
   "status": "proved",
   "theorems": [
    "qtree_levels",
    "qtree_tiles",
    "qtree_order",
    "qtree_leaves",
    "qtree_pyramid_exists",
    "qtree_levels_are_means",
    "qtree_any_tile_size_refuted",
    "qtree_crop_keeps_data_refuted"
   ],
   "note": "Scalar pixels in exact rationals with the channel conversions; the logarithms in get_tree_levels are exact; writing a tile succeeds."
  },
  {
   "property": "C51",
   "status": "proved",
   "theorems": [
    "qtree_paths_distinct",
    "qtree_named_paths",
    "qtree_named_paths_distinct_refuted"
   ],
   "note": "Paths are strings; appending as boost::filesystem does for relative names."
  },
  {
   "property": "C52",
   "status": "proved",
   "theorems": [
    "exif_put_get",
    "exif_tiff_read",
    "exif_tiff_roundtrip",
    "exif_tag_values",
    "exif_offset_refuted",
    "exif_next_refuted",
    "exif_first_refuted",
    "exif_unsigned_refuted",
    "exif_float_refuted"
   ],
   "note": "Doubles are kept as the integers, quotients or bytes they are made from; the machine is little endian."
  },
  {
   "property": "C53",
   "status": "proved",
   "theorems": [
    "exif_jpeg_read",
    "exif_jpeg_roundtrip",
    "exif_jpeg_none",
    "exif_second_section_refuted",
    "exif_eoi_refuted",
    "exif_short_section_refuted"
   ],
   "note": "The file is a list of bytes; the choice of the reader by file name is not modelled."
  },
  {
   "property": "C54",
   "status": "proved",
   "theorems": [
    "chipper_cuts",
    "chipper_keeps_points",
    "chipper_rejects",
    "chipper_zero_block_refuted"
   ],
   "note": "Coordinates are exact rationals, differences rounded by any function; the running total of partition is exact; the georeference conversion is any function."
  },
  {
   "property": "C55",
   "status": "proved",
   "theorems": [
    "format_channels",
    "convert_pixelwise",
    "channel_conversion",
    "channel_mean",
    "channel_alpha",
    "channel_opaque",
    "pixel_alpha",
    "convert_exact",
    "convert_planes_channels",
    "can_convert_exact",
    "can_convert_agrees",
    "convert_back",
    "premultiply_back",
    "buffer_write_box",
    "buffer_read_box",
    "buffer_contiguous",
    "rgb_blue_is_alpha_refuted",
    "rgba_alpha_ignored_refuted",
    "planes_drop_rescale_refuted",
    "more_planes_overrun_refuted",
    "can_convert_unknown_refuted",
    "mean_u64_refuted"
   ],
   "note": "Memory is two disjoint lists of bytes; operations on floating-point channels and premultiplication of 32- and 64-bit ones are arbitrary functions."
  },
  {
   "property": "C56",
   "status": "proved",
   "theorems": [
    "pbm_open_header",
    "pbm_open_outcomes",
    "pbm_scaling",
    "pbm_read",
    "pbm_roundtrip",
    "pbm_roundtrip_exact",
    "pbm_rejects",
    "pbm_second_write_refuted",
    "pbm_bitmap_refuted",
    "pbm_short_file_refuted",
    "pbm_sample_wraps_refuted",
    "pbm_long_comment_refuted",
    "pbm_negative_width_refuted"
   ],
   "note": "The stream is a list of bytes with its state bits; extraction of numbers follows std::num_get in the C locale; the file system is the contents of one file."
  },
  {
   "property": "C57",
   "status": "proved",
   "theorems": [
    "disparity_numbers",
    "disparity_of_entry",
    "adjacent_table",
    "default_penalties",
    "path_step",
    "cost_buffer_layout",
    "lines_partition",
    "threads_never_stuck",
    "accumulation_completes",
    "accumulated_costs",
    "path_costs_optimal",
    "growing_boxes_optimal",
    "accumulated_energy",
    "jump_penalty_always_paid_refuted",
    "large_penalties_refuted"
   ],
   "note": "Additions to the shared buffer are a load and a store interleaved in any order; the thread pool itself is module Pool. Vector instructions are modelled lane by lane with saturating arithmetic. The more global variant (MGM) and the selection of disparities are not part of this property."
  },
  {
   "property": "C58",
   "status": "proved",
   "theorems": [
    "matchable_region",
    "wrong_masks_rejected",
    "search_boxes",
    "search_boxes_sound",
    "searched_without_right_mask",
    "searched_with_right_mask",
    "searched_near_priors",
    "positive_range_refuted",
    "prior_outside_range_refuted",
    "row_search_uses_neighbours_refuted",
    "valid_targets_searched_refuted",
    "single_row_limits_refuted",
    "shrunk_boxes_respect_mask_refuted"
   ],
   "note": "Whether the buffers of a set of boxes fit in memory is an arbitrary function of the boxes; statistics and messages are left out; int arithmetic is unbounded."
  },
  {
   "property": "C59",
   "status": "proved",
   "theorems": [
    "local_costs",
    "other_windows_refused",
    "five_by_five_neighbours",
    "best_disparity",
    "unique_minimum_kept",
    "smoothing_in_range",
    "equal_costs_first",
    "disparity_view",
    "matching_completes",
    "matching_result",
    "cheapest_disparity_found",
    "ternary_5x5_uses_all_neighbours_refuted",
    "chosen_is_cheapest_refuted"
   ],
   "note": "The mean of the smoothing, computed in doubles, is any function within one half of the exact mean. Subpixel refinement and the more global variant (MGM) are not modelled."
  },
  {
   "property": "C60",
   "status": "proved",
   "theorems": [
    "store_stays_sound",
    "store_names_unique",
    "is_member_exact",
    "add_adds_frame",
    "add_adds_tree",
    "set_parent_moves_frame",
    "del_deletes_tree",
    "del_deletes_one",
    "destructor_deletes_all",
    "clone_tree_detached",
    "queries_exact",
    "null_handles_refused",
    "children_of_null_refuted",
    "names_stay_unique_refuted",
    "add_failure_leaks_refuted",
    "set_parent_takes_strangers_refuted",
    "set_parent_loses_frames_refuted"
   ],
   "note": "Handles are node numbers with NULL; the mutex is left out (one thread). The extras of a frame and the vector overload of clone_tree are not modelled."
  },
  {
   "property": "C61",
   "status": "proved",
   "theorems": [
    "full_name_from_root",
    "frame_names_complete",
    "split_path_elements",
    "every_path_splits",
    "lookup_full_name",
    "lookup_follows_path",
    "lookup_finds_member",
    "lookup_finds_name",
    "lookup_stays_below_scope_refuted"
   ],
   "note": "Paths are character lists; splitPath's past-the-end increment at the end of the string is modelled as staying at the end."
  },
  {
   "property": "C62",
   "status": "proved",
   "theorems": [
    "merge_frame_trees_unites",
    "merge_tree_unites",
    "merge_tree_refuses_members",
    "merge_tree_at_start_refuted"
   ],
   "note": "The trees have unique names among siblings and the merged tree has no parent."
  },
  {
   "property": "C63",
   "status": "proved",
   "theorems": [
    "product_applies_both",
    "inverse_transform_undoes",
    "transform_determined",
    "transform_of_matrix",
    "get_transform_converts",
    "carried_somewhere",
    "get_transform_of_converts",
    "get_position_of_converts",
    "get_transform_null",
    "transforms_compose",
    "transforms_there_and_back",
    "set_transform_places",
    "set_transform_get",
    "set_transform_null",
    "frame_transforms_set_get",
    "frame_transforms_get_set",
    "frame_transforms_lengths",
    "matrix_conversion_refuted",
    "get_transform_across_trees_refuted",
    "set_transform_rel_replaces_refuted",
    "set_transform_of_root_refuted"
   ],
   "note": "Exact rational arithmetic; the inverse is the LU inversion of C47's module. set_transform_places is for frames with a parent: for roots the code is wrong (set_transform_of_root_refuted)."
  },
  {
   "property": "C64",
   "status": "proved",
   "theorems": [
    "unique_integers_distinct",
    "unique_integers_found",
    "unique_integers_end_refuted",
    "inliers_exact",
    "inlier_indices_exact",
    "inliers_safe_refuted",
    "attempt_best",
    "attempt_order_irrelevant",
    "attempt_deterministic_refuted",
    "result_has_inliers_refuted",
    "ransac_attempts",
    "ransac_keeps_minimum_refuted"
   ],
   "note": "The fitting and error functors and the random generator are arbitrary functions; errors are rationals; the order of the critical sections is an arbitrary permutation. Messages are left out."
  },
  {
   "property": "C65",
   "status": "proved",
   "theorems": [
    "find_first",
    "find_measure_first",
    "delete_measure_exact",
    "delete_control_point_exact",
    "points_counted",
    "add_points_one_by_one",
    "changed_points_counted_refuted",
    "image_names_found",
    "gcp_file_lines",
    "gcp_file_bad_image",
    "gcp_file_round_trip",
    "gcp_file_other_images",
    "gcp_file_line_per_point_refuted",
    "gcp_file_readable_refuted",
    "gcp_file_right_image_refuted"
   ],
   "note": "Files are lists of tokens with line ends (printing and scanning of numbers is left out); geodetic conversions are arbitrary inverse functions; numbers are integers."
  },
  {
   "property": "C66",
   "status": "proved",
   "theorems": [
    "relation_features",
    "relation_nodes",
    "feature_map_exact",
    "node_map_exact",
    "relation_total_refuted",
    "relation_empty_point",
    "listing_exact",
    "relation_listing"
   ],
   "note": "Features are places in a heap; shared and weak pointers are these places. The matrices of a feature are left out."
  },
  {
   "property": "C67",
   "status": "proved",
   "theorems": [
    "random_indices_exact",
    "pair_subset_exact",
    "tracks_sound",
    "tracks_complete",
    "tracks_every_feature_refuted",
    "tracks_joined_refuted",
    "network_of_matches",
    "same_image_refused"
   ],
   "note": "std::shuffle is any function that permutes; coordinates and scales are integers (only copied and compared); reading of the match files and triangulation are left out."
  },
  {
   "property": "C68",
   "status": "proved",
   "theorems": [
    "cut_poly_exact"
   ],
   "note": "Coordinates are rationals with exact arithmetic. The sort is any function that permutes, so the theorem does not say which pieces are joined along the border, only how often they wind around points. cutPolyLine is left out."
  },
  {
   "property": "C69",
   "status": "proved",
   "theorems": [
    "edge_meets_box_exact",
    "edge_meets_horizontal_exact",
    "cut_edge_exact",
    "edge_meets_box_any_sides_refuted"
   ],
   "note": "Exact rational arithmetic. edgesIntersect and isPointOnEdge are left out."
  },
  {
   "property": "C70",
   "status": "proved",
   "theorems": [
    "linear_positions_exact",
    "lagrange_var_follows_window",
    "lagrange_var_exact",
    "lagrange_const_follows_window",
    "lagrange_checks_spec",
    "lagrange_const_serves_last_sample_refuted",
    "piecewise_acceleration_exact",
    "piecewise_acceleration_continuous_refuted",
    "hermite_matches_both_ends",
    "hermite_serves_last_sample_refuted",
    "velocities_counted_refuted",
    "weights_normalised",
    "smooth_position_within_samples",
    "smooth_position_any_number_refuted"
   ],
   "note": "Exact rational arithmetic; exp() in the weights is any positive function and std::sort any function that permutes and orders. Curve3DPositionInterpolation is left out."
  },
  {
   "property": "C71",
   "status": "proved",
   "theorems": [
    "line_times_on_segments",
    "line_times_at_entries",
    "line_times_any_table_refuted",
    "direction_table_surrounds",
    "direction_table_at_entries",
    "direction_table_right_of_table_refuted",
    "direction_table_linear_left_refuted"
   ],
   "note": "Exact rational arithmetic; the spherical interpolation of two directions is any function."
  },
  {
   "property": "C72",
   "status": "proved",
   "theorems": [
    "masked_disparities",
    "masked_regions",
    "masked_regions_any_range_refuted",
    "disparity_range_exact",
    "range_mask_keeps",
    "range_mask_rows_refuted",
    "transformed_disparities",
    "transforms_compose"
   ],
   "note": "Exact rational arithmetic; one plane."
  },
  {
   "property": "C73",
   "status": "proved",
   "theorems": [
    "outliers_by_share",
    "kernels_refused",
    "cleanup_keeps",
    "isolated_border_pixel_removed_refuted",
    "outliers_by_mean",
    "outliers_by_mean_of_window",
    "outliers_by_mean_of_kept_refuted",
    "outliers_by_deviation",
    "outliers_by_deviation_wide_refuted",
    "deviation_image",
    "deviation_image_is_deviation_refuted",
    "deviation_image_even_refuted",
    "deviation_image_one_refuted",
    "halved_disparities",
    "halved_size",
    "halved_within",
    "doubled_disparities",
    "doubled_then_halved",
    "doubled_regions_refuted"
   ],
   "note": "Exact rational arithmetic; a standard deviation is compared by its square; std::sort is any function that permutes and orders; the counters of rejected points and the filter by quantiles are left out."
  },
  {
   "property": "C74",
   "status": "proved",
   "theorems": [
    "interpolation_at_pixels",
    "nearest_pixel",
    "bilinear_reproduces",
    "bicubic_reproduces",
    "bilinear_between",
    "bilinear_fits",
    "bicubic_clamps",
    "interpolation_valid",
    "interpolation_regions",
    "bicubic_between_refuted",
    "weightless_neighbour_refuted"
   ],
   "note": "Exact rational arithmetic; one channel, validity of masked pixels included; the commented-out vector variant is left out."
  },
  {
   "property": "C75",
   "status": "proved",
   "theorems": [
    "transforms_invert",
    "rotation_is_rigid",
    "homography_inverts",
    "composed_transforms",
    "affine_matrix_round_trip",
    "transformed_boxes",
    "transformed_empty_box",
    "corners_suffice",
    "transformed_image_box",
    "homography_box_refuted",
    "continuous_box_refuted"
   ],
   "note": "Exact rational arithmetic; sine and cosine are any two numbers with squares summing to one; tables of points and radial transforms are left out."
  },
  {
   "property": "C76",
   "status": "proved",
   "theorems": [
    "approximation_table",
    "approximation_in_table",
    "approximation_exact",
    "approximation_tolerance_refuted",
    "transformed_image_regions",
    "approximated_image_regions",
    "moved_and_enlarged_images",
    "resized_from_within",
    "resampled_image_size",
    "nodata_outside",
    "nodata_identity_refuted"
   ],
   "note": "Exact rational arithmetic."
  },
  {
   "property": "C77",
   "status": "proved",
   "theorems": [
    "edits_refine_list",
    "append_polygons_adds",
    "shift_edge_moves_ends",
    "shift_marked_moves_marked",
    "reverse_marked_turns_marked",
    "append_and_shift_marks_copies",
    "transform_moves_annotations",
    "transform_marked_annotations",
    "vertex_edits_drop_vertex_labels",
    "around_center_keeps_center",
    "compose_applies_second_first",
    "shift_rotate_scale",
    "set_rectangle_shows",
    "point_cloud_shows",
    "erase_marked_drops_polygon_labels_refuted"
   ],
   "note": "Exact rational arithmetic; the arrays are those of the object, checked on each access."
  },
  {
   "property": "C78",
   "status": "proved",
   "theorems": [
    "signed_area_exact",
    "area_turned",
    "area_transformed",
    "point_in_polygon_exact",
    "nearest_point_of_segment",
    "bounding_box_exact",
    "bounding_boxes_exact",
    "closest_vertex_exact",
    "closest_edge_exact",
    "closest_annotation_exact",
    "closest_edge_of_open_line_refuted",
    "sort_orders_polygons",
    "sort_add_outermost_turns_left",
    "sort_add_other_orientation_refuted",
    "cut_line_inside",
    "cut_line_keeps_border_refuted",
    "grid_covers_window"
   ],
   "note": "Exact rational arithmetic; the sort is any function with the promise of std::sort."
  },
  {
   "property": "C79",
   "status": "proved",
   "theorems": [
    "file_round_trip",
    "file_keeps_closed_refuted",
    "file_keeps_labels_refuted",
    "file_with_empty_lines_refuted",
    "file_after_emptied_polygon_refuted"
   ],
   "note": "Lines are tokens; the printing and parsing of numbers is not modelled."
  },
  {
   "property": "C80",
   "status": "proved",
   "theorems": [
    "transform_accepted",
    "pixel_point_round_trip",
    "pixel_point_round_trip_affine",
    "pixel_to_point_meaning",
    "area_shift_rotated_refuted",
    "lonlat_to_point_nearest",
    "pixel_to_point_bbox_holds",
    "point_to_pixel_bbox_holds",
    "unprojected_round_trip",
    "projected_round_trip",
    "global_round_trip_refuted",
    "guessed_box",
    "pixel_to_lonlat_bbox_perimeter",
    "sample_int_box_fraction_refuted",
    "lonlat_point_bbox_sides",
    "point_to_lonlat_bbox_corner_refuted",
    "lonlat_to_pixel_bbox_holds",
    "geodetic_conversions",
    "crop_law",
    "crop_rotated_refuted",
    "resample_law",
    "resample_rotated_refuted"
   ],
   "note": "Exact rational arithmetic; the map projection is an arbitrary pair of partial functions."
  },
  {
   "property": "C81",
   "status": "proved",
   "theorems": [
    "different_datums",
    "wrap_lon_range",
    "shortcut_inverse",
    "unprojected_inverse",
    "same_georef_identity",
    "shortcut_one_corner_refuted",
    "transformed_bbox_perimeter",
    "forward_bbox_holds",
    "point_bbox_samples",
    "pixel_to_point_bbox_perimeter",
    "conversions_agree",
    "reproject_points_each",
    "reproject_ignores_transform_refuted"
   ],
   "note": "Exact rational arithmetic; the map projection is an arbitrary pair of partial functions; a conversion between datums never takes place."
  },
  {
   "property": "C82",
   "status": "proved",
   "theorems": [
    "pair_nearest",
    "pair_meets",
    "pair_lines",
    "pair_swap",
    "pair_not_a_number",
    "many_least",
    "many_meets",
    "many_two",
    "many_parallel",
    "nearly_parallel_iff",
    "usable_iff",
    "triangulate_sizes",
    "triangulate_no_point",
    "triangulate_no_ray",
    "triangulate_meets",
    "triangulate_reflects",
    "triangulate_gives",
    "triangulate_in_front_refuted",
    "opposite_rays_refuted",
    "disparity_point_shows",
    "disparity_cloud_shows"
   ],
   "note": "Exact rational arithmetic; the error of three rays or more is kept as the list of squared distances, before the square roots."
  },
  {
   "property": "C83",
   "status": "proved",
   "theorems": [
    "build_iff",
    "build_frame",
    "build_params",
    "no_distortion_image",
    "distortion_image",
    "projection_valid_iff",
    "ray_points",
    "pixel_round_trip",
    "point_round_trip",
    "same_pixel_same_line",
    "check_passes",
    "check_sound",
    "check_plane",
    "behind_refused_refuted",
    "changes_as_made",
    "step_params",
    "no_rebuild_stale_refuted",
    "scale_pixels",
    "strip_pixels",
    "transform_pixels",
    "epipolar_rows"
   ],
   "note": "Exact rational arithmetic; rays are not brought to length one; the lens is a pair of functions; poses are matrices; lengths in epipolar are given from outside."
  },
  {
   "property": "C84",
   "status": "proved",
   "theorems": [
    "quat_product_matrix",
    "quat_rotate_matrix",
    "quat_matrix_rotation",
    "quat_rotate_keeps",
    "quat_rotate_product",
    "quat_inverse",
    "quat_rotate_inverse",
    "quat_normalize",
    "quat_matrix_round_trip",
    "quat_round_trip",
    "quat_same_rotation_iff",
    "quat_mirror_lost",
    "quat_any_length_refuted",
    "axis_angle_same",
    "axis_angle_turns",
    "euler_refuses",
    "euler_turns",
    "euler_xyz_same",
    "slerp_ends",
    "slerp_sign",
    "slerp_n_ok",
    "slerp_n_sizes",
    "slerp_n_constant",
    "slerp_n_weights_refuted"
   ],
   "note": "Exact rational arithmetic; sine, cosine, arc cosine and square root are functions given from outside."
  },
  {
   "property": "C85",
   "status": "proved",
   "theorems": [
    "cahv_pixel_shows",
    "of_pinhole_image",
    "cahv_ray",
    "cahv_point_on_ray",
    "of_params_shows",
    "of_view_shows",
    "of_view_center_refuted",
    "to_pinhole_image",
    "cahv_epipolar_rows",
    "cahv_epipolar_axes",
    "to_pinhole_keeps_refuted",
    "to_pinhole_not_unit_refuted",
    "cahv_epipolar_rows_refuted"
   ],
   "note": "Exact rational arithmetic; rays are not brought to length one; lengths are given from outside; files are left out."
  },
  {
   "property": "C86",
   "status": "proved",
   "theorems": [
    "longitude_zone_strip",
    "longitude_zone_range",
    "longitude_zone_sixty_refuted",
    "utm_not_a_number",
    "latitude_band_letter",
    "latitude_band_poles",
    "latitude_band_north",
    "latitude_band_x_refuted",
    "longitude_zone_iff",
    "utm_zone_plain",
    "utm_zone_norway",
    "utm_zone_svalbard",
    "utm_svalbard_north_refuted",
    "utm_zone_turn_refuted"
   ],
   "note": "Exact rational arithmetic: for a longitude so large that a full turn is lost in rounding the loop of the code would not end."
  },
  {
   "property": "C87",
   "status": "proved",
   "theorems": [
    "is_extremum_iff",
    "is_scale_extremum_iff",
    "find_peaks_found",
    "peaks_apart",
    "scale_peaks_refused",
    "scale_peaks_found",
    "scale_peak_cube_refuted",
    "plateau_peak_refuted"
   ],
   "note": "Exact rational values; the scale of a plane is given from outside."
  },
  {
   "property": "C88",
   "status": "proved",
   "theorems": [
    "form_basis_right",
    "form_basis_zero",
    "form_basis_axis",
    "form_basis_always_refuted",
    "across_greatest",
    "tangents_in_plane",
    "tangents_differ",
    "tangents_of_unit",
    "tangents_perpendicular_refuted"
   ],
   "note": "Exact rational arithmetic; lengths of vectors are given from outside."
  },
  {
   "property": "C89",
   "status": "proved",
   "theorems": [
    "progress_reported",
    "increment_shares",
    "increment_shown",
    "increments_add",
    "reported_range",
    "finished_part",
    "fractional_shown",
    "abort_seen",
    "abort_not_seen",
    "null_keeps_nothing",
    "bar_printed",
    "bar_quiet",
    "bar_once",
    "finished_plain",
    "bar_fits",
    "finished_shows_one_refuted",
    "bar_never_longer_refuted",
    "bar_length_old_refuted"
   ],
   "note": "Exact rational arithmetic; each call is one step."
  }
 ]
}