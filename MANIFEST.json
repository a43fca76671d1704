{
 "claims": [
  {
   "property": "C01",
   "status": "proved",
   "theorems": [
    "C01_backward_forward",
    "C01_forward_backward",
    "C01_lossless_3d"
   ],
   "note": "Exact (rational) arithmetic; every dimension >= 1, plus the 3D instance used by the maps. Float rounding is not modelled."
  },
  {
   "property": "C02",
   "status": "proved",
   "theorems": [
    "C02_variants_agree",
    "C02_forward_single_child"
   ],
   "note": "Dimensions 1-3 (the ones instantiated), all children, exact arithmetic."
  },
  {
   "property": "C03",
   "status": "proved",
   "theorems": [
    "C03_decode_encode",
    "C03_encode_decode",
    "C03_encoders_agree",
    "C03_encoders_agree_1d_refuted",
    "C03_decoders_agree"
   ],
   "note": "2D-4D, both implementations; documented coordinate ranges. The 1D encoders are shown to differ on negative inputs (refuted theorem)."
  },
  {
   "property": "C04",
   "status": "proved",
   "theorems": [
    "C04_morton_child_index",
    "C04_parent_child",
    "C04_children_partition",
    "C04_corner_indices"
   ],
   "note": "Any dimension up to 64, all integer coordinates."
  },
  {
   "property": "C05",
   "status": "proved",
   "theorems": [
    "C05_last_common_ancestor",
    "C05_last_common_ancestor_codes"
   ],
   "note": "Positions in the documented non-negative range, and directly on all 64 bit codes."
  },
  {
   "property": "C06",
   "status": "proved",
   "theorems": [
    "C06_inner_and_leaves",
    "C06_div_exp2",
    "C06_log2",
    "C06_is_power_of_two",
    "C06_num_total_nodes_fast"
   ],
   "note": "Unbounded integers for the shifts, any width for the logarithms."
  },
  {
   "property": "C07",
   "status": "proved",
   "theorems": [
    "C07_linear_index_bijection"
   ],
   "note": "Any dimension and side length."
  },
  {
   "property": "C08",
   "status": "proved",
   "theorems": [
    "C08_split_recombine",
    "C08_split_unique",
    "C08_node_in_one_block"
   ],
   "note": "Every configured tree height and node height; covers negative coordinates."
  },
  {
   "property": "C09",
   "status": "proved",
   "theorems": [
    "C09_cell_contains_point",
    "C09_interior_point",
    "C09_center_roundtrip",
    "C09_boundary_rule",
    "C09_half_open_refuted",
    "C09_corners",
    "C09_corners_span_cell",
    "C09_floor_ceil",
    "C09_node_spans_cells",
    "C09_cells_inside_node",
    "C09_node_is_ancestor",
    "C09_node_is_ancestor_any_rounding",
    "C09_node_is_ancestor_half_even_refuted",
    "C09_new_resolution"
   ],
   "note": "All dimensions, any rounding to nearest. Points exactly on a cell face go to the neighbour further from zero (C09_boundary_rule); half-open cells and half-to-even rounding are refuted."
  },
  {
   "property": "C10",
   "status": "partial",
   "theorems": [
    "C10_add_exact",
    "C10_set_frame",
    "C10_set_effect",
    "C10_set_readback_partial",
    "C10_set_readback_refuted"
   ],
   "note": "addToCellValue and the frame property are proved for every reachable map. The read-back claim of setCellValue is false of the code and refuted by a witness: it compares with the parent's value. Its real effect and the exact condition for read-back are proved."
  },
  {
   "property": "C11",
   "status": "partial",
   "theorems": [
    "C11_chunked_add_exact",
    "C11_chunked_set_frame",
    "C11_add_exact",
    "C11_set_frame",
    "C11_set_effect",
    "C11_set_readback_partial",
    "C11_set_readback_refuted"
   ],
   "note": "As C10 for the hashed map: add and frame proved, read-back after setCellValue refuted, real effect proved."
  },
  {
   "property": "C12",
   "status": "proved",
   "theorems": [
    "C12_chunked_accumulates",
    "C12_plain_accumulates",
    "C12_hashed_accumulates"
   ],
   "note": "Exact arithmetic; the plain octree also with increments at coarse nodes."
  },
  {
   "property": "C13",
   "status": "proved",
   "theorems": [
    "C13_chunked_average",
    "C13_plain_average",
    "C13_hashed_average",
    "C13_hashed_cell_query",
    "C13_plain_add_shifts"
   ],
   "note": "All node heights the API accepts, exact arithmetic."
  },
  {
   "property": "C14",
   "status": "proved",
   "theorems": [
    "C14_chunked_threshold",
    "C14_plain_threshold",
    "C14_hashed_threshold",
    "C14_plain_range_idempotent",
    "C14_hashed_range_idempotent",
    "C14_hashed_threshold_field",
    "C14_range_without_zero_refuted"
   ],
   "note": "Plain and hashed map, all reachable states. For the hashed map cells of unallocated blocks keep reading 0; with a configured range that excludes 0 (accepted by the code) such cells stay out of range (refuted theorem)."
  },
  {
   "property": "C15",
   "status": "proved",
   "theorems": [
    "C15_chunked_prune",
    "C15_plain_prune",
    "C15_plain_prune_thresholded",
    "C15_plain_prune_twice",
    "C15_hashed_prune",
    "C15_hashed_prune_thresholded",
    "C15_hashed_prune_twice",
    "C15_prune_lossless_refuted"
   ],
   "note": "Bound (T-1)*19/8*eps for the plain octree, plus eps for the hashed map; idempotence proved exactly. The stronger documented 'lossless' is refuted."
  },
  {
   "property": "C16",
   "status": "proved",
   "theorems": [
    "C16_hashed_chunked_same",
    "C16_three_maps_same",
    "C16_plain_hashed_same"
   ],
   "note": "Plain, hashed and hashed chunked wavelet octree return equal values (cells and coarse nodes) after the same set/add/threshold/clear history, with any tree heights; hashed vs chunked for every history (also prune, pruneSmart, erase block), including block sets, bounds and emptiness. Exact rationals."
  },
  {
   "property": "C17",
   "status": "proved",
   "theorems": [
    "C17_chunked_leaves",
    "C17_plain_leaves",
    "C17_hashed_leaves"
   ],
   "note": "Plain and hashed map. Allocated hashed blocks that are empty() are skipped by the iteration, as stated in the theorem."
  },
  {
   "property": "C18",
   "status": "proved",
   "theorems": [
    "C18_chunked_bounds",
    "C18_plain_bounds",
    "C18_hashed_bounds",
    "C18_plain_nonzero_refuted"
   ],
   "note": "Hashed map: every non-zero cell. Plain octree: every observed cell (|v| >= eps); for smaller non-zero values the claim is refuted."
  },
  {
   "property": "C19",
   "status": "partial",
   "theorems": [
    "C19_hashed_accelerator",
    "C19_chunked_accelerator",
    "C19_hashed_cells",
    "C19_tall_octree_refuted",
    "C19_block_accelerator",
    "C19_ndtree_accelerator_partial",
    "C19_ndtree_same_as_direct_refuted",
    "C19_tree_accelerator_updates",
    "C19_default_value_refuted"
   ],
   "note": "Proved for any value arithmetic, all maps and all call sequences, for tree heights up to 19: hashed and chunked wavelet accelerators return what direct queries return; block accelerators have the results and effects of direct calls; the tree accelerator with any mix of reads and allocating updates (default value passed as argument) leaves the same map and reads the same values as direct calls, with getNode falling back to the closest existing ancestor. Refuted: tree heights 20/21 (accepted by the configuration) index the stacks out of bounds; the tree accelerator's getNode returns the closest ancestor for missing nodes where the map returns null; getOrAllocateNode without arguments uses another default value than the map."
  },
  {
   "property": "C20",
   "status": "proved",
   "theorems": [
    "C20_chunked_fresh",
    "C20_plain_fresh",
    "C20_hashed_fresh",
    "C20_plain_empty"
   ],
   "note": "Plain and hashed map."
  },
  {
   "property": "C21",
   "status": "partial",
   "theorems": [
    "C21_reads_as_map",
    "C21_prune_lossless",
    "C21_leaves",
    "C21_bounds",
    "C21_add_in_range",
    "C21_threshold_refuted",
    "C21_adds_in_range_partial"
   ],
   "note": "Reads, writes, accumulation, prune and leaf visits proved for every history. The threshold() clause is false of the code: threshold() does nothing, so values written with setCellValue stay out of range (C21_threshold_refuted); histories of adds only stay in range (C21_adds_in_range_partial)."
  },
  {
   "property": "C22",
   "status": "partial",
   "theorems": [
    "C22_empty",
    "C22_cell_histories_partial",
    "C22_set_reads_back",
    "C22_iteration_covers",
    "C22_iteration_add",
    "C22_iteration_first_add",
    "C22_prune",
    "C22_bounds",
    "C22_add_after_prune_refuted",
    "C22_no_disturbance_refuted",
    "C22_query_vs_iteration_refuted",
    "C22_root_leaf_refuted"
   ],
   "note": "Proved: leaf-level histories read back exactly and agree with iteration; set reads back always; increments of any node and prune in terms of leaf iteration; bounds. The full claim for mixed histories is false: after prune or coarse writes, increments are lost, other cells are disturbed, and queries disagree with iteration (refuted theorems)."
  },
  {
   "property": "C23",
   "status": "partial",
   "theorems": [
    "C23_hashed_blocks_roundtrip_partial",
    "C23_default_value_lost_refuted"
   ],
   "note": "Exact round trip for maps with default value 0 and values that survive the 32-bit code. A non-zero default value is lost (C23_default_value_lost_refuted)."
  },
  {
   "property": "C24",
   "status": "proved",
   "theorems": [
    "C24_wavelet_octree_roundtrip"
   ],
   "note": "Every tree and all values; floats abstracted by a 32-bit code that preserves the stored values."
  },
  {
   "property": "C25",
   "status": "partial",
   "theorems": [
    "C25_hashed_reload",
    "C25_unsaturated_exact",
    "C25_change_bounded",
    "C25_obstacle_lost",
    "C25_obstacle_reachable",
    "C25_occupied_becomes_free_refuted"
   ],
   "note": "Exact rule for every cell after saving and loading, exactness for cells without saturated enclosing nodes, and an error bound. 'Never turns an occupied cell into a free one' is refuted (C25_occupied_becomes_free_refuted; C25_obstacle_lost for every configuration where (hi-lo)/8^(T-1) < 1e-3, which includes the default)."
  },
  {
   "property": "C26",
   "status": "proved",
   "theorems": [
    "C26_chunked_reload",
    "C26_same_as_hashed"
   ],
   "note": "Same rule as for hashed maps, and equal to the hashed map under every history."
  },
  {
   "property": "C27",
   "status": "partial",
   "theorems": [
    "C27_terminates",
    "C27_truncated_not_loaded",
    "C27_truncated_kept_partial",
    "C27_unknown_type_refused",
    "C27_loaded_valid",
    "C27_header_cut_aborts_refuted"
   ],
   "note": "Termination on all bytes, no success on strict prefixes, unknown types refused, prefix with complete header leaves the caller's map unchanged. A prefix that ends inside the header aborts the program (C27_header_cut_aborts_refuted)."
  },
  {
   "property": "C28",
   "status": "proved",
   "theorems": [
    "C28_partition",
    "C28_toMask",
    "C28_toMask_flags",
    "C28_toMask_value",
    "C28_has",
    "C28_has_id",
    "C28_is",
    "C28_is_id",
    "C28_isFully",
    "C28_isFully_id",
    "C28_has_stray_refuted"
   ],
   "note": "Rational values; has() needs one mask without stray bits (refuted otherwise)."
  },
  {
   "property": "C29",
   "status": "proved",
   "theorems": [
    "C29_answers",
    "C29_has_id",
    "C29_isFully_id",
    "C29_leaves",
    "C29_unallocated_refuted",
    "C29_bounds"
   ],
   "note": "has, isFully, getNode, getValue, hasBlock and forEachLeaf of a freshly built map (with and without distance field) agree with the cells, any query sequence. Heights below 20 (the code's stack size), exact arithmetic. Unallocated blocks: refuted separately."
  },
  {
   "property": "C30",
   "status": "partial",
   "theorems": [
    "C30_never_fails",
    "C30_history_partial",
    "C30_matching_leaves",
    "C30_cache",
    "C30_value_cache",
    "C30_getValue_refuted",
    "C30_has_after_getNode_refuted",
    "C30_forEachLeaf_refuted"
   ],
   "note": "Proved: after any history an update makes has/isFully/hasBlock and forEachLeafMatching equal to a fresh build; cached = uncached on a fresh map. False, with witnesses: getValue, getNode, forEachLeaf, and has after getNode, after incremental updates (stale children)."
  },
  {
   "property": "C31",
   "status": "partial",
   "theorems": [
    "C31_at_most_once",
    "C31_fifo",
    "C31_wait_all",
    "C31_destructor",
    "C31_finitely_many_steps",
    "C31_no_deadlock",
    "C31_abort",
    "C31_no_workers_refuted"
   ],
   "note": "Arbitrary interleavings with spurious wake-ups: at most once, FIFO, wait_all, destructor, no deadlock, termination, abort only in a worker after the destructor was called; refuted for a pool of 0 threads, which the constructor accepts. Assumes sequential consistency, and that tasks do not block."
  },
  {
   "property": "C32",
   "status": "proved",
   "theorems": [
    "C32_grid_visits_box",
    "C32_empty_box_refuted",
    "C32_empty_last_axis",
    "C32_inverted_box_never_ends_refuted",
    "C32_int32"
   ],
   "note": "Any dimension, every box with min <= max. Boxes that are empty in an axis are refuted separately (cells outside are visited, or iteration never ends). C32_int32 adds the range of int: iteration is defined, with the same result, exactly if the box does not reach 2^31-1 along any axis."
  },
  {
   "property": "C33",
   "status": "partial",
   "theorems": [
    "C33_ray_between_indices",
    "C33_ray_between_points_partial",
    "C33_end_on_face_refuted",
    "C33_points_follow_segment_partial",
    "C33_indices_follow_segment"
   ],
   "note": "Path and geometry proved between any two indices in any dimension; between two points only when the end point is strictly inside a cell. On a cell face it is false: C33_end_on_face_refuted."
  },
  {
   "property": "C34",
   "status": "partial",
   "theorems": [
    "C34_preorder",
    "C34_breadth_first",
    "C34_postorder_partial",
    "C34_size",
    "C34_postorder_empty_array_refuted"
   ],
   "note": "Pre-order and breadth-first proved for every tree; post-order only for trees without all-null child arrays, otherwise false: C34_postorder_empty_array_refuted."
  },
  {
   "property": "C35",
   "status": "proved",
   "theorems": [
    "C35_cells_adjacent",
    "C35_offsets_complete",
    "C35_nodes_touch"
   ],
   "note": "Adjacency masks, offsets in any dimension and node adjacency over all heights."
  },
  {
   "property": "C36",
   "status": "proved",
   "theorems": [
    "C36_trilinear_formula",
    "C36_enclosing_cells_exist",
    "C36_value_at_centre",
    "C36_within_bounds",
    "C36_affine",
    "C36_nearest_neighbor",
    "C36_nearest_neighbor_interior",
    "C36_offsets_in_unit_cube"
   ],
   "note": "Nearest and trilinear interpolation over any cell function, exact rational arithmetic."
  },
  {
   "property": "C37",
   "status": "proved",
   "theorems": [
    "C37_bucket_queue",
    "C37_next_unique",
    "C37_keys_ordered",
    "C37_front_empty_undefined"
   ],
   "note": "All call histories including clear and setNumBuckets; front() only on non-empty queues (C37_front_empty_undefined shows why)."
  },
  {
   "property": "C38",
   "status": "proved",
   "theorems": [
    "C38_sparse_vector"
   ],
   "note": "All sequences of writes and touches within the capacity."
  },
  {
   "property": "C39",
   "status": "proved",
   "theorems": [
    "C39_scale_factor",
    "C39_bounds_conservative",
    "C39_has_unobserved",
    "C39_bounds_attained",
    "C39_node_bounds",
    "C39_wrap_refuted"
   ],
   "note": "Rectangle and node queries succeed and enclose every observed pixel, including wrapping rectangles on images with a power of two of columns; the check meant to enforce that accepts every image, and C39_wrap_refuted shows a bound that is wrong then"
  },
  {
   "property": "C40",
   "status": "partial",
   "theorems": [
    "C40_azimuth",
    "C40_corners_on_arcs",
    "C40_valid_config",
    "C40_total",
    "C40_update_type_partial",
    "C40_ray_update_partial",
    "C40_beam_update_partial",
    "C40_pinhole_box",
    "C40_pinhole",
    "C40_spherical_range",
    "C40_spherical_box_refuted",
    "C40_pinhole_behind_refuted",
    "C40_min_range_refuted",
    "C40_corner_arc",
    "C40_elevation",
    "C40_level_box",
    "C40_level_sensor",
    "C40_azimuth_axis_refuted",
    "C40_ouster_box_refuted"
   ],
   "note": "Sound for every point whose sensor coordinates are enclosed by the sensor box, with consequences for the updates of both measurement models. The box is proved right for cells in front of a pinhole camera, and for a level spherical sensor and cells in one quadrant off its vertical axis (C40_level_sensor); azimuth arcs are right for any orientation off the axis. For other cells of spherical and Ouster projection, cells reaching behind a camera and ranges below min_range the property is false (refuted)."
  },
  {
   "property": "C41",
   "status": "partial",
   "theorems": [
    "C41_scan_effect",
    "C41_stop_unique",
    "C41_finest_exact",
    "C41_schedule_independent",
    "C41_tasks_disjoint",
    "C41_terminates",
    "C41_local",
    "C41_free_space_recorded_refuted",
    "C41_plain_clamped_refuted",
    "C41_chunked_effect",
    "C41_chunked_stop_unique",
    "C41_chunked_finest_exact",
    "C41_chunked_order_independent",
    "C41_chunked_height_one_refuted",
    "C41_plain_effect",
    "C41_plain_stop_unique",
    "C41_plain_finest",
    "C41_plain_balanced"
   ],
   "note": "Hashed integrator: exact effect of every scan on every cell for all map states reachable by edits and scans, all oracles, fields of view and schedules (C41_scan_effect, C41_finest_exact), unique stopping node, schedule independence, locality, disjoint tasks, termination. Chunked integrator (tree height >= 2): the same effect theorem, uniqueness, exactness at the finest level, independence of the task order. Plain integrator: exact effect on every cell of the octree, relative to the field in which each octant is shifted to the mean of the octree (C41_plain_effect, C41_plain_finest), equal to the specification of the hashed one when the octants' means agree (C41_plain_balanced). Refuted: free space in unallocated blocks is not recorded; the plain WaveletIntegrator clamps with the root's mean; the chunked one samples below height 0 when the tree height is 1. Exact arithmetic; update type, sample and error test are arbitrary functions of the node index."
  },
  {
   "property": "C42",
   "status": "partial",
   "theorems": [
    "C42_hashed_partial",
    "C42_edits_only",
    "C42_hashed_refuted",
    "C42_chunked",
    "C42_chunked_coarse_refuted"
   ],
   "note": "Chunked map: proved for all histories of edits and full-resolution scans (C42_chunked). Hashed map: proved for edit-only histories and for histories of edits and full-resolution scans in which no sample is applied to a node that stores unequal cells without stored children (C42_hashed_partial). All up to the integrator's padding. The full statement is false: C42_hashed_refuted, C42_chunked_coarse_refuted."
  },
  {
   "property": "C43",
   "status": "partial",
   "theorems": [
    "C43_closest_return_partial",
    "C43_order_irrelevant_partial",
    "C43_range_of_some_point",
    "C43_short_range_refuted"
   ],
   "note": "Holds when all hitting points are at least min_range deep; refuted for closer points (order dependence)."
  },
  {
   "property": "C44",
   "status": "partial",
   "theorems": [
    "C44_rounded_sqrt",
    "C44_rounded",
    "C44_quasi_terminates",
    "C44_quasi_sound_partial",
    "C44_quasi_surface",
    "C44_full_terminates",
    "C44_full_sound_partial",
    "C44_full_distance",
    "C44_full_surface",
    "C44_inside_negative_refuted",
    "C44_quasi_walk",
    "C44_quasi_straight_refuted"
   ],
   "note": "Both generators terminate on every reachable hashed map; values bounded by max_distance, negative only for occupied cells, positive for free ones, max_distance for unobserved ones; cells at the surface have the right sign and bound; the full generator's values are distances to cells of the other class; the quasi-Euclidean generator's are at least the length of some walk within the class of the cell to the surface (C44_quasi_walk). Stated for every monotone root, of which the real square root rounded to single precision is an instance (C44_rounded_sqrt, C44_rounded: within 2^-24 of the real distance). Refuted parts: occupied cells that are not reached keep +max_distance; quasi-Euclidean values can exceed the straight distance to an occupied cell by more than 5 %. Other arithmetic rational."
  },
  {
   "property": "C45",
   "status": "proved",
   "theorems": [
    "C45_accepted",
    "C45_cumulative",
    "C45_ray",
    "C45_ray_compute",
    "C45_beam",
    "C45_beam_compute",
    "C45_ray_error",
    "C45_beam_error_free",
    "C45_scaling_refuted",
    "C45_ray_error_refuted",
    "C45_beam_error_refuted",
    "C45_rounded"
   ],
   "note": "Bounds, signs and monotonicity hold for scalings below 1 (free) and 16/13 (occupied); C45_scaling_refuted, C45_ray_error_refuted and C45_beam_error_refuted show where the code's own checks and error bounds are too weak."
  },
  {
   "property": "C46",
   "status": "partial",
   "theorems": [
    "C46_contains_point",
    "C46_include_smallest",
    "C46_closest_point",
    "C46_furthest_point",
    "C46_furthest_int_refuted",
    "C46_min_offset_boxes",
    "C46_max_offset_boxes",
    "C46_corners"
   ],
   "note": "All dimensions, exact arithmetic. For integer boxes the furthest point is wrong (C46_furthest_int_refuted): the centre is truncated."
  },
  {
   "property": "C47",
   "status": "proved",
   "theorems": [
    "C47_type_names",
    "C47_type_roundtrip",
    "C47_units",
    "C47_config"
   ],
   "note": "Type selectors, units (exact factors), configs with nested configs. Log output is not part of this model; C92 adds it and shows one case in which reporting an unreadable setting is undefined behaviour."
  },
  {
   "property": "C48",
   "status": "partial",
   "theorems": [
    "C48_dense_messages",
    "C48_publish_sync",
    "C48_no_other_blocks_partial",
    "C48_sends",
    "C48_erased_block_refuted",
    "C48_cleared_map_refuted",
    "C48_same_time_refuted",
    "C48_dense_sync",
    "C48_plain_first_message",
    "C48_plain_stale_nodes_refuted",
    "C48_chunked_sync",
    "C48_chunked_no_other_blocks_partial",
    "C48_chunked_sends"
   ],
   "note": "Hashed and hashed chunked wavelet octrees: proved for all histories that after a publication the subscriber has all blocks with their current content (up to pruning, within its bound); no other blocks only if a message was sent (refuted otherwise). Dense blocks: equal maps. Plain octree: first message exact, later messages refuted."
  },
  {
   "property": "C49",
   "status": "proved",
   "theorems": [
    "C49_chunked_recent_values_kept",
    "C49_prune_smart",
    "C49_recent_values_kept",
    "C49_edits_refresh_stamp"
   ],
   "note": "Recent blocks are untouched unless empty(), in which case they are erased (their values are below eps)."
  },
  {
   "property": "C50",
   "status": "proved",
   "theorems": [
    "C50_lookup",
    "C50_integrators",
    "C50_operations",
    "C50_pipeline"
   ],
   "note": "All histories of calls; clock readings arbitrary."
  },
  {
   "property": "C51",
   "status": "proved",
   "theorems": [
    "C51_index_roundtrip",
    "C51_nearest_is_nearest",
    "C51_four_indices_surround",
    "C51_offsets",
    "C51_circular"
   ],
   "note": "Exact rational arithmetic; any rounding to a nearest integer."
  },
  {
   "property": "C52",
   "status": "proved",
   "theorems": [
    "C52_finite_map",
    "C52_block_bounds"
   ],
   "note": "All histories, arbitrary block type."
  },
  {
   "property": "C53",
   "status": "proved",
   "theorems": [
    "C53_same_data",
    "C53_same_value",
    "C53_same_child_test",
    "C53_ancestor",
    "C53_indices",
    "C53_no_aliasing",
    "C53_height"
   ],
   "note": "All histories of writes, subtree erasures and clears; chunk addressing is injective (no aliasing) across chunks. ChunkedNdtree::prune is not modelled: it would not compile."
  },
  {
   "property": "C54",
   "status": "proved",
   "theorems": [
    "C54_size",
    "C54_has_node",
    "C54_hash_size",
    "C54_hash_has",
    "C54_erase_no_parent",
    "C54_new",
    "C54_allocate",
    "C54_ancestors_exist",
    "C54_erase",
    "C54_node_or_ancestor",
    "C54_prune",
    "C54_prune_defined",
    "C54_erase_flag_refuted",
    "C54_erase_root_refuted",
    "C54_hash_index",
    "C54_hash_update",
    "C54_hash_ancestors_exist",
    "C54_hash_value_or_ancestor",
    "C54_hash_leaves"
   ],
   "note": "Ndtree and NdtreeBlockHash as ancestor-closed finite maps; refuted: eraseNode's flag is true for absent nodes, and eraseNode at the root erases a child."
  },
  {
   "property": "C55",
   "status": "partial",
   "theorems": [
    "C55_invalid_pose",
    "C55_hashed_wavelet_partial",
    "C55_hashed_chunked_partial",
    "C55_hashed_blocks_partial",
    "C55_wavelet_octree_partial",
    "C55_volumetric_octree_partial",
    "C55_min_range_refuted",
    "C55_empty_cloud_refuted",
    "C55_end_on_face_refuted"
   ],
   "note": "Proved for all five map types (the two octrees of bounded size: for rays that stay inside; the volumetric octree: for maps written cell by cell), provided the cloud is not empty and the traced end of every usable point is strictly inside a cell. False for empty clouds (the process aborts, C55_empty_cloud_refuted) and for end points on a cell face (C55_end_on_face_refuted); min_range has no effect (C55_min_range_refuted)."
  },
  {
   "property": "C56",
   "status": "partial",
   "theorems": [
    "C56_times",
    "C56_compensate_partial",
    "C56_no_extrapolation",
    "C56_static_partial",
    "C56_undistorter_partial",
    "C56_one_interval_refuted",
    "C56_no_times_refuted",
    "C56_short_cloud_refuted",
    "C56_first_time_refuted",
    "C56_rigid_partial"
   ],
   "note": "Proved for every cloud, transform history without gaps and n >= 2 with a cloud duration of at least (n-1)(n-2) ns (outside this range refuted: abort), for arbitrary poses with the law X (X^-1 p) = p; and for unit quaternions with their interpolation of C59 (C56_rigid_partial: exact for poses of unit length, within 5e-4 of the distances for accepted ones)"
  },
  {
   "property": "C57",
   "status": "partial",
   "theorems": [
    "C57_fifo",
    "C57_posed",
    "C57_undistorted_partial",
    "C57_dropped",
    "C57_dropped_undistort_partial",
    "C57_waits",
    "C57_waits_undistort_partial",
    "C57_no_abort",
    "C57_images_fifo",
    "C57_images_posed",
    "C57_images_dropped",
    "C57_images_wait",
    "C57_images_no_abort",
    "C57_available_pose_refuted",
    "C57_out_of_order_refuted",
    "C57_undistort_wait_refuted",
    "C57_fields_refuted",
    "C57_livox_offset_refuted"
   ],
   "note": "Order, exactly-once, poses, drops and waiting proved for clouds without undistortion and for depth images, for every history; with undistortion for clouds in the range of C56 (_partial theorems). Drops: for clouds that arrive in time order (refuted otherwise)."
  },
  {
   "property": "C58",
   "status": "partial",
   "theorems": [
    "C58_identity",
    "C58_compose",
    "C58_inverse",
    "C58_rigid",
    "C58_angle_axis",
    "C58_is_rotation",
    "C58_transform_all",
    "C58_no_abort",
    "C58_inverse_accuracy",
    "C58_inverse_exact_refuted",
    "C58_unique_same",
    "C58_unique_canonical",
    "C58_posed_object"
   ],
   "note": "Proved for unit quaternions over real numbers (no rounding): composition, inverse, rigidity, axis and angle, unique representation, posed objects. For quaternions that only pass the unit length check: no abort and a bound of 5e-4 on the error of the inverse; exactness is refuted (C58_inverse_exact_refuted)."
  },
  {
   "property": "C59",
   "status": "proved",
   "theorems": [
    "C59_defined",
    "C59_ends",
    "C59_symmetric",
    "C59_constant_speed",
    "C59_small_angle"
   ],
   "note": "Over real numbers (no rounding). Constant speed for unit quaternions; position, ends, symmetry and definedness for all accepted quaternions."
  },
  {
   "property": "C60",
   "status": "proved",
   "theorems": [
    "C60_matrix_of_pose",
    "C60_pose_of_matrix",
    "C60_round_trip",
    "C60_rejected"
   ],
   "note": "Over real numbers (no rounding)."
  },
  {
   "property": "C61",
   "status": "proved",
   "theorems": [
    "C61_end_unique",
    "C61_scan_effect",
    "C61_after_threshold",
    "C61_query_refuted"
   ],
   "note": "For all oracles and all reachable maps. The immediate visibility by getCellValue is refuted (C61_query_refuted): coarse updates above finer cells are visible only to leaf iteration until thresholding or pruning pushes them down. The classification itself is the subject of other properties (range image intersector)."
  },
  {
   "property": "C62",
   "status": "proved",
   "theorems": [
    "C62_hashed_wavelet",
    "C62_hashed_chunked",
    "C62_hashed_blocks",
    "C62_wavelet_octree",
    "C62_volumetric_octree",
    "C62_segments_reached",
    "C62_sample_point",
    "C62_pinhole_frustum",
    "C62_image_border_refuted",
    "C62_full_circle_refuted",
    "C62_pixel_cone_refuted"
   ],
   "note": "For all five map types, any projection and measurement model. That the box contains all cells with an update is refuted for full-circle range images, for the half pixel at the image border and for the ContinuousRay model with point clouds (three _refuted theorems). The octrees need the box to lie inside the octree; the octree without wavelets: maps written cell by cell."
  },
  {
   "property": "C63",
   "status": "proved",
   "theorems": [
    "C63_hashed_message",
    "C63_hashed_whole_map",
    "C63_hashed_all_announced",
    "C63_chunked_message",
    "C63_chunked_all_announced",
    "C63_wavelet_octree_message",
    "C63_hashed_blocks_message",
    "C63_freed_cells_refuted",
    "C63_same_time_refuted",
    "C63_volumetric_octree_message",
    "C63_volumetric_octree_cells"
   ],
   "note": "Messages for all five map types (VolumetricOctree: values of the leaf iteration, or getCellValue for cell-level histories; its root must have been split), collecting all messages for both hashed wavelet maps (changes by calls). Two refuted readings. Conversion to 32-bit points is not modelled."
  },
  {
   "property": "C64",
   "status": "proved",
   "theorems": [
    "C64_hashed_crop",
    "C64_chunked_crop",
    "C64_no_crop",
    "C64_histories",
    "C64_failed_lookup_refuted"
   ],
   "note": "Both hashed wavelet maps; the comparison with the square root is exact (by squares). One refuted reading (failed lookups)."
  },
  {
   "property": "C65",
   "status": "proved",
   "theorems": [
    "C65_angle_unique",
    "C65_atan2_error",
    "C65_atan2_error_plain",
    "C65_atan2_rational",
    "C65_atan2_rational_plain",
    "C65_negative_zero_refuted",
    "C65_float_error",
    "C65_float_constant_refuted",
    "C65_float_origin",
    "C65_increasing",
    "C65_direction_only"
   ],
   "note": "Real numbers and IEEE binary32 (Flocq, all roundings); refuted: negative zero x, and the documented constant as a bound in binary32"
  },
  {
   "property": "C66",
   "status": "proved",
   "theorems": [
    "C66_ouster_beam",
    "C66_spherical",
    "C66_spherical_reverse",
    "C66_ouster",
    "C66_ouster_reverse",
    "C66_pinhole",
    "C66_pinhole_reverse",
    "C66_pinhole_behind_refuted",
    "C66_spherical_code",
    "C66_ouster_code",
    "C66_error_norm",
    "C66_ouster_depths",
    "C66_ouster_depths_refuted",
    "C66_error_norm_pinhole"
   ],
   "note": "Over the real numbers; rounding of the other operations is not covered"
  },
  {
   "property": "C67",
   "status": "proved",
   "theorems": [
    "C67_fov",
    "C67_hashed_scan",
    "C67_chunked_scan"
   ],
   "note": "Exact arithmetic: the rounding of the scaled coordinates and of log2 is left out; the margin of one block width in the theorem absorbs errors of the position of that size."
  },
  {
   "property": "C68",
   "status": "partial",
   "theorems": [
    "C68_lod_request",
    "C68_maps_well_formed",
    "C68_message_stamps",
    "C68_no_abort",
    "C68_faithful",
    "C68_settles",
    "C68_surface_stale_refuted",
    "C68_surface_hidden_refuted",
    "C68_width_change_refuted",
    "C68_termination_height_refuted",
    "C68_reset_refuted",
    "C68_sort_order_refuted"
   ],
   "note": "No abort, faithfulness, convergence, well-formedness and time stamps of the maps are proved for all histories. The unrestricted claim is false of the code: surface mode after a neighbour's change, large leaves next to fine free cells, termination height equal to the tree height, change of cell width, reset and the sort order are refuted with witnesses, and the theorems carry the matching hypotheses."
  },
  {
   "property": "C69",
   "status": "proved",
   "theorems": [
    "C69_random_point",
    "C69_unobserved_refuted"
   ],
   "note": "Soundness, first match, exact number of attempts and preservation of the map's later answers, for every generator. That unobserved points outside the allocated blocks are never found is shown in C69_unobserved_refuted."
  },
  {
   "property": "C70",
   "status": "partial",
   "theorems": [
    "C70_not_opened",
    "C70_history",
    "C70_other_files",
    "C70_old_map_lost_refuted",
    "C70_abort_after_crash_refuted",
    "C70_unsupported_destroys_refuted"
   ],
   "note": "Proved for every history, failure and crash point: a save that returned true can be loaded, an interrupted one never loads as a wrong map, other files are untouched. Refuted: the old map survives a failed save; a damaged file is always refused without aborting."
  },
  {
   "property": "C71",
   "status": "partial",
   "theorems": [
    "C71_one_map_partial",
    "C71_after_load",
    "C71_loaded_map_is_not_updated_refuted",
    "C71_failed_load_loses_map_refuted"
   ],
   "note": "Proved up to the first load that replaces the map, and exactly what happens after it; the claim that the loaded map goes on being updated, and that a failed load changes nothing, is refuted."
  },
  {
   "property": "C72",
   "status": "proved",
   "theorems": [
    "C72_hashed_cell_values",
    "C72_hashed_node_values",
    "C72_hashed_interpolate",
    "C72_chunked_cell_values",
    "C72_chunked_node_values",
    "C72_chunked_interpolate"
   ],
   "note": "For all maps and value arithmetics (interpolation: exact rationals), tree heights up to 19 (taller trees overflow the accelerator's stacks, C19)."
  },
  {
   "property": "C73",
   "status": "partial",
   "theorems": [
    "C73_messages_partial",
    "C73_success",
    "C73_republished",
    "C73_clock",
    "C73_timers",
    "C73_second_input_refuted",
    "C73_relative_name_refuted",
    "C73_last_message_refuted"
   ],
   "note": "Delivery proved for the first input on each absolute topic name; the claim is false for second inputs and relative names (refuted), and the last messages can stay in the queue (refuted). Republishing, clock, timers and success proved in full."
  },
  {
   "property": "C74",
   "status": "partial",
   "theorems": [
    "C74_updates",
    "C74_updates_all_images",
    "C74_missing_pixel",
    "C74_update_type_partial",
    "C74_pointcloud",
    "C74_obstacle_erased_refuted",
    "C74_surface_skipped_refuted",
    "C74_missing_is_free_refuted",
    "C74_ieee_compare",
    "C74_ieee_special",
    "C74_ieee_opp",
    "C74_ieee_minmax"
   ],
   "note": "Measurement models and images without NaN proved; with NaN readings the classification of cells is false of the code and refuted by three witnesses; for images with infinities the sensor boxes are as in C40."
  },
  {
   "property": "C75",
   "status": "proved",
   "theorems": [
    "C75_center_roundtrip",
    "C75_containing_cell",
    "C75_interior_point",
    "C75_floor_ceil",
    "C75_node_width_exact",
    "C75_node_roundtrip",
    "C75_faces_shared",
    "C75_center_between_corners",
    "C75_far_roundtrip_refuted",
    "C75_exact_cell_refuted",
    "C75_heights_disagree_refuted",
    "C75_children_tile",
    "C75_far_children_refuted"
   ],
   "note": "Proved for binary32 arithmetic (Flocq), every usable width and rounding of halves, with and without fused multiply-add, up to two million cells from the origin. Beyond that range, without the tolerance, and across heights it is false (refuted with witnesses)."
  },
  {
   "property": "C76",
   "status": "proved",
   "theorems": [
    "C76_drift",
    "C76_blocks",
    "C76_absorbed_refuted"
   ],
   "note": "Drift bounds for every history of add/threshold/prune/clear on the hashed wavelet octree and of all calls on the blocks map, in IEEE binary32. setCellValue and pruneSmart of the wavelet octree and the other wavelet map types are outside the statement. C76_absorbed_refuted: no bound independent of the number of updates exists."
  },
  {
   "property": "C77",
   "status": "partial",
   "theorems": [
    "C77_defaults",
    "C77_empty_configuration",
    "C77_map",
    "C77_operation",
    "C77_input",
    "C77_integrator",
    "C77_params",
    "C77_server",
    "C77_server_starts",
    "C77_defaults",
    "C77_skip_refuted",
    "C77_unit_refuted",
    "C77_constant_ray_refuted",
    "C77_map_type_refuted",
    "C77_limits_refuted"
   ],
   "note": "Construction from parameters is proved for all classes and for the ROS server; that bad entries are skipped, that every accepted type name builds an object, that a misspelt type is noticed and that unusable limits are rejected is refuted. Floats are rationals; timers, publishers and subscribers are not modelled."
  },
  {
   "property": "C78",
   "status": "partial",
   "theorems": [
    "C78_effect",
    "C78_effect_axis",
    "C78_type",
    "C78_listed",
    "C78_general",
    "C78_ignored_refuted",
    "C78_unlisted_refuted",
    "C78_usable_refuted",
    "C78_constant_ray_refuted",
    "C78_empty_frame_refuted"
   ],
   "note": "Agreement of schemas and code is proved for all settings but the five listed exceptions, which are refuted, as is that schema-valid values are usable. Schema keywords that the project does not use are not modelled."
  },
  {
   "property": "C79",
   "status": "partial",
   "theorems": [
    "C79_no_abort",
    "C79_faithful",
    "C79_hidden",
    "C79_maps",
    "C79_height_colour",
    "C79_height_period",
    "C79_height_distinct",
    "C79_width_change_refuted",
    "C79_levels_change_refuted",
    "C79_not_told_refuted",
    "C79_height_refuted",
    "C79_raw_refuted"
   ],
   "note": "proved for maps of one height and cell width while the display has been told about the last change; five parts of the unrestricted claim are false of the code and refuted"
  },
  {
   "property": "C80",
   "status": "partial",
   "theorems": [
    "C80_inverse",
    "C80_monotone",
    "C80_bayes",
    "C80_grey",
    "C80_float_range",
    "C80_float_accuracy",
    "C80_overflow_refuted"
   ],
   "note": "proved except that log-odds of 89 and more give NaN in single precision, which is refuted"
  },
  {
   "property": "C81",
   "status": "partial",
   "theorems": [
    "C81_children",
    "C81_generation",
    "C81_level",
    "C81_tree",
    "C81_number_identifies",
    "C81_parent_first",
    "C81_tall_refuted"
   ],
   "note": "Proved for ancestors up to height 64/dim - 1; refuted for taller ones, where the Morton code does not fit 64 bits."
  },
  {
   "property": "C82",
   "status": "proved",
   "theorems": [
    "C82_hash_value",
    "C82_region",
    "C82_nodes",
    "C82_collision_refuted",
    "C82_period"
   ],
   "note": "Hash value, no collision within a region, no collision between heights; a collision outside the region is exhibited."
  },
  {
   "property": "C83",
   "status": "partial",
   "theorems": [
    "C83_roundtrip",
    "C83_minimal",
    "C83_exact",
    "C83_monotone",
    "C83_minimal_refuted",
    "C83_negative_refuted"
   ],
   "note": "Conversion of heights to widths and back, minimality up to a tolerance, exactness outside of it and monotonicity are proved for every log2 that meets the stated contract. Exact minimality and non-negative heights do not hold of the code and are refuted."
  },
  {
   "property": "C84",
   "status": "partial",
   "theorems": [
    "C84_beam_accept",
    "C84_octree",
    "C84_hashed",
    "C84_update_error_refuted",
    "C84_edge_refuted",
    "C84_hashed_error",
    "C84_chunked",
    "C84_lidar_enclosed",
    "C84_lidar_octree",
    "C84_lidar_hashed",
    "C84_lidar_chunked",
    "C84_pinhole_enclosed",
    "C84_projector_octree",
    "C84_projector_hashed",
    "C84_projector_chunked",
    "C84_spherical_refuted"
   ],
   "note": "proved for the octree, hashed wavelet octree and hashed chunked wavelet octree integrators in exact arithmetic: error bounds for the pinhole camera with ContinuousRay; exactness of single cells and the sign of coarse updates for any projection model with ContinuousRay or ContinuousBeam, given that the node's sensor box encloses the centres of node and cell (C84_projector_*; shown for the pinhole camera, and for level LiDARs and nodes that do not reach across the planes through the LiDAR, C84_lidar_*); false of the code and refuted: the log-odds bound, the bound across depth edges, and the sign of coarse updates for spherical projections without that condition; error bounds for the beam model are not covered"
  },
  {
   "property": "C85",
   "status": "partial",
   "theorems": [
    "C85_total",
    "C85_last",
    "C85_running",
    "C85_bounds",
    "C85_monitor",
    "C85_ram",
    "C85_ram_unknown",
    "C85_last_line_refuted"
   ],
   "note": "all of it proved over integer nanoseconds (no overflow, conversion to seconds and printed tables not modelled), except that an entry in a last line without newline is not found, which is refuted"
  },
  {
   "property": "C86",
   "status": "proved",
   "theorems": [
    "C86_node_value",
    "C86_effect",
    "C86_whole_block",
    "C86_chunked"
   ],
   "note": "Exact arithmetic; the prune bound is (T-1) * 19/8 * 1e-3 per cell"
  },
  {
   "property": "C87",
   "status": "partial",
   "theorems": [
    "C87_octree_raised",
    "C87_octree_cleared",
    "C87_cleared_partial",
    "C87_raised",
    "C87_chunked_cleared_partial",
    "C87_chunked_raised",
    "C87_hidden",
    "C87_chunked_cleared_refuted"
   ],
   "note": "Rising is proved in full (C87_raised, C87_chunked_raised). Clearing is proved for cells that no surrounding node hides (C87_cleared_partial, C87_chunked_cleared_partial); in general it is false of the code: an occupied cell in a block that is otherwise saturated free space is never cleared (C87_chunked_cleared_refuted; C87_hidden gives the general condition). Octrees: both in full, up to the error of prune() (C87_octree_raised, C87_octree_cleared). Not covered: termination heights above 0 and the plain wavelet octree integrator."
  },
  {
   "property": "C88",
   "status": "partial",
   "theorems": [
    "C88_int_wavelet",
    "C88_int_volumetric",
    "C88_int_inside",
    "C88_int_every_index_refuted",
    "C88_possible_range",
    "C88_wavelet_octree",
    "C88_volumetric_octree",
    "C88_histories",
    "C88_no_disturbance_refuted"
   ],
   "note": "The range, the wrapping and the exact set of indices for which the int arithmetic is defined are proved for every index, history and arithmetic; that calls outside the range disturb nothing inside, and that every int index can be used, is false and refuted."
  },
  {
   "property": "C89",
   "status": "partial",
   "theorems": [
    "C89_quasi_under",
    "C89_full_under",
    "C89_declared_under",
    "C89_quasi_over_refuted",
    "C89_over_unobserved_refuted",
    "C89_rounded_under",
    "C89_rounded_reached",
    "C89_quasi_reached",
    "C89_quasi_observed",
    "C89_quasi_over_factor",
    "C89_full_reached",
    "C89_full_observed"
   ],
   "note": "Under-estimates proved within the declared limits for both generators; the declared over-estimates are refuted (inside obstacles for the quasi-Euclidean one, across unobserved cells for both). In observed free space the quasi-Euclidean distances are proved to be at most sqrt 3 + max/(max - width) times the straight distance, and the full Euclidean ones have a similar bound per step that accounts for the error of the square root. Missing: the declared factors in fully observed free space."
  },
  {
   "property": "C90",
   "status": "partial",
   "theorems": [
    "C90_is_bit_set",
    "C90_set_bit",
    "C90_popcount",
    "C90_parity",
    "C90_clz",
    "C90_rotate_left",
    "C90_rotate_right",
    "C90_rotate_inverse",
    "C90_rotate_nothing_refuted",
    "C90_rotate_narrow_refuted",
    "C90_squeeze_in",
    "C90_squeeze_in_high_refuted",
    "C90_repeat_block",
    "C90_repeat_block64",
    "C90_expand",
    "C90_compress",
    "C90_round_trips"
   ],
   "note": "For every word. Refuted: full-width rotation by 0, rotations within types narrower than int, squeeze_in at positions from 31 on."
  },
  {
   "property": "C91",
   "status": "proved",
   "theorems": [
    "C91_server",
    "C91_python",
    "C91_conversion_refuted"
   ],
   "note": "Theorems for the server and for Python. That the conversion of a valid level can be invalid is shown separately (C91_conversion_refuted); it does not break the property."
  },
  {
   "property": "C92",
   "status": "partial",
   "theorems": [
    "C92_text",
    "C92_undefined",
    "C92_defined",
    "C92_components",
    "C92_keeps_default_refuted"
   ],
   "note": "Undefined behaviour is characterised exactly (iff) for all config types and parameter trees, and excluded otherwise; the claim without exception is refuted for measurement_integrator_names of the ROS inputs."
  },
  {
   "property": "C93",
   "status": "partial",
   "theorems": [
    "C93_node_queries",
    "C93_histories",
    "C93_nodes_of_blocks",
    "C93_min_index",
    "C93_max_index",
    "C93_max_index_refuted"
   ],
   "note": "Everything but getMaxIndex is proved defined for all three hashed maps and all histories of int indices; getMaxIndex is proved defined exactly if no block reaches 2^31 - 1, and the claim without exception is refuted."
  },
  {
   "property": "C94",
   "status": "partial",
   "theorems": [
    "C94_factorial",
    "C94_binomial",
    "C94_pow",
    "C94_mult_exp2",
    "C94_div_exp2_ceil",
    "C94_div_exp2_ceil_refuted",
    "C94_div_round_up",
    "C94_div_round_up_negative_refuted"
   ],
   "note": "Values and exact limits of all six helpers are proved; that div_exp2_ceil is defined whenever the quotient is an int, and that div_round_up rounds up negative numerators, is false and refuted."
  }
 ]
}