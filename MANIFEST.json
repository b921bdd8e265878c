{
 "claims": [
  {
   "property": "C01",
   "status": "proved",
   "theorems": [
    "C01_serialization_round_trip",
    "C01_containers_preserve_round_trip",
    "C01_zero_byte_pair_refuted"
   ],
   "note": "Scalars of any byte size, strings, vectors, pairs, maps with unsigned keys nested arbitrarily; containers also for arbitrary user item codecs with non-empty encodings. C01_zero_byte_pair_refuted records that zero-byte pairs at the end of a buffer trip an assertion."
  },
  {
   "property": "C02",
   "status": "proved",
   "theorems": [
    "C02_chained_values",
    "C02_wire_layout"
   ],
   "note": ""
  },
  {
   "property": "C03",
   "status": "proved",
   "theorems": [
    "C03_network_scalars_big_endian",
    "C03_network_signed_big_endian",
    "C03_network_host_independent"
   ],
   "note": "Floats/doubles are covered as their bit patterns."
  },
  {
   "property": "C04",
   "status": "partial",
   "theorems": [
    "C04_hostile_bytes_in_bounds",
    "C04_reads_only_reported_bytes",
    "C04_release_build_refuted",
    "C04_map_first_key_wins"
   ],
   "note": "Proved for builds with assertions; refuted for NDEBUG builds (C04_release_build_refuted)."
  },
  {
   "property": "C05",
   "status": "proved",
   "theorems": [
    "C05_decode_inverts_encode",
    "C05_encode_injective"
   ],
   "note": ""
  },
  {
   "property": "C06",
   "status": "proved",
   "theorems": [
    "C06_encode_well_formed",
    "C06_text_is_unique"
   ],
   "note": ""
  },
  {
   "property": "C07",
   "status": "partial",
   "theorems": [
    "C07_decode_memory_safe_refuted",
    "C07_decode_memory_safe_partial",
    "C07_decode_output_bounded"
   ],
   "note": "REFUTED where char is signed: a character above 127 indexes outside the table (C07_decode_memory_safe_refuted). Proved that this is the only failure, for every string."
  },
  {
   "property": "C08",
   "status": "proved",
   "theorems": [
    "C08_linkage_invariant",
    "C08_add_node_effect",
    "C08_add_edge_effect",
    "C08_add_edges_effect"
   ],
   "note": "Weights, validity, multiplicity and order agree; addNode with a value (a caller-made node with edges is outside)."
  },
  {
   "property": "C09",
   "status": "proved",
   "theorems": [
    "C09_linkage_check_decides",
    "C09_built_graphs_pass",
    "C09_check_ignores_weights_refuted",
    "C09_deserialized_graphs_pass",
    "C09_deserialize_unchecked_refuted"
   ],
   "note": "The check compares endpoints only (C09_check_ignores_weights_refuted) and deserialization does not run it (C09_deserialize_unchecked_refuted)."
  },
  {
   "property": "C10",
   "status": "proved",
   "theorems": [
    "C10_graph_round_trip"
   ],
   "note": "Weights and distances as 64-bit patterns."
  },
  {
   "property": "C11",
   "status": "partial",
   "theorems": [
    "C11_components_refuted",
    "C11_isolated_refuted",
    "C11_components_partial",
    "C11_connected_graph",
    "C11_api_graphs_undirected"
   ],
   "note": "REFUTED (C11_components_refuted, C11_isolated_refuted). Proved what holds: connected nodes share an id, nodes sharing a non-zero id are connected, connected graphs are labelled correctly."
  },
  {
   "property": "C12",
   "status": "proved",
   "theorems": [
    "C12_dijkstra_shortest",
    "C12_dijkstra_shortest_exact",
    "C12_dijkstra_shortest_double",
    "C12_bad_start_throws"
   ],
   "note": "General theorem for any lawful cost arithmetic; instances for exact costs and for IEEE doubles (Flocq; the double instance uses the standard library's real-number axioms). All tie-breaks: the queue is an arbitrary implementation."
  },
  {
   "property": "C13",
   "status": "proved",
   "theorems": [
    "C13_back_pointers"
   ],
   "note": ""
  },
  {
   "property": "C14",
   "status": "proved",
   "theorems": [
    "C14_lazy_astar_sound_complete",
    "C14_astar_sound_complete",
    "C14_astar_sound_complete_double",
    "C14_bad_indices_throw"
   ],
   "note": "PerformLazyAstar, its value-callback overload and PerformAstar terminate, and return a repetition-free path whose true cost does not exceed the reported cost, or (empty, infinity) exactly when there is no path; for every lawful cost structure, hence exact integers and IEEE doubles, every queue tie order and every heuristic. start = goal and bad indices throw."
  },
  {
   "property": "C15",
   "status": "proved",
   "theorems": [
    "C15_astar_optimal"
   ],
   "note": "Admissible heuristic, exact arithmetic (the reported cost is the cost of the returned path and minimal). With doubles rounding can break the exact equality; C14 still holds there."
  },
  {
   "property": "C16",
   "status": "proved",
   "theorems": [
    "C16_duplicate_limiting_irrelevant"
   ],
   "note": "The result is identical for both flag settings: the map of queue members only ever holds the start, so the limiting never takes effect (finding)."
  },
  {
   "property": "C17",
   "status": "proved",
   "theorems": [
    "C17_plan_sound_complete"
   ],
   "note": "No law on costs is assumed; holds for any queue, with and without assertions (they never fail)."
  },
  {
   "property": "C18",
   "status": "partial",
   "theorems": [
    "C18_plan_near_optimal",
    "C18_comparison_refuted",
    "C18_plan_optimal",
    "C18_plan_optimal_exact",
    "C18_tolerance_refuted"
   ],
   "note": "Proved for exact costs when the comparator treats only equal priorities as approximately equal. REFUTED for the comparator as written (relative tolerance 1e-10 with doubles): C18_tolerance_refuted returns a plan of cost 2^40+1 although one of cost 2^40 exists. C18_plan_near_optimal bounds the loss for that comparator with rounded doubles: with priorities below 2^k, at most (n+1) 2^(k-33) per step, n the number of comparisons from the entry popped to any other."
  },
  {
   "property": "C19",
   "status": "partial",
   "theorems": [
    "C19_walk_loop_free",
    "C19_walk_safe",
    "C19_walk_can_end",
    "C19_dead_end_refuted"
   ],
   "note": "Every completed walk is a loop-free walk along edges from start to goal; no exception or UB unless a dead end other than the goal is reachable; any finite draw history can be continued to completion when the goal stays reachable. REFUTED for graphs with dead ends: an empty range is passed to the random distribution (undefined behaviour)."
  },
  {
   "property": "C20",
   "status": "partial",
   "theorems": [
    "C20_grid_is_a_map",
    "C20_initialize_checks",
    "C20_size_overflow_refuted",
    "C20_reset_from_own_cell_refuted"
   ],
   "note": "Proved: every history of reads, writes, resets, raw loads refines a map, no UB. REFUTED parts: sizes whose product overflows int64_t are UB; ResetWithNewValue on a reference into the grid is UB."
  },
  {
   "property": "C21",
   "status": "partial",
   "theorems": [
    "C21_centre_maps_back",
    "C21_point_lies_in_its_cell",
    "C21_in_bounds_extent_partial",
    "C21_negative_slab_refuted",
    "C21_far_point_refuted",
    "C21_size_is_covered",
    "C21_centre_maps_back_double"
   ],
   "note": "Proved over the reals for any rigid pose: centres map back, points of the volume lie in their cell; in IEEE doubles in the grid frame. REFUTED: in bounds also one cell before the volume on each axis (exact extent proved), far points are UB."
  },
  {
   "property": "C22",
   "status": "proved",
   "theorems": [
    "C22_grid_round_trips",
    "C22_behaviour_preserved"
   ],
   "note": "All grids, any offset, byte counts, and identical later behaviour."
  },
  {
   "property": "C23",
   "status": "partial",
   "theorems": [
    "C23_grid_is_a_map_on_space",
    "C23_read_after_write",
    "C23_double_rounding_refuted"
   ],
   "note": "Refinement to a map on space proved for real-number coordinates, all shapes, frames and histories; REFUTED in double arithmetic: rounding makes some locations belong to no cell and the write is lost."
  },
  {
   "property": "C24",
   "status": "partial",
   "theorems": [
    "C24_by_location_sets_whole_chunk",
    "C24_by_coordinates_refuted"
   ],
   "note": "REFUTED for the overload taking three coordinates (it sets one cell); proved for the overload taking a location."
  },
  {
   "property": "C25",
   "status": "partial",
   "theorems": [
    "C25_serial",
    "C25_parallel",
    "C25_same_distances",
    "C25_doubles",
    "C25_infinite_distance_refuted"
   ],
   "note": "Proved for finite distances (serial; parallel for every schedule and split; equal distance lists; also on doubles). REFUTED for infinite distances: the serial version returns index -1 and the parallel one fewer than min(K,n) results (C25_infinite_distance_refuted)."
  },
  {
   "property": "C26",
   "status": "proved",
   "theorems": [
    "C26_every_schedule",
    "C26_no_race"
   ],
   "note": "Every interleaving of the parallel loop gives the symmetric matrix; no two threads write the same cell."
  },
  {
   "property": "C27",
   "status": "partial",
   "theorems": [
    "C27_overwritten_refuted",
    "C27_out_of_bounds",
    "C27_symmetric_partial"
   ],
   "note": "REFUTED: the two-set distance matrix writes the mirrored cell too, overwriting other entries (C27_overwritten_refuted) or running out of bounds (C27_out_of_bounds). Proved when both sets are the same size and the function is symmetric across them (C27_symmetric_partial)."
  },
  {
   "property": "C28",
   "status": "partial",
   "theorems": [
    "C28_set_bit",
    "C28_get_after_set",
    "C28_get_after_set_64_partial",
    "C28_high_bits_refuted",
    "C28_high_bits_never_seen"
   ],
   "note": "Proved for the widths where the shifted literal is wide enough; REFUTED for bit indices 32..63 of 64-bit words (C28_high_bits_refuted, C28_high_bits_never_seen)."
  },
  {
   "property": "C29",
   "status": "partial",
   "theorems": [
    "C29_clamp",
    "C29_idempotent_monotone",
    "C29_bad_bounds",
    "C29_nan_refuted"
   ],
   "note": "Proved for every totally ordered type and non-NaN doubles. REFUTED for NaN: ClampValue gives min, ClampValueAndWarn gives NaN (C29_nan_refuted)."
  },
  {
   "property": "C30",
   "status": "partial",
   "theorems": [
    "C30_splitmix",
    "C30_xorshift128",
    "C30_xorshift1024_refuted",
    "C30_xorshift1024_partial"
   ],
   "note": "Proved for SplitMix64 and XorShift128+. REFUTED for XorShift1024*: seed leaves the position p (C30_xorshift1024_refuted); reseeding is fresh exactly when the draws so far are a multiple of 16 (C30_xorshift1024_partial)."
  },
  {
   "property": "C31",
   "status": "partial",
   "theorems": [
    "C31_unique_refuted",
    "C31_past_table",
    "C31_first_codes_partial",
    "C31_palette",
    "C31_generator"
   ],
   "note": "REFUTED: distinct codes share colours (C31_unique_refuted); proved for the first codes (C31_first_codes_partial)."
  },
  {
   "property": "C32",
   "status": "proved",
   "theorems": [
    "C32_partition",
    "C32_doubles",
    "C32_every_threshold"
   ],
   "note": "Both linkages, serial and every parallel schedule; on doubles for every threshold: C32_every_threshold also says that Cluster returns exactly when the threshold is not +infinity."
  },
  {
   "property": "C33",
   "status": "proved",
   "theorems": [
    "C33_complete_link",
    "C33_single_link"
   ],
   "note": "Symmetric distances, every threshold below infinity, serial and every parallel schedule."
  },
  {
   "property": "C34",
   "status": "partial",
   "theorems": [
    "C34_terminates_partial",
    "C34_infinite_refuted"
   ],
   "note": "REFUTED for the infinite threshold on every data set: failed assertion, or index -1 used as subscript without assertions (C34_infinite_refuted). Proved for every threshold below infinity."
  },
  {
   "property": "C35",
   "status": "proved",
   "theorems": [
    "C35_labels_and_centers",
    "C35_random_start"
   ],
   "note": "For every distance and averaging function, given or random initial centers, with and without preliminary clustering."
  },
  {
   "property": "C36",
   "status": "partial",
   "theorems": [
    "C36_more_clusters_than_items_refuted",
    "C36_oscillation_refuted",
    "C36_terminates_partial"
   ],
   "note": "REFUTED: with more clusters than items the choice of distinct centers never ends; with an averaging function unrelated to the distance two items swap labels for ever. Proved: termination from given centers when the averaging function minimises the sum of (finite) distances."
  },
  {
   "property": "C37",
   "status": "partial",
   "theorems": [
    "C37_add_node",
    "C37_build_roadmap",
    "C37_asymmetric_start_refuted",
    "C37_infinite_distance_refuted"
   ],
   "note": "REFUTED for a query start with asymmetric distances (assertion failure, or zero weights without assertions) and for infinite distances with the serial search (throws, leaving an unconnected node). Proved in every other case: one node added (or an existing one at distance zero reused), old values and edges kept, connections validated, linkage kept; and for whole roadmaps built from any samples."
  },
  {
   "property": "C38",
   "status": "proved",
   "theorems": [
    "C38_update_edges",
    "C38_bad_linkage_throws",
    "C38_edges"
   ],
   "note": "For every order in which the threads perform their writes; both copies of every edge get the same weight; a roadmap with bad linkage throws."
  },
  {
   "property": "C39",
   "status": "partial",
   "theorems": [
    "C39_single_partial",
    "C39_lazy_partial",
    "C39_random_walk",
    "C39_multi_start_partial",
    "C39_multi_goal",
    "C39_start_is_goal_refuted"
   ],
   "note": "Proved: single-start A*, lazy A*, random-walk, multi-start and multi-goal queries return walks over roadmap edges between the nodes standing for start and goal (cheapest ones for multi-start and multi-goal). REFUTED when start and goal fall on the same node: the state is returned twice, or the query throws."
  },
  {
   "property": "C40",
   "status": "partial",
   "theorems": [
    "C40_check_partial",
    "C40_accepts_linked",
    "C40_parent_past_end_refuted",
    "C40_cycle_refuted",
    "C40_root_elsewhere_refuted",
    "C40_children"
   ],
   "note": "REFUTED: a parent index past the end and cycles of parents are accepted (extraction then throws or never ends); a valid tree whose root is not node 0 is rejected. Proved: exactly what acceptance means, and acceptance of every linked tree rooted at node 0."
  },
  {
   "property": "C41",
   "status": "proved",
   "theorems": [
    "C41_extract",
    "C41_extract_only",
    "C41_ancestry_is_path"
   ],
   "note": "Extraction returns exactly the line of ancestors, root first, whenever it is finite."
  },
  {
   "property": "C42",
   "status": "partial",
   "theorems": [
    "C42_dtw_partial",
    "C42_optimal_refuted"
   ],
   "note": "REFUTED: on a tie between the two side neighbours that beat the diagonal one the evaluator takes the diagonal (C42_optimal_refuted: 3 instead of 2). Proved: a finite result is the cost of an alignment, and the least cost when no such tie occurs."
  },
  {
   "property": "C43",
   "status": "partial",
   "theorems": [
    "C43_reuse_partial",
    "C43_total",
    "C43_empty_refuted"
   ],
   "note": "REFUTED for exactly one empty sequence (0 from a new evaluator, infinity after larger use). Proved for all histories when both or neither sequence is empty; no call fails."
  },
  {
   "property": "C44",
   "status": "proved",
   "theorems": [
    "C44_hausdorff",
    "C44_schedules_agree",
    "C44_empty",
    "C44_doubles"
   ],
   "note": "for all schedules; value unique up to ==; empty sets characterised"
  },
  {
   "property": "C45",
   "status": "proved",
   "theorems": [
    "C45_shortcut"
   ],
   "note": "all random sequences within the distributions' contract; at most max_iterations checks, at most max_failed of them failing"
  },
  {
   "property": "C46",
   "status": "partial",
   "theorems": [
    "C46_resample",
    "C46_bad_range",
    "C46_distance_zero_refuted"
   ],
   "note": "Proved over the reals for distances that are 0 only between equal states and geodesic interpolation (C46_resample). REFUTED for distances that ignore part of the state: a final state at distance 0 is dropped. Rounding of the quotient is not modelled."
  },
  {
   "property": "C47",
   "status": "partial",
   "theorems": [
    "C47_upsample_partial",
    "C47_no_fewer",
    "C47_upsample_doubles_partial",
    "C47_whole_path_refuted",
    "C47_single_point_refuted"
   ],
   "note": "REFUTED when the portion already has the requested number of points or more (whole path returned) and for a single point (assertion / empty queue). Proved otherwise, including optimality, also for double lengths."
  },
  {
   "property": "C48",
   "status": "proved",
   "theorems": [
    "C48_enforce",
    "C48_add"
   ],
   "note": "over the reals, for any positive value of M_PI; also addition of angles"
  },
  {
   "property": "C49",
   "status": "partial",
   "theorems": [
    "C49_signed_distance_partial",
    "C49_distance",
    "C49_sign_refuted"
   ],
   "note": "REFUTED: across the cut the sign is wrong (3 to -3 with a half turn of 4). Proved: the magnitude is the shortest angular distance and symmetric, and the sign is right exactly when no wrap is needed."
  },
  {
   "property": "C50",
   "status": "proved",
   "theorems": [
    "C50_interpolate"
   ],
   "note": "over the reals; result in [-pi, pi], a share of a shortest way, ends reached"
  },
  {
   "property": "C51",
   "status": "partial",
   "theorems": [
    "C51_bounds_partial",
    "C51_bounds_refuted"
   ],
   "note": "REFUTED across the cut: an angle off the arc is accepted. Proved when end and value are within pi of the start without wrapping."
  },
  {
   "property": "C52",
   "status": "proved",
   "theorems": [
    "C52_average",
    "C52_mean",
    "C52_zero_weights_refuted"
   ],
   "note": "over the reals; all weights zero is an assertion failure or undefined behaviour (C52_zero_weights_refuted)"
  },
  {
   "property": "C53",
   "status": "partial",
   "theorems": [
    "C53_get_data",
    "C53_record_partial",
    "C53_other_names",
    "C53_start_refuted",
    "C53_doubles_refuted"
   ],
   "note": "REFUTED for timers: reset restarts the timer, even one never started, and does not clear timed values. Proved: getData for all histories, independence of other names, and record relative to starts and effective resets."
  },
  {
   "property": "C54",
   "status": "partial",
   "theorems": [
    "C54_stopwatch_partial",
    "C54_reset_refuted",
    "C54_reset_is_zero"
   ],
   "note": "REFUTED for RESET, which always returns 0. Proved for READ and for the restart."
  },
  {
   "property": "C55",
   "status": "partial",
   "theorems": [
    "C55_single_partial",
    "C55_slices_partial",
    "C55_reported",
    "C55_stale_file_refuted",
    "C55_stale_slices_refuted",
    "C55_full_disk_refuted"
   ],
   "note": "REFUTED after other writes to the same path (a stale plain file hides slices; stale slices are appended) and on a disk failing at close. Proved: single files for any earlier files; slices when neither kind of leftover exists."
  },
  {
   "property": "C56",
   "status": "partial",
   "theorems": [
    "C56_eigen_round_trip",
    "C56_fixed_round_trip",
    "C56_empty_at_end_refuted",
    "C56_hostile_bytes_in_bounds"
   ],
   "note": "Proved for all sizes with a coefficient, and for empty ones followed by a byte; hostile bytes stay in bounds with assertions on. REFUTED: an empty dynamic matrix at the end of a buffer indexes past the end."
  },
  {
   "property": "C57",
   "status": "partial",
   "theorems": [
    "C57_search_partial",
    "C57_valid_start",
    "C57_start_refuted"
   ],
   "note": "REFUTED for an invalid first cell, which is never checked. Proved for every queue order: soundness, completeness, no repetitions; with a valid first cell the full statement."
  },
  {
   "property": "C58",
   "status": "partial",
   "theorems": [
    "C58_append_partial",
    "C58_ordered",
    "C58_names_differ",
    "C58_points_kept",
    "C58_prefix_refuted",
    "C58_fewer_names_refuted",
    "C58_self_refuted",
    "C58_changed_refuted"
   ],
   "note": "REFUTED: prefixes of joint names accepted, fewer names read out of range, self-append undefined, partial append on overflow. Proved for equal names, and for different names of equal number."
  },
  {
   "property": "C59",
   "status": "proved",
   "theorems": [
    "C59_collision_map",
    "C59_construct"
   ],
   "note": "also when construction succeeds"
  },
  {
   "property": "C60",
   "status": "partial",
   "theorems": [
    "C60_empty_partial",
    "C60_refuted"
   ],
   "note": "REFUTED for every non-empty vector (reads 8 times too far); only the empty vector converts."
  },
  {
   "property": "C61",
   "status": "partial",
   "theorems": [
    "C61_generic_astar_sound_complete",
    "C61_generic_astar_optimal",
    "C61_duplicate_limiting_irrelevant",
    "C61_negative_ids_refuted"
   ],
   "note": "Proved for finite closed spaces of non-negative ids. REFUTED for negative ids: ids are int64_t but a negative id on the path is taken for the end of the back-pointer chain, so a truncated path is returned."
  },
  {
   "property": "C64",
   "status": "proved",
   "theorems": [
    "C64_hex_round_trip",
    "C64_nearest_byte"
   ],
   "note": "All 256 byte values, exact float32 arithmetic."
  },
  {
   "property": "C65",
   "status": "proved",
   "theorems": [
    "C65_spread"
   ],
   "note": "For every totally ordered type; low = mid = v returns high, so the boundary case is stated separately."
  },
  {
   "property": "C62",
   "status": "proved",
   "theorems": [
    "C62_each_word_once_per_period"
   ],
   "note": ""
  },
  {
   "property": "C63",
   "status": "proved",
   "theorems": [
    "C63_xorshift128_never_zero",
    "C63_xorshift128_states_never_merge",
    "C63_xorshift1024_never_zero",
    "C63_xorshift1024_states_never_merge"
   ],
   "note": ""
  },
  {
   "property": "C66",
   "status": "partial",
   "theorems": [
    "C66_own_weights_partial",
    "C66_preliminary_weights_refuted"
   ],
   "note": "REFUTED with preliminary clustering: the subset is averaged with the weights of the first items. Proved for the run from given centers."
  },
  {
   "property": "C67",
   "status": "partial",
   "theorems": [
    "C67_reverse_edge_refuted",
    "C67_edges_checked_partial"
   ],
   "note": "REFUTED: with symmetric distances the reverse edge is stored without being checked. Proved: each stored edge was checked in one of its two directions."
  },
  {
   "property": "C68",
   "status": "proved",
   "theorems": [
    "C68_plan",
    "C68_sample_counts",
    "C68_plan_single"
   ],
   "note": "For the overload as it was evidently meant (it does not compile as written) and empty callbacks."
  },
  {
   "property": "C69",
   "status": "partial",
   "theorems": [
    "C69_bi_plan_partial",
    "C69_bi_plan_single_partial",
    "C69_sample_counts",
    "C69_bridge_direction_refuted"
   ],
   "note": "REFUTED for directed connection tests: while the goal tree is active the arguments are swapped. Proved: everything else, with the bridge accepted in one of the two orders."
  },
  {
   "property": "C70",
   "status": "proved",
   "theorems": [
    "C70_state_round_trip"
   ],
   "note": "Both endiannesses, with and without assertions."
  },
  {
   "property": "C71",
   "status": "partial",
   "theorems": [
    "C71_summary_partial",
    "C71_unknown",
    "C71_empty_refuted"
   ],
   "note": "REFUTED for a name whose list of values is empty (undefined). Proved otherwise, for all histories."
  },
  {
   "property": "C72",
   "status": "partial",
   "theorems": [
    "C72_write_all_partial",
    "C72_twice_refuted",
    "C72_empty_refuted"
   ],
   "note": "REFUTED for names carrying both kinds of data (lines twice) and for an empty profiler (undefined). Proved otherwise."
  },
  {
   "property": "C73",
   "status": "partial",
   "theorems": [
    "C73_round_trip_partial",
    "C73_too_long",
    "C73_limit_refuted"
   ],
   "note": "REFUTED near the limit: incompressible data compresses to more than DecompressBytes accepts. Proved whenever the compressed form fits, for every deflate/inflate meeting zlib's contract, including termination."
  },
  {
   "property": "C74",
   "status": "proved",
   "theorems": [
    "C74_decode_variants"
   ],
   "note": "Hypothesis: the text size fits in size_t."
  },
  {
   "property": "C75",
   "status": "partial",
   "theorems": [
    "C75_path_ends_partial",
    "C75_repeated_waypoint_refuted",
    "C75_short_list_refuted"
   ],
   "note": "Proved for waypoints more than 2e-6 apart and, with a positive deviation, without exact reversals. REFUTED for a repeated waypoint (C75_repeated_waypoint_refuted: NaN) and for fewer than two waypoints (C75_short_list_refuted: undefined behaviour). Doubles are reals."
  },
  {
   "property": "C76",
   "status": "proved",
   "theorems": [
    "C76_deviation"
   ],
   "note": "For waypoints more than 2e-6 apart and, with a positive deviation, without exact reversals (good_waypoints). Doubles are reals."
  },
  {
   "property": "C77",
   "status": "proved",
   "theorems": [
    "C77_derivatives"
   ],
   "note": "For good_waypoints. Doubles are reals."
  },
  {
   "property": "C78",
   "status": "proved",
   "theorems": [
    "C78_switching_points"
   ],
   "note": "For good_waypoints. Doubles are reals."
  },
  {
   "property": "C79",
   "status": "proved",
   "theorems": [
    "C79_next_switching"
   ],
   "note": "For good_waypoints. Doubles are reals."
  },
  {
   "property": "C80",
   "status": "proved",
   "theorems": [
    "C80_path_acceleration",
    "C80_path_velocity",
    "C80_acceleration_limit"
   ],
   "note": "Three equivalences over the reals for every dimension, direction, curvature and limit."
  },
  {
   "property": "C81",
   "status": "partial",
   "theorems": [
    "C81_trajectory_steps",
    "C81_trajectory_ends_partial",
    "C81_backstep_refuted",
    "C81_zero_step_refuted"
   ],
   "note": "Ends and steps proved for plans whose step times never decrease (empty intervals allowed but for the last) and a duration below the largest double. REFUTED that the times always increase (C81_backstep_refuted) and that planning returns for a zero time step (C81_zero_step_refuted)."
  },
  {
   "property": "C82",
   "status": "partial",
   "theorems": [
    "C82_after_end_partial",
    "C82_after_end_refuted"
   ],
   "note": "REFUTED: after the duration the last interval is extrapolated, the robot moves back from the goal (C82_after_end_refuted). C82_after_end_partial gives position and velocity at every later time: back along the path from its end by half the last deceleration times the square of the time since."
  },
  {
   "property": "C83",
   "status": "proved",
   "theorems": [
    "C83_query_history",
    "C83_negative_time_refuted",
    "C83_nan_poisons_refuted",
    "C83_nan_first_refuted"
   ],
   "note": "Proved for all histories of non-negative times; REFUTED for NaN (C83_nan_poisons_refuted, C83_nan_first_refuted) and negative times (C83_negative_time_refuted)."
  },
  {
   "property": "C84",
   "status": "partial",
   "theorems": [
    "C84_velocity_partial",
    "C84_velocity_jump_refuted"
   ],
   "note": "REFUTED for max_deviation 0: a corner is taken at full speed (C84_velocity_jump_refuted). C84_velocity_partial: with a positive max_deviation velocity jumps are at most one millionth of the speed, for plans whose steps stay on the path, do not go back and agree in speed when at the same time."
  },
  {
   "property": "C85",
   "status": "proved",
   "theorems": [
    "C85_velocity"
   ],
   "note": "For plans whose step times increase: the derivative at every time between the steps and off the discontinuities of the path."
  },
  {
   "property": "C86",
   "status": "proved",
   "theorems": [
    "C86_forward"
   ],
   "note": "For nonnegative limits and time steps; over the reals."
  },
  {
   "property": "C87",
   "status": "proved",
   "theorems": [
    "C87_switching_point"
   ],
   "note": "For nonnegative limits; over the reals."
  },
  {
   "property": "C88",
   "status": "partial",
   "theorems": [
    "C88_bounds_partial",
    "C88_tail_partial",
    "C88_first_accepted",
    "C88_acceptance",
    "C88_complex_acceptance",
    "C88_outside_refuted",
    "C88_zero_deviation_refuted"
   ],
   "note": "REFUTED as a user expects it: C88_outside_refuted (samples outside the bounds when the uniform proposals are used) and C88_zero_deviation_refuted. Proved: within the bounds whenever the mean is within them, a bound is infinite or the simple algorithm is chosen (C88_bounds_partial); what is returned otherwise (C88_tail_partial); the acceptance tests (C88_first_accepted, C88_acceptance). Over the reals."
  },
  {
   "property": "C89",
   "status": "proved",
   "theorems": [
    "C89_gaussian",
    "C89_integral",
    "C89_truncated",
    "C89_point_refuted"
   ],
   "note": "For positive deviations and lower bound below upper bound, over the reals; C89_point_refuted: with equal bounds the probability over the bounds is 0."
  },
  {
   "property": "C90",
   "status": "partial",
   "theorems": [
    "C90_neighbours2_partial",
    "C90_neighbours3_partial",
    "C90_symmetric_partial",
    "C90_past_bound_refuted",
    "C90_own_cell_refuted"
   ],
   "note": "REFUTED for bounds or configurations off the grid (C90_past_bound_refuted, C90_own_cell_refuted); proved for cells and bounds on the grid. Over the reals."
  },
  {
   "property": "C91",
   "status": "proved",
   "theorems": [
    "C91_round_trip",
    "C91_last_wins",
    "C91_vectors",
    "C91_substring",
    "C91_retrieve"
   ],
   "note": "For every strict weak order."
  },
  {
   "property": "C92",
   "status": "proved",
   "theorems": [
    "C92_quaternion",
    "C92_third_axis",
    "C92_covers",
    "C92_euler"
   ],
   "note": "Over the reals."
  },
  {
   "property": "C93",
   "status": "proved",
   "theorems": [
    "C93_hot_to_cold",
    "C93_interpolate",
    "C93_trimmed"
   ],
   "note": "Over the reals; rounding to float not modelled."
  },
  {
   "property": "C94",
   "status": "partial",
   "theorems": [
    "C94_maybe",
    "C94_enumerate_partial",
    "C94_find_partial",
    "C94_find_narrowing_refuted",
    "C94_hash_combine",
    "C94_hash_word",
    "C94_hash_pair",
    "C94_hash_vector",
    "C94_mirror_refuted"
   ],
   "note": "REFUTED: C94_find_narrowing_refuted (index 2^32 - 1 is reported as absent), C94_mirror_refuted (mirrored complex numbers and vectors collide). Proved: Maybe histories, enumerate and find up to 2^31 items, injectivity of hash_combine."
  },
  {
   "property": "C95",
   "status": "partial",
   "theorems": [
    "C95_time_string",
    "C95_milliseconds_distinct",
    "C95_sorted_refuted"
   ],
   "note": "REFUTED with milliseconds: C95_sorted_refuted (no padding). Proved: without milliseconds order and distinctness, with milliseconds distinctness."
  },
  {
   "property": "C96",
   "status": "proved",
   "theorems": [
    "C96_skew",
    "C96_twist",
    "C96_adjoint"
   ],
   "note": "Over the reals."
  },
  {
   "property": "C97",
   "status": "partial",
   "theorems": [
    "C97_exponential_partial",
    "C97_conjugate",
    "C97_matrices",
    "C97_twist_between",
    "C97_tiny_rotation_refuted"
   ],
   "note": "REFUTED for rotations below 1e-100 (C97_tiny_rotation_refuted: the rotation is dropped while the translation stays). Proved for all other twists (C97_exponential_partial), change of frame (C97_conjugate), round trip under the contract of Eigen's matrix logarithm (C97_twist_between). Over the reals."
  },
  {
   "property": "C98",
   "status": "proved",
   "theorems": [
    "C98_rotate",
    "C98_zero"
   ],
   "note": "For every quaternion except zero; C98_zero gives the result there. Over the reals."
  },
  {
   "property": "C99",
   "status": "partial",
   "theorems": [
    "C99_matrix",
    "C99_metric",
    "C99_quaternion_partial",
    "C99_quaternion_refuted",
    "C99_isometry"
   ],
   "note": "Matrices: proved (C99_matrix, C99_metric). Quaternions: REFUTED (C99_quaternion_refuted: two unseen steps add up to a seen one); proved equal to the matrix distance above the cutoff and 0 below (C99_quaternion_partial). Over the reals."
  },
  {
   "property": "C100",
   "status": "partial",
   "theorems": [
    "C100_clamped",
    "C100_quaternion_partial",
    "C100_isometry_partial",
    "C100_rigid_refuted"
   ],
   "note": "REFUTED for rotations closer than the cutoff (C100_rigid_refuted: the interpolated transform is not rigid). Proved: clamping, ends, straight translation, constant speed and unit length above the cutoff, near unit length below. Over the reals."
  },
  {
   "property": "C101",
   "status": "partial",
   "theorems": [
    "C101_quaternions",
    "C101_euler",
    "C101_euler_quaternion",
    "C101_round_trip",
    "C101_same_transform_partial",
    "C101_angles_refuted"
   ],
   "note": "Proved: composition, rotations from their Euler angles, round trip of transforms. REFUTED: C101_angles_refuted (the angles themselves do not come back). Over the reals."
  },
  {
   "property": "C102",
   "status": "partial",
   "theorems": [
    "C102_projection",
    "C102_plane_partial",
    "C102_plane_zero_refuted"
   ],
   "note": "REFUTED for the plane of a zero vector (C102_plane_zero_refuted: not refused). Proved: projection and rejection for all vectors, planes of non-zero vectors. Over the reals."
  },
  {
   "property": "C103",
   "status": "proved",
   "theorems": [
    "C103_distance",
    "C103_vectors"
   ],
   "note": "Over the reals."
  },
  {
   "property": "C104",
   "status": "proved",
   "theorems": [
    "C104_line"
   ],
   "note": "Over the reals."
  },
  {
   "property": "C105",
   "status": "proved",
   "theorems": [
    "C105_clamp",
    "C105_bad_limit",
    "C105_safe_normal"
   ],
   "note": "Over the reals."
  },
  {
   "property": "C106",
   "status": "partial",
   "theorems": [
    "C106_angle",
    "C106_triangle",
    "C106_coincident",
    "C106_weighted",
    "C106_unit_weights",
    "C106_zero_refuted",
    "C106_negative_weight_refuted"
   ],
   "note": "Proved: angles of points, triangle sum, weighted angles for non-negative weights and vectors of non-zero weighted norm. REFUTED for zero vectors and negative weights in the release build (C106_zero_refuted, C106_negative_weight_refuted). Over the reals."
  },
  {
   "property": "C107",
   "status": "partial",
   "theorems": [
    "C107_average",
    "C107_mean",
    "C107_zero_weights_refuted"
   ],
   "note": "Proved when some weight is non-zero and without weights. REFUTED for weights all zero (C107_zero_weights_refuted). Over the reals."
  },
  {
   "property": "C108",
   "status": "partial",
   "theorems": [
    "C108_vector3",
    "C108_quaternion",
    "C108_join_split",
    "C108_split_join",
    "C108_remainder",
    "C108_join_nothing",
    "C108_dynamic_refuted"
   ],
   "note": "Proved for fixed sizes. REFUTED for vectors of dynamic size (C108_dynamic_refuted)."
  },
  {
   "property": "C109",
   "status": "proved",
   "theorems": [
    "C109_distances",
    "C109_path",
    "C109_matrix",
    "C109_closest",
    "C109_to_set"
   ],
   "note": "Over the reals; the parallel loop as any order of its writes."
  },
  {
   "property": "C110",
   "status": "partial",
   "theorems": [
    "C110_pyramid_partial",
    "C110_diagonal_refuted",
    "C110_ray_refuted"
   ],
   "note": "REFUTED for the diagonal direction and for angle 0 (C110_diagonal_refuted, C110_ray_refuted). Proved for directions away from the diagonal and angles strictly between 0 and a right angle (C110_pyramid_partial). Over the reals."
  },
  {
   "property": "C111",
   "status": "partial",
   "theorems": [
    "C111_weighted_least_squares",
    "C111_underdetermined",
    "C111_square_refuted"
   ],
   "note": "Both solvers proved optimal under the Cholesky contract; REFUTED for square systems, which UnderdeterminedSolver refuses by assertion (C111_square_refuted)."
  },
  {
   "property": "C112",
   "status": "partial",
   "theorems": [
    "C112_average_partial",
    "C112_signs",
    "C112_weights_refuted"
   ],
   "note": "Optimality and independence of signs proved; REFUTED that a weight of 2 equals listing twice: weights enter squared (C112_weights_refuted)."
  },
  {
   "property": "C113",
   "status": "proved",
   "theorems": [
    "C113_fit_plane"
   ],
   "note": "Under the contract of the singular value decomposition."
  },
  {
   "property": "C114",
   "status": "partial",
   "theorems": [
    "C114_pseudo_inverse_partial",
    "C114_absolute_refuted"
   ],
   "note": "Proved when each singular value is zero or above the cut-off; REFUTED otherwise: the cut-off is absolute (C114_absolute_refuted)."
  },
  {
   "property": "C115",
   "status": "partial",
   "theorems": [
    "C115_within_limits",
    "C115_nearest",
    "C115_set_value",
    "C115_finite_refuted",
    "C115_distance"
   ],
   "note": "Limits, nearest value, idempotence and distances proved; REFUTED that the value is always finite (C115_finite_refuted)."
  },
  {
   "property": "C116",
   "status": "partial",
   "theorems": [
    "C116_check",
    "C116_skeleton",
    "C116_index_refuted"
   ],
   "note": "Exact characterisation and termination proved for indices in range; REFUTED that an index out of range is refused (C116_index_refuted)."
  },
  {
   "property": "C117",
   "status": "partial",
   "theorems": [
    "C117_motion",
    "C117_forward",
    "C117_rigid",
    "C117_base",
    "C117_order_refuted",
    "C117_inverse_refuted"
   ],
   "note": "Proved for joints listed parent first; REFUTED for other orders the check accepts (C117_order_refuted) and for the stored inverse (C117_inverse_refuted)."
  },
  {
   "property": "C118",
   "status": "partial",
   "theorems": [
    "C118_set_position",
    "C118_wrong_size",
    "C118_constructor",
    "C118_base",
    "C118_same_position",
    "C118_exception_refuted",
    "C118_active_names"
   ],
   "note": "Invariant, effect and refusal proved; REFUTED that an exception leaves the robot as it was (C118_exception_refuted)."
  },
  {
   "property": "C119",
   "status": "partial",
   "theorems": [
    "C119_average_partial",
    "C119_average_refused",
    "C119_metric",
    "C119_interpolate",
    "C119_average_refuted",
    "C119_unweighted"
   ],
   "note": "Metric and interpolation proved; REFUTED that the average of angles is between them (C119_average_refuted)."
  },
  {
   "property": "C120",
   "status": "partial",
   "theorems": [
    "C120_revolute",
    "C120_prismatic_partial",
    "C120_prismatic_refuted",
    "C120_translation",
    "C120_unknown_link"
   ],
   "note": "Proved for revolute joints and for joints off the path; REFUTED for prismatic joints (C120_prismatic_refuted), whose error is given exactly (C120_prismatic_partial)."
  },
  {
   "property": "C121",
   "status": "partial",
   "theorems": [
    "C121_position",
    "C121_distance",
    "C121_interpolate",
    "C121_average_partial",
    "C121_average_refuted",
    "C121_jacobian"
   ],
   "note": "Position, pose, metric, interpolation and Jacobian proved; REFUTED that the average of angles is between them (C121_average_refuted); what it is: C121_average_partial."
  },
  {
   "property": "C122",
   "status": "partial",
   "theorems": [
    "C122_position",
    "C122_distance_partial",
    "C122_distance_refuted",
    "C122_interpolate_partial",
    "C122_average",
    "C122_jacobian"
   ],
   "note": "Position, average and Jacobian proved in full; REFUTED that the distance is a metric (C122_distance_refuted): it is up to the cutoff, with the bounds in C122_distance_partial; interpolation is exact for rotations more than the cutoff apart (C122_interpolate_partial)."
  },
  {
   "property": "C123",
   "status": "proved",
   "theorems": [
    "C123_round_trip",
    "C123_layout",
    "C123_hostile_bytes"
   ],
   "note": "Doubles as bit patterns, uint32 and char fields; with assertions for the hostile part."
  },
  {
   "property": "C124",
   "status": "partial",
   "theorems": [
    "C124_wrapper_refuted",
    "C124_round_trip_partial",
    "C124_count_refuted"
   ],
   "note": "REFUTED: for every message the wrapper reads four bytes past roscpp's array (C124_wrapper_refuted, roscpp contract stated), and the count reported when reading can pass the end of the buffer (C124_count_refuted). C124_round_trip_partial: when the stray read is let through the round trip is exact."
  },
  {
   "property": "C125",
   "status": "partial",
   "theorems": [
    "C125_joint_round_trip",
    "C125_invalid_joint_refuted"
   ],
   "note": "C125_joint_round_trip proved. REFUTED for validity: a joint that has been read can have limits in the wrong order, a value outside them and no known type (C125_invalid_joint_refuted)."
  },
  {
   "property": "C126",
   "status": "partial",
   "theorems": [
    "C126_interpolates",
    "C126_unique",
    "C126_affine",
    "C126_linear",
    "C126_similar",
    "C126_errors",
    "C126_history",
    "C126_repeated_refuted",
    "C126_line_refuted"
   ],
   "note": "Interpolation, uniqueness, affine reproduction, linearity, similarity, history and errors proved for distinct (spanning) template points under Eigen's solver contract in exact arithmetic; REFUTED that repeated template points with different targets are noticed (C126_repeated_refuted) and that affine maps are reproduced from points on one line (C126_line_refuted)."
  },
  {
   "property": "C127",
   "status": "partial",
   "theorems": [
    "C127_multiply",
    "C127_scale",
    "C127_divide_zero",
    "C127_int64_refuted",
    "C127_divide_refuted",
    "C127_divide_partial",
    "C127_elementwise",
    "C127_sum"
   ],
   "note": "int: multiplication, elementwise operations, sum and sizes proved exactly in binary64; REFUTED for division by a scalar (49 / 49 = 0, C127_divide_refuted; proved in C127_divide_partial: the quotient, or one less in absolute value and then only for exact divisions) and for int64_t (C127_int64_refuted)."
  },
  {
   "property": "C128",
   "status": "proved",
   "theorems": [
    "C128_value",
    "C128_laws",
    "C128_empty"
   ],
   "note": "Real arithmetic (rounding not modelled)."
  },
  {
   "property": "C129",
   "status": "partial",
   "theorems": [
    "C129_draws",
    "C129_sizes",
    "C129_moments",
    "C129_nearest",
    "C129_indefinite_refuted",
    "C129_asymmetric"
   ],
   "note": "Moments, draws and nearest covariance proved over the reals with Eigen's decompositions by contract; REFUTED: an indefinite covariance is accepted silently (C129_indefinite_refuted; C129_nearest says what is sampled instead) and only the lower triangle of an asymmetric one is read (C129_asymmetric); sizes are checked by assert only (C129_sizes)."
  },
  {
   "property": "C130",
   "status": "partial",
   "theorems": [
    "C130_sizes",
    "C130_base",
    "C130_joints_before",
    "C130_rigid",
    "C130_tool_refuted",
    "C130_lengths",
    "C130_turn",
    "C130_full_turn",
    "C130_reach",
    "C130_home",
    "C130_home_axes",
    "C130_names",
    "C130_named",
    "C130_map",
    "C130_linked_robot"
   ],
   "note": "Proved over the reals for all configurations; REFUTED that every link frame is exactly a rotation: the ABB tool is fixed with a quaternion of rounded numbers (C130_tool_refuted, within 1e-15); C130_rigid holds for all other links."
  },
  {
   "property": "C131",
   "status": "partial",
   "theorems": [
    "C131_program_partial",
    "C131_appends",
    "C131_bare_name",
    "C131_copy_refuted",
    "C131_silent"
   ],
   "note": "Proved for all programs in which no log writes to a file of its making after another log has (C131_program_partial), and copies always append (C131_appends); REFUTED in general: the first log overwrites what its copy wrote (C131_copy_refuted), copies that fail to open and moved-from logs drop messages silently (C131_silent), and a bare file name is never accepted (C131_bare_name)."
  },
  {
   "property": "C132",
   "status": "proved",
   "theorems": [
    "C132_when",
    "C132_effect",
    "C132_tree"
   ],
   "note": "Over a model of files and directories without links, '.' and '..'."
  },
  {
   "property": "C133",
   "status": "partial",
   "theorems": [
    "C133_get",
    "C133_new",
    "C133_wakes",
    "C133_throws",
    "C133_order",
    "C133_not_started",
    "C133_stale_refuted",
    "C133_forgets_refuted",
    "C133_two_refuted"
   ],
   "note": "Order, provenance, wake-up and exceptions proved for all interleavings; REFUTED: the message may have been published before the call (C133_stale_refuted), get forgets when somebody waits (C133_forgets_refuted), and a second waiting thread can take the message from the first (C133_two_refuted)."
  },
  {
   "property": "C134",
   "status": "partial",
   "theorems": [
    "C134_fields",
    "C134_homogeneous",
    "C134_round_trip",
    "C134_message_trip",
    "C134_unnormalised_refuted",
    "C134_default",
    "C134_affine",
    "C134_scale_refuted",
    "C134_vectors",
    "C134_affine_vectors",
    "C134_builders",
    "C134_float",
    "C134_float_points",
    "C134_float_refuted"
   ],
   "note": "Round trips proved over the reals; REFUTED: a quaternion that is not a unit gives an isometry that is none (C134_unnormalised_refuted), the scale of an Affine3d is lost (C134_scale_refuted), and Vector3f loses digits (C134_float_refuted, with the exact bound in C134_float)."
  },
  {
   "property": "C135",
   "status": "proved",
   "theorems": [
    "C135_laws",
    "C135_rigid"
   ],
   "note": "Real arithmetic (rounding not modelled)."
  },
  {
   "property": "C136",
   "status": "partial",
   "theorems": [
    "C136_unambiguous",
    "C136_flat",
    "C136_text",
    "C136_empty_refuted",
    "C136_nested_refuted",
    "C136_strings_refuted",
    "C136_bytes_refuted",
    "C136_separator_refuted"
   ],
   "note": "Proved with delimiters for all nestings and values of whole numbers and booleans, and without delimiters for one container of single values; REFUTED: an empty container prints no brackets (C136_empty_refuted), without delimiters nested containers collide (C136_nested_refuted), strings are not quoted, bytes are printed as characters, and a separator may be mistaken for digits."
  },
  {
   "property": "C137",
   "status": "partial",
   "theorems": [
    "C137_values_partial",
    "C137_coordinates_partial",
    "C137_in_place_refuted",
    "C137_normalize_refuted",
    "C137_short_vector_refuted"
   ],
   "note": "Proved for programs without in-place changes, and for the coordinates of programs with them. REFUTED in general: compound assignments and normalize() break the invariant that later readings assert; short vectors in doubles have length 0."
  },
  {
   "property": "C138",
   "status": "partial",
   "theorems": [
    "C138_nested_update",
    "C138_nested_update_conflict",
    "C138_nested_update_none",
    "C138_nested_update_atomic_refuted",
    "C138_unique",
    "C138_chunks",
    "C138_reversed_chunks",
    "C138_zip_partial",
    "C138_zip_refuted"
   ],
   "note": "Proved for updates (in the absence of conflicts, and that conflicts raise), both chunkings, uniqueness, and zips of at least two non-empty lists. REFUTED: a single list or an empty one beside others makes zip_repeat_shorter raise; a failing update leaves the base half changed."
  },
  {
   "property": "C139",
   "status": "partial",
   "theorems": [
    "C139_closest",
    "C139_closest_empty",
    "C139_length",
    "C139_travel",
    "C139_densify",
    "C139_reverse",
    "C139_reverse_twice",
    "C139_reverse_velocities_refuted",
    "C139_reverse_empty"
   ],
   "note": "Proved for closest points, travelling, densifying, and times and positions of reversed trajectories. REFUTED for their velocities."
  },
  {
   "property": "C140",
   "status": "proved",
   "theorems": [
    "C140_consistent",
    "C140_linear",
    "C140_quadratic",
    "C140_cubic",
    "C140_cubic_unique"
   ],
   "note": "Over the real numbers; a duration of 0 is excluded. The cubic is also shown to be the only one."
  },
  {
   "property": "C141",
   "status": "partial",
   "theorems": [
    "C141_normalize",
    "C141_compose_quaternions",
    "C141_from_axis_angle",
    "C141_bad_axis",
    "C141_axis_from_quaternion",
    "C141_angle",
    "C141_angle_ros_refuted",
    "C141_points",
    "C141_subtract_refuted",
    "C141_compose_matrices",
    "C141_invert_matrix_refuted",
    "C141_dh",
    "C141_dh_refuted",
    "C141_spherical",
    "C141_spherical_back",
    "C141_spherical_short_refuted",
    "C141_transforms",
    "C141_matrices",
    "C141_dh_transform"
   ],
   "note": "Proved for normalizing, composing and inverting, axis and angle, matrices, spherical coordinates of vectors longer than 1e-6, and angles above the cut-off, under a contract for tf and numpy.linalg. REFUTED for AngleBetweenQuaternionsRos, InvertMatrix, SubtractPoints, BuildMatrixFromDH and short vectors."
  },
  {
   "property": "C142",
   "status": "partial",
   "theorems": [
    "C142_xyz",
    "C142_rgb_xyz",
    "C142_cielab",
    "C142_lab",
    "C142_lab_refuted",
    "C142_msh",
    "C142_msh_refuted",
    "C142_rgb_msh_refuted",
    "C142_coolwarm_range",
    "C142_coolwarm_ends",
    "C142_coolwarm_middle",
    "C142_adjust_hue",
    "C142_coolwarm_unsaturated",
    "C142_rad_diff",
    "C142_rad_diff_refuted",
    "C142_jet",
    "C142_hot_to_cold",
    "C142_hot_to_cold_refuted",
    "C142_safe",
    "C142_map_color"
   ],
   "note": "Proved: RGB and XYZ, the CIE functions, Msh for positive a, ends and middle of interpolate_coolwarm, jet, hot-to-cold up to three quarters, clamping. REFUTED for Lab to XYZ, Msh in general, the last quarter of hot-to-cold and rad_diff beyond a full turn."
  },
  {
   "property": "C143",
   "status": "partial",
   "theorems": [
    "C143_rm_tree",
    "C143_rm_tree_link_refuted",
    "C143_rm_tree_file_link_refuted",
    "C143_ask",
    "C143_ask_generator_refuted",
    "C143_count",
    "C143_size",
    "C143_subdirs",
    "C143_mkdir_and_ask",
    "C143_mkdir_file_refuted",
    "C143_no_overwrite",
    "C143_no_overwrite_link_refuted",
    "C143_version",
    "C143_version_hidden",
    "C143_append",
    "C143_version_hidden_refuted"
   ],
   "note": "Proved for directories whose links lead to files elsewhere, for lists, and for names that do not begin with a dot. REFUTED in general: rm_tree through links to directories or to files deleted before, generators of directories, mkdir_and_ask on a file, broken links, hidden files."
  },
  {
   "property": "C144",
   "status": "partial",
   "theorems": [
    "C144_size_accepted",
    "C144_size_near",
    "C144_size_result",
    "C144_size_exact",
    "C144_normalize",
    "C144_normalize_list_refuted",
    "C144_pose_six",
    "C144_pose_other",
    "C144_pose_unit_refuted",
    "C144_positions",
    "C144_unit_point",
    "C144_points",
    "C144_markers"
   ],
   "note": "Everything stated is proved but for two parts. REFUTED: normalize_quaternion of a list always raises; a list of seven numbers can give an orientation of length 0."
  },
  {
   "property": "C145",
   "status": "partial",
   "theorems": [
    "C145_catch",
    "C145_no_alarm",
    "C145_nested_refuted",
    "C145_caller_alarm_refuted",
    "C145_own_timeout_refuted",
    "C145_retry",
    "C145_skip",
    "C145_skip_refuted",
    "C145_retry_refuted",
    "C145_conditional_try"
   ],
   "note": "REFUTED for nested calls (C145_nested_refuted, C145_caller_alarm_refuted), for functions that raise TimeoutError themselves (C145_own_timeout_refuted) and for skipping single items or yielding each item once (C145_skip_refuted, C145_retry_refuted). Proved: results and stopping of a single call, no alarm left, what retry and skip yield, conditional_try."
  },
  {
   "property": "C146",
   "status": "partial",
   "theorems": [
    "C146_exclusive",
    "C146_get",
    "C146_get_changed",
    "C146_called",
    "C146_lost",
    "C146_progress",
    "C146_init_refuted",
    "C146_shutdown_refuted",
    "C146_changed_refuted",
    "C146_deadlock_refuted"
   ],
   "note": "REFUTED for messages that arrive during the constructor (C146_init_refuted), get(True) at shutdown (C146_shutdown_refuted), callbacks that change messages (C146_changed_refuted) and callbacks that call get (C146_deadlock_refuted). Proved in all other cases: C146_exclusive, C146_get, C146_get_changed, C146_called, C146_lost, C146_progress."
  },
  {
   "property": "C147",
   "status": "partial",
   "theorems": [
    "C147_wait",
    "C147_wait_forever",
    "C147_button",
    "C147_delta",
    "C147_delta_doc_refuted",
    "C147_delta_torn_refuted",
    "C147_axis",
    "C147_axis_value",
    "C147_wait_button",
    "C147_wait_button_refuted",
    "C147_x_clicked",
    "C147_connected",
    "C147_connected_refuted",
    "C147_subscribers",
    "C147_topic",
    "C147_private_refuted",
    "C147_remapped_refuted",
    "C147_try",
    "C147_with_ros",
    "C147_with_ros_refuted"
   ],
   "note": "REFUTED for get_3d_delta's documented axes and single message (C147_delta_doc_refuted, C147_delta_torn_refuted), wait_for_button at shutdown (C147_wait_button_refuted), late, private and remapped connections (C147_connected_refuted, C147_private_refuted, C147_remapped_refuted) and rospy failing to start (C147_with_ros_refuted). Proved: the rest."
  },
  {
   "property": "C148",
   "status": "partial",
   "theorems": [
    "C148_get",
    "C148_get_forever",
    "C148_get_refuted",
    "C148_send",
    "C148_static",
    "C148_two_wrappers_refuted",
    "C148_changed_refuted",
    "C148_growth_refuted",
    "C148_senders",
    "C148_close",
    "C148_two_parents_refuted",
    "C148_returns",
    "C148_returns_quaternion",
    "C148_start",
    "C148_start_refuted",
    "C148_start_none_refuted"
   ],
   "note": "REFUTED for several wrappers in a process, poses used again and the size of static messages (C148_two_wrappers_refuted, C148_changed_refuted, C148_growth_refuted), other tf2 exceptions (C148_get_refuted), quaternions not of length 1, missing transforms and two parents (C148_start_refuted, C148_start_none_refuted, C148_two_parents_refuted). Proved: the rest, with tf.transformations as a contract that contract_met and normalizing_contract show can be met."
  },
  {
   "property": "C149",
   "status": "partial",
   "theorems": [
    "C149_targets",
    "C149_bias_ends",
    "C149_plan",
    "C149_start_is_goal",
    "C149_bias_zero_refuted",
    "C149_bias_nan_refuted"
   ],
   "note": "REFUTED for a bias of 0 and one that is not a number (C149_bias_zero_refuted, C149_bias_nan_refuted). Proved: the rest."
  },
  {
   "property": "C150",
   "status": "partial",
   "theorems": [
    "C150_names",
    "C150_get_param",
    "C150_optional",
    "C150_required",
    "C150_message_partial",
    "C150_vectors",
    "C150_lines",
    "C150_spin",
    "C150_wrong_type_refuted",
    "C150_message_refuted",
    "C150_root_message_refuted",
    "C150_line_refuted"
   ],
   "note": "REFUTED for parameters of another type (C150_wrong_type_refuted), messages for global names and the root namespace (C150_message_refuted, C150_root_message_refuted) and the text of GetVector (C150_line_refuted). Proved: the rest."
  },
  {
   "property": "C151",
   "status": "partial",
   "theorems": [
    "C151_print_partial",
    "C151_straight_partial",
    "C151_write_partial",
    "C151_is_started",
    "C151_box",
    "C151_separator",
    "C151_mean_refuted",
    "C151_print_all_refuted",
    "C151_both_refuted",
    "C151_empty_refuted"
   ],
   "note": "REFUTED for the mean of reset names (C151_mean_refuted), printAllSummary (C151_print_all_refuted), names of both kinds (C151_both_refuted), no names and files that cannot be opened (C151_empty_refuted). Proved: the rest."
  },
  {
   "property": "C152",
   "status": "partial",
   "theorems": [
    "C152_few_files",
    "C152_small_directories",
    "C152_nothing_without_yes",
    "C152_bad_arguments",
    "C152_root_twice_refuted",
    "C152_nested_roots_refuted",
    "C152_link_refuted",
    "C152_subfolders_refuted"
   ],
   "note": "Exact effect proved for different roots none inside another, with links below leading only to files outside (small: no links); REFUTED for repeated and nested roots, links to directories, and subfolders counting"
  },
  {
   "property": "C153",
   "status": "partial",
   "theorems": [
    "C153_debugger",
    "C153_no_status",
    "C153_descriptors",
    "C153_leak_refuted",
    "C153_name_refuted",
    "C153_get_char",
    "C153_get_char_restores",
    "C153_keys",
    "C153_get_char_failed_refuted",
    "C153_get_char_exception_refuted",
    "C153_wait_for_input",
    "C153_wait_at_end",
    "C153_wait_failed",
    "C153_interactive_wait",
    "C153_wait_line_refuted",
    "C153_wait_end_refuted",
    "C153_messages",
    "C153_message_wait",
    "C153_alignment",
    "C153_require",
    "C153_require_release_refuted",
    "C153_alignment_zero_refuted"
   ],
   "note": "Proved as far as stated in the theorems; REFUTED: the descriptor leak ends in wrong answers, program names with the tag, keys after a failed read, exceptions leaving the terminal changed, lines counting as several ENTERs, release builds of RequireAlignment, alignment 0"
  },
  {
   "property": "C154",
   "status": "partial",
   "theorems": [
    "C154_constructors",
    "C154_setters",
    "C154_set",
    "C154_set_hex",
    "C154_bytes",
    "C154_floats",
    "C154_convert",
    "C154_multiply",
    "C154_multiply_alpha_refuted",
    "C154_interpolate_ends",
    "C154_interpolate_near",
    "C154_interpolate_between",
    "C154_interpolate_tiny_refuted",
    "C154_interpolate_nan_refuted"
   ],
   "note": "All of it proved, betweenness for channels that are 0 or at least 2^-100 and error at most 2^-22; REFUTED: NaN ratio gives transparent black, the smallest floats mixed with themselves become 0, alpha outside [0,1] is kept by Multiply"
  },
  {
   "property": "C155",
   "status": "partial",
   "theorems": [
    "C155_region",
    "C155_rejects",
    "C155_makes",
    "C155_centred",
    "C155_count_undefined",
    "C155_count",
    "C155_count_exact",
    "C155_count_again",
    "C155_sizes",
    "C155_constructors",
    "C155_blank",
    "C155_dynamic",
    "C155_dynamic_blank_refuted",
    "C155_one_more_refuted",
    "C155_too_small_refuted",
    "C155_tiny_refuted",
    "C155_huge_refuted",
    "C155_infinite_refuted",
    "C155_reinitialize_refuted"
   ],
   "note": "Exact result, exact rejection, agreement of constructors and the number of cells up to one rounding proved; REFUTED: exact number of cells, sizes above 0 always accepted, exceptions instead of undefined behaviour, usable results for all accepted sizes, failed reinitialization, IsInitialized of a default dynamic grid"
  },
  {
   "property": "C156",
   "status": "partial",
   "theorems": [
    "C156_rejects",
    "C156_makes",
    "C156_new",
    "C156_write",
    "C156_write_outside_partial",
    "C156_location",
    "C156_centre",
    "C156_no_location",
    "C156_cell_size",
    "C156_whole",
    "C156_kind",
    "C156_blank",
    "C156_write_outside_refuted",
    "C156_far_refuted",
    "C156_nan_refuted"
   ],
   "note": "Making, values, writes, lookups by location and location of an index within stated ranges, whole chunks and wrong kinds proved; REFUTED: writes after failed lookups have no effect, locations far from the origin, locations that are NaN"
  },
  {
   "property": "C157",
   "status": "partial",
   "theorems": [
    "C157_unambiguous",
    "C157_number",
    "C157_exact",
    "C157_same",
    "C157_whole",
    "C157_alike",
    "C157_vectors",
    "C157_transform",
    "C157_dynamic",
    "C157_matrix",
    "C157_labels",
    "C157_layout",
    "C157_list",
    "C157_twelve_digits_refuted",
    "C157_six_digits_refuted"
   ],
   "note": "Nearest number with 12 (6) digits, exact for short decimals and whole numbers, labels and order, same text means values alike, sizes of vectors and matrices told by the text; REFUTED: different doubles have different texts, whole doubles in containers are printed exactly"
  },
  {
   "property": "C158",
   "status": "partial",
   "theorems": [
    "C158_rounding",
    "C158_ends",
    "C158_ordered",
    "C158_vectors_rounded",
    "C158_close_rounded",
    "C158_outside_refuted",
    "C158_increasing_refuted",
    "C158_special_refuted",
    "C158_close",
    "C158_close_vectors",
    "C158_approx",
    "C158_sign",
    "C158_interpolate",
    "C158_interpolate_vectors",
    "C158_distance",
    "C158_total",
    "C158_total_least",
    "C158_total_parts"
   ],
   "note": "Proved over the reals; with rounding, error bound, exact ends, order and closeness proved within stated ranges; REFUTED: rounded Interpolate stays between its ends, grows with the ratio, treats NaN and infinities"
  },
  {
   "property": "C159",
   "status": "proved",
   "theorems": [
    "C159_derivative",
    "C159_found",
    "C159_none",
    "C159_ends"
   ],
   "note": "Over the real numbers, for joints with positive velocity limits and paths on which some joint limits the speed everywhere"
  },
  {
   "property": "C160",
   "status": "proved",
   "theorems": [
    "C160_slope",
    "C160_slope_is_derivative",
    "C160_phase_slope",
    "C160_switching",
    "C160_step"
   ],
   "note": "Over the real numbers"
  },
  {
   "property": "C161",
   "status": "partial",
   "theorems": [
    "C161_integers",
    "C161_integers_unambiguous",
    "C161_strings",
    "C161_nested_unambiguous",
    "C161_deep_refuted",
    "C161_characters_refuted",
    "C161_strings_refuted",
    "C161_collision",
    "C161_silent_refuted",
    "C161_triangle"
   ],
   "note": "Proved for vectors and vectors of vectors of whole numbers, lines of strings and collision results; REFUTED for deeper nesting, characters, strings with newlines and an empty first list of contacts"
  },
  {
   "property": "C162",
   "status": "partial",
   "theorems": [
    "C162_views",
    "C162_allowed",
    "C162_refused",
    "C162_rigid_bodies",
    "C162_clone_shares",
    "C162_clone_refuted"
   ],
   "note": "Accessors, self-collisions and constructor proved after any use; REFUTED that a clone of a robot with points is independent"
  },
  {
   "property": "C163",
   "status": "partial",
   "theorems": [
    "C163_two_waypoints",
    "C163_speed_refuted",
    "C163_acceleration_refuted",
    "C163_zero_acceleration_refuted",
    "C163_zero_velocity_refuted"
   ],
   "note": "REFUTED as expected: with coarse time steps the speed limit is exceeded (C163_speed_refuted) and the deceleration at the crossing may exceed its limit (C163_acceleration_refuted); limits of zero (C163_zero_acceleration_refuted, C163_zero_velocity_refuted). Proved for all two-waypoint moves: the planner returns, and the exact slack for speeds and accelerations (C163_two_waypoints), under the hypothesis that the times of the steps increase (C81_backstep_refuted shows they may not)."
  },
  {
   "property": "C164",
   "status": "partial",
   "theorems": [
    "C164_enforce",
    "C164_distance",
    "C164_signed",
    "C164_interpolate",
    "C164_ends",
    "C164_add",
    "C164_zero_refuted",
    "C164_end_refuted",
    "C164_overflow_refuted"
   ],
   "note": "the bounds are proved for all finite doubles (C164_enforce, C164_distance, C164_signed, C164_interpolate, C164_ends, C164_add); REFUTED expectations: different angles may be at distance 0 (C164_zero_refuted), ratio 1 may miss the second angle by the last bit (C164_end_refuted), and a sum that overflows gives NaN (C164_overflow_refuted)"
  },
  {
   "property": "C165",
   "status": "partial",
   "theorems": [
    "C165_exception",
    "C165_colon_refuted",
    "C165_version",
    "C165_joint",
    "C165_interval_refuted",
    "C165_dict"
   ],
   "note": "REFUTED: names of files with a colon (C165_colon_refuted) and the interval shown for a joint at its upper limit (C165_interval_refuted). Proved: the rest (C165_exception, C165_version, C165_joint, C165_dict)."
  },
  {
   "property": "C166",
   "status": "proved",
   "theorems": [
    "C166_backward",
    "C166_limits",
    "C166_refused",
    "C166_defined",
    "C166_meets"
   ],
   "note": ""
  },
  {
   "property": "C167",
   "status": "proved",
   "theorems": [
    "C167_graph",
    "C167_matrix",
    "C167_grid",
    "C167_state",
    "C167_flag_read"
   ],
   "note": "The layout of objects with numbers that do not fit their types cannot occur in the program; the layout of values is that of the given serializer."
  },
  {
   "property": "C168",
   "status": "proved",
   "theorems": [
    "C168_scalar",
    "C168_vectors",
    "C168_sizes_differ",
    "C168_pairs",
    "C168_divide_error",
    "C168_sum",
    "C168_sum_whole",
    "C168_divide_zero",
    "C168_divide_refuted"
   ],
   "note": "NaN payloads and vectors with infinite or NaN entries are outside the statement, except that a finite Sum has only finite entries."
  },
  {
   "property": "C169",
   "status": "proved",
   "theorems": [
    "C169_mean_between",
    "C169_mean_error",
    "C169_weighted_between",
    "C169_weighted_refuted",
    "C169_constant",
    "C169_std_dev",
    "C169_std_zero_refuted",
    "C169_refused"
   ],
   "note": "The two negative parts of the statement are the refutations C169_weighted_refuted and C169_std_zero_refuted."
  },
  {
   "property": "C170",
   "status": "proved",
   "theorems": [
    "C170_convert",
    "C170_convert_refuted",
    "C170_level_refused",
    "C170_init",
    "C170_argument",
    "C170_options_refuted",
    "C170_spinners"
   ],
   "note": "The negative parts of the statement are C170_convert_refuted and C170_options_refuted."
  },
  {
   "property": "C171",
   "status": "proved",
   "theorems": [
    "C171_equal3",
    "C171_equal4",
    "C171_equal3_laws",
    "C171_close3",
    "C171_close2",
    "C171_vectors",
    "C171_close3_vectors",
    "C171_close2_nan",
    "C171_close3_nan_refuted",
    "C171_close3_nan_rest",
    "C171_distance3",
    "C171_distance2",
    "C171_square_error",
    "C171_distance_error",
    "C171_zero_refuted",
    "C171_triangle_refuted",
    "C171_transform_data"
   ],
   "note": "The negative parts of the claim are C171_close3_nan_refuted, C171_zero_refuted and C171_triangle_refuted."
  },
  {
   "property": "C172",
   "status": "proved",
   "theorems": [
    "C172_rows",
    "C172_limits",
    "C172_endless_refuted",
    "C172_other_lengths",
    "C172_files"
   ],
   "note": "The negative part of the claim is C172_endless_refuted."
  },
  {
   "property": "C173",
   "status": "proved",
   "theorems": [
    "C173_unit",
    "C173_origin",
    "C173_nan",
    "C173_range_refuted"
   ],
   "note": "The negative part of the claim is C173_range_refuted."
  },
  {
   "property": "C174",
   "status": "proved",
   "theorems": [
    "C174_lists",
    "C174_grow",
    "C174_step",
    "C174_error",
    "C174_backwards",
    "C174_same_refuted",
    "C174_backwards_refuted"
   ],
   "note": "Holds as stated; the negative parts of the statement are C174_same_refuted and C174_backwards_refuted."
  },
  {
   "property": "C175",
   "status": "proved",
   "theorems": [
    "C175_float",
    "C175_special",
    "C175_error",
    "C175_returns",
    "C175_again",
    "C175_order",
    "C175_int",
    "C175_dict",
    "C175_dict_raises",
    "C175_half_refuted"
   ],
   "note": "Holds as stated; the negative part of the statement is C175_half_refuted."
  },
  {
   "property": "C176",
   "status": "proved",
   "theorems": [
    "C176_sizes",
    "C176_error",
    "C176_symmetric",
    "C176_zero",
    "C176_apart",
    "C176_order_refuted"
   ],
   "note": "Holds as stated; the last sentence is C176_order_refuted."
  },
  {
   "property": "C177",
   "status": "proved",
   "theorems": [
    "C177_norm",
    "C177_sizes",
    "C177_range",
    "C177_assertion",
    "C177_self",
    "C177_whole_numbers",
    "C177_cosine",
    "C177_zero_vector",
    "C177_self_refuted",
    "C177_symmetric_refuted",
    "C177_zero_refuted"
   ],
   "note": "Holds as stated; the last sentence is C177_self_refuted, C177_symmetric_refuted, C177_zero_vector and C177_zero_refuted."
  }
 ]
}