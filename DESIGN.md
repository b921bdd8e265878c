# Formal model of arc_utilities

Source: `/repo` (read as text only, never built or changed). Everything machine-checked lives in
`rocq/theories`. Properties are listed in `properties.jsonl`; the map from properties to theorems is
`MANIFEST.json`.

## Conventions

- For each part of the library there are up to three kinds of file: `*Model.v` (executable model; every
  definition cites the file and lines it models), `*Proofs.v` (lemmas), `*Props.v` (small specification,
  property theorems, `Example`s showing that hypotheses can be met, `Print Assumptions`).
- `outcome` (in `Base.v`) separates normal return, thrown exception, failed `assert`, undefined behaviour and
  exhausted fuel (used for loops that may not terminate). Undefined behaviour is never assumed away.
- Floating point costs: algorithms that only compare and add costs are proved for an abstract cost structure
  (strict weak order, monotone and inflationary addition, no associativity), instantiated with integers with
  infinity and with IEEE-754 binary64 numbers from Flocq. Geometric code (angles, averages, resampling) is
  modelled over the real numbers; rounding is out of scope there and says so.
- Unspecified choices (priority queue ties, OpenMP schedules, random draws, hash iteration order) are universally
  quantified.
- `..._refuted` theorems show that the code violates the property as a user would expect it; the witness is
  the finding. `..._partial` theorems prove part of a property, with the missing part named beside them.

## Trusted base

- Coq 8.16.1: its kernel (including the `vm_compute` reduction machine, used for witnesses and finite tables) and the
  compiler that produced it. `coqchk -o` was run on all modules as of commit 8285208 (177 claims): it accepts them and lists
  the four axioms below and nothing else (no type-in-type, no unsafe fixpoints, no assumed positivity).
- The standard library axioms listed below. They come from the construction of the real numbers
  (`sig_not_dec`, `sig_forall_dec`), from `functional_extensionality_dep`, and from `classic` (used by Flocq and by a few
  real-analysis lemmas). No axiom of any other library is used and none is added here.
- The models themselves: that each definition says what the cited lines of C++ do. They were written by reading the
  source; the code was never compiled or run. Every simplification is stated in the comment of the definition.
- The contracts given to external code: Eigen expressions compute the mathematical operation in their documented order,
  zlib's `deflate`/`inflate` meet their documentation (ZlibModel), `std::sort`, `std::priority_queue` and hash maps behave as
  the C++ standard says with every unspecified choice quantified over, user callbacks are arbitrary functions.
- Arithmetic: sizes are `N`/`Z` with explicit wrap-around where the width matters; costs are abstract (`Cost.v`) and
  instantiated with binary64 (`CostFloat.v`); geometry is over the reals, so rounding is out of scope there except where a
  `*Float.v` file or a Flocq lemma says otherwise.

What `Print Assumptions` lists for each theorem (regenerate with `tools/assumptions.py`):

<!-- assumptions begin -->
- **Closed under the global context** (390 theorems): C01_containers_preserve_round_trip, C01_serialization_round_trip, C01_zero_byte_pair_refuted, C02_chained_values, C02_wire_layout, C03_network_host_independent, C03_network_scalars_big_endian, C03_network_signed_big_endian, C04_hostile_bytes_in_bounds, C04_map_first_key_wins, C04_reads_only_reported_bytes, C04_release_build_refuted, C05_decode_inverts_encode, C05_encode_injective, C06_encode_well_formed, C06_text_is_unique, C07_decode_memory_safe_partial, C07_decode_memory_safe_refuted, C07_decode_output_bounded, C08_add_edge_effect, C08_add_edges_effect, C08_add_node_effect, C08_linkage_invariant, C09_built_graphs_pass, C09_check_ignores_weights_refuted, C09_deserialize_unchecked_refuted, C09_deserialized_graphs_pass, C09_linkage_check_decides, C108_dynamic_refuted, C108_join_nothing, C108_join_split, C108_quaternion, C108_remainder, C108_split_join, C108_vector3, C10_graph_round_trip, C11_api_graphs_undirected, C11_components_partial, C11_components_refuted, C11_connected_graph, C11_isolated_refuted, C123_hostile_bytes, C123_layout, C123_round_trip, C124_count_refuted, C124_round_trip_partial, C124_wrapper_refuted, C125_joint_round_trip, C127_elementwise, C127_sum, C12_bad_start_throws, C12_dijkstra_shortest, C12_dijkstra_shortest_exact, C131_appends, C131_bare_name, C131_copy_refuted, C131_program_partial, C131_silent, C132_effect, C132_tree, C132_when, C133_forgets_refuted, C133_get, C133_new, C133_not_started, C133_order, C133_stale_refuted, C133_throws, C133_two_refuted, C133_wakes, C136_bytes_refuted, C136_empty_refuted, C136_flat, C136_nested_refuted, C136_separator_refuted, C136_strings_refuted, C136_text, C136_unambiguous, C138_nested_update_atomic_refuted, C138_nested_update_none, C138_zip_refuted, C139_closest_empty, C139_reverse, C139_reverse_empty, C139_reverse_twice, C13_back_pointers, C141_invert_matrix_refuted, C143_append, C143_ask, C143_ask_generator_refuted, C143_count, C143_mkdir_and_ask, C143_mkdir_file_refuted, C143_no_overwrite, C143_no_overwrite_link_refuted, C143_rm_tree, C143_rm_tree_file_link_refuted, C143_rm_tree_link_refuted, C143_size, C143_subdirs, C143_version, C143_version_hidden, C143_version_hidden_refuted, C144_normalize_list_refuted, C144_positions, C145_caller_alarm_refuted, C145_catch, C145_conditional_try, C145_nested_refuted, C145_no_alarm, C145_own_timeout_refuted, C145_retry, C145_retry_refuted, C145_skip, C145_skip_refuted, C146_called, C146_changed_refuted, C146_deadlock_refuted, C146_exclusive, C146_get, C146_get_changed, C146_init_refuted, C146_lost, C146_progress, C146_shutdown_refuted, C147_button, C147_connected, C147_connected_refuted, C147_private_refuted, C147_remapped_refuted, C147_subscribers, C147_topic, C147_try, C147_wait, C147_wait_button_refuted, C147_wait_forever, C147_with_ros, C147_with_ros_refuted, C147_x_clicked, C148_get, C148_get_forever, C148_growth_refuted, C148_static, C149_bias_ends, C149_bias_nan_refuted, C149_bias_zero_refuted, C149_plan, C149_start_is_goal, C149_targets, C14_astar_sound_complete, C14_bad_indices_throw, C14_lazy_astar_sound_complete, C150_get_param, C150_line_refuted, C150_lines, C150_message_partial, C150_message_refuted, C150_names, C150_optional, C150_required, C150_root_message_refuted, C150_spin, C150_vectors, C150_wrong_type_refuted, C151_both_refuted, C151_box, C151_empty_refuted, C151_is_started, C151_mean_refuted, C151_print_all_refuted, C151_print_partial, C151_separator, C151_straight_partial, C151_write_partial, C152_few_files, C152_nested_roots_refuted, C152_root_twice_refuted, C152_subfolders_refuted, C153_alignment, C153_alignment_zero_refuted, C153_debugger, C153_descriptors, C153_get_char, C153_get_char_exception_refuted, C153_get_char_failed_refuted, C153_get_char_restores, C153_interactive_wait, C153_keys, C153_leak_refuted, C153_message_wait, C153_messages, C153_name_refuted, C153_no_status, C153_require, C153_require_release_refuted, C153_wait_at_end, C153_wait_end_refuted, C153_wait_failed, C153_wait_for_input, C153_wait_line_refuted, C15_astar_optimal, C161_characters_refuted, C161_collision, C161_deep_refuted, C161_integers, C161_integers_unambiguous, C161_nested_unambiguous, C161_silent_refuted, C161_strings, C161_strings_refuted, C161_triangle, C162_clone_shares, C165_colon_refuted, C165_dict, C165_exception, C165_version, C167_flag_read, C167_graph, C167_grid, C167_matrix, C167_state, C16_duplicate_limiting_irrelevant, C170_argument, C170_convert, C170_convert_refuted, C170_init, C170_level_refused, C170_options_refuted, C170_spinners, C171_transform_data, C171_vectors, C175_special, C17_plan_sound_complete, C18_plan_optimal, C18_plan_optimal_exact, C19_dead_end_refuted, C19_walk_can_end, C19_walk_loop_free, C19_walk_safe, C20_grid_is_a_map, C20_initialize_checks, C20_reset_from_own_cell_refuted, C20_size_overflow_refuted, C22_behaviour_preserved, C22_grid_round_trips, C25_parallel, C25_same_distances, C25_serial, C26_every_schedule, C26_no_race, C27_out_of_bounds, C27_overwritten_refuted, C27_symmetric_partial, C28_get_after_set, C28_get_after_set_64_partial, C28_high_bits_never_seen, C28_high_bits_refuted, C28_set_bit, C29_bad_bounds, C29_clamp, C29_idempotent_monotone, C30_splitmix, C30_xorshift1024_partial, C30_xorshift1024_refuted, C30_xorshift128, C32_partition, C33_complete_link, C33_single_link, C34_infinite_refuted, C34_terminates_partial, C35_labels_and_centers, C35_random_start, C36_more_clusters_than_items_refuted, C36_oscillation_refuted, C37_add_node, C37_asymmetric_start_refuted, C37_build_roadmap, C37_infinite_distance_refuted, C38_bad_linkage_throws, C38_edges, C38_update_edges, C39_lazy_partial, C39_multi_goal, C39_multi_start_partial, C39_random_walk, C39_single_partial, C39_start_is_goal_refuted, C40_accepts_linked, C40_check_partial, C40_children, C40_cycle_refuted, C40_parent_past_end_refuted, C40_root_elsewhere_refuted, C41_ancestry_is_path, C41_extract, C41_extract_only, C42_dtw_partial, C42_optimal_refuted, C43_empty_refuted, C43_reuse_partial, C43_total, C44_empty, C44_hausdorff, C44_schedules_agree, C45_shortcut, C47_no_fewer, C47_upsample_partial, C53_doubles_refuted, C53_get_data, C53_other_names, C53_record_partial, C53_start_refuted, C54_reset_is_zero, C54_reset_refuted, C54_stopwatch_partial, C55_full_disk_refuted, C55_reported, C55_single_partial, C55_slices_partial, C55_stale_file_refuted, C55_stale_slices_refuted, C56_eigen_round_trip, C56_empty_at_end_refuted, C56_fixed_round_trip, C56_hostile_bytes_in_bounds, C57_search_partial, C57_start_refuted, C57_valid_start, C58_append_partial, C58_changed_refuted, C58_fewer_names_refuted, C58_names_differ, C58_ordered, C58_points_kept, C58_prefix_refuted, C58_self_refuted, C59_collision_map, C59_construct, C60_empty_partial, C60_refuted, C61_duplicate_limiting_irrelevant, C61_generic_astar_optimal, C61_generic_astar_sound_complete, C61_negative_ids_refuted, C62_each_word_once_per_period, C63_xorshift1024_never_zero, C63_xorshift1024_states_never_merge, C63_xorshift128_never_zero, C63_xorshift128_states_never_merge, C65_spread, C66_own_weights_partial, C66_preliminary_weights_refuted, C67_edges_checked_partial, C67_reverse_edge_refuted, C68_plan, C68_plan_single, C68_sample_counts, C69_bi_plan_partial, C69_bi_plan_single_partial, C69_bridge_direction_refuted, C69_sample_counts, C70_state_round_trip, C71_empty_refuted, C71_summary_partial, C71_unknown, C72_empty_refuted, C72_twice_refuted, C72_write_all_partial, C73_limit_refuted, C73_round_trip_partial, C73_too_long, C74_decode_variants, C83_nan_first_refuted, C91_last_wins, C91_retrieve, C91_round_trip, C91_substring, C91_vectors, C94_enumerate_partial, C94_find_narrowing_refuted, C94_find_partial, C94_hash_combine, C94_hash_pair, C94_hash_vector, C94_hash_word, C94_maybe, C94_mirror_refuted, C95_milliseconds_distinct, C95_sorted_refuted, C95_time_string.
- Axioms `ClassicalDedekindReals.sig_forall_dec` (6 theorems): C120_unknown_link, C134_builders, C134_fields, C148_get_refuted, C148_two_wrappers_refuted, C162_clone_refuted.
- Axioms `ClassicalDedekindReals.sig_forall_dec`, `FunctionalExtensionality.functional_extensionality_dep` (105 theorems): C107_average, C107_mean, C107_zero_weights_refuted, C112_signs, C114_absolute_refuted, C121_average_partial, C122_position, C134_default, C134_homogeneous, C134_unnormalised_refuted, C135_laws, C139_reverse_velocities_refuted, C140_consistent, C140_cubic, C140_cubic_unique, C140_linear, C140_quadratic, C141_compose_matrices, C141_matrices, C141_subtract_refuted, C142_hot_to_cold, C142_hot_to_cold_refuted, C142_jet, C142_map_color, C142_rgb_xyz, C142_safe, C142_xyz, C144_markers, C144_points, C147_axis, C147_axis_value, C147_delta, C147_delta_doc_refuted, C147_delta_torn_refuted, C147_wait_button, C148_changed_refuted, C148_close, C148_returns, C148_returns_quaternion, C148_send, C148_senders, C148_start_none_refuted, C148_two_parents_refuted, C157_unambiguous, C158_approx, C158_close, C158_close_vectors, C158_interpolate, C158_interpolate_vectors, C158_sign, C158_total, C158_total_least, C158_total_parts, C159_derivative, C159_ends, C159_found, C159_none, C160_phase_slope, C166_backward, C166_defined, C166_limits, C166_meets, C166_refused, C175_int, C21_centre_maps_back, C21_far_point_refuted, C21_in_bounds_extent_partial, C21_negative_slab_refuted, C21_point_lies_in_its_cell, C21_size_is_covered, C23_grid_is_a_map_on_space, C23_read_after_write, C24_by_coordinates_refuted, C24_by_location_sets_whole_chunk, C36_terminates_partial, C46_bad_range, C46_distance_zero_refuted, C46_resample, C48_add, C48_enforce, C49_distance, C49_sign_refuted, C49_signed_distance_partial, C50_interpolate, C51_bounds_partial, C51_bounds_refuted, C52_average, C52_mean, C52_zero_weights_refuted, C80_path_acceleration, C80_path_velocity, C83_nan_poisons_refuted, C90_neighbours2_partial, C90_neighbours3_partial, C90_own_cell_refuted, C90_past_bound_refuted, C90_symmetric_partial, C93_hot_to_cold, C93_interpolate, C93_trimmed, C96_adjoint, C96_skew, C96_twist, C97_matrices, C98_zero.
- Axioms `ClassicalDedekindReals.sig_forall_dec`, `ClassicalDedekindReals.sig_not_dec`, `FunctionalExtensionality.functional_extensionality_dep` (131 theorems): C101_quaternions, C102_plane_partial, C102_plane_zero_refuted, C102_projection, C103_distance, C103_vectors, C104_line, C105_bad_limit, C105_clamp, C105_safe_normal, C109_closest, C109_distances, C109_matrix, C109_path, C109_to_set, C111_square_refuted, C111_underdetermined, C111_weighted_least_squares, C112_average_partial, C112_weights_refuted, C113_fit_plane, C114_pseudo_inverse_partial, C115_distance, C115_finite_refuted, C115_nearest, C115_set_value, C115_within_limits, C116_check, C116_index_refuted, C116_skeleton, C117_base, C117_forward, C117_inverse_refuted, C117_motion, C117_order_refuted, C117_rigid, C118_active_names, C118_base, C118_constructor, C118_exception_refuted, C118_same_position, C118_set_position, C118_wrong_size, C119_average_partial, C119_average_refused, C119_interpolate, C119_metric, C119_unweighted, C121_position, C128_empty, C128_laws, C128_value, C129_asymmetric, C129_draws, C129_indefinite_refuted, C129_moments, C129_nearest, C129_sizes, C130_base, C130_full_turn, C130_home, C130_home_axes, C130_joints_before, C130_lengths, C130_linked_robot, C130_map, C130_named, C130_names, C130_reach, C130_rigid, C130_sizes, C130_tool_refuted, C130_turn, C134_affine, C134_affine_vectors, C134_message_trip, C134_round_trip, C134_scale_refuted, C134_vectors, C135_rigid, C137_coordinates_partial, C137_in_place_refuted, C137_normalize_refuted, C137_values_partial, C139_closest, C139_densify, C139_length, C139_travel, C141_bad_axis, C141_compose_quaternions, C141_dh, C141_dh_refuted, C141_dh_transform, C141_from_axis_angle, C141_normalize, C141_points, C141_transforms, C142_adjust_hue, C142_rad_diff, C142_rad_diff_refuted, C144_normalize, C144_pose_other, C144_pose_six, C144_pose_unit_refuted, C144_unit_point, C148_start, C148_start_refuted, C158_distance, C160_slope, C160_step, C160_switching, C162_allowed, C162_refused, C162_rigid_bodies, C162_views, C80_acceleration_limit, C81_zero_step_refuted, C83_negative_time_refuted, C86_forward, C87_switching_point, C88_bounds_partial, C88_first_accepted, C88_tail_partial, C88_zero_deviation_refuted, C89_point_refuted, C92_quaternion, C92_third_axis, C97_conjugate, C97_tiny_rotation_refuted, C97_twist_between, C98_rotate.
- Axioms `ClassicalDedekindReals.sig_forall_dec`, `ClassicalDedekindReals.sig_not_dec`, `Classical_Prop.classic`, `FunctionalExtensionality.functional_extensionality_dep` (290 theorems): C100_clamped, C100_isometry_partial, C100_quaternion_partial, C100_rigid_refuted, C101_angles_refuted, C101_euler, C101_euler_quaternion, C101_round_trip, C101_same_transform_partial, C106_angle, C106_coincident, C106_negative_weight_refuted, C106_triangle, C106_unit_weights, C106_weighted, C106_zero_refuted, C110_diagonal_refuted, C110_pyramid_partial, C110_ray_refuted, C119_average_refuted, C120_prismatic_partial, C120_prismatic_refuted, C120_revolute, C120_translation, C121_average_refuted, C121_distance, C121_interpolate, C121_jacobian, C122_average, C122_distance_partial, C122_distance_refuted, C122_interpolate_partial, C122_jacobian, C125_invalid_joint_refuted, C126_affine, C126_errors, C126_history, C126_interpolates, C126_line_refuted, C126_linear, C126_repeated_refuted, C126_similar, C126_unique, C127_divide_partial, C127_divide_refuted, C127_divide_zero, C127_int64_refuted, C127_multiply, C127_scale, C12_dijkstra_shortest_double, C134_float, C134_float_points, C134_float_refuted, C137_short_vector_refuted, C141_angle, C141_angle_ros_refuted, C141_axis_from_quaternion, C141_spherical, C141_spherical_back, C141_spherical_short_refuted, C142_cielab, C142_coolwarm_ends, C142_coolwarm_middle, C142_coolwarm_range, C142_coolwarm_unsaturated, C142_lab, C142_lab_refuted, C142_msh, C142_msh_refuted, C142_rgb_msh_refuted, C144_size_accepted, C144_size_exact, C144_size_near, C144_size_result, C14_astar_sound_complete_double, C152_bad_arguments, C152_link_refuted, C152_nothing_without_yes, C152_small_directories, C154_bytes, C154_constructors, C154_convert, C154_floats, C154_interpolate_between, C154_interpolate_ends, C154_interpolate_nan_refuted, C154_interpolate_near, C154_interpolate_tiny_refuted, C154_multiply, C154_multiply_alpha_refuted, C154_set, C154_set_hex, C154_setters, C155_blank, C155_centred, C155_constructors, C155_count, C155_count_again, C155_count_exact, C155_count_undefined, C155_dynamic, C155_dynamic_blank_refuted, C155_huge_refuted, C155_infinite_refuted, C155_makes, C155_one_more_refuted, C155_region, C155_reinitialize_refuted, C155_rejects, C155_sizes, C155_tiny_refuted, C155_too_small_refuted, C156_blank, C156_cell_size, C156_centre, C156_far_refuted, C156_kind, C156_location, C156_makes, C156_nan_refuted, C156_new, C156_no_location, C156_rejects, C156_whole, C156_write, C156_write_outside_partial, C156_write_outside_refuted, C157_alike, C157_dynamic, C157_exact, C157_labels, C157_layout, C157_list, C157_matrix, C157_number, C157_same, C157_six_digits_refuted, C157_transform, C157_twelve_digits_refuted, C157_vectors, C157_whole, C158_close_rounded, C158_ends, C158_increasing_refuted, C158_ordered, C158_outside_refuted, C158_rounding, C158_special_refuted, C158_vectors_rounded, C160_slope_is_derivative, C163_acceleration_refuted, C163_speed_refuted, C163_two_waypoints, C163_zero_acceleration_refuted, C163_zero_velocity_refuted, C164_add, C164_distance, C164_end_refuted, C164_ends, C164_enforce, C164_interpolate, C164_overflow_refuted, C164_signed, C164_zero_refuted, C165_interval_refuted, C165_joint, C168_divide_error, C168_divide_refuted, C168_divide_zero, C168_pairs, C168_scalar, C168_sizes_differ, C168_sum, C168_sum_whole, C168_vectors, C169_constant, C169_mean_between, C169_mean_error, C169_refused, C169_std_dev, C169_std_zero_refuted, C169_weighted_between, C169_weighted_refuted, C171_close2, C171_close2_nan, C171_close3, C171_close3_nan_refuted, C171_close3_nan_rest, C171_close3_vectors, C171_distance2, C171_distance3, C171_distance_error, C171_equal3, C171_equal3_laws, C171_equal4, C171_square_error, C171_triangle_refuted, C171_zero_refuted, C172_endless_refuted, C172_files, C172_limits, C172_other_lengths, C172_rows, C173_nan, C173_origin, C173_range_refuted, C173_unit, C174_backwards, C174_backwards_refuted, C174_error, C174_grow, C174_lists, C174_same_refuted, C174_step, C175_again, C175_dict, C175_dict_raises, C175_error, C175_float, C175_half_refuted, C175_order, C175_returns, C176_apart, C176_error, C176_order_refuted, C176_sizes, C176_symmetric, C176_zero, C177_assertion, C177_cosine, C177_norm, C177_range, C177_self, C177_self_refuted, C177_sizes, C177_symmetric_refuted, C177_whole_numbers, C177_zero_refuted, C177_zero_vector, C18_comparison_refuted, C18_plan_near_optimal, C18_tolerance_refuted, C21_centre_maps_back_double, C23_double_rounding_refuted, C25_doubles, C25_infinite_distance_refuted, C29_nan_refuted, C31_first_codes_partial, C31_generator, C31_palette, C31_past_table, C31_unique_refuted, C32_doubles, C32_every_threshold, C44_doubles, C47_single_point_refuted, C47_upsample_doubles_partial, C47_whole_path_refuted, C64_hex_round_trip, C64_nearest_byte, C75_path_ends_partial, C75_repeated_waypoint_refuted, C75_short_list_refuted, C76_deviation, C77_derivatives, C78_switching_points, C79_next_switching, C81_backstep_refuted, C81_trajectory_ends_partial, C81_trajectory_steps, C82_after_end_partial, C82_after_end_refuted, C83_query_history, C84_velocity_jump_refuted, C84_velocity_partial, C85_velocity, C88_acceptance, C88_complex_acceptance, C88_outside_refuted, C89_gaussian, C89_integral, C89_truncated, C92_covers, C92_euler, C97_exponential_partial, C99_isometry, C99_matrix, C99_metric, C99_quaternion_partial, C99_quaternion_refuted.
<!-- assumptions end -->

## What is modelled

| source | model | covers |
|---|---|---|
| `serialization.hpp` | SerModel, SerTypes | scalars, strings, vectors, pairs, maps, host and network order, hostile input |
| `serialization_eigen.hpp` | EigenSerModel | vectors, matrices, isometries |
| `base64_helpers.cpp` | Base64Model | Encode, Decode |
| `zlib_helpers.cpp` | ZlibModel | in-memory and file compression around an abstract zlib |
| `graph.hpp` | GraphModel | nodes, edges, linkage check, components, serialization |
| `dijkstras.hpp` | DijkstraModel, AstarModel, WalkModel | Dijkstra, A*, generic A*, loop-erased random walk |
| `simple_astar_planner.hpp` | PlannerModel, PlannerNear | planner loop, path extraction; loss of the plan under the tolerance comparison and rounding |
| `voxel_grid.hpp` | VoxelModel, VoxelGeom, VoxelFloat, VoxelSer | storage, geometry, serialization |
| `dynamic_spatial_hashed_voxel_grid.hpp` | DynGridModel, DynGridFloat | chunks, cells, lookups |
| `simple_hierarchical_clustering.hpp` | HierModel | both linkage kinds |
| `simple_kmeans_clustering.hpp` | KmeansModel | plain and weighted |
| `simple_prm_planner.hpp` | PrmModel | node insertion, growth, queries |
| `simple_rrt_planner.hpp` | RrtModel | RRT, bidirectional RRT, linkage check, tree (de)serialization |
| `simple_dtw.hpp`, `simple_hausdorff_distance.hpp`, `path_utils.hpp` | DtwModel, HausdorffModel, PathModel, PathFloat | distances, shortcutting, resampling |
| `arc_helpers.hpp` | HelpersModel, KnnModel, DistMatrixModel, PrngModel, SelfCollisionModel | clamp, bits, colours, K nearest, distance matrices, generators |
| `arc_helpers.hpp` 936-1151 | GaussModel | Gaussian distribution and density functions, truncated normal sampler (over the reals, erf defined by its integral) |
| `arc_helpers.hpp` 352-378, 450-469, 1207-1262 | RotColorModel | random rotations, colour interpolation |
| `arc_helpers.hpp` 179-199, 1283-1348 | MapHelpModel | RetrieveOrDefault, map helpers, substring check |
| `arc_helpers.hpp` 1350-1374, `maybe.hpp`, `enumerate.h`, `stl_wrappers.hpp`, `hash.hpp` | SmallModel | time strings, Maybe, enumerate, find, hashes |
| `get_neighbours.hpp` | NeighbourModel | 8 and 26 connected neighbours |
| `eigen_helpers.hpp` 125-264 | GeoModel | rotating vectors, twists, exponential of a twist, quaternion products (over the reals) |
| `eigen_helpers.hpp` 270-363, 522-580 | RotModel | interpolation, distances, roll-pitch-yaw (over the reals) |
| `eigen_helpers.hpp` 96-144, 699-741, 817-1051 | EVecModel | projections, hyperplanes, lines, cones, angles, averages of vectors (over the reals) |
| `eigen_helpers.hpp` 365-516, 582-688 | EConvModel | path lengths, distance matrices, closest points, conversions |
| `eigen_helpers.hpp` 744-785, 1056-1180 | ELinModel | averages of quaternions, plane fitting, pseudo inverse, least squares (over the reals; Eigen's decompositions enter as contracts) |
| `math_helpers.hpp` | MathModel | angles, interpolation, averages, signed distances |
| `simple_linked_robot_model.hpp` | LinkModel | joints, robots as trees of links, forward kinematics, distances, interpolation, Jacobian (over the reals, with infinities and NaN where the code looks for them); serialization and printing of joints are not |
| `simple_se2_robot_model.hpp`, `simple_se3_robot_model.hpp`, `AverageEigenIsometry3d` of `eigen_helpers.hpp` | SeModel | all, over the reals; the serializers are those of Eigen values |
| `serialization_ros.hpp`; `SerializeSelf`/`DeserializeSelf` of joints in `simple_linked_robot_model.hpp` | RosSerModel | all; roscpp's `serializeMessage`/`deserializeMessage` by contract |
| `thin_plate_spline.hpp` | TpsModel (TpsMath, TpsSolve) | all, over the reals; Eigen's QR solver by contract (exact arithmetic: a solution when there is one) |
| `vector_math.hpp` | VecMathModel, VecFloatModel | all functions on vectors of signed integers (32 and 64 bits), in binary64 where the code uses double; all functions on vectors and pairs of double, in binary64; pairs of integers and vectors of other types are not modelled |
| `ur_10_fk_fast.hpp`, `iiwa_7_fk_fast.hpp`, `iiwa_14_fk_fast.hpp`, `abb_irb1600_145_fk_fast.hpp` | FkFastModel | all, over the reals |
| `arc_helpers.hpp` (MultivariteGaussianDistribution) | MvnModel | all but the checks for NaN and infinity; over the reals, Eigen's decompositions by contract |
| `log.hpp`, `filesystem.hpp` | LogModel | all but the macros and what is printed; one thread, writes succeed |
| `listener.hpp` | ListenerModel | all; ROS by its queue of one message and single spinner thread |
| `eigen_ros_conversions.hpp`, `eigen_helpers_conversions.hpp`, `geometry_msgs_builders.hpp`, `eigen_transforms.hpp` | ConvModel | all over the reals; of the float versions only the narrowing of points; `Affine3d::rotation()` by contract |
| `pretty_print.hpp` | PrintModel | whole numbers, bool, char, std::string, pairs and all containers; doubles and Eigen types in FloatPrintModel, not `std::forward_list` (does not compile: it has no `size()`) |
| `aligned_eigen_types.hpp` | AlignedModel | all constructors, assignments, operators and readings of `Aligned4Vector3`; not `isApprox`, `data`, strides |
| `math_helpers.hpp` 281-299 (standard deviation) | VecMathModel | over the reals |
| `timing.hpp`, `timing.cpp` | TimingModel, TimingTableModel | Stopwatch, Profiler; the text of the tables with printf's %f as a parameter; names without NUL |
| `first_order_deformation.cpp`, `trajectory_utils.cpp` | DeformModel, TrajectoryModel | search, append |
| `time_optimal_trajectory_parametrization.cpp` | TotpModel, TotpTrajModel | Path and Trajectory |
| `algorithms.py` | PyAlgModel | all functions; lists instead of arbitrary iterables, no aliasing between arguments |
| `path_utils.py` | PyPathModel | all functions, over the real numbers; positions, velocities and times of trajectories |
| `trajectory_planning.py` | PyPlanModel | all functions, over the real numbers |
| `transformation_helper.py` | PyTfModel | all functions, over the real numbers; tf and numpy.linalg as a contract; moving components between types is the identity |
| `color.py` | PyColorModel | all functions but to_color_msg, over the real numbers; numpy.linalg.inv as a contract |
| `filesystem_utils.py` | PyFsModel | all functions but printing; a file system without permissions, other processes and links to links; fuel for the depth and the tries |
| `conversions.py`, `normalize_point_msg.py`, `numpy_conversions.py`, `marker_utils.py` | PyConvModel | all functions; ASCII strings; doubles in parse_file_size, real numbers elsewhere; tf's quaternion_from_euler written out |
| `catches.py`, `conditional_try.py` | PyCatchModel | all functions; functions that are run are trees of work, alarms and nested calls; whole seconds |
| `listener.py` | PyListenModel | the class, as a transition system of the calling thread and the message threads; custom callbacks that return |
| `ros_helpers.py`, `xbox.py`, `ros_init.py` | PyRosModel | all functions but logfatal and the text of Xbox_msg; polls, rospy's and rosgraph's name resolution written out |
| `tf2wrapper.py`, `reliable_tf.py` | PyRtfModel | all functions but transform_to_frame; the buffer by its answers, tf as a contract, one latched message for a process |
| `simple_rrt_planner.hpp` 161-245 | RrtBiasModel | the overloads of Plan with a goal bias and a time limit; draws and bias as rational numbers |
| `ros_helpers.hpp` | ParamModel | all; roscpp's name resolution for names without '~', its conversions as a parameter; time in Spin is not modelled |
| `scripts/remove_directories_with_few_files.py`, `scripts/remove_small_directories.py` | PyScriptModel | main after argparse; printing is left out |
| `arc_helpers.hpp` 60-153, 1267-1281 | ConsoleModel | debugger test, console input, leveled messages, alignment; badbit, signals and the uninitialized termios when the input is not a terminal are not modelled |
| `arc_helpers.hpp` 263-332, 379-388, 425-469 | RgbaModel, RgbaRound | RGBAColor, ConvertColor, Multiply, InterpolateColor with float and double rounding; messages on stderr are left out, products and sums are not contracted |
| `voxel_grid.hpp` 79-203, 221-388, `dynamic_spatial_hashed_voxel_grid.hpp` 387-515, 549-563 | VoxelMakeModel | checks, Initialize and constructors in doubles; transforms are abstract, alignment and messages are left out |
| `dynamic_spatial_hashed_voxel_grid.hpp` 39-361 | ChunkModel | one chunk, its constructors, lookups by index and location, writes, in doubles; the vector's largest size is a parameter |
| `pretty_print.hpp` 21-30, 145-256 | FloatPrintModel | doubles and Eigen types; the printing of a double by the C library, as the C standard defines %g, the C locale, digits correctly rounded to the nearest with ties to even as glibc does; Eigen's IOFormat with the number of blanks before a row as a parameter, and no stream errors |
| `math_helpers.hpp` 41-46, 121-130 | MathMoreModel | sign, pairs; over the reals |
| `math_helpers.hpp` 16-20, 70-89, 132-149 | InterpFloatModel | CloseEnough, Interpolate of numbers and vectors in doubles |
| `ostream_operators.hpp`, `moveit_ostream_operators.hpp`, `shape_msgs_builders.hpp` | StreamModel | vectors of whole numbers, characters, strings and vectors; the contact map in the order of its keys; default stream state |
| `simple_linked_robot_model.hpp` 634-669, `simple_robot_models.hpp` 24-45, 83-219 | LinkViewModel | accessors of links, robots with geometry; shared pointers as addresses in a heap; MeshGeometry is any value |
| `math_helpers.hpp` 52-65, 91-119, 175-233 | RevoluteFloatModel | the functions of revolute angles in doubles; fmod computed exactly on mantissas; M_PI by its bits |
| `arc_exceptions.hpp`, `moveit_pose_type.hpp`, `simple_linked_robot_model.hpp` 216-220, `dict_tools.py` | TextModel | all; Python's round as a parameter, doubles printed as in FloatPrintModel |
| `math_helpers.hpp` 251-299 | AvgFloatModel | the averages and standard deviations again, in binary64 |
| `eigen_std_conversions.hpp`, `roscpp_initializer.cpp` | NodeModel | all; ros::init, the console and the spinner by their effects, ros::init may refuse a name; the binding of pybind11 is not modelled |
| `eigen_helpers.hpp` 33-94, 110-118, 309-324 | EigenFloatModel | Equal3d, Equal4d, CloseEnough, the loop of IsApprox, TransformData, SquaredDistance and Distance of Vector2d and Vector3d, in doubles with rounding (no contraction of products and sums); Eigen's isApprox is a parameter; mat_to_file (26-30) is not modelled |
| `time_optimal_trajectory_parametrization.cpp` 286-303 | PhaseModel | OutputPhasePlaneTrajectory in doubles; the limits of the speed as functions of the position, the files as the texts written to them, `operator<<` as a parameter |
| `normalize_point_msg.py` | UnitFloatModel | all, in doubles with rounding; pow(x, 2.0) of the C library as a parameter with a contract; coordinates that are floats |
| `eigen_helpers.hpp` 365-401 | PathLenFloatModel | CalculateTotalDistance, CalculateIndividualDistances, CalculateCumulativeDistances in doubles with rounding; the order of Eigen 3.3's sum of three squares |
| `dict_tools.py` | PyRoundModel, TextModel | dict_round; for ints and floats with what round of CPython 3 does (PyRoundModel), for other values with round as a parameter (TextModel); bool, Decimal, Fraction and numpy values are not looked at |
| `eigen_helpers.hpp` 326-331 | VecDistModel | SquaredDistance and Distance of VectorXd in doubles with rounding; the order in which Eigen adds is a parameter (any bracketing that uses each square once) |
| `eigen_helpers.hpp` 961-981 | WDotModel | weighted products, norms and cosines of VectorXd in doubles with rounding; the order in which Eigen adds is a parameter (any bracketing that uses each product once); std::acos of 985 is not part of it |

Not modelled: the constants of `text_color.hpp`, the type names of `eigen_typedefs.hpp`, the files of the Python package (`src/arc_utilities/*.py`) without a row above, tests, and performance. Parts of a listed
file that no model comment cites are not modelled either.

## Findings

Defects found while modelling; "T" names the theorem that exhibits it, the rest was read off the source.

Serialization and files
- Deserializers check `position + size` with a sum that can wrap, so hostile 64-bit counts pass the check (C04).
- Base64 decoding indexes its table with a signed `char`; bytes above 127 are out of bounds (C07).
- An Eigen matrix with no entries at the very end of a buffer takes the address one past the end (C56).
- zlib: old slices are read along with a new file of the same name, a failed close is not noticed because `bad()` is tested
  rather than `fail()`, data near 4 GiB that does not compress cannot be read back, `next_in`/`avail_in` are uninitialised at
  `inflateInit` (C73 and its companions).
- `RosMessageSerializationWrapper` copies `num_bytes` from `message_start`, but roscpp counts `num_bytes` from the length field
  four bytes before `message_start`: every call reads four bytes past the array (T C124_wrapper_refuted; the contract of
  roscpp is from its header, which is not in the repository). The reading side adds the same 4, so a message without the
  stray bytes moves the position past the buffer (T C124_count_refuted).
- A joint read back is not checked: limits, value and type can be inconsistent (T C125_invalid_joint_refuted).
- `SerializeDijstrasResult` (dijkstras.hpp 92-110) does not compile when instantiated.

Graphs and search
- `getConnectedComponentsUndirected` mislabels isolated nodes and can stop early (C11).
- `CheckGraphLinkage` ignores weights; deserialization does not check linkage at all (C09, C10).
- In A* `queue_members_map` only ever contains the start, so the duplicate limit never applies (C16).
- The generic A* uses a negative id as "no parent": graphs with negative ids give wrong paths (C61).
- PRM: a wrong enumerator test at 72-78; the reverse edge is stored without a check in that direction (C67); infinite distances
  with the serial neighbour search throw after the node has been added; start equal to goal throws, or gives [goal, goal].
- RRT: the linkage check misses parents past the end, cycles and a root that is not at index 0; `PlanMultiPath` 504-614 does not
  compile; the bidirectional planner uses an undefined macro `unlikely` and swaps the arguments of the bridge test when the
  goal tree is active (C69).
- First order deformation never checks the start cell (C57).

Grids
- Voxel grid: coordinates just below zero truncate into cell 0; far points convert out of range (undefined); an out of bounds
  `GetMutable` returns a reference to the shared out-of-bounds value; the cell count product can overflow;
  `ResetWithNewValue` takes a reference that may point into the grid (C20, C21).
- Dynamic grid: rounding loses writes near cell borders; `SetChunkValue(x, y, z)` sets one cell (C24); the default constructor
  leaves zero sizes.

Clustering and distances
- K nearest neighbours with infinite distances returns wrong entries; the matrix between two sets is allocated with the
  first set's size on both sides (C25, C27).
- Hierarchical clustering with an infinite threshold asserts or reads out of bounds (C34). K-means with more clusters than
  items never returns, may oscillate, averages empty clusters, and pairs weights with the wrong items (C35, C36, C66).
- DTW breaks ties towards a dearer diagonal; reusing the object with one empty sequence gives 0 instead of infinity.
- `ResamplePath` drops a final state at distance 0; `UpsamplePathPartial` returns the whole path for a larger count and fails for a
  single point.

Numbers
- Bit operations on 64-bit words shift an `int`: indices from 32 on are wrong (C28). `ClampValue` passes NaN through. Unique
  colours repeat (C31). Reseeding XorShift1024* keeps the old position (C30). `SpreadValue` with value = low = mid returns high.
- Revolute signed distance has the wrong sign across the cut, range checks across the cut accept angles off the arc, averages
  with all-zero weights assert.
- `ConvertTo` copies eight times too many bytes (C60).
- `TruncatedNormalDistribution`: for a narrow interval in a tail the proposals are drawn between the raw bounds instead of the
  standardized ones, so samples leave the interval (T C88_outside_refuted); a standard deviation of zero returns the mean even
  when the mean is outside (T C88_zero_deviation_refuted). The truncated functions give the whole of an interval of one point
  probability 0 (T C89_point_refuted).
- `get_neighbours.hpp`: the bounds are rounded before they are compared, so neighbours can lie past them (T
  C90_past_bound_refuted); a cell that is off the grid has its own rounded cell as a neighbour (T C90_own_cell_refuted).
- `find` narrows the index to `int`; `enumerate` overflows an `int`; the hash of a complex number or vector collides for mirrored
  values (C94). The milliseconds of `GetCurrentTimeAsStringWithMilliseconds` are not padded, so its strings do not sort by time (C95).
- `ExpTwist` drops a rotation slower than 1e-100 but keeps the translation beside it (T C97_tiny_rotation_refuted).
- The distance of quaternions is cut to 0 near equality, so two steps of distance 0 can add up to a positive one
  (T C99_quaternion_refuted); Eigen's slerp switches to a linear blend there, whose result is not a unit quaternion, so the
  interpolated "isometry" is not rigid (T C100_rigid_refuted). The deviation is at most epsilon/2 in the squared norm.
- `TransformToRPY` does not return the angles a transform was made from: Eigen 3.3 puts the first angle in [0, pi]
  (T C101_angles_refuted).
- `VectorProjectionToPlane` does not notice that a given vector is zero and returns its input (T C102_plane_zero_refuted).
- `WeightedAngleBetweenVectors` without assertions answers pi for zero vectors and for negative weights: the clamp turns NaN into -1
  (T C106_zero_refuted, C106_negative_weight_refuted). `AngleDefinedByPoints` answers pi/2 for coincident points.
- `VectorEigenVectorToEigenVectorX` with vectors of dynamic size takes segments of size -1 (T C108_dynamic_refuted).
- `ConvertConeToPyramid`: the helper vector "guaranteed to be non-zero" is zero along the diagonal; there, and for angle 0, all normals
  are zero and the pyramid excludes nothing (T C110_diagonal_refuted, C110_ray_refuted).
- `UnderdeterminedSolver` asserts fewer rows than columns, so it refuses a square system (T C111_square_refuted).
- `AverageEigenQuaterniond` multiplies each column by its weight and then squares the matrix: weights act squared, unlike the cited
  method and unlike `AverageEigenVector` beside it (T C112_weights_refuted).
- `Pinv` cuts singular values off at an absolute threshold; with `SuggestedRcond` (0.001) a matrix with entries below it has pseudo
  inverse zero although it is invertible (T C114_absolute_refuted).

Timing
- `Stopwatch` with RESET always returns 0. `Profiler`: reset restarts timers that were never started and ignores recorded
  doubles, `getData` inserts names, summaries of empty lists are undefined, a name of both kinds is written twice (C71, C72).

Trajectories
- `append` accepts a prefix of the joint names and reads past the end for fewer names; appending to itself is undefined; a
  failing append leaves part of it behind (C58).
- Time optimal path: a repeated waypoint gives NaN, fewer than two waypoints dereference `end()`, exact reversals divide by
  cos(pi/2) (C75). `Path` has a copy constructor but no copy assignment, so assignment deletes its segments twice.
- Time optimal trajectory: the joined step can lie before its predecessor in position and time (C81_backstep_refuted); a time
  step of 0 never returns (C81_zero_step_refuted); after the duration the last interval is extrapolated (C82); NaN poisons the
  cached segment and negative times decrement `begin()` (C83); corners with `max_deviation` 0 are taken at full speed (C84). Copying a
  queried `Trajectory` copies an iterator into the source's list. When the acceleration search reaches the end of the
  path the velocity search still uses its old position.

Robot models
- `SimpleJointModel` with limits (inf, inf) or (-inf, -inf) holds an infinite value, which `SetValue` then refuses (C115).
- `SanityCheckRobotModel` indexes its array with the joints' link indices unchecked (C116), and accepts trees whose joints are not
  listed parent first, for which `UpdateTransforms` uses transforms nobody has written (C117_order_refuted).
- `UpdateBaseTransform` leaves `inverse_base_transform_` as it was, so `GetInverseBaseTransform` is stale (C117_inverse_refuted).
- `SetPosition` that throws leaves the position shorter than the number of joints and the links out of step (C118).
- `AverageContinuousRevolute` is a plain mean: two angles on either side of pi average to 0 (C119_average_refuted).
- The Jacobian column of a prismatic joint has the position of the link added to it (C120_prismatic_refuted).
- The planar robot averages angles as plain numbers too (C121_average_refuted); the free robot's distance is zero between different rotations
  within the cutoff of `Distance(Quaterniond)`, so it breaks the triangle inequality, by at most twice the cutoff (C122).
- `ThinPlateSpline` accepts a template point given twice with different targets and misses one of them silently
  (T C126_repeated_refuted); template points on one line leave the affine part undetermined, so a translation of the template
  does not translate other points (T C126_line_refuted).
- `vector_math.hpp` divides a vector by an integer by multiplying with its rounded reciprocal: 49 / 49 gives 0 (T C127_divide_refuted);
  vectors of int64_t lose the last digits above 2^53 (T C127_int64_refuted). The two-vector `Add` returns `std::vector<double>` and so does not compile
  for any other element type.
- `MultivariteGaussianDistribution` accepts an indefinite covariance silently: a variance of -1 gives the mean every time (T C129_indefinite_refuted);
  of an asymmetric matrix it reads the lower triangle only (T C129_asymmetric).
- The ABB tool frame of `abb_irb1600_145_fk_fast.hpp` is not exactly a rotation, its quaternion being rounded (T C130_tool_refuted).
- `Log`: the first log on a file writes at a position of its own while copies append, so writing to the first after a copy has written
  overwrites the copy's messages (T C131_copy_refuted). A file name without a directory is never accepted, since `CreateDirectory("")` throws
  (T C131_bare_name). A copy that cannot open the file drops every message silently (T C131_silent).
- `Listener::waitForNew` may return a message published before the call, one that was in the queue or in the callback (T C133_stale_refuted);
  it makes `get` forget the last message (T C133_forgets_refuted) and can take the message from another waiting thread (T C133_two_refuted).
- The conversions from messages take any quaternion: one that is not a unit gives an `Isometry3d` that is not rigid (T C134_unnormalised_refuted);
  conversions of `Affine3d` drop the scale (T C134_scale_refuted).
- `PrettyPrint` of an empty container prints nothing, not even the brackets, so `[[]]` looks like an empty vector (C136_empty_refuted); strings are
  not quoted and `uint8_t` prints as a character (C136_strings_refuted, C136_bytes_refuted); the `std::forward_list` overload calls `size()`, which
  does not exist.
- The comparison of the A* planner is not an ordering (C18_comparison_refuted): priorities 1, 1 + 1.4e-10 and 1 + 0.7e-10 with heuristic
  values 2, 0 and 1 each come before the next around a circle.  `std::priority_queue` requires a strict weak ordering.
- `Aligned4Vector3`: `+=`, `-=`, `*=`, `/=` and `normalize()` change the hidden fourth entry, so that the next `dot`, `sum`, `norm` or
  `normalize` fails an assertion, or gives a wrong number in a release build (C137_in_place_refuted, C137_normalize_refuted).  In doubles a
  freshly made vector (1e-9, 0, 0) has length 0 (C137_short_vector_refuted).
- `algorithms.py`: `zip_repeat_shorter` of a single list raises TypeError (C138_zip_refuted); `nested_dict_update` that fails because the base
  has a plain value where the update has a mapping leaves the base half changed (C138_nested_update_atomic_refuted).
- `path_utils.py`: `reverse_trajectory` does not negate the velocities, so the result does not move as its points say
  (C139_reverse_velocities_refuted); `reverse_trajectory` of no points, and `closest_point` and `travel_along` of an
  empty path, raise IndexError (C139_reverse_empty, C139_closest_empty).  `closest_point` takes segments shorter than 10 epsilon for points,
  so its result is closest up to that length (C139_closest).
- `transformation_helper.py`: `AngleBetweenQuaternionsRos` multiplies z by w, and finds half a turn between the identity and itself
  (C141_angle_ros_refuted); `InvertMatrix` says `np.np` and always raises (C141_invert_matrix_refuted); `SubtractPoints(p1, p2)` is p2 - p1
  (C141_subtract_refuted); `BuildMatrixFromDH` uses alpha in place of a, which it ignores (C141_dh_refuted); `vector3_to_spherical` of a vector of at most 1e-6
  forgets the direction (C141_spherical_short_refuted); both angle functions report 0 for rotations up to about 0.028 rad apart (C141_angle).
- `color.py`: `convert_lab_to_xyz` does not multiply by the reference white, so colours do not come back (C142_lab_refuted); `convert_lab_to_msh` takes
  atan(b / a), so colours with negative a come back with a and b negated, and with a = 0, such as black, it raises (C142_msh_refuted, C142_rgb_msh_refuted);
  the last quarter of `interpolate_hot_to_cold` has green 4, and `map_color` is yellow there and never red (C142_hot_to_cold_refuted); `rad_diff` is negative for
  angles more than a full turn apart (C142_rad_diff_refuted).
- `filesystem_utils.py`: `rm_tree` goes through a link to a directory, deletes what is in that directory wherever it is, and then raises (C143_rm_tree_link_refuted);
  a link to a file of the same directory listed earlier makes it raise with the rest left (C143_rm_tree_file_link_refuted); `ask_to_remove_directories` of a
  generator deletes nothing (C143_ask_generator_refuted); `mkdir_and_ask` says True for a file (C143_mkdir_file_refuted); `no_overwrite_path` gives the path of a
  broken link (C143_no_overwrite_link_refuted), and for a hidden file a name without the old one (C143_version_hidden_refuted).
- `conversions.py`: `normalize_quaternion` of a list, which its signature allows, always raises AttributeError (C144_normalize_list_refuted); `convert_to_pose_msg` does not
  check the quaternion of a list of seven numbers (C144_pose_unit_refuted) and leaves the frame empty (C144_pose_other).
- `catches.py`: a nested `catch_timeout` cancels the timeout around it (C145_nested_refuted) and that of a caller's own alarm, whose handler is not put back either
  (C145_caller_alarm_refuted); a TimeoutError raised by the function is taken for the timeout (C145_own_timeout_refuted). After a timeout a generator is exhausted: `skip_on_timeout`
  ends there instead of skipping one item (C145_skip_refuted), and `retry_on_timeout` yields the first items again and again (C145_retry_refuted).
- `listener.py`: the subscriber is made before the custom callback is stored in the object, so that a message in between is not given to the callback and its thread fails with
  AttributeError (C146_init_refuted); `get` inside of the custom callback blocks for ever, since the lock is not reentrant (C146_deadlock_refuted); `get(True)` returns None when ROS
  shuts down (C146_shutdown_refuted); the callback gets the stored object itself, not a copy (C146_changed_refuted).
- `xbox.py`: `get_3d_delta` says that it uses the directional pad and the left stick, but uses the left and the right stick (C147_delta_doc_refuted), and reads its three values from
  up to three messages (C147_delta_torn_refuted); `wait_for_button` raises AttributeError if ROS shuts down before the first message (C147_wait_button_refuted).
- `ros_helpers.py`: `get_connected_publisher` compares with `==`, so that it fails if a subscriber connects after the count (C147_connected_refuted); it counts the subscribers of the
  wrong topic for private and for remapped names (C147_private_refuted, C147_remapped_refuted).
- `ros_init.py`: the C++ node is not shut down if `rospy.init_node` raises (C147_with_ros_refuted).
- `tf2wrapper.py`: `static_tfs` grows with every send of the same transform, and with ReliableTF by ten entries a second (C148_growth_refuted); two wrappers in a process replace each
  other's latched message (C148_two_wrappers_refuted); the orientation of a sent pose is kept by reference (C148_changed_refuted); not every tf2 exception gives None (C148_get_refuted).
- `reliable_tf.py`: `start_send_transform` waits for ever with a quaternion not of length 1 (C148_start_refuted); if `get_transform` gives None it raises TypeError and leaves the thread
  sending (C148_start_none_refuted); one child with two parents is sent twice (C148_two_parents_refuted).
- `simple_rrt_planner.hpp`: a goal bias of 0 still aims at the goal when the draw is exactly 0, since draws are compared with `>` (C149_bias_zero_refuted); with a bias that is not a
  number no state is ever sampled (C149_bias_nan_refuted).
- `ros_helpers.hpp`: a parameter of another type than asked for is reported as missing and replaced by the default (C150_wrong_type_refuted); the messages name a wrong parameter for global
  names and in the root namespace (C150_message_refuted, C150_root_message_refuted); GetVector's text lacks a blank (C150_line_refuted). Read off the source: `GetParam` and
  `GetParamDebugLog` do not compile for a default that is a variable not declared const (T is then a reference type).
- `timing.cpp`: `printAllSummary` lists names of `recordDouble` without time and calls (C151_print_all_refuted); a name of both kinds is listed twice and loses its values
  (C151_both_refuted); the mean of a name that was reset is not a number (C151_mean_refuted); no names, or a file that cannot be opened, are undefined (C151_empty_refuted).
- `scripts/remove_*.py`: a root given twice or inside a small directory of another root makes the script fail after it has deleted some of the directories (C152_root_twice_refuted,
  C152_nested_roots_refuted); a link in a root makes it delete the files of a directory elsewhere (C152_link_refuted); the help speaks of subfolders, but they do not count
  (C152_subfolders_refuted). Read off the source: `tts_node.py` passes the text of a message to espeak without `--`, so that a text beginning with `-` is an option;
  `rviz_marker_repeater_node.py` imports a module that is not in the package.
- `arc_helpers.hpp`: `IsDebuggerPresent` never closes the status file, so that after enough calls nothing can be opened and the answer is always no (C153_leak_refuted); a program called
  `TracerPid:1` counts as traced (C153_name_refuted); `GetChar` returns -1 for a waiting key after a failed read (C153_get_char_failed_refuted) and leaves the terminal changed if
  `std::cin` throws (C153_get_char_exception_refuted); `InteractiveWaitToContinue` takes one character, not a line, and does not wait at the end of the input (C153_wait_line_refuted,
  C153_wait_end_refuted); `RequireAlignment` does nothing without assertions (C153_require_release_refuted).
- `arc_helpers.hpp`: `InterpolateColor` with a ratio that is not a number is transparent black (C154_interpolate_nan_refuted), and the smallest floats mixed with themselves become 0
  (C154_interpolate_tiny_refuted); `Multiply` passes on an alpha outside of [0, 1] (C154_multiply_alpha_refuted). Read off the source: `InterpolateColor` passes a double to
  `TrimColorValue(const float)`, which the flags of the package (`-Wconversion -Werror`) make an error as soon as the template is used in it.
- `voxel_grid.hpp`: three cells of 0.1 have a size from which four cells are made (C155_one_more_refuted); cells of 0.09 for a size of 0.9 do not reach it (C155_too_small_refuted); sizes above 0
  are rejected if their quotient is rounded to 0 (C155_tiny_refuted), and undefined behaviour if it does not fit (C155_huge_refuted); cell sizes are accepted whose inverse or multiple is
  infinite (C155_infinite_refuted); an Initialize that fails for lack of room leaves a grid without cells that says it is initialized (C155_reinitialize_refuted).
- `dynamic_spatial_hashed_voxel_grid.hpp` 492: the default constructor sets `initialized_` to true (voxel_grid.hpp 332 sets it to false), so that the assertions pass and looking up any point divides
  by a chunk size of 0 and is undefined (C155_dynamic_blank_refuted).
- `dynamic_spatial_hashed_voxel_grid.hpp` 39-361: a failed GetMutableByIndex or GetCellMutable hands out a reference to `initial_value_` that can be written to, and what is written there is what
  all later failed lookups return (C156_write_outside_refuted); far from the origin the location of an index is in another cell (C156_far_refuted); a location that is NaN is cast to an integer,
  which is undefined (C156_nan_refuted); in a release build a chunk made of cells gives out its first cell when it is asked for the value of the whole chunk (C156_kind).
- `simple_rrt_planner.hpp` 820-834 (read off the source): one overload of PlanMultiPath uses `RNG` which its template header does not declare, so the header does not compile; no file includes it.
- `pretty_print.hpp` 21-30 and 145-256: doubles by themselves and in standard containers are printed with 6 significant digits (1234567.0 as 1.23457e+06), Eigen types with 12; neither is enough to tell
  different doubles apart (C157_six_digits_refuted, C157_twelve_digits_refuted).  The coefficients of VectorXd and MatrixXd are padded to the same width, those of Vector2d to Vector4d are not (C157_matrix_case).
- `math_helpers.hpp` 83-89: with rounding, Interpolate between two equal numbers can give another one (0.1, 0.1 with ratio 0.2: C158_outside_refuted), a larger ratio can give a smaller value
  (C158_increasing_refuted), a ratio that is NaN is not caught, and CloseEnough(infinity, infinity) is false (C158_special_refuted).
- `time_optimal_trajectory_parametrization.cpp` 389-399, 406: when the limit falls exactly as fast as the braking at the first position looked at, the search stops there and bisects the
  thousandth before it, so that the point returned can lie before the position asked about (the second case of C159_found); over the doubles this needs an exact tie.
- `time_optimal_trajectory_parametrization.cpp` 347-383: of several switching points at one position only the first is looked at (C160_switching, `counted`); one that is a jump is passed
  over when a turning point of a joint is listed before it at the same position.
- `ostream_operators.hpp` 7-18: the text of a vector of vectors of vectors, of characters in vectors, or of strings with newlines does not tell which value it was (C161_deep_refuted, C161_characters_refuted, C161_strings_refuted).
- `moveit_ostream_operators.hpp` 14-25: a collision whose first pair of bodies has an empty list of contacts is printed as nothing (C161_silent_refuted).
- `simple_robot_models.hpp` 29, 176-180: Clone copies the shared pointer of a PointSphereGeometry, so points written through a clone change the robot it was made from (C162_clone_refuted).
- `time_optimal_trajectory_parametrization.cpp` 428-496, 498-543: with coarse time steps a joint exceeds its speed limit, because the last step of IntegrateForward is past the end and is not checked against the limits (C163_speed_refuted: 1/2 where 1/4 is allowed); C163_two_waypoints says how coarse is too coarse.
- `time_optimal_trajectory_parametrization.cpp` 533-536: the intersection may lie up to 1e-6 outside the interval of the step, which with a time step of 1/400 makes a joint slow down at 1.32 where 1 is allowed (C163_acceleration_refuted).
- `time_optimal_trajectory_parametrization.cpp` 422-496: an acceleration limit of zero on a joint that moves makes the constructor run, and the list of steps grow, for ever (C163_zero_acceleration_refuted); a speed limit of zero gives a trajectory that moves at speed 1/4 between steps whose times are not finite (C163_zero_velocity_refuted).
- `math_helpers.hpp` 175-195: with doubles ContinuousRevoluteDistance is 0 for two different angles, M_PI and the double after -M_PI (C164_zero_refuted).
- `math_helpers.hpp` 91-119: InterpolateContinuousRevolute with ratio 1 need not give the second angle, it may be off in the last bit (C164_end_refuted); it is within 2^-49 (C164_interpolate).
- `math_helpers.hpp` 197-199: AddContinuousRevoluteValues of two finite doubles whose sum overflows is NaN (C164_overflow_refuted).
- `arc_exceptions.hpp` 14: with a colon in the name of a file two different messages give the same text (C165_colon_refuted).
- `simple_linked_robot_model.hpp` 218: the limits are printed as a half-open interval, `1[0,1)`, though the upper limit is within the limits (C165_interval_refuted).
- `dynamic_spatial_hashed_voxel_grid.hpp`, default constructor of a chunk: without assertions a lookup in the cell at (0,0,0) of a default-constructed chunk divides 0 by 0 sizes: undefined; with assertions every access fails (C156_blank).
- `Divide(vector, scalar)` multiplies by the rounded 1.0 / scalar: {49.0} / 49.0 gives 0.9999999999999999 and {5e-324} / 5e-324 gives infinity, while the division of a pair, or of two vectors, gives 1 (T: C168_divide_refuted).
- `AverageStdVectorDouble` with rounding can leave the range of the values when a later weight is larger: -2^53 and 3 with weights 1 and 2^60 give 4 (T: C169_weighted_refuted); `ComputeStdDevStdVectorDouble` of 0 and 2^-540 is 0 (T: C169_std_zero_refuted).
- `ConvertTo<std::vector<double>>` adds the size in bytes to a pointer to double, so every non-empty vector is read far beyond its end (T: C170_convert_refuted).
- `init_node` computes the options for ros::init and does not pass them: `anonymous`, `disable_rosout` and `disable_signals`, which `ros_init.py` sets, have no effect (T: C170_options_refuted).
- `CloseEnough` of Vector3d tests with `>` and so passes over coordinates with a NaN, and a NaN as the threshold makes everything close; `CloseEnough` of Vector2d does not (T: C171_close3_nan_refuted, C171_close2_nan).
- `Distance` in doubles is 0 for points 2^-540 apart, and the triangle inequality can fail by a rounding (T: C171_zero_refuted, C171_triangle_refuted).
- `OutputPhasePlaneTrajectory` loops forever for a path of a positive length of at most 2^-1060, as the step is rounded to 0, and writes 100000 or 100001 rows for other lengths (T: C172_endless_refuted, C172_rows). An infinite limit of the velocity is written as it is, while that of the acceleration becomes 10 (T: C172_limits).
- `make_unit_point` squares without scaling: (1.5 * 2^-538, 0, 0) gives a point of length 0.75, (2^-540, 0, 0) an AssertionError, (1.5 * 2^511, 1.5 * 2^511, 0) the origin, (2^512, 0, 0) an OverflowError, and an infinite coordinate a NaN (T: C173_range_refuted).
- By reading only: `rviz_marker_repeater_node.py` imports `arc_utilities.rviz_marker_repeater`, which is not in the repository, so the script cannot start; `tts_node.py` passes the text of a message to espeak as an argument, where a text that begins with `-` is an option.
- Different points can have the same cumulative distance: (0, 0), (1, 0), (1, 2^-60) gives 0, 1, 1 (T: C174_same_refuted); the total of a reversed path can differ in the last bit (T: C174_backwards_refuted).
- dict_round rounds the exact value of a double: 2.675 with 2 places gives 2.67, since the double is below 2.675 (T: C175_half_refuted); it raises OverflowError for the largest double with -308 places (Example a_dict in PyRoundProps).
- SquaredDistance of VectorXd depends on the order in which Eigen adds: (1, 2^-27, 2^-27, 2^-27, 2^-27) and the origin give 1 or the next double (T: C176_order_refuted).
- WeightedCosineAngleBetweenVectors of the vector (1) with itself and the weight 2 is 0.9999999999999998, not 1 (T: C177_self_refuted).
- WeightedCosineAngleBetweenVectors may give different results when the vectors are exchanged: (-5, 9) and (-7, -1) with the weights 0.1 and 0.3 (T: C177_symmetric_refuted).
- Without assertions a zero vector has the cosine -1 with every vector of finite weighted norm: a division 0/0 is clamped to -1 (T: C177_zero_vector, C177_zero_refuted).

## Plan per property

- **C01 Serialization round-trips at any offset** - Codecs over byte lists; a codec law predicate (decode at offset of prefix++encode++suffix) closed under string/vector/pair/map; induction on lists.
- **C02 Serialization byte accounting** - Same codec law carries the byte counts; append-only by equation buffer' = buffer ++ bytes.
- **C03 Network-order serialization** - Big-endian scalar codec proved equal for both host orders; container code is shared with C01.
- **C04 Deserialization of hostile bytes stays in bounds** - Deserializers return an outcome type with UB/assert/throw distinguished; assertion-on and NDEBUG builds are a parameter; proof of no UB where true, witness where false (64-bit wrap).
- **C05 Base64 decode inverts encode** - Encoder/decoder over byte lists in groups of 3/4; strong induction.
- **C06 Base64 output is well formed RFC 4648** - Same model; independent bit-level specification of regrouping.
- **C07 Base64 decode is memory safe for every input string** - UB for a negative table index is an explicit outcome; exact condition theorem plus refutation.
- **C08 Graph linkage is an invariant** - Graph as list of nodes, op list folded; invariant by induction.
- **C09 Linkage check decides linkage** - Boolean checker vs declarative linkage, iff.
- **C10 Graph serialization round-trips** - Codec law for edges, nodes, graph from C01 combinators.
- **C11 Connected components labelling** - Model DFS and outer loop; refutation by witness; positive partial result.
- **C12 Dijkstra computes shortest distances** - Abstract cost structure (ordered, monotone, inflationary add; no associativity); queue pop is any minimal element; invariant proof; instances Z/nat with infinity and IEEE binary64 (Flocq).
- **C13 Dijkstra back-pointers reconstruct shortest paths** - Same invariant: back-pointer chain costs equal distances.
- **C14 A* returns a real path of the reported cost** - Lazy A* loop with nondeterministic pop; invariants on back-pointers.
- **C15 A* is optimal with an admissible heuristic** - Same model; frontier invariant along an optimal path.
- **C16 A* duplicate limiting never changes the answer** - Both flag settings in the model; cost equality as corollary of optimality / simulation.
- **C17 Generic A* planner soundness and completeness** - Planner loop with arbitrary pop choice; invariant on explored map.
- **C18 Generic A* planner optimality** - Consistent heuristic invariant (PlannerOpt). For the comparison as written and rounded doubles, PlannerNear carries an invariant with a loss per step: explored states are never reopened, so each step of a route may add the slack of a pop and the rounding of three sums.
- **C19 Random walk is loop free and connected** - Loop-erased walk as fold over draws; invariant NoDup + edges.
- **C20 Voxel grid behaves as a total map on its cells** - Concrete array with strides refined to a function from indices; histories by induction.
- **C21 Voxel grid index and location agree** - Real/integer model of truncation; refutation for negative slab; positive within the volume.
- **C22 Voxel grid serialization round-trips** - Codec composition.
- **C23 Dynamic spatial hashed grid behaves as a map on space** - Chunk map refined to point map; induction over op histories.
- **C24 SetChunkValue by coordinates sets the whole chunk** - Overload modelled as written; refuted by witness.
- **C25 K nearest neighbours, serial and parallel** - Serial and per-thread model with an arbitrary assignment of indices to threads.
- **C26 Distance matrix of one data set** - Set-of-writes model; schedule = permutation of writes.
- **C27 Distance matrix between two data sets** - Modelled as written (size data1 x data1); refuted.
- **C28 Bit get after set** - N bitwise model with wrap at the type width; refuted for 64 bit, proved up to 32.
- **C29 Clamping** - Generic total order.
- **C30 Pseudo-random generators are reproducible** - Word arithmetic modulo 2^64; state machines; refutation for XorShift1024* reseed.
- **C31 Unique colours are unique** - Table model; refuted.
- **C32 Hierarchical clustering yields a partition** - Merge loop with invariant: permutation of the items.
- **C33 Complete-link clusters respect the threshold, and merging is maximal** - Invariant on clusters plus stopping condition.
- **C34 Clustering terminates for every threshold** - Outcome model; refuted at infinity, proved for finite distances/thresholds.
- **C35 K-means output labels are nearest centres** - Loop model with arbitrary user functions.
- **C36 K-means always terminates on valid input** - Refuted when clusters outnumber data; partial.
- **C37 PRM node insertion keeps the roadmap consistent** - Uses graph model and KNN spec.
- **C38 PRM edge update** - Schedule = permutation of edge writes.
- **C39 PRM queries connect start and goal through the roadmap** - Composition of Dijkstra/A* results with connection edges.
- **C40 RRT tree linkage check is sound** - Checker model; refuted by cyclic tree, partial for the forest it builds.
- **C41 RRT path extraction** - Induction on parent chain with decreasing index.
- **C42 DTW cost is the optimal warping cost** - Matrix model; refuted by tie witness; proved as upper bound and exact without ties.
- **C43 DTW evaluator reuse** - Evaluator state machine; refuted for empty sequences, proved for non-empty.
- **C44 Hausdorff distance** - Fold with thread assignment; order spec.
- **C45 Shortcut smoothing preserves path validity** - Fold over random draws; subsequence invariants.
- **C46 Resampling keeps waypoints and bounds the spacing** - Real-number model of spacing; integer casts as outcome.
- **C47 Upsampling returns the requested number of points, split evenly** - Greedy allocation optimality; refutation for returned portion.
- **C48 Revolute angle wrapping** - Real-number model, arbitrary constant p > 0 in place of M_PI.
- **C49 Revolute signed distance points from start to end** - Refuted on wrap-around; magnitude proved.
- **C50 Revolute interpolation follows the short arc** - Real model.
- **C51 Revolute range membership** - Refuted; partial.
- **C52 Weighted average** - Real model over lists.
- **C53 Profiler histories** - State machine over op histories.
- **C54 Stopwatch reset returns the elapsed time** - Refuted; READ proved.
- **C55 Compressed file round-trip** - File system as map; compress/decompress as inverse functions; refuted for stale files, proved on clean paths.
- **C56 Eigen matrix serialization** - Codec law with row/column headers.
- **C57 First order deformation search** - Best-first search with arbitrary pop; invariant + completeness.
- **C58 Trajectory append** - List model; std::equal with short second range is UB; refuted/partial.
- **C59 Self-collision map** - Matrix fold.
- **C60 Eigen to std vector conversion** - Pointer range over-read is UB: refuted for non-empty vectors.
- **C61 Generic A* search over callbacks** - Shares the loop invariant of C14; proved for non-negative ids, refuted for negative ids (back-pointer sentinel).
- **C64 Colour channel hex round trip** - Finite domain covered by a proof by cases.
- **C65 SpreadValue leaves no value between the thresholds** - Order laws on an abstract comparison, instantiated for Z and binary64.
- **C62 SplitMix64 draws every word once per period** - Mixing function injective (xor-shifts and odd multipliers), odd increment, pigeonhole.
- **C63 Xorshift generators never reach the all-zero state** - Transition injective and fixes zero; two consecutive SplitMix64 outputs differ.
- **C66 Weighted k-means uses each item's own weight** - own weights without preliminary clustering; preliminary clustering refuted by a run whose labels differ
- **C67 PRM stores a directed edge only if it was checked in that direction** - the edges of AddNodeToRoadmap (PrmModel) with their check and weight
- **C68 RRT planner returns goal-reaching paths of extensions** - the loop over a list of rounds (RrtModel.plan_multi_path), each carrying the answers of the user functions
- **C69 Bidirectional RRT joins start and goal through an accepted bridge** - RrtModel.bi_plan_multi_path, rounds as for C68 plus the draws
- **C70 RRT planner state round-trip** - round_trips of SerSpec for ser_state/de_state
- **C71 Profiler summaries** - TimingModel print_single, over every history; undefined when the name has an empty list of values (after reset or getData).
- **C72 Profiler dump** - TimingModel write_all; a name used for both kinds is listed twice and its lines written twice; no names at all dereferences the end iterator.
- **C73 Compression round-trip in memory** - ZlibModel: the two loops around any deflate/inflate that meet zlib's documented contract.
- **C74 Decoding accepts the base64 variants** - decode_variants: the decoder depends on characters only through digit value and padding test; unpadded tails handled by list_ind3.
- **C75 Path through waypoints: the ends** - TotpModel path_make; proved when consecutive waypoints are more than 2e-6 apart and, with a positive deviation, no leg turns exactly back; refuted for a repeated waypoint (a segment of length zero gives NaN) and for fewer than two waypoints (end iterator dereferenced).
- **C76 Path through waypoints: deviation** - so_near/so_pass by induction over the waypoints; the arc's distance to its corner from TotpArc.
- **C77 Path derivatives and continuity** - seg_derive on each kind of segment, located/left_neighbour for the joints, path_segments_smooth for the directions at the blends.
- **C78 Switching points of a path** - characterization of the list by the two loops (place_switch), atan2 over the reals (arc_angle_unique).
- **C79 Next switching point** - induction over the ordered list.
- **C80 Joint limits as limits on the path** - TotpLimitProps: the fold of minima as a conjunction of bounds; for the pairs the joint with the largest lower bound (Helly in one dimension).
- **C81 Trajectory: start, end and steps** - TotpTrajModel plan (forward and backward integration with the list of steps), TotpTraj plan_ends; that the times increase is refuted by a path of length 1 - 1e-6 (the intersection tolerance lets the joined step lie before its predecessor), and a time step of 0 is proved not to terminate.
- **C82 Trajectory: after the end** - refuted: the last interval is extrapolated, so the robot turns back; C82_after_end_partial says exactly where it is then.
- **C83 Trajectory queries do not depend on earlier queries** - cache invariant cache_ok kept by get_segment; refuted for NaN (the cache is poisoned) and negative times (the iterator before begin is used).
- **C84 Joint velocities do not jump** - refuted for max_deviation 0: the corner of a square is taken at full speed; TotpVelProps proves it with blended corners, up to one millionth of the speed (the tolerance with which the tangents of neighbouring segments agree), for steps that stay on the path and do not go back.
- **C85 GetVelocity is the derivative of GetPosition** - chain rule with C77 on each interval; the cached segment by C83.
- **C86 Forward integration respects the limits** - invariant of forward_loop (the newest step is within the limits), bisect_spec, and C80 to read the limits.
- **C87 Next switching point of the trajectory** - next_acc_spec by induction over the switching points, vel_switch_spec by induction over the rounds.
- **C88 Truncated normal samples stay within the bounds** - draws as lists with the contracts of the standard distributions; a case split as in the constructor; the uniform case refuted because its proposals come from the bounds before standardization.
- **C89 Gaussian distribution and density functions agree** - erf as an integral (Coquelicot); the Gaussian integral by differentiating under the integral sign.
- **C90 Grid neighbours** - cells as integer indices, the offsets as a list; refuted when the bounds or the configuration are off the grid.
- **C91 Map helpers** - std::map as a list sorted by a strict weak order; induction.
- **C92 Random rotations** - trigonometric identities over the reals; an angle for every point of the circle.
- **C93 Colour interpolation** - piecewise linear functions of the fraction; lra.
- **C94 Small containers and hashes** - induction; arithmetic modulo 2^32 and 2^64; refuted for indices that do not fit an int and for mirrored complex numbers.
- **C95 Time strings sort by time** - decimal digits of fixed width and lexicographic order; refuted for the variant with milliseconds.
- **C96 Twists and their matrices** - records of reals; ring on the entries, rigidity as orthogonality with determinant 1.
- **C97 The exponential of a twist** - Rodrigues' formula as I + sin K + (1-cos) K^2 with K^3 = -K; derivatives with Coquelicot; refuted for rotations below 1e-100.
- **C98 Rotating vectors by quaternions** - the closed form of q v q^-1; ring and field.
- **C99 Distances between rotations** - matrix to quaternion and back proved for every rotation; Gram inequality in four dimensions for the triangle; refuted for quaternions because of the cutoff near 1.
- **C100 Interpolation of poses** - dot products of blended quaternions and the angle sum formulas; refuted for nearly equal rotations, whose blend is not a unit quaternion.
- **C101 Roll, pitch and yaw** - products of axis rotations; atan2 by polar coordinates; refuted that the same angles come back.
- **C102 Projections of vectors** - dot product algebra; the cross product as the normal; refuted for a zero vector, which is not refused.
- **C103 Hyperplanes** - dot product algebra and Cauchy-Schwarz.
- **C104 Distance to a line** - Pythagoras for the two parts.
- **C105 Clamping norms** - norm of a scaled vector.
- **C106 Angles between vectors** - cosine and sine of each angle by dot products and the Gram determinant; addition formulas; refuted for zero vectors and negative weights (the clamp turns NaN into a half turn).
- **C107 Averages of vectors** - each linear functional reduces to the scalar average of C52; refuted for weights all zero.
- **C108 Conversions of vectors** - lists; induction on the number of segments; refuted for vectors of dynamic size, whose template argument -1 is used as the segment size.
- **C109 Path lengths, distance matrices and closest points** - loop invariants of the array writes; each cell is written with one value only; triangle inequality.
- **C110 Pyramid inside a cone** - orthonormal frame of axis and two perpendicular directions; refuted along the diagonal (1,1,1) and for angle 0, where the normals are zero and nothing is excluded.
- **C111 Least squares solvers** - normal equations and completion of the square; the Cholesky solver enters as a contract; refuted: a square system is refused by the assertion.
- **C112 Averages of rotations** - largest eigenvalue bounds the quadratic form, proved from the eigenvectors spanning the space; refuted: weight 2 is not the same as listing twice, weights enter squared.
- **C113 Fitting a plane** - best offset is the centroid; best normal by Bessel and the least singular value.
- **C114 Pseudo inverse** - orthonormal columns of U and V; refuted: the cut-off is absolute, so a small invertible matrix has pseudo inverse zero.
- **C115 Joint values and limits** - case analysis over the extended reals; refuted: limits (inf, inf) make the value infinite.
- **C116 Only kinematic trees are accepted** - depth-first search: unvisited links decrease; on a tree subtrees of siblings are disjoint; counting makes parents unique; refuted: an index out of range is used, not refused.
- **C117 Forward kinematics** - induction over the joints processed; refuted: an accepted tree with joints in another order reads transforms never written; UpdateBaseTransform leaves the stored inverse stale.
- **C118 Setting the position** - invariant over constructor and both mutators; refuted: a value that is not finite makes SetPosition throw half way, leaving the position cut short and links misplaced.
- **C119 Distance and interpolation of configurations** - Minkowski over joint distances, C49 and C50 per joint; refuted: continuous joints are averaged as plain numbers.
- **C120 Jacobian of a point** - walk up the tree by depth; poses as products with one factor depending on the value; derivative of Rodrigues' formula; refuted for prismatic joints: the place of the link is added to the axis.
- **C121 The planar robot** - the distance is shown to be that of the poses (angle between rotations), then C99; C50 for interpolation; refuted: angles are averaged as plain numbers.
- **C122 The free robot** - C99, C100, C107 and C112 carried to poses; derivative along any path with a given velocity; refuted: the cutoff breaks the triangle inequality.
- **C123 ROS messages are read back exactly** - composition of the scalar and string codecs of C01 by a chain lemma for round trip, locality and bounds.
- **C124 The generic ROS wrapper** - against roscpp's contract (message_start four bytes into the array, num_bytes counting from its beginning): refuted for every message; round trip when the stray read is let through.
- **C125 Serialized joints** - as C123; refuted for the last part: limits, value and type are not checked.
- **C126 Thin plate splines** - conditional positive definiteness proved from Gaussians by elementary antiderivatives (1/(s+t), then atan and ln), solvability by the Fredholm alternative (Gram-Schmidt), Eigen's solver by contract; refuted for repeated template points and, for affine maps, for points on one line.
- **C127 Vector arithmetic on integers** - binary64 of Flocq: products of ints exact because below 2^53 or out of range after rounding; reciprocal division within one and only for exact divisions; refuted for 49/49 and for int64_t.
- **C128 Standard deviation** - over the reals; square sum by induction, decomposition about any centre.
- **C129 Samples of a multivariate Gaussian** - over the reals; LLT and the eigensolver by contract; any linear expectation under which the draws are uncorrelated with mean 0 and variance 1; spectral theorem from orthonormal eigenvectors; Frobenius-nearest matrix for indefinite input.
- **C130 Fast forward kinematics** - over the reals; one chain of steps shared by the four headers, the tables transcribed; induction over the chain.
- **C131 Log files keep every message** - files as text, streams with a position of their own or appending; refinement of an abstract record of lines by induction over the program; refuted for a log written to after its copy.
- **C132 CreateDirectory** - induction over the components of the path.
- **C133 Listener** - transition system with atomic steps (critical sections), invariants over traces; refuted: messages published before the call, get after somebody waited, two waiting threads.
- **C134 Eigen and ROS conversions** - over the reals with qfrom and qmat; uniqueness of the quaternion up to sign; Affine3d::rotation() by the contract of a polar decomposition; float by Flocq's rounding.
- **C135 Transforming pairs and vectors** - over the reals; map and isometry laws.
- **C136 Pretty printing is unambiguous** - values by recursion on the type; the text of a value followed by a character that cannot continue it determines value and rest; refuted for empty containers, nested containers without delimiters, strings, bytes and unsuitable separators.
- **C137 Aligned4Vector3 computes with 3D vectors** - programs as statement lists, simulation of the same statements on 3D vectors with the invariant that the fourth entry is 1; refuted for `+=`, `-=`, `*=`, `/=` and `normalize()`, which change the fourth entry, and in doubles for short vectors.
- **C138 Nested updates, chunks and zips of algorithms.py** - dictionaries as key lists, statements by path of keys with induction on size and path; chunks by the invariant concat chunks ++ rest; refuted: zip of a single list, an exception leaves the base half changed.
- **C139 Paths and trajectories of path_utils.py** - points as vectors, projection on a segment by completing the square, loop invariants over the vertices; travelling by recursion on the vertices ahead; refuted: reverse_trajectory leaves the velocities as they are (accelerations, which reversal does not change, are not modelled).
- **C140 Polynomial trajectories of trajectory_planning.py** - coordinates as functions of the index; derivatives of the standard library; boundary conditions by field; uniqueness of the cubic.
- **C141 Rotations and transforms of transformation_helper.py** - tf and numpy.linalg as a contract; quaternions by their rotation of vectors; refuted: AngleBetweenQuaternionsRos, InvertMatrix, SubtractPoints, BuildMatrixFromDH, spherical coordinates of short vectors.
- **C142 Colour spaces and colour maps of color.py** - real functions; the pieces of cielab_f meet at the threshold; jet and hot-to-cold against closed forms; refuted: reference white missing in convert_lab_to_xyz, atan instead of atan2, division by a = 0, green is 4 in the last quarter of the hot-to-cold map, rad_diff beyond a full turn.
- **C143 Deleting, counting and naming in filesystem_utils.py** - file system as a list of entries; induction on the depth with the entries below as a measure; the first free version exists because entries are finite and versions differ; refuted: links to directories, links to files deleted before, generators, files in the place of the directory, broken links, hidden files.
- **C144 Sizes of files, poses, points and markers of the Python package** - parsing against the texts printed from Decimal.uint; Flocq's error bound of rounding to nearest for both operations; trigonometric identities for the quaternion from Euler angles; refuted: lists as quaternions, poses with a quaternion of length 0.
- **C145 Timeouts and caught exceptions of the Python package** - functions as trees of work, alarms and nested calls with a clock and the one alarm of the process; refuted: nested calls take away the outer timeout, a TimeoutError of the function counts as the timeout, a slow item ends the generator so that items repeat (retry) or are lost (skip).
- **C146 Listener: the newest message, under a lock** - transition system of the threads line by line, invariants by induction over executions; refuted: messages during the constructor are lost for the callback with AttributeError, get(True) returns None at shutdown, callbacks that change the message change what get returns, callbacks that call get block everything for ever.
- **C147 Waiting, connecting, controllers and nodes of the Python package** - polls as functions of their number, induction over the polls; refuted: get_3d_delta does not use the axes it documents and mixes three messages, wait_for_button raises AttributeError at shutdown, get_connected_publisher fails for late, private and remapped topics, with_ros leaves the C++ node running if rospy fails.
- **C148 Transforms got and sent from Python** - invariant tying managed_tfs to the running threads, comparison with the history of calls; unit quaternions with the same matrix are equal up to sign; refuted: two wrappers in a process hide each other's static transforms, poses used again change what was sent, repeated static sending grows without bound, start_send never returns for quaternions not of length 1, two parents for one child.
- **C149 RRT with a goal bias and a time limit** - draws, samples and clock readings as sequences; induction over the rounds, then C68 for rounds that propagate to their own target; refuted: a bias of 0 can aim at the goal, a bias that is not a number always does
- **C150 Parameters of a ROS node** - the server and roscpp's conversion as functions, whatever a failed getParam leaves behind quantified; case analysis; refuted: parameters of another type are said to be missing, wrong name in messages for global names and in the root namespace, texts running together
- **C151 Tables of the Profiler** - comparison with the history of calls through the invariant of C53; lengths of the lines by computation with padding; refuted: mean of a reset name, names of recordDouble printed without calls, names of both kinds twice, no names, files that cannot be opened
- **C152 The scripts that delete directories** - composition of the models of filesystem_utils.py (C143) and parse_file_size (C144); refuted: the same root twice, nested roots, links to directories, subfolders do not count
- **C153 Console helpers** - the status file, std::cin with its state bits and the terminal as data; induction over texts and calls; refuted: descriptors are never closed, program names with the tag, keys after a failed read, exceptions leave the terminal changed, a whole line counts as many ENTERs
- **C154 Colours** - IEEE arithmetic by Flocq; the mixture as a function of reals with four roundings, monotone in both channels, and the identity on equal channels by a case distinction on the ratio; clamp and round-trip lemmas
- **C155 Making voxel grids** - the object before and after as a pair with the outcome; quotient, ceil and product in Flocq's doubles; relative error of one rounding; witnesses by computation
- **C156 One chunk of a dynamic grid** - the chunk in Flocq's doubles; invariant of the writes; relative errors of a difference, quotient and product of doubles; witnesses by computation
- **C157 Printing of doubles, vectors, matrices and transforms** - the %g conversion of printf on exact integers; the digits are the nearest ones; a grammar of decimal numbers, read back; texts split at characters that no number has
- **C158 Closeness, interpolation and distances of numbers and vectors** - reals first, induction over vectors and paths; then Flocq's doubles, errors of each operation added up, monotone rounding, witnesses by computation
- **C159 Slope of the velocity limit and switching points on it** - continuity keeps the same joint limiting nearby, derivative of the quotient; invariants of the scan and of the bisection, a bound on the rounds
- **C160 Switching points on the acceleration limit, and one step of the integration** - induction over the sorted list of switching points; order of doubles with infinities and NaN from Coquelicot's Rbar; mean value theorem; case analysis of one round
- **C161 Text of vectors and collision results** - induction over the vectors with decimal_inj and word_prefix from C108; reading functions words and lines as specification; counterexamples with empty vectors, blanks and newlines
- **C162 The links of a robot as its accessors show them, with geometry** - induction over the sequence of calls; names are kept by every update and unique by the check of the constructor; shared pointers as addresses in a heap
- **C163 A timed motion between two waypoints keeps the limits** - induction over both integration loops in the phase plane of a straight line: the trajectory rises under a curve of constant acceleration, the steps back lie on such a curve, and their difference changes sign once; then induction over the steps for all times; computed runs refute the stronger expectations
- **C164 Revolute angles with rounding** - fmod computed exactly on mantissas and proved exact; Sterbenz's lemma for every correction by a turn; half-ulp bounds for the rest; pi bracketed by the series of Machin's formula; computed witnesses refute the stronger expectations
- **C165 Short texts, version tests and rounded dicts** - splitting the text from its end; the printing of doubles of C157; case analysis of the order; induction over the dict; computed witnesses refute the expectations
- **C166 Braking back from a point meets the trajectory** - induction over the loop with the braking steps as the invariant; for the meeting, that the braking line is not above the trajectory at the left end of every part that is done, and a measure of the positions and the steps left
- **C167 Bytes of serialized graphs, matrices, grids and planner states** - from any representation of numbers by bytes of the host's order, uniqueness of numerals in base 256, then the serializers field by field
- **C168 Vectors and pairs of doubles with rounding** - Flocq's correctness theorems for the operations, including the overflow case; induction over the vector with the error as the invariant
- **C169 Averages and standard deviations of doubles with rounding** - monotonicity of rounding with the doubles as fixed points; induction over the values with the interval, or k times the error, as the invariant; exactness of small differences for subnormal numbers
- **C170 Vectors of Eigen as vectors of the standard library, and starting a node from Python** - arithmetic on pointers for the conversion; the calls as lists of effects, with induction over the program and the spinners as the invariant
- **C171 Comparing and measuring points with the rounding of doubles** - the doubles of Flocq; relative errors of differences and sums (Sterbenz and the absence of underflow in sums), absolute ones of squares, monotonicity of rounding
- **C172 The table of speed limits along a path** - the accumulated error by induction over the rounds (relative errors of sums), so that round 99999 is before and round 100001 after the end
- **C173 Unit points with the rounding of doubles** - relative errors of squares, sums, root and quotient composed; witnesses by computation
- **C174 Lengths of paths of points with the rounding of doubles** - induction over the path; relative errors of the norm and of every addition; witnesses by computation
- **C175 Rounded dicts of numbers** - nearest decimals and nearest doubles as minimisers of distances over the reals; correctness of the rounded quotient of integers; induction over the dict
- **C176 Distances of vectors of any size with the rounding of doubles** - induction over the bracketing of the sum; permutations; relative errors; a witness by computation
- **C177 Weighted norms and cosines with the rounding of doubles** - induction over the bracketing of the sum; permutations; relative errors; witnesses by computation
