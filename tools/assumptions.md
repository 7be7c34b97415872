* **closed under the global context (no axioms)** (148 theorems): `C01_rejects_iff_not_divisible`, `C01_blocks_tile_grid`, `C02_axis_neighbours_inverse`, `C02_diagonal_neighbours_inverse`, `C02_no_neighbour_iff_physical_boundary`, `C02_diagonal_is_composition`, `C02_axis_is_unit_diagonal`, `C02_neighbours_in_range`, `C03_full_exchange_2d`, `C04_edge_exchange_2d`, `C05_full_exchange_3d`, `C05_face_exchange_3d`, `C06_all_messages_matched_2d`, `C06_all_messages_matched_3d`, `C06_vector_exchange_2d`, `C06_vector_exchange_3d`, `C07_timing_independent_2d`, `C07_timing_independent_3d`, `C07_inner_cells_stable_in_flight_2d`, `C07_inner_cells_stable_in_flight_3d`, `C10_gather_after_scatter`, `C10_scatter_after_gather`, `C45_exact_2d_full`, `C45_exact_2d_edges`, `C45_exact_3d_full`, `C45_exact_3d_faces`, `C45_unsplit_axes_may_be_narrow_2d`, `C45_unsplit_axes_may_be_narrow_2d_edges`, `C45_unsplit_axes_may_be_narrow_3d`, `C45_ghost_wider_than_block_refuted`, `C12_node_goes_to_owner_of_its_cell`, `C12_index_lists_partition_nodes`, `C13_exact`, `C13_aborts_iff_above`, `C13_upper_side_aborts`, `C13_below_lower_corner_refuted`, `C13_negative_index_refuted`, `C14_scatter_then_gather_is_identity`, `C14_gather_then_scatter_is_identity`, `C14_wrong_shape_aborts`, `C16_result_unique`, `C17_once_when_wide`, `C17_twice_iff_thin`, `C17_at_most_twice`, `C44_passive_scalar_calls_ok`, `C44_passive_vector_calls_ok`, `C22_width_check`, `C23_filter_args`, `C24_distributed_axis`, `C24_periodic_odd_refuted`, `C25_raises_iff_odd`, `C25_distributed_axes`, `C28_periodic_deadlock_2d`, `C28_periodic_deadlock_3d`, `C29_rejects_iff_ghost_too_small`, `C29_support_inside_local_array`, `C39_counts_after_remaps`, `C33_save_names_distinct`, `C33_component_names`, `C33_every_element_written_once`, `C33_restart_round_trip`, `C33_missing_field_raises`, `C34_save_accepts`, `C34_restart_round_trip`, `C34_shared_field_name_refuted`, `C34_square_vector_save_raises`, `C34_grid_without_fields_not_loaded`, `C34_default_names_distinct`, `C34_default_name_collision`, `C43_saved_rod_is_current_midpoints`, `C43_one_file_per_save`, `C36_emits_exactly_on_echo_ranks`, `C36_echo_ranks_print`, `C36_handlers_left`, `C36_remove_all_refuted`, `C36_old_logfile_still_written`, `C36_level_is_shared`, `C35_stable_timestep_any_arithmetic`, `C35_timestep_decomposition_independent`, `C35_max_vorticity`, `C35_ghost_size_zero_raises`, `C37_support_check`, `C37_guards`, `C37_positive_guard_refuted`, `C37_bad_sizes_accepted`, `C42_cell_centres`, `C42_covers_domain`, `C42_ranks_agree`, `C46_constructor_2d`, `C46_time_step_2d`, `C46_step_done_2d`, `C46_failing_step_half_done`, `C46_errors_reported_2d_refuted`, `C46_constructor_3d`, `C46_kernels_2d`, `C46_kernels_3d`, `C38_time`, `C38_time_continues`, `C53_file_names`, `C53_eulerian_description`, `C53_lagrangian_description`, `C53_origin_count`, `C53_two_masters_refuted`, `C53_no_suffix_refuted`, `C53_grid_called_eulerian_refuted`, `C54_copies_off_master`, `C55_construction_succeeds`, `C55_all_ranks_know_the_body`, `C55_value_error_iff`, `C55_mpi_error_iff`, `C55_waits_only_for_a_failed_master`, `C55_all_ranks_end_alike_refuted`, `C55_simulation_starts_at_rest`, `C55_arrays_start_at_zero`, `C56_what_is_restored`, `C63_restart_loads_last_save`, `C63_death_outside_saves_restores`, `C63_save_restores`, `C63_crash_while_saving_refuted`, `C63_crash_in_first_save_after_restart`, `C63_refusal_on_every_rank_refuted`, `C64_origin_3d`, `C64_origin_2d`, `C64_origin_rod_3d_refuted`, `C65_sampled`, `C67_one_handle`, `C67_log_file`, `C67_attribution`, `C67_same_name`, `C67_timestamp_refuted`, `C67_two_handles_refuted`, `C68_force_one_step_old`, `C68_force_of_its_time_refuted`, `C69_calls_legal_2d`, `C69_calls_legal_3d`, `C69_from_scratch_2d`, `C69_from_scratch_3d`, `C70_calls_legal_2d`, `C70_calls_legal_3d`, `C70_from_scratch_2d`, `C70_from_scratch_3d`, `C70_when_counts_tell`, `C70_counts_tell_refuted`, `C73_number_in_name`, `C73_names_differ`, `C73_other_files_ignored`, `C73_listing_as_in_checkpoints`, `C73_stray_file_refuted`
* **`FunctionalExtensionality.functional_extensionality_dep`** (143 theorems): `C08_gather_assembles_global_field`, `C09_scatter_writes_inner_cells`, `C11_call_sequences_terminate`, `C14_scatter_gives_each_rank_its_columns`, `C14_gather_puts_columns_back`, `C16_reset_kernels_serial`, `C16_adding_kernels_serial`, `C17_exact`, `C17_added_once_refuted`, `C17_two_wide_blocks_twice`, `C18_zero_exactly_on_boundary`, `C19_stale_ghosts_irrelevant`, `C20_only_outside_ghosts_matter`, `C20_away_from_boundary`, `C20_stale_ghosts_irrelevant_refuted`, `C21_curl_3d_serial`, `C44_history_2d`, `C44_history_3d`, `C44_decomposition_independent_2d`, `C44_decomposition_independent_3d`, `C44_passive_scalar_2d`, `C44_passive_scalar_3d`, `C44_passive_vector_3d`, `C44_wide_ghost_refuted`, `C22_penalise_2d_serial`, `C22_penalise_3d_serial`, `C22_penalise_vector_3d_serial`, `C22_unchanged_outside_sponge`, `C22_unchanged_outside_sponge_3d`, `C22_width_zero`, `C22_wide_sponge_refuted`, `C23_filter_serial`, `C23_order_zero`, `C23_order_zero_refuted`, `C24_to_doubled`, `C24_from_doubled`, `C24_roundtrip`, `C25_to_doubled`, `C25_from_doubled`, `C25_roundtrip`, `C26_solves_2d`, `C26_solves_3d`, `C26_vector_solve_3d`, `C26_frame`, `C27_ghost_sum_2d`, `C27_ghost_sum_3d`, `C30_interpolation_serial_2d`, `C30_interpolation_serial_3d`, `C30_spreading_serial_2d`, `C30_spreading_serial_3d`, `C30_face_only_exchange_refuted`, `C32_adjoint_2d`, `C32_adjoint_3d`, `C15_every_history`, `C15_mismatch_follows_node`, `C15_exchange_misattributes`, `C15_exchange_refuted`, `C40_velocity_inner_cells_unchanged_2d`, `C40_velocity_inner_cells_unchanged_3d`, `C40_bodies_add_up_2d`, `C40_bodies_add_up_3d`, `C38_forcing_consumed_2d`, `C38_forcing_consumed_3d`, `C47_history_2d`, `C47_history_3d`, `C47_step_ends_2d`, `C47_decomposition_independent_2d`, `C47_step_ends_3d`, `C47_decomposition_independent_3d`, `C49_coupled_every_history_2d`, `C49_coupled_2d`, `C49_decomposition_independent_2d`, `C49_coupled_every_history_3d`, `C49_coupled_3d`, `C49_decomposition_independent_3d`, `C50_brinkmann`, `C50_char_func`, `C50_ghosts_stay_valid`, `C52_options_independent_2d`, `C52_options_independent_3d`, `C52_stale_ghosts_refuted`, `C54_two_way_2d`, `C54_two_way_3d`, `C54_decomposition_independent_2d`, `C54_decomposition_independent_3d`, `C54_all_copies_move_alike_refuted`, `C55_from_scratch_2d`, `C55_from_scratch_same_2d`, `C55_from_scratch_3d`, `C55_from_scratch_same_3d`, `C56_restart_2d`, `C56_restart_3d`, `C56_restart_possible_2d`, `C56_restart_possible_3d`, `C56_restart_with_ghosts_2d`, `C56_restart_with_ghosts_3d`, `C56_narrow_zone_2d_refuted`, `C56_narrow_zone_3d_refuted`, `C57_restart_2d`, `C57_restart_possible_2d`, `C57_what_is_saved_2d`, `C57_what_continues_2d`, `C57_restart_3d`, `C57_restart_possible_3d`, `C57_what_is_saved_3d`, `C57_what_continues_3d`, `C57_advance_first_refuted`, `C57_saved_after_advance_refuted`, `C57_saved_before_flow_refuted`, `C58_saved_pictures`, `C58_colour_bars`, `C58_title_lost_after_clearing`, `C58_clearing_first_fails`, `C58_one_bar_per_contour_refuted`, `C59_lockstep_2d`, `C59_ends_as_serial_2d`, `C59_decomposition_independent_2d`, `C59_lockstep_3d`, `C59_ends_as_serial_3d`, `C59_decomposition_independent_3d`, `C59_transport_lockstep_2d`, `C59_transport_lockstep_3d`, `C59_transport_vector_lockstep_3d`, `C60_lockstep_2d`, `C60_ends_as_serial_2d`, `C60_decomposition_independent_2d`, `C60_lockstep_3d`, `C60_ends_as_serial_3d`, `C60_decomposition_independent_3d`, `C68_drag_file_2d`, `C68_drag_file_3d`, `C68_decomposition_independent_2d`, `C68_decomposition_independent_3d`, `C69_flow_past_body_2d`, `C69_flow_past_body_3d`, `C70_runs_as_serial_2d`, `C70_runs_as_serial_3d`, `C71_rod_runs_as_serial_2d`, `C71_rod_runs_as_serial_3d`, `C71_rod_decomposition_independent_2d`, `C71_rod_decomposition_independent_3d`, `C72_restarted_2d`, `C72_restarted_3d`
* **`ClassicalDedekindReals.sig_forall_dec`, `ClassicalDedekindReals.sig_not_dec`, `FunctionalExtensionality.functional_extensionality_dep`** (21 theorems): `C31_cosine_partition_of_unity`, `C31_peskin_partition_of_unity`, `C31_peskin_exact_on_coordinates`, `C32_total_force_conserved_2d`, `C32_total_force_conserved_3d`, `C41_global_norm`, `C41_global_norm_exists`, `C41_local_variant_undefined_off_master`, `C35_divergence_norm`, `C48_greens_function_3d`, `C48_solves_3d`, `C48_vector_solve_3d`, `C62_divergence_norm`, `C62_decompositions_agree`, `C62_zero_iff_zero`, `C62_deviation_norm`, `C65_errors`, `C65_lamb_oseen`, `C65_decomposition_independent`, `C65_point_source`, `C65_point_source_decomposition_independent`
* **`ClassicalDedekindReals.sig_forall_dec`, `FunctionalExtensionality.functional_extensionality_dep`** (15 theorems): `C35_stable_timestep`, `C35_stable_timestep_rounded`, `C59_bounded_speed_ends`, `C61_spreading_2d`, `C61_spreading_3d`, `C61_grids_agree_2d`, `C61_grids_agree_3d`, `C66_ends`, `C66_time_error`, `C66_ranks_2d`, `C66_ranks_3d`, `C71_substeps_cover`, `C71_number_of_substeps`, `C71_substep_range`, `C71_when_limit_respected`
* **`ClassicalDedekindReals.sig_forall_dec`, `ClassicalDedekindReals.sig_not_dec`, `Classical_Prop.classic`, `FunctionalExtensionality.functional_extensionality_dep`** (20 theorems): `C48_greens_function_2d`, `C48_regularised_value`, `C48_solves_2d`, `C51_support_inside_with_margin`, `C51_support_inside_power_of_two`, `C51_support_inside_no_round_up`, `C51_support_outside_refuted`, `C61_binary64`, `C61_bitwise_refuted`, `C62_53_bits`, `C66_positive_steps_refuted`, `C71_at_least_one_substep`, `C71_substeps_cover_rounded`, `C71_substep_range_rounded`, `C71_short_step_undivided`, `C71_limit_respected_refuted`, `C73_restart_opens_last_save`, `C73_times_as_in_checkpoints`, `C73_saves_apart`, `C73_hundredths_refuted`
* **`ClassicalDedekindReals.sig_forall_dec`** (1 theorems): `C65_greatest_is_one`
