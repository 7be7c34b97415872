{
 "claims": [
  {
   "property": "C01",
   "status": "proved",
   "theorems": [
    "C01_rejects_iff_not_divisible",
    "C01_blocks_tile_grid"
   ],
   "note": ""
  },
  {
   "property": "C02",
   "status": "proved",
   "theorems": [
    "C02_axis_neighbours_inverse",
    "C02_diagonal_neighbours_inverse",
    "C02_no_neighbour_iff_physical_boundary",
    "C02_diagonal_is_composition",
    "C02_axis_is_unit_diagonal",
    "C02_neighbours_in_range"
   ],
   "note": ""
  },
  {
   "property": "C03",
   "status": "proved",
   "theorems": [
    "C03_full_exchange_2d"
   ],
   "note": "hypothesis: ghost size at most the block extent (see C45)"
  },
  {
   "property": "C04",
   "status": "proved",
   "theorems": [
    "C04_edge_exchange_2d"
   ],
   "note": ""
  },
  {
   "property": "C05",
   "status": "proved",
   "theorems": [
    "C05_full_exchange_3d",
    "C05_face_exchange_3d"
   ],
   "note": ""
  },
  {
   "property": "C06",
   "status": "proved",
   "theorems": [
    "C06_all_messages_matched_2d",
    "C06_all_messages_matched_3d",
    "C06_vector_exchange_2d",
    "C06_vector_exchange_3d"
   ],
   "note": ""
  },
  {
   "property": "C07",
   "status": "proved",
   "theorems": [
    "C07_timing_independent_2d",
    "C07_timing_independent_3d",
    "C07_inner_cells_stable_in_flight_2d",
    "C07_inner_cells_stable_in_flight_3d"
   ],
   "note": ""
  },
  {
   "property": "C08",
   "status": "proved",
   "theorems": [
    "C08_gather_assembles_global_field"
   ],
   "note": ""
  },
  {
   "property": "C09",
   "status": "proved",
   "theorems": [
    "C09_scatter_writes_inner_cells"
   ],
   "note": ""
  },
  {
   "property": "C10",
   "status": "proved",
   "theorems": [
    "C10_gather_after_scatter",
    "C10_scatter_after_gather"
   ],
   "note": ""
  },
  {
   "property": "C11",
   "status": "proved",
   "theorems": [
    "C11_call_sequences_terminate"
   ],
   "note": ""
  },
  {
   "property": "C45",
   "status": "proved",
   "theorems": [
    "C45_exact_2d_full",
    "C45_exact_2d_edges",
    "C45_exact_3d_full",
    "C45_exact_3d_faces",
    "C45_unsplit_axes_may_be_narrow_2d",
    "C45_unsplit_axes_may_be_narrow_2d_edges",
    "C45_unsplit_axes_may_be_narrow_3d",
    "C45_ghost_wider_than_block_refuted"
   ],
   "note": "necessary and sufficient condition, 2D and 3D, full and face-only exchange"
  },
  {
   "property": "C12",
   "status": "proved",
   "theorems": [
    "C12_node_goes_to_owner_of_its_cell",
    "C12_index_lists_partition_nodes"
   ],
   "note": "coordinates are exact rationals; see C51 for double precision"
  },
  {
   "property": "C13",
   "status": "proved",
   "theorems": [
    "C13_exact",
    "C13_aborts_iff_above",
    "C13_upper_side_aborts",
    "C13_below_lower_corner_refuted",
    "C13_negative_index_refuted"
   ],
   "note": "outcome characterised for every position; the lower-side findings are also given as refutations"
  },
  {
   "property": "C14",
   "status": "proved",
   "theorems": [
    "C14_scatter_gives_each_rank_its_columns",
    "C14_gather_puts_columns_back",
    "C14_scatter_then_gather_is_identity",
    "C14_gather_then_scatter_is_identity",
    "C14_wrong_shape_aborts"
   ],
   "note": ""
  },
  {
   "property": "C16",
   "status": "proved",
   "theorems": [
    "C16_reset_kernels_serial",
    "C16_adding_kernels_serial",
    "C16_result_unique"
   ],
   "note": "serial kernel functions are arbitrary star-shaped update functions; blocks at least as wide as the ghost layer"
  },
  {
   "property": "C17",
   "status": "proved",
   "theorems": [
    "C17_exact",
    "C17_once_when_wide",
    "C17_twice_iff_thin",
    "C17_at_most_twice",
    "C17_added_once_refuted",
    "C17_two_wide_blocks_twice"
   ],
   "note": "exact number of additions at every cell, for every block at least as wide as the ghost layer"
  },
  {
   "property": "C18",
   "status": "proved",
   "theorems": [
    "C18_zero_exactly_on_boundary"
   ],
   "note": ""
  },
  {
   "property": "C19",
   "status": "proved",
   "theorems": [
    "C19_stale_ghosts_irrelevant"
   ],
   "note": ""
  },
  {
   "property": "C20",
   "status": "proved",
   "theorems": [
    "C20_only_outside_ghosts_matter",
    "C20_away_from_boundary",
    "C20_stale_ghosts_irrelevant_refuted",
    "C17_exact"
   ],
   "note": "the dependence within the stencil radius is proved as a refutation and, exactly, by C17_exact"
  },
  {
   "property": "C21",
   "status": "proved",
   "theorems": [
    "C21_curl_3d_serial"
   ],
   "note": ""
  },
  {
   "property": "C44",
   "status": "proved",
   "theorems": [
    "C44_history_2d",
    "C44_history_3d",
    "C44_decomposition_independent_2d",
    "C44_decomposition_independent_3d",
    "C44_passive_scalar_calls_ok",
    "C44_passive_vector_calls_ok",
    "C44_passive_scalar_2d",
    "C44_passive_scalar_3d",
    "C44_passive_vector_3d",
    "C44_wide_ghost_refuted"
   ],
   "note": "diffusion for any ghost size up to the block extents; advection with ghost size 2 and blocks of at least 4 cells (with wider ghost layers the claim is false: refuted)"
  },
  {
   "property": "C22",
   "status": "proved",
   "theorems": [
    "C22_penalise_2d_serial",
    "C22_penalise_3d_serial",
    "C22_penalise_vector_3d_serial",
    "C22_unchanged_outside_sponge",
    "C22_unchanged_outside_sponge_3d",
    "C22_width_zero",
    "C22_width_check",
    "C22_wide_sponge_refuted"
   ],
   "note": "sponge not wider than the blocks; wider sponges refuted"
  },
  {
   "property": "C23",
   "status": "proved",
   "theorems": [
    "C23_filter_serial",
    "C23_order_zero",
    "C23_filter_args",
    "C23_order_zero_refuted"
   ],
   "note": "boundary width at most the block extents; every order, topology and scratch contents"
  },
  {
   "property": "C24",
   "status": "proved",
   "theorems": [
    "C24_to_doubled",
    "C24_from_doubled",
    "C24_roundtrip",
    "C24_distributed_axis",
    "C24_periodic_odd_refuted"
   ],
   "note": "non-periodic for every rank count, periodic for even ones; the periodic odd case is refuted (finding)"
  },
  {
   "property": "C25",
   "status": "proved",
   "theorems": [
    "C25_to_doubled",
    "C25_from_doubled",
    "C25_roundtrip",
    "C25_raises_iff_odd",
    "C25_distributed_axes"
   ],
   "note": "one or an even number of ranks along each axis; otherwise the code raises, proved as an equivalence (finding)"
  },
  {
   "property": "C26",
   "status": "proved",
   "theorems": [
    "C26_solves_2d",
    "C26_solves_3d",
    "C26_vector_solve_3d",
    "C26_frame"
   ],
   "note": "FFT and Green's function abstracted as an arbitrary function of the whole doubled array"
  },
  {
   "property": "C27",
   "status": "proved",
   "theorems": [
    "C27_ghost_sum_2d",
    "C27_ghost_sum_3d"
   ],
   "note": "any commutative monoid addition; non-periodic topologies"
  },
  {
   "property": "C28",
   "status": "proved",
   "theorems": [
    "C27_ghost_sum_2d",
    "C27_ghost_sum_3d",
    "C28_periodic_deadlock_2d",
    "C28_periodic_deadlock_3d"
   ],
   "note": "the runs_to part of the C27 theorems is termination under every schedule and buffering; the deadlock theorems are the periodic half"
  },
  {
   "property": "C29",
   "status": "proved",
   "theorems": [
    "C29_rejects_iff_ghost_too_small",
    "C29_support_inside_local_array"
   ],
   "note": "exact coordinates; see C51 for double precision, where the guard is one cell too permissive"
  },
  {
   "property": "C30",
   "status": "proved",
   "theorems": [
    "C30_interpolation_serial_2d",
    "C30_interpolation_serial_3d",
    "C30_spreading_serial_2d",
    "C30_spreading_serial_3d",
    "C30_face_only_exchange_refuted"
   ],
   "note": "exchanged means full exchange (or at most one distributed axis); the face-only exchange of the 2D simulators with both axes distributed is refuted (finding); rational coordinates, arbitrary weights"
  },
  {
   "property": "C31",
   "status": "proved",
   "theorems": [
    "C31_cosine_partition_of_unity",
    "C31_peskin_partition_of_unity",
    "C31_peskin_exact_on_coordinates"
   ],
   "note": "exact real arithmetic, any number of dimensions"
  },
  {
   "property": "C32",
   "status": "proved",
   "theorems": [
    "C32_adjoint_2d",
    "C32_adjoint_3d",
    "C32_total_force_conserved_2d",
    "C32_total_force_conserved_3d"
   ],
   "note": "any commutative semiring; conservation for the two concrete delta functions over the reals"
  },
  {
   "property": "C15",
   "status": "proved",
   "theorems": [
    "C15_every_history",
    "C15_mismatch_follows_node",
    "C15_exchange_misattributes",
    "C15_exchange_refuted"
   ],
   "note": "every history of mappings"
  },
  {
   "property": "C39",
   "status": "proved",
   "theorems": [
    "C39_counts_after_remaps"
   ],
   "note": ""
  },
  {
   "property": "C40",
   "status": "proved",
   "theorems": [
    "C40_velocity_inner_cells_unchanged_2d",
    "C40_velocity_inner_cells_unchanged_3d",
    "C40_bodies_add_up_2d",
    "C40_bodies_add_up_3d"
   ],
   "note": "any list of bodies, with and without reset"
  },
  {
   "property": "C41",
   "status": "proved",
   "theorems": [
    "C41_global_norm",
    "C41_global_norm_exists",
    "C41_local_variant_undefined_off_master"
   ],
   "note": "exact real arithmetic"
  },
  {
   "property": "C33",
   "status": "proved",
   "theorems": [
    "C33_save_names_distinct",
    "C33_component_names",
    "C33_every_element_written_once",
    "C33_restart_round_trip",
    "C33_missing_field_raises"
   ],
   "note": "HDF5 file as a map from dataset names to arrays; finding: a parameter mismatch raises only after fields have been overwritten"
  },
  {
   "property": "C34",
   "status": "proved",
   "theorems": [
    "C34_save_accepts",
    "C34_restart_round_trip",
    "C34_shared_field_name_refuted",
    "C34_square_vector_save_raises",
    "C34_grid_without_fields_not_loaded",
    "C34_default_names_distinct",
    "C34_default_name_collision"
   ],
   "note": "the exceptions stated in the property are proved as refutations"
  },
  {
   "property": "C43",
   "status": "proved",
   "theorems": [
    "C43_saved_rod_is_current_midpoints",
    "C43_one_file_per_save"
   ],
   "note": ""
  },
  {
   "property": "C36",
   "status": "proved",
   "theorems": [
    "C36_emits_exactly_on_echo_ranks",
    "C36_echo_ranks_print",
    "C36_handlers_left",
    "C36_remove_all_refuted",
    "C36_old_logfile_still_written",
    "C36_level_is_shared"
   ],
   "note": "findings in the statement are proved as refutations"
  },
  {
   "property": "C35",
   "status": "proved",
   "theorems": [
    "C35_stable_timestep_any_arithmetic",
    "C35_stable_timestep",
    "C35_stable_timestep_rounded",
    "C35_timestep_decomposition_independent",
    "C35_max_vorticity",
    "C35_divergence_norm",
    "C35_ghost_size_zero_raises"
   ],
   "note": "any arithmetic whose max and min select by a total order and whose limit formula is antitone, with the exact and the rounded formulas as instances, zero viscosity included; the divergence norm in exact real arithmetic; ghost size at least 1"
  },
  {
   "property": "C37",
   "status": "proved",
   "theorems": [
    "C37_support_check",
    "C37_guards",
    "C37_positive_guard_refuted",
    "C37_bad_sizes_accepted"
   ],
   "note": ""
  },
  {
   "property": "C42",
   "status": "proved",
   "theorems": [
    "C42_cell_centres",
    "C42_covers_domain",
    "C42_ranks_agree"
   ],
   "note": "exact rational arithmetic"
  },
  {
   "property": "C46",
   "status": "proved",
   "theorems": [
    "C46_constructor_2d",
    "C46_time_step_2d",
    "C46_step_done_2d",
    "C46_failing_step_half_done",
    "C46_errors_reported_2d_refuted",
    "C46_constructor_3d",
    "C46_kernels_2d",
    "C46_kernels_3d"
   ],
   "note": ""
  },
  {
   "property": "C38",
   "status": "proved",
   "theorems": [
    "C38_forcing_consumed_2d",
    "C38_forcing_consumed_3d",
    "C38_time",
    "C38_time_continues",
    "C47_history_2d",
    "C47_history_3d"
   ],
   "note": "that no forcing leaks into the next step: the serial fold of C47 uses each deposit once"
  },
  {
   "property": "C47",
   "status": "proved",
   "theorems": [
    "C47_step_ends_2d",
    "C47_history_2d",
    "C47_decomposition_independent_2d",
    "C47_step_ends_3d",
    "C47_history_3d",
    "C47_decomposition_independent_3d"
   ],
   "note": "the serial kernels, the damping and the Green's-function convolution are arbitrary functions with the stated reach"
  },
  {
   "property": "C48",
   "status": "proved",
   "theorems": [
    "C48_greens_function_2d",
    "C48_greens_function_3d",
    "C48_regularised_value",
    "C48_solves_2d",
    "C48_solves_3d",
    "C48_vector_solve_3d"
   ],
   "note": "exact real arithmetic; contract: the parallel FFT computes the DFT formulas (shown satisfiable)"
  },
  {
   "property": "C49",
   "status": "proved",
   "theorems": [
    "C49_coupled_every_history_2d",
    "C49_coupled_2d",
    "C49_decomposition_independent_2d",
    "C49_coupled_every_history_3d",
    "C49_coupled_3d",
    "C49_decomposition_independent_3d"
   ],
   "note": "exact addition (commutative monoid) for the ghost sums; supports off the outermost layer of the domain; the body motion is an input"
  },
  {
   "property": "C50",
   "status": "proved",
   "theorems": [
    "C50_brinkmann",
    "C50_char_func",
    "C50_ghosts_stay_valid"
   ],
   "note": "the serial formulas are arbitrary functions"
  },
  {
   "property": "C51",
   "status": "proved",
   "theorems": [
    "C51_support_inside_with_margin",
    "C51_support_inside_power_of_two",
    "C51_support_inside_no_round_up",
    "C51_support_outside_refuted"
   ],
   "note": "positions, dx and shift in binary64; finding: kernel width = ghost size is accepted but not always safe"
  },
  {
   "property": "C52",
   "status": "proved",
   "theorems": [
    "C52_options_independent_2d",
    "C52_options_independent_3d",
    "C52_stale_ghosts_refuted"
   ],
   "note": "the refutation is the converse: the ghost exchange is needed"
  },
  {
   "property": "C53",
   "status": "proved",
   "theorems": [
    "C53_file_names",
    "C53_eulerian_description",
    "C53_lagrangian_description",
    "C53_origin_count",
    "C53_two_masters_refuted",
    "C53_no_suffix_refuted",
    "C53_grid_called_eulerian_refuted"
   ],
   "note": "the condition on the masters is needed: see the refutation"
  },
  {
   "property": "C54",
   "status": "proved",
   "theorems": [
    "C54_two_way_2d",
    "C54_two_way_3d",
    "C54_decomposition_independent_2d",
    "C54_decomposition_independent_3d",
    "C54_copies_off_master",
    "C54_all_copies_move_alike_refuted"
   ],
   "note": "mappings that change must change some rank's node count, as in C49 (see C15)"
  },
  {
   "property": "C55",
   "status": "proved",
   "theorems": [
    "C55_construction_succeeds",
    "C55_all_ranks_know_the_body",
    "C55_value_error_iff",
    "C55_mpi_error_iff",
    "C55_waits_only_for_a_failed_master",
    "C55_all_ranks_end_alike_refuted",
    "C55_simulation_starts_at_rest",
    "C55_arrays_start_at_zero",
    "C55_from_scratch_2d",
    "C55_from_scratch_same_2d",
    "C55_from_scratch_3d",
    "C55_from_scratch_same_3d"
   ],
   "note": "finding: a node far below the domain makes the master raise while the other ranks wait for its broadcast"
  },
  {
   "property": "C56",
   "status": "proved",
   "theorems": [
    "C56_restart_2d",
    "C56_restart_3d",
    "C56_restart_possible_2d",
    "C56_restart_possible_3d",
    "C56_restart_with_ghosts_2d",
    "C56_restart_with_ghosts_3d",
    "C56_what_is_restored",
    "C56_narrow_zone_2d_refuted",
    "C56_narrow_zone_3d_refuted"
   ],
   "note": "finding: with the default penalised zone of 2 cells a restart is not exact"
  },
  {
   "property": "C57",
   "status": "proved",
   "theorems": [
    "C57_restart_2d",
    "C57_restart_possible_2d",
    "C57_what_is_saved_2d",
    "C57_what_continues_2d",
    "C57_restart_3d",
    "C57_restart_possible_3d",
    "C57_what_is_saved_3d",
    "C57_what_continues_3d",
    "C57_advance_first_refuted",
    "C57_saved_after_advance_refuted",
    "C57_saved_before_flow_refuted"
   ],
   "note": "the refutations show that each condition on the moment of the save is needed; interactors with assume_data_locality are excluded: they have no communicator, so the example's restart code fails on them"
  },
  {
   "property": "C58",
   "status": "proved",
   "theorems": [
    "C58_saved_pictures",
    "C58_colour_bars",
    "C58_title_lost_after_clearing",
    "C58_clearing_first_fails",
    "C58_one_bar_per_contour_refuted"
   ],
   "note": "matplotlib is reduced to what a figure shows"
  },
  {
   "property": "C59",
   "status": "proved",
   "theorems": [
    "C59_lockstep_2d",
    "C59_ends_as_serial_2d",
    "C59_decomposition_independent_2d",
    "C59_lockstep_3d",
    "C59_ends_as_serial_3d",
    "C59_decomposition_independent_3d",
    "C59_transport_lockstep_2d",
    "C59_transport_lockstep_3d",
    "C59_transport_vector_lockstep_3d",
    "C59_bounded_speed_ends"
   ],
   "note": "what a due timer triggers keeps the flow arrays (shown for the plots and files in C58, C33); bodies enter as forcing that may depend on the flow"
  },
  {
   "property": "C60",
   "status": "proved",
   "theorems": [
    "C60_lockstep_2d",
    "C60_ends_as_serial_2d",
    "C60_decomposition_independent_2d",
    "C60_lockstep_3d",
    "C60_ends_as_serial_3d",
    "C60_decomposition_independent_3d"
   ],
   "note": "what a due timer triggers keeps the arrays of flow, forcing and interactors; the calls of every iteration of the serial run must be legal (bodies inside the grid, forcing not spread over ghosts) as in C49/C54"
  },
  {
   "property": "C61",
   "status": "proved",
   "theorems": [
    "C61_spreading_2d",
    "C61_spreading_3d",
    "C61_grids_agree_2d",
    "C61_grids_agree_3d",
    "C61_binary64",
    "C61_bitwise_refuted"
   ],
   "note": "no overflow; the products force*weight are rounded too but alike on every grid; C61_bitwise_refuted: 1 and 2 ranks differ in the last bit"
  },
  {
   "property": "C62",
   "status": "proved",
   "theorems": [
    "C62_divergence_norm",
    "C62_decompositions_agree",
    "C62_zero_iff_zero",
    "C62_deviation_norm",
    "C62_53_bits"
   ],
   "note": "no underflow or overflow"
  },
  {
   "property": "C63",
   "status": "proved",
   "theorems": [
    "C63_restart_loads_last_save",
    "C63_death_outside_saves_restores",
    "C63_save_restores",
    "C63_crash_while_saving_refuted",
    "C63_crash_in_first_save_after_restart",
    "C63_refusal_on_every_rank_refuted"
   ],
   "note": "a file open at the crash is unreadable; PyElastica's state is one file"
  },
  {
   "property": "C64",
   "status": "proved",
   "theorems": [
    "C64_origin_3d",
    "C64_origin_2d",
    "C64_origin_rod_3d_refuted"
   ],
   "note": "exact rational arithmetic"
  },
  {
   "property": "C65",
   "status": "proved",
   "theorems": [
    "C65_sampled",
    "C65_errors",
    "C65_greatest_is_one",
    "C65_lamb_oseen",
    "C65_decomposition_independent",
    "C65_point_source",
    "C65_point_source_decomposition_independent"
   ],
   "note": "exact real arithmetic for the errors, exact rational arithmetic for the positions"
  },
  {
   "property": "C66",
   "status": "proved",
   "theorems": [
    "C66_ends",
    "C66_time_error",
    "C66_ranks_2d",
    "C66_ranks_3d",
    "C66_positive_steps_refuted"
   ],
   "note": "overflow excluded: the format is unbounded above"
  },
  {
   "property": "C67",
   "status": "proved",
   "theorems": [
    "C67_one_handle",
    "C67_log_file",
    "C67_attribution",
    "C67_same_name",
    "C67_timestamp_refuted",
    "C67_two_handles_refuted"
   ],
   "note": "MPI contract: File.Open with MODE_APPEND starts the shared pointer at the end of the file; Write_shared in atomic mode writes at the pointer and moves it, one at a time"
  },
  {
   "property": "C68",
   "status": "proved",
   "theorems": [
    "C68_drag_file_2d",
    "C68_drag_file_3d",
    "C68_decomposition_independent_2d",
    "C68_decomposition_independent_3d",
    "C68_force_one_step_old",
    "C68_force_of_its_time_refuted"
   ],
   "note": "the two lists are one list of pairs; scaling to output units and np.sum are arbitrary functions"
  },
  {
   "property": "C69",
   "status": "proved",
   "theorems": [
    "C69_calls_legal_2d",
    "C69_calls_legal_3d",
    "C69_flow_past_body_2d",
    "C69_flow_past_body_3d",
    "C69_from_scratch_2d",
    "C69_from_scratch_3d"
   ],
   "note": "one body; the from-scratch theorems take the nodes mapped by position (assume_data_locality off)"
  },
  {
   "property": "C70",
   "status": "proved",
   "theorems": [
    "C70_calls_legal_2d",
    "C70_calls_legal_3d",
    "C70_runs_as_serial_2d",
    "C70_runs_as_serial_3d",
    "C70_from_scratch_2d",
    "C70_from_scratch_3d",
    "C70_when_counts_tell",
    "C70_counts_tell_refuted"
   ],
   "note": "interactors with auto_ghosting (the default)"
  },
  {
   "property": "C71",
   "status": "proved",
   "theorems": [
    "C71_at_least_one_substep",
    "C71_substeps_cover",
    "C71_substeps_cover_rounded",
    "C71_number_of_substeps",
    "C71_substep_range",
    "C71_substep_range_rounded",
    "C71_short_step_undivided",
    "C71_when_limit_respected",
    "C71_limit_respected_refuted",
    "C71_rod_runs_as_serial_2d",
    "C71_rod_runs_as_serial_3d",
    "C71_rod_decomposition_independent_2d",
    "C71_rod_decomposition_independent_3d"
   ],
   "note": "do_step of PyElastica is any list of motions and load computations"
  },
  {
   "property": "C72",
   "status": "proved",
   "theorems": [
    "C72_restarted_2d",
    "C72_restarted_3d"
   ],
   "note": "the files give back what C57 and C63 say; PyElastica gives back the rod it saved (trusted)"
  },
  {
   "property": "C73",
   "status": "proved",
   "theorems": [
    "C73_number_in_name",
    "C73_names_differ",
    "C73_restart_opens_last_save",
    "C73_other_files_ignored",
    "C73_listing_as_in_checkpoints",
    "C73_times_as_in_checkpoints",
    "C73_saves_apart",
    "C73_hundredths_refuted",
    "C73_stray_file_refuted"
   ],
   "note": "names are ASCII; names that python's int() reads but that are not plain digits are not modelled"
  }
 ]
}