{
 "claims": [
  {
   "property": "C01",
   "status": "proved",
   "theorems": [
    "C01_blockdist_partition"
   ],
   "note": "for all N, size, rank"
  },
  {
   "property": "C02",
   "status": "proved",
   "theorems": [
    "C02_distribute_entries",
    "C02_distribute_exactly_one_owner",
    "C02_distribute_reassemble",
    "C02_concat_axis_meaning",
    "C02_distribute_serial"
   ],
   "note": ""
  },
  {
   "property": "C03",
   "status": "proved",
   "theorems": [
    "C03_same_axis",
    "C03_weights_pair_with_data"
   ],
   "note": "axis chosen by the reader = axis cut by distribute_data; weights whose shape is that of a snapshot pair with the data"
  },
  {
   "property": "C04",
   "status": "proved",
   "theorems": [
    "C04_npy_save_any_schedule",
    "C04_save_of_distributed_is_serial_save"
   ],
   "note": "byte-level file model; every permutation of all byte writes; header and element encodings are parameters"
  },
  {
   "property": "C05",
   "status": "proved",
   "theorems": [
    "C05_npy_round_trip"
   ],
   "note": "dec(enc a)=a and header parsing are hypotheses about numpy"
  },
  {
   "property": "C06",
   "status": "proved",
   "theorems": [
    "C06_default_load_counts_refuted",
    "C06_default_load_content"
   ],
   "note": "refuted expectation + exact law of what is loaded"
  },
  {
   "property": "C07",
   "status": "proved",
   "theorems": [
    "C07_pvar_any_reduction"
   ],
   "note": "exact rationals, any reduction tree"
  },
  {
   "property": "C08",
   "status": "proved",
   "theorems": [
    "C08_pvar_empty_piece_is_nan",
    "C08_empty_pieces_iff_more_ranks_than_entries"
   ],
   "note": "NaN as None"
  },
  {
   "property": "C09",
   "status": "proved",
   "theorems": [
    "C09_subcomm_grid",
    "C09_subcomm_every_cell_one_rank"
   ],
   "note": ""
  },
  {
   "property": "C10",
   "status": "proved",
   "theorems": [
    "C10_reads_concatenation",
    "C10_split_independent",
    "C10_shape_mismatch_rejected",
    "C10_accepted"
   ],
   "note": ""
  },
  {
   "property": "C11",
   "status": "proved",
   "theorems": [
    "C11_single_dataset_snapshot",
    "C11_single_dataset_stream"
   ],
   "note": ""
  },
  {
   "property": "C12",
   "status": "proved",
   "theorems": [
    "C12_later_dataset_law",
    "C12_stream_of_several_datasets",
    "C12_stream_never_complete_refuted"
   ],
   "note": "exact law of the wrong rows; refuted expectation"
  },
  {
   "property": "C13",
   "status": "proved",
   "theorems": [
    "C13_imaginary_part_lost"
   ],
   "note": "complex numbers as pairs; cast keeps the real part"
  },
  {
   "property": "C14",
   "status": "proved",
   "theorems": [
    "C14_two_stage_read_any_message_order",
    "C14_two_stage_read_never_wrong",
    "C14_pieces_cover"
   ],
   "note": "every arrival order of the messages; netCDF/xarray label selection modelled; also: a read that does not raise is right whatever the labels"
  },
  {
   "property": "C15",
   "status": "proved",
   "theorems": [
    "C15_chunked_store_tiles_the_record"
   ],
   "note": ""
  },
  {
   "property": "C16",
   "status": "proved",
   "theorems": [
    "C16_unique_labels_select_exactly",
    "C16_repeated_boundary_label_raises",
    "C16_never_wrong_rows"
   ],
   "note": ""
  },
  {
   "property": "C17",
   "status": "proved",
   "theorems": [
    "C17_last_block_nonempty_iff",
    "C17_large_snapshots_always_fail",
    "C17_small_snapshots_always_fit"
   ],
   "note": "exact arithmetic for the number of chunks (the code uses floats)"
  },
  {
   "property": "C18",
   "status": "proved",
   "theorems": [
    "C18_padded_path_always_fails",
    "C18_padded_path_always_fails_mat"
   ],
   "note": "MPI version and message size as parameters; the exception is the unassigned timer variable"
  },
  {
   "property": "C19",
   "status": "proved",
   "theorems": [
    "C19_sorted_name_order",
    "C19_sorted_exists"
   ],
   "note": "any total order on names; file contents one field per variable"
  },
  {
   "property": "C20",
   "status": "proved",
   "theorems": [
    "C20_overlap_is_ceiling_and_hop_positive",
    "C20_rejected_iff"
   ],
   "note": "overlap is an exact rational (a float in the code)"
  },
  {
   "property": "C21",
   "status": "proved",
   "theorems": [
    "C21_blocks_tile_the_record",
    "C21_accepted_iff_two_blocks_fit"
   ],
   "note": ""
  },
  {
   "property": "C22",
   "status": "proved",
   "theorems": [
    "C22_long_time_mean_in_memory",
    "C22_long_time_mean_chunked"
   ],
   "note": "snapshots in any monoid; exact arithmetic"
  },
  {
   "property": "C23",
   "status": "proved",
   "theorems": [
    "C23_streaming_mean_is_first_snapshot_over_nt",
    "C23_streaming_mean_refuted"
   ],
   "note": "expectation refuted; exact law proved"
  },
  {
   "property": "C24",
   "status": "proved",
   "theorems": [
    "C24_one_sided_axis"
   ],
   "note": ""
  },
  {
   "property": "C25",
   "status": "proved",
   "theorems": [
    "C25_dft_frequency_within_nyquist",
    "C25_two_sided_axis_even",
    "C25_two_sided_axis_odd_refuted"
   ],
   "note": "even case proved, odd case refuted with exact law"
  },
  {
   "property": "C26",
   "status": "proved",
   "theorems": [
    "C26_accepted_iff_right_size",
    "C26_default_is_one",
    "C26_flat_weights_parallel_pairing",
    "C26_flat_weights_other_axis_raises"
   ],
   "note": ""
  },
  {
   "property": "C27",
   "status": "proved",
   "theorems": [
    "C27_caller_weights_divided_at_every_fit",
    "C27_refit_refuted"
   ],
   "note": "expectation refuted; exact law for any number of fits"
  },
  {
   "property": "C28",
   "status": "proved",
   "theorems": [
    "C28_saved_modes_minimum_over_history",
    "C28_never_more_than_blocks_or_requested",
    "C28_expectation_refuted"
   ],
   "note": ""
  },
  {
   "property": "C29",
   "status": "proved",
   "theorems": [
    "C29_result_folders_separate"
   ],
   "note": ""
  },
  {
   "property": "C30",
   "status": "proved",
   "theorems": [
    "C30_storage_options",
    "C30_consistent_accepted"
   ],
   "note": ""
  },
  {
   "property": "C31",
   "status": "proved",
   "theorems": [
    "C31_blocks_from_chunked_store"
   ],
   "note": ""
  },
  {
   "property": "C32",
   "status": "proved",
   "theorems": [
    "C32_eigenvalues_rank_independent",
    "C32_modes_rank_independent",
    "C32_block_distribution",
    "C32_mode_files"
   ],
   "note": "any distribution of entries over ranks, and the block distribution used by the code; exact arithmetic; eig/argsort are arbitrary functions"
  },
  {
   "property": "C33",
   "status": "proved",
   "theorems": [
    "C33_each_file_written_once",
    "C33_file_contents",
    "C33_announced_files_are_written",
    "C33_no_message_left"
   ],
   "note": ""
  },
  {
   "property": "C34",
   "status": "proved",
   "theorems": [
    "C34_spod_matrix_hermitian_psd",
    "C34_reported_eigenvalues"
   ],
   "note": "exact arithmetic over any numClosedFieldType; eig returns unit eigenvectors of Hermitian matrices (existence proved)"
  },
  {
   "property": "C35",
   "status": "proved",
   "theorems": [
    "C35_modes_orthonormal",
    "C35_orthonormal_solver"
   ],
   "note": "distinct positive eigenvalues; also repeated ones when the solver returns orthonormal vectors"
  },
  {
   "property": "C36",
   "status": "proved",
   "theorems": [
    "C36_repeated_eigenvalue_refuted"
   ],
   "note": "refuted expectation"
  },
  {
   "property": "C37",
   "status": "proved",
   "theorems": [
    "C37_sorted_and_paired"
   ],
   "note": ""
  },
  {
   "property": "C38",
   "status": "proved",
   "theorems": [
    "C38_even_one_sided_total",
    "C38_odd_one_sided_total_refuted",
    "C38_full_spectrum_total_refuted"
   ],
   "note": "even one-sided total proved; odd and full-spectrum totals refuted with exact law"
  },
  {
   "property": "C39",
   "status": "proved",
   "theorems": [
    "C39_reuse_loads_what_was_saved",
    "C39_files_never_shared",
    "C39_reload_on_any_number_of_ranks",
    "C39_several_variables_refuted"
   ],
   "note": ""
  },
  {
   "property": "C40",
   "status": "proved",
   "theorems": [
    "C40_reuse_iff_all_files_exist",
    "C40_missing_file_forces_recomputation",
    "C40_damaged_file_raises",
    "C40_crash_damages_at_most_the_last_file",
    "C40_incomplete_file_accepted_refuted",
    "C40_stale_blocks_reused_refuted"
   ],
   "note": ""
  },
  {
   "property": "C41",
   "status": "proved",
   "theorems": [
    "C41_bounds_swapped_refuted"
   ],
   "note": "refuted expectation, inverse incomplete gamma as a monotone positive function"
  },
  {
   "property": "C42",
   "status": "proved",
   "theorems": [
    "C42_single_local_entry_raises",
    "C42_some_rank_count_fails"
   ],
   "note": ""
  },
  {
   "property": "C43",
   "status": "proved",
   "theorems": [
    "C43_schedule",
    "C43_at_most_one_completion"
   ],
   "note": ""
  },
  {
   "property": "C44",
   "status": "proved",
   "theorems": [
    "C44_blocks_differ_refuted",
    "C44_no_more_blocks"
   ],
   "note": ""
  },
  {
   "property": "C45",
   "status": "proved",
   "theorems": [
    "C45_completed_transform"
   ],
   "note": ""
  },
  {
   "property": "C46",
   "status": "proved",
   "theorems": [
    "C46_one_update",
    "C46_history_exact",
    "C46_history_bound"
   ],
   "note": ""
  },
  {
   "property": "C47",
   "status": "proved",
   "theorems": [
    "C47_orthonormal"
   ],
   "note": ""
  },
  {
   "property": "C48",
   "status": "proved",
   "theorems": [
    "C48_rank_independence"
   ],
   "note": ""
  },
  {
   "property": "C49",
   "status": "proved",
   "theorems": [
    "C49_degenerate_shapes",
    "C49_one_mode_refuted"
   ],
   "note": ""
  },
  {
   "property": "C50",
   "status": "proved",
   "theorems": [
    "C50_least_squares",
    "C50_reconstruction_iff"
   ],
   "note": "least squares, and exact reconstruction iff the tolerance cuts no non-zero singular value; SVD routine as hypothesis (existence proved); orthonormal modes shown to qualify"
  },
  {
   "property": "C51",
   "status": "proved",
   "theorems": [
    "C51_rank_independence"
   ],
   "note": "any partition of the entries over ranks, exact arithmetic"
  },
  {
   "property": "C52",
   "status": "proved",
   "theorems": [
    "C52_partial_sum_saved",
    "C52_rank_independence_refuted"
   ],
   "note": "refuted expectation with exact law of the difference; explicit counterexample for every configuration with a second rank"
  },
  {
   "property": "C53",
   "status": "proved",
   "theorems": [
    "C53_file_entry",
    "C53_scrambled_refuted"
   ],
   "note": "refuted expectation with exact law"
  },
  {
   "property": "C54",
   "status": "proved",
   "theorems": [
    "C54_correction_restores_the_window_sum",
    "C54_overlaps",
    "C54_beginning_refuted",
    "C54_end_refuted",
    "C54_skipped_refuted"
   ],
   "note": "refuted expectation with exact law at both ends"
  },
  {
   "property": "C55",
   "status": "proved",
   "theorems": [
    "C55_gathering_order",
    "C55_success"
   ],
   "note": ""
  },
  {
   "property": "C56",
   "status": "proved",
   "theorems": [
    "C56_both_bounds",
    "C56_ordered_bounds",
    "C56_missing_bound",
    "C56_list_needs_bounds_refuted",
    "C56_swapped_bounds"
   ],
   "note": ""
  },
  {
   "property": "C57",
   "status": "proved",
   "theorems": [
    "C57_keywords",
    "C57_unknown_rejected",
    "C57_other_type_rejected",
    "C57_lists",
    "C57_default"
   ],
   "note": ""
  },
  {
   "property": "C58",
   "status": "proved",
   "theorems": [
    "C58_value",
    "C58_imaginary_part_ignored_refuted",
    "C58_decision"
   ],
   "note": "refuted expectation, exact decision, and the tested value is the weighted inner product on any number of ranks"
  },
  {
   "property": "C59",
   "status": "proved",
   "theorems": [
    "C59_rank_independence"
   ],
   "note": "exact arithmetic, any partition of the entries"
  },
  {
   "property": "C60",
   "status": "proved",
   "theorems": [
    "C60_constant_weights",
    "C60_unit_weights_exact",
    "C60_weights_ignored_refuted",
    "C60_unit_weights_least_squares"
   ],
   "note": "exact for unit weights, best approximation with fewer modes; refuted for every other constant weight"
  },
  {
   "property": "C61",
   "status": "proved",
   "theorems": [
    "C61_accepted",
    "C61_variable_axis_refuted",
    "C61_default_modes_refuted"
   ],
   "note": "exact acceptance condition on shapes and parameter; refuted expectations"
  },
  {
   "property": "C62",
   "status": "proved",
   "theorems": [
    "C62_energy_order_refuted"
   ],
   "note": "refuted expectation: for every admissible solver another one leaves the most energetic mode out"
  },
  {
   "property": "C63",
   "status": "proved",
   "theorems": [
    "C63_nearest_frequency",
    "C63_unique",
    "C63_empty_axis"
   ],
   "note": ""
  },
  {
   "property": "C64",
   "status": "proved",
   "theorems": [
    "C64_law",
    "C64_nearest_coordinates",
    "C64_two_dimensions",
    "C64_wrong_shape_rejected",
    "C64_index_refuted"
   ],
   "note": "refuted expectation on indices with exact law"
  },
  {
   "property": "C65",
   "status": "proved",
   "theorems": [
    "C65_names_never_collide",
    "C65_all_modes_per_frequency",
    "C65_all_modes_per_mode",
    "C65_modes_of_a_frequency",
    "C65_modes_of_a_frequency_per_mode"
   ],
   "note": "decimal names as strings, any directory listing order"
  },
  {
   "property": "C66",
   "status": "proved",
   "theorems": [
    "C66_2d",
    "C66_positive_refuted",
    "C66_positive_elsewhere",
    "C66_3d",
    "C66_3d_one_variable",
    "C66_3d_variables_refuted",
    "C66_small_grids_rejected"
   ],
   "note": ""
  },
  {
   "property": "C67",
   "status": "proved",
   "theorems": [
    "C67_normalised_weight_times_variance",
    "C67_parallel_equals_serial",
    "C67_other_methods_do_nothing"
   ],
   "note": "exact rationals; NaN/inf as None; any reduction tree and rank order"
  },
  {
   "property": "C68",
   "status": "proved",
   "theorems": [
    "C68_distances",
    "C68_constant_error",
    "C68_relative",
    "C68_relative_linf",
    "C68_relative_linf_refuted",
    "C68_h1",
    "C68_h1_refuted",
    "C68_unknown_norm"
   ],
   "note": ""
  },
  {
   "property": "C69",
   "status": "proved",
   "theorems": [
    "C69_values",
    "C69_accepted_iff",
    "C69_missing_keys_refuted",
    "C69_second_key_of_an_item_refuted"
   ],
   "note": "refuted expectations about missing keys and further keys"
  },
  {
   "property": "C70",
   "status": "proved",
   "theorems": [
    "C70_extension_decides",
    "C70_explicit_format_wins",
    "C70_no_extension_rejected",
    "C70_numpy_refuted"
   ],
   "note": "refuted expectation for .npy; splitext modelled on characters"
  },
  {
   "property": "C71",
   "status": "proved",
   "theorems": [
    "C71_round_trip",
    "C71_local_scale",
    "C71_local_bound",
    "C71_global_scale",
    "C71_zero_row_lost",
    "C71_complex_recovery_refuted",
    "C71_case_of_complex"
   ],
   "note": "exact rationals; complex local scaling refuted"
  },
  {
   "property": "C72",
   "status": "proved",
   "theorems": [
    "C72_sequences",
    "C72_no_leak",
    "C72_bad_horizon_rejected",
    "C72_all_samples_refuted"
   ],
   "note": "no leak and exact law; refuted: the last admissible window is not used"
  },
  {
   "property": "C73",
   "status": "proved",
   "theorems": [
    "C73_inference",
    "C73_short_record",
    "C73_one_block_ahead"
   ],
   "note": "the network is an arbitrary function"
  },
  {
   "property": "C74",
   "status": "proved",
   "theorems": [
    "C74_symmetric",
    "C74_bounds",
    "C74_ends",
    "C74_mean",
    "C74_mean_two",
    "C74_gain",
    "C74_amplitude"
   ],
   "note": ""
  },
  {
   "property": "C75",
   "status": "proved",
   "theorems": [
    "C75_restored_on_success",
    "C75_history",
    "C75_unchanged_refuted",
    "C75_latitude_first",
    "C75_even_grid_correct",
    "C75_odd_grid_refuted",
    "C75_longitude_first_refuted"
   ],
   "note": ""
  },
  {
   "property": "C76",
   "status": "proved",
   "theorems": [
    "C76_law",
    "C76_even_signals",
    "C76_even_part_only",
    "C76_odd_signals_refuted",
    "C76_energy_lost"
   ],
   "note": ""
  },
  {
   "property": "C77",
   "status": "proved",
   "theorems": [
    "C77_first_snapshot_decides_reality"
   ],
   "note": ""
  },
  {
   "property": "C78",
   "status": "proved",
   "theorems": [
    "C78_stream_from_mat_files_never_ends",
    "C78_stream_from_nc_files_never_ends"
   ],
   "note": ""
  },
  {
   "property": "C79",
   "status": "proved",
   "theorems": [
    "C79_repeated_file_rejected"
   ],
   "note": ""
  },
  {
   "property": "C80",
   "status": "proved",
   "theorems": [
    "C80_array_weights_ignored",
    "C80_expectation_refuted"
   ],
   "note": ""
  },
  {
   "property": "C81",
   "status": "proved",
   "theorems": [
    "C81_integer_weights_truncated",
    "C81_weights_without_variable_axis",
    "C81_short_last_axis_raises"
   ],
   "note": ""
  },
  {
   "property": "C82",
   "status": "proved",
   "theorems": [
    "C82_file_based_fit_with_normalised_weights_raises"
   ],
   "note": ""
  },
  {
   "property": "C83",
   "status": "proved",
   "theorems": [
    "C83_modes_solve_csd_eigenproblem"
   ],
   "note": "any positive or zero weights; exact arithmetic"
  },
  {
   "property": "C84",
   "status": "proved",
   "theorems": [
    "C84_coeffs",
    "C84_reconstruction",
    "C84_directories_ignored",
    "C84_refit_refuted"
   ],
   "note": "numerical kernels are parameters; any number of objects and interruptions"
  },
  {
   "property": "C85",
   "status": "proved",
   "theorems": [
    "C85_saved_values_are_roots",
    "C85_weights_below_one"
   ],
   "note": ""
  },
  {
   "property": "C86",
   "status": "proved",
   "theorems": [
    "C86_constant_stream_outcome",
    "C86_full_basis_raises",
    "C86_constant_stream_refuted",
    "C86_full_basis_refuted"
   ],
   "note": ""
  },
  {
   "property": "C87",
   "status": "proved",
   "theorems": [
    "C87_dropped_directions_refuted"
   ],
   "note": "refuted expectation"
  },
  {
   "property": "C88",
   "status": "proved",
   "theorems": [
    "C88_convolution_shapes",
    "C88_error_refuted"
   ],
   "note": "array shapes only; single entry on any rank fails too"
  },
  {
   "property": "C89",
   "status": "proved",
   "theorems": [
    "C89_undefined_mode_refuted"
   ],
   "note": "refuted expectation"
  },
  {
   "property": "C90",
   "status": "proved",
   "theorems": [
    "C90_pod_mean"
   ],
   "note": ""
  },
  {
   "property": "C91",
   "status": "proved",
   "theorems": [
    "C91_imaginary_part_lost_refuted"
   ],
   "note": "refuted expectation"
  },
  {
   "property": "C92",
   "status": "proved",
   "theorems": [
    "C92_orthonormal_modes"
   ],
   "note": "real symmetric eigen-solver existence proved"
  },
  {
   "property": "C93",
   "status": "proved",
   "theorems": [
    "C93_total_energy"
   ],
   "note": ""
  },
  {
   "property": "C94",
   "status": "proved",
   "theorems": [
    "C94_second_read_fails",
    "C94_absolute_paths_repeat",
    "C94_repeatable_refuted"
   ],
   "note": "refuted expectation"
  },
  {
   "property": "C95",
   "status": "proved",
   "theorems": [
    "C95_integer_data_vanish",
    "C95_round_trip_refuted"
   ],
   "note": "refuted expectation"
  },
  {
   "property": "C96",
   "status": "proved",
   "theorems": [
    "C96_modes_idx_ignored"
   ],
   "note": "refuted expectation"
  },
  {
   "property": "C97",
   "status": "proved",
   "theorems": [
    "C97_last_computation",
    "C97_shared_refuted",
    "C97_isolation"
   ],
   "note": "noninterference between savedirs proved, sharing within one refuted"
  },
  {
   "property": "C98",
   "status": "proved",
   "theorems": [
    "C98_reconstruction_needs_completed",
    "C98_coefficients_need_completed",
    "C98_torn_file_detected",
    "C98_mixture_refuted"
   ],
   "note": "detection proved where it holds, undetected mixture exhibited for every such history"
  },
  {
   "property": "C99",
   "status": "proved",
   "theorems": [
    "C99_per_frequency",
    "C99_shadowed_refuted",
    "C99_per_mode_fresh",
    "C99_more_modes_refuted"
   ],
   "note": "refuted expectations with the exact condition"
  },
  {
   "property": "C100",
   "status": "proved",
   "theorems": [
    "C100_rectangular_grid",
    "C100_square_grid_refuted",
    "C100_second_axis_first",
    "C100_all_pictures"
   ],
   "note": "square grids refuted"
  },
  {
   "property": "C101",
   "status": "proved",
   "theorems": [
    "C101_nonnegative_indices",
    "C101_function_counts_from_end",
    "C101_method_refuted"
   ],
   "note": "refuted for the method"
  },
  {
   "property": "C102",
   "status": "proved",
   "theorems": [
    "C102_tracer_location_refuted",
    "C102_function_windows",
    "C102_method_windows_refuted",
    "C102_video_function",
    "C102_video_method_refuted"
   ],
   "note": "refuted for the methods and for the location"
  },
  {
   "property": "C103",
   "status": "proved",
   "theorems": [
    "C103_several_variables_refuted",
    "C103_frequency_refuted"
   ],
   "note": "refuted expectations"
  },
  {
   "property": "C104",
   "status": "proved",
   "theorems": [
    "C104_exactly_the_peaks",
    "C104_close_peaks_equal",
    "C104_scale_invariant",
    "C104_flat_top_refuted",
    "C104_negative_frequency_refuted",
    "C104_report_draws_its_modes",
    "C104_period_units"
   ],
   "note": "exact rationals; flat maxima and negative frequencies refuted"
  },
  {
   "property": "C105",
   "status": "proved",
   "theorems": [
    "C105_slice_axes",
    "C105_largest_slice_refuted"
   ],
   "note": "exact condition; default slice refuted"
  },
  {
   "property": "C106",
   "status": "proved",
   "theorems": [
    "C106_lines_swapped_refuted"
   ],
   "note": "refuted expectation"
  },
  {
   "property": "C107",
   "status": "proved",
   "theorems": [
    "C107_mat_store_tiles_the_sorted_record",
    "C107_no_empty_chunk",
    "C107_five_processes_never_fail",
    "C107_few_processes_can_fail",
    "C107_small_record_one_chunk"
   ],
   "note": "sizes computed exactly"
  },
  {
   "property": "C108",
   "status": "proved",
   "theorems": [
    "C108_no_orthonormal_set_captures_more",
    "C108_mode_captures_its_eigenvalue"
   ],
   "note": "exact arithmetic; eigensolver any with unit eigenvectors forming a basis"
  },
  {
   "property": "C109",
   "status": "proved",
   "theorems": [
    "C109_eigenvalues_solver_independent",
    "C109_characteristic_roots"
   ],
   "note": "exact arithmetic"
  },
  {
   "property": "C110",
   "status": "proved",
   "theorems": [
    "C110_modes_reproduce_the_csd"
   ],
   "note": "exact arithmetic"
  },
  {
   "property": "C111",
   "status": "proved",
   "theorems": [
    "C111_more_blocks_than_points"
   ],
   "note": "the zero eigenvalues are proved; division by them gives inf/nan in numpy"
  },
  {
   "property": "C112",
   "status": "proved",
   "theorems": [
    "C112_data_units",
    "C112_weight_units",
    "C112_normalised_data_inverts_units_refuted"
   ],
   "note": "normalisation refuted"
  },
  {
   "property": "C113",
   "status": "proved",
   "theorems": [
    "C113_steady_field_is_irrelevant",
    "C113_zero_mean_keeps_the_steady_field"
   ],
   "note": ""
  },
  {
   "property": "C114",
   "status": "proved",
   "theorems": [
    "C114_mirrored_frequencies_agree",
    "C114_full_spectrum_asymmetric_refuted"
   ],
   "note": "full spectrum refuted"
  },
  {
   "property": "C115",
   "status": "proved",
   "theorems": [
    "C115_last_fit_in_folder",
    "C115_other_objects_modes_refuted",
    "C115_folders_differ"
   ],
   "note": ""
  },
  {
   "property": "C116",
   "status": "proved",
   "theorems": [
    "C116_no_influence"
   ],
   "note": ""
  },
  {
   "property": "C117",
   "status": "proved",
   "theorems": [
    "C117_stale_after_refit_refuted",
    "C117_needs_own_coefficients"
   ],
   "note": ""
  },
  {
   "property": "C118",
   "status": "proved",
   "theorems": [
    "C118_needs_completed_runs",
    "C118_torn_file_detected",
    "C118_mixture_refuted"
   ],
   "note": ""
  },
  {
   "property": "C119",
   "status": "proved",
   "theorems": [
    "C119_other_names_are_safe",
    "C119_input_names_refuted"
   ],
   "note": ""
  },
  {
   "property": "C120",
   "status": "proved",
   "theorems": [
    "C120_file_describes_the_fit",
    "C120_other_entries_refuted",
    "C120_separate_dictionaries",
    "C120_folder_prefixed_once",
    "C120_later_objects_inherit_refuted"
   ],
   "note": ""
  },
  {
   "property": "C121",
   "status": "proved",
   "theorems": [
    "C121_fit_arrays_is_spod"
   ],
   "note": ""
  },
  {
   "property": "C122",
   "status": "proved",
   "theorems": [
    "C122_fit_files_is_spod"
   ],
   "note": ""
  },
  {
   "property": "C123",
   "status": "proved",
   "theorems": [
    "C123_processes_and_split_invisible",
    "C123_files_and_arrays_agree"
   ],
   "note": ""
  },
  {
   "property": "C124",
   "status": "proved",
   "theorems": [
    "C124_saved_results",
    "C124_saved_mode_files"
   ],
   "note": ""
  },
  {
   "property": "C125",
   "status": "proved",
   "theorems": [
    "C125_reader_exchange_never_deadlocks",
    "C125_mode_exchange_never_deadlocks",
    "C125_exchanges_finish"
   ],
   "note": ""
  },
  {
   "property": "C126",
   "status": "proved",
   "theorems": [
    "C126_reader_arrivals",
    "C126_mode_arrivals",
    "C126_chunk_data_independent_of_schedule",
    "C126_mode_file_independent_of_schedule"
   ],
   "note": ""
  },
  {
   "property": "C127",
   "status": "proved",
   "theorems": [
    "C127_coefficient_of_a_block",
    "C127_no_correction_inside",
    "C127_coefficients_uncorrelated"
   ],
   "note": ""
  },
  {
   "property": "C128",
   "status": "proved",
   "theorems": [
    "C128_returned_array_is_the_file",
    "C128_edits_change_the_saved_modes",
    "C128_reading_is_harmless_refuted",
    "C128_other_readers_are_harmless",
    "C128_copies_are_private",
    "C128_read_only_results"
   ],
   "note": ""
  },
  {
   "property": "C129",
   "status": "proved",
   "theorems": [
    "C129_real_part_uses_best_epoch",
    "C129_imaginary_part_uses_best_epoch",
    "C129_failed_training_keeps_old_weights",
    "C129_stale_imaginary_part_refuted",
    "C129_inference_is_an_observation_refuted"
   ],
   "note": ""
  },
  {
   "property": "C130",
   "status": "proved",
   "theorems": [
    "C130_after_a_fit_that_returns",
    "C130_what_the_attributes_say",
    "C130_two_blocks_are_enough",
    "C130_failed_attempts_keep_results",
    "C130_attributes_belong_to_one_fit_refuted",
    "C130_zero_eigenvalues_refuted",
    "C130_reading_modes_through_the_object"
   ],
   "note": ""
  },
  {
   "property": "C131",
   "status": "proved",
   "theorems": [
    "C131_every_eigenvalue_within_the_axes",
    "C131_curves_are_the_spectra",
    "C131_one_sided_spectrum_shown",
    "C131_two_sided_spectrum_half_missing_refuted",
    "C131_grey_levels",
    "C131_axes_cut_the_domain_refuted"
   ],
   "note": ""
  },
  {
   "property": "C132",
   "status": "proved",
   "theorems": [
    "C132_record_comes_back",
    "C132_snapshots_outside_the_blocks_refuted",
    "C132_too_few_modes_refuted"
   ],
   "note": ""
  },
  {
   "property": "C133",
   "status": "proved",
   "theorems": [
    "C133_double_stays_double",
    "C133_single_stays_single",
    "C133_methods_forget_the_precision_refuted",
    "C133_meaning_of_the_argument",
    "C133_np_float64_refuted",
    "C133_single_is_not_enough_refuted",
    "C133_double_does_not_raise_refuted",
    "C133_reconstruction_precision"
   ],
   "note": ""
  },
  {
   "property": "C134",
   "status": "proved",
   "theorems": [
    "C134_modes_are_the_components",
    "C134_separable_field"
   ],
   "note": ""
  },
  {
   "property": "C135",
   "status": "proved",
   "theorems": [
    "C135_complex_tone",
    "C135_real_tone",
    "C135_reports_the_mean_square"
   ],
   "note": ""
  },
  {
   "property": "C136",
   "status": "proved",
   "theorems": [
    "C136_layout_of_points"
   ],
   "note": ""
  },
  {
   "property": "C137",
   "status": "proved",
   "theorems": [
    "C137_trailing_snapshots",
    "C137_time_reversal"
   ],
   "note": ""
  },
  {
   "property": "C138",
   "status": "proved",
   "theorems": [
    "C138_saved_modes_capture",
    "C138_saved_mode_not_optimal_refuted"
   ],
   "note": ""
  },
  {
   "property": "C139",
   "status": "proved",
   "theorems": [
    "C139_collective_calls_match",
    "C139_no_process_raises",
    "C139_never_stuck",
    "C139_ends_after_boundedly_many_steps",
    "C139_every_run_can_be_completed",
    "C139_files_are_read_complete",
    "C139_processes_see_the_same_files",
    "C139_files_left",
    "C139_schedule_does_not_matter"
   ],
   "note": ""
  },
  {
   "property": "C140",
   "status": "proved",
   "theorems": [
    "C140_nobody_returns_after_an_error",
    "C140_runs_halt",
    "C140_the_others_wait_forever"
   ],
   "note": ""
  },
  {
   "property": "C141",
   "status": "proved",
   "theorems": [
    "C141_parameter_file_complete",
    "C141_incomplete_before_the_end_refuted"
   ],
   "note": ""
  },
  {
   "property": "C142",
   "status": "proved",
   "theorems": [
    "C142_one_file_per_mode",
    "C142_one_file_per_slice",
    "C142_one_file_per_snapshot",
    "C142_one_file_per_place",
    "C142_frequencies_have_own_files_refuted",
    "C142_slices_have_own_files_refuted",
    "C142_coefficient_curves",
    "C142_coefficient_files",
    "C142_open_figures_untouched_refuted",
    "C142_curves_on_screen",
    "C142_pages",
    "C142_open_figures_over_a_session"
   ],
   "note": ""
  },
  {
   "property": "C143",
   "status": "proved",
   "theorems": [
    "C143_first_field_painted",
    "C143_constant_fields_raise",
    "C143_other_fields_painted_refuted",
    "C143_third_without_second_raises"
   ],
   "note": ""
  },
  {
   "property": "C144",
   "status": "proved",
   "theorems": [
    "C144_perfect_is_one",
    "C144_at_most_one",
    "C144_roles_exchanged",
    "C144_mean_prediction_scores_zero_refuted",
    "C144_higher_score_is_better_refuted"
   ],
   "note": ""
  },
  {
   "property": "C145",
   "status": "proved",
   "theorems": [
    "C145_sizes_of_arrays",
    "C145_sizes_serial",
    "C145_streaming_reports_one_snapshot",
    "C145_sizes_of_netcdf_files",
    "C145_sizes_of_matlab_files",
    "C145_pod_size",
    "C145_gigabytes"
   ],
   "note": ""
  },
  {
   "property": "C146",
   "status": "proved",
   "theorems": [
    "C146_every_coefficient_in_its_column",
    "C146_room_for_one_frequency",
    "C146_no_blocks"
   ],
   "note": ""
  },
  {
   "property": "C147",
   "status": "proved",
   "theorems": [
    "C147_rounded_up_quotients",
    "C147_overlap_in_whole_percent",
    "C147_any_overlap",
    "C147_half_block_plus_one",
    "C147_chunks"
   ],
   "note": ""
  },
  {
   "property": "C148",
   "status": "proved",
   "theorems": [
    "C148_long_time_mean",
    "C148_every_layout_agrees",
    "C148_integer_data_bit_for_bit",
    "C148_entry_of_the_matrix",
    "C148_process_counts_agree",
    "C148_same_bits_for_every_block_count_refuted",
    "C148_same_bits_for_every_process_count_refuted"
   ],
   "note": ""
  },
  {
   "property": "C149",
   "status": "proved",
   "theorems": [
    "C149_axis_of_real_data",
    "C149_axis_of_complex_data",
    "C149_a_frequency_finds_itself"
   ],
   "note": ""
  },
  {
   "property": "C150",
   "status": "proved",
   "theorems": [
    "C150_running_mean",
    "C150_constant_record_exact"
   ],
   "note": ""
  },
  {
   "property": "C151",
   "status": "proved",
   "theorems": [
    "C151_errors_in_the_matrix",
    "C151_two_runs",
    "C151_disturbance",
    "C151_small_disturbance"
   ],
   "note": ""
  },
  {
   "property": "C152",
   "status": "proved",
   "theorems": [
    "C152_oblique_file",
    "C152_convolution_file",
    "C152_no_times",
    "C152_order_of_the_serial_file",
    "C152_same_bytes_refuted"
   ],
   "note": ""
  },
  {
   "property": "C153",
   "status": "proved",
   "theorems": [
    "C153_disturbed_modes",
    "C153_isolated_mode",
    "C153_small_disturbance",
    "C153_errors_in_the_matrix"
   ],
   "note": ""
  },
  {
   "property": "C154",
   "status": "proved",
   "theorems": [
    "C154_raises_iff",
    "C154_otherwise_the_clean_result",
    "C154_parallel_normalisation",
    "C154_serial_normalisation"
   ],
   "note": ""
  },
  {
   "property": "C155",
   "status": "proved",
   "theorems": [
    "C155_missing_value_raises",
    "C155_otherwise_the_clean_result"
   ],
   "note": ""
  },
  {
   "property": "C156",
   "status": "proved",
   "theorems": [
    "C156_coefficients_raise_iff",
    "C156_one_missing_value_everything_nan",
    "C156_complete",
    "C156_convolution",
    "C156_convolution_complete",
    "C156_pod_fit_raises_iff",
    "C156_pod_fit_complete",
    "C156_pod_coefficients_nan_iff",
    "C156_pod_reconstruction"
   ],
   "note": ""
  },
  {
   "property": "C157",
   "status": "proved",
   "theorems": [
    "C157_sum_of_native_arrays",
    "C157_swapped_arrays_misread_refuted",
    "C157_saved_values"
   ],
   "note": ""
  },
  {
   "property": "C158",
   "status": "proved",
   "theorems": [
    "C158_fit_stream_is_streaming_spod",
    "C158_several_datasets_refuted",
    "C158_processes_invisible",
    "C158_saved_results"
   ],
   "note": ""
  },
  {
   "property": "C159",
   "status": "proved",
   "theorems": [
    "C159_fit_is_pod_of_the_record",
    "C159_processes_and_split_invisible",
    "C159_saved_results",
    "C159_too_many_modes_refuted"
   ],
   "note": ""
  },
  {
   "property": "C160",
   "status": "proved",
   "theorems": [
    "C160_contents_of_the_files",
    "C160_best_approximation",
    "C160_missing_modes_raise"
   ],
   "note": ""
  },
  {
   "property": "C161",
   "status": "proved",
   "theorems": [
    "C161_record_returns"
   ],
   "note": ""
  },
  {
   "property": "C162",
   "status": "proved",
   "theorems": [
    "C162_contents_of_the_files",
    "C162_constant_weights",
    "C162_record_returns",
    "C162_weights_ignored_refuted"
   ],
   "note": ""
  },
  {
   "property": "C163",
   "status": "proved",
   "theorems": [
    "C163_contents_of_the_files",
    "C163_other_processes_are_lost",
    "C163_rows_follow_the_stored_order_refuted",
    "C163_missing_modes_raise"
   ],
   "note": ""
  },
  {
   "property": "C164",
   "status": "proved",
   "theorems": [
    "C164_coefficients_at_the_blocks",
    "C164_energy_of_the_blocks"
   ],
   "note": ""
  },
  {
   "property": "C165",
   "status": "proved",
   "theorems": [
    "C165_stored_arrays",
    "C165_stored_netcdf",
    "C165_serial_coefficients_from_a_table",
    "C165_parallel_coefficients_from_a_table_refuted",
    "C165_parallel_coefficients_from_a_table_even",
    "C165_parallel_coefficients_wrong_weights_refuted",
    "C165_convolution_from_a_table"
   ],
   "note": ""
  },
  {
   "property": "C166",
   "status": "proved",
   "theorems": [
    "C166_serial_coefficients_from_mode_files",
    "C166_parallel_coefficients_from_mode_files",
    "C166_record_returns"
   ],
   "note": ""
  },
  {
   "property": "C167",
   "status": "proved",
   "theorems": [
    "C167_one_process_ignores_the_shape",
    "C167_flattened_weights_in_parallel_refuted",
    "C167_flattened_weights_even_shares",
    "C167_streaming"
   ],
   "note": ""
  }
 ]
}