{
 "claims": [
  {
   "property": "C01",
   "status": "proved",
   "theorems": [
    "c01_call_parameters",
    "c01_constructor",
    "c01_documented_defaults"
   ],
   "note": ""
  },
  {
   "property": "C02",
   "status": "proved",
   "theorems": [
    "c02_default",
    "c02_default_sources",
    "c02_too_many",
    "c02_negative",
    "c02_ip_default_refuted",
    "c02_ip_default_error",
    "c02_ip_too_many"
   ],
   "note": "proved that an expectation fails, with witness: c02_ip_default_refuted"
  },
  {
   "property": "C03",
   "status": "proved",
   "theorems": [
    "c03_laplace",
    "c03_gauss",
    "c03_nmf",
    "c03_nmf_empty",
    "c03_tiss_no_projection",
    "c03_tiss",
    "c03_tiss_batched",
    "c03_tiss_no_iteration",
    "c03_tiss_negative_mic",
    "c03_tiss_no_such_mic",
    "c03_ip",
    "c03_ip_mic_refuted",
    "c03_ip_negative_mic",
    "c03_ip_no_such_mic",
    "c03_ip2",
    "c03_ip2_channels",
    "c03_ip2_no_such_mic",
    "c03_wpe",
    "c03_wpe_no_taps",
    "c03_wpe_model_refuted"
   ],
   "note": "proved that an expectation fails, with witness: c03_ip_mic_refuted, c03_wpe_model_refuted"
  },
  {
   "property": "C04",
   "status": "proved",
   "theorems": [
    "c04_shape",
    "c04_no_projection",
    "c04_no_projection_no_iteration",
    "c04_power_iterations"
   ],
   "note": ""
  },
  {
   "property": "C05",
   "status": "proved",
   "theorems": [
    "c05_mvdr",
    "c05_mvdr_masks",
    "c05_mwf",
    "c05_mwf_time_varying",
    "c05_mwf_time_varying_masks",
    "c05_gev",
    "c05_one_mask",
    "c05_no_such_mic"
   ],
   "note": ""
  },
  {
   "property": "C06",
   "status": "proved",
   "theorems": [
    "c06_hankel_view",
    "c06_hankel_too_many_rows",
    "c06_delay_line",
    "c06_numeric_delay_line"
   ],
   "note": ""
  },
  {
   "property": "C07",
   "status": "proved",
   "theorems": [
    "c07_causal",
    "c07_reverb_uses_old_frames"
   ],
   "note": ""
  },
  {
   "property": "C08",
   "status": "proved",
   "theorems": [
    "c08_solve_loaded_general_optimal"
   ],
   "note": ""
  },
  {
   "property": "C09",
   "status": "proved",
   "theorems": [
    "c09_solve_loaded_psd",
    "c09_indefinite_refuted",
    "c09_empty"
   ],
   "note": "proved that an expectation fails, with witness: c09_indefinite_refuted"
  },
  {
   "property": "C10",
   "status": "proved",
   "theorems": [
    "c10_inv_2x2",
    "c10_inv_2x2_total"
   ],
   "note": ""
  },
  {
   "property": "C11",
   "status": "proved",
   "theorems": [
    "c11_geigh_2x2",
    "c11_unit_norm",
    "c11_no_clamp_at_zero",
    "c11_diagonal_zero_column"
   ],
   "note": ""
  },
  {
   "property": "C12",
   "status": "proved",
   "theorems": [
    "c12_eigh_2x2_conjugate",
    "c12_eigh_2x2_real",
    "c12_eigh_2x2_complex_refuted",
    "c12_disc_nonneg",
    "c12_diagonal_zero"
   ],
   "note": "proved that an expectation fails, with witness: c12_eigh_2x2_complex_refuted"
  },
  {
   "property": "C13",
   "status": "proved",
   "theorems": [
    "c13_geigh",
    "c13_dispatch"
   ],
   "note": ""
  },
  {
   "property": "C14",
   "status": "proved",
   "theorems": [
    "c14_multiply",
    "c14_bmm",
    "c14_mag_sq",
    "c14_hermite",
    "c14_divide",
    "c14_diagonal_loading_raises"
   ],
   "note": ""
  },
  {
   "property": "C15",
   "status": "proved",
   "theorems": [
    "c15_filter_output",
    "c15_returned"
   ],
   "note": ""
  },
  {
   "property": "C16",
   "status": "proved",
   "theorems": [
    "c16_dmc"
   ],
   "note": ""
  },
  {
   "property": "C17",
   "status": "proved",
   "theorems": [
    "c17_never_singular",
    "c17_update_factor"
   ],
   "note": ""
  },
  {
   "property": "C18",
   "status": "proved",
   "theorems": [
    "c18_source_update",
    "c18_own_update",
    "c18_background_update",
    "c18_tap_update"
   ],
   "note": ""
  },
  {
   "property": "C19",
   "status": "proved",
   "theorems": [
    "c19_sweep",
    "c19_large_eps_refuted",
    "c19_iteration",
    "c19_scale_free",
    "c19_run",
    "c19_ln"
   ],
   "note": "proved that an expectation fails, with witness: c19_large_eps_refuted"
  },
  {
   "property": "C20",
   "status": "proved",
   "theorems": [
    "c20_actual",
    "c20_no_reverb",
    "c20_reverb_refuted"
   ],
   "note": "proved that an expectation fails, with witness: c20_reverb_refuted"
  },
  {
   "property": "C21",
   "status": "proved",
   "theorems": [
    "c21_projection_back",
    "c21_system",
    "c21_residual",
    "c21_sum",
    "c21_sum_determined"
   ],
   "note": ""
  },
  {
   "property": "C22",
   "status": "proved",
   "theorems": [
    "c22_ip2_zero_iterations",
    "c22_tiss_zero_iterations",
    "c22_wpe_zero_iterations"
   ],
   "note": ""
  },
  {
   "property": "C23",
   "status": "proved",
   "theorems": [
    "c23_forward",
    "c23_demixing",
    "c23_covariance",
    "c23_normalised",
    "c23_exact_update_optimal"
   ],
   "note": ""
  },
  {
   "property": "C24",
   "status": "proved",
   "theorems": [
    "c24_update",
    "c24_iteration"
   ],
   "note": ""
  },
  {
   "property": "C25",
   "status": "proved",
   "theorems": [
    "c25_outputs_sum",
    "c25_scaling"
   ],
   "note": ""
  },
  {
   "property": "C26",
   "status": "proved",
   "theorems": [
    "c26_whitening",
    "c26_two_channels_refuted",
    "c26_uncorrelated_silent"
   ],
   "note": "proved that an expectation fails, with witness: c26_two_channels_refuted"
  },
  {
   "property": "C27",
   "status": "proved",
   "theorems": [
    "c27_output_scale",
    "c27_no_iteration",
    "c27_no_iteration_refuted",
    "c27_returns"
   ],
   "note": "proved that an expectation fails, with witness: c27_no_iteration_refuted"
  },
  {
   "property": "C28",
   "status": "proved",
   "theorems": [
    "c28_dc_zero",
    "c28_one_channel",
    "c28_few_power_iterations",
    "c28_returns"
   ],
   "note": ""
  },
  {
   "property": "C29",
   "status": "proved",
   "theorems": [
    "c29_mvdr",
    "c29_forward_two_masks",
    "c29_forward_three_masks",
    "c29_forward_mask_count"
   ],
   "note": ""
  },
  {
   "property": "C30",
   "status": "proved",
   "theorems": [
    "c30_rtf_gevd",
    "c30_rtf_rank1",
    "c30_rtf_power"
   ],
   "note": ""
  },
  {
   "property": "C31",
   "status": "proved",
   "theorems": [
    "c31_mvdr_scm",
    "c31_singular_raises",
    "c31_silent_bin_raises"
   ],
   "note": ""
  },
  {
   "property": "C32",
   "status": "proved",
   "theorems": [
    "c32_mwf_all",
    "c32_mwf_ref",
    "c32_forward",
    "c32_forward_time_varying",
    "c32_eps_ignored",
    "c32_few_masks"
   ],
   "note": ""
  },
  {
   "property": "C33",
   "status": "proved",
   "theorems": [
    "c33_gev",
    "c33_forward",
    "c33_two_channels_refuted"
   ],
   "note": "proved that an expectation fails, with witness: c33_two_channels_refuted"
  },
  {
   "property": "C34",
   "status": "proved",
   "theorems": [
    "c34_wpe_iteration",
    "c34_wpe_default"
   ],
   "note": ""
  },
  {
   "property": "C35",
   "status": "proved",
   "theorems": [
    "c35_default_weights",
    "c35_default_weights_order",
    "c35_no_taps"
   ],
   "note": ""
  },
  {
   "property": "C36",
   "status": "proved",
   "theorems": [
    "c36_optimal",
    "c36_scale_invariant",
    "c36_idempotent",
    "c36_dispatch"
   ],
   "note": ""
  },
  {
   "property": "C37",
   "status": "proved",
   "theorems": [
    "c37_phase"
   ],
   "note": ""
  },
  {
   "property": "C38",
   "status": "proved",
   "theorems": [
    "c38_mixed_refuted",
    "c38_iterations",
    "c38_bad_exponents",
    "c38_l1_descent",
    "c38_l1_smoothing",
    "c38_lp_descent",
    "c38_lp_run",
    "c38_lp_smoothing",
    "c38_power",
    "c38_batch",
    "c38_batch_independence_refuted"
   ],
   "note": "proved that an expectation fails, with witness: c38_mixed_refuted, c38_batch_independence_refuted"
  },
  {
   "property": "C39",
   "status": "proved",
   "theorems": [
    "c39_laplace",
    "c39_gauss",
    "c39_silence"
   ],
   "note": ""
  },
  {
   "property": "C40",
   "status": "proved",
   "theorems": [
    "c40_update",
    "c40_history",
    "c40_reset",
    "c40_continues"
   ],
   "note": ""
  },
  {
   "property": "C41",
   "status": "proved",
   "theorems": [
    "c41_divergence",
    "c41_divergence_ln"
   ],
   "note": ""
  },
  {
   "property": "C42",
   "status": "proved",
   "theorems": [
    "c42_tiss_isolation",
    "c42_ip_isolation",
    "c42_ip2_isolation",
    "c42_five_isolation",
    "c42_history",
    "c42_reset_flag",
    "c42_reset_true",
    "c42_reset_false",
    "c42_no_reset_method",
    "c42_wpe_refuted"
   ],
   "note": "proved that an expectation fails, with witness: c42_wpe_refuted"
  },
  {
   "property": "C43",
   "status": "proved",
   "theorems": [
    "c43_full",
    "c43_support",
    "c43_same",
    "c43_valid",
    "c43_valid_samples",
    "c43_other_mode"
   ],
   "note": ""
  },
  {
   "property": "C44",
   "status": "proved",
   "theorems": [
    "c44_select",
    "c44_count"
   ],
   "note": ""
  },
  {
   "property": "C45",
   "status": "proved",
   "theorems": [
    "c45_length",
    "c45_round_trip",
    "c45_lost",
    "c45_no_failure",
    "c45_short",
    "c45_one_hop",
    "c45_tiny_fft",
    "c45_long_hop",
    "c45_hann",
    "c45_default"
   ],
   "note": ""
  },
  {
   "property": "C46",
   "status": "proved",
   "theorems": [
    "c46_named",
    "c46_unknown_name",
    "c46_custom_window_refuted"
   ],
   "note": "proved that an expectation fails, with witness: c46_custom_window_refuted"
  },
  {
   "property": "C47",
   "status": "proved",
   "theorems": [
    "c47_inverse",
    "c47_domain",
    "c47_tensor",
    "c47_precision"
   ],
   "note": ""
  },
  {
   "property": "C48",
   "status": "proved",
   "theorems": [
    "c48_algorithm",
    "c48_unknown",
    "c48_custom_window",
    "c48_warning"
   ],
   "note": ""
  },
  {
   "property": "C49",
   "status": "proved",
   "theorems": [
    "c49_address",
    "c49_place",
    "c49_fetched",
    "c49_at_most_once",
    "c49_never_replaced",
    "c49_correct",
    "c49_shared_refuted",
    "c49_partial_file_refuted"
   ],
   "note": "proved that an expectation fails, with witness: c49_shared_refuted, c49_partial_file_refuted"
  },
  {
   "property": "C50",
   "status": "proved",
   "theorems": [
    "c50_override",
    "c50_missing_file",
    "c50_unknown_keyword",
    "c50_url",
    "c50_local"
   ],
   "note": ""
  },
  {
   "property": "C51",
   "status": "proved",
   "theorems": [
    "c51_rejects_sources",
    "c51_rejects_ip2",
    "c51_rejects_beamformers",
    "c51_five",
    "c51_new",
    "c51_n_iter_ignored",
    "c51_pretrained",
    "c51_channels",
    "c51_length",
    "c51_mic_ignored",
    "c51_ip2_one_source"
   ],
   "note": ""
  },
  {
   "property": "C52",
   "status": "proved",
   "theorems": [
    "c52_folder",
    "c52_outputs",
    "c52_one_output_per_input_refuted",
    "c52_same_folder",
    "c52_single",
    "c52_input_kept_refuted"
   ],
   "note": "proved that an expectation fails, with witness: c52_one_output_per_input_refuted, c52_input_kept_refuted"
  },
  {
   "property": "C53",
   "status": "proved",
   "theorems": [
    "c53_round_robin",
    "c53_exactly_once",
    "c53_order"
   ],
   "note": ""
  },
  {
   "property": "C54",
   "status": "proved",
   "theorems": [
    "c54_percentile",
    "c54_largest",
    "c54_never_clips_refuted",
    "c54_below_threshold",
    "c54_out_of_range",
    "c54_negative",
    "c54_recovers_from_nan_refuted"
   ],
   "note": "proved that an expectation fails, with witness: c54_never_clips_refuted, c54_recovers_from_nan_refuted"
  },
  {
   "property": "C55",
   "status": "proved",
   "theorems": [
    "c55_interval",
    "c55_overlap",
    "c55_contains_sources_refuted"
   ],
   "note": "proved that an expectation fails, with witness: c55_contains_sources_refuted"
  },
  {
   "property": "C56",
   "status": "proved",
   "theorems": [
    "c56_embeds",
    "c56_channels",
    "c56_mono_rejected_refuted"
   ],
   "note": "proved that an expectation fails, with witness: c56_mono_rejected_refuted"
  },
  {
   "property": "C57",
   "status": "proved",
   "theorems": [
    "c57_reload",
    "c57_beamformer_refuted",
    "c57_keywords",
    "c57_extra_entry"
   ],
   "note": "proved that an expectation fails, with witness: c57_beamformer_refuted"
  },
  {
   "property": "C58",
   "status": "proved",
   "theorems": [
    "c58_glu",
    "c58_blstm",
    "c58_mvdr",
    "c58_mvdr_any_offset_refuted",
    "c58_simple",
    "c58_simple_offset_refuted"
   ],
   "note": "proved that an expectation fails, with witness: c58_mvdr_any_offset_refuted, c58_simple_offset_refuted"
  },
  {
   "property": "C59",
   "status": "proved",
   "theorems": [
    "c59_keys",
    "c59_unknown_key",
    "c59_mean",
    "c59_truncation",
    "c59_no_epoch"
   ],
   "note": ""
  },
  {
   "property": "C60",
   "status": "proved",
   "theorems": [
    "c60_projection_back",
    "c60_few_frames"
   ],
   "note": ""
  },
  {
   "property": "C61",
   "status": "proved",
   "theorems": [
    "c61_stored_filters"
   ],
   "note": ""
  },
  {
   "property": "C62",
   "status": "proved",
   "theorems": [
    "c62_extraction"
   ],
   "note": ""
  },
  {
   "property": "C63",
   "status": "proved",
   "theorems": [
    "c63_power_method_nan"
   ],
   "note": ""
  },
  {
   "property": "C64",
   "status": "proved",
   "theorems": [
    "c64_scale",
    "c64_quiet_refuted"
   ],
   "note": "proved that an expectation fails, with witness: c64_quiet_refuted"
  },
  {
   "property": "C65",
   "status": "proved",
   "theorems": [
    "c65_tiss",
    "c65_ip",
    "c65_ip2",
    "c65_wpe",
    "c65_mwf",
    "c65_mvdr",
    "c65_mvdr_scm",
    "c65_classic",
    "c65_nmf"
   ],
   "note": ""
  },
  {
   "property": "C66",
   "status": "proved",
   "theorems": [
    "c66_mvdr_scm",
    "c66_mvdr",
    "c66_mwf",
    "c66_mwf_frames",
    "c66_wpe",
    "c66_quiet",
    "c66_loud",
    "c66_mwf_refuted",
    "c66_mvdr_refuted"
   ],
   "note": "proved that an expectation fails, with witness: c66_mwf_refuted, c66_mvdr_refuted"
  },
  {
   "property": "C67",
   "status": "proved",
   "theorems": [
    "c67_mwf",
    "c67_mvdr_scm",
    "c67_wpe",
    "c67_rtf_refuted"
   ],
   "note": "proved that an expectation fails, with witness: c67_rtf_refuted"
  },
  {
   "property": "C68",
   "status": "proved",
   "theorems": [
    "c68_processed",
    "c68_limit_refuted",
    "c68_summary",
    "c68_rows",
    "c68_distinct",
    "c68_errors",
    "c68_checkpoint",
    "c68_named",
    "c68_checkpoint_refuted",
    "c68_sources",
    "c68_channels",
    "c68_wav",
    "c68_validation",
    "c68_validation_refuted"
   ],
   "note": "proved that an expectation fails, with witness: c68_limit_refuted, c68_checkpoint_refuted, c68_validation_refuted"
  },
  {
   "property": "C69",
   "status": "proved",
   "theorems": [
    "c69_wpe_alone",
    "c69_mvdr_alone",
    "c69_mwf_alone",
    "c69_gev_alone",
    "c69_wpe_model",
    "c69_mvdr_model",
    "c69_mwf_model",
    "c69_gev_model",
    "c69_wpe_total",
    "c69_mwf_total",
    "c69_scm_silent",
    "c69_good_elements_refuted"
   ],
   "note": "proved that an expectation fails, with witness: c69_good_elements_refuted"
  },
  {
   "property": "C70",
   "status": "proved",
   "theorems": [
    "c70_tiss_alone",
    "c70_tiss_model",
    "c70_tiss_total",
    "c70_laplace",
    "c70_gauss",
    "c70_nmf",
    "c70_tiss_nmf",
    "c70_tiss_far_mic",
    "c70_every_mic_refuted"
   ],
   "note": "proved that an expectation fails, with witness: c70_every_mic_refuted"
  },
  {
   "property": "C71",
   "status": "proved",
   "theorems": [
    "c71_ip_alone",
    "c71_ip_model",
    "c71_ip_total",
    "c71_ip_nmf",
    "c71_ip_no_n_src",
    "c71_ip_far_mic",
    "c71_every_mic_refuted"
   ],
   "note": "proved that an expectation fails, with witness: c71_every_mic_refuted"
  },
  {
   "property": "C72",
   "status": "proved",
   "theorems": [
    "c72_ip2_alone",
    "c72_ip2_model",
    "c72_ip2_nmf",
    "c72_ip2_channels",
    "c72_ip2_mic",
    "c72_ip2_axes",
    "c72_eigh",
    "c72_geigh",
    "c72_inv_2x2"
   ],
   "note": ""
  },
  {
   "property": "C73",
   "status": "proved",
   "theorems": [
    "c73_five_alone",
    "c73_five_model",
    "c73_five_total",
    "c73_five_nmf",
    "c73_five_few_power_iterations",
    "c73_five_mic",
    "c73_five_axes"
   ],
   "note": ""
  },
  {
   "property": "C74",
   "status": "proved",
   "theorems": [
    "c74_separator",
    "c74_tiss",
    "c74_ip",
    "c74_ip2",
    "c74_five",
    "c74_beamformers",
    "c74_length",
    "c74_no_failure",
    "c74_tiss_total",
    "c74_short",
    "c74_axes",
    "c74_round_trip"
   ],
   "note": ""
  },
  {
   "property": "C75",
   "status": "proved",
   "theorems": [
    "c75_l2",
    "c75_l2_alone",
    "c75_phase",
    "c75_phase_alone",
    "c75_default",
    "c75_iterative",
    "c75_iterative_alone",
    "c75_single",
    "c75_other_recordings_refuted",
    "c75_exponents",
    "c75_model_shared",
    "c75_model_no_batch",
    "c75_model_two_batch",
    "c75_documented_layout_refuted",
    "c75_projection_back",
    "c75_projection_back_alone",
    "c75_projection_back_few_frames",
    "c75_projection_back_broadcast_refuted"
   ],
   "note": "proved that an expectation fails, with witness: c75_other_recordings_refuted, c75_documented_layout_refuted, c75_projection_back_broadcast_refuted"
  },
  {
   "property": "C76",
   "status": "proved",
   "theorems": [
    "c76_source",
    "c76_iteration",
    "c76_run",
    "c76_regularised_refuted",
    "c76_printed",
    "c76_printed_refuted",
    "c76_printed_batch"
   ],
   "note": "proved that an expectation fails, with witness: c76_regularised_refuted, c76_printed_refuted"
  },
  {
   "property": "C77",
   "status": "proved",
   "theorems": [
    "c77_iteration",
    "c77_run",
    "c77_quiet_refuted"
   ],
   "note": "proved that an expectation fails, with witness: c77_quiet_refuted"
  },
  {
   "property": "C78",
   "status": "proved",
   "theorems": [
    "c78_item",
    "c78_rates",
    "c78_aligned",
    "c78_shuffle_ref_refuted",
    "c78_length",
    "c78_equal_lengths_refuted",
    "c78_not_silent",
    "c78_silent_refuted",
    "c78_whole",
    "c78_discarded_refuted",
    "c78_module",
    "c78_missing_size",
    "c78_same_data",
    "c78_channels_refuted",
    "c78_default_refuted",
    "c78_location",
    "c78_limit",
    "c78_last_entry"
   ],
   "note": "proved that an expectation fails, with witness: c78_shuffle_ref_refuted, c78_equal_lengths_refuted, c78_silent_refuted, c78_discarded_refuted, c78_channels_refuted, c78_default_refuted"
  },
  {
   "property": "C79",
   "status": "proved",
   "theorems": [
    "c79_files",
    "c79_sum",
    "c79_exact_refuted",
    "c79_total",
    "c79_silent",
    "c79_names",
    "c79_all_saved_refuted",
    "c79_read",
    "c79_batch",
    "c79_batch_channels",
    "c79_one_length_refuted",
    "c79_shortest_refuted",
    "c79_batch_refs",
    "c79_read_all",
    "c79_any_rate"
   ],
   "note": "proved that an expectation fails, with witness: c79_exact_refuted, c79_all_saved_refuted, c79_one_length_refuted, c79_shortest_refuted"
  },
  {
   "property": "C80",
   "status": "proved",
   "theorems": [
    "c80_rescaled",
    "c80_one_frequency",
    "c80_descent_refuted"
   ],
   "note": "proved that an expectation fails, with witness: c80_descent_refuted"
  },
  {
   "property": "C81",
   "status": "proved",
   "theorems": [
    "c81_compared",
    "c81_ip2",
    "c81_five_refuted",
    "c81_too_few",
    "c81_tap_warning",
    "c81_warning_true_refuted",
    "c81_source_warning",
    "c81_shown_number_refuted",
    "c81_references",
    "c81_delay_without_taps",
    "c81_dnn",
    "c81_dnn_mics_refuted",
    "c81_dereverberates"
   ],
   "note": "proved that an expectation fails, with witness: c81_five_refuted, c81_warning_true_refuted, c81_shown_number_refuted, c81_dnn_mics_refuted"
  },
  {
   "property": "C82",
   "status": "proved",
   "theorems": [
    "c82_classic",
    "c82_unknown",
    "c82_gauss_refuted",
    "c82_hparams_refuted",
    "c82_no_epoch",
    "c82_trained",
    "c82_iterations_refuted",
    "c82_readme_refuted",
    "c82_window_refuted"
   ],
   "note": "proved that an expectation fails, with witness: c82_gauss_refuted, c82_hparams_refuted, c82_iterations_refuted, c82_readme_refuted, c82_window_refuted"
  },
  {
   "property": "C83",
   "status": "proved",
   "theorems": [
    "c83_network",
    "c83_fallback_refuted",
    "c83_error",
    "c83_required",
    "c83_ignored",
    "c83_eps_refuted"
   ],
   "note": "proved that an expectation fails, with witness: c83_fallback_refuted, c83_eps_refuted"
  },
  {
   "property": "C84",
   "status": "proved",
   "theorems": [
    "c84_class",
    "c84_defaults",
    "c84_one_call",
    "c84_missing",
    "c84_keys",
    "c84_bare_refuted",
    "c84_nested_refuted",
    "c84_networks_only_refuted"
   ],
   "note": "proved that an expectation fails, with witness: c84_bare_refuted, c84_nested_refuted, c84_networks_only_refuted"
  },
  {
   "property": "C85",
   "status": "proved",
   "theorems": [
    "c85_input",
    "c85_microphone",
    "c85_sum",
    "c85_ref_mic_refuted",
    "c85_shuffle_ref_refuted"
   ],
   "note": "proved that an expectation fails, with witness: c85_ref_mic_refuted, c85_shuffle_ref_refuted"
  }
 ]
}