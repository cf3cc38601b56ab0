{
 "claims": [
  {
   "property": "C01",
   "status": "proved",
   "theorems": [
    "C01_render_parse_roundtrip",
    "C01_parser_terminates"
   ],
   "note": "floats: abstract printer/reader with its contract in deck_ok"
  },
  {
   "property": "C02",
   "status": "proved",
   "theorems": [
    "C02_reparse_invariant_refuted",
    "C02_reparse_quote_refuted",
    "C02_reparse_inf_refuted",
    "C02_reparse_when_plain"
   ],
   "note": "the docstring invariant is false of the code (three witnesses); proved under the exact plainness condition"
  },
  {
   "property": "C03",
   "status": "proved",
   "theorems": [
    "C03_overrides_exact",
    "C03_overrides_key_order",
    "C03_overrides_values"
   ],
   "note": ""
  },
  {
   "property": "C04",
   "status": "proved",
   "theorems": [
    "C04_override_errors_justified",
    "C04_unresolvable_overrides_rejected"
   ],
   "note": ""
  },
  {
   "property": "C05",
   "status": "proved",
   "theorems": [
    "C05_sanitized_safe",
    "C05_sanitize_idempotent",
    "C05_sanitize_keeps_safe_names",
    "C05_sanitize_keeps_safe_characters"
   ],
   "note": "ASCII only"
  },
  {
   "property": "C06",
   "status": "proved",
   "theorems": [
    "C06_flat_loses_parameters_refuted",
    "C06_flat_complete",
    "C06_flat_sound"
   ],
   "note": "false in general (witness), proved under no_name_clash"
  },
  {
   "property": "C07",
   "status": "proved",
   "theorems": [
    "C07_comments_inert",
    "C07_strip_comment_exact"
   ],
   "note": ""
  },
  {
   "property": "C08",
   "status": "proved",
   "theorems": [
    "C08_batching_invisible",
    "C08_bad_shape_rejected",
    "C08_default_chunk"
   ],
   "note": ""
  },
  {
   "property": "C09",
   "status": "proved",
   "theorems": [
    "C09_restart_exact",
    "C09_crash_inside_landing_refuted"
   ],
   "note": "crash between writer calls: proved for any number of crashed sessions; crash inside a landing: refuted with a witness"
  },
  {
   "property": "C10",
   "status": "proved",
   "theorems": [
    "C10_streaming_exact",
    "C10_equals_batch",
    "C10_restart_staged_refuted",
    "C10_misclassified_refuted"
   ],
   "note": "no NetCDF write faults; every reap/rename/unlink/stat fault and spill decision covered"
  },
  {
   "property": "C11",
   "status": "proved",
   "theorems": [
    "C11_newest_untouched",
    "C11_peek_refuted"
   ],
   "note": "the peek of a single in-progress dump is the exception"
  },
  {
   "property": "C12",
   "status": "proved",
   "theorems": [
    "C12_never_lost_mirroring",
    "C12_discard_between_scans",
    "C12_discard_mode_refuted",
    "C12_discard_failed_landing_refuted"
   ],
   "note": "mirroring: proved at every crash point with any faults; discard mode: refuted with witnesses, weaker guarantee proved"
  },
  {
   "property": "C13",
   "status": "proved",
   "theorems": [
    "C13_mirror_atomic",
    "C13_retry_completes",
    "C13_stale_destination_refuted"
   ],
   "note": ""
  },
  {
   "property": "C14",
   "status": "proved",
   "theorems": [
    "C14_partial_nc_saved_refuted",
    "C14_saved_exact_without_faults",
    "C14_saved_exact_when_absent"
   ],
   "note": "false of the code; conditions under which it holds proved"
  },
  {
   "property": "C15",
   "status": "proved",
   "theorems": [
    "C15_completed_exact",
    "C15_failed_sweep_refuted",
    "C15_fill_rows_refuted"
   ],
   "note": "false of the code in two ways; proved when no fault occurs"
  },
  {
   "property": "C16",
   "status": "proved",
   "theorems": [
    "C16_raises_iff",
    "C16_otherwise_returns",
    "C16_missing_binary"
   ],
   "note": ""
  },
  {
   "property": "C17",
   "status": "proved",
   "theorems": [
    "C17_capture_exact",
    "C17_lines_exact"
   ],
   "note": ""
  },
  {
   "property": "C18",
   "status": "proved",
   "theorems": [
    "C18_recent_error_detected",
    "C18_old_error_refuted",
    "C18_uppercase_error_refuted"
   ],
   "note": "false in general (witnesses); proved for an (*error*) line among the last 200"
  },
  {
   "property": "C19",
   "status": "proved",
   "theorems": [
    "C19_discovery",
    "C19_bad_configured_path_refuted"
   ],
   "note": ""
  },
  {
   "property": "C20",
   "status": "proved",
   "theorems": [
    "C20_sync_exact",
    "C20_sync_safe",
    "C20_staged_run_keeps_files",
    "C20_failed_sync_refuted"
   ],
   "note": ""
  },
  {
   "property": "C21",
   "status": "proved",
   "theorems": [
    "C21_series_partition",
    "C21_sort_dumps"
   ],
   "note": ""
  },
  {
   "property": "C22",
   "status": "proved",
   "theorems": [
    "C22_selection_exact",
    "C22_errors_exact"
   ],
   "note": ""
  },
  {
   "property": "C23",
   "status": "proved",
   "theorems": [
    "C23_kept",
    "C23_concat"
   ],
   "note": ""
  },
  {
   "property": "C45",
   "status": "proved",
   "theorems": [
    "C45_every_dump_listed",
    "C45_every_entry_loads",
    "C45_streamed_listed",
    "C45_clash_refuted"
   ],
   "note": "false with a name clash (witness); proved without"
  },
  {
   "property": "C46",
   "status": "proved",
   "theorems": [
    "C46_autoscaled_agree",
    "C46_physical_axis"
   ],
   "note": "np.isclose abstract"
  },
  {
   "property": "C47",
   "status": "proved",
   "theorems": [
    "C47_hist_exact",
    "C47_hist_none",
    "C47_truncated_table_refuted"
   ],
   "note": "float parsing of a row abstract"
  },
  {
   "property": "C25",
   "status": "proved",
   "theorems": [
    "C25_logged_exactly",
    "C25_complete_iff",
    "C25_entries_lost_refuted"
   ],
   "note": "false of the code above 100 entries; exact logged set and exact completeness condition proved"
  },
  {
   "property": "C26",
   "status": "proved",
   "theorems": [
    "C26_flatten_exact",
    "C26_dotted_keys_refuted"
   ],
   "note": ""
  },
  {
   "property": "C27",
   "status": "proved",
   "theorems": [
    "C27_average_exact",
    "C27_too_few_gradients",
    "C27_one_device_refuted"
   ],
   "note": "real arithmetic with NaN; no infinities; equal shapes"
  },
  {
   "property": "C28",
   "status": "proved",
   "theorems": [
    "C28_retries_exact",
    "C28_bounded"
   ],
   "note": ""
  },
  {
   "property": "C29",
   "status": "proved",
   "theorems": [
    "C29_run_id_roundtrip",
    "C29_ascii_length"
   ],
   "note": "UTF-8 modelled"
  },
  {
   "property": "C30",
   "status": "proved",
   "theorems": [
    "C30_user_config_untouched",
    "C30_setup_exact",
    "C30_refused_before_setup",
    "C30_one_run",
    "C30_run_uses_latest_setup",
    "C30_half_set_up_refuted"
   ],
   "note": "arbitrary hooks; MLflow itself does not fail"
  },
  {
   "property": "C31",
   "status": "proved",
   "theorems": [
    "C31_selection"
   ],
   "note": ""
  },
  {
   "property": "C48",
   "status": "proved",
   "theorems": [
    "C48_filter_scalars_exact"
   ],
   "note": ""
  },
  {
   "property": "C32",
   "status": "proved",
   "theorems": [
    "C32_density_conserved",
    "C32_weighted_density_conserved",
    "C32_spherical_density_conserved",
    "C32_velocity_dependent_refuted"
   ],
   "note": "exact arithmetic; the linear solver returns a solution"
  },
  {
   "property": "C33",
   "status": "proved",
   "theorems": [
    "C33_positivity",
    "C33_central_refuted"
   ],
   "note": "existence and uniqueness included; refuted for the central scheme"
  },
  {
   "property": "C34",
   "status": "proved",
   "theorems": [
    "C34_equilibrium_preserved",
    "C34_maxwellian_preserved",
    "C34_fast_vfp_preserved",
    "C34_super_gaussian_preserved",
    "C34_series_residual"
   ],
   "note": ""
  },
  {
   "property": "C35",
   "status": "proved",
   "theorems": [
    "C35_weight"
   ],
   "note": ""
  },
  {
   "property": "C49",
   "status": "proved",
   "theorems": [
    "C49_log_mean_edges",
    "C49_kernel_energy",
    "C49_kernel_maxwellian"
   ],
   "note": ""
  },
  {
   "property": "C50",
   "status": "proved",
   "theorems": [
    "C50_dougherty_momentum",
    "C50_dougherty_momentum_bound",
    "C50_dougherty_energy"
   ],
   "note": ""
  },
  {
   "property": "C51",
   "status": "proved",
   "theorems": [
    "C51_nodrag_density",
    "C51_nodrag_fixed_point",
    "C51_nodrag_maxwellian_refuted",
    "C51_nodrag_moments"
   ],
   "note": "the fixed-point claim of the code comment is refuted"
  },
  {
   "property": "C52",
   "status": "proved",
   "theorems": [
    "C52_krook",
    "C52_krook_composes"
   ],
   "note": ""
  },
  {
   "property": "C36",
   "status": "proved",
   "theorems": [
    "C36_deposit_conserves_weight",
    "C36_deposit_nonneg",
    "C36_deposit_periodic",
    "C36_deposit_local",
    "C36_total_charge"
   ],
   "note": ""
  },
  {
   "property": "C37",
   "status": "proved",
   "theorems": [
    "C37_gather_constant",
    "C37_gather_adjoint",
    "C37_gather_bounds",
    "C37_gather_periodic",
    "C37_gather_linear"
   ],
   "note": ""
  },
  {
   "property": "C38",
   "status": "proved",
   "theorems": [
    "C38_drift_particle",
    "C38_drift_state"
   ],
   "note": ""
  },
  {
   "property": "C39",
   "status": "proved",
   "theorems": [
    "C39_leapfrog_reversible",
    "C39_yoshida_reversible",
    "C39_run_reversible",
    "C39_outside_refuted"
   ],
   "note": "particles must start inside the box: the refutation shows that this is needed"
  },
  {
   "property": "C40",
   "status": "proved",
   "theorems": [
    "C40_substeps_sum",
    "C40_substeps_cubes",
    "C40_substeps_contiguous",
    "C40_substeps_symmetric"
   ],
   "note": ""
  },
  {
   "property": "C41",
   "status": "proved",
   "theorems": [
    "C41_weights_constant",
    "C41_kick_momentum",
    "C41_drift_momentum",
    "C41_momentum_conserved",
    "C41_background_refuted"
   ],
   "note": "conservation is refuted for a non-uniform static background"
  },
  {
   "property": "C53",
   "status": "proved",
   "theorems": [
    "C53_zero_mean",
    "C53_no_self_force",
    "C53_gauss",
    "C53_single_wave",
    "C53_linear",
    "C53_mean_ignored",
    "C53_nyquist_dropped"
   ],
   "note": ""
  },
  {
   "property": "C24",
   "status": "proved",
   "theorems": [
    "C24_inactive",
    "C24_active",
    "C24_only_lengths_change",
    "C24_scale_factor",
    "C24_ramp_length",
    "C24_cells",
    "C24_half_given",
    "C24_checks_are_pure",
    "C24_local_length_refuted",
    "C24_positive_cells_refuted",
    "C24_atomic_refuted"
   ],
   "note": "the local length is refuted for ramps with a bend, the positive cell count for non-positive lengths, atomicity for non-numeric windows"
  },
  {
   "property": "C42",
   "status": "proved",
   "theorems": [
    "C42_cfl",
    "C42_covers_requested_time",
    "C42_step_budget",
    "C42_step_budget_refuted",
    "C42_cell_centres",
    "C42_time_axis"
   ],
   "note": ""
  },
  {
   "property": "C43",
   "status": "proved",
   "theorems": [
    "C43_zero_shift",
    "C43_whole_cells",
    "C43_outside",
    "C43_linear_exact",
    "C43_quadratic_exact",
    "C43_moments_exact",
    "C43_push_moments",
    "C43_positivity_refuted"
   ],
   "note": ""
  },
  {
   "property": "C44",
   "status": "proved",
   "theorems": [
    "C44_bounds",
    "C44_never_saturates",
    "C44_complement",
    "C44_symmetric",
    "C44_peak",
    "C44_monotone",
    "C44_space_time",
    "C44_get_envelope"
   ],
   "note": ""
  },
  {
   "property": "C54",
   "status": "proved",
   "theorems": [
    "C54_exponential",
    "C54_linear",
    "C54_linear_scale_length",
    "C54_linear_scale_length_refuted",
    "C54_sine",
    "C54_linear_positive_iff"
   ],
   "note": "the linear profile realises the requested length only when the value at the centre is 1"
  },
  {
   "property": "C55",
   "status": "proved",
   "theorems": [
    "C55_command_line",
    "C55_unstaged_untouched",
    "C55_staged_scratch_reclaimed"
   ],
   "note": ""
  },
  {
   "property": "C56",
   "status": "proved",
   "theorems": [
    "C56_number",
    "C56_whole_cells",
    "C56_wave",
    "C56_energy",
    "C56_compose",
    "C56_reversible",
    "C56_linear",
    "C56_compose_refuted",
    "C56_positivity_refuted",
    "C56_shape"
   ],
   "note": "composition refuted for data with the shortest wave, positivity refuted"
  },
  {
   "property": "C57",
   "status": "proved",
   "theorems": [
    "C57_number",
    "C57_whole_cells",
    "C57_no_force",
    "C57_compose",
    "C57_energy",
    "C57_edge_refuted"
   ],
   "note": "the wrap-around at the edge is refuted"
  },
  {
   "property": "C58",
   "status": "proved",
   "theorems": [
    "C58_number",
    "C58_wave",
    "C58_energy",
    "C58_alpha_zero",
    "C58_commutes",
    "C58_unchecked_parameters_refuted"
   ],
   "note": "unchecked order 0 / negative strength refuted"
  },
  {
   "property": "C59",
   "status": "proved",
   "theorems": [
    "C59_densities",
    "C59_neutral_no_field",
    "C59_boltzmann",
    "C59_boltzmann_wave",
    "C59_boltzmann_vs_poisson",
    "C59_ampere",
    "C59_ampere_no_current",
    "C59_ponderomotive"
   ],
   "note": ""
  },
  {
   "property": "C60",
   "status": "proved",
   "theorems": [
    "C60_one_step",
    "C60_run"
   ],
   "note": ""
  },
  {
   "property": "C61",
   "status": "proved",
   "theorems": [
    "C61_leapfrog_number",
    "C61_sixth_number",
    "C61_run_number",
    "C61_leapfrog_field",
    "C61_sixth_field",
    "C61_refused",
    "C61_sixth_schedule",
    "C61_sixth_kicks",
    "C61_sixth_kicks_refuted"
   ],
   "note": "the sum of the sixth-order kicks is refuted"
  },
  {
   "property": "C63",
   "status": "proved",
   "theorems": [
    "C63_wave_equation",
    "C63_mirror",
    "C63_linear",
    "C63_reversible",
    "C63_dispersion",
    "C63_unstable",
    "C63_override_stability_refuted",
    "C63_override_limit",
    "C63_absorbing",
    "C63_pulses",
    "C63_point_source"
   ],
   "note": "stability of the imposed step in dense plasma is refuted"
  },
  {
   "property": "C64",
   "status": "proved",
   "theorems": [
    "C64_superposition",
    "C64_travelling",
    "C64_point_source",
    "C64_akw",
    "C64_akw_inference_refuted",
    "C64_laser",
    "C64_stochastic_times",
    "C64_update_unchecked_refuted",
    "C64_stochastic_interp",
    "C64_stochastic_periodic",
    "C64_stochastic_no_mean",
    "C64_alias_refuted",
    "C64_stochastic_rms"
   ],
   "note": "random draws are arbitrary parameters of the theorems"
  },
  {
   "property": "C67",
   "status": "proved",
   "theorems": [
    "C67_debye",
    "C67_skin_depth",
    "C67_laser",
    "C67_normalize"
   ],
   "note": "units as real conversion factors; pint itself is not modelled"
  },
  {
   "property": "C62",
   "status": "proved",
   "theorems": [
    "C62_density",
    "C62_nonneg",
    "C62_noise_band",
    "C62_gaussian_noise_refuted",
    "C62_symmetric",
    "C62_single_species",
    "C62_several_species",
    "C62_single_ion_refuted",
    "C62_repeated_name_refuted",
    "C62_single_cell_refuted",
    "C62_state",
    "C62_species_name_refuted",
    "C62_legacy"
   ],
   "note": "random draws are arbitrary parameters"
  },
  {
   "property": "C66",
   "status": "proved",
   "theorems": [
    "C66_temperature",
    "C66_root_unique",
    "C66_refined_maxwellian",
    "C66_unrefined_refuted",
    "C66_super_gaussian_energy",
    "C66_super_gaussian_root",
    "C66_closure"
   ],
   "note": "the iterative root finder is replaced by the equation it solves"
  },
  {
   "property": "C65",
   "status": "proved",
   "theorems": [
    "C65_number",
    "C65_reference_only",
    "C65_collisions_density",
    "C65_diagnostics",
    "C65_wave",
    "C65_no_electron",
    "C65_driver_times",
    "C65_no_potential",
    "C65_field",
    "C65_steady",
    "C65_fp_types",
    "C65_positive",
    "C65_zero_frequency",
    "C65_step_exists",
    "C65_diag_fp_refuted"
   ],
   "note": "the Newton-refined beta is arbitrary; number conservation for the exponential velocity pusher on even grids"
  },
  {
   "property": "C68",
   "status": "proved",
   "theorems": [
    "C68_counts",
    "C68_size",
    "C68_quiet",
    "C68_quiet_weight",
    "C68_quiet_uniform",
    "C68_neutral",
    "C68_neutral_total",
    "C68_field_free",
    "C68_random_weight",
    "C68_random",
    "C68_rejection",
    "C68_repeated_seed",
    "C68_small_last_refuted",
    "C68_dropped_refuted",
    "C68_quiet_drift_refuted",
    "C68_random_edge_refuted",
    "C68_quiet_components_refuted"
   ],
   "note": "random draws are arbitrary parameters"
  },
  {
   "property": "C69",
   "status": "proved",
   "theorems": [
    "C69_mean_squares",
    "C69_schemes",
    "C69_fields",
    "C69_invariants",
    "C69_saved_weight",
    "C69_electrostatic",
    "C69_wave",
    "C69_no_electron",
    "C69_momentum",
    "C69_moments",
    "C69_cell",
    "C69_save_accepted",
    "C69_saved",
    "C69_own_default_refuted",
    "C69_key_clash_refuted",
    "C69_scalar_dir",
    "C69_scalar_dir_refuted"
   ],
   "note": ""
  },
  {
   "property": "C70",
   "status": "proved",
   "theorems": [
    "C70_streaming",
    "C70_streaming_norm",
    "C70_acceleration_rate",
    "C70_work",
    "C70_acceleration_number",
    "C70_number_balance",
    "C70_number_no_field",
    "C70_boundaries",
    "C70_uniform",
    "C70_mirror",
    "C70_current_first_order",
    "C70_current_step",
    "C70_ampere_sign",
    "C70_tail_refuted",
    "C70_joule_refuted",
    "C70_implicit_shapes",
    "C70_grid"
   ],
   "note": "Refuted readings: number exactly conserved under the field (largest speeds leak); power exactly E.j; Ampere solver has the wrong sign (C70_ampere_sign, at every step); edfdv-ampere-implicit never has broadcastable shapes for two or more cells."
  },
  {
   "property": "C71",
   "status": "proved",
   "theorems": [
    "C71_heating_energy",
    "C71_ib_energy",
    "C71_heating_exists",
    "C71_cooling_ignored",
    "C71_zstar_damping",
    "C71_harmonics",
    "C71_init_bound",
    "C71_init_species",
    "C71_init_current",
    "C71_init_uniform",
    "C71_zero_species_doubles",
    "C71_maxwellian",
    "C71_clip_periodic_refuted",
    "C71_scaled_bound_refuted",
    "C71_ions",
    "C71_override",
    "C71_ib_ratio",
    "C71_ib_ratio_refuted",
    "C71_heating_off"
   ],
   "note": "Findings: cooling has no effect with Chang-Cooper and no collision model; empty species doubles f10; clip ignores periodicity; bound applied before scaling; inverse-bremsstrahlung ratio lacks units.Z^2; override not seen by the anisotropic solver."
  },
  {
   "property": "C72",
   "status": "proved",
   "theorems": [
    "C72_table",
    "C72_downhill",
    "C72_weights",
    "C72_snb_solvable",
    "C72_snb_balance",
    "C72_closed",
    "C72_uniform",
    "C72_local_limit",
    "C72_moments",
    "C72_mean_density",
    "C72_mean_streaming",
    "C72_mean_spherical_refuted",
    "C72_kappa",
    "C72_ratio",
    "C72_periodic_refuted"
   ],
   "note": "exact arithmetic; solve_banded represented by the system it solves, which is proved uniquely solvable; refuted: conserved saved mean density in spherical geometry, flux across a periodic seam"
  },
  {
   "property": "C73",
   "status": "proved",
   "theorems": [
    "C73_streaming_exact",
    "C73_ladder_is_velocity",
    "C73_streaming_reversible",
    "C73_mean_unchanged",
    "C73_real",
    "C73_collision_profiles",
    "C73_linear_dissipative",
    "C73_moments_kept",
    "C73_houli",
    "C73_knee_refuted",
    "C73_nyquist_refuted"
   ],
   "note": "eigh represented by its contract (orthonormal eigenvectors); exact arithmetic; refuted: the knee absorber leaves the density alone, real fields stay real at the Nyquist mode"
  },
  {
   "property": "C74",
   "status": "proved",
   "theorems": [
    "C74_velocity_shift",
    "C74_substep_group",
    "C74_density_row",
    "C74_number_kept",
    "C74_density_refuted",
    "C74_maxwellian_current",
    "C74_dealiased",
    "C74_dealiased_refuted",
    "C74_momentum",
    "C74_ponderomotive_sign",
    "C74_ponderomotive"
   ],
   "note": "exact arithmetic; refuted: the zero-force substep leaves the density untouched under the mask (comment at vector_field.py:810-812), full dealiasing when 3 divides Nx"
  },
  {
   "property": "C75",
   "status": "proved",
   "theorems": [
    "C75_number_conserved",
    "C75_static_ions",
    "C75_gauss",
    "C75_sponge",
    "C75_clip",
    "C75_linear_response",
    "C75_lawson_ignores",
    "C75_initial_density",
    "C75_perturbation_refuted",
    "C75_nyquist_perturbation_refuted",
    "C75_equilibrium",
    "C75_integrators",
    "C75_time_grid",
    "C75_user_dt_refuted",
    "C75_driver_calibration"
   ],
   "note": "noise is an arbitrary function of time and cell; refuted: the density profile at the mean and Nyquist modes, CFL check of a user step"
  },
  {
   "property": "C76",
   "status": "proved",
   "theorems": [
    "C76_index",
    "C76_size",
    "C76_accepted"
   ],
   "note": ""
  },
  {
   "property": "C77",
   "status": "proved",
   "theorems": [
    "C77_streaming",
    "C77_electric",
    "C77_magnetic",
    "C77_magnetic_x",
    "C77_lorentz_refuted",
    "C77_rotation_norm",
    "C77_real"
   ],
   "note": "exact arithmetic; the truncated (no room) case is covered by C77_rotation_norm and C78; refuted: the magnetic operator is the Lorentz rotation for fields with y or z components"
  },
  {
   "property": "C78",
   "status": "proved",
   "theorems": [
    "C78_tensor",
    "C78_continuity",
    "C78_electric_number",
    "C78_electric_power",
    "C78_magnetic_no_work",
    "C78_momentum_streaming",
    "C78_momentum_magnetic"
   ],
   "note": "exact identities at one cell for every truncation; the number leak and the power defect are stated exactly"
  },
  {
   "property": "C79",
   "status": "proved",
   "theorems": [
    "C79_derivative_device_independent",
    "C79_device_count_refuted",
    "C79_houli",
    "C79_partitioned_filter",
    "C79_filter_device_count_refuted",
    "C79_plane_filter"
   ],
   "note": "one axis of any length, then the (x,y) plane; the expectation that results do not depend on the device count is refuted with witnesses"
  },
  {
   "property": "C80",
   "status": "proved",
   "theorems": [
    "C80_div_b",
    "C80_poynting",
    "C80_number",
    "C80_gauss",
    "C80_gauss_even_refuted",
    "C80_poisson"
   ],
   "note": "div B over N steps; Poynting, number and Gauss per step with the exact defect; Gauss for the spectral derivative with even ny is false (witness). Poisson assumes no charge content at half the sampling rate"
  },
  {
   "property": "C81",
   "status": "proved",
   "theorems": [
    "C81_projection",
    "C81_projection_limits",
    "C81_positivity",
    "C81_positivity_idempotent",
    "C81_ohm",
    "C81_ohm_balance",
    "C81_ohm_kinetic_refuted",
    "C81_runge_kutta",
    "C81_gates",
    "C81_step",
    "C81_step_accepts",
    "C81_divB"
   ],
   "note": "cells with flux moment below the tiny floor are outside the current claim (the code divides by the floor there). The Ohm law is the balance of the v^3-weighted momentum with the Lorentz sign (derivatives that keep real data real); refuted: balance with the kinetic magnetic operator, whose transverse sign differs (C77)."
  },
  {
   "property": "C82",
   "status": "proved",
   "theorems": [
    "C82_grid",
    "C82_time",
    "C82_sharding",
    "C82_profile_1d",
    "C82_profile_2d",
    "C82_init",
    "C82_neutral",
    "C82_neutral_refuted",
    "C82_collisions",
    "C82_build"
   ],
   "note": "Exact arithmetic; the tridiagonal solver, gamma function and self-consistent inverse temperature are arbitrary arguments. Refuted: the non-relativistic quasineutral start is not exactly neutral."
  },
  {
   "property": "C83",
   "status": "proved",
   "theorems": [
    "C83_velocity_axes",
    "C83_pushers",
    "C83_number",
    "C83_semi_lagrangian",
    "C83_rotation",
    "C83_quarter_turn",
    "C83_rotation_number_refuted",
    "C83_krook",
    "C83_init",
    "C83_sharded_init",
    "C83_velocity_sharding_refuted",
    "C83_krook_mass_refuted",
    "C83_dougherty_row",
    "C83_dougherty_exact_refuted",
    "C83_collisions_density",
    "C83_filter",
    "C83_filter_number",
    "C83_filter_order_refuted",
    "C83_profile",
    "C83_uniform_refuted",
    "C83_sharding_accepts",
    "C83_species"
   ],
   "note": "Exact arithmetic; the cubic interpolant, gamma function and tridiagonal solve are arbitrary arguments (interpolant exact at its nodes). Refuted: rotation conserves particles, Krook target has the species mass, Dougherty conserves energy exactly, velocity-sharded start equals the unsharded one, order 0 filter keeps particles, basis uniform is uniform."
  },
  {
   "property": "C84",
   "status": "proved",
   "theorems": [
    "C84_grid",
    "C84_time",
    "C84_tmin_refuted",
    "C84_budget_refuted",
    "C84_energy",
    "C84_divergence",
    "C84_vacuum",
    "C84_growth",
    "C84_dt_cap_refuted",
    "C84_initial",
    "C84_step",
    "C84_mean_field",
    "C84_driver",
    "C84_run",
    "C84_polarization_refuted",
    "C84_moments",
    "C84_scalars",
    "C84_mean_energy",
    "C84_saved_axis",
    "C84_save_names",
    "C84_save_fields_refuted"
   ],
   "note": "Exact arithmetic. Refuted: tmin is honoured, the step budget suffices above 1e8 steps, the dt cap is stable, polarization is read, several groups of saved fields are accepted in any order."
  },
  {
   "property": "C85",
   "status": "proved",
   "theorems": [
    "C85_grid",
    "C85_xmin_refuted",
    "C85_time",
    "C85_tmin_refuted",
    "C85_accepted",
    "C85_off",
    "C85_number",
    "C85_field",
    "C85_uniform",
    "C85_driver_sign",
    "C85_drivers",
    "C85_linear",
    "C85_wave",
    "C85_oscillator",
    "C85_kinetic",
    "C85_damped_frequency",
    "C85_kinetic_frequency_refuted",
    "C85_damping_species_refuted",
    "C85_pressure",
    "C85_adiabatic_refuted",
    "C85_trap",
    "C85_save_x",
    "C85_save_kx",
    "C85_save_mean_refuted"
   ],
   "note": "The right-hand side is modelled for both species and every trapping model; Tsit5 and the root finder of the dispersion relation are not (the table is arbitrary)"
  },
  {
   "property": "C86",
   "status": "proved",
   "theorems": [
    "C86_lorentz_force",
    "C86_basis_rules",
    "C86_streaming",
    "C86_current_is_flux",
    "C86_force_moments",
    "C86_work",
    "C86_only_E_works",
    "C86_continuity",
    "C86_gauss_rate",
    "C86_gauss",
    "C86_particles",
    "C86_momentum",
    "C86_energy",
    "C86_energy_conserved",
    "C86_streaming_conserves",
    "C86_magnetic_conserves",
    "C86_collisions",
    "C86_filter",
    "C86_filter_order_refuted",
    "C86_filter_momentum_refuted",
    "C86_paths_agree",
    "C86_drive",
    "C86_drive_plane_refuted",
    "C86_noise",
    "C86_noise_refuted"
   ],
   "note": "Hermite closures other than zero padding are outside the model"
  },
  {
   "property": "C87",
   "status": "proved",
   "theorems": [
    "C87_maxwell",
    "C87_streaming",
    "C87_combined",
    "C87_dissipative",
    "C87_number",
    "C87_collisions_refuted",
    "C87_filter_refuted"
   ],
   "note": "jnp.linalg.eigh is a parameter with its documented contract, and a decomposition meeting it is exhibited for four modes"
  },
  {
   "property": "C88",
   "status": "proved",
   "theorems": [
    "C88_integrating_factor",
    "C88_linear",
    "C88_amplification",
    "C88_vacuum",
    "C88_step_invariants",
    "C88_number",
    "C88_sponge",
    "C88_saved",
    "C88_saved_refuted",
    "C88_gauss_defect",
    "C88_gauss_refuted",
    "C88_sponge_gauss_refuted",
    "C88_sponge_divB_refuted",
    "C88_filter_refuted"
   ],
   "note": "adaptive step-size control (diffrax PIDController) is outside the model"
  },
  {
   "property": "C89",
   "status": "proved",
   "theorems": [
    "C89_initial_density",
    "C89_initial_field",
    "C89_gauss",
    "C89_gauss_forever",
    "C89_equilibrium",
    "C89_oblique_refuted",
    "C89_negative_refuted",
    "C89_magnetic_refuted",
    "C89_uniform_refuted",
    "C89_unresolved_refuted",
    "C89_nyquist_refuted",
    "C89_anisotropic_refuted",
    "C89_time",
    "C89_time_again_refuted",
    "C89_axis_refuted",
    "C89_limit_refuted",
    "C89_dtmax",
    "C89_dtmax_refuted",
    "C89_sponge",
    "C89_units",
    "C89_filter_defaults",
    "C89_filter_defaults_refuted",
    "C89_modes"
   ],
   "note": "configuration values are modelled as parsed numbers; jnp index semantics (negative wraps, out of range drops) is part of the model"
  },
  {
   "property": "C90",
   "status": "proved",
   "theorems": [
    "C90_moments",
    "C90_temperature_refuted",
    "C90_total_refuted",
    "C90_energies",
    "C90_hermite_index",
    "C90_kx_axis",
    "C90_ky_refuted",
    "C90_x_refuted",
    "C90_axes"
   ],
   "note": "interpolated outputs (interpax) and plots are not modelled"
  },
  {
   "property": "C91",
   "status": "proved",
   "theorems": [
    "C91_frequency",
    "C91_travelling_wave",
    "C91_alias_refuted",
    "C91_standing_refuted",
    "C91_least_squares",
    "C91_damping",
    "C91_final_energy",
    "C91_em_frequency",
    "C91_em_window_refuted",
    "C91_em_short_refuted",
    "C91_absorption"
   ],
   "note": "np.angle, np.unwrap, np.gradient are modelled from numpy's documented algorithm; np.polyfit as the closed form proved to be the unique least-squares line"
  },
  {
   "property": "C92",
   "status": "proved",
   "theorems": [
    "C92_hermite_functions",
    "C92_legendre_functions",
    "C92_moments",
    "C92_saved_invariants",
    "C92_closure",
    "C92_legendre_projection",
    "C92_coupling_gate",
    "C92_coupling_value"
   ],
   "note": "The Gaussian integral is proved (GaussInt.v, with Coquelicot's integrals, no axioms beyond the standard library's reals), integrals are stated through antiderivatives. The Gauss-Legendre nodes are parameters: the quadrature error of J is not modelled."
  },
  {
   "property": "C93",
   "status": "proved",
   "theorems": [
    "C93_forces",
    "C93_work",
    "C93_penalty_leak",
    "C93_skew",
    "C93_hermite_midpoint",
    "C93_hermite_reversible",
    "C93_legendre_midpoint",
    "C93_legendre_regular",
    "C93_skew_path",
    "C93_backward_euler",
    "C93_backward_euler_refuted",
    "C93_zero_field",
    "C93_zero_field_refuted",
    "C93_density_row",
    "C93_grid_norm",
    "C93_gamma_default"
   ],
   "note": "np.linalg.eigh(1j G) and the 2x2 and dense solves are modelled by their contracts. For a penalty other than 1/2 on every mode, regularity of the 2x2 Woodbury system is a hypothesis."
  },
  {
   "property": "C94",
   "status": "proved",
   "theorems": [
    "C94_maxwellian",
    "C94_restore",
    "C94_conservation",
    "C94_bgk",
    "C94_roundoff_refuted",
    "C94_ou_operator",
    "C94_hermite_exact",
    "C94_hermite_equilibrium",
    "C94_legendre_weak",
    "C94_diffusion",
    "C94_drift",
    "C94_dougherty_equilibrium",
    "C94_field_unchanged"
   ],
   "note": "np.linalg.eigh is modelled by its contract, exp(0.5 lgamma(n+1)) by sqrt(n!). The early return for nu = 0 or s = 0 is not part of the local maps."
  },
  {
   "property": "C95",
   "status": "proved",
   "theorems": [
    "C95_correction",
    "C95_split_conserves",
    "C95_outputs",
    "C95_gauss",
    "C95_linear_means",
    "C95_mass",
    "C95_converged",
    "C95_uniform",
    "C95_diagnostics"
   ],
   "note": "eigh and linalg.solve are modelled by their contracts, inv of the 3x3 Gram matrix by the adjugate. IMEX mass needs the Legendre force systems to be solvable (C93 refutes this in general). Exact arithmetic: the run keeps the invariants up to round-off in floating point."
  },
  {
   "property": "C96",
   "status": "proved",
   "theorems": [
    "C96_initial_distribution",
    "C96_initial_density",
    "C96_initial_mass",
    "C96_mode_refuted",
    "C96_initial_field",
    "C96_projection",
    "C96_neutral_refuted",
    "C96_times",
    "C96_block_axis_refuted",
    "C96_setup",
    "C96_driver",
    "C96_drift",
    "C96_snapshots",
    "C96_reconstruction",
    "C96_stored_coefficients",
    "C96_seeded_diagnostics"
   ],
   "note": "Gauss-Legendre nodes and weights are parameters; what the claim needs from them is stated as exactness for the integrand. Two-stream with Nh < 3 is covered by the third clause of C96_initial_distribution (single Maxwellian). The custom type is modelled; its df expression is a function of v."
  },
  {
   "property": "C97",
   "status": "proved",
   "theorems": [
    "C97_round_trip",
    "C97_band",
    "C97_band_run",
    "C97_landau",
    "C97_energy_series",
    "C97_energy",
    "C97_dispersion",
    "C97_tpd",
    "C97_tpd_pairs",
    "C97_tpd_linear",
    "C97_quiet",
    "C97_light",
    "C97_light_memoryless",
    "C97_light_off",
    "C97_E2_refuted",
    "C97_unused_terms_refuted"
   ],
   "note": "Exact arithmetic; the Nyquist row in y is excluded from the two-plasmon formula (its wavenumber is not negated by conjugation). C97_E2_refuted: vector_field.py:84 calls self.epw.driver, which the selected solver does not define. C97_quiet shows that density.noise is ignored (modules/base.py:93 multiplies it by zero)."
  },
  {
   "property": "C98",
   "status": "proved",
   "theorems": [
    "C98_field",
    "C98_single",
    "C98_mean",
    "C98_mean_refuted",
    "C98_critical_refuted",
    "C98_driver",
    "C98_one_color_refuted",
    "C98_arbitrary",
    "C98_arbitrary_refuted",
    "C98_nominal",
    "C98_plane",
    "C98_band",
    "C98_alias_free",
    "C98_isotropic_refuted"
   ],
   "note": "Exact arithmetic; the speckle envelope is an arbitrary function of time and row. C98_alias_free assumes delta_omega_max at most 1 and excludes the Nyquist row in y. A configuration without an E0 driver fails earlier, in Light.__init__ (laser.py:26), and is not represented."
  },
  {
   "property": "C99",
   "status": "proved",
   "theorems": [
    "C99_smooth",
    "C99_grid",
    "C99_requested_refuted",
    "C99_times",
    "C99_series_axis_refuted",
    "C99_absorb",
    "C99_ok",
    "C99_linear",
    "C99_density_refuted",
    "C99_units",
    "C99_collisions_refuted",
    "C99_log_refuted"
   ],
   "note": "Exact arithmetic; quantities with units are read as numbers in um, ps and keV. C99_smooth is about natural numbers and axiom-free."
  },
  {
   "property": "C100",
   "status": "proved",
   "theorems": [
    "C100_times",
    "C100_identity",
    "C100_resample",
    "C100_finer_refuted",
    "C100_coarser_refuted",
    "C100_needs_y",
    "C100_spectra",
    "C100_field_scale_refuted",
    "C100_precision_refuted",
    "C100_max_phi",
    "C100_max_phi_refuted"
   ],
   "note": "Exact arithmetic; the plots and the files are not modelled; interpax.interp2d and RegularGridInterpolator are given by their documented linear formula. The interpolation statements need two cells in each direction."
  },
  {
   "property": "C101",
   "status": "proved",
   "theorems": [
    "C101_beamlets",
    "C101_energy",
    "C101_peak",
    "C101_norm_refuted",
    "C101_plane_waves",
    "C101_support_refuted",
    "C101_bandwidth",
    "C101_coverage",
    "C101_rms"
   ],
   "note": "Exact arithmetic; random draws are arbitrary; the transverse sinc envelope, which no caller enables, and the polarisation vector are left out. C101_support_refuted states the exact condition under which the reserved band holds the beamlets; C101_ex gives a configuration that violates it."
  },
  {
   "property": "C102",
   "status": "proved",
   "theorems": [
    "C102_grid",
    "C102_tensor",
    "C102_temperature",
    "C102_well_posed",
    "C102_restoration",
    "C102_conservation",
    "C102_maxwellian",
    "C102_sweeps",
    "C102_sampled_maxwellian_refuted"
   ],
   "note": "Exact arithmetic; erf is the integral of the Gaussian (Coquelicot's RInt); the tridiagonal solver returns a solution of its system. Nonnegativity after the explicit cross terms and after restoration is not claimed (the code does not guarantee it)."
  },
  {
   "property": "C103",
   "status": "proved",
   "theorems": [
    "C103_requirements",
    "C103_projection",
    "C103_limit",
    "C103_perpendicular",
    "C103_number",
    "C103_accumulators",
    "C103_exists",
    "C103_same_options_refuted",
    "C103_initial_marginal",
    "C103_initial_maxwellian"
   ],
   "note": "Runs of the model of VlasovMaxwell2V (leapfrog and sixth order, every field solver, every collision type, wave equation, accumulators) of any length. Existence of a step is shown for collisions off and for dougherty_nodrag (the implicit matrix is then diagonally dominant; with the self-consistent beta the model allows any beta)."
  },
  {
   "property": "C104",
   "status": "proved",
   "theorems": [
    "C104_moments",
    "C104_scalars",
    "C104_energy",
    "C104_pond",
    "C104_perpendicular",
    "C104_kinetic2",
    "C104_run_constants",
    "C104_samples",
    "C104_samples2",
    "C104_velocity_edges",
    "C104_space_edges",
    "C104_spectrum_refuted",
    "C104_table_built",
    "C104_table_holds",
    "C104_fields_order_refuted",
    "C104_dotted_names_refuted",
    "C104_split_quadratic",
    "C104_split_wave",
    "C104_split_refuted"
   ],
   "note": "The interpolation is interpax's bilinear one as its documentation gives it (out of range: NaN in 1D, linear continuation with extrap=True in 1D2V); the values NaN and 'raises' are both None in the model of a sampled save."
  },
  {
   "property": "C105",
   "status": "proved",
   "theorems": [
    "C105_parseval",
    "C105_wave",
    "C105_shift",
    "C105_complete",
    "C105_mean_mode",
    "C105_window",
    "C105_window_refuted",
    "C105_curve",
    "C105_axis",
    "C105_screening",
    "C105_delta_f",
    "C105_panels",
    "C105_single_time_refuted"
   ],
   "note": "Files and figures are not modelled; an average over an empty window (NaN) and the division by a zero number of columns are None."
  },
  {
   "property": "C106",
   "status": "proved",
   "theorems": [
    "C106_component",
    "C106_latest",
    "C106_field_energy",
    "C106_total",
    "C106_uniform",
    "C106_averaged_refuted",
    "C106_double_refuted",
    "C106_final_iter",
    "C106_streamed",
    "C106_streamed_single_refuted",
    "C106_resolve",
    "C106_last_iter",
    "C106_split",
    "C106_cadence_refuted",
    "C106_reference",
    "C106_box",
    "C106_laser",
    "C106_laser_section",
    "C106_derived",
    "C106_courant_refuted",
    "C106_steps",
    "C106_elements_refuted",
    "C106_lookup"
   ],
   "note": "Reading of files is replaced by their contents; NaN is None; num_steps with dt = 0 (ZeroDivisionError) is None."
  },
  {
   "property": "C107",
   "status": "proved",
   "theorems": [
    "C107_vector_potential",
    "C107_odd_grid",
    "C107_uniform_refuted",
    "C107_even_refuted"
   ],
   "note": "Derivatives are the spectral ones of the unsharded solver; for finite-difference (sharded) runs the potential is still the spectral one."
  },
  {
   "property": "C108",
   "status": "proved",
   "theorems": [
    "C108_gate",
    "C108_rate",
    "C108_ranges",
    "C108_reversal",
    "C108_extension",
    "C108_extension_refuted",
    "C108_shift_refuted",
    "C108_summary",
    "C108_panels"
   ],
   "note": "NaN and inf are None; frames hold finite reals. The component-wise ohm_* copies, file writing and drawing are not modelled."
  },
  {
   "property": "C109",
   "status": "proved",
   "theorems": [
    "C109_split",
    "C109_waves",
    "C109_advect",
    "C109_slabs",
    "C109_slab_columns",
    "C109_disjoint_refuted",
    "C109_density_found",
    "C109_density_number",
    "C109_density_charge",
    "C109_density_sign_refuted",
    "C109_temperature_uth",
    "C109_temperature_trace",
    "C109_fallback_refuted",
    "C109_column",
    "C109_drift",
    "C109_density_unit",
    "C109_momentum_unit",
    "C109_charge_sign",
    "C109_local_refuted",
    "C109_deck_species",
    "C109_speeds",
    "C109_acoustic_formula",
    "C109_electron_refuted"
   ],
   "note": "Arrays that are combined are assumed to share coordinates; names, units and labels of axes are not modelled."
  },
  {
   "property": "C110",
   "status": "proved",
   "theorems": [
    "C110_blocks",
    "C110_downsample",
    "C110_axis",
    "C110_untouched",
    "C110_every_cell_refuted",
    "C110_times",
    "C110_how_many",
    "C110_from_path",
    "C110_panel_number_refuted",
    "C110_crop",
    "C110_crop_whole",
    "C110_crop_absent",
    "C110_crop_refuted",
    "C110_limits",
    "C110_late_mean",
    "C110_lineout_refuted",
    "C110_zoom"
   ],
   "note": "The rounding of fraction * nt is an input of the late-mean model; searchsorted is modelled on increasing axes; NaN is not modelled."
  },
  {
   "property": "C111",
   "status": "proved",
   "theorems": [
    "C111_live",
    "C111_precedence",
    "C111_same_as_live",
    "C111_run_or_binary",
    "C111_parent_refuted",
    "C111_cli"
   ],
   "note": "YAML values are null, numbers and booleans; writing the pictures is not modelled."
  },
  {
   "property": "C112",
   "status": "proved",
   "theorems": [
    "C112_diagnostics",
    "C112_fields",
    "C112_energy_refuted",
    "C112_blocks",
    "C112_default",
    "C112_user_default_refuted",
    "C112_times",
    "C112_step_times_refuted",
    "C112_stored_coefficients",
    "C112_all_stored"
   ],
   "note": "Exact real arithmetic; the netCDF files are not modelled."
  }
 ]
}