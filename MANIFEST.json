{
 "claims": [
  {
   "property": "C01",
   "status": "proved",
   "theorems": [
    "C01_set_unit_effect",
    "C01_unit_history",
    "C01_units_always_valid"
   ],
   "note": ""
  },
  {
   "property": "C02",
   "status": "proved",
   "theorems": [
    "C02_requires_grad_needs_pytorch",
    "C02_set_engine_effect",
    "C02_engine_history",
    "C02_engine_reachable"
   ],
   "note": ""
  },
  {
   "property": "C03",
   "status": "proved",
   "theorems": [
    "C03_env_setters",
    "C03_reset"
   ],
   "note": ""
  },
  {
   "property": "C04",
   "status": "proved",
   "theorems": [
    "C04_capacitor_roundtrip",
    "C04_C05_units_consistent",
    "C04_C05_convert_roundtrip",
    "C04_C05_denotes_one_to_one"
   ],
   "note": ""
  },
  {
   "property": "C05",
   "status": "proved",
   "theorems": [
    "C04_C05_units_consistent",
    "C04_C05_convert_roundtrip",
    "C04_C05_denotes_one_to_one",
    "C05_inductor_roundtrip"
   ],
   "note": ""
  },
  {
   "property": "C06",
   "status": "proved",
   "theorems": [
    "C06_junction_reports_angular",
    "C06_junction_roundtrip_refuted"
   ],
   "note": "Theorems ending in _refuted give the witness for the part of the expectation that fails."
  },
  {
   "property": "C07",
   "status": "proved",
   "theorems": [
    "C07_invalid_unit_rejected",
    "C07_allowed_unit_failures",
    "C07_none_unit_keyerror"
   ],
   "note": ""
  },
  {
   "property": "C08",
   "status": "proved",
   "theorems": [
    "C08_default_unit",
    "C08_constructed_value"
   ],
   "note": ""
  },
  {
   "property": "C09",
   "status": "proved",
   "theorems": [
    "C09_loop_flux",
    "C09_loop_noise_refuted"
   ],
   "note": "Theorems ending in _refuted give the witness for the part of the expectation that fails."
  },
  {
   "property": "C10",
   "status": "proved",
   "theorems": [
    "C10_fabrication_error"
   ],
   "note": ""
  },
  {
   "property": "C11",
   "status": "proved",
   "theorems": [
    "C11_incidence_and_edge_matrix",
    "C11_degenerate_edges_refuted"
   ],
   "note": "Theorems ending in _refuted give the witness for the part of the expectation that fails."
  },
  {
   "property": "C12",
   "status": "proved",
   "theorems": [
    "C12_node_count_right_iff",
    "C12_node_count_refuted",
    "C12_wrong_count_fails"
   ],
   "note": "Theorems ending in _refuted give the witness for the part of the expectation that fails."
  },
  {
   "property": "C13",
   "status": "proved",
   "theorems": [
    "C13_circuit_matrices",
    "C13_construction_total"
   ],
   "note": ""
  },
  {
   "property": "C14",
   "status": "proved",
   "theorems": [
    "C14_C_positive_definite",
    "C14_C_invertible",
    "C14_disconnected_singular"
   ],
   "note": ""
  },
  {
   "property": "C15",
   "status": "proved",
   "theorems": [
    "C15_susceptance_null_space"
   ],
   "note": ""
  },
  {
   "property": "C16",
   "status": "proved",
   "theorems": [
    "C16_row_bookkeeping",
    "C16_keys_in_order",
    "C16_bare_junctions"
   ],
   "note": ""
  },
  {
   "property": "C17",
   "status": "proved",
   "theorems": [
    "C17_loop_registration",
    "C17_prior_state_irrelevant"
   ],
   "note": ""
  },
  {
   "property": "C18",
   "status": "proved",
   "theorems": [
    "C18_parameters",
    "C18_numpy_no_parameters"
   ],
   "note": ""
  },
  {
   "property": "C19",
   "status": "proved",
   "theorems": [
    "C19_declaration_order",
    "C19_parallel_capacitors_add"
   ],
   "note": ""
  },
  {
   "property": "C20",
   "status": "proved",
   "theorems": [
    "C20_capacitor_sensitivity",
    "C20_inductor_sensitivity",
    "C20_sensitivity_entries"
   ],
   "note": ""
  },
  {
   "property": "C21",
   "status": "proved",
   "theorems": [
    "C21_first_rank_columns",
    "C21_independent_columns",
    "C21_grounded_circuits",
    "C21_independent_spanning_refuted"
   ],
   "note": "Theorems ending in _refuted give the witness for the part of the expectation that fails."
  },
  {
   "property": "C22",
   "status": "proved",
   "theorems": [
    "C22_flux_distribution",
    "C22_found",
    "C22_connected_circuits_accepted_refuted"
   ],
   "note": "Theorems ending in _refuted give the witness for the part of the expectation that fails."
  },
  {
   "property": "C23",
   "status": "proved",
   "theorems": [
    "C23_rounding_nearest",
    "C23_external_phase",
    "C23_loop_sums",
    "C23_induced_charge"
   ],
   "note": ""
  },
  {
   "property": "C24",
   "status": "proved",
   "theorems": [
    "C24_canonical",
    "C24_normal_form",
    "C24_first_diagonal",
    "C24_first_total"
   ],
   "note": ""
  },
  {
   "property": "C25",
   "status": "proved",
   "theorems": [
    "C25_couplings",
    "C25_first_attempt",
    "C25_returns_refuted"
   ],
   "note": "Theorems ending in _refuted give the witness for the part of the expectation that fails."
  },
  {
   "property": "C26",
   "status": "proved",
   "theorems": [
    "C26_removal",
    "C26_kept",
    "C26_idempotent",
    "C26_removed_decoupled"
   ],
   "note": ""
  },
  {
   "property": "C27",
   "status": "proved",
   "theorems": [
    "C27_columns",
    "C27_prefix",
    "C27_own_coefficients_refuted"
   ],
   "note": "Theorems ending in _refuted give the witness for the part of the expectation that fails."
  },
  {
   "property": "C28",
   "status": "proved",
   "theorems": [
    "C28_refreshes",
    "C28_removed_refuted",
    "C28_untruncated_refuted",
    "C28_corrupted"
   ],
   "note": "Theorems ending in _refuted give the witness for the part of the expectation that fails."
  },
  {
   "property": "C29",
   "status": "proved",
   "theorems": [
    "C29_accepts",
    "C29_dimensions",
    "C29_round_trip",
    "C29_squeezed",
    "C29_unset",
    "C29_positive_refuted"
   ],
   "note": "Theorems ending in _refuted give the witness for the part of the expectation that fails."
  },
  {
   "property": "C30",
   "status": "proved",
   "theorems": [
    "C30_bound",
    "C30_errors"
   ],
   "note": ""
  },
  {
   "property": "C31",
   "status": "proved",
   "theorems": [
    "C31_decompose",
    "C31_bijection",
    "C31_overflow"
   ],
   "note": ""
  },
  {
   "property": "C32",
   "status": "proved",
   "theorems": [
    "C32_weight_outside",
    "C32_box_exists",
    "C32_bounds",
    "C32_flags_top",
    "C32_t_zero",
    "C32_small_mode",
    "C32_errors",
    "C32_negative_edge_refuted"
   ],
   "note": "Theorems ending in _refuted give the witness for the part of the expectation that fails."
  },
  {
   "property": "C33",
   "status": "proved",
   "theorems": [
    "C33_charge",
    "C33_flux",
    "C33_number",
    "C33_charge_range",
    "C33_products",
    "C33_commute",
    "C33_hermitian",
    "C33_cooper_pairs"
   ],
   "note": ""
  },
  {
   "property": "C34",
   "status": "proved",
   "theorems": [
    "C34_shift",
    "C34_adjoint",
    "C34_unitary",
    "C34_junction",
    "C34_large_refuted",
    "C34_displacement"
   ],
   "note": "Theorems ending in _refuted give the witness for the part of the expectation that fails."
  },
  {
   "property": "C35",
   "status": "proved",
   "theorems": [
    "C35_hermitian",
    "C35_total",
    "C35_unset",
    "C35_terms",
    "C35_phase",
    "C35_flux_bias",
    "C35_sines"
   ],
   "note": ""
  },
  {
   "property": "C36",
   "status": "proved",
   "theorems": [
    "C36_quadratic_Q",
    "C36_quadratic_phi",
    "C36_LC_energy",
    "C36_description"
   ],
   "note": ""
  },
  {
   "property": "C37",
   "status": "proved",
   "theorems": [
    "C37_fresh",
    "C37_after_update",
    "C37_memory"
   ],
   "note": ""
  },
  {
   "property": "C38",
   "status": "proved",
   "theorems": [
    "C38_results",
    "C38_truncation",
    "C38_stale"
   ],
   "note": ""
  },
  {
   "property": "C39",
   "status": "proved",
   "theorems": [
    "C39_never_refuted"
   ],
   "note": "Theorems ending in _refuted give the witness for the part of the expectation that fails."
  },
  {
   "property": "C40",
   "status": "proved",
   "theorems": [
    "C40_pairing",
    "C40_eigenpairs",
    "C40_circuit",
    "C40_guard",
    "C40_retry"
   ],
   "note": ""
  },
  {
   "property": "C41",
   "status": "proved",
   "theorems": [
    "C41_returned",
    "C41_rescale"
   ],
   "note": ""
  },
  {
   "property": "C42",
   "status": "proved",
   "theorems": [
    "C42_values",
    "C42_numpy",
    "C42_torch",
    "C42_torch_returns",
    "C42_keyerror_refuted",
    "C42_shared_refuted",
    "C42_detached",
    "C42_numpy_eigs_refuted",
    "C42_description_refuted"
   ],
   "note": "Theorems ending in _refuted give the witness for the part of the expectation that fails."
  },
  {
   "property": "C43",
   "status": "proved",
   "theorems": [
    "C43_pickle",
    "C43_picklecopy",
    "C43_before_update",
    "C43_restore",
    "C43_memory_unread",
    "C43_untruncated_refuted"
   ],
   "note": "Theorems ending in _refuted give the witness for the part of the expectation that fails."
  },
  {
   "property": "C44",
   "status": "proved",
   "theorems": [
    "C44_assigned",
    "C44_distinct",
    "C44_short_refuted",
    "C44_long_refuted",
    "C44_numpy",
    "C44_dropped_refuted"
   ],
   "note": "Theorems ending in _refuted give the witness for the part of the expectation that fails."
  },
  {
   "property": "C45",
   "status": "proved",
   "theorems": [
    "C45_bose",
    "C45_balance",
    "C45_total",
    "C45_direction",
    "C45_nonneg",
    "C45_cutoff",
    "C45_limits",
    "C45_nonneg_refuted"
   ],
   "note": "Theorems ending in _refuted give the witness for the part of the expectation that fails."
  },
  {
   "property": "C46",
   "status": "proved",
   "theorems": [
    "C46_value",
    "C46_nonneg",
    "C46_linear",
    "C46_zero",
    "C46_undefined"
   ],
   "note": ""
  },
  {
   "property": "C47",
   "status": "proved",
   "theorems": [
    "C47_gradient",
    "C47_negative",
    "C47_negative_refuted",
    "C47_corner"
   ],
   "note": "Theorems ending in _refuted give the witness for the part of the expectation that fails."
  },
  {
   "property": "C48",
   "status": "proved",
   "theorems": [
    "C48_loop",
    "C48_unknown_loop",
    "C48_junction",
    "C48_placement",
    "C48_placements",
    "C48_loop_loop",
    "C48_loop_junction",
    "C48_loop_inductor",
    "C48_placement_loop",
    "C48_after_diag"
   ],
   "note": ""
  },
  {
   "property": "C49",
   "status": "proved",
   "theorems": [
    "C49_defined",
    "C49_orthogonal",
    "C49_coefficients",
    "C49_span",
    "C49_epsilon",
    "C49_exact",
    "C49_negative_refuted",
    "C49_session"
   ],
   "note": "Theorems ending in _refuted give the witness for the part of the expectation that fails."
  },
  {
   "property": "C50",
   "status": "proved",
   "theorems": [
    "C50_first",
    "C50_difference",
    "C50_identity",
    "C50_refuted",
    "C50_arguments"
   ],
   "note": "Theorems ending in _refuted give the witness for the part of the expectation that fails."
  },
  {
   "property": "C51",
   "status": "proved",
   "theorems": [
    "C51_total",
    "C51_kirchhoff",
    "C51_swap",
    "C51_ground",
    "C51_kirchhoff_ground",
    "C51_kirchhoff_ground_refuted",
    "C51_errors",
    "C51_matrices"
   ],
   "note": "Theorems ending in _refuted give the witness for the part of the expectation that fails."
  },
  {
   "property": "C52",
   "status": "proved",
   "theorems": [
    "C52_circuits",
    "C52_bijection",
    "C52_ground_refuted"
   ],
   "note": "Theorems ending in _refuted give the witness for the part of the expectation that fails."
  },
  {
   "property": "C53",
   "status": "proved",
   "theorems": [
    "C53_entries",
    "C53_symmetric",
    "C53_energy",
    "C53_order",
    "C53_removed_refuted"
   ],
   "note": "Theorems ending in _refuted give the witness for the part of the expectation that fails."
  },
  {
   "property": "C54",
   "status": "proved",
   "theorems": [
    "C54_acts",
    "C54_morphism",
    "C54_two"
   ],
   "note": ""
  },
  {
   "property": "C55",
   "status": "proved",
   "theorems": [
    "C55_total",
    "C55_defect",
    "C55_commuting",
    "C55_hermitian",
    "C55_not_hermitian",
    "C55_refuted"
   ],
   "note": "Theorems ending in _refuted give the witness for the part of the expectation that fails."
  },
  {
   "property": "C56",
   "status": "proved",
   "theorems": [
    "C56_flux",
    "C56_charge",
    "C56_last_flux",
    "C56_grid",
    "C56_no_axis",
    "C56_empty_refuted"
   ],
   "note": "Theorems ending in _refuted give the witness for the part of the expectation that fails."
  },
  {
   "property": "C57",
   "status": "proved",
   "theorems": [
    "C57_meaning",
    "C57_one_charge",
    "C57_iff",
    "C57_exact",
    "C57_rounding",
    "C57_angular_refuted",
    "C57_modes",
    "C57_islands",
    "C57_refuted"
   ],
   "note": "Theorems ending in _refuted give the witness for the part of the expectation that fails."
  },
  {
   "property": "C58",
   "status": "proved",
   "theorems": [
    "C58_table",
    "C58_no_loops",
    "C58_sign"
   ],
   "note": ""
  },
  {
   "property": "C59",
   "status": "proved",
   "theorems": [
    "C59_factor",
    "C59_orthonormal",
    "C59_oscillator",
    "C59_refuted",
    "C59_large_refuted",
    "C59_axis_refuted",
    "C59_array",
    "C59_errors",
    "C59_normalised",
    "C59_operators",
    "C59_charge_phase",
    "C59_charge_refuted"
   ],
   "note": "Theorems ending in _refuted give the witness for the part of the expectation that fails."
  },
  {
   "property": "C60",
   "status": "proved",
   "theorems": [
    "C60_log_sinh",
    "C60_default_q_cap",
    "C60_default_q_ind",
    "C60_default_q_ind_anchor"
   ],
   "note": ""
  },
  {
   "property": "C61",
   "status": "proved",
   "theorems": [
    "C61_symmetric",
    "C61_sum",
    "C61_sum_refuted",
    "C61_nonneg",
    "C61_capacitive",
    "C61_inductive",
    "C61_quasiparticle",
    "C61_flux",
    "C61_critical_current",
    "C61_charge",
    "C61_direction_refuted"
   ],
   "note": "Theorems ending in _refuted give the witness for the part of the expectation that fails."
  },
  {
   "property": "C62",
   "status": "proved",
   "theorems": [
    "C62_gram_schmidt",
    "C62_distinct",
    "C62_invertible",
    "C62_bounded"
   ],
   "note": ""
  },
  {
   "property": "C63",
   "status": "proved",
   "theorems": [
    "C63_flux_quanta"
   ],
   "note": ""
  },
  {
   "property": "C65",
   "status": "proved",
   "theorems": [
    "C65_absolute",
    "C65_relative",
    "C65_difference",
    "C65_session"
   ],
   "note": ""
  },
  {
   "property": "C66",
   "status": "proved",
   "theorems": [
    "C66_operator",
    "C66_charge_rate"
   ],
   "note": ""
  },
  {
   "property": "C64",
   "status": "proved",
   "theorems": [
    "C64_capacitor",
    "C64_inductor",
    "C64_charge_energy",
    "C64_inner_capacitor",
    "C64_removed_refuted"
   ],
   "note": "Theorems ending in _refuted give the witness for the part of the expectation that fails."
  },
  {
   "property": "C67",
   "status": "proved",
   "theorems": [
    "C67_lines",
    "C67_value",
    "C67_junction_refuted",
    "C67_subclass_refuted"
   ],
   "note": "Theorems ending in _refuted give the witness for the part of the expectation that fails."
  },
  {
   "property": "C68",
   "status": "proved",
   "theorems": [
    "C68_formula",
    "C68_truncated",
    "C68_flux",
    "C68_cc",
    "C68_charge",
    "C68_flux_levels",
    "C68_cc_levels",
    "C68_charge_levels",
    "C68_sweet_spot",
    "C68_backward"
   ],
   "note": ""
  },
  {
   "property": "C69",
   "status": "proved",
   "theorems": [
    "C69_agrees",
    "C69_returns",
    "C69_raises",
    "C69_one_refuted",
    "C69_context"
   ],
   "note": "Theorems ending in _refuted give the witness for the part of the expectation that fails."
  },
  {
   "property": "C70",
   "status": "proved",
   "theorems": [
    "C70_context",
    "C70_isolated",
    "C70_gradient",
    "C70_complete",
    "C70_values"
   ],
   "note": ""
  },
  {
   "property": "C71",
   "status": "proved",
   "theorems": [
    "C71_arguments",
    "C71_half_angle",
    "C71_charge_refuted",
    "C71_op",
    "C71_unknown",
    "C71_transmon_refuted",
    "C71_lossless_refuted",
    "C71_charge_op",
    "C71_index_refuted",
    "C71_index",
    "C71_charge_eig",
    "C71_basis",
    "C71_untruncated"
   ],
   "note": "Theorems ending in _refuted give the witness for the part of the expectation that fails."
  },
  {
   "property": "C72",
   "status": "proved",
   "theorems": [
    "C72_differentiable",
    "C72_gradient",
    "C72_complete"
   ],
   "note": ""
  },
  {
   "property": "C73",
   "status": "proved",
   "theorems": [
    "C73_k0e",
    "C73_log_k0",
    "C73_extremes",
    "C73_extremes_grad",
    "C73_round",
    "C73_slopes",
    "C73_smooth"
   ],
   "note": ""
  },
  {
   "property": "C74",
   "status": "proved",
   "theorems": [
    "C74_charging",
    "C74_compression",
    "C74_all_levels",
    "C74_leak",
    "C74_refuted"
   ],
   "note": "Theorems ending in _refuted give the witness for the part of the expectation that fails."
  },
  {
   "property": "C75",
   "status": "proved",
   "theorems": [
    "C75_convert",
    "C75_casts",
    "C75_dag",
    "C75_dag_vector",
    "C75_dag_refuted",
    "C75_product",
    "C75_reversed",
    "C75_refuted",
    "C75_product_numpy",
    "C75_inner",
    "C75_tensor"
   ],
   "note": "Theorems ending in _refuted give the witness for the part of the expectation that fails."
  },
  {
   "property": "C76",
   "status": "proved",
   "theorems": [
    "C76_complete",
    "C76_once",
    "C76_relevant",
    "C76_precise",
    "C76_type",
    "C76_printer",
    "C76_layout",
    "C76_blind",
    "C76_refuted"
   ],
   "note": "Theorems ending in _refuted give the witness for the part of the expectation that fails."
  },
  {
   "property": "C77",
   "status": "proved",
   "theorems": [
    "C77_sync",
    "C77_views",
    "C77_construction",
    "C77_zero",
    "C77_backward_none",
    "C77_backward",
    "C77_fresh",
    "C77_sound",
    "C77_step",
    "C77_nonleaf",
    "C77_lost",
    "C77_plain",
    "C77_kept",
    "C77_tensor",
    "C77_computed",
    "C77_errors",
    "C77_flag",
    "C77_source_refuted",
    "C77_stale_refuted",
    "C77_value_refuted"
   ],
   "note": "Theorems ending in _refuted give the witness for the part of the expectation that fails."
  },
  {
   "property": "C78",
   "status": "proved",
   "theorems": [
    "C78_errors",
    "C78_object",
    "C78_own_capacitor",
    "C78_numbers",
    "C78_truth",
    "C78_attribute",
    "C78_loss",
    "C78_typeerror",
    "C78_capacitor",
    "C78_none_refuted",
    "C78_id",
    "C78_id_text",
    "C78_small_cap",
    "C78_stale_id_refuted"
   ],
   "note": "Theorems ending in _refuted give the witness for the part of the expectation that fails."
  },
  {
   "property": "C79",
   "status": "proved",
   "theorems": [
    "C79_displacement",
    "C79_inductors",
    "C79_flux",
    "C79_both",
    "C79_energies",
    "C79_states",
    "C79_elements",
    "C79_rates"
   ],
   "note": ""
  },
  {
   "property": "C80",
   "status": "proved",
   "theorems": [
    "C80_elements",
    "C80_energies",
    "C80_levels",
    "C80_periodic",
    "C80_settings"
   ],
   "note": ""
  },
  {
   "property": "C81",
   "status": "proved",
   "theorems": [
    "C81_errors",
    "C81_value",
    "C81_kirchhoff",
    "C81_back",
    "C81_exchange"
   ],
   "note": ""
  },
  {
   "property": "C82",
   "status": "proved",
   "theorems": [
    "C82_lipschitz",
    "C82_flux",
    "C82_bare",
    "C82_session"
   ],
   "note": ""
  },
  {
   "property": "C83",
   "status": "proved",
   "theorems": [
    "C83_exists",
    "C83_unique",
    "C83_group",
    "C83_half",
    "C83_junction",
    "C83_half_angle",
    "C83_energies"
   ],
   "note": ""
  },
  {
   "property": "C84",
   "status": "proved",
   "theorems": [
    "C84_lowest",
    "C84_returned",
    "C84_solver",
    "C84_variational",
    "C84_truncation",
    "C84_settings",
    "C84_reversal",
    "C84_session"
   ],
   "note": ""
  },
  {
   "property": "C85",
   "status": "proved",
   "theorems": [
    "C85_linear",
    "C85_junctions",
    "C85_one_mode",
    "C85_photons_refuted"
   ],
   "note": "Theorems ending in _refuted give the witness for the part of the expectation that fails."
  },
  {
   "property": "C86",
   "status": "proved",
   "theorems": [
    "C86_builds",
    "C86_forms",
    "C86_entries",
    "C86_keys",
    "C86_phases",
    "C86_count_refuted",
    "C86_determinants",
    "C86_singular_values",
    "C86_frequencies"
   ],
   "note": "Theorems ending in _refuted give the witness for the part of the expectation that fails."
  },
  {
   "property": "C87",
   "status": "proved",
   "theorems": [
    "C87_gauge",
    "C87_near",
    "C87_shares",
    "C87_distributions",
    "C87_rounded",
    "C87_returned",
    "C87_inductors_refuted"
   ],
   "note": "Theorems ending in _refuted give the witness for the part of the expectation that fails."
  },
  {
   "property": "C88",
   "status": "proved",
   "theorems": [
    "C88_circuit",
    "C88_shares",
    "C88_singular_values",
    "C88_frequencies",
    "C88_hamiltonian",
    "C88_returned"
   ],
   "note": ""
  },
  {
   "property": "C89",
   "status": "proved",
   "theorems": [
    "C89_hamiltonian",
    "C89_energies",
    "C89_ground",
    "C89_excitation",
    "C89_returned"
   ],
   "note": ""
  },
  {
   "property": "C90",
   "status": "proved",
   "theorems": [
    "C90_island",
    "C90_oscillator"
   ],
   "note": ""
  },
  {
   "property": "C91",
   "status": "proved",
   "theorems": [
    "C91_plot",
    "C91_draws",
    "C91_flux_figure",
    "C91_charge_figure",
    "C91_returns",
    "C91_planes",
    "C91_unsaved_refuted",
    "C91_late_refuted",
    "C91_stopped_refuted",
    "C91_blank_refuted",
    "C91_load",
    "C91_again",
    "C91_twice",
    "C91_losses",
    "C91_missing",
    "C91_picklecopy_refuted"
   ],
   "note": "Theorems ending in _refuted give the witness for the part of the expectation that fails."
  },
  {
   "property": "C92",
   "status": "proved",
   "theorems": [
    "C92_blocks",
    "C92_systems",
    "C92_engines",
    "C92_diag",
    "C92_create",
    "C92_kinds",
    "C92_no_blocks",
    "C92_refused",
    "C92_sort_refuted",
    "C92_mixed_refuted",
    "C92_array_refuted"
   ],
   "note": "Theorems ending in _refuted give the witness for the part of the expectation that fails."
  },
  {
   "property": "C93",
   "status": "proved",
   "theorems": [
    "C93_resonances",
    "C93_normal_mode",
    "C93_charge_modes",
    "C93_unique",
    "C93_linear",
    "C93_returned"
   ],
   "note": ""
  },
  {
   "property": "C94",
   "status": "proved",
   "theorems": [
    "C94_capacitors",
    "C94_inductors",
    "C94_no_photon",
    "C94_photon_capacitors",
    "C94_photon_inductors",
    "C94_capacitive",
    "C94_inductive",
    "C94_photon_capacitive",
    "C94_photon_inductive"
   ],
   "note": ""
  },
  {
   "property": "C95",
   "status": "proved",
   "theorems": [
    "C95_real",
    "C95_parity",
    "C95_elements",
    "C95_flux",
    "C95_slope",
    "C95_charge",
    "C95_forbidden"
   ],
   "note": ""
  },
  {
   "property": "C96",
   "status": "proved",
   "theorems": [
    "C96_sums",
    "C96_follows",
    "C96_refused",
    "C96_diag",
    "C96_refuted"
   ],
   "note": "Theorems ending in _refuted give the witness for the part of the expectation that fails."
  },
  {
   "property": "C97",
   "status": "proved",
   "theorems": [
    "C97_levels",
    "C97_matrix",
    "C97_netlist",
    "C97_island",
    "C97_concave",
    "C97_refuted"
   ],
   "note": "Theorems ending in _refuted give the witness for the part of the expectation that fails."
  },
  {
   "property": "C98",
   "status": "proved",
   "theorems": [
    "C98_matrices",
    "C98_hamiltonian",
    "C98_modes",
    "C98_netlists",
    "C98_squid",
    "C98_squid_energy",
    "C98_one"
   ],
   "note": ""
  },
  {
   "property": "C99",
   "status": "proved",
   "theorems": [
    "C99_rules",
    "C99_sum",
    "C99_session",
    "C99_netlists",
    "C99_one",
    "C99_modulus"
   ],
   "note": ""
  },
  {
   "property": "C100",
   "status": "proved",
   "theorems": [
    "C100_simple",
    "C100_returned",
    "C100_edges",
    "C100_ground",
    "C100_cancelled",
    "C100_refuted"
   ],
   "note": "Theorems ending in _refuted give the witness for the part of the expectation that fails."
  },
  {
   "property": "C101",
   "status": "proved",
   "theorems": [
    "C101_flux",
    "C101_session",
    "C101_order",
    "C101_strict",
    "C101_squid"
   ],
   "note": ""
  },
  {
   "property": "C102",
   "status": "proved",
   "theorems": [
    "C102_currents",
    "C102_rule",
    "C102_bound",
    "C102_charge_op"
   ],
   "note": ""
  },
  {
   "property": "C103",
   "status": "proved",
   "theorems": [
    "C103_ground",
    "C103_sum",
    "C103_session"
   ],
   "note": ""
  },
  {
   "property": "C104",
   "status": "proved",
   "theorems": [
    "C104_concave",
    "C104_affine",
    "C104_highest",
    "C104_session"
   ],
   "note": ""
  },
  {
   "property": "C105",
   "status": "proved",
   "theorems": [
    "C105_plain",
    "C105_latex",
    "C105_single",
    "C105_subscripts",
    "C105_distinct",
    "C105_refuted"
   ],
   "note": "Theorems ending in _refuted give the witness for the part of the expectation that fails."
  },
  {
   "property": "C106",
   "status": "proved",
   "theorems": [
    "C106_least",
    "C106_diagonal",
    "C106_junctions",
    "C106_gate",
    "C106_flux",
    "C106_highest",
    "C106_squares",
    "C106_depends",
    "C106_session",
    "C106_session_flux"
   ],
   "note": ""
  },
  {
   "property": "C107",
   "status": "proved",
   "theorems": [
    "C107_step",
    "C107_island",
    "C107_built",
    "C107_session"
   ],
   "note": ""
  },
  {
   "property": "C108",
   "status": "proved",
   "theorems": [
    "C108_near",
    "C108_diag",
    "C108_bottom",
    "C108_sum",
    "C108_state",
    "C108_returned",
    "C108_session"
   ],
   "note": ""
  }
 ]
}
