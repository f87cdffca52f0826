{
 "claims": [
  {
   "property": "C01",
   "status": "proved",
   "theorems": [
    "C01_solve_apply",
    "C01_apply_solve",
    "C01_solvable_k0"
   ],
   "note": ""
  },
  {
   "property": "C02",
   "status": "proved",
   "theorems": [
    "C02_stencil"
   ],
   "note": ""
  },
  {
   "property": "C03",
   "status": "proved",
   "theorems": [
    "C03_potential",
    "C03_potential_unique"
   ],
   "note": ""
  },
  {
   "property": "C04",
   "status": "proved",
   "theorems": [
    "C04_trace",
    "C04_projection",
    "C04_idempotent",
    "C04_exterior"
   ],
   "note": ""
  },
  {
   "property": "C05",
   "status": "proved",
   "theorems": [
    "C05_discrete_equation",
    "C05_ap_sol_f"
   ],
   "note": ""
  },
  {
   "property": "C06",
   "status": "proved",
   "theorems": [
    "C06_residual",
    "C06_reproduces"
   ],
   "note": ""
  },
  {
   "property": "C07",
   "status": "proved",
   "theorems": [
    "C07_partition",
    "C07_partition_within",
    "C07_discrete_boundary",
    "C07_Nplus",
    "C07_Kplus",
    "C07_closed_grid"
   ],
   "note": ""
  },
  {
   "property": "C08",
   "status": "proved",
   "theorems": [
    "C08_index",
    "C08_no_wrap",
    "C08_total",
    "C08_disc",
    "C08_wrap_refuted",
    "C08_index_error_refuted"
   ],
   "note": ""
  },
  {
   "property": "C09",
   "status": "proved",
   "theorems": [
    "C09_claim_iff",
    "C09_placed",
    "C09_interior"
   ],
   "note": ""
  },
  {
   "property": "C10",
   "status": "proved",
   "theorems": [
    "C10_at_most_two",
    "C10_coarse_refuted"
   ],
   "note": ""
  },
  {
   "property": "C11",
   "status": "proved",
   "theorems": [
    "C11_reachable_wf",
    "C11_getitem",
    "C11_add_ok_iff",
    "C11_add_error",
    "C11_add_value",
    "C11_add_comm",
    "C11_reduce_add"
   ],
   "note": ""
  },
  {
   "property": "C12",
   "status": "proved",
   "theorems": [
    "C12_reduce_average",
    "C12_reduce_fails_iff",
    "C12_elen_irrelevant",
    "C12_weighted_average_refuted"
   ],
   "note": ""
  },
  {
   "property": "C13",
   "status": "proved",
   "theorems": [
    "C13_length",
    "C13_bijection",
    "C13_JJ_list"
   ],
   "note": ""
  },
  {
   "property": "C14",
   "status": "proved",
   "theorems": [
    "C14_alignment",
    "C14_expansion",
    "C14_total"
   ],
   "note": ""
  },
  {
   "property": "C15",
   "status": "proved",
   "theorems": [
    "C15_derivatives",
    "C15_recurrence",
    "C15_past_table"
   ],
   "note": ""
  },
  {
   "property": "C16",
   "status": "proved",
   "theorems": [
    "C16_roots"
   ],
   "note": ""
  },
  {
   "property": "C17",
   "status": "proved",
   "theorems": [
    "C17_inverse",
    "C17_orientation",
    "C17_ends",
    "C17_strictly_inside",
    "C17_evaluated_inside",
    "C17_derivatives"
   ],
   "note": ""
  },
  {
   "property": "C18",
   "status": "proved",
   "theorems": [
    "C18_derivative",
    "C18_step",
    "C18_other_segment"
   ],
   "note": ""
  },
  {
   "property": "C19",
   "status": "proved",
   "theorems": [
    "C19_taylor",
    "C19_remainder",
    "C19_polar",
    "C19_node_straight",
    "C19_node_curve"
   ],
   "note": ""
  },
  {
   "property": "C20",
   "status": "proved",
   "theorems": [
    "C20_chain_rule",
    "C20_arclength"
   ],
   "note": ""
  },
  {
   "property": "C21",
   "status": "proved",
   "theorems": [
    "C21_taylor",
    "C21_d2_f_s",
    "C21_polar",
    "C21_node_curve",
    "C21_node_corner",
    "C21_node_straight",
    "C21_node_right"
   ],
   "note": ""
  },
  {
   "property": "C22",
   "status": "proved",
   "theorems": [
    "C22_basis",
    "C22_linear",
    "C22_homogeneous_only",
    "C22_source_zero",
    "C22_source_error",
    "C22_unit",
    "C22_arc_solver"
   ],
   "note": ""
  },
  {
   "property": "C23",
   "status": "proved",
   "theorems": [
    "C23_exact",
    "C23_remainder",
    "C23_starting_values"
   ],
   "note": ""
  },
  {
   "property": "C24",
   "status": "proved",
   "theorems": [
    "C24_cart_to_polar",
    "C24_get_polar",
    "C24_left_inverse"
   ],
   "note": ""
  },
  {
   "property": "C25",
   "status": "proved",
   "theorems": [
    "C25_same_point",
    "C25_abs_same",
    "C25_abs_nonneg",
    "C25_wrap_func"
   ],
   "note": ""
  },
  {
   "property": "C26",
   "status": "proved",
   "theorems": [
    "C26_classifies",
    "C26_total_refuted",
    "C26_table",
    "C26_overshoot"
   ],
   "note": ""
  },
  {
   "property": "C27",
   "status": "proved",
   "theorems": [
    "C27_projection",
    "C27_dist",
    "C27_signed_dist"
   ],
   "note": ""
  },
  {
   "property": "C28",
   "status": "proved",
   "theorems": [
    "C28_straight",
    "C28_curve",
    "C28_curve_point"
   ],
   "note": ""
  },
  {
   "property": "C29",
   "status": "proved",
   "theorems": [
    "C29_consistency",
    "C29_exact"
   ],
   "note": ""
  },
  {
   "property": "C30",
   "status": "proved",
   "theorems": [
    "C30_order4",
    "C30_order2_value",
    "C30_order2_refuted"
   ],
   "note": ""
  },
  {
   "property": "C31",
   "status": "proved",
   "theorems": [
    "C31_get_N_list",
    "C31_get_N_list_None",
    "C31_termination_refuted"
   ],
   "note": ""
  },
  {
   "property": "C32",
   "status": "proved",
   "theorems": [
    "C32_get_n_basis",
    "C32_get_n_basis_diverges",
    "C32_default_table_terminates_iff",
    "C32_termination_refuted"
   ],
   "note": ""
  },
  {
   "property": "C33",
   "status": "proved",
   "theorems": [
    "C33_same_points",
    "C33_maxima",
    "C33_polar_same_points",
    "C33_polar_maxima"
   ],
   "note": ""
  },
  {
   "property": "C34",
   "status": "proved",
   "theorems": [
    "C34_max_error",
    "C34_unknown",
    "C34_empty"
   ],
   "note": ""
  },
  {
   "property": "C35",
   "status": "proved",
   "theorems": [
    "C35_bijection",
    "C35_rows",
    "C35_square"
   ],
   "note": ""
  },
  {
   "property": "C36",
   "status": "proved",
   "theorems": [
    "C36_system"
   ],
   "note": ""
  },
  {
   "property": "C37",
   "status": "proved",
   "theorems": [
    "C37_coefficients",
    "C37_residual"
   ],
   "note": ""
  },
  {
   "property": "C38",
   "status": "proved",
   "theorems": [
    "C38_inverse"
   ],
   "note": ""
  },
  {
   "property": "C39",
   "status": "proved",
   "theorems": [
    "C39_recovers",
    "C39_linear",
    "C39_alias_plus",
    "C39_alias_minus",
    "C39_alias_zero"
   ],
   "note": ""
  },
  {
   "property": "C40",
   "status": "proved",
   "theorems": [
    "C40_arc",
    "C40_exact_data"
   ],
   "note": ""
  },
  {
   "property": "C41",
   "status": "proved",
   "theorems": [
    "C41_solves",
    "C41_source"
   ],
   "note": ""
  },
  {
   "property": "C42",
   "status": "proved",
   "theorems": [
    "C42_correction",
    "C42_source",
    "C42_remainder"
   ],
   "note": ""
  },
  {
   "property": "C43",
   "status": "proved",
   "theorems": [
    "C43_taper"
   ],
   "note": ""
  },
  {
   "property": "C44",
   "status": "proved",
   "theorems": [
    "C44_residual",
    "C44_ih_series",
    "C44_quad_series",
    "C44_source",
    "C44_quad_source"
   ],
   "note": ""
  },
  {
   "property": "C45",
   "status": "proved",
   "theorems": [
    "C45_curves",
    "C45_corners",
    "C45_v_data",
    "C45_g_line",
    "C45_g_quadratic",
    "C45_mode_sign",
    "C45_u_bvp",
    "C45_u_bvp_tip",
    "C45_z_bvp"
   ],
   "note": ""
  },
  {
   "property": "C46",
   "status": "proved",
   "theorems": [
    "C46_sine",
    "C46_e",
    "C46_ycos",
    "C46_outwards",
    "C46_dirichlet"
   ],
   "note": ""
  },
  {
   "property": "C47",
   "status": "proved",
   "theorems": [
    "C47_gradient",
    "C47_hessian"
   ],
   "note": ""
  },
  {
   "property": "C48",
   "status": "proved",
   "theorems": [
    "C48_value",
    "C48_quadratic",
    "C48_taylor_refuted"
   ],
   "note": ""
  },
  {
   "property": "C49",
   "status": "proved",
   "theorems": [
    "C49_dist_deriv",
    "C49_reconstruct",
    "C49_arc"
   ],
   "note": ""
  },
  {
   "property": "C50",
   "status": "proved",
   "theorems": [
    "C50_frame",
    "C50_curvature",
    "C50_arc_curv",
    "C50_arc_normal"
   ],
   "note": ""
  },
  {
   "property": "C51",
   "status": "proved",
   "theorems": [
    "C51_never_aborts",
    "C51_quadratic_exact",
    "C51_gives_up",
    "C51_only_then"
   ],
   "note": ""
  },
  {
   "property": "C52",
   "status": "proved",
   "theorems": [
    "C52_on_curve",
    "C52_defined_refuted",
    "C52_radius_guarded",
    "C52_radius_on_line",
    "C52_off_curve"
   ],
   "note": ""
  },
  {
   "property": "C53",
   "status": "proved",
   "theorems": [
    "C53_history",
    "C53_first_call_refuted"
   ],
   "note": ""
  },
  {
   "property": "C54",
   "status": "proved",
   "theorems": [
    "C54_cache_sound",
    "C54_cheat"
   ],
   "note": ""
  },
  {
   "property": "C55",
   "status": "proved",
   "theorems": [
    "C55_run_loop_known",
    "C55_run_loop_unknown"
   ],
   "note": ""
  },
  {
   "property": "C56",
   "status": "proved",
   "theorems": [
    "C56_inverse",
    "C56_doubling",
    "C56_spacing"
   ],
   "note": ""
  },
  {
   "property": "C57",
   "status": "proved",
   "theorems": [
    "C57_problems_importable_refuted"
   ],
   "note": ""
  },
  {
   "property": "C58",
   "status": "proved",
   "theorems": [
    "C58_fit_recovers",
    "C58_unique_minimiser"
   ],
   "note": ""
  },
  {
   "property": "C59",
   "status": "proved",
   "theorems": [
    "C59_equation",
    "C59_boundary",
    "C59_asympt",
    "C59_iz_expected"
   ],
   "note": ""
  },
  {
   "property": "C60",
   "status": "proved",
   "theorems": [
    "C60_line",
    "C60_quadratic",
    "C60_line_remainder",
    "C60_quadratic_remainder"
   ],
   "note": ""
  },
  {
   "property": "C61",
   "status": "proved",
   "theorems": [
    "C61_system",
    "C61_arc",
    "C61_expected",
    "C61_acheat"
   ],
   "note": ""
  },
  {
   "property": "C62",
   "status": "proved",
   "theorems": [
    "C62_curves",
    "C62_nodes",
    "C62_tables",
    "C62_range"
   ],
   "note": ""
  },
  {
   "property": "C63",
   "status": "proved",
   "theorems": [
    "C63_max",
    "C63_modes",
    "C63_zero",
    "C63_seven_refuted"
   ],
   "note": ""
  },
  {
   "property": "C64",
   "status": "proved",
   "theorems": [
    "C64_total",
    "C64_equation",
    "C64_edges",
    "C64_arc",
    "C64_none"
   ],
   "note": ""
  },
  {
   "property": "C65",
   "status": "proved",
   "theorems": [
    "C65_hat",
    "C65_hat_angle",
    "C65_parabola",
    "C65_linesine",
    "C65_linesine_data"
   ],
   "note": ""
  },
  {
   "property": "C66",
   "status": "proved",
   "theorems": [
    "C66_expected",
    "C66_roundtrip",
    "C66_expected_polar",
    "C66_source",
    "C66_source_polar",
    "C66_homogeneous",
    "C66_neither_loops"
   ],
   "note": ""
  },
  {
   "property": "C67",
   "status": "proved",
   "theorems": [
    "C67_arc",
    "C67_bessel",
    "C67_same",
    "C67_curve",
    "C67_rest"
   ],
   "note": ""
  },
  {
   "property": "C68",
   "status": "proved",
   "theorems": [
    "C68_differences",
    "C68_defined_iff",
    "C68_key_error",
    "C68_maxima"
   ],
   "note": ""
  },
  {
   "property": "C69",
   "status": "proved",
   "theorems": [
    "C69_stable",
    "C69_exact",
    "C69_program"
   ],
   "note": ""
  },
  {
   "property": "C70",
   "status": "proved",
   "theorems": [
    "C70_ends",
    "C70_sines",
    "C70_sides",
    "C70_cubic_sixth",
    "C70_cubic_quarter",
    "C70_cubic_peak_refuted",
    "C70_cubic_band_refuted",
    "C70_margin",
    "C70_program"
   ],
   "note": ""
  },
  {
   "property": "C71",
   "status": "proved",
   "theorems": [
    "C71_points",
    "C71_length",
    "C71_default",
    "C71_cover",
    "C71_sorted",
    "C71_recomputed",
    "C71_tolerance_refuted",
    "C71_c0_test",
    "C71_c1_test",
    "C71_gap",
    "C71_span",
    "C71_span_c1",
    "C71_imaginary_refuted",
    "C71_filter",
    "C71_extended"
   ],
   "note": ""
  },
  {
   "property": "C72",
   "status": "proved",
   "theorems": [
    "C72_source",
    "C72_basis",
    "C72_one_size",
    "C72_equation",
    "C72_error",
    "C72_total",
    "C72_arc",
    "C72_candidate",
    "C72_best",
    "C72_exact",
    "C72_quadratic",
    "C72_residual"
   ],
   "note": ""
  },
  {
   "property": "C73",
   "status": "proved",
   "theorems": [
    "C73_solvable",
    "C73_source",
    "C73_boundary",
    "C73_basis",
    "C73_sizes",
    "C73_options",
    "C73_run",
    "C73_main",
    "C73_tables",
    "C73_ends_refuted"
   ],
   "note": ""
  },
  {
   "property": "C74",
   "status": "proved",
   "theorems": [
    "C74_problems",
    "C74_run",
    "C74_attribute_refuted",
    "C74_sizes",
    "C74_equation",
    "C74_equivalence",
    "C74_iz",
    "C74_table",
    "C74_fit_arc",
    "C74_fit_curve",
    "C74_v_error",
    "C74_cache",
    "C74_main",
    "C74_ends_refuted"
   ],
   "note": ""
  },
  {
   "property": "C75",
   "status": "proved",
   "theorems": [
    "C75_placed",
    "C75_source",
    "C75_run",
    "C75_main",
    "C75_extended",
    "C75_consistent",
    "C75_z_run",
    "C75_z_main"
   ],
   "note": ""
  },
  {
   "property": "C76",
   "status": "proved",
   "theorems": [
    "C76_accurate",
    "C76_trajectory",
    "C76_start",
    "C76_run",
    "C76_cheat",
    "C76_first"
   ],
   "note": ""
  },
  {
   "property": "C77",
   "status": "proved",
   "theorems": [
    "C77_error",
    "C77_gap",
    "C77_run",
    "C77_delta",
    "C77_kappa",
    "C77_smooth"
   ],
   "note": ""
  },
  {
   "property": "C78",
   "status": "proved",
   "theorems": [
    "C78_values",
    "C78_total",
    "C78_resonance",
    "C78_complete_refuted",
    "C78_discrete"
   ],
   "note": ""
  },
  {
   "property": "C79",
   "status": "proved",
   "theorems": [
    "C79_success",
    "C79_smooth"
   ],
   "note": ""
  },
  {
   "property": "C80",
   "status": "proved",
   "theorems": [
    "C80_measured",
    "C80_bound",
    "C80_main"
   ],
   "note": ""
  },
  {
   "property": "C81",
   "status": "proved",
   "theorems": [
    "C81_best",
    "C81_smooth",
    "C81_unknown"
   ],
   "note": ""
  },
  {
   "property": "C82",
   "status": "proved",
   "theorems": [
    "C82_node",
    "C82_boundary",
    "C82_error"
   ],
   "note": ""
  },
  {
   "property": "C83",
   "status": "proved",
   "theorems": [
    "C83_measured",
    "C83_bound",
    "C83_main"
   ],
   "note": ""
  },
  {
   "property": "C84",
   "status": "proved",
   "theorems": [
    "C84_printed"
   ],
   "note": ""
  },
  {
   "property": "C85",
   "status": "proved",
   "theorems": [
    "C85_node",
    "C85_boundary",
    "C85_error"
   ],
   "note": ""
  },
  {
   "property": "C86",
   "status": "proved",
   "theorems": [
    "C86_table",
    "C86_v_error",
    "C86_stable",
    "C86_one_solution",
    "C86_run"
   ],
   "note": ""
  },
  {
   "property": "C87",
   "status": "proved",
   "theorems": [
    "C87_factors",
    "C87_interp",
    "C87_arc",
    "C87_data",
    "C87_grid",
    "C87_curve"
   ],
   "note": ""
  },
  {
   "property": "C88",
   "status": "proved",
   "theorems": [
    "C88_order",
    "C88_unbounded",
    "C88_leading",
    "C88_source",
    "C88_source_order",
    "C88_source_unbounded"
   ],
   "note": ""
  },
  {
   "property": "C89",
   "status": "proved",
   "theorems": [
    "C89_shape",
    "C89_once",
    "C89_columns",
    "C89_solve",
    "C89_accepts",
    "C89_sums",
    "C89_negative"
   ],
   "note": ""
  },
  {
   "property": "C90",
   "status": "proved",
   "theorems": [
    "C90_int",
    "C90_parse",
    "C90_required",
    "C90_default_refuted",
    "C90_bare_c",
    "C90_run",
    "C90_runz",
    "C90_k",
    "C90_stuck",
    "C90_multirun"
   ],
   "note": ""
  },
  {
   "property": "C91",
   "status": "proved",
   "theorems": [
    "C91_is_equal",
    "C91_symmetric_refuted",
    "C91_add",
    "C91_pass",
    "C91_getitem",
    "C91_reduce0",
    "C91_allclose",
    "C91_reduce_mv1_refuted",
    "C91_weighted"
   ],
   "note": ""
  },
  {
   "property": "C92",
   "status": "proved",
   "theorems": [
    "C92_source",
    "C92_derivatives",
    "C92_solution",
    "C92_tip",
    "C92_error",
    "C92_scripts_fail",
    "C92_scripts_repaired"
   ],
   "note": ""
  },
  {
   "property": "C93",
   "status": "proved",
   "theorems": [
    "C93_gap",
    "C93_gap_quadratic",
    "C93_coarse",
    "C93_sharp",
    "C93_order2",
    "C93_stable",
    "C93_runs",
    "C93_zruns",
    "C93_stable_quadratic",
    "C93_error"
   ],
   "note": ""
  },
  {
   "property": "C94",
   "status": "proved",
   "theorems": [
    "C94_gamma",
    "C94_nodes",
    "C94_plot2",
    "C94_corner_refuted",
    "C94_print"
   ],
   "note": ""
  },
  {
   "property": "C95",
   "status": "proved",
   "theorems": [
    "C95_generated",
    "C95_polar",
    "C95_operator",
    "C95_script",
    "C95_chebyshev",
    "C95_search",
    "C95_arc"
   ],
   "note": ""
  },
  {
   "property": "C96",
   "status": "proved",
   "theorems": [
    "C96_run",
    "C96_array",
    "C96_multi",
    "C96_runz"
   ],
   "note": ""
  },
  {
   "property": "C97",
   "status": "proved",
   "theorems": [
    "C97_trend",
    "C97_bet",
    "C97_run_test_fails",
    "C97_run_test_marks",
    "C97_run_test_complex",
    "C97_expansion",
    "C97_expansion_fails"
   ],
   "note": ""
  }
 ]
}