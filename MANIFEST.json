{
 "claims": [
  {
   "property": "C01",
   "status": "proved",
   "theorems": [
    "interval_intersect",
    "interval_contains",
    "interval_intersect_comm",
    "interval_intersect_assoc"
   ],
   "note": ""
  },
  {
   "property": "C02",
   "status": "proved",
   "theorems": [
    "interval_constructor",
    "interval_is_empty",
    "interval_equality",
    "interval_midpoint"
   ],
   "note": ""
  },
  {
   "property": "C03",
   "status": "proved",
   "theorems": [
    "min_with_exact",
    "max_with_exact",
    "min_with_labelled",
    "max_with_labelled",
    "min_with_unguarded_refuted",
    "min_with_first_piece_refuted"
   ],
   "note": "The unguarded docstring claim is false (refuted with witnesses); proved under the two guards named in the theorems."
  },
  {
   "property": "C04",
   "status": "proved",
   "theorems": [
    "best_beta_bounds_envelope",
    "best_beta_bounds_exact",
    "best_beta_bounds_shared",
    "best_beta_bounds_total",
    "best_beta_bounds_total_refuted"
   ],
   "note": "Exactness whenever the call returns; the call raises TypeError when the last bound is alone on two cells (refuted theorem); total under the stated condition."
  },
  {
   "property": "C05",
   "status": "proved",
   "theorems": [
    "poly_constructor",
    "poly_add",
    "poly_subtract",
    "poly_multiply",
    "poly_trim",
    "poly_ring_laws",
    "poly_divide_refuted"
   ],
   "note": "divide is documented but raises for every input (refuted theorem)."
  },
  {
   "property": "C06",
   "status": "proved",
   "theorems": [
    "poly_equality",
    "poly_degree_multiply",
    "poly_degree_add",
    "poly_is_zero",
    "poly_root_count"
   ],
   "note": ""
  },
  {
   "property": "C07",
   "status": "proved",
   "theorems": [
    "rational_add",
    "rational_subtract",
    "rational_mul",
    "rational_div",
    "rational_constructor",
    "rational_equality",
    "rational_div_number_refuted",
    "rational_div_number",
    "rational_minus_operator_refuted",
    "rf2_is_constant_low_first",
    "rf2_is_constant_high_first_refuted",
    "rf2_list_constructor_refuted"
   ],
   "note": "Division by a number and the minus operator are wrong in the code: refuted, with the exact behaviour proved."
  },
  {
   "property": "C08",
   "status": "proved",
   "theorems": [
    "rational_max_optimal",
    "rational_min_optimal",
    "rational_max_everywhere",
    "rational_min_everywhere",
    "tiles_partition",
    "rational_max_no_functions",
    "rational_maximise",
    "rational_minimise",
    "rational_intersections",
    "solve_spec_on",
    "rational_max_endpoint_refuted",
    "rational_max_closed_domain_refuted",
    "rational_max_pole_refuted"
   ],
   "note": "Over the reals, for inputs without poles: at every point for half-open input intervals, at every point that is not an endpoint of an input interval otherwise; the unguarded claim is refuted."
  },
  {
   "property": "C09",
   "status": "proved",
   "theorems": [
    "polytope_constructor",
    "polytope_contains",
    "polytope_intersection",
    "polytope_intersect",
    "polytope_equality_sound",
    "polytope_equality_complete_refuted"
   ],
   "note": "For every solver meeting the contract ext_ok, which the verified solver fm_ext meets (solver_contract_met)."
  },
  {
   "property": "C10",
   "status": "proved",
   "theorems": [
    "polytope_rect",
    "polytope_scale",
    "polytope_scale_all",
    "polytope_scale_no_rows_refuted"
   ],
   "note": "Factors must be non-zero; a polytope without rows raises (refuted theorem)."
  },
  {
   "property": "C11",
   "status": "proved",
   "theorems": [
    "polytope_substitute",
    "polytope_lift",
    "polytope_lift_missing_dim_refuted"
   ],
   "note": "lift must name every old dimension exactly once; the unguarded claim is refuted."
  },
  {
   "property": "C12",
   "status": "proved",
   "theorems": [
    "polytope_is_empty_closed",
    "polytope_is_empty_open",
    "polytope_is_full_dim",
    "polytope_is_empty_after_substitute_refuted"
   ],
   "note": "The strict test needs matrices without all-zero rows; refuted after substitute creates one."
  },
  {
   "property": "C13",
   "status": "proved",
   "theorems": [
    "polytope_is_subset_of",
    "polytope_is_subset_of_unbounded_refuted"
   ],
   "note": "For bounded non-empty P; refuted for unbounded P."
  },
  {
   "property": "C14",
   "status": "proved",
   "theorems": [
    "polytope_is_covered_by",
    "polytope_is_covered_by_flat_refuted"
   ],
   "note": "Exact for P with interior points; refuted for flat P."
  },
  {
   "property": "C15",
   "status": "proved",
   "theorems": [
    "polytope_set_minus",
    "polytope_set_minus_unsimplified",
    "polytope_set_minus_equalities_refuted"
   ],
   "note": "B without equality rows; refuted otherwise."
  },
  {
   "property": "C16",
   "status": "proved",
   "theorems": [
    "polytope_try_union",
    "polytope_try_union_flat_refuted"
   ],
   "note": "Sound and complete when some input has interior points; refuted for flat inputs."
  },
  {
   "property": "C17",
   "status": "proved",
   "theorems": [
    "region_contains",
    "region_set_label",
    "region_set_label_all"
   ],
   "note": ""
  },
  {
   "property": "C18",
   "status": "proved",
   "theorems": [
    "region_substitute",
    "region_scale_all",
    "region_lift",
    "region_lift_complement_refuted"
   ],
   "note": "lift is proved for trees without complement; for complements the claim is refuted."
  },
  {
   "property": "C19",
   "status": "proved",
   "theorems": [
    "region_project",
    "region_project_superset",
    "region_project_intersection_refuted",
    "region_project_one_survivor_refuted",
    "region_is_subset_of",
    "region_is_subset_of_union_refuted"
   ],
   "note": "Exact for unions; for intersections a superset, with equality refuted."
  },
  {
   "property": "C20",
   "status": "proved",
   "theorems": [
    "region_from_union_of_halfplanes"
   ],
   "note": ""
  },
  {
   "property": "C21",
   "status": "proved",
   "theorems": [
    "region_as_disjoint_union",
    "region_as_disjoint_union_regular",
    "region_as_disjoint_union_unsupported_refuted",
    "region_as_disjoint_union_boundary_refuted"
   ],
   "note": "For trees of polytopes with interior, disjoint unions and intersections, any set enumeration order, with or without dependency tracking."
  },
  {
   "property": "C22",
   "status": "proved",
   "theorems": [
    "simplify_union_of_polys_correct",
    "simplify_union_of_polys_any_merge",
    "region_simplify",
    "region_simplify_flag_refuted"
   ],
   "note": "For every enumeration order of the index set."
  },
  {
   "property": "C23",
   "status": "proved",
   "theorems": [
    "set_add_exact",
    "set_history_exact",
    "set_copy_members",
    "set_members_never_lost"
   ],
   "note": ""
  },
  {
   "property": "C24",
   "status": "proved",
   "theorems": [
    "cache_current",
    "cache_current_copy_refuted",
    "cache_current_two_routines_refuted"
   ],
   "note": "The cached program answers like the uncached one when sets are not copied and each set serves one routine; refuted for copies and for two routines, which the code base does."
  },
  {
   "property": "C25",
   "status": "proved",
   "theorems": [
    "list_hypotheses_exact",
    "list_hypotheses_year_refuted",
    "find_hypothesis_first"
   ],
   "note": "Derived and classical results are listed whatever their year (refuted theorem)."
  },
  {
   "property": "C26",
   "status": "proved",
   "theorems": [
    "recursive_dependencies_exact",
    "recursive_dependencies_order_free",
    "recursive_dependencies_cycle"
   ],
   "note": ""
  },
  {
   "property": "C27",
   "status": "proved",
   "theorems": [
    "proof_complexity_is_tree_size",
    "proof_complexity_bounds",
    "proof_date_is_latest",
    "proof_date_well_derived",
    "proof_date_unknown_refuted"
   ],
   "note": "An undated dependency counts as year -1 (refuted theorem)."
  },
  {
   "property": "C28",
   "status": "proved",
   "theorems": [
    "max_year_correct",
    "max_year_same_members",
    "max_year_combine",
    "reference_years"
   ],
   "note": ""
  },
  {
   "property": "C29",
   "status": "proved",
   "theorems": [
    "bibtex_split_level",
    "bibtex_split_level_joins",
    "bibtex_split_level_joins_refuted",
    "bibtex_extract",
    "bibtex_parse_entry",
    "bibtex_load",
    "bibtex_find_all",
    "bibtex_at_sign_refuted",
    "bibtex_unbraced_value_refuted",
    "bibtex_find_all_missing_refuted"
   ],
   "note": "Empty pieces are dropped, unbraced values are dropped, an @ inside a value breaks the file (refuted theorems)."
  },
  {
   "property": "C30",
   "status": "proved",
   "theorems": [
    "transforms_preserve_triangle",
    "transform_B_involution",
    "transform_A_contracts",
    "transform_D_max",
    "transform_B_sound"
   ],
   "note": "A, B, C map the triangle to itself by the classical formulas; the D bounds equal the maximum of Sargos' line (whose pair is in the triangle) and 1/12+2a/3 on exactly [0,1/2]; B is sound by the reflection law."
  },
  {
   "property": "C31",
   "status": "proved",
   "theorems": [
    "van_der_corput_closed_form",
    "van_der_corput_step",
    "van_der_corput_rejects"
   ],
   "note": ""
  },
  {
   "property": "C32",
   "status": "proved",
   "theorems": [
    "exp_pairs_sound",
    "exp_pairs_true",
    "exp_pairs_complete",
    "exp_pairs_pruned_complete",
    "exp_pairs_literature",
    "exp_pairs_total",
    "hull_contract_met",
    "exp_pairs_depth_bound_refuted",
    "exp_pairs_pruned_total_refuted"
   ],
   "note": "search_depth bounds the rounds, not the applications (refuted theorem); pruning keeps the convex hull for transforms that respect segments, which A, B, C do; collinear pairs make pruning raise (refuted theorem)."
  },
  {
   "property": "C33",
   "status": "proved",
   "theorems": [
    "in_triangle_counterclockwise",
    "in_triangle_clockwise",
    "in_triangle_degenerate",
    "in_triangle_degenerate_refuted"
   ],
   "note": "Degenerate triangles accept their whole line (refuted theorem)."
  },
  {
   "property": "C34",
   "status": "proved",
   "theorems": [
    "pairs_to_beta_exact",
    "pairs_to_beta_sound",
    "beta_to_pairs_sound",
    "beta_to_pairs_optimal",
    "pairs_round_trip",
    "beta_to_pairs_slope_refuted",
    "beta_to_pairs_gap_refuted",
    "beta_to_pairs_domain_refuted"
   ],
   "note": "Soundness of beta_bounds_to_exponent_pairs needs the guard beta_guard and coverage of [0,1/2]; each is shown to be needed by a refuted theorem. The round trip of triangle pairs needs no guard."
  },
  {
   "property": "C35",
   "status": "proved",
   "theorems": [
    "mu_trivial_sound",
    "mu_functional_sound",
    "mu_convexity_sound",
    "mu_from_pair_sound",
    "mu_bounds_sound",
    "mu_best_sound",
    "mu_prove_sound",
    "mu_convexity_theta_refuted"
   ],
   "note": "Convexity needs 0 <= theta <= 1, which the code does not check (refuted theorem)."
  },
  {
   "property": "C36",
   "status": "proved",
   "theorems": [
    "mu_bounds_exact",
    "mu_bounds_total",
    "mu_best_optimal",
    "mu_best_outside",
    "mu_best_total",
    "mu_best_collinear_refuted",
    "mu_functional_closure_refuted"
   ],
   "note": "The optimum is over the collected bounds; they are not closed under the functional equation for sigma < 1/2 (refuted theorem), and the call raises when the exponent pairs of the set are collinear (refuted theorem)."
  },
  {
   "property": "C37",
   "status": "proved",
   "theorems": [
    "convert_bounds_exact",
    "convert_bounds_meaning",
    "convert_bounds_empty",
    "convert_bounds_malformed",
    "large_value_estimate_L2_exact",
    "montgomery_conjecture_exact",
    "montgomery_conjecture_half_refuted"
   ],
   "note": "Montgomery's conjecture is stored also on sigma = 1/2, where it is false (refuted theorem)."
  },
  {
   "property": "C38",
   "status": "proved",
   "theorems": [
    "raise_to_power_region",
    "raise_to_power_compose",
    "raise_to_power_supported",
    "raise_to_power_true",
    "raise_to_power_limit_refuted",
    "raise_to_power_zero",
    "raise_to_power_fraction_refuted",
    "widest_admissible",
    "conj_world_admissible",
    "published_power_rule_refuted",
    "raise_energy_region",
    "raise_energy_compose",
    "raise_energy_supported",
    "raise_energy_true",
    "raise_energy_double_sum_refuted",
    "raise_energy_fraction_refuted",
    "raise_energy_other"
   ],
   "note": "Large value estimates and large value energy regions. The limit on tau is not restored, fractional powers are accepted, and regions that restrict the double zeta sum are raised to false ones (refuted theorems); the supported theorems carry the guards."
  },
  {
   "property": "C39",
   "status": "proved",
   "theorems": [
    "beta_zlv_exact",
    "beta_zlv_supported",
    "beta_zlv_limit_refuted",
    "mu_zlv_exact",
    "mu_zlv_supported",
    "lv_and_transformed_exact",
    "lv_to_zlv_exact",
    "lv_to_zlv_returns",
    "lgrounded_true",
    "lv_and_transformed_grounded",
    "compute_zlv_grounded",
    "compute_zlv_sound",
    "compute_zlv_returns",
    "compute_zlv_members",
    "mu_to_zlv_grounded",
    "literature_bound_ZLV_exact"
   ],
   "note": "Soundness for every set whose transforms have natural powers; exactness for bounds on beta whose domain meets [1/TAU_UPPER_LIMIT, 1/2]."
  },
  {
   "property": "C40",
   "status": "proved",
   "theorems": [
    "sup_rho_on_tau",
    "sup_rho_on_tau_case",
    "sup_rho_on_tau_right_end_refuted",
    "solver_exists"
   ],
   "note": "At every rational sigma, for polytopes that go on to the right of sigma; at the last sigma of a polytope its value is missing (refuted theorem)."
  },
  {
   "property": "C41",
   "status": "proved",
   "theorems": [
    "best_zero_density_optimal",
    "best_zero_density_everywhere",
    "best_zero_density_true",
    "best_zero_density_open_end_refuted",
    "best_zero_density_supported_refuted",
    "simplify_zero_density",
    "simplify_closed_end_refuted",
    "zero_density_at"
   ],
   "note": "Least among the estimates at every point for half-open input intervals, at every point that is not an end of an input interval otherwise. Open lower ends are filled in and the dependencies are dropped (refuted theorems)."
  },
  {
   "property": "C42",
   "status": "proved",
   "theorems": [
    "ep_to_lver_exact",
    "ep_to_lver_supported",
    "ep_to_lver_zero_refuted",
    "ep_to_lver_other"
   ],
   "note": "The region is the published inequality within the recorded box; true for pairs with k > 0 as in the blueprint."
  },
  {
   "property": "C43",
   "status": "proved",
   "theorems": [
    "lv_to_lver_exact",
    "lv_to_lver_supported",
    "lver_to_lv_exact",
    "lver_to_lv_union",
    "lver_to_lv_true",
    "lver_to_lv_limit_refuted",
    "lver_to_lv_other",
    "lver_to_energy_exact",
    "lver_to_energy_supported",
    "lver_to_energy_zeta_refuted",
    "expand_lver_exact",
    "expand_lver_supported"
   ],
   "note": "Projection of the pieces that as_disjoint_union leaves; the truncation of the range and the treatment of zeta regions by lver_to_energy are refuted."
  },
  {
   "property": "C44",
   "status": "proved",
   "theorems": [
    "compute_best_lver_exact",
    "compute_best_lver_true",
    "compute_best_lver_domain_refuted",
    "compute_best_lver_boundary_refuted",
    "compute_LV_star_exact"
   ],
   "note": "The intersection over the domain up to hyperplanes; that the result is a hypothesis about all sigma and tau, and about boundary points, is refuted."
  },
  {
   "property": "C45",
   "status": "proved",
   "theorems": [
    "piecewise_at",
    "piecewise_at_single",
    "piecewise_at_first",
    "piecewise_at_dimension",
    "piecewise_min_with",
    "piecewise_min_with_at",
    "piecewise_crop",
    "piecewise_crop_simplify",
    "piecewise_scale",
    "piecewise_simplify",
    "piecewise_simplify_at",
    "piecewise_check",
    "piecewise_min_unlabelled_refuted",
    "piecewise_min_touching_refuted",
    "piecewise_min_unbounded_refuted",
    "piecewise_scale_values_refuted",
    "piecewise_check_defined_refuted"
   ],
   "note": "For bounded domains. The minimum is defined exactly up to lower-dimensional common domains (refuted theorem); identical functions need labels, unbounded domains give wrong minima, scale does not transport values and check only samples (refuted theorems)."
  },
  {
   "property": "C46",
   "status": "proved",
   "theorems": [
    "format_terms",
    "format_coefficients",
    "format_injective",
    "format_zero",
    "format_short",
    "affine2_text",
    "affine2_text_short",
    "polynomial_text",
    "polynomial_text_zero",
    "polynomial_text_strict",
    "polynomial_text_injective",
    "polynomial_text_strict_refuted",
    "polytope_text",
    "polytope_default_names",
    "polytope_text_short",
    "region_text",
    "region_default_names",
    "region_text_same",
    "format_characters",
    "large_value_text"
   ],
   "note": "The zero form is printed as the empty string; a polynomial with a zero coefficient between others gets stray plus signs (refuted theorem); a region with a complement cannot be printed."
  },
  {
   "property": "C47",
   "status": "proved",
   "theorems": [
    "construct_proof_exact",
    "construct_proof_dependencies",
    "construct_proof_total",
    "construct_proof_sound",
    "find_best_proof_sound",
    "find_best_proof_earliest",
    "known_set_known",
    "construct_proof_two_pairs_refuted",
    "construct_proof_order_refuted",
    "construct_proof_deep_dependencies_refuted",
    "find_best_proof_none_refuted",
    "find_best_proof_date_conjecture_refuted"
   ],
   "note": "The result is always the requested pair and lies in the hull of the pairs. It is a convex combination of its own dependencies when the hull vertices are searched; the deep search can record three collinear pairs that do not imply it, and can fail depending on set order (refuted theorems)."
  },
  {
   "property": "C48",
   "status": "proved",
   "theorems": [
    "grounded_true",
    "grounded_chain",
    "transform_supported",
    "compute_exp_pairs_grounded",
    "construct_proof_grounded",
    "find_best_proof_date_grounded",
    "pairs_to_beta_grounded",
    "best_beta_grounded",
    "mu_bounds_grounded",
    "mu_best_grounded",
    "beta_to_pairs_dependencies_refuted",
    "construct_proof_deep_dependencies_refuted",
    "region_dependencies_sufficient_refuted"
   ],
   "note": "Proved for the transforms, the pair search, proofs by convexity, bounds on beta from pairs, best bounds on beta and all bounds on mu. It fails for pairs obtained from bounds on beta, for the deep proof search and for the dependencies of unions of polytopes (refuted theorems)."
  },
  {
   "property": "C49",
   "status": "proved",
   "theorems": [
    "solver_contract_met",
    "polytope_vertices",
    "polytope_intersects",
    "polytope_centroid",
    "polytope_project"
   ],
   "note": ""
  },
  {
   "property": "C50",
   "status": "proved",
   "theorems": [
    "exponent_pair_conjecture_refuted"
   ],
   "note": "The stored pair (0,0) lies outside the triangle."
  },
  {
   "property": "C51",
   "status": "proved",
   "theorems": [
    "mu_piecewise_exact",
    "mu_piecewise_total",
    "mu_piecewise_whole_range_refuted",
    "mu_piecewise_outside_refuted"
   ],
   "note": "Exact whenever the call returns; on every range containing [0,1] it raises ValueError (refuted theorem)."
  },
  {
   "property": "C52",
   "status": "proved",
   "theorems": [
    "polytope_edges"
   ],
   "note": "For an adjacency list of cdd that lists at least the edges."
  },
  {
   "property": "C53",
   "status": "proved",
   "theorems": [
    "large_value_region_exact",
    "large_value_region_true",
    "large_value_region_none",
    "large_value_region_dependencies_refuted",
    "large_value_region_domain_refuted",
    "convert_bounds_usable"
   ],
   "note": "Up to boundaries, for estimates and domains built from bounded polytopes that are not flat. That the dependencies suffice, and that the result holds outside the domain, is refuted."
  },
  {
   "property": "C54",
   "status": "proved",
   "theorems": [
    "lv_zlv_to_zd_value",
    "lv_zlv_to_zd_sound",
    "lv_zlv_to_zd_case",
    "lv_zlv_to_zd_unscaled_refuted",
    "lv_zlv_to_zd_set_refuted"
   ],
   "note": "For regions whose pieces are bounded with tau > 0, at sigmas past which the pieces go on. The missing division by 1 - sigma and the enlarged argument are refuted theorems."
  },
  {
   "property": "C55",
   "status": "proved",
   "theorems": [
    "parse_reads",
    "parse_only_formulas",
    "formula_text_unique",
    "parse_foreign_character",
    "parse_three_times",
    "ivic_text_read",
    "ivic_text_rejected"
   ],
   "note": "For the grammar of numbers, x, the four operations, whole powers and parentheses. Fractional powers, which three entries of literature.py use, are outside the model."
  },
  {
   "property": "C56",
   "status": "proved",
   "theorems": [
    "trivial_energy_complete",
    "trivial_energy_true",
    "best_energy_everywhere",
    "best_energy_true",
    "best_energy_with_trivial",
    "best_energy_type_refuted",
    "trivial_energy_computed_refuted",
    "trivial_energy_supported_refuted"
   ],
   "note": "For readable half-open estimates without poles on [1/2,1). The three false parts are refuted theorems."
  },
  {
   "property": "C57",
   "status": "proved",
   "theorems": [
    "energy_bound_value",
    "energy_bound_sound",
    "energy_bound_convex_refuted"
   ],
   "note": "For tau0 positive on its domain and either below 2 throughout or above 2 at an end. The failure on single polytopes is a refuted theorem."
  },
  {
   "property": "C58",
   "status": "proved",
   "theorems": [
    "gap2_lines",
    "gap2_bounds",
    "gap2_pole_refuted"
   ],
   "note": "For estimates on half-open intervals and no vanishing denominator; an unnoticed pole is a refuted theorem. Floating-point rounding is not modelled."
  },
  {
   "property": "C59",
   "status": "proved",
   "theorems": [
    "lver_to_zd_value",
    "lver_to_zd_types",
    "lver_to_zd_sound",
    "lver_to_zd_unscaled_refuted",
    "lver_to_zd_nothing_refuted",
    "lver_to_zd_convex_refuted",
    "zd2_domain_exact",
    "zd2_zeta_range_refuted",
    "lv_zlv_to_zd2_value",
    "zd2_zeta_region_refuted"
   ],
   "note": "The values are exact; the missing factor 1 - sigma, the empty call, single polytopes and the second range of lv_zlv_to_zd2 are refuted theorems."
  },
  {
   "property": "C60",
   "status": "proved",
   "theorems": [
    "ivic_ep_to_zd_value",
    "ivic_ep_to_zd_sound",
    "ivic_estimate_unreadable_refuted",
    "ivic_no_pairs",
    "bourgain_from_value",
    "bourgain_ep_to_zd_table",
    "bourgain_from_sound",
    "bourgain_pole_included_refuted",
    "bourgain_unsupported_refuted",
    "ep_to_zd_refuted"
   ],
   "note": "The bounds are the least ones and agree with the blueprint; the unreadable text, the pole, the missing support and the call with a wrong argument are refuted theorems."
  },
  {
   "property": "C61",
   "status": "proved",
   "theorems": [
    "huxley_lv_exact",
    "heath_brown_lv_exact",
    "guth_maynard_lv_exact",
    "jutila_lv_exact",
    "bourgain_table_follows",
    "bourgain_table_choice_refuted",
    "bourgain_region_exact",
    "bourgain_lv_sound",
    "bourgain_pieces_disjoint",
    "bourgain_unbounded_refuted",
    "bourgain_lv_meaning",
    "twelfth_moment_exact"
   ],
   "note": "The regions are exact; Bourgain's is sound but bounds nothing over the fifth set of its table, which is a refuted theorem, as are two of the printed choices of alpha."
  },
  {
   "property": "C62",
   "status": "proved",
   "theorems": [
    "hb_double_region",
    "ivic_easy_region",
    "hb_relation_region",
    "hb_simple_region",
    "hb_second_regions",
    "gm_relation_regions",
    "gm_simple_region",
    "gm_third_region",
    "recorded_meaning",
    "published_implies_recorded",
    "range_ends_refuted",
    "gm_relation_swapped_refuted",
    "power_rule_applies",
    "power_rule_refuted"
   ],
   "note": "The regions are determined exactly. The first Guth-Maynard relation is recorded with two coefficients exchanged, which is a refuted theorem; so are the missing ends of the ranges and the power rule for the regions that are not closed under it."
  },
  {
   "property": "C63",
   "status": "proved",
   "theorems": [
    "zd_table_recorded",
    "zd_table_follows",
    "zd_table_true",
    "ivic_1980_refuted",
    "pintz_left_ends_refuted",
    "energy_table_exact"
   ],
   "note": "The texts are read by the formula parser of C55. Two ranges are recorded larger than published, which are refuted theorems."
  },
  {
   "property": "C64",
   "status": "proved",
   "theorems": [
    "fraction_read",
    "interval_read",
    "interval_text_read",
    "interval_text_reversed",
    "interval_repr_text",
    "interval_round_trip",
    "interval_strict_refuted"
   ],
   "note": "Fractions with an exponent or with underscores between digits are left out of the model of Fraction. That malformed texts are accepted is a refuted theorem."
  },
  {
   "property": "C65",
   "status": "proved",
   "theorems": [
    "beta_table_recorded",
    "beta_rows_true",
    "beta_rows_complete",
    "beta_table_exact",
    "huxley_1993_refuted"
   ],
   "note": "The ranges are read by the interval reader of C64 and the maxima computed by max_with of C03. The misprinted end is a refuted theorem; taken together with the other recorded bounds it changes nothing. The blueprint states the second bound of Robert (2016) without a factor alpha; the statement with the factor is used."
  },
  {
   "property": "C66",
   "status": "proved",
   "theorems": [
    "pairs_recorded",
    "pairs_in_triangle",
    "heath_brown_pairs_follow",
    "huxley_pairs_step",
    "pairs_follow",
    "pairs_exact",
    "new_pairs_follow"
   ],
   "note": "The published bounds on beta are those of C65. The blueprint lists 1/130 for the ninth derivative test of Robert (2002) where the code has 1/360; the pair with 1/130 is not among those that follow. The database cites robert_2002b for the test with 1/615, the blueprint robert_2002."
  },
  {
   "property": "C67",
   "status": "proved",
   "theorems": [
    "mu_recorded",
    "mu_exact",
    "mu_follow",
    "mu_nontrivial",
    "mu_selected",
    "pairs_selected",
    "mu_classic"
   ],
   "note": "A reference is taken to have a number as its year or no date. The bounds of Hardy and Littlewood carry no date, so no year selects them; mu_selected says so through known_by."
  },
  {
   "property": "C68",
   "status": "proved",
   "theorems": [
    "derivation_sound",
    "derivation_rests",
    "derivation_finds_known",
    "literature_is_ready",
    "prove_exponent_pair_sound",
    "prove_exponent_pair_published",
    "simplification_stalls",
    "simplification_never_empty",
    "hardy_littlewood_derived",
    "derivation_unready_refuted"
   ],
   "note": "With simplification, prove_exponent_pair_sound asks that the first attempt succeeds: a smaller set need not meet the condition, so a pair first found during simplification is not covered."
  },
  {
   "property": "C69",
   "status": "proved",
   "theorems": [
    "prove_zero_density_value",
    "prove_zero_density_sound",
    "prove_zero_density_method",
    "ingham_1940_proved",
    "jutila_1977_proved",
    "guth_maynard_2024_proved",
    "jutila_found",
    "guth_maynard_found"
   ],
   "note": "Besides the specification of the solver it is assumed that minimizing over the half-space tau >= 2 the solver reports the value at (0, 2, 0) also when there is no minimum (anchored): the code reads the reported value without asking for the status. Method 2 is covered by C59 only."
  },
  {
   "property": "C70",
   "status": "proved",
   "theorems": [
    "zeta_density_value",
    "zeta_density_sound",
    "heath_brown_1979a_proved",
    "heath_brown_1979b_proved",
    "heath_brown_found",
    "twelfth_found",
    "heath_brown_needs_zeta"
   ],
   "note": "Assumes of the solver what C69 assumes. The zeta estimates considered are maxima of bounds that leave room for a positive rho at every sigma (proper_zeta_bounds), as the twelfth moment does."
  },
  {
   "property": "C71",
   "status": "proved",
   "theorems": [
    "bourgain_table_optimal",
    "bourgain_choices_optimal",
    "bourgain_recorded_optimal",
    "optimize_bourgain_refuted",
    "check_bourgain_refuted",
    "check_accepts",
    "check_rejects"
   ],
   "note": "As stated. The rest of the search, after the call that always raises, is not modelled. The check is modelled with exact numbers; the solver of the linear program is a parameter, with an instance that meets its specification in check_case."
  },
  {
   "property": "C72",
   "status": "proved",
   "theorems": [
    "guth_maynard_found",
    "guth_maynard_proved",
    "guth_maynard_text_refuted",
    "guth_maynard_true",
    "guth_maynard_missing",
    "prove_all_refuted"
   ],
   "note": "As stated. The solver is assumed to remove rows of zeros when it puts a feasible matrix into canonical form, besides its usual specification; tidy_ext is an instance. Timing, plotting and the printing of the line are not modelled, its text is."
  },
  {
   "property": "C73",
   "status": "proved",
   "theorems": [
    "energy_hypotheses_found",
    "energy_2_derivation",
    "energy_5_derivation",
    "energy_6_derivation",
    "energy_4_derivation",
    "energy_8_derivation",
    "energy_10_derivation",
    "displayed_energy_bounds",
    "heath_brown_energy_refuted",
    "all_energy_estimates_refuted"
   ],
   "note": "As stated. The derivations 3, 7 and 9 are modelled too; that what they return is sound is C57, their values are not worked out. What is printed is not modelled."
  },
  {
   "property": "C74",
   "status": "proved",
   "theorems": [
    "gap_energy_exact",
    "gap_energy_value",
    "entered_improves",
    "entered_is_derived",
    "entered_follows",
    "entered_everywhere_derived_refuted"
   ],
   "note": "As stated. The last three bounds are not compared with the derivations 3 and 7, the values of which are not worked out. The zero density estimates that the function also enters and the call of compute_gap2 are not part of this property."
  },
  {
   "property": "C75",
   "status": "proved",
   "theorems": [
    "gap_density_recorded",
    "gap_density_published",
    "gap_density_published_refuted"
   ],
   "note": "As stated. The estimates from exponent pairs are C60. The published theorems are those of C63; results of the source the entries name, which the database does not state, are not among them."
  }
 ]
}