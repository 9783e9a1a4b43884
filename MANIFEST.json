{
 "claims": [
  {
   "property": "C01",
   "status": "proved",
   "theorems": [
    "C01_every_task_exactly_once",
    "C01_never_twice"
   ],
   "note": "All interleavings of any number of threads at single-atomic granularity (sequentially consistent memory)."
  },
  {
   "property": "C02",
   "status": "proved",
   "theorems": [
    "C02_dependencies_respected"
   ],
   "note": ""
  },
  {
   "property": "C03",
   "status": "proved",
   "theorems": [
    "C03_write_links_exclude"
   ],
   "note": "Both tasks are inside execute() at the same moment in different threads."
  },
  {
   "property": "C04",
   "status": "proved",
   "theorems": [
    "C04_mutual_exclusion",
    "C04_within_one_thread",
    "C04_counters",
    "C04_counters_quiescent"
   ],
   "note": ""
  },
  {
   "property": "C05",
   "status": "proved",
   "theorems": [
    "C05_failed_attempt_leaves_no_trace",
    "C05_success_adds_exactly",
    "C05_succeeds_iff_free",
    "C05_unlock_restores"
   ],
   "note": "Single-threaded view of locktask/unlocktask; the concurrent view is C04."
  },
  {
   "property": "C06",
   "status": "proved",
   "theorems": [
    "C06_always_possible_to_complete",
    "C06_self_conflicting_task_never_starts"
   ],
   "note": "Absence of deadlock: from every reachable state a complete run is reachable. Termination under a fair scheduler is C55."
  },
  {
   "property": "C07",
   "status": "proved",
   "theorems": [
    "C07_circular_dependencies_detected_exactly"
   ],
   "note": ""
  },
  {
   "property": "C08",
   "status": "proved",
   "theorems": [
    "C08_weight_is_critical_path"
   ],
   "note": ""
  },
  {
   "property": "C09",
   "status": "proved",
   "theorems": [
    "C09_queue_contents",
    "C09_queue_operations"
   ],
   "note": ""
  },
  {
   "property": "C10",
   "status": "proved",
   "theorems": [
    "C10_link_tables"
   ],
   "note": ""
  },
  {
   "property": "C11",
   "status": "proved",
   "theorems": [
    "C11_registrations_survive"
   ],
   "note": ""
  },
  {
   "property": "C12",
   "status": "proved",
   "theorems": [
    "C12_rerun"
   ],
   "note": ""
  },
  {
   "property": "C13",
   "status": "proved",
   "theorems": [
    "C13_no_cycles",
    "C13_execution_starts_and_can_finish"
   ],
   "note": "For every configuration with at least one slot and n_quad>0 (see C20 for n_quad=0)."
  },
  {
   "property": "C14",
   "status": "proved",
   "theorems": [
    "C14_conflicting_tasks_are_ordered",
    "C14_no_data_race",
    "C14_ids_are_tasks"
   ],
   "note": "Footprints of execute() are transcribed by hand per task type (Footprint.v)."
  },
  {
   "property": "C15",
   "status": "proved",
   "theorems": [
    "C15_schedule_independent"
   ],
   "note": "For any task code that respects the footprints; sequentially consistent interleaving of arbitrarily small steps."
  },
  {
   "property": "C16",
   "status": "proved",
   "theorems": [
    "C16_slot_count_irrelevant"
   ],
   "note": "Hypotheses on the code: footprints, and reset tasks restore the freshly constructed state."
  },
  {
   "property": "C20",
   "status": "proved",
   "theorems": [
    "C20_null_dereference_exactly_when",
    "C20_equal_order_limits_refuted",
    "C20_defined_for_proper_ranges"
   ],
   "note": "The claim as stated is false of the code: for minimum_order = maximum_order a null pointer is dereferenced (proved); it holds for minimum_order < maximum_order."
  },
  {
   "property": "C17",
   "status": "proved",
   "theorems": [
    "C17_tables_exactly_filled",
    "C17_task_lookups",
    "C17_resource_lookups",
    "C17_result_order"
   ],
   "note": "All pointer tables are filled exactly and looked-up offsets hit the intended objects."
  },
  {
   "property": "C18",
   "status": "partial",
   "theorems": [
    "C18_reservation_partial",
    "C18_reads_and_resources_refuted"
   ],
   "note": "Tasks, dependencies and write links suffice; read links and resources are short by an exactly computed number, so that half of the claim is refuted."
  },
  {
   "property": "C19",
   "status": "partial",
   "theorems": [
    "C19_slots_in_range",
    "C19_slots_monotone",
    "C19_slots_maximal",
    "C19_accounted_within_limit_partial",
    "C19_too_small_limit_refuted",
    "C19_object_sizes_refuted",
    "C19_object_sizes_partial"
   ],
   "note": "Range, monotonicity and maximality are proved; a limit below the minimum is not detected (wrap-around) and four object kinds are under-accounted: those parts are refuted."
  },
  {
   "property": "C21",
   "status": "partial",
   "theorems": [
    "C21_order_tasks_in_sequence",
    "C21_first_accepted_order_is_used",
    "C21_last_order_if_none",
    "C21_cases_exhaustive",
    "C21_unchanged_factors_refuted"
   ],
   "note": "Fully proved for the acceptance criterion of the code (IEEE comparison semantics); the literal claim is refuted in one case: a relative change of exactly zero is not accepted."
  },
  {
   "property": "C45",
   "status": "partial",
   "theorems": [
    "C45_reports_sound_partial",
    "C45_sequential_reports",
    "C45_few_tasks_refuted",
    "C45_exactly_once_refuted"
   ],
   "note": "Sound with at least 50 tasks; division by zero with fewer; under concurrency a milestone may be reported twice and another one skipped."
  },
  {
   "property": "C22",
   "status": "proved",
   "theorems": [
    "C22_injective_and_in_range",
    "C22_surjective",
    "C22_row_major",
    "C22_agrees_with_creation"
   ],
   "note": ""
  },
  {
   "property": "C23",
   "status": "proved",
   "theorems": [
    "C23_coefficients",
    "C23_scattering_matrices",
    "C23_null_result",
    "C23_position_in_unsorted_input_refuted"
   ],
   "note": "As stated (positions refer to the sorted sizes and wavelengths); the stronger reading with positions of the unsorted input is refuted."
  },
  {
   "property": "C24",
   "status": "proved",
   "theorems": [
    "C24_weighted_mean",
    "C24_between_extremes",
    "C24_common_factor",
    "C24_equal_inputs",
    "C24_frame"
   ],
   "note": "Exact real arithmetic."
  },
  {
   "property": "C26",
   "status": "proved",
   "theorems": [
    "C26_grid_points",
    "C26_between_grid_points",
    "C26_extrapolation"
   ],
   "note": "Exact real arithmetic."
  },
  {
   "property": "C27",
   "status": "proved",
   "theorems": [
    "C27_cell"
   ],
   "note": "Exact real arithmetic."
  },
  {
   "property": "C28",
   "status": "proved",
   "theorems": [
    "C28_inside_block",
    "C28_distinct_cells",
    "C28_reader_agrees_with_writer"
   ],
   "note": ""
  },
  {
   "property": "C29",
   "status": "proved",
   "theorems": [
    "C29_position",
    "C29_distinct",
    "C29_all_used"
   ],
   "note": ""
  },
  {
   "property": "C31",
   "status": "proved",
   "theorems": [
    "C31_prolate",
    "C31_oblate"
   ],
   "note": "Exact real arithmetic."
  },
  {
   "property": "C32",
   "status": "proved",
   "theorems": [
    "C32_symmetric",
    "C32_affine_image",
    "C32_exactness_carries_over",
    "C32_newton",
    "C32_tolerance"
   ],
   "note": "Exact real arithmetic, for any root finder outcome."
  },
  {
   "property": "C33",
   "status": "proved",
   "theorems": [
    "C33_legendre_values",
    "C33_mirrored_rows"
   ],
   "note": "Exact real arithmetic; P defined by the Rodrigues formula."
  },
  {
   "property": "C35",
   "status": "proved",
   "theorems": [
    "C35_selection",
    "C35_types",
    "C35_copied_flag_refuted"
   ],
   "note": "Extra finding: copying a distribution (custom type) loses its disabled flag (refuted)."
  },
  {
   "property": "C46",
   "status": "proved",
   "theorems": [
    "C46_values_and_derivatives",
    "C46_number_of_entries",
    "C46_low_orders"
   ],
   "note": "Exact real arithmetic."
  },
  {
   "property": "C47",
   "status": "proved",
   "theorems": [
    "C47_regular",
    "C47_poles",
    "C47_poles_m0"
   ],
   "note": "Exact real arithmetic; within 1e-10 of a pole, but not at it, the code returns the value at the pole."
  },
  {
   "property": "C48",
   "status": "proved",
   "theorems": [
    "C48_even_m_exact",
    "C48_products_exact",
    "C48_odd_m_sign_refuted"
   ],
   "note": "Products (all that is used) are exact for all m; single entries of the mirrored half have the wrong sign for odd m (refuted)."
  },
  {
   "property": "C49",
   "status": "proved",
   "theorems": [
    "C49_gauss_rule_exact"
   ],
   "note": "Under the hypothesis that the root finder returned exact, distinct roots of P_n (Newton accuracy: C32_newton, C32_tolerance)."
  },
  {
   "property": "C50",
   "status": "proved",
   "theorems": [
    "C50_coefficients_are_moments",
    "C50_normalised_mean_and_sign",
    "C50_small_order_refuted"
   ],
   "note": "nmax<2 writes outside the vector (refuted part)."
  },
  {
   "property": "C25",
   "status": "proved",
   "theorems": [
    "C25_any_field",
    "C25_complex_inverse",
    "C25_complex_zero_pivot",
    "C25_real_inverse",
    "C25_scratch_irrelevant"
   ],
   "note": "Exact field arithmetic; a zero pivot is the outcome None of the model."
  },
  {
   "property": "C30",
   "status": "proved",
   "theorems": [
    "C30_maps_stokes_vectors",
    "C30_polarisation_defect",
    "C30_physical_light_stays_physical",
    "C30_fully_polarised",
    "C30_unique"
   ],
   "note": "Exact complex arithmetic."
  },
  {
   "property": "C34",
   "status": "proved",
   "theorems": [
    "C34_square_root",
    "C34_unique",
    "C34_negative_imaginary_part_refuted"
   ],
   "note": "For Im(eps) < 0 the result belongs to the conjugate (extra finding, outside the claim)."
  },
  {
   "property": "C51",
   "status": "proved",
   "theorems": [
    "C51_amplitude_is_the_full_sum",
    "C51_forward_is_diagonal",
    "C51_prefactors"
   ],
   "note": "The -m symmetries of the T-matrix and Wigner functions are hypotheses."
  },
  {
   "property": "C52",
   "status": "proved",
   "theorems": [
    "C52_extinction_matrix",
    "C52_extinction_coefficients",
    "C52_absorption_coefficients"
   ],
   "note": ""
  },
  {
   "property": "C53",
   "status": "proved",
   "theorems": [
    "C53_defining_system",
    "C53_fails_exactly_for_singular_Q"
   ],
   "note": "Q and RgQ themselves (surface integrals) are inputs."
  },
  {
   "property": "C40",
   "status": "partial",
   "theorems": [
    "C40_decimal",
    "C40_roundtrip",
    "C40_hexadecimal",
    "C40_exponent",
    "C40_most_negative_refuted",
    "C40_hexadecimal_refuted",
    "C40_too_large_wraps",
    "C40_garbage_refuted"
   ],
   "note": "Proved for every type of at most 64 bits and every decimal numeral whose magnitude is representable; false of the code for the most negative number (signed overflow) and for hexadecimal numerals that use the top digit of a signed type (rejected), both refuted by theorem."
  },
  {
   "property": "C41",
   "status": "proved",
   "theorems": [
    "C41_prime_factors",
    "C41_terminates",
    "C41_no_factors"
   ],
   "note": ""
  },
  {
   "property": "C54",
   "status": "partial",
   "theorems": [
    "C54_roundtrip",
    "C54_words",
    "C54_blank_refuted"
   ],
   "note": "Round trip proved for all booleans and blanks; a text that is blank is undefined behaviour (exact characterisation)."
  },
  {
   "property": "C36",
   "status": "proved",
   "theorems": [
    "C36_roundtrip",
    "C36_used_values",
    "C36_parsed_files"
   ],
   "note": "All dictionaries of well-formed keys and values, and every dictionary that results from parsing any text."
  },
  {
   "property": "C37",
   "status": "partial",
   "theorems": [
    "C37_lookups",
    "C37_used_file",
    "C37_marker_refuted",
    "C37_required_after_default_refuted"
   ],
   "note": "Proved for all histories and value types against a specification that includes what the code does after a default was used; false of the code for the text \"default value\" and for required lookups after a lookup with default."
  },
  {
   "property": "C38",
   "status": "partial",
   "theorems": [
    "C38_undefined_exactly",
    "C38_defined",
    "C38_no_undefined_behaviour_refuted"
   ],
   "note": "The claim is false of the code; exact characterisation of the texts for which parsing is undefined."
  },
  {
   "property": "C39",
   "status": "proved",
   "theorems": [
    "C39_values",
    "C39_stops",
    "C39_negative_argument_refuted"
   ],
   "note": "Values starting with a dash need the --name=value form (refuted for the separate form)."
  },
  {
   "property": "C42",
   "status": "proved",
   "theorems": [
    "C42_md5",
    "C42_padding_exists"
   ],
   "note": "Against RFC 1321, including the table of sines (T[i] is defined with the real sine function); unsigned int 32 bits, unsigned long 64 bits."
  },
  {
   "property": "C43",
   "status": "partial",
   "theorems": [
    "C43_named_units",
    "C43_all_names",
    "C43_multiply",
    "C43_divide",
    "C43_power",
    "C43_power_zero_refuted",
    "C43_system_of_units",
    "C43_positive",
    "C43_parse",
    "C43_unknown",
    "C43_no_name",
    "C43_SI_units",
    "C43_to_SI",
    "C43_to_unit",
    "C43_convert",
    "C44_inverse"
   ],
   "note": "Exact reals. The law for powers holds for every power except 0: a unit raised to the power 0 becomes dimensionless but keeps its value (C43_power_zero_refuted)."
  },
  {
   "property": "C44",
   "status": "proved",
   "theorems": [
    "C44_energy_frequency",
    "C44_wavelength_frequency",
    "C44_refused",
    "C44_energy_wavelength_refused",
    "C44_inverse"
   ],
   "note": "Exact reals. Energy and wavelength are not related directly: such a conversion is refused."
  },
  {
   "property": "C55",
   "status": "partial",
   "theorems": [
    "C55_fair_runs_end_partial",
    "C55_single_write_links",
    "C55_fair_runs_exist",
    "C55_unordered_links_refuted"
   ],
   "note": "Proved when some ranking of the resources increases along the write links of each task (in particular with at most one write link per task). False of the code otherwise: C55_unordered_links_refuted is a fair livelock of two tasks locking two resources in opposite orders."
  },
  {
   "property": "C56",
   "status": "proved",
   "theorems": [
    "C56_task_graph_terminates"
   ],
   "note": ""
  },
  {
   "property": "C57",
   "status": "proved",
   "theorems": [
    "C57_coefficient",
    "C57_coefficients"
   ],
   "note": "Exact real arithmetic; out of bounds, division by zero and negative roots are separate outcomes."
  },
  {
   "property": "C58",
   "status": "proved",
   "theorems": [
    "C58_average",
    "C58_calculator",
    "C58_no_alignment"
   ],
   "note": "The off-diagonal quarters at m=0 are assumed to be zero (symmetry of the particle); work array large enough (C60)."
  },
  {
   "property": "C59",
   "status": "proved",
   "theorems": [
    "C59_random_orientation",
    "C59_trace_invariant"
   ],
   "note": ""
  },
  {
   "property": "C60",
   "status": "partial",
   "theorems": [
    "C60_bounds_exactly",
    "C60_no_overflow_partial",
    "C60_overflow_refuted"
   ],
   "note": "The exact condition is proved; the claim holds for nmax <= 0.7 maximum_order and is false of the code when the order search ends at maximum_order (heap overflow)."
  },
  {
   "property": "C61",
   "status": "proved",
   "theorems": [
    "C61_spheroid_radius"
   ],
   "note": "Exact real arithmetic."
  },
  {
   "property": "C62",
   "status": "proved",
   "theorems": [
    "C62_surface_integrals"
   ],
   "note": "The Bessel functions are parameters (any radial functions); exact real arithmetic."
  },
  {
   "property": "C63",
   "status": "proved",
   "theorems": [
    "C63_T_matrix",
    "C63_gauss_rule",
    "C63_fails_exactly_when_singular"
   ],
   "note": "As C62."
  },
  {
   "property": "C64",
   "status": "proved",
   "theorems": [
    "C64_symmetries"
   ],
   "note": ""
  },
  {
   "property": "C65",
   "status": "proved",
   "theorems": [
    "C65_y_complex",
    "C65_y_real",
    "C65_y_bounds",
    "C65_real_and_complex_agree",
    "C65_one_element_refuted"
   ],
   "note": "Exact arithmetic. The array must have two elements even when one order is asked for (the last theorem)."
  },
  {
   "property": "C66",
   "status": "partial",
   "theorems": [
    "C66_truncation",
    "C66_no_division_by_zero",
    "C66_accuracy",
    "C66_accuracy_real",
    "C66_accuracy_small",
    "C66_bounds",
    "C66_zero_of_sine_refuted",
    "C66_division_by_zero_refuted",
    "C66_division_by_zero_near_pi_refuted"
   ],
   "note": "Exact arithmetic. The error is given exactly for all arguments and bounded for |z|<=1 (all orders) and for |z|<=20 (orders to 400, away from zeros of the sine); no division by zero is proved off the real axis and for |z|<=1. Missing: bounds for larger |z|. False of the code: at zeros of the sine everything returned is zero; at a real argument between 3 and 10/3 (and at sqrt(1599*1601)) the recursion divides by zero; more than 800 orders run off the array."
  },
  {
   "property": "C67",
   "status": "proved",
   "theorems": [
    "C67_equal_volume_to_equal_surface"
   ],
   "note": "Exact arithmetic."
  },
  {
   "property": "C68",
   "status": "proved",
   "theorems": [
    "C68_shape_factor_is_depolarisation_factor",
    "C68_shape_factor_range",
    "C68_jacobian_is_the_derivative",
    "C68_probability_of_axis_ratios",
    "C68_probability_density"
   ],
   "note": "Exact arithmetic."
  },
  {
   "property": "C69",
   "status": "partial",
   "theorems": [
    "C69_cutoff_range",
    "C69_cutoff_range_with_assertions",
    "C69_accepted_cutoffs_without_range_refuted",
    "C69_fraction_range"
   ],
   "note": "Exact arithmetic. False of the code for cutoffs between 64/135 and 1/2: accepted, but the range is the single axis ratio 1 and all weights are zero (a failed assertion when those are on). The accuracy of the quadrature is a hypothesis of the fraction theorem."
  },
  {
   "property": "C70",
   "status": "proved",
   "theorems": [
    "C70_snell",
    "C70_fresnel",
    "C70_solution_exists",
    "C70_grazing",
    "C70_grazing_equal_materials_refuted"
   ],
   "note": "Exact arithmetic. One input without a value: grazing incidence between equal materials is 0/0 (the last theorem)."
  },
  {
   "property": "C71",
   "status": "partial",
   "theorems": [
    "C71_result",
    "C71_zero_function",
    "C71_smooth",
    "C71_terminates",
    "C71_polynomials_exact",
    "C71_no_order_refuted",
    "C71_first_order_refuted",
    "C71_warning_although_settled_refuted"
   ],
   "note": "Exact arithmetic; exactness for polynomials assumes exact Gauss rules. False of the code: the first order is compared with 0, so a small first value is returned without any comparison; the warning also appears when the last order agrees; without an order below the maximum 0 is returned."
  },
  {
   "property": "C72",
   "status": "partial",
   "theorems": [
    "C72_converged",
    "C72_unable",
    "C72_no_null_pointer",
    "C72_maximum_order_refuted",
    "C72_null_pointer_refuted",
    "C72_maximum_ngauss_refuted",
    "C72_not_a_number_refuted"
   ],
   "note": "Proved for a first order below maximum_order and tolerances below 1. False of the code: a larger first order is accepted (order above the maximum, or a null pointer); an order that already uses more points than allowed is returned unchecked; not-a-number counts as converged; convergence at the last order is refused."
  },
  {
   "property": "C73",
   "status": "proved",
   "theorems": [
    "C73_T_matrix",
    "C73_fails_exactly_when_singular",
    "C73_same_as_tasks",
    "C73_repeated_calls",
    "C73_set_element",
    "C73_in_bounds"
   ],
   "note": "Exact arithmetic; quadrature rule and Bessel functions are parameters, as for C62-C64. The object is only right after exactly one call of compute_additional_elements: k calls give k times the T-matrix for m > 0 (C73_repeated_calls)."
  },
  {
   "property": "C74",
   "status": "proved",
   "theorems": [
    "C74_same_scattered_field",
    "C74_angles_exist",
    "C74_unique",
    "C74_only_the_axis_matters",
    "C74_axis_along_z",
    "C74_rotation",
    "C74_series"
   ],
   "note": "Exact arithmetic: in floating point acos may get an argument slightly above 1. C74_series is for angles that are 0, pi or at least 1e-5 away from them (the code switches to the pole values there)."
  },
  {
   "property": "C75",
   "status": "proved",
   "theorems": [
    "C75_scattering_matrix",
    "C75_extinction_matrix",
    "C75_reduced_form",
    "C75_reduced_form_in_general_refuted",
    "C75_scattering_coefficient",
    "C75_extinction_coefficient",
    "C75_objects_are_plane_symmetric",
    "C75_absorption_cross_sections",
    "C75_absorption_cross_section",
    "C75_average_absorption"
   ],
   "note": "Exact arithmetic; the quadrature rules are parameters. The form of the extinction matrix that get_reduced_extinction_matrix assumes is proved when the axis lies in the plane of the z axis and the light, and refuted otherwise."
  },
  {
   "property": "C76",
   "status": "proved",
   "theorems": [
    "C76_averages",
    "C76_average_extinction",
    "C76_average_scattering",
    "C76_average_absorption",
    "C76_rule_of_the_code"
   ],
   "note": "Exact arithmetic, exact Gauss-Legendre points (C49 says when the code has them), at most 100000 points (beyond, points may be replaced by the pole), for T-matrices with the zeros that C75_objects_are_plane_symmetric shows for objects of the class."
  },
  {
   "property": "C77",
   "status": "proved",
   "theorems": [
    "C77_results",
    "C77_order_exists",
    "C77_order_unique",
    "C77_outcome_exists"
   ],
   "note": "The numerical kernels are parameters (C78, C79 fill them in); C77_results holds for every implementation of the execute() functions in any number of steps with the listed reads and writes."
  },
  {
   "property": "C78",
   "status": "proved",
   "theorems": [
    "C78_extinction",
    "C78_absorption",
    "C78_scattering",
    "C78_series",
    "C78_rows"
   ],
   "note": "Exact arithmetic; the points and weights of the quadrature rules are parameters (in [-1,1]). The tasks give the values of the functions of class TMatrix (C74, C75) for an axis along z; C78_series relates them to the textbook series for angles that are 0, pi or at least 1e-5 away from them."
  },
  {
   "property": "C79",
   "status": "proved",
   "theorems": [
    "C79_physics",
    "C79_points",
    "C79_unique",
    "C79_convergence_test"
   ],
   "note": "Exact arithmetic; the Bessel functions (C65, C66 are about them), the points and weights of the quadrature rules (C32, C48, C49) and the rounding of the two efficiency factors are parameters. Assumes that Q is invertible at the selected order and that the work array of the orientation average is large enough (C60 shows when it is not)."
  },
  {
   "property": "C80",
   "status": "proved",
   "theorems": [
    "C80_coefficients",
    "C80_accuracy",
    "C80_returns",
    "C80_returns_density",
    "C80_mirror",
    "C80_copy",
    "C80_copy_density_refuted",
    "C80_uniform"
   ],
   "note": "Exact arithmetic; accuracy is for exact Gauss rules (C48, C49). Refuted: a copy evaluates to density 0 everywhere, since the copy constructor sets the normalisation to 0. Without a positive integral the code may divide by zero (second case of C80_returns)."
  },
  {
   "property": "C81",
   "status": "proved",
   "theorems": [
    "C81_series",
    "C81_moments",
    "C81_polynomial_density",
    "C81_mishchenko",
    "C81_last_coefficient_refuted",
    "C81_order_zero_refuted"
   ],
   "note": "Exact arithmetic. Refuted: the last coefficient is never used (with order 2, imperfect alignment evaluates to 1/2 everywhere), and order 0 accesses arrays out of bounds."
  },
  {
   "property": "C82",
   "status": "partial",
   "theorems": [
    "C82_unpack",
    "C82_slice",
    "C82_more_dimensions",
    "C82_absorption_angles",
    "C82_absorption_angles_every_second_refuted",
    "C82_absorption_angles_reversed_refuted",
    "C82_four_byte_types_refuted",
    "C82_integer_argument_refuted"
   ],
   "note": "Little-endian memory, elements of eight bytes. Proved for every layout where unpack_numpy_array is used. False of the code: the absorption functions of a T-matrix object ignore strides (right for adjacent elements only), and the element type of the array is never looked at."
  },
  {
   "property": "C83",
   "status": "partial",
   "theorems": [
    "C83_object",
    "C83_alignment",
    "C83_order",
    "C83_perfect_alignment",
    "C83_perfect_alignment_refuted",
    "C83_zero_and_one_refuted"
   ],
   "note": "Exact arithmetic; quadrature rules, Bessel functions and rounding of the efficiency factors are parameters. Everything but the meaning of cos2beta = 0 and 1 is proved: these two values give the same object, and the shape decides which alignment it has."
  },
  {
   "property": "C84",
   "status": "partial",
   "theorems": [
    "C84_extinction_matrix",
    "C84_scattering_matrix",
    "C84_wrong_shape",
    "C84_scattering_wrong_shape_refuted",
    "C84_one_angle_refuted",
    "C84_absorption_cross_section",
    "C84_absorption_cross_sections",
    "C84_average_absorption"
   ],
   "note": "Exact arithmetic; the quadrature grid is a parameter; the absorption functions for arrays with adjacent elements (C82). False of the code: dimensions of length 1 are dropped from the result; get_scattering_matrix answers a two-dimensional argument with an empty array."
  },
  {
   "property": "C85",
   "status": "proved",
   "theorems": [
    "C85_exists",
    "C85_sphere",
    "C85_cross_sections",
    "C85_tasks",
    "C85_any_orientation",
    "C85_object_is_spherical"
   ],
   "note": "Exact arithmetic; for quadrature rules that are exact for products of two angular functions (an exact Gauss-Legendre rule with more points than orders is one, gauss_is_exact). The radial functions are parameters."
  },
  {
   "property": "C86",
   "status": "proved",
   "theorems": [
    "C86_dielectric",
    "C86_exists",
    "C86_energy",
    "C86_absorption"
   ],
   "note": "Exact arithmetic, and radial functions equal to the spherical Bessel functions (power series); C65 and C66 say how far those of the code are from them."
  },
  {
   "property": "C87",
   "status": "proved",
   "theorems": [
    "C87_scattered_field",
    "C87_extinction",
    "C87_intensity",
    "C87_results",
    "C87_one_shape"
   ],
   "note": "Exact arithmetic; quadrature rules exact for products of two angular functions; for C87_results radial functions equal to the spherical Bessel functions and materials that do not amplify (C86), and for the tables of scattering only the (1,1) element. The absorption efficiency with scattering is in C86_absorption."
  },
  {
   "property": "C88",
   "status": "proved",
   "theorems": [
    "C88_arguments",
    "C88_points",
    "C88_get_table",
    "C88_spheres"
   ],
   "note": "Exact arithmetic; quadrature rules, Bessel functions and the shape, alignment and dust objects are functions given as parameters. The T-matrices are assumed regular and the orientation coefficients and work array long enough (proved for spheres; C60 is about the second). Types of 4 bytes, integer sizes and arrays of more dimensions are misread: C82."
  },
  {
   "property": "C89",
   "status": "proved",
   "theorems": [
    "C89_average",
    "C89_fixed_angle",
    "C89_perfect_alignment",
    "C89_imperfect_alignment",
    "C89_davis_greenstein",
    "C89_power",
    "C89_power_of_average_refuted"
   ],
   "note": "Exact arithmetic; the work array is long enough (C60 is about the array of the code). That the T-matrix of a turned particle is D T D^(-1) is part of the specification."
  },
  {
   "property": "C90",
   "status": "proved",
   "theorems": [
    "C90_object",
    "C90_ensemble",
    "C90_get_table",
    "C90_too_few_coefficients_refuted"
   ],
   "note": "Exact arithmetic, exact Gauss rules for the coefficients of the distribution without alignment; a large enough work array (C60). Type 3: the density is the Legendre series of the coefficients of the given object (C80 bounds their distance from the moments of the given function)."
  },
  {
   "property": "C91",
   "status": "proved",
   "theorems": [
    "C91_series",
    "C91_oriented",
    "C91_amplitude",
    "C91_single_particle",
    "C91_extinction_matrix",
    "C91_same_tilt",
    "C91_python",
    "C91_get_table"
   ],
   "note": "Exact arithmetic. The code replaces directions with 1-|cos| below 1e-10 by the pole, so for spread laws the mean is taken of the exact series, which equals the function of the code in all other orientations (C91_oriented); with equal tilts the mean is of the function itself (C91_same_tilt). Quadratic quantities are excluded: C89_power_of_average_refuted."
  },
  {
   "property": "C92",
   "status": "proved",
   "theorems": [
    "C92_reading",
    "C92_print_read",
    "C92_six_digits",
    "C92_complex",
    "C92_with_unit",
    "C92_count",
    "C92_exact_refuted",
    "C92_minus_refuted"
   ],
   "note": "strtod, sscanf and ostream<< for doubles are modelled as correctly rounding with the default precision of 6; infinities, NaN, hexadecimal and out of range texts are a parameter. The numbers of the program are those within 10^-200 .. 10^200."
  },
  {
   "property": "C93",
   "status": "proved",
   "theorems": [
    "C93_parameters",
    "C93_run",
    "C93_effects",
    "C93_stops",
    "C93_dump",
    "C93_used_values",
    "C93_rerun",
    "C93_exact_refuted"
   ],
   "note": "Exact arithmetic for units and for the calculation (T-matrix as in C83 with its assumption on the Gauss rules); numbers in texts as in C92. Of the screen output only the lines with the two matrices are modelled; a failure to open a file for writing is not noticed by the program and not modelled. The time stamp is a parameter without newline."
  },
  {
   "property": "C94",
   "status": "proved",
   "theorems": [
    "C94_task",
    "C94_converged",
    "C94_environment",
    "C94_class",
    "C94_runs",
    "C94_second_kind",
    "C94_first_kind",
    "C94_reset",
    "C94_order_one_refuted",
    "C94_order_801_refuted"
   ],
   "note": "Exact arithmetic. The recursion for j_n is shown to run through for arguments that are not real and for arguments up to 1; for larger real arguments it can divide by zero at isolated arguments, which are excluded by a hypothesis. Near the zeros of j_0 the functions of the first kind are wrong (C66_zero_of_sine_refuted)."
  },
  {
   "property": "C95",
   "status": "proved",
   "theorems": [
    "C95_safe",
    "C95_alive",
    "C95_callback",
    "C95_use",
    "C95_no_leak",
    "C95_reinitialised_refuted"
   ],
   "note": "Reference counts as in CPython without the cyclic garbage collector; the construction of a custom orientation distribution (during which the function is called) is one step. C95_reinitialised_refuted: an object that is initialised again never frees what it was first initialised with (the old C++ object is not deleted), hence the condition in C95_no_leak."
  },
  {
   "property": "C96",
   "status": "proved",
   "theorems": [
    "C96_results",
    "C96_densities",
    "C96_order",
    "C96_calls",
    "C96_table",
    "C96_method",
    "C96_numpy_scalar_refuted",
    "C96_single_precision_refuted"
   ],
   "note": "Numbers are exact, words that encode infinities or NaN are not modelled. Types of more than 32 bits are cut by the code (excluded by hypothesis). The refuted parts: results of type numpy.complex128 (and real numbers) abort the program; arrays without dimensions of complex64 or float32 are read behind their end."
  },
  {
   "property": "C97",
   "status": "proved",
   "theorems": [
    "C97_cosine",
    "C97_direction",
    "C97_along_the_axis_refuted"
   ],
   "note": "IEEE binary64 with Flocq, no fused operations; cos, sin and acos correctly rounded (assumption about the C library, part of the model). The refuted theorem: without the exception the claim is false, the result is NaN."
  },
  {
   "property": "C98",
   "status": "proved",
   "theorems": [
    "C98_mean",
    "C98_equal_coefficients",
    "C98_sign",
    "C98_single_shape",
    "C98_equal_coefficients_refuted"
   ],
   "note": "IEEE binary64 with Flocq, no fused operations, no overflow. The refuted theorem: exact equality fails already for one shape of weight 49."
  },
  {
   "property": "C99",
   "status": "proved",
   "theorems": [
    "C99_scattering_object",
    "C99_room",
    "C99_extinction_object",
    "C99_extinction_again",
    "C99_second_execution",
    "C99_executing_again_refuted"
   ],
   "note": "exact arithmetic. The refuted theorem: \"executing again gives the same matrix\" is false for scattering objects; C99_second_execution gives the factor for light going straight on."
  },
  {
   "property": "C100",
   "status": "proved",
   "theorems": [
    "C100_prime_factors",
    "C100_factors_unique",
    "C100_ends_with",
    "C100_binary_digits",
    "C100_memory_size",
    "C100_large_sizes",
    "C100_time",
    "C100_names_differ"
   ],
   "note": "sizes and times in exact arithmetic; printing the final number is not part of the model."
  },
  {
   "property": "C101",
   "status": "proved",
   "theorems": [
    "C101_wrong_arguments",
    "C101_limits_by_cutoff",
    "C101_limits_by_fraction",
    "C101_fraction_too_large",
    "C101_negative_number_of_points_refuted",
    "C101_single_shape",
    "C101_last_one"
   ],
   "note": "exact arithmetic, the quadrature of the fraction criterion is any that is accurate enough (as in C69). The refuted theorem: a negative number of points is not refused but wraps around to 2^32 - 1."
  },
  {
   "property": "C102",
   "status": "partial",
   "theorems": [
    "C102_sphere",
    "C102_shape_factor_refuted",
    "C102_flat_shapes_refuted"
   ],
   "note": "The natural claim, the shape factor is accurate up to rounding for every axis ratio, is false of the code (the two refuted theorems); an error bound in 2^-53 / (eccentricity squared) for axis ratios away from the sphere is missing. IEEE binary64 with Flocq, no fused operations."
  }
 ]
}