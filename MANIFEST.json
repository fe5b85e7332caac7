{
 "claims": [
  {
   "property": "C01",
   "status": "proved",
   "theorems": [
    "C01_disjoint_iff_no_common_point",
    "C01_intersection_is_set_intersection",
    "C01_empty_intersection_is_canonical",
    "C01_encompassing_union_is_least",
    "C01_union_is_set_union",
    "C01_shift_translates"
   ],
   "note": ""
  },
  {
   "property": "C02",
   "status": "partial",
   "theorems": [
    "C02_interval_equality_refuted",
    "C02_interval_equality_reflexive_refuted",
    "C02_interval_equality_partial",
    "C02_interval_equality_exact_partial",
    "C02_interval_equality_first_partial"
   ],
   "note": "The full property is false of the code: operator== is 'first == first && last && last': the last endpoints are only tested for being nonzero (see C02_interval_equality_refuted, _reflexive_refuted). C02_interval_equality_exact_partial says exactly when == is true."
  },
  {
   "property": "C03",
   "status": "partial",
   "theorems": [
    "C03_construction_exact_canonical",
    "C03_construction_total",
    "C03_construction_rejects_nonpositive_denominator",
    "C03_integer_construction",
    "C03_add_exact",
    "C03_sub_exact",
    "C03_mul_exact",
    "C03_div_exact",
    "C03_div_by_zero_rejected",
    "C03_add_sub_total",
    "C03_mul_total",
    "C03_div_total",
    "C03_add_int_exact",
    "C03_sub_int_exact",
    "C03_div_int_exact",
    "C03_mul_int_exact_partial",
    "C03_mul_negative_int_refuted",
    "C03_incr_exact",
    "C03_decr_exact"
   ],
   "note": "All operations are exact and canonical and fail only on overflow or a zero divisor, except rational * negative integer, which leaves a negative denominator (C03_mul_negative_int_refuted); _partial covers nonnegative integers."
  },
  {
   "property": "C04",
   "status": "proved",
   "theorems": [
    "C04_comparisons_are_rational_order",
    "C04_comparisons_total",
    "C04_canonical_forms_are_unique"
   ],
   "note": ""
  },
  {
   "property": "C05",
   "status": "partial",
   "theorems": [
    "C05_floor_partial",
    "C05_ceil_partial",
    "C05_frac_partial",
    "C05_floor_refuted",
    "C05_ceil_refuted",
    "C05_frac_refuted"
   ],
   "note": "False for negative rationals (truncation towards zero): *_refuted. Proved for nonnegative rationals."
  },
  {
   "property": "C06",
   "status": "proved",
   "theorems": [
    "C06_append_prepend_push",
    "C06_insert",
    "C06_erase",
    "C06_resize",
    "C06_extract_front",
    "C06_extract_back",
    "C06_erase_undoes_insert",
    "C06_fifo_history"
   ],
   "note": ""
  },
  {
   "property": "C07",
   "status": "proved",
   "theorems": [
    "C07_view_of_signal",
    "C07_first",
    "C07_last",
    "C07_subsignal",
    "C07_access",
    "C07_front_back"
   ],
   "note": ""
  },
  {
   "property": "C08",
   "status": "proved",
   "theorems": [
    "C08_signal_op_signal",
    "C08_signal_op_scalar",
    "C08_scalar_op_signal",
    "C08_into",
    "C08_in_place",
    "C08_size_mismatch_throws"
   ],
   "note": ""
  },
  {
   "property": "C09",
   "status": "proved",
   "theorems": [
    "C09_reduce_is_left_fold",
    "C09_transform_reduce_is_left_fold",
    "C09_inner_product_is_left_fold"
   ],
   "note": ""
  },
  {
   "property": "C10",
   "status": "proved",
   "theorems": [
    "C10_compensated_reduce_is_sum",
    "C10_compensated_inner_product_is_sum",
    "C10_compensated_transform_reduce_is_sum",
    "C10_compensation_stays_zero"
   ],
   "note": ""
  },
  {
   "property": "C11",
   "status": "proved",
   "theorems": [
    "C11_naive",
    "C11_slide",
    "C11_reduce",
    "C11_reduce_vec"
   ],
   "note": ""
  },
  {
   "property": "C12",
   "status": "proved",
   "theorems": [
    "C12_no_kernel_leaves_its_arrays"
   ],
   "note": ""
  },
  {
   "property": "C13",
   "status": "proved",
   "theorems": [
    "C13_window",
    "C13_window_into",
    "C13_full",
    "C13_central",
    "C13_empty_full",
    "C13_commutative",
    "C13_linear",
    "C13_full_linear"
   ],
   "note": ""
  },
  {
   "property": "C14",
   "status": "proved",
   "theorems": [
    "C14_window_into",
    "C14_same_as_convolution",
    "C14_modes"
   ],
   "note": ""
  },
  {
   "property": "C15",
   "status": "proved",
   "theorems": [
    "C15_next_power_of_two",
    "C15_next_power_of_two_zero",
    "C15_practical_size_admissible",
    "C15_theoretical_size_bounds"
   ],
   "note": ""
  },
  {
   "property": "C16",
   "status": "proved",
   "theorems": [
    "C16_complex_forward",
    "C16_complex_roundtrip",
    "C16_real_forward",
    "C16_real_roundtrip",
    "C16_half_spectrum_roundtrip",
    "C16_linear",
    "C16_parseval",
    "C16_circular_convolution"
   ],
   "note": ""
  },
  {
   "property": "C17",
   "status": "proved",
   "theorems": [
    "C17_half_full",
    "C17_full_overwrites",
    "C17_inverse_reads_lower_half"
   ],
   "note": ""
  },
  {
   "property": "C18",
   "status": "proved",
   "theorems": [
    "C18_shift",
    "C18_inverse"
   ],
   "note": ""
  },
  {
   "property": "C19",
   "status": "partial",
   "theorems": [
    "C19_one_call",
    "C19_blocks",
    "C19_prefix_of_convolution",
    "C19_overlap_add_agrees",
    "C19_stateless_agree",
    "C19_overlap_add_single_tap_refuted",
    "C19_overlap_add_empty_block_refuted"
   ],
   "note": "Proved for every filter and block sequence with direct convolution and for overlap-add with at least two taps and nonempty blocks; overlap-add with one tap or an empty block trips an assertion of the code (*_refuted)."
  },
  {
   "property": "C20",
   "status": "proved",
   "theorems": [
    "C20_direct_form_I_obeys_difference_equation",
    "C20_difference_equation_has_one_solution",
    "C20_too_small_order_is_rejected"
   ],
   "note": ""
  },
  {
   "property": "C21",
   "status": "partial",
   "theorems": [
    "C21_direct_form_II_equals_I_partial",
    "C21_direct_form_II_general",
    "C21_direct_form_II_equals_I_refuted"
   ],
   "note": "False unless the denominator is monic: C21_direct_form_II_general gives the exact relation for every system, _partial the equality for monic denominators, _refuted a counterexample."
  },
  {
   "property": "C22",
   "status": "proved",
   "theorems": [
    "C22_cascade_runs_the_sections_in_turn",
    "C22_cascade_equals_direct_form_I_of_product",
    "C22_too_many_sections_are_rejected"
   ],
   "note": ""
  },
  {
   "property": "C23",
   "status": "proved",
   "theorems": [
    "C23_reset_direct_form_I",
    "C23_reset_direct_form_II",
    "C23_reset_cascaded_form",
    "C23_direct_form_I_never_fails",
    "C23_direct_form_II_never_fails",
    "C23_cascaded_form_never_fails",
    "C23_blocks_direct_form_I",
    "C23_blocks_direct_form_II",
    "C23_blocks_cascaded_form",
    "C23_causal",
    "C23_output_array_irrelevant",
    "C23_single_samples",
    "C23_linear_time_invariant_direct_form_I",
    "C23_linear_time_invariant_direct_form_II",
    "C23_linear_time_invariant_cascaded_form"
   ],
   "note": ""
  },
  {
   "property": "C24",
   "status": "proved",
   "theorems": [
    "C24_eval_real",
    "C24_eval_complex",
    "C24_factored_eval",
    "C24_factored_eval_real",
    "C24_expand"
   ],
   "note": ""
  },
  {
   "property": "C25",
   "status": "partial",
   "theorems": [
    "C25_construct_iff",
    "C25_construct_throws",
    "C25_construct_value",
    "C25_vanishes_exactly",
    "C25_construct_roots",
    "C25_resize_partial",
    "C25_resize_refuted",
    "C25_resize_invalid_range_refuted",
    "C25_regroup"
   ],
   "note": "Everything except resizing is proved in full. resize is correct when it shrinks or grows by zero roots (resize_partial); growing the real roots over existing complex pairs loses roots, or copies an invalid range (*_refuted)."
  },
  {
   "property": "C26",
   "status": "partial",
   "theorems": [
    "C26_zero_pole_gain_value",
    "C26_transfer_function",
    "C26_cascade_partial",
    "C26_cascade_sections",
    "C26_cascade_gain_refuted"
   ],
   "note": "Transfer function: proved. Cascade: proved whenever there is at least one section; with no poles and no zeros the gain is lost (C26_cascade_gain_refuted)."
  },
  {
   "property": "C27",
   "status": "proved",
   "theorems": [
    "C27_first_order",
    "C27_second_order"
   ],
   "note": ""
  },
  {
   "property": "C28",
   "status": "proved",
   "theorems": [
    "C28_bilinear",
    "C28_constant",
    "C28_prewarp"
   ],
   "note": ""
  },
  {
   "property": "C29",
   "status": "proved",
   "theorems": [
    "C29_bilinear",
    "C29_positive_constant",
    "C29_lowpass",
    "C29_highpass",
    "C29_bandpass",
    "C29_bandstop"
   ],
   "note": ""
  },
  {
   "property": "C30",
   "status": "proved",
   "theorems": [
    "C30_butterworth"
   ],
   "note": ""
  },
  {
   "property": "C31",
   "status": "proved",
   "theorems": [
    "C31_phases",
    "C31_into",
    "C31_normalize"
   ],
   "note": ""
  },
  {
   "property": "C32",
   "status": "partial",
   "theorems": [
    "C32_interpolate",
    "C32_in_place_partial",
    "C32_in_place_refuted"
   ],
   "note": "Out of place: proved in full. In place (output buffer reused): proved where the convolution window is nonempty; otherwise stale samples remain (in_place_refuted)."
  },
  {
   "property": "C33",
   "status": "proved",
   "theorems": [
    "C33_resume",
    "C33_streaming"
   ],
   "note": ""
  },
  {
   "property": "C34",
   "status": "proved",
   "theorems": [
    "C34_samples",
    "C34_defined",
    "C34_length",
    "C34_full",
    "C34_central",
    "C34_central_defined",
    "C34_delay"
   ],
   "note": ""
  },
  {
   "property": "C35",
   "status": "proved",
   "theorems": [
    "C35_samples",
    "C35_resume",
    "C35_streaming"
   ],
   "note": ""
  },
  {
   "property": "C36",
   "status": "proved",
   "theorems": [
    "C36_decimate",
    "C36_expand",
    "C36_into",
    "C36_inverse",
    "C36_rate_zero"
   ],
   "note": ""
  },
  {
   "property": "C37",
   "status": "partial",
   "theorems": [
    "C37_mirror",
    "C37_mirror_response",
    "C37_complementary",
    "C37_complementary_response",
    "C37_shift_in_place",
    "C37_shift_response",
    "C37_shift_even",
    "C37_shift_out_of_place_refuted",
    "C37_rejects"
   ],
   "note": "All transforms proved except ShiftResponse into another buffer for odd lengths, whose centre tap is twice the old value of the output buffer instead of the input's (shift_out_of_place_refuted)."
  },
  {
   "property": "C38",
   "status": "proved",
   "theorems": [
    "C38_odd",
    "C38_even",
    "C38_antisymmetric",
    "C38_response"
   ],
   "note": ""
  },
  {
   "property": "C39",
   "status": "partial",
   "theorems": [
    "C39_lowpass",
    "C39_lowpass_gain_positive",
    "C39_lowpass_succeeds",
    "C39_bell_windows",
    "C39_zero_cutoff_refuted",
    "C39_rejects",
    "C39_highpass",
    "C39_bandpass",
    "C39_bandstop",
    "C39_designs_succeed",
    "C39_domain",
    "C39_hilbert",
    "C39_arbitrary",
    "C39_arbitrary_response"
   ],
   "note": "Proved in full for cutoffs in (0,1]; cutoff 0 is accepted by the range check but divides 0 by 0 (zero_cutoff_refuted)."
  },
  {
   "property": "C40",
   "status": "partial",
   "theorems": [
    "C40_hamming",
    "C40_rectangular",
    "C40_triangular",
    "C40_blackman",
    "C40_blackman_harris",
    "C40_flat_top",
    "C40_gaussian",
    "C40_lanczos",
    "C40_kaiser",
    "C40_one_sample_refuted",
    "C40_gains",
    "C40_dolph_chebyshev"
   ],
   "note": "Every window: formula, symmetry, range, peak; one-sample flat top and Gaussian windows are 0/0 in the code (one_sample_refuted), all other lengths are proved."
  },
  {
   "property": "C41",
   "status": "proved",
   "theorems": [
    "C41_linspace_inclusive",
    "C41_linspace_exclusive",
    "C41_linspace_degenerate",
    "C41_logspace"
   ],
   "note": ""
  },
  {
   "property": "C42",
   "status": "partial",
   "theorems": [
    "C42_sawtooth",
    "C42_pwm",
    "C42_negative_phase_refuted",
    "C42_waves",
    "C42_wave_period",
    "C42_chirp_frequency",
    "C42_chirps",
    "C42_chirp_is_wave"
   ],
   "note": "Proved for nonnegative phases; negative phases break sawtooth, triangle and pwm waves (negative_phase_refuted)."
  },
  {
   "property": "C43",
   "status": "partial",
   "theorems": [
    "C43_sums",
    "C43_extrema",
    "C43_moments",
    "C43_first_moment",
    "C43_moments_refuted",
    "C43_variance",
    "C43_affine",
    "C43_skewness_kurtosis",
    "C43_constant_refuted",
    "C43_covariance",
    "C43_correlation",
    "C43_correlation_affine",
    "C43_corrected",
    "C43_empty"
   ],
   "note": "Proved except: CentralMoment with k = 0, k = 1 with a given mean and even k >= 6 (moments_refuted), skewness/kurtosis of constant signals (constant_refuted)."
  },
  {
   "property": "C44",
   "status": "partial",
   "theorems": [
    "C44_bands",
    "C44_alternate",
    "C44_separated",
    "C44_measure",
    "C44_specific",
    "C44_empty",
    "C44_wrong_side_refuted",
    "C44_first_band_empty_refuted",
    "C44_edges_crossed_refuted"
   ],
   "note": "Proved except: samples are on their band's side of the threshold only if none is within the noise margin (C44_separated; wrong_side_refuted), the first band may be empty, and the edges of a one-sample band cross (*_refuted)."
  },
  {
   "property": "C45",
   "status": "proved",
   "theorems": [
    "C45_inside",
    "C45_root",
    "C45_terminates",
    "C45_default_tolerance",
    "C45_degenerate"
   ],
   "note": ""
  },
  {
   "property": "C46",
   "status": "proved",
   "theorems": [
    "C46_fir_windowed_split",
    "C46_fir_windowed_band",
    "C46_fir_windowed_arbitrary",
    "C46_fir_windowed_hilbert",
    "C46_fir_ls_arbitrary",
    "C46_fir_ls_split",
    "C46_fir_ls_band",
    "C46_fir_ls_hilbert",
    "C46_butterworth_split",
    "C46_butterworth_band",
    "C46_chebyshev_split",
    "C46_chebyshev_band",
    "C46_elliptic_split",
    "C46_elliptic_band",
    "C46_first_call",
    "C46_defaults",
    "C46_normalized_frequency"
   ],
   "note": ""
  },
  {
   "property": "C47",
   "status": "proved",
   "theorems": [
    "C47_bin_roundtrip",
    "C47_nearest_bin"
   ],
   "note": ""
  },
  {
   "property": "C48",
   "status": "partial",
   "theorems": [
    "C48_zero_pole_gain_order",
    "C48_transfer_function_order",
    "C48_cascade_order_refuted"
   ],
   "note": "Zero-pole-gain and transfer function proved; the biquad cascade reports one more than the order of the system, for every system of positive order (cascade_order_refuted)."
  },
  {
   "property": "C49",
   "status": "proved",
   "theorems": [
    "C49_realizations_agree"
   ],
   "note": ""
  },
  {
   "property": "C50",
   "status": "partial",
   "theorems": [
    "C50_lowpass",
    "C50_highpass",
    "C50_highpass_half_refuted",
    "C50_bandpass",
    "C50_bandpass_half_refuted",
    "C50_bandstop"
   ],
   "note": "Proved for all admissible band edges; highpass at the Nyquist frequency and bandpass of half the sampling rate divide by zero (*_refuted)."
  },
  {
   "property": "C51",
   "status": "partial",
   "theorems": [
    "C51_type1_shape",
    "C51_prototype",
    "C51_prototype_order_refuted",
    "C51_lowpass",
    "C51_highpass",
    "C51_bandpass",
    "C51_bandstop"
   ],
   "note": "Proved for orders 1..32; order 0 and orders above 32 make the code shift 1 by an out-of-range count (prototype_order_refuted)."
  },
  {
   "property": "C52",
   "status": "proved",
   "theorems": [
    "C52_type2_shape",
    "C52_prototype",
    "C52_lowpass",
    "C52_highpass",
    "C52_bandpass",
    "C52_bandstop"
   ],
   "note": ""
  },
  {
   "property": "C53",
   "status": "partial",
   "theorems": [
    "C53_solver_exists",
    "C53_optimal",
    "C53_lowpass_highpass",
    "C53_bandpass_bandstop",
    "C53_grid_refuted",
    "C53_even_refuted",
    "C53_hilbert_default_refuted",
    "C53_hilbert"
   ],
   "note": "Optimality proved for odd lengths on the grid the code uses; the requested grid size is capped, even lengths leave a tap unwritten and the Hilbert default transition width is rejected (*_refuted)."
  },
  {
   "property": "C54",
   "status": "proved",
   "theorems": [
    "C54_impulse",
    "C54_empty_impulse",
    "C54_system"
   ],
   "note": ""
  },
  {
   "property": "C55",
   "status": "proved",
   "theorems": [
    "C55_function",
    "C55_into",
    "C55_in_place",
    "C55_short_output",
    "C55_complex"
   ],
   "note": ""
  },
  {
   "property": "C56",
   "status": "proved",
   "theorems": [
    "C56_value",
    "C56_size_mismatch",
    "C56_inner_product"
   ],
   "note": ""
  },
  {
   "property": "C57",
   "status": "proved",
   "theorems": [
    "C57_amplitude_exists_unique",
    "C57_amplitude",
    "C57_exact",
    "C57_history",
    "C57_precondition"
   ],
   "note": ""
  },
  {
   "property": "C58",
   "status": "proved",
   "theorems": [
    "C58_carlson",
    "C58_carlson_any",
    "C58_infinite",
    "C58_symmetric",
    "C58_complete",
    "C58_complete_infinite"
   ],
   "note": ""
  },
  {
   "property": "C59",
   "status": "partial",
   "theorems": [
    "C59_arcsn",
    "C59_arccn",
    "C59_arcdn",
    "C59_arcsn_imaginary",
    "C59_roundtrip",
    "C59_negative_refuted",
    "C59_negative_cn_refuted"
   ],
   "note": "Proved for arguments that are not negative; for negative x ArcSN and ArcCN return the value for |x| (negative_refuted, negative_cn_refuted)."
  },
  {
   "property": "C60",
   "status": "partial",
   "theorems": [
    "C60_accuracy",
    "C60_identities",
    "C60_complex",
    "C60_complex_identities",
    "C60_history",
    "C60_large_modulus_refuted"
   ],
   "note": "Proved for |k| <= 1 (complex: k and sqrt(1-k^2) both representable, away from poles); for |k| > 1 cn is wrong (large_modulus_refuted)."
  },
  {
   "property": "C61",
   "status": "proved",
   "theorems": [
    "C61_structure",
    "C61_dc_gain",
    "C61_degree_equation",
    "C61_degree_equation_solvable",
    "C61_degree_equation_limit",
    "C61_prototype",
    "C61_equiripple",
    "C61_lowpass",
    "C61_highpass",
    "C61_bandpass",
    "C61_bandstop",
    "C61_location",
    "C61_prototype_explicit"
   ],
   "note": "Counts, zeros, DC gain, degree equation, its limit and the places of poles and zeros are proved for every precision; stability, existence, the ripple bounds at every frequency and the four designs for every order and ripples once the precision is fine enough for the chosen error (stability and existence also explicitly, when well_conditioned holds)."
  },
  {
   "property": "C62",
   "status": "proved",
   "theorems": [
    "C62_reduce_combines_each_once",
    "C62_transform_reduce_combines_each_once",
    "C62_inner_product_combines_each_once",
    "C62_left_to_right_is_an_order",
    "C62_sum_error",
    "C62_transformed_sum_error",
    "C62_inner_product_error",
    "C62_sum_error_first_order"
   ],
   "note": ""
  },
  {
   "property": "C63",
   "status": "proved",
   "theorems": [
    "C63_compensated_sum_error",
    "C63_compensated_transformed_sum_error",
    "C63_compensated_inner_product_error",
    "C63_double_precision"
   ],
   "note": ""
  },
  {
   "property": "C64",
   "status": "proved",
   "theorems": [
    "C64_naive_error",
    "C64_slide_error",
    "C64_reduce_error",
    "C64_reduce_vec_error",
    "C64_convolution_error",
    "C64_double_precision"
   ],
   "note": ""
  },
  {
   "property": "C65",
   "status": "partial",
   "theorems": [
    "C65_naive_local",
    "C65_short_local",
    "C65_long_within_a_vector",
    "C65_long_refuted"
   ],
   "note": "Proved for the naive kernel and for the API when one operand has at most 32 samples; for longer operands it holds up to one vector width, and the strict claim is false because out-of-range samples are multiplied by padding zeros (long_refuted)."
  },
  {
   "property": "C66",
   "status": "proved",
   "theorems": [
    "C66_mean_error",
    "C66_sum_square_error",
    "C66_mean_square_error",
    "C66_norm_error",
    "C66_root_mean_square_error",
    "C66_second_moment_error",
    "C66_variance_error",
    "C66_standard_deviation_error",
    "C66_covariance_about_given_means_error",
    "C66_covariance_error"
   ],
   "note": ""
  },
  {
   "property": "C67",
   "status": "partial",
   "theorems": [
    "C67_any_preorder",
    "C67_max",
    "C67_min",
    "C67_max_of_nan_refuted"
   ],
   "note": "Proved for signals without NaN; with NaN the result depends on the position of the samples (max_of_nan_refuted)."
  },
  {
   "property": "C68",
   "status": "partial",
   "theorems": [
    "C68_sum",
    "C68_mean",
    "C68_sum_square_partial",
    "C68_norm_refuted",
    "C68_variance_refuted"
   ],
   "note": "Sum and Mean proved; SumSquare, Norm and Variance add z^2 instead of |z|^2 (norm_refuted, variance_refuted; sum_square_partial says what they compute)."
  },
  {
   "property": "C69",
   "status": "proved",
   "theorems": [
    "C69_horner_error"
   ],
   "note": ""
  },
  {
   "property": "C70",
   "status": "proved",
   "theorems": [
    "C70_signal_signal",
    "C70_signal_scalar",
    "C70_scalar_signal",
    "C70_operators"
   ],
   "note": ""
  },
  {
   "property": "C71",
   "status": "proved",
   "theorems": [
    "C71_blocks_any_arithmetic",
    "C71_causal_any_arithmetic",
    "C71_output_array_any_arithmetic",
    "C71_direct_form_I_residual",
    "C71_direct_form_II_residual",
    "C71_cascade_residual",
    "C71_direct_form_I_error",
    "C71_nonfinite_output_is_permanent"
   ],
   "note": ""
  },
  {
   "property": "C72",
   "status": "proved",
   "theorems": [
    "C72_filtered_exists",
    "C72_bounded_output",
    "C72_transients_decay",
    "C72_dies_out",
    "C72_stability_needed"
   ],
   "note": ""
  },
  {
   "property": "C73",
   "status": "partial",
   "theorems": [
    "C73_settles",
    "C73_amplitude_and_phase",
    "C73_butterworth_lowpass",
    "C73_chebyshev1_lowpass",
    "C73_chebyshev2_lowpass",
    "C73_missing_zeros_refuted",
    "C73_butterworth_highpass",
    "C73_butterworth_bandpass",
    "C73_butterworth_bandstop",
    "C73_chebyshev1_highpass",
    "C73_chebyshev1_bandpass",
    "C73_chebyshev1_bandstop",
    "C73_chebyshev2_highpass",
    "C73_chebyshev2_bandpass",
    "C73_chebyshev2_bandstop",
    "C73_elliptic_lowpass",
    "C73_elliptic_highpass",
    "C73_elliptic_bandpass",
    "C73_elliptic_bandstop"
   ],
   "note": "Proved with equally many zeros and poles (every designed filter); with fewer zeros than poles the realizations drop the delay of the missing zeros, so the phase is off by w per missing zero (C73_settles says by how much, missing_zeros_refuted)."
  },
  {
   "property": "C74",
   "status": "proved",
   "theorems": [
    "C74_direct_form_I",
    "C74_direct_form_II",
    "C74_cascade"
   ],
   "note": ""
  },
  {
   "property": "C75",
   "status": "proved",
   "theorems": [
    "C75_direct_form_I",
    "C75_direct_form_II",
    "C75_cascade",
    "C75_direct_form_I_accurate",
    "C75_cascade_accurate"
   ],
   "note": ""
  },
  {
   "property": "C76",
   "status": "proved",
   "theorems": [
    "C76_filtered_exists",
    "C76_streaming",
    "C76_central",
    "C76_bounded_output",
    "C76_bound_reached",
    "C76_measured_fir",
    "C76_measured_iir",
    "C76_symmetric",
    "C76_antisymmetric",
    "C76_windowed"
   ],
   "note": ""
  },
  {
   "property": "C77",
   "status": "proved",
   "theorems": [
    "C77_state_any_arithmetic",
    "C77_streaming_error",
    "C77_partitions_agree",
    "C77_double_precision",
    "C77_short_blocks_any_arithmetic",
    "C77_long_blocks_differ"
   ],
   "note": "Error bounds proved for every partition; bit-for-bit independence of the partition proved for blocks no longer than min(taps, 32) and false beyond (C77_long_blocks_differ), which the statement says."
  },
  {
   "property": "C78",
   "status": "proved",
   "theorems": [
    "C78_interpolation_resumes_any_arithmetic",
    "C78_interpolation_streams_any_arithmetic",
    "C78_resampling_resumes_any_arithmetic",
    "C78_decomposition_error",
    "C78_interpolation_error",
    "C78_resampling_error"
   ],
   "note": ""
  },
  {
   "property": "C79",
   "status": "proved",
   "theorems": [
    "C79_images",
    "C79_interpolation",
    "C79_resampling",
    "C79_delay_undone",
    "C79_central"
   ],
   "note": ""
  },
  {
   "property": "C80",
   "status": "proved",
   "theorems": [
    "C80_series",
    "C80_filters_to_one",
    "C80_order_of_filters_is_immaterial",
    "C80_parallel",
    "C80_inverse_undoes",
    "C80_fir_is_a_system",
    "C80_fir_series",
    "C80_cascades"
   ],
   "note": ""
  },
  {
   "property": "C81",
   "status": "proved",
   "theorems": [
    "C81_kernels",
    "C81_window_into",
    "C81_full",
    "C81_central",
    "C81_streaming",
    "C81_real_taps_act_on_both_parts",
    "C81_operands_commute"
   ],
   "note": ""
  },
  {
   "property": "C82",
   "status": "partial",
   "theorems": [
    "C82_interpolate",
    "C82_interpolate_streaming",
    "C82_resample",
    "C82_resample_defined",
    "C82_resample_full",
    "C82_resample_central",
    "C82_resample_resume",
    "C82_real_taps_act_on_both_parts",
    "C82_complex_taps_refuted"
   ],
   "note": ""
  },
  {
   "property": "C83",
   "status": "partial",
   "theorems": [
    "C83_disjoint_iff_no_common_value",
    "C83_intersection",
    "C83_encompassing",
    "C83_union",
    "C83_shift",
    "C83_integers",
    "C83_integer_instance",
    "C83_floats",
    "C83_rationals",
    "C83_nan_refuted",
    "C83_float_shift_refuted"
   ],
   "note": ""
  },
  {
   "property": "C84",
   "status": "proved",
   "theorems": [
    "C84_any_arithmetic",
    "C84_exact_instance",
    "C84_normalized_phases"
   ],
   "note": ""
  },
  {
   "property": "C85",
   "status": "partial",
   "theorems": [
    "C85_any_arithmetic",
    "C85_exact_instance",
    "C85_linspace",
    "C85_from_zero_to_power",
    "C85_end_is_reached_refuted"
   ],
   "note": ""
  },
  {
   "property": "C86",
   "status": "partial",
   "theorems": [
    "C86_unit_phase",
    "C86_phases",
    "C86_waves",
    "C86_chirps",
    "C86_exact_instance",
    "C86_negative_frequency_refuted"
   ],
   "note": ""
  }
 ]
}