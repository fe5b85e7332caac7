# What Print Assumptions lists

Generated by tools/gen_assumptions.py from the built theories: every theorem of MANIFEST.json, grouped by the axioms it depends on. All axioms are the standard library's (real numbers and classical logic).

## Closed under the global context (no axioms)

- C01_disjoint_iff_no_common_point (PropsInterval.v)
- C01_intersection_is_set_intersection (PropsInterval.v)
- C01_empty_intersection_is_canonical (PropsInterval.v)
- C01_encompassing_union_is_least (PropsInterval.v)
- C01_union_is_set_union (PropsInterval.v)
- C01_shift_translates (PropsInterval.v)
- C02_interval_equality_refuted (PropsInterval.v)
- C02_interval_equality_reflexive_refuted (PropsInterval.v)
- C02_interval_equality_partial (PropsInterval.v)
- C02_interval_equality_exact_partial (PropsInterval.v)
- C02_interval_equality_first_partial (PropsInterval.v)
- C03_construction_exact_canonical (PropsRational.v)
- C03_construction_total (PropsRational.v)
- C03_construction_rejects_nonpositive_denominator (PropsRational.v)
- C03_integer_construction (PropsRational.v)
- C03_add_exact (PropsRational.v)
- C03_sub_exact (PropsRational.v)
- C03_mul_exact (PropsRational.v)
- C03_div_exact (PropsRational.v)
- C03_div_by_zero_rejected (PropsRational.v)
- C03_add_sub_total (PropsRational.v)
- C03_mul_total (PropsRational.v)
- C03_div_total (PropsRational.v)
- C03_add_int_exact (PropsRational.v)
- C03_sub_int_exact (PropsRational.v)
- C03_div_int_exact (PropsRational.v)
- C03_mul_int_exact_partial (PropsRational.v)
- C03_mul_negative_int_refuted (PropsRational.v)
- C03_incr_exact (PropsRational.v)
- C03_decr_exact (PropsRational.v)
- C04_comparisons_are_rational_order (PropsRational.v)
- C04_comparisons_total (PropsRational.v)
- C04_canonical_forms_are_unique (PropsRational.v)
- C05_floor_partial (PropsRational.v)
- C05_ceil_partial (PropsRational.v)
- C05_frac_partial (PropsRational.v)
- C05_floor_refuted (PropsRational.v)
- C05_ceil_refuted (PropsRational.v)
- C05_frac_refuted (PropsRational.v)
- C06_append_prepend_push (PropsSignal.v)
- C06_insert (PropsSignal.v)
- C06_erase (PropsSignal.v)
- C06_resize (PropsSignal.v)
- C06_extract_front (PropsSignal.v)
- C06_extract_back (PropsSignal.v)
- C06_erase_undoes_insert (PropsSignal.v)
- C06_fifo_history (PropsSignal.v)
- C07_view_of_signal (PropsSignal.v)
- C07_first (PropsSignal.v)
- C07_last (PropsSignal.v)
- C07_subsignal (PropsSignal.v)
- C07_access (PropsSignal.v)
- C07_front_back (PropsSignal.v)
- C08_signal_op_signal (PropsKernel.v)
- C08_signal_op_scalar (PropsKernel.v)
- C08_scalar_op_signal (PropsKernel.v)
- C08_into (PropsKernel.v)
- C08_in_place (PropsKernel.v)
- C08_size_mismatch_throws (PropsKernel.v)
- C09_reduce_is_left_fold (PropsKernel.v)
- C09_transform_reduce_is_left_fold (PropsKernel.v)
- C09_inner_product_is_left_fold (PropsKernel.v)
- C10_compensated_reduce_is_sum (PropsKernel.v)
- C10_compensated_inner_product_is_sum (PropsKernel.v)
- C10_compensated_transform_reduce_is_sum (PropsKernel.v)
- C10_compensation_stays_zero (PropsKernel.v)
- C11_naive (PropsConv.v)
- C11_slide (PropsConv.v)
- C11_reduce (PropsConv.v)
- C11_reduce_vec (PropsConv.v)
- C12_no_kernel_leaves_its_arrays (PropsConv.v)
- C13_window (PropsConv.v)
- C13_window_into (PropsConv.v)
- C13_full (PropsConv.v)
- C13_central (PropsConv.v)
- C13_empty_full (PropsConv.v)
- C13_commutative (PropsConv.v)
- C13_linear (PropsConv.v)
- C13_full_linear (PropsConv.v)
- C15_next_power_of_two (PropsOla.v)
- C15_next_power_of_two_zero (PropsOla.v)
- C18_shift (PropsFft.v)
- C18_inverse (PropsFft.v)
- C19_one_call (PropsOla.v)
- C19_blocks (PropsOla.v)
- C19_prefix_of_convolution (PropsOla.v)
- C20_direct_form_I_obeys_difference_equation (PropsIir.v)
- C20_difference_equation_has_one_solution (PropsIir.v)
- C20_too_small_order_is_rejected (PropsIir.v)
- C21_direct_form_II_equals_I_partial (PropsIir.v)
- C21_direct_form_II_general (PropsIir.v)
- C22_cascade_runs_the_sections_in_turn (PropsIir.v)
- C22_cascade_equals_direct_form_I_of_product (PropsIir.v)
- C22_too_many_sections_are_rejected (PropsIir.v)
- C23_reset_direct_form_I (PropsIir.v)
- C23_reset_direct_form_II (PropsIir.v)
- C23_reset_cascaded_form (PropsIir.v)
- C23_direct_form_I_never_fails (PropsIir.v)
- C23_direct_form_II_never_fails (PropsIir.v)
- C23_cascaded_form_never_fails (PropsIir.v)
- C23_blocks_direct_form_I (PropsIir.v)
- C23_blocks_direct_form_II (PropsIir.v)
- C23_blocks_cascaded_form (PropsIir.v)
- C23_causal (PropsIir.v)
- C23_output_array_irrelevant (PropsIir.v)
- C23_single_samples (PropsIir.v)
- C23_linear_time_invariant_direct_form_I (PropsIir.v)
- C23_linear_time_invariant_direct_form_II (PropsIir.v)
- C23_linear_time_invariant_cascaded_form (PropsIir.v)
- C31_phases (PropsPolyphase.v)
- C31_into (PropsPolyphase.v)
- C31_normalize (PropsPolyphase.v)
- C32_interpolate (PropsPolyphase.v)
- C32_in_place_partial (PropsPolyphase.v)
- C32_in_place_refuted (PropsPolyphase.v)
- C33_resume (PropsPolyphase.v)
- C33_streaming (PropsPolyphase.v)
- C34_samples (PropsResample.v)
- C34_defined (PropsResample.v)
- C34_length (PropsResample.v)
- C34_full (PropsResample.v)
- C34_central (PropsResample.v)
- C34_central_defined (PropsResample.v)
- C34_delay (PropsResample.v)
- C35_samples (PropsResample.v)
- C35_resume (PropsResample.v)
- C35_streaming (PropsResample.v)
- C36_decimate (PropsPolyphase.v)
- C36_expand (PropsPolyphase.v)
- C36_into (PropsPolyphase.v)
- C36_inverse (PropsPolyphase.v)
- C36_rate_zero (PropsPolyphase.v)
- C37_mirror (PropsFirBand.v)
- C37_complementary (PropsFirBand.v)
- C37_rejects (PropsFirBand.v)
- C38_odd (PropsFirBand.v)
- C38_even (PropsFirBand.v)
- C38_antisymmetric (PropsFirBand.v)
- C44_empty (PropsMeasure.v)
- C55_function (PropsFunction.v)
- C55_into (PropsFunction.v)
- C55_in_place (PropsFunction.v)
- C55_short_output (PropsFunction.v)
- C56_size_mismatch (PropsFunction.v)
- C62_reduce_combines_each_once (PropsFloat.v)
- C62_transform_reduce_combines_each_once (PropsFloat.v)
- C62_inner_product_combines_each_once (PropsFloat.v)
- C62_left_to_right_is_an_order (PropsFloat.v)
- C65_naive_local (PropsConvFloat.v)
- C65_short_local (PropsConvFloat.v)
- C65_long_within_a_vector (PropsConvFloat.v)
- C67_any_preorder (PropsExtreme.v)
- C70_signal_signal (PropsMixed.v)
- C70_signal_scalar (PropsMixed.v)
- C70_scalar_signal (PropsMixed.v)
- C70_operators (PropsMixed.v)
- C71_blocks_any_arithmetic (PropsIirFloat.v)
- C71_causal_any_arithmetic (PropsIirFloat.v)
- C71_output_array_any_arithmetic (PropsIirFloat.v)
- C77_state_any_arithmetic (PropsFirFloat.v)
- C77_short_blocks_any_arithmetic (PropsFirFloat.v)
- C78_interpolation_resumes_any_arithmetic (PropsResampleFloat.v)
- C78_interpolation_streams_any_arithmetic (PropsResampleFloat.v)
- C78_resampling_resumes_any_arithmetic (PropsResampleFloat.v)
- C80_series (PropsSeries.v)
- C80_filters_to_one (PropsSeries.v)
- C80_order_of_filters_is_immaterial (PropsSeries.v)
- C80_parallel (PropsSeries.v)
- C80_inverse_undoes (PropsSeries.v)
- C80_fir_is_a_system (PropsSeries.v)
- C80_fir_series (PropsSeries.v)
- C80_cascades (PropsSeries.v)
- C81_kernels (PropsMixedConv.v)
- C81_window_into (PropsMixedConv.v)
- C81_full (PropsMixedConv.v)
- C81_central (PropsMixedConv.v)
- C81_streaming (PropsMixedConv.v)
- C81_operands_commute (PropsMixedConv.v)
- C83_disjoint_iff_no_common_value (PropsIntervalOrder.v)
- C83_intersection (PropsIntervalOrder.v)
- C83_encompassing (PropsIntervalOrder.v)
- C83_union (PropsIntervalOrder.v)
- C83_shift (PropsIntervalOrder.v)
- C83_integers (PropsIntervalOrder.v)
- C83_integer_instance (PropsIntervalOrder.v)
- C83_rationals (PropsIntervalOrder.v)
- C84_any_arithmetic (PropsNormalizeFloat.v)
- C84_exact_instance (PropsNormalizeFloat.v)
- C85_any_arithmetic (PropsSpacesFloat.v)

## `ClassicalDedekindReals.sig_forall_dec`

- C25_resize_invalid_range_refuted (PropsPoly.v)

## `FunctionalExtensionality.functional_extensionality_dep`

- C82_interpolate (PropsMixedResample.v)
- C82_interpolate_streaming (PropsMixedResample.v)
- C82_resample (PropsMixedResample.v)
- C82_resample_defined (PropsMixedResample.v)
- C82_resample_full (PropsMixedResample.v)
- C82_resample_central (PropsMixedResample.v)
- C82_resample_resume (PropsMixedResample.v)

## `ClassicalDedekindReals.sig_forall_dec`, `FunctionalExtensionality.functional_extensionality_dep`

- C21_direct_form_II_equals_I_refuted (PropsIir.v)
- C24_eval_real (PropsPoly.v)
- C24_eval_complex (PropsPoly.v)
- C24_factored_eval (PropsPoly.v)
- C24_factored_eval_real (PropsPoly.v)
- C24_expand (PropsPoly.v)
- C25_construct_iff (PropsPoly.v)
- C25_construct_throws (PropsPoly.v)
- C25_construct_value (PropsPoly.v)
- C25_vanishes_exactly (PropsPoly.v)
- C25_construct_roots (PropsPoly.v)
- C25_resize_partial (PropsPoly.v)
- C25_resize_refuted (PropsPoly.v)
- C25_regroup (PropsPoly.v)
- C26_zero_pole_gain_value (PropsSys.v)
- C26_transfer_function (PropsSys.v)
- C27_first_order (PropsDesign.v)
- C40_rectangular (PropsWindow.v)
- C40_triangular (PropsWindow.v)
- C40_gains (PropsWindow.v)
- C41_linspace_inclusive (PropsWindow.v)
- C41_linspace_exclusive (PropsWindow.v)
- C41_linspace_degenerate (PropsWindow.v)
- C43_extrema (PropsStat.v)
- C43_empty (PropsStat.v)
- C44_bands (PropsMeasure.v)
- C44_alternate (PropsMeasure.v)
- C44_separated (PropsMeasure.v)
- C44_wrong_side_refuted (PropsMeasure.v)
- C44_first_band_empty_refuted (PropsMeasure.v)
- C45_inside (PropsSolver.v)
- C45_default_tolerance (PropsSolver.v)
- C45_degenerate (PropsSolver.v)
- C46_fir_windowed_split (PropsDesc.v)
- C46_fir_windowed_band (PropsDesc.v)
- C46_fir_windowed_arbitrary (PropsDesc.v)
- C46_fir_windowed_hilbert (PropsDesc.v)
- C46_fir_ls_arbitrary (PropsDesc.v)
- C46_fir_ls_split (PropsDesc.v)
- C46_fir_ls_band (PropsDesc.v)
- C46_fir_ls_hilbert (PropsDesc.v)
- C46_butterworth_split (PropsDesc.v)
- C46_butterworth_band (PropsDesc.v)
- C46_chebyshev_split (PropsDesc.v)
- C46_chebyshev_band (PropsDesc.v)
- C46_elliptic_split (PropsDesc.v)
- C46_elliptic_band (PropsDesc.v)
- C46_first_call (PropsDesc.v)
- C46_defaults (PropsDesc.v)
- C46_normalized_frequency (PropsDesc.v)
- C47_bin_roundtrip (PropsFft.v)
- C47_nearest_bin (PropsFft.v)
- C48_zero_pole_gain_order (PropsSys.v)
- C48_transfer_function_order (PropsSys.v)
- C53_solver_exists (PropsLeastSquares.v)
- C56_value (PropsFunction.v)
- C68_sum (PropsStatComplex.v)
- C68_mean (PropsStatComplex.v)
- C68_variance_refuted (PropsStatComplex.v)
- C76_filtered_exists (PropsFirSine.v)
- C76_bounded_output (PropsFirSine.v)
- C76_bound_reached (PropsFirSine.v)
- C81_real_taps_act_on_both_parts (PropsMixedConv.v)
- C82_real_taps_act_on_both_parts (PropsMixedResample.v)
- C82_complex_taps_refuted (PropsMixedResample.v)

## `ClassicalDedekindReals.sig_forall_dec`, `ClassicalDedekindReals.sig_not_dec`, `FunctionalExtensionality.functional_extensionality_dep`

- C16_complex_forward (PropsFft.v)
- C16_complex_roundtrip (PropsFft.v)
- C16_real_forward (PropsFft.v)
- C16_real_roundtrip (PropsFft.v)
- C16_half_spectrum_roundtrip (PropsFft.v)
- C16_linear (PropsFft.v)
- C16_parseval (PropsFft.v)
- C16_circular_convolution (PropsFft.v)
- C17_half_full (PropsFft.v)
- C17_full_overwrites (PropsFft.v)
- C17_inverse_reads_lower_half (PropsFft.v)
- C26_cascade_partial (PropsSys.v)
- C26_cascade_sections (PropsSys.v)
- C26_cascade_gain_refuted (PropsSys.v)
- C27_second_order (PropsDesign.v)
- C28_bilinear (PropsDesign.v)
- C28_constant (PropsDesign.v)
- C28_prewarp (PropsDesign.v)
- C29_bilinear (PropsDesign.v)
- C29_positive_constant (PropsDesign.v)
- C29_lowpass (PropsDesign.v)
- C29_highpass (PropsDesign.v)
- C29_bandpass (PropsDesign.v)
- C29_bandstop (PropsDesign.v)
- C30_butterworth (PropsDesign.v)
- C37_mirror_response (PropsFirBand.v)
- C37_complementary_response (PropsFirBand.v)
- C37_shift_in_place (PropsFirBand.v)
- C37_shift_response (PropsFirBand.v)
- C37_shift_even (PropsFirBand.v)
- C37_shift_out_of_place_refuted (PropsFirBand.v)
- C38_response (PropsFirBand.v)
- C39_lowpass (PropsFirDesign.v)
- C39_zero_cutoff_refuted (PropsFirDesign.v)
- C39_rejects (PropsFirDesign.v)
- C39_highpass (PropsFirDesign.v)
- C39_bandpass (PropsFirDesign.v)
- C39_bandstop (PropsFirDesign.v)
- C39_domain (PropsFirDesign.v)
- C39_arbitrary (PropsFirDesign.v)
- C39_arbitrary_response (PropsFirDesign.v)
- C40_hamming (PropsWindow.v)
- C40_blackman (PropsWindow.v)
- C40_blackman_harris (PropsWindow.v)
- C40_flat_top (PropsWindow.v)
- C40_kaiser (PropsWindow.v)
- C40_one_sample_refuted (PropsWindow.v)
- C42_sawtooth (PropsWindow.v)
- C42_pwm (PropsWindow.v)
- C42_negative_phase_refuted (PropsWindow.v)
- C42_waves (PropsWindow.v)
- C42_wave_period (PropsWindow.v)
- C42_chirp_frequency (PropsWindow.v)
- C42_chirps (PropsWindow.v)
- C42_chirp_is_wave (PropsWindow.v)
- C43_sums (PropsStat.v)
- C43_moments (PropsStat.v)
- C43_first_moment (PropsStat.v)
- C43_moments_refuted (PropsStat.v)
- C43_variance (PropsStat.v)
- C43_affine (PropsStat.v)
- C43_covariance (PropsStat.v)
- C43_correlation (PropsStat.v)
- C43_correlation_affine (PropsStat.v)
- C44_measure (PropsMeasure.v)
- C44_specific (PropsMeasure.v)
- C44_edges_crossed_refuted (PropsMeasure.v)
- C45_root (PropsSolver.v)
- C45_terminates (PropsSolver.v)
- C48_cascade_order_refuted (PropsSys.v)
- C49_realizations_agree (PropsSys.v)
- C50_lowpass (PropsDesign.v)
- C50_highpass (PropsDesign.v)
- C50_highpass_half_refuted (PropsDesign.v)
- C50_bandpass (PropsDesign.v)
- C50_bandpass_half_refuted (PropsDesign.v)
- C50_bandstop (PropsDesign.v)
- C53_optimal (PropsLeastSquares.v)
- C53_lowpass_highpass (PropsLeastSquares.v)
- C53_bandpass_bandstop (PropsLeastSquares.v)
- C53_grid_refuted (PropsLeastSquares.v)
- C53_even_refuted (PropsLeastSquares.v)
- C53_hilbert_default_refuted (PropsLeastSquares.v)
- C53_hilbert (PropsLeastSquares.v)
- C56_inner_product (PropsFunction.v)
- C68_sum_square_partial (PropsStatComplex.v)
- C68_norm_refuted (PropsStatComplex.v)
- C72_filtered_exists (PropsStable.v)
- C72_bounded_output (PropsStable.v)
- C72_transients_decay (PropsStable.v)
- C72_dies_out (PropsStable.v)
- C72_stability_needed (PropsStable.v)
- C73_missing_zeros_refuted (PropsStable.v)
- C76_streaming (PropsFirSine.v)
- C76_central (PropsFirSine.v)
- C76_symmetric (PropsFirSine.v)
- C76_antisymmetric (PropsFirSine.v)
- C79_images (PropsResampleTone.v)
- C86_exact_instance (PropsWaveFloat.v)

## `ClassicalDedekindReals.sig_forall_dec`, `ClassicalDedekindReals.sig_not_dec`, `Classical_Prop.classic`, `FunctionalExtensionality.functional_extensionality_dep`

- C14_window_into (PropsOla.v)
- C14_same_as_convolution (PropsOla.v)
- C14_modes (PropsOla.v)
- C15_practical_size_admissible (PropsOla.v)
- C15_theoretical_size_bounds (PropsOla.v)
- C19_overlap_add_agrees (PropsOla.v)
- C19_stateless_agree (PropsOla.v)
- C19_overlap_add_single_tap_refuted (PropsOla.v)
- C19_overlap_add_empty_block_refuted (PropsOla.v)
- C39_lowpass_gain_positive (PropsFirDesign.v)
- C39_lowpass_succeeds (PropsFirDesign.v)
- C39_bell_windows (PropsFirDesign.v)
- C39_designs_succeed (PropsFirDesign.v)
- C39_hilbert (PropsFirDesign.v)
- C40_gaussian (PropsWindow.v)
- C40_lanczos (PropsWindow.v)
- C40_dolph_chebyshev (PropsWindow.v)
- C41_logspace (PropsWindow.v)
- C43_skewness_kurtosis (PropsStat.v)
- C43_constant_refuted (PropsStat.v)
- C43_corrected (PropsStat.v)
- C51_type1_shape (PropsCheby.v)
- C51_prototype (PropsCheby.v)
- C51_prototype_order_refuted (PropsCheby.v)
- C51_lowpass (PropsCheby.v)
- C51_highpass (PropsCheby.v)
- C51_bandpass (PropsCheby.v)
- C51_bandstop (PropsCheby.v)
- C52_type2_shape (PropsCheby.v)
- C52_prototype (PropsCheby.v)
- C52_lowpass (PropsCheby.v)
- C52_highpass (PropsCheby.v)
- C52_bandpass (PropsCheby.v)
- C52_bandstop (PropsCheby.v)
- C54_impulse (PropsFunction.v)
- C54_empty_impulse (PropsFunction.v)
- C54_system (PropsFunction.v)
- C55_complex (PropsFunction.v)
- C57_amplitude_exists_unique (PropsElliptic.v)
- C57_amplitude (PropsElliptic.v)
- C57_exact (PropsElliptic.v)
- C57_history (PropsElliptic.v)
- C57_precondition (PropsElliptic.v)
- C58_carlson (PropsElliptic.v)
- C58_carlson_any (PropsElliptic.v)
- C58_infinite (PropsElliptic.v)
- C58_symmetric (PropsElliptic.v)
- C58_complete (PropsElliptic.v)
- C58_complete_infinite (PropsElliptic.v)
- C59_arcsn (PropsElliptic.v)
- C59_arccn (PropsElliptic.v)
- C59_arcdn (PropsElliptic.v)
- C59_arcsn_imaginary (PropsElliptic.v)
- C59_roundtrip (PropsElliptic.v)
- C59_negative_refuted (PropsElliptic.v)
- C59_negative_cn_refuted (PropsElliptic.v)
- C60_accuracy (PropsElliptic.v)
- C60_identities (PropsElliptic.v)
- C60_complex (PropsElliptic.v)
- C60_complex_identities (PropsElliptic.v)
- C60_history (PropsElliptic.v)
- C60_large_modulus_refuted (PropsElliptic.v)
- C61_structure (PropsEllipticDesign.v)
- C61_dc_gain (PropsEllipticDesign.v)
- C61_degree_equation (PropsEllipticDesign.v)
- C61_degree_equation_solvable (PropsEllipticDesign.v)
- C61_degree_equation_limit (PropsEllipticDesign.v)
- C61_prototype (PropsEllipticDesign.v)
- C61_equiripple (PropsEllipticDesign.v)
- C61_lowpass (PropsEllipticDesign.v)
- C61_highpass (PropsEllipticDesign.v)
- C61_bandpass (PropsEllipticDesign.v)
- C61_bandstop (PropsEllipticDesign.v)
- C61_location (PropsEllipticDesign.v)
- C61_prototype_explicit (PropsEllipticDesign.v)
- C62_sum_error (PropsFloat.v)
- C62_transformed_sum_error (PropsFloat.v)
- C62_inner_product_error (PropsFloat.v)
- C62_sum_error_first_order (PropsFloat.v)
- C63_compensated_sum_error (PropsFloat.v)
- C63_compensated_transformed_sum_error (PropsFloat.v)
- C63_compensated_inner_product_error (PropsFloat.v)
- C63_double_precision (PropsFloat.v)
- C64_naive_error (PropsConvFloat.v)
- C64_slide_error (PropsConvFloat.v)
- C64_reduce_error (PropsConvFloat.v)
- C64_reduce_vec_error (PropsConvFloat.v)
- C64_convolution_error (PropsConvFloat.v)
- C64_double_precision (PropsConvFloat.v)
- C65_long_refuted (PropsConvFloat.v)
- C66_mean_error (PropsStatFloat.v)
- C66_sum_square_error (PropsStatFloat.v)
- C66_mean_square_error (PropsStatFloat.v)
- C66_norm_error (PropsStatFloat.v)
- C66_root_mean_square_error (PropsStatFloat.v)
- C66_second_moment_error (PropsStatFloat.v)
- C66_variance_error (PropsStatFloat.v)
- C66_standard_deviation_error (PropsStatFloat.v)
- C66_covariance_about_given_means_error (PropsStatFloat.v)
- C66_covariance_error (PropsStatFloat.v)
- C67_max (PropsExtreme.v)
- C67_min (PropsExtreme.v)
- C67_max_of_nan_refuted (PropsExtreme.v)
- C69_horner_error (PropsPolyFloat.v)
- C71_direct_form_I_residual (PropsIirFloat.v)
- C71_direct_form_II_residual (PropsIirFloat.v)
- C71_cascade_residual (PropsIirFloat.v)
- C71_direct_form_I_error (PropsIirFloat.v)
- C71_nonfinite_output_is_permanent (PropsIirFloat.v)
- C73_settles (PropsStable.v)
- C73_amplitude_and_phase (PropsStable.v)
- C73_butterworth_lowpass (PropsStable.v)
- C73_chebyshev1_lowpass (PropsStable.v)
- C73_chebyshev2_lowpass (PropsStable.v)
- C73_butterworth_highpass (PropsStableBands.v)
- C73_butterworth_bandpass (PropsStableBands.v)
- C73_butterworth_bandstop (PropsStableBands.v)
- C73_chebyshev1_highpass (PropsStableBands.v)
- C73_chebyshev1_bandpass (PropsStableBands.v)
- C73_chebyshev1_bandstop (PropsStableBands.v)
- C73_chebyshev2_highpass (PropsStableBands.v)
- C73_chebyshev2_bandpass (PropsStableBands.v)
- C73_chebyshev2_bandstop (PropsStableBands.v)
- C73_elliptic_lowpass (PropsStableElliptic.v)
- C73_elliptic_highpass (PropsStableElliptic.v)
- C73_elliptic_bandpass (PropsStableElliptic.v)
- C73_elliptic_bandstop (PropsStableElliptic.v)
- C74_direct_form_I (PropsNoise.v)
- C74_direct_form_II (PropsNoise.v)
- C74_cascade (PropsNoise.v)
- C75_direct_form_I (PropsOverflow.v)
- C75_direct_form_II (PropsOverflow.v)
- C75_cascade (PropsOverflow.v)
- C75_direct_form_I_accurate (PropsOverflow.v)
- C75_cascade_accurate (PropsOverflow.v)
- C76_measured_fir (PropsFirSine.v)
- C76_measured_iir (PropsFirSine.v)
- C76_windowed (PropsFirSine.v)
- C77_streaming_error (PropsFirFloat.v)
- C77_partitions_agree (PropsFirFloat.v)
- C77_double_precision (PropsFirFloat.v)
- C77_long_blocks_differ (PropsFirFloat.v)
- C78_decomposition_error (PropsResampleFloat.v)
- C78_interpolation_error (PropsResampleFloat.v)
- C78_resampling_error (PropsResampleFloat.v)
- C79_interpolation (PropsResampleTone.v)
- C79_resampling (PropsResampleTone.v)
- C79_delay_undone (PropsResampleTone.v)
- C79_central (PropsResampleTone.v)
- C83_floats (PropsIntervalOrder.v)
- C83_nan_refuted (PropsIntervalOrder.v)
- C83_float_shift_refuted (PropsIntervalOrder.v)
- C84_normalized_phases (PropsNormalizeFloat.v)
- C85_exact_instance (PropsSpacesFloat.v)
- C85_linspace (PropsSpacesFloat.v)
- C85_from_zero_to_power (PropsSpacesFloat.v)
- C85_end_is_reached_refuted (PropsSpacesFloat.v)
- C86_unit_phase (PropsWaveFloat.v)
- C86_phases (PropsWaveFloat.v)
- C86_waves (PropsWaveFloat.v)
- C86_chirps (PropsWaveFloat.v)
- C86_negative_frequency_refuted (PropsWaveFloat.v)
