# Print Assumptions of every theorem

Generated by tools/assumptions.py from the output of the build.

## Closed under the global context

* PropsAdjoint.v: C116_adjoint, C116_total, C116_reflect_differs, C117_component, C117_named, C117_symmetric_differs
* PropsAlias.v: C135_forward, C135_pad_axis, C135_any_order, C135_no_overlap, C135_constructed, C135_overlap_differs
* PropsArr.v: C134_shape, C134_expand, C134_item, C134_index, C134_get, C134_iter, C134_map, C134_starmap, C134_apply, C134_zip, C134_kernels, C134_stretch, C134_expand_more, C134_to_none, C134_scalar, C134_zero_differs, C134_empty_differs
* PropsAxisErr.v: C127_modes, C127_pad_off_range, C127_pad_int_wraps, C127_pad_int_sloped, C127_pool_int_rejected, C127_pool_int_wraps, C127_pool_int_wraps_same, C127_pool_ndim_padder, C127_pool_ndim
* PropsBayer2.v: C103_columns, C103_rows, C103_transpose, C103_colours, C103_alignment_matters, C104_affine, C104_raw, C104_contrast, C104_negative, C104_range, C104_local
* PropsBayerConv.v: C141_image, C141_parameters, C141_shift, C141_alignment, C141_columns, C141_rows, C141_transpose, C141_even_differs
* PropsBlock.v: C137_blocks, C137_overlap_differs
* PropsBlur.v: C118_contract, C118_mse, C118_reflect_differs
* PropsCfa.v: C55_layout, C55_roundtrip, C55_roundtrip_inv, C55_accepts, C55_accepts_inv, C56_agree, C56_accepts_1c, C56_accepts_4c, C57_accepts, C57_result, C58_positions, C58_classes, C58_partition, C59_downsample, C59_accepts_1c, C59_accepts_4c, C60_keeps, C60_defined, C60_buffer, C60_last_step, C60_mismatch, C60_batch_refuted, C61_constant_partial, C61_affine_partial, C61_small_refuted, C61_small, C69_constant, C69_affine, C62_values, C62_defined, C63_partial, C63_unbatched_refuted, C63_unbatched, C68_odd_partial, C68_odd_refuted, C68_defined, C68_values
* PropsConstruct.v: C130_padder, C130_separable, C130_average, C130_edge, C130_ssim, C130_unsharp, C130_cases
* PropsEdge.v: C43_correlation_partial, C43_too_large, C43_same_as_unfold, C43_empty_axis, C43_empty_axis_refuted, C44_component_partial, C44_component_valid_partial, C44_fast_path, C44_truncated_kernel_refuted, C45_component_partial, C45_balanced_kernel, C45_balanced_kernel_valid, C45_magnitude, C45_filters_exist, C45_periodize_shape_refuted, C45_shape, C46_laplace_partial, C46_interior, C46_magnitude, C46_magnitude_in_place, C46_all_components, C46_needs_two_axes, C46_one_axis_refuted, C48_formula, C48_separable_partial, C48_no_padder_refuted, C74_edge_history, C74_unsharp_history
* PropsEdge2.v: C91_horizontal, C91_vertical, C91_vertical_stripes, C91_horizontal_stripes, C91_transposed, C91_errors
* PropsEdge3.v: C107_component, C107_named, C107_magnitude, C107_constant_padding_differs, C107_exponent_one_differs, C108_ramp, C108_named, C108_central_moment, C108_laplace_moment, C108_laplace
* PropsEdgeWrap.v: C132_wrapped, C132_line, C132_edge_axis, C132_smooth_far, C132_smooth_ndim, C132_gradient_int, C132_gradient_ndim
* PropsExact.v: C142_greys, C142_colours, C142_gradient
* PropsExtra.v: C78_component, C78_component_valid, C78_all_components, C78_sum, C79_constant_response, C81_order, C81_values, C81_empty, C81_rearranged, C82_affine, C84_pair, C84_small, C84_split
* PropsLaws.v: C99_mse, C100_mse_is_no_metric, C101_contrast, C101_K_matters, C102_mse, C102_ssim
* PropsMag.v: C115_brightness, C115_ramp, C115_exponent_one_differs
* PropsMap.v: C138_pad, C138_modes_differ
* PropsMetricErr.v: C125_mse, C125_ssim, C125_accepted, C125_rejected, C125_none, C125_empty
* PropsMetrics.v: C49_none, C49_sum_partial, C49_mean_partial, C49_block, C49_sum_is_count_times_mean_partial, C49_symmetric, C49_zero_iff_equal_partial, C49_no_axes_refuted, C49_sum_exact, C49_mean_exact, C49_zero_exact, C49_shape_error, C49_reduction_error
* PropsMirror.v: C93_mirror, C93_periodize_differs, C94_valid, C94_same, C95_filter, C95_mean, C95_even_differs, C96_closed_form, C96_shift
* PropsMisc.v: C64_poly1d_partial, C64_constant, C64_poly1d_refuted, C64_empty, C66_safe_power, C66_shape_error, C67_block_partial, C67_reachable_partial, C67_last_offset_refuted, C67_full_size_refuted, C67_too_large
* PropsMono.v: C133_pad_order, C133_pad_close, C133_pool_order, C133_pool_close, C133_same_order, C133_same_close, C133_modes_differ, C133_kernel_differs
* PropsMs.v: C110_value, C111_contrast
* PropsMsItems.v: C122_items, C122_permuted
* PropsNdSpec.v: C28_single_item, C29_scalar, C30_list, C30_scalar_items, C30_broadcast, C30_scalar_as_list, C30_index_shape, C31_mismatch, C31_items, C31_list_partial, C31_list_exact_partial, C31_items_exist, C31_deep_partial, C31_deep_items_exist, C31_zip_starmap, C31_ragged_refuted, C31_ragged, C31_agg_len, C32_item, C32_list, C32_list_access, C32_identity, C32_compose, C32_apply_single, C32_starmap_item, C32_starmap_list, C32_starmap_scalar, C32_deep_partial, C32_depth_refuted, C33_shape, C33_ndim, C34_leaves, C34_level_partial, C34_step_partial, C34_exact, C34_nested_refuted, C35_result_partial, C35_raises_partial, C35_leading_axes, C35_empty_refuted, C35_zero_refuted, C35_to_none, C73_pair_scalar, C73_pair_item, C73_pair_list, C73_pair_singletons, C73_pair_bad, C73_kernel_item, C73_kernel_list, C73_scalar_item, C73_scalar_list, C73_get, C73_agg, C73_shape, C73_map, C73_apply, C73_copy
* PropsPad.v: C01_circular, C02_symmetric, C03_antisymmetric, C04_reflect, C05_odd_reflect, C06_odd_symmetric, C07_replicate, C08_smooth, C09_linear_ramp, C10_statistics, C10_statistics_between, C11_constant, C11_constant_axis, C12_periodize_partial, C12_periodize_zero_width_refuted, C13_shape_and_block, C13_constructor, C14_one_axis_at_a_time, C15_no_uninitialised_memory_partial, C16_zeros_refuted, C16_zeros_then_other_refuted, C17_terminates_partial, C17_empty_axis_refuted, C18_pad_axis_partial, C18_pad_axis_periodize_refuted, C18_periodize_odd, C18_periodize_odd_error, C18_periodize_odd_two, C18_periodize_one_error, C19_same_padding, C19_same_padding_default_stride, C19_same_padding_unknown_size, C20_cover_partial, C20_cover_refuted, C20_cover_iff, C21_numpy_torch_numpy, C21_torch_numpy, C21_torch_numpy_torch, C21_odd, C23_none, C23_slice, C23_slice_members, C23_reversed, C23_int_partial, C23_seq_partial, C23_seq_rejects, C23_seq_exact, C23_out_of_range_refuted, C24_check_stride, C24_check_pad_width
* PropsPadAlg.v: C70_linear, C71_constant, C72_range
* PropsPeriodize.v: C129_pad, C129_closed_form, C129_filter, C129_component, C129_magnitude, C129_shapes, C129_laplace
* PropsPeriodize2.v: C131_circular, C131_crop, C131_unsharp
* PropsPerm.v: C97_padding, C97_valid, C97_same
* PropsPermute.v: C121_component, C121_magnitude, C121_mse, C121_ssim, C121_all
* PropsPick.v: C119_pad, C119_pool_valid, C119_pool_same, C119_component, C119_magnitude, C119_mse, C119_ssim
* PropsPool.v: C36_valid, C37_valid, C36_too_large, C36_same, C37_same_partial, C37_filter_keeps_shape_partial, C37_periodize_refuted, C37_same_exact, C37_filter_iff, C38_linear_valid, C38_linear_same, C38_constant_valid, C38_constant_same, C38_range_valid, C38_range_same, C39_average, C40_count_exclude_pad_partial, C40_iff, C40_outcome, C40_needs, C40_unsorted_error_refuted, C40_unsorted_shape_refuted, C25_counts, C25_no_window, C26_conv_1d, C27_counts_nd, C65_outer, C22_history_independent, C22_shared_padder
* PropsPool2.v: C112_twice, C112_average, C113_total, C113_mean, C113_rest_differs, C114_valid, C114_circular, C114_replicate_differs
* PropsRepeat.v: C126_padding, C126_padding_differs, C126_pooling, C126_single, C126_merged, C126_filter
* PropsRound.v: C139_valid, C139_same, C139_mean_valid, C139_mean_same, C139_linear, C139_exact
* PropsRoundBayer.v: C143_bayer, C143_demosaic, C143_gradient, C143_attained, C143_attained_demosaic, C143_attained_addition, C143_unrounded
* PropsRoundDet.v: C154_self, C154_symmetric, C154_possible, C154_mean, C154_score
* PropsRoundEdge.v: C146_component, C146_sobel, C146_laplace, C146_exact
* PropsRoundMag.v: C147_sum, C147_laplace, C147_exact
* PropsRoundMse.v: C140_mse, C140_zero, C140_exact
* PropsRoundPoly.v: C149_bound, C149_relative, C149_sharp, C149_exact
* PropsRoundRel.v: C150_valid, C150_same, C150_valid_nonneg, C150_same_nonneg, C150_avg, C150_avg_original, C150_last, C150_outcome_pool, C150_outcome_avg, C150_negative_differs
* PropsRoundSharpen.v: C148_bound, C148_mean, C148_exact
* PropsRoundSsim.v: C153_rounding, C153_pixel, C153_exact, C153_last, C153_products, C153_shapes, C153_cancellation_differs
* PropsShape.v: C92_counts, C92_value, C92_item, C92_lengths, C92_stride0, C92_pool
* PropsSharpen.v: C109_affine, C109_linear, C109_mirror, C109_range, C109_blur, C109_same_threshold_differs
* PropsShift.v: C128_mse, C128_shift_is_reordering, C128_mirror_is_reordering, C128_component, C128_magnitude, C128_replicate_differs, C128_ssim
* PropsSsim.v: C51_value, C51_constructor, C51_symmetric, C51_identical_partial, C51_identical_refuted, C51_bounded, C51_padder_hypothesis_needed, C52_crop_partial, C52_mode_partial, C52_periodize_refuted, C53_sufficient_partial, C53_exact_partial, C53_first, C53_empty_kernel_refuted, C54_identical_partial, C54_any_blur_partial, C54_single_weight_refuted, C54_single_weight_never, C54_no_weights_never, C76_symmetric, C77_bounded
* PropsTiles.v: C124_pool, C124_middle, C124_filter, C124_component, C124_ssim, C124_bayer, C124_demosaic
* PropsToSame.v: C106_sets, C106_iff, C106_history, C106_fails, C106_failure_without_effect_refuted
* PropsTower.v: C120_mse, C120_mse_sum, C120_ssim
* PropsTwice.v: C105_one_axis, C105_several_axes, C105_condition_needed, C105_constants_differ
* PropsUser.v: C98_block, C98_no_uninitialised_memory, C98_extension
* PropsUtil.v: C123_make_idx, C123_make_idx_get, C123_make_idx_out, C123_same_tuples, C123_modify_idx, C123_modify_idx_out, C123_check_padding, C123_check_padding_no, C123_check_padding_numpy, C123_hdrvdp3, C123_unshuffle_net

## Axioms: ClassicalDedekindReals.sig_forall_dec, ClassicalDedekindReals.sig_not_dec, FunctionalExtensionality.functional_extensionality_dep

* PropsExtra.v: C80_gauss_noise, C80_poisson_noise, C80_errors, C80_gauss_moments, C80_poisson_moments
* PropsGauss.v: C41_errors, C42_derivative, C42_parity, C47_sizes_safe, C47_size3
* PropsLaws.v: C100_triangle
* PropsLoss.v: C85_history
* PropsMag.v: C115_triangle, C115_lipschitz, C115_scale, C115_bounds, C115_plane
* PropsMirror.v: C95_gauss
* PropsRoundMag.v: C147_norm, C147_sobel, C147_radicand

## Axioms: ClassicalDedekindReals.sig_forall_dec, ClassicalDedekindReals.sig_not_dec, Classical_Prop.classic, FunctionalExtensionality.functional_extensionality_dep

* PropsBlur.v: C118_gauss
* PropsConstruct.v: C130_kernel, C130_gaussian, C130_gaussian_grad, C130_log
* PropsExtra.v: C83_meaning, C83_distance, C83_diagonal, C83_scale, C83_errors
* PropsGauss.v: C41_gaussian_kernel, C47_log_partial, C47_component_partial, C47_builds, C47_order1_safe, C47_log_refuted, C75_kernels, C75_constant_valid, C75_range_valid, C75_constant_same, C75_range_same
* PropsLaws.v: C99_psnr
* PropsLoss.v: C85_edge_maps, C85_l1, C85_mul, C85_div, C85_sum, C86_metric, C86_triangle, C86_zero, C87_translate, C87_scale, C88_bright_partial, C88_bright_refuted, C88_even_size_refuted, C88_constants, C89_metric_partial, C89_triangle, C89_scale, C89_negated, C89_zero_refuted, C90_mul_self_partial, C90_mul_constants, C90_mul_nonneg_refuted, C90_div_zero_refuted, C90_div_constant_refuted
* PropsLossFlip.v: C145_maps, C145_l1, C145_sum, C145_mul, C145_div, C145_turned_mul, C145_turned_div, C145_symmetric_mul, C145_permuted_maps, C145_permuted_l1, C145_permuted_sum, C145_permuted_mul, C145_permuted_div
* PropsMetricErr.v: C125_psnr, C125_psnr_rejected
* PropsMetrics.v: C50_formula, C50_of_mse, C50_decreasing, C50_symmetric, C50_infinite
* PropsPeriodize2.v: C131_gaussian_grad, C131_laplacian_of_gaussian
* PropsPower.v: C136_sign, C136_odd, C136_increasing, C136_near_zero_differs, C136_product, C136_compose, C136_inverse, C136_slope
* PropsRoundPsnr.v: C144_rounding, C144_exact, C144_attained, C144_range, C144_blur, C144_blocks
* PropsShift.v: C128_psnr
* PropsSsim.v: C54_real_partial, C77_real
* PropsTower.v: C120_psnr
