{
 "claims": [
  {
   "property": "C01",
   "status": "proved",
   "theorems": [
    "C01_circular"
   ],
   "note": ""
  },
  {
   "property": "C02",
   "status": "proved",
   "theorems": [
    "C02_symmetric"
   ],
   "note": ""
  },
  {
   "property": "C03",
   "status": "proved",
   "theorems": [
    "C03_antisymmetric"
   ],
   "note": ""
  },
  {
   "property": "C04",
   "status": "proved",
   "theorems": [
    "C04_reflect"
   ],
   "note": ""
  },
  {
   "property": "C05",
   "status": "proved",
   "theorems": [
    "C05_odd_reflect"
   ],
   "note": ""
  },
  {
   "property": "C06",
   "status": "proved",
   "theorems": [
    "C06_odd_symmetric"
   ],
   "note": ""
  },
  {
   "property": "C07",
   "status": "proved",
   "theorems": [
    "C07_replicate"
   ],
   "note": ""
  },
  {
   "property": "C08",
   "status": "proved",
   "theorems": [
    "C08_smooth"
   ],
   "note": ""
  },
  {
   "property": "C09",
   "status": "proved",
   "theorems": [
    "C09_linear_ramp"
   ],
   "note": ""
  },
  {
   "property": "C10",
   "status": "proved",
   "theorems": [
    "C10_statistics",
    "C10_statistics_between"
   ],
   "note": ""
  },
  {
   "property": "C11",
   "status": "proved",
   "theorems": [
    "C11_constant",
    "C11_constant_axis"
   ],
   "note": ""
  },
  {
   "property": "C12",
   "status": "partial",
   "theorems": [
    "C12_periodize_partial",
    "C12_periodize_zero_width_refuted"
   ],
   "note": "REFUTED for width (0,0): forward skips the axis (generic_pad.py:262-263), so an odd length stays odd. Proved for every other width."
  },
  {
   "property": "C13",
   "status": "proved",
   "theorems": [
    "C13_shape_and_block",
    "C13_constructor"
   ],
   "note": "Covers every built-in mode except zeros (see C16); user-supplied callables: C98."
  },
  {
   "property": "C14",
   "status": "proved",
   "theorems": [
    "C14_one_axis_at_a_time"
   ],
   "note": ""
  },
  {
   "property": "C15",
   "status": "partial",
   "theorems": [
    "C15_no_uninitialised_memory_partial"
   ],
   "note": "REFUTED for mode zeros (C16). Proved for all other built-in modes; user-supplied callables: C98."
  },
  {
   "property": "C16",
   "status": "partial",
   "theorems": [
    "C16_zeros_refuted",
    "C16_zeros_then_other_refuted"
   ],
   "note": "REFUTED: _fill_value_1d returns the function zeros_1d instead of calling it (generic_pad.py:164), so the padding is uninitialised memory, and a following axis with another mode raises TypeError."
  },
  {
   "property": "C17",
   "status": "partial",
   "theorems": [
    "C17_terminates_partial",
    "C17_empty_axis_refuted"
   ],
   "note": "REFUTED for empty axes: circular, symmetric, antisymmetric and odd_symmetric loop forever on an axis of length 0. Proved for nonempty axes."
  },
  {
   "property": "C18",
   "status": "partial",
   "theorems": [
    "C18_pad_axis_partial",
    "C18_pad_axis_periodize_refuted",
    "C18_periodize_odd",
    "C18_periodize_odd_error",
    "C18_periodize_odd_two",
    "C18_periodize_one_error"
   ],
   "note": "REFUTED for periodize with odd length: pad_axis does not reserve the extra slot; it then returns forward's result without the last sample, also when pad_after = 0 and pad_before = 2 (any even number if n = 1), and raises otherwise when pad_after = 0 (proved exactly). Proved for all other extension modes."
  },
  {
   "property": "C19",
   "status": "proved",
   "theorems": [
    "C19_same_padding",
    "C19_same_padding_default_stride",
    "C19_same_padding_unknown_size"
   ],
   "note": ""
  },
  {
   "property": "C20",
   "status": "partial",
   "theorems": [
    "C20_cover_partial",
    "C20_cover_refuted",
    "C20_cover_iff"
   ],
   "note": "REFUTED for kernel_size < stride <= n (some element is in no window). Proved for kernel_size >= stride, with the exact condition: kernel_size >= stride or kernel_size >= n."
  },
  {
   "property": "C21",
   "status": "proved",
   "theorems": [
    "C21_numpy_torch_numpy",
    "C21_torch_numpy",
    "C21_torch_numpy_torch",
    "C21_odd"
   ],
   "note": ""
  },
  {
   "property": "C22",
   "status": "proved",
   "theorems": [
    "C22_history_independent",
    "C22_shared_padder"
   ],
   "note": "Histories are any sequences of forward, averaging forward and pad calls, also with one Padder object shared by several modules."
  },
  {
   "property": "C23",
   "status": "partial",
   "theorems": [
    "C23_none",
    "C23_slice",
    "C23_slice_members",
    "C23_reversed",
    "C23_int_partial",
    "C23_seq_partial",
    "C23_seq_rejects",
    "C23_seq_exact",
    "C23_out_of_range_refuted"
   ],
   "note": "REFUTED: axis ndim in a sequence and any out-of-range int pass check_axes (utils/validation.py). Proved for None, slices of any step, and in-range ints and sequences; a sequence is accepted exactly when every entry lies in [-ndim, ndim]. C23_slice_members says exactly which axes a slice selects."
  },
  {
   "property": "C24",
   "status": "proved",
   "theorems": [
    "C24_check_stride",
    "C24_check_pad_width"
   ],
   "note": ""
  },
  {
   "property": "C25",
   "status": "proved",
   "theorems": [
    "C25_counts",
    "C25_no_window"
   ],
   "note": "kernel_size >= 1, stride >= 1 and nonnegative sizes; with no window the list is empty."
  },
  {
   "property": "C26",
   "status": "proved",
   "theorems": [
    "C26_conv_1d"
   ],
   "note": ""
  },
  {
   "property": "C27",
   "status": "proved",
   "theorems": [
    "C27_counts_nd"
   ],
   "note": ""
  },
  {
   "property": "C28",
   "status": "proved",
   "theorems": [
    "C28_single_item"
   ],
   "note": "complete is t: the inferred shape of t equals the item shape up to -1 entries."
  },
  {
   "property": "C29",
   "status": "proved",
   "theorems": [
    "C29_scalar"
   ],
   "note": "Entries below -1 behave as 0."
  },
  {
   "property": "C30",
   "status": "proved",
   "theorems": [
    "C30_list",
    "C30_scalar_items",
    "C30_broadcast",
    "C30_scalar_as_list",
    "C30_index_shape"
   ],
   "note": "Item shape () with any list; otherwise non-empty lists of complete items, or of items of the right depth without empty lists that are broadcast one by one."
  },
  {
   "property": "C31",
   "status": "partial",
   "theorems": [
    "C31_mismatch",
    "C31_items",
    "C31_list_partial",
    "C31_list_exact_partial",
    "C31_items_exist",
    "C31_deep_partial",
    "C31_deep_items_exist",
    "C31_zip_starmap",
    "C31_ragged_refuted",
    "C31_ragged",
    "C31_agg_len"
   ],
   "note": "REFUTED for index shapes of two axes with a ragged axis: apply raises ValueError although the shapes agree (np.empty of a negative size). Proved for items and one-level lists with any function, for any index depth with positive lengths when all results have one depth; mismatch raises ValueError; zip followed by starmap equals apply."
  },
  {
   "property": "C32",
   "status": "partial",
   "theorems": [
    "C32_item",
    "C32_list",
    "C32_list_access",
    "C32_identity",
    "C32_compose",
    "C32_apply_single",
    "C32_starmap_item",
    "C32_starmap_list",
    "C32_starmap_scalar",
    "C32_deep_partial",
    "C32_depth_refuted"
   ],
   "note": "REFUTED for two index axes when results have different depths (IndexError). Proved for items and one-level lists with any function, and for any index depth when all results have one depth."
  },
  {
   "property": "C33",
   "status": "proved",
   "theorems": [
    "C33_shape",
    "C33_ndim"
   ],
   "note": "Also: the shape is the only one of its length that fits the data, and its length is determined by the items' depths. Trees of lists, tuples and scalars; tensors and numpy arrays as data are not modelled."
  },
  {
   "property": "C34",
   "status": "partial",
   "theorems": [
    "C34_leaves",
    "C34_level_partial",
    "C34_step_partial",
    "C34_exact",
    "C34_nested_refuted"
   ],
   "note": "REFUTED: [[1,[2]]] is returned unlevelled (levelled items are dropped when this level's depths agree). Proved: leaves and depth for all data; levelling for lists of evenly nested items, for one step when depths differ, and C34_exact: exactly which data come back levelled."
  },
  {
   "property": "C35",
   "status": "partial",
   "theorems": [
    "C35_result_partial",
    "C35_raises_partial",
    "C35_leading_axes",
    "C35_empty_refuted",
    "C35_zero_refuted",
    "C35_to_none"
   ],
   "note": "REFUTED for lists mixing empty and non-empty items (target entry silently not met) and for target 0 (any length accepted). Proved, with an exact success criterion, for data without empty lists and targets -1 or positive."
  },
  {
   "property": "C36",
   "status": "proved",
   "theorems": [
    "C36_valid",
    "C36_too_large",
    "C36_same"
   ],
   "note": "Modes that fill the padding (all but zeros, empty, callables); a kernel longer than an unpadded axis raises RuntimeError."
  },
  {
   "property": "C37",
   "status": "partial",
   "theorems": [
    "C37_valid",
    "C37_same_partial",
    "C37_filter_keeps_shape_partial",
    "C37_periodize_refuted",
    "C37_same_exact",
    "C37_filter_iff"
   ],
   "note": "REFUTED for mode periodize on odd lengths (the padder adds a sample: length 3, kernel 3, stride 1 gives 4). C37_same_exact gives the lengths for every mode: periodize adds one exactly on axes of odd length with stride 1 and a kernel longer than 1; C37_filter_iff is the exact condition for to_filter to keep the shape."
  },
  {
   "property": "C38",
   "status": "proved",
   "theorems": [
    "C38_linear_valid",
    "C38_linear_same",
    "C38_constant_valid",
    "C38_constant_same",
    "C38_range_valid",
    "C38_range_same"
   ],
   "note": "Also proved: values stay in the input's range for nonnegative normalised kernels."
  },
  {
   "property": "C39",
   "status": "proved",
   "theorems": [
    "C39_average"
   ],
   "note": ""
  },
  {
   "property": "C40",
   "status": "partial",
   "theorems": [
    "C40_count_exclude_pad_partial",
    "C40_iff",
    "C40_outcome",
    "C40_needs",
    "C40_unsorted_error_refuted",
    "C40_unsorted_shape_refuted"
   ],
   "note": "REFUTED for axes in descending order with different output lengths (uniform.py:46-48 indexes z.shape by the wrong position). Proved whenever the output lengths in the order given equal those in ascending order of the axes; C40_iff: the output lengths are right exactly then; C40_outcome: otherwise a RuntimeError or a broadcast to the larger lengths."
  },
  {
   "property": "C41",
   "status": "proved",
   "theorems": [
    "C41_gaussian_kernel",
    "C41_errors"
   ],
   "note": "Proved over the real numbers (floating-point rounding not modelled); also the explicit formula, the even sizes, and the errors."
  },
  {
   "property": "C42",
   "status": "proved",
   "theorems": [
    "C42_derivative",
    "C42_parity"
   ],
   "note": "Proved over the reals for all orders, odd and even sizes (for even sizes the kernel is cut without rescaling)."
  },
  {
   "property": "C43",
   "status": "partial",
   "theorems": [
    "C43_correlation_partial",
    "C43_too_large",
    "C43_same_as_unfold",
    "C43_empty_axis",
    "C43_empty_axis_refuted"
   ],
   "note": "REFUTED when an axis other than dim is empty: the final reshape with -1 raises RuntimeError. Proved for all images without an empty axis, with the error cases."
  },
  {
   "property": "C44",
   "status": "partial",
   "theorems": [
    "C44_component_partial",
    "C44_component_valid_partial",
    "C44_fast_path",
    "C44_truncated_kernel_refuted"
   ],
   "note": "REFUTED: _conv_edge selects the fast path by int() of the kernel entries (edges.py:58-71), so (-1.5, 0.2, 1.9) is applied as (-1, 0, 1). Proved for every kernel whose integer parts are not a special kernel or that is one itself; periodize (which changes odd lengths) is excluded; C44_fast_path says exactly what the fast path computes."
  },
  {
   "property": "C45",
   "status": "partial",
   "theorems": [
    "C45_component_partial",
    "C45_balanced_kernel",
    "C45_balanced_kernel_valid",
    "C45_magnitude",
    "C45_filters_exist",
    "C45_periodize_shape_refuted",
    "C45_shape"
   ],
   "note": "REFUTED for shapes with mode periodize on odd lengths (see C37). The zero response is proved for every mode that keeps constants; C45_shape gives the shape of a component for every image and mode."
  },
  {
   "property": "C46",
   "status": "partial",
   "theorems": [
    "C46_laplace_partial",
    "C46_interior",
    "C46_magnitude",
    "C46_magnitude_in_place",
    "C46_all_components",
    "C46_needs_two_axes",
    "C46_one_axis_refuted"
   ],
   "note": "REFUTED for a single axis: magnitude raises ValueError. Proved for two or more axes and every padder mode but periodize."
  },
  {
   "property": "C47",
   "status": "partial",
   "theorems": [
    "C47_log_partial",
    "C47_component_partial",
    "C47_builds",
    "C47_order1_safe",
    "C47_sizes_safe",
    "C47_size3",
    "C47_log_refuted"
   ],
   "note": "REFUTED: for size 3 and sigma 0.55 the second-derivative kernel truncates to (1,-2,1) and the fast path (edges.py:58-71) is used instead. Proved for every size other than 3, and for size 3 whenever the truncated kernel is not (1,-2,1), with the exact condition (periodize: see C131)."
  },
  {
   "property": "C48",
   "status": "partial",
   "theorems": [
    "C48_formula",
    "C48_separable_partial",
    "C48_no_padder_refuted"
   ],
   "note": "REFUTED without any padder (the constructor accepts it): x - blur(x) has mismatched shapes, or broadcasts silently when the blurred axes have length 1. Proved for every blur that keeps the shape; separable blurs with a padder do (periodize: exact behaviour in C131)."
  },
  {
   "property": "C49",
   "status": "partial",
   "theorems": [
    "C49_none",
    "C49_sum_partial",
    "C49_mean_partial",
    "C49_block",
    "C49_sum_is_count_times_mean_partial",
    "C49_symmetric",
    "C49_zero_iff_equal_partial",
    "C49_no_axes_refuted",
    "C49_sum_exact",
    "C49_mean_exact",
    "C49_zero_exact",
    "C49_shape_error",
    "C49_reduction_error"
   ],
   "note": "REFUTED for an empty tuple of axes (torch's dim=() reduces every axis). Proved for at least one axis; axes of positive length for the mean. C49_sum_exact, C49_mean_exact, C49_zero_exact cover every axes argument with the axes that are really reduced."
  },
  {
   "property": "C50",
   "status": "proved",
   "theorems": [
    "C50_formula",
    "C50_of_mse",
    "C50_decreasing",
    "C50_symmetric",
    "C50_infinite"
   ],
   "note": ""
  },
  {
   "property": "C51",
   "status": "partial",
   "theorems": [
    "C51_value",
    "C51_constructor",
    "C51_symmetric",
    "C51_identical_partial",
    "C51_identical_refuted",
    "C51_bounded",
    "C51_padder_hypothesis_needed"
   ],
   "note": "REFUTED for zero divisors: with K2 = 0 (or a padder that does not commute with products) a divisor can be 0 and SSIM(x,x) is nan. Symmetry is proved for all calls, SSIM(x,x)=1 for all calls with a result, existence and |SSIM|<=1 for K1, K2 nonzero, nonnegative normalised windows and padders that commute with products (or average); a padder with constants 7, 8 gives a score above 1."
  },
  {
   "property": "C52",
   "status": "partial",
   "theorems": [
    "C52_crop_partial",
    "C52_mode_partial",
    "C52_periodize_refuted"
   ],
   "note": "REFUTED for periodize on an axis of odd length: the padder appends one more pixel and the crop leaves it in. Proved for all other modes and for even lengths, for padded calls without zero divisor. The periodize case is determined exactly in C131: the cropped result is the unpadded one of the evened images."
  },
  {
   "property": "C53",
   "status": "partial",
   "theorems": [
    "C53_sufficient_partial",
    "C53_exact_partial",
    "C53_first",
    "C53_empty_kernel_refuted"
   ],
   "note": "REFUTED for empty kernels (kernel size 0): the check passes for a 1-pixel axis, which cannot be halved. Proved for kernels of size >= 1; afterwards only zero divisors (excluded for K1, K2 nonzero and windows) or a single weight (C54) can fail. The check is stricter than needed: size kernel*2^(L-1) is rejected."
  },
  {
   "property": "C54",
   "status": "partial",
   "theorems": [
    "C54_identical_partial",
    "C54_any_blur_partial",
    "C54_real_partial",
    "C54_single_weight_refuted",
    "C54_single_weight_never",
    "C54_no_weights_never"
   ],
   "note": "REFUTED for a single weight: final_score is still None when multiplied, so every such call raises TypeError. Proved for two or more weights."
  },
  {
   "property": "C55",
   "status": "proved",
   "theorems": [
    "C55_layout",
    "C55_roundtrip",
    "C55_roundtrip_inv",
    "C55_accepts",
    "C55_accepts_inv"
   ],
   "note": ""
  },
  {
   "property": "C56",
   "status": "proved",
   "theorems": [
    "C56_agree",
    "C56_accepts_1c",
    "C56_accepts_4c"
   ],
   "note": ""
  },
  {
   "property": "C57",
   "status": "proved",
   "theorems": [
    "C57_accepts",
    "C57_result"
   ],
   "note": ""
  },
  {
   "property": "C58",
   "status": "proved",
   "theorems": [
    "C58_positions",
    "C58_classes",
    "C58_partition"
   ],
   "note": ""
  },
  {
   "property": "C59",
   "status": "proved",
   "theorems": [
    "C59_downsample",
    "C59_accepts_1c",
    "C59_accepts_4c"
   ],
   "note": ""
  },
  {
   "property": "C60",
   "status": "partial",
   "theorems": [
    "C60_keeps",
    "C60_defined",
    "C60_buffer",
    "C60_last_step",
    "C60_mismatch",
    "C60_batch_refuted"
   ],
   "note": "REFUTED for two or more batch axes: torch's reflection padding takes 3-D or 4-D input only. Whenever a result is returned the claim holds; C60_defined says exactly when that is. Proved for every interpolation network, not only the gradient-corrected one."
  },
  {
   "property": "C61",
   "status": "partial",
   "theorems": [
    "C61_constant_partial",
    "C61_affine_partial",
    "C61_small_refuted",
    "C61_small"
   ],
   "note": "REFUTED for height or width 2: the 5x5 filter cannot reflect 2 pixels and always raises (C61_small). Proved for height and width >= 4 and at most one batch axis."
  },
  {
   "property": "C62",
   "status": "proved",
   "theorems": [
    "C62_values",
    "C62_defined"
   ],
   "note": "Proved for odd and even kernel sizes; C62_defined gives the exact domain."
  },
  {
   "property": "C63",
   "status": "partial",
   "theorems": [
    "C63_partial",
    "C63_unbatched_refuted",
    "C63_unbatched"
   ],
   "note": "REFUTED for an image without batch axis: forward_unshuffle takes the channel count as batch size and returns that many copies of the right result, with 4 axes (C63_unbatched). Proved for 4-D input."
  },
  {
   "property": "C64",
   "status": "partial",
   "theorems": [
    "C64_poly1d_partial",
    "C64_constant",
    "C64_poly1d_refuted",
    "C64_empty"
   ],
   "note": "REFUTED for a single coefficient (TypeError: y stays None, polynomial.py). Proved for two or more coefficients."
  },
  {
   "property": "C65",
   "status": "proved",
   "theorems": [
    "C65_outer"
   ],
   "note": ""
  },
  {
   "property": "C66",
   "status": "proved",
   "theorems": [
    "C66_safe_power",
    "C66_shape_error"
   ],
   "note": ""
  },
  {
   "property": "C67",
   "status": "partial",
   "theorems": [
    "C67_block_partial",
    "C67_reachable_partial",
    "C67_last_offset_refuted",
    "C67_full_size_refuted",
    "C67_too_large"
   ],
   "note": "REFUTED: randint's bound is exclusive (random.py), so the full size raises and the last offset n - l is never drawn. Proved for sizes below the axis length and offsets below n - l."
  },
  {
   "property": "C68",
   "status": "partial",
   "theorems": [
    "C68_odd_partial",
    "C68_odd_refuted",
    "C68_defined",
    "C68_values"
   ],
   "note": "REFUTED for 3x3 images: the single value of a position class is broadcast over its pixels. For odd kernels the accepted sizes are characterised exactly (every odd side but 3 raises) with the value returned on each of them."
  },
  {
   "property": "C69",
   "status": "proved",
   "theorems": [
    "C69_constant",
    "C69_affine"
   ],
   "note": ""
  },
  {
   "property": "C70",
   "status": "proved",
   "theorems": [
    "C70_linear"
   ],
   "note": ""
  },
  {
   "property": "C71",
   "status": "proved",
   "theorems": [
    "C71_constant"
   ],
   "note": ""
  },
  {
   "property": "C72",
   "status": "proved",
   "theorems": [
    "C72_range"
   ],
   "note": ""
  },
  {
   "property": "C73",
   "status": "proved",
   "theorems": [
    "C73_pair_scalar",
    "C73_pair_item",
    "C73_pair_list",
    "C73_pair_singletons",
    "C73_pair_bad",
    "C73_kernel_item",
    "C73_kernel_list",
    "C73_scalar_item",
    "C73_scalar_list",
    "C73_get",
    "C73_agg",
    "C73_shape",
    "C73_map",
    "C73_apply",
    "C73_copy"
   ],
   "note": ""
  },
  {
   "property": "C74",
   "status": "proved",
   "theorems": [
    "C74_edge_history",
    "C74_unsharp_history"
   ],
   "note": ""
  },
  {
   "property": "C75",
   "status": "proved",
   "theorems": [
    "C75_kernels",
    "C75_constant_valid",
    "C75_range_valid",
    "C75_constant_same",
    "C75_range_same"
   ],
   "note": ""
  },
  {
   "property": "C76",
   "status": "proved",
   "theorems": [
    "C76_symmetric"
   ],
   "note": ""
  },
  {
   "property": "C77",
   "status": "proved",
   "theorems": [
    "C77_bounded",
    "C77_real"
   ],
   "note": ""
  },
  {
   "property": "C78",
   "status": "proved",
   "theorems": [
    "C78_component",
    "C78_component_valid",
    "C78_all_components",
    "C78_sum"
   ],
   "note": ""
  },
  {
   "property": "C79",
   "status": "proved",
   "theorems": [
    "C79_constant_response"
   ],
   "note": ""
  },
  {
   "property": "C80",
   "status": "proved",
   "theorems": [
    "C80_gauss_noise",
    "C80_poisson_noise",
    "C80_errors",
    "C80_gauss_moments",
    "C80_poisson_moments"
   ],
   "note": ""
  },
  {
   "property": "C81",
   "status": "proved",
   "theorems": [
    "C81_order",
    "C81_values",
    "C81_empty",
    "C81_rearranged"
   ],
   "note": ""
  },
  {
   "property": "C82",
   "status": "proved",
   "theorems": [
    "C82_affine"
   ],
   "note": ""
  },
  {
   "property": "C83",
   "status": "proved",
   "theorems": [
    "C83_meaning",
    "C83_distance",
    "C83_diagonal",
    "C83_scale",
    "C83_errors"
   ],
   "note": ""
  },
  {
   "property": "C84",
   "status": "proved",
   "theorems": [
    "C84_pair",
    "C84_small",
    "C84_split"
   ],
   "note": ""
  },
  {
   "property": "C85",
   "status": "proved",
   "theorems": [
    "C85_edge_maps",
    "C85_l1",
    "C85_mul",
    "C85_div",
    "C85_sum",
    "C85_history"
   ],
   "note": ""
  },
  {
   "property": "C86",
   "status": "proved",
   "theorems": [
    "C86_metric",
    "C86_triangle",
    "C86_zero"
   ],
   "note": ""
  },
  {
   "property": "C87",
   "status": "proved",
   "theorems": [
    "C87_translate",
    "C87_scale"
   ],
   "note": ""
  },
  {
   "property": "C88",
   "status": "partial",
   "theorems": [
    "C88_bright_partial",
    "C88_bright_refuted",
    "C88_even_size_refuted",
    "C88_constants"
   ],
   "note": "REFUTED for even orders (the second-derivative kernel does not sum to 0) and for even kernel sizes. Proved for odd size and odd order; for all sizes and orders the distance of two constant images is given exactly."
  },
  {
   "property": "C89",
   "status": "partial",
   "theorems": [
    "C89_metric_partial",
    "C89_triangle",
    "C89_scale",
    "C89_negated",
    "C89_zero_refuted"
   ],
   "note": "REFUTED: WeightedSum averages |edges| per channel, so an image and its negative have distance 0. The pseudometric laws, scaling and the invariance under negation are proved."
  },
  {
   "property": "C90",
   "status": "partial",
   "theorems": [
    "C90_mul_self_partial",
    "C90_mul_constants",
    "C90_mul_nonneg_refuted",
    "C90_div_zero_refuted",
    "C90_div_constant_refuted"
   ],
   "note": "REFUTED: WeightedMul multiplies by the signed true edge and can be negative; WeightedDiv divides by true edges, which are 0 e.g. for every constant true image (odd size and order). Proved: WeightedMul is 0 on equal images; exact values for constant images."
  },
  {
   "property": "C91",
   "status": "proved",
   "theorems": [
    "C91_horizontal",
    "C91_vertical",
    "C91_vertical_stripes",
    "C91_horizontal_stripes",
    "C91_transposed",
    "C91_errors"
   ],
   "note": ""
  },
  {
   "property": "C92",
   "status": "proved",
   "theorems": [
    "C92_counts",
    "C92_value",
    "C92_item",
    "C92_lengths",
    "C92_stride0",
    "C92_pool"
   ],
   "note": ""
  },
  {
   "property": "C93",
   "status": "proved",
   "theorems": [
    "C93_mirror",
    "C93_periodize_differs"
   ],
   "note": ""
  },
  {
   "property": "C94",
   "status": "proved",
   "theorems": [
    "C94_valid",
    "C94_same"
   ],
   "note": ""
  },
  {
   "property": "C95",
   "status": "proved",
   "theorems": [
    "C95_filter",
    "C95_mean",
    "C95_gauss",
    "C95_even_differs"
   ],
   "note": ""
  },
  {
   "property": "C96",
   "status": "proved",
   "theorems": [
    "C96_closed_form",
    "C96_shift"
   ],
   "note": ""
  },
  {
   "property": "C97",
   "status": "proved",
   "theorems": [
    "C97_padding",
    "C97_valid",
    "C97_same"
   ],
   "note": ""
  },
  {
   "property": "C98",
   "status": "proved",
   "theorems": [
    "C98_block",
    "C98_no_uninitialised_memory",
    "C98_extension"
   ],
   "note": ""
  },
  {
   "property": "C99",
   "status": "proved",
   "theorems": [
    "C99_mse",
    "C99_psnr"
   ],
   "note": "PSNR over the reals; errors agree too."
  },
  {
   "property": "C100",
   "status": "proved",
   "theorems": [
    "C100_triangle",
    "C100_mse_is_no_metric"
   ],
   "note": "Over the reals; axes of positive length for the mean."
  },
  {
   "property": "C101",
   "status": "proved",
   "theorems": [
    "C101_contrast",
    "C101_K_matters"
   ],
   "note": "Padders: none, or every axis in a linear mode (PadLinear.v linear_mode). C101_K_matters shows that K1, K2 must be scaled."
  },
  {
   "property": "C102",
   "status": "proved",
   "theorems": [
    "C102_mse",
    "C102_ssim"
   ],
   "note": "SSIM: periodize padding only on axes of even length. PSNR follows the mse."
  },
  {
   "property": "C103",
   "status": "proved",
   "theorems": [
    "C103_columns",
    "C103_rows",
    "C103_transpose",
    "C103_colours",
    "C103_alignment_matters"
   ],
   "note": "For the gradient-corrected filter, whose four kernels are symmetric; C103_alignment_matters shows that the alignment must change."
  },
  {
   "property": "C104",
   "status": "proved",
   "theorems": [
    "C104_affine",
    "C104_raw",
    "C104_contrast",
    "C104_negative",
    "C104_range",
    "C104_local"
   ],
   "note": "demosaic_raw is the composition of the model's bayer_forward and last_step_demosaic; C104_raw ties it to demosaic."
  },
  {
   "property": "C105",
   "status": "proved",
   "theorems": [
    "C105_one_axis",
    "C105_several_axes",
    "C105_condition_needed",
    "C105_constants_differ"
   ],
   "note": ""
  },
  {
   "property": "C106",
   "status": "partial",
   "theorems": [
    "C106_sets",
    "C106_iff",
    "C106_history",
    "C106_fails",
    "C106_failure_without_effect_refuted"
   ],
   "note": "REFUTED in part: when the kernel sizes do not match the number of modes, to_same raises ValueError after self.pad_width has been replaced, so a later forward pads by the widths of the failed call (generic_pad.py:118-124)."
  },
  {
   "property": "C107",
   "status": "proved",
   "theorems": [
    "C107_component",
    "C107_named",
    "C107_magnitude",
    "C107_constant_padding_differs",
    "C107_exponent_one_differs"
   ],
   "note": ""
  },
  {
   "property": "C108",
   "status": "proved",
   "theorems": [
    "C108_ramp",
    "C108_named",
    "C108_central_moment",
    "C108_laplace_moment",
    "C108_laplace"
   ],
   "note": ""
  },
  {
   "property": "C109",
   "status": "proved",
   "theorems": [
    "C109_affine",
    "C109_linear",
    "C109_mirror",
    "C109_range",
    "C109_blur",
    "C109_same_threshold_differs"
   ],
   "note": ""
  },
  {
   "property": "C110",
   "status": "proved",
   "theorems": [
    "C110_value"
   ],
   "note": ""
  },
  {
   "property": "C111",
   "status": "proved",
   "theorems": [
    "C111_contrast"
   ],
   "note": ""
  },
  {
   "property": "C112",
   "status": "proved",
   "theorems": [
    "C112_twice",
    "C112_average"
   ],
   "note": ""
  },
  {
   "property": "C113",
   "status": "proved",
   "theorems": [
    "C113_total",
    "C113_mean",
    "C113_rest_differs"
   ],
   "note": ""
  },
  {
   "property": "C114",
   "status": "proved",
   "theorems": [
    "C114_valid",
    "C114_circular",
    "C114_replicate_differs"
   ],
   "note": ""
  },
  {
   "property": "C115",
   "status": "proved",
   "theorems": [
    "C115_triangle",
    "C115_lipschitz",
    "C115_scale",
    "C115_bounds",
    "C115_brightness",
    "C115_ramp",
    "C115_plane",
    "C115_exponent_one_differs"
   ],
   "note": "Real numbers instead of floats; p = 2 with the square root of a nonnegative number. C115_exponent_one_differs: with p = 1 the signed sum can vanish where the components do not, as the comment in the code says."
  },
  {
   "property": "C116",
   "status": "proved",
   "theorems": [
    "C116_adjoint",
    "C116_total",
    "C116_reflect_differs"
   ],
   "note": ""
  },
  {
   "property": "C117",
   "status": "proved",
   "theorems": [
    "C117_component",
    "C117_named",
    "C117_symmetric_differs"
   ],
   "note": ""
  },
  {
   "property": "C118",
   "status": "proved",
   "theorems": [
    "C118_contract",
    "C118_mse",
    "C118_gauss",
    "C118_reflect_differs"
   ],
   "note": ""
  },
  {
   "property": "C119",
   "status": "proved",
   "theorems": [
    "C119_pad",
    "C119_pool_valid",
    "C119_pool_same",
    "C119_component",
    "C119_magnitude",
    "C119_mse",
    "C119_ssim"
   ],
   "note": ""
  },
  {
   "property": "C120",
   "status": "proved",
   "theorems": [
    "C120_mse",
    "C120_mse_sum",
    "C120_ssim",
    "C120_psnr"
   ],
   "note": ""
  },
  {
   "property": "C121",
   "status": "proved",
   "theorems": [
    "C121_component",
    "C121_magnitude",
    "C121_mse",
    "C121_ssim",
    "C121_all"
   ],
   "note": ""
  },
  {
   "property": "C122",
   "status": "proved",
   "theorems": [
    "C122_items",
    "C122_permuted"
   ],
   "note": "Exact arithmetic; a zero denominator is an error of the whole call in the model (torch gives nan for that entry)."
  },
  {
   "property": "C123",
   "status": "proved",
   "theorems": [
    "C123_make_idx",
    "C123_make_idx_get",
    "C123_make_idx_out",
    "C123_same_tuples",
    "C123_modify_idx",
    "C123_modify_idx_out",
    "C123_check_padding",
    "C123_check_padding_no",
    "C123_check_padding_numpy",
    "C123_hdrvdp3",
    "C123_unshuffle_net"
   ],
   "note": ""
  },
  {
   "property": "C124",
   "status": "proved",
   "theorems": [
    "C124_pool",
    "C124_middle",
    "C124_filter",
    "C124_component",
    "C124_ssim",
    "C124_bayer",
    "C124_demosaic"
   ],
   "note": ""
  },
  {
   "property": "C125",
   "status": "proved",
   "theorems": [
    "C125_mse",
    "C125_psnr",
    "C125_ssim",
    "C125_accepted",
    "C125_rejected",
    "C125_none",
    "C125_psnr_rejected",
    "C125_empty"
   ],
   "note": ""
  },
  {
   "property": "C126",
   "status": "proved",
   "theorems": [
    "C126_padding",
    "C126_padding_differs",
    "C126_pooling",
    "C126_single",
    "C126_merged",
    "C126_filter"
   ],
   "note": ""
  },
  {
   "property": "C127",
   "status": "proved",
   "theorems": [
    "C127_modes",
    "C127_pad_off_range",
    "C127_pad_int_wraps",
    "C127_pad_int_sloped",
    "C127_pool_int_rejected",
    "C127_pool_int_wraps",
    "C127_pool_int_wraps_same",
    "C127_pool_ndim_padder",
    "C127_pool_ndim"
   ],
   "note": ""
  },
  {
   "property": "C128",
   "status": "proved",
   "theorems": [
    "C128_mse",
    "C128_psnr",
    "C128_shift_is_reordering",
    "C128_mirror_is_reordering",
    "C128_component",
    "C128_magnitude",
    "C128_replicate_differs",
    "C128_ssim"
   ],
   "note": ""
  },
  {
   "property": "C129",
   "status": "proved",
   "theorems": [
    "C129_pad",
    "C129_closed_form",
    "C129_filter",
    "C129_component",
    "C129_magnitude",
    "C129_shapes",
    "C129_laplace"
   ],
   "note": ""
  },
  {
   "property": "C130",
   "status": "proved",
   "theorems": [
    "C130_padder",
    "C130_separable",
    "C130_average",
    "C130_edge",
    "C130_ssim",
    "C130_unsharp",
    "C130_kernel",
    "C130_gaussian",
    "C130_cases",
    "C130_gaussian_grad",
    "C130_log"
   ],
   "note": ""
  },
  {
   "property": "C131",
   "status": "proved",
   "theorems": [
    "C131_circular",
    "C131_crop",
    "C131_gaussian_grad",
    "C131_laplacian_of_gaussian",
    "C131_unsharp"
   ],
   "note": ""
  },
  {
   "property": "C132",
   "status": "proved",
   "theorems": [
    "C132_wrapped",
    "C132_line",
    "C132_edge_axis",
    "C132_smooth_far",
    "C132_smooth_ndim",
    "C132_gradient_int",
    "C132_gradient_ndim"
   ],
   "note": "Edge axes in [-3*ndim, -2*ndim) are an error for sliced kernels only (example), not stated as a theorem because the padding may fail first."
  },
  {
   "property": "C133",
   "status": "proved",
   "theorems": [
    "C133_pad_order",
    "C133_pad_close",
    "C133_pool_order",
    "C133_pool_close",
    "C133_same_order",
    "C133_same_close",
    "C133_modes_differ",
    "C133_kernel_differs"
   ],
   "note": "Order and sup-distance of two images through padding and pooling; counterexamples for the modes and kernels excluded."
  },
  {
   "property": "C134",
   "status": "proved",
   "theorems": [
    "C134_shape",
    "C134_expand",
    "C134_item",
    "C134_index",
    "C134_get",
    "C134_iter",
    "C134_map",
    "C134_starmap",
    "C134_apply",
    "C134_zip",
    "C134_kernels",
    "C134_stretch",
    "C134_expand_more",
    "C134_to_none",
    "C134_scalar",
    "C134_zero_differs",
    "C134_empty_differs"
   ],
   "note": "Simulation between the model on arrays and the model on nested lists; object arrays are not modelled."
  },
  {
   "property": "C135",
   "status": "proved",
   "theorems": [
    "C135_forward",
    "C135_pad_axis",
    "C135_any_order",
    "C135_no_overlap",
    "C135_constructed",
    "C135_overlap_differs"
   ],
   "note": "The copy is a parameter of a second model of padding; that model and the first agree for every copy that is right on regions without common elements."
  },
  {
   "property": "C136",
   "status": "proved",
   "theorems": [
    "C136_sign",
    "C136_odd",
    "C136_increasing",
    "C136_near_zero_differs",
    "C136_product",
    "C136_compose",
    "C136_inverse",
    "C136_slope"
   ],
   "note": "torch.pow is any function that is the real power on positive bases and the integer power on bases other than 0."
  },
  {
   "property": "C137",
   "status": "proved",
   "theorems": [
    "C137_blocks",
    "C137_overlap_differs"
   ],
   "note": "Exact decomposition; the inequality is a corollary."
  },
  {
   "property": "C138",
   "status": "proved",
   "theorems": [
    "C138_pad",
    "C138_modes_differ"
   ],
   "note": "Casting, clipping or tone-mapping before or after padding is the same."
  },
  {
   "property": "C139",
   "status": "proved",
   "theorems": [
    "C139_valid",
    "C139_same",
    "C139_mean_valid",
    "C139_mean_same",
    "C139_linear",
    "C139_exact"
   ],
   "note": "Standard model of rounding without overflow and underflow; the padder's modes that compute (mean, linear_ramp, odd_*, smooth) are left out."
  },
  {
   "property": "C140",
   "status": "proved",
   "theorems": [
    "C140_mse",
    "C140_zero",
    "C140_exact"
   ],
   "note": "Standard model of rounding without overflow and underflow."
  },
  {
   "property": "C141",
   "status": "proved",
   "theorems": [
    "C141_image",
    "C141_parameters",
    "C141_shift",
    "C141_alignment",
    "C141_columns",
    "C141_rows",
    "C141_transpose",
    "C141_even_differs"
   ],
   "note": "Kernels of even size do not commute with mirroring (C141_even_differs)."
  },
  {
   "property": "C142",
   "status": "proved",
   "theorems": [
    "C142_greys",
    "C142_colours",
    "C142_gradient"
   ],
   "note": "Holds at the borders too, since reflection keeps the parity of rows and columns."
  },
  {
   "property": "C143",
   "status": "proved",
   "theorems": [
    "C143_bayer",
    "C143_demosaic",
    "C143_gradient",
    "C143_attained",
    "C143_attained_demosaic",
    "C143_attained_addition",
    "C143_unrounded"
   ],
   "note": "Standard model of rounding, without overflow and underflow; C143_attained shows which results are reached (rounded weights)."
  },
  {
   "property": "C144",
   "status": "proved",
   "theorems": [
    "C144_rounding",
    "C144_exact",
    "C144_attained",
    "C144_range",
    "C144_blur",
    "C144_blocks"
   ],
   "note": "Standard model of rounding, without overflow and underflow; log10 within relative error e."
  },
  {
   "property": "C145",
   "status": "proved",
   "theorems": [
    "C145_maps",
    "C145_l1",
    "C145_sum",
    "C145_mul",
    "C145_div",
    "C145_turned_mul",
    "C145_turned_div",
    "C145_symmetric_mul",
    "C145_permuted_maps",
    "C145_permuted_l1",
    "C145_permuted_sum",
    "C145_permuted_mul",
    "C145_permuted_div"
   ],
   "note": "Exact arithmetic over the real numbers; WeightedMul and WeightedDiv under one mirroring with an odd order have no simple law (one of the two parts changes sign)."
  },
  {
   "property": "C146",
   "status": "proved",
   "theorems": [
    "C146_component",
    "C146_sobel",
    "C146_laplace",
    "C146_exact"
   ],
   "note": "Overflow, underflow and the roundings of computing the kernel entries themselves beyond one per entry are not covered; neither are padding modes with arithmetic (statistics, ramps, smooth, odd)."
  },
  {
   "property": "C147",
   "status": "proved",
   "theorems": [
    "C147_sum",
    "C147_laplace",
    "C147_norm",
    "C147_sobel",
    "C147_radicand",
    "C147_exact"
   ],
   "note": "p = 2 over the reals with e <= 1; other exponents, overflow and underflow are not covered. The square and the root count as one rounding each."
  },
  {
   "property": "C148",
   "status": "proved",
   "theorems": [
    "C148_bound",
    "C148_mean",
    "C148_exact",
    "C148_threshold_differs"
   ],
   "note": "Separable blurs; overflow and underflow are not covered."
  },
  {
   "property": "C149",
   "status": "proved",
   "theorems": [
    "C149_bound",
    "C149_relative",
    "C149_sharp",
    "C149_exact"
   ],
   "note": "Overflow and underflow are not covered; with one coefficient poly1d raises (C64)."
  },
  {
   "property": "C150",
   "status": "proved",
   "theorems": [
    "C150_valid",
    "C150_same",
    "C150_valid_nonneg",
    "C150_same_nonneg",
    "C150_avg",
    "C150_avg_original",
    "C150_last",
    "C150_outcome_pool",
    "C150_outcome_avg",
    "C150_negative_differs"
   ],
   "note": "Overflow and underflow are not covered; the counts of original elements are exact."
  },
  {
   "property": "C151",
   "status": "proved",
   "theorems": [
    "C151_affine",
    "C151_constant",
    "C151_sum",
    "C151_order",
    "C151_range",
    "C151_counted_differs",
    "C151_replicate_differs"
   ],
   "note": "Stated for zero padding and axes whose output lengths come in the same order when sorted, the exact condition of C40_iff."
  },
  {
   "property": "C152",
   "status": "proved",
   "theorems": [
    "C152_order",
    "C152_close",
    "C152_std",
    "C152_std_differs"
   ],
   "note": "The square root is that of the reals in C152_std and arbitrary elsewhere."
  },
  {
   "property": "C153",
   "status": "proved",
   "theorems": [
    "C153_rounding",
    "C153_pixel",
    "C153_exact",
    "C153_last",
    "C153_products",
    "C153_shapes",
    "C153_cancellation_differs"
   ],
   "note": "Padding that computes (means, ramps, odd, smooth) is left out; no overflow or underflow; doubling is exact."
  },
  {
   "property": "C154",
   "status": "proved",
   "theorems": [
    "C154_self",
    "C154_symmetric",
    "C154_possible",
    "C154_mean",
    "C154_score"
   ],
   "note": "The score is a mean over a list of pixels, not read off forward's axes; the mean divides by the number of pixels; the blur is any function of the image; the test scaling_factor != 1 is made on the exact factor; no overflow."
  }
 ]
}