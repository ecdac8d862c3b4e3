{
 "C12": "REFUTED for width (0,0): forward skips the axis (generic_pad.py:262-263), so an odd length stays odd. Proved for every other width.",
 "C13": "Covers every built-in mode except zeros (see C16); user-supplied callables: C98.",
 "C15": "REFUTED for mode zeros (C16). Proved for all other built-in modes; user-supplied callables: C98.",
 "C16": "REFUTED: _fill_value_1d returns the function zeros_1d instead of calling it (generic_pad.py:164), so the padding is uninitialised memory, and a following axis with another mode raises TypeError.",
 "C17": "REFUTED for empty axes: circular, symmetric, antisymmetric and odd_symmetric loop forever on an axis of length 0. Proved for nonempty axes.",
 "C18": "REFUTED for periodize with odd length: pad_axis does not reserve the extra slot; it then returns forward's result without the last sample, also when pad_after = 0 and pad_before = 2 (any even number if n = 1), and raises otherwise when pad_after = 0 (proved exactly). Proved for all other extension modes.",
 "C20": "REFUTED for kernel_size < stride <= n (some element is in no window). Proved for kernel_size >= stride, with the exact condition: kernel_size >= stride or kernel_size >= n.",
 "C23": "REFUTED: axis ndim in a sequence and any out-of-range int pass check_axes (utils/validation.py). Proved for None, slices of any step, and in-range ints and sequences; a sequence is accepted exactly when every entry lies in [-ndim, ndim]. C23_slice_members says exactly which axes a slice selects.",
 "C22": "Histories are any sequences of forward, averaging forward and pad calls, also with one Padder object shared by several modules.",
 "C25": "kernel_size >= 1, stride >= 1 and nonnegative sizes; with no window the list is empty.",
 "C36": "Modes that fill the padding (all but zeros, empty, callables); a kernel longer than an unpadded axis raises RuntimeError.",
 "C37": "REFUTED for mode periodize on odd lengths (the padder adds a sample: length 3, kernel 3, stride 1 gives 4). C37_same_exact gives the lengths for every mode: periodize adds one exactly on axes of odd length with stride 1 and a kernel longer than 1; C37_filter_iff is the exact condition for to_filter to keep the shape.",
 "C38": "Also proved: values stay in the input's range for nonnegative normalised kernels.",
 "C40": "REFUTED for axes in descending order with different output lengths (uniform.py:46-48 indexes z.shape by the wrong position). Proved whenever the output lengths in the order given equal those in ascending order of the axes; C40_iff: the output lengths are right exactly then; C40_outcome: otherwise a RuntimeError or a broadcast to the larger lengths.",
 "C60": "REFUTED for two or more batch axes: torch's reflection padding takes 3-D or 4-D input only. Whenever a result is returned the claim holds; C60_defined says exactly when that is. Proved for every interpolation network, not only the gradient-corrected one.",
 "C61": "REFUTED for height or width 2: the 5x5 filter cannot reflect 2 pixels and always raises (C61_small). Proved for height and width >= 4 and at most one batch axis.",
 "C62": "Proved for odd and even kernel sizes; C62_defined gives the exact domain.",
 "C63": "REFUTED for an image without batch axis: forward_unshuffle takes the channel count as batch size and returns that many copies of the right result, with 4 axes (C63_unbatched). Proved for 4-D input.",
 "C68": "REFUTED for 3x3 images: the single value of a position class is broadcast over its pixels. For odd kernels the accepted sizes are characterised exactly (every odd side but 3 raises) with the value returned on each of them.",
 "C28": "complete is t: the inferred shape of t equals the item shape up to -1 entries.",
 "C29": "Entries below -1 behave as 0.",
 "C30": "Item shape () with any list; otherwise non-empty lists of complete items, or of items of the right depth without empty lists that are broadcast one by one.",
 "C31": "REFUTED for index shapes of two axes with a ragged axis: apply raises ValueError although the shapes agree (np.empty of a negative size). Proved for items and one-level lists with any function, for any index depth with positive lengths when all results have one depth; mismatch raises ValueError; zip followed by starmap equals apply.",
 "C32": "REFUTED for two index axes when results have different depths (IndexError). Proved for items and one-level lists with any function, and for any index depth when all results have one depth.",
 "C33": "Also: the shape is the only one of its length that fits the data, and its length is determined by the items' depths. Trees of lists, tuples and scalars; tensors and numpy arrays as data are not modelled.",
 "C34": "REFUTED: [[1,[2]]] is returned unlevelled (levelled items are dropped when this level's depths agree). Proved: leaves and depth for all data; levelling for lists of evenly nested items, for one step when depths differ, and C34_exact: exactly which data come back levelled.",
 "C35": "REFUTED for lists mixing empty and non-empty items (target entry silently not met) and for target 0 (any length accepted). Proved, with an exact success criterion, for data without empty lists and targets -1 or positive.",
 "C43": "REFUTED when an axis other than dim is empty: the final reshape with -1 raises RuntimeError. Proved for all images without an empty axis, with the error cases.",
 "C44": "REFUTED: _conv_edge selects the fast path by int() of the kernel entries (edges.py:58-71), so (-1.5, 0.2, 1.9) is applied as (-1, 0, 1). Proved for every kernel whose integer parts are not a special kernel or that is one itself; periodize (which changes odd lengths) is excluded; C44_fast_path says exactly what the fast path computes.",
 "C45": "REFUTED for shapes with mode periodize on odd lengths (see C37). The zero response is proved for every mode that keeps constants; C45_shape gives the shape of a component for every image and mode.",
 "C46": "REFUTED for a single axis: magnitude raises ValueError. Proved for two or more axes and every padder mode but periodize.",
 "C48": "REFUTED without any padder (the constructor accepts it): x - blur(x) has mismatched shapes, or broadcasts silently when the blurred axes have length 1. Proved for every blur that keeps the shape; separable blurs with a padder do (periodize: exact behaviour in C131).",
 "C41": "Proved over the real numbers (floating-point rounding not modelled); also the explicit formula, the even sizes, and the errors.",
 "C42": "Proved over the reals for all orders, odd and even sizes (for even sizes the kernel is cut without rescaling).",
 "C47": "REFUTED: for size 3 and sigma 0.55 the second-derivative kernel truncates to (1,-2,1) and the fast path (edges.py:58-71) is used instead. Proved for every size other than 3, and for size 3 whenever the truncated kernel is not (1,-2,1), with the exact condition (periodize: see C131).",
 "C64": "REFUTED for a single coefficient (TypeError: y stays None, polynomial.py). Proved for two or more coefficients.",
 "C67": "REFUTED: randint's bound is exclusive (random.py), so the full size raises and the last offset n - l is never drawn. Proved for sizes below the axis length and offsets below n - l.",
 "C49": "REFUTED for an empty tuple of axes (torch's dim=() reduces every axis). Proved for at least one axis; axes of positive length for the mean. C49_sum_exact, C49_mean_exact, C49_zero_exact cover every axes argument with the axes that are really reduced.",
 "C51": "REFUTED for zero divisors: with K2 = 0 (or a padder that does not commute with products) a divisor can be 0 and SSIM(x,x) is nan. Symmetry is proved for all calls, SSIM(x,x)=1 for all calls with a result, existence and |SSIM|<=1 for K1, K2 nonzero, nonnegative normalised windows and padders that commute with products (or average); a padder with constants 7, 8 gives a score above 1.",
 "C52": "REFUTED for periodize on an axis of odd length: the padder appends one more pixel and the crop leaves it in. Proved for all other modes and for even lengths, for padded calls without zero divisor. The periodize case is determined exactly in C131: the cropped result is the unpadded one of the evened images.",
 "C53": "REFUTED for empty kernels (kernel size 0): the check passes for a 1-pixel axis, which cannot be halved. Proved for kernels of size >= 1; afterwards only zero divisors (excluded for K1, K2 nonzero and windows) or a single weight (C54) can fail. The check is stricter than needed: size kernel*2^(L-1) is rejected.",
 "C54": "REFUTED for a single weight: final_score is still None when multiplied, so every such call raises TypeError. Proved for two or more weights.",
 "C88": "REFUTED for even orders (the second-derivative kernel does not sum to 0) and for even kernel sizes. Proved for odd size and odd order; for all sizes and orders the distance of two constant images is given exactly.",
 "C89": "REFUTED: WeightedSum averages |edges| per channel, so an image and its negative have distance 0. The pseudometric laws, scaling and the invariance under negation are proved.",
 "C90": "REFUTED: WeightedMul multiplies by the signed true edge and can be negative; WeightedDiv divides by true edges, which are 0 e.g. for every constant true image (odd size and order). Proved: WeightedMul is 0 on equal images; exact values for constant images.",
 "C99": "PSNR over the reals; errors agree too.",
 "C100": "Over the reals; axes of positive length for the mean.",
 "C101": "Padders: none, or every axis in a linear mode (PadLinear.v linear_mode). C101_K_matters shows that K1, K2 must be scaled.",
 "C102": "SSIM: periodize padding only on axes of even length. PSNR follows the mse.",
 "C103": "For the gradient-corrected filter, whose four kernels are symmetric; C103_alignment_matters shows that the alignment must change.",
 "C104": "demosaic_raw is the composition of the model's bayer_forward and last_step_demosaic; C104_raw ties it to demosaic.",
 "C106": "REFUTED in part: when the kernel sizes do not match the number of modes, to_same raises ValueError after self.pad_width has been replaced, so a later forward pads by the widths of the failed call (generic_pad.py:118-124).",
 "C115": "Real numbers instead of floats; p = 2 with the square root of a nonnegative number. C115_exponent_one_differs: with p = 1 the signed sum can vanish where the components do not, as the comment in the code says.",
 "C122": "Exact arithmetic; a zero denominator is an error of the whole call in the model (torch gives nan for that entry).",
 "C132": "Edge axes in [-3*ndim, -2*ndim) are an error for sliced kernels only (example), not stated as a theorem because the padding may fail first.",
 "C133": "Order and sup-distance of two images through padding and pooling; counterexamples for the modes and kernels excluded.",
 "C134": "Simulation between the model on arrays and the model on nested lists; object arrays are not modelled.",
 "C135": "The copy is a parameter of a second model of padding; that model and the first agree for every copy that is right on regions without common elements.",
 "C136": "torch.pow is any function that is the real power on positive bases and the integer power on bases other than 0.",
 "C137": "Exact decomposition; the inequality is a corollary.",
 "C138": "Casting, clipping or tone-mapping before or after padding is the same.",
 "C139": "Standard model of rounding without overflow and underflow; the padder's modes that compute (mean, linear_ramp, odd_*, smooth) are left out.",
 "C140": "Standard model of rounding without overflow and underflow.",
 "C141": "Kernels of even size do not commute with mirroring (C141_even_differs).",
 "C142": "Holds at the borders too, since reflection keeps the parity of rows and columns.",
 "C143": "Standard model of rounding, without overflow and underflow; C143_attained shows which results are reached (rounded weights).",
 "C144": "Standard model of rounding, without overflow and underflow; log10 within relative error e.",
 "C145": "Exact arithmetic over the real numbers; WeightedMul and WeightedDiv under one mirroring with an odd order have no simple law (one of the two parts changes sign).",
 "C146": "Overflow, underflow and the roundings of computing the kernel entries themselves beyond one per entry are not covered; neither are padding modes with arithmetic (statistics, ramps, smooth, odd).",
 "C147": "p = 2 over the reals with e <= 1; other exponents, overflow and underflow are not covered. The square and the root count as one rounding each.",
 "C148": "Separable blurs; overflow and underflow are not covered.",
 "C149": "Overflow and underflow are not covered; with one coefficient poly1d raises (C64).",
 "C150": "Overflow and underflow are not covered; the counts of original elements are exact.",
 "C151": "Stated for zero padding and axes whose output lengths come in the same order when sorted, the exact condition of C40_iff.",
 "C152": "The square root is that of the reals in C152_std and arbitrary elsewhere.",
 "C153": "Padding that computes (means, ramps, odd, smooth) is left out; no overflow or underflow; doubling is exact.",
 "C154": "The score is a mean over a list of pixels, not read off forward's axes; the mean divides by the number of pixels; the blur is any function of the image; the test scaling_factor != 1 is made on the exact factor; no overflow."
}