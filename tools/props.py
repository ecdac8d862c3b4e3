import json
P=[]
def p(title, statement, quant, why, anchors):
    P.append(dict(id="C%02d"%(len(P)+1), title=title, statement=statement, quantifier=quant, why_tests_cant=why, anchors=anchors))
PAD="torchimage/padding/pad_1d.py"; GP="torchimage/padding/generic_pad.py"; PU="torchimage/padding/utils.py"
WIDE="The repository's own tests only compare against numpy/pywt for widths not exceeding the axis length, because the references are wrong beyond that; the claim is for every width, shape and content."
p("Circular padding is the periodic extension",
  "Padder(pad_width, mode='circular').forward(x, axes) puts at every output position, along each padded axis, the input element whose coordinate is (position - pad_before) modulo the axis length; no position outside the padded axis' lines changes.",
  "every tensor rank and shape with padded axes of length >= 1, every pair of widths (any number of wrap-arounds), every tensor content",
  WIDE, [PAD+":circular_1d", GP+":Padder.forward"])
p("Symmetric padding is the half-sample symmetric extension",
  "mode='symmetric': the element at offset t from the original start along a padded axis of length n equals the input element at m if m<n and at 2n-1-m otherwise, where m = t mod 2n, whichever of the cached/uncached code paths is taken.",
  "every rank, every axis length >= 1, every pair of widths, every content", WIDE, [PAD+":symmetric_1d"])
p("Antisymmetric padding is the half-sample antisymmetric extension",
  "mode='antisymmetric': with m = t mod 2n the element is x[m] when m<n and -x[2n-1-m] otherwise, including axes with a single element.",
  "every rank, every axis length >= 1, every pair of widths, every content", WIDE, [PAD+":symmetric_1d"])
p("Reflect padding is the whole-sample symmetric extension",
  "mode='reflect': for axis length n>=2 the element at offset t is x[m] if m<n else x[2n-2-m] with m = t mod (2n-2); for n=1 it is the only element. The three code paths (replicate, circular, cached/uncached reflection) agree with this single formula.",
  "every rank, every axis length >= 1, every pair of widths, every content", WIDE, [PAD+":reflect_1d"])
p("Odd-reflect padding is point reflection about the edge sample",
  "mode='odd_reflect': the extension g satisfies g(t)=x[t] on the original, g(-t)=2*x[0]-x[t], and g(t+2(n-1)) = g(t)+2*(x[n-1]-x[0]) for every t, for any width.",
  "every rank, every axis length >= 1, every pair of widths, every content", WIDE, [PAD+":odd_reflect_1d"])
p("Odd-symmetric padding is point reflection about the half sample",
  "mode='odd_symmetric': g(t)=x[t] on the original, g(-1-t)=2*x[0]-x[t], and g(t+2n)=g(t)+2*(x[n-1]-x[0]) for every t, for any width.",
  "every rank, every axis length >= 1, every pair of widths, every content", WIDE, [PAD+":odd_symmetric_1d"])
p("Replicate padding clamps the coordinate",
  "mode='replicate': output element is the input element at the coordinate clamped to [0, n-1].",
  "every rank, axis length >= 1, widths, content", "Random tests sample shapes; the claim is universal.", [PAD+":replicate_1d"])
p("Smooth padding extrapolates linearly",
  "mode='smooth': before the start the value at offset -d is x[0]-d*(x[1]-x[0]); after the end the value d past the last is x[n-1]+d*(x[n-1]-x[n-2]); with n=1 it is replication.",
  "every rank, axis length >= 1, widths, content", "Tests skip width 0 and length 1 (reference is ill-defined there).", [PAD+":smooth_1d"])
p("Linear-ramp padding is affine from the edge sample to the end value",
  "mode='linear_ramp': along each padded side of width w the values move in w equal steps from the edge sample to the end value, reaching the end value exactly at the border of the padded tensor.",
  "every rank, axis length >= 1, widths, end values and content", "Needs all widths and values, exact arithmetic.", [PAD+":linear_ramp_1d"])
p("Statistic padding uses the clipped window",
  "modes maximum/mean/median/minimum: every padded element on a side is the statistic of the first (last) clip(stat_length,1,n) elements of its own line, or of the entire line for None; the statistic lies between the window's minimum and maximum, and the median is the lower median.",
  "every rank, axis length >= 1, widths, stat_length values incl. 0, negative and oversized, content", "Clipping and both-None shortcut interact with all widths.", [PAD+":stat_1d", GP+":Padder._fill_value_1d"])
p("Constant padding writes the side's constant",
  "mode='constant': elements before the original along the axis equal constant_values[0], after equal constant_values[1]; later axes override corners.",
  "every rank, widths, constants, content", "Corner ordering must hold for every axis sequence.", [PAD+":constant_1d"])
p("Periodize padding first makes the length even",
  "mode='periodize': with n'=n+(n mod 2) and the last sample repeated when n is odd, the output along that axis has length before+n'+after and is the period-n' extension; this holds even for width (0,0).",
  "every rank, axis length >= 1, widths, content", "The outer allocation and inner fill live in different functions and must agree for all parities and widths.", [PAD+":periodize_1d", GP+":Padder.forward"])
p("Padding keeps the original in place and has the documented shape",
  "Padder.forward returns a tensor whose length on each padded axis is before+n+after (plus n mod 2 for periodize) and unchanged elsewhere, and whose block starting at 'before' on each axis is exactly the input tensor, for every mode.",
  "all ranks, shapes, axes lists without repetition, modes per axis, widths per axis, contents", "Combinations of modes per axis are unbounded.", [GP+":Padder.forward"])
p("N-d padding equals sequential one-axis padding",
  "Padder.forward (one allocation, in-place fills) yields the same tensor as padding the axes one at a time, in the given order, each with its own mode/width/parameters applied to the result of the previous one.",
  "all ranks, shapes, axes orders, per-axis mode lists and widths", "The in-place algorithm restricts each fill to an 'already valid' region; correctness is an invariant over the axis loop.", [GP+":Padder.forward", GP+":Padder._fill_value_1d", PU+":modify_idx"])
p("Padding never exposes uninitialised memory",
  "Except for mode 'empty', the output of Padder.forward does not depend on the contents of the freshly allocated torch.empty buffer.",
  "all modes, ranks, shapes, widths and all possible initial buffer contents", "A test only sees whatever garbage the allocator returned (often zeros).", [GP+":Padder.forward"])
p("Zeros mode pads with zeros",
  "Padder(w, mode='zeros').forward(x) equals constant padding with 0.",
  "all shapes, widths and buffer contents", "The allocator frequently returns zeroed pages, hiding a missing write.", [GP+":Padder._fill_value_1d", PAD+":zeros_1d"])
p("Padding terminates",
  "Padder.forward terminates for every mode and every input tensor, including tensors with an empty padded axis.",
  "all modes, shapes (including 0-length axes) and widths", "Non-termination cannot be observed by a finite test.", [PAD+":circular_1d", PAD+":symmetric_1d", PAD+":reflect_1d", PAD+":odd_symmetric_1d", PAD+":odd_reflect_1d"])
p("pad_axis agrees with forward on that axis",
  "Padder.pad_axis(x, i, axis) returns the same tensor as Padder.forward(x, axes=(axis,)) for a padder whose only specification is the i-th.",
  "all ranks, axes, modes, widths", "Two separate allocation computations must agree for every parity and width.", [GP+":Padder.pad_axis", GP+":Padder.forward"])
p("Same padding gives ceil(in/stride) outputs",
  "same_padding_width(k, s, n) returns nonnegative (before, after) with 0 <= before-after <= 1 such that a window of size k and stride s over n+before+after elements has exactly ceil(n/s) positions; with s=1 exactly n.",
  "all kernel sizes >= 1, strides >= 1, input sizes >= 1", "Unbounded integers, floor/ceil corner cases.", [PU+":same_padding_width", "torchimage/shapes/conv_like.py:conv_1d"])
p("Same padding lets the kernel cover every element",
  "With same padding every element of the original axis lies in at least one window ('letting the kernel cover every element of the original tensor').",
  "all kernel sizes, strides, input sizes", "Arithmetic over all sizes.", [PU+":same_padding_width"])
p("pad width format conversions are inverse",
  "pad_width_format numpy->torch->numpy (with ndim = number of axes) is the identity, torch->numpy right-justifies and fills (0,0) on the left, and torch->numpy->torch only appends zeros.",
  "all lists of pairs, all ndim", "Lists of any length.", [PU+":pad_width_format"])
p("Same-padding state does not leak between calls",
  "Calling a pooling module that owns a same padder any number of times with any inputs/axes does not change the result of a later call: the result equals that of a freshly built module.",
  "all finite histories of forward/pad calls with arbitrary input shapes and axes, including failing calls", "History-dependent: Padder.to_same mutates the shared padder in place.", [GP+":Padder.to_same", "torchimage/pooling/base.py:BasePoolNd.pad"])
p("check_axes returns only valid axis numbers or raises",
  "check_axes(x, axes) either raises or returns axis numbers in [0, ndim).",
  "all ranks and all axes arguments (None, slice, int, sequences)", "All integers.", ["torchimage/utils/validation.py:check_axes"])
p("Validators for stride and pad width",
  "check_stride accepts exactly None and integers >= 1, check_pad_width exactly pairs of nonnegative integers, returning them unchanged.",
  "all integers", "All integers.", ["torchimage/utils/validation.py:check_stride", "torchimage/utils/validation.py:check_pad_width"])
p("n_original_elements_1d counts the receptive field overlap",
  "n_original_elements_1d(n,(pb,pa),k,s) is the list whose j-th entry is the number of original positions in window j, of length equal to the number of windows.",
  "all n >= 0, pb, pa >= 0, k >= 1, s >= 1", "Closed-form case analysis with four phases; tests sample 20 random small tuples (and stop at the first infeasible one).", ["torchimage/shapes/conv_like.py:n_original_elements_1d"])
p("conv_1d counts window positions",
  "conv_1d(n,k,s,d) is the number of j>=0 with j*s+d*(k-1) < n whenever at least one window fits.",
  "all n, k, s, d >= 1", "All integers.", ["torchimage/shapes/conv_like.py:conv_1d"])
p("n_original_elements_nd is the outer product of per-axis counts",
  "n_original_elements_nd(...)[j1..jd] equals the product of the per-axis counts, i.e. the number of original elements of the d-dimensional window.",
  "all dimension counts and sizes", "Arbitrary rank.", ["torchimage/shapes/conv_like.py:n_original_elements_nd", "torchimage/misc/outer.py:outer"])
p("A single item broadcasts to every index",
  "If data matches item_shape, NdSpec(data, item_shape)[i] returns that item for every integer or tuple i, and len is 0.",
  "all data trees, item shapes and keys", "All keys.", ["torchimage/utils/ndspec.py:NdSpec.__init__", "torchimage/utils/ndspec.py:NdSpec.__getitem__"])
p("A partial item is broadcast to the item shape",
  "NdSpec(scalar, item_shape=s) is a single item: the nested tuple of shape s (with -1 read as 1) filled with the scalar.",
  "all scalars and item shapes", "All shapes.", ["torchimage/utils/ragged.py:expand_ragged_ndarray", "torchimage/utils/ndspec.py:NdSpec"])
p("A list of items is indexed like a list",
  "NdSpec of a list of n complete items has len n, returns the i-th item for 0<=i<n and the (n+i)-th for -n<=i<0, and raises IndexError otherwise; incomplete items are broadcast individually.",
  "all lists of items and keys", "All lengths and keys.", ["torchimage/utils/ndspec.py:NdSpec.__getitem__"])
p("NdSpec.apply and zip work item-wise with broadcasting",
  "NdSpec.apply(f, a1..ak) exists iff all non-single index shapes agree; then item i is f(a1[i],..,ak[i]); the result does not depend on argument grouping and raises ValueError on mismatch.",
  "all specs and functions", "All shapes and functions.", ["torchimage/utils/ndspec.py:NdSpec.apply", "torchimage/utils/ndspec.py:NdSpec.agg_index_shape"])
p("NdSpec.map keeps the index shape",
  "spec.map(f) has the same index shape and its items are f of the items.",
  "all specs and functions", "All functions, incl. ones returning nested data.", ["torchimage/utils/ndspec.py:NdSpec.map", "torchimage/utils/ragged.py:apply_ragged_ndarray"])
p("Ragged shape inference is sound",
  "get_ragged_ndarray(data, strict=True) returns data unchanged and a shape such that every path of that depth exists and at each axis every node has the stated length, or lengths differ when -1 is reported.",
  "all nested data", "All trees.", ["torchimage/utils/ragged.py:get_ragged_ndarray"])
p("Non-strict ragged inference levels the tree",
  "get_ragged_ndarray(data, strict=False) returns a tree in which every leaf is at the same depth, equal to the maximal depth of the input, and which has the same leaves in the same order.",
  "all nested data", "All trees.", ["torchimage/utils/ragged.py:get_ragged_ndarray"])
p("Ragged expansion conforms to the target shape",
  "When expand_ragged_ndarray(data, old, new) succeeds, the result has the returned shape, every non -1 entry of new is met, and each leaf is the broadcast source leaf; it raises on non-singleton mismatch.",
  "all trees and shapes", "All trees.", ["torchimage/utils/ragged.py:expand_ragged_ndarray"])
p("Separable pooling equals full correlation with the outer-product kernel",
  "SeparablePoolNd(kernels, stride).forward(x, axes) at output position j is the sum over all kernel offsets of the product of the per-axis weights times the (padded) input at j*stride+offset.",
  "all ranks, shapes, kernels, strides and distinct axes", "Tests compare a few shapes up to rounding; the algebraic identity is over all contents.", ["torchimage/pooling/base.py:SeparablePoolNd.forward"])
p("Pooling output shape",
  "Each pooled axis of length n becomes (n-k)//s+1 (valid) or ceil(n/s) (same padding); other axes are unchanged; to_filter with a same padder preserves the shape.",
  "all ranks, shapes, kernel sizes, strides", "All sizes.", ["torchimage/pooling/base.py:SeparablePoolNd.forward", "torchimage/pooling/base.py:BasePoolNd.to_filter"])
p("Pooling is linear and preserves constants",
  "forward(a*x+b*y)=a*forward(x)+b*forward(y) for index-gathering padding modes, and a constant image stays constant when every kernel sums to 1.",
  "all ranks, shapes, kernels, scalars", "All contents.", ["torchimage/pooling/base.py:SeparablePoolNd.forward"])
p("Average pooling averages",
  "AvgPoolNd(k, s) without padding returns the arithmetic mean of each window; its value lies between the window minimum and maximum.",
  "all ranks, shapes, kernel sizes, strides, contents", "All contents.", ["torchimage/pooling/uniform.py:AvgPoolNd"])
p("count_include_pad=False averages only original elements",
  "AvgPoolNd(count_include_pad=False, same_padder=constant 0) returns, for each window, the mean of exactly the original elements in it, for any order of distinct axes.",
  "all ranks, shapes, sizes, axes orders", "Unsorted axes and unequal output sizes never tested.", ["torchimage/pooling/uniform.py:AvgPoolNd.forward"])
p("Gaussian kernels are normalised and symmetric",
  "gaussian_kernel_1d(ks, sigma, 0) has length ks, positive entries, sums to 1 for odd and even ks, and is symmetric and unimodal for odd ks.",
  "all kernel sizes >= 1 and real sigma != 0", "All reals.", ["torchimage/pooling/gaussian.py:gaussian_kernel_1d"])
p("Gaussian derivative kernels sample the derivative",
  "gaussian_kernel_1d(ks, sigma, n) for odd ks consists of the n-th derivative of the normalised Gaussian at the (negated) integer offsets; odd orders are antisymmetric with zero sum.",
  "all orders n, odd ks, sigma != 0", "All orders and reals.", ["torchimage/pooling/gaussian.py:_gaussian_kernel1d"])
p("any_conv_1d is strided dilated correlation along one axis",
  "any_conv_1d(x, w, dim, stride, dilation)[.., j, ..] = sum_k w[k]*x[.., j*stride+k*dilation, ..], on any axis incl. negative, with the other axes unchanged.",
  "all ranks, shapes, axes, kernels, strides, dilations", "Implemented by reshaping; must hold for all shapes.", ["torchimage/pooling/operator.py:any_conv_1d"])
p("Edge fast path equals correlation",
  "EdgeFilter.component gives the correlation of the padded input with the supplied edge kernel along the edge axis (then smoothing), whatever the kernel values.",
  "all kernels, shapes, axes", "The fast path is selected by truncating the kernel entries to int.", ["torchimage/filtering/edges.py:EdgeFilter._conv_edge"])
p("Edge filters vanish on constant images",
  "Sobel/Prewitt/Scharr/Farid/Laplace responses are zero on constant images with any index-gathering padder and components keep the input shape.",
  "all ranks, shapes, constants, padders", "All shapes and contents.", ["torchimage/filtering/edges.py:EdgeFilter"])
p("Laplace sums per-axis second differences",
  "Laplace().forward(x, axes) = sum over axes of x[+1]-2x[0]+x[-1] on the padded input.",
  "all ranks, shapes, axes lists", "All contents.", ["torchimage/filtering/edges.py:Laplace", "torchimage/filtering/edges.py:EdgeFilter.magnitude"])
p("LaplacianOfGaussian uses the Gaussian second-derivative kernel",
  "For every kernel size and sigma, LaplacianOfGaussian correlates each edge axis with gaussian_kernel_1d(ks, sigma, 2).",
  "all kernel sizes and sigmas", "A continuum of sigma; fails only in a narrow band.", ["torchimage/filtering/edges.py:LaplacianOfGaussian", "torchimage/filtering/edges.py:EdgeFilter._conv_edge"])
p("Unsharp masking formula",
  "UnsharpMask(blur, a, t).forward(x) = x + a*d with d = x-blur(x), where entries of d with |d|<t are zeroed if t>0; a=0 is the identity and constants are fixed points.",
  "all contents, amounts, thresholds, shapes", "All contents.", ["torchimage/filtering/sharpen.py:UnsharpMask.forward"])
p("MSE is a metric-like score",
  "MSE 'none' is the elementwise squared difference, 'sum'/'mean' reduce exactly the requested axes; the score is nonnegative, symmetric, and zero iff the images agree on the reduced block; sum = count*mean.",
  "all ranks, shapes, axes, contents", "All contents.", ["torchimage/metrics/mse.py:MSE", "torchimage/metrics/base.py:BaseMetric"])
p("PSNR formula and monotonicity",
  "PSNR = 10*log10(max^2/(mse+eps)), strictly decreasing in mse and symmetric in the images.",
  "all positive max values, eps >= 0, contents with positive mse", "All reals.", ["torchimage/metrics/psnr.py:PSNR"])
p("SSIM is symmetric, 1 on identical images and bounded by 1",
  "SSIM(x,y)=SSIM(y,x); SSIM(x,x)=1; |SSIM|<=1 whenever the blur is a nonnegative normalised window (and the padder commutes with products).",
  "all ranks, shapes, contents, windows", "Inequality over all real images.", ["torchimage/metrics/ssim.py:SSIM"])
p("SSIM crop_border removes all padding influence",
  "With crop_border=True the cropped full map, hence the score, does not depend on the padding mode: it equals the map computed without padding.",
  "all padders, shapes, windows, contents", "All padders and contents.", ["torchimage/metrics/ssim.py:SSIM._crop_border", "torchimage/metrics/ssim.py:SSIM.forward"])
p("MS_SSIM size check is sufficient",
  "If MS_SSIM's size assertion passes, every level's image is at least as large as the blur window, so no level fails; if a level is too small the assertion fails first.",
  "all shapes, level counts, kernel sizes", "All sizes and level counts.", ["torchimage/metrics/ssim.py:MS_SSIM._check_shape_large_enough", "torchimage/metrics/ssim.py:MS_SSIM._downsample"])
p("MS_SSIM is 1 on identical images for any number of levels",
  "MS_SSIM(weights).forward(x,x) = 1 with use_prod (sum of the weights otherwise), for every nonempty list of weights.",
  "all nonempty weight lists, contents, shapes", "All level counts.", ["torchimage/metrics/ssim.py:MS_SSIM.forward"])
p("Bayer 1-channel/4-channel conversions are inverse",
  "bayer_4c_to_1c(bayer_1c_to_4c(x)) = x and bayer_1c_to_4c(bayer_4c_to_1c(y)) = y, independent of the torch.empty buffer.",
  "all batch ranks and even sizes, contents", "All shapes/contents.", ["torchimage/cfa/utils/bayer_1c_4c.py:bayer_1c_to_4c", "torchimage/cfa/utils/bayer_1c_4c.py:bayer_4c_to_1c"])
p("RGB to Bayer conversions agree",
  "bayer_1c_to_4c(rgb_to_1c_bayer(x,sa)) = rgb_to_4c_bayer(x,sa), and each output sample is the channel named by the pattern at that position.",
  "all batch ranks, even sizes, four patterns", "All shapes.", ["torchimage/cfa/utils/rgb_to_bayer.py:rgb_to_1c_bayer", "torchimage/cfa/utils/rgb_to_bayer.py:rgb_to_4c_bayer"])
p("Sensor alignment validation",
  "check_sensor_alignment accepts exactly the case variants of GBRG, GRBG, BGGR, RGGB and returns the upper-case pattern.",
  "all strings", "All strings.", ["torchimage/cfa/utils/validation.py:check_sensor_alignment"])
p("Bayer positions partition the pixel grid",
  "For every accepted pattern the four positions R, B, GR, GB returned by get_sensor_beg_index are the four distinct residues mod 2, carry the right colour, and GR/GB share the row of R/B.",
  "all patterns", "Finite, but used by all proofs.", ["torchimage/cfa/bayer_conv/bayer_conv_2d.py:get_sensor_beg_index"])
p("Downsampling a mosaic takes R, mean G, B of each 2x2 block",
  "downsample_1c_bayer_to_rgb(x,sa)[.., :, i, j] = (R sample, mean of the two G samples, B sample) of block (i,j).",
  "all batch ranks, even sizes, patterns", "All shapes.", ["torchimage/cfa/utils/bayer_to_rgb.py:downsample_4c_bayer_to_rgb"])
p("Demosaicing keeps measured samples",
  "demosaic(b, sa) re-mosaicked with rgb_to_1c_bayer returns clamp(b): at every pixel the measured colour is kept and every output element is written.",
  "all batch ranks, even sizes, patterns, contents and buffer contents", "All contents.", ["torchimage/cfa/bayer_conv/bayer_conv_2d.py:last_step_demosaic", "torchimage/cfa/bayer_conv/bayer_conv_2d.py:PreTrainedBilinearInterpolator.forward"])
p("Demosaicing is exact on flat images",
  "demosaic of the mosaic of a gray constant image in [0,clamp] is that constant image everywhere including borders; in the interior any gray affine image is reproduced.",
  "all sizes, patterns, constants, affine images", "All sizes and contents.", ["torchimage/cfa/bayer_conv/gradient_corrected.py:wf_dict"])
p("BayerConv2d computes centred convolutions on each phase",
  "BayerConv2d output at pixel (r,c) is the convolution, by the filter of that pixel's position class, of the reflect-extended input centred at (r,c).",
  "all odd kernel sizes, even image sizes, patterns, weights", "Index arithmetic over all sizes.", ["torchimage/cfa/bayer_conv/bayer_conv_2d.py:BayerConv2d.forward", "torchimage/cfa/bayer_conv/bayer_conv_2d.py:get_padding_layer"])
p("forward_unshuffle is pixel_unshuffle of forward",
  "BayerConv2d.forward_unshuffle(x, sa) = pixel_unshuffle(BayerConv2d.forward(x, sa), 2).",
  "all even sizes, channel counts, patterns, weights", "All sizes.", ["torchimage/cfa/bayer_conv/bayer_conv_2d.py:BayerConv2d.forward_unshuffle"])
p("poly1d evaluates the polynomial",
  "poly1d(x, [a_n..a_0]) = sum a_i x^i elementwise for every nonempty coefficient list.",
  "all coefficient lists, tensors", "All degrees.", ["torchimage/misc/polynomial.py:poly1d"])
p("outer is the outer product",
  "outer(u,v).shape = u.shape+v.shape and outer(u,v)[i..j..] = u[i..]*v[j..].",
  "all ranks and shapes", "All ranks.", ["torchimage/misc/outer.py:outer"])
p("safe_power is elementwise and total",
  "safe_power(x,e) at each position is x^e for integral e or positive x, -(|x|^e) for negative x and fractional e, eps^e for x=0 and fractional e, independent of other elements.",
  "all broadcastable tensors, epsilon > 0", "The any() shortcuts couple elements; all mask patterns.", ["torchimage/misc/power.py:safe_power"])
p("random_crop returns a contiguous block of the requested size",
  "random_crop(x, axes, size) returns a contiguous sub-block with the requested size for any random draw, every admissible offset is reachable, and the full size is allowed.",
  "all shapes, sizes <= shape, all random draws", "All random draws.", ["torchimage/random.py:random_crop"])
json.dump  # noqa
open('/verif/properties.jsonl','w').write("".join(json.dumps(x)+"\n" for x in P))
print(len(P))
