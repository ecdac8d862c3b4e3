{"id": "C01", "title": "Circular padding is the periodic extension", "statement": "Padder(pad_width, mode='circular').forward(x, axes) puts at every output position, along each padded axis, the input element whose coordinate is (position - pad_before) modulo the axis length; no position outside the padded axis' lines changes.", "quantifier": "every tensor rank and shape with padded axes of length >= 1, every pair of widths (any number of wrap-arounds), every tensor content", "why_tests_cant": "The repository's own tests only compare against numpy/pywt for widths not exceeding the axis length, because the references are wrong beyond that; the claim is for every width, shape and content.", "anchors": ["torchimage/padding/pad_1d.py:circular_1d", "torchimage/padding/generic_pad.py:Padder.forward"]}
{"id": "C02", "title": "Symmetric padding is the half-sample symmetric extension", "statement": "mode='symmetric': the element at offset t from the original start along a padded axis of length n equals the input element at m if m<n and at 2n-1-m otherwise, where m = t mod 2n, whichever of the cached/uncached code paths is taken.", "quantifier": "every rank, every axis length >= 1, every pair of widths, every content", "why_tests_cant": "The repository's own tests only compare against numpy/pywt for widths not exceeding the axis length, because the references are wrong beyond that; the claim is for every width, shape and content.", "anchors": ["torchimage/padding/pad_1d.py:symmetric_1d"]}
{"id": "C03", "title": "Antisymmetric padding is the half-sample antisymmetric extension", "statement": "mode='antisymmetric': with m = t mod 2n the element is x[m] when m<n and -x[2n-1-m] otherwise, including axes with a single element.", "quantifier": "every rank, every axis length >= 1, every pair of widths, every content", "why_tests_cant": "The repository's own tests only compare against numpy/pywt for widths not exceeding the axis length, because the references are wrong beyond that; the claim is for every width, shape and content.", "anchors": ["torchimage/padding/pad_1d.py:symmetric_1d"]}
{"id": "C04", "title": "Reflect padding is the whole-sample symmetric extension", "statement": "mode='reflect': for axis length n>=2 the element at offset t is x[m] if m<n else x[2n-2-m] with m = t mod (2n-2); for n=1 it is the only element. The three code paths (replicate, circular, cached/uncached reflection) agree with this single formula.", "quantifier": "every rank, every axis length >= 1, every pair of widths, every content", "why_tests_cant": "The repository's own tests only compare against numpy/pywt for widths not exceeding the axis length, because the references are wrong beyond that; the claim is for every width, shape and content.", "anchors": ["torchimage/padding/pad_1d.py:reflect_1d"]}
{"id": "C05", "title": "Odd-reflect padding is point reflection about the edge sample", "statement": "mode='odd_reflect': the extension g satisfies g(t)=x[t] on the original, g(-t)=2*x[0]-x[t], and g(t+2(n-1)) = g(t)+2*(x[n-1]-x[0]) for every t, for any width.", "quantifier": "every rank, every axis length >= 1, every pair of widths, every content", "why_tests_cant": "The repository's own tests only compare against numpy/pywt for widths not exceeding the axis length, because the references are wrong beyond that; the claim is for every width, shape and content.", "anchors": ["torchimage/padding/pad_1d.py:odd_reflect_1d"]}
{"id": "C06", "title": "Odd-symmetric padding is point reflection about the half sample", "statement": "mode='odd_symmetric': g(t)=x[t] on the original, g(-1-t)=2*x[0]-x[t], and g(t+2n)=g(t)+2*(x[n-1]-x[0]) for every t, for any width.", "quantifier": "every rank, every axis length >= 1, every pair of widths, every content", "why_tests_cant": "The repository's own tests only compare against numpy/pywt for widths not exceeding the axis length, because the references are wrong beyond that; the claim is for every width, shape and content.", "anchors": ["torchimage/padding/pad_1d.py:odd_symmetric_1d"]}
{"id": "C07", "title": "Replicate padding clamps the coordinate", "statement": "mode='replicate': output element is the input element at the coordinate clamped to [0, n-1].", "quantifier": "every rank, axis length >= 1, widths, content", "why_tests_cant": "Random tests sample shapes; the claim is universal.", "anchors": ["torchimage/padding/pad_1d.py:replicate_1d"]}
{"id": "C08", "title": "Smooth padding extrapolates linearly", "statement": "mode='smooth': before the start the value at offset -d is x[0]-d*(x[1]-x[0]); after the end the value d past the last is x[n-1]+d*(x[n-1]-x[n-2]); with n=1 it is replication.", "quantifier": "every rank, axis length >= 1, widths, content", "why_tests_cant": "Tests skip width 0 and length 1 (reference is ill-defined there).", "anchors": ["torchimage/padding/pad_1d.py:smooth_1d"]}
{"id": "C09", "title": "Linear-ramp padding is affine from the edge sample to the end value", "statement": "mode='linear_ramp': along each padded side of width w the values move in w equal steps from the edge sample to the end value, reaching the end value exactly at the border of the padded tensor.", "quantifier": "every rank, axis length >= 1, widths, end values and content", "why_tests_cant": "Needs all widths and values, exact arithmetic.", "anchors": ["torchimage/padding/pad_1d.py:linear_ramp_1d"]}
{"id": "C10", "title": "Statistic padding uses the clipped window", "statement": "modes maximum/mean/median/minimum: every padded element on a side is the statistic of the first (last) clip(stat_length,1,n) elements of its own line, or of the entire line for None; the statistic lies between the window's minimum and maximum, and the median is the lower median.", "quantifier": "every rank, axis length >= 1, widths, stat_length values incl. 0, negative and oversized, content", "why_tests_cant": "Clipping and both-None shortcut interact with all widths.", "anchors": ["torchimage/padding/pad_1d.py:stat_1d", "torchimage/padding/generic_pad.py:Padder._fill_value_1d"]}
{"id": "C11", "title": "Constant padding writes the side's constant", "statement": "mode='constant': elements before the original along the axis equal constant_values[0], after equal constant_values[1]; later axes override corners.", "quantifier": "every rank, widths, constants, content", "why_tests_cant": "Corner ordering must hold for every axis sequence.", "anchors": ["torchimage/padding/pad_1d.py:constant_1d"]}
{"id": "C12", "title": "Periodize padding first makes the length even", "statement": "mode='periodize': with n'=n+(n mod 2) and the last sample repeated when n is odd, the output along that axis has length before+n'+after and is the period-n' extension; this holds even for width (0,0).", "quantifier": "every rank, axis length >= 1, widths, content", "why_tests_cant": "The outer allocation and inner fill live in different functions and must agree for all parities and widths.", "anchors": ["torchimage/padding/pad_1d.py:periodize_1d", "torchimage/padding/generic_pad.py:Padder.forward"]}
{"id": "C13", "title": "Padding keeps the original in place and has the documented shape", "statement": "Padder.forward returns a tensor whose length on each padded axis is before+n+after (plus n mod 2 for periodize) and unchanged elsewhere, and whose block starting at 'before' on each axis is exactly the input tensor, for every mode.", "quantifier": "all ranks, shapes, axes lists without repetition, modes per axis, widths per axis, contents", "why_tests_cant": "Combinations of modes per axis are unbounded.", "anchors": ["torchimage/padding/generic_pad.py:Padder.forward"]}
{"id": "C14", "title": "N-d padding equals sequential one-axis padding", "statement": "Padder.forward (one allocation, in-place fills) yields the same tensor as padding the axes one at a time, in the given order, each with its own mode/width/parameters applied to the result of the previous one.", "quantifier": "all ranks, shapes, axes orders, per-axis mode lists and widths", "why_tests_cant": "The in-place algorithm restricts each fill to an 'already valid' region; correctness is an invariant over the axis loop.", "anchors": ["torchimage/padding/generic_pad.py:Padder.forward", "torchimage/padding/generic_pad.py:Padder._fill_value_1d", "torchimage/padding/utils.py:modify_idx"]}
{"id": "C15", "title": "Padding never exposes uninitialised memory", "statement": "Except for mode 'empty', the output of Padder.forward does not depend on the contents of the freshly allocated torch.empty buffer.", "quantifier": "all modes, ranks, shapes, widths and all possible initial buffer contents", "why_tests_cant": "A test only sees whatever garbage the allocator returned (often zeros).", "anchors": ["torchimage/padding/generic_pad.py:Padder.forward"]}
{"id": "C16", "title": "Zeros mode pads with zeros", "statement": "Padder(w, mode='zeros').forward(x) equals constant padding with 0.", "quantifier": "all shapes, widths and buffer contents", "why_tests_cant": "The allocator frequently returns zeroed pages, hiding a missing write.", "anchors": ["torchimage/padding/generic_pad.py:Padder._fill_value_1d", "torchimage/padding/pad_1d.py:zeros_1d"]}
{"id": "C17", "title": "Padding terminates", "statement": "Padder.forward terminates for every mode and every input tensor, including tensors with an empty padded axis.", "quantifier": "all modes, shapes (including 0-length axes) and widths", "why_tests_cant": "Non-termination cannot be observed by a finite test.", "anchors": ["torchimage/padding/pad_1d.py:circular_1d", "torchimage/padding/pad_1d.py:symmetric_1d", "torchimage/padding/pad_1d.py:reflect_1d", "torchimage/padding/pad_1d.py:odd_symmetric_1d", "torchimage/padding/pad_1d.py:odd_reflect_1d"]}
{"id": "C18", "title": "pad_axis agrees with forward on that axis", "statement": "Padder.pad_axis(x, i, axis) returns the same tensor as Padder.forward(x, axes=(axis,)) for a padder whose only specification is the i-th.", "quantifier": "all ranks, axes, modes, widths", "why_tests_cant": "Two separate allocation computations must agree for every parity and width.", "anchors": ["torchimage/padding/generic_pad.py:Padder.pad_axis", "torchimage/padding/generic_pad.py:Padder.forward"]}
{"id": "C19", "title": "Same padding gives ceil(in/stride) outputs", "statement": "same_padding_width(k, s, n) returns nonnegative (before, after) with 0 <= before-after <= 1 such that a window of size k and stride s over n+before+after elements has exactly ceil(n/s) positions; with s=1 exactly n.", "quantifier": "all kernel sizes >= 1, strides >= 1, input sizes >= 1", "why_tests_cant": "Unbounded integers, floor/ceil corner cases.", "anchors": ["torchimage/padding/utils.py:same_padding_width", "torchimage/shapes/conv_like.py:conv_1d"]}
{"id": "C20", "title": "Same padding lets the kernel cover every element", "statement": "With same padding every element of the original axis lies in at least one window ('letting the kernel cover every element of the original tensor').", "quantifier": "all kernel sizes, strides, input sizes", "why_tests_cant": "Arithmetic over all sizes.", "anchors": ["torchimage/padding/utils.py:same_padding_width"]}
{"id": "C21", "title": "pad width format conversions are inverse", "statement": "pad_width_format numpy->torch->numpy (with ndim = number of axes) is the identity, torch->numpy right-justifies and fills (0,0) on the left, and torch->numpy->torch only appends zeros.", "quantifier": "all lists of pairs, all ndim", "why_tests_cant": "Lists of any length.", "anchors": ["torchimage/padding/utils.py:pad_width_format"]}
{"id": "C22", "title": "Same-padding state does not leak between calls", "statement": "Calling a pooling module that owns a same padder any number of times with any inputs/axes does not change the result of a later call: the result equals that of a freshly built module.", "quantifier": "all finite histories of forward/pad calls with arbitrary input shapes and axes, including failing calls", "why_tests_cant": "History-dependent: Padder.to_same mutates the shared padder in place.", "anchors": ["torchimage/padding/generic_pad.py:Padder.to_same", "torchimage/pooling/base.py:BasePoolNd.pad"]}
{"id": "C23", "title": "check_axes returns only valid axis numbers or raises", "statement": "check_axes(x, axes) either raises or returns axis numbers in [0, ndim).", "quantifier": "all ranks and all axes arguments (None, slice, int, sequences)", "why_tests_cant": "All integers.", "anchors": ["torchimage/utils/validation.py:check_axes"]}
{"id": "C24", "title": "Validators for stride and pad width", "statement": "check_stride accepts exactly None and integers >= 1, check_pad_width exactly pairs of nonnegative integers, returning them unchanged.", "quantifier": "all integers", "why_tests_cant": "All integers.", "anchors": ["torchimage/utils/validation.py:check_stride", "torchimage/utils/validation.py:check_pad_width"]}
{"id": "C25", "title": "n_original_elements_1d counts the receptive field overlap", "statement": "n_original_elements_1d(n,(pb,pa),k,s) is the list whose j-th entry is the number of original positions in window j, of length equal to the number of windows.", "quantifier": "all n >= 0, pb, pa >= 0, k >= 1, s >= 1", "why_tests_cant": "Closed-form case analysis with four phases; tests sample 20 random small tuples (and stop at the first infeasible one).", "anchors": ["torchimage/shapes/conv_like.py:n_original_elements_1d"]}
{"id": "C26", "title": "conv_1d counts window positions", "statement": "conv_1d(n,k,s,d) is the number of j>=0 with j*s+d*(k-1) < n whenever at least one window fits.", "quantifier": "all n, k, s, d >= 1", "why_tests_cant": "All integers.", "anchors": ["torchimage/shapes/conv_like.py:conv_1d"]}
{"id": "C27", "title": "n_original_elements_nd is the outer product of per-axis counts", "statement": "n_original_elements_nd(...)[j1..jd] equals the product of the per-axis counts, i.e. the number of original elements of the d-dimensional window.", "quantifier": "all dimension counts and sizes", "why_tests_cant": "Arbitrary rank.", "anchors": ["torchimage/shapes/conv_like.py:n_original_elements_nd", "torchimage/misc/outer.py:outer"]}
{"id": "C28", "title": "A single item broadcasts to every index", "statement": "If data matches item_shape, NdSpec(data, item_shape)[i] returns that item for every integer or tuple i, and len is 0.", "quantifier": "all data trees, item shapes and keys", "why_tests_cant": "All keys.", "anchors": ["torchimage/utils/ndspec.py:NdSpec.__init__", "torchimage/utils/ndspec.py:NdSpec.__getitem__"]}
{"id": "C29", "title": "A partial item is broadcast to the item shape", "statement": "NdSpec(scalar, item_shape=s) is a single item: the nested tuple of shape s (with -1 read as 1) filled with the scalar.", "quantifier": "all scalars and item shapes", "why_tests_cant": "All shapes.", "anchors": ["torchimage/utils/ragged.py:expand_ragged_ndarray", "torchimage/utils/ndspec.py:NdSpec"]}
{"id": "C30", "title": "A list of items is indexed like a list", "statement": "NdSpec of a list of n complete items has len n, returns the i-th item for 0<=i<n and the (n+i)-th for -n<=i<0, and raises IndexError otherwise; incomplete items are broadcast individually.", "quantifier": "all lists of items and keys", "why_tests_cant": "All lengths and keys.", "anchors": ["torchimage/utils/ndspec.py:NdSpec.__getitem__"]}
{"id": "C31", "title": "NdSpec.apply and zip work item-wise with broadcasting", "statement": "NdSpec.apply(f, a1..ak) exists iff all non-single index shapes agree; then item i is f(a1[i],..,ak[i]); the result does not depend on argument grouping and raises ValueError on mismatch.", "quantifier": "all specs and functions", "why_tests_cant": "All shapes and functions.", "anchors": ["torchimage/utils/ndspec.py:NdSpec.apply", "torchimage/utils/ndspec.py:NdSpec.agg_index_shape"]}
{"id": "C32", "title": "NdSpec.map keeps the index shape", "statement": "spec.map(f) has the same index shape and its items are f of the items.", "quantifier": "all specs and functions", "why_tests_cant": "All functions, incl. ones returning nested data.", "anchors": ["torchimage/utils/ndspec.py:NdSpec.map", "torchimage/utils/ragged.py:apply_ragged_ndarray"]}
{"id": "C33", "title": "Ragged shape inference is sound", "statement": "get_ragged_ndarray(data, strict=True) returns data unchanged and a shape such that every path of that depth exists and at each axis every node has the stated length, or lengths differ when -1 is reported.", "quantifier": "all nested data", "why_tests_cant": "All trees.", "anchors": ["torchimage/utils/ragged.py:get_ragged_ndarray"]}
{"id": "C34", "title": "Non-strict ragged inference levels the tree", "statement": "get_ragged_ndarray(data, strict=False) returns a tree in which every leaf is at the same depth, equal to the maximal depth of the input, and which has the same leaves in the same order.", "quantifier": "all nested data", "why_tests_cant": "All trees.", "anchors": ["torchimage/utils/ragged.py:get_ragged_ndarray"]}
{"id": "C35", "title": "Ragged expansion conforms to the target shape", "statement": "When expand_ragged_ndarray(data, old, new) succeeds, the result has the returned shape, every non -1 entry of new is met, and each leaf is the broadcast source leaf; it raises on non-singleton mismatch.", "quantifier": "all trees and shapes", "why_tests_cant": "All trees.", "anchors": ["torchimage/utils/ragged.py:expand_ragged_ndarray"]}
{"id": "C36", "title": "Separable pooling equals full correlation with the outer-product kernel", "statement": "SeparablePoolNd(kernels, stride).forward(x, axes) at output position j is the sum over all kernel offsets of the product of the per-axis weights times the (padded) input at j*stride+offset.", "quantifier": "all ranks, shapes, kernels, strides and distinct axes", "why_tests_cant": "Tests compare a few shapes up to rounding; the algebraic identity is over all contents.", "anchors": ["torchimage/pooling/base.py:SeparablePoolNd.forward"]}
{"id": "C37", "title": "Pooling output shape", "statement": "Each pooled axis of length n becomes (n-k)//s+1 (valid) or ceil(n/s) (same padding); other axes are unchanged; to_filter with a same padder preserves the shape.", "quantifier": "all ranks, shapes, kernel sizes, strides", "why_tests_cant": "All sizes.", "anchors": ["torchimage/pooling/base.py:SeparablePoolNd.forward", "torchimage/pooling/base.py:BasePoolNd.to_filter"]}
{"id": "C38", "title": "Pooling is linear and preserves constants", "statement": "forward(a*x+b*y)=a*forward(x)+b*forward(y) for index-gathering padding modes, and a constant image stays constant when every kernel sums to 1.", "quantifier": "all ranks, shapes, kernels, scalars", "why_tests_cant": "All contents.", "anchors": ["torchimage/pooling/base.py:SeparablePoolNd.forward"]}
{"id": "C39", "title": "Average pooling averages", "statement": "AvgPoolNd(k, s) without padding returns the arithmetic mean of each window; its value lies between the window minimum and maximum.", "quantifier": "all ranks, shapes, kernel sizes, strides, contents", "why_tests_cant": "All contents.", "anchors": ["torchimage/pooling/uniform.py:AvgPoolNd"]}
{"id": "C40", "title": "count_include_pad=False averages only original elements", "statement": "AvgPoolNd(count_include_pad=False, same_padder=constant 0) returns, for each window, the mean of exactly the original elements in it, for any order of distinct axes.", "quantifier": "all ranks, shapes, sizes, axes orders", "why_tests_cant": "Unsorted axes and unequal output sizes never tested.", "anchors": ["torchimage/pooling/uniform.py:AvgPoolNd.forward"]}
{"id": "C41", "title": "Gaussian kernels are normalised and symmetric", "statement": "gaussian_kernel_1d(ks, sigma, 0) has length ks, positive entries, sums to 1 for odd and even ks, and is symmetric and unimodal for odd ks.", "quantifier": "all kernel sizes >= 1 and real sigma != 0", "why_tests_cant": "All reals.", "anchors": ["torchimage/pooling/gaussian.py:gaussian_kernel_1d"]}
{"id": "C42", "title": "Gaussian derivative kernels sample the derivative", "statement": "gaussian_kernel_1d(ks, sigma, n) for odd ks consists of the n-th derivative of the normalised Gaussian at the (negated) integer offsets; odd orders are antisymmetric with zero sum.", "quantifier": "all orders n, odd ks, sigma != 0", "why_tests_cant": "All orders and reals.", "anchors": ["torchimage/pooling/gaussian.py:_gaussian_kernel1d"]}
{"id": "C43", "title": "any_conv_1d is strided dilated correlation along one axis", "statement": "any_conv_1d(x, w, dim, stride, dilation)[.., j, ..] = sum_k w[k]*x[.., j*stride+k*dilation, ..], on any axis incl. negative, with the other axes unchanged.", "quantifier": "all ranks, shapes, axes, kernels, strides, dilations", "why_tests_cant": "Implemented by reshaping; must hold for all shapes.", "anchors": ["torchimage/pooling/operator.py:any_conv_1d"]}
{"id": "C44", "title": "Edge fast path equals correlation", "statement": "EdgeFilter.component gives the correlation of the padded input with the supplied edge kernel along the edge axis (then smoothing), whatever the kernel values.", "quantifier": "all kernels, shapes, axes", "why_tests_cant": "The fast path is selected by truncating the kernel entries to int.", "anchors": ["torchimage/filtering/edges.py:EdgeFilter._conv_edge"]}
{"id": "C45", "title": "Edge filters vanish on constant images", "statement": "Sobel/Prewitt/Scharr/Farid/Laplace responses are zero on constant images with any index-gathering padder and components keep the input shape.", "quantifier": "all ranks, shapes, constants, padders", "why_tests_cant": "All shapes and contents.", "anchors": ["torchimage/filtering/edges.py:EdgeFilter"]}
{"id": "C46", "title": "Laplace sums per-axis second differences", "statement": "Laplace().forward(x, axes) = sum over axes of x[+1]-2x[0]+x[-1] on the padded input.", "quantifier": "all ranks, shapes, axes lists", "why_tests_cant": "All contents.", "anchors": ["torchimage/filtering/edges.py:Laplace", "torchimage/filtering/edges.py:EdgeFilter.magnitude"]}
{"id": "C47", "title": "LaplacianOfGaussian uses the Gaussian second-derivative kernel", "statement": "For every kernel size and sigma, LaplacianOfGaussian correlates each edge axis with gaussian_kernel_1d(ks, sigma, 2).", "quantifier": "all kernel sizes and sigmas", "why_tests_cant": "A continuum of sigma; fails only in a narrow band.", "anchors": ["torchimage/filtering/edges.py:LaplacianOfGaussian", "torchimage/filtering/edges.py:EdgeFilter._conv_edge"]}
{"id": "C48", "title": "Unsharp masking formula", "statement": "UnsharpMask(blur, a, t).forward(x) = x + a*d with d = x-blur(x), where entries of d with |d|<t are zeroed if t>0; a=0 is the identity and constants are fixed points.", "quantifier": "all contents, amounts, thresholds, shapes", "why_tests_cant": "All contents.", "anchors": ["torchimage/filtering/sharpen.py:UnsharpMask.forward"]}
{"id": "C49", "title": "MSE is a metric-like score", "statement": "MSE 'none' is the elementwise squared difference, 'sum'/'mean' reduce exactly the requested axes; the score is nonnegative, symmetric, and zero iff the images agree on the reduced block; sum = count*mean.", "quantifier": "all ranks, shapes, axes, contents", "why_tests_cant": "All contents.", "anchors": ["torchimage/metrics/mse.py:MSE", "torchimage/metrics/base.py:BaseMetric"]}
{"id": "C50", "title": "PSNR formula and monotonicity", "statement": "PSNR = 10*log10(max^2/(mse+eps)), strictly decreasing in mse and symmetric in the images.", "quantifier": "all positive max values, eps >= 0, contents with positive mse", "why_tests_cant": "All reals.", "anchors": ["torchimage/metrics/psnr.py:PSNR"]}
{"id": "C51", "title": "SSIM is symmetric, 1 on identical images and bounded by 1", "statement": "SSIM(x,y)=SSIM(y,x); SSIM(x,x)=1; |SSIM|<=1 whenever the blur is a nonnegative normalised window (and the padder commutes with products).", "quantifier": "all ranks, shapes, contents, windows", "why_tests_cant": "Inequality over all real images.", "anchors": ["torchimage/metrics/ssim.py:SSIM"]}
{"id": "C52", "title": "SSIM crop_border removes all padding influence", "statement": "With crop_border=True the cropped full map, hence the score, does not depend on the padding mode: it equals the map computed without padding.", "quantifier": "all padders, shapes, windows, contents", "why_tests_cant": "All padders and contents.", "anchors": ["torchimage/metrics/ssim.py:SSIM._crop_border", "torchimage/metrics/ssim.py:SSIM.forward"]}
{"id": "C53", "title": "MS_SSIM size check is sufficient", "statement": "If MS_SSIM's size assertion passes, every level's image is at least as large as the blur window, so no level fails; if a level is too small the assertion fails first.", "quantifier": "all shapes, level counts, kernel sizes", "why_tests_cant": "All sizes and level counts.", "anchors": ["torchimage/metrics/ssim.py:MS_SSIM._check_shape_large_enough", "torchimage/metrics/ssim.py:MS_SSIM._downsample"]}
{"id": "C54", "title": "MS_SSIM is 1 on identical images for any number of levels", "statement": "MS_SSIM(weights).forward(x,x) = 1 with use_prod (sum of the weights otherwise), for every nonempty list of weights.", "quantifier": "all nonempty weight lists, contents, shapes", "why_tests_cant": "All level counts.", "anchors": ["torchimage/metrics/ssim.py:MS_SSIM.forward"]}
{"id": "C55", "title": "Bayer 1-channel/4-channel conversions are inverse", "statement": "bayer_4c_to_1c(bayer_1c_to_4c(x)) = x and bayer_1c_to_4c(bayer_4c_to_1c(y)) = y, independent of the torch.empty buffer.", "quantifier": "all batch ranks and even sizes, contents", "why_tests_cant": "All shapes/contents.", "anchors": ["torchimage/cfa/utils/bayer_1c_4c.py:bayer_1c_to_4c", "torchimage/cfa/utils/bayer_1c_4c.py:bayer_4c_to_1c"]}
{"id": "C56", "title": "RGB to Bayer conversions agree", "statement": "bayer_1c_to_4c(rgb_to_1c_bayer(x,sa)) = rgb_to_4c_bayer(x,sa), and each output sample is the channel named by the pattern at that position.", "quantifier": "all batch ranks, even sizes, four patterns", "why_tests_cant": "All shapes.", "anchors": ["torchimage/cfa/utils/rgb_to_bayer.py:rgb_to_1c_bayer", "torchimage/cfa/utils/rgb_to_bayer.py:rgb_to_4c_bayer"]}
{"id": "C57", "title": "Sensor alignment validation", "statement": "check_sensor_alignment accepts exactly the case variants of GBRG, GRBG, BGGR, RGGB and returns the upper-case pattern.", "quantifier": "all strings", "why_tests_cant": "All strings.", "anchors": ["torchimage/cfa/utils/validation.py:check_sensor_alignment"]}
{"id": "C58", "title": "Bayer positions partition the pixel grid", "statement": "For every accepted pattern the four positions R, B, GR, GB returned by get_sensor_beg_index are the four distinct residues mod 2, carry the right colour, and GR/GB share the row of R/B.", "quantifier": "all patterns", "why_tests_cant": "Finite, but used by all proofs.", "anchors": ["torchimage/cfa/bayer_conv/bayer_conv_2d.py:get_sensor_beg_index"]}
{"id": "C59", "title": "Downsampling a mosaic takes R, mean G, B of each 2x2 block", "statement": "downsample_1c_bayer_to_rgb(x,sa)[.., :, i, j] = (R sample, mean of the two G samples, B sample) of block (i,j).", "quantifier": "all batch ranks, even sizes, patterns", "why_tests_cant": "All shapes.", "anchors": ["torchimage/cfa/utils/bayer_to_rgb.py:downsample_4c_bayer_to_rgb"]}
{"id": "C60", "title": "Demosaicing keeps measured samples", "statement": "demosaic(b, sa) re-mosaicked with rgb_to_1c_bayer returns clamp(b): at every pixel the measured colour is kept and every output element is written.", "quantifier": "all batch ranks, even sizes, patterns, contents and buffer contents", "why_tests_cant": "All contents.", "anchors": ["torchimage/cfa/bayer_conv/bayer_conv_2d.py:last_step_demosaic", "torchimage/cfa/bayer_conv/bayer_conv_2d.py:PreTrainedBilinearInterpolator.forward"]}
{"id": "C61", "title": "Demosaicing is exact on flat images", "statement": "demosaic of the mosaic of a gray constant image in [0,clamp] is that constant image everywhere including borders; in the interior any gray affine image is reproduced.", "quantifier": "all sizes, patterns, constants, affine images", "why_tests_cant": "All sizes and contents.", "anchors": ["torchimage/cfa/bayer_conv/gradient_corrected.py:wf_dict"]}
{"id": "C62", "title": "BayerConv2d computes centred convolutions on each phase", "statement": "BayerConv2d output at pixel (r,c) is the convolution, by the filter of that pixel's position class, of the reflect-extended input centred at (r,c).", "quantifier": "all odd kernel sizes, even image sizes, patterns, weights", "why_tests_cant": "Index arithmetic over all sizes.", "anchors": ["torchimage/cfa/bayer_conv/bayer_conv_2d.py:BayerConv2d.forward", "torchimage/cfa/bayer_conv/bayer_conv_2d.py:get_padding_layer"]}
{"id": "C63", "title": "forward_unshuffle is pixel_unshuffle of forward", "statement": "BayerConv2d.forward_unshuffle(x, sa) = pixel_unshuffle(BayerConv2d.forward(x, sa), 2).", "quantifier": "all even sizes, channel counts, patterns, weights", "why_tests_cant": "All sizes.", "anchors": ["torchimage/cfa/bayer_conv/bayer_conv_2d.py:BayerConv2d.forward_unshuffle"]}
{"id": "C64", "title": "poly1d evaluates the polynomial", "statement": "poly1d(x, [a_n..a_0]) = sum a_i x^i elementwise for every nonempty coefficient list.", "quantifier": "all coefficient lists, tensors", "why_tests_cant": "All degrees.", "anchors": ["torchimage/misc/polynomial.py:poly1d"]}
{"id": "C65", "title": "outer is the outer product", "statement": "outer(u,v).shape = u.shape+v.shape and outer(u,v)[i..j..] = u[i..]*v[j..].", "quantifier": "all ranks and shapes", "why_tests_cant": "All ranks.", "anchors": ["torchimage/misc/outer.py:outer"]}
{"id": "C66", "title": "safe_power is elementwise and total", "statement": "safe_power(x,e) at each position is x^e for integral e or positive x, -(|x|^e) for negative x and fractional e, eps^e for x=0 and fractional e, independent of other elements.", "quantifier": "all broadcastable tensors, epsilon > 0", "why_tests_cant": "The any() shortcuts couple elements; all mask patterns.", "anchors": ["torchimage/misc/power.py:safe_power"]}
{"id": "C67", "title": "random_crop returns a contiguous block of the requested size", "statement": "random_crop(x, axes, size) returns a contiguous sub-block with the requested size for any random draw, every admissible offset is reachable, and the full size is allowed.", "quantifier": "all shapes, sizes <= shape, all random draws", "why_tests_cant": "All random draws.", "anchors": ["torchimage/random.py:random_crop"]}
{"id": "C68", "title": "BayerConv2d rejects images with an odd side", "statement": "BayerConv2d.forward raises when the height or the width is odd, instead of returning an image.", "quantifier": "all odd kernel sizes, sizes, patterns, weights", "why_tests_cant": "All sizes; the tests use even sizes only.", "anchors": ["torchimage/cfa/bayer_conv/bayer_conv_2d.py:BayerConv2d.forward"]}
{"id": "C69", "title": "Demosaicing is exact channel by channel", "statement": "demosaic of the mosaic of an image with one constant colour in [0,clamp] is that image everywhere; if each channel is affine in the pixel coordinates, with its own coefficients, the image is reproduced in the interior wherever its values are in [0,clamp].", "quantifier": "height and width at least 4 and even, at most one batch axis, all patterns, contents", "why_tests_cant": "All sizes and contents.", "anchors": ["torchimage/cfa/bayer_conv/gradient_corrected.py:wf_dict", "torchimage/cfa/bayer_conv/bayer_conv_2d.py:last_step_demosaic"]}
{"id": "C70", "title": "Padding is linear", "statement": "Padder.forward(a x + b y) = a Padder.forward(x) + b Padder.forward(y) for replicate, smooth, circular, periodize, (odd_)reflect, (anti/odd_)symmetric, mean, constant 0 and linear_ramp with end value 0, in any combination over the axes.", "quantifier": "all shapes, widths, contents, coefficients", "why_tests_cant": "All shapes, widths and contents.", "anchors": ["torchimage/padding/generic_pad.py:Padder.forward", "torchimage/padding/pad_1d.py"]}
{"id": "C71", "title": "Padding keeps constant images constant", "statement": "Every mode except antisymmetric, constant, linear_ramp, zeros and empty extends a constant image by the same constant.", "quantifier": "all shapes, widths, mode combinations", "why_tests_cant": "All shapes and widths.", "anchors": ["torchimage/padding/generic_pad.py:Padder.forward"]}
{"id": "C72", "title": "Padding stays in the value range", "statement": "Replicate, circular, periodize, symmetric, reflect, constant and linear_ramp with values in [lo,hi] and the statistics modes keep an image with values in [lo,hi] in [lo,hi].", "quantifier": "all shapes, widths, mode combinations, contents", "why_tests_cant": "All contents.", "anchors": ["torchimage/padding/generic_pad.py:Padder.forward"]}
{"id": "C73", "title": "Documented argument formats build the specs the modules use", "statement": "For before/after parameters (item_shape (2,)) a scalar c, a pair, a list of pairs and a list of singletons give the spec (c,c) for all axes, the pair for all axes, one pair per axis and one repeated value per axis; a flat list of any other length raises ValueError; a kernel or list of kernels (item_shape (-1,)) and a scalar or list of scalars (item_shape ()) likewise; indexing, length aggregation, map and apply on these NdSpec objects give what the modules compute with.", "quantifier": "all values, list lengths, keys and item functions", "why_tests_cant": "All lengths and values.", "anchors": ["torchimage/utils/ndspec.py:NdSpec.__init__", "torchimage/padding/generic_pad.py:Padder.__init__", "torchimage/pooling/base.py:SeparablePoolNd.__init__"]}
{"id": "C74", "title": "Edge and sharpening calls do not depend on earlier calls", "statement": "The result of component, all_components and magnitude of an EdgeFilter, and of UnsharpMask.forward, is the same after any sequence of earlier calls (on other images, axes or sizes, failed or not), although every call rewrites the pad_width of the padder and edge and smoothing filter may share one Padder object.", "quantifier": "all filters, padders (shared or not), call sequences, images", "why_tests_cant": "All call histories.", "anchors": ["torchimage/filtering/edges.py:EdgeFilter.component", "torchimage/filtering/edges.py:EdgeFilter.magnitude", "torchimage/filtering/sharpen.py:UnsharpMask.forward"]}
{"id": "C75", "title": "Gaussian pooling uses one Gaussian kernel per axis and averages", "statement": "GaussianPoolNd(ks, sigma, order, stride) applies gaussian_kernel_1d(ks_r, sigma_r, order_r) on axis r; with order 0 constant images stay constant and every image stays within its range, with and without a same padder.", "quantifier": "all numbers of axes, kernel sizes >= 1, sigmas != 0, orders >= 0, strides, images and constant/range preserving padding modes", "why_tests_cant": "All real sigmas, images and shapes.", "anchors": ["torchimage/pooling/gaussian.py:GaussianPoolNd"]}
{"id": "C76", "title": "MS_SSIM is symmetric", "statement": "MS_SSIM.forward(x,y) and MS_SSIM.forward(y,x) give equal scores, or fail with the same error.", "quantifier": "all images, windows, padders, lists of two or more weights, use_prod or not", "why_tests_cant": "All contents, shapes and level counts.", "anchors": ["torchimage/metrics/ssim.py:MS_SSIM.forward"]}
{"id": "C77", "title": "MS_SSIM is bounded", "statement": "With a nonnegative normalised window, K1 and K2 nonzero and nonnegative weights, MS_SSIM lies in [0,1] with use_prod and in [-S,S], S the sum of the weights, otherwise.", "quantifier": "all images that pass the size check, lists of two or more nonnegative weights", "why_tests_cant": "Inequality over all real images.", "anchors": ["torchimage/metrics/ssim.py:MS_SSIM.forward", "torchimage/metrics/ssim.py:MS_SSIM._cs_full"]}
{"id": "C78", "title": "Edge filters are linear in the image", "statement": "With a linear padding mode (or none) component, components and the Laplace-type sum send a x + b y to a (result of x) + b (result of y).", "quantifier": "all kernels, scalars, images, linear modes", "why_tests_cant": "All kernels, images and scalars.", "anchors": ["torchimage/filtering/edges.py:EdgeFilter.component", "torchimage/filtering/edges.py:EdgeFilter.all_components"]}
{"id": "C79", "title": "Response of an edge filter to a constant image", "statement": "With a mode that extends constants by the same constant, the component of a constant image c is constant: c times the sum of the derivative kernel times the product of the sums of the smoothing kernels.", "quantifier": "all kernels, sizes, axes, constants", "why_tests_cant": "All kernels and dimensions.", "anchors": ["torchimage/filtering/edges.py:EdgeFilter.component"]}
{"id": "C80", "title": "Noise has the stated moments", "statement": "add_gauss_noise keeps the shape and has mean x and variance sigma^2 per pixel; add_poisson_gauss_noise keeps the shape, has mean x and variance k x + sigma^2, and fails only for k = 0 or a negative x/k.", "quantifier": "all images, parameters, random draws with the assumed distribution", "why_tests_cant": "Statements over all distributions of draws.", "anchors": ["torchimage/random.py:add_gauss_noise", "torchimage/random.py:add_poisson_gauss_noise"]}
{"id": "C81", "title": "describe returns order statistics and moments", "statement": "describe gives the exact mean, minimum, quartiles, maximum; they are ordered, independent of the order of pixels; the empty tensor raises.", "quantifier": "all non-empty tensors", "why_tests_cant": "All tensors and permutations.", "anchors": ["torchimage/misc/stats.py:describe"]}
{"id": "C82", "title": "describe is affine equivariant", "statement": "The statistics of a x + b are those of x under v -> a v + b, minimum and maximum and the outer quartiles changing places for a < 0; the standard deviation is multiplied by |a|.", "quantifier": "all tensors and a > 0, b", "why_tests_cant": "All tensors and scalars.", "anchors": ["torchimage/misc/stats.py:describe"]}
{"id": "C83", "title": "pixels_per_degree", "statement": "The h pixel rows of a display with the given diagonal, aspect ratio and distance fill h/p degrees, p the result; p grows with the distance, falls with the diagonal, is unchanged when both are scaled and scales with the resolution; a zero argument raises ZeroDivisionError.", "quantifier": "all resolutions, diagonals, distances", "why_tests_cant": "Real-valued identity over all arguments.", "anchors": ["torchimage/metrics/hdrvdp/pixels_per_degree.py"]}
{"id": "C84", "title": "The deprecated padding pair", "statement": "_same_padding_pair(k) gives b >= a, b - a <= 1, b + a = k - 1 for k >= 1 and (0,0) below; it equals _same_padding_width with stride 1, keeps the axis length, and splits a total width t as pair(t+1).", "quantifier": "all kernel sizes", "why_tests_cant": "All integers.", "anchors": ["torchimage/filtering/utils.py:_same_padding_pair"]}
{"id": "C85", "title": "Values of the edge losses", "statement": "GaussianEdgeLoss, WeightedMul, WeightedDiv and WeightedSum return the documented averages of the GaussianGrad components of prediction and truth along axes 2 and 3, independent of earlier calls.", "quantifier": "all 4-d images, kernel sizes, sigmas, orders", "why_tests_cant": "All real images.", "anchors": ["torchimage/contrib/edge_loss.py:GaussianEdgeLoss.forward", "torchimage/contrib/edge_loss.py:WeightedMul", "torchimage/contrib/edge_loss.py:WeightedDiv", "torchimage/contrib/edge_loss.py:WeightedSum"]}
{"id": "C86", "title": "GaussianEdgeLoss is a pseudometric", "statement": "It is nonnegative, symmetric, 0 on equal images, satisfies the triangle inequality, and is 0 exactly when both edge maps agree.", "quantifier": "all 4-d images, kernel sizes, sigmas, orders", "why_tests_cant": "Inequality over all triples of images.", "anchors": ["torchimage/contrib/edge_loss.py:GaussianEdgeLoss.forward"]}
{"id": "C87", "title": "GaussianEdgeLoss under translation and scaling", "statement": "Adding one image to both arguments leaves the loss unchanged; multiplying both by a multiplies it by |a|.", "quantifier": "all 4-d images, scalars", "why_tests_cant": "All images and scalars.", "anchors": ["torchimage/contrib/edge_loss.py:GaussianEdgeLoss.forward"]}
{"id": "C88", "title": "GaussianEdgeLoss ignores brightness", "statement": "Adding a constant to one of the images does not change the loss.", "quantifier": "all kernel sizes, sigmas, orders, images", "why_tests_cant": "All images and parameters.", "anchors": ["torchimage/contrib/edge_loss.py:GaussianEdgeLoss.forward"]}
{"id": "C89", "title": "WeightedSum is a pseudometric and separates edge maps", "statement": "It is nonnegative, symmetric, 0 on equal images, satisfies the triangle inequality, scales by |a|, and is 0 only if the edge maps agree.", "quantifier": "all 4-d images, kernel sizes, sigmas, orders", "why_tests_cant": "Inequality over all triples of images.", "anchors": ["torchimage/contrib/edge_loss.py:WeightedSum"]}
{"id": "C90", "title": "WeightedMul and WeightedDiv are losses", "statement": "They are defined for all images, nonnegative, and 0 on equal images.", "quantifier": "all 4-d images, kernel sizes, sigmas, orders", "why_tests_cant": "All real images.", "anchors": ["torchimage/contrib/edge_loss.py:WeightedMul", "torchimage/contrib/edge_loss.py:WeightedDiv"]}
{"id": "C91", "title": "horizontal and vertical edges", "statement": "With a copying padding mode, horizontal differentiates along axis -2 and smooths along axis -1, vertical the other way round; a kernel of sum 0 does not see stripes in its direction; vertical of the transposed image is the transposed horizontal; component needs exactly one edge axis.", "quantifier": "all images with two or more axes, kernels, the modes circular, symmetric, reflect, replicate", "why_tests_cant": "All images, kernels and sizes.", "anchors": ["torchimage/filtering/edges.py:EdgeFilter.horizontal", "torchimage/filtering/edges.py:EdgeFilter.vertical", "torchimage/filtering/edges.py:EdgeFilter.component"]}
{"id": "C92", "title": "conv_nd counts windows axis by axis", "statement": "conv_nd returns for each axis the number of window positions for that axis' size, kernel size, stride and dilation, one number given for all axes being repeated; numbers only give a single number; lists of different lengths raise ValueError and a stride of 0 ZeroDivisionError. With dilation 1 these are the sizes returned by a pooling module without padding.", "quantifier": "all numbers or flat lists of integers, of any lengths; all pooling modules and images for the last part", "why_tests_cant": "All argument formats, sizes, strides and dilations.", "anchors": ["torchimage/shapes/conv_like.py:conv_nd", "torchimage/shapes/conv_like.py:conv_1d", "torchimage/utils/ndspec.py:NdSpec.apply"]}
{"id": "C93", "title": "padding commutes with mirroring", "statement": "Padding the image read backwards along an axis, with widths, constant values, end values and stat lengths of that axis exchanged, gives the padded image read backwards along that axis. Excluded: mode empty, and periodize along that axis with odd length, where it fails.", "quantifier": "all images, axes, padders with nonnegative widths, all other built-in modes, mixed modes", "why_tests_cant": "All modes, widths and sizes.", "anchors": ["torchimage/padding/generic_pad.py:Padder.forward"]}
{"id": "C94", "title": "pooling commutes with mirroring", "statement": "Pooling the image read backwards along an axis with the kernel of that axis read backwards gives the output read backwards along that axis: without padding if stride divides length - kernel size; with same padding if the total padding is even (and the padder's values are exchanged).", "quantifier": "all images, separable kernels, strides, axes; all padding modes that fill", "why_tests_cant": "All kernels, strides, sizes and modes.", "anchors": ["torchimage/pooling/base.py:SeparablePoolNd.forward", "torchimage/padding/utils.py:same_padding_width"]}
{"id": "C95", "title": "symmetric filters commute with mirroring", "statement": "A filter (stride 1, same padding with symmetric values) whose kernel along an axis is a palindrome of odd length commutes with reading the image backwards along that axis; mean kernels and Gaussian kernels of odd size are palindromes, and a Gaussian derivative kernel of order n and odd size read backwards is (-1)^n times itself. For even sizes a palindromic kernel does not suffice.", "quantifier": "all images, kernels, axes, modes; all Gaussian sizes, sigmas and orders", "why_tests_cant": "All images, kernels and sizes.", "anchors": ["torchimage/pooling/base.py:SeparablePoolNd.to_filter", "torchimage/pooling/uniform.py:AvgPoolNd", "torchimage/pooling/gaussian.py:gaussian_kernel_1d"]}
{"id": "C96", "title": "filters with copying padding in closed form; cyclic shifts", "statement": "A filter (stride 1, same padding, modes circular, symmetric, reflect or replicate) gives at index j the sum over kernel offsets o of the weight of o times the image at j with every coordinate j_a + o_a - k_a/2 folded back into the image by the mode; along a circular axis filtering commutes with cyclic shifts.", "quantifier": "all images, separable kernels, axes, copying modes, shifts", "why_tests_cant": "All images, kernels, modes and shifts.", "anchors": ["torchimage/pooling/base.py:SeparablePoolNd.forward", "torchimage/padding/pad_1d.py"]}
{"id": "C97", "title": "padding and pooling commute with permuting the axes", "statement": "Padding or pooling an image whose axes are permuted, along the renamed axes in the same order, gives the permuted result: no axis is treated specially.", "quantifier": "all images, permutations of the axes, padders and separable pools, with no or same padding", "why_tests_cant": "All ranks, permutations, modes and kernels.", "anchors": ["torchimage/padding/generic_pad.py:Padder.forward", "torchimage/pooling/base.py:SeparablePoolNd.forward"]}
{"id": "C98", "title": "user-supplied padding functions", "statement": "A mode may be a function. If it leaves the known box of the buffer alone, Padder.forward returns the documented shape with the original in place, in any combination with built-in modes; if moreover what it writes along its axis is determined by the known box, no uninitialised value is visible; a function that extends lines by a formula gives exactly that extension.", "quantifier": "all images, padders, axes, and all functions meeting the contract", "why_tests_cant": "Quantifies over all user functions.", "anchors": ["torchimage/padding/generic_pad.py:Padder._fill_value_1d", "torchimage/padding/generic_pad.py:Padder.forward"]}
{"id": "C99", "title": "brightness and contrast in MSE and PSNR", "statement": "Applying one affine map v -> s v + c to both images multiplies every MSE value by s^2, for every reduction, with the same errors; the PSNR is unchanged if max_value is multiplied by s > 0 and eps by s^2.", "quantifier": "all images, axes arguments, reductions, s, c", "why_tests_cant": "All contents.", "anchors": ["torchimage/metrics/mse.py:MSE", "torchimage/metrics/psnr.py:PSNR"]}
{"id": "C100", "title": "the root of the MSE is a metric", "statement": "For three images of one shape the square root of the MSE satisfies the triangle inequality at every position of the result, for reductions none, sum and mean; the MSE itself does not.", "quantifier": "all images, axes arguments", "why_tests_cant": "Minkowski's inequality over all contents.", "anchors": ["torchimage/metrics/mse.py:MSE"]}
{"id": "C101", "title": "SSIM under a change of contrast", "statement": "Multiplying both images by a nonzero a and K1, K2 by a (up to sign) leaves the SSIM score and map unchanged, without padding or with linear padding modes; with K1, K2 unchanged the score changes.", "quantifier": "all images, windows, axes", "why_tests_cant": "All contents and windows.", "anchors": ["torchimage/metrics/ssim.py:SSIM.forward"]}
{"id": "C102", "title": "metrics of mirror images", "statement": "The MSE and the SSIM of two images mirrored along an axis are the mirrored results: equal scores if the axis is reduced, scores read backwards otherwise; for SSIM with palindromic windows (of odd length if a same padder is used).", "quantifier": "all images, axes, windows", "why_tests_cant": "All contents and ranks.", "anchors": ["torchimage/metrics/mse.py:MSE", "torchimage/metrics/ssim.py:SSIM.forward"]}
{"id": "C103", "title": "symmetries of demosaicing", "statement": "Demosaicing the mirror image (columns or rows reversed) or the transpose of a mosaic, with the sensor alignment changed accordingly, gives the mirror image or transpose of the result; exchanging R and B in the alignment exchanges the red and blue channels of the result.", "quantifier": "all mosaics of even sides, batch sizes and alignments", "why_tests_cant": "All contents and sizes.", "anchors": ["torchimage/cfa/bayer_conv/gradient_corrected.py", "torchimage/cfa/bayer_conv/bayer_conv_2d.py:PreTrainedBilinearInterpolator.forward"]}
{"id": "C104", "title": "demosaicing under sums, contrast and brightness", "statement": "Before the clamp demosaicing is linear and commutes with adding a constant; with the clamp it commutes with scaling the image and the clamp by a nonnegative factor and with taking the photographic negative; results lie in [0, clamp]; a pixel of the result depends only on mosaic pixels at most two rows and columns away.", "quantifier": "all mosaics of even sides, batch sizes and alignments", "why_tests_cant": "All contents and sizes.", "anchors": ["torchimage/cfa/bayer_conv/gradient_corrected.py", "torchimage/cfa/bayer_conv/bayer_conv_2d.py:PreTrainedBilinearInterpolator.forward"]}
{"id": "C105", "title": "Padding can be done in two steps", "statement": "Padding an axis and then padding the result again by the same mode (same constants and windows) gives exactly what one call with the summed widths gives: always for replicate, constant, smooth, maximum and minimum; for mean and median when the windows take in the whole axis; for circular when the first step adds a multiple of the length; for symmetric, antisymmetric and odd_symmetric when each first width is a multiple of the length n; for reflect and odd_reflect when each is a multiple of n - 1. For the copying modes this holds for several axes at once. Outside these conditions, and for linear_ramp, periodize and windowed mean, there are images for which the two results differ; with constants that differ between two axes the corners differ.", "quantifier": "all tensors over an ordered field, all nonnegative widths of the two steps, all ranks, all contents of uninitialised memory", "why_tests_cant": "A test compares a few widths; which widths can be split, for every length and both sides, is an infinite family with mode-dependent divisibility conditions.", "anchors": ["torchimage/padding/generic_pad.py", "torchimage/padding/pad_1d.py"]}
{"id": "C106", "title": "Padder.to_same sets the widths axis by axis and nothing else", "statement": "A successful to_same gives every axis the same-padding width of its own kernel size, stride and input size, keeps modes, constants, end values and windows, and recomputes the number of axes; it succeeds exactly when all lists involved (not counting the old widths) have one length and every width is defined. The outcome does not depend on earlier calls. A failing call leaves the padder unchanged unless only the final alignment fails.", "quantifier": "all padders and all specifications of kernel sizes, strides and input sizes", "why_tests_cant": "All combinations of list lengths and broadcast items, and all histories of calls, including failing ones.", "anchors": ["torchimage/padding/generic_pad.py:Padder.to_same", "torchimage/padding/utils.py:same_padding_width"]}
{"id": "C107", "title": "Edge filters of mirror images", "statement": "When the image is mirrored along an axis (same padding with equal settings on both sides), the component of Sobel, Prewitt, Scharr and Farid along that axis is mirrored and changes sign, the components along the other axes are only mirrored, and Laplace components are only mirrored; in general an odd-length edge kernel whose reverse is s times itself gives s times the mirrored component. The magnitude with an even exponent is mirrored. With nonzero constant padding the sign law fails, and with exponent 1 the magnitude is not mirrored.", "quantifier": "all images over an ordered field, any rank and axes, all modes that do not read uninitialised memory, all contents of uninitialised memory", "why_tests_cant": "A test mirrors a few images; the law relates every pixel of two runs for every shape, axis, padding mode and kernel.", "anchors": ["torchimage/filtering/edges.py:EdgeFilter", "torchimage/pooling/operator.py", "torchimage/padding/generic_pad.py"]}
{"id": "C108", "title": "Edge filters of ramps and parabolas", "statement": "On an image whose lines along the edge axis grow by a constant slope s, the component of an edge filter with a kernel summing to zero and copying padding equals, wherever the edge kernel stays inside the image, s times the kernel's first moment times the product of the smoothing gains, whatever the image does along other axes; normalized Sobel, Prewitt and Scharr therefore give exactly 2 s. Laplace of an image that is a parabola along each filtered axis is twice the sum of the second coefficients in the interior (0 on affine images).", "quantifier": "all such images over an ordered field, any rank, axes, kernels and copying padding modes", "why_tests_cant": "The calibration of a gradient filter holds for every slope, every shape and every behaviour along the other axes; a test samples a few.", "anchors": ["torchimage/filtering/edges.py:EdgeFilter", "torchimage/filtering/edges.py:Laplace", "torchimage/pooling/operator.py"]}
{"id": "C109", "title": "Laws of unsharp masking", "statement": "For a separable blur with a padder: changing contrast and brightness of the image (x -> s x + c) changes the sharpened image the same way provided the threshold is scaled by |s| (kernels sum to 1, linear constant-preserving padding); without a threshold sharpening is linear in the image; sharpening a mirror image gives the mirrored result (palindromic odd kernels, even-handed padding); for nonnegative kernels summing to 1 and amount a >= 0 the result of an image in [lo, hi] lies in [lo - a(hi-lo), hi + a(hi-lo)], and a threshold above hi - lo leaves the image unchanged; amount -1 without threshold returns the blurred image.", "quantifier": "all images, amounts, thresholds, scale factors and offsets over an ordered field, all separable blurs, axes and padders meeting the stated conditions", "why_tests_cant": "These are relations between results for infinitely many images, amounts and thresholds, including sign changes and thresholds met exactly; a test samples a few pictures.", "anchors": ["torchimage/filtering/sharpen.py:UnsharpMask"]}
{"id": "C110", "title": "What MS_SSIM computes", "statement": "Without padding, MS_SSIM.forward returns the mean over the reduced axes of the combined level scores: level 0 is the pair of images, every further level is the previous one with the content axes halved (rounding down) by means of 2 x ... x 2 blocks; every level but the last contributes the mean over the content axes of the contrast-structure part of SSIM, the last one the mean of the full SSIM, computed from windowed means and second moments with the sample-covariance factor; contributions are clamped below by eps, raised to their weight and multiplied (use_prod), or multiplied by the weight and added.", "quantifier": "all images, windows, weights, axes and settings for which the call succeeds, without a padder", "why_tests_cant": "The formula holds for every image size, content, window and number of levels; tests compare a few numbers with a reference implementation.", "anchors": ["torchimage/metrics/ssim.py:MS_SSIM.forward", "torchimage/metrics/ssim.py:MS_SSIM._cs_full", "torchimage/metrics/ssim.py:MS_SSIM._downsample"]}
{"id": "C111", "title": "MS_SSIM and contrast", "statement": "Multiplying both images by a nonzero a, and K1 and K2 by a (up to sign), leaves the result of MS_SSIM unchanged (equal scores, or the same error), without padding or with linear padding modes; in particular MS_SSIM(-x, -y) = MS_SSIM(x, y).", "quantifier": "all images, factors, windows, linear padders, lists of two or more weights, over an ordered field", "why_tests_cant": "A relation between results for infinitely many pairs of images and all factors, through every level of the pyramid.", "anchors": ["torchimage/metrics/ssim.py:MS_SSIM.forward"]}
{"id": "C112", "title": "Two poolings in a row are one", "statement": "Without padding, applying a separable pooling with kernels k1 and strides s1 and then one with kernels k2 and strides s2 on the same axes gives the same image (shape and values) as one pooling with strides s1*s2 and kernels whose entry t is the sum over j of k2[j]*k1[t - s1*j]; in particular an average pooling of size a and stride a followed by one of size b is an average pooling of size a*b.", "quantifier": "all images, axes, kernels, strides (empty kernels leave an axis alone) for which the combined kernel fits, over an ordered field", "why_tests_cant": "An identity between two programs for every kernel pair, stride pair and image size, including sizes where a rest is dropped by the first, the second or both poolings; tests sample a few.", "anchors": ["torchimage/pooling/base.py:SeparablePoolNd.forward", "torchimage/pooling/uniform.py:AvgPoolNd"]}
{"id": "C113", "title": "Block averages keep the mean", "statement": "If the block sizes of an average pooling without padding divide the lengths of the pooled axes and the stride is the block size, the sum of the result times the number of elements of a block is the sum of the image, and the mean of the result is the mean of the image.", "quantifier": "all images, axes and block sizes dividing the axis lengths, over an ordered field", "why_tests_cant": "Holds for infinitely many shapes and images; a wrong offset or stride can keep the mean of the constant images and small pictures tests use.", "anchors": ["torchimage/pooling/uniform.py:AvgPoolNd.forward"]}
{"id": "C114", "title": "Filters commute", "statement": "Two filters (stride 1) on the same axes can be applied in either order with the same result, when there is no padding (and both fit), or when both use circular padding.", "quantifier": "all images, axes and kernels of any lengths (odd and even), over an ordered field", "why_tests_cant": "An identity for every pair of kernels and every image; off-by-one errors in the padding widths of even kernels break it only for some sizes.", "anchors": ["torchimage/pooling/base.py:SeparablePoolNd.to_filter", "torchimage/pooling/base.py:SeparablePoolNd.forward"]}
{"id": "C115", "title": "The gradient magnitude is a norm", "statement": "With the default exponent p = 2 and epsilon >= 0 the gradient magnitude of a sum of two images is at most the sum of their magnitudes, magnitudes differ by at most the magnitude of the difference, scaling the image by s scales the magnitude by |s|, it lies between the largest absolute component and the sum of the absolute components, vanishes exactly where all components do, ignores brightness (every exponent), and on a tilted plane the normalized Sobel, Prewitt and Scharr filters give twice the length of the slope vector at pixels whose window stays inside.", "quantifier": "all real images, two or more axes, kernels, smoothing kernels, linear padding modes that keep the shape, s and epsilon >= 0", "why_tests_cant": "Inequalities between the results for all pairs of images.", "anchors": ["torchimage/filtering/edges.py:EdgeFilter.magnitude", "torchimage/filtering/edges.py:EdgeFilter.component"]}
{"id": "C116", "title": "Reversed kernels transpose a filter; filters keep the total up to the kernel sums", "statement": "A stride-1 separable filter with padding 'same', odd kernel lengths and circular padding (or symmetric padding with palindromic kernels) has the filter with reversed kernels as its transpose: the inner product of the filtered x with y equals that of x with the reverse-filtered y. The sum over the filtered image is the sum over the image times the product of the kernel sums (circular padding: any kernel length), so normalised kernels keep the mean. With reflect padding it is not so.", "quantifier": "all fields, images, shapes, axes, kernels, both padding modes", "why_tests_cant": "An identity for all pairs of images, kernels and any number of axes; tests compare single images with tolerances.", "anchors": ["torchimage/pooling/base.py:SeparablePoolNd.forward", "torchimage/padding/pad_1d.py:symmetric_1d", "torchimage/padding/pad_1d.py:circular_1d"]}
{"id": "C117", "title": "Edge images of the named filters sum to zero under circular padding", "statement": "With circular padding the sum over an edge component is the sum over the image times the sum of the applied edge kernel times the gains of the smoothing kernels, hence zero for Sobel, Prewitt, Scharr, Farid and Laplace; for palindromic odd kernels also with symmetric padding (Laplace: zero). With symmetric padding Sobel's edge image does not sum to zero.", "quantifier": "all fields, images, axes, kernels, normalisation flags", "why_tests_cant": "An identity over all images and every pixel, including both borders.", "anchors": ["torchimage/filtering/edges.py:EdgeFilter.component", "torchimage/filtering/edges.py:Sobel", "torchimage/filtering/edges.py:Laplace"]}
{"id": "C118", "title": "Blurring never moves two images apart and keeps the mean", "statement": "Let a SeparablePoolNd-style blur (AveragePool, GaussianPool of order 0, or any kernels without negative entries that each sum to 1) run with stride 1 over one or several axes with same-size output, every axis padded circularly, or symmetrically with an odd palindromic kernel. For any two images of one shape, the sum of the squared differences, the sum of the absolute differences and the package's MSE of the blurred images are at most those of the images. For the Gaussian blur of odd sizes the sum of all pixels is unchanged as well. With reflect padding the MSE can grow.", "quantifier": "all ordered fields, shapes, images, axes, kernels (window: non-negative, sum one), fuel and junk contents; the Gaussian corollary for all real sigma <> 0 and odd sizes", "why_tests_cant": "An inequality between metrics over all pairs of images and all kernels: tests compare a few pictures, where even a non-contracting padding mode (reflect, replicate) usually passes.", "anchors": ["torchimage/pooling/base.py:SeparablePoolNd.forward", "torchimage/pooling/gaussian.py:GaussianPoolNd", "torchimage/padding/pad_1d.py:symmetric_1d", "torchimage/padding/pad_1d.py:circular_1d", "torchimage/metrics/mse.py:MSE"]}
{"id": "C119", "title": "Items of a batch do not influence each other", "statement": "Let x' be made of n items of x along an axis d that the operation does not work on (any selection, reordering or repetition). Then padding, pooling with or without same padding, edge components and magnitudes, the MSE and the SSIM map of x' are the same selection of items of the result for x; so are the MSE values and SSIM scores if d is not reduced either. SSIM fails if a denominator of some item is zero, so a selection can succeed where the batch fails, never the other way round.", "quantifier": "all ordered fields, shapes, images, axes, kernels, strides, modes, selections g, contents of fresh memory", "why_tests_cant": "An index slip between batch items only shows for particular rank and axis combinations, and unit tests almost always use one image or compare a batch with itself.", "anchors": ["torchimage/padding/generic_pad.py:Padder.forward", "torchimage/pooling/base.py:SeparablePoolNd.forward", "torchimage/filtering/edges.py:EdgeFilter.component", "torchimage/metrics/base.py:BaseMetric", "torchimage/metrics/ssim.py:SSIM.forward"]}
{"id": "C120", "title": "The metric of a batch is the average of the metrics of its items", "statement": "For images of one shape without empty axes: the MSE with reduction mean over all axes is the average of the values of the MSE over any set of axes; with reduction sum it is their sum. The overall SSIM score (reduce_axes=None) is the average of the scores for any reduce_axes, with the same similarity map. The PSNR over all axes is at most the average of the PSNR values of the items, and can be less.", "quantifier": "all ordered fields (PSNR: reals), shapes, images, sets of axes, SSIM settings, paddings, eps >= 0", "why_tests_cant": "An identity between different reductions for every shape and axis set, and Jensen's inequality for the PSNR: tests check fixed reductions against fixed numbers.", "anchors": ["torchimage/metrics/base.py:BaseMetric.forward", "torchimage/metrics/mse.py:MSE", "torchimage/metrics/psnr.py:PSNR.forward", "torchimage/metrics/ssim.py:SSIM.forward"]}
{"id": "C121", "title": "Edge filters and metrics treat no axis specially", "statement": "Let x' be x with its axes permuted (torch.permute) and let every axis argument be renamed accordingly, in the same order. Then edge components and gradient magnitudes of x' are the permuted ones of x; MSE and SSIM of permuted images have the same values at corresponding positions for every choice of reduced axes (one and the same number if all axes are reduced), the SSIM map is the permuted map, and SSIM fails for one pair exactly when it fails for the other.", "quantifier": "all numbers of axes, all permutations, all images, kernels, padding modes that fill the padding, axis arguments and reductions", "why_tests_cant": "The tests use NCHW layouts only; a special case for some axis or a wrong conversion of negative axes would show up only in other layouts.", "anchors": ["torchimage/filtering/edges.py:44-130", "torchimage/metrics/base.py:20-65", "torchimage/metrics/ssim.py:60-160"]}
{"id": "C122", "title": "MS_SSIM works item by item and commutes with permuting the axes", "statement": "Let d be an axis that is not averaged at the levels (not a content axis, and the content axes are not empty). Selecting, repeating or reordering items of both images along d selects, repeats or reorders the multi-scale scores in the same way, if d is not reduced either: items of a batch do not influence each other at any level. Permuting the axes of both images, and naming the content and reduced axes accordingly, gives the corresponding scores, or the same error.", "quantifier": "all image pairs of any shape, all window filters, padders (same padding) and weights, both combination rules, all selections of items and all axis permutations", "why_tests_cant": "A test checks one batch size and one layout; interference between items at one pyramid level only shows for particular sizes and layouts.", "anchors": ["torchimage/metrics/ssim.py:241-315", "torchimage/metrics/ssim.py:99-138"]}
{"id": "C123", "title": "Index tuples, the width check and thin wrappers", "statement": "make_idx puts its slice at the axis named by an integer from -ndim to ndim-1 and full slices elsewhere, so that indexing with it cuts that axis only; with any other number the tuple is too long and indexing raises IndexError. modify_idx replaces the slice of the named axis and raises IndexError otherwise. _check_padding accepts exactly lists of nonnegative integers that are width pairs of at most ndim axes and raises AssertionError for everything else, and what it accepts converts to one numpy pair per axis. hdrvdp3 raises AssertionError exactly when the shapes differ. BayerConv2dUnshuffle of a batch is the pixel_unshuffle of BayerConv2d.", "quantifier": "all tensors, slices, integers dim, argument lists; all batched even-sided images and weights for the network", "why_tests_cant": "The set of rejected arguments is infinite, and wrong tuples appear only for negative or out-of-range axes that callers in the tests do not use.", "anchors": ["torchimage/padding/utils.py:8-61", "torchimage/padding/utils.py:120-125", "torchimage/metrics/hdrvdp/hdrvdp3.py:3-11", "torchimage/cfa/bayer_conv/bayer_conv_2d.py:177-182"]}
{"id": "C124", "title": "An image can be processed in tiles", "statement": "If x' is a block of an image x, then: pooling x' without padding gives a block of the pooled x, provided the block begins at multiples of the strides on the pooled axes; the result of a filter without padding is the middle part of its result with any padding; with padding (even a different one for the block) filtering x' and filtering x agree at every pixel whose whole window lies in the block, and so do the components of edge filters with copying padding; the SSIM map of two blocks without padding is the block of the SSIM map; BayerConv2d and demosaicing of a block that begins at any row and column, called with the pattern seen there, agree with those of the whole mosaic at every pixel whose window lies in the block.", "quantifier": "for all images, block positions and sizes, kernels, strides, padders, axes and patterns that meet the stated conditions", "why_tests_cant": "Test images are processed whole; a dependence of a pixel on its absolute position, on the image size or on far away pixels shows only when results of different blocks are compared, for every position and size.", "anchors": ["torchimage/pooling/base.py:191-230", "torchimage/filtering/edges.py", "torchimage/metrics/ssim.py", "torchimage/cfa/bayer_conv/bayer_conv_2d.py"]}
{"id": "C125", "title": "Reduction axes accepted by the metrics", "statement": "For images with at least one axis and equal shapes, and every reduce_axes argument that check_axes lets through: MSE and PSNR with reduction sum or mean, and SSIM whenever it works for some reduction axes, raise IndexError if any axis number is not an axis (check_axes accepts ndim itself in lists and any single int), otherwise RuntimeError if two numbers name the same axis (1 and -2 of three), and otherwise give what the list of the named axes in 0..ndim-1 gives. An argument rejected by check_axes fails with its error; reduction none ignores the axes; an unknown reduction is a ValueError. The mean over an axis of length 0 is undefined unless the result has no entries.", "quantifier": "for all images with at least one axis and all axes arguments", "why_tests_cant": "Tests call the metrics with a handful of valid axes; that every invalid or repeated axis is rejected rather than silently reduced needs all integers and all lists.", "anchors": ["torchimage/metrics/base.py:38-64", "torchimage/metrics/ssim.py:137-187", "torchimage/metrics/psnr.py:15-18", "torchimage/utils/validation.py:3-34"]}
{"id": "C126", "title": "Axes can be repeated", "statement": "Padder.forward along a list of axes that may contain an axis several times, with modes other than periodize, linear_ramp, zeros, empty, callables and unknown names (any mode where both widths are 0), equals padding the axes one at a time from the left, each time starting from what the last step left; the length of an axis grows by the widths of all its occurrences. For linear_ramp and periodize this is false. A pooling module without padder called with such a list gives exactly the result or error of one call per entry with that entry's kernel and stride; the same axis twice is one pooling with the merged kernel. A filter (stride 1, same padding) with such modes keeps the shape even then.", "quantifier": "for all images, kernels, strides, widths and lists of axes with any repetitions", "why_tests_cant": "The docstring promises that axes can be repeated but no test repeats one; the room reserved for later occurrences must never be read or overwritten too early for any list.", "anchors": ["torchimage/pooling/base.py:183-220", "torchimage/padding/generic_pad.py:195-262", "torchimage/padding/generic_pad.py:140-193"]}
{"id": "C127", "title": "How padding and pooling calls end for every list of modes and every axis number", "statement": "Padder.forward without callables, on axes with a sample where the mode needs one, ends as follows: going through the padded axes in order (widths (0,0) and mode empty are passed), an unknown mode is a ValueError; after an axis of mode zeros any other filling mode is a TypeError; otherwise there is a result. An axis number outside -ndim..ndim-1 among the axes looked at is an IndexError if its widths are not (0,0); an int a with -2 ndim <= a < -ndim counts as a + ndim, except that modes smooth (on an axis of at least two samples) and linear_ramp then raise a RuntimeError if they fill two or more places on a side. SeparablePoolNd.forward checks the axes twice: ints above ndim or below -2 ndim are an AssertionError; the number ndim in a list is an IndexError, with a same padder always and before anything changed, without one if its kernel is not empty and no earlier axis failed (RuntimeError); an int below -ndim counts as a + ndim for every mode.", "quantifier": "for all images, padders, pooling modules, integers and lists of integers", "why_tests_cant": "No test passes an axis out of range or mixes modes with zeros or unknown names; which error comes first depends on the order of arbitrary lists.", "anchors": ["torchimage/padding/generic_pad.py:127-262", "torchimage/pooling/base.py:72-92", "torchimage/pooling/base.py:183-220", "torchimage/utils/validation.py:3-34"]}
{"id": "C128", "title": "Reordered and cyclically shifted images: metrics and edge filters", "statement": "If the entries of both images are reordered alike along an axis (by any permutation of its coordinates: shifts, mirror images, ...), the mse map is reordered alike, mse and PSNR reduced by sum or mean over that axis are unchanged and those that keep it are reordered. With circular padding (or along axes that are not filtered, with copying modes) every edge component and the magnitude of a cyclically shifted image are the shifted component and magnitude; with replicate padding they are not. SSIM with circular padding and no cropping: the score map is shifted, the mean score over the shifted axis unchanged, and both calls fail alike; with cropping the mean differs.", "quantifier": "for all images, permutations, shifts, edge and smoothing kernels, SSIM settings and axes", "why_tests_cant": "The permutations and the kernels are unbounded sets; the tests compare single images with skimage or scipy results.", "anchors": ["torchimage/metrics/base.py:BaseMetric.forward", "torchimage/metrics/mse.py:MSE", "torchimage/metrics/psnr.py:PSNR", "torchimage/metrics/ssim.py:SSIM.forward", "torchimage/filtering/edges.py:EdgeFilter.component", "torchimage/filtering/edges.py:EdgeFilter.magnitude"]}
{"id": "C129", "title": "Periodize padding is circular padding of the image whose odd axes have been evened out", "statement": "In mode periodize, padding (with non-negative widths), a stride-1 same-size filter, an edge component and the magnitude of an edge filter that smooths along every axis give exactly what mode circular gives on the image whose last slice along every padded axis of odd length has been repeated once; in particular the output of a same-size filter has the evened shape. Magnitudes of components with different shapes are formed by in-place addition, so they succeed, with broadcasting of the later components, exactly when each later component can be expanded to the shape of the first, and raise RuntimeError otherwise. Hence the Laplace filter with periodize padding computes the sum of the second differences when all filtered lengths are even, returns an image of length 2 along the first filtered axis when that length is 1 and the others are even, and raises RuntimeError in every other case.", "quantifier": "all ranks, shapes, image values, axis lists, kernels, widths, padders and fuels of well-formed calls", "why_tests_cant": "Tests use even-sized images, where periodize and circular agree; the odd shapes, the broadcasting of a length-1 axis and the failure are never exercised.", "anchors": ["torchimage/padding/generic_pad.py:Padder.forward", "torchimage/pooling/base.py:SeparablePoolNd.forward", "torchimage/filtering/edges.py:EdgeFilter.component", "torchimage/filtering/edges.py:EdgeFilter.magnitude", "torchimage/filtering/edges.py:Laplace"]}
{"id": "C130", "title": "How every constructor ends, for all arguments", "statement": "Padder, SeparablePoolNd and AvgPoolNd succeed exactly when no padding width or kernel size is negative, every stride is at least 1 and all list arguments have one length, and raise ValueError otherwise (the padding mode is not checked). EdgeFilter raises ValueError for a list of edge kernels and succeeds for one kernel (when no smoothing kernel to be normalised has sum zero); SSIM and UnsharpMask never fail. gaussian_kernel_1d raises ValueError for a negative order, ZeroDivisionError for sigma = 0 and otherwise returns max(0, size) weights; GaussianPoolNd raises the error of the first bad position, or ValueError for lists of different lengths. GaussianGrad raises ZeroDivisionError for a zero sigma, AssertionError when edge_kernel_size or edge_sigma is missing and the size or sigma is a list, the errors of the edge kernel, and succeeds otherwise; LaplacianOfGaussian succeeds exactly for one size and one nonzero sigma.", "quantifier": "all argument values, single items and lists of all lengths, mixed in all ways", "why_tests_cant": "The error cases depend on combinations of several list and scalar arguments and on their order; the tests construct only valid modules.", "anchors": ["torchimage/padding/generic_pad.py:Padder.__init__", "torchimage/pooling/base.py:SeparablePoolNd.__init__", "torchimage/pooling/uniform.py:AvgPoolNd", "torchimage/pooling/gaussian.py:gaussian_kernel_1d", "torchimage/pooling/gaussian.py:GaussianPoolNd", "torchimage/filtering/edges.py:EdgeFilter.__init__", "torchimage/filtering/edges.py:GaussianGrad", "torchimage/filtering/edges.py:LaplacianOfGaussian"]}
{"id": "C131", "title": "SSIM, Gaussian edge filters and UnsharpMask in mode periodize", "statement": "For every image size, SSIM with a periodize padder returns the same score and map (or the same failure) as SSIM with a circular padder applied to the two images whose odd-length filtered axes have their last slice repeated once; with crop_border=True the score and the cropped map are those of unpadded SSIM on the evened images (not on the given ones). GaussianGrad and LaplacianOfGaussian with periodize are likewise their circular versions on the evened image. UnsharpMask with periodize raises RuntimeError as soon as an axis with a kernel of two or more samples has odd length 3 or more; otherwise it returns the circular result of the evened image (an axis of length 1 is silently broadcast to length 2).", "quantifier": "all images, axes, kernels, sizes, constants and padders with mode periodize on every axis", "why_tests_cant": "The tests compare periodize padding with reference arrays for a few lengths and never combine it with metrics or sharpening; the failure depends on parity per axis.", "anchors": ["torchimage/metrics/ssim.py:SSIM.forward", "torchimage/filtering/edges.py:GaussianGrad", "torchimage/filtering/edges.py:LaplacianOfGaussian", "torchimage/filtering/sharpen.py:UnsharpMask.forward", "torchimage/padding/pad_1d.py:periodize_1d"]}
{"id": "C132", "title": "Edge filters called with numbers that are not axes", "statement": "EdgeFilter.component, horizontal, vertical, all_components and magnitude on every axis argument: an edge axis b - ndim with -ndim <= b < 0 is accepted and gives the edge along axis ndim + b, which is then not removed from the smoothing axes, so the result is smoothed along the edge axis too; on a one-dimensional image horizontal() and vertical() therefore raise nothing and both return the derivative of the line smoothed along the line; an edge axis >= ndim or < -3*ndim is an IndexError for kernels applied by slicing and otherwise an AssertionError (IndexError for ndim itself); a smoothing int beyond [-2*ndim, ndim] is an AssertionError and the number ndim in a sequence of smoothing axes an IndexError; gradients over an int are a ValueError and over a list containing ndim an IndexError.", "quantifier": "all images, kernels, padders and integers", "why_tests_cant": "Tests use valid axes of 2-d and 3-d images; the wrapped axes give plausible results of the right shape.", "anchors": ["torchimage/filtering/edges.py:EdgeFilter.component", "torchimage/filtering/edges.py:EdgeFilter._conv_edge", "torchimage/filtering/edges.py:EdgeFilter.horizontal", "torchimage/utils/validation.py:check_axes"]}
{"id": "C133", "title": "Padding and pooling keep the order of images and do not enlarge their largest difference", "statement": "If no pixel of x exceeds that of y, the same holds after padding with any mode but antisymmetric, odd_reflect, odd_symmetric and smooth (with any constant values, end values and stat lengths), and after pooling with non-negative kernels, without a padder or with a same padder of such a mode. If corresponding pixels of x and y differ by at most d, the padded images differ by at most d, and so do the images pooled with non-negative kernels that sum to one. Each of the four other modes, and kernels with a negative entry, can make a brighter image darker.", "quantifier": "all pairs of images of one shape, axes, widths, modes, parameters, kernels, strides and d >= 0", "why_tests_cant": "Relates two runs on arbitrary pairs of images; the statistics modes (median, maximum) select different samples in the two runs.", "anchors": ["torchimage/padding/generic_pad.py:Padder.forward", "torchimage/padding/pad_1d.py", "torchimage/pooling/base.py:SeparablePoolNd.forward"]}
{"id": "C134", "title": "Arrays and tensors in a spec behave as the nested lists of their entries", "statement": "For data that mix scalars, lists, numpy arrays and torch tensors (no array axis of length 0) and target lengths that are -1 or positive: get_ragged_ndarray reports the shape of the data with every array replaced by its tolist(); expand_ragged_ndarray, both NdSpec constructors, indexing, iteration, len, map, starmap, apply and zip succeed on the one exactly when they do on the other, with results that are equal after tolist(), and otherwise fail with the same kind of error (RuntimeError of torch for ValueError, IndexError for TypeError). A list of one-dimensional arrays of any lengths is kept as it is, one item per array. A target length 0 empties a list but is an error for an array of other length, and an array without entries has not the shape of the empty list.", "quantifier": "all nestings of lists, arrays and tensors, all target shapes of -1 and positive lengths, all functions that respect tolist()", "why_tests_cant": "The tests pass a few random arrays to get_ragged_ndarray and compare shapes only; mixed nestings and the array branches of expansion are not covered.", "anchors": ["torchimage/utils/ragged.py:get_ragged_ndarray", "torchimage/utils/ragged.py:_recursive_expand", "torchimage/utils/ragged.py:expand_ragged_ndarray", "torchimage/utils/ndspec.py:NdSpec"]}
{"id": "C135", "title": "Padding never copies between overlapping regions of one tensor", "statement": "The padding functions of pad_1d.py assign one view of a tensor to another view of the same tensor (x[dst] = x[src]). For every padder without negative widths, every tensor and every choice of axes these assignments are between regions that have no common element: a copy that refuses overlapping regions never refuses, and copying element by element in the same memory, in any order of the elements, gives the tensor that reading everything first and writing afterwards gives, or the same error. Padders made by the constructor have no negative widths. On regions that do overlap the order would matter.", "quantifier": "all padders (all modes, user-supplied functions that keep the shape), all tensors, all axes, all orders of element copies", "why_tests_cant": "Whether a copy between overlapping views goes wrong depends on the memory layout, the size of the blocks and the vectorisation of the torch build that runs the tests.", "anchors": ["torchimage/padding/pad_1d.py:replicate_1d", "torchimage/padding/pad_1d.py:circular_1d", "torchimage/padding/pad_1d.py:periodize_1d", "torchimage/padding/pad_1d.py:symmetric_1d", "torchimage/padding/pad_1d.py:reflect_1d", "torchimage/padding/generic_pad.py:Padder"]}
{"id": "C136", "title": "safe_power with fractional exponents is the signed power, undone by the reciprocal exponent", "statement": "For exponents with a fractional part and epsilon > 0, safe_power over the reals never gives 0 and keeps the sign of every element other than 0; it is odd, strictly increasing for positive exponents, multiplicative, and composes (the exponents multiply) away from 0; its slope at v is e |v|^(e-1). Applying it again with the reciprocal exponent gives the element back when that exponent is fractional or odd, its absolute value when it is even, and epsilon for 0. Elements between 0 and epsilon are placed below 0.", "quantifier": "all tensors of reals, all scalar or tensor exponents that broadcast to the tensor, all epsilon > 0", "why_tests_cant": "The statements quantify over all reals and all exponents; the branches depend on which elements of the tensor are negative, zero or have fractional exponents.", "anchors": ["torchimage/misc/power.py:safe_power"]}
{"id": "C137", "title": "Averaging blocks never enlarges the difference of two images", "statement": "If the blocks of AvgPoolNd (stride equal to the block length, no padding) tile the image, then the summed squared difference of two images is the number of pixels per block times the summed squared difference of the block averages plus the spread of the differences inside the blocks. So the MSE of the averaged images is at most that of the images, and the same holds for absolute differences. With overlapping blocks the MSE can grow.", "quantifier": "all ranks, shapes, sets of pooled axes, block lengths that divide the axes, all contents", "why_tests_cant": "All contents and all tilings.", "anchors": ["torchimage/pooling/uniform.py:AvgPoolNd", "torchimage/metrics/mse.py:MSE"]}
{"id": "C138", "title": "Padding commutes with functions applied pixel by pixel", "statement": "Padding g(x) gives g of the padded x, for any function g on pixels with replicate, circular, periodize, symmetric and reflect padding; with antisymmetric padding if g is odd; with constant padding if g fixes the constants; with maximum, minimum and median padding if g is increasing (clipping, rounding, gamma). Mean, linear_ramp, odd_reflect, odd_symmetric and smooth padding do not: even a cube changes what they add.", "quantifier": "all functions, ranks, shapes, widths, axes, mixtures of these modes, contents", "why_tests_cant": "All functions and all images.", "anchors": ["torchimage/padding/generic_pad.py:Padder", "torchimage/padding/pad_1d.py"]}
{"id": "C139", "title": "Rounding error of separable pooling", "statement": "If every kernel entry, product and addition in SeparablePoolNd.forward may be rounded with relative error at most e, in any order of addition, then no pixel of the result differs from the exact one by more than ((1+e)^N - 1) G B, where B bounds the image, G is the product over the axes of the kernels' absolute sums (1 for averages) and N the sum of the kernel lengths plus one each; when 2Ne <= 1 the factor is at most 2Ne. The same with a padder that keeps the size and pads without arithmetic.", "quantifier": "all relative errors e, all choices of roundings and orders of addition, ranks, shapes, axes, kernels, strides, exact padding modes, bounded contents", "why_tests_cant": "All roundings and all orders of summation a backend may choose.", "anchors": ["torchimage/pooling/base.py:SeparablePoolNd.forward"]}
{"id": "C140", "title": "Relative rounding error of MSE", "statement": "If the differences, squares, additions (in any order), the reciprocal of the count and the final product of MSE may each be rounded with relative error at most e, then every number of the result differs from the exact one by at most ((1+e)^N - 1) times the exact one, with N = 3 for reduction none, n + 2 for sum and n + 4 for mean over n pixels. So it is never negative, and (while that factor is below one) zero exactly if the exact MSE is zero.", "quantifier": "all relative errors e, all choices of roundings and orders of addition, ranks, shapes, reductions, axes, contents", "why_tests_cant": "All roundings and all orders of summation a backend may choose.", "anchors": ["torchimage/metrics/mse.py:MSE.forward_full", "torchimage/metrics/base.py:BaseMetric.forward"]}
{"id": "C141", "title": "Laws of BayerConv2d", "statement": "BayerConv2d.forward is affine in the image (linear without bias) and linear in its weights and biases. The value at a pixel whose window lies inside the image depends only on that window and moves with it when the image is shifted by any number of rows and columns, provided the sensor alignment is shifted with it. If the four convolutions agree the alignment is irrelevant. Mirroring (kernels of odd size) or transposing the image, with kernels and alignment changed accordingly, mirrors or transposes the result.", "quantifier": "all images of even height and width, alignments, kernel sizes, numbers of channels, weights, biases, shifts", "why_tests_cant": "Identities over all weights and images; tests compare a few random nets.", "anchors": ["torchimage/cfa/bayer_conv/bayer_conv_2d.py:BayerConv2d.forward", "torchimage/cfa/bayer_conv/bayer_conv_2d.py:get_padding_layer", "torchimage/cfa/bayer_conv/bayer_conv_2d.py:get_sensor_beg_index"]}
{"id": "C142", "title": "Which demosaicing networks reproduce flat images", "statement": "For demosaicing with any BayerConv2d from one channel to two (in particular PreTrainedBilinearInterpolator with any weight dictionary): all flat mosaics within the clamp range are reproduced exactly iff each of the eight kernels has total 1 and bias 0; all flat RGB images are recovered from their mosaics iff in each kernel the weights meeting the wanted colour sum to 1 and those meeting another colour sum to 0. The gradient-corrected dictionary satisfies both.", "quantifier": "all kernel sizes, weights, biases, alignments, even image sizes that fit the kernel, clamp values > 0", "why_tests_cant": "Equivalence over all weight dictionaries and all flat images; tests use the one built-in dictionary.", "anchors": ["torchimage/cfa/bayer_conv/bayer_conv_2d.py:PreTrainedBilinearInterpolator", "torchimage/cfa/bayer_conv/bayer_conv_2d.py:last_step_demosaic", "torchimage/cfa/bayer_conv/gradient_corrected.py:wf_dict"]}
{"id": "C143", "title": "Rounding error of BayerConv2d and of demosaicing", "statement": "If every product and addition of BayerConv2d's convolutions has relative error at most e (additions in any order), each output value differs from the exact one by at most ((1+e)^N - 1) times the sum of |weight||pixel| over its window plus |bias|, where N is the number of terms. In demosaicing, measured samples carry no rounding error at all and clamping does not enlarge the error of the others. For the gradient-corrected kernels and pixels within [-B, B] the error is at most ((1+e)^25 - 1) * 5/2 * B.", "quantifier": "all images, kernel sizes, weights, biases, alignments, error bounds e >= 0, summation orders", "why_tests_cant": "A bound over all rounding behaviours and summation orders; a test observes one backend's rounding on a few images.", "anchors": ["torchimage/cfa/bayer_conv/bayer_conv_2d.py:BayerConv2d.forward", "torchimage/cfa/bayer_conv/bayer_conv_2d.py:PreTrainedBilinearInterpolator.forward", "torchimage/cfa/bayer_conv/gradient_corrected.py:wf_dict"]}
{"id": "C144", "title": "PSNR: rounding, range, blurred and averaged images", "statement": "If every operation of PSNR.forward has relative error at most e (sums in any order), then whenever the rounded result exists so does the exact one, and they differ by at most ((1+e)^3-1)(20|log10 max|+10(|log10(mse+eps)|+d))+10d decibel, where d = -log10(2-(1+e)^(N+1)) and N is the number of roundings of the MSE. For images in [0, max] the PSNR is at least 10 log10(max^2/(max^2+eps)), attained exactly by opposite extremes, and for eps > 0 at most 10 log10(max^2/eps), attained exactly by equal images. Blurring or block-averaging both images does not lower the PSNR.", "quantifier": "all images, axes, max_value > 0, eps >= 0, error bounds e with (1+e)^(N+1) < 2, kernels and paddings as in C118 and C137", "why_tests_cant": "Bounds over all rounding behaviours and all images, with exact characterisation of the extremal images.", "anchors": ["torchimage/metrics/psnr.py:PSNR.forward", "torchimage/metrics/mse.py:MSE", "torchimage/pooling/base.py:SeparablePoolNd.forward", "torchimage/pooling/uniform.py:AvgPoolNd"]}
{"id": "C145", "title": "Edge losses of mirrored, turned and transposed images", "statement": "For odd kernel sizes, mirroring both images along any axis leaves GaussianEdgeLoss and WeightedSum unchanged, and WeightedMul and WeightedDiv too if the order is even or the axis is not height or width. The edge maps are mirrored, the one along the mirrored axis times (-1)^order. Turning both images by 180 degrees multiplies WeightedMul and WeightedDiv by (-1)^order, so for odd orders WeightedMul is 0 for any two images that turning leaves unchanged, however different. Exchanging height and width, or batch and channels, of both images changes no loss, for any kernel size.", "quantifier": "all non-empty 4D images, sigma <> 0, orders >= 0, kernel sizes >= 1 (odd ones for mirroring), losses with a value", "why_tests_cant": "Invariance over all images and kernel parameters, including a family of distinct images the loss cannot tell apart.", "anchors": ["torchimage/contrib/edge_loss.py:GaussianEdgeLoss", "torchimage/contrib/edge_loss.py:WeightedMul", "torchimage/contrib/edge_loss.py:WeightedDiv", "torchimage/contrib/edge_loss.py:WeightedSum", "torchimage/filtering/edges.py:EdgeFilter.component"]}
{"id": "C146", "title": "Rounding error of edge filters", "statement": "In floating-point arithmetic with relative rounding error e, a component of an edge filter differs from the exact one by at most ((1+e)^n - 1) times the largest pixel value times the sums of absolute kernel entries of edge and smoothing kernels. n is one for a filter -1, 0, 1, two for 1, -2, 1, otherwise the edge kernel's length plus one; each smoothing kernel adds its length plus one. For normalized Sobel, Prewitt and Scharr this is ((1+e)^(1+4(d-1)) - 1) 2B on d axes, for a component of Laplace ((1+e)^2 - 1) 4B.", "quantifier": "all images with |pixel| <= B, edge and smoothing kernels, axes, and all roundings of at most e in any order of addition; padding that copies or negates pixels or fills in constants of at most B", "why_tests_cant": "A worst-case bound over all images and all roundings; tests see single results on one machine.", "anchors": ["torchimage/filtering/edges.py:EdgeFilter._conv_edge", "torchimage/filtering/edges.py:EdgeFilter.component", "torchimage/filtering/edges.py:Sobel", "torchimage/filtering/edges.py:Laplace", "torchimage/pooling/base.py:SeparablePoolNd.forward"]}
{"id": "C147", "title": "Rounding error of edge magnitudes", "statement": "In floating-point arithmetic with relative rounding error e, the magnitude of an edge filter over d axes differs from the exact one by at most the following, where N and K are the number of roundings and the size bound of a component (C146) and z is 1 if epsilon is added and 0 if it is zero: with p = 1, ((1+e)^(N+d-1+z) - 1)(d K + |epsilon|); with p = 2 and epsilon >= 0, ((1+e)^(N+d+1+z) - 1) sqrt(d K^2 + epsilon). For the Laplace filter this is ((1+e)^(d+1) - 1) 4 d B; for normalized Sobel, Prewitt and Scharr with p = 2, ((1+e)^(5d-2+z) - 1) sqrt(4 d B^2 + epsilon). With e <= 1 no root of a negative number is taken.", "quantifier": "all images with |pixel| <= B, edge and smoothing kernels, at least two axes, epsilon, and all roundings of at most e; padding that copies or negates pixels or fills in constants of at most B, except periodize", "why_tests_cant": "A worst-case bound over all images and all roundings; the square root is not Lipschitz near zero, so that the bound does not follow from the components' errors alone.", "anchors": ["torchimage/filtering/edges.py:EdgeFilter.magnitude", "torchimage/filtering/edges.py:EdgeFilter.component", "torchimage/filtering/edges.py:Sobel", "torchimage/filtering/edges.py:Laplace.forward"]}
{"id": "C148", "title": "Rounding error of unsharp masking", "statement": "In floating-point arithmetic with relative rounding error e, a sharpened pixel differs from the exact one by at most ((1+e)^(N+3) - 1)(B + |amount| (1+G) B), where N is the number of roundings of the blur and G its gain, if there is no threshold or the exact difference between image and blur is clear of the threshold by ((1+e)^(N+1) - 1)(1+G) B. In general |amount| times the threshold must be added, and however small e is there is an image and a threshold for which the results differ by that much. For averaging blurs without a threshold the bound is ((1+e)^(N+3) - 1)(1 + 2|amount|) B.", "quantifier": "all images with |pixel| <= B, separable blurs, axes, amounts, thresholds, and all roundings of at most e; padding that copies or negates pixels or fills in constants of at most B, except periodize", "why_tests_cant": "A worst-case bound over all images and all roundings; the comparison with the threshold is discontinuous, so that tests with a tolerance pass or fail by chance near it.", "anchors": ["torchimage/filtering/sharpen.py:UnsharpMask.forward", "torchimage/pooling/base.py:SeparablePoolNd.forward"]}
{"id": "C149", "title": "Rounding error of poly1d", "statement": "In floating-point arithmetic with relative rounding error e, the value of poly1d at a pixel v with n + 1 coefficients a_n, ..., a_0 differs from the exact value of the polynomial by at most ((1+e)^(n+2) - 1) (|a_n| |v|^n + ... + |a_1| |v| + |a_0|); if no coefficient and no pixel is negative, by at most ((1+e)^(n+2) - 1) times the value. For every n >= 2 there are polynomials and roundings that attain the bound.", "quantifier": "all images, all lists of at least two coefficients, all roundings of at most e", "why_tests_cant": "A worst-case bound over all images and all roundings that holds and is attained for every degree.", "anchors": ["torchimage/misc/polynomial.py:poly1d"]}
{"id": "C150", "title": "Relative rounding error of blurs and averages", "statement": "If no entry of the kernels is negative, every pixel of a separable pooling computed with relative rounding error e differs from the exact one by at most (1+e)^N - 1 times the exact pooling of |x| at that pixel, N being the sum of the kernel lengths plus the number of axes; so for images without negative pixels the error of every pixel is relative. For AvgPoolNd with count_include_pad=False two roundings are added. With a negative entry no relative bound holds.", "quantifier": "all images, kernels, strides, axes and roundings of at most e; without a padder or with padding by replicate, circular, periodize, symmetric, reflect or constants that are not negative", "why_tests_cant": "A worst-case bound for every pixel, however dark, over all roundings and orders of summation.", "anchors": ["torchimage/pooling/base.py:SeparablePoolNd.forward", "torchimage/pooling/uniform.py:AvgPoolNd.forward"]}
{"id": "C151", "title": "Averages that leave out the padding are means of the image", "statement": "AvgPoolNd with count_include_pad=False and zero padding commutes with affine changes of the pixel values and with sums of images, keeps constant images constant up to the border, keeps the order of images pixel by pixel and stays within the range of the image. None of this survives counting the padding or padding by replication.", "quantifier": "all images, kernel sizes, strides and axes for which C40 holds", "why_tests_cant": "Laws for all images and all kernel sizes, strides and axes at once.", "anchors": ["torchimage/pooling/uniform.py:AvgPoolNd.forward"]}
{"id": "C152", "title": "describe keeps the order of images", "statement": "If no pixel of x exceeds that of y, then mean, minimum, quartiles, median and maximum of x do not exceed those of y; if corresponding pixels differ by at most d, so do these entries. The standard deviation obeys the triangle inequality; it neither keeps the order nor changes by at most d.", "quantifier": "all pairs of nonempty images of one shape; at least two pixels for the standard deviation", "why_tests_cant": "Holds for all pairs of images, including every way the sorted orders can differ.", "anchors": ["torchimage/misc/stats.py:describe"]}
{"id": "C153", "title": "Rounding error of SSIM", "statement": "For images with pixels of size at most B and windows of nonnegative weights that sum to 1, without a padder or with one that copies pixels or adds zeros, the computed SSIM map differs from the exact one at every pixel by at most (floor + delta) / (floor - delta) * (1 + e) - 1, where floor = K1^2 K2^2 and delta = ((1 + e)^(4 N + 10) - 1) (2 B^2 + K1^2) (4 f B^2 + K2^2), provided delta < floor; N counts the kernels' lengths plus one and f is the sample covariance factor. A score, the mean of at most k pixels, has at most k + 1 roundings more. Without the proviso cancellation can spoil the value completely.", "quantifier": "all images of one shape, blur kernels, K1, K2 other than 0, axes and roundings of relative error at most e", "why_tests_cant": "Tests compare a few images within a tolerance; the bound holds for all images and all roundings, and says when the variances lose all their digits.", "anchors": ["torchimage/metrics/ssim.py:SSIM"]}
{"id": "C154", "title": "The computed SSIM of an image with itself is exactly 1, and the computed SSIM is symmetric", "statement": "In arithmetic that always rounds the same exact result to the same number, whatever the rounding, the SSIM map of an image with itself is exactly 1 at every pixel where the denominator is not 0, if 1 is kept; and exchanging the two images changes no value of the map. The mean of pixels that are all 1 is exactly 1 in any order of the additions, if the integers up to their number are kept; so the score of an image with itself is exactly 1. If the rounding errs relatively by at most e and doubling is exact, the map is among those whose error C153 bounds.", "quantifier": "all rounding functions, deterministic blurs, images of one shape, K1, K2 and covariance factors", "why_tests_cant": "Tests compare with a tolerance, on one machine's rounding; the equalities hold without tolerance for every rounding function.", "anchors": ["torchimage/metrics/ssim.py:SSIM"]}
