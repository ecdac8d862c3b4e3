# Formal model of miaotianyi/torchimage in Rocq (Coq 8.16.1)

## Approach

* Shallow, executable Gallina model; exceptions are values (`res A := Ok a | Err e`).
* A tensor is a shape (list of `Z`) with a function from index lists to scalars.
  Only valid indices are observable: every theorem speaks about shapes and values
  at valid indices, so no functional extensionality is needed.
* Scalars: an arbitrary ordered field (record `ofield`, instances for the rationals
  `Qc` and the reals `R`). Floating-point rounding, NaN/inf, dtypes, devices,
  autograd and memory layout/aliasing are not modelled (one exception: an edge filter
  without any kernel, whose `magnitude` adds into its own input, C46). The in-place copies between
  views of one tensor in padding are treated separately (C135).
* `torch.empty` is an arbitrary function argument ("junk"); a theorem that holds
  for every junk shows that no uninitialised value is observable.
* Python slices (start/stop/step, negative values, clipping), broadcasting slice
  assignment, `flip`, `unfold`, `@`, `view`/`reshape`, `cat`, `stack` and reductions
  are modelled with their error conditions.
* `while` loops run on explicit fuel and return `Err OutOfFuel` when exhausted.
* Model files contain definitions only (each with file:line citations), specification
  files contain the short mathematical specs, proof files the lemmas, and `Props*.v`
  only the final theorems, each with `Print Assumptions`.
* A property that the code violates is settled by a `..._refuted` theorem on the
  faithful model; the restricted true part is proved next to it.

## Plan per property

* **C01** Circular padding is the periodic extension: Model circular_1d's two while loops on N-d tensors with slice reads/writes; prove the result is the mod-n gather by loop induction (fuel shown sufficient).
* **C02** Symmetric padding is the half-sample symmetric extension: Model symmetric_1d with both cached/uncached paths; loop invariant = mirror gather.
* **C03** Antisymmetric padding is the half-sample antisymmetric extension: Same program with negate=true.
* **C04** Reflect padding is the whole-sample symmetric extension: Model reflect_1d, all 3 branches; loop invariant.
* **C05** Odd-reflect padding is point reflection about the edge sample: Model odd_reflect_1d; invariant = quasi-periodic extension given by closed form; reflection laws proved about the closed form.
* **C06** Odd-symmetric padding is point reflection about the half sample: As C05 for odd_symmetric_1d.
* **C07** Replicate padding clamps the coordinate: Direct.
* **C08** Smooth padding extrapolates linearly: Direct; torch.arange modelled as integer-valued tensor with view.
* **C09** Linear-ramp padding is affine from the edge sample to the end value: Direct; torch.linspace modelled exactly (rational grid).
* **C10** Statistic padding uses the clipped window: Model stat_1d; mean/max/min/median (lower) as functions on the line; spec = list statistic of the clipped window.
* **C11** Constant padding writes the side's constant: Direct.
* **C12** Periodize padding first makes the length even: Model periodize_1d + forward allocation; width (0,0) clause expected false -> refutation theorem.
* **C13** Padding keeps the original in place and has the documented shape: Corollary of C14.
* **C14** N-d padding equals sequential one-axis padding: Refinement: invariant over the axis loop relating in-place buffer+idx to the sequence of pure one-axis extensions.
* **C15** Padding never exposes uninitialised memory: torch.empty is an arbitrary function argument; theorem: result independent of it.
* **C16** Zeros mode pads with zeros: _fill_value_1d returns the function object: refutation for all inputs.
* **C17** Padding terminates: Fuel-indexed loops; theorem that fuel suffices for n>=1; refutation theorem: for n=0 no fuel suffices.
* **C18** pad_axis agrees with forward on that axis: Model pad_axis; equality with forward for modes other than periodize; refutation for periodize.
* **C19** Same padding gives ceil(in/stride) outputs: Integer arithmetic.
* **C20** Same padding lets the kernel cover every element: Theorem for k>=s, refutation for k<s.
* **C21** pad width format conversions are inverse: List induction.
* **C22** Same-padding state does not leak between calls: State machine: padder state + history of calls; result of last call independent of state.
* **C23** check_axes returns only valid axis numbers or raises: Model check_axes; refutation for a=ndim and int axes; theorems for None, slices of any step and lists, with the exact condition under which a list is accepted.
* **C24** Validators for stride and pad width: Direct.
* **C25** n_original_elements_1d counts the receptive field overlap: Model the function statement by statement over Z; prove equal to the window/interval intersection count.
* **C26** conv_1d counts window positions: Counting theorem.
* **C27** n_original_elements_nd is the outer product of per-axis counts: Product over axes, outer on tensors.
* **C28** A single item broadcasts to every index: NdSpec constructor on a Python-value tree model.
* **C29** A partial item is broadcast to the item shape: Induction on item shape.
* **C30** A list of items is indexed like a list: List indexing theorem.
* **C31** NdSpec.apply and zip work item-wise with broadcasting: agg_index_shape/apply model.
* **C32** NdSpec.map keeps the index shape: map model.
* **C33** Ragged shape inference is sound: Tree induction.
* **C34** Non-strict ragged inference levels the tree: Tree induction.
* **C35** Ragged expansion conforms to the target shape: Tree induction.
* **C36** Separable pooling equals full correlation with the outer-product kernel: unfold and matmul on N-d tensors; induction over axes; nested sums.
* **C37** Pooling output shape: Shape computation. Exact lengths for periodize in PoolExact.v.
* **C38** Pooling is linear and preserves constants: From C36.
* **C39** Average pooling averages: From C36 in an ordered field.
* **C40** count_include_pad=False averages only original elements: C25+C36; refutation for unsorted axes. Exact condition and outcome for every axis order in AvgOriginal.v.
* **C41** Gaussian kernels are normalised and symmetric: Reals (exp).
* **C42** Gaussian derivative kernels sample the derivative: Derivative of polynomial*gaussian, induction on order, Reals.
* **C43** any_conv_1d is strided dilated correlation along one axis: Row-major ravel/unravel reshaping model + conv.
* **C44** Edge fast path equals correlation: Model _conv_edge incl. int() truncation; theorem for kernels not truncating to a fast path wrongly; refutation.
* **C45** Edge filters vanish on constant images: From C36/C14. Exact component shapes in EdgeShape.v.
* **C46** Laplace sums per-axis second differences: From C44.
* **C47** LaplacianOfGaussian uses the Gaussian second-derivative kernel: Refutation at a concrete sigma with bounds on exp.
* **C48** Unsharp masking formula: Direct.
* **C49** MSE is a metric-like score: Reduction over axes on tensors, ordered field.
* **C50** PSNR formula and monotonicity: Reals log.
* **C51** SSIM is symmetric, 1 on identical images and bounded by 1: Reals, Cauchy-Schwarz for weighted sums.
* **C52** SSIM crop_border removes all padding influence: From C14/C36.
* **C53** MS_SSIM size check is sufficient: Integer arithmetic, induction over levels.
* **C54** MS_SSIM is 1 on identical images for any number of levels: Reals; refutation for a single level.
* **C55** Bayer 1-channel/4-channel conversions are inverse: Strided slices model.
* **C56** RGB to Bayer conversions agree: idem.
* **C57** Sensor alignment validation: Strings.
* **C58** Bayer positions partition the pixel grid: Finite.
* **C59** Downsampling a mosaic takes R, mean G, B of each 2x2 block: idem.
* **C60** Demosaicing keeps measured samples: Strided writes.
* **C61** Demosaicing is exact on flat images: Kernel sums.
* **C62** BayerConv2d computes centred convolutions on each phase: Index arithmetic with ReflectionPad2d model.
* **C63** forward_unshuffle is pixel_unshuffle of forward: idem.
* **C64** poly1d evaluates the polynomial: Loop invariant; refutation for a constant polynomial.
* **C65** outer is the outer product: reshape+broadcast.
* **C66** safe_power is elementwise and total: Elementwise theorem over reals.
* **C67** random_crop returns a contiguous block of the requested size: torch.randint as an oracle with its documented range; refutations for full size / last offset.
* **C68** BayerConv2d rejects odd sides: strided-slice model; theorem for sides where the phases differ in more than broadcasting, refutation on a side of 3.
* **C69** Demosaicing is exact channel by channel: symbolic kernels over an ordered field, bounds from C60/C62.
* **C70–C72** Padding is linear / keeps constants / stays in range: invariants over the axis loop of C14, one lemma per mode.
* **C73** Argument formats: simulation relation `represents` between NdSpec objects and the per-axis specs used by the padder and pool models.
* **C74** Edge and sharpening calls are independent of history: state-machine model, equality with a fresh call after any call list.
* **C75** Gaussian pooling: kernels of C41/C42 fed into C36/C39 over the reals.
* **C76, C77** MS_SSIM symmetry and bounds: induction over the levels.
* **C78, C79** Edge filters are linear / response to constants: from C44 with C70/C71.
* **C80** Noise moments: the generator is an oracle; expectation over finite and countable distributions (reals).
* **C81, C82** describe: sorting permutation, interpolation between order statistics; affine maps.
* **C83** pixels_per_degree: reals, monotonicity of atan.
* **C84** the deprecated padding pair: integer arithmetic.
* **C85–C90** edge losses: generic edge filter first, then Gaussian kernels over the reals; refutations by concrete images.
* **C91** horizontal/vertical: two-axis closed form, transposition.
* **C92** conv_nd: NdSpec.apply of conv_1d; link to the pooling output shape.
* **C93–C95** Mirror images: every extension formula read backwards is the formula with before/after exchanged; then the closed form of pooling.
* **C96–C97** The closed form of a filter with copying modes; cyclic shifts; permutation of the axes, axis by axis through the padding specification and the closed form of pooling.
* **C98** User functions as modes: loop invariant over two buffers with different contents, with a contract for the function.
* **C99–C102** Laws of the metrics: one lemma for two pairs of images whose squared differences are in a fixed ratio; Cauchy–Schwarz and Minkowski on lists; SSIM numerators and denominators of two calls compared pixel by pixel; blocks of reduced axes under mirroring.
* **C103, C104** Symmetries and linearity of demosaicing: every output pixel is a 5x5 sum over reflected positions of a class of pixels (BayerLaws.v `pixel`); reflection, classes and kernels are followed through each symmetry.
* **C105** Padding in two steps: each extension is the only one with its mirror and shift laws (PadTwice.v `*_unique`), so the padded line, extended again, is the same extension; order statistics by counting inserted copies.
* **C106** Padder.to_same: NdSpec.apply item by item, alignment of the lengths; refutation: a failing call that has replaced the widths.
* **C107** Edge filters of mirror images: the padded line is the mirrored padded line; the reversed kernel is s times itself; signs are followed through smoothing (EdgeFlip.v).
* **C108** Edge filters of ramps: closed form with copied positions (`component_copying`); inside, the zero-sum kernel sees only slope times moment; Laplace by second differences (EdgeAffine.v).
* **C109** Unsharp masking: value by cases on the difference (`sharpened_value`), then the linear, constant, mirror and range laws of same-size pooling (SharpenLaws.v).
* **C110** MS_SSIM's value: a recursive specification over the weights (`levels_value`), proved of the loop by induction on its run (MsValue.v).
* **C111** MS_SSIM and contrast: numerators and denominators of every level's maps stay in a fixed ratio (MsLaws.v).
* **C112** two poolings are one: sums over combined offsets axis by axis, floors of quotients for the shapes (PoolTwice.v, AvgTwice.v).
* **C113** block averages: sums over blocks regrouped axis by axis (AvgTwice.v).
* **C114** commuting filters: from C112 and commutativity of convolution; circular case from the closed form of C96 (FilterCommute.v).
* **C115** gradient magnitude: the components of the combination of two images (C78) under the square root; Minkowski's inequality with epsilon as one more coordinate (MagnitudeReal.v).
* **C116–C117** transposes and totals: pixel j reads pixel i through offset o exactly when i reads j through the mirrored offset (circular: always for odd kernels; symmetric: the reflection pairs offsets up to a palindrome); then Fubini (FilterAdjoint.v). An edge component is the same sum over one more axis.
* **C118** blurs contract: |Σ w v|² ≤ Σ w v² for a window w (Jensen, SsimBlur.v), then the total law of C116 applied to the image of squared (or absolute) differences (BlurContract.v); the Gaussian kernel of odd size is a palindromic window (BlurGauss.v). Reflect padding: a counterexample.
* **C119** batches: `picked d g n x x'` (item k of x' is item g k of x along d) is kept by padding one axis at a time (PickPad.v), by correlations (PickPool.v), by edge components and magnitudes (PickEdge.v), and by sums and means over other axes, where axis d of the image becomes axis `rank al d` of the result (PickSsim.v).
* **C120** averages of averages: the blocks of a reduction list every index once (`blocks_all`) and have one size (`size_split`), so the mean of the block means is the mean (MetricTower.v); PSNR by Jensen's inequality for ln from ln u ≤ u − 1 (PsnrTower.v).
* **C121** axis permutations beyond padding and pooling (C97): line correlations, the crop of SSIM and reductions commute with renaming the axes; a block of a reduction is renamed index by index (`block_sum_perm`), and SSIM fails for both or neither because renaming is a bijection.
* **C122** MS_SSIM item by item and under permuted axes: an abstract renumbering respected by blur, crop, keepdim mean and halving is
  carried through the levels (MsSim.v), then instantiated for item selection and axis permutation (MsReindex.v).
* **C123** index tuples for every integer axis, the exact set accepted by _check_padding, the hdrvdp3 stub and
  BayerConv2dUnshuffle (UtilModel.v, UtilProofs.v).
* **C124** a block of an image: pooling, filtering away from the block's border, edge components, SSIM maps, BayerConv2d
  and demosaicing of the block against those of the whole image, for every position and size.
* **C125** the reduction axes of the metrics: IndexError, RuntimeError or the reduction over the named axes, for every
  axes argument; means over empty axes.
* **C126** repeated axes: padding and pooling along a list of axes with repetitions as a chain of one-axis calls; filters
  keep the shape (PadRepeat.v, PoolRepeat.v, RepeatEx.v, PropsRepeat.v).
* **C127** how padding and pooling calls end: the first error for every list of modes, and every axis number out of range
  (AxisErrors.v, PropsAxisErr.v).
* **C128** reordered and cyclically shifted images: mse and PSNR for every permutation of the coordinates of an axis;
  edge filters and SSIM with circular padding commute with cyclic shifts (ReduceShuffle.v, PsnrShuffle.v, EdgeShift.v, SsimShift.v).
* **C129** mode periodize is mode circular on the image with odd axes evened out, for padding, filters, edge components
  and magnitudes; magnitudes of components of different shapes; the Laplace filter with periodize padding for all lengths.
* **C130** constructors: exactly when each succeeds, and which error it raises otherwise (Construct.v, ConstructGauss.v).
* **C131** periodize in SSIM (with and without crop), GaussianGrad, LaplacianOfGaussian and UnsharpMask: circular on the evened image (SsimPeriodize.v, GaussPeriodize.v).
* **C132** edge calls with numbers that are no axes: wrapped edge axes keep their smoothing, one-dimensional horizontal/vertical, kinds of errors (EdgeWrap.v).
* **C133** order and largest difference of two images through padding and pooling (PadMono.v).
* **C134** arrays and tensors as data of a spec: tolist() is a simulation between the two models (RaggedArr.v, RaggedArrProofs.v).
* **C135** in-place copies of padding: never between overlapping regions, any order of element copies is right (AliasModel.v, AliasProofs.v).
* **C136** safe_power over the reals: signed power, order, products, composition, inverse, slope (PowerReal.v).
* **C137** block averages and the MSE: exact decomposition (BlockContract.v).
* **C138** padding and functions applied pixel by pixel: a relation preserved by every mode that copies or selects pixels (PadMap.v).
* **C139** rounding error of separable pooling: a relational model of the loop in which every operation may be rounded (RoundModel.v), and a bound for all of its outcomes (RoundProofs.v).
* **C140** relative rounding error of MSE, in the same style (RoundMetricModel.v, RoundMetric.v).
* **C141** laws of BayerConv2d: every value is a window sum plus a bias (C62), followed through sums, shifts, mirroring and transposition (BayerConvLaws.v).
* **C142** demosaicing networks exact on flat images: the clamped value at a pixel is a combination of the three channel values with the colour shares of the kernel as coefficients; interior values of the clamp determine the coefficients (BayerExact.v).
* **C143** rounding of BayerConv2d and demosaicing: relational model RoundBayerModel.v (convolution with rounded products and additions in any order; padding, slicing, copying, clamping exact); the general bound for rounded sums of C133 applied to each window; clamping is non-expansive; the gradient-corrected kernels have absolute sum at most 5/2 (RoundBayer.v).
* **C144** PSNR: rounding model RoundPsnrModel.v on top of the rounded MSE; a relative error q of the argument moves log10 by at most -log10(1-q); range from the mean of max^2 - d^2; blurring and averaging from C118 and C137 (RoundPsnr.v).
* **C145** edge losses: mirroring both images along any axis (C107 for the maps, parity of the Gaussian kernels, a change of summation index), turning by 180 degrees, exchanging height and width or batch and channels (C121) (EdgeLossFlip.v).
* **C146** rounding error of edge filters: the padding of a perturbed image is a perturbed padding (forward_rel with errs), one, two or length+1 roundings for the edge kernel, then C139 on the perturbed image (RoundEdgeModel.v, RoundEdge.v).
* **C147** rounding error of edge magnitudes: the loop of the rounded model is a rounded sum of powers of rounded components (state changes depend on shapes only); p = 1 by the bound for rounded sums, p = 2 by the relative error of a sum of squares and of its root plus the Lipschitz property of the norm (C115) (RoundMag.v, RoundMag2.v).
* **C148** rounding error of unsharp masking: bound of C139 for the blur, one rounding for the difference, then a case split on the threshold (clear of it: both runs take the same branch; else the amount times the threshold is added); a counterexample on x34 for every e shows the extra term is needed.
* **C149** rounding error of poly1d: invariant of the loop (the running power x^(i+1) has i roundings, the partial sum i + 1), closed form of the sums; the bound is attained by a x^n when everything is rounded up.
* **C150** relative rounding error of blurs and averages: three runs side by side (rounded, exact, exact on a majorant of the image), each pass multiplies the error factor; padding keeps majorants; the product and the quotient of uniform.py:51 add two roundings; kernel (1, -1) shows that the sign condition is needed.
* **C151** averages that leave out the padding are means of the image: by C40 all images of one shape have the same windows, so the laws are laws of means of the members of a window; counted padding and replicated padding break them (AvgLaws.v).
* **C152** describe keeps the order of images: sorting keeps the order position by position (shown for C133, with slack d), quantiles are convex combinations of two positions; Minkowski (C100) for the standard deviation (StatsMono.v).
* **C153** Rounding error of SSIM: error and size of every intermediate result (as for C139), |numerator| <= denominator and the least denominator K1^2 K2^2 (C51) for the quotient; the mean as for C140; an example of cancellation (RoundSsimModel.v, RoundSsim.v, RoundSsimEx.v).
* **C154** SSIM with a rounding function: numerator and denominator of x with x are the same term, since 2 a = a + a; the two maps of x, y and y, x are the same term but for commutativity; the map meets every clause of C153's relation; a mean of ones by induction on the bracketing (RoundSsimDet.v, RoundSsimDetEx.v; PropsRoundDet.v).

## Trusted base

* Coq 8.16.1's kernel (type checker, `vm_compute`), the standard library, and `coqc`/`coq_makefile`.
* No axioms of our own, no functors or module types, no `Admitted`, no section-less `Variable`/`Hypothesis`, no plugins.
* `Print Assumptions` is run below every theorem in the `Props*.v` files. The result for each theorem is listed in
  ASSUMPTIONS.md (generated by `tools/assumptions.py`). There are three cases:
  * *Closed under the global context*: everything that does not speak about real numbers
    (padding, pooling, NdSpec, CFA, edge filters over an arbitrary ordered field, MSE, SSIM, describe, conv_nd, …).
  * `ClassicalDedekindReals.sig_forall_dec`, `ClassicalDedekindReals.sig_not_dec`,
    `FunctionalExtensionality.functional_extensionality_dep`: the axioms behind the standard library's `R`.
  * the same and `Classical_Prop.classic`, used by the standard library's analysis (exp, ln, derivatives, atan).
* The hand translation of the Python code into Gallina, described below, and of torch/numpy primitives from their documentation.
  Nothing in /repo was executed.
* Reading of the statements: the theorem statements use the predicates listed at the head of each `Props*.v`.

## What is modelled

| code (torchimage/) | model | properties |
|---|---|---|
| padding/pad_1d.py, padding/utils.py, padding/generic_pad.py | PadModel.v (uses Tensor.v, TensorOps.v), SamePair.v, UtilModel.v, AliasModel.v | C01–C24, C70–C72, C84, C93, C97, C98, C105, C106, C119, C123, C126, C127, C129, C130, C133, C135, C138 |
| utils/validation.py (check_axes, check_stride, check_pad_width) | PadModel.v | C23, C24 |
| utils/ndspec.py, utils/ragged.py | NdSpecModel.v, RaggedArr.v | C28–C35, C73, C134 |
| shapes/conv_like.py, misc/outer.py | PoolModel.v, ConvNd.v | C25–C27, C65, C92 |
| pooling/base.py, pooling/uniform.py | PoolModel.v, RoundModel.v, RoundAvgModel.v (rounded arithmetic) | C22, C36–C40, C94–C97, C112–C114, C116, C118, C119, C124, C126, C127, C129, C130, C133, C137, C139, C150, C151 |
| pooling/gaussian.py | GaussModel.v | C41, C42, C75, C130 |
| pooling/operator.py, filtering/edges.py, filtering/sharpen.py, filtering/utils.py | EdgeModel.v, GaussModel.v (GaussianGrad, LaplacianOfGaussian), RoundEdgeModel.v (rounded components and magnitude), RoundSharpenModel.v (rounded unsharp mask) | C43–C48, C74, C78, C79, C91, C107–C109, C115, C117, C119, C121, C124, C128–C132, C146–C148 |
| metrics/base.py, mse.py, ssim.py, psnr.py | ReduceModel.v, MetricsModel.v, PsnrModel.v, RoundMetricModel.v (rounded MSE), RoundPsnrModel.v (rounded PSNR), RoundSsimModel.v, RoundSsimDet.v (rounded SSIM) | C49–C54, C76, C77, C99–C102, C110, C111, C119–C122, C124, C125, C128, C131, C137, C140, C144, C153, C154 |
| contrib/edge_loss.py | EdgeLossModel.v | C85–C90, C145 |
| cfa/ (utils and bayer_conv) | CfaModel.v, UtilModel.v (BayerConv2dUnshuffle), RoundBayerModel.v (rounded demosaicing) | C55–C63, C68, C69, C103, C104, C123, C124, C138, C141–C143 |
| misc/polynomial.py, misc/power.py, random.py:random_crop | MiscModel.v, RoundPolyModel.v (rounded poly1d) | C64, C66, C67, C136, C149 |
| misc/stats.py | StatsModel.v | C81, C82, C152 |
| random.py (noise), metrics/hdrvdp/ | NoiseModel.v, UtilModel.v (hdrvdp3 stub) | C80, C83, C123 |

Not modelled: pooling/base.py `move_tensor` (dtype and device only), `__repr__` methods, deprecation warnings,
documentation and the tests.

### Simplifications

* Scalars are exact (ordered field or reals; C139, C140, C143, C144 and C146–C150 and C153 bound the effect of rounding on separable pooling, MSE, demosaicing, PSNR, edge filters, unsharp masking, poly1d and SSIM): no rounding, NaN, inf, dtype promotion, device, autograd, memory layout,
  contiguity of views or aliasing of overlapping in-place operations (padding's copies between views never overlap: C135). Where torch/numpy would produce NaN or inf the model
  raises: division by zero, zero-sum normalisation, mean of an empty line, log of a non-positive number (`ZeroDivisionError`,
  `ValueError`). No theorem claims a value in such a case.
* Loops run on fuel; `OutOfFuel` stands for a loop that did not end. On an axis of length 0 Python's symmetric/reflect loops of `pad_axis`
  may raise `ZeroDivisionError` where the model loops.
* `check_axes`: slices with any step are modelled (step 0 raises). Integer axes are read through `axis_nat`.
* User-supplied callables receive no index object (a `FunctionObject` index gives `TypeError`). Ceil division in floats is exact.
* `n_original_elements_1d`: for a stride below 1 only 0 is modelled.
* CFA: `str.upper` for ASCII; `[k]` advanced index as slice `k:k+1` of a channel that must exist; ReflectionPad2d/Conv2d accept only 3-D/4-D input; gradient kernels are
  integers over 16.
* NdSpec: lists and tuples are `Node`, everything else `Leaf`; numeric arrays and tensors as data are modelled in RaggedArr.v and compared with nested lists (C134), object arrays are not modelled; `np.empty((0, …)).tolist()` is `[]`.
* Edge filters: the exponent p of `magnitude` is either 1 or an arbitrary pair (power, root); conv1d/conv2d with one channel; Farid's decimals
  are exact rationals.
* Gaussian kernels: exact `exp`; integer powers; sigma = 0 raises. Arguments are already parsed (`nds`, linked to NdSpec by C73).
* safe_power: the power and the fractional-part test are parameters. random_crop: the generator is an oracle. Noise: draws are oracles.
* Metrics: reduction with `dim=()` reduces all axes, as torch does; the blur of SSIM and torch.pow are parameters where the theorem allows it;
  the strings "gaussian"/"mean" for blur stand for the pools they name.
* describe: the standard deviation of a single element is `None` (NaN); the size limit of `torch.quantile` is not modelled.
* Reductions of images without axes: torch accepts the axis numbers 0 and -1 there, the model raises IndexError (C125 leaves such images out).
* Edge losses: modelled over an arbitrary edge filter; L1Loss broadcasting is kept in the model, the theorems are for equal shapes.

## Findings about the code

Behaviour that contradicts the documentation, each with a `_refuted` theorem or an error theorem:

* padding: mode `zeros` returns a function object (C16); `_check_padding_mode`'s result is ignored; circular/symmetric-type modes never end on an
  empty axis (C17); periodize with width (0,0) does not make the length even (C12) and `pad_axis` differs from `forward` for it (C18);
  `check_axes` accepts `ndim` and unchecked ints (C23); same padding does not cover elements for kernels shorter than the stride (C20);
  a failing `to_same` has already replaced the widths (C106).
* pooling: `count_include_pad=False` with unsorted axes permutes the counts (C40).
* edge filters: the fast path truncates the kernel with `int()`, which makes LoG(3, 0.55) wrong (C44, C47); on an axis shorter than the kernel it
  returns an empty result; Laplace needs two axes (C46); UnsharpMask without a padder broadcasts or fails (C48).
* CFA: odd sides of 3 broadcast silently (C68); unbatched `forward_unshuffle` (C63); images with a side of 2 fail (C61); batches in demosaic (C60).
* misc: `poly1d` with one coefficient raises (C64); `random_crop` cannot return the last offset or the full size (C67).
* metrics: MS_SSIM with one weight raises (C54); its size check is not sufficient for empty kernels (C53); cropping keeps one padded pixel
  for periodize on odd lengths (C52); a constant padder can give |SSIM| > 1 (C51); `reduce_axes=()` reduces everything.
* losses: second-order and even-size kernels respond to constant images (C88); WeightedMul can be negative, WeightedDiv divides by zero edges (C90);
  WeightedSum identifies an image with its negative (C89).

## Testing the theorems

`tools/seed.py` applies one edit to a scratch copy of the model, rebuilds with every proof, and reports which theorems of the Props files fail.
seeded/LOG.jsonl has one line per attempt.
