# Formal model of DSPBB in Rocq (Coq 8.16.1)

## 1. Layout

| files (rocq/theories) | content |
|---|---|
| `Base.v`, `BaseFacts.v` | outcomes, checked array access, loops, commutative rings/fields as records, finite sums; their laws |
| `Complex.v` | complex numbers as pairs of reals, with modulus, conjugate, polar form, square roots |
| `XModel.v` | the model: one Gallina function per C++ function, each with the file and lines it models and the simplifications made |
| `XProofs.v`, `*Spec.v`, `Dft.v`, `LsqFacts.v`, `FejerJackson.v`, `ResampleTotal.v` | specifications that need their own vocabulary, and lemmas |
| `PropsX.v` | the property theorems `Cnn_…`: each file begins with (or imports) a small specification written without reference to the model's helpers, states the theorems, prints their assumptions, and ends each property with an `Example Cnn_nontrivial` that meets the hypotheses with a concrete case |

`tools/gen_properties.py` writes `properties.jsonl`, `tools/gen_manifest.py` writes `MANIFEST.json`,
`tools/mutate.py` runs seeded wrong programs and logs them in `seeded/LOG.jsonl`,
`tools/gen_assumptions.py` writes `ASSUMPTIONS.md`.

Theorem names: suffix `_partial` = only part of the property; suffix `_refuted` = a counterexample showing that the
property as stated is false of the code (a finding), kept next to the strongest statement that does hold. A property with any such
theorem has status `partial`, and its note in MANIFEST.json says what is missing.

## 2. Modelling decisions

* **Outcomes.** Code that may fail returns `outcome A = Ok a | Throw e | UB`. `UB` stands for an out-of-range
  access, a violated `assert`, signed overflow (Rational), an invalid shift count, or — where stated in the model file — a
  floating point division by zero whose NaN/infinity reaches the result. Array accesses are checked (`rd`, `wr`, `slice`,
  `wrs`), so a theorem `f … = Ok r` also says that the code stays in bounds.
* **Numbers.** Sample types (`float`, `double`, `std::complex`) are an arbitrary commutative ring or field
  (records `CRing`, `CField`, universally quantified in the theorems) or the standard library's `R`
  (and pairs of them) where order, trigonometry or analysis is needed. **Except in C62 and later properties that say so, rounding, NaN, infinities and floating point overflow are not
  modelled**: theorems speak of exact arithmetic. C62-C67, C69, C71, C74 and C75 instantiate the (law-free) reduction and convolution kernels, the statistics, polynomial evaluation and the IIR realizations with Flocq's IEEE-754 arithmetic (`binary_float prec emax`, round to nearest even). Index arithmetic is over `Z`; `size_t` wrap-around is written
  out where the code can reach it (`size_sub`).
* **SIMD.** A SIMD batch of width `W` is a list of `W` lanes with lanewise operations; `W ≥ 1` and the use of the vectorised path are universally
  quantified.
* **Loops** are `for_`/`for1`/`loop` (structural recursion on the trip count, which the C++ bounds determine) with invariant rules in
  `BaseFacts.v`; while-loops carry fuel and running out of fuel is `UB`, so success theorems include termination.
* **Aliasing.** In-place operation is modelled where the API offers it: the source operand is `None` when it is the output object itself.
* **Streams.** Filter states (FIR history, direct-form I/II, cascade, interpolation and resampling suspension points)
  are explicit state passed from call to call; block theorems quantify over every list of blocks.

## 3. Trusted base

* Coq 8.16.1's kernel (including `vm_compute`, used for closed computations).
* The axioms `Print Assumptions` lists, in full per theorem in `ASSUMPTIONS.md`. They are only ever the following four of Coq's standard library,
  which come with its real numbers:
  `ClassicalDedekindReals.sig_not_dec`, `ClassicalDedekindReals.sig_forall_dec`,
  `FunctionalExtensionality.functional_extensionality_dep`, `Classical_Prop.classic`.
  Coquelicot (integrals, derivatives) is used as a library for C57-C61 and Flocq (IEEE-754 numbers) for C62-C67, C69, C71, C74 and C75; they add no axioms of their own.
  Theorems over integers, lists and arbitrary rings/fields are closed under the global context. No axioms are added; nothing is admitted.
* The reading of the C++ text: that each model definition says what the cited lines do. Nothing is extracted or run.
* Components represented by their specification instead of their code:
  PocketFFT (`pocket_*` in `FftModel.v`: the DFT sums, only the lower half of the spectrum written for real input);
  `std::sort`/`std::partition_point`/other `std::` algorithms (their contract);
  Eigen's `CompleteOrthogonalDecomposition::solve` (a parameter that minimises the residual; `C53_solver_exists` shows there is one);
  `std::erf`, `std::cyl_bessel_i` (parameters: any function, or nonnegative/even where said);
  the number of Newton steps in the overlap-add chunk-size optimum and of bisection steps (parameters: any number);
  `std::vector` insertion and erasure (their contract).

## 4. What is modelled and what is not

| /repo/include/dspbb | modelled in | not modelled |
|---|---|---|
| Utility/Interval.hpp | IntervalModel (all, integers), IntervalOrderModel (any type) | |
| Utility/TypeTraits.hpp, Numbers.hpp | – | compile-time only (`pi_v` is `PI`) |
| Math/Rational.hpp | RationalModel (all; overflow = UB) | T narrower than int, stream output |
| Primitives/Signal.hpp, SignalView.hpp, SignalTraits.hpp | SignalModel | capacity, iterator invalidation, self-insertion, element conversion |
| Primitives/SignalArithmetic.hpp, Kernels/Numeric.hpp, Functors.hpp | KernelModel, MixedModel | |
| Kernels/Math.hpp, Math/Functions.hpp | FunctionModel (elementwise application, real and complex) | accuracy of the xsimd approximations |
| Kernels/Convolution.hpp, Math/Convolution.hpp | ConvModel (all), MixedConvModel (different element types) | ConvolutionReduce with different element types (used by no API function) |
| Math/DotProduct.hpp | FunctionModel | |
| Math/FFT.hpp | FftModel (all, over PocketFFT's specification) | PocketFFT/ |
| Math/OverlapAdd.hpp | OlaModel (all) | rounding in `TheoreticalOptimalSize` beyond the bound proved |
| Math/Polynomials.hpp | PolyModel (all) | |
| Math/Statistics.hpp | StatModel (all for real signals; sums, means and squares also for complex and floating-point signals) | moments of order 3 and above of complex signals |
| Math/Solvers.hpp | SolverModel (all) | |
| Math/RootTransforms.hpp, LTISystems/DiscretizationTransforms.hpp, IIR/BandTransforms.hpp, IIR/Butterworth.hpp | RootModel (all; the inverse bilinear transform only throws) | |
| LTISystems/Systems.hpp | SysModel (all) | |
| IIR/Realizations.hpp, IIR/Filter.hpp | IirModel (all) | |
| IIR/Chebyshev.hpp, IIR.hpp (Butterworth, Chebyshev) | ChebyModel, RootModel | |
| IIR/Elliptic.hpp, Math/EllipticFunctions.hpp, IIR.hpp (elliptic) | EllipticModel (C57–C61) | |
| FIR/Filter.hpp | FirModel (all; law-free, exact and floating point are instances), MixedConvModel (streaming by convolution with different element types) | |
| FIR/BandTransforms.hpp | FirBandModel (all) | |
| FIR/Windowed.hpp, FIR/LeastSquares.hpp, FIR.hpp | FirDesignModel (real filters) | complex element types |
| FIR/Descs.hpp, IIR/Descs.hpp, FilterUtility.hpp | DescModel (values, not the changing C++ types) | |
| Windowing.hpp, Generators/Spaces.hpp, Generators/Waveforms.hpp | WindowModel, SpacesModel, WaveModel | complex windows, rounding of decimal constants |
| Polyphase.hpp, Resample.hpp | PolyphaseModel, ResampleModel, MixedResampleModel, NormalizeModel (all) | rounding of mixed-type products |
| MeasureFilter.hpp | MeasureModel (bands), FunctionModel (frequency response) | |
| Kernels/Utility.hpp | part of KernelModel | |

## 5. Per property: model and proof

| id | property | model | proof |
|---|---|---|---|
| C01 | Interval operations agree with sets of points | IntervalModel | points of an interval as a predicate; case analysis and lia |
| C02 | Interval equality means equal endpoints | IntervalModel | false of the code; exact characterisation of what == computes |
| C03 | Rational arithmetic is exact and canonical | RationalModel with type bound M | cross-multiplied values, gcd/lcm lemmas; totality up to overflow |
| C04 | Rational comparisons are the order of the rationals | RationalModel | comparison by common denominator against the order of Q (cross products) |
| C05 | Rational floor, ceil and frac | RationalModel | truncating division; refuted for negative values |
| C06 | Signal container operations act as sequence edits | SignalModel | list algebra; FIFO theorem by induction over histories |
| C07 | Signal views address exactly the requested samples | SignalModel, views = offset+length in a memory | index arithmetic |
| C08 | Signal arithmetic is elementwise for every vector width | KernelModel Transform, width W | loop invariant over batches and tail; aliasing |
| C09 | Reductions do not depend on vectorisation | KernelModel Reduce/TransformReduce/InnerProduct | invariant over the 4-fold unrolled loop; permutation of a fold in a commutative monoid |
| C10 | Compensated summation sums | KernelModel Kahan functor | compensation invariant = 0 in exact arithmetic |
| C11 | Convolution kernels compute the convolution sum | ConvModel, the four kernels | loop invariants against the zero-extended convolution sum |
| C12 | Convolution kernels stay in bounds | ConvModel with checked access | success theorem (= Ok) |
| C13 | Convolution API: lengths, window selection, commutativity, linearity | ConvModel API | reindexing of the convolution sum |
| C14 | Overlap-add convolution equals direct convolution | OlaModel over FftModel | circular convolution theorem, induction on chunks |
| C15 | Chunk-size helpers | OlaModel | log2/power arithmetic; derivative-free bounds on the real optimum |
| C16 | Fourier transforms invert each other and are linear | FftModel, Dft | orthogonality of roots of unity, sums over Z |
| C17 | Real spectra: half and full forms agree | FftModel | conjugate symmetry of the DFT |
| C18 | FftShift and IfftShift are mutually inverse | FftModel | rotation lemmas for odd and even lengths |
| C19 | Streaming FIR filtering is independent of block boundaries | FirModel | state = last inputs; induction over the list of blocks |
| C20 | Direct-form I obeys the difference equation | IirModel DF-I state machine | simulation invariant against the difference equation |
| C21 | Direct-form II equals direct-form I | IirModel DF-II | change of variables; exact general relation |
| C22 | Cascaded form equals the chain of its biquads | IirModel cascade | induction over sections; product of transfer functions |
| C23 | Streaming IIR filtering is independent of block boundaries | IirModel | fold over concatenated blocks; linearity/time invariance by simulation |
| C24 | Polynomial evaluation and expansion | PolyModel | Horner, induction on roots |
| C25 | Root sets are stored faithfully | PolyModel | partition/pairing of roots |
| C26 | Conversions between system representations preserve the transfer function | SysModel | products over roots; sorted permutation |
| C27 | Z-domain mapping substitutes the variable | RootModel | field identities per root, product over roots |
| C28 | Bilinear discretisation substitutes s = k (z-1)/(z+1) | RootModel | as C27 with the bilinear map; gain and pad roots |
| C29 | Stability is preserved | RootModel | modulus inequalities; roots of the second-order map |
| C30 | Butterworth prototypes | RootModel Butterworth | trigonometric factorisation of 1+w^(2n) |
| C31 | Polyphase decomposition partitions the taps | PolyphaseModel | index arithmetic |
| C32 | Interpolation equals zero-stuffing followed by convolution | PolyphaseModel Interpolate | sums over residue classes |
| C33 | Interpolation can be suspended and resumed | PolyphaseModel | invariant of the suspension point |
| C34 | Resampling samples the interpolated signal | ResampleModel | exact rational positions; bounds by lia/nia |
| C35 | Resampling can be suspended and resumed | ResampleModel | suspension point invariant, induction over calls |
| C36 | Decimate and Expand | PolyphaseModel | index arithmetic |
| C37 | FIR band transforms | FirBandModel | list and sum identities, frequency responses |
| C38 | Halfband to Hilbert transformation | FirBandModel | tapwise formula for the short and the blocked path |
| C39 | Windowed FIR design | FirDesignModel | normalisation; positivity of the windowed sinc sum (Fejér–Jackson) |
| C40 | Window functions are symmetric and bounded | WindowModel | trigonometric identities; Chebyshev polynomials and DFT for Dolph–Chebyshev |
| C41 | Spaces hit their end points | WindowModel | field arithmetic |
| C42 | Waveform generators are periodic and bounded | WindowModel | floor/fractional part lemmas |
| C43 | Statistics | StatModel | sums over R; Cauchy–Schwarz |
| C44 | Filter band measurement | MeasureModel | scan refined by a two-threshold switch; induction on the scan |
| C45 | Root finding by bisection | SolverModel | bracket invariant, intermediate value theorem |
| C46 | Filter descriptors | DescModel | record algebra |
| C47 | Bins and frequencies correspond | FftModel | rounding lemmas |
| C48 | Orders of the system representations agree | SysModel | lengths |
| C49 | The choice of IIR realization does not matter | SysModel, IirModel | C20–C22 with C26 |
| C50 | Butterworth filters have the response that was asked for | RootModel, IIR.hpp designs | C27–C30 composed; power response along the unit circle |
| C51 | Chebyshev type I filters have the response that was asked for | ChebyModel | Chebyshev polynomials over C; composition as C50 |
| C52 | Chebyshev type II filters have the response that was asked for | ChebyModel | as C51 |
| C53 | Least squares FIR designs are optimal | FirDesignModel | normal equations; least squares minimiser on symmetric taps |
| C54 | FunctionModel | DFT of the padded impulse; polar form; grid loop invariant |
| C55 | FunctionModel | loop invariants of the three-part vectorised transform |
| C56 | FunctionModel | reduction = sum (C09); inner-product laws, Cauchy–Schwarz |
| C57 | EllipticModel | Landen transformation preserves the Legendre integral exactly (derivative w.r.t. the angle); AGM converges quadratically; the last modulus is below eps/4, so the integral is linear there |
| C58 | EllipticModel | duplication theorem by substitution in a primitive; the Taylor remainder of the symmetric series bounded by the first omitted degree; the loop's exit test bounds it by eps/4; termination since lambda stays bounded below |
| C59 | EllipticModel | reduction of the Legendre integral to RF by substitution; imaginary axis by Jacobi's imaginary transformation |
| C60 | EllipticModel | C57 + C58 + periodicity of the integral under p -> p + pi (range reduction); sin, cos and dn are 1-Lipschitz in the angle |
| C61 | EllipticModel | K is strictly increasing, continuous and unbounded, so the degree equation has one solution and bisection brackets it; sn of the pole arguments has a positive imaginary part inside the period rectangle, so poles are in the left half plane; error bounds of C57-C60 show that fine precision keeps the computed arguments inside. Ripple bounds: the transformation of order n of sn as a product of shifted sn's (EllipticRational), its differential equation, hence its periods and modulus (EllipticTransform), which the degree equation identifies with the discrimination factor; the equiripple function in terms of poles and zeros, factored over the complex numbers (EllipticResponse); the computed poles and zeros are elliptic functions of slightly moved arguments (EllipticLocate), those are jointly continuous in modulus and arguments (EllipticLimit), and the power response is a product of factors converging uniformly over all frequencies (UniformLimit, EllipticRipple); transforms as in C50/C51 |
| C62 | Reductions use every element once, with bounded rounding | KernelModel (law-free), FloatSpec, ReduceTree, FloatSum, FloatIeee | the unrolled loops, lanes and tails form one combination tree of bounded depth; error induction over the tree; Flocq's `Bplus_correct`, `Bmult_correct` |
| C63 | Compensated reductions lose a constant number of roundoffs | same | invariant of the compensated loop (carry and error bounds) per lane, composed with the trees |
| C64 | Convolution in floating point | ConvModel (operations are parameters; the exact kernels of C11-C13 are instances), ConvTree, ConvFloat, FloatIeee | law-free characterisation of every sample as a chain of multiply-adds (naive, slide, reduce) or three compensated loops over adjacent ranges of products (vectorised reduce); error induction along the chain, C63's loop invariant for the loops; Flocq's `Bfma_correct` for fused multiply-adds |
| C65 | A sample of a convolution is computed from the samples it is made of | ConvModel, ConvTree | same characterisation: the sample is a function of the listed elements only |
| C66 | Statistics in floating point | StatModel (operations are parameters; the exact functions of C43 are instances), FloatStat, FloatIeee | sums of rounded terms by C62's combination tree; division by the rounded size and the square root as single rounded operations; the variance about the computed mean is the variance plus the squared error of the mean; Cauchy-Schwarz for the covariance |
| C67 | Maximum and minimum of floating-point signals | StatModel (`gExtreme`, the comparison a parameter; C43's Max and Min are instances) | C62's combination tree; comparison of non-NaN numbers is comparison of extended reals |
| C68 | Statistics of complex signals | StatModel at the complex numbers | C62's combination tree in exact arithmetic |
| C69 | Polynomial evaluation in floating point | PolyModel (`poly_eval_with`; C24's evaluation is an instance) | induction over the coefficients with the error of one multiply-add (C64) |
| C70 | Signal arithmetic between different element types | MixedModel | loop invariant: the written prefix |
| C71 | IIR filtering in floating point | IirModel (`gdf1_step`, `gdf2_step`, `gcf_step` over any operations; C20-C23 are instances) | law-free recursion of each realization (IirTree), then `finite result => finite operands and rounding bound` per operation (IirFloat); the error of the output is the convolution of the residual with the impulse response. Contraction to fused multiply-adds is modelled inside the sums of products only, not across subtractions |
| C72 | Stable filters: bounded in, bounded out, and transients die out | IirModel, SysModel (all realizations through C49) | the denominator is the product of (z - pole) as a coefficient list (equal values, hence equal coefficients); one first-order section at a time, a bound W rho^n on the driving term gives W / (1 - |p|/rho) rho^n for the signal (StableProofs); the converse reads the pole's mode p^n off the impulse response |
| C73 | Sinusoids leave a stable filter with the amplitude and phase of the frequency response | same, with the design methods of C50-C52 and C61 (lowpass in PropsStable, other band types in PropsStableBands, elliptic in PropsStableElliptic) | subtract the steady sinusoid: the difference is driven only during the first max(#zeros, #poles) samples, then C72's decay |
| C74 | The rounding noise of a stable filter does not accumulate | floating-point realizations of C71 (NoiseProofs.v, PropsNoise.v) | the output obeys the difference equation up to the residual of C71, which is small relative to the largest output so far; with 2 gamma A <= |lead| prod(1-|p|) the running maximum of the output is bounded (bootstrap), and the stable recursion of C72 applied to the difference of the two outputs turns a bounded residual into a bounded error; cascades by induction over the sections |
| C75 | A stable filter fed with bounded samples does not overflow | same (OverflowProofs.v, PropsOverflow.v) | each operation on finite operands below the threshold is finite (Flocq); by induction on time the samples so far are finite, hence bounded by the bootstrap of C74, hence the next step stays below the threshold |
| C76 | Sinusoids and bounds through FIR filters; measured responses are what signals experience | FirModel, ConvModel, FunctionModel (FrequencyResponse), FirDesignModel (PropsFirSine.v) | streaming output = convolution (C19); addition theorems summed over the taps; mirror symmetry of the sums; C54 for the measured values, C73 for the IIR limit |
| C77 | Streaming FIR filtering in floating point | FirModel over an arbitrary law-free arithmetic, Flocq (FirFloat.v, PropsFirFloat.v) | induction over the blocks as in C19 but with the two overlapping convolutions of a block kept as two rounded sums (C64's error bound composed twice); bitwise independence for short blocks: every sum is the same chain, oldest sample first; a counterexample with a longer block |
| C78 | Interpolation and resampling in any arithmetic and in floating point | PolyphaseModel and ResampleModel over an arbitrary law-free arithmetic, Flocq (ResampleTree.v, ResampleAny.v, ResampleFloat.v, PropsResampleFloat.v) | every output sample is characterised as the dot product of an explicit window of the input with an explicit window of the taps (no algebraic law); dropping consumed or not yet received samples leaves the windows unchanged, positions are compared as reduced fractions, and success is transferred from the exact resampler by simulation (control flow does not depend on samples); the error bounds compose C62's inner-product bound with the scaling of the taps and the weighted blend |
| C79 | Waves keep their shape through interpolation and resampling | PolyphaseModel, ResampleModel over the reals (ResampleTone.v, PropsResampleTone.v) | C32/C34 reduce the functions to zero-stuffing and convolution; P times the zero-stuffed sinusoid is the sum of its P images (roots of unity, C16's orthogonality), each a sinusoid through the FIR filter (C76); the straight line between two samples of a cosine is within v²/8 of it (convexity by the mean value theorem, twice); sums of sinusoids by induction; the delay from C34_delay |
| C80 | Filters in series, in parallel, and undone | IirModel, FirModel over fields (PropsSeries.v) | C20: a direct form's output is the unique solution of the difference equation; chained equations multiply their polynomials, equations with the same input add over the common denominator, swapping sides inverts; FIR streams (C19) obey the equation with reversed taps over 1, and reversal commutes with convolution; sections in turn append (C22) |
| C81 | Convolution and FIR streaming of signals with different element types | MixedConvModel (heterogeneous kernels over types A, B, O), MixedConvProofs, PropsMixedConv | simulation: each heterogeneous kernel, followed by reading its output in the ring, equals the homogeneous kernel of ConvModel on the operands read in the ring (outcomes included), so C11–C13, C19 transfer; instance: real times complex |
| C82 | Interpolation and resampling with filters of another element type | PolyphaseModel and ResampleModel (their loops are for any element types), MixedResampleModel, MixedResampleProofs, PropsMixedResample | simulation: the loops over types A, B do what they do for one type to the values read in a common ring, so C32-C34 carry over; the library's pairs of types are instances; complex taps act conjugated (refutation of C32's reading) |
| C83 | Intervals over any ordered type | IntervalOrderModel (endpoint type and its operations are parameters), PropsIntervalOrder | max and min of a strict weak order against membership; floating-point numbers ordered through the extended real line (C67); NaN endpoints and rounded shifts refuted |
| C84 | Normalised polyphase filters in floating point | NormalizeModel (arithmetic is a parameter), PropsNormalizeFloat | each phase by window independence; summation error C62, then one rounded reciprocal and one rounded product per tap |
| C85 | Linearly spaced samples in floating point | SpacesModel (arithmetic is a parameter), PropsSpacesFloat | closed form of a sample; rounding is monotone; error of the step, the index, the product and the sum in turn; missed and overshot ends exhibited in single precision |
| C86 | Waves and chirps in floating point | WaveModel (arithmetic is a parameter), PropsWaveFloat | rounding is monotone and fixes 0, 1, 2 and the tilt, so each step stays in range; modf and the conversion of formats defined on the representation and proved exact resp. correctly rounded; std::sin is a parameter in [-1, 1] |

No property of the list is considered inexpressible in a model; what exact arithmetic leaves out (accuracy, rounding,
overflow of floating point) is in scope only of the properties from C62 on.

## 6. Findings (properties of the code as written that are false, each with a theorem)

* C02 `operator==` of intervals tests the last endpoints only for being nonzero.
* C03 rational * negative integer yields a negative denominator; C05 floor/ceil/frac truncate towards zero.
* C19 overlap-add FIR filtering of an empty block or with a single tap trips an assertion.
* C21 direct form II normalises differently from direct form I unless the denominator is monic.
* C25 `resize` of root sets that grows the real roots corrupts complex pairs; C26 a cascade without sections loses the gain; C48 `CascadedBiquad::order()` is one too large.
* C32 in-place interpolation leaves stale samples when the convolution window is empty.
* C37 `ShiftResponse` into another buffer leaves an odd-length centre tap computed from the buffer's old content.
* C39 cutoff 0 is accepted but 0/0; C40 one-sample flat top and Gaussian windows are 0/0; C42 waveforms with negative phase leave their range.
* C43 central moments: k = 0, k = 1 with a given mean, even k >= 6 (sign); constant signals' skewness and kurtosis 0/0.
* C44 a dip into the noise margin moves a band boundary; an empty first band; crossed edges for one-sample bands; an empty response is UB.
* C50 highpass at Nyquist and bandpass of half the rate divide by zero; C51 Chebyshev I of order 0 or above 32 shifts out of range.
* C59 `EllipticArcSN`/`EllipticArcCN` are even in x; C60 for |k| > 1 `cn` is wrong (and the range reduction uses the unscaled argument and modulus).
* C67 Max and Min of a signal with a NaN return NaN or not depending on where the NaN is (`C67_max_of_nan_refuted`);
* C68 SumSquare, MeanSquare, RootMeanSquare, Norm and Variance of a complex signal add z^2 instead of |z|^2: Norm of (1, i) is 0 (`C68_norm_refuted`), and so is the Variance of (1, i, -1, -i) (`C68_variance_refuted`);
* C73 the realizations align the leading coefficients of numerator and denominator with the newest sample: a system with fewer zeros than poles is filtered without the delay of the missing zeros (1/z acts as the identity), so its output phase differs from its transfer function. No designed filter is affected (equally many zeros and poles).
* C65 when both operands have more than 32 samples, the vectorised kernel multiplies samples that do not belong to an output sample by padding zeros; 0 * infinity is NaN, so an infinite (or NaN) input sample contaminates up to W - 1 neighbouring, even earlier, output samples.
* C77 the output of a streaming FIR filter depends bit for bit on how the signal is cut into blocks: the convolution swaps its operands when the block is longer than the filter, so the newest sample is added first instead of the oldest (`C77_long_blocks_differ`: 2^24 + 1 + 1 in single precision).
* C53 requested grid sizes are capped below the default; even lengths leave a tap unwritten; the Hilbert default transition width is rejected.
* C82 `Interpolate` and `Resample` take their products with `DotProduct`, which conjugates a complex second operand: complex polyphase taps act as the conjugated filter (`C82_complex_taps_refuted`). `PolyphaseDecompose` does not compile for complex taps (`filterPhase *= numFilters`), so only hand-made views are affected.
* C83 with a NaN endpoint `IsDisjoint(a, b)` and `IsDisjoint(b, a)` can differ (`C83_nan_refuted`); shifting a floating-point interval can lose all its values to rounding (`C83_float_shift_refuted`).
* C85 the last sample of an inclusive `LinSpace` in floating point can miss its end or lie beyond it: 42 samples from 0 to 1 and 22 samples from 0 to 3 in single precision (`C85_end_is_reached_refuted`). Windows built on it inherit the asymmetry.
* C86 in floating point as in exact arithmetic, negative phases or frequencies take the sawtooth out of [-1, 1] (`C86_negative_frequency_refuted`).

Seen while reading, outside the theorems: `FactoredPolynomial::operator=` has no return statement; the in-place `DesignFilter` wrapper of IIR.hpp and `plus_compensated<T>` (non-void) would not
compile if instantiated; `BilinearTransform` from discrete to continuous always throws; the overload of `EllipticSNCNDN` for a complex argument and a modulus of another type returns a tuple of the wrong type.
