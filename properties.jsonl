{"id": "C01", "title": "Interval operations agree with sets of points", "statement": "For half-open intervals [first,last): IsDisjoint is true exactly when no point lies in both; Intersection contains exactly the points lying in both (and is the canonical [0,0) when there are none); EncompassingUnion contains every point of both and is the smallest interval that does for non-empty inputs; Union yields a value exactly when the intervals share a point, and then contains exactly the points of either; adding or subtracting an offset translates the point set and keeps the size.", "quantifier": "all pairs of intervals over an ordered integer type, including empty and inverted ones, and all offsets", "why_tests_cant": "unbounded pairs of endpoints with many boundary coincidences", "anchors": ["include/dspbb/Utility/Interval.hpp: IsDisjoint, Intersection, EncompassingUnion, Union, operator+, operator-"]}
{"id": "C02", "title": "Interval equality means equal endpoints", "statement": "Two intervals compare equal with == exactly when both endpoints are equal, and != is its negation.", "quantifier": "all pairs of intervals", "why_tests_cant": "all pairs of endpoints", "anchors": ["include/dspbb/Utility/Interval.hpp: operator==, operator!="]}
{"id": "C03", "title": "Rational arithmetic is exact and canonical", "statement": "Constructing a rational from a numerator and a positive denominator keeps the value and leaves it in lowest terms with positive denominator. +, -, *, / between rationals, between a rational and an integer in either order, ++ and -- produce the mathematically exact quotient, again in lowest terms with positive denominator; division by zero is rejected.", "quantifier": "all rationals and integers whose intermediate products fit the integer type", "why_tests_cant": "unbounded integer operands and signs", "anchors": ["include/dspbb/Math/Rational.hpp: Rational::Rational, operator+,-,*,/, operator++/--"]}
{"id": "C04", "title": "Rational comparisons are the order of the rationals", "statement": "==, !=, <, >, <=, >= on rationals (and mixed with integers) agree with the exact order of the represented numbers; hence exactly one of <, ==, > holds and < is transitive.", "quantifier": "all pairs/triples of rationals", "why_tests_cant": "unbounded operands", "anchors": ["include/dspbb/Math/Rational.hpp: operator==, <, >, <=, >=, CommonNumerators"]}
{"id": "C05", "title": "Rational floor, ceil and frac", "statement": "floor(r) is the largest integer not above r, ceil(r) the smallest integer not below r, and frac(r) = r - floor(r) lies in [0,1).", "quantifier": "all rationals, of either sign", "why_tests_cant": "unbounded operands; the sign matters", "anchors": ["include/dspbb/Math/Rational.hpp: floor, ceil, frac"]}
{"id": "C06", "title": "Signal container operations act as sequence edits", "statement": "append, prepend, insert, erase, extract_front, extract_back, resize, push_back and clear change the sample sequence exactly as the sequence edit of that name does: the other samples keep their order and value, sizes add up, and extracting then re-inserting at the same place restores the signal; over any history of appends and front extractions the samples come out in the order they went in.", "quantifier": "all signals, positions and counts within range", "why_tests_cant": "all lengths and split positions", "anchors": ["include/dspbb/Primitives/Signal.hpp: BasicSignal"]}
{"id": "C07", "title": "Signal views address exactly the requested samples", "statement": "first(n), last(n), subsignal(offset[,count]) of a view address exactly the samples i, size-n+i, offset+i of the view; nested views compose; reading any valid index of a sub-view stays within the parent view; writing through a sub-view changes those samples only.", "quantifier": "all views, offsets and counts in range, all nestings", "why_tests_cant": "all nestings of sub-views", "anchors": ["include/dspbb/Primitives/SignalView.hpp: BasicSignalView, AsView"]}
{"id": "C08", "title": "Signal arithmetic is elementwise for every vector width", "statement": "signal op signal, signal op scalar, scalar op signal and the in-place forms yield, at every index, the scalar operation on the operands at that index; size is preserved; mismatched sizes raise std::invalid_argument and nothing else; this holds for every SIMD width and length, and when the output aliases an input exactly.", "quantifier": "all lengths, SIMD widths, element values, operations", "why_tests_cant": "every length relative to every SIMD width", "anchors": ["include/dspbb/Primitives/SignalArithmetic.hpp: operators, Multiply/Add/..., CheckSizes", "include/dspbb/Kernels/Numeric.hpp: Transform"]}
{"id": "C09", "title": "Reductions do not depend on vectorisation", "statement": "Reduce, TransformReduce and InnerProduct return the plain left fold of the input with the initial value, for every associative and commutative operation, every SIMD width and every length, through the unrolled and the tail code alike, reading each element exactly once and nothing outside the range.", "quantifier": "all lengths, widths, unroll factors, operations", "why_tests_cant": "width x unroll x length combinations", "anchors": ["include/dspbb/Kernels/Numeric.hpp: Reduce, TransformReduce, InnerProduct, ReduceBatch", "include/dspbb/Kernels/Functors.hpp"]}
{"id": "C10", "title": "Compensated summation sums", "statement": "With exact arithmetic the compensated (Kahan) plus used by sums yields exactly the ordinary sum and its compensation term stays zero; it is therefore a drop-in replacement in every reduction.", "quantifier": "all sequences of exactly represented values, in any bracketing used by the reducer", "why_tests_cant": "all sequences and groupings", "anchors": ["include/dspbb/Kernels/Functors.hpp: plus_compensated", "include/dspbb/Kernels/Numeric.hpp"]}
{"id": "C11", "title": "Convolution kernels compute the convolution sum", "statement": "ConvolutionNaive, ConvolutionSlide, ConvolutionReduce and ConvolutionReduceVec, with and without accumulation where supported, each give out[k] = sum over all index pairs i+j = n+k of u[i]*v[j] for every output window [n, n+len) that the API allows, for every SIMD width.", "quantifier": "all signal lengths, output windows, SIMD widths and values", "why_tests_cant": "lengths x window x width", "anchors": ["include/dspbb/Kernels/Convolution.hpp", "include/dspbb/Math/Convolution.hpp"]}
{"id": "C12", "title": "Convolution kernels stay in bounds", "statement": "For the same inputs no kernel reads outside the input signals or its internal padding buffer, nor writes outside the output window.", "quantifier": "all signal lengths, output windows and SIMD widths", "why_tests_cant": "every combination of lengths; out-of-bounds reads are silent in tests", "anchors": ["include/dspbb/Kernels/Convolution.hpp"]}
{"id": "C13", "title": "Convolution API: lengths, window selection, commutativity, linearity", "statement": "Convolution(u,v,CONV_FULL) has |u|+|v|-1 samples and CONV_CENTRAL has |long|-|short|+1 samples, the latter being the sub-window of the former in which the shorter signal fully overlaps the longer; swapping the operands gives the same result; the result is linear in each operand; an output window reaching past the full length violates the documented precondition (an assert) and is the only window rejected; the result does not depend on which algorithm the library picks.", "quantifier": "all pairs of non-empty signals, all windows", "why_tests_cant": "all lengths and values", "anchors": ["include/dspbb/Math/Convolution.hpp: Convolution, ConvolutionLength"]}
{"id": "C14", "title": "Overlap-add convolution equals direct convolution", "statement": "OverlapAdd gives exactly the same samples as Convolution for every admissible chunk size, every output window and every pair of signals (given an exact DFT).", "quantifier": "all signals, chunk sizes >= 2*|filter|-1 (the code's own precondition), output windows", "why_tests_cant": "lengths x chunk x window", "anchors": ["include/dspbb/Math/OverlapAdd.hpp: OverlapAdd"]}
{"id": "C15", "title": "Chunk-size helpers", "statement": "NextPowerOfTwo(n) is the least power of two not below n; the practical and optimal FFT sizes picked for overlap-add are admissible chunk sizes (at least 2*|filter|-1) for every signal length.", "quantifier": "all n in range", "why_tests_cant": "all sizes", "anchors": ["include/dspbb/Math/OverlapAdd.hpp: impl::ola"]}
{"id": "C16", "title": "Fourier transforms invert each other and are linear", "statement": "Ifft(Fft(x)) = x and Fft(Ifft(X)) = X for complex signals of every length; for real signals Ifft of the half spectrum (with the parity flag) and of the full spectrum recover x; Fft is additive and homogeneous; Parseval and the circular convolution theorem hold.", "quantifier": "all signal lengths >= 1 and all samples (exact arithmetic)", "why_tests_cant": "all lengths", "anchors": ["include/dspbb/Math/FFT.hpp: Fft, Ifft"]}
{"id": "C17", "title": "Real spectra: half and full forms agree", "statement": "The full spectrum of a real signal of length n has n bins whose first n/2+1 are the half spectrum and whose bin n-k is the conjugate of bin k.", "quantifier": "all lengths, both parities", "why_tests_cant": "both parities and all lengths", "anchors": ["include/dspbb/Math/FFT.hpp: Fft(..., FFT_FULL), fft_full mirror"]}
{"id": "C18", "title": "FftShift and IfftShift are mutually inverse", "statement": "FftShift moves bin 0 to index n/2 and is a rotation; IfftShift undoes it for every length, odd or even, in place or out of place.", "quantifier": "all lengths and values", "why_tests_cant": "all lengths, both parities", "anchors": ["include/dspbb/Math/FFT.hpp: FftShift, IfftShift"]}
{"id": "C19", "title": "Streaming FIR filtering is independent of block boundaries", "statement": "Filtering a signal block by block with a filter state gives the concatenation of the same samples as filtering it in one call, and that equals the causal prefix of the full convolution of (past input ++ signal) with the taps; the state always holds the last |taps|-1 input samples; direct convolution and overlap-add agree.", "quantifier": "all tap vectors, signals, and ways of cutting the signal into blocks", "why_tests_cant": "all block partitions", "anchors": ["include/dspbb/Filtering/FIR/Filter.hpp: Filter, impl::fir::ShiftFilterState"]}
{"id": "C20", "title": "Direct-form I obeys the difference equation", "statement": "A direct-form I realization fed with x produces the y with sum_k a_k y[n-k] = sum_k b_k x[n-k] for all n (zero history before the start), a_0 being the highest denominator coefficient and the numerator aligned to the newest sample.", "quantifier": "all coefficient vectors with nonzero leading denominator coefficient, all inputs, all lengths", "why_tests_cant": "infinite sequences of calls", "anchors": ["include/dspbb/Filtering/IIR/Realizations.hpp: DirectFormI"]}
{"id": "C21", "title": "Direct-form II equals direct-form I", "statement": "Direct form II yields the same output as direct form I for the same system and input.", "quantifier": "all systems and inputs", "why_tests_cant": "all systems and input histories", "anchors": ["include/dspbb/Filtering/IIR/Realizations.hpp: DirectFormII"]}
{"id": "C22", "title": "Cascaded form equals the chain of its biquads", "statement": "The cascaded realization's output is the input passed through every second-order section in turn, each obeying its own difference equation; the state always has enough sections.", "quantifier": "all cascades and inputs", "why_tests_cant": "all inputs and cascade lengths", "anchors": ["include/dspbb/Filtering/IIR/Realizations.hpp: CascadedForm"]}
{"id": "C23", "title": "Streaming IIR filtering is independent of block boundaries", "statement": "Filtering block by block with one realization state equals filtering in one call; after reset the realization behaves as freshly constructed; filtering is linear in the input and causal.", "quantifier": "all realizations, inputs, block partitions", "why_tests_cant": "all block partitions and histories", "anchors": ["include/dspbb/Filtering/IIR/Filter.hpp", "include/dspbb/Filtering/IIR/Realizations.hpp"]}
{"id": "C24", "title": "Polynomial evaluation and expansion", "statement": "Evaluating a polynomial gives sum c_i x^i; expanding a factored polynomial gives the coefficient polynomial with the same value at every point, degree equal to the number of roots and leading coefficient 1.", "quantifier": "all coefficient vectors, root multisets and evaluation points", "why_tests_cant": "all degrees and values", "anchors": ["include/dspbb/Math/Polynomials.hpp: Polynomial, FactoredPolynomial, ExpandPolynomial"]}
{"id": "C25", "title": "Root sets are stored faithfully", "statement": "Constructing a factored polynomial from a list of roots succeeds exactly when the non-real roots come in conjugate pairs, and then the polynomial vanishes exactly at the given roots; resizing keeps the roots that fit.", "quantifier": "all finite root lists, all resizes", "why_tests_cant": "all root lists and resize sequences", "anchors": ["include/dspbb/Math/Polynomials.hpp: FactoredPolynomial(constructors), resize, regroup"]}
{"id": "C26", "title": "Conversions between system representations preserve the transfer function", "statement": "TransferFunction(zpk) and CascadedBiquad(zpk) evaluate, at every point that is not a pole, to the same value as the zero-pole-gain system they were made from.", "quantifier": "all zero-pole-gain systems and evaluation points", "why_tests_cant": "all systems and points", "anchors": ["include/dspbb/LTISystems/Systems.hpp: TransferFunction, ZeroPoleGain, CascadedBiquad"]}
{"id": "C27", "title": "Z-domain mapping substitutes the variable", "statement": "Mapping a discrete system with a first- or second-order allpass-type substitution gives the system H(z) = H_old(map(z)) at every admissible z, with the number of poles multiplied by the order of the map.", "quantifier": "all systems with no more zeros than poles, all map parameters, all points", "why_tests_cant": "all systems, parameters and points", "anchors": ["include/dspbb/Math/RootTransforms.hpp", "include/dspbb/Filtering/IIR/BandTransforms.hpp"]}
{"id": "C28", "title": "Bilinear discretisation substitutes s = k (z-1)/(z+1)", "statement": "BilinearTransform of a continuous system H gives the discrete system with H_d(z) = H(k (z-1)/(z+1)) at every admissible z.", "quantifier": "all proper zero-pole-gain systems, sample rates, points", "why_tests_cant": "all systems and points", "anchors": ["include/dspbb/LTISystems/DiscretizationTransforms.hpp: BilinearTransform"]}
{"id": "C29", "title": "Stability is preserved", "statement": "Bilinear transform takes left-half-plane poles strictly inside the unit circle, and the lowpass, highpass, bandpass and bandstop transforms keep poles inside the unit circle.", "quantifier": "all stable systems with no more zeros than poles, all sample rates, all cutoff frequencies in (0,1)", "why_tests_cant": "continuum of poles and parameters", "anchors": ["include/dspbb/LTISystems/DiscretizationTransforms.hpp", "include/dspbb/Filtering/IIR/BandTransforms.hpp"]}
{"id": "C30", "title": "Butterworth prototypes", "statement": "The order-n Butterworth prototype has n poles, all on the unit circle in the open left half plane, closed under conjugation, and |H(jw)|^2 = 1/(1+w^(2n)) at every real w.", "quantifier": "all orders n and all frequencies w", "why_tests_cant": "all orders", "anchors": ["include/dspbb/Filtering/IIR/Butterworth.hpp"]}
{"id": "C31", "title": "Polyphase decomposition partitions the taps", "statement": "Decomposing a filter into P phases copies every tap exactly once (scaled by P, reversed within its phase): phase p holds taps p, p+P, p+2P, ...; the phases fill the buffer without gap or overlap.", "quantifier": "all filters and phase counts >= 1", "why_tests_cant": "all tap/phase counts", "anchors": ["include/dspbb/Filtering/Polyphase.hpp"]}
{"id": "C32", "title": "Interpolation equals zero-stuffing followed by convolution", "statement": "Interpolating by P gives, at every output index of the requested window, the same sample as convolving the input expanded by P with the original filter times P.", "quantifier": "all inputs, filters, phase counts and output windows", "why_tests_cant": "all windows and lengths", "anchors": ["include/dspbb/Filtering/Resample.hpp: Interpolate"]}
{"id": "C33", "title": "Interpolation can be suspended and resumed", "statement": "Interpolating in several calls, continuing at the reported suspension point, gives the same samples as one call.", "quantifier": "all inputs, filters, cut points", "why_tests_cant": "all cut points", "anchors": ["include/dspbb/Filtering/Resample.hpp: InterpSuspensionPoint, Interpolate"]}
{"id": "C34", "title": "Resampling samples the interpolated signal", "statement": "Every resampled sample is the linear combination, with weights summing to one, of the two polyphase-filtered samples adjacent to its exact rational position; its accesses stay within the phases and the input.", "quantifier": "all rates, filters, start points", "why_tests_cant": "all rational rates and positions", "anchors": ["include/dspbb/Filtering/Resample.hpp: Resample, ResampleLength"]}
{"id": "C35", "title": "Resampling can be suspended and resumed", "statement": "Resampling a signal in several calls, each continuing at the reported suspension point on the remaining input, gives the same output as one call.", "quantifier": "all rates, filters, cut points", "why_tests_cant": "all cut points", "anchors": ["include/dspbb/Filtering/Resample.hpp: ResamplingSuspensionPoint, Resample"]}
{"id": "C36", "title": "Decimate and Expand", "statement": "Decimate by r keeps exactly the samples 0, r, 2r, ...; Expand by r puts the samples at multiples of r and zero elsewhere; Decimate(Expand(x,r),r) = x.", "quantifier": "all signals and rates >= 1", "why_tests_cant": "all lengths and rates", "anchors": ["include/dspbb/Filtering/Resample.hpp: Decimate, Expand"]}
{"id": "C37", "title": "FIR band transforms", "statement": "MirrorResponse multiplies tap k by (-1)^k up to a global sign and is an involution; ComplementaryResponse yields a filter whose sum with the original is the unit impulse at the centre and is an involution; ShiftResponse modulates the taps by a cosine centred at the middle tap.", "quantifier": "all tap vectors and frequencies", "why_tests_cant": "all lengths", "anchors": ["include/dspbb/Filtering/FIR/BandTransforms.hpp"]}
{"id": "C38", "title": "Halfband to Hilbert transformation", "statement": "The odd Hilbert transformer is antisymmetric and equals the tapwise formula whatever the length (short path or blocked path); the even one is the odd one decimated by two.", "quantifier": "all filter lengths", "why_tests_cant": "all lengths across the blocked path", "anchors": ["include/dspbb/Filtering/FIR/BandTransforms.hpp: HalfbandToHilbertOdd, HalfbandToHilbertEven"]}
{"id": "C39", "title": "Windowed FIR design", "statement": "Windowed lowpass kernels are symmetric and have unit DC gain; the highpass is the complement of the lowpass; bandpass/bandstop are formed from them as documented.", "quantifier": "all lengths, cutoffs, windows", "why_tests_cant": "all lengths and parameters", "anchors": ["include/dspbb/Filtering/FIR/Windowed.hpp", "include/dspbb/Filtering/FIR.hpp"]}
{"id": "C40", "title": "Window functions are symmetric and bounded", "statement": "Every window of every length is symmetric; Hamming, triangular, rectangular, Blackman, ... Blackman-Harris, flat top, Gaussian, Kaiser and Lanczos windows follow their textbook formulas, stay in their range and peak in the middle; the Dolph-Chebyshev window has peak 1 and all side lobes of its frequency response are at most the requested fraction of the main lobe; coherent gain/energy gain are the mean and mean square of the window.", "quantifier": "all lengths, all sample indices", "why_tests_cant": "all lengths", "anchors": ["include/dspbb/Filtering/Windowing.hpp"]}
{"id": "C41", "title": "Spaces hit their end points", "statement": "LinSpace fills a signal with equally spaced samples, first at start and last at end when inclusive (one step short otherwise); LogSpace is the base raised to those.", "quantifier": "all lengths >= 2 (and the degenerate ones), end points", "why_tests_cant": "all lengths", "anchors": ["include/dspbb/Generators/Spaces.hpp"]}
{"id": "C42", "title": "Waveform generators are periodic and bounded", "statement": "Sawtooth, triangle, pwm waves lie in [-1,1] and are periodic in the phase for every phase.", "quantifier": "all real phases, fill ratios", "why_tests_cant": "continuum of phases", "anchors": ["include/dspbb/Generators/Waveforms.hpp"]}
{"id": "C43", "title": "Statistics", "statement": "CentralMoment(x,k) is the mean of (x_i - mean)^k; variance, standard deviation, skewness, kurtosis, covariance, correlation are the standard combinations of them.", "quantifier": "all signals and moments k", "why_tests_cant": "all signals and k", "anchors": ["include/dspbb/Math/Statistics.hpp"]}
{"id": "C44", "title": "Filter band measurement", "statement": "Measuring an amplitude response terminates and divides it into consecutive bands that alternate between pass and stop and cover all samples, each sample being on its band's side of the threshold 1/2; a response is classified as lowpass, highpass, bandpass or bandstop exactly when its bands have that pattern, and the specific measuring functions throw on any other pattern; reported edges lie in their bands and are ordered; reported ripples are the largest deviation from 1 (pass) or 0 (stop) over the local extrema of the band.", "quantifier": "all amplitude responses and thresholds", "why_tests_cant": "all responses", "anchors": ["include/dspbb/Filtering/MeasureFilter.hpp"]}
{"id": "C45", "title": "Root finding by bisection", "statement": "Bisect returns a point inside the start interval; for a continuous function with a sign change it is within half the tolerance of a root, and with a positive tolerance it terminates for every function.", "quantifier": "all functions with a sign change on the start interval", "why_tests_cant": "all functions", "anchors": ["include/dspbb/Math/Solvers.hpp"]}
{"id": "C46", "title": "Filter descriptors", "statement": "Each builder method of a filter descriptor sets its own parameter, leaves all others as they were, and repeated settings keep the last; band frequencies outside [0,1] are rejected with domain_error and unsorted ones with invalid_argument by the call that gives them.", "quantifier": "all sequences of builder calls, all parameter values", "why_tests_cant": "all call sequences", "anchors": ["include/dspbb/Filtering/FIR/Descs.hpp", "include/dspbb/Filtering/IIR/Descs.hpp", "include/dspbb/Filtering/FilterUtility.hpp"]}
{"id": "C47", "title": "Bins and frequencies correspond", "statement": "FourierFrequency2Bin(FourierBin2Frequency(b)) = b for every bin, and every nonnegative frequency is mapped to a bin whose frequency is at most half a bin away.", "quantifier": "all bins, bin counts, sample rates, frequencies", "why_tests_cant": "all values", "anchors": ["include/dspbb/Math/FFT.hpp"]}
{"id": "C48", "title": "Orders of the system representations agree", "statement": "order() of a zero-pole-gain system, of the transfer function made from it and of the biquad cascade made from it all report max(number of zeros, number of poles).", "quantifier": "all zero-pole-gain systems", "why_tests_cant": "all systems, with any mix of real and complex roots", "anchors": ["include/dspbb/LTISystems/Systems.hpp: order"]}
{"id": "C49", "title": "The choice of IIR realization does not matter", "statement": "Filtering any signal with a zero-pole-gain system through direct form I, direct form II (on its transfer function) or the cascaded form (on its biquad cascade) gives the same samples, which obey the system's difference equation.", "quantifier": "all systems with at least one zero or pole, all signals, all sufficient realization orders", "why_tests_cant": "all systems and signals", "anchors": ["include/dspbb/LTISystems/Systems.hpp", "include/dspbb/Filtering/IIR/Realizations.hpp", "include/dspbb/Filtering/IIR/Filter.hpp"]}
{"id": "C50", "title": "Butterworth filters have the response that was asked for", "statement": "DesignFilter with a Butterworth lowpass, highpass, bandpass or bandstop descriptor of order n returns a stable filter with n poles whose power response is the maximally flat one: 1/(1+v^(2m)) in the warped frequency variable v of the band type, full gain in the passband centre, exactly half power at every requested band edge, and zero where the band type requires it.", "quantifier": "all orders, all band edges in (0,1), all frequencies", "why_tests_cant": "a continuum of edges and frequencies and all orders", "anchors": ["include/dspbb/Filtering/IIR.hpp: DesignFilter", "include/dspbb/Filtering/IIR/BandTransforms.hpp", "include/dspbb/LTISystems/DiscretizationTransforms.hpp", "include/dspbb/Filtering/IIR/Butterworth.hpp"]}
{"id": "C51", "title": "Chebyshev type I filters have the response that was asked for", "statement": "DesignFilter with a Chebyshev type I descriptor of order n and passband ripple r returns a stable filter with n poles whose power response is 1/(1+e^2 T_m(v)^2) in the warped frequency variable v: between (1-r)^2 and 1 over the whole passband, exactly (1-r)^2 at every band edge, strictly below (1-r)^2 outside.", "quantifier": "all orders the method supports, all band edges and ripples in (0,1), all frequencies", "why_tests_cant": "a continuum of edges, ripples and frequencies and all orders", "anchors": ["include/dspbb/Filtering/IIR.hpp: DesignFilter", "include/dspbb/Filtering/IIR/Chebyshev.hpp: Chebyshev1"]}
{"id": "C52", "title": "Chebyshev type II filters have the response that was asked for", "statement": "DesignFilter with a Chebyshev type II descriptor of order n and stopband ripple r returns a stable filter with n poles whose power response is at most r^2 over the whole stopband, exactly r^2 at every band edge, and between r^2 and 1 in the passband with full gain at its centre.", "quantifier": "all orders, all band edges and ripples in (0,1), all frequencies", "why_tests_cant": "a continuum of edges, ripples and frequencies and all orders", "anchors": ["include/dspbb/Filtering/IIR.hpp: DesignFilter", "include/dspbb/Filtering/IIR/Chebyshev.hpp: Chebyshev2"]}
{"id": "C53", "title": "Least squares FIR designs are optimal", "statement": "DesignFilter with a least squares lowpass, highpass, bandpass, bandstop, Hilbert or arbitrary descriptor of odd length returns the symmetric (for Hilbert: antisymmetric) filter for which no other filter of that length has a smaller weighted squared deviation from the requested response on the requested frequency grid.", "quantifier": "all odd lengths, band edges, weights, grids, requested responses and all competing filters", "why_tests_cant": "optimality quantifies over every competing filter", "anchors": ["include/dspbb/Filtering/FIR/LeastSquares.hpp: KernelLeastSquares", "include/dspbb/Filtering/FIR.hpp: DesignFilter"]}
{"id": "C54", "title": "Frequency responses are the transfer function on the unit circle", "statement": "FrequencyResponse returns amplitudes and phases that represent, at each frequency of the evenly spaced grid on [0, pi], the Fourier sum of the impulse response (or the transfer function of the system); the zero-pole-gain system, its transfer function and its biquad cascade give the same response; an empty impulse response with the default grid size is refused by an exception.", "quantifier": "all impulse responses, all systems without a pole on the grid, all grid sizes, all vector widths", "why_tests_cant": "a continuum of systems and every grid size", "anchors": ["include/dspbb/Filtering/MeasureFilter.hpp: FrequencyResponse"]}
{"id": "C55", "title": "Mathematical functions act sample by sample", "statement": "Abs, Sqrt, Exp, Sin, Erf and the other functions of Math/Functions applied to a signal give, for every size and vector width, the signal of the function's values; writing into a given output (the input itself included) fills exactly as many samples as the input has, and never checks the output's size.", "quantifier": "all signals, sizes, functions, vector widths and outputs", "why_tests_cant": "all sizes and remainders of the vector width, aliasing and size mismatches", "anchors": ["include/dspbb/Math/Functions.hpp"]}
{"id": "C56", "title": "The dot product is an inner product", "statement": "DotProduct of two signals of the same size is the sum of products of corresponding samples, the second factor conjugated if it is complex, whatever the vector width; it is linear in the first signal, conjugate symmetric and positive, and obeys the Cauchy-Schwarz inequality; equal sizes are a precondition.", "quantifier": "all pairs of real and complex signals, all vector widths", "why_tests_cant": "all sizes and vector widths", "anchors": ["include/dspbb/Math/DotProduct.hpp"]}
{"id": "C57", "title": "The elliptic amplitude inverts Legendre's integral", "statement": "EllipticAM(x, k) returns an angle whose incomplete elliptic integral of the first kind with modulus k differs from x by at most machine epsilon times |x|, and which is therefore that close to the true (unique) Jacobi amplitude; for k = 0 and k = 1 it is exact; the result does not depend on earlier calls although a static scratch array is used; a modulus outside [0, 1] violates the precondition.", "quantifier": "all real arguments, all moduli in [0, 1] representable at the given precision, all precisions, all earlier calls", "why_tests_cant": "a continuum of arguments and moduli, and a claim about an integral and about call history", "anchors": ["include/dspbb/Math/EllipticFunctions.hpp: EllipticAM"]}
{"id": "C58", "title": "Carlson's integral and the complete elliptic integral", "statement": "CarlsonRF(x, y, z) terminates for nonnegative arguments of which at most one is zero and returns the symmetric integral RF with a relative error of at most a quarter of machine epsilon (before rounding); with two or more zero arguments it returns infinity.  EllipticK(k) returns the complete elliptic integral with that accuracy for |k| < 1 and infinity for |k| = 1.", "quantifier": "all nonnegative argument triples, all moduli in [-1, 1], all precisions", "why_tests_cant": "a continuum of arguments, termination, and a claim about an improper integral", "anchors": ["include/dspbb/Math/EllipticFunctions.hpp: CarlsonRF, EllipticK"]}
{"id": "C59", "title": "Inverse elliptic functions", "statement": "EllipticArcSN, EllipticArcCN and EllipticArcDN return, to a quarter of machine epsilon, the elliptic integral up to asin x, acos x and asin(sqrt(1-x^2)/k); EllipticArcSN on the imaginary axis returns i times the integral of the complementary modulus up to atan y; applying EllipticSN to the result gives the argument back.", "quantifier": "all arguments in the functions' domains, all moduli in [-1, 1], all precisions", "why_tests_cant": "a continuum of arguments and moduli", "anchors": ["include/dspbb/Math/EllipticFunctions.hpp: EllipticArcSN, EllipticArcCN, EllipticArcDN"]}
{"id": "C60", "title": "Jacobi's elliptic functions", "statement": "EllipticSNCNDN(x, k) returns sn, cn and dn each within 2 epsilon |x| of the true values, and exactly on the curves sn^2 + cn^2 = 1 and dn^2 + k^2 sn^2 = 1; for complex arguments it evaluates the addition formula at the real and imaginary parts and the same identities hold.", "quantifier": "all real and complex arguments, all moduli, all precisions, all earlier calls", "why_tests_cant": "a continuum of arguments and moduli", "anchors": ["include/dspbb/Math/EllipticFunctions.hpp: EllipticSNCNDN, EllipticReduceRange, EllipticSN"]}
{"id": "C61", "title": "Elliptic filter design", "statement": "For every order and every pair of ripples with 0 < stopband < 1 - passband, the elliptic prototype has exactly `order` poles and 2*(order/2) zeros, the zeros on the imaginary axis strictly beyond the passband edge, and gain 1 (odd order) or 1 - passband ripple (even order) at frequency zero; its selectivity solves the degree equation K(k)/K'(k) = n K(k1)/K'(k1) up to the bisection's resolution; poles and zeros are at the textbook places up to four roundoffs in the arguments; with enough precision all poles are in the left half plane and, for every positive error, the squared magnitude is between (1 - passband)^2 - error and 1 + error at every frequency up to the edge 1 and at most stopband^2 + error at every frequency from 1/k on, k the solution of the degree equation.  The low-, high-, bandpass and bandstop designs are that prototype seen through the frequency transformation: stable, of the requested order, inside the passband ripple in the whole passband, inside the stopband ripple wherever the frequency variable is beyond 1/k, and at most 1 + error between.", "quantifier": "all orders, ripples, cutoffs and band edges, all precisions, bisection lengths and scratch array contents", "why_tests_cant": "a continuum of specifications; stability and the degree equation are claims about analytic functions", "anchors": ["include/dspbb/Filtering/IIR/Elliptic.hpp", "include/dspbb/Filtering/IIR.hpp: DesignFilter (elliptic)"]}
{"id": "C62", "title": "Reductions use every element once, with bounded rounding", "statement": "Reduce, TransformReduce and InnerProduct with any operator, associative or not, combine the initial value and every element (product) exactly once, in some order and bracketing, and no element passes through more than n/(8W) + 2W + 3 applications (n/8 + 3 when not vectorised); so in IEEE arithmetic with unit roundoff u the sum of finite numbers is finite and wrong by at most (1+u)^depth - 1 of the sum of absolute values, unless that sum comes near the overflow threshold, and an inner product by one more factor 1+u and half the smallest number per product.", "quantifier": "all operators, lists, initial values, vector widths, formats and orders chosen by the standard library and the horizontal addition", "why_tests_cant": "all sizes and all finite floating-point inputs; worst-case rounding cannot be sampled", "anchors": ["include/dspbb/Kernels/Numeric.hpp: Reduce, TransformReduce, InnerProduct"]}
{"id": "C63", "title": "Compensated reductions lose a constant number of roundoffs", "statement": "With plus_compensated the error of Reduce, TransformReduce and InnerProduct in IEEE arithmetic is at most (1+u)^(2W+3) (1 + 6u + 14 m u^2) - 1 of the sum of absolute values, m being n/(8W): to first order it does not depend on the number of elements.  In double precision with up to 8 lanes it stays below 2^-48 for up to 2^48 W elements.", "quantifier": "all finite inputs whose absolute sum stays below a third of the overflow threshold, all sizes with m u <= 1, all vector widths and formats of at least 10 bits", "why_tests_cant": "worst-case rounding over all inputs and sizes", "anchors": ["include/dspbb/Kernels/Functors.hpp: plus_compensated", "include/dspbb/Kernels/Numeric.hpp"]}
{"id": "C64", "title": "Convolution in floating point", "statement": "Convolving finite IEEE signals gives, in every kernel and through the API, finite samples that differ from the exact convolution of the values (plus the old content when accumulating) by at most a gain minus one times the convolution of the absolute values, plus half the smallest number per product: the gain is (1+u)^(s+1) when the shorter signal has s <= 32 samples, and ((1+u)^2 (1+6u+14(s/4)u^2))^3 (1+u) for longer ones, that is, independent of the length to first order; whether multiply-adds are fused or not, for vectors of any width, whatever unused lanes contain.  In double precision: 34 * 2^-53 for up to 2^30 samples.", "quantifier": "all finite inputs whose bound stays below a third of the overflow threshold, all sizes, windows, vector widths, fused or unfused multiply-adds and formats of at least 10 bits", "why_tests_cant": "worst-case rounding over all inputs and sizes", "anchors": ["include/dspbb/Math/Convolution.hpp: Convolution", "include/dspbb/Kernels/Convolution.hpp"]}
{"id": "C65", "title": "A sample of a convolution is computed from the samples it is made of", "statement": "Changing input samples that are not part of the convolution sum of an output sample does not change that output sample, for any number type and any arithmetic (including infinities and NaN); when both signals have more than 32 samples only input samples less than one vector away from that sum matter.", "quantifier": "all number types and operations, signals, sizes, windows and vector widths", "why_tests_cant": "all sizes, positions and arithmetics, NaN and infinities included", "anchors": ["include/dspbb/Math/Convolution.hpp: Convolution", "include/dspbb/Kernels/Convolution.hpp: ConvolutionSlide, ConvolutionReduceVec"]}
{"id": "C66", "title": "Statistics in floating point", "statement": "For a nonempty signal of finite IEEE numbers, away from overflow, the sum of squares, mean, mean square, norm, root mean square, variance, standard deviation and covariance are finite, the first kind nonnegative where squares are added, and differ from their exact values by at most: mean ((1+u)^(d+3)-1) times the mean absolute value; mean square ((1+u)^(d+4)-1) relative, norm and root mean square one more factor 1+u; moment about a given value ((1+u)^(d+6)-1) relative; variance the same plus (1+u)^(d+6) times the square of the error of the mean; covariance ((1+u)^(d+6)-1) times the product of the standard deviations plus the product of the errors of the means; each plus a few times the smallest number.  d is the depth n/(8W)+2W+3 (n/8+3 not vectorised) of the reduction, whatever order the additions are done in: the variance is computed in two passes and never suffers the cancellation of mean(x^2)-mean(x)^2.", "quantifier": "all signals of finite numbers within the range, all sizes, vector widths, orders of addition and formats of at least 10 bits", "why_tests_cant": "worst-case rounding over all inputs and sizes", "anchors": ["include/dspbb/Math/Statistics.hpp: Mean, SumSquare, MeanSquare, RootMeanSquare, Norm, CentralMoment, Variance, StandardDeviation, Covariance"]}
{"id": "C67", "title": "Maximum and minimum of floating-point signals", "statement": "Max and Min of a nonempty signal without NaN (infinities allowed) return a sample of the signal that no sample exceeds (that exceeds no sample), whatever the vector width and the order of the comparisons; more generally for any type whose samples are totally preordered.", "quantifier": "all signals, sizes, vector widths, orders of comparison and floating-point formats", "why_tests_cant": "all signals and orders of comparison; NaN makes comparisons non-transitive", "anchors": ["include/dspbb/Math/Statistics.hpp: Max, Min", "include/dspbb/Kernels/Math.hpp: max, min"]}
{"id": "C68", "title": "Statistics of complex signals", "statement": "Sum and Mean of a complex signal are the sums and means of the real and imaginary parts; SumSquare, Norm and Variance measure the size of the samples: they vanish only for zero (constant) signals.", "quantifier": "all complex signals, sizes, vector widths and orders of addition", "why_tests_cant": "all complex signals", "anchors": ["include/dspbb/Math/Statistics.hpp: Sum, Mean, SumSquare, Norm, CentralMoment"]}
{"id": "C69", "title": "Polynomial evaluation in floating point", "statement": "Evaluating a polynomial with n finite coefficients at a finite x in IEEE arithmetic gives a finite number that differs from the exact value by at most (1+u)^(2n) - 1 times the sum of |c_i| |x|^i, plus half the smallest number times (1+u)^(2n) (1 + |x| + ... + |x|^(n-1)), provided the same sum at max(1,|x|) stays below the overflow threshold; whether or not the multiply-adds are fused.", "quantifier": "all finite coefficients and arguments within range, all degrees, formats of at least 10 bits, fused or unfused multiply-adds", "why_tests_cant": "worst-case rounding over all inputs and degrees", "anchors": ["include/dspbb/Math/Polynomials.hpp: Polynomial::operator(), Eval"]}
{"id": "C70", "title": "Signal arithmetic between different element types", "statement": "Adding, subtracting, multiplying and dividing signals and scalars of different element types (a complex and a real signal, say), into a third signal, a new signal, or in place, applies the operation to the samples at every place and nothing else; signals of different sizes are rejected with invalid_argument.", "quantifier": "all element types, operations, signals, sizes and vector widths, output separate or one of the operands", "why_tests_cant": "all sizes against all vector widths and aliasings", "anchors": ["include/dspbb/Primitives/SignalArithmetic.hpp", "include/dspbb/Kernels/Numeric.hpp: Transform"]}
{"id": "C71", "title": "IIR filtering in floating point", "statement": "In any arithmetic, rounding included, the three IIR realizations give bit-for-bit the same samples and state whether a signal is filtered in one call, in blocks of any sizes, in place or into another array, and later samples (NaN included) do not change earlier outputs.  In IEEE arithmetic every finite output sample of direct form I was computed from finite samples, and satisfies the difference equation at its time up to ((1+u)^(N+4)-1) times the sum of the absolute values of its terms plus a few underflows (N the larger coefficient count), with no assumption about overflow; direct form II and each section of a cascade likewise with their own recursions.  The error of the output of direct form I is at most the sum of these roundings weighted by the impulse response of 1/denominator; and once an output sample of a recursive filter is not finite, no later one is.", "quantifier": "all systems with usable leading coefficient, orders, signals, block partitions, formats, fused or unfused multiply-adds; blocks: all arithmetics and states", "why_tests_cant": "rounding and blocking over all inputs, systems and partitions; feedback makes errors depend on the whole history", "anchors": ["include/dspbb/Filtering/IIR/Realizations.hpp: DirectFormI, DirectFormII, CascadedForm", "include/dspbb/Filtering/IIR/Filter.hpp: Filter"]}
{"id": "C72", "title": "Stable filters: bounded in, bounded out, and transients die out", "statement": "Filtering with a system whose poles all lie inside the unit circle, through any of the three realizations, turns a signal bounded by M into one bounded by |gain| prod(1+|zero|) / prod(1-|pole|) M, however long the signal is; once the input has stopped the output decays like rho^n for every rho larger than all |pole|, with a constant that depends on the system and rho only. Conversely, if some pole lies on or outside the unit circle (not cancelled by a zero), the response to a single unit sample never dies out.", "quantifier": "all systems, signals of any length, bounds, block orders and realizations", "why_tests_cant": "signals of every length: growth shows up only after arbitrarily many samples", "anchors": ["include/dspbb/Filtering/IIR/Filter.hpp: Filter", "include/dspbb/Filtering/IIR/Realizations.hpp", "include/dspbb/LTISystems/Systems.hpp"]}
{"id": "C73", "title": "Sinusoids leave a stable filter with the amplitude and phase of the frequency response", "statement": "When x(n) = a cos(w n + phi) is filtered with a stable system H, the output approaches a |H(e^{iw})| cos(w n + phi + arg H(e^{iw})): the difference is at most B |a| rho^n with rho < 1 and B depending on the system only (not on a, w, phi or the length). So a designed Butterworth, Chebyshev I, Chebyshev II or elliptic filter (lowpass, highpass, bandpass, bandstop) attenuates a sinusoid according to its design curve (elliptic: within the requested ripples up to any tolerance, once the numerical tolerances of the design are fine enough).", "quantifier": "all stable systems, frequencies, amplitudes, phases, lengths and realizations; all designed filters", "why_tests_cant": "all frequencies and all lengths; limits cannot be tested", "anchors": ["include/dspbb/Filtering/IIR/Filter.hpp: Filter", "include/dspbb/Filtering/IIR/Realizations.hpp", "include/dspbb/Filtering/IIR/Butterworth.hpp", "include/dspbb/Filtering/IIR/Chebyshev.hpp", "include/dspbb/Filtering/IIR/Elliptic.hpp"]}
{"id": "C74", "title": "The rounding noise of a stable filter does not accumulate", "statement": "Filtering in floating point with a stable system whose poles stay far enough from the unit circle for the precision (a condition on the coefficients), through direct form I, direct form II or a cascade of biquads, gives samples that differ from the exact answer to the same coefficients and samples by at most a constant that depends on the system, the precision and the largest input sample only - not on the length of the signal or the position in it - as long as the output stays finite.", "quantifier": "all formats, coefficient lists with poles inside the unit circle, signals of any length, contraction or not, all three realizations", "why_tests_cant": "the bound has to hold after arbitrarily many samples, where errors that fed back might have built up", "anchors": ["include/dspbb/Filtering/IIR/Filter.hpp: Filter", "include/dspbb/Filtering/IIR/Realizations.hpp: DirectFormI, DirectFormII, CascadedForm"]}
{"id": "C75", "title": "A stable filter fed with bounded samples does not overflow", "statement": "Filtering finite samples bounded by M in floating point with a stable system with finite coefficients, through direct form I, direct form II or a cascade of biquads, never overflows and never yields NaN, however long the signal is, as soon as one number computed from the system, the precision and M lies under the overflow threshold; the output is then bounded by an explicit level, and the error bound of C74 holds for every sample.", "quantifier": "all formats, stable coefficient lists, signals of any length, contraction or not, all three realizations", "why_tests_cant": "overflow could happen after arbitrarily many samples; intermediate results are invisible to tests", "anchors": ["include/dspbb/Filtering/IIR/Filter.hpp: Filter", "include/dspbb/Filtering/IIR/Realizations.hpp: DirectFormI, DirectFormII, CascadedForm"]}
{"id": "C76", "title": "Sinusoids and bounds through FIR filters; measured responses are what signals experience", "statement": "Streaming x(n) = a cos(w n + phi) through an FIR filter with taps h, cut into any blocks, gives from sample taps-1 on exactly a |H(w)| cos(w n + phi + arg H(w)) with H(w) = sum h_j e^{-iwj}; central convolution gives it for every sample. Any signal bounded by M gives outputs bounded by M sum|h_j|, and that bound is reached. The amplitude and phase FrequencyResponse measures at a grid frequency are what a sinusoid of that frequency experiences (FIR exactly; stable IIR in the limit). Symmetric taps delay every sinusoid by (taps-1)/2 samples and scale it by a real factor, antisymmetric taps turn the cosine into the delayed sine; a windowed lowpass design passes constants unchanged and the highpass removes them.", "quantifier": "all taps, signals, block partitions, frequencies, amplitudes, phases, bounds; all falling windows and cutoffs", "why_tests_cant": "all frequencies, taps and lengths; exactness and tightness of a bound cannot be tested", "anchors": ["include/dspbb/Filtering/FIR.hpp: Filter", "include/dspbb/Math/Convolution.hpp", "include/dspbb/Filtering/MeasureFilter.hpp: FrequencyResponse", "include/dspbb/Filtering/FIR/Windowed.hpp"]}
{"id": "C77", "title": "Streaming FIR filtering in floating point", "statement": "Filtering finite samples with a convolution filter in floating point, the signal cut into blocks of any sizes, the state left after the last block is bit for bit the last taps-1 input samples, in any arithmetic; every output sample differs from the exact one by at most (gain - 1) times the sum of the absolute products, plus underflow, where the gain depends on the number of taps and the precision but not on the length of the signal, the partition or the position (69 half-ulps in double precision up to 2^30 taps), and two partitions, vector widths or contraction choices differ by at most twice that. With at most 33 taps and blocks no longer than min(taps, 32) the output does not depend on the partition at all, in any arithmetic; for longer blocks it does.", "quantifier": "all formats, taps, states, signals, partitions into blocks, vector widths, fused or unfused multiply-adds", "why_tests_cant": "all partitions and lengths; an error bound for every input cannot be sampled", "anchors": ["include/dspbb/Filtering/FIR/Filter.hpp: Filter", "include/dspbb/Math/Convolution.hpp", "include/dspbb/Kernels/Convolution.hpp"]}
{"id": "C78", "title": "Interpolation and resampling in any arithmetic and in floating point", "statement": "Suspending and resuming interpolation or rational resampling at the reported points yields bit for bit the samples of one uninterrupted call, in any arithmetic (no algebraic law is used), and a call that has seen only the received prefix already yields the final samples. In IEEE arithmetic with any order of the additions, every interpolated and every resampled sample is finite and within an explicit bound of the exact sample (relative to the same expression of absolute values), and the stored taps are P times the filter up to two roundings.", "quantifier": "all element types and operations (first part); all precisions >= 10, addition orders, vector widths, signals, filters, phase counts, rates, start points and call lengths that do not overflow (second part)", "why_tests_cant": "Bit equality under every way of splitting a stream and an error bound over all float inputs and orders are universal statements; tests compare a few signals with a tolerance.", "anchors": ["include/dspbb/Filtering/Resample.hpp: Interpolate, Resample, FindInterpolSuspensionPoint, FindResampleSuspensionPoint", "include/dspbb/Filtering/Polyphase.hpp: PolyphaseDecompose", "include/dspbb/Math/DotProduct.hpp: DotProduct"]}
{"id": "C79", "title": "Waves keep their shape through interpolation and resampling", "statement": "Let x hold the values at times 0, 1, 2, ... of a wave: any finite sum of sinusoids in continuous time. Interpolating one sinusoid with P phases gives exactly the sinusoid at P times the rate plus its P-1 images, each with the amplitude and phase of the filter's frequency response at its frequency. With a symmetric filter whose gain is within eps of 1 at the wave's frequencies and at most dl at their images, interpolated sample m is the wave at time (m - d)/P, d half the filter length, to within (sum of amplitudes)(eps + (P-1) dl); sample i of Resample is the wave at time (start + i) rate - d/P to within that plus the sum of a (w/P)^2/8 for the straight lines between interpolated samples. Started at ResampleDelay the delay is undone: sample i is the wave at time i rate. Resample in central mode yields only such samples. All this where the filter is filled with input.", "quantifier": "all waves, signals, symmetric filters (images: all filters), phase counts, rates, start points, sample positions", "why_tests_cant": "The bound has to hold for every wave, rate and position; tests compare a few sinusoids with a tolerance.", "anchors": ["include/dspbb/Filtering/Resample.hpp: Interpolate, Resample, ResampleDelay", "include/dspbb/Filtering/Polyphase.hpp: PolyphaseDecompose"]}
{"id": "C80", "title": "Filters in series, in parallel, and undone", "statement": "Filtering from rest with one IIR system and then with a second is filtering with the system whose numerator and denominator are the products (by any realization orders that suffice); the order of the two does not matter. Feeding both the same signal and adding the outputs is filtering with the sum of the transfer functions over the common denominator (numerators aligned at their highest coefficients). Swapping numerator and denominator undoes a filter exactly, when the numerator's highest coefficient is not zero. A streaming FIR filter is the IIR filter with the reversed taps over 1, whatever the blocks; two streaming FIR filters in turn are the one with the convolved taps, however each stream is cut into blocks; two cascades in turn are the cascade of all their sections.", "quantifier": "all fields, proper systems, orders, signals, taps, block partitions, SIMD widths", "why_tests_cant": "Equality of whole filters for every system and every signal; tests filter one signal.", "anchors": ["include/dspbb/Filtering/IIR/Realizations.hpp: DirectFormI, CascadedForm", "include/dspbb/Filtering/IIR/Filter.hpp: Filter", "include/dspbb/Filtering/FIR/Filter.hpp: Filter with state", "include/dspbb/Math/Convolution.hpp: Convolution"]}
{"id": "C81", "title": "Convolution and FIR streaming of signals with different element types", "statement": "When the two operands have different element types (a real filter on a complex signal, a complex filter on a real one, or any types whose elements are read as numbers of one commutative ring), Convolution gives, sample by sample, the convolution of the values: full, central, and any window written over or added to an array, for every length and vector width, with no access outside an array; windows beyond the full convolution are rejected. The order of the operands does not change the values. A streaming FIR filter gives the prefix of that convolution in whatever blocks it is fed, and its state stays of the signal's type and holds the signal's last samples. Real taps act on the real and the imaginary part of a complex signal separately.", "quantifier": "all element types readable in a commutative ring, operands, windows, block partitions, SIMD widths", "why_tests_cant": "Templates over pairs of types and all lengths; tests instantiate a few pairs on a few sizes.", "anchors": ["include/dspbb/Math/Convolution.hpp: Convolution", "include/dspbb/Kernels/Convolution.hpp: ConvolutionNaive, ConvolutionSlide, ConvolutionReduceVec", "include/dspbb/Filtering/FIR/Filter.hpp: Filter with state (FILTER_CONV)"]}
{"id": "C82", "title": "Interpolation and resampling with filters of another element type", "statement": "When the signal and the polyphase filter have different element types (a complex signal through real taps, say), Interpolate gives sample by sample the zero-stuffed signal convolved with P times the filter, in the numbers both are read in, and may be streamed in pieces as for one type; requests beyond the end are rejected. Resample gives the same straight-line values between those samples as for one type, in all its modes and in one call or several, and returns whenever the samples exist and the sizes are moderate. Real taps interpolate the real and the imaginary part of a complex signal separately. Complex taps, which only hand-made polyphase views can have, act as the conjugated filter.", "quantifier": "all sample types, all tap rings and result rings with a ring-respecting reading, signals, filters, phase counts, rates, start points, SIMD widths", "why_tests_cant": "Templates over pairs of types and all lengths and rates; tests use one type.", "anchors": ["include/dspbb/Filtering/Resample.hpp: Interpolate, Resample, DotProductSample", "include/dspbb/Filtering/Polyphase.hpp: PolyphaseView", "include/dspbb/Math/DotProduct.hpp: DotProduct"]}
{"id": "C83", "title": "Intervals over any ordered type", "statement": "For endpoints of any type whose operator< is a strict weak order (integers, rationals, reals; floating-point numbers of any precision with infinities and both zeros, but no NaN): IsDisjoint says whether the two intervals have no value in common, Intersection is the set intersection and [0, 0) when that is empty, EncompassingUnion contains both and is inside every interval that does (if neither is empty), Union is the set union of intervals that meet and absent otherwise. Where addition respects the order and is undone by subtraction, + and - translate the set.", "quantifier": "all endpoint types, all strict weak orders, all intervals, all values", "why_tests_cant": "A statement about every type and every pair of intervals; the tests use a few integers.", "anchors": ["include/dspbb/Utility/Interval.hpp: Interval, IsDisjoint, Intersection, EncompassingUnion, Union, operator+, operator-"]}
{"id": "C84", "title": "Normalised polyphase filters in floating point", "statement": "Normalising a polyphase filter in IEEE arithmetic of any precision multiplies every tap of a phase by the rounded reciprocal of the computed sum of that phase and leaves the layout unchanged. If a phase is finite, its sum is not lost to cancellation and nothing comes near overflow, then all its new taps are finite, each is the exactly normalised tap up to a relative error of 2 g c + 5 u (plus half the smallest number when it underflows), and the exact sum of the new taps is 1 up to 2 g c + 2 u + 3 u c and one such underflow error per tap; u is the unit roundoff, c the condition number of the sum (sum of magnitudes over magnitude of sum), g the error of summing that many samples in the order used. Phases that cannot be normalised do not disturb the others.", "quantifier": "all precisions and exponent ranges, filters, phase counts, SIMD widths, orders of summation within a batch", "why_tests_cant": "Rounding errors for every filter and precision; tests compare sums with a tolerance.", "anchors": ["include/dspbb/Filtering/Polyphase.hpp: PolyphaseNormalize", "include/dspbb/Math/Statistics.hpp: Sum"]}
{"id": "C85", "title": "Linearly spaced samples in floating point", "statement": "LinSpace in IEEE arithmetic of any precision, when nothing comes near overflow: every sample is finite, the first is exactly start, the samples never turn back (nondecreasing from start if start <= end, nonincreasing if end <= start), and each is the exact value start + i (end - start) / m up to one roundoff of itself, about four roundoffs of its distance from start, and the underflow of the step. The last sample of an inclusive range need not be end, and may lie beyond it, but not for a range from 0 to a power of two with no more samples than the precision can count. In any arithmetic whatever, integers included, sample i is R(i) * scale + start with one scale for all, and LogSpace is exp of that times log(base).", "quantifier": "all precisions and exponent ranges, lengths, start and end points, SIMD widths; all arithmetics", "why_tests_cant": "Monotonicity and rounding for every length and range; tests compare a few samples with a tolerance.", "anchors": ["include/dspbb/Generators/Spaces.hpp: LinSpace, LogSpace"]}
{"id": "C86", "title": "Waves and chirps in floating point", "statement": "Generating in IEEE arithmetic of any precision (phases in one format, samples in another): whatever is rounded, every sample whose computed phase is finite and not negative is in range: sawtooths and triangles with tilt in [0, 1] stay in [-1, 1], pulse trains are exactly 1 while the computed fraction of the period is below the fill and exactly 0 otherwise, square waves are exactly 1 or -1, and sines stay in [-1, 1] if std::sin does. The fraction of the period is exactly the fractional part of the rounded quotient of the phase by the rounded period, and in [0, 1). Converting to the element type keeps all this. Same for chirps. Nonnegative frequencies and phases give such phases, far from overflow. Negative phases are excluded: a sawtooth of frequency -1 reaches -1.25.", "quantifier": "all formats of phases and samples, lengths, sample rates, frequencies, phases, tilts, fills, approximations of pi", "why_tests_cant": "Ranges must hold through every rounding for all parameters; tests look at a few waves.", "anchors": ["include/dspbb/Generators/Waveforms.hpp: GenericWave, GenericChirp, Sawtooth, Pwm, SineWave, SawtoothWave, PwmWave, SquareWave, SineChirp, SawtoothChirp, PwmChirp, SquareChirp"]}
