#!/usr/bin/env python3
# Generates /verif/properties.jsonl (source of truth for the property list).
import json, os
P = []
def p(title, statement, quantifier, why, anchors):
    P.append(dict(id="C%02d" % (len(P)+1), title=title, statement=statement,
                  quantifier=quantifier, why_tests_cant=why, anchors=anchors))
U = "include/dspbb/"
p("Interval operations agree with sets of points",
  "For half-open intervals [first,last): IsDisjoint is true exactly when no point lies in both; Intersection contains exactly the points lying in both (and is the canonical [0,0) when there are none); EncompassingUnion contains every point of both and is the smallest interval that does for non-empty inputs; Union yields a value exactly when the intervals share a point, and then contains exactly the points of either; adding or subtracting an offset translates the point set and keeps the size.",
  "all pairs of intervals over an ordered integer type, including empty and inverted ones, and all offsets",
  "unbounded pairs of endpoints with many boundary coincidences",
  [U+"Utility/Interval.hpp: IsDisjoint, Intersection, EncompassingUnion, Union, operator+, operator-"])
p("Interval equality means equal endpoints",
  "Two intervals compare equal with == exactly when both endpoints are equal, and != is its negation.",
  "all pairs of intervals", "all pairs of endpoints",
  [U+"Utility/Interval.hpp: operator==, operator!="])
p("Rational arithmetic is exact and canonical",
  "Constructing a rational from a numerator and a positive denominator keeps the value and leaves it in lowest terms with positive denominator. +, -, *, / between rationals, between a rational and an integer in either order, ++ and -- produce the mathematically exact quotient, again in lowest terms with positive denominator; division by zero is rejected.",
  "all rationals and integers whose intermediate products fit the integer type",
  "unbounded integer operands and signs",
  [U+"Math/Rational.hpp: Rational::Rational, operator+,-,*,/, operator++/--"])
p("Rational comparisons are the order of the rationals",
  "==, !=, <, >, <=, >= on rationals (and mixed with integers) agree with the exact order of the represented numbers; hence exactly one of <, ==, > holds and < is transitive.",
  "all pairs/triples of rationals", "unbounded operands",
  [U+"Math/Rational.hpp: operator==, <, >, <=, >=, CommonNumerators"])
p("Rational floor, ceil and frac",
  "floor(r) is the largest integer not above r, ceil(r) the smallest integer not below r, and frac(r) = r - floor(r) lies in [0,1).",
  "all rationals, of either sign", "unbounded operands; the sign matters",
  [U+"Math/Rational.hpp: floor, ceil, frac"])
p("Signal container operations act as sequence edits",
  "append, prepend, insert, erase, extract_front, extract_back, resize, push_back and clear change the sample sequence exactly as the sequence edit of that name does: the other samples keep their order and value, sizes add up, and extracting then re-inserting at the same place restores the signal; over any history of appends and front extractions the samples come out in the order they went in.",
  "all signals, positions and counts within range", "all lengths and split positions",
  [U+"Primitives/Signal.hpp: BasicSignal"])
p("Signal views address exactly the requested samples",
  "first(n), last(n), subsignal(offset[,count]) of a view address exactly the samples i, size-n+i, offset+i of the view; nested views compose; reading any valid index of a sub-view stays within the parent view; writing through a sub-view changes those samples only.",
  "all views, offsets and counts in range, all nestings", "all nestings of sub-views",
  [U+"Primitives/SignalView.hpp: BasicSignalView, AsView"])
p("Signal arithmetic is elementwise for every vector width",
  "signal op signal, signal op scalar, scalar op signal and the in-place forms yield, at every index, the scalar operation on the operands at that index; size is preserved; mismatched sizes raise std::invalid_argument and nothing else; this holds for every SIMD width and length, and when the output aliases an input exactly.",
  "all lengths, SIMD widths, element values, operations", "every length relative to every SIMD width",
  [U+"Primitives/SignalArithmetic.hpp: operators, Multiply/Add/..., CheckSizes", U+"Kernels/Numeric.hpp: Transform"])
p("Reductions do not depend on vectorisation",
  "Reduce, TransformReduce and InnerProduct return the plain left fold of the input with the initial value, for every associative and commutative operation, every SIMD width and every length, through the unrolled and the tail code alike, reading each element exactly once and nothing outside the range.",
  "all lengths, widths, unroll factors, operations", "width x unroll x length combinations",
  [U+"Kernels/Numeric.hpp: Reduce, TransformReduce, InnerProduct, ReduceBatch", U+"Kernels/Functors.hpp"])
p("Compensated summation sums",
  "With exact arithmetic the compensated (Kahan) plus used by sums yields exactly the ordinary sum and its compensation term stays zero; it is therefore a drop-in replacement in every reduction.",
  "all sequences of exactly represented values, in any bracketing used by the reducer", "all sequences and groupings",
  [U+"Kernels/Functors.hpp: plus_compensated", U+"Kernels/Numeric.hpp"])
p("Convolution kernels compute the convolution sum",
  "ConvolutionNaive, ConvolutionSlide, ConvolutionReduce and ConvolutionReduceVec, with and without accumulation where supported, each give out[k] = sum over all index pairs i+j = n+k of u[i]*v[j] for every output window [n, n+len) that the API allows, for every SIMD width.",
  "all signal lengths, output windows, SIMD widths and values", "lengths x window x width",
  [U+"Kernels/Convolution.hpp", U+"Math/Convolution.hpp"])
p("Convolution kernels stay in bounds",
  "For the same inputs no kernel reads outside the input signals or its internal padding buffer, nor writes outside the output window.",
  "all signal lengths, output windows and SIMD widths", "every combination of lengths; out-of-bounds reads are silent in tests",
  [U+"Kernels/Convolution.hpp"])
p("Convolution API: lengths, window selection, commutativity, linearity",
  "Convolution(u,v,CONV_FULL) has |u|+|v|-1 samples and CONV_CENTRAL has |long|-|short|+1 samples, the latter being the sub-window of the former in which the shorter signal fully overlaps the longer; swapping the operands gives the same result; the result is linear in each operand; an output window reaching past the full length violates the documented precondition (an assert) and is the only window rejected; the result does not depend on which algorithm the library picks.",
  "all pairs of non-empty signals, all windows", "all lengths and values",
  [U+"Math/Convolution.hpp: Convolution, ConvolutionLength"])
p("Overlap-add convolution equals direct convolution",
  "OverlapAdd gives exactly the same samples as Convolution for every admissible chunk size, every output window and every pair of signals (given an exact DFT).",
  "all signals, chunk sizes >= 2*|filter|-1 (the code's own precondition), output windows", "lengths x chunk x window",
  [U+"Math/OverlapAdd.hpp: OverlapAdd"])
p("Chunk-size helpers",
  "NextPowerOfTwo(n) is the least power of two not below n; the practical and optimal FFT sizes picked for overlap-add are admissible chunk sizes (at least 2*|filter|-1) for every signal length.",
  "all n in range", "all sizes",
  [U+"Math/OverlapAdd.hpp: impl::ola"])
p("Fourier transforms invert each other and are linear",
  "Ifft(Fft(x)) = x and Fft(Ifft(X)) = X for complex signals of every length; for real signals Ifft of the half spectrum (with the parity flag) and of the full spectrum recover x; Fft is additive and homogeneous; Parseval and the circular convolution theorem hold.",
  "all signal lengths >= 1 and all samples (exact arithmetic)", "all lengths",
  [U+"Math/FFT.hpp: Fft, Ifft"])
p("Real spectra: half and full forms agree",
  "The full spectrum of a real signal of length n has n bins whose first n/2+1 are the half spectrum and whose bin n-k is the conjugate of bin k.",
  "all lengths, both parities", "both parities and all lengths",
  [U+"Math/FFT.hpp: Fft(..., FFT_FULL), fft_full mirror"])
p("FftShift and IfftShift are mutually inverse",
  "FftShift moves bin 0 to index n/2 and is a rotation; IfftShift undoes it for every length, odd or even, in place or out of place.",
  "all lengths and values", "all lengths, both parities",
  [U+"Math/FFT.hpp: FftShift, IfftShift"])
p("Streaming FIR filtering is independent of block boundaries",
  "Filtering a signal block by block with a filter state gives the concatenation of the same samples as filtering it in one call, and that equals the causal prefix of the full convolution of (past input ++ signal) with the taps; the state always holds the last |taps|-1 input samples; direct convolution and overlap-add agree.",
  "all tap vectors, signals, and ways of cutting the signal into blocks", "all block partitions",
  [U+"Filtering/FIR/Filter.hpp: Filter, impl::fir::ShiftFilterState"])
p("Direct-form I obeys the difference equation",
  "A direct-form I realization fed with x produces the y with sum_k a_k y[n-k] = sum_k b_k x[n-k] for all n (zero history before the start), a_0 being the highest denominator coefficient and the numerator aligned to the newest sample.",
  "all coefficient vectors with nonzero leading denominator coefficient, all inputs, all lengths", "infinite sequences of calls",
  [U+"Filtering/IIR/Realizations.hpp: DirectFormI"])
p("Direct-form II equals direct-form I",
  "Direct form II yields the same output as direct form I for the same system and input.",
  "all systems and inputs", "all systems and input histories",
  [U+"Filtering/IIR/Realizations.hpp: DirectFormII"])
p("Cascaded form equals the chain of its biquads",
  "The cascaded realization's output is the input passed through every second-order section in turn, each obeying its own difference equation; the state always has enough sections.",
  "all cascades and inputs", "all inputs and cascade lengths",
  [U+"Filtering/IIR/Realizations.hpp: CascadedForm"])
p("Streaming IIR filtering is independent of block boundaries",
  "Filtering block by block with one realization state equals filtering in one call; after reset the realization behaves as freshly constructed; filtering is linear in the input and causal.",
  "all realizations, inputs, block partitions", "all block partitions and histories",
  [U+"Filtering/IIR/Filter.hpp", U+"Filtering/IIR/Realizations.hpp"])
p("Polynomial evaluation and expansion",
  "Evaluating a polynomial gives sum c_i x^i; expanding a factored polynomial gives the coefficient polynomial with the same value at every point, degree equal to the number of roots and leading coefficient 1.",
  "all coefficient vectors, root multisets and evaluation points", "all degrees and values",
  [U+"Math/Polynomials.hpp: Polynomial, FactoredPolynomial, ExpandPolynomial"])
p("Root sets are stored faithfully",
  "Constructing a factored polynomial from a list of roots succeeds exactly when the non-real roots come in conjugate pairs, and then the polynomial vanishes exactly at the given roots; resizing keeps the roots that fit.",
  "all finite root lists, all resizes", "all root lists and resize sequences",
  [U+"Math/Polynomials.hpp: FactoredPolynomial(constructors), resize, regroup"])
p("Conversions between system representations preserve the transfer function",
  "TransferFunction(zpk) and CascadedBiquad(zpk) evaluate, at every point that is not a pole, to the same value as the zero-pole-gain system they were made from.",
  "all zero-pole-gain systems and evaluation points", "all systems and points",
  [U+"LTISystems/Systems.hpp: TransferFunction, ZeroPoleGain, CascadedBiquad"])
p("Z-domain mapping substitutes the variable",
  "Mapping a discrete system with a first- or second-order allpass-type substitution gives the system H(z) = H_old(map(z)) at every admissible z, with the number of poles multiplied by the order of the map.",
  "all systems with no more zeros than poles, all map parameters, all points", "all systems, parameters and points",
  [U+"Math/RootTransforms.hpp", U+"Filtering/IIR/BandTransforms.hpp"])
p("Bilinear discretisation substitutes s = k (z-1)/(z+1)",
  "BilinearTransform of a continuous system H gives the discrete system with H_d(z) = H(k (z-1)/(z+1)) at every admissible z.",
  "all proper zero-pole-gain systems, sample rates, points", "all systems and points",
  [U+"LTISystems/DiscretizationTransforms.hpp: BilinearTransform"])
p("Stability is preserved",
  "Bilinear transform takes left-half-plane poles strictly inside the unit circle, and the lowpass, highpass, bandpass and bandstop transforms keep poles inside the unit circle.",
  "all stable systems with no more zeros than poles, all sample rates, all cutoff frequencies in (0,1)", "continuum of poles and parameters",
  [U+"LTISystems/DiscretizationTransforms.hpp", U+"Filtering/IIR/BandTransforms.hpp"])
p("Butterworth prototypes",
  "The order-n Butterworth prototype has n poles, all on the unit circle in the open left half plane, closed under conjugation, and |H(jw)|^2 = 1/(1+w^(2n)) at every real w.",
  "all orders n and all frequencies w", "all orders",
  [U+"Filtering/IIR/Butterworth.hpp"])
p("Polyphase decomposition partitions the taps",
  "Decomposing a filter into P phases copies every tap exactly once (scaled by P, reversed within its phase): phase p holds taps p, p+P, p+2P, ...; the phases fill the buffer without gap or overlap.",
  "all filters and phase counts >= 1", "all tap/phase counts",
  [U+"Filtering/Polyphase.hpp"])
p("Interpolation equals zero-stuffing followed by convolution",
  "Interpolating by P gives, at every output index of the requested window, the same sample as convolving the input expanded by P with the original filter times P.",
  "all inputs, filters, phase counts and output windows", "all windows and lengths",
  [U+"Filtering/Resample.hpp: Interpolate"])
p("Interpolation can be suspended and resumed",
  "Interpolating in several calls, continuing at the reported suspension point, gives the same samples as one call.",
  "all inputs, filters, cut points", "all cut points",
  [U+"Filtering/Resample.hpp: InterpSuspensionPoint, Interpolate"])
p("Resampling samples the interpolated signal",
  "Every resampled sample is the linear combination, with weights summing to one, of the two polyphase-filtered samples adjacent to its exact rational position; its accesses stay within the phases and the input.",
  "all rates, filters, start points", "all rational rates and positions",
  [U+"Filtering/Resample.hpp: Resample, ResampleLength"])
p("Resampling can be suspended and resumed",
  "Resampling a signal in several calls, each continuing at the reported suspension point on the remaining input, gives the same output as one call.",
  "all rates, filters, cut points", "all cut points",
  [U+"Filtering/Resample.hpp: ResamplingSuspensionPoint, Resample"])
p("Decimate and Expand",
  "Decimate by r keeps exactly the samples 0, r, 2r, ...; Expand by r puts the samples at multiples of r and zero elsewhere; Decimate(Expand(x,r),r) = x.",
  "all signals and rates >= 1", "all lengths and rates",
  [U+"Filtering/Resample.hpp: Decimate, Expand"])
p("FIR band transforms",
  "MirrorResponse multiplies tap k by (-1)^k up to a global sign and is an involution; ComplementaryResponse yields a filter whose sum with the original is the unit impulse at the centre and is an involution; ShiftResponse modulates the taps by a cosine centred at the middle tap.",
  "all tap vectors and frequencies", "all lengths",
  [U+"Filtering/FIR/BandTransforms.hpp"])
p("Halfband to Hilbert transformation",
  "The odd Hilbert transformer is antisymmetric and equals the tapwise formula whatever the length (short path or blocked path); the even one is the odd one decimated by two.",
  "all filter lengths", "all lengths across the blocked path",
  [U+"Filtering/FIR/BandTransforms.hpp: HalfbandToHilbertOdd, HalfbandToHilbertEven"])
p("Windowed FIR design",
  "Windowed lowpass kernels are symmetric and have unit DC gain; the highpass is the complement of the lowpass; bandpass/bandstop are formed from them as documented.",
  "all lengths, cutoffs, windows", "all lengths and parameters",
  [U+"Filtering/FIR/Windowed.hpp", U+"Filtering/FIR.hpp"])
p("Window functions are symmetric and bounded",
  "Every window of every length is symmetric; Hamming, triangular, rectangular, Blackman, ... Blackman-Harris, flat top, Gaussian, Kaiser and Lanczos windows follow their textbook formulas, stay in their range and peak in the middle; the Dolph-Chebyshev window has peak 1 and all side lobes of its frequency response are at most the requested fraction of the main lobe; coherent gain/energy gain are the mean and mean square of the window.",
  "all lengths, all sample indices", "all lengths",
  [U+"Filtering/Windowing.hpp"])
p("Spaces hit their end points",
  "LinSpace fills a signal with equally spaced samples, first at start and last at end when inclusive (one step short otherwise); LogSpace is the base raised to those.",
  "all lengths >= 2 (and the degenerate ones), end points", "all lengths",
  [U+"Generators/Spaces.hpp"])
p("Waveform generators are periodic and bounded",
  "Sawtooth, triangle, pwm waves lie in [-1,1] and are periodic in the phase for every phase.",
  "all real phases, fill ratios", "continuum of phases",
  [U+"Generators/Waveforms.hpp"])
p("Statistics",
  "CentralMoment(x,k) is the mean of (x_i - mean)^k; variance, standard deviation, skewness, kurtosis, covariance, correlation are the standard combinations of them.",
  "all signals and moments k", "all signals and k",
  [U+"Math/Statistics.hpp"])
p("Filter band measurement",
  "Measuring an amplitude response terminates and divides it into consecutive bands that alternate between pass and stop and cover all samples, each sample being on its band's side of the threshold 1/2; a response is classified as lowpass, highpass, bandpass or bandstop exactly when its bands have that pattern, and the specific measuring functions throw on any other pattern; reported edges lie in their bands and are ordered; reported ripples are the largest deviation from 1 (pass) or 0 (stop) over the local extrema of the band.",
  "all amplitude responses and thresholds", "all responses",
  [U+"Filtering/MeasureFilter.hpp"])
p("Root finding by bisection",
  "Bisect returns a point inside the start interval; for a continuous function with a sign change it is within half the tolerance of a root, and with a positive tolerance it terminates for every function.",
  "all functions with a sign change on the start interval", "all functions",
  [U+"Math/Solvers.hpp"])
p("Filter descriptors",
  "Each builder method of a filter descriptor sets its own parameter, leaves all others as they were, and repeated settings keep the last; band frequencies outside [0,1] are rejected with domain_error and unsorted ones with invalid_argument by the call that gives them.",
  "all sequences of builder calls, all parameter values", "all call sequences",
  [U+"Filtering/FIR/Descs.hpp", U+"Filtering/IIR/Descs.hpp", U+"Filtering/FilterUtility.hpp"])
p("Bins and frequencies correspond",
  "FourierFrequency2Bin(FourierBin2Frequency(b)) = b for every bin, and every nonnegative frequency is mapped to a bin whose frequency is at most half a bin away.",
  "all bins, bin counts, sample rates, frequencies", "all values",
  [U+"Math/FFT.hpp"])
p("Orders of the system representations agree",
  "order() of a zero-pole-gain system, of the transfer function made from it and of the biquad cascade made from it all report max(number of zeros, number of poles).",
  "all zero-pole-gain systems", "all systems, with any mix of real and complex roots",
  [U+"LTISystems/Systems.hpp: order"])
p("The choice of IIR realization does not matter",
  "Filtering any signal with a zero-pole-gain system through direct form I, direct form II (on its transfer function) or the cascaded form (on its biquad cascade) gives the same samples, which obey the system's difference equation.",
  "all systems with at least one zero or pole, all signals, all sufficient realization orders", "all systems and signals",
  [U+"LTISystems/Systems.hpp", U+"Filtering/IIR/Realizations.hpp", U+"Filtering/IIR/Filter.hpp"])
p("Butterworth filters have the response that was asked for",
  "DesignFilter with a Butterworth lowpass, highpass, bandpass or bandstop descriptor of order n returns a stable filter with n poles whose power response is the maximally flat one: 1/(1+v^(2m)) in the warped frequency variable v of the band type, full gain in the passband centre, exactly half power at every requested band edge, and zero where the band type requires it.",
  "all orders, all band edges in (0,1), all frequencies", "a continuum of edges and frequencies and all orders",
  [U+"Filtering/IIR.hpp: DesignFilter", U+"Filtering/IIR/BandTransforms.hpp", U+"LTISystems/DiscretizationTransforms.hpp", U+"Filtering/IIR/Butterworth.hpp"])
p("Chebyshev type I filters have the response that was asked for",
  "DesignFilter with a Chebyshev type I descriptor of order n and passband ripple r returns a stable filter with n poles whose power response is 1/(1+e^2 T_m(v)^2) in the warped frequency variable v: between (1-r)^2 and 1 over the whole passband, exactly (1-r)^2 at every band edge, strictly below (1-r)^2 outside.",
  "all orders the method supports, all band edges and ripples in (0,1), all frequencies", "a continuum of edges, ripples and frequencies and all orders",
  [U+"Filtering/IIR.hpp: DesignFilter", U+"Filtering/IIR/Chebyshev.hpp: Chebyshev1"])
p("Chebyshev type II filters have the response that was asked for",
  "DesignFilter with a Chebyshev type II descriptor of order n and stopband ripple r returns a stable filter with n poles whose power response is at most r^2 over the whole stopband, exactly r^2 at every band edge, and between r^2 and 1 in the passband with full gain at its centre.",
  "all orders, all band edges and ripples in (0,1), all frequencies", "a continuum of edges, ripples and frequencies and all orders",
  [U+"Filtering/IIR.hpp: DesignFilter", U+"Filtering/IIR/Chebyshev.hpp: Chebyshev2"])
p("Least squares FIR designs are optimal",
  "DesignFilter with a least squares lowpass, highpass, bandpass, bandstop, Hilbert or arbitrary descriptor of odd length returns the symmetric (for Hilbert: antisymmetric) filter for which no other filter of that length has a smaller weighted squared deviation from the requested response on the requested frequency grid.",
  "all odd lengths, band edges, weights, grids, requested responses and all competing filters", "optimality quantifies over every competing filter",
  [U+"Filtering/FIR/LeastSquares.hpp: KernelLeastSquares", U+"Filtering/FIR.hpp: DesignFilter"])
p("Frequency responses are the transfer function on the unit circle",
  "FrequencyResponse returns amplitudes and phases that represent, at each frequency of the evenly spaced grid on [0, pi], the Fourier sum of the impulse response (or the transfer function of the system); the zero-pole-gain system, its transfer function and its biquad cascade give the same response; an empty impulse response with the default grid size is refused by an exception.",
  "all impulse responses, all systems without a pole on the grid, all grid sizes, all vector widths", "a continuum of systems and every grid size",
  [U+"Filtering/MeasureFilter.hpp: FrequencyResponse"])
p("Mathematical functions act sample by sample",
  "Abs, Sqrt, Exp, Sin, Erf and the other functions of Math/Functions applied to a signal give, for every size and vector width, the signal of the function's values; writing into a given output (the input itself included) fills exactly as many samples as the input has, and never checks the output's size.",
  "all signals, sizes, functions, vector widths and outputs", "all sizes and remainders of the vector width, aliasing and size mismatches",
  [U+"Math/Functions.hpp"])
p("The dot product is an inner product",
  "DotProduct of two signals of the same size is the sum of products of corresponding samples, the second factor conjugated if it is complex, whatever the vector width; it is linear in the first signal, conjugate symmetric and positive, and obeys the Cauchy-Schwarz inequality; equal sizes are a precondition.",
  "all pairs of real and complex signals, all vector widths", "all sizes and vector widths",
  [U+"Math/DotProduct.hpp"])
p("The elliptic amplitude inverts Legendre's integral",
  "EllipticAM(x, k) returns an angle whose incomplete elliptic integral of the first kind with modulus k differs from x by at most machine epsilon times |x|, and which is therefore that close to the true (unique) Jacobi amplitude; for k = 0 and k = 1 it is exact; the result does not depend on earlier calls although a static scratch array is used; a modulus outside [0, 1] violates the precondition.",
  "all real arguments, all moduli in [0, 1] representable at the given precision, all precisions, all earlier calls", "a continuum of arguments and moduli, and a claim about an integral and about call history",
  [U+"Math/EllipticFunctions.hpp: EllipticAM"])
p("Carlson's integral and the complete elliptic integral",
  "CarlsonRF(x, y, z) terminates for nonnegative arguments of which at most one is zero and returns the symmetric integral RF with a relative error of at most a quarter of machine epsilon (before rounding); with two or more zero arguments it returns infinity.  EllipticK(k) returns the complete elliptic integral with that accuracy for |k| < 1 and infinity for |k| = 1.",
  "all nonnegative argument triples, all moduli in [-1, 1], all precisions", "a continuum of arguments, termination, and a claim about an improper integral",
  [U+"Math/EllipticFunctions.hpp: CarlsonRF, EllipticK"])
p("Inverse elliptic functions",
  "EllipticArcSN, EllipticArcCN and EllipticArcDN return, to a quarter of machine epsilon, the elliptic integral up to asin x, acos x and asin(sqrt(1-x^2)/k); EllipticArcSN on the imaginary axis returns i times the integral of the complementary modulus up to atan y; applying EllipticSN to the result gives the argument back.",
  "all arguments in the functions' domains, all moduli in [-1, 1], all precisions", "a continuum of arguments and moduli",
  [U+"Math/EllipticFunctions.hpp: EllipticArcSN, EllipticArcCN, EllipticArcDN"])
p("Jacobi's elliptic functions",
  "EllipticSNCNDN(x, k) returns sn, cn and dn each within 2 epsilon |x| of the true values, and exactly on the curves sn^2 + cn^2 = 1 and dn^2 + k^2 sn^2 = 1; for complex arguments it evaluates the addition formula at the real and imaginary parts and the same identities hold.",
  "all real and complex arguments, all moduli, all precisions, all earlier calls", "a continuum of arguments and moduli",
  [U+"Math/EllipticFunctions.hpp: EllipticSNCNDN, EllipticReduceRange, EllipticSN"])
p("Elliptic filter design",
  "For every order and every pair of ripples with 0 < stopband < 1 - passband, the elliptic prototype has exactly `order` poles and 2*(order/2) zeros, the zeros on the imaginary axis strictly beyond the passband edge, and gain 1 (odd order) or 1 - passband ripple (even order) at frequency zero; its selectivity solves the degree equation K(k)/K'(k) = n K(k1)/K'(k1) up to the bisection's resolution; poles and zeros are at the textbook places up to four roundoffs in the arguments; with enough precision all poles are in the left half plane and, for every positive error, the squared magnitude is between (1 - passband)^2 - error and 1 + error at every frequency up to the edge 1 and at most stopband^2 + error at every frequency from 1/k on, k the solution of the degree equation.  The low-, high-, bandpass and bandstop designs are that prototype seen through the frequency transformation: stable, of the requested order, inside the passband ripple in the whole passband, inside the stopband ripple wherever the frequency variable is beyond 1/k, and at most 1 + error between.",
  "all orders, ripples, cutoffs and band edges, all precisions, bisection lengths and scratch array contents", "a continuum of specifications; stability and the degree equation are claims about analytic functions",
  [U+"Filtering/IIR/Elliptic.hpp", U+"Filtering/IIR.hpp: DesignFilter (elliptic)"])
p("Reductions use every element once, with bounded rounding",
  "Reduce, TransformReduce and InnerProduct with any operator, associative or not, combine the initial value and every element (product) exactly once, in some order and bracketing, and no element passes through more than n/(8W) + 2W + 3 applications (n/8 + 3 when not vectorised); so in IEEE arithmetic with unit roundoff u the sum of finite numbers is finite and wrong by at most (1+u)^depth - 1 of the sum of absolute values, unless that sum comes near the overflow threshold, and an inner product by one more factor 1+u and half the smallest number per product.",
  "all operators, lists, initial values, vector widths, formats and orders chosen by the standard library and the horizontal addition", "all sizes and all finite floating-point inputs; worst-case rounding cannot be sampled",
  [U+"Kernels/Numeric.hpp: Reduce, TransformReduce, InnerProduct"])
p("Compensated reductions lose a constant number of roundoffs",
  "With plus_compensated the error of Reduce, TransformReduce and InnerProduct in IEEE arithmetic is at most (1+u)^(2W+3) (1 + 6u + 14 m u^2) - 1 of the sum of absolute values, m being n/(8W): to first order it does not depend on the number of elements.  In double precision with up to 8 lanes it stays below 2^-48 for up to 2^48 W elements.",
  "all finite inputs whose absolute sum stays below a third of the overflow threshold, all sizes with m u <= 1, all vector widths and formats of at least 10 bits", "worst-case rounding over all inputs and sizes",
  [U+"Kernels/Functors.hpp: plus_compensated", U+"Kernels/Numeric.hpp"])
p("Convolution in floating point",
  "Convolving finite IEEE signals gives, in every kernel and through the API, finite samples that differ from the exact convolution of the values (plus the old content when accumulating) by at most a gain minus one times the convolution of the absolute values, plus half the smallest number per product: the gain is (1+u)^(s+1) when the shorter signal has s <= 32 samples, and ((1+u)^2 (1+6u+14(s/4)u^2))^3 (1+u) for longer ones, that is, independent of the length to first order; whether multiply-adds are fused or not, for vectors of any width, whatever unused lanes contain.  In double precision: 34 * 2^-53 for up to 2^30 samples.",
  "all finite inputs whose bound stays below a third of the overflow threshold, all sizes, windows, vector widths, fused or unfused multiply-adds and formats of at least 10 bits", "worst-case rounding over all inputs and sizes",
  [U+"Math/Convolution.hpp: Convolution", U+"Kernels/Convolution.hpp"])
p("A sample of a convolution is computed from the samples it is made of",
  "Changing input samples that are not part of the convolution sum of an output sample does not change that output sample, for any number type and any arithmetic (including infinities and NaN); when both signals have more than 32 samples only input samples less than one vector away from that sum matter.",
  "all number types and operations, signals, sizes, windows and vector widths", "all sizes, positions and arithmetics, NaN and infinities included",
  [U+"Math/Convolution.hpp: Convolution", U+"Kernels/Convolution.hpp: ConvolutionSlide, ConvolutionReduceVec"])
p("Statistics in floating point",
  "For a nonempty signal of finite IEEE numbers, away from overflow, the sum of squares, mean, mean square, norm, root mean square, variance, standard deviation and covariance are finite, the first kind nonnegative where squares are added, and differ from their exact values by at most: mean ((1+u)^(d+3)-1) times the mean absolute value; mean square ((1+u)^(d+4)-1) relative, norm and root mean square one more factor 1+u; moment about a given value ((1+u)^(d+6)-1) relative; variance the same plus (1+u)^(d+6) times the square of the error of the mean; covariance ((1+u)^(d+6)-1) times the product of the standard deviations plus the product of the errors of the means; each plus a few times the smallest number.  d is the depth n/(8W)+2W+3 (n/8+3 not vectorised) of the reduction, whatever order the additions are done in: the variance is computed in two passes and never suffers the cancellation of mean(x^2)-mean(x)^2.",
  "all signals of finite numbers within the range, all sizes, vector widths, orders of addition and formats of at least 10 bits", "worst-case rounding over all inputs and sizes",
  [U+"Math/Statistics.hpp: Mean, SumSquare, MeanSquare, RootMeanSquare, Norm, CentralMoment, Variance, StandardDeviation, Covariance"])
p("Maximum and minimum of floating-point signals",
  "Max and Min of a nonempty signal without NaN (infinities allowed) return a sample of the signal that no sample exceeds (that exceeds no sample), whatever the vector width and the order of the comparisons; more generally for any type whose samples are totally preordered.",
  "all signals, sizes, vector widths, orders of comparison and floating-point formats", "all signals and orders of comparison; NaN makes comparisons non-transitive",
  [U+"Math/Statistics.hpp: Max, Min", U+"Kernels/Math.hpp: max, min"])
p("Statistics of complex signals",
  "Sum and Mean of a complex signal are the sums and means of the real and imaginary parts; SumSquare, Norm and Variance measure the size of the samples: they vanish only for zero (constant) signals.",
  "all complex signals, sizes, vector widths and orders of addition", "all complex signals",
  [U+"Math/Statistics.hpp: Sum, Mean, SumSquare, Norm, CentralMoment"])
p("Polynomial evaluation in floating point",
  "Evaluating a polynomial with n finite coefficients at a finite x in IEEE arithmetic gives a finite number that differs from the exact value by at most (1+u)^(2n) - 1 times the sum of |c_i| |x|^i, plus half the smallest number times (1+u)^(2n) (1 + |x| + ... + |x|^(n-1)), provided the same sum at max(1,|x|) stays below the overflow threshold; whether or not the multiply-adds are fused.",
  "all finite coefficients and arguments within range, all degrees, formats of at least 10 bits, fused or unfused multiply-adds", "worst-case rounding over all inputs and degrees",
  [U+"Math/Polynomials.hpp: Polynomial::operator(), Eval"])
p("Signal arithmetic between different element types",
  "Adding, subtracting, multiplying and dividing signals and scalars of different element types (a complex and a real signal, say), into a third signal, a new signal, or in place, applies the operation to the samples at every place and nothing else; signals of different sizes are rejected with invalid_argument.",
  "all element types, operations, signals, sizes and vector widths, output separate or one of the operands", "all sizes against all vector widths and aliasings",
  [U+"Primitives/SignalArithmetic.hpp", U+"Kernels/Numeric.hpp: Transform"])
p("IIR filtering in floating point",
  "In any arithmetic, rounding included, the three IIR realizations give bit-for-bit the same samples and state whether a signal is filtered in one call, in blocks of any sizes, in place or into another array, and later samples (NaN included) do not change earlier outputs.  In IEEE arithmetic every finite output sample of direct form I was computed from finite samples, and satisfies the difference equation at its time up to ((1+u)^(N+4)-1) times the sum of the absolute values of its terms plus a few underflows (N the larger coefficient count), with no assumption about overflow; direct form II and each section of a cascade likewise with their own recursions.  The error of the output of direct form I is at most the sum of these roundings weighted by the impulse response of 1/denominator; and once an output sample of a recursive filter is not finite, no later one is.",
  "all systems with usable leading coefficient, orders, signals, block partitions, formats, fused or unfused multiply-adds; blocks: all arithmetics and states", "rounding and blocking over all inputs, systems and partitions; feedback makes errors depend on the whole history",
  [U+"Filtering/IIR/Realizations.hpp: DirectFormI, DirectFormII, CascadedForm", U+"Filtering/IIR/Filter.hpp: Filter"])
p("Stable filters: bounded in, bounded out, and transients die out",
  "Filtering with a system whose poles all lie inside the unit circle, through any of the three realizations, turns a signal bounded by M into one bounded by |gain| prod(1+|zero|) / prod(1-|pole|) M, however long the signal is; once the input has stopped the output decays like rho^n for every rho larger than all |pole|, with a constant that depends on the system and rho only. Conversely, if some pole lies on or outside the unit circle (not cancelled by a zero), the response to a single unit sample never dies out.",
  "all systems, signals of any length, bounds, block orders and realizations", "signals of every length: growth shows up only after arbitrarily many samples",
  [U+"Filtering/IIR/Filter.hpp: Filter", U+"Filtering/IIR/Realizations.hpp", "include/dspbb/LTISystems/Systems.hpp"])
p("Sinusoids leave a stable filter with the amplitude and phase of the frequency response",
  "When x(n) = a cos(w n + phi) is filtered with a stable system H, the output approaches a |H(e^{iw})| cos(w n + phi + arg H(e^{iw})): the difference is at most B |a| rho^n with rho < 1 and B depending on the system only (not on a, w, phi or the length). So a designed Butterworth, Chebyshev I, Chebyshev II or elliptic filter (lowpass, highpass, bandpass, bandstop) attenuates a sinusoid according to its design curve (elliptic: within the requested ripples up to any tolerance, once the numerical tolerances of the design are fine enough).",
  "all stable systems, frequencies, amplitudes, phases, lengths and realizations; all designed filters", "all frequencies and all lengths; limits cannot be tested",
  [U+"Filtering/IIR/Filter.hpp: Filter", U+"Filtering/IIR/Realizations.hpp", U+"Filtering/IIR/Butterworth.hpp", U+"Filtering/IIR/Chebyshev.hpp", U+"Filtering/IIR/Elliptic.hpp"])
p("The rounding noise of a stable filter does not accumulate",
  "Filtering in floating point with a stable system whose poles stay far enough from the unit circle for the precision (a condition on the coefficients), through direct form I, direct form II or a cascade of biquads, gives samples that differ from the exact answer to the same coefficients and samples by at most a constant that depends on the system, the precision and the largest input sample only - not on the length of the signal or the position in it - as long as the output stays finite.",
  "all formats, coefficient lists with poles inside the unit circle, signals of any length, contraction or not, all three realizations", "the bound has to hold after arbitrarily many samples, where errors that fed back might have built up",
  [U+"Filtering/IIR/Filter.hpp: Filter", U+"Filtering/IIR/Realizations.hpp: DirectFormI, DirectFormII, CascadedForm"])
p("A stable filter fed with bounded samples does not overflow",
  "Filtering finite samples bounded by M in floating point with a stable system with finite coefficients, through direct form I, direct form II or a cascade of biquads, never overflows and never yields NaN, however long the signal is, as soon as one number computed from the system, the precision and M lies under the overflow threshold; the output is then bounded by an explicit level, and the error bound of C74 holds for every sample.",
  "all formats, stable coefficient lists, signals of any length, contraction or not, all three realizations", "overflow could happen after arbitrarily many samples; intermediate results are invisible to tests",
  [U+"Filtering/IIR/Filter.hpp: Filter", U+"Filtering/IIR/Realizations.hpp: DirectFormI, DirectFormII, CascadedForm"])
p("Sinusoids and bounds through FIR filters; measured responses are what signals experience",
  "Streaming x(n) = a cos(w n + phi) through an FIR filter with taps h, cut into any blocks, gives from sample taps-1 on exactly a |H(w)| cos(w n + phi + arg H(w)) with H(w) = sum h_j e^{-iwj}; central convolution gives it for every sample. Any signal bounded by M gives outputs bounded by M sum|h_j|, and that bound is reached. The amplitude and phase FrequencyResponse measures at a grid frequency are what a sinusoid of that frequency experiences (FIR exactly; stable IIR in the limit). Symmetric taps delay every sinusoid by (taps-1)/2 samples and scale it by a real factor, antisymmetric taps turn the cosine into the delayed sine; a windowed lowpass design passes constants unchanged and the highpass removes them.",
  "all taps, signals, block partitions, frequencies, amplitudes, phases, bounds; all falling windows and cutoffs", "all frequencies, taps and lengths; exactness and tightness of a bound cannot be tested",
  [U+"Filtering/FIR.hpp: Filter", U+"Math/Convolution.hpp", U+"Filtering/MeasureFilter.hpp: FrequencyResponse", U+"Filtering/FIR/Windowed.hpp"])
p("Streaming FIR filtering in floating point",
  "Filtering finite samples with a convolution filter in floating point, the signal cut into blocks of any sizes, the state left after the last block is bit for bit the last taps-1 input samples, in any arithmetic; every output sample differs from the exact one by at most (gain - 1) times the sum of the absolute products, plus underflow, where the gain depends on the number of taps and the precision but not on the length of the signal, the partition or the position (69 half-ulps in double precision up to 2^30 taps), and two partitions, vector widths or contraction choices differ by at most twice that. With at most 33 taps and blocks no longer than min(taps, 32) the output does not depend on the partition at all, in any arithmetic; for longer blocks it does.",
  "all formats, taps, states, signals, partitions into blocks, vector widths, fused or unfused multiply-adds", "all partitions and lengths; an error bound for every input cannot be sampled",
  [U+"Filtering/FIR/Filter.hpp: Filter", U+"Math/Convolution.hpp", U+"Kernels/Convolution.hpp"])
p("Interpolation and resampling in any arithmetic and in floating point",
  "Suspending and resuming interpolation or rational resampling at the reported points yields bit for bit the samples of one uninterrupted call, in any arithmetic (no algebraic law is used), and a call that has seen only the received prefix already yields the final samples. In IEEE arithmetic with any order of the additions, every interpolated and every resampled sample is finite and within an explicit bound of the exact sample (relative to the same expression of absolute values), and the stored taps are P times the filter up to two roundings.",
  "all element types and operations (first part); all precisions >= 10, addition orders, vector widths, signals, filters, phase counts, rates, start points and call lengths that do not overflow (second part)",
  "Bit equality under every way of splitting a stream and an error bound over all float inputs and orders are universal statements; tests compare a few signals with a tolerance.",
  [U+"Filtering/Resample.hpp: Interpolate, Resample, FindInterpolSuspensionPoint, FindResampleSuspensionPoint", U+"Filtering/Polyphase.hpp: PolyphaseDecompose", U+"Math/DotProduct.hpp: DotProduct"])
p("Waves keep their shape through interpolation and resampling",
  "Let x hold the values at times 0, 1, 2, ... of a wave: any finite sum of sinusoids in continuous time. Interpolating one sinusoid with P phases gives exactly the sinusoid at P times the rate plus its P-1 images, each with the amplitude and phase of the filter's frequency response at its frequency. With a symmetric filter whose gain is within eps of 1 at the wave's frequencies and at most dl at their images, interpolated sample m is the wave at time (m - d)/P, d half the filter length, to within (sum of amplitudes)(eps + (P-1) dl); sample i of Resample is the wave at time (start + i) rate - d/P to within that plus the sum of a (w/P)^2/8 for the straight lines between interpolated samples. Started at ResampleDelay the delay is undone: sample i is the wave at time i rate. Resample in central mode yields only such samples. All this where the filter is filled with input.",
  "all waves, signals, symmetric filters (images: all filters), phase counts, rates, start points, sample positions",
  "The bound has to hold for every wave, rate and position; tests compare a few sinusoids with a tolerance.",
  [U+"Filtering/Resample.hpp: Interpolate, Resample, ResampleDelay", U+"Filtering/Polyphase.hpp: PolyphaseDecompose"])
p("Filters in series, in parallel, and undone",
  "Filtering from rest with one IIR system and then with a second is filtering with the system whose numerator and denominator are the products (by any realization orders that suffice); the order of the two does not matter. Feeding both the same signal and adding the outputs is filtering with the sum of the transfer functions over the common denominator (numerators aligned at their highest coefficients). Swapping numerator and denominator undoes a filter exactly, when the numerator's highest coefficient is not zero. A streaming FIR filter is the IIR filter with the reversed taps over 1, whatever the blocks; two streaming FIR filters in turn are the one with the convolved taps, however each stream is cut into blocks; two cascades in turn are the cascade of all their sections.",
  "all fields, proper systems, orders, signals, taps, block partitions, SIMD widths",
  "Equality of whole filters for every system and every signal; tests filter one signal.",
  [U+"Filtering/IIR/Realizations.hpp: DirectFormI, CascadedForm", U+"Filtering/IIR/Filter.hpp: Filter", U+"Filtering/FIR/Filter.hpp: Filter with state", U+"Math/Convolution.hpp: Convolution"])
p("Convolution and FIR streaming of signals with different element types",
  "When the two operands have different element types (a real filter on a complex signal, a complex filter on a real one, or any types whose elements are read as numbers of one commutative ring), Convolution gives, sample by sample, the convolution of the values: full, central, and any window written over or added to an array, for every length and vector width, with no access outside an array; windows beyond the full convolution are rejected. The order of the operands does not change the values. A streaming FIR filter gives the prefix of that convolution in whatever blocks it is fed, and its state stays of the signal's type and holds the signal's last samples. Real taps act on the real and the imaginary part of a complex signal separately.",
  "all element types readable in a commutative ring, operands, windows, block partitions, SIMD widths",
  "Templates over pairs of types and all lengths; tests instantiate a few pairs on a few sizes.",
  [U+"Math/Convolution.hpp: Convolution", U+"Kernels/Convolution.hpp: ConvolutionNaive, ConvolutionSlide, ConvolutionReduceVec", U+"Filtering/FIR/Filter.hpp: Filter with state (FILTER_CONV)"])
p("Interpolation and resampling with filters of another element type",
  "When the signal and the polyphase filter have different element types (a complex signal through real taps, say), Interpolate gives sample by sample the zero-stuffed signal convolved with P times the filter, in the numbers both are read in, and may be streamed in pieces as for one type; requests beyond the end are rejected. Resample gives the same straight-line values between those samples as for one type, in all its modes and in one call or several, and returns whenever the samples exist and the sizes are moderate. Real taps interpolate the real and the imaginary part of a complex signal separately. Complex taps, which only hand-made polyphase views can have, act as the conjugated filter.",
  "all sample types, all tap rings and result rings with a ring-respecting reading, signals, filters, phase counts, rates, start points, SIMD widths",
  "Templates over pairs of types and all lengths and rates; tests use one type.",
  [U+"Filtering/Resample.hpp: Interpolate, Resample, DotProductSample", U+"Filtering/Polyphase.hpp: PolyphaseView", U+"Math/DotProduct.hpp: DotProduct"])
p("Intervals over any ordered type",
  "For endpoints of any type whose operator< is a strict weak order (integers, rationals, reals; floating-point numbers of any precision with infinities and both zeros, but no NaN): IsDisjoint says whether the two intervals have no value in common, Intersection is the set intersection and [0, 0) when that is empty, EncompassingUnion contains both and is inside every interval that does (if neither is empty), Union is the set union of intervals that meet and absent otherwise. Where addition respects the order and is undone by subtraction, + and - translate the set.",
  "all endpoint types, all strict weak orders, all intervals, all values",
  "A statement about every type and every pair of intervals; the tests use a few integers.",
  [U+"Utility/Interval.hpp: Interval, IsDisjoint, Intersection, EncompassingUnion, Union, operator+, operator-"])
p("Normalised polyphase filters in floating point",
  "Normalising a polyphase filter in IEEE arithmetic of any precision multiplies every tap of a phase by the rounded reciprocal of the computed sum of that phase and leaves the layout unchanged. If a phase is finite, its sum is not lost to cancellation and nothing comes near overflow, then all its new taps are finite, each is the exactly normalised tap up to a relative error of 2 g c + 5 u (plus half the smallest number when it underflows), and the exact sum of the new taps is 1 up to 2 g c + 2 u + 3 u c and one such underflow error per tap; u is the unit roundoff, c the condition number of the sum (sum of magnitudes over magnitude of sum), g the error of summing that many samples in the order used. Phases that cannot be normalised do not disturb the others.",
  "all precisions and exponent ranges, filters, phase counts, SIMD widths, orders of summation within a batch",
  "Rounding errors for every filter and precision; tests compare sums with a tolerance.",
  [U+"Filtering/Polyphase.hpp: PolyphaseNormalize", U+"Math/Statistics.hpp: Sum"])
p("Linearly spaced samples in floating point",
  "LinSpace in IEEE arithmetic of any precision, when nothing comes near overflow: every sample is finite, the first is exactly start, the samples never turn back (nondecreasing from start if start <= end, nonincreasing if end <= start), and each is the exact value start + i (end - start) / m up to one roundoff of itself, about four roundoffs of its distance from start, and the underflow of the step. The last sample of an inclusive range need not be end, and may lie beyond it, but not for a range from 0 to a power of two with no more samples than the precision can count. In any arithmetic whatever, integers included, sample i is R(i) * scale + start with one scale for all, and LogSpace is exp of that times log(base).",
  "all precisions and exponent ranges, lengths, start and end points, SIMD widths; all arithmetics",
  "Monotonicity and rounding for every length and range; tests compare a few samples with a tolerance.",
  [U+"Generators/Spaces.hpp: LinSpace, LogSpace"])
p("Waves and chirps in floating point",
  "Generating in IEEE arithmetic of any precision (phases in one format, samples in another): whatever is rounded, every sample whose computed phase is finite and not negative is in range: sawtooths and triangles with tilt in [0, 1] stay in [-1, 1], pulse trains are exactly 1 while the computed fraction of the period is below the fill and exactly 0 otherwise, square waves are exactly 1 or -1, and sines stay in [-1, 1] if std::sin does. The fraction of the period is exactly the fractional part of the rounded quotient of the phase by the rounded period, and in [0, 1). Converting to the element type keeps all this. Same for chirps. Nonnegative frequencies and phases give such phases, far from overflow. Negative phases are excluded: a sawtooth of frequency -1 reaches -1.25.",
  "all formats of phases and samples, lengths, sample rates, frequencies, phases, tilts, fills, approximations of pi",
  "Ranges must hold through every rounding for all parameters; tests look at a few waves.",
  [U+"Generators/Waveforms.hpp: GenericWave, GenericChirp, Sawtooth, Pwm, SineWave, SawtoothWave, PwmWave, SquareWave, SineChirp, SawtoothChirp, PwmChirp, SquareChirp"])
with open(os.path.join(os.path.dirname(__file__), "..", "properties.jsonl"), "w") as f:
    for x in P: f.write(json.dumps(x) + "\n")
print(len(P))
