{
 "C02": {
  "note": "The full property is false of the code: operator== is 'first == first && last && last': the last endpoints are only tested for being nonzero (see C02_interval_equality_refuted, _reflexive_refuted). C02_interval_equality_exact_partial says exactly when == is true."
 },
 "C03": {
  "note": "All operations are exact and canonical and fail only on overflow or a zero divisor, except rational * negative integer, which leaves a negative denominator (C03_mul_negative_int_refuted); _partial covers nonnegative integers."
 },
 "C05": {
  "note": "False for negative rationals (truncation towards zero): *_refuted. Proved for nonnegative rationals."
 },
 "C19": {
  "note": "Proved for every filter and block sequence with direct convolution and for overlap-add with at least two taps and nonempty blocks; overlap-add with one tap or an empty block trips an assertion of the code (*_refuted)."
 },
 "C21": {
  "note": "False unless the denominator is monic: C21_direct_form_II_general gives the exact relation for every system, _partial the equality for monic denominators, _refuted a counterexample."
 },
 "C25": {
  "note": "Everything except resizing is proved in full. resize is correct when it shrinks or grows by zero roots (resize_partial); growing the real roots over existing complex pairs loses roots, or copies an invalid range (*_refuted)."
 },
 "C26": {
  "note": "Transfer function: proved. Cascade: proved whenever there is at least one section; with no poles and no zeros the gain is lost (C26_cascade_gain_refuted)."
 },
 "C32": {
  "note": "Out of place: proved in full. In place (output buffer reused): proved where the convolution window is nonempty; otherwise stale samples remain (in_place_refuted)."
 },
 "C37": {
  "note": "All transforms proved except ShiftResponse into another buffer for odd lengths, whose centre tap is twice the old value of the output buffer instead of the input's (shift_out_of_place_refuted)."
 },
 "C39": {
  "note": "Proved in full for cutoffs in (0,1]; cutoff 0 is accepted by the range check but divides 0 by 0 (zero_cutoff_refuted)."
 },
 "C40": {
  "note": "Every window: formula, symmetry, range, peak; one-sample flat top and Gaussian windows are 0/0 in the code (one_sample_refuted), all other lengths are proved."
 },
 "C42": {
  "note": "Proved for nonnegative phases; negative phases break sawtooth, triangle and pwm waves (negative_phase_refuted)."
 },
 "C43": {
  "note": "Proved except: CentralMoment with k = 0, k = 1 with a given mean and even k >= 6 (moments_refuted), skewness/kurtosis of constant signals (constant_refuted)."
 },
 "C44": {
  "note": "Proved except: samples are on their band's side of the threshold only if none is within the noise margin (C44_separated; wrong_side_refuted), the first band may be empty, and the edges of a one-sample band cross (*_refuted)."
 },
 "C48": {
  "note": "Zero-pole-gain and transfer function proved; the biquad cascade reports one more than the order of the system, for every system of positive order (cascade_order_refuted)."
 },
 "C50": {
  "note": "Proved for all admissible band edges; highpass at the Nyquist frequency and bandpass of half the sampling rate divide by zero (*_refuted)."
 },
 "C51": {
  "note": "Proved for orders 1..32; order 0 and orders above 32 make the code shift 1 by an out-of-range count (prototype_order_refuted)."
 },
 "C53": {
  "note": "Optimality proved for odd lengths on the grid the code uses; the requested grid size is capped, even lengths leave a tap unwritten and the Hilbert default transition width is rejected (*_refuted)."
 },
 "C59": {
  "note": "Proved for arguments that are not negative; for negative x ArcSN and ArcCN return the value for |x| (negative_refuted, negative_cn_refuted)."
 },
 "C60": {
  "note": "Proved for |k| <= 1 (complex: k and sqrt(1-k^2) both representable, away from poles); for |k| > 1 cn is wrong (large_modulus_refuted)."
 },
 "C61": {
  "note": "Counts, zeros, DC gain, degree equation, its limit and the places of poles and zeros are proved for every precision; stability, existence, the ripple bounds at every frequency and the four designs for every order and ripples once the precision is fine enough for the chosen error (stability and existence also explicitly, when well_conditioned holds)."
 },
 "C65": {
  "note": "Proved for the naive kernel and for the API when one operand has at most 32 samples; for longer operands it holds up to one vector width, and the strict claim is false because out-of-range samples are multiplied by padding zeros (long_refuted)."
 },
 "C67": {
  "note": "Proved for signals without NaN; with NaN the result depends on the position of the samples (max_of_nan_refuted)."
 },
 "C68": {
  "note": "Sum and Mean proved; SumSquare, Norm and Variance add z^2 instead of |z|^2 (norm_refuted, variance_refuted; sum_square_partial says what they compute)."
 },
 "C73": {
  "note": "Proved with equally many zeros and poles (every designed filter); with fewer zeros than poles the realizations drop the delay of the missing zeros, so the phase is off by w per missing zero (C73_settles says by how much, missing_zeros_refuted)."
 },
 "C77": {
  "note": "Error bounds proved for every partition; bit-for-bit independence of the partition proved for blocks no longer than min(taps, 32) and false beyond (C77_long_blocks_differ), which the statement says."
 }
}