{
"C01": [
"IntervalModel",
"points of an interval as a predicate; case analysis and lia"
],
"C02": [
"IntervalModel",
"false of the code; exact characterisation of what == computes"
],
"C03": [
"RationalModel with type bound M",
"cross-multiplied values, gcd/lcm lemmas; totality up to overflow"
],
"C04": [
"RationalModel",
"comparison by common denominator against the order of Q (cross products)"
],
"C05": [
"RationalModel",
"truncating division; refuted for negative values"
],
"C06": [
"SignalModel",
"list algebra; FIFO theorem by induction over histories"
],
"C07": [
"SignalModel, views = offset+length in a memory",
"index arithmetic"
],
"C08": [
"KernelModel Transform, width W",
"loop invariant over batches and tail; aliasing"
],
"C09": [
"KernelModel Reduce/TransformReduce/InnerProduct",
"invariant over the 4-fold unrolled loop; permutation of a fold in a commutative monoid"
],
"C10": [
"KernelModel Kahan functor",
"compensation invariant = 0 in exact arithmetic"
],
"C11": [
"ConvModel, the four kernels",
"loop invariants against the zero-extended convolution sum"
],
"C12": [
"ConvModel with checked access",
"success theorem (= Ok)"
],
"C13": [
"ConvModel API",
"reindexing of the convolution sum"
],
"C14": [
"OlaModel over FftModel",
"circular convolution theorem, induction on chunks"
],
"C15": [
"OlaModel",
"log2/power arithmetic; derivative-free bounds on the real optimum"
],
"C16": [
"FftModel, Dft",
"orthogonality of roots of unity, sums over Z"
],
"C17": [
"FftModel",
"conjugate symmetry of the DFT"
],
"C18": [
"FftModel",
"rotation lemmas for odd and even lengths"
],
"C19": [
"FirModel",
"state = last inputs; induction over the list of blocks"
],
"C20": [
"IirModel DF-I state machine",
"simulation invariant against the difference equation"
],
"C21": [
"IirModel DF-II",
"change of variables; exact general relation"
],
"C22": [
"IirModel cascade",
"induction over sections; product of transfer functions"
],
"C23": [
"IirModel",
"fold over concatenated blocks; linearity/time invariance by simulation"
],
"C24": [
"PolyModel",
"Horner, induction on roots"
],
"C25": [
"PolyModel",
"partition/pairing of roots"
],
"C26": [
"SysModel",
"products over roots; sorted permutation"
],
"C27": [
"RootModel",
"field identities per root, product over roots"
],
"C28": [
"RootModel",
"as C27 with the bilinear map; gain and pad roots"
],
"C29": [
"RootModel",
"modulus inequalities; roots of the second-order map"
],
"C30": [
"RootModel Butterworth",
"trigonometric factorisation of 1+w^(2n)"
],
"C31": [
"PolyphaseModel",
"index arithmetic"
],
"C32": [
"PolyphaseModel Interpolate",
"sums over residue classes"
],
"C33": [
"PolyphaseModel",
"invariant of the suspension point"
],
"C34": [
"ResampleModel",
"exact rational positions; bounds by lia/nia"
],
"C35": [
"ResampleModel",
"suspension point invariant, induction over calls"
],
"C36": [
"PolyphaseModel",
"index arithmetic"
],
"C37": [
"FirBandModel",
"list and sum identities, frequency responses"
],
"C38": [
"FirBandModel",
"tapwise formula for the short and the blocked path"
],
"C39": [
"FirDesignModel",
"normalisation; positivity of the windowed sinc sum (Fejér–Jackson)"
],
"C40": [
"WindowModel",
"trigonometric identities; Chebyshev polynomials and DFT for Dolph–Chebyshev"
],
"C41": [
"WindowModel",
"field arithmetic"
],
"C42": [
"WindowModel",
"floor/fractional part lemmas"
],
"C43": [
"StatModel",
"sums over R; Cauchy–Schwarz"
],
"C44": [
"MeasureModel",
"scan refined by a two-threshold switch; induction on the scan"
],
"C45": [
"SolverModel",
"bracket invariant, intermediate value theorem"
],
"C46": [
"DescModel",
"record algebra"
],
"C47": [
"FftModel",
"rounding lemmas"
],
"C48": [
"SysModel",
"lengths"
],
"C49": [
"SysModel, IirModel",
"C20–C22 with C26"
],
"C50": [
"RootModel, IIR.hpp designs",
"C27–C30 composed; power response along the unit circle"
],
"C51": [
"ChebyModel",
"Chebyshev polynomials over C; composition as C50"
],
"C52": [
"ChebyModel",
"as C51"
],
"C53": [
"FirDesignModel",
"normal equations; least squares minimiser on symmetric taps"
],
"C54": [
"ResponseModel",
"DFT of the padded impulse; polar form"
],
"C55": [
"FunctionModel DotProduct",
"C09 and sums"
]
}