(** Model of include/dspbb/Math/Statistics.hpp for real signals.
    Arithmetic is exact (R); a division by zero (NaN or infinity in floating point) is reported as UB.
    W, vec: vector width and use of the vectorised kernels.  std::pow(x, y) is [Rpower] for x > 0; std::pow of an
    absolute value with a natural exponent is a product. *)
From Coq Require Import Reals.
From Verif Require Import Base Complex KernelModel PolyphaseModel WindowModel.
Open Scope Z_scope.

(** ** The functions over any number type
    [div], [root]: division and square root (which may be undefined); [ofsize] converts a size to a
    sample; [batch], [tail]: in which order the lanes of a batch and the remaining samples are added. *)
Section gStat.
Context {K : Type} (zero : K) (add sub mul : K -> K -> K) (div : K -> K -> outcome K) (root : K -> outcome K)
  (ofsize : Z -> K) (batch tail : list K -> K -> K) (W : Z) (vec : bool).
(* Statistics.hpp 16-20 *)
Definition gSum (signal : list K) : outcome K := ReduceWith batch tail W vec (Plain add) signal zero.
(* Statistics.hpp 23-27 *)
Definition gMean (signal : list K) : outcome K :=
  if negb (lenZ signal =? 0) then do s <- gSum signal; div s (ofsize (lenZ signal)) else Ok zero.
(* Statistics.hpp 31-40 *)
Definition gSumSquare (signal : list K) : outcome K :=
  TransformReduceWith batch tail W vec (Plain add) (fun a => mul a a) signal zero.
(* Statistics.hpp 43-47 *)
Definition gMeanSquare (signal : list K) : outcome K :=
  if negb (lenZ signal =? 0) then do s <- gSumSquare signal; div s (ofsize (lenZ signal)) else Ok zero.
(* Statistics.hpp 50-53 *)
Definition gRootMeanSquare (signal : list K) : outcome K := do s <- gMeanSquare signal; root s.
(* Statistics.hpp 55-58 *)
Definition gNorm (signal : list K) : outcome K := do s <- gSumSquare signal; root s.
(* Statistics.hpp 61-72, Kernels/Math.hpp 111-136; [choose]: the maximum or minimum of two samples (std::max and
   xsimd::max, taken to be the same function of two samples) *)
Definition gExtreme (choose : K -> K -> K) (signal : list K) : outcome K :=
  assert_ (negb (lenZ signal =? 0)) (do init <- rd signal 0; ReduceWith batch tail W vec (Plain choose) signal init).
(* Statistics.hpp 78-104, with an explicit mean; [absPow k d] is |d|^(k-1) *)
Definition gCentralMoment_mean (absPow : nat -> K -> K) (signal : list K) (k : nat) (mean : K) : outcome K :=
  let m2 a := let d := sub a mean in mul d d in
  let m3 a := let d := sub a mean in mul (mul d d) d in
  let m4 a := let d := sub a mean in mul (mul (mul d d) d) d in
  let mg a := let d := sub a mean in mul d (absPow k d) in
  let den := ofsize (lenZ signal) in
  let red f := do s <- TransformReduceWith batch tail W vec (Plain add) f signal zero; div s den in
  match k with
  | 0%nat => Ok zero
  | 1%nat => Ok zero
  | 2%nat => red m2
  | 3%nat => red m3
  | 4%nat => red m4
  | _ => red mg
  end.
(* Statistics.hpp 106-111 *)
Definition gCentralMoment absPow (signal : list K) (k : nat) : outcome K :=
  do mean <- gMean signal; gCentralMoment_mean absPow signal k mean.
(* Statistics.hpp 228-241 *)
Definition gCovariance_mean (a b : list K) (amean bmean : K) : outcome K :=
  assert_ (lenZ a =? lenZ b)
  (do s <- InnerProductWith batch tail W vec (Plain add) (fun a b => mul (sub a amean) (sub b bmean)) a b zero;
   div s (ofsize (lenZ a))).
(* Statistics.hpp 243-246 *)
Definition gCovariance (a b : list K) : outcome K :=
  do amean <- gMean a; do bmean <- gMean b; gCovariance_mean a b amean bmean.
End gStat.

(** ** Exact real arithmetic *)
Section Stat.
Variables (W : Z) (vec : bool).
Definition div_ (a b : R) : outcome R := if Req_EM_T b 0 then UB else Ok (a / b)%R.
(* Statistics.hpp 16-20: [Sum] in PolyphaseModel; 31-40: [SumSquare] in WindowModel *)
(** sums from left to right (the order does not matter in exact arithmetic) *)
Definition lanes : list R -> R -> R := batch_of (Plain Rplus).
Definition ltr : list R -> R -> R := fold_left Rplus.
(* Statistics.hpp 23-27 *)
Definition Mean : list R -> outcome R := gMean 0%R Rplus div_ IZR lanes ltr W vec.
(* Statistics.hpp 43-47 *)
Definition MeanSquare : list R -> outcome R := gMeanSquare 0%R Rplus Rmult div_ IZR lanes ltr W vec.
(* Statistics.hpp 50-53 *)
Definition RootMeanSquare : list R -> outcome R :=
  gRootMeanSquare 0%R Rplus Rmult div_ (fun x => Ok (sqrt x)) IZR lanes ltr W vec.
(* Statistics.hpp 55-58 *)
Definition Norm : list R -> outcome R := gNorm 0%R Rplus Rmult (fun x => Ok (sqrt x)) lanes ltr W vec.
(* Statistics.hpp 61-65 *)
Definition Max : list R -> outcome R := gExtreme (batch_of (Plain Rmax)) (fold_left Rmax) W vec Rmax.
(* Statistics.hpp 68-72 *)
Definition Min : list R -> outcome R := gExtreme (batch_of (Plain Rmin)) (fold_left Rmin) W vec Rmin.

(* Statistics.hpp 78-104, with an explicit mean *)
Definition CentralMoment_mean : list R -> nat -> R -> outcome R :=
  gCentralMoment_mean 0%R Rplus Rminus Rmult div_ IZR lanes ltr W vec (fun k d => (Rabs d ^ (k - 1))%R).
(* Statistics.hpp 106-111 *)
Definition CentralMoment (signal : list R) (k : nat) : outcome R := do mean <- Mean signal; CentralMoment_mean signal k mean.
(** std::pow(x, k / 2) for x >= 0 *)
Definition pow_half (x : R) (k : nat) : R := if Req_EM_T x 0 then (if (k =? 0)%nat then 1 else 0)%R else Rpower x (INR k / 2).
(* Statistics.hpp 113-117 *)
Definition StandardizedMoment_mean (signal : list R) (k : nat) (mean : R) : outcome R :=
  do variance <- CentralMoment_mean signal 2 mean;
  do m <- CentralMoment_mean signal k mean;
  div_ m (pow_half variance k).
(* Statistics.hpp 119-122 *)
Definition StandardizedMoment (signal : list R) (k : nat) : outcome R := do mean <- Mean signal; StandardizedMoment_mean signal k mean.
(* Statistics.hpp 130-133 *)
Definition StandardDeviation (signal : list R) : outcome R := do m <- CentralMoment signal 2; Ok (sqrt m).
(* Statistics.hpp 135-138 *)
Definition Variance (signal : list R) : outcome R := CentralMoment signal 2.
(* Statistics.hpp 140-143 *)
Definition Skewness (signal : list R) : outcome R := StandardizedMoment signal 3.
(* Statistics.hpp 145-148 *)
Definition Kurtosis (signal : list R) : outcome R := StandardizedMoment signal 4.
(* Statistics.hpp 150-168 *)
Definition StandardDeviation_mean (signal : list R) (mean : R) : outcome R := do m <- CentralMoment_mean signal 2 mean; Ok (sqrt m).
Definition Variance_mean (signal : list R) (mean : R) : outcome R := CentralMoment_mean signal 2 mean.
Definition Skewness_mean (signal : list R) (mean : R) : outcome R := StandardizedMoment_mean signal 3 mean.
Definition Kurtosis_mean (signal : list R) (mean : R) : outcome R := StandardizedMoment_mean signal 4 mean.
(* Statistics.hpp 170-176 *)
Definition CorrectedStandardDeviation (signal : list R) : outcome R :=
  let n := IZR (lenZ signal) in
  assert_ (2 <=? lenZ signal) (do m <- CentralMoment signal 2; do v <- div_ (m * n) (n - 1); Ok (sqrt v)).
(* Statistics.hpp 178-184 *)
Definition CorrectedVariance (signal : list R) : outcome R :=
  let n := IZR (lenZ signal) in
  assert_ (2 <=? lenZ signal) (do m <- CentralMoment signal 2; div_ (m * n) (n - 1)).
(* Statistics.hpp 186-200 *)
Definition CorrectedSkewness (signal : list R) : outcome R :=
  let n := IZR (lenZ signal) in
  assert_ (3 <=? lenZ signal)
  (do smean <- Mean signal;
   do m3 <- CentralMoment_mean signal 3 smean;
   do m2 <- CentralMoment_mean signal 2 smean;
   do c <- div_ (n * n) ((n - 2) * (n - 1));
   let S_ := (c * m3)%R in
   do c <- div_ n (n - 1);
   let sigma2_ := (c * m2)%R in
   div_ S_ (pow_half sigma2_ 3)).
(* Statistics.hpp 202-220 *)
Definition CorrectedKurtosis (signal : list R) : outcome R :=
  let n := IZR (lenZ signal) in
  assert_ (4 <=? lenZ signal)
  (do smean <- Mean signal;
   do m4 <- CentralMoment_mean signal 4 smean;
   do m2 <- CentralMoment_mean signal 2 smean;
   do c <- div_ (n - 1) (n * n * n);
   let Kx := (c * ((n * n - 3 * n + 3) * m4 + (6 * n - 9) * (m2 * m2)))%R in
   do c <- div_ (n - 1) n;
   let sigma2x := (c * m2)%R in
   do c <- div_ (n * n) ((n - 1) * (n - 1) * (n - 1) * (n * n - 3 * n + 3));
   let K_ := (c * ((n * (n - 1) * (n - 1) + (6 * n - 9)) * Kx - n * (6 * n - 9) * sigma2x * sigma2x))%R in
   do c <- div_ n (n - 1);
   let sigma2_ := (c * m2)%R in
   div_ K_ (pow_half sigma2_ 4)).

(* Statistics.hpp 228-241 *)
Definition Covariance_mean : list R -> list R -> R -> R -> outcome R :=
  gCovariance_mean 0%R Rplus Rminus Rmult div_ IZR lanes ltr W vec.
(* Statistics.hpp 243-246 *)
Definition Covariance (a b : list R) : outcome R := do amean <- Mean a; do bmean <- Mean b; Covariance_mean a b amean bmean.
(* Statistics.hpp 248-255 *)
Definition CorrectedCovariance (a b : list R) : outcome R :=
  assert_ (lenZ a =? lenZ b)
  (let n := IZR (lenZ a) in
   assert_ (2 <=? lenZ a) (do c <- div_ n (n - 1); do v <- Covariance a b; Ok (c * v)%R)).
(* Statistics.hpp 257-261 *)
Definition Correlation (a b : list R) : outcome R :=
  assert_ (lenZ a =? lenZ b)
  (do c <- Covariance a b; do sa <- StandardDeviation a; do sb <- StandardDeviation b; div_ c (sa * sb)).
End Stat.
