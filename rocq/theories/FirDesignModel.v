(** Model of include/dspbb/Filtering/FIR/Windowed.hpp, FIR/LeastSquares.hpp and FIR.hpp for real filters.
    Arithmetic is exact (R).  Divisions 0/0 whose NaN would reach the taps are reported as UB.
    W, vec: vector width and use of the vectorised kernels.  Eigen's CompleteOrthogonalDecomposition::solve is the
    parameter [solve] (matrix as a list of rows, right hand side). *)
From Coq Require Import Reals.
From Verif Require Import Base Complex KernelModel FirModel PolyphaseModel FftModel FirBandModel WindowModel.
Open Scope Z_scope.

Section Design.
Variables (W : Z) (vec : bool).
(** a descriptor's window: a function filling a signal, or a signal *)
Inductive window_arg := WindowFunc (f : list R -> outcome (list R)) | WindowSignal (w : list R).

(* T sinc = std::sin(x) / x *)
Definition sin_over (x : R) : outcome R := if Req_EM_T x 0 then UB else Ok (sin x / x)%R.
(* coefficients *= T(1) / T(Sum(coefficients)), Windowed.hpp 28 and 51 *)
Definition normalize_sum (coefficients : list R) : outcome (list R) :=
  do s <- Sum (K := Rring) W vec coefficients;
  if Req_EM_T s 0 then UB else mul_by W vec (1 / s) coefficients.
(* Windowed.hpp 13-29 *)
Definition KernelWindowedLowpass_func (coefficients : list R) (cutoffNorm : R) (windowFunc : list R -> outcome (list R)) : outcome (list R) :=
  assert_ (lenZ coefficients mod 2 =? 1)
  (let offset := IZR (lenZ coefficients / 2) in
   let scale := (cutoffNorm * PI)%R in
   let size := lenZ coefficients in
   do coefficients <- windowFunc coefficients;
   do coefficients <- for_ 0 (size / 2) 1 (fun i coefficients =>
     let x := ((IZR i - offset) * scale)%R in
     do sinc <- sin_over x;
     do c <- rd coefficients i;
     do coefficients <- wr coefficients i (c * sinc)%R;
     do c <- rd coefficients (size - i - 1);
     wr coefficients (size - i - 1) (c * sinc)%R) coefficients;
   normalize_sum coefficients).
(* Windowed.hpp 32-52 *)
Definition KernelWindowedLowpass_signal (coefficients : list R) (cutoffNorm : R) (window : list R) : outcome (list R) :=
  assert_ (lenZ coefficients mod 2 =? 1)
  (assert_ (lenZ coefficients =? lenZ window)
  (let offset := IZR (lenZ coefficients / 2) in
   let scale := (cutoffNorm * PI)%R in
   let size := lenZ coefficients in
   do coefficients <- for_ 0 (size / 2) 1 (fun i coefficients =>
     let x := ((IZR i - offset) * scale)%R in
     do sinc <- sin_over x;
     do coefficients <- wr coefficients i sinc;
     wr coefficients (size - i - 1) sinc) coefficients;
   do coefficients <- (if size mod 2 =? 1 then wr coefficients (size / 2) 1%R else Ok coefficients);
   do coefficients <- sig_sig_inplace W vec Rmult coefficients window;
   normalize_sum coefficients)).
Definition KernelWindowedLowpass (coefficients : list R) (cutoffNorm : R) (window : window_arg) : outcome (list R) :=
  match window with
  | WindowFunc f => KernelWindowedLowpass_func coefficients cutoffNorm f
  | WindowSignal w => KernelWindowedLowpass_signal coefficients cutoffNorm w
  end.

(* Windowed.hpp 61-65 and 79-83: the response sampled on n / 2 + 1 points and its inverse transform; the points are
   real, stored in a complex signal *)
Definition sampled_impulse (n : Z) (response : R -> C) : outcome (list R) :=
  do discreteResponse <- LinSpace W vec (zerosR (n / 2 + 1)) 0 1 true;
  let discreteResponse := map response discreteResponse in
  IfftHalf discreteResponse (n mod 2 =? 0).
(* Windowed.hpp 55-69; AsView(a).subsignal(o, n) *= AsView(b).subsignal(...) *)
Definition KernelWindowedArbitrary_func (out : list R) (response : R -> C) (windowFunc : list R -> outcome (list R)) : outcome (list R) :=
  assert_ (lenZ out mod 2 =? 1)
  (do impulse <- sampled_impulse (lenZ out) response;
   do out <- windowFunc out;
   do out <- on_window (K := R) out 0 (lenZ out / 2) (fun v =>
     do b <- slice impulse (lenZ impulse / 2 + 1) (lenZ impulse - (lenZ impulse / 2 + 1)); sig_sig_inplace W vec Rmult v b);
   on_window (K := R) out (lenZ out / 2) (lenZ out - lenZ out / 2) (fun v =>
     do b <- slice impulse 0 (lenZ impulse / 2 + 1); sig_sig_inplace W vec Rmult v b)).
(* Windowed.hpp 72-87 *)
Definition KernelWindowedArbitrary_signal (out : list R) (response : R -> C) (window : list R) : outcome (list R) :=
  assert_ (lenZ out mod 2 =? 1)
  (assert_ (lenZ out =? lenZ window)
  (do impulse <- sampled_impulse (lenZ out) response;
   do out <- on_window (K := R) out 0 (lenZ out / 2) (fun v =>
     do a <- slice impulse (lenZ impulse / 2 + 1) (lenZ impulse - (lenZ impulse / 2 + 1));
     do b <- slice window 0 (lenZ window / 2); sig_sig_into W vec Rmult v a b);
   on_window (K := R) out (lenZ out / 2) (lenZ out - lenZ out / 2) (fun v =>
     do a <- slice impulse 0 (lenZ impulse / 2 + 1);
     do b <- slice window (lenZ window / 2) (lenZ window - lenZ window / 2); sig_sig_into W vec Rmult v a b))).
Definition KernelWindowedArbitrary (out : list R) (response : R -> C) (window : window_arg) : outcome (list R) :=
  match window with
  | WindowFunc f => KernelWindowedArbitrary_func out response f
  | WindowSignal w => KernelWindowedArbitrary_signal out response w
  end.

(* FilterUtility.hpp 15-22 *)
Definition normalized (f : R) : bool := (if Rle_dec 0 f then true else false) && (if Rle_dec f 1 then true else false).
Definition check_normalized {A} (f : R) (k : outcome A) : outcome A := if normalized f then k else Throw DomainError.
(** ** FIR.hpp: DesignFilter.  The descriptors built inside check their parameters again (FIR/Descs.hpp). *)
(* FIR.hpp 20-23 *)
Definition DesignLowpass (out : list R) (cutoff : R) (window : window_arg) : outcome (list R) := KernelWindowedLowpass out cutoff window.
(* FIR.hpp 26-30 *)
Definition DesignHighpass (out : list R) (cutoff : R) (window : window_arg) : outcome (list R) :=
  check_normalized cutoff
  (do out <- DesignLowpass out cutoff window;
   ComplementaryResponse (K := Rring) W vec out None).
(* FIR.hpp 33-39 *)
Definition DesignBandpass (out : list R) (lower upper : R) (window : window_arg) : outcome (list R) :=
  let bandWidth := (upper - lower)%R in
  let bandCenter := ((upper + lower) / 2)%R in
  check_normalized (bandWidth / 2)
  (do out <- DesignLowpass out (bandWidth / 2) window;
   ShiftResponse W vec out None bandCenter).
(* FIR.hpp 42-46; ThrowIfNotSorted: FilterUtility.hpp 24-48 *)
Definition DesignBandstop (out : list R) (lower upper : R) (window : window_arg) : outcome (list R) :=
  check_normalized lower (check_normalized upper
  (if Rle_dec lower upper then
    do out <- DesignBandpass out lower upper window;
    ComplementaryResponse (K := Rring) W vec out None
   else Throw InvalidArgument)).
(* FIR.hpp 49-52 *)
Definition DesignArbitrary (out : list R) (response : R -> C) (window : window_arg) : outcome (list R) := KernelWindowedArbitrary out response window.
(* FIR.hpp 166-178; [scratch]: see HalfbandToHilbertEven *)
Definition FirFilterHilbert (scratch out : list R) (designHalfband : list R -> outcome (list R)) : outcome (list R) :=
  if lenZ out mod 2 =? 0 then
    let halfbandSize := lenZ out * 2 - 1 in
    if lenZ out =? 0 then UB (* out.size() * 2 - 1 wraps around *) else
    do halfband <- designHalfband (zerosR halfbandSize);
    HalfbandToHilbertEven (K := Rring) W vec scratch out halfband
  else
    do out <- designHalfband out;
    HalfbandToHilbertOdd (K := Rring) W vec out None.
(* FIR.hpp 182-186 *)
Definition DesignHilbert (scratch out : list R) (window : window_arg) : outcome (list R) :=
  FirFilterHilbert scratch out (fun h => DesignLowpass h (5 / 10) window).

(** ** Least squares *)
Variable solve : list (list R) -> list R -> list R.
(* LeastSquares.hpp 14-41 *)
Definition CoefficientMatrix (filterLength gridSize : Z) : outcome (list (list R)) :=
  if gridSize =? 1 then UB else
  let col := tab gridSize (fun i => IZR i * (1 / IZR (gridSize - 1) * PI))%R in
  let row := tab filterLength IZR in
  Ok (map (fun c => tab filterLength (fun j => if j =? 0 then 1 else 2 * cos (c * at0 (K := Rring) row j))%R) col).
(* LeastSquares.hpp 43-51: the diagonal *)
Definition WeightMatrix (gridSize : Z) (weight : R -> R) : outcome (list R) :=
  if gridSize =? 1 then UB else Ok (tab gridSize (fun i => weight (IZR i / IZR (gridSize - 1))%R)).
(* LeastSquares.hpp 53-65 *)
Definition ResponseVector (gridSize : Z) (response : R -> R) : outcome (list R) :=
  if gridSize =? 1 then UB else Ok (tab gridSize (fun i => response (IZR i * (1 / IZR (gridSize - 1)))%R)).
(* LeastSquares.hpp 70-88 *)
Definition KernelLeastSquares (coefficients : list R) (responseFunc weightFunc : R -> R) (gridSize : Z) : outcome (list R) :=
  let filterLength := (lenZ coefficients + 1) / 2 in
  let gridSize := if gridSize =? 0 then 4 * filterLength else Z.min filterLength gridSize in
  do coefficientMatrix <- CoefficientMatrix filterLength gridSize;
  do weightMatrix <- WeightMatrix gridSize weightFunc;
  do responseVector <- ResponseVector gridSize responseFunc;
  let halfFilter := solve (map2 (fun w row => map (Rmult w) row) weightMatrix coefficientMatrix) (map2 Rmult weightMatrix responseVector) in
  for_ 0 filterLength 1 (fun i coefficients =>
    do h <- rd halfFilter (filterLength - i - 1);
    do coefficients <- wr coefficients i h;
    do h <- rd halfFilter i;
    wr coefficients (i + filterLength - 1) h) coefficients.
End Design.

(* FIR.hpp 60-64 *)
Definition Smoothstep (x : R) : R := let c := Rmin (Rmax x 0) 1 in (3 * c * c - 2 * c * c * c)%R.
(* FIR.hpp 66-69 *)
Definition LerpParam (x lower upper : R) : R := ((x - lower) / (upper - lower))%R.
(** parameters of the least squares descriptors, FIR/Descs.hpp *)
Record split_ls := { cutoffBegin : R; cutoffEnd : R; weightLow : R; weightTransition : R; weightHigh : R; grid : Z }.
Record band_ls := { lowerBegin : R; lowerEnd : R; upperBegin : R; upperEnd : R;
  bweightLow : R; weightTransition1 : R; weightMid : R; weightTransition2 : R; bweightHigh : R; bgrid : Z }.
(* FIR.hpp 71-80 *)
Definition LeastSquaresSplitWeight (frequency : R) (desc : split_ls) : R :=
  if Rle_dec frequency (cutoffBegin desc) then weightLow desc
  else if Rle_dec frequency (cutoffEnd desc) then weightTransition desc
  else weightHigh desc.
(* FIR.hpp 82-97 *)
Definition LeastSquaresBandWeight (frequency : R) (desc : band_ls) : R :=
  if Rle_dec frequency (lowerBegin desc) then bweightLow desc
  else if Rle_dec frequency (lowerEnd desc) then weightTransition1 desc
  else if Rle_dec frequency (upperBegin desc) then weightMid desc
  else if Rle_dec frequency (upperEnd desc) then weightTransition2 desc
  else bweightHigh desc.
Section DesignLS.
Variable solve : list (list R) -> list R -> list R.
(* FIR.hpp 102-105 *)
Definition lowpass_response (desc : split_ls) (f : R) : R := Smoothstep (LerpParam f (cutoffEnd desc) (cutoffBegin desc)).
(* FIR.hpp 114-117 *)
Definition highpass_response (desc : split_ls) (f : R) : R := Smoothstep (LerpParam f (cutoffBegin desc) (cutoffEnd desc)).
(* FIR.hpp 126-131 *)
Definition bandpass_response (desc : band_ls) (f : R) : R :=
  let fmid := ((lowerEnd desc + upperBegin desc) / 2)%R in
  if Rlt_dec f fmid then Smoothstep (LerpParam f (lowerBegin desc) (lowerEnd desc))
  else Smoothstep (LerpParam f (upperEnd desc) (upperBegin desc)).
(* FIR.hpp 140-145 *)
Definition bandstop_response (desc : band_ls) (f : R) : R :=
  let fmid := ((lowerEnd desc + upperBegin desc) / 2)%R in
  if Rlt_dec f fmid then Smoothstep (LerpParam f (lowerEnd desc) (lowerBegin desc))
  else Smoothstep (LerpParam f (upperBegin desc) (upperEnd desc)).
(* FIR.hpp 100-110 *)
Definition DesignLowpassLS (out : list R) (desc : split_ls) := KernelLeastSquares solve out (lowpass_response desc) (fun f => LeastSquaresSplitWeight f desc) (grid desc).
(* FIR.hpp 112-122 *)
Definition DesignHighpassLS (out : list R) (desc : split_ls) := KernelLeastSquares solve out (highpass_response desc) (fun f => LeastSquaresSplitWeight f desc) (grid desc).
(* FIR.hpp 124-136 *)
Definition DesignBandpassLS (out : list R) (desc : band_ls) := KernelLeastSquares solve out (bandpass_response desc) (fun f => LeastSquaresBandWeight f desc) (bgrid desc).
(* FIR.hpp 138-150 *)
Definition DesignBandstopLS (out : list R) (desc : band_ls) := KernelLeastSquares solve out (bandstop_response desc) (fun f => LeastSquaresBandWeight f desc) (bgrid desc).
(* FIR.hpp 152-157 *)
Definition DesignArbitraryLS (out : list R) (response weight : R -> R) (grid : Z) := KernelLeastSquares solve out response weight grid.
(* FIR.hpp 188-193; Cutoff: FIR/Descs.hpp 137-142 *)
Definition DesignHilbertLS (W : Z) (vec : bool) (scratch out : list R) (transitionWidth transitionWeight : R) (_grid : Z (* not used *)) : outcome (list R) :=
  let lo := (5 / 10 - transitionWidth)%R in let hi := (5 / 10 + transitionWidth)%R in
  check_normalized lo (check_normalized hi (if Rle_dec lo hi then
    FirFilterHilbert W vec scratch out (fun h => DesignLowpassLS h
      {| cutoffBegin := lo; cutoffEnd := hi; weightLow := 1; weightTransition := transitionWeight; weightHigh := 1; grid := 0 |})
  else Throw InvalidArgument)).
End DesignLS.
