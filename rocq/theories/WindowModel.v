(** Model of include/dspbb/Generators/Spaces.hpp, Filtering/Windowing.hpp and Generators/Waveforms.hpp for real signals.
    Arithmetic is exact (R); floating point constants such as 0.46 are the decimal numbers.  Where the floating point
    code divides by zero and the NaN or infinity reaches the result, the model reports UB.
    W, vec: vector width and use of the vectorised kernels in the signal operators (KernelModel).
    std::cyl_bessel_i(0, .) is a parameter [bessel_i0]. *)
From Coq Require Import Reals.
From Verif Require Import Base Complex KernelModel FftModel PolyphaseModel.
Open Scope Z_scope.

Section Windows.
Variables (W : Z) (vec : bool).
(* Math/Functions.hpp 14-18 with out == in: NAME(out, out) *)
Definition unary_inplace (f : R -> R) (out : list R) : outcome (list R) := Transform1 W vec out (Self 0) 0 (lenZ out) f.
(* <algorithm> std::for_each(begin, end, [](R& k) { k = f(k); }) *)
Definition for_each (f : R -> R) (out : list R) : outcome (list R) :=
  for_ 0 (lenZ out) 1 (fun i out => do k <- rd out i; wr out i (f k)) out.
Definition mul_by (c : R) (out : list R) : outcome (list R) := sig_scalar_inplace W vec Rmult out c.
Definition add_to (c : R) (out : list R) : outcome (list R) := sig_scalar_inplace W vec Rplus out c.
Definition sub_from (c : R) (out : list R) : outcome (list R) := sig_scalar_inplace W vec Rminus out c.

(* Spaces.hpp 13-28 *)
Definition LinSpace (output : list R) (start end_ : R) (inclusive : bool) : outcome (list R) :=
  let count := lenZ output in
  do output <- for_ 0 count 1 (fun i output => wr output i (IZR i)) output;
  let scale := ((end_ - start) / IZR (Z.max 1 (count - (if inclusive then 1 else 0))))%R in
  do output <- mul_by scale output;
  add_to start output.
(* Spaces.hpp 37-46 *)
Definition LogSpace (output : list R) (start end_ base : R) (inclusive : bool) : outcome (list R) :=
  do output <- LinSpace output start end_ inclusive;
  do output <- mul_by (ln base) output;
  unary_inplace exp output.

(* Windowing.hpp 19-22; Statistics.hpp 17-20 (Sum) *)
Definition CoherentGain (window : list R) : outcome R :=
  do s <- Sum (K := Rring) W vec window;
  if lenZ window =? 0 then UB else Ok (s / IZR (lenZ window))%R.
(* Statistics.hpp 30-39 *)
Definition SumSquare (signal : list R) : outcome R := TransformReduce W vec (Plain Rplus) (fun a => (a * a)%R) signal 0%R.
(* Windowing.hpp 29-32 *)
Definition EnergyGain (window : list R) : outcome R :=
  do s <- SumSquare window;
  if lenZ window =? 0 then UB else Ok (s / IZR (lenZ window))%R.

(* Windowing.hpp 43-52 *)
Definition HammingWindow (out : list R) : outcome (list R) :=
  do out <- LinSpace out 0 (2 * PI) true;
  do out <- unary_inplace cos out;
  do out <- mul_by (- (46 / 100)) out;
  add_to (54 / 100) out.
(* Windowing.hpp 54-80 *)
Definition FlatTopWindow (out : list R) : outcome (list R) :=
  if lenZ out =? 1 then UB else
  let N := IZR (lenZ out) in
  let preSize1 := (2 * PI / (N - 1))%R in
  let preSize2 := (4 * PI / (N - 1))%R in
  let preSize3 := (6 * PI / (N - 1))%R in
  let preSize4 := (8 * PI / (N - 1))%R in
  do out <- LinSpace out 0 (N - 1) true;
  for_each (fun k => 21557895 / 100000000 + - (41663158 / 100000000) * cos (preSize1 * k) + 277263158 / 1000000000 * cos (preSize2 * k)
                     + - (83578947 / 1000000000) * cos (preSize3 * k) + 6947368 / 1000000000 * cos (preSize4 * k))%R out.
(* Windowing.hpp 82-87 *)
Definition RectangularWindow (out : list R) : outcome (list R) := for_each (fun _ => 1%R) out.
(* Windowing.hpp 89-98 *)
Definition TriangularWindow (out : list R) : outcome (list R) :=
  do out <- LinSpace out 0 2 true;
  do out <- sub_from 1 out;
  do out <- unary_inplace Rabs out;
  do out <- mul_by (-1) out;
  add_to 1 out.
(* Windowing.hpp 100-109 *)
Definition BlackmanWindow (out : list R) : outcome (list R) :=
  do out <- LinSpace out 0 (2 * PI) true;
  for_each (fun k => 42 / 100 - 5 / 10 * cos k + 8 / 100 * cos (2 * k))%R out.
(* Windowing.hpp 111-120 *)
Definition BlackmanHarrisWindow (out : list R) : outcome (list R) :=
  do out <- LinSpace out 0 (2 * PI) true;
  for_each (fun k => 35875 / 100000 - 48829 / 100000 * cos k + 14128 / 100000 * cos (2 * k) + - (1168 / 100000) * cos (3 * k))%R out.
(* Windowing.hpp 122-134; Multiply(out, out, out) *)
Definition GaussianWindow (out : list R) (sigma : R) : outcome (list R) :=
  let N := IZR (lenZ out) in
  let M := ((N - 1) / 2)%R in
  do out <- LinSpace out (- M) M true;
  if Req_EM_T (sigma * M) 0 then UB else
  do out <- mul_by (1 / (sigma * M)) out;
  do out <- sig_self_inplace W vec Rmult out;
  do out <- mul_by (- (5 / 10)) out;
  unary_inplace exp out.
(* Windowing.hpp 136-147 *)
Definition KaiserWindow (bessel_i0 : R -> R) (out : list R) (alpha : R) : outcome (list R) :=
  do out <- LinSpace out (-1) 1 true;
  for_each (fun k =>
    let piAlpha := (PI * alpha)%R in
    let arg := sqrt (Rmax 0 (1 - k * k)) in
    bessel_i0 (piAlpha * arg) / bessel_i0 piAlpha)%R out.
(* Windowing.hpp 149-158 *)
Definition LanczosWindow (out : list R) : outcome (list R) :=
  do out <- LinSpace out (- PI) PI true;
  for_each (fun k => if Req_EM_T k 0 then 1 else sin k / k)%R out.

(* Windowing.hpp 160-172: impl::ChebyshevPoly; std::acosh(y) is ln (y + sqrt (y^2 - 1)) *)
Definition acosh (y : R) : R := ln (y + sqrt (y * y - 1)).
Definition ChebyshevPoly (n : Z) (x : R) : R :=
  let tn := IZR n in
  let sign := if n mod 2 =? 0 then 1%R else (-1)%R in
  if Rlt_dec x (-1) then (sign * cosh (tn * acosh (- x)))%R
  else if Rle_dec x 1 then cos (tn * acos x)
  else cosh (tn * acosh x).
(** LinSpace on a complex signal, as used by DolphChebyshevWindow: real values, embedded *)
(* Windowing.hpp 174-198; sizes 0 (M wraps around) and 1 (division by zero) are reported as UB *)
Definition DolphChebyshevWindow (out : list R) (attenuation : R) : outcome (list R) :=
  if lenZ out <? 2 then UB else
  let M := lenZ out - 1 in
  let beta := cosh (1 / IZR M * acosh (1 / attenuation))%R in
  let size := lenZ out / 2 + 1 in
  do grid <- LinSpace (zerosR size) 0 (PI * (IZR (size - 1) / IZR (lenZ out))) true;
  let spectrum := map (fun k =>
    let phase := cis (k * IZR (M mod 2)) in
    let amplitude := ChebyshevPoly M (beta * cos k) in
    Cmul phase (RtoC amplitude)) grid in
  do out <- IfftRealInto out spectrum;
  do out <- FftShiftInto out None;
  do normalization <- TransformReduce W vec (Plain Rmax) Rabs out 0%R;
  if Req_EM_T normalization 0 then UB else mul_by (1 / normalization) out.

(** a new signal of the given length: BasicSignal<T, Domain> window(length); X(AsView(window)); Windowing.hpp 212-290 *)
Definition fresh (f : list R -> outcome (list R)) (length : Z) : outcome (list R) := f (zerosR length).

(** ** Waveforms.hpp *)
(* Waveforms.hpp 16-28 *)
Definition GenericWave (output : list R) (sampleRate : Z) (frequency phase : R) (waveFunc : R -> R) : outcome (list R) :=
  for_ 0 (lenZ output) 1 (fun idx output =>
    if sampleRate =? 0 then UB else
    let time := (IZR idx / IZR sampleRate)%R in
    let totalPhase := (2 * PI * time * frequency + phase)%R in
    wr output idx (waveFunc totalPhase)) output.
(* Waveforms.hpp 30-44 *)
Definition GenericChirp (output : list R) (sampleRate : Z) (startFrequency endFrequency phase : R) (waveFunc : R -> R) : outcome (list R) :=
  let length := (IZR (lenZ output) / IZR sampleRate)%R in
  for_ 0 (lenZ output) 1 (fun idx output =>
    if sampleRate =? 0 then UB else
    let time := (IZR idx / IZR sampleRate)%R in
    let totalPhase := (2 * PI * (time * startFrequency + time * time / 2 * (endFrequency - startFrequency) / length) + phase)%R in
    wr output idx (waveFunc totalPhase)) output.
(* <cmath> modf: the fractional part, rounding the integral part towards zero *)
Definition modf (x : R) : R := if Rle_dec 0 x then (x - IZR (Int_part x))%R else (- (- x - IZR (Int_part (- x))))%R.
(* std::numeric_limits<double>::denorm_min() *)
Definition denorm_min : R := (/ 2 ^ 1074)%R.
(* Waveforms.hpp 46-54 *)
Definition Sawtooth (phase tilt : R) : R :=
  let pi2 := (2 * PI)%R in
  let unitPhase := modf (phase / pi2) in
  let length := if Rlt_dec tilt unitPhase then (1 - tilt)%R else (tilt + denorm_min)%R in
  let distance := Rabs (unitPhase - tilt) in
  let value := (1 - distance / length)%R in
  (2 * value - 1)%R.
(* Waveforms.hpp 56-61 *)
Definition Pwm (phase fill : R) : R :=
  let pi2 := (2 * PI)%R in
  let unitPhase := modf (phase / pi2) in
  if Rlt_dec unitPhase fill then 1%R else if Rle_dec 1 fill then 1%R else 0%R.
(* Waveforms.hpp 69-72 *)
Definition SineWave (output : list R) (sampleRate : Z) (frequency phase : R) := GenericWave output sampleRate frequency phase sin.
(* Waveforms.hpp 82-85 *)
Definition SawtoothWave (output : list R) (sampleRate : Z) (frequency phase tilt : R) := GenericWave output sampleRate frequency phase (fun arg => Sawtooth arg tilt).
(* Waveforms.hpp 95-98 *)
Definition PwmWave (output : list R) (sampleRate : Z) (frequency phase fill : R) := GenericWave output sampleRate frequency phase (fun arg => Pwm arg fill).
(* Waveforms.hpp 108-114 *)
Definition SquareWave (output : list R) (sampleRate : Z) (frequency phase : R) : outcome (list R) :=
  do output <- GenericWave output sampleRate frequency phase (fun arg => Pwm arg (5 / 10));
  do output <- mul_by 2 output;
  sub_from 1 output.
(* Waveforms.hpp 128-131 *)
Definition SineChirp (output : list R) (sampleRate : Z) (startFrequency endFrequency phase : R) := GenericChirp output sampleRate startFrequency endFrequency phase sin.
(* Waveforms.hpp 141-144 *)
Definition SawtoothChirp (output : list R) (sampleRate : Z) (startFrequency endFrequency phase tilt : R) :=
  GenericChirp output sampleRate startFrequency endFrequency phase (fun arg => Sawtooth arg tilt).
(* Waveforms.hpp 154-157 *)
Definition PwmChirp (output : list R) (sampleRate : Z) (startFrequency endFrequency phase fill : R) :=
  GenericChirp output sampleRate startFrequency endFrequency phase (fun arg => Pwm arg fill).
(* Waveforms.hpp 167-173 *)
Definition SquareChirp (output : list R) (sampleRate : Z) (startFrequency endFrequency phase : R) : outcome (list R) :=
  do output <- GenericChirp output sampleRate startFrequency endFrequency phase (fun arg => Pwm arg (5 / 10));
  do output <- mul_by 2 output;
  sub_from 1 output.
End Windows.
