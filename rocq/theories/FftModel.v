(** Model of include/dspbb/Math/FFT.hpp (all of it).

    std::complex<T> is [C] (exact complex numbers), T is R.  The bundled third-party library
    PocketFFT is represented by its documented specification ([pocket_*] below); its
    algorithms are not modelled.  Signals and spectra are lists; each function takes the
    output array [out] (its old contents matter, PocketFFT may leave part of it unwritten)
    and returns the new one. *)
From Coq Require Import Reals.
From Verif Require Import Base Complex.
Open Scope Z_scope.

(** e^{-2 pi i jk/n}: [wroot n (j * k)] *)

(* PocketFFT/pocketfft_hdronly.h c2c(FORWARD, fct 1): specification *)
Definition pocket_c2c_forward (n : Z) (x : list C) : list C :=
  tab n (fun k => sumZ (K := Cring) 0 n (fun j => Cmul (at0 (K := Cring) x j) (wroot n (j * k)))).
(* PocketFFT/pocketfft_hdronly.h c2c(BACKWARD, fct): specification *)
Definition pocket_c2c_backward (n : Z) (X : list C) (fct : R) : list C :=
  tab n (fun j => Cmul (RtoC fct) (sumZ (K := Cring) 0 n (fun k => Cmul (at0 (K := Cring) X k) (wroot n (- (j * k)))))).
(* PocketFFT/pocketfft_hdronly.h r2c(FORWARD, fct 1): writes the first n/2+1 bins only; specification *)
Definition pocket_r2c (n : Z) (x : list R) : list C :=
  tab (n / 2 + 1) (fun k => sumZ (K := Cring) 0 n (fun j => Cmul (RtoC (at0 (K := Rring) x j)) (wroot n (j * k)))).
(* PocketFFT/pocketfft_hdronly.h c2r(BACKWARD, fct): reads the first n/2+1 bins only, takes the real
   part of bin 0 and (n even) of bin n/2, and every other bin also stands for its mirror image; specification *)
Definition pocket_c2r (n : Z) (X : list C) (fct : R) : list R :=
  tab n (fun j =>
    Rmult fct
      (Rplus (Rplus (re (at0 (K := Cring) X 0))
        (sumZ (K := Rring) 1 ((n + 1) / 2) (fun k => Rmult 2 (re (Cmul (at0 (K := Cring) X k) (wroot n (- (j * k))))))))
        (if Z.even n then re (Cmul (at0 (K := Cring) X (n / 2)) (wroot n (- (j * (n / 2))))) else 0%R))).

(* <algorithm> std::reverse_copy(first, last, dest) within one array, as the index loop it specifies *)
Definition reverse_copy (out : list C) (first last dest : Z) : outcome (list C) :=
  for_ 0 (last - first) 1 (fun i out => do x <- rd out (last - 1 - i); wr out (dest + i) x) out.
(* Math/Functions.hpp Conj(out, in) over [first, last) of one array, out == in *)
Definition conj_range (out : list C) (first last : Z) : outcome (list C) :=
  for_ first last 1 (fun i out => do x <- rd out i; wr out i (Cconj x)) out.

(* FFT.hpp 23-42; a transform of length 0 does nothing (PocketFFT returns at once) *)
Definition FftRealInto (out : list C) (inp : list R) : outcome (list C) :=
  let halfSize := lenZ inp / 2 + 1 in
  let fullSize := lenZ inp in
  assert_ ((lenZ out =? halfSize) || (lenZ out =? fullSize))
  (do out <- (if fullSize =? 0 then Ok out else wrs out 0 (pocket_r2c fullSize inp));
   if (lenZ out =? fullSize) && (2 <? fullSize) then
     let first := 1 in
     let last := (fullSize + 1) / 2 in
     let dest := fullSize / 2 + 1 in
     do out <- reverse_copy out first last dest;
     conj_range out dest (lenZ out)
   else Ok out).
(* FFT.hpp 44-52 *)
Definition FftComplexInto (out : list C) (inp : list C) : outcome (list C) :=
  assert_ (lenZ out =? lenZ inp)
  (if lenZ inp =? 0 then Ok out else wrs out 0 (pocket_c2c_forward (lenZ inp) inp)).
(* FFT.hpp 54-64 *)
Definition IfftRealInto (out : list R) (inp : list C) : outcome (list R) :=
  let halfSize := lenZ out / 2 + 1 in
  let fullSize := lenZ out in
  assert_ ((lenZ inp =? halfSize) || (lenZ inp =? fullSize))
  (if fullSize =? 0 then Ok out
   else do _ <- slice inp 0 halfSize;   (* c2r reads that many bins *)
        wrs out 0 (pocket_c2r fullSize inp (1 / IZR fullSize))).
(* FFT.hpp 66-74 *)
Definition IfftComplexInto (out : list C) (inp : list C) : outcome (list C) :=
  assert_ (lenZ out =? lenZ inp)
  (if lenZ inp =? 0 then Ok out else wrs out 0 (pocket_c2c_backward (lenZ out) inp (1 / IZR (lenZ out)))).

(** a value-initialised BasicSignal of the given size *)
Definition zerosC (n : Z) : list C := repeat C0 (Z.to_nat n).
Definition zerosR (n : Z) : list R := repeat 0%R (Z.to_nat n).
(* FFT.hpp 77-83 *)
Definition FftFull (inp : list R) : outcome (list C) := FftRealInto (zerosC (lenZ inp)) inp.
(* FFT.hpp 85-91 *)
Definition FftHalf (inp : list R) : outcome (list C) := FftRealInto (zerosC (lenZ inp / 2 + 1)) inp.
(* FFT.hpp 93-100 *)
Definition FftComplex (inp : list C) : outcome (list C) := FftComplexInto (zerosC (lenZ inp)) inp.
(* FFT.hpp 102-109; in.size() * 2 - 2 wraps around for an empty spectrum, and allocating
   that many samples fails: reported as UB *)
Definition IfftHalf (inp : list C) (even : bool) : outcome (list R) :=
  let halfSizeEven := lenZ inp * 2 - 2 in
  let halfSizeOdd := lenZ inp * 2 - 1 in
  let n := if even then halfSizeEven else halfSizeOdd in
  assert_ (0 <=? n) (IfftRealInto (zerosR n) inp).
(* FFT.hpp 111-117 *)
Definition IfftFull (inp : list C) : outcome (list R) := IfftRealInto (zerosR (lenZ inp)) inp.
(* FFT.hpp 119-125 *)
Definition IfftComplex (inp : list C) : outcome (list C) := IfftComplexInto (zerosC (lenZ inp)) inp.

(** ** Shifts *)
(* <algorithm> std::rotate(first, mid, last) on a whole array, as specified: the elements from
   mid on come first; mid must lie in [first, last] *)
Definition std_rotate {A} (l : list A) (mid : Z) : outcome (list A) :=
  if (0 <=? mid) && (mid <=? lenZ l)
  then Ok (skipn (Z.to_nat mid) l ++ firstn (Z.to_nat mid) l) else UB.
(* <algorithm> std::rotate_copy(first, mid, last, write): as two copies into [out] *)
Definition std_rotate_copy {A} (out inp : list A) (mid : Z) : outcome (list A) :=
  do a <- slice inp mid (lenZ inp - mid);
  do b <- slice inp 0 mid;
  do out <- wrs out 0 a;
  wrs out (lenZ a) b.
(* FFT.hpp 192-208: [None]: out is the very object in; [Some inp]: in is another array *)
Definition BasicShift {A} (out : list A) (inp : option (list A)) (shift : Z) : outcome (list A) :=
  match inp with
  | None => std_rotate out shift
  | Some inp => assert_ (lenZ out =? lenZ inp) (std_rotate_copy out inp shift)
  end.
(* FFT.hpp 211-215 *)
Definition FftShiftInto {A} (out : list A) (inp : option (list A)) : outcome (list A) :=
  let shift := (1 + lenZ out) / 2 in BasicShift out inp shift.
(* FFT.hpp 217-222; [d]: the value-initialised sample *)
Definition FftShift {A} (d : A) (inp : list A) : outcome (list A) :=
  FftShiftInto (repeat d (length inp)) (Some inp).
(* FFT.hpp 224-228 *)
Definition IfftShiftInto {A} (out : list A) (inp : option (list A)) : outcome (list A) :=
  let shift := lenZ out / 2 in BasicShift out inp shift.
(* FFT.hpp 230-235 *)
Definition IfftShift {A} (d : A) (inp : list A) : outcome (list A) :=
  IfftShiftInto (repeat d (length inp)) (Some inp).

(** ** Bins *)
(* FFT.hpp 183-185 *)
Definition FourierBin2Frequency (binIdx numBins sampleRate : Z) : R :=
  (IZR binIdx / IZR numBins * IZR sampleRate)%R.
(* FFT.hpp 187-189: conversion to size_t truncates; for a nonnegative value that is the floor *)
Definition FourierFrequency2Bin (frequency : R) (numBins sampleRate : Z) : Z :=
  Int_part (frequency / IZR sampleRate * IZR numBins + 1 / 2)%R.
