(** Model of Filtering/IIR/Chebyshev.hpp and of the Chebyshev designs of Filtering/IIR.hpp.
    Arithmetic is exact; the complex elementary functions are given by their real and
    imaginary parts. *)
From Coq Require Import Reals.
From Verif Require Import Base BaseFacts Complex ConvModel IirModel PolyModel SysModel RootModel.
Open Scope Z_scope.

(* std::cos(std::complex): cos(x + iy) = cos x cosh y - i sin x sinh y *)
Definition Ccos (z : C) : C := mkC (cos (re z) * cosh (im z)) (- (sin (re z) * sinh (im z))).
(* std::acos(std::complex) is only called on a point of the imaginary axis above zero:
   acos(iy) = pi/2 - i asinh(y) (principal value) *)
Definition Cacos_imag (y : R) : C := mkC (PI / 2) (- arcsinh y).
Definition Ci : C := mkC 0 1.

(* Chebyshev.hpp 12-17 *)
Definition Chebyshev1Pole (index order : Z) (epsilon : R) : C :=
  let theta := Cadd (Cmul (RtoC (1 / IZR order)) (Cacos_imag (1 / epsilon))) (RtoC (IZR index / IZR order * PI)) in
  Cmul Ci (Ccos theta).
(* 19-22 *)
Definition Chebyshev2Pole (index order : Z) (epsilon : R) : C := Cdiv C1 (Chebyshev1Pole index order epsilon).
(* 24-29; multiplying -i by the real cosine *)
Definition Chebyshev2Zero (index order : Z) : C :=
  Cdiv C1 (Cmul (Copp Ci) (RtoC (cos (PI / 2 * IZR (2 * index + 1) / IZR order)))).

(* 1u << n for a 32-bit unsigned int: undefined unless n < 32 *)
Definition shl1 (n : Z) : outcome Z := if (0 <=? n) && (n <? 32) then Ok (2 ^ n) else UB.
(* 34-52: Chebyshev1; order - 1 is a size_t *)
Definition Chebyshev1 (order : Z) (ripple : R) : outcome zpk :=
  let epsilon := sqrt (1 / (1 - ripple) ^ 2 - 1) in
  do sh <- shl1 (size_sub order 1);
  let g := (1 / (IZR sh * epsilon))%R in
  do p <- fp_resize empty_fp (order mod 2) (order / 2) 0%R C0;
  do cs <- for_ 0 (npairs p) 1 (fun index cs => wr cs index (Chebyshev1Pole index order epsilon)) (complex_pairs p);
  do rs <- for_ 0 (nreal p) 1 (fun k rs => wr rs k (re (Chebyshev1Pole (npairs p) order epsilon))) (real_roots p);
  Ok (mkZpk g empty_fp (mk_fp rs cs)).
(* 55-92: Chebyshev2; the vectors p and z are written but never read *)
Definition Chebyshev2 (order : Z) (ripple : R) : outcome zpk :=
  let epsilon := (ripple / sqrt (1 - ripple * ripple))%R in
  let g := if order mod 2 =? 0 then ripple else (epsilon * IZR order)%R in
  do p <- fp_resize empty_fp (order mod 2) (order / 2) 0%R C0;
  do z <- fp_resize empty_fp 0 (order / 2) 0%R C0;
  do cs <- for_ 0 (npairs p) 1 (fun index cs => wr cs index (Chebyshev2Pole index order epsilon)) (complex_pairs p);
  do rs <- for_ 0 (nreal p) 1 (fun k rs => wr rs k (re (Chebyshev2Pole (npairs p) order epsilon))) (real_roots p);
  do zs <- for_ 0 (npairs z) 1 (fun index zs => wr zs index (Chebyshev2Zero index order)) (complex_pairs z);
  Ok (mkZpk g (mk_fp (real_roots z) zs) (mk_fp rs cs)).

(* IIR.hpp 36-44 *)
Definition PrototypeChebyshev1 (order : Z) (ripple : R) : outcome zpk := do s <- Chebyshev1 order ripple; DiscretizePrototype s.
Definition PrototypeChebyshev2 (order : Z) (ripple : R) : outcome zpk := do s <- Chebyshev2 order ripple; DiscretizePrototype s.
(* IIR.hpp 90-118 *)
Definition DesignChebyshev1Lowpass (order : Z) (cutoff ripple : R) : outcome zpk :=
  do halfband <- PrototypeChebyshev1 order ripple; Halfband2Lowpass halfband cutoff.
Definition DesignChebyshev1Highpass (order : Z) (cutoff ripple : R) : outcome zpk :=
  do halfband <- PrototypeChebyshev1 order ripple; Halfband2Highpass halfband cutoff.
Definition DesignChebyshev1Bandpass (order : Z) (lower upper ripple : R) : outcome zpk :=
  assert_ (order mod 2 =? 0) (do halfband <- PrototypeChebyshev1 (order / 2) ripple; Halfband2Bandpass halfband lower upper).
Definition DesignChebyshev1Bandstop (order : Z) (lower upper ripple : R) : outcome zpk :=
  assert_ (order mod 2 =? 0) (do halfband <- PrototypeChebyshev1 (order / 2) ripple; Halfband2Bandstop halfband lower upper).
(* IIR.hpp 124-152 *)
Definition DesignChebyshev2Lowpass (order : Z) (cutoff ripple : R) : outcome zpk :=
  do halfband <- PrototypeChebyshev2 order ripple; Halfband2Lowpass halfband cutoff.
Definition DesignChebyshev2Highpass (order : Z) (cutoff ripple : R) : outcome zpk :=
  do halfband <- PrototypeChebyshev2 order ripple; Halfband2Highpass halfband cutoff.
Definition DesignChebyshev2Bandpass (order : Z) (lower upper ripple : R) : outcome zpk :=
  assert_ (order mod 2 =? 0) (do halfband <- PrototypeChebyshev2 (order / 2) ripple; Halfband2Bandpass halfband lower upper).
Definition DesignChebyshev2Bandstop (order : Z) (lower upper ripple : R) : outcome zpk :=
  assert_ (order mod 2 =? 0) (do halfband <- PrototypeChebyshev2 (order / 2) ripple; Halfband2Bandstop halfband lower upper).
