(** Model of include/dspbb/Math/Functions.hpp (all of it), Math/DotProduct.hpp (all of it) and MeasureFilter.hpp 438-507
    (FrequencyResponse).
    Simplifications: exact arithmetic; an elementary function is passed as a function on exact numbers, its scalar (std) and
    batch (xsimd) variants agree and act lane by lane; W, vec: vector width and use of the vectorised kernel. *)
From Coq Require Import Reals.
From Verif Require Import Base KernelModel Complex ConvModel FftModel IirModel PolyModel SysModel WindowModel.
Open Scope Z_scope.

(* Numeric.hpp 101-127: unary Transform with different element types, output in another array *)
Definition TransformTo {A B : Type} (W : Z) (vec : bool) (out : list B) (inp : list A) (f : A -> B) : outcome (list B) :=
  let count := lenZ inp in
  let vectorLast := if vec then (count / W) * W else 0 in
  do out <- (if vec
             then for_ 0 vectorLast W (fun i out => do v <- slice inp i W; wrs out i (map f v)) out
             else Ok out);
  for_ vectorLast count 1 (fun i out => do x <- rd inp i; wr out i (f x)) out.

(* Functions.hpp 14-18 (NAME(out, in)) and 58-61 (Pow(out, in, power), with f v = pow(v, power)).
   There is no check of the sizes.  [inp] is None when in is the output signal itself. *)
Definition apply_into {A : Type} (W : Z) (vec : bool) (f : A -> A) (out : list A) (inp : option (list A)) : outcome (list A) :=
  match inp with Some l => TransformTo W vec out l f | None => Transform1 W vec out (Self 0) 0 (lenZ out) f end.
(* Functions.hpp 20-28 (NAME(signal)), 62-67 (Pow(signal, power)); [d] is the value-initialised sample *)
Definition apply {A B : Type} (W : Z) (vec : bool) (f : A -> B) (d : B) (inp : list A) : outcome (list B) :=
  TransformTo W vec (repeat d (length inp)) inp f.

(** the complex number functions of Functions.hpp 38-42 *)
(* std::arg; the quadrant is decided by the sign of the imaginary part; arg(0) = 0 *)
Definition Carg (z : C) : R :=
  if Req_EM_T (Cabs z) 0 then 0%R else if Rlt_dec (im z) 0 then (- acos (re z / Cabs z))%R else acos (re z / Cabs z).
Definition Abs W vec (s : list C) := apply W vec Cabs 0%R s.
Definition Arg W vec (s : list C) := apply W vec Carg 0%R s.
Definition Real W vec (s : list C) := apply W vec re 0%R s.
Definition Imag W vec (s : list C) := apply W vec im 0%R s.
Definition Conj W vec (s : list C) := apply W vec Cconj C0 s.

(* DotProduct.hpp 16-42: [mulconj] x y is x * y if the second signal is real, x * conj(y) if it is complex *)
Definition DotProductBy {A B : Type} {K : CRing} (W : Z) (vec : bool) (mulconj : A -> B -> K) (a : list A) (b : list B) : outcome K :=
  assert_ (lenZ a =? lenZ b) (InnerProduct W vec (Plain radd) mulconj a b r0).
Definition DotProductRR W vec (a b : list R) : outcome R := DotProductBy (K := Rring) W vec Rmult a b.
Definition DotProductCC W vec (a b : list C) : outcome C := DotProductBy (K := Cring) W vec (fun x y => Cmul x (Cconj y)) a b.
Definition DotProductRC W vec (a : list R) (b : list C) : outcome C := DotProductBy (K := Cring) W vec (fun x y => Cmul (RtoC x) (Cconj y)) a b.
Definition DotProductCR W vec (a : list C) (b : list R) : outcome C := DotProductBy (K := Cring) W vec (fun x y => Cmul x (RtoC y)) a b.

(* MeasureFilter.hpp 439-441; size_t arithmetic *)
Definition FrequencyResponseFftSize (impulseSize desiredGridSize : Z) : Z := Z.max impulseSize ((2 * desiredGridSize - 1) mod 2 ^ 64).
(* std::replace(begin, end, {0}, {1}) *)
Definition replace_zero (s : list C) : list C := map (fun z => if Req_EM_T (re z) 0 then if Req_EM_T (im z) 0 then C1 else z else z) s.
(* MeasureFilter.hpp 445-458: amplitude and phase; constructing a signal of more than [max_size] samples throws
   (std::length_error, a kind of std::logic_error) *)
Definition FrequencyResponseImpulse (W : Z) (vec : bool) (max_size : Z) (impulse : list R) (gridSizeHint : Z) : outcome (list R * list R) :=
  let gridSize := if 0 <? gridSizeHint then gridSizeHint else (lenZ impulse * 10) mod 2 ^ 64 in
  let paddedSize := FrequencyResponseFftSize (lenZ impulse) gridSize in
  if max_size <? paddedSize then Throw LogicError else
  do padded <- wrs (zerosR paddedSize) 0 impulse;
  do spectrum <- FftHalf padded;
  do amplitude <- Abs W vec spectrum;
  do phase <- Arg W vec (replace_zero spectrum);
  Ok (amplitude, phase).

(* MeasureFilter.hpp 469-490 for any system: its order() and its operator() on complex points *)
Definition FrequencyResponseSystem (W : Z) (vec : bool) (order : Z) (sys : C -> outcome C) (gridSizeHint : Z) : outcome (list R * list R) :=
  let gridSize := if 0 <? gridSizeHint then gridSizeHint else (1 + order) * 20 in
  do amplitude <- LinSpace W vec (zerosR gridSize) 0 PI true;
  let phase := zerosR gridSize in
  for_ 0 gridSize 1 (fun i '(amplitude, phase) =>
    do freq <- rd amplitude i;
    do response <- sys (cis freq);
    do amplitude <- wr amplitude i (Cabs response);
    do phase <- wr phase i (Carg response);
    Ok (amplitude, phase)) (amplitude, phase).
(* MeasureFilter.hpp 493-506; operator() of the systems: Systems.hpp, SysModel.v *)
Definition FrequencyResponseZpk W vec (s : zpk) hint := FrequencyResponseSystem W vec (zpk_order s) (fun z => Ok (zpk_eval (K := Cfield) RtoC s z)) hint.
Definition FrequencyResponseTf W vec (s : tf Rfield) hint := FrequencyResponseSystem W vec (tf_order s) (fun z => Ok (tf_eval (K := Cfield) RtoC s z)) hint.
Definition FrequencyResponseCascade W vec (s : list (biquad Rfield)) hint := FrequencyResponseSystem W vec (cascade_order s) (cascade_eval (K := Cfield) RtoC s) hint.
