(** Interpolate and Resample of include/dspbb/Filtering/Resample.hpp for an input and a polyphase filter of different
    element types.  The loops are those of PolyphaseModel and ResampleModel ("g..."), which are for any element types; here
    their DotProduct (Math/DotProduct.hpp 14-42) is the one of the two types: [mulconj] x y is x * y for a real second
    operand and x * conj(y) for a complex one.
    Simplifications: those of PolyphaseModel and ResampleModel; the product type (multiplies_result_t<T, P>, and CommonType of
    Resample.hpp 299) and the element type of the output are one commutative ring (field, where the code divides). *)
From Coq Require Import Reals.
From Verif Require Import Base IntervalModel RationalModel KernelModel ConvModel PolyphaseModel ResampleModel Complex FunctionModel.
Open Scope Z_scope.

Section MixedInterpolate.
Context {A B : Type} {K : CRing} (mulconj : A -> B -> K).
(* Resample.hpp 218-260 *)
Definition mInterpolateInto (W : Z) (vec : bool) (hrOutput : list K) (lrInput : list A) (polyphase : pview B) (hrOffset : Z) : outcome (list K * (Z * Z)) :=
  gInterpolateInto (DotProductBy W vec mulconj) hrOutput lrInput polyphase hrOffset.
(* Resample.hpp 263-274 *)
Definition mInterpolate (W : Z) (vec : bool) (lrInput : list A) (polyphase : pview B) (hrOffset hrLength : Z) : outcome (list K) :=
  do (out, _) <- mInterpolateInto W vec (repeat r0 (Z.to_nat hrLength)) lrInput polyphase hrOffset;
  Ok out.
End MixedInterpolate.

Section MixedResample.
Variable M : Z.
Context {A B : Type} {F : CField} (mulconj : A -> B -> F).
(* Resample.hpp 277-306 *)
Definition mResampleInto (W : Z) (vec : bool) (output : list F) (input : list A) (polyphase : pview B) (sampleRates startPoint : rat)
  : outcome (list F * (Z * rat)) := gResampleInto M radd rmul fdiv ofnat (DotProductBy W vec mulconj) output input polyphase sampleRates startPoint.
(* Resample.hpp 309-324 *)
Definition mResample (W : Z) (vec : bool) (input : list A) (polyphase : pview B) (sampleRates startPoint : rat) (outputLength : Z) : outcome (list F) :=
  do (out, _) <- mResampleInto W vec (repeat r0 (Z.to_nat outputLength)) input polyphase sampleRates startPoint;
  Ok out.
(* Resample.hpp 327-341 *)
Definition mResampleCentral (W : Z) (vec : bool) (input : list A) (polyphase : pview B) (sampleRates : rat) : outcome (list F) :=
  do startPointIn <- make M (Z.min (size_original polyphase) (lenZ input * num_phases polyphase) - 1) (num_phases polyphase);
  do len <- ResampleLength M (lenZ input) (size_original polyphase) (num_phases polyphase) sampleRates CONV_CENTRAL;
  do outputLength <- floor M len;
  do start <- div M startPointIn sampleRates;
  mResample W vec input polyphase sampleRates start outputLength.
(* Resample.hpp 344-354 *)
Definition mResampleFull (W : Z) (vec : bool) (input : list A) (polyphase : pview B) (sampleRates : rat) : outcome (list F) :=
  do len <- ResampleLength M (lenZ input) (size_original polyphase) (num_phases polyphase) sampleRates CONV_FULL;
  do outputLength <- floor M len;
  mResample W vec input polyphase sampleRates (of_int 0) outputLength.
End MixedResample.
