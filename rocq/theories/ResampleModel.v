(** Model of the rational resampler of include/dspbb/Filtering/Resample.hpp over the model of
    Math/Rational.hpp (signed overflow in Rational is UB, [M] is the largest value of the integer type,
    2^63-1 in the code) and the polyphase views of PolyphaseModel.
    Simplifications: the definitions "g..." are for any element types with any operations, the others for one type (exact arithmetic in a field;
    different types: MixedResampleModel); conversions between size_t and int64_t are
    the identity, and a size that does not fit into int64_t (where the C++ product wraps) is UB here. *)
From Verif Require Import Base IntervalModel RationalModel KernelModel ConvModel PolyphaseModel.

Section Resample.
Variable M : Z.

(* Resample.hpp 46-56: int64_t / Rational / int64_t *)
Definition ResampleLength (inputSize filterSize numPhases : Z) (sampleRates : rat) (m : convmode) : outcome rat :=
  do interpolatedSize <- cmul M numPhases inputSize;
  do filteredInterpolatedSize <- ci M (ConvolutionLength interpolatedSize filterSize m);
  do q <- int_div M filteredInterpolatedSize sampleRates;
  div_int M q numPhases.
(* Resample.hpp 67-71 *)
Definition ResampleDelay (filterSize numPhases : Z) (sampleRates : rat) : outcome rat :=
  do d <- cmul M 2 numPhases;
  do q <- make M (filterSize - 1) d;
  div M q sampleRates.
(* Resample.hpp 91-95 *)
Definition ChangeSampleRate (sourceRate targetRate : Z) (sample : rat) : outcome rat :=
  do r <- make M targetRate sourceRate;
  mul M sample r.
(* Resample.hpp 97-114; the floor is converted to size_t *)
Definition FindResampleSuspensionPoint (nextOutputSample : rat) (filterSize numPhases : Z) (sampleRates : rat) : outcome (Z * rat) :=
  do d <- getden sampleRates;
  do nextInputSample <- ChangeSampleRate d (num sampleRates) nextOutputSample;
  do convolutionOffset <- make M (filterSize - 1) numPhases;
  do firstInputSample <- sub M nextInputSample convolutionOffset;
  do nonpos <- rle M firstInputSample (of_int 0);
  if (nonpos : bool) then Ok (0, nextOutputSample) else
  do firstInputSampleWhole <- floor M firstInputSample;
  do fr <- frac M firstInputSample;
  do inputStartPoint <- add M fr convolutionOffset;
  do d <- getden sampleRates;
  do outputStartPoint <- ChangeSampleRate (num sampleRates) d inputStartPoint;
  Ok (firstInputSampleWhole, outputStartPoint).

(* Resample.hpp 116-120 *)
Record PhaseSample := mkPS { inputIndex : Z; phaseIndex : Z; weight : Z }.
(* Resample.hpp 122-139 *)
Definition InputIndex2Sample (index : rat) (numPhases : Z) : outcome (PhaseSample * PhaseSample) :=
  do indexFrac <- frac M index;
  do a <- mul_int M indexFrac numPhases;
  do firstPhase <- floor M a;
  if numPhases =? 0 then UB else
  let secondPhase := (firstPhase + 1) mod numPhases in
  do b <- mul_int M indexFrac numPhases;
  do t <- frac M b;
  let secondWeight := num t in
  do dt <- getden t;
  do firstWeight <- csub M dt (num t);
  do firstIndex <- floor M index;
  let secondIndex := if secondPhase =? 0 then firstIndex + 1 else firstIndex in
  Ok (mkPS firstIndex firstPhase firstWeight, mkPS secondIndex secondPhase secondWeight).

Section gResample.
(** element types of the input, the taps and the output, and the arithmetic of the last, see PolyphaseModel *)
Context {A B F : Type} (fadd fmul fdivide : F -> F -> F) (ofsize : Z -> F) (dot : list A -> list B -> outcome F).
(* Resample.hpp 141-154 *)
Definition gDotProductSample (input : list A) (filter : list B) (inputReverseFirst : Z) : outcome F :=
  let desiredFirst := inputReverseFirst - lenZ filter + 1 in
  let desiredLast := inputReverseFirst + 1 in
  let possibleFirst := Z.max 0 desiredFirst in
  let possibleLast := Z.min (lenZ input) desiredLast in
  let count := possibleLast - possibleFirst in
  assert_ (0 <=? count)
  (let offset := possibleFirst - desiredFirst in
   do inputView <- slice input possibleFirst count;
   do filterView <- slice filter offset count;
   dot inputView filterView).

(* Resample.hpp 277-306: the written output and the suspension point; the iterator is an index *)
Definition gResampleInto (output : list F) (input : list A) (polyphase : pview B) (sampleRates startPoint : rat)
  : outcome (list F * (Z * rat)) :=
  do g1 <- rge M sampleRates (of_int 0);
  assert_ (g1 : bool)
  (do g2 <- rge M startPoint (of_int 0);
   assert_ (g2 : bool)
  (assert_ (0 <? num_phases polyphase)
  (do maxLength <- ResampleLength (lenZ input) (size_original polyphase) (num_phases polyphase) sampleRates CONV_FULL;
   do e <- add_int M startPoint (lenZ output);
   do g3 <- rle M e maxLength;
   assert_ (g3 : bool)
  (do (out, outputIndex) <- for_ 0 (lenZ output) 1 (fun i st => let '(out, outputIndex) := st in
       do d <- getden sampleRates;
       do index <- ChangeSampleRate d (num sampleRates) outputIndex;
       do (firstSampleLoc, secondSampleLoc) <- InputIndex2Sample index (num_phases polyphase);
       do phase1 <- view_at polyphase (phaseIndex firstSampleLoc);
       do firstSampleVal <- gDotProductSample input phase1 (inputIndex firstSampleLoc);
       do phase2 <- view_at polyphase (phaseIndex secondSampleLoc);
       do secondSampleVal <- gDotProductSample input phase2 (inputIndex secondSampleLoc);
       do out <- wr out i (fdivide (fadd (fmul firstSampleVal (ofsize (weight firstSampleLoc)))
                                      (fmul secondSampleVal (ofsize (weight secondSampleLoc))))
                                (fadd (ofsize (weight firstSampleLoc)) (ofsize (weight secondSampleLoc))));
       do outputIndex <- add_int M outputIndex 1;
       Ok (out, outputIndex)) (output, startPoint);
   do sp <- FindResampleSuspensionPoint outputIndex (size_original polyphase) (num_phases polyphase) sampleRates;
   Ok (out, sp))))).
End gResample.
Context {F : CField}.
Definition DotProductSample (W : Z) (vec : bool) (input filter : list F) (inputReverseFirst : Z) : outcome F :=
  gDotProductSample (DotProduct W vec) input filter inputReverseFirst.
Definition ResampleInto (W : Z) (vec : bool) (output input : list F) (polyphase : pview F) (sampleRates startPoint : rat)
  : outcome (list F * (Z * rat)) := gResampleInto radd rmul fdiv ofnat (DotProduct W vec) output input polyphase sampleRates startPoint.
(* Resample.hpp 309-324 *)
Definition Resample (W : Z) (vec : bool) (input : list F) (polyphase : pview F) (sampleRates startPoint : rat) (outputLength : Z) : outcome (list F) :=
  do (out, _) <- ResampleInto W vec (repeat r0 (Z.to_nat outputLength)) input polyphase sampleRates startPoint;
  Ok out.
(* Resample.hpp 327-341 *)
Definition ResampleCentral (W : Z) (vec : bool) (input : list F) (polyphase : pview F) (sampleRates : rat) : outcome (list F) :=
  do startPointIn <- make M (Z.min (size_original polyphase) (lenZ input * num_phases polyphase) - 1) (num_phases polyphase);
  do len <- ResampleLength (lenZ input) (size_original polyphase) (num_phases polyphase) sampleRates CONV_CENTRAL;
  do outputLength <- floor M len;
  do start <- div M startPointIn sampleRates;
  Resample W vec input polyphase sampleRates start outputLength.
(* Resample.hpp 344-354 *)
Definition ResampleFull (W : Z) (vec : bool) (input : list F) (polyphase : pview F) (sampleRates : rat) : outcome (list F) :=
  do len <- ResampleLength (lenZ input) (size_original polyphase) (num_phases polyphase) sampleRates CONV_FULL;
  do outputLength <- floor M len;
  Resample W vec input polyphase sampleRates (of_int 0) outputLength.
End Resample.
