(** Model of include/dspbb/Filtering/Polyphase.hpp and of Decimate, Expand, Interpolate of
    include/dspbb/Filtering/Resample.hpp.
    Simplifications: the definitions "g..." are for any types with any operations of samples, taps and output, the others for one type (exact
    arithmetic in a commutative ring, or in a field where the code divides; different types: MixedResampleModel); sizes are mathematical integers (products such as inputSize * numPhases are assumed to
    fit size_t / ptrdiff_t); a PolyphaseView is the pair of the viewed buffer and the filter count. *)
From Verif Require Import Base IntervalModel KernelModel ConvModel FirModel.
Open Scope Z_scope.

(** the ring element n (T(n) for an integer n >= 0) *)
Definition ofnat {K : CRing} (n : Z) : K := sumf (Z.to_nat n) (fun _ => r1).

(* Math/DotProduct.hpp 14-38, for the non-complex second operand; the operator is a lambda, not
   std::plus, so the reduction is the plain one *)
Definition DotProduct {K : CRing} (W : Z) (vec : bool) (a b : list K) : outcome K :=
  assert_ (lenZ a =? lenZ b) (InnerProduct W vec (Plain radd) rmul a b r0).

Record pview (K : Type) := mkView { vbuffer : list K; vcount : Z }.
Arguments mkView {K}. Arguments vbuffer {K}. Arguments vcount {K}.

Section gPolyphase.
Context {K : Type}.
(* Polyphase.hpp 38-45: subsignal_location; dividing by a zero filter count is UB *)
Definition subsignal_location (size count index : Z) : outcome (Z * Z) :=
  assert_ (index <? count)
  (let numExtended := size mod count in
   let baseFilterSize := size / count in
   let thisFilterSize := baseFilterSize + (if index <? numExtended then 1 else 0) in
   let offset := baseFilterSize * index + Z.min numExtended index in
   Ok (offset, thisFilterSize)).
(* Polyphase.hpp 19-26: operator[]: a subsignal of the buffer *)
Definition view_at (v : pview K) (index : Z) : outcome (list K) :=
  do (offset, size) <- subsignal_location (lenZ (vbuffer v)) (vcount v) index;
  slice (vbuffer v) offset size.
(* Polyphase.hpp 27-35 *)
Definition size_per_phase (v : pview K) : outcome Z :=
  if vcount v =? 0 then UB else Ok ((lenZ (vbuffer v) + vcount v - 1) / vcount v).
Definition size_original (v : pview K) : Z := lenZ (vbuffer v).
Definition num_phases (v : pview K) : Z := vcount v.

(** the arithmetic of the element type: nothing is assumed about it; [ofsize] converts an integer to a sample *)
Variables (zero : K) (add mul : K -> K -> K) (ofsize : Z -> K).
(* Polyphase.hpp 103-123: the reverse iterator of the phase as an index from the back; the scaling is
   the signal-scalar in-place operator *)
Definition gPolyphaseDecomposeInto (W : Z) (vec : bool) (output filter : list K) (numFilters : Z) : outcome (pview K) :=
  assert_ (lenZ output =? lenZ filter)
  (do out <- for_ 0 numFilters 1 (fun phaseIdx out =>
       do (offset, size) <- subsignal_location (lenZ out) numFilters phaseIdx;
       do out <- for_ 0 size 1 (fun coeffIdx out =>
           do x <- rd filter (phaseIdx + coeffIdx * numFilters);
           wr out (offset + (size - 1 - coeffIdx)) x) out;
       on_window out offset size (fun w => sig_scalar_inplace W vec mul w (ofsize numFilters))) output;
   Ok (mkView out numFilters)).
(* Polyphase.hpp 125-134, 56-58: a fresh value-initialised buffer *)
Definition gPolyphaseDecompose (W : Z) (vec : bool) (filter : list K) (numFilters : Z) : outcome (pview K) :=
  gPolyphaseDecomposeInto W vec (repeat zero (length filter)) filter numFilters.

(* Resample.hpp 30-38 *)
Definition InterpolLength (inputSize filterSize numPhases : Z) (m : convmode) : Z :=
  ConvolutionLength (inputSize * numPhases) filterSize m.
(* Resample.hpp 79-89; the difference is taken in ptrdiff_t, filterSize - 1 in size_t (for an empty
   filter it wraps and the conversion to ptrdiff_t gives -1 again) *)
Definition FindInterpolSuspensionPoint (nextOutputSample filterSize numPhases : Z) : outcome (Z * Z) :=
  let firstOutputSample := nextOutputSample - (filterSize - 1) in
  if firstOutputSample <? 0 then Ok (0, nextOutputSample) else
  if numPhases =? 0 then UB else
  let firstInputSample := firstOutputSample / numPhases in
  let startPoint := firstOutputSample - numPhases * firstInputSample + (filterSize - 1) in
  Ok (firstInputSample, startPoint).

End gPolyphase.
Section gInterpolate.
(** element types of the input, the taps and the output; [dot] is DotProduct *)
Context {A B O : Type} (zero : O) (dot : list A -> list B -> outcome O).
(* Resample.hpp 223-260: returns the written output and the suspension point *)
Definition gInterpolateInto (hrOutput : list O) (lrInput : list A) (polyphase : pview B) (hrOffset : Z)
  : outcome (list O * (Z * Z)) :=
  let rate := num_phases polyphase in
  let hrFilterSize := size_original polyphase in
  do lrPhaseSize <- size_per_phase polyphase;
  let hrOutputSize := lenZ hrOutput in
  let hrOutputMaxSize := InterpolLength (lenZ lrInput) hrFilterSize rate CONV_FULL in
  assert_ (hrOffset + hrOutputSize <=? hrOutputMaxSize)
  (do out <- for_ hrOffset (hrOffset + hrOutputSize) 1 (fun hrOutputIdx out =>
       let hrInputIdx := 1 - hrFilterSize + hrOutputIdx in
       let lrInputIdx := Z.quot (hrInputIdx + hrFilterSize - 1) rate - lrPhaseSize + 1 in
       let polyphaseIdx := Z.rem (hrInputIdx + hrFilterSize - 1) rate in
       do phase <- view_at polyphase polyphaseIdx;
       let inputSpan := mkI 0 (lenZ lrInput) in
       let lrInputInterval := mkI lrInputIdx (lrInputIdx + lrPhaseSize) in
       let lrPhaseInterval := mkI (last lrInputInterval - lenZ phase) (last lrInputInterval) in
       let lrInputProductInterval := Intersection inputSpan (Intersection lrInputInterval lrPhaseInterval) in
       let lrPhaseProductInterval := shift_sub lrInputProductInterval lrInputIdx in
       if 0 <? size lrInputProductInterval then
         do lrInputView <- slice lrInput (first lrInputProductInterval)
                             (last lrInputProductInterval - first lrInputProductInterval);
         do lrPhaseView <- slice phase (first lrPhaseProductInterval - lrPhaseSize + lenZ phase)
                             (last lrPhaseProductInterval - first lrPhaseProductInterval);
         do value <- dot lrInputView lrPhaseView;
         wr out (hrOutputIdx - hrOffset) value
       else Ok out) hrOutput;
   do sp <- FindInterpolSuspensionPoint (hrOffset + hrOutputSize) (size_original polyphase) (num_phases polyphase);
   Ok (out, sp)).
(* Resample.hpp 264-274 *)
Definition gInterpolate (lrInput : list A) (polyphase : pview B) (hrOffset hrLength : Z) : outcome (list O) :=
  do (out, _) <- gInterpolateInto (repeat zero (Z.to_nat hrLength)) lrInput polyphase hrOffset;
  Ok out.
End gInterpolate.

(** ** Exact arithmetic *)
Section Polyphase.
Context {K : CRing}.
Definition PolyphaseDecomposeInto (W : Z) (vec : bool) (output filter : list K) (numFilters : Z) : outcome (pview K) :=
  gPolyphaseDecomposeInto rmul ofnat W vec output filter numFilters.
Definition PolyphaseDecompose (W : Z) (vec : bool) (filter : list K) (numFilters : Z) : outcome (pview K) :=
  PolyphaseDecomposeInto W vec (repeat r0 (length filter)) filter numFilters.

(* Resample.hpp 168-177; the range-for over the output reads input[readIdx] *)
Definition DecimateInto (output input : list K) (rate : Z) : outcome (list K) :=
  if rate =? 0 then UB else
  assert_ (lenZ output =? (lenZ input + rate - 1) / rate)
  (do (out, _) <- for_ 0 (lenZ output) 1 (fun i st => let '(out, readIdx) := st in
       do x <- rd input readIdx;
       do out <- wr out i x;
       Ok (out, readIdx + rate)) (output, 0);
   Ok out).
(* Resample.hpp 180-187 *)
Definition Decimate (input : list K) (rate : Z) : outcome (list K) :=
  if rate =? 0 then UB else DecimateInto (repeat r0 (Z.to_nat ((lenZ input + rate - 1) / rate))) input rate.
(* Resample.hpp 193-206; writeIt is an index *)
Definition ExpandInto (output input : list K) (rate : Z) : outcome (list K) :=
  assert_ (lenZ output =? lenZ input * rate)
  (do (out, _) <- for_ 0 (lenZ input) 1 (fun i st => let '(out, w) := st in
       do x <- rd input i;
       do out <- wr out w x;
       for_ 1 rate 1 (fun _ st => let '(out, w) := st in do out <- wr out w r0; Ok (out, w + 1)) (out, w + 1))
     (output, 0);
   Ok out).
(* Resample.hpp 208-215 *)
Definition Expand (input : list K) (rate : Z) : outcome (list K) :=
  ExpandInto (repeat r0 (Z.to_nat (lenZ input * rate))) input rate.

Definition InterpolateInto (W : Z) (vec : bool) (hrOutput lrInput : list K) (polyphase : pview K) (hrOffset : Z)
  : outcome (list K * (Z * Z)) := gInterpolateInto (DotProduct W vec) hrOutput lrInput polyphase hrOffset.
Definition Interpolate (W : Z) (vec : bool) (lrInput : list K) (polyphase : pview K) (hrOffset hrLength : Z) : outcome (list K) :=
  do (out, _) <- InterpolateInto W vec (repeat r0 (Z.to_nat hrLength)) lrInput polyphase hrOffset;
  Ok out.
End Polyphase.

(* Math/Statistics.hpp 17-20 (Sum) and Polyphase.hpp 91-95: PolyphaseNormalize *)
Definition Sum {K : CRing} (W : Z) (vec : bool) (signal : list K) : outcome K := Reduce W vec (Plain radd) signal r0.
Definition PolyphaseNormalize {F : CField} (W : Z) (vec : bool) (v : pview F) : outcome (pview F) :=
  do buf <- for_ 0 (vcount v) 1 (fun i buf =>
      do phase <- view_at (mkView buf (vcount v)) i;
      do s <- Sum W vec phase;
      do (offset, size) <- subsignal_location (lenZ buf) (vcount v) i;
      on_window buf offset size (fun w => sig_scalar_inplace W vec rmul w (fdiv r1 s))) (vbuffer v);
  Ok (mkView buf (vcount v)).
