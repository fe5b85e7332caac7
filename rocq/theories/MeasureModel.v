(** Model of include/dspbb/Filtering/MeasureFilter.hpp 19-409: measuring the bands of an amplitude response.
    Simplifications: exact arithmetic (R); iterators are indices or list suffixes; std::erf is a parameter (any function);
    Bisect's number of iterations ([limit]) and numeric_limits<T>::max() ([tmax]) are parameters, see SolverModel.v. *)
From Coq Require Import ZArith List Bool Reals.
From Verif Require Import Base SolverModel.
Import ListNotations.
Open Scope Z_scope.

Definition gtb (x y : R) : bool := if Rlt_dec y x then true else false.
Definition ltb (x y : R) : bool := if Rlt_dec x y then true else false.
Definition eqbR (x y : R) : bool := if Req_EM_T x y then true else false.
(* std::find_if: distance to the first element that satisfies p, or to the end *)
Fixpoint find_if {A} (p : A -> bool) (l : list A) : Z := match l with [] => 0 | x :: l => if p x then 0 else 1 + find_if p l end.

(* MeasureFilter.hpp 71-74 *)
Record band := { first : Z; pass : bool }.
(* MeasureFilter.hpp 76-81 *)
Record band_parameters := { lowerEdge : R; upperEdge : R; ripple : R }.

(* MeasureFilter.hpp 89-107: the do-while loop from iterator position [it]; fuel bounds the passes (running out is UB) *)
Fixpoint bands_loop (fuel : nat) (spectrum : list R) (threshold noise : R) (it index : Z) : outcome (list band) :=
  match fuel with
  | O => UB
  | S fuel =>
    let upperThreshold := (threshold + noise)%R in
    let lowerThreshold := (threshold - noise)%R in
    do x <- rd spectrum it;
    let p := gtb x threshold in
    let triggerThreshold := if p then upperThreshold else lowerThreshold in
    let concludeThreshold := if p then lowerThreshold else upperThreshold in
    let rest := skipn (Z.to_nat it) spectrum in
    let triggerIndex := it + find_if (fun bin => negb (Bool.eqb (gtb bin triggerThreshold) p)) rest in
    let concludeIndex := it + find_if (fun bin => negb (Bool.eqb (gtb bin concludeThreshold) p)) rest in
    if concludeIndex =? lenZ spectrum then Ok [{| first := index; pass := p |}]
    else do bands <- bands_loop fuel spectrum threshold noise concludeIndex ((concludeIndex + triggerIndex) / 2);
         Ok ({| first := index; pass := p |} :: bands)
  end.
(* MeasureFilter.hpp 83-110; the default noise is 0.0005 *)
Definition ExtractFilterBands (spectrum : list R) (threshold noise : R) : outcome (list band) :=
  bands_loop (S (length spectrum)) spectrum threshold noise 0 0.

Section Fit.
Variables (erf : R -> R) (tmax : R) (limit : nat).
(* MeasureFilter.hpp 112-116 *)
Definition FitErrorDerivative (x y p : R) : R := let q := (1 / p)%R in ((y - erf (q * x)) * x * exp (- q * q * x * x))%R.
(* MeasureFilter.hpp 118-128 *)
Definition FitLoss (y : list R) (p : R) (invertX invertY : bool) (baseY : R) : R :=
  let count := lenZ y in
  fst (fold_left (fun (s : R * Z) yv => let '(sum, i) := s in
    let xi := if negb invertX then IZR i else IZR (count - i - 1) in
    let yi := if negb invertY then ((yv - baseY) / (1 - baseY))%R else ((baseY - yv) / baseY)%R in
    ((sum + FitErrorDerivative xi yi p)%R, i + 1)) y (0%R, 0)).
(* std::max_element(first, last) with comparison [less] (for min_element: with the comparison swapped): index of the first
   extreme element, 0 for an empty range *)
Definition max_element (less : R -> R -> bool) (l : list R) : Z :=
  match l with
  | [] => 0
  | x :: l => fst (fst (fold_left (fun (s : Z * R * Z) v => let '(best, bv, i) := s in if less bv v then (i, v, i + 1) else (best, bv, i + 1)) l (0, x, 1)))
  end.
(* MeasureFilter.hpp 130-146 *)
Definition FitBand (bandv : list R) (pass left : bool) (threshold : R) : R :=
  let size := lenZ bandv in
  let invertX := negb left in
  let invertY := negb pass in
  let maxIndex := if pass then max_element ltb bandv else max_element gtb bandv in
  let pLower := (1 / 2)%R in
  let pUpper := (66 / 100 * (if negb invertX then IZR maxIndex else IZR (size - maxIndex)))%R in
  Bisect tmax limit (fun p => FitLoss bandv p invertX invertY threshold) pLower pUpper 0.
(* MeasureFilter.hpp 148-159 *)
Definition FindBandEdgesFit (bandv : list R) (findLeft findRight passBand : bool) (threshold : R) : option R * option R :=
  (if findLeft then Some (Rmin (IZR (lenZ bandv)) (3 / 2 * FitBand bandv passBand true threshold)) else None,
   if findRight then Some (Rmax 0 (IZR (lenZ bandv) - 3 / 2 * FitBand bandv passBand false threshold)) else None).
(* MeasureFilter.hpp 161-185: distance from [first] to the result; the inner loop visits the first kernelSize elements
   from baseIt, or as many as there are *)
Fixpoint FindFirstExtremum (kernelSize : nat) (compare : R -> R -> bool) (l : list R) : Z :=
  match l with
  | [] => 0
  | x :: tl =>
    let window := firstn kernelSize l in
    let extremeValue := fold_left (fun e v => if compare e v then v else e) window x in
    match nth_error window (kernelSize / 2) with
    | Some centerValue => if eqbR extremeValue centerValue && (length window =? kernelSize)%nat then Z.of_nat (kernelSize / 2) else 1 + FindFirstExtremum kernelSize compare tl
    | None => 1 + FindFirstExtremum kernelSize compare tl
    end
  end.
(* MeasureFilter.hpp 69 *)
Definition kernelSize := 5%nat.
(* MeasureFilter.hpp 187-205; reverse iterators: the reversed list, base() is the distance from the end *)
Definition FindBandEdgesRipple (bandv : list R) (findLeft findRight passBand : bool) : option R * option R :=
  let compare := if passBand then ltb else gtb in
  (if findLeft then let e := FindFirstExtremum kernelSize compare bandv in if e =? lenZ bandv then None else Some (IZR e) else None,
   if findRight then let e := FindFirstExtremum kernelSize compare (rev bandv) in if e =? lenZ bandv then None else Some (IZR (lenZ bandv - e)) else None).
(* MeasureFilter.hpp 212-218 and 220-226: the while loops from iterator position [it] *)
Fixpoint ripple_loop (fuel : nat) (compare : R -> R -> bool) (target : R) (bandv : list R) (it : Z) (maxDifference : R) : outcome R :=
  if it =? lenZ bandv then Ok maxDifference else
  match fuel with
  | O => UB
  | S fuel =>
    let it := it + FindFirstExtremum kernelSize compare (skipn (Z.to_nat it) bandv) in
    if it =? lenZ bandv then Ok maxDifference
    else do x <- rd bandv it; ripple_loop fuel compare target bandv it (Rmax maxDifference (Rabs (target - x)))
  end.
(* MeasureFilter.hpp 207-229 *)
Definition MeasureBandRipple (bandv : list R) (passBand : bool) : outcome (option R) :=
  let target := if passBand then 1%R else 0%R in
  do maxDifference <- ripple_loop (length bandv) ltb target bandv 0 (-1)%R;
  do maxDifference <- ripple_loop (length bandv) gtb target bandv 0 maxDifference;
  Ok (if gtb maxDifference 0 then Some maxDifference else None).
(* MeasureFilter.hpp 231-245 *)
Definition MaxOptional_cmp (lhs rhs : option R) (compare : R -> R -> bool) : option R :=
  match lhs, rhs with
  | Some l, Some r => if compare l r then lhs else rhs
  | Some _, None => lhs
  | None, _ => rhs
  end.
Definition MinOptional (lhs rhs : option R) : option R := MaxOptional_cmp lhs rhs ltb.
Definition MaxOptional (lhs rhs : option R) : option R := MaxOptional_cmp lhs rhs (fun l r => if Rle_dec r l then true else false).
Definition value_or (o : option R) (d : R) : R := match o with Some x => x | None => d end.
(* SpectrumView(first, last): the samples [f, l) of the spectrum *)
Definition view (spectrum : list R) (f l : Z) : outcome (list R) :=
  assert_ ((0 <=? f) && (f <=? l) && (l <=? lenZ spectrum)) (Ok (firstn (Z.to_nat (l - f)) (skipn (Z.to_nat f) spectrum))).
(* MeasureFilter.hpp 250-272: the loop body for one band *)
Definition parametrize (spectrum : list R) (threshold : R) (b : band) (bandLastIndex : Z) (findLeft findRight : bool) : outcome band_parameters :=
  do bandSamples <- view spectrum (first b) bandLastIndex;
  let '(edgeFitLeft, edgeFitRight) := FindBandEdgesFit bandSamples findLeft findRight (pass b) threshold in
  let '(edgeRippleLeft, edgeRippleRight) := FindBandEdgesRipple bandSamples findLeft findRight (pass b) in
  do rippl <- MeasureBandRipple bandSamples (pass b);
  let edgeLeft := MinOptional edgeFitLeft edgeRippleLeft in
  let edgeRight := MaxOptional edgeFitRight edgeRippleRight in
  Ok {| lowerEdge := ((IZR (first b) + value_or edgeLeft 0) / IZR (lenZ spectrum))%R;
        upperEdge := ((IZR (first b) + value_or edgeRight (IZR (lenZ bandSamples))) / IZR (lenZ spectrum))%R;
        ripple := value_or rippl 0 |}.
(* MeasureFilter.hpp 247-274; [first_band]: it == bands.begin() *)
Fixpoint parametrize_loop (spectrum : list R) (threshold : R) (bands : list band) (first_band : bool) : outcome (list band_parameters) :=
  match bands with
  | [] => Ok []
  | b :: next =>
    let bandLastIndex := match next with n :: _ => first n | [] => lenZ spectrum end in
    do p <- parametrize spectrum threshold b bandLastIndex (negb first_band) (match next with [] => false | _ => true end);
    do ps <- parametrize_loop spectrum threshold next false;
    Ok (p :: ps)
  end.
Definition ParametrizeFilterBands (spectrum : list R) (bands : list band) (threshold : R) : outcome (list band_parameters) :=
  parametrize_loop spectrum threshold bands true.
(* MeasureFilter.hpp 276-288 *)
Definition HasBands (bands : list band) (desiredPasses : list bool) : bool :=
  if negb (lenZ desiredPasses =? lenZ bands) then false
  else forallb (fun dp => Bool.eqb (fst dp) (pass (snd dp))) (combine desiredPasses bands).
(* MeasureFilter.hpp 19-62 *)
Record lowpass_parameters := { lp_passbandEdge : R; lp_stopbandEdge : R; lp_passbandRipple : R; lp_stopbandAtten : R }.
Record highpass_parameters := { hp_stopbandEdge : R; hp_passbandEdge : R; hp_stopbandAtten : R; hp_passbandRipple : R }.
Record bandpass_parameters := { bp_lowerStopbandEdge : R; bp_passbandLowerEdge : R; bp_passbandUpperEdge : R; bp_upperStopbandEdge : R;
  bp_lowerStopbandAtten : R; bp_passbandRipple : R; bp_upperStopbandAtten : R }.
Record bandstop_parameters := { bs_lowerPassbandEdge : R; bs_stopbandLowerEdge : R; bs_stopbandUpperEdge : R; bs_upperPassbandEdge : R;
  bs_lowerPassbandRipple : R; bs_stopbandAtten : R; bs_upperPassbandRipple : R }.
Inductive filter_parameters := NoParameters | LowpassP (p : lowpass_parameters) | HighpassP (p : highpass_parameters) | BandpassP (p : bandpass_parameters) | BandstopP (p : bandstop_parameters).
(* MeasureFilter.hpp 290-299 *)
Definition ExtractLowpassParameters (bands : list band) (parameters : list band_parameters) : outcome (option lowpass_parameters) :=
  if HasBands bands [true; false] then
    do p0 <- rd parameters 0; do p1 <- rd parameters 1;
    Ok (Some {| lp_passbandEdge := upperEdge p0; lp_stopbandEdge := lowerEdge p1; lp_passbandRipple := ripple p0; lp_stopbandAtten := ripple p1 |})
  else Ok None.
(* MeasureFilter.hpp 301-310 *)
Definition ExtractHighpassParameters (bands : list band) (parameters : list band_parameters) : outcome (option highpass_parameters) :=
  if HasBands bands [false; true] then
    do p0 <- rd parameters 0; do p1 <- rd parameters 1;
    Ok (Some {| hp_stopbandEdge := upperEdge p0; hp_passbandEdge := lowerEdge p1; hp_stopbandAtten := ripple p0; hp_passbandRipple := ripple p1 |})
  else Ok None.
(* MeasureFilter.hpp 312-324 *)
Definition ExtractBandpassParameters (bands : list band) (parameters : list band_parameters) : outcome (option bandpass_parameters) :=
  if HasBands bands [false; true; false] then
    do p0 <- rd parameters 0; do p1 <- rd parameters 1; do p2 <- rd parameters 2;
    Ok (Some {| bp_lowerStopbandEdge := upperEdge p0; bp_passbandLowerEdge := lowerEdge p1; bp_passbandUpperEdge := upperEdge p1; bp_upperStopbandEdge := lowerEdge p2;
                bp_lowerStopbandAtten := ripple p0; bp_passbandRipple := ripple p1; bp_upperStopbandAtten := ripple p2 |})
  else Ok None.
(* MeasureFilter.hpp 326-338 *)
Definition ExtractBandstopParameters (bands : list band) (parameters : list band_parameters) : outcome (option bandstop_parameters) :=
  if HasBands bands [true; false; true] then
    do p0 <- rd parameters 0; do p1 <- rd parameters 1; do p2 <- rd parameters 2;
    Ok (Some {| bs_lowerPassbandEdge := upperEdge p0; bs_stopbandLowerEdge := lowerEdge p1; bs_stopbandUpperEdge := upperEdge p1; bs_upperPassbandEdge := lowerEdge p2;
                bs_lowerPassbandRipple := ripple p0; bs_stopbandAtten := ripple p1; bs_upperPassbandRipple := ripple p2 |})
  else Ok None.
(* MeasureFilter.hpp 340-355 *)
Definition ExtractFilterParameters (bands : list band) (parameters : list band_parameters) : outcome filter_parameters :=
  do lowpass <- ExtractLowpassParameters bands parameters;
  match lowpass with Some p => Ok (LowpassP p) | None =>
  do highpass <- ExtractHighpassParameters bands parameters;
  match highpass with Some p => Ok (HighpassP p) | None =>
  do bandpass <- ExtractBandpassParameters bands parameters;
  match bandpass with Some p => Ok (BandpassP p) | None =>
  do bandstop <- ExtractBandstopParameters bands parameters;
  match bandstop with Some p => Ok (BandstopP p) | None => Ok NoParameters end end end end.
(* MeasureFilter.hpp 68 and the default noise, line 84 *)
Definition threshold : R := 1 / 2.
Definition noise : R := 5 / 10000.
Definition measured {P A} (response : list R) (extract : list band -> list band_parameters -> outcome P) (finish : P -> outcome A) : outcome A :=
  do bands <- ExtractFilterBands response threshold noise;
  do bandParams <- ParametrizeFilterBands response bands threshold;
  do filterParams <- extract bands bandParams;
  finish filterParams.
(* if (!filterParams) throw std::invalid_argument *)
Definition or_throw {P} (o : option P) : outcome P := match o with Some p => Ok p | None => Throw InvalidArgument end.
(* MeasureFilter.hpp 359-401 *)
Definition MeasureLowpassFilter (response : list R) : outcome lowpass_parameters := measured response ExtractLowpassParameters or_throw.
Definition MeasureHighpassFilter (response : list R) : outcome highpass_parameters := measured response ExtractHighpassParameters or_throw.
Definition MeasureBandpassFilter (response : list R) : outcome bandpass_parameters := measured response ExtractBandpassParameters or_throw.
Definition MeasureBandstopFilter (response : list R) : outcome bandstop_parameters := measured response ExtractBandstopParameters or_throw.
(* MeasureFilter.hpp 403-409 *)
Definition MeasureFilter (response : list R) : outcome filter_parameters := measured response ExtractFilterParameters (fun p => Ok p).
End Fit.
