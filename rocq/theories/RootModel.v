(** Model of include/dspbb/Math/RootTransforms.hpp, LTISystems/DiscretizationTransforms.hpp,
    Filtering/IIR/BandTransforms.hpp and Filtering/IIR/Butterworth.hpp (all of the four files, except the
    unimplemented inverse BilinearTransform, which only throws), and IIR.hpp 24-84 (Butterworth designs).
    Simplifications: exact real/complex arithmetic, no infinities and NaNs: the theorems assume that no divisor is
    zero, with the exception that a divisor of the pad roots may be zero when no pad root is used.
    The overloads that only cast parameters (139-158) are the identity.  The transformation function is passed as two
    functions, one per argument type it is instantiated with (T and std::complex<T>). *)
From Coq Require Import Reals Lra.
From Verif Require Import Base Complex ConvModel IirModel PolyModel SysModel.
Open Scope Z_scope.

(** std::complex<T> / T *)
Definition CdivR (c : C) (r : R) : C := mkC (re c / r) (im c / r).
(** std::sqrt(std::complex<T>): the root with nonnegative real part; on the negative reals the one with positive imaginary part *)
Definition Csqrt (d : C) : C :=
  mkC (sqrt ((Cabs d + re d) / 2)) ((if Rltb (im d) 0 then -1 else 1) * sqrt ((Cabs d - re d) / 2))%R.

(* RootTransforms.hpp 11-25: CountRoots *)
Definition CountRoots (l : list C) : outcome (Z * Z) :=
  if negb (AreRootsConjugatePairs l) then Throw InvalidArgument
  else Ok (fold_left (fun acc root => (fst acc + (if Reqb (im root) 0 then 1 else 0), snd acc + (if Rltb 0 (im root) then 1 else 0))) l (0, 0)).
(* 27-39: CountTransformedRoots *)
Definition CountTransformedRoots (l : list R) (func : R -> list C) : outcome (Z * Z) :=
  foldM (fun root acc => do c <- CountRoots (func root); Ok (fst acc + fst c, snd acc + snd c)) l (0, 0).

(* 66-73, 81-88: a root goes to the complex view if its imaginary part is positive, to the real view if it is zero, and is
   dropped otherwise *)
Definition sort_out (st : (list R * Z) * (list C * Z)) (t : C) : outcome ((list R * Z) * (list C * Z)) :=
  if Rltb 0 (im t) then do cs <- push (snd st) t; Ok (fst st, cs)
  else if Reqb (im t) 0 then do rs <- push (fst st) (re t); Ok (rs, snd st)
  else Ok st.
(* 43-92: TransformRoots; [order] is the length of padRoots.  The result is freshly constructed, so resize (57) acts on an
   empty object; its two views are written through iterators: two checked arrays *)
Definition TransformRoots (poly : fp) (funcR : R -> list C) (funcC : C -> list C) (numRoots : Z) (padRoots : list C) : outcome fp :=
  let order := lenZ padRoots in
  do counts <- CountTransformedRoots (real_roots poly) funcR;
  do pads <- CountRoots padRoots;
  assert_ ((numRoots =? 0) || (num_roots poly <=? numRoots))
  (let numRoots := if numRoots =? 0 then num_roots poly else numRoots in
   let numPadSets := numRoots - num_roots poly in
   let numReals := fst counts + numPadSets * fst pads in
   let numComplexPairs := snd counts + order * npairs poly + numPadSets * snd pads in
   do r <- fp_resize empty_fp numReals numComplexPairs 0%R C0;
   do st <- foldM (fun root st =>
     assert_ (lenZ (funcR root) =? order) (foldM (fun t st => sort_out st t) (funcR root) st))
     (real_roots poly) ((real_roots r, 0), (complex_pairs r, 0));
   do st <- foldM (fun root st =>
     assert_ (lenZ (funcC root) =? order) (do cs <- push_all (funcC root) (snd st); Ok (fst st, cs)))
     (complex_pairs poly) st;
   do st <- for_ 0 numPadSets 1 (fun _ st => foldM (fun t st => sort_out st t) padRoots st) st;
   Ok (mk_fp (fst (fst st)) (fst (snd st)))).

(* 94-98: TransformGain *)
Definition TransformGain (poly : fp) (realGain : R -> R) (pairGain : C -> R) : R :=
  (fold_left (fun acc r => acc * realGain r) (real_roots poly) 1 * fold_left (fun acc c => acc * pairGain c) (complex_pairs poly) 1)%R.

(** *** BandTransforms.hpp *)
(* 38-39, 73-74; size_t subtraction wraps *)
Definition norm_gain (s : zpk) (a0 : R) : R :=
  let e := size_sub (num_roots (poles s)) (num_roots (zeros s)) in
  if e =? 0 then 1%R else powerRZ a0 e.
(* 24-52: MapZDomain, first order *)
Definition mz1_image (s a0 a1 : R) (p : C) : C :=
  Cdiv (Cadd (Copp (Cmul (RtoC a1) p)) (RtoC (a0 * s))) (Csub (Cmul (RtoC a0) p) (RtoC (a1 * s))).
Definition mz1_imageR (s a0 a1 : R) (p : R) : C := RtoC ((- (a1 * p) + a0 * s) / (a0 * p - a1 * s))%R.
Definition mz1_cgain (s a0 a1 : R) (p : C) : R :=
  re (Cmul (Csub (RtoC (a1 * s)) (Cmul p (RtoC a0))) (Csub (RtoC (a1 * s)) (Cmul (Cconj p) (RtoC a0)))).
Definition mz1_rgain (s a0 a1 : R) (p : R) : R := (a1 * s - p * a0)%R.
Definition MapZDomain1 (system : zpk) (s a0 a1 : R) : outcome zpk :=
  let z12 := [RtoC (- (a1 / a0))%R] in
  let numRoots := Z.max (num_roots (zeros system)) (num_roots (poles system)) in
  do newZeros <- TransformRoots (zeros system) (fun p => [mz1_imageR s a0 a1 p]) (fun p => [mz1_image s a0 a1 p]) numRoots z12;
  do newPoles <- TransformRoots (poles system) (fun p => [mz1_imageR s a0 a1 p]) (fun p => [mz1_image s a0 a1 p]) numRoots z12;
  let newGain := (norm_gain system a0 * gain system * TransformGain (zeros system) (mz1_rgain s a0 a1) (mz1_cgain s a0 a1)
                  / TransformGain (poles system) (mz1_rgain s a0 a1) (mz1_cgain s a0 a1))%R in
  Ok (mkZpk newGain newZeros newPoles).
(* 54-87: MapZDomain, second order *)
Definition mz2_images (s a0 a1 a2 : R) (p : C) : list C :=
  let ap := Csub (Cmul (RtoC a1) p) (RtoC (a1 * s)) in
  let det := Cadd (Cmul ap ap) (Cmul (Cmul (RtoC 4) (Csub (Cmul (RtoC a2) p) (RtoC (a0 * s)))) (Cadd (Copp (Cmul (RtoC a0) p)) (RtoC (a2 * s)))) in
  let den := Csub (Cmul (RtoC (2 * a0)) p) (RtoC (2 * a2 * s)) in
  [Copp (Cdiv (Cadd ap (Csqrt det)) den); Copp (Cdiv (Csub ap (Csqrt det)) den)].
Definition mz2_imagesR (s a0 a1 a2 : R) (p : R) : list C :=
  let ap := (a1 * p - a1 * s)%R in
  let det := RtoC (ap * ap + 4 * (a2 * p - a0 * s) * (- (a0 * p) + a2 * s))%R in
  let den := (2 * a0 * p - 2 * a2 * s)%R in
  [Copp (CdivR (Cadd (RtoC ap) (Csqrt det)) den); Copp (CdivR (Csub (RtoC ap) (Csqrt det)) den)].
Definition mz2_pads (a0 a1 a2 : R) : list C :=
  let det := RtoC (a1 * a1 - 4 * a0 * a2)%R in
  [CdivR (Csub (RtoC (- a1)) (Csqrt det)) (2 * a0)%R; CdivR (Cadd (RtoC (- a1)) (Csqrt det)) (2 * a0)%R].
Definition MapZDomain2 (system : zpk) (s a0 a1 a2 : R) : outcome zpk :=
  let z12 := mz2_pads a0 a1 a2 in
  let numRoots := Z.max (num_roots (zeros system)) (num_roots (poles system)) in
  do newZeros <- TransformRoots (zeros system) (mz2_imagesR s a0 a1 a2) (mz2_images s a0 a1 a2) numRoots z12;
  do newPoles <- TransformRoots (poles system) (mz2_imagesR s a0 a1 a2) (mz2_images s a0 a1 a2) numRoots z12;
  let newGain := (norm_gain system a0 * gain system * TransformGain (zeros system) (mz1_rgain s a0 a2) (mz1_cgain s a0 a2)
                  / TransformGain (poles system) (mz1_rgain s a0 a2) (mz1_cgain s a0 a2))%R in
  Ok (mkZpk newGain newZeros newPoles).
(* 13-21: the maps themselves *)
Definition MapZ1 (z : C) (s a0 a1 : R) : C :=
  Cdiv (Cmul (RtoC s) (Cadd (Cmul (RtoC a1) z) (RtoC a0))) (Cadd (RtoC a1) (Cmul (RtoC a0) z)).
Definition MapZ2 (z : C) (s a0 a1 a2 : R) : C :=
  Cdiv (Cmul (RtoC s) (Cadd (Cadd (Cmul (Cmul (RtoC a2) z) z) (Cmul (RtoC a1) z)) (RtoC a0)))
       (Cadd (Cadd (RtoC a2) (Cmul (RtoC a1) z)) (Cmul (Cmul (RtoC a0) z) z)).

(** The coefficients of the band transforms divide by an expression that can be
    zero for legal arguments; IEEE division then yields an infinity and every root
    becomes NaN.  There is no real number to continue with: the model reports UB. *)
Definition divides_by (d : R) (m : outcome zpk) : outcome zpk := if Req_EM_T d 0 then UB else m.
(* 91-100 *)
Definition lp_a0 (w : R) : R := (- (cos w / (1 + sin w)))%R.
Definition Halfband2Lowpass (system : zpk) (to : R) : outcome zpk := 
  divides_by (1 + sin (to * PI)) (MapZDomain1 system 1 (lp_a0 (to * PI)) 1).
(* 102-111 *)
Definition hp_a1 (w : R) : R := (cos w / (-1 + sin w))%R.
Definition Halfband2Highpass (system : zpk) (to : R) : outcome zpk :=
  divides_by (-1 + sin (to * PI)) (MapZDomain1 system (- (1)) 1 (hp_a1 (to * PI))).
(* 113-124 *)
Definition bp_a2 (w1 w2 : R) : R := (-1 + 2 / (1 + tan ((w1 - w2) / 2)))%R.
Definition bp_a1 (w1 w2 : R) : R := (- ((cos w1 + cos w2 + sin w1 - sin w2) / (1 + sin (w1 - w2))))%R.
Definition Halfband2Bandpass (system : zpk) (to1 to2 : R) : outcome zpk :=
  divides_by (1 + tan ((to1 * PI - to2 * PI) / 2)) (divides_by (1 + sin (to1 * PI - to2 * PI))
    (MapZDomain2 system (- (1)) 1 (bp_a1 (to1 * PI) (to2 * PI)) (bp_a2 (to1 * PI) (to2 * PI)))).
(* 126-137 *)
Definition bs_a1 (w1 w2 : R) : R := ((cos w1 + cos w2 - sin w1 + sin w2) / (-1 + sin (w1 - w2)))%R.
Definition bs_a0 (w1 w2 : R) : R := (-1 - 2 / (-1 + tan ((w1 - w2) / 2)))%R.
Definition Halfband2Bandstop (system : zpk) (to1 to2 : R) : outcome zpk :=
  divides_by (-1 + tan ((to1 * PI - to2 * PI) / 2)) (divides_by (-1 + sin (to1 * PI - to2 * PI))
    (MapZDomain2 system 1 (bs_a0 (to1 * PI) (to2 * PI)) (bs_a1 (to1 * PI) (to2 * PI)) 1)).

(** *** DiscretizationTransforms.hpp 20-40 *)
Definition bilinear_k (sampleRate : R) (prewarp : option R) : R :=
  match prewarp with Some w => (w / tan (w / sampleRate / 2))%R | None => (2 * sampleRate)%R end.
Definition BilinearTransform (continuous : zpk) (sampleRate : R) (prewarp : option R) : outcome zpk :=
  let k := bilinear_k sampleRate prewarp in
  let z12 := [RtoC (-1)] in
  let numRoots := Z.max (num_roots (zeros continuous)) (num_roots (poles continuous)) in
  let fR := fun p : R => [RtoC ((k + p) / (k - p))%R] in
  let fC := fun p : C => [Cdiv (Cadd (RtoC k) p) (Csub (RtoC k) p)] in
  do newZeros <- TransformRoots (zeros continuous) fR fC numRoots z12;
  do newPoles <- TransformRoots (poles continuous) fR fC numRoots z12;
  Ok (mkZpk (zpk_eval (K := Rfield) (fun r => r) continuous k) newZeros newPoles).

(** *** Butterworth.hpp 10-23; std::polar(1, phase) is cis phase *)
Definition Butterworth (order : Z) : outcome zpk :=
  do p <- fp_resize empty_fp (order mod 2) (order / 2) (-1)%R C0;
  do cs <- for_ 0 (npairs p) 1 (fun index cs =>
    let phase := (PI * (1 / 2 + IZR index / IZR order + 1 / 2 / IZR order))%R in
    wr cs index (cis phase)) (complex_pairs p);
  Ok (mkZpk 1%R empty_fp (mk_fp (real_roots p) cs)).

(** *** IIR.hpp *)
(* 24-29: DiscretizePrototype *)
Definition DiscretizePrototype (sys : zpk) : outcome zpk := BilinearTransform sys (2 / PI)%R (Some 1%R).
(* 31-34 *)
Definition PrototypeButterworth (order : Z) : outcome zpk := do s <- Butterworth order; DiscretizePrototype s.
(* 57-62 *)
Definition DesignButterworthLowpass (order : Z) (cutoff : R) : outcome zpk :=
  do halfband <- PrototypeButterworth order; Halfband2Lowpass halfband cutoff.
(* 64-69 *)
Definition DesignButterworthHighpass (order : Z) (cutoff : R) : outcome zpk :=
  do halfband <- PrototypeButterworth order; Halfband2Highpass halfband cutoff.
(* 71-77 *)
Definition DesignButterworthBandpass (order : Z) (lower upper : R) : outcome zpk :=
  assert_ (order mod 2 =? 0) (do halfband <- PrototypeButterworth (order / 2); Halfband2Bandpass halfband lower upper).
(* 79-85 *)
Definition DesignButterworthBandstop (order : Z) (lower upper : R) : outcome zpk :=
  assert_ (order mod 2 =? 0) (do halfband <- PrototypeButterworth (order / 2); Halfband2Bandstop halfband lower upper).
