(** Model of include/dspbb/Kernels/Convolution.hpp and Math/Convolution.hpp.

    Signals are lists over one element type (the two inputs and the output have the same);
    zero and the arithmetic of the elements are parameters of the definitions "g...".  The
    definitions at the end are their instances for exact arithmetic, a commutative ring; the
    rounding of floating-point arithmetic is treated in ConvFloat.v.  The output window is a separate array: it does
    not alias the inputs.  Every element access is checked; forming a pointer without
    dereferencing it (e.g. firstOut - n for an empty range) is treated as harmless. *)
From Verif Require Import Base IntervalModel KernelModel.

(** ** Math/Convolution.hpp *)
Inductive convmode := CONV_CENTRAL | CONV_FULL.
(* Math/Convolution.hpp 27-48 *)
Definition ConvolutionLength (lengthU lengthV : Z) (m : convmode) : Z :=
  if (lengthU =? 0) || (lengthV =? 0) then 0 else
  let shorter := Z.min lengthU lengthV in
  let longer := Z.max lengthU lengthV in
  match m with CONV_CENTRAL => longer - shorter + 1 | CONV_FULL => longer + shorter - 1 end.

(** size_t subtraction wraps (64-bit) *)
Definition size_sub (a b : Z) : Z := (a - b) mod 2 ^ 64.

Section Conv.
Context {K : Type} (zero : K) (add sub mul : K -> K -> K) (fmaV fmaS : K -> K -> K -> K).
Notation first := IntervalModel.first.
Notation last := IntervalModel.last.

(* Kernels/Convolution.hpp 47-61 *)
Definition gConvolutionNaive (u v out : list K) (n : Z) (accumulate : bool) : outcome (list K) :=
  let len1 := lenZ u in
  let len2 := lenZ v in
  for_ 0 (lenZ out) 1 (fun k out =>
    let n := n + k in
    do acc0 <- (if accumulate then rd out k else Ok zero);
    let mLast := Z.min len1 (n + 1) in
    let mFirst := Z.max 0 (n - len2 + 1) in
    do acc <- for_ mFirst mLast 1 (fun m acc =>
                do x <- rd u m;
                do y <- rd v (n - m);
                Ok (add acc (mul x y))) acc0;
    wr out k acc) out.

(* Kernels/Convolution.hpp 27-44: fma(increase, multiplier, accumulator); [fma] is [fmaV] for
   batches (xsimd::fma, Kernels/Math.hpp 91-96) and [fmaS] for single elements (a * b + c,
   Kernels/Math.hpp 98-101) *)
Definition gconvolution_fma (fma : K -> K -> K -> K) (multiplier accumulator increase : K) : K :=
  fma increase multiplier accumulator.

(* Kernels/Convolution.hpp 81-98: gConvolutionSlide after the operands have been ordered.
   [vec]: is the inner Transform vectorised; W its width *)
Definition gSlideBody (W : Z) (vec : bool) (u v out : list K) (n : Z) (accumulate : bool) : outcome (list K) :=
  let len1 := lenZ u in
  let len2 := lenZ v in
  let lenOut := lenZ out in
  let out := if accumulate then out else repeat zero (length out) in
  let multiplierRange := mkI (Z.max 0 (n - len2 + 1)) (Z.min len1 (n + lenOut)) in
  let outRange := mkI n (n + lenOut) in
  for_ (first multiplierRange) (last multiplierRange) 1 (fun f out =>
    let slidingRange := mkI f (f + len2) in
    do multiplier <- rd u f;
    let writeRange := Intersection outRange slidingRange in
    let writeRangeOut := shift_sub writeRange n in
    let writeFirst2 := first writeRange - first slidingRange in
    Transform2With W vec out (Self (first writeRangeOut)) (Other v writeFirst2)
      (first writeRangeOut) (size writeRangeOut) (gconvolution_fma fmaV multiplier) (gconvolution_fma fmaS multiplier)) out.

(* Kernels/Convolution.hpp 63-79: order the operands by calling itself with them swapped;
   [fuel] bounds the recursion, running out of it is reported as UB *)
Fixpoint gConvolutionSlide_ (fuel : nat) (W : Z) (vec : bool) (u v out : list K) (n : Z) (accumulate : bool)
  : outcome (list K) :=
  let len1 := lenZ u in
  let len2 := lenZ v in
  let swapped := match fuel with
                 | O => UB
                 | S f => gConvolutionSlide_ f W vec v u out n accumulate
                 end in
  if 512 <? Z.min len1 len2 then
    if len1 <? len2 then swapped else gSlideBody W vec u v out n accumulate
  else
    if len2 <? len1 then swapped else gSlideBody W vec u v out n accumulate.
Definition gConvolutionSlide := gConvolutionSlide_ 1.

(* Kernels/Convolution.hpp 101-134 *)
Definition gConvolutionReduce (u v out : list K) (n : Z) (accumulate : bool) : outcome (list K) :=
  assert_ (negb accumulate)
  (let len1 := lenZ u in
   let len2 := lenZ v in
   let vectorWidth := 8 in
   for_ 0 (lenZ out) vectorWidth (fun fo out =>
     let n := n + fo in
     let accumulator := repeat zero 8 in
     let data := repeat zero 8 in
     let mFirst := Z.max 0 (n - len2 + 1) in
     let mLast := Z.min len1 (n + vectorWidth) in
     do (accumulator, _) <- for_ mFirst mLast 1 (fun m (st : list K * list K) =>
       let (accumulator, data) := st in
       do data <- for_ 0 vectorWidth 1 (fun i data =>
         let access := n + i - m in
         do x <- (if (0 <=? access) && (access <? len2) then rd v access else Ok zero);
         wr data i x) data;
       do accumulator <- for_ 0 vectorWidth 1 (fun i accumulator =>
         do a <- rd accumulator i;
         do x <- rd u m;
         do d <- rd data i;
         wr accumulator i (add a (mul x d))) accumulator;
       Ok (accumulator, data)) (accumulator, data);
     for_ 0 (Z.min vectorWidth (lenZ out - fo)) 1 (fun i out =>
       do a <- rd accumulator i;
       wr out (fo + i) a) out) out).

(** ** gConvolutionReduceVec *)
(** one product: V1( *first1 ) * load(first2), lanewise *)
Definition grl_term (W : Z) (a : list K) (p1 : Z) (b : list K) (p2 : Z) : outcome (list K) :=
  do x <- rd a p1;
  do y <- slice b p2 W;
  Ok (map (mul x) y).

(* Kernels/Convolution.hpp 137-190: [a] at [p1] ascending, [b] at [p2] descending; [comp]:
   is the reduction compensated. The non-vectorised instance is the one-lane instance. *)
Definition gConvolutionReduceLoop (W : Z) (comp : bool) (a : list K) (p1 : Z) (b : list K) (p2 : Z)
    (init : list K) (count : Z) : outcome (list K) :=
  let carry := repeat zero (Z.to_nat W) in
  let op3 := if comp then kahan (map2 add) (map2 sub) else nocarry (map2 add) in
  do (init, idx) <-
    (if Z.odd count then
       do v1 <- grl_term W a p1 b p2;
       Ok (map2 add init v1, 1)
     else Ok (init, 0));
  do (init, idx) <-
    (if Z.testbit count 1 then
       do v1 <- grl_term W a (p1 + idx) b (p2 - idx);
       do v2 <- grl_term W a (p1 + idx + 1) b (p2 - idx - 1);
       Ok (map2 add init (map2 add v1 v2), idx + 2)
     else Ok (init, idx));
  do (_, init) <- for_ idx count 4 (fun idx (st : list K * list K) =>
    let (carry, init) := st in
    do v1 <- grl_term W a (p1 + idx) b (p2 - idx);
    do v2 <- grl_term W a (p1 + idx + 1) b (p2 - idx - 1);
    do v3 <- grl_term W a (p1 + idx + 2) b (p2 - idx - 2);
    do v4 <- grl_term W a (p1 + idx + 3) b (p2 - idx - 3);
    Ok (op3 carry init (map2 add (map2 add v1 v2) (map2 add v3 v4)))) (carry, init);
  Ok init.

(* Kernels/Convolution.hpp 210-213: the padding array, 4W-2 elements *)
Definition grv_padding (W : Z) (v : list K) : outcome (list K) :=
  let len2 := lenZ v in
  let padding := repeat zero (Z.to_nat (W * 4 - 2)) in
  do front <- slice v 0 (Z.min W len2);
  do padding <- wrs padding (W - 1) front;
  do back <- slice v (len2 - Z.min W len2) (Z.min W len2);
  wrs padding (lenZ padding - 1 - (W - 1) - (Z.min W len2 - 1)) back.

(* Kernels/Utility.hpp 36-50: lanes past [count] hold whatever was in memory: [junk] *)
Definition gload_partial_front (W : Z) (junk : list K) (l : list K) (p count : Z) : outcome (list K) :=
  if count =? W then slice l p W
  else do x <- slice l p count; Ok (x ++ firstn (Z.to_nat (W - count)) junk).
(* Kernels/Utility.hpp 52-67 *)
Definition gstore_partial_front (W : Z) (l : list K) (p : Z) (v : list K) (count : Z) : outcome (list K) :=
  if count =? W then wrs l p v
  else do x <- slice v 0 count; wrs l p x.

(* Kernels/Convolution.hpp 210-236: gConvolutionReduceVec after the operands have been ordered *)
Definition gReduceVecBody (W : Z) (comp : bool) (junk : list K) (u v out : list K) (n : Z) (accumulate : bool)
  : outcome (list K) :=
  let len1 := lenZ u in
  let len2 := lenZ v in
  do padding <- grv_padding W v;
  for_ 0 (lenZ out) W (fun fo out =>
    let n := n + fo in
    let iterationWidth := Z.min (lenZ out - fo) W in
    do accumulator <- (if accumulate then gload_partial_front W junk out fo iterationWidth
                       else Ok (repeat zero (Z.to_nat W)));
    let mFirst := Z.max 0 (n - len2 + 1) in
    let mLast := Z.min len1 (n + W) in
    let mLastPre := Z.max mFirst (Z.min mLast (n + W - len2)) in
    let mLastMid := Z.max mLastPre (Z.min n mLast) in
    let mLastPost := Z.max mLastMid mLast in
    let paddingPreOffset := lenZ padding - W + 1 + n - mFirst - len2 in
    let midOffset := Z.max 0 (n - mLastPre) in
    let paddingPostOffset := n - mLastMid + W - 1 in
    do accumulator <- gConvolutionReduceLoop W comp u mFirst padding paddingPreOffset accumulator (mLastPre - mFirst);
    do accumulator <- gConvolutionReduceLoop W comp u mLastPre v midOffset accumulator (mLastMid - mLastPre);
    do accumulator <- gConvolutionReduceLoop W comp u mLastMid padding paddingPostOffset accumulator (mLastPost - mLastMid);
    gstore_partial_front W out fo accumulator iterationWidth) out.

(* Kernels/Convolution.hpp 202-208 *)
Fixpoint gConvolutionReduceVec_ (fuel : nat) (W : Z) (comp : bool) (junk : list K) (u v out : list K) (n : Z) (accumulate : bool)
  : outcome (list K) :=
  if lenZ v <? lenZ u then
    match fuel with
    | O => UB
    | S f => gConvolutionReduceVec_ f W comp junk v u out n accumulate
    end
  else gReduceVecBody W comp junk u v out n accumulate.
Definition gConvolutionReduceVec := gConvolutionReduceVec_ 1.

(** ** Math/Convolution.hpp *)
(* Math/Convolution.hpp 50-63; the vector widths of the two kernels may differ *)
Definition gConvolutionInto (W1 W2 : Z) (vec : bool) (junk : list K) (out u v : list K) (offset : Z) (clearOut : bool)
  : outcome (list K) :=
  let fullLength := ConvolutionLength (lenZ u) (lenZ v) CONV_FULL in
  assert_ (offset + lenZ out <=? fullLength)
  (let shorterSize := Z.min (lenZ u) (lenZ v) in
   if shorterSize <=? 32
   then gConvolutionSlide W1 vec u v out offset (negb clearOut)
   else gConvolutionReduceVec W2 true junk u v out offset (negb clearOut)).
(* Math/Convolution.hpp 65-79 *)
Definition gConvolutionIntoMode W1 W2 vec junk (out u v : list K) (m : convmode) (clearOut : bool) : outcome (list K) :=
  assert_ (lenZ out =? ConvolutionLength (lenZ u) (lenZ v) m)
  (let offset := match m with
                 | CONV_FULL => 0
                 | CONV_CENTRAL => Z.min (size_sub (lenZ u) 1) (size_sub (lenZ v) 1)
                 end in
   gConvolutionInto W1 W2 vec junk out u v offset clearOut).
(* Math/Convolution.hpp 81-91 *)
Definition gConvolutionAt W1 W2 vec junk (u v : list K) (offset length : Z) : outcome (list K) :=
  gConvolutionInto W1 W2 vec junk (repeat zero (Z.to_nat length)) u v offset false.
(* Math/Convolution.hpp 93-105 *)
Definition gConvolution W1 W2 vec junk (u v : list K) (m : convmode) : outcome (list K) :=
  let length := ConvolutionLength (lenZ u) (lenZ v) m in
  let offset := match m with
                | CONV_FULL => 0
                | CONV_CENTRAL => Z.min (size_sub (lenZ u) 1) (size_sub (lenZ v) 1)
                end in
  gConvolutionAt W1 W2 vec junk u v offset length.
End Conv.

(** ** The instances for exact arithmetic *)
Section Exact.
Context {K : CRing}.
(** a * b + c *)
Definition exact_fma (a b c : K) : K := radd (rmul a b) c.
Definition ConvolutionNaive : list K -> list K -> list K -> Z -> bool -> outcome (list K) := gConvolutionNaive r0 radd rmul.
Definition SlideBody W vec : list K -> list K -> list K -> Z -> bool -> outcome (list K) := gSlideBody r0 exact_fma exact_fma W vec.
Definition ConvolutionSlide W vec : list K -> list K -> list K -> Z -> bool -> outcome (list K) := gConvolutionSlide r0 exact_fma exact_fma W vec.
Definition ConvolutionReduce : list K -> list K -> list K -> Z -> bool -> outcome (list K) := gConvolutionReduce r0 radd rmul.
Definition ConvolutionReduceLoop W comp : list K -> Z -> list K -> Z -> list K -> Z -> outcome (list K) :=
  gConvolutionReduceLoop r0 radd rsub rmul W comp.
Definition ReduceVecBody W comp : list K -> list K -> list K -> list K -> Z -> bool -> outcome (list K) :=
  gReduceVecBody r0 radd rsub rmul W comp.
Definition ConvolutionReduceVec W comp : list K -> list K -> list K -> list K -> Z -> bool -> outcome (list K) :=
  gConvolutionReduceVec r0 radd rsub rmul W comp.
Definition ConvolutionInto W1 W2 vec : list K -> list K -> list K -> list K -> Z -> bool -> outcome (list K) :=
  gConvolutionInto r0 radd rsub rmul exact_fma exact_fma W1 W2 vec.
Definition ConvolutionIntoMode W1 W2 vec : list K -> list K -> list K -> list K -> convmode -> bool -> outcome (list K) :=
  gConvolutionIntoMode r0 radd rsub rmul exact_fma exact_fma W1 W2 vec.
Definition ConvolutionAt W1 W2 vec : list K -> list K -> list K -> Z -> Z -> outcome (list K) :=
  gConvolutionAt r0 radd rsub rmul exact_fma exact_fma W1 W2 vec.
Definition Convolution W1 W2 vec : list K -> list K -> list K -> convmode -> outcome (list K) :=
  gConvolution r0 radd rsub rmul exact_fma exact_fma W1 W2 vec.
End Exact.
