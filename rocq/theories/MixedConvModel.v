(** Model of Kernels/Convolution.hpp, Math/Convolution.hpp and the streaming filter of FIR/Filter.hpp for operands
    of different element types (a real filter on a complex signal, ...).

    ConvModel has one element type; here the operands have element types [A] and [B] and the output [O].  A product
    has C++'s type multiplies_result_t<A, B>; it is modelled as already converted to [O] (simplification: the
    library's output type is that type or one it converts to).  Mixed batch operations do to every lane what the
    mixed element operation does.  Everything else (windows, padding, loop bounds, accesses) is as in the code. *)
From Coq Require Import List.
From Verif Require Import Base IntervalModel KernelModel ConvModel FirModel.
Open Scope Z_scope.

Section Mixed.
Context {O : Type} (zO : O) (add sub : O -> O -> O).

(* Kernels/Convolution.hpp 47-61 *)
Definition mConvolutionNaive {A B} (mul : A -> B -> O) (u : list A) (v : list B) (out : list O) (n : Z) (accumulate : bool) : outcome (list O) :=
  for_ 0 (lenZ out) 1 (fun k out =>
    do acc0 <- (if accumulate then rd out k else Ok zO);
    do acc <- for_ (Z.max 0 (n + k - lenZ v + 1)) (Z.min (lenZ u) (n + k + 1)) 1 (fun m acc =>
                do x <- rd u m;
                do y <- rd v (n + k - m);
                Ok (add acc (mul x y))) acc0;
    wr out k acc) out.

(* Kernels/Numeric.hpp 129-158 with the first operand the output itself: firstOut[i] = f(firstOut[i], first2[i]),
   [po]: position of firstOut, [p2]: of first2 *)
Definition mTransformInOut {B} (W : Z) (vec : bool) (out : list O) (po : Z) (v : list B) (p2 count : Z) (f : O -> B -> O) : outcome (list O) :=
  let vectorLast := if vec then (count / W) * W else 0 in
  do out <- (if vec
             then for_ 0 vectorLast W (fun i out =>
                    do v1 <- slice out (po + i) W;
                    do v2 <- slice v (p2 + i) W;
                    wrs out (po + i) (map2 f v1 v2)) out
             else Ok out);
  for_ vectorLast count 1 (fun i out =>
    do x <- rd out (po + i);
    do y <- rd v (p2 + i);
    wr out (po + i) (f x y)) out.

(* Kernels/Convolution.hpp 81-98: the operands have been ordered; convolution_fma (27-44): increase * multiplier + accumulator *)
Definition mSlideBody {A B} (mul : A -> B -> O) (W : Z) (vec : bool) (u : list A) (v : list B) (out : list O) (n : Z) (accumulate : bool) : outcome (list O) :=
  let lenOut := lenZ out in
  let out := if accumulate then out else repeat zO (length out) in
  let multiplierRange := mkI (Z.max 0 (n - lenZ v + 1)) (Z.min (lenZ u) (n + lenOut)) in
  let outRange := mkI n (n + lenOut) in
  for_ (first multiplierRange) (last multiplierRange) 1 (fun f out =>
    let slidingRange := mkI f (f + lenZ v) in
    do multiplier <- rd u f;
    let writeRange := Intersection outRange slidingRange in
    let writeRangeOut := shift_sub writeRange n in
    let writeFirst2 := first writeRange - first slidingRange in
    mTransformInOut W vec out (first writeRangeOut) v writeFirst2 (size writeRangeOut)
      (fun accumulator increase => add (mul multiplier increase) accumulator)) out.
(* Kernels/Convolution.hpp 63-79; [flip mul] multiplies the swapped operands.  The recursive call finds its operands
   ordered, as in ConvModel; a second swap would be an endless recursion, reported as UB *)
Fixpoint mConvolutionSlide_ (fuel : nat) {A B} (mul : A -> B -> O) (W : Z) (vec : bool) (u : list A) (v : list B) (out : list O) (n : Z) (accumulate : bool)
  : outcome (list O) :=
  let swapped := match fuel with
                 | 0%nat => UB
                 | S f => mConvolutionSlide_ f (fun b a => mul a b) W vec v u out n accumulate
                 end in
  if 512 <? Z.min (lenZ u) (lenZ v) then
    if lenZ u <? lenZ v then swapped else mSlideBody mul W vec u v out n accumulate
  else
    if lenZ v <? lenZ u then swapped else mSlideBody mul W vec u v out n accumulate.

(* Kernels/Convolution.hpp 137-190 *)
Definition mrl_term {A B} (mul : A -> B -> O) (W : Z) (a : list A) (p1 : Z) (b : list B) (p2 : Z) : outcome (list O) :=
  do x <- rd a p1;
  do y <- slice b p2 W;
  Ok (map (mul x) y).
Definition mConvolutionReduceLoop {A B} (mul : A -> B -> O) (W : Z) (comp : bool) (a : list A) (p1 : Z) (b : list B) (p2 : Z)
    (init : list O) (count : Z) : outcome (list O) :=
  let carry := repeat zO (Z.to_nat W) in
  let op3 := if comp then kahan (map2 add) (map2 sub) else nocarry (map2 add) in
  do (init, idx) <-
    (if Z.odd count then
       do v1 <- mrl_term mul W a p1 b p2;
       Ok (map2 add init v1, 1)
     else Ok (init, 0));
  do (init, idx) <-
    (if Z.testbit count 1 then
       do v1 <- mrl_term mul W a (p1 + idx) b (p2 - idx);
       do v2 <- mrl_term mul W a (p1 + idx + 1) b (p2 - idx - 1);
       Ok (map2 add init (map2 add v1 v2), idx + 2)
     else Ok (init, idx));
  do (_, init) <- for_ idx count 4 (fun idx (st : list O * list O) =>
    let (carry, init) := st in
    do v1 <- mrl_term mul W a (p1 + idx) b (p2 - idx);
    do v2 <- mrl_term mul W a (p1 + idx + 1) b (p2 - idx - 1);
    do v3 <- mrl_term mul W a (p1 + idx + 2) b (p2 - idx - 2);
    do v4 <- mrl_term mul W a (p1 + idx + 3) b (p2 - idx - 3);
    Ok (op3 carry init (map2 add (map2 add v1 v2) (map2 add v3 v4)))) (carry, init);
  Ok init.
(* Kernels/Convolution.hpp 210-236; the padding has the element type of the longer operand ([zB] its zero) *)
Definition mReduceVecBody {A B} (mul : A -> B -> O) (zB : B) (W : Z) (comp : bool) (junk : list O) (u : list A) (v : list B) (out : list O) (n : Z) (accumulate : bool)
  : outcome (list O) :=
  let len1 := lenZ u in
  let len2 := lenZ v in
  do padding <- grv_padding zB W v;
  for_ 0 (lenZ out) W (fun fo out =>
    let n := n + fo in
    let iterationWidth := Z.min (lenZ out - fo) W in
    do accumulator <- (if accumulate then gload_partial_front W junk out fo iterationWidth
                       else Ok (repeat zO (Z.to_nat W)));
    let mFirst := Z.max 0 (n - len2 + 1) in
    let mLast := Z.min len1 (n + W) in
    let mLastPre := Z.max mFirst (Z.min mLast (n + W - len2)) in
    let mLastMid := Z.max mLastPre (Z.min n mLast) in
    let mLastPost := Z.max mLastMid mLast in
    let paddingPreOffset := lenZ padding - W + 1 + n - mFirst - len2 in
    let midOffset := Z.max 0 (n - mLastPre) in
    let paddingPostOffset := n - mLastMid + W - 1 in
    do accumulator <- mConvolutionReduceLoop mul W comp u mFirst padding paddingPreOffset accumulator (mLastPre - mFirst);
    do accumulator <- mConvolutionReduceLoop mul W comp u mLastPre v midOffset accumulator (mLastMid - mLastPre);
    do accumulator <- mConvolutionReduceLoop mul W comp u mLastMid padding paddingPostOffset accumulator (mLastPost - mLastMid);
    gstore_partial_front W out fo accumulator iterationWidth) out.
(* Kernels/Convolution.hpp 202-208 *)
Fixpoint mConvolutionReduceVec_ (fuel : nat) {A B} (mul : A -> B -> O) (zA : A) (zB : B) (W : Z) (comp : bool) (junk : list O) (u : list A) (v : list B) (out : list O)
    (n : Z) (accumulate : bool) : outcome (list O) :=
  if lenZ v <? lenZ u then
    match fuel with
    | 0%nat => UB
    | S f => mConvolutionReduceVec_ f (fun b a => mul a b) zB zA W comp junk v u out n accumulate
    end
  else mReduceVecBody mul zB W comp junk u v out n accumulate.

(* Math/Convolution.hpp 50-63 *)
Definition mConvolutionInto {A B} (mul : A -> B -> O) (zA : A) (zB : B) (W1 W2 : Z) (vec : bool) (junk : list O) (out : list O) (u : list A) (v : list B)
    (offset : Z) (clearOut : bool) : outcome (list O) :=
  assert_ (offset + lenZ out <=? ConvolutionLength (lenZ u) (lenZ v) CONV_FULL)
  (if Z.min (lenZ u) (lenZ v) <=? 32
   then mConvolutionSlide_ 1 mul W1 vec u v out offset (negb clearOut)
   else mConvolutionReduceVec_ 1 mul zA zB W2 true junk u v out offset (negb clearOut)).
(* Math/Convolution.hpp 81-91, 93-105 *)
Definition mConvolutionAt {A B} (mul : A -> B -> O) zA zB W1 W2 vec junk (u : list A) (v : list B) (offset length : Z) : outcome (list O) :=
  mConvolutionInto mul zA zB W1 W2 vec junk (repeat zO (Z.to_nat length)) u v offset false.
Definition mConvolution {A B} (mul : A -> B -> O) zA zB W1 W2 vec junk (u : list A) (v : list B) (m : convmode) : outcome (list O) :=
  let offset := match m with
                | CONV_FULL => 0
                | CONV_CENTRAL => Z.min (size_sub (lenZ u) 1) (size_sub (lenZ v) 1)
                end in
  mConvolutionAt mul zA zB W1 W2 vec junk u v offset (ConvolutionLength (lenZ u) (lenZ v) m).
(* FIR/Filter.hpp 71-84, 124-132: filter of element type [B], signal and state of element type [A]; a new output *)
Definition mFilterConvStateNew {A B} (mul : A -> B -> O) zA zB W1 W2 vec junk (signal : list A) (filter : list B) (state : list A)
  : outcome (list O * list A) :=
  assert_ (lenZ state =? size_sub (lenZ filter) 1)
  (let out := repeat zO (length signal) in
   do out <- on_window out 0 (Z.min (lenZ out) (lenZ state))
               (fun w => mConvolutionInto mul zA zB W1 W2 vec junk w state filter (lenZ filter - 1) false);
   do out <- mConvolutionInto mul zA zB W1 W2 vec junk out signal filter 0 false;
   do state <- ShiftFilterState state signal;
   Ok (out, state)).
End Mixed.
(** a caller's loop: every block in turn through a stateful filter *)
Fixpoint mrun_blocks {S A B} (step : A -> S -> outcome (B * S)) (blocks : list A) (s : S) : outcome (list B * S) :=
  match blocks with
  | [] => Ok ([], s)
  | b :: bs => do (y, s) <- step b s; do (ys, s) <- mrun_blocks step bs s; Ok (y :: ys, s)
  end.
