(** Model of include/dspbb/Math/OverlapAdd.hpp.

    Samples are complex numbers; a signal with a real element type is a list of complex numbers
    with zero imaginary parts together with the flag [false] (the flag is is_complex_v of the
    element type and selects the transforms, as in the C++ overloads).  Exact arithmetic. *)
From Coq Require Import Reals.
From Verif Require Import Base IntervalModel ConvModel Complex FftModel.
Open Scope Z_scope.

(** ** Choice of the FFT size *)
Section Cost.
Local Open Scope R_scope.
(* OverlapAdd.hpp 64-66 *)
Definition CostDX (fftSize filterSize constFft constAdd constMul : R) : R :=
  filterSize * (2 * constFft + constAdd + constMul) + 2 * constFft * (filterSize * ln fftSize - fftSize).
(* OverlapAdd.hpp 69-71 *)
Definition CostD2X2 (fftSize filterSize constFft : R) : R :=
  2 * constFft * (filterSize / fftSize - 1).
(* Math/Solvers.hpp NewtonRaphson: x1 = x0 - f(x0)/f'(x0), repeated [iters] times.  The C++ loop
   decides from rounding errors when to stop (it stops when the step no longer shrinks), and runs
   at least once: the number of rounds is a parameter *)
Fixpoint NewtonRaphson (iters : nat) (func der : R -> R) (x0 : R) : R :=
  match iters with O => x0 | S n => NewtonRaphson n func der (x0 - func x0 / der x0) end.
(* OverlapAdd.hpp 78-80 *)
Definition kFft : R := 6.
Definition kAdd : R := 1.
Definition kMul : R := 3.
(* OverlapAdd.hpp 83-93 *)
Definition OptimalTheoreticalSize (iters : nat) (filterSize : R) : R :=
  NewtonRaphson iters (fun x => CostDX x filterSize kFft kAdd kMul) (fun x => CostD2X2 x filterSize kFft) (3 * filterSize).
End Cost.

(* OverlapAdd.hpp 95-105; [fuel] bounds the doublings of a 64-bit value *)
Fixpoint next_pow2_loop (fuel : nat) (p n : Z) : outcome Z :=
  if p <? n then match fuel with O => UB | S f => next_pow2_loop f (2 * p) n end else Ok p.
Definition NextPowerOfTwo (n : Z) : outcome Z :=
  assert_ (n <? 2 ^ 63) (if n =? 0 then Ok 0 else next_pow2_loop 63 1 n).

(* OverlapAdd.hpp 107-114; the conversion of the double to size_t truncates (floor of a nonnegative
   value; a negative value is undefined) *)
Definition OptimalPracticalSize (iters : nat) (signalSize filterSize : Z) : outcome Z :=
  let maxUsefulSize := ConvolutionLength signalSize filterSize CONV_FULL in
  let t := Int_part (OptimalTheoreticalSize iters (IZR filterSize)) in
  assert_ (0 <=? t)
  (do suggestedSize <- NextPowerOfTwo t;
   if suggestedSize * 3 / 4 <? maxUsefulSize then Ok suggestedSize else Ok maxUsefulSize).

(** ** The four real/complex combinations *)
Definition toR (x : list C) : list R := map re x.
Definition toC (x : list R) : list C := map RtoC x.
(* OverlapAdd.hpp 16-31 (FftFilter) *)
Definition FftFilter (complexSignal complexFilter : bool) (filter : list C) : outcome (list C) :=
  match complexSignal, complexFilter with
  | false, false => FftHalf (toR filter)
  | false, true => FftComplex filter
  | true, false => FftFull (toR filter)
  | true, true => FftComplex filter
  end.
(* OverlapAdd.hpp 34-38 *)
Definition FftChunk (s f : bool) (chunk : list C) : outcome (list C) := FftFilter f s chunk.
(* OverlapAdd.hpp 40-55 *)
Definition IfftChunk (s f : bool) (fft : list C) (fftSize : Z) : outcome (list C) :=
  match s, f with
  | false, false => do x <- IfftHalf fft (fftSize mod 2 =? 0); Ok (toC x)
  | _, _ => IfftComplex fft
  end.

(** BasicSignal(n, 0) followed by std::copy(x, first) to its beginning *)
Definition padded (n : Z) (x : list C) : outcome (list C) := wrs (zerosC n) 0 x.

(* out.subsignal(o, n) += chunk.subsignal(c, n): subsignal checks its range, += adds sample by sample *)
Definition add_window (out : list C) (o : Z) (chunk : list C) (c n : Z) : outcome (list C) :=
  assert_ ((0 <=? o) && (0 <=? n) && (o + n <=? lenZ out) && (0 <=? c) && (c + n <=? lenZ chunk))
  (for_ 0 n 1 (fun i out => do a <- rd out (o + i); do b <- rd chunk (c + i); wr out (o + i) (Cadd a b)) out).

(* OverlapAdd.hpp 154-165: one round *)
Definition ola_round (cu cv : bool) (u filterFd : list C) (vsize chunkSize offset : Z)
    (outExtent uExtent uInterval outInterval : interval) (out : list C) : outcome (list C) :=
  let uValid := Intersection uInterval uExtent in
  do part <- slice u (first uValid) (size uValid);
  do workingChunk <- padded chunkSize part;
  do workingChunkFd <- FftChunk cu cv workingChunk;
  assert_ (lenZ workingChunkFd =? lenZ filterFd)
  (let filteredChunkFd := map2 Cmul workingChunkFd filterFd in
   do filteredChunk <- IfftChunk cu cv filteredChunkFd chunkSize;
   let outValid := shift_sub (Intersection outInterval outExtent) offset in
   let chunkValid := shift_sub (Intersection outInterval outExtent) (first uInterval) in
   add_window out (first outValid) filteredChunk (first chunkValid) (size chunkValid)).
(* OverlapAdd.hpp 153: the loop; [fuel] bounds the rounds, running out of it is reported as UB *)
Fixpoint ola_loop (fuel : nat) (cu cv : bool) (u filterFd : list C) (vsize chunkSize offset : Z)
    (outExtent uExtent uInterval outInterval : interval) (out : list C) : outcome (list C) :=
  if IsDisjoint outInterval outExtent then Ok out else
  match fuel with
  | O => UB
  | S fuel =>
    do out <- ola_round cu cv u filterFd vsize chunkSize offset outExtent uExtent uInterval outInterval out;
    ola_loop fuel cu cv u filterFd vsize chunkSize offset outExtent uExtent
      (shift_add uInterval vsize) (shift_add outInterval vsize) out
  end.

(* OverlapAdd.hpp 122-167 without the swap of lines 122-124 *)
Definition OverlapAddOrdered (iters : nat) (cu cv : bool) (out u v : list C) (offset chunkSize : Z) (clearOut : bool)
  : outcome (list C) :=
  do chunkSize <- (if chunkSize =? 0 then OptimalPracticalSize iters (lenZ u) (lenZ v) else Ok chunkSize);
  assert_ (size_sub (2 * lenZ v) 1 <=? chunkSize)
  (let fullLength := ConvolutionLength (lenZ u) (lenZ v) CONV_FULL in
   assert_ (offset + lenZ out <=? fullLength)
   (let out := if clearOut then zerosC (lenZ out) else out in
    do filter <- padded chunkSize v;
    do filterFd <- FftFilter cu cv filter;
    let outExtent := mkI offset (offset + lenZ out) in
    let uExtent := mkI 0 (lenZ u) in
    let loopInterval := Intersection uExtent
      (EncompassingUnion outExtent (shift_sub (shift_add outExtent 1) (lenZ v))) in
    let uInterval := mkI (first loopInterval) (first loopInterval + lenZ v) in
    let outInterval := mkI (first loopInterval) (first loopInterval + chunkSize) in
    ola_loop (Z.to_nat (offset + lenZ out)) cu cv u filterFd (lenZ v) chunkSize offset outExtent uExtent
      uInterval outInterval out)).
(* OverlapAdd.hpp 120-167 *)
Definition OverlapAddInto iters (cu cv : bool) (out u v : list C) (offset chunkSize : Z) (clearOut : bool) : outcome (list C) :=
  if lenZ u <? lenZ v then OverlapAddOrdered iters cv cu out v u offset chunkSize clearOut
  else OverlapAddOrdered iters cu cv out u v offset chunkSize clearOut.
(* OverlapAdd.hpp 169-183 *)
Definition OverlapAddIntoMode iters (cu cv : bool) (out u v : list C) (m : convmode) (chunkSize : Z) (clearOut : bool) : outcome (list C) :=
  assert_ (lenZ out =? ConvolutionLength (lenZ u) (lenZ v) m)
  (let offset := match m with
                 | CONV_FULL => 0
                 | CONV_CENTRAL => Z.min (size_sub (lenZ u) 1) (size_sub (lenZ v) 1)
                 end in
   OverlapAddInto iters cu cv out u v offset chunkSize clearOut).
(* OverlapAdd.hpp 186-196 *)
Definition OverlapAddAt iters cu cv (u v : list C) (offset length chunkSize : Z) : outcome (list C) :=
  OverlapAddInto iters cu cv (zerosC length) u v offset chunkSize false.
(* OverlapAdd.hpp 198-210 *)
Definition OverlapAdd iters cu cv (u v : list C) (m : convmode) (chunkSize : Z) : outcome (list C) :=
  let length := ConvolutionLength (lenZ u) (lenZ v) m in
  let offset := match m with
                | CONV_FULL => 0
                | CONV_CENTRAL => Z.min (size_sub (lenZ u) 1) (size_sub (lenZ v) 1)
                end in
  OverlapAddAt iters cu cv u v offset length chunkSize.
