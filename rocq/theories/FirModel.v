(** Model of include/dspbb/Filtering/FIR/Filter.hpp (all of it). *)
From Coq Require Import Reals.
From Verif Require Import Base IntervalModel KernelModel ConvModel Complex FftModel OlaModel.
Open Scope Z_scope.

Section Fir.
Context {K : Type}.
(* Filter.hpp 19-25: ShiftFilterState. std::move forward and std::copy through reverse iterators,
   as the index loops they specify *)
Definition ShiftFilterState (state signal : list K) : outcome (list K) :=
  do state <- (if lenZ signal <? lenZ state
               then for_ 0 (lenZ state - lenZ signal) 1 (fun i s => do x <- rd s (lenZ signal + i); wr s i x) state
               else Ok state);
  for_ 0 (Z.min (lenZ signal) (lenZ state)) 1 (fun i s =>
    do x <- rd signal (lenZ signal - 1 - i);
    wr s (lenZ s - 1 - i) x) state.

(** run a function that writes an array on the window [o, o+n) of [out] (AsView(out).subsignal(o, n)) *)
Definition on_window (out : list K) (o n : Z) (f : list K -> outcome (list K)) : outcome (list K) :=
  do w <- slice out o n;
  do w' <- f w;
  wrs out o w'.

(** the arithmetic of the element type, see ConvModel: nothing is assumed about it *)
Variables (zero : K) (add sub mul : K -> K -> K) (fmaV fmaS : K -> K -> K -> K).
(* Filter.hpp 71-84: stateful filter by convolution; returns the output and the new state.
   W1, W2, vec, junk: vector widths etc. of the convolution kernels, see ConvModel *)
Definition gFilterConvState (W1 W2 : Z) (vec : bool) (junk : list K) (out signal filter state : list K)
  : outcome (list K * list K) :=
  assert_ (lenZ state =? size_sub (lenZ filter) 1)
  (assert_ (lenZ out =? lenZ signal)
   (let out := repeat zero (length out) in
    do out <- on_window out 0 (Z.min (lenZ out) (lenZ state))
                (fun w => gConvolutionInto zero add sub mul fmaV fmaS W1 W2 vec junk w state filter (lenZ filter - 1) false);
    do out <- gConvolutionInto zero add sub mul fmaV fmaS W1 W2 vec junk out signal filter 0 false;
    do state <- ShiftFilterState state signal;
    Ok (out, state))).
(* Filter.hpp 124-132: the variant returning a new signal *)
Definition gFilterConvStateNew W1 W2 vec junk (signal filter state : list K) : outcome (list K * list K) :=
  gFilterConvState W1 W2 vec junk (repeat zero (length signal)) signal filter state.
(* Filter.hpp 41-44, 51-54, 93-98, 107-112: stateless filters by convolution *)
Definition gFilterConvMode W1 W2 vec junk (signal filter : list K) (m : convmode) : outcome (list K) :=
  gConvolutionIntoMode zero add sub mul fmaV fmaS W1 W2 vec junk (repeat zero (Z.to_nat (ConvolutionLength (lenZ signal) (lenZ filter) m))) signal filter m true.
End Fir.

(** ** The instances for exact arithmetic *)
Section ExactFir.
Context {K : CRing}.
Definition FilterConvState W1 W2 vec junk (out signal filter state : list K) : outcome (list K * list K) :=
  gFilterConvState r0 radd rsub rmul exact_fma exact_fma W1 W2 vec junk out signal filter state.
Definition FilterConvStateNew W1 W2 vec junk (signal filter state : list K) : outcome (list K * list K) :=
  FilterConvState W1 W2 vec junk (repeat r0 (length signal)) signal filter state.
Definition FilterConvMode W1 W2 vec junk (signal filter : list K) (m : convmode) : outcome (list K) :=
  ConvolutionIntoMode W1 W2 vec junk (repeat r0 (Z.to_nat (ConvolutionLength (lenZ signal) (lenZ filter) m))) signal filter m true.
End ExactFir.

(* Filter.hpp 56-69: stateful filter by overlap-add; cs, cf: is the element type of the signal
   (and of the state), of the filter complex *)
Definition FilterOlaState (iters : nat) (cs cf : bool) (out signal filter state : list C) (chunkSize : Z)
  : outcome (list C * list C) :=
  assert_ (lenZ state =? size_sub (lenZ filter) 1)
  (assert_ (lenZ out =? lenZ signal)
   (let out := zerosC (lenZ out) in
    do out <- on_window (K := Cring) out 0 (Z.min (lenZ out) (lenZ state))
                (fun w => OverlapAddInto iters cs cf w state filter (lenZ filter - 1) chunkSize false);
    do out <- OverlapAddInto iters cs cf out signal filter 0 chunkSize false;
    do state <- ShiftFilterState (K := Cring) state signal;
    Ok (out, state))).
(* Filter.hpp 114-122 *)
Definition FilterOlaStateNew iters cs cf (signal filter state : list C) (chunkSize : Z) : outcome (list C * list C) :=
  FilterOlaState iters cs cf (zerosC (lenZ signal)) signal filter state chunkSize.
(* Filter.hpp 36-39, 46-49, 86-91, 100-105: stateless filters by overlap-add *)
Definition FilterOlaMode iters cs cf (signal filter : list C) (m : convmode) (chunkSize : Z) : outcome (list C) :=
  OverlapAddIntoMode iters cs cf (zerosC (ConvolutionLength (lenZ signal) (lenZ filter) m)) signal filter m chunkSize true.

(** filtering block after block with one state, as a user does it *)
Fixpoint run_blocks {S A} (step : A -> S -> outcome (A * S)) (blocks : list A) (s : S) : outcome (list A * S) :=
  match blocks with
  | [] => Ok ([], s)
  | b :: bs => do (y, s) <- step b s; do (ys, s) <- run_blocks step bs s; Ok (y :: ys, s)
  end.
