(** Model of include/dspbb/Filtering/IIR/Realizations.hpp and Filter.hpp (all of both files).
    Simplifications: the element types of input, coefficients and state are one type K (static_cast
    between them is the identity); output iterators are index writes.  The definitions [g...] are
    parametrised by the operations of K, which may round (C71); [madd acc x y] is acc + x * y, which
    a compiler may fuse.  Without the prefix they use the exact operations of a field. *)
From Verif Require Import Base IntervalModel KernelModel ConvModel.
Open Scope Z_scope.

(* Polynomials.hpp 103-106: order of a coefficient polynomial *)
Definition poly_order {A} (p : list A) : Z := if lenZ p =? 0 then 0 else lenZ p - 1.

(* Signal.hpp resize(count, value): truncate, or append copies of value *)
Definition vresize {A} (l : list A) (n : Z) (v : A) : list A :=
  firstn (Z.to_nat n) l ++ repeat v (Z.to_nat (n - lenZ l)).

Section Gen.
Context {K : Type} (zero one : K) (sub mul div : K -> K -> K) (madd : K -> K -> K -> K).

(* Systems.hpp 28-43: TransferFunction *)
Record tf := mkTf { numerator : list K; denominator : list K }.
(* Systems.hpp 42 *)
Definition tf_order (s : tf) : Z := Z.max (poly_order (numerator s)) (poly_order (denominator s)).

(* std::move(++s.begin(), s.end(), s.begin()); *s.rbegin() = v;  (Realizations.hpp 86-87, 94-95, 165-166).
   ++begin() of an empty range is undefined *)
Definition shift_in (s : list K) (v : K) : outcome (list K) :=
  assert_ (negb (lenZ s =? 0))
  (do s <- for_ 0 (lenZ s - 1) 1 (fun i s => do x <- rd s (i + 1); wr s i x) s;
   wr s (lenZ s - 1) v).

(* std::inner_product over n elements of a from index oa, and of b from index ob (Realizations.hpp 89-90, 164, 167) *)
Definition ginner (a : list K) (oa : Z) (b : list K) (ob n : Z) : outcome K :=
  for_ 0 n 1 (fun i acc => do x <- rd a (oa + i); do y <- rd b (ob + i); Ok (madd acc x y)) zero.

(** *** Direct form I *)
(* Realizations.hpp 32-34 *)
Record df1 := mkDf1 { rec1 : list K; fw1 : list K }.
(* 43-47: order(n), starting from a given state; 38-41: the constructor starts from empty arrays *)
Definition gdf1_set_order (s : df1) (n : Z) : df1 := mkDf1 (vresize (rec1 s) n zero) (vresize (fw1 s) (n + 1) zero).
Definition gdf1_new (n : Z) : df1 := gdf1_set_order (mkDf1 [] []) n.
(* 49-53 *)
Definition gdf1_reset (s : df1) : df1 := mkDf1 (map (fun _ => zero) (rec1 s)) (map (fun _ => zero) (fw1 s)).
(* 55-58 *)
Definition df1_order (s : df1) : Z := lenZ (rec1 s).
(* 72, 61-63: the precondition *)
Definition df1_pre (s : df1) (sys : tf) : bool := negb (lenZ (fw1 s) =? 0) && (tf_order sys <=? df1_order s).
(* 74-81, 83-98: one iteration of the loop, together with the views it uses *)
Definition gdf1_step (sys : tf) (x : K) (s : df1) : outcome (K * df1) :=
  let fwFull := numerator sys in
  let recFull := denominator sys in
  do recSec <- slice recFull 0 (size_sub (lenZ recFull) 1);
  let fwOff := size_sub (lenZ (fw1 s)) (lenZ fwFull) in
  let recOff := size_sub (lenZ (rec1 s)) (lenZ recSec) in
  assert_ (fwOff <=? lenZ (fw1 s))
  (assert_ (recOff <=? lenZ (rec1 s))
   (do lead <- rd recFull (lenZ recFull - 1);
    let normalization := div one lead in
    do fw <- shift_in (fw1 s) x;
    do fwSum <- ginner fw fwOff fwFull 0 (lenZ fw - fwOff);
    do recSum <- ginner (rec1 s) recOff recSec 0 (lenZ (rec1 s) - recOff);
    let out := mul (sub fwSum recSum) normalization in
    do rec <- (if 0 <? lenZ (rec1 s) then shift_in (rec1 s) out else Ok (rec1 s));
    Ok (out, mkDf1 rec fw))).

(** *** Direct form II *)
(* Realizations.hpp 122-123: m_state; 126-134 constructor and order(n) *)
Definition gdf2_set_order (s : list K) (n : Z) : list K := vresize s (n + 1) zero.
Definition gdf2_new (n : Z) : list K := gdf2_set_order [] n.
(* 136-139 *)
Definition gdf2_reset (s : list K) : list K := map (fun _ => zero) s.
(* 141-144 *)
Definition df2_order (s : list K) : Z := if lenZ s =? 0 then 0 else lenZ s - 1.
(* 148, 158 *)
Definition df2_pre (s : list K) (sys : tf) : bool := negb (lenZ s =? 0) && (tf_order sys <=? df2_order s).
(* 160-172 *)
Definition gdf2_step (sys : tf) (x : K) (s : list K) : outcome (K * list K) :=
  let fwFull := numerator sys in
  let recFull := denominator sys in
  do recSec <- slice recFull 0 (size_sub (lenZ recFull) 1);
  let fwOff := size_sub (lenZ s) (lenZ fwFull) in
  let recOff := size_sub (lenZ s) (lenZ recSec) in
  assert_ (fwOff <=? lenZ s)
  (assert_ (recOff <=? lenZ s)
   (do lead <- rd recFull (lenZ recFull - 1);
    let normalization := div one lead in
    do recSum <- ginner recSec 0 s recOff (lenZ recSec);
    let stateNext := sub (mul x normalization) recSum in
    do s <- shift_in s stateNext;
    do output <- ginner fwFull 0 s fwOff (lenZ fwFull);
    Ok (output, s))).

(** *** Cascaded form *)
(* std::array<T, 3> *)
Definition arr3 : Type := (K * K * K)%type.
(* Systems.hpp 52-57; the orders are used by operator() and order() only *)
Record biquad := mkBq { bnum : arr3; bden : K * K; numOrder : Z; denOrder : Z }.
Definition gzero3 : arr3 := (zero, zero, zero).
(* Realizations.hpp 203-213 *)
Definition gcf_set_order (s : list arr3) (n : Z) : list arr3 := vresize s (1 + (n + 1) / 2) gzero3.
Definition gcf_new (n : Z) : list arr3 := gcf_set_order [] n.
(* 215-220 *)
Definition gcf_reset (s : list arr3) : list arr3 := map (fun _ => gzero3) s.
(* 222-225 *)
Definition cf_order (s : list arr3) : Z := (Z.max 1 (lenZ s) - 1) * 2.
(* 229-254: feed one sample *)
Definition gcf_step (sys : list biquad) (x : K) (s : list arr3) : outcome (K * list arr3) :=
  assert_ (lenZ sys + 1 <=? lenZ s)
  (for_ 0 (lenZ s) 1 (fun i st =>
    let '(output, s) := st in
    do cur0 <- rd s i;
    let '(c0, c1, c2) := cur0 in
    let cur := (c1, c2, output) in
    do s <- wr s i cur;
    if i <? lenZ sys then
      do next <- rd s (i + 1);
      do sec <- rd sys i;
      let '(b0, b1, b2) := bnum sec in
      let '(a0, a1) := bden sec in
      let '(d0, d1, d2) := cur in
      let '(n0, n1, n2) := next in
      let fwSum := madd (madd (mul d0 b0) d1 b1) d2 b2 in
      let recSum := madd (mul n1 a0) n2 a1 in
      Ok (sub fwSum recSum, s)
    else Ok (output, s)) (x, s)).
End Gen.
Arguments tf K : clear implicits.
Arguments df1 K : clear implicits.
Arguments biquad K : clear implicits.
Arguments arr3 K : clear implicits.

(** with the exact operations of a field *)
Definition macc {K : CRing} (acc x y : K) : K := radd acc (rmul x y).
Notation inner := (ginner r0 macc).
Notation zero3 := (gzero3 r0).
Section Exact.
Context {K : CField}.
Definition df1_set_order : df1 K -> Z -> df1 K := gdf1_set_order r0.
Definition df1_new : Z -> df1 K := gdf1_new r0.
Definition df1_reset : df1 K -> df1 K := gdf1_reset r0.
Definition df1_step : tf K -> K -> df1 K -> outcome (K * df1 K) := gdf1_step r0 r1 rsub rmul fdiv macc.
Definition df2_set_order : list K -> Z -> list K := gdf2_set_order r0.
Definition df2_new : Z -> list K := gdf2_new r0.
Definition df2_reset : list K -> list K := gdf2_reset r0.
Definition df2_step : tf K -> K -> list K -> outcome (K * list K) := gdf2_step r0 r1 rsub rmul fdiv macc.
Definition cf_set_order : list (arr3 K) -> Z -> list (arr3 K) := gcf_set_order r0.
Definition cf_new : Z -> list (arr3 K) := gcf_new r0.
Definition cf_reset : list (arr3 K) -> list (arr3 K) := gcf_reset r0.
Definition cf_step : list (biquad K) -> K -> list (arr3 K) -> outcome (K * list (arr3 K)) := gcf_step rsub rmul macc.
End Exact.

Section Loops.
Context {K : Type} (zero : K).

(** *** Filter.hpp *)
(* Realizations.hpp 83-98, 162-173, 258-262 (the iterator loop) under Filter.hpp 9-13: the outputs
   are written to [out] *)
Definition feed_loop {S} (step : K -> S -> outcome (K * S)) (out signal : list K) (s : S) : outcome (list K * S) :=
  for_ 0 (lenZ signal) 1 (fun i st =>
    let '(out, s) := st in
    do x <- rd signal i;
    do (y, s) <- step x s;
    do out <- wr out i y;
    Ok (out, s)) (out, s).
(** the same loop when [out] and [signal] are the same array (filtering in place) *)
Definition feed_loop_inplace {S} (step : K -> S -> outcome (K * S)) (buf : list K) (s : S) : outcome (list K * S) :=
  for_ 0 (lenZ buf) 1 (fun i st =>
    let '(buf, s) := st in
    do x <- rd buf i;
    do (y, s) <- step x s;
    do buf <- wr buf i y;
    Ok (buf, s)) (buf, s).
(* Filter.hpp 9-13, 16-29 *)
Definition IirFilterInto {S} (pre : bool) (step : K -> S -> outcome (K * S)) (out signal : list K) (s : S) : outcome (list K * S) :=
  assert_ (lenZ out =? lenZ signal) (assert_ pre (feed_loop step out signal s)).
(* Filter.hpp 31-50 *)
Definition gIirFilter {S} (pre : bool) (step : K -> S -> outcome (K * S)) (signal : list K) (s : S) : outcome (list K * S) :=
  IirFilterInto pre step (repeat zero (length signal)) signal s.
Definition gFilter_df1 one sub mul div madd (sys : tf K) (signal : list K) (s : df1 K) :=
  gIirFilter (df1_pre s sys) (gdf1_step zero one sub mul div madd sys) signal s.
Definition gFilter_df2 one sub mul div madd (sys : tf K) (signal : list K) (s : list K) :=
  gIirFilter (df2_pre s sys) (gdf2_step zero one sub mul div madd sys) signal s.
(* the cascaded form checks its precondition for each sample *)
Definition gFilter_cf sub mul madd (sys : list (biquad K)) (signal : list K) (s : list (arr3 K)) :=
  gIirFilter true (gcf_step sub mul madd sys) signal s.
End Loops.

Section Filters.
Context {K : CField}.
Definition IirFilter {S} : bool -> (K -> S -> outcome (K * S)) -> list K -> S -> outcome (list K * S) := gIirFilter r0.
Definition Filter_df1 (sys : tf K) (signal : list K) (s : df1 K) := IirFilter (df1_pre s sys) (df1_step sys) signal s.
Definition Filter_df2 (sys : tf K) (signal : list K) (s : list K) := IirFilter (df2_pre s sys) (df2_step sys) signal s.
(* the cascaded form checks its precondition for each sample *)
Definition Filter_cf (sys : list (biquad K)) (signal : list K) (s : list (arr3 K)) := IirFilter true (cf_step sys) signal s.
(* Realizations.hpp 62-69, 147-154: feeding a single sample *)
Definition df1_feed (sys : tf K) (x : K) (s : df1 K) := assert_ (df1_pre s sys) (df1_step sys x s).
Definition df2_feed (sys : tf K) (x : K) (s : list K) := assert_ (df2_pre s sys) (df2_step sys x s).
End Filters.
