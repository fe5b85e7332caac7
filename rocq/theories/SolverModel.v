(** Model of include/dspbb/Math/Solvers.hpp: Bisect.  Arithmetic is exact (R).
    The C++ loop has no bound on its iterations; [limit] is one: the loop is cut off after at most [limit] passes.  With
    tolerance 0, exact arithmetic never meets the loop's own exit condition, rounding does; theorems hold for every limit,
    or show the limit from which on it has no influence. *)
From Coq Require Import Reals.
From Verif Require Import Base.
Open Scope R_scope.

(* Solvers.hpp 10-22: the body of the do-while loop and its condition *)
Fixpoint bisect_loop (limit : nat) (func : R -> R) (tolerance a b c err : R) : R :=
  match limit with
  | O => c
  | S limit =>
    let fa := func a in
    let fc := func c in
    let '(a, b) := if Rle_dec (fa * fc) 0 then (a, c) else (c, b) in
    let c := (a + b) / 2 in
    let errPrev := err in
    let err := Rabs (b - a) in
    if Rlt_dec tolerance err then if Rlt_dec err errPrev then bisect_loop limit func tolerance a b c err else c else c
  end.
(* Solvers.hpp 5-25; tmax: std::numeric_limits<T>::max() *)
Definition Bisect (tmax : R) (limit : nat) (func : R -> R) (a b tolerance : R) : R :=
  bisect_loop limit func tolerance a b ((a + b) / 2) tmax.
