(** Model of include/dspbb/Utility/Interval.hpp for any endpoint type: [lt] is its operator<, [add], [sub] its + and -,
    [eqb] its ==, [truth] its conversion to bool and [zero] is T(0).  Nothing is assumed about them.
    (IntervalModel is the instance for the integers.) *)
From Verif Require Import Base.

(* Interval.hpp 8-15 *)
Record ginterval (T : Type) := mkGI { gfirst : T; glast : T }.
Arguments mkGI {T}. Arguments gfirst {T}. Arguments glast {T}.

Section G.
Context {T : Type} (lt eqb : T -> T -> bool) (add sub : T -> T -> T) (truth : T -> bool) (zero : T).
(* std::max and std::min of <algorithm>: (a < b) ? b : a and (b < a) ? b : a *)
Definition gmax (a b : T) : T := if lt a b then b else a.
Definition gmin (a b : T) : T := if lt b a then b else a.

(* Interval.hpp 14 *)
Definition gsize (i : ginterval T) : T := sub (glast i) (gfirst i).
(* Interval.hpp 17-25 *)
Definition gshift_add (i : ginterval T) (d : T) : ginterval T := mkGI (add (gfirst i) d) (add (glast i) d).
(* Interval.hpp 27-35 *)
Definition gshift_sub (i : ginterval T) (d : T) : ginterval T := mkGI (sub (gfirst i) d) (sub (glast i) d).
(* Interval.hpp 38-41 *)
Definition ginterval_eq (l r : ginterval T) : bool := eqb (gfirst l) (gfirst r) && truth (glast l) && truth (glast r).
(* Interval.hpp 48-53 *)
Definition gIsDisjoint (l r : ginterval T) : bool :=
  let f := gmax (gfirst l) (gfirst r) in
  let e := gmin (glast l) (glast r) in
  negb (lt f e).
(* Interval.hpp 55-63 *)
Definition gIntersection (l r : ginterval T) : ginterval T :=
  let f := gmax (gfirst l) (gfirst r) in
  let e := gmin (glast l) (glast r) in
  if lt f e then mkGI f e else mkGI zero zero.
(* Interval.hpp 65-70 *)
Definition gEncompassingUnion (l r : ginterval T) : ginterval T :=
  mkGI (gmin (gfirst l) (gfirst r)) (gmax (glast l) (glast r)).
(* Interval.hpp 73-79 *)
Definition gUnion (l r : ginterval T) : option (ginterval T) :=
  if negb (gIsDisjoint l r) then Some (gEncompassingUnion l r) else None.
End G.
