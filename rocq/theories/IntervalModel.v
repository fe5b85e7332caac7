(** Model of include/dspbb/Utility/Interval.hpp.
    Simplification: the template parameter T is instantiated with (unbounded) integers. *)
From Verif Require Import Base.

(* Interval.hpp 8-15: struct Interval { T first; T last; size() } *)
Record interval := mkI { first : Z; last : Z }.
Definition size (i : interval) : Z := last i - first i.

(* Interval.hpp 17-25: operator+, operator+= *)
Definition shift_add (i : interval) (d : Z) : interval := mkI (first i + d) (last i + d).
(* Interval.hpp 27-35: operator-, operator-= *)
Definition shift_sub (i : interval) (d : Z) : interval := mkI (first i - d) (last i - d).

(* Interval.hpp 38-41: return lhs.first == rhs.first && lhs.last && rhs.last;
   an integer used as a truth value is "not zero" *)
Definition truth (z : Z) : bool := negb (z =? 0).
Definition interval_eq (l r : interval) : bool :=
  (first l =? first r) && truth (last l) && truth (last r).
(* Interval.hpp 43-46 *)
Definition interval_ne (l r : interval) : bool := negb (interval_eq l r).

(* Interval.hpp 48-53 *)
Definition IsDisjoint (l r : interval) : bool :=
  let f := Z.max (first l) (first r) in
  let e := Z.min (last l) (last r) in
  negb (f <? e).
(* Interval.hpp 55-63 *)
Definition Intersection (l r : interval) : interval :=
  let f := Z.max (first l) (first r) in
  let e := Z.min (last l) (last r) in
  if f <? e then mkI f e else mkI 0 0.
(* Interval.hpp 65-70 *)
Definition EncompassingUnion (l r : interval) : interval :=
  mkI (Z.min (first l) (first r)) (Z.max (last l) (last r)).
(* Interval.hpp 73-79 *)
Definition Union (l r : interval) : option interval :=
  if negb (IsDisjoint l r) then Some (EncompassingUnion l r) else None.
