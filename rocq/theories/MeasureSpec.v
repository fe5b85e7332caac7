(** Specification for C44 (measured bands of an amplitude response). *)
From Coq Require Import ZArith List Bool Reals.
From Verif Require Import Base MeasureModel.
Import ListNotations.
Open Scope Z_scope.

(** [gtb x y]: x > y, [ltb x y]: x < y *)
(** the two-threshold switch: on above [upper], off at or below [lower], otherwise unchanged *)
Fixpoint schmitt (lower upper : R) (state : bool) (xs : list R) : list bool :=
  match xs with
  | [] => []
  | x :: xs => let s := if gtb x upper then true else if gtb x lower then state else false in s :: schmitt lower upper s xs
  end.
(** the values of the runs of equal elements *)
Fixpoint runs (l : list bool) : list bool :=
  match l with a :: ((b :: _) as tl) => if Bool.eqb a b then runs tl else a :: runs tl | _ => l end.
(** the positions (counted from i) at which a run other than the first begins *)
Fixpoint changes (i : Z) (l : list bool) : list Z :=
  match l with a :: ((b :: _) as tl) => if Bool.eqb a b then changes (i + 1) tl else (i + 1) :: changes (i + 1) tl | _ => [] end.
(** each element of l between the previous and the current element of f; strictly after the previous one except for the first *)
Fixpoint interleaved (strict : bool) (prev : Z) (l f : list Z) : Prop :=
  match l, f with
  | [], [] => True
  | x :: l, y :: f => (if strict then prev < x else prev <= x) /\ x <= y /\ interleaved true y l f
  | _, _ => False
  end.

Definition sample (l : list R) (i : Z) : R := nth (Z.to_nat i) l 0%R.
(** an element that none of its neighbours up to distance 2 surpasses, all five of them present *)
Definition peak (cmp : R -> R -> bool) (l : list R) (i : Z) : Prop := 2 <= i /\ i + 2 < lenZ l /\ forall j, i - 2 <= j <= i + 2 -> cmp (sample l i) (sample l j) = false.
(** r is the largest deviation from the target over all peaks in either direction, 0 if there are none *)
Definition peaks_deviation (target : R) (l : list R) (r : R) : Prop :=
  (0 <= r)%R /\ (forall i, peak ltb l i \/ peak gtb l i -> (Rabs (target - sample l i) <= r)%R) /\ (r = 0%R \/ exists i, (peak ltb l i \/ peak gtb l i) /\ r = Rabs (target - sample l i)).
(** the samples [f, l) *)
Definition samples (spectrum : list R) (f l : Z) : list R := firstn (Z.to_nat (l - f)) (skipn (Z.to_nat f) spectrum).
(** pass/stop decision for every sample of a response: starts on the side of the threshold the first sample is on *)
Definition switched (threshold noise : R) (xs : list R) : list bool :=
  match xs with [] => [] | x :: _ => schmitt (threshold - noise) (threshold + noise) (gtb x threshold) xs end.
(** band boundaries ss fit the decisions: one for every change, none after it and none before the previous change *)
Definition boundaries (decisions : list bool) (ss : list Z) : Prop := interleaved false 0 ss (changes 0 decisions).
