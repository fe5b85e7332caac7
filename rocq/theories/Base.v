(** Common vocabulary: outcomes, checked array access, loops, rings, sums.
    Nothing in this file models a particular piece of /repo; it supplies the
    notions in which the models and the specifications are written. *)
From Coq Require Export List ZArith Lia Bool Ring Field.
From Coq Require Import ZifyBool ZifyNat ZifyN.
Export ListNotations.
Ltac Zify.zify_post_hook ::= Z.div_mod_to_equations.
Open Scope Z_scope.

(** ** Outcomes of running C++ code.
    [Throw e]: a C++ exception; [UB]: undefined behaviour, including an access
    outside an array and a failed [assert] (asserts vanish in release builds,
    after which the program runs outside its contract). *)
Inductive exn := InvalidArgument | OutOfRange | DomainError | LogicError.
Inductive outcome (A : Type) : Type := Ok (a : A) | Throw (e : exn) | UB.
Arguments Ok {A} a. Arguments Throw {A} e. Arguments UB {A}.

Definition bind {A B} (m : outcome A) (f : A -> outcome B) : outcome B :=
  match m with Ok a => f a | Throw e => Throw e | UB => UB end.
Notation "'do' x <- m ; k" := (bind m (fun x => k))
  (at level 200, x pattern, m at level 100, k at level 200, right associativity).
Definition assert_ (b : bool) {A} (k : outcome A) : outcome A := if b then k else UB.

(** [okP m P]: the code runs to completion and its result satisfies [P]. *)
Definition okP {A} (m : outcome A) (P : A -> Prop) : Prop :=
  exists a, m = Ok a /\ P a.

(** ** Arrays *)
Definition lenZ {A} (l : list A) : Z := Z.of_nat (length l).
Definition nthZ {A} (l : list A) (i : Z) : option A :=
  if i <? 0 then None else nth_error l (Z.to_nat i).
(** checked read / write: outside the array is undefined behaviour *)
Definition rd {A} (l : list A) (i : Z) : outcome A :=
  match nthZ l i with Some a => Ok a | None => UB end.
Definition updZ {A} (l : list A) (i : Z) (v : A) : list A :=
  firstn (Z.to_nat i) l ++ v :: skipn (S (Z.to_nat i)) l.
Definition wr {A} (l : list A) (i : Z) (v : A) : outcome (list A) :=
  if (0 <=? i) && (i <? lenZ l) then Ok (updZ l i v) else UB.
(** the array whose element [i] is [f i], [0 <= i < n] *)
Definition tab {A} (n : Z) (f : Z -> A) : list A :=
  map (fun i => f (Z.of_nat i)) (seq 0 (Z.to_nat n)).

(** ** Loops.  [loop n i step body s]: run [body] at [i], [i+step], ..., [n] times. *)
Fixpoint loop {S} (n : nat) (i step : Z) (body : Z -> S -> outcome S) (s : S) : outcome S :=
  match n with
  | O => Ok s
  | Datatypes.S n' => do s' <- body i s; loop n' (i + step) step body s'
  end.
(** number of iterations of [for (i = lo; i < hi; i += step)] *)
Definition trips (lo hi step : Z) : nat := Z.to_nat ((hi - lo + step - 1) / step).
Definition for_ {S} (lo hi step : Z) (body : Z -> S -> outcome S) (s : S) : outcome S :=
  loop (trips lo hi step) lo step body s.

(** ** Commutative rings and fields *)
Record CRing := mkCRing {
  car :> Type;
  r0 : car; r1 : car;
  radd : car -> car -> car; rmul : car -> car -> car;
  rsub : car -> car -> car; ropp : car -> car;
  rth : ring_theory r0 r1 radd rmul rsub ropp eq
}.
Arguments r0 {c}. Arguments r1 {c}. Arguments radd {c}. Arguments rmul {c}.
Arguments rsub {c}. Arguments ropp {c}.

Record CField := mkCField {
  fring :> CRing;
  finv : fring -> fring; fdiv : fring -> fring -> fring;
  fth : field_theory (@r0 fring) r1 radd rmul rsub ropp fdiv finv eq
}.
Arguments finv {c}. Arguments fdiv {c}.

Declare Scope ring_scope'.
Delimit Scope ring_scope' with R'.
Notation "x + y" := (radd x y) : ring_scope'.
Notation "x * y" := (rmul x y) : ring_scope'.
Notation "x - y" := (rsub x y) : ring_scope'.
Notation "- x" := (ropp x) : ring_scope'.
Notation "x / y" := (fdiv x y) : ring_scope'.
Notation "0" := r0 : ring_scope'.
Notation "1" := r1 : ring_scope'.

Definition Zring : CRing := mkCRing Z 0 1 Z.add Z.mul Z.sub Z.opp Zth.

(** finite sums: [sumf n f = f 0 + ... + f (n-1)] *)
Fixpoint sumf {K : CRing} (n : nat) (f : nat -> K) : K :=
  match n with O => r0 | S n' => radd (sumf n' f) (f n') end.
(** [sumZ lo hi f = f lo + ... + f (hi-1)], zero when [hi <= lo] *)
Definition sumZ {K : CRing} (lo hi : Z) (f : Z -> K) : K :=
  sumf (Z.to_nat (hi - lo)) (fun i => f (lo + Z.of_nat i)).
Fixpoint rpow {K : CRing} (x : K) (n : nat) : K :=
  match n with O => r1 | S n' => rmul x (rpow x n') end.
(** sample [i] of a signal extended by zeros on both sides *)
Definition at0 {K : CRing} (l : list K) (i : Z) : K :=
  match nthZ l i with Some a => a | None => r0 end.
Definition suml {K : CRing} (l : list K) : K := fold_left radd l r0.

(** ** Batches and array blocks *)
Definition map2 {A B C} (f : A -> B -> C) (l : list A) (m : list B) : list C :=
  map (fun p => f (fst p) (snd p)) (combine l m).
(** checked block read / write *)
Definition slice {A} (l : list A) (i n : Z) : outcome (list A) :=
  if (0 <=? i) && (0 <=? n) && (i + n <=? lenZ l)
  then Ok (firstn (Z.to_nat n) (skipn (Z.to_nat i) l)) else UB.
Definition wrs {A} (l : list A) (i : Z) (vs : list A) : outcome (list A) :=
  if (0 <=? i) && (i + lenZ vs <=? lenZ l)
  then Ok (firstn (Z.to_nat i) l ++ vs ++ skipn (Z.to_nat (i + lenZ vs)) l) else UB.
