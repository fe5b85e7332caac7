(** Model of include/dspbb/Math/Rational.hpp.
    The integer type T is a signed integer with values -M-1 .. M (M a parameter,
    e.g. 2^31-1 or 2^63-1); an operation whose exact result does not fit is signed
    overflow, i.e. UB, and so is a failed assert. Division is C++ truncating division.
    Simplification: T is at least as wide as int (no integral promotion). *)
From Verif Require Import Base.

Section Rat.
Variable M : Z.

(* integer arithmetic of the type T *)
Definition ci (v : Z) : outcome Z := if (- M - 1 <=? v) && (v <=? M) then Ok v else UB.
Definition cadd a b := ci (a + b).
Definition csub a b := ci (a - b).
Definition cmul a b := ci (a * b).
Definition cquot a b := if b =? 0 then UB else ci (Z.quot a b).
(* std::gcd / std::lcm: undefined if |m|, |n| (or the lcm) is not representable *)
Definition cgcd a b := if (Z.abs a <=? M) && (Z.abs b <=? M) then Ok (Z.gcd a b) else UB.
Definition clcm a b := if (Z.abs a <=? M) && (Z.abs b <=? M) then ci (Z.lcm a b) else UB.

Record rat := mkRat { num : Z; den : Z }.

(* Rational.hpp 109-111 (file lines): Rational(int_t value) *)
Definition of_int (v : Z) : rat := mkRat v 1.
(* Rational.hpp 113-116: Rational(int_t numerator, int_t denominator), with its assert *)
Definition make (n d : Z) : outcome rat :=
  assert_ (0 <? d)
    (do g <- cgcd n d;
     do n' <- cquot n g;
     do g2 <- cgcd n d;
     do d' <- cquot d g2;
     Ok (mkRat n' d')).
(* Rational.hpp 118-127: Numerator(), Denominator() (the latter asserts den > 0) *)
Definition getden (r : rat) : outcome Z := assert_ (0 <? den r) (Ok (den r)).

(* Rational.hpp 51-55: Rational + T *)
Definition add_int (l : rat) (r : Z) : outcome rat :=
  do d <- getden l;
  do p <- cmul d r;
  do n <- cadd (num l) p;
  make n d.
(* Rational.hpp 56-60: Rational - T *)
Definition sub_int (l : rat) (r : Z) : outcome rat :=
  do d <- getden l;
  do p <- cmul d r;
  do n <- csub (num l) p;
  make n d.
(* Rational.hpp 61-67: Rational * T *)
Definition mul_int (l : rat) (r : Z) : outcome rat :=
  do d <- getden l;
  do s <- cgcd r d;
  let sign := if r <? 0 then -1 else 1 in
  do sn <- cmul sign (num l);
  do q <- cquot r s;
  do n <- cmul sn q;
  do sd <- cmul sign d;
  do d' <- cquot sd s;
  make n d'.
(* Rational.hpp 68-75: Rational / T *)
Definition div_int (l : rat) (r : Z) : outcome rat :=
  assert_ (negb (r =? 0))
    (do s <- cgcd r (num l);
     let sign := if r <? 0 then -1 else 1 in
     do sn <- cmul sign (num l);
     do n <- cquot sn s;
     do d <- getden l;
     do sd <- cmul sign d;
     do q <- cquot r s;
     do d' <- cmul sd q;
     make n d').

(* the common numerators over the least common denominator; Rational.hpp 79-81, 87-89, 223-230 *)
Definition common (l r : rat) : outcome (Z * Z * Z) :=
  do dl <- getden l;
  do dr <- getden r;
  do c <- clcm dl dr;
  do ql <- cquot c dl;
  do a <- cmul (num l) ql;
  do qr <- cquot c dr;
  do b <- cmul (num r) qr;
  Ok (a, b, c).
(* Rational.hpp 78-85 *)
Definition add (l r : rat) : outcome rat :=
  do (a, b, c) <- common l r;
  do n <- cadd a b;
  do s <- cgcd n c;
  do n' <- cquot n s;
  do d' <- cquot c s;
  make n' d'.
(* Rational.hpp 86-93 *)
Definition sub (l r : rat) : outcome rat :=
  do (a, b, c) <- common l r;
  do n <- csub a b;
  do s <- cgcd n c;
  do n' <- cquot n s;
  do d' <- cquot c s;
  make n' d'.
(* Rational.hpp 94-100 *)
Definition mul (l r : rat) : outcome rat :=
  do dr <- getden r;
  do s1 <- cgcd (num l) dr;
  do dl <- getden l;
  do s2 <- cgcd (num r) dl;
  do a <- cquot (num l) s1;
  do b <- cquot (num r) s2;
  do n <- cmul a b;
  do c <- cquot dr s1;
  do e <- cquot dl s2;
  do d <- cmul c e;
  make n d.
(* Rational.hpp 101-106 *)
Definition div (l r : rat) : outcome rat :=
  assert_ (negb (num r =? 0))
    (let sign := if num r <? 0 then -1 else 1 in
     do dr <- getden r;
     do a <- cmul sign dr;
     do b <- cmul sign (num r);
     do inv <- make a b;
     mul l inv).

(* Rational.hpp 129-139: ++ and -- *)
Definition incr (r : rat) : outcome rat := do n <- cadd (num r) (den r); Ok (mkRat n (den r)).
Definition decr (r : rat) : outcome rat := do n <- csub (num r) (den r); Ok (mkRat n (den r)).

(* Rational.hpp 205-220: T op Rational *)
Definition int_add (l : Z) (r : rat) := add_int r l.
Definition int_sub (l : Z) (r : rat) := sub (of_int l) r.
Definition int_mul (l : Z) (r : rat) := mul_int r l.
Definition int_div (l : Z) (r : rat) := div (of_int l) r.

(* Rational.hpp 233-259: comparisons, all through CommonNumerators *)
Definition req (l r : rat) : outcome bool := do (a, b, _) <- common l r; Ok (a =? b).
Definition rne (l r : rat) : outcome bool := do b <- req l r; Ok (negb b).
Definition rlt (l r : rat) : outcome bool := do (a, b, _) <- common l r; Ok (a <? b).
Definition rgt (l r : rat) : outcome bool := do (a, b, _) <- common l r; Ok (b <? a).
Definition rle (l r : rat) : outcome bool := do b <- rgt l r; Ok (negb b).
Definition rge (l r : rat) : outcome bool := do b <- rlt l r; Ok (negb b).

(* Rational.hpp 315-318 *)
Definition ceil (r : rat) : outcome Z :=
  do d <- getden r;
  do s <- cadd (num r) d;
  do t <- csub s 1;
  cquot t d.
(* Rational.hpp 320-323 *)
Definition floor (r : rat) : outcome Z := do d <- getden r; cquot (num r) d.
(* Rational.hpp 325-328 *)
Definition frac (r : rat) : outcome rat := do f <- floor r; sub_int r f.
End Rat.
