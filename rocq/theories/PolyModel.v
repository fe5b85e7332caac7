(** Model of include/dspbb/Math/Polynomials.hpp (all of it).
    Simplifications: the coefficient type T is the real numbers with exact arithmetic, std::complex<T> the
    complex numbers; comparisons of reals are decided exactly. *)
From Coq Require Import Reals Lra.
From Verif Require Import Base Complex IirModel.
Open Scope Z_scope.

Definition Reqb (a b : R) : bool := if Req_EM_T a b then true else false.
Definition Rltb (a b : R) : bool := if Rlt_dec a b then true else false.
(** std::complex equality: both parts equal *)
Definition Ceqb (a b : C) : bool := Reqb (re a) (re b) && Reqb (im a) (im b).

(* Polynomials.hpp 128-137: Eval, Horner from the highest coefficient. [emb] converts a coefficient to the
   type of the argument: the identity for T, the inclusion for std::complex<T> *)
Definition poly_eval_with {K T} (zero : K) (mad : K -> K -> K -> K) (emb : T -> K) (coefs : list T) (x : K) : K :=
  fold_left (fun y c => mad x y (emb c)) (rev coefs) zero.
(** [mad x y c] is x * y + c; here in exact arithmetic *)
Definition poly_eval {K : CRing} (emb : R -> K) (coefs : list R) (x : K) : K :=
  poly_eval_with r0 (fun x y c => radd (rmul x y) c) emb coefs x.

(** *** FactoredPolynomial.  One memory block: first the real roots, then the complex pairs as (re, im) (79-82) *)
Record fp := mkFp { mem : list R; nreal : Z; npairs : Z }.
(* 67-70, 263-281: the two views *)
Definition real_roots (p : fp) : list R := firstn (Z.to_nat (nreal p)) (mem p).
Definition complex_pairs (p : fp) : list C :=
  tab (npairs p) (fun i => mkC (at0 (K := Rring) (mem p) (nreal p + 2 * i)) (at0 (K := Rring) (mem p) (nreal p + 2 * i + 1))).
Definition empty_fp : fp := mkFp [] 0 0.
(* 61-65 *)
Definition num_roots (p : fp) : Z := nreal p + 2 * npairs p.
(** the object whose views hold the given roots *)
Definition flat (cs : list C) : list R := flat_map (fun c => [re c; im c]) cs.
Definition mk_fp (rs : list R) (cs : list C) : fp := mkFp (rs ++ flat cs) (lenZ rs) (lenZ cs).

(* std::move(first, last, d): forward element by element, to an index below the source *)
Definition move_down (m : list R) (first last d : Z) : outcome (list R) :=
  assert_ (first <=? last) (for_ 0 (last - first) 1 (fun i m => do x <- rd m (first + i); wr m (d + i) x) m).
(* std::move_backward(first, last, dlast): from the last element downwards. last before first is no valid range *)
Definition move_up (m : list R) (first last dlast : Z) : outcome (list R) :=
  assert_ (first <=? last) (for_ 0 (last - first) 1 (fun i m => do x <- rd m (last - 1 - i); wr m (dlast - 1 - i) x) m).
(* std::fill over the real view [from, to), and over the complex view of pairs starting at index nr *)
Definition fill_real (m : list R) (from to : Z) (v : R) : outcome (list R) :=
  for_ from to 1 (fun i m => wr m i v) m.
Definition fill_pairs (m : list R) (nr from to : Z) (v : C) : outcome (list R) :=
  for_ from to 1 (fun i m => do m <- wr m (nr + 2 * i) (re v); wr m (nr + 2 * i + 1) (im v)) m.

(* 213-233: resize *)
Definition fp_resize (p : fp) (numReal numPairs : Z) (rv : R) (cv : C) : outcome fp :=
  let numCoeffs := numReal + 2 * numPairs in
  let curReal := nreal p in
  let curPairs := npairs p in
  do m <- (if numReal <? curReal then move_down (mem p) curReal (lenZ (mem p)) numReal else Ok (mem p));
  let m := vresize m numCoeffs 0%R in
  do m <- (if curReal <? numReal then move_up m curReal (numCoeffs - numReal) (lenZ m) else Ok m);
  do m <- (if curReal <? numReal then fill_real m curReal numReal rv else Ok m);
  do m <- (if curPairs <? numPairs then fill_pairs m numReal curPairs numPairs cv else Ok m);
  Ok (mkFp m numReal numPairs).

(* 235-261: regroup *)
Definition fp_regroup (p : fp) (numReal : Z) (rv : R) (cv : C) : outcome fp :=
  if negb (numReal mod 2 =? num_roots p mod 2) then Throw InvalidArgument
  else if num_roots p <? numReal then Throw InvalidArgument
  else
    let numPairs := (num_roots p - numReal) / 2 in
    let curReal := nreal p in
    let curPairs := npairs p in
    do m <- (if numReal <? curReal then move_down (mem p) curReal (lenZ (mem p)) numReal else Ok (mem p));
    do m <- (if curReal <? numReal then move_up m curReal (lenZ m - (numReal - curReal)) (lenZ m) else Ok m);
    do m <- (if curReal <? numReal then fill_real m curReal numReal rv else Ok m);
    do m <- (if curPairs <? numPairs then fill_pairs m numReal curPairs numPairs cv else Ok m);
    Ok (mkFp m numReal numPairs).

(* 142-149: AreRootsConjugatePairs *)
Definition count_eq (roots : list C) (r : C) : Z := lenZ (filter (fun other => Ceqb other r) roots).
Definition AreRootsConjugatePairs (roots : list C) : bool :=
  forallb (fun root => count_eq roots root =? count_eq roots (Cconj root)) roots.

(* std::copy_if / push through an output iterator into a view of fixed size: index [k] is written next *)
Definition push {A} (st : list A * Z) (v : A) : outcome (list A * Z) :=
  do a <- wr (fst st) (snd st) v; Ok (a, snd st + 1).
Fixpoint push_all {A} (vs : list A) (st : list A * Z) : outcome (list A * Z) :=
  match vs with [] => Ok st | v :: vs => do st <- push st v; push_all vs st end.

(* 189-211: the constructor from roots.  The object is freshly constructed, so resize (202) acts on an empty one;
   the two views it creates are then written through iterators: here as two checked arrays *)
Definition fp_of_roots (roots : list C) : outcome fp :=
  let numReal := lenZ (filter (fun r => Reqb (im r) 0) roots) in
  let numComplex := lenZ roots - numReal in
  if negb (numComplex mod 2 =? 0) then Throw InvalidArgument
  else if negb (AreRootsConjugatePairs roots) then Throw InvalidArgument
  else
    do p <- fp_resize empty_fp numReal (numComplex / 2) 0%R C0;
    do rs <- push_all (map re (filter (fun r => Reqb (im r) 0) roots)) (real_roots p, 0);
    do cs <- push_all (filter (fun r => Rltb 0 (im r)) roots) (complex_pairs p, 0);
    Ok (mk_fp (fst rs) (fst cs)).

(* 293-305: eval; std::transform_reduce as the left fold (multiplication is commutative) *)
Definition fp_eval {K : CRing} (emb : R -> K) (p : fp) (x : K) : K :=
  let rp := fold_left (fun acc r => rmul acc (rsub x (emb r))) (real_roots p) (r1 : K) in
  let cp := fold_left (fun acc c => let a := re c in let b := im c in
       rmul acc (radd (radd (rsub (rmul x x) (rmul (emb (2 * a)%R) x)) (emb (a * a)%R)) (emb (b * b)%R))) (complex_pairs p) (r1 : K) in
  rmul rp cp.

(* 320-329: MultiplyPolynomialBy1stOrder, through reverse iterators (it1 at index k, it0 at k-1).
   The complex overload 309-318 is the same text *)
Definition MultiplyPolynomialBy1stOrder {K : CRing} (coefs : list K) (c0 : K) : outcome (list K) :=
  for_ 0 (lenZ coefs) 1 (fun i cs =>
    let k := lenZ coefs - 1 - i in
    do p0 <- (if k - 1 <? 0 then Ok r0 else rd cs (k - 1));
    do p1 <- rd cs k;
    wr cs k (radd p0 (rmul p1 c0))) coefs.
(* 331-345: MultiplyPolynomialBy2ndOrder *)
Definition MultiplyPolynomialBy2ndOrder {K : CRing} (coefs : list K) (c0 c1 : K) : outcome (list K) :=
  for_ 0 (lenZ coefs) 1 (fun i cs =>
    let k := lenZ coefs - 1 - i in
    do p0 <- (if k - 2 <? 0 then Ok r0 else rd cs (k - 2));
    do p1 <- (if k - 1 <? 0 then Ok r0 else rd cs (k - 1));
    do p2 <- rd cs k;
    wr cs k (radd (radd p0 (rmul p1 c1)) (rmul p2 c0))) coefs.

Fixpoint foldM {A S} (f : A -> S -> outcome S) (l : list A) (s : S) : outcome S :=
  match l with [] => Ok s | a :: l => do s <- f a s; foldM f l s end.
(* 349-363: ExpandPolynomial *)
Definition ExpandPolynomial (p : fp) : outcome (list R) :=
  let coefs := repeat 0%R (Z.to_nat (num_roots p + 1)) in
  do coefs <- wr coefs 0 1%R;
  do coefs <- foldM (fun root cs => MultiplyPolynomialBy1stOrder (K := Rring) cs (- root)%R) (real_roots p) coefs;
  foldM (fun root cs => MultiplyPolynomialBy2ndOrder (K := Rring) cs (re root * re root + im root * im root)%R (-2 * re root)%R) (complex_pairs p) coefs.
