(** Model of include/dspbb/LTISystems/Systems.hpp (all of it).
    Simplifications: exact real/complex arithmetic.  std::sort is a parameter: a function returning a sorted
    permutation (its specification).  std::partition_point on a sorted range is the number of leading elements that
    satisfy the predicate.  std::transform_reduce is the left fold (multiplication commutes). *)
From Coq Require Import Reals Lra.
From Verif Require Import Base Complex IirModel PolyModel.
Open Scope Z_scope.

(* 14-25: ZeroPoleGain *)
Record zpk := mkZpk { gain : R; zeros : fp; poles : fp }.
(* 21-22 *)
Definition zpk_eval {K : CField} (emb : R -> K) (s : zpk) (x : K) : K :=
  fdiv (rmul (emb (gain s)) (fp_eval emb (zeros s) x)) (fp_eval emb (poles s) x).
(* 24; FactoredPolynomial::order is num_roots (Polynomials.hpp 65) *)
Definition zpk_order (s : zpk) : Z := Z.max (num_roots (zeros s)) (num_roots (poles s)).

(* 75-80: TransferFunction(zpk) *)
Definition tf_of_zpk (s : zpk) : outcome (tf Rfield) :=
  do num <- ExpandPolynomial (zeros s);
  do den <- ExpandPolynomial (poles s);
  Ok (mkTf (K := Rfield) (map (fun c => (c * gain s)%R) num) den).
(* 40-41 *)
Definition tf_eval {K : CField} (emb : R -> K) (s : tf Rfield) (x : K) : K :=
  fdiv (poly_eval emb (numerator s) x) (poly_eval emb (denominator s) x).

(** std::pair<uint8_t, std::array<T, 3>>: order and coefficients *)
Definition spoly : Type := (Z * (R * R * R))%type.
(* 150, 182: polynomials of one pair *)
Definition pair_poly (r1 r2 : R) : spoly := (2, ((r1 * r2)%R, (- r1 - r2)%R, 1%R)).
(* 154-163: the two pairing loops; [f] is the first iterator, [l] the base of the reverse iterator *)
Fixpoint pair_loop (fuel : nat) (asc : list R) (f l : Z) (polys : list spoly) : outcome (Z * Z * list spoly) :=
  if l - f <=? 1 then Ok (f, l, polys)
  else match fuel with
  | O => UB
  | S fuel => do r1 <- rd asc f; do r2 <- rd asc (l - 1); pair_loop fuel asc (f + 1) (l - 1) (polys ++ [pair_poly r1 r2])
  end.
(* 149: partition_point for r < 0 *)
Fixpoint leading_negative (l : list R) : Z :=
  match l with [] => 0 | r :: l => if Rltb r 0 then 1 + leading_negative l else 0 end.
(* 142-180: RealRootPolynomials *)
Definition RealRootPolynomials (sortR : list R -> list R) (roots : list R) : outcome (list spoly) :=
  let asc := sortR roots in
  let pp := leading_negative asc in
  do st <- pair_loop (length asc) asc 0 pp [];
  let '(fn, ln, polys) := st in
  do st <- pair_loop (length asc) asc pp (lenZ asc) polys;
  let '(fp, lp, polys) := st in
  if (fn <? ln) && (fp <? lp) then do r1 <- rd asc fp; do r2 <- rd asc fn; Ok (polys ++ [pair_poly r1 r2])
  else if fp <? lp then do r <- rd asc fp; Ok (polys ++ [(1, (0%R, (- r)%R, 1%R))])
  else if fn <? ln then do r <- rd asc fn; Ok (polys ++ [(1, (0%R, (- r)%R, 1%R))])
  else Ok polys.
(* 182-192: ComplexPairPolynomials *)
Definition ComplexPairPolynomials (pairs : list C) : list spoly :=
  map (fun r => (2, ((Cabs r * Cabs r)%R, (-2 * re r)%R, 1%R))) pairs.

(* 52-57: the default section *)
Definition default_section : biquad Rfield := mkBq (K := Rfield) (0, 0, 1)%R (0, 0)%R 0 0.
(* 82-115: CascadedBiquad(zpk) *)
Definition cascade_of_zpk (sortR : list R -> list R) (sortP : list spoly -> list spoly) (s : zpk) : outcome (list (biquad Rfield)) :=
  do realZeroPolys <- RealRootPolynomials sortR (real_roots (zeros s));
  do realPolePolys <- RealRootPolynomials sortR (real_roots (poles s));
  let zeroPolys := sortP (realZeroPolys ++ ComplexPairPolynomials (complex_pairs (zeros s))) in
  let polePolys := sortP (realPolePolys ++ ComplexPairPolynomials (complex_pairs (poles s))) in
  let numSections := Z.max (lenZ zeroPolys) (lenZ polePolys) in
  let sections := repeat default_section (Z.to_nat numSections) in
  do sections <- for_ 0 (lenZ zeroPolys) 1 (fun i ss =>
    do zp <- rd zeroPolys i; do b <- rd ss i;
    wr ss i (mkBq (K := Rfield) (snd zp) (bden b) (fst zp) (denOrder b))) sections;
  do sections <- for_ 0 (lenZ polePolys) 1 (fun i ss =>
    do pp <- rd polePolys i; do b <- rd ss i;
    wr ss i (mkBq (K := Rfield) (bnum b) (fst (fst (snd pp)), snd (fst (snd pp))) (numOrder b) (fst pp))) sections;
  if lenZ sections =? 0 then Ok sections
  else do b <- rd sections (lenZ sections - 1);
       let '(n0, n1, n2) := bnum b in
       wr sections (lenZ sections - 1) (mkBq (K := Rfield) (n0 * gain s, n1 * gain s, n2 * gain s)%R (bden b) (numOrder b) (denOrder b)).

(* 194-205: EvalSection *)
Definition eval_section {K : CField} (emb : R -> K) (b : biquad Rfield) (x : K) : outcome K :=
  let xs := [emb 0%R; emb 1%R; x; rmul x x] in
  let '(n0, n1, n2) := bnum b in
  let '(d0, d1) := bden b in
  do xn <- rd xs (numOrder b); do xn1 <- rd xs (1 + numOrder b);
  do xd <- rd xs (denOrder b); do xd1 <- rd xs (1 + denOrder b);
  Ok (fdiv (radd (radd (emb n0) (rmul xn (emb n1))) (rmul xn1 (emb n2)))
           (radd (radd (emb d0) (rmul xd (emb d1))) xd1)).
(* 117-129: operator() *)
Definition cascade_eval {K : CField} (emb : R -> K) (ss : list (biquad Rfield)) (x : K) : outcome K :=
  foldM (fun b acc => do y <- eval_section emb b x; Ok (rmul acc y)) ss (r1 : K).
(* 131-140: order *)
Definition cascade_order (ss : list (biquad Rfield)) : Z :=
  let numOrd := fold_left (fun acc b => acc + numOrder b) ss 1 in
  let denOrd := fold_left (fun acc b => acc + denOrder b) ss 1 in
  if lenZ ss =? 0 then 0 else Z.max numOrd denOrd.
