(** Model of include/dspbb/Math/EllipticFunctions.hpp, include/dspbb/Filtering/IIR/Elliptic.hpp and of the elliptic designs of
    include/dspbb/Filtering/IIR.hpp.
    Simplifications: arithmetic is exact (R, C).  [eps] stands for std::numeric_limits<T>::epsilon().  A square root of a
    negative number, an arc sine outside [-1, 1] and a division by zero give NaN or infinity in C++ and are reported as UB;
    the infinity returned by CarlsonRF (and by EllipticK for |k| = 1) is kept as a value of its own.  Loops without a bound
    on their iterations carry [fuel]: running out of it is reported as UB, and theorems show how much is enough. *)
From Coq Require Import Reals.
From Verif Require Import Base Complex ConvModel PolyModel SysModel RootModel IirModel SolverModel ChebyModel.
Open Scope Z_scope.

(** a value that may be infinite *)
Inductive xval (A : Type) := Fin (a : A) | Inf.
Arguments Fin {A} a. Arguments Inf {A}.
Definition sqrt_ (x : R) : outcome R := if Rle_dec 0 x then Ok (sqrt x) else UB.
Definition asin_ (x : R) : outcome R := if Rle_dec (Rabs x) 1 then Ok (asin x) else UB.
Definition fdiv_ (x y : R) : outcome R := if Req_EM_T y 0 then UB else Ok (x / y)%R.

Section Elliptic.
Variable eps : R.

(** *** Carlson symmetric form *)
(* EllipticFunctions.hpp 58-71: the series *)
Definition carlson_series (E2 E3 : R) : R :=
  (E2 * E2 * E3 / 16 - 5 * E2 * E2 * E2 / 208 + 3 * E3 * E3 / 104 - 3 * E2 * E3 / 44 + E2 * E2 / 24 + E3 / 14 - E2 / 10 + 1)%R.
Definition carlson_finish (x y z Amn An : R) : outcome R :=
  do X <- fdiv_ (Amn - x) An;
  do Y <- fdiv_ (Amn - y) An;
  do Z <- fdiv_ (Amn - z) An;
  let E2 := (X * Y + X * Z + Y * Z)%R in
  let E3 := (X * Y * Z)%R in
  do s <- sqrt_ An;
  fdiv_ (carlson_series E2 E3) s.
(* EllipticFunctions.hpp 43-56: the while loop of CarlsonRF *)
Fixpoint carlson_loop (fuel : nat) (x y z lambdan Qn Amn An : R) : outcome R :=
  if Rlt_dec (Rabs An) Qn then
    match fuel with
    | O => UB
    | S fuel =>
      let lambdan2 := (lambdan * lambdan)%R in
      do l1 <- sqrt_ (x * y + (x + y) * lambdan + lambdan2)%R;
      do l2 <- sqrt_ (x * z + (x + z) * lambdan + lambdan2)%R;
      do l3 <- sqrt_ (z * y + (z + y) * lambdan + lambdan2)%R;
      let lambdan := ((lambdan + (l1 + l2 + l3)) / 4)%R in
      let Amn := (Amn / 4)%R in
      carlson_loop fuel (x / 4) (y / 4) (z / 4) lambdan (Qn / 4) Amn (Amn + lambdan)
    end
  else carlson_finish x y z Amn An.
Definition is_zero (x : R) : Z := if Req_EM_T x 0 then 1 else 0.
(* EllipticFunctions.hpp 29-72: CarlsonRF for a real type *)
Definition CarlsonRF (fuel : nat) (x y z : R) : outcome (xval R) :=
  let r := (eps / 4)%R in
  if 2 <=? is_zero x + is_zero y + is_zero z then Ok Inf else
  let Amn := ((x + y + z) / 3)%R in
  let Qn := (Rpower (3 * r) (- (1 / 8)) * Rmax (Rmax (Rabs (Amn - x)) (Rabs (Amn - y))) (Rabs (Amn - z)))%R in
  do v <- carlson_loop fuel x y z 0 Qn Amn Amn; Ok (Fin v).

(* EllipticFunctions.hpp 85-88 *)
Definition EllipticK (fuel : nat) (k : R) : outcome (xval R) := CarlsonRF fuel 0 (1 - k * k) 1.

(** *** Amplitude *)
(* EllipticFunctions.hpp 95-135.  [factors]: the thread_local array, whatever an earlier call left in it *)
Definition iterationLimit : Z := 32.
(* the forward iteration: returns a_n, the factors and n; at most 32 passes, so [fuel] 33 is never used up *)
Fixpoint agm_loop (fuel : nat) (an bn cn : R) (factors : list R) (n : Z) : outcome (R * list R * Z) :=
  if Rlt_dec (eps / 4) (Rabs cn) then
    match fuel with
    | O => UB
    | S fuel =>
      do g <- sqrt_ (an * bn)%R;
      let an' := ((an + bn) / 2)%R in
      let cn' := ((an - bn) / 2)%R in
      do q <- fdiv_ cn' an';
      do factors <- wr factors n q;
      let n := n + 1 in
      if iterationLimit <=? n then Throw DomainError else agm_loop fuel an' g cn' factors n
    end
  else Ok (an, factors, n).
(* the backward iteration; [n]: how often it still runs *)
Fixpoint phi_loop (n : nat) (factors : list R) (phi : R) : outcome R :=
  match n with
  | O => Ok phi
  | S n => do f <- rd factors (Z.of_nat n); do a <- asin_ (f * sin phi)%R; phi_loop n factors ((phi + a) / 2)%R
  end.
(* 1 << n for a 32-bit int *)
Definition shl_int (n : Z) : outcome Z := if (0 <=? n) && (n <? 31) then Ok (2 ^ n) else UB.
Definition EllipticAM (factors : list R) (x k : R) : outcome R :=
  assert_ ((if Rle_dec 0 k then true else false) && (if Rle_dec k 1 then true else false))
  (if Req_EM_T k 1 then Ok (2 * atan (exp x) - PI / 2)%R else
   if Req_EM_T k 0 then Ok x else
   do bn <- sqrt_ (1 - k * k)%R;
   let cn := ((1 - bn) / 2)%R in
   do (an, factors, n) <- agm_loop 33 1 bn cn factors 0;
   do p <- shl_int n;
   phi_loop (Z.to_nat n) factors (IZR p * an * x)%R).

(** *** Jacobi elliptic functions *)
(** rounding to the nearest integer, ties to even *)
Definition nearest_even (t : R) : Z :=
  let n := Int_part t in
  let f := (t - IZR n)%R in
  if Rlt_dec f (1 / 2) then n else if Rlt_dec (1 / 2) f then n + 1 else if Z.even n then n else n + 1.
(* std::remquo(x, y, &quo): remainder and quotient; C++ only promises the sign and the low bits of the quotient, of which
   the caller uses the lowest.  For an infinite y the remainder is x *)
Definition remquo (x : R) (y : xval R) : outcome (R * Z) :=
  match y with
  | Inf => Ok (x, 0)
  | Fin y => if Req_EM_T y 0 then UB else let q := nearest_even (x / y) in Ok ((x - IZR q * y)%R, q)
  end.
(* EllipticFunctions.hpp 149-178: returns x', k', the factors of sn and cn (that of dn is always 1) *)
Definition EllipticReduceRange (fuel : nat) (x k : R) : outcome (R * R * R * R) :=
  let kPrime := if Rlt_dec k 0 then (- k)%R else k in
  let '(xPrime, factorSn, kPrime) := if Rlt_dec 1 kPrime then ((x * kPrime)%R, (1 / kPrime)%R, (1 / kPrime)%R) else (x, 1%R, kPrime) in
  if Rlt_dec (PI / 2) xPrime then
    do K <- EllipticK fuel k;
    do (xPrime, octant) <- remquo x (match K with Fin K => Fin (2 * K)%R | Inf => Inf end);
    if Z.rem octant 2 =? 1 then Ok (xPrime, kPrime, (factorSn * -1)%R, (-1)%R) else Ok (xPrime, kPrime, factorSn, 1%R)
  else Ok (xPrime, kPrime, factorSn, 1%R).
(* EllipticFunctions.hpp 180-189 *)
Definition EllipticSNCNDN (fuel : nat) (factors : list R) (x k : R) : outcome (R * R * R) :=
  do (xPrime, kPrime, factorSn, factorCn) <- EllipticReduceRange fuel x k;
  do am <- EllipticAM factors xPrime kPrime;
  let sn := (factorSn * sin am)%R in
  let cn := (factorCn * cos am)%R in
  do dn <- sqrt_ (1 - k * k * sn * sn)%R;
  Ok (sn, cn, dn).
(** complex divided by real *)
Definition cdiv_ (c : C) (d : R) : outcome C := if Req_EM_T d 0 then UB else Ok (CdivR c d).
(* EllipticFunctions.hpp 191-201 *)
Definition EllipticSNCNDN_C (fuel : nat) (factors : list R) (x : C) (k : R) : outcome (C * C * C) :=
  do (snr, cnr, dnr) <- EllipticSNCNDN fuel factors (re x) k;
  do kp <- sqrt_ (1 - k * k)%R;
  do (sni, cni, dni) <- EllipticSNCNDN fuel factors (im x) kp;
  let d := (cni * cni + k * k * sni * sni * snr * snr)%R in
  do sn <- cdiv_ (mkC (snr * dni) (sni * cni * cnr * dnr)) d;
  do cn <- cdiv_ (mkC (cnr * cni) (- snr * dnr * sni * dni)) d;
  do dn <- cdiv_ (mkC (dnr * dni * cni) (- k * k * snr * cnr * sni)) d;
  Ok (sn, cn, dn).
(* EllipticFunctions.hpp 214-218 *)
Definition EllipticSN fuel factors (x k : R) : outcome R := do (sn, _, _) <- EllipticSNCNDN fuel factors x k; Ok sn.
Definition EllipticSN_C fuel factors (x : C) (k : R) : outcome C := do (sn, _, _) <- EllipticSNCNDN_C fuel factors x k; Ok sn.

(** *** Inverse functions *)
Definition xmul (s : R) (v : xval R) : xval R := match v with Fin v => Fin (s * v)%R | Inf => Inf end.
(* EllipticFunctions.hpp 236-243 *)
Definition EllipticArcSN (fuel : nat) (x k : R) : outcome (xval R) :=
  do s <- sqrt_ (x * x)%R; do v <- CarlsonRF fuel (1 - x * x) (1 - k * k * x * x) 1; Ok (xmul s v).
(* EllipticFunctions.hpp 245-252 *)
Definition EllipticArcCN (fuel : nat) (x k : R) : outcome (xval R) :=
  do s <- sqrt_ (1 - x * x)%R; do v <- CarlsonRF fuel (x * x) 1 (1 - k * k + k * k * x * x); Ok (xmul s v).
(* EllipticFunctions.hpp 254-261 *)
Definition EllipticArcDN (fuel : nat) (x k : R) : outcome (xval R) :=
  do s <- sqrt_ (1 - x * x)%R; do v <- CarlsonRF fuel (k * k * x * x) (k * k) (k * k + x * x - 1); Ok (xmul s v).
(* EllipticFunctions.hpp 263-270: the complex overload, on a point i*y of the imaginary axis above zero: x * x = -y^2, its
   root is i*y, and CarlsonRF<std::complex> is called with real arguments, on which it computes what CarlsonRF does *)
Definition EllipticArcSN_imag (fuel : nat) (y k : R) : outcome (xval R) :=
  do v <- CarlsonRF fuel (1 + y * y) (1 + k * k * y * y) 1; Ok (xmul y v).

(** *** Elliptic.hpp *)
Variables (fuel : nat) (factors : list R) (tmax : R) (limit : nat).
(** a finite value is needed: dividing by or multiplying with an infinity is not what the caller wants *)
Definition finite (v : xval R) : outcome R := match v with Fin v => Ok v | Inf => UB end.
(* Elliptic.hpp 41: EllipticK(k) / EllipticK(sqrt(1 - k^2)) - Kratio; at k = 0 the second integral is infinite and the
   quotient 0.  Total on [0, 1), where Bisect evaluates it *)
Definition K_quotient (k : R) : R :=
  match EllipticK fuel k, EllipticK fuel (sqrt (1 - k * k)) with
  | Ok (Fin a), Ok (Fin b) => (a / b)%R
  | _, _ => 0%R
  end.
Record elliptic_parameters := { ek : R; eK : R; ek1 : R; eK1 : R; eepsilon : R }.
(* Elliptic.hpp 29-49 (kp, Kp, k1p, K1p are returned but not used by the caller) *)
Definition EllipticOrderRipples (order : Z) (passbandRipple stopbandRipple : R) : outcome elliptic_parameters :=
  do q <- fdiv_ (2 * passbandRipple - passbandRipple * passbandRipple) (1 - 2 * passbandRipple + passbandRipple * passbandRipple);
  do epsilon <- sqrt_ q;
  do i <- fdiv_ 1 (stopbandRipple * stopbandRipple);
  do s <- sqrt_ (i - 1)%R;
  do k1 <- fdiv_ epsilon s;
  do k1p <- sqrt_ (1 - k1 * k1)%R;
  do v <- EllipticK fuel k1; do K1 <- finite v;
  do v <- EllipticK fuel k1p; do K1p <- finite v;
  do Kratio <- fdiv_ (IZR order * K1) K1p;
  let k := Bisect tmax limit (fun k => (K_quotient k - Kratio)%R) 0 1 0 in
  do v <- EllipticK fuel k; do K <- finite v;
  Ok {| ek := k; eK := K; ek1 := k1; eK1 := K1; eepsilon := epsilon |}.
(* Elliptic.hpp 55-92 *)
Definition Elliptic (order : Z) (passbandRipple stopbandRipple : R) : outcome zpk :=
  do p <- EllipticOrderRipples order passbandRipple stopbandRipple;
  let k := ek p in
  do zeros <- fp_resize empty_fp 0 (order / 2) 0%R C0;
  do poles <- fp_resize empty_fp (order mod 2) (order / 2) (-1)%R C0;
  do zs <- for_ 0 (npairs zeros) 1 (fun index zs =>
    let i := 2 * index + 1 + order mod 2 in
    do sn <- EllipticSN fuel factors (IZR i * eK p / IZR order) k;
    do r <- fdiv_ 1 (k * sn)%R;
    wr zs index (mkC 0 r)) (complex_pairs zeros);
  do y <- fdiv_ 1 (eepsilon p);
  do v <- EllipticArcSN_imag fuel y (ek1 p); do a <- finite v;
  let v0 := (a * (eK p / IZR order / eK1 p))%R in
  do rs <- for_ 0 (nreal poles) 1 (fun index rs =>
    let i := size_sub (2 * index + 1) (order mod 2) in
    do sn <- EllipticSN_C fuel factors (mkC (eK p * IZR i / IZR order) v0) k;
    let croot := Cmul Ci sn in
    assert_ (if Rlt_dec (Rabs (im croot)) (1 / 1000 * Rabs (re croot)) then true else false)
    (wr rs index (re croot))) (real_roots poles);
  do cs <- for_ 0 (npairs poles) 1 (fun j cs =>
    (* index goes on counting from where the loop over the real roots stopped *)
    let index := nreal poles + j in
    let i := size_sub (2 * index + 1) (order mod 2) in
    do sn <- EllipticSN_C fuel factors (mkC (eK p * IZR i / IZR order) v0) k;
    wr cs j (Cmul Ci sn)) (complex_pairs poles);
  let zeros := mk_fp (real_roots zeros) zs in
  let poles := mk_fp rs cs in
  do g <- fdiv_ (fp_eval (K := Rring) (fun r => r) poles 0%R) (fp_eval (K := Rring) (fun r => r) zeros 0%R);
  Ok (mkZpk (g * (if order mod 2 =? 0 then 1 - passbandRipple else 1))%R zeros poles).

(* IIR.hpp 46-48 *)
Definition PrototypeElliptic (order : Z) (pr sr : R) : outcome zpk := do s <- Elliptic order pr sr; DiscretizePrototype s.
(* IIR.hpp 158-186 *)
Definition DesignEllipticLowpass (order : Z) (cutoff pr sr : R) : outcome zpk :=
  do halfband <- PrototypeElliptic order pr sr; Halfband2Lowpass halfband cutoff.
Definition DesignEllipticHighpass (order : Z) (cutoff pr sr : R) : outcome zpk :=
  do halfband <- PrototypeElliptic order pr sr; Halfband2Highpass halfband cutoff.
Definition DesignEllipticBandpass (order : Z) (lower upper pr sr : R) : outcome zpk :=
  assert_ (order mod 2 =? 0) (do halfband <- PrototypeElliptic (order / 2) pr sr; Halfband2Bandpass halfband lower upper).
Definition DesignEllipticBandstop (order : Z) (lower upper pr sr : R) : outcome zpk :=
  assert_ (order mod 2 =? 0) (do halfband <- PrototypeElliptic (order / 2) pr sr; Halfband2Bandstop halfband lower upper).
End Elliptic.
