(** What the elliptic functions are supposed to be: the classical definitions, independent of the code (used by C57 - C61). *)
From Coq Require Import Reals.
From Coquelicot Require Import Rbar Hierarchy RInt RInt_gen.
Open Scope R_scope.

(** Legendre's incomplete integral of the first kind for the modulus k, and the complete one *)
Definition legendre_F (k phi : R) : R := RInt (fun t => / sqrt (1 - k * k * (sin t * sin t))) 0 phi.
Definition legendre_K (k : R) : R := legendre_F k (PI / 2).

(** Carlson's symmetric integral: RF(x, y, z) = 1/2 * the integral of the integrand from 0 to infinity *)
Definition rf_integrand (x y z t : R) : R := / sqrt ((t + x) * (t + y) * (t + z)).
Definition isRF (x y z v : R) : Prop := is_RInt_gen (rf_integrand x y z) (at_right 0) (Rbar_locally p_infty) (2 * v).
(** no argument is negative and at most one is zero *)
Definition rf_args (x y z : R) : Prop := 0 <= x /\ 0 <= y /\ 0 <= z /\ 0 < x + y /\ 0 < x + z /\ 0 < y + z.

(** phi is the amplitude of x for the modulus k; for k = 1 it lies strictly between -pi/2 and pi/2.
    sn(x, k) = sin phi, cn(x, k) = cos phi, dn(x, k) = sqrt(1 - k^2 sin^2 phi) *)
Definition amplitude (k x phi : R) : Prop := legendre_F k phi = x /\ (k = 1 -> - (PI / 2) < phi < PI / 2).

(** moduli a floating-point type can hold: 1, or at most 1 - eps/2 *)
Definition modulus_ok (eps k : R) : Prop := 0 <= k /\ (k = 1 \/ k <= 1 - eps / 2).
(** v is w up to a relative error of a quarter of eps *)
Definition within (eps v w : R) : Prop := Rabs (v - w) <= eps / 4 * Rabs w.
