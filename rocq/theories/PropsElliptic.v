(** C57 - C60: the elliptic integrals and functions.  The specification is EllipticSpec.v. *)
From Coq Require Import Reals Lra Lia ZArith List Bool Psatz.
From Coquelicot Require Import Rcomplements Rbar Hierarchy RInt RInt_gen.
From Verif Require Import Base BaseFacts Complex RootModel EllipticModel EllipticSpec EllipticAM EllipticRF EllipticInv EllipticJacobi.
Open Scope R_scope.

(** the machine epsilon of a binary floating-point type: any value a caller's type may have *)
Definition eps_am (eps : R) : Prop := / 2 ^ 127 <= eps <= 1.
Definition eps_rf (eps : R) : Prop := 0 < eps <= / 2 ^ 22.
Definition eps_jacobi (eps : R) : Prop := / 2 ^ 127 <= eps <= / 2 ^ 22.
Lemma float_eps : eps_am (/ 2 ^ 23) /\ eps_rf (/ 2 ^ 23) /\ eps_jacobi (/ 2 ^ 23).
Proof.
  unfold eps_am, eps_rf, eps_jacobi. assert (A : / 2 ^ 127 <= / 2 ^ 23) by (apply Rinv_le_contravar; [apply pow_lt; lra|apply Rle_pow; [lra|lia]]). assert (B : / 2 ^ 23 <= / 2 ^ 22) by (cbn [pow]; lra). assert (C : 0 < / 2 ^ 23) by (cbn [pow]; lra). assert (D : / 2 ^ 22 <= 1) by (cbn [pow]; lra). repeat split; lra.
Qed.
Lemma eps_jacobi_rf eps : eps_jacobi eps -> eps_rf eps.
Proof. intros [A B]. split; [|exact B]. eapply Rlt_le_trans; [|exact A]. apply Rinv_0_lt_compat, pow_lt. lra. Qed.

Lemma asin_increasing x y : -1 <= x -> x < y -> y <= 1 -> asin x < asin y.
Proof.
  intros X L Y. destruct (Rlt_dec (asin x) (asin y)) as [|N]; [assumption|]. exfalso. pose proof (asin_bound x). pose proof (asin_bound y). pose proof (sin_incr_1 (asin y) (asin x) ltac:(lra) ltac:(lra) ltac:(lra) ltac:(lra) ltac:(lra)) as S. rewrite !sin_asin in S by lra. lra.
Qed.
Lemma acos_decreasing x y : -1 <= x -> x < y -> y <= 1 -> acos y < acos x.
Proof.
  intros X L Y. destruct (Rlt_dec (acos y) (acos x)) as [|N]; [assumption|]. exfalso. pose proof (acos_bound x). pose proof (acos_bound y). pose proof (cos_decr_1 (acos x) (acos y) ltac:(lra) ltac:(lra) ltac:(lra) ltac:(lra) ltac:(lra)) as S. rewrite !cos_acos in S by lra. lra.
Qed.

(** ** C57: the amplitude *)
(** there is exactly one amplitude *)
Theorem C57_amplitude_exists_unique : forall k x, 0 <= k <= 1 -> exists! phi, amplitude k x phi.
Proof. intros k x K. destruct (amplitude_total k x K) as [p P]. exists p. split; [exact P|]. intros q Q. exact (amplitude_unique k x p q K P Q). Qed.
Theorem C57_amplitude : forall eps factors x k, eps_am eps -> modulus_ok eps k -> lenZ factors = 32%Z ->
  exists phi, EllipticAM eps factors x k = Ok phi /\ Rabs (legendre_F k phi - x) <= eps * Rabs x /\ forall psi, amplitude k x psi -> Rabs (phi - psi) <= eps * Rabs x.
Proof.
  intros eps fs x k He M L. destruct (am_total eps fs x k He M L) as (p & E & B & A). exists p. split; [exact E|]. split; [exact B|]. intros q Q. apply (am_accuracy k x (eps * Rabs x) p q); try assumption. destruct M as [K0 [->|K1]]; [lra|]. assert (0 < eps) by (eapply Rlt_le_trans; [|apply He]; apply Rinv_0_lt_compat, pow_lt; lra). lra.
Qed.
(** for the two degenerate moduli it is exact *)
Theorem C57_exact : forall eps factors x, amplitude 0 x x /\ EllipticAM eps factors x 0 = Ok x /\ exists phi, EllipticAM eps factors x 1 = Ok phi /\ amplitude 1 x phi.
Proof.
  intros eps fs x. split; [|split].
  - split; [apply legendre_0|lra].
  - unfold EllipticAM. destruct (Rle_dec 0 0); [|lra]. destruct (Rle_dec 0 1); [|lra]. cbn [andb assert_]. destruct (Req_EM_T 0 1); [lra|]. destruct (Req_EM_T 0 0); [reflexivity|lra].
  - exists (gd x). unfold EllipticAM. destruct (Rle_dec 0 1); [|lra]. destruct (Rle_dec 1 1); [|lra]. cbn [andb assert_]. destruct (Req_EM_T 1 1); [|lra]. split; [reflexivity|]. split; [apply legendre_gd|intros _; apply gd_bound].
Qed.
(** what earlier calls left in the thread-local scratch array makes no difference *)
Theorem C57_history : forall eps factors factors' x k, lenZ factors = 32%Z -> lenZ factors' = 32%Z -> EllipticAM eps factors x k = EllipticAM eps factors' x k.
Proof. intros eps f g x k L L'. now apply am_history. Qed.
(** a modulus outside [0, 1] is a violated precondition *)
Theorem C57_precondition : forall eps factors x k, k < 0 \/ 1 < k -> EllipticAM eps factors x k = UB.
Proof. intros eps fs x k H. unfold EllipticAM. destruct (Rle_dec 0 k); [|reflexivity]. destruct (Rle_dec k 1); [lra|reflexivity]. Qed.
Lemma half_ok : modulus_ok (/ 2 ^ 23) (1 / 2). Proof. split; [lra|right; cbn [pow]; lra]. Qed.
Example C57_nontrivial : exists phi, EllipticAM (/ 2 ^ 23) (repeat 0 32) 3 (1 / 2) = Ok phi /\ Rabs (legendre_F (1 / 2) phi - 3) <= / 2 ^ 23 * 3.
Proof.
  destruct (C57_amplitude (/ 2 ^ 23) (repeat 0 32) 3 (1 / 2) (proj1 float_eps) half_ok eq_refl) as (p & E & B & _). exists p. split; [exact E|]. rewrite (Rabs_pos_eq 3) in B by lra. exact B.
Qed.

(** ** C58: Carlson's integral and the complete integral *)
Theorem C58_carlson : forall eps x y z, eps_rf eps -> rf_args x y z ->
  exists w, isRF x y z w /\ (forall w', isRF x y z w' -> w' = w) /\ 0 < w /\
  exists N v, (forall fuel, (N <= fuel)%nat -> CarlsonRF eps fuel x y z = Ok (Fin v)) /\ Rabs (v - w) <= eps / 4 * w.
Proof.
  intros eps x y z He A. destruct (carlson_main eps x y z He A) as (N & v & w & F & R & W & B). exists w. pose proof A as (Hx & Hy & Hz & _). pose proof (RFprim_is x y z w Hx Hy Hz R) as I. split; [exact I|]. split; [|split; [exact W|exists N, v; now split]].
  intros w' I'. unfold isRF in I, I'. apply (is_RInt_gen_unique (V := R_CompleteNormedModule)) in I. apply (is_RInt_gen_unique (V := R_CompleteNormedModule)) in I'. rewrite I in I'. lra.
Qed.
(** any value returned is that one, however few iterations were needed *)
Theorem C58_carlson_any : forall eps fuel x y z v w, eps_rf eps -> rf_args x y z -> isRF x y z w -> CarlsonRF eps fuel x y z = Ok v -> exists a, v = Fin a /\ Rabs (a - w) <= eps / 4 * w.
Proof.
  intros eps fuel x y z v w He A I E. destruct (C58_carlson eps x y z He A) as (w' & _ & U & _ & N & a & F & B). rewrite <- (U w I) in B. exists a. split; [|exact B]. apply (carlson_mono eps fuel (max N fuel)) in E; [|lia]. rewrite F in E by lia. congruence.
Qed.
(** with two or three zero arguments the integral diverges and the function says so *)
Theorem C58_infinite : forall eps fuel x, CarlsonRF eps fuel 0 0 x = Ok Inf /\ CarlsonRF eps fuel 0 x 0 = Ok Inf /\ CarlsonRF eps fuel x 0 0 = Ok Inf.
Proof. intros eps fuel x. unfold CarlsonRF, is_zero. destruct (Req_EM_T 0 0); [|lra]. destruct (Req_EM_T x 0); repeat split. Qed.
Theorem C58_symmetric : forall eps x y z, eps_rf eps -> rf_args x y z -> exists N v, forall fuel, (N <= fuel)%nat ->
  CarlsonRF eps fuel x y z = Ok (Fin v) /\ exists v', CarlsonRF eps fuel z x y = Ok (Fin v') /\ Rabs (v - v') <= eps * v.
Proof.
  intros eps x y z He A. assert (A' : rf_args z x y) by (unfold rf_args in *; lra). destruct (carlson_main eps x y z He A) as (N & v & w & F & R & W & B). destruct (carlson_value eps z x y w He A') as (_ & N' & v' & F' & B'). { apply (RF_ext x y z); [intros t; ring|exact R]. }
  exists (max N N'), v. intros fuel Hf. split; [apply F; lia|]. exists v'. split; [apply F'; lia|]. unfold eps_rf in He. assert (P22 : / 2 ^ 22 <= 1 / 1000000) by (cbn [pow]; lra). apply Rabs_le_between in B. apply Rabs_le_between in B'. apply Rabs_le_between. assert (0 < eps * w) by nra. assert (3 / 4 * w <= v) by nra. assert (eps * (3 / 4 * w) <= eps * v) by nra. lra.
Qed.
Theorem C58_complete : forall eps k, eps_rf eps -> -1 < k < 1 -> 0 < legendre_K (Rabs k) /\
  exists N v, (forall fuel, (N <= fuel)%nat -> EllipticK eps fuel k = Ok (Fin v)) /\ within eps v (legendre_K (Rabs k)).
Proof. intros eps k He Hk. destruct (K_main eps k He Hk) as (P & N & v & F & B). split; [exact P|]. exists N, v. split; [exact F|]. unfold within, legendre_K in *. rewrite (Rabs_pos_eq (legendre_F _ _)) by lra. exact B. Qed.
Theorem C58_complete_infinite : forall eps fuel k, k = 1 \/ k = -1 -> EllipticK eps fuel k = Ok Inf.
Proof. intros eps fuel k H. unfold EllipticK. replace (1 - k * k) with 0 by (destruct H; subst; ring). apply C58_infinite. Qed.
Example C58_nontrivial : rf_args 0 (3 / 4) 1 /\ exists N v, (forall fuel, (N <= fuel)%nat -> EllipticK (/ 2 ^ 23) fuel (1 / 2) = Ok (Fin v)) /\ PI / 2 * (1 - / 2 ^ 23) <= v.
Proof.
  split; [unfold rf_args; lra|]. destruct (C58_complete (/ 2 ^ 23) (1 / 2) (proj1 (proj2 float_eps)) ltac:(lra)) as (P & N & v & F & B). exists N, v. split; [exact F|]. rewrite (Rabs_pos_eq (1 / 2)) in * by lra. unfold within in B. rewrite (Rabs_pos_eq (legendre_K _)) in B by lra.
  pose proof PI_RGT_0. pose proof (legendre_pos (1 / 2) (PI / 2) ltac:(lra) ltac:(lra)) as Q. fold (legendre_K (1 / 2)) in Q. apply Rabs_le_between in B. assert (E : 0 < / 2 ^ 23) by (cbn [pow]; lra). assert (E' : / 2 ^ 23 <= 1 / 2) by (cbn [pow]; lra). nra.
Qed.

(** ** C59: the inverse functions *)
(** x between 0 and 1 *)
Theorem C59_arcsn : forall eps k x, eps_rf eps -> -1 <= k <= 1 -> 0 <= x <= 1 -> Rabs k * x < 1 ->
  exists N v, (forall fuel, (N <= fuel)%nat -> EllipticArcSN eps fuel x k = Ok (Fin v)) /\ within eps v (legendre_F (Rabs k) (asin x)).
Proof.
  intros eps k x He Hk Hx L. destruct (arcsn_main eps k x He) as (N & v & F & B). { rewrite (Rabs_pos_eq x) by lra. repeat split; try lra; [apply Rabs_pos|apply Rabs_le; lra]. } rewrite (Rabs_pos_eq x) in B by lra. exists N, v. now split.
Qed.
Theorem C59_arccn : forall eps k x, eps_rf eps -> -1 <= k <= 1 -> 0 <= x <= 1 -> (x = 0 -> Rabs k < 1) ->
  exists N v, (forall fuel, (N <= fuel)%nat -> EllipticArcCN eps fuel x k = Ok (Fin v)) /\ within eps v (legendre_F (Rabs k) (acos x)).
Proof.
  intros eps k x He Hk Hx L. assert (A : Rabs k <= 1) by (apply Rabs_le; lra). pose proof (Rabs_pos k). destruct (arccn_main eps k x He ltac:(lra)) as (N & v & F & B).
  { assert (S : sqrt (1 - x * x) <= 1) by (replace 1 with (sqrt 1) at 2 by apply sqrt_1; apply sqrt_le_1_alt; nra). pose proof (sqrt_pos (1 - x * x)). repeat split; try lra. destruct (Req_dec x 0) as [->|N]; [specialize (L eq_refl); rewrite Rmult_0_l, Rminus_0_r, sqrt_1; lra|].
    assert (sqrt (1 - x * x) < 1). { replace 1 with (sqrt 1) at 2 by apply sqrt_1. apply sqrt_lt_1_alt. nra. } nra. }
  rewrite (Rabs_pos_eq x) in B by lra. exists N, v. now split.
Qed.
Theorem C59_arcdn : forall eps k x, eps_rf eps -> -1 <= k <= 1 -> k <> 0 -> 0 < x <= 1 -> 1 - k * k <= x * x ->
  exists N v, (forall fuel, (N <= fuel)%nat -> EllipticArcDN eps fuel x k = Ok (Fin v)) /\ within eps v (legendre_F (Rabs k) (asin (sqrt (1 - x * x) / Rabs k))).
Proof. intros eps k x He Hk K0 Hx L. apply arcdn_main; try assumption. split; [now apply Rabs_pos_lt|apply Rabs_le; lra]. Qed.
(** above zero on the imaginary axis sn(i u, k) = i tan(am(u, k')) with the complementary modulus k' *)
Theorem C59_arcsn_imaginary : forall eps k kp y, eps_rf eps -> -1 <= k <= 1 -> k <> 0 -> 0 <= kp -> kp * kp = 1 - k * k -> 0 < y ->
  exists N v, (forall fuel, (N <= fuel)%nat -> EllipticArcSN_imag eps fuel y k = Ok (Fin v)) /\ within eps v (legendre_F kp (atan y)).
Proof. intros eps k kp y He Hk K0 P Q Y. apply arcsn_imag_main; try assumption. split; [now apply Rabs_pos_lt|apply Rabs_le; lra]. Qed.
(** sn undoes ArcSN *)
Theorem C59_roundtrip : forall eps factors k x, eps_jacobi eps -> Rabs k <= 1 - eps / 2 -> lenZ factors = 32%Z -> 0 <= x <= 1 ->
  exists N v s, (forall fuel, (N <= fuel)%nat -> EllipticArcSN eps fuel x k = Ok (Fin v) /\ EllipticSN eps fuel factors v k = Ok s) /\ Rabs (s - x) <= 3 * eps * legendre_F (Rabs k) (asin x).
Proof.
  intros eps fs k x He Hk L Hx. pose proof (eps_jacobi_rf eps He) as Hr. pose proof Hr as [E0 E1]. assert (P22 : / 2 ^ 22 <= 1 / 1000000) by (cbn [pow]; lra). pose proof (Rabs_pos k) as A0.
  assert (Hk1 : -1 <= k <= 1) by (apply Rabs_le_between; lra). destruct (C59_arcsn eps k x Hr Hk1 Hx ltac:(nra)) as (N & v & F & B). destruct (sncndn_main eps fs v k He) as (N' & s & c & p & F' & S & _ & Bp & _); [split; [exact A0|right; lra]|exact L|].
  exists (max N N'), v, s. split; [intros fuel Hf; split; [apply F; lia|]; unfold EllipticSN; rewrite F' by lia; reflexivity|].
  assert (X0 : 0 <= asin x) by (rewrite <- asin_0; destruct (Req_dec x 0) as [->|]; [rewrite asin_0; lra|left; apply asin_increasing; lra]).
  assert (F0 : 0 <= legendre_F (Rabs k) (asin x)). { destruct (Req_dec (asin x) 0) as [->|]; [rewrite legendre_F_0; lra|]. pose proof (legendre_pos (Rabs k) (asin x) ltac:(lra) ltac:(lra)). lra. }
  set (w := legendre_F (Rabs k) (asin x)) in *. unfold within in B. rewrite (Rabs_pos_eq w) in B by exact F0. replace x with (sin (asin x)) by (apply sin_asin; lra). rewrite S. apply (trig_close p (asin x)).
  apply (am_accuracy (Rabs k) w (3 * eps * w) p (asin x)); [lra| |intros E; exfalso; lra|split; [reflexivity|intros E; exfalso; lra]].
  assert (V : Rabs v <= 5 / 4 * w). { apply Rabs_le_between in B. apply Rabs_le_between. nra. } replace (legendre_F (Rabs k) p - w) with ((legendre_F (Rabs k) p - v) + (v - w)) by ring. eapply Rle_trans; [apply Rabs_triang|]. assert (2 * eps * Rabs v <= 2 * eps * (5 / 4 * w)) by (apply Rmult_le_compat_l; lra). assert (0 <= eps * w) by nra. lra.
Qed.
(** Arguments below zero: sn is odd in its argument, ArcSN is even.  It returns the value for |x| *)
Theorem C59_negative_refuted : forall eps k x, eps_rf eps -> -1 < k < 1 -> -1 <= x < 0 ->
  exists N v, (forall fuel, (N <= fuel)%nat -> EllipticArcSN eps fuel x k = Ok (Fin v)) /\ 0 < v /\ within eps v (legendre_F (Rabs k) (asin (- x))) /\ legendre_F (Rabs k) (asin x) < 0 /\ ~ within eps v (legendre_F (Rabs k) (asin x)).
Proof.
  intros eps k x He Hk Hx. pose proof He as [E0 E1]. assert (P22 : / 2 ^ 22 <= 1 / 1000000) by (cbn [pow]; lra). pose proof (Rabs_pos k) as A0. assert (A1 : Rabs k < 1) by (apply Rabs_def1; lra).
  destruct (arcsn_main eps k x He) as (N & v & F & B). { rewrite (Rabs_left x) by lra. repeat split; try lra. nra. } rewrite (Rabs_left x) in B by lra. exists N, v. split; [exact F|].
  assert (X0 : 0 < asin (- x)) by (rewrite <- asin_0 at 1; apply asin_increasing; lra). pose proof (legendre_pos (Rabs k) (asin (- x)) ltac:(lra) X0) as W. set (w := legendre_F (Rabs k) (asin (- x))) in *.
  assert (O : legendre_F (Rabs k) (asin x) = - w). { replace x with (- - x) by ring. rewrite (asin_opp (- x)). apply legendre_odd. lra. } rewrite O. assert (V : 0 < v). { unfold within in B. rewrite (Rabs_pos_eq w) in B by lra. apply Rabs_le_between in B. nra. }
  repeat split; [exact V|exact B|lra|]. unfold within. rewrite Rabs_Ropp, (Rabs_pos_eq w), (Rabs_pos_eq (v - - w)) by lra. nra.
Qed.
(** likewise ArcCN returns the value for |x|: below zero the inverse of cn exceeds K, the value returned does not *)
Theorem C59_negative_cn_refuted : forall eps k x, eps_rf eps -> -1 < k < 1 -> -1 <= x < 0 ->
  exists N v, (forall fuel, (N <= fuel)%nat -> EllipticArcCN eps fuel x k = Ok (Fin v)) /\ within eps v (legendre_F (Rabs k) (acos (- x))) /\ legendre_F (Rabs k) (acos (- x)) < legendre_K (Rabs k) < legendre_F (Rabs k) (acos x).
Proof.
  intros eps k x He Hk Hx. pose proof (Rabs_pos k) as A0. assert (A1 : Rabs k < 1) by (apply Rabs_def1; lra). destruct (arccn_main eps k x He ltac:(lra)) as (N & v & F & B).
  { assert (S : sqrt (1 - x * x) <= 1) by (replace 1 with (sqrt 1) at 2 by apply sqrt_1; apply sqrt_le_1_alt; nra). pose proof (sqrt_pos (1 - x * x)). repeat split; try lra. nra. } rewrite (Rabs_left x) in B by lra. exists N, v. split; [exact F|]. split; [exact B|].
  unfold legendre_K. rewrite <- acos_0. split; apply legendre_mono; try lra; apply acos_decreasing; lra.
Qed.
Example C59_nontrivial : exists N v s, forall fuel, (N <= fuel)%nat -> EllipticArcSN (/ 2 ^ 23) fuel 1 (1 / 2) = Ok (Fin v) /\ EllipticSN (/ 2 ^ 23) fuel (repeat 0 32) v (1 / 2) = Ok s.
Proof.
  destruct (C59_roundtrip (/ 2 ^ 23) (repeat 0 32) (1 / 2) 1 (proj2 (proj2 float_eps))) as (N & v & s & F & _); [rewrite Rabs_pos_eq by lra; cbn [pow]; lra|reflexivity|lra|]. exists N, v, s. exact F.
Qed.

(** ** C60: Jacobi's functions *)
(** each is within 2 eps |x| of the true value, wherever x is *)
Theorem C60_accuracy : forall eps factors x k, eps_jacobi eps -> modulus_ok eps (Rabs k) -> lenZ factors = 32%Z ->
  exists N s c d, (forall fuel, (N <= fuel)%nat -> EllipticSNCNDN eps fuel factors x k = Ok (s, c, d) /\ EllipticSN eps fuel factors x k = Ok s) /\
    forall psi, amplitude (Rabs k) x psi -> Rabs (s - sin psi) <= 2 * eps * Rabs x /\ Rabs (c - cos psi) <= 2 * eps * Rabs x /\ Rabs (d - sqrt (1 - k * k * (sin psi * sin psi))) <= 2 * eps * Rabs x.
Proof.
  intros eps fs x k He M L. destruct (sncndn_main eps fs x k He M L) as (N & s & c & p & F & S & C & _ & A). exists N, s, c, (sqrt (1 - k * k * s * s)). split; [intros fuel Hf; split; [now apply F|unfold EllipticSN; rewrite F by exact Hf; reflexivity]|].
  intros q Q. destruct (trig_close p q _ (A q Q)) as (T1 & T2 & T3). rewrite S, C. split; [exact T1|]. split; [exact T2|]. assert (KK : Rabs k * Rabs k = k * k) by (rewrite <- Rabs_mult; apply Rabs_pos_eq; exact (Rle_0_sqr k)). specialize (T3 (Rabs k)). rewrite KK in T3. rewrite <- Rmult_assoc. apply T3. split; [apply Rabs_pos|]. destruct M as [_ [->|M]]; [lra|]. pose proof (eps_jacobi_rf eps He) as [E0 _]. lra.
Qed.
Theorem C60_identities : forall eps fuel factors x k s c d, -1 <= k <= 1 -> EllipticSNCNDN eps fuel factors x k = Ok (s, c, d) -> s * s + c * c = 1 /\ d * d + k * k * (s * s) = 1 /\ 0 <= d.
Proof.
  intros eps fuel fs x k s c d Hk E. apply sncndn_inv in E. destruct E as (A & B & D). destruct (Rlt_dec 1 (Rabs k)) as [H|H]; [assert (Rabs k <= 1) by (apply Rabs_le; lra); lra|]. repeat split; lra.
Qed.
(** for a complex argument: the addition formula at the amplitudes of the real part (modulus k) and the imaginary part (complementary modulus), each within 2 eps of the true one *)
Theorem C60_complex : forall eps factors x k kp, eps_jacobi eps -> modulus_ok eps (Rabs k) -> modulus_ok eps kp -> kp * kp = 1 - k * k -> lenZ factors = 32%Z ->
  exists N p q, Rabs (legendre_F (Rabs k) p - re x) <= 2 * eps * Rabs (re x) /\ Rabs (legendre_F kp q - im x) <= 2 * eps * Rabs (im x) /\
  let s := sin p in let c := cos p in let d := sqrt (1 - k * k * (s * s)) in
  let s' := sin q in let c' := cos q in let d' := sqrt (1 - kp * kp * (s' * s')) in
  let D := c' * c' + k * k * (s * s) * (s' * s') in
  forall fuel, (N <= fuel)%nat -> (D = 0 -> EllipticSNCNDN_C eps fuel factors x k = UB) /\
    (D <> 0 -> EllipticSNCNDN_C eps fuel factors x k = Ok (mkC (s * d' / D) (c * d * s' * c' / D), mkC (c * c' / D) (- (s * d * s' * d') / D), mkC (d * c' * d' / D) (- (k * k * s * c * s') / D))).
Proof.
  intros eps fs x k kp He M M' KP L. destruct (sncndn_main eps fs (re x) k He M L) as (N & s & c & p & F & S & C & B & _). destruct (sncndn_main eps fs (im x) kp He) as (N' & s' & c' & q & F' & S' & C' & B' & _); [rewrite Rabs_pos_eq by apply M'; exact M'|exact L|]. rewrite (Rabs_pos_eq kp) in B' by apply M'.
  exists (max N N'), p, q. split; [exact B|]. split; [exact B'|]. cbv zeta. rewrite <- S, <- C, <- S', <- C'. intros fuel Hf.
  assert (K : sqrt_ (1 - k * k) = Ok kp). { unfold sqrt_. destruct (Rle_dec 0 (1 - k * k)) as [H|H]; [|exfalso; apply H; rewrite <- KP; exact (Rle_0_sqr kp)]. f_equal. rewrite <- KP. apply sqrt_square, M'. }
  unfold EllipticSNCNDN_C. rewrite F by lia. cbn [bind]. rewrite K. cbn [bind]. rewrite F' by lia. cbn [bind]. unfold cdiv_. replace (c' * c' + k * k * s' * s' * s * s) with (c' * c' + k * k * (s * s) * (s' * s')) by ring.
  replace (1 - k * k * s * s) with (1 - k * k * (s * s)) by ring. replace (1 - kp * kp * s' * s') with (1 - kp * kp * (s' * s')) by ring.
  destruct (Req_EM_T _ 0) as [D|D]; (split; [intros D'|intros D']); [reflexivity|tauto|tauto|]. cbn [bind]. unfold CdivR. cbn [re im]. apply f_equal, f_equal2; [apply f_equal2|]; apply f_equal2; field; exact D.
Qed.
Theorem C60_complex_identities : forall eps fuel factors x k sn cn dn, -1 <= k <= 1 -> EllipticSNCNDN_C eps fuel factors x k = Ok (sn, cn, dn) ->
  Cadd (Cmul sn sn) (Cmul cn cn) = C1 /\ Cadd (Cmul dn dn) (Cmul (RtoC (k * k)) (Cmul sn sn)) = C1.
Proof. exact sncndn_C_inv. Qed.
Theorem C60_history : forall eps fuel factors factors' x k, lenZ factors = 32%Z -> lenZ factors' = 32%Z ->
  EllipticSNCNDN eps fuel factors x k = EllipticSNCNDN eps fuel factors' x k.
Proof. intros eps fuel f g x k L L'. unfold EllipticSNCNDN. destruct (EllipticReduceRange eps fuel x k) as [[[[a b] u] v]| |]; [|reflexivity|reflexivity]. cbn [bind]. now rewrite (am_history eps f g). Qed.
(** For a modulus above 1 the reciprocal-modulus transformation exchanges cn and dn; the code leaves cn as it is, so that sn^2 + cn^2 = 1 fails whenever sn is not zero *)
Theorem C60_large_modulus_refuted : (forall eps fuel factors x k s c d, 1 < Rabs k -> EllipticSNCNDN eps fuel factors x k = Ok (s, c, d) -> s <> 0 -> s * s + c * c <> 1) /\
  exists s c d, EllipticSNCNDN (/ 2 ^ 23) 0 (repeat 0 32) (1 / 2) 2 = Ok (s, c, d) /\ s <> 0.
Proof.
  split.
  - intros eps fuel fs x k s c d Hk E S0 H. apply sncndn_inv in E. destruct E as (A & _). destruct (Rlt_dec 1 (Rabs k)) as [_|]; [|tauto]. assert (KK : 1 < k * k). { replace (k * k) with (Rabs k * Rabs k) by (rewrite <- Rabs_mult; apply Rabs_pos_eq; exact (Rle_0_sqr k)). nra. } assert (0 < s * s) by (destruct (Rtotal_order s 0) as [|[|]]; [nra|tauto|nra]). nra.
  - destruct (C57_amplitude (/ 2 ^ 23) (repeat 0 32) 1 (1 / 2) (proj1 float_eps) half_ok eq_refl) as (p & E & B & _). exists (1 / 2 * sin p), (1 * cos p), (sqrt (1 - 2 * 2 * (1 / 2 * sin p) * (1 / 2 * sin p))).
    split.
    + unfold EllipticSNCNDN, EllipticReduceRange. destruct (Rlt_dec 2 0); [lra|]. destruct (Rlt_dec 1 2); [|lra]. pose proof PI2_1. destruct (Rlt_dec (PI / 2) (1 / 2 * 2)); [lra|]. cbn [bind]. replace (1 / 2 * 2) with 1 by field. rewrite E. cbn [bind]. unfold sqrt_. destruct (Rle_dec 0 _) as [|H']; [reflexivity|]. exfalso. apply H'. pose proof (sin2_cos2 p) as T. unfold Rsqr in T. pose proof (Rle_0_sqr (cos p)) as T'. unfold Rsqr in T'. nra.
    + assert (E' : / 2 ^ 23 <= 1 / 1000000) by (cbn [pow]; lra). rewrite (Rabs_pos_eq 1) in B by lra. apply Rabs_le_between in B. assert (P0 : 0 < p). { destruct (Rle_dec p 0) as [H|]; [|lra]. exfalso. destruct (Req_dec p 0) as [->|N]; [rewrite legendre_F_0 in B; lra|]. pose proof (legendre_pos (1 / 2) (- p) ltac:(lra) ltac:(lra)) as W. rewrite legendre_odd in W by lra. lra. }
      assert (P1 : p <= legendre_F (1 / 2) p) by (apply legendre_pos; lra). pose proof PI2_1. pose proof (sin_gt_0 p P0 ltac:(lra)). lra.
Qed.
Example C60_nontrivial : exists N s c d, (forall fuel, (N <= fuel)%nat -> EllipticSNCNDN (/ 2 ^ 23) fuel (repeat 0 32) 10 (1 / 2) = Ok (s, c, d)) /\ s * s + c * c = 1.
Proof.
  destruct (C60_accuracy (/ 2 ^ 23) (repeat 0 32) 10 (1 / 2) (proj2 (proj2 float_eps))) as (N & s & c & d & F & _); [rewrite Rabs_pos_eq by lra; exact half_ok|reflexivity|]. exists N, s, c, d. split; [intros fuel Hf; now apply F|]. assert (H : -1 <= 1 / 2 <= 1) by lra. destruct (F N (le_n N)) as [E _]. exact (proj1 (C60_identities _ N _ _ _ s c d H E)).
Qed.

Print Assumptions C57_amplitude.
Print Assumptions C58_carlson.
Print Assumptions C58_complete.
Print Assumptions C59_arcsn.
Print Assumptions C59_roundtrip.
Print Assumptions C60_accuracy.
Print Assumptions C60_complex.
