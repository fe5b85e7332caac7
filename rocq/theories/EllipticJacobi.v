(** Complete and inverse integrals, Jacobi's functions (used by C58 - C60). *)
From Coq Require Import Reals Lra Lia ZArith List Bool.
From Coquelicot Require Import Rcomplements Rbar Hierarchy Continuity Derive RInt RInt_gen RInt_analysis AutoDerive ElemFct.
From Verif Require Import Base BaseFacts Complex RootModel EllipticModel EllipticSpec EllipticAM EllipticRF EllipticInv.
Open Scope R_scope.

(** ** What the functions built on CarlsonRF return *)
Lemma carlson_value eps x y z w : 0 < eps <= / 2 ^ 22 -> rf_args x y z -> RFprim x y z w ->
  0 < w /\ exists N v, (forall fuel, (N <= fuel)%nat -> CarlsonRF eps fuel x y z = Ok (Fin v)) /\ Rabs (v - w) <= eps / 4 * w.
Proof.
  intros He A P. destruct (carlson_main eps x y z He A) as (N & v & rf & F & R & R0 & B). assert (rf = w) by (destruct A as (Hx & Hy & Hz & _); exact (RF_unique x y z rf w Hx Hy Hz R P)). subst rf.
  split; [exact R0|]. exists N, v. now split.
Qed.
Lemma within_scale eps s v w : 0 <= s -> 0 < w -> Rabs (v - w) <= eps / 4 * w -> within eps (s * v) (s * w).
Proof. intros Hs Hw B. unfold within. replace (s * v - s * w) with (s * (v - w)) by ring. rewrite !Rabs_mult, (Rabs_pos_eq s Hs), (Rabs_pos_eq w) by lra. nra. Qed.

Lemma K_main eps k : 0 < eps <= / 2 ^ 22 -> -1 < k < 1 -> 0 < legendre_F (Rabs k) (PI / 2) /\
  exists N v, (forall fuel, (N <= fuel)%nat -> EllipticK eps fuel k = Ok (Fin v)) /\ Rabs (v - legendre_F (Rabs k) (PI / 2)) <= eps / 4 * legendre_F (Rabs k) (PI / 2).
Proof.
  intros He Hk. assert (A : 0 <= Rabs k < 1) by (split; [apply Rabs_pos|apply Rabs_def1; lra]). assert (KK : Rabs k * Rabs k = k * k) by (rewrite <- Rabs_mult; apply Rabs_pos_eq; nra).
  pose proof (RF_legendre (Rabs k) 1 ltac:(lra) ltac:(lra) ltac:(lra)) as R. rewrite asin_1, div_1_r in R. replace (1 - 1 * 1) with 0 in R by ring. replace (1 - Rabs k * Rabs k * 1 * 1) with (1 - k * k) in R by (rewrite KK; ring).
  assert (Ar : rf_args 0 (1 - k * k) 1) by (unfold rf_args; repeat split; nra). destruct (carlson_value eps _ _ _ _ He Ar R) as (W & N & v & F & B). split; [exact W|]. exists N, v. split; [exact F|exact B].
Qed.

Definition arcs_dom (k s : R) : Prop := 0 <= k <= 1 /\ 0 <= s <= 1 /\ k * s < 1.
Lemma rf_args_arcs k s : arcs_dom k s -> rf_args (1 - s * s) (1 - k * k * s * s) 1.
Proof. intros (Hk & Hs & Hks). unfold rf_args. assert (0 <= k * s) by nra. assert (k * s * (k * s) < 1) by nra. replace (k * k * s * s) with (k * s * (k * s)) by ring. repeat split; nra. Qed.
(** s * CarlsonRF at arguments with the same product as (1 - s^2, 1 - k^2 s^2, 1) *)
Lemma arcs_main eps k s x y z : 0 < eps <= / 2 ^ 22 -> arcs_dom k s -> rf_args x y z -> (forall t, (t + (1 - s * s)) * (t + (1 - k * k * s * s)) * (t + 1) = (t + x) * (t + y) * (t + z)) ->
  exists N v, (forall fuel, (N <= fuel)%nat -> CarlsonRF eps fuel x y z = Ok (Fin v)) /\ within eps (s * v) (legendre_F k (asin s)).
Proof.
  intros He D A E. pose proof D as (Hk & Hs & Hks). destruct (Req_dec s 0) as [->|S0].
  - destruct (carlson_main eps x y z He A) as (N & v & rf & F & _). exists N, v. split; [exact F|]. unfold within. rewrite asin_0, legendre_F_0, Rmult_0_l, Rminus_0_r, Rabs_R0. lra.
  - pose proof (RF_ext _ _ _ x y z _ E (RF_legendre k s Hk ltac:(lra) Hks)) as R. destruct (carlson_value eps _ _ _ _ He A R) as (W & N & v & F & B). exists N, v. split; [exact F|].
    replace (legendre_F k (asin s)) with (s * (legendre_F k (asin s) / s)) by (field; lra). apply within_scale; [lra|exact W|exact B].
Qed.
Lemma arcsn_main eps k x : 0 < eps <= / 2 ^ 22 -> arcs_dom (Rabs k) (Rabs x) -> exists N v, (forall fuel, (N <= fuel)%nat -> EllipticArcSN eps fuel x k = Ok (Fin v)) /\ within eps v (legendre_F (Rabs k) (asin (Rabs x))).
Proof.
  intros He D. assert (KK : Rabs k * Rabs k = k * k) by (rewrite <- Rabs_mult; apply Rabs_pos_eq; nra). assert (XX : Rabs x * Rabs x = x * x) by (rewrite <- Rabs_mult; apply Rabs_pos_eq; nra).
  pose proof (rf_args_arcs _ _ D) as A. replace (Rabs k * Rabs k * Rabs x * Rabs x) with (k * k * x * x) in A by (rewrite <- KK, (Rmult_assoc _ x x), <- XX; ring). rewrite XX in A.
  destruct (arcs_main eps (Rabs k) (Rabs x) _ _ _ He D A) as (N & v & F & B). { intros t. replace (Rabs k * Rabs k * Rabs x * Rabs x) with (k * k * x * x) by (rewrite <- KK, (Rmult_assoc _ x x), <- XX; ring). rewrite XX. reflexivity. }
  exists N, (Rabs x * v). split; [|exact B]. intros fuel Hf. unfold EllipticArcSN, sqrt_. destruct (Rle_dec 0 (x * x)) as [_|Q]; [|exfalso; apply Q; nra]. cbn [bind]. rewrite F by exact Hf. cbn [bind xmul]. replace (x * x) with (Rsqr x) by reflexivity. rewrite sqrt_Rsqr_abs. reflexivity.
Qed.
Lemma arccn_main eps k x : 0 < eps <= / 2 ^ 22 -> -1 <= x <= 1 -> arcs_dom (Rabs k) (sqrt (1 - x * x)) -> exists N v, (forall fuel, (N <= fuel)%nat -> EllipticArcCN eps fuel x k = Ok (Fin v)) /\ within eps v (legendre_F (Rabs k) (acos (Rabs x))).
Proof.
  intros He Hx D. assert (KK : Rabs k * Rabs k = k * k) by (rewrite <- Rabs_mult; apply Rabs_pos_eq; nra). assert (XX : Rabs x * Rabs x = x * x) by (rewrite <- Rabs_mult; apply Rabs_pos_eq; nra).
  set (s := sqrt (1 - x * x)) in *. assert (S2 : s * s = 1 - x * x) by (apply sqrt_sqrt; nra).
  assert (Q : Rabs k * Rabs k * s * s = k * k - k * k * x * x) by (rewrite KK, Rmult_assoc, S2; ring).
  pose proof (rf_args_arcs _ _ D) as A. rewrite Q in A. rewrite S2 in A.
  destruct (arcs_main eps (Rabs k) s (x * x) 1 (1 - k * k + k * k * x * x) He D) as (N & v & F & B).
  { unfold rf_args in *. repeat split; lra. }
  { intros t. rewrite Q, S2. ring. }
  exists N, (s * v). split.
  - intros fuel Hf. unfold EllipticArcCN, sqrt_. destruct (Rle_dec 0 (1 - x * x)) as [_|Qn]; [|exfalso; apply Qn; nra]. cbn [bind]. rewrite F by exact Hf. reflexivity.
  - assert (Ea : asin s = acos (Rabs x)). { assert (A1 : 0 <= Rabs x <= 1) by (split; [apply Rabs_pos|apply Rabs_le; lra]). rewrite <- (asin_sin (acos (Rabs x))). { f_equal. rewrite sin_acos by lra. unfold Rsqr. rewrite XX. reflexivity. } pose proof (acos_bound (Rabs x)).
      assert (acos (Rabs x) <= PI / 2). { rewrite acos_asin by lra. assert (0 <= asin (Rabs x)); [|lra]. destruct A1 as [[A0|A0] A1]; [|rewrite <- A0, asin_0; lra]. left. apply Rnot_le_lt. intros N0. assert (Sn : sin (asin (Rabs x)) <= 0). { rewrite <- (Ropp_involutive (asin (Rabs x))), sin_neg. pose proof (asin_bound (Rabs x)). pose proof (sin_ge_0 (- asin (Rabs x)) ltac:(lra) ltac:(pose proof PI_RGT_0; lra)). lra. } rewrite sin_asin in Sn by lra. lra. } pose proof PI_RGT_0. lra. }
    rewrite <- Ea. exact B.
Qed.
Lemma arcdn_main eps k x : 0 < eps <= / 2 ^ 22 -> 0 < Rabs k <= 1 -> 0 < x <= 1 -> 1 - k * k <= x * x -> exists N v, (forall fuel, (N <= fuel)%nat -> EllipticArcDN eps fuel x k = Ok (Fin v)) /\ within eps v (legendre_F (Rabs k) (asin (sqrt (1 - x * x) / Rabs k))).
Proof.
  intros He Hk Hx Hd. assert (KK : Rabs k * Rabs k = k * k) by (rewrite <- Rabs_mult; apply Rabs_pos_eq; nra). set (c := Rabs k) in *. set (r := sqrt (1 - x * x)). assert (R2 : r * r = 1 - x * x) by (apply sqrt_sqrt; nra). assert (R0 : 0 <= r) by apply sqrt_pos.
  assert (S2 : r / c * (r / c) = (1 - x * x) / (c * c)) by (rewrite <- R2; field; lra).
  assert (S0 : 0 <= r / c) by (apply Rle_mult_inv_pos; lra). assert (E0 : r = c * (r / c)) by (field; lra).
  assert (Rc : r <= c) by nra. assert (S1 : r / c <= 1) by (apply (Rmult_le_reg_r c); [lra|]; unfold Rdiv; rewrite Rmult_assoc, Rinv_l by lra; lra).
  assert (D : arcs_dom c (r / c)). { unfold arcs_dom. repeat split; try lra. replace (c * (r / c)) with r by (field; lra). nra. }
  assert (A : rf_args (c * c * x * x) (c * c) (c * c + x * x - 1)). { unfold rf_args. assert (0 < c * c * x * x) by (repeat apply Rmult_lt_0_compat; lra). repeat split; nra. }
  assert (V : exists N v, (forall fuel, (N <= fuel)%nat -> CarlsonRF eps fuel (c * c * x * x) (c * c) (c * c + x * x - 1) = Ok (Fin v)) /\ within eps (r * v) (legendre_F c (asin (r / c)))).
  { destruct (Req_dec r 0) as [Z|NZ].
    - destruct (carlson_main eps _ _ _ He A) as (N & v & rf & F & _). exists N, v. split; [exact F|]. unfold within. rewrite Z. unfold Rdiv. rewrite !Rmult_0_l, asin_0, legendre_F_0, Rminus_0_r, Rabs_R0. lra.
    - assert (Sp : 0 < r / c) by (apply Rdiv_lt_0_compat; lra). destruct D as (D1 & D2 & D3). pose proof (RF_scale _ _ _ _ c ltac:(lra) (RF_legendre c (r / c) D1 ltac:(lra) D3)) as R.
      assert (RR : RFprim (c * c * x * x) (c * c) (c * c + x * x - 1) (legendre_F c (asin (r / c)) / (r / c) / c)).
      { apply (RF_ext _ _ _ _ _ _ _) with (2 := R). intros t. replace (1 - r / c * (r / c)) with ((c * c + x * x - 1) / (c * c)) by (rewrite S2; field; lra). replace (1 - c * c * (r / c) * (r / c)) with (x * x) by (rewrite Rmult_assoc, S2; field; lra). field. lra. }
      destruct (carlson_value eps _ _ _ _ He A RR) as (W & N & v & F & B). exists N, v. split; [exact F|].
      replace (legendre_F c (asin (r / c))) with (r * (legendre_F c (asin (r / c)) / (r / c) / c)) at 1 by (field; split; [lra|exact NZ]). apply within_scale; [lra|exact W|exact B]. }
  destruct V as (N & v & F & B). exists N, (r * v). split; [|exact B]. intros fuel Hf. unfold EllipticArcDN, sqrt_. fold r. destruct (Rle_dec 0 (1 - x * x)) as [_|Qn]; [|exfalso; apply Qn; nra]. cbn [bind]. rewrite <- KK. rewrite F by exact Hf. reflexivity.
Qed.
Lemma arcsn_imag_main eps k kp y : 0 < eps <= / 2 ^ 22 -> 0 < Rabs k <= 1 -> 0 <= kp -> kp * kp = 1 - k * k -> 0 < y -> exists N v, (forall fuel, (N <= fuel)%nat -> EllipticArcSN_imag eps fuel y k = Ok (Fin v)) /\ within eps v (legendre_F kp (atan y)).
Proof.
  intros He Hk Hp K2 Hy. assert (KK : Rabs k * Rabs k = k * k) by (rewrite <- Rabs_mult; apply Rabs_pos_eq; nra).
  pose proof (RF_imaginary (Rabs k) kp y Hk Hp ltac:(rewrite KK; exact K2) Hy) as R. rewrite KK in R.
  assert (A : rf_args (1 + y * y) (1 + k * k * y * y) 1). { assert (0 <= k * k * y * y) by (replace (k * k * y * y) with ((k * y) * (k * y)) by ring; nra). unfold rf_args. repeat split; nra. }
  destruct (carlson_value eps _ _ _ _ He A R) as (W & N & v & F & B). exists N, (y * v). split; [intros fuel Hf; unfold EllipticArcSN_imag; rewrite F by exact Hf; reflexivity|].
  replace (legendre_F kp (atan y)) with (y * (legendre_F kp (atan y) / y)) by (field; lra). apply within_scale; [lra|exact W|exact B].
Qed.

(** ** Periodicity of Legendre's integral *)
Lemma legendre_derive_all k p : 0 <= k < 1 -> is_derive (legendre_F k) p (/ sqrt (1 - k * k * (sin p * sin p))).
Proof.
  intros K. apply (is_derive_ext (Iab 1 (sqrt (1 - k * k)))). { intros t. symmetry. now apply legendre_Iab. }
  replace (1 - k * k * (sin p * sin p)) with (rad 1 (sqrt (1 - k * k)) p). { apply Iab_derive. split; [apply sqrt_lt_R0; nra|]. apply Rle_trans with (sqrt 1); [apply sqrt_le_1_alt; nra|rewrite sqrt_1; lra]. }
  unfold rad. rewrite sqrt_sqrt by nra. pose proof (sin2_cos2 p) as T. unfold Rsqr in T. replace (cos p * cos p) with (1 - sin p * sin p) by lra. ring.
Qed.
Lemma legendre_shift k p : 0 <= k < 1 -> legendre_F k (p + PI) = legendre_F k p + legendre_F k PI.
Proof.
  intros K. assert (D : forall t, is_derive (fun u => legendre_F k (u + PI) - legendre_F k u) t 0).
  { intros t. evar_last. { apply (is_derive_minus (V := R_NormedModule) (fun u => legendre_F k (u + PI)) (legendre_F k)); [|now apply legendre_derive_all].
      apply (is_derive_comp (V := R_NormedModule) (legendre_F k) (fun u => u + PI)); [now apply legendre_derive_all|]. instantiate (1 := 1). evar_last; [auto_derive; [exact Logic.I|reflexivity]|ring]. }
    rewrite neg_sin. unfold minus, plus, opp, scal; simpl. unfold mult; simpl. replace (- sin t * - sin t) with (sin t * sin t) by ring. ring. }
  pose proof (const_of_derive _ D p) as E. cbv beta in E. rewrite Rplus_0_l, legendre_F_0 in E. lra.
Qed.
Lemma legendre_half k : 0 <= k < 1 -> legendre_F k PI = 2 * legendre_F k (PI / 2).
Proof.
  intros K. assert (D : forall t, is_derive (fun u => legendre_F k (PI - u) + legendre_F k u) t 0).
  { intros t. evar_last. { apply (is_derive_plus (V := R_NormedModule) (fun u => legendre_F k (PI - u)) (legendre_F k)); [|now apply legendre_derive_all].
      apply (is_derive_comp (V := R_NormedModule) (legendre_F k) (fun u => PI - u)); [now apply legendre_derive_all|]. instantiate (1 := -1). evar_last; [auto_derive; [exact Logic.I|reflexivity]|ring]. }
    rewrite sin_PI_x. unfold plus, scal; simpl. unfold mult; simpl. ring. }
  pose proof (const_of_derive _ D (PI / 2)) as E. cbv beta in E. rewrite Rminus_0_r, legendre_F_0 in E. replace (PI - PI / 2) with (PI / 2) in E by field. lra.
Qed.
Lemma legendre_turns k p n : 0 <= k < 1 -> legendre_F k (p + INR n * PI) = legendre_F k p + INR n * (2 * legendre_F k (PI / 2)).
Proof.
  intros K. induction n as [|n IH]; [simpl; rewrite !Rmult_0_l, !Rplus_0_r; reflexivity|]. rewrite S_INR. replace (p + (INR n + 1) * PI) with (p + INR n * PI + PI) by ring. rewrite legendre_shift, legendre_half, IH by exact K. ring.
Qed.
Lemma trig_turns p n : sin (p + INR n * PI) = (if Nat.even n then 1 else -1) * sin p /\ cos (p + INR n * PI) = (if Nat.even n then 1 else -1) * cos p.
Proof.
  induction n as [|n [S C]]; [simpl; rewrite !Rmult_0_l, !Rplus_0_r; split; ring|]. rewrite S_INR. replace (p + (INR n + 1) * PI) with (p + INR n * PI + PI) by ring. rewrite neg_sin, neg_cos, S, C, Nat.even_succ, <- Nat.negb_even. destruct (Nat.even n); simpl; split; ring.
Qed.

(** ** Existence of the amplitude *)
Lemma amplitude_exists k x : 0 <= k <= 1 -> exists phi, legendre_F k phi = x.
Proof.
  intros K. destruct (Req_dec k 1) as [->|N]; [exists (gd x); apply legendre_gd|]. assert (K1 : 0 <= k < 1) by lra.
  assert (Cn : continuity (fun t => legendre_F k t - x)). { intros t. apply continuity_pt_filterlim. apply (ex_derive_continuous (K := R_AbsRing) (V := R_NormedModule) (fun t => legendre_F k t - x)). eexists. apply (is_derive_minus (V := R_NormedModule) (legendre_F k) (fun _ => x)); [now apply legendre_derive_all|apply (is_derive_const (K := R_AbsRing) (V := R_NormedModule))]. }
  set (b := Rabs x + 1). assert (B0 : 0 < b) by (unfold b; pose proof (Rabs_pos x); lra).
  assert (Inc : forall p, 0 <= p -> p <= legendre_F k p).
  { intros p Hp. pose proof (Iab_near 1 (sqrt (1 - k * k)) p) as Q. pose proof (legendre_expands k p 0 K1) as E. rewrite legendre_F_0, !Rminus_0_r in E. rewrite (Rabs_pos_eq p Hp) in E.
    destruct (MVT_gen (legendre_F k) 0 p (fun u => / sqrt (1 - k * k * (sin u * sin u)))) as (c & _ & M).
    - intros u _. now apply legendre_derive_all.
    - intros u _. apply continuity_pt_filterlim. apply (ex_derive_continuous (K := R_AbsRing) (V := R_NormedModule) (legendre_F k)). eexists. now apply legendre_derive_all.
    - rewrite legendre_F_0, !Rminus_0_r in M. assert (S : 0 < sqrt (1 - k * k * (sin c * sin c))) by (apply sqrt_lt_R0; pose proof (SIN_bound c); assert (sin c * sin c <= 1) by nra; nra). assert (0 <= legendre_F k p). { rewrite M. apply Rmult_le_pos; [left; now apply Rinv_0_lt_compat|exact Hp]. } rewrite Rabs_pos_eq in E by assumption. exact E. }
  assert (Odd : forall p, legendre_F k (- p) = - legendre_F k p).
  { intros p. assert (D : forall t, is_derive (fun u => legendre_F k (- u) + legendre_F k u) t 0).
    { intros t. evar_last. { apply (is_derive_plus (V := R_NormedModule) (fun u => legendre_F k (- u)) (legendre_F k)); [|now apply legendre_derive_all]. apply (is_derive_comp (V := R_NormedModule) (legendre_F k) (fun u => - u)); [now apply legendre_derive_all|]. instantiate (1 := -1). evar_last; [auto_derive; [exact Logic.I|reflexivity]|ring]. }
      rewrite sin_neg. unfold plus, scal; simpl. unfold mult; simpl. replace (- sin t * - sin t) with (sin t * sin t) by ring. ring. }
    pose proof (const_of_derive _ D p) as E. cbv beta in E. rewrite Ropp_0, legendre_F_0 in E. lra. }
  destruct (IVT (fun t => legendre_F k t - x) (- b) b Cn ltac:(lra)) as (z & _ & Z).
  - rewrite Odd. pose proof (Inc b ltac:(lra)). unfold b in *. pose proof (Rle_abs (- x)). rewrite Rabs_Ropp in H0. lra.
  - pose proof (Inc b ltac:(lra)). unfold b in *. pose proof (Rle_abs x). lra.
  - exists z. lra.
Qed.

(** ** Rounding to the nearest integer *)
Lemma nearest_even_spec t : 0 <= t -> (0 <= nearest_even t)%Z /\ Rabs (t - IZR (nearest_even t)) <= 1 / 2 /\ Rabs (t - IZR (nearest_even t)) <= t.
Proof.
  intros Ht. destruct (base_Int_part t) as [B1 B2]. set (n := Int_part t) in *. assert (N0 : (0 <= n)%Z). { assert (-1 < n)%Z; [|lia]. apply lt_IZR. lra. } assert (N1 : 0 <= IZR n) by (apply (IZR_le 0); exact N0).
  assert (Up : forall m, (m = n \/ m = n + 1)%Z -> (m = n -> t - IZR n <= 1 / 2) -> ((m = n + 1)%Z -> 1 / 2 <= t - IZR n) -> (0 <= m)%Z /\ Rabs (t - IZR m) <= 1 / 2 /\ Rabs (t - IZR m) <= t).
  { intros m [->| ->] A B; [specialize (A eq_refl)|specialize (B eq_refl)].
    - split; [exact N0|]. rewrite Rabs_pos_eq by lra. split; lra.
    - split; [lia|]. rewrite plus_IZR. rewrite Rabs_minus_sym, Rabs_pos_eq by lra. split; lra. }
  unfold nearest_even. fold n. destruct (Rlt_dec (t - IZR n) (1 / 2)); [apply Up; [now left|lra|lia]|]. destruct (Rlt_dec (1 / 2) (t - IZR n)); [apply Up; [now right|lia|lra]|]. destruct (Z.even n); apply Up; (tauto || lra).
Qed.

(** ** Distances on the circle and on the ellipse *)
Lemma chord p q : (cos p - cos q) * (cos p - cos q) + (sin p - sin q) * (sin p - sin q) <= (p - q) * (p - q).
Proof.
  pose proof (sin2_cos2 p) as P. pose proof (sin2_cos2 q) as Q. unfold Rsqr in P, Q. assert (E : cos (p - q) = cos p * cos q + sin p * sin q) by apply cos_minus.
  assert (H : cos (p - q) = 1 - 2 * (sin ((p - q) / 2) * sin ((p - q) / 2))). { replace (p - q) with (2 * ((p - q) / 2)) at 1 by field. rewrite cos_2a_sin. ring. }
  assert (S : sin ((p - q) / 2) * sin ((p - q) / 2) <= (p - q) / 2 * ((p - q) / 2)).
  { set (u := (p - q) / 2). assert (T : forall v, 0 <= v -> sin v * sin v <= v * v). { intros v [Hv|<-]; [|rewrite sin_0; lra]. pose proof (SIN_bound v). destruct (Rle_dec v 1) as [L|G]; [|assert (sin v * sin v <= 1) by nra; nra]. pose proof (sin_lt_x v Hv). assert (0 < sin v) by (apply sin_gt_0; pose proof PI2_1; lra). nra. }
    destruct (Rle_dec 0 u); [now apply T|]. pose proof (T (- u) ltac:(lra)) as X. rewrite sin_neg in X. lra. }
  nra.
Qed.
Lemma norm_lipschitz a b c d : Rabs (sqrt (a * a + b * b) - sqrt (c * c + d * d)) <= sqrt ((a - c) * (a - c) + (b - d) * (b - d)).
Proof.
  assert (P : forall x y, 0 <= x * x + y * y) by (intros; nra). set (u := sqrt (a * a + b * b)). set (v := sqrt (c * c + d * d)). set (w := sqrt ((a - c) * (a - c) + (b - d) * (b - d))).
  assert (U : u * u = a * a + b * b) by (apply sqrt_sqrt, P). assert (V : v * v = c * c + d * d) by (apply sqrt_sqrt, P). assert (W : w * w = (a - c) * (a - c) + (b - d) * (b - d)) by (apply sqrt_sqrt, P).
  assert (U0 : 0 <= u) by apply sqrt_pos. assert (V0 : 0 <= v) by apply sqrt_pos. assert (W0 : 0 <= w) by apply sqrt_pos.
  assert (CS : a * c + b * d <= u * v). { apply Rle_trans with (Rabs (a * c + b * d)); [apply Rle_abs|]. apply Rsqr_incr_0; [|apply Rabs_pos|nra]. unfold Rsqr. rewrite <- Rabs_mult, Rabs_pos_eq by exact (Rle_0_sqr _). replace (u * v * (u * v)) with ((u * u) * (v * v)) by ring. rewrite U, V. pose proof (Rle_0_sqr (a * d - b * c)) as Q. unfold Rsqr in Q. lra. }
  assert (S : (u - v) * (u - v) <= w * w) by (rewrite W; lra). clear - S W0. apply Rabs_le. split; nra.
Qed.
Lemma trig_close p q e : Rabs (p - q) <= e -> Rabs (sin p - sin q) <= e /\ Rabs (cos p - cos q) <= e /\
  forall k, 0 <= k <= 1 -> Rabs (sqrt (1 - k * k * sin p * sin p) - sqrt (1 - k * k * sin q * sin q)) <= e.
Proof.
  intros H. pose proof (chord p q) as C. assert (E0 : 0 <= e) by (pose proof (Rabs_pos (p - q)); lra).
  assert (B : (p - q) * (p - q) <= e * e). { rewrite <- (Rabs_pos_eq ((p - q) * (p - q))) by exact (Rle_0_sqr _). rewrite Rabs_mult. pose proof (Rabs_pos (p - q)). clear - H H0 E0. nra. }
  assert (T : forall t, t * t <= e * e -> Rabs t <= e). { intros t Ht. apply Rsqr_incr_0; [|apply Rabs_pos|exact E0]. unfold Rsqr. rewrite <- Rabs_mult, Rabs_pos_eq by exact (Rle_0_sqr _). exact Ht. }
  assert (Sq : forall t : R, 0 <= t * t) by (intros; nra). pose proof (Sq (cos p - cos q)). pose proof (Sq (sin p - sin q)). split; [apply T; lra|]. split; [apply T; lra|].
  intros k Hk. set (m := sqrt (1 - k * k)). assert (M : m * m = 1 - k * k) by (apply sqrt_sqrt; nra).
  assert (R : forall t, 1 - k * k * sin t * sin t = cos t * cos t + m * sin t * (m * sin t)). { intros t. pose proof (sin2_cos2 t) as Q. unfold Rsqr in Q. replace (m * sin t * (m * sin t)) with (m * m * (sin t * sin t)) by ring. rewrite M. lra. }
  rewrite !R. eapply Rle_trans; [apply norm_lipschitz|]. apply Rle_trans with (sqrt (e * e)); [|rewrite sqrt_square; lra]. apply sqrt_le_1_alt.
  replace (m * sin p - m * sin q) with (m * (sin p - sin q)) by ring. replace (m * (sin p - sin q) * (m * (sin p - sin q))) with (m * m * ((sin p - sin q) * (sin p - sin q))) by ring. rewrite M. assert (0 <= k * k) by nra. nra.
Qed.

(** ** The amplitude function *)
Lemma amplitude_total k x : 0 <= k <= 1 -> exists phi, amplitude k x phi.
Proof.
  intros K. destruct (Req_dec k 1) as [->|N]; [exists (gd x); split; [apply legendre_gd|intros _; apply gd_bound]|]. destruct (amplitude_exists k x K) as [p P]. exists p. split; [exact P|tauto].
Qed.
Lemma legendre_1_expands p q : - (PI / 2) < p < PI / 2 -> - (PI / 2) < q < PI / 2 -> Rabs (p - q) <= Rabs (legendre_F 1 p - legendre_F 1 q).
Proof.
  intros Hp Hq. assert (In : forall u, Rmin q p <= u <= Rmax q p -> - (PI / 2) < u < PI / 2) by (intros u Hu; unfold Rmin, Rmax in Hu; destruct (Rle_dec q p); lra).
  destruct (MVT_gen (legendre_F 1) q p (fun u => / cos u)) as (c & Hc & E).
  - intros u Hu. apply legendre_1_derive, In. lra.
  - intros u Hu. apply continuity_pt_filterlim. apply (ex_derive_continuous (K := R_AbsRing) (V := R_NormedModule) (legendre_F 1)). eexists. apply legendre_1_derive, In, Hu.
  - rewrite E, Rabs_mult. apply In in Hc. assert (C0 : 0 < cos c) by (apply cos_gt_0; lra). pose proof (COS_bound c). assert (1 <= / cos c) by (apply Rle_trans with (/ 1); [rewrite Rinv_1; lra|apply Rinv_le_contravar; lra]). rewrite (Rabs_pos_eq (/ _)) by lra. pose proof (Rabs_pos (p - q)). nra.
Qed.
Lemma amplitude_unique k x p q : 0 <= k <= 1 -> amplitude k x p -> amplitude k x q -> p = q.
Proof.
  intros K [P P1] [Q Q1]. assert (Z : Rabs (p - q) <= 0). { destruct (Req_dec k 1) as [->|N]; [pose proof (legendre_1_expands p q (P1 eq_refl) (Q1 eq_refl)) as E|pose proof (legendre_expands k p q ltac:(lra)) as E]; rewrite P, Q in E; replace (x - x) with 0 in E by ring; rewrite Rabs_R0 in E; exact E. }
  pose proof (Rabs_pos (p - q)). assert (A : Rabs (p - q) = 0) by lra. apply Rabs_eq_0 in A. lra.
Qed.
Lemma am_total eps fs x k : / 2 ^ 127 <= eps <= 1 -> modulus_ok eps k -> lenZ fs = 32%Z ->
  exists phi, EllipticAM eps fs x k = Ok phi /\ Rabs (legendre_F k phi - x) <= eps * Rabs x /\ (k = 1 -> amplitude 1 x phi).
Proof.
  intros He [K0 K1] L. assert (E0 : 0 < eps) by (eapply Rlt_le_trans; [|apply He]; apply Rinv_0_lt_compat, pow_lt; lra). pose proof (Rabs_pos x) as X0. assert (Z : 0 <= eps * Rabs x) by nra.
  destruct (Req_dec k 1) as [->|N1].
  - exists (gd x). split; [|split; [rewrite legendre_gd, Rminus_diag_eq, Rabs_R0 by reflexivity; exact Z|intros _; split; [apply legendre_gd|intros _; apply gd_bound]]].
    unfold EllipticAM. destruct (Rle_dec 0 1); [|lra]. destruct (Rle_dec 1 1); [|lra]. cbn [andb assert_]. destruct (Req_EM_T 1 1); [reflexivity|lra].
  - destruct K1 as [K1|K1]; [tauto|]. destruct (Req_dec k 0) as [->|N0].
    + exists x. split; [|split; [rewrite legendre_0, Rminus_diag_eq, Rabs_R0 by reflexivity; exact Z|intros; lra]].
      unfold EllipticAM. destruct (Rle_dec 0 0); [|lra]. destruct (Rle_dec 0 1); [|lra]. cbn [andb assert_]. destruct (Req_EM_T 0 1); [lra|]. destruct (Req_EM_T 0 0); [reflexivity|lra].
    + destruct (am_main eps fs x k He ltac:(lra) L) as (p & P1 & P2). exists p. split; [exact P1|]. split; [exact P2|intros; lra].
Qed.
Lemma am_accuracy k x e phi psi : 0 <= k <= 1 -> Rabs (legendre_F k phi - x) <= e -> (k = 1 -> amplitude 1 x phi) -> amplitude k x psi -> Rabs (phi - psi) <= e.
Proof.
  intros K B A P. destruct (Req_dec k 1) as [->|N].
  - rewrite (amplitude_unique 1 x phi psi K (A eq_refl) P), Rminus_diag_eq, Rabs_R0 by reflexivity. pose proof (Rabs_pos (legendre_F 1 phi - x)). lra.
  - destruct P as [<- _]. eapply Rle_trans; [apply (legendre_expands k); lra|exact B].
Qed.

(** ** sn, cn, dn *)
Lemma and_wlog_r (P Q : Prop) : P -> (P -> Q) -> P /\ Q. Proof. tauto. Qed.
Lemma sncndn_gen eps fs x k : 0 < eps <= / 2 ^ 22 -> modulus_ok eps (Rabs k) -> (forall x', exists phi, EllipticAM eps fs x' (Rabs k) = Ok phi /\ Rabs (legendre_F (Rabs k) phi - x') <= eps * Rabs x' /\ (Rabs k = 1 -> amplitude 1 x' phi)) ->
  exists N s c phi, (forall fuel, (N <= fuel)%nat -> EllipticSNCNDN eps fuel fs x k = Ok (s, c, sqrt (1 - k * k * s * s))) /\
    s = sin phi /\ c = cos phi /\ Rabs (legendre_F (Rabs k) phi - x) <= 2 * eps * Rabs x /\ forall psi, amplitude (Rabs k) x psi -> Rabs (phi - psi) <= 2 * eps * Rabs x.
Proof.
  intros He M Am. pose proof M as [K0 K1]. assert (P22 : / 2 ^ 22 <= 1 / 1000000) by (cbn [pow]; lra). assert (E0 : 0 < eps) by apply He. assert (Kle : 0 <= Rabs k <= 1) by (destruct K1; lra).
  assert (KK : Rabs k * Rabs k = k * k) by (rewrite <- Rabs_mult; apply Rabs_pos_eq; exact (Rle_0_sqr _)). pose proof (Rabs_pos x) as X0.
  assert (Sq : forall s, s * s <= 1 -> sqrt_ (1 - k * k * s * s) = Ok (sqrt (1 - k * k * s * s))). { intros s Hs. unfold sqrt_. destruct (Rle_dec 0 (1 - k * k * s * s)) as [_|Q]; [reflexivity|]. exfalso. apply Q. rewrite <- KK. assert (Rabs k * Rabs k <= 1) by nra. assert (0 <= s * s) by exact (Rle_0_sqr _). nra. }
  assert (Kp : (if Rlt_dec k 0 then - k else k) = Rabs k) by (unfold Rabs; destruct (Rlt_dec k 0), (Rcase_abs k); lra).
  assert (Sin2 : forall p, sin p * sin p <= 1) by (intros p; pose proof (sin2_cos2 p) as T; unfold Rsqr in T; nra).
  assert (Plain : forall fuel y, (if Rlt_dec (PI / 2) x then y = (y : outcome (R * R * R * R)) else True) -> EllipticReduceRange eps fuel x k = if Rlt_dec (PI / 2) x then
      (do K <- EllipticK eps fuel k; do (xPrime, octant) <- remquo x (match K with Fin K => Fin (2 * K)%R | Inf => Inf end); if (Z.rem octant 2 =? 1)%Z then Ok (xPrime, Rabs k, (1 * -1)%R, (-1)%R) else Ok (xPrime, Rabs k, 1%R, 1%R)) else Ok (x, Rabs k, 1, 1)).
  { intros fuel _ _. unfold EllipticReduceRange. rewrite Kp. destruct (Rlt_dec 1 (Rabs k)); [lra|]. destruct (Rlt_dec (PI / 2) x); reflexivity. }
  assert (Plain' : forall fuel, EllipticReduceRange eps fuel x k = if Rlt_dec (PI / 2) x then
      (do K <- EllipticK eps fuel k; do (xPrime, octant) <- remquo x (match K with Fin K => Fin (2 * K)%R | Inf => Inf end); if (Z.rem octant 2 =? 1)%Z then Ok (xPrime, Rabs k, (1 * -1)%R, (-1)%R) else Ok (xPrime, Rabs k, 1%R, 1%R)) else Ok (x, Rabs k, 1, 1)).
  { intros fuel. apply (Plain fuel UB). destruct (Rlt_dec (PI / 2) x); [reflexivity|exact Logic.I]. } clear Plain.
  (* no reduction *)
  assert (Direct : (forall fuel, EllipticReduceRange eps fuel x k = Ok (x, Rabs k, 1, 1)) -> exists N s c phi, (forall fuel, (N <= fuel)%nat -> EllipticSNCNDN eps fuel fs x k = Ok (s, c, sqrt (1 - k * k * s * s))) /\
    s = sin phi /\ c = cos phi /\ Rabs (legendre_F (Rabs k) phi - x) <= 2 * eps * Rabs x /\ forall psi, amplitude (Rabs k) x psi -> Rabs (phi - psi) <= 2 * eps * Rabs x).
  { intros R. destruct (Am x) as (phi & A1 & A2 & A3). exists O, (sin phi), (cos phi), phi. split; [|split; [reflexivity|split; [reflexivity|split; [nra|]]]].
    - intros fuel _. unfold EllipticSNCNDN. rewrite R. cbn [bind]. rewrite A1. cbn [bind]. rewrite !Rmult_1_l, Sq by apply Sin2. reflexivity.
    - intros psi P. apply Rle_trans with (eps * Rabs x); [|nra]. exact (am_accuracy (Rabs k) x _ phi psi Kle A2 A3 P). }
  destruct (Rlt_dec (PI / 2) x) as [Lx|Nx]; [|apply Direct; exact Plain'].
  destruct K1 as [K1|K1].
  - (* |k| = 1 *) apply Direct. intros fuel. rewrite Plain'. assert (EK : EllipticK eps fuel k = Ok Inf). { unfold EllipticK, CarlsonRF, is_zero. replace (1 - k * k) with 0 by (rewrite <- KK, K1; ring). destruct (Req_EM_T 0 0); [|lra]. destruct (Req_EM_T 1 0); [lra|]. reflexivity. }
    rewrite EK. cbn [bind remquo]. reflexivity.
  - assert (Kl : -1 < k < 1) by (assert (Ka : Rabs k < 1) by lra; apply Rabs_def2 in Ka; lra). assert (Kl' : 0 <= Rabs k < 1) by lra.
    destruct (K_main eps k ltac:(lra) Kl) as (W & N & Kh & FK & BK). set (K := legendre_F (Rabs k) (PI / 2)) in *.
    assert (KB : K * (1 - eps / 4) <= Kh <= K * (1 + eps / 4)). { unfold Rabs in BK. destruct (Rcase_abs (Kh - K)); lra. } assert (Kh0 : 0 < Kh) by nra. pose proof PI_RGT_0 as Pi0. assert (Xp : 0 < x) by lra.
    set (q := nearest_even (x / (2 * Kh))). assert (T0 : 0 <= x / (2 * Kh)) by (apply Rle_mult_inv_pos; lra). destruct (nearest_even_spec _ T0) as (Q0 & _ & Q2). fold q in Q0, Q2. set (x' := x - IZR q * (2 * Kh)).
    assert (Ex : x' = (x / (2 * Kh) - IZR q) * (2 * Kh)) by (unfold x'; field; lra).
    assert (Bx : Rabs x' <= x). { rewrite Ex, Rabs_mult, (Rabs_pos_eq (2 * Kh)) by lra. replace x with (x / (2 * Kh) * (2 * Kh)) at 2 by (field; lra). apply Rmult_le_compat_r; lra. }
    destruct (Am x') as (phi & A1 & A2 & _). set (n := Z.to_nat q). assert (En : IZR q = INR n) by (unfold n; rewrite INR_IZR_INZ, Z2Nat.id by lia; reflexivity).
    destruct (trig_turns phi n) as [TS TC].
    assert (Par : (Z.rem q 2 =? 1)%Z = negb (Nat.even n)). { rewrite Z.rem_mod_nonneg by lia. rewrite <- (Z2Nat.id q) by lia. fold n. rewrite Zmod_odd. rewrite <- Z.negb_even. replace (Z.even (Z.of_nat n)) with (Nat.even n). { destruct (Nat.even n); reflexivity. }
      clear. induction n as [|n IH]; [reflexivity|]. rewrite Nat.even_succ, Nat2Z.inj_succ, Z.even_succ, <- Nat.negb_even, <- Z.negb_even, IH. reflexivity. }
    exists N, (sin (phi + INR n * PI)), (cos (phi + INR n * PI)), (phi + INR n * PI). split; [|split; [reflexivity|split; [reflexivity|apply and_wlog_r]]].
    + intros fuel Hf. unfold EllipticSNCNDN. rewrite Plain', FK by exact Hf. cbn [bind remquo]. destruct (Req_EM_T (2 * Kh) 0) as [Z0|_]; [lra|]. cbn [bind]. fold q. fold x'. rewrite Par. rewrite TS, TC.
      assert (S1 : forall g, g * g = 1 -> (g * sin phi) * (g * sin phi) <= 1). { intros g Hg. replace (g * sin phi * (g * sin phi)) with (g * g * (sin phi * sin phi)) by ring. rewrite Hg, Rmult_1_l. apply Sin2. }
      destruct (Nat.even n); cbn [negb]; cbn [bind]; rewrite A1; cbn [bind].
      * rewrite (Sq (1 * sin phi)) by (apply S1; ring). reflexivity.
      * replace (1 * -1) with (-1) by ring. rewrite (Sq (-1 * sin phi)) by (apply S1; ring). reflexivity.
    + rewrite legendre_turns by exact Kl'. fold K.
      replace (legendre_F (Rabs k) phi + INR n * (2 * K) - x) with ((legendre_F (Rabs k) phi - x') + INR n * 2 * (K - Kh)) by (unfold x'; rewrite En; ring).
      eapply Rle_trans; [apply Rabs_triang|]. assert (N0 : 0 <= INR n) by apply pos_INR. rewrite (Rabs_mult (INR n * 2)), (Rabs_pos_eq (INR n * 2)) by lra. rewrite Rabs_minus_sym in BK. rewrite (Rabs_pos_eq x) by lra.
      assert (C1 : INR n * 2 * Kh <= 2 * x). { rewrite <- En. assert (IZR q * 2 * Kh = x - x') by (unfold x'; ring). rewrite H. pose proof (Rle_abs (- x')). rewrite Rabs_Ropp in H0. lra. }
      assert (C2 : INR n * 2 * K <= 3 * x). { assert (K <= 3 / 2 * Kh) by nra. apply Rle_trans with (INR n * 2 * (3 / 2 * Kh)); [apply Rmult_le_compat_l; lra|]. lra. }
      assert (C3 : INR n * 2 * Rabs (K - Kh) <= INR n * 2 * (eps / 4 * K)) by (apply Rmult_le_compat_l; lra).
      assert (C4 : INR n * 2 * (eps / 4 * K) <= eps / 4 * (3 * x)). { replace (INR n * 2 * (eps / 4 * K)) with (eps / 4 * (INR n * 2 * K)) by ring. apply Rmult_le_compat_l; lra. }
      assert (C5 : eps * Rabs x' <= eps * x) by (apply Rmult_le_compat_l; lra). nra.
    + intros B psi P. apply (am_accuracy (Rabs k) x _ _ _ Kle); [exact B|intros; lra|exact P].
Qed.

(** ** What holds whenever a result is returned *)
Lemma sqrt_inv x s : sqrt_ x = Ok s -> 0 <= x /\ s = sqrt x /\ 0 <= s /\ s * s = x.
Proof. unfold sqrt_. destruct (Rle_dec 0 x) as [H|]; [|discriminate]. intros E. injection E as <-. split; [exact H|]. split; [reflexivity|]. split; [apply sqrt_pos|now apply sqrt_sqrt]. Qed.
Lemma reduce_inv eps fuel x k x' k' fs fc : EllipticReduceRange eps fuel x k = Ok (x', k', fs, fc) ->
  (k' = if Rlt_dec 1 (Rabs k) then 1 / Rabs k else Rabs k) /\ fc * fc = 1 /\ (fs * fs = if Rlt_dec 1 (Rabs k) then 1 / Rabs k * (1 / Rabs k) else 1).
Proof.
  unfold EllipticReduceRange. assert (Kp : (if Rlt_dec k 0 then - k else k) = Rabs k) by (unfold Rabs; destruct (Rlt_dec k 0), (Rcase_abs k); lra). rewrite Kp. destruct (Rlt_dec 1 (Rabs k)) as [L|L].
  - destruct (Rlt_dec (PI / 2) (x * Rabs k)).
    + destruct (EllipticK eps fuel k) as [v| |]; [|discriminate|discriminate]. cbn [bind]. destruct (remquo x _) as [[a b]| |]; [|discriminate|discriminate]. cbn [bind]. destruct (Z.rem b 2 =? 1)%Z; intros E; injection E as <- <- <- <-; repeat split; field; lra.
    + intros E; injection E as <- <- <- <-. repeat split; field; lra.
  - destruct (Rlt_dec (PI / 2) x).
    + destruct (EllipticK eps fuel k) as [v| |]; [|discriminate|discriminate]. cbn [bind]. destruct (remquo x _) as [[a b]| |]; [|discriminate|discriminate]. cbn [bind]. destruct (Z.rem b 2 =? 1)%Z; intros E; injection E as <- <- <- <-; repeat split; ring.
    + intros E; injection E as <- <- <- <-. repeat split; ring.
Qed.
Lemma sncndn_inv eps fuel fs x k s c d : EllipticSNCNDN eps fuel fs x k = Ok (s, c, d) -> (if Rlt_dec 1 (Rabs k) then k * k * (s * s) + c * c = 1 else s * s + c * c = 1) /\ d * d = 1 - k * k * (s * s) /\ 0 <= d.
Proof.
  unfold EllipticSNCNDN. destruct (EllipticReduceRange eps fuel x k) as [[[[x' k'] f] g]| |] eqn:R; [|discriminate|discriminate]. cbn [bind]. apply reduce_inv in R. destruct R as (_ & G & F).
  destruct (EllipticAM eps fs x' k') as [p| |]; [|discriminate|discriminate]. cbn [bind]. destruct (sqrt_ _) as [w| |] eqn:S; [|discriminate|discriminate]. cbn [bind]. intros E. injection E as <- <- <-.
  apply sqrt_inv in S. destruct S as (_ & _ & W0 & W2). pose proof (sin2_cos2 p) as T. unfold Rsqr in T.
  assert (KK : Rabs k * Rabs k = k * k) by (rewrite <- Rabs_mult; apply Rabs_pos_eq; exact (Rle_0_sqr _)).
  split; [|split; [rewrite W2; ring|exact W0]]. destruct (Rlt_dec 1 (Rabs k)).
  - replace (k * k * (f * sin p * (f * sin p)) + g * cos p * (g * cos p)) with (k * k * (f * f) * (sin p * sin p) + g * g * (cos p * cos p)) by ring. rewrite F, G, <- KK. replace (Rabs k * Rabs k * (1 / Rabs k * (1 / Rabs k))) with 1 by (field; lra). lra.
  - replace (f * sin p * (f * sin p) + g * cos p * (g * cos p)) with (f * f * (sin p * sin p) + g * g * (cos p * cos p)) by ring. rewrite F, G. lra.
Qed.
Lemma sncndn_mono eps fuel fuel' fs x k v : (fuel <= fuel')%nat -> EllipticSNCNDN eps fuel fs x k = Ok v -> EllipticSNCNDN eps fuel' fs x k = Ok v.
Proof.
  intros Hf. unfold EllipticSNCNDN. assert (R : forall v, EllipticReduceRange eps fuel x k = Ok v -> EllipticReduceRange eps fuel' x k = Ok v).
  { intros w. unfold EllipticReduceRange. destruct (if Rlt_dec 1 (if Rlt_dec k 0 then - k else k) then _ else _) as [[a b] e]. destruct (Rlt_dec (PI / 2) a); [|tauto]. destruct (EllipticK eps fuel k) as [u| |] eqn:EK; [|discriminate|discriminate].
    unfold EllipticK in *. rewrite (carlson_mono _ _ _ _ _ _ _ Hf EK). tauto. }
  destruct (EllipticReduceRange eps fuel x k) as [w| |]; [|discriminate|discriminate]. rewrite (R w eq_refl). tauto.
Qed.
(** the accuracy, for whatever bound on the passes gave a result *)
Lemma sncndn_main eps fs x k : / 2 ^ 127 <= eps <= / 2 ^ 22 -> modulus_ok eps (Rabs k) -> lenZ fs = 32%Z ->
  exists N s c phi, (forall fuel, (N <= fuel)%nat -> EllipticSNCNDN eps fuel fs x k = Ok (s, c, sqrt (1 - k * k * s * s))) /\
    s = sin phi /\ c = cos phi /\ Rabs (legendre_F (Rabs k) phi - x) <= 2 * eps * Rabs x /\ forall psi, amplitude (Rabs k) x psi -> Rabs (phi - psi) <= 2 * eps * Rabs x.
Proof.
  intros He M L. assert (E0 : 0 < eps) by (eapply Rlt_le_trans; [|apply He]; apply Rinv_0_lt_compat, pow_lt; lra). assert (P22 : / 2 ^ 22 <= 1 / 1000000) by (cbn [pow]; lra). apply sncndn_gen; [lra|exact M|]. intros x'. apply am_total; [lra|exact M|exact L].
Qed.
Lemma sncndn_any eps fuel fs x k s c d : / 2 ^ 127 <= eps <= / 2 ^ 22 -> modulus_ok eps (Rabs k) -> lenZ fs = 32%Z -> EllipticSNCNDN eps fuel fs x k = Ok (s, c, d) ->
  exists phi, s = sin phi /\ c = cos phi /\ d = sqrt (1 - k * k * s * s) /\ Rabs (legendre_F (Rabs k) phi - x) <= 2 * eps * Rabs x /\ forall psi, amplitude (Rabs k) x psi -> Rabs (phi - psi) <= 2 * eps * Rabs x.
Proof.
  intros He M L E. destruct (sncndn_main eps fs x k He M L) as (N & s' & c' & p & F & S & C & B & A). apply (sncndn_mono eps fuel (max N fuel)) in E; [|lia]. rewrite F in E by lia. injection E as <- <- <-. exists p. now repeat split.
Qed.

(** ** Complex arguments *)
Lemma sncndn_C_inv eps fuel fs x k sn cn dn : -1 <= k <= 1 -> EllipticSNCNDN_C eps fuel fs x k = Ok (sn, cn, dn) ->
  Cadd (Cmul sn sn) (Cmul cn cn) = C1 /\ Cadd (Cmul dn dn) (Cmul (RtoC (k * k)) (Cmul sn sn)) = C1.
Proof.
  intros Hk. unfold EllipticSNCNDN_C. destruct (EllipticSNCNDN eps fuel fs (re x) k) as [[[a b] e]| |] eqn:E1; [|discriminate|discriminate]. cbn [bind]. destruct (sqrt_ (1 - k * k)) as [kp| |] eqn:EK; [|discriminate|discriminate]. cbn [bind].
  destruct (EllipticSNCNDN eps fuel fs (im x) kp) as [[[p q] r]| |] eqn:E2; [|discriminate|discriminate]. cbn [bind]. apply sncndn_inv in E1, E2. apply sqrt_inv in EK. destruct EK as (_ & _ & K0 & K2).
  assert (Ka : ~ 1 < Rabs k) by (assert (Rabs k <= 1) by (apply Rabs_le; lra); lra). assert (Kb : ~ 1 < Rabs kp) by (rewrite Rabs_pos_eq by exact K0; nra). destruct (Rlt_dec 1 (Rabs k)); [tauto|]. destruct (Rlt_dec 1 (Rabs kp)); [tauto|].
  destruct E1 as (A1 & A2 & _). destruct E2 as (B1 & B2 & _). rewrite K2 in B2. set (d := q * q + k * k * p * p * a * a). unfold cdiv_. destruct (Req_EM_T d 0) as [|Nd]; [discriminate|]. cbn [bind]. intros E. injection E as <- <- <-.
  assert (Eb : b * b = 1 - a * a) by lra. assert (Eq : q * q = 1 - p * p) by lra.
  assert (D : d = 1 - p * p + k * k * (p * p) * (a * a)) by (unfold d; rewrite Eq; ring).
  unfold CdivR, Cadd, Cmul, RtoC, C1. cbn [re im].
  assert (S : a * r * (a * r) - p * q * b * e * (p * q * b * e) + (b * q * (b * q) - - a * e * p * r * (- a * e * p * r)) = d * d).
  { replace (a * r * (a * r)) with (a * a * (r * r)) by ring. replace (p * q * b * e * (p * q * b * e)) with (p * p * (q * q) * (b * b) * (e * e)) by ring. replace (b * q * (b * q)) with (b * b * (q * q)) by ring. replace (- a * e * p * r * (- a * e * p * r)) with (a * a * (e * e) * (p * p) * (r * r)) by ring.
    rewrite D, Eb, Eq, A2, B2. ring. }
  assert (T : e * r * q * (e * r * q) - - k * k * a * b * p * (- k * k * a * b * p) + k * k * (a * r * (a * r) - p * q * b * e * (p * q * b * e)) = d * d).
  { replace (a * r * (a * r)) with (a * a * (r * r)) by ring. replace (p * q * b * e * (p * q * b * e)) with (p * p * (q * q) * (b * b) * (e * e)) by ring. replace (e * r * q * (e * r * q)) with (e * e * (r * r) * (q * q)) by ring. replace (- k * k * a * b * p * (- k * k * a * b * p)) with (k * k * (k * k) * (a * a) * (b * b) * (p * p)) by ring.
    rewrite D, Eb, Eq, A2, B2. ring. }
  split; f_equal.
  - transitivity ((a * r * (a * r) - p * q * b * e * (p * q * b * e) + (b * q * (b * q) - - a * e * p * r * (- a * e * p * r))) / (d * d)); [field; exact Nd|rewrite S; field; exact Nd].
  - field. exact Nd.
  - transitivity ((e * r * q * (e * r * q) - - k * k * a * b * p * (- k * k * a * b * p) + k * k * (a * r * (a * r) - p * q * b * e * (p * q * b * e))) / (d * d)); [field; exact Nd|rewrite T; field; exact Nd].
  - field. exact Nd.
Qed.

Lemma legendre_odd k p : 0 <= k < 1 -> legendre_F k (- p) = - legendre_F k p.
Proof.
  intros K1. assert (D : forall t, is_derive (fun u => legendre_F k (- u) + legendre_F k u) t 0).
  { intros t. evar_last. { apply (is_derive_plus (V := R_NormedModule) (fun u => legendre_F k (- u)) (legendre_F k)); [|now apply legendre_derive_all]. apply (is_derive_comp (V := R_NormedModule) (legendre_F k) (fun u => - u)); [now apply legendre_derive_all|]. instantiate (1 := -1). evar_last; [auto_derive; [exact Logic.I|reflexivity]|ring]. }
    rewrite sin_neg. unfold plus, scal; simpl. unfold mult; simpl. replace (- sin t * - sin t) with (sin t * sin t) by ring. ring. }
  pose proof (const_of_derive _ D p) as E. cbv beta in E. rewrite Ropp_0, legendre_F_0 in E. lra.
Qed.
Lemma legendre_pos k p : 0 <= k < 1 -> 0 < p -> p <= legendre_F k p.
Proof.
  intros K1 Hp. pose proof (legendre_expands k p 0 K1) as E. rewrite legendre_F_0, !Rminus_0_r, (Rabs_pos_eq p) in E by lra.
  destruct (MVT_gen (legendre_F k) 0 p (fun u => / sqrt (1 - k * k * (sin u * sin u)))) as (c & _ & M).
  - intros u _. now apply legendre_derive_all.
  - intros u _. apply continuity_pt_filterlim. apply (ex_derive_continuous (K := R_AbsRing) (V := R_NormedModule) (legendre_F k)). eexists. now apply legendre_derive_all.
  - rewrite legendre_F_0, !Rminus_0_r in M. assert (S : 0 < sqrt (1 - k * k * (sin c * sin c))) by (apply sqrt_lt_R0; pose proof (SIN_bound c); assert (sin c * sin c <= 1) by nra; nra). assert (0 <= legendre_F k p). { rewrite M. apply Rmult_le_pos; [left; now apply Rinv_0_lt_compat|lra]. } rewrite Rabs_pos_eq in E by assumption. exact E.
Qed.
Lemma legendre_mono k p q : 0 <= k < 1 -> p < q -> legendre_F k p < legendre_F k q.
Proof.
  intros K1 H. pose proof (legendre_expands k q p K1) as E. destruct (MVT_gen (legendre_F k) p q (fun u => / sqrt (1 - k * k * (sin u * sin u)))) as (c & _ & M).
  - intros u _. now apply legendre_derive_all.
  - intros u _. apply continuity_pt_filterlim. apply (ex_derive_continuous (K := R_AbsRing) (V := R_NormedModule) (legendre_F k)). eexists. now apply legendre_derive_all.
  - assert (S : 0 < sqrt (1 - k * k * (sin c * sin c))) by (apply sqrt_lt_R0; pose proof (SIN_bound c); assert (sin c * sin c <= 1) by nra; nra). apply Rinv_0_lt_compat in S. nra.
Qed.

(** the leftovers in the array of factors are never read *)
Section History.
Variable eps : R.
Definition agree (n : Z) (f g : list R) : Prop := lenZ f = 32%Z /\ lenZ g = 32%Z /\ forall i, (0 <= i < n)%Z -> at0 (K := Rring) f i = at0 (K := Rring) g i.
Lemma agm_history fuel : forall a b c f g n, agree n f g -> (0 <= n)%Z ->
  match agm_loop eps fuel a b c f n, agm_loop eps fuel a b c g n with
  | Ok (a1, f1, n1), Ok (a2, g1, n2) => a1 = a2 /\ n1 = n2 /\ agree n1 f1 g1 /\ (0 <= n1)%Z | UB, UB => True | Throw e1, Throw e2 => e1 = e2 | _, _ => False end.
Proof.
  induction fuel as [|fuel IH]; intros a b c f g n A Hn; cbn [agm_loop]; (destruct (Rlt_dec (eps / 4) (Rabs c)); [|repeat split; try apply A; exact Hn]); [exact Logic.I|].
  destruct (sqrt_ (a * b)) as [s| |]; [|reflexivity|exact Logic.I]. cbn [bind]. destruct (fdiv_ ((a - b) / 2) ((a + b) / 2)) as [q| |]; [|reflexivity|exact Logic.I]. cbn [bind].
  destruct A as (L1 & L2 & E). destruct (Z_lt_dec n 32) as [L|L].
  - rewrite !wr_ok by lia. cbn [bind]. destruct (iterationLimit <=? n + 1)%Z; [reflexivity|]. apply IH; [|lia]. repeat split; [rewrite lenZ_updZ by lia; exact L1|rewrite lenZ_updZ by lia; exact L2|].
    intros i Hi. rewrite !(at0_updZ (K := Rring)) by (assert (LK : @lenZ (car Rring) f = 32%Z) by exact L1; assert (LK' : @lenZ (car Rring) g = 32%Z) by exact L2; lia). destruct (Z.eqb_spec i n); [reflexivity|apply E; lia].
  - unfold wr. replace ((0 <=? n) && (n <? lenZ f))%Z with false by lia. replace ((0 <=? n) && (n <? lenZ g))%Z with false by lia. exact Logic.I.
Qed.
Lemma phi_history n : forall f g p, agree (Z.of_nat n) f g -> phi_loop n f p = phi_loop n g p.
Proof.
  induction n as [|n IH]; intros f g p A; [reflexivity|]. cbn [phi_loop]. assert (A' : agree (Z.of_nat n) f g) by (destruct A as (L1 & L2 & E); repeat split; [exact L1|exact L2|intros i Hi; apply E; lia]).
  destruct A as (L1 & L2 & E). destruct (Z_lt_dec (Z.of_nat n) 32) as [L|L].
  - rewrite (rdR f), (rdR g) by lia. cbn [bind]. rewrite (E (Z.of_nat n)) by lia. destruct (asin_ _); [|reflexivity|reflexivity]. cbn [bind]. now apply IH.
  - unfold rd. assert (F : forall l : list R, lenZ l = 32%Z -> nthZ l (Z.of_nat n) = None). { intros l Hl. destruct (nthZ l (Z.of_nat n)) eqn:Q; [|reflexivity]. exfalso. apply nthZ_some in Q. lia. } rewrite !F by assumption. reflexivity.
Qed.
Lemma am_history f g x k : lenZ f = 32%Z -> lenZ g = 32%Z -> EllipticAM eps f x k = EllipticAM eps g x k.
Proof.
  intros L1 L2. unfold EllipticAM. destruct (_ && _); [|reflexivity]. cbn [assert_]. destruct (Req_EM_T k 1); [reflexivity|]. destruct (Req_EM_T k 0); [reflexivity|]. destruct (sqrt_ (1 - k * k)) as [b| |]; [|reflexivity|reflexivity]. cbn [bind].
  pose proof (agm_history 33 1 b ((1 - b) / 2) f g 0%Z) as H. destruct (agm_loop eps 33 1 b ((1 - b) / 2) f 0) as [[[a1 f1] n1]| |], (agm_loop eps 33 1 b ((1 - b) / 2) g 0) as [[[a2 g1] n2]| |]; try (exfalso; apply H; [repeat split; try assumption; intros; lia|lia]).
  - destruct H as (-> & -> & A & N0); [repeat split; try assumption; intros; lia|lia|]. cbn [bind]. destruct (shl_int n2); [|reflexivity|reflexivity]. cbn [bind]. apply phi_history. rewrite Z2Nat.id by lia. exact A.
  - rewrite H; [reflexivity|repeat split; try assumption; intros; lia|lia].
  - reflexivity.
Qed.
End History.
(** a result that is returned is accurate however small the tolerance *)
Lemma sncndn_ok eps fuel fs x k s c d : 0 < eps <= / 2 ^ 22 -> 0 < k <= 1 - eps / 2 -> lenZ fs = 32%Z -> EllipticSNCNDN eps fuel fs x k = Ok (s, c, d) ->
  exists phi, s = sin phi /\ c = cos phi /\ d = sqrt (1 - k * k * s * s) /\ Rabs (legendre_F k phi - x) <= 2 * eps * Rabs x.
Proof.
  intros He Hk L E. assert (P22 : / 2 ^ 22 <= 1 / 1000000) by (cbn [pow]; lra). assert (Ka : Rabs k = k) by (apply Rabs_pos_eq; lra).
  assert (Some_am : exists x0 phi0, EllipticAM eps fs x0 k = Ok phi0).
  { unfold EllipticSNCNDN in E. destruct (EllipticReduceRange eps fuel x k) as [[[[x0 k0] f1] f2]| |] eqn:R; [|discriminate|discriminate]. cbn [bind] in E. destruct (EllipticAM eps fs x0 k0) as [p0| |] eqn:A; [|discriminate|discriminate]. exists x0, p0. replace k with k0; [exact A|].
    unfold EllipticReduceRange in R. destruct (Rlt_dec k 0); [lra|]. destruct (Rlt_dec 1 k); [lra|]. destruct (Rlt_dec (PI / 2) x); [|congruence]. destruct (EllipticK eps fuel k) as [Kv| |]; [|discriminate|discriminate]. cbn [bind] in R. destruct (remquo x _) as [[xp oc]| |]; [|discriminate|discriminate]. cbn [bind] in R. destruct (Z.rem oc 2 =? 1)%Z; congruence. }
  destruct Some_am as (x0 & phi0 & A). destruct (sncndn_gen eps fs x k He) as (N & s' & c' & p & F & S & C & B & _).
  - rewrite Ka. split; [lra|right; lra].
  - intros x'. rewrite Ka. destruct (am_again eps fs x' k x0 phi0 ltac:(lra) Hk L A) as (phi & P1 & P2). exists phi. split; [exact P1|]. split; [exact P2|]. intros; lra.
  - apply (sncndn_mono eps fuel (max N fuel)) in E; [|lia]. rewrite F in E by lia. injection E as <- <- <-. rewrite Ka in B. exists p. now repeat split.
Qed.
