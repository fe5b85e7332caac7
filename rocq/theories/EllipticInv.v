(** Legendre's integrals in terms of Carlson's (used by C58, C59). *)
From Coq Require Import Reals Lra Lia ZArith List Bool.
From Coquelicot Require Import Rcomplements Rbar Hierarchy Continuity Derive RInt RInt_gen RInt_analysis AutoDerive ElemFct.
From Verif Require Import Base BaseFacts Complex EllipticModel EllipticSpec EllipticAM EllipticRF.
Open Scope R_scope.

Lemma div_1_r x : x / 1 = x. Proof. field. Qed.
Lemma RF_unique x y z v w : 0 <= x -> 0 <= y -> 0 <= z -> RFprim x y z v -> RFprim x y z w -> v = w.
Proof.
  intros Hx Hy Hz V W. apply RFprim_is in V; [|assumption..]. apply RFprim_is in W; [|assumption..]. unfold isRF in V, W. apply (is_RInt_gen_unique (V := R_CompleteNormedModule)) in V. apply (is_RInt_gen_unique (V := R_CompleteNormedModule)) in W. rewrite V in W. lra.
Qed.
Lemma RF_ext x y z x' y' z' v : (forall t, (t + x) * (t + y) * (t + z) = (t + x') * (t + y') * (t + z')) -> RFprim x y z v -> RFprim x' y' z' v.
Proof. intros E (H & D & L). exists H. split; [|exact L]. intros t Ht. unfold rf_integrand. rewrite <- E. now apply D. Qed.
Lemma RF_scale x y z v s : 0 < s -> RFprim x y z v -> RFprim (s * s * x) (s * s * y) (s * s * z) (v / s).
Proof.
  intros Hs (H & D & L0 & L1). assert (S2 : 0 < s * s) by nra. exists (fun t => / s * H (t / (s * s))). split; [|split].
  - intros t Ht. assert (T : 0 < t / (s * s)) by (apply Rdiv_lt_0_compat; lra). evar_last. { apply (is_derive_scal (fun t => H (t / (s * s))) t (/ s)). apply (is_derive_comp (V := R_NormedModule) H (fun t => t / (s * s))); [apply D, T|apply derive_div]. }
    unfold scal; simpl. unfold mult; simpl. unfold rf_integrand.
    assert (E : sqrt ((t + s * s * x) * (t + s * s * y) * (t + s * s * z)) = s * s * s * sqrt ((t / (s * s) + x) * (t / (s * s) + y) * (t / (s * s) + z))).
    { rewrite <- (sqrt_square (s * s * s)) at 1 by nra. rewrite <- sqrt_mult_alt by nra. f_equal. field. lra. }
    rewrite E. rewrite !Rinv_mult. ring.
  - replace (- (2 * (v / s))) with (scal (/ s) (- (2 * v))) by (unfold scal; simpl; unfold mult; simpl; field; lra).
    apply (filterlim_comp _ _ _ (fun t => H (t / (s * s))) (fun u => scal (/ s) u) (at_right 0) (locally (- (2 * v)))); [|apply (filterlim_scal_r (V := R_NormedModule))].
    intros P HP. destruct (L0 P HP) as [d Hd]. pose proof (cond_pos d) as Dp. exists (mkposreal (d * (s * s)) ltac:(nra)). intros t Bt Ht. unfold ball in Bt; simpl in Bt. unfold AbsRing_ball, abs, minus, plus, opp in Bt; simpl in Bt.
    apply Rabs_def2 in Bt. assert (T : 0 < t / (s * s)) by (apply Rdiv_lt_0_compat; lra). apply Hd; [|exact T]. unfold ball; simpl. unfold AbsRing_ball, abs, minus, plus, opp; simpl. rewrite Ropp_0, Rplus_0_r, Rabs_pos_eq by lra.
    apply (Rmult_lt_reg_r (s * s)); [exact S2|]. unfold Rdiv. rewrite Rmult_assoc, Rinv_l by lra. lra.
  - replace 0 with (scal (/ s) 0) by (unfold scal; simpl; unfold mult; simpl; ring).
    apply (filterlim_comp _ _ _ (fun t => H (t / (s * s))) (fun u => scal (/ s) u) (Rbar_locally p_infty) (locally 0)); [|apply (filterlim_scal_r (V := R_NormedModule))].
    intros P HP. destruct (L1 P HP) as [M HM]. exists (M * (s * s)). intros t Ht. apply HM. apply (Rmult_lt_reg_r (s * s)); [exact S2|]. unfold Rdiv. rewrite Rmult_assoc, Rinv_l by lra. lra.
Qed.

(** a limit at infinity of a composition with a function that is continuous at 0 *)
Lemma lim_inf_0 (u : R -> R) (M : R) : (forall t, 0 < t -> 0 <= u t /\ (u t) * (u t) * t <= M) -> filterlim u (Rbar_locally p_infty) (locally 0).
Proof.
  intros Hu Pr [d Hd]. pose proof (cond_pos d) as Dp. exists (Rmax 0 (Rabs M / (d * d))). intros t Ht. pose proof (Rmax_l 0 (Rabs M / (d * d))) as M1. pose proof (Rmax_r 0 (Rabs M / (d * d))) as M2. destruct (Hu t ltac:(lra)) as [U0 U1].
  apply Hd. unfold ball; simpl. unfold AbsRing_ball, abs, minus, plus, opp; simpl. rewrite Ropp_0, Rplus_0_r, Rabs_pos_eq by lra.
  apply Rnot_le_lt. intros N. assert (Q : Rabs M < d * d * t). { apply (Rmult_lt_reg_r (/ (d * d))); [apply Rinv_0_lt_compat; nra|]. replace (d * d * t * / (d * d)) with t by (field; lra). unfold Rdiv in M2. eapply Rle_lt_trans; [exact M2|exact Ht]. }
  pose proof (Rle_abs M). assert (d * d <= u t * u t) by nra. nra.
Qed.

Lemma legendre_derive k p : 0 <= k <= 1 -> 0 <= p <= PI / 2 -> k * sin p < 1 -> is_derive (legendre_F k) p (/ sqrt (1 - k * k * (sin p * sin p))).
Proof.
  intros Hk Hp Hs. destruct (Req_dec k 1) as [->|N].
  - assert (P2 : p < PI / 2). { apply Rnot_le_lt. intros G. assert (p = PI / 2) by lra. subst p. rewrite sin_PI2 in Hs. lra. }
    assert (C : 0 < cos p) by (apply cos_gt_0; lra). replace (1 - 1 * 1 * (sin p * sin p)) with (cos p * cos p) by (pose proof (sin2_cos2 p) as T; unfold Rsqr in T; lra). rewrite sqrt_square by lra. apply legendre_1_derive. lra.
  - assert (K : 0 <= k < 1) by lra. apply (is_derive_ext (Iab 1 (sqrt (1 - k * k)))). { intros t. symmetry. now apply legendre_Iab. }
    replace (1 - k * k * (sin p * sin p)) with (rad 1 (sqrt (1 - k * k)) p). { apply Iab_derive. split; [apply sqrt_lt_R0; nra|]. apply Rle_trans with (sqrt 1); [apply sqrt_le_1_alt; nra|rewrite sqrt_1; lra]. }
    unfold rad. rewrite sqrt_sqrt by nra. pose proof (sin2_cos2 p) as T. unfold Rsqr in T. replace (cos p * cos p) with (1 - sin p * sin p) by lra. ring.
Qed.
Lemma legendre_F_0 k : legendre_F k 0 = 0. Proof. unfold legendre_F. apply (RInt_point (V := R_CompleteNormedModule)). Qed.

(** F(k, asin s) = s * RF(1 - s^2, 1 - k^2 s^2, 1) *)
Lemma RF_legendre k s : 0 <= k <= 1 -> 0 < s <= 1 -> k * s < 1 -> RFprim (1 - s * s) (1 - k * k * s * s) 1 (legendre_F k (asin s) / s).
Proof.
  intros Hk Hs Hks. set (th := fun t => PI / 2 - atan (sqrt (t + (1 - s * s)) / s)).
  assert (Q : forall t, 0 <= t -> 0 <= sqrt (t + (1 - s * s)) /\ sqrt (t + (1 - s * s)) * sqrt (t + (1 - s * s)) = t + (1 - s * s)). { intros t Ht. split; [apply sqrt_pos|]. apply sqrt_sqrt. nra. }
  assert (Th : forall t, 0 <= t -> 0 <= th t <= PI / 2 /\ sin (th t) = s / sqrt (1 + t) /\ cos (th t) = sqrt (t + (1 - s * s)) / sqrt (1 + t)).
  { intros t Ht. destruct (Q t Ht) as [Q0 Q2]. set (w := sqrt (t + (1 - s * s))) in *. unfold th. fold w. assert (W : 0 <= w / s) by (apply Rle_mult_inv_pos; lra). pose proof (atan_bound (w / s)) as AB.
    assert (A0 : 0 <= atan (w / s)). { destruct W as [W|W]; [left; rewrite <- atan_0; now apply atan_increasing|right; rewrite <- W, atan_0; reflexivity]. }
    assert (R1 : sqrt (1 + (w / s) * (w / s)) = sqrt (1 + t) / s). { assert (P : 0 <= sqrt (1 + t) / s) by (apply Rle_mult_inv_pos; [apply sqrt_pos|lra]). rewrite <- (sqrt_square _ P). f_equal. assert (P2 : sqrt (1 + t) * sqrt (1 + t) = 1 + t) by (apply sqrt_sqrt; lra).
      replace (sqrt (1 + t) / s * (sqrt (1 + t) / s)) with (sqrt (1 + t) * sqrt (1 + t) / (s * s)) by (field; lra). rewrite P2. replace (w / s * (w / s)) with (w * w / (s * s)) by (field; lra). rewrite Q2. field. lra. }
    assert (P : 0 < sqrt (1 + t)) by (apply sqrt_lt_R0; lra). split; [lra|]. split.
    - rewrite sin_shift, cos_atan. unfold Rsqr. rewrite R1. field. split; lra.
    - rewrite cos_shift, sin_atan. unfold Rsqr. rewrite R1. field. split; lra. }
  assert (T0 : th 0 = asin s). { destruct (Th 0 ltac:(lra)) as (B & S & _). rewrite Rplus_0_r, sqrt_1, div_1_r in S. rewrite <- S. symmetry. apply asin_sin. lra. }
  assert (KS : forall t, 0 <= t -> k * sin (th t) < 1). { intros t Ht. destruct (Th t Ht) as (_ & S & _). rewrite S. assert (P : 1 <= sqrt (1 + t)). { apply Rle_trans with (sqrt 1); [rewrite sqrt_1; lra|apply sqrt_le_1_alt; lra]. }
    apply (Rmult_lt_reg_r (sqrt (1 + t))); [lra|]. unfold Rdiv. rewrite <- Rmult_assoc, Rmult_assoc, Rinv_l by lra. nra. }
  exists (fun t => - (2 / s) * legendre_F k (th t)). split; [|split].
  - intros t Ht. destruct (Q t ltac:(lra)) as [Q0 Q2]. destruct (Th t ltac:(lra)) as (B & S & C). assert (Q1 : 0 < t + (1 - s * s)) by nra. assert (Q3 : 0 < sqrt (t + (1 - s * s))) by now apply sqrt_lt_R0.
    assert (P : 0 < sqrt (1 + t)) by (apply sqrt_lt_R0; lra). assert (P2 : sqrt (1 + t) * sqrt (1 + t) = 1 + t) by (apply sqrt_sqrt; lra).
    assert (DT : is_derive th t (- (s / (2 * sqrt (t + (1 - s * s)) * (1 + t))))).
    { unfold th. evar_last. { auto_derive; [exact Q1|reflexivity]. } simpl. set (w := sqrt (t + (1 - s * s))) in *.
      replace (w * / s * (w * / s * 1)) with (w * w / (s * s)) by (field; lra). rewrite Q2. field. repeat split; try lra; nra. }
    evar_last. { apply (is_derive_scal (fun t => legendre_F k (th t)) t (- (2 / s))). apply (is_derive_comp (V := R_NormedModule) (legendre_F k) th); [apply legendre_derive; [exact Hk|exact B|apply KS; lra]|exact DT]. }
    unfold scal; simpl. unfold mult; simpl. unfold rf_integrand. rewrite S.
    set (w := sqrt (t + (1 - s * s))) in *. set (q := sqrt (1 + t)) in *.
    set (D := t + (1 - k * k * s * s)). assert (HD : 0 < D). { unfold D. assert (KS0 : 0 <= k * s) by (apply Rmult_le_pos; lra). assert (k * s * (k * s) < 1) by (clear - KS0 Hks; nra). replace (k * k * s * s) with (k * s * (k * s)) by ring. lra. }
    assert (E1 : sqrt (1 - k * k * (s / q * (s / q))) = sqrt D / q). { assert (Y : 0 <= sqrt D / q) by (apply Rle_mult_inv_pos; [apply sqrt_pos|lra]). rewrite <- (sqrt_square _ Y). f_equal. replace (sqrt D / q * (sqrt D / q)) with (sqrt D * sqrt D / (q * q)) by (field; lra). rewrite sqrt_sqrt by lra. replace (s / q * (s / q)) with (s * s / (q * q)) by (field; lra). rewrite P2. unfold D. field. lra. }
    assert (E2 : sqrt ((t + (1 - s * s)) * D * (t + 1)) = w * sqrt D * q). { assert (N1 : 0 <= (t + (1 - s * s)) * D) by nra. rewrite (sqrt_mult _ _ N1) by lra. rewrite (sqrt_mult (t + (1 - s * s)) D) by lra. unfold q. rewrite (Rplus_comm 1 t). reflexivity. }
    fold D. rewrite E1, E2. pose proof (sqrt_lt_R0 D HD) as SD. clear - Q3 P P2 SD Hs. rewrite <- P2. field. repeat split; lra.
  - assert (E0 : - (2 * (legendre_F k (asin s) / s)) = - (2 / s) * legendre_F k (th 0)) by (rewrite T0; field; lra). rewrite E0.
    apply (filterlim_filter_le_1 (F := locally 0) (fun t => - (2 / s) * legendre_F k (th t))); [apply filter_le_within|].
    apply (continuous_scal_r (V := R_NormedModule) (- (2 / s)) (fun t => legendre_F k (th t)) 0). apply (continuous_comp th (legendre_F k)).
    + unfold th. apply (continuous_minus (V := R_NormedModule)); [apply continuous_const|]. apply (continuous_comp (fun t => sqrt (t + (1 - s * s)) / s) atan).
      * apply (continuous_comp (fun t => sqrt (t + (1 - s * s))) (fun w => w / s)).
        -- apply (continuous_comp (fun t => t + (1 - s * s)) sqrt); [|apply continuous_sqrt]. apply (ex_derive_continuous (K := R_AbsRing) (V := R_NormedModule)). auto_derive. exact Logic.I.
        -- apply (ex_derive_continuous (K := R_AbsRing) (V := R_NormedModule)). eexists. apply derive_div.
      * apply continuous_atan.
    + destruct (Th 0 ltac:(lra)) as (B & _). apply (ex_derive_continuous (K := R_AbsRing) (V := R_NormedModule) (legendre_F k)). eexists. apply legendre_derive; [exact Hk|exact B|apply KS; lra].
  - assert (G0 : continuous (fun v => - (2 / s) * legendre_F k (atan v)) 0). { apply (continuous_scal_r (V := R_NormedModule) (- (2 / s)) (fun v => legendre_F k (atan v)) 0). apply (continuous_comp atan (legendre_F k)); [apply continuous_atan|].
      rewrite atan_0. apply (ex_derive_continuous (K := R_AbsRing) (V := R_NormedModule) (legendre_F k)). eexists. apply legendre_derive; [exact Hk|pose proof PI_RGT_0; lra|rewrite sin_0; lra]. }
    unfold continuous in G0. rewrite atan_0, legendre_F_0, Rmult_0_r in G0. set (u := fun t => s / sqrt (t + (1 - s * s))).
    assert (Hu : filterlim u (Rbar_locally p_infty) (locally 0)).
    { apply (lim_inf_0 u (s * s)). intros t Ht. destruct (Q t ltac:(lra)) as [Q0 Q2]. assert (Q1 : 0 < t + (1 - s * s)) by nra. assert (Q3 : 0 < sqrt (t + (1 - s * s))) by now apply sqrt_lt_R0. unfold u. split; [apply Rle_mult_inv_pos; lra|].
      set (w := sqrt (t + (1 - s * s))) in *. replace (s / w * (s / w) * t) with (s * s * (t / (w * w))) by (field; lra). rewrite Q2. assert (t / (t + (1 - s * s)) <= 1). { apply (Rmult_le_reg_r (t + (1 - s * s))); [lra|]. unfold Rdiv. rewrite Rmult_assoc, Rinv_l by lra. nra. } nra. }
    apply (filterlim_ext_loc (fun t => - (2 / s) * legendre_F k (atan (u t)))).
    + exists 0. intros t Ht. destruct (Q t ltac:(lra)) as [Q0 Q2]. assert (Q1 : 0 < t + (1 - s * s)) by nra. assert (Q3 : 0 < sqrt (t + (1 - s * s))) by now apply sqrt_lt_R0. unfold u, th. rewrite <- atan_inv by (apply Rdiv_lt_0_compat; lra). do 3 f_equal. field. split; lra.
    + apply (filterlim_comp _ _ _ u (fun v => - (2 / s) * legendre_F k (atan v)) (Rbar_locally p_infty) (locally 0)); [exact Hu|exact G0].
Qed.

(** F(k', atan y) = y * RF(1 + y^2, 1 + k^2 y^2, 1), where k'^2 = 1 - k^2 *)
Lemma RF_imaginary k kp y : 0 < k <= 1 -> 0 <= kp -> kp * kp = 1 - k * k -> 0 < y -> RFprim (1 + y * y) (1 + k * k * y * y) 1 (legendre_F kp (atan y) / y).
Proof.
  intros Hk Hkp K2 Hy. assert (Kp1 : kp < 1) by nra.
  set (ps := fun t => atan (y / sqrt (1 + t))).
  assert (P : forall t, 0 <= t -> 0 < sqrt (1 + t) /\ sqrt (1 + t) * sqrt (1 + t) = 1 + t) by (intros t Ht; split; [apply sqrt_lt_R0; lra|apply sqrt_sqrt; lra]).
  assert (Bp : forall v, 0 <= v -> 0 <= atan v <= PI / 2). { intros v Hv. pose proof (atan_bound v). split; [|lra]. destruct Hv as [Hv|Hv]; [left; rewrite <- atan_0; now apply atan_increasing|right; rewrite <- Hv, atan_0; reflexivity]. }
  assert (KS : forall p, kp * sin p < 1) by (intros p; pose proof (SIN_bound p); nra).
  assert (DP : forall t, 0 <= t -> is_derive (fun t => - (2 / y) * legendre_F kp (ps t)) t (rf_integrand (1 + y * y) (1 + k * k * y * y) 1 t)).
  { intros t Ht. destruct (P t Ht) as [P0 P2]. set (q := sqrt (1 + t)) in *.
    assert (DT : is_derive ps t (- (y / (2 * q * (1 + t + y * y))))).
    { unfold ps. evar_last. { auto_derive; [split; [lra|split; [apply Rgt_not_eq, P0|exact Logic.I]]|reflexivity]. } fold q. simpl. rewrite <- P2. field. repeat split; try lra; nra. }
    evar_last. { apply (is_derive_scal (fun t => legendre_F kp (ps t)) t (- (2 / y))). apply (is_derive_comp (V := R_NormedModule) (legendre_F kp) ps); [apply legendre_derive; [lra|unfold ps; apply Bp, Rle_mult_inv_pos; [lra|exact P0]|apply KS]|exact DT]. }
    unfold scal; simpl. unfold mult; simpl. unfold rf_integrand, ps. fold q. rewrite sin_atan. unfold Rsqr.
    set (N := 1 + t + y * y). assert (HN : 0 < N) by (unfold N; nra). set (D := 1 + t + k * k * (y * y)). assert (HD : 0 < D) by (unfold D; assert (0 < k * k * (y * y)) by (apply Rmult_lt_0_compat; nra); nra). pose proof (sqrt_lt_R0 N HN) as SN. pose proof (sqrt_lt_R0 D HD) as SD.
    assert (E0 : sqrt (1 + y / q * (y / q)) = sqrt N / q). { assert (Y : 0 <= sqrt N / q) by (apply Rle_mult_inv_pos; lra). rewrite <- (sqrt_square _ Y). f_equal. replace (sqrt N / q * (sqrt N / q)) with (sqrt N * sqrt N / (q * q)) by (field; lra). rewrite sqrt_sqrt by lra. replace (y / q * (y / q)) with (y * y / (q * q)) by (field; lra). rewrite P2. unfold N. field. lra. }
    rewrite E0.
    assert (E1 : sqrt (1 - kp * kp * (y / q / (sqrt N / q) * (y / q / (sqrt N / q)))) = sqrt D / sqrt N).
    { assert (Y : 0 <= sqrt D / sqrt N) by (apply Rle_mult_inv_pos; lra). rewrite <- (sqrt_square _ Y). f_equal. replace (sqrt D / sqrt N * (sqrt D / sqrt N)) with (sqrt D * sqrt D / (sqrt N * sqrt N)) by (field; lra). replace (y / q / (sqrt N / q) * (y / q / (sqrt N / q))) with (y * y / (sqrt N * sqrt N)) by (field; split; lra). rewrite !sqrt_sqrt by lra. rewrite K2. unfold D, N. field. unfold N in HN. lra. }
    assert (E2 : sqrt ((t + (1 + y * y)) * (t + (1 + k * k * y * y)) * (t + 1)) = sqrt N * sqrt D * q).
    { replace (t + (1 + y * y)) with N by (unfold N; ring). replace (t + (1 + k * k * y * y)) with D by (unfold D; ring). assert (0 <= N * D) by nra. rewrite (sqrt_mult (N * D)) by lra. rewrite (sqrt_mult N D) by lra. unfold q. rewrite (Rplus_comm 1 t). reflexivity. }
    rewrite E1, E2. fold N. assert (SS : sqrt N * sqrt N = N) by (apply sqrt_sqrt; lra). clear - SN SD P0 Hy SS HN. rewrite <- SS at 1. field. repeat split; lra. }
  exists (fun t => - (2 / y) * legendre_F kp (ps t)). split; [intros t Ht; apply DP; lra|]. split.
  - assert (E0 : - (2 * (legendre_F kp (atan y) / y)) = - (2 / y) * legendre_F kp (ps 0)). { unfold ps. rewrite Rplus_0_r, sqrt_1, div_1_r. field. lra. } rewrite E0.
    apply (filterlim_filter_le_1 (F := locally 0) (fun t => - (2 / y) * legendre_F kp (ps t))); [apply filter_le_within|]. apply (ex_derive_continuous (K := R_AbsRing) (V := R_NormedModule) (fun t => - (2 / y) * legendre_F kp (ps t))). eexists. apply DP. lra.
  - assert (G0 : continuous (fun v => - (2 / y) * legendre_F kp (atan v)) 0). { apply (continuous_scal_r (V := R_NormedModule) (- (2 / y)) (fun v => legendre_F kp (atan v)) 0). apply (continuous_comp atan (legendre_F kp)); [apply continuous_atan|].
      rewrite atan_0. apply (ex_derive_continuous (K := R_AbsRing) (V := R_NormedModule) (legendre_F kp)). eexists. apply legendre_derive; [lra|pose proof PI_RGT_0; lra|apply KS]. }
    unfold continuous in G0. rewrite atan_0, legendre_F_0, Rmult_0_r in G0.
    apply (filterlim_comp _ _ _ (fun t => y / sqrt (1 + t)) (fun v => - (2 / y) * legendre_F kp (atan v)) (Rbar_locally p_infty) (locally 0)); [|exact G0].
    apply (lim_inf_0 _ (y * y)). intros t Ht. destruct (P t ltac:(lra)) as [P0 P2]. split; [apply Rle_mult_inv_pos; lra|]. replace (y / sqrt (1 + t) * (y / sqrt (1 + t)) * t) with (y * y * (t / (sqrt (1 + t) * sqrt (1 + t)))) by (field; lra). rewrite P2.
    assert (t / (1 + t) <= 1). { apply (Rmult_le_reg_r (1 + t)); [lra|]. unfold Rdiv. rewrite Rmult_assoc, Rinv_l by lra. lra. } nra.
Qed.
