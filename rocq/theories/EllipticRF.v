(** Carlson's integral of the first kind: duplication, the series and the loop of CarlsonRF (used by C58). *)
From Coq Require Import Reals Lra Lia ZArith List Bool.
From Coquelicot Require Import Rcomplements Rbar Hierarchy Continuity Derive RInt RInt_gen RInt_analysis AutoDerive ElemFct.
From Verif Require Import Base BaseFacts Complex EllipticModel EllipticSpec EllipticAM.
Open Scope R_scope.

(** ** The integral *)
(** an antiderivative that vanishes at infinity *)
Definition RFprim (x y z v : R) : Prop := exists H : R -> R, (forall t, 0 < t -> is_derive H t (rf_integrand x y z t)) /\
  filterlim H (at_right 0) (locally (- (2 * v))) /\ filterlim H (Rbar_locally p_infty) (locally 0).

Lemma rf_cont x y z t : 0 <= x -> 0 <= y -> 0 <= z -> 0 < t -> continuous (rf_integrand x y z) t.
Proof.
  intros Hx Hy Hz Ht. apply (ex_derive_continuous (K := R_AbsRing) (V := R_NormedModule)). unfold rf_integrand.
  assert (P : 0 < (t + x) * (t + y) * (t + z)) by (repeat apply Rmult_lt_0_compat; lra). auto_derive. split; [exact P|]. split; [|exact Logic.I]. apply Rgt_not_eq, sqrt_lt_R0, P.
Qed.
Lemma RFprim_is x y z v : 0 <= x -> 0 <= y -> 0 <= z -> RFprim x y z v -> isRF x y z v.
Proof.
  intros Hx Hy Hz (H & D & L0 & L1). unfold isRF.
  assert (Pos : filter_prod (at_right 0) (Rbar_locally p_infty) (fun ab => 0 < fst ab /\ 0 < snd ab)).
  { apply (Filter_prod _ _ _ (fun a => 0 < a) (fun b => 0 < b)); [now exists (mkposreal 1 Rlt_0_1); intros y0 _ Y|exists 0; intros y0 Y; exact Y|]. intros a b Ha Hb. now split. }
  assert (Up : forall a b t, 0 < a -> 0 < b -> Rmin a b <= t -> 0 < t) by (intros a b t Ha Hb Ht; unfold Rmin in Ht; destruct (Rle_dec a b); lra).
  apply (is_RInt_gen_ext (Derive H)).
  { apply (filter_imp (fun ab => 0 < fst ab /\ 0 < snd ab)); [|exact Pos]. intros [a b] [Ha Hb] t Ht. cbn [fst snd] in *. apply is_derive_unique, D, (Up a b t Ha Hb). lra. }
  replace (2 * v) with (minus 0 (- (2 * v))) by (unfold minus, plus, opp; simpl; ring). apply is_RInt_gen_Derive; [| |exact L0|exact L1].
  - apply (filter_imp (fun ab => 0 < fst ab /\ 0 < snd ab)); [|exact Pos]. intros [a b] [Ha Hb] t Ht. cbn [fst snd] in *. eexists. apply D, (Up a b t Ha Hb). lra.
  - apply (filter_imp (fun ab => 0 < fst ab /\ 0 < snd ab)); [|exact Pos]. intros [a b] [Ha Hb] t Ht. cbn [fst snd] in *. assert (T : 0 < t) by (apply (Up a b t Ha Hb); lra).
    apply (continuous_ext_loc _ (rf_integrand x y z)); [|now apply rf_cont]. exists (mkposreal t T). intros s Hs. symmetry. apply is_derive_unique, D.
    unfold ball, AbsRing_ball in Hs; simpl in Hs. unfold AbsRing_ball, abs, minus, plus, opp in Hs; simpl in Hs. apply Rabs_def2 in Hs. lra.
Qed.

(** ** Duplication *)
Definition lam (x y z : R) : R := sqrt (x * y) + sqrt (x * z) + sqrt (z * y).
Definition tau (x y z t : R) : R := t + sqrt ((t + x) * (t + y)) + sqrt ((t + x) * (t + z)) + sqrt ((t + z) * (t + y)).
Lemma tau_0 x y z : tau x y z 0 = lam x y z. Proof. unfold tau, lam. rewrite !Rplus_0_l. reflexivity. Qed.
Lemma sqrt_prod a b : 0 <= a -> 0 <= b -> sqrt (a * b) = sqrt a * sqrt b. Proof. intros; now apply sqrt_mult. Qed.
Lemma tau_ge x y z t : 0 <= x -> 0 <= y -> 0 <= z -> 0 <= t -> lam x y z + t <= tau x y z t.
Proof.
  intros Hx Hy Hz Ht. unfold tau, lam. assert (forall a b, 0 <= a -> 0 <= b -> sqrt (a * b) <= sqrt ((t + a) * (t + b))) by (intros a b Ha Hb; apply sqrt_le_1_alt; nra).
  pose proof (H x y Hx Hy). pose proof (H x z Hx Hz). pose proof (H z y Hz Hy). lra.
Qed.
Lemma tau_cont0 x y z : 0 <= x -> 0 <= y -> 0 <= z -> forall e, 0 < e -> exists d, 0 < d /\ forall t, 0 < t < d -> tau x y z t < lam x y z + e.
Proof.
  intros Hx Hy Hz e He. assert (C : continuous (tau x y z) 0).
  { assert (Q : forall a b, 0 <= a -> 0 <= b -> continuous (fun t => sqrt ((t + a) * (t + b))) 0).
    { intros a b Ha Hb. apply continuous_comp; [|apply continuous_sqrt]. apply (ex_derive_continuous (K := R_AbsRing) (V := R_NormedModule)). auto_derive. exact Logic.I. }
    unfold tau. repeat apply (continuous_plus (V := R_NormedModule)); [apply continuous_id|apply Q; assumption..]. }
  specialize (C (fun v => v < tau x y z 0 + e)). destruct C as [d Hd].
  { exists (mkposreal e He). intros v Hv. unfold ball in Hv; simpl in Hv. unfold AbsRing_ball, abs, minus, plus, opp in Hv; simpl in Hv. apply Rabs_def2 in Hv. lra. }
  exists d. split; [apply cond_pos|]. intros t Ht. rewrite <- tau_0. apply Hd. unfold ball; simpl. unfold AbsRing_ball, abs, minus, plus, opp; simpl. rewrite Rabs_pos_eq; lra.
Qed.
Lemma RF_dup x y z v : 0 <= x -> 0 <= y -> 0 <= z -> let l := lam x y z in RFprim ((x + l) / 4) ((y + l) / 4) ((z + l) / 4) v -> RFprim x y z v.
Proof.
  intros Hx Hy Hz l (H & D & L0 & L1). exists (fun t => H ((tau x y z t - l) / 4)).
  assert (SP : forall t, 0 < t -> t / 4 <= (tau x y z t - l) / 4). { intros t Ht. pose proof (tau_ge x y z t Hx Hy Hz ltac:(lra)). fold l in H0. lra. }
  split; [|split].
  - intros t Ht. set (p := sqrt (t + x)). set (q := sqrt (t + y)). set (w := sqrt (t + z)).
    assert (P : 0 < p) by (apply sqrt_lt_R0; lra). assert (Q : 0 < q) by (apply sqrt_lt_R0; lra). assert (W : 0 < w) by (apply sqrt_lt_R0; lra).
    assert (P2 : p * p = t + x) by (apply sqrt_sqrt; lra). assert (Q2 : q * q = t + y) by (apply sqrt_sqrt; lra). assert (W2 : w * w = t + z) by (apply sqrt_sqrt; lra).
    assert (T : tau x y z t = t + p * q + p * w + w * q) by (unfold tau; rewrite !sqrt_prod by lra; reflexivity).
    assert (DT : is_derive (fun t => (tau x y z t - l) / 4) t ((p + q) * (q + w) * (w + p) / (8 * (p * q * w)))).
    { unfold tau. evar_last.
      { auto_derive; [repeat split; try (apply Rmult_lt_0_compat; lra); exact Logic.I|reflexivity]. }
      rewrite !sqrt_prod by lra. fold p q w. rewrite <- P2, <- Q2, <- W2. field. repeat split; lra. }
    assert (S : 0 < (tau x y z t - l) / 4) by (specialize (SP t Ht); lra).
    evar_last. { apply (is_derive_comp (V := R_NormedModule) H (fun t => (tau x y z t - l) / 4)); [apply D; exact S|exact DT]. }
    unfold scal; simpl. unfold mult; simpl. unfold rf_integrand.
    assert (E : sqrt (((tau x y z t - l) / 4 + (x + l) / 4) * ((tau x y z t - l) / 4 + (y + l) / 4) * ((tau x y z t - l) / 4 + (z + l) / 4)) = (p + q) * (q + w) * (w + p) / 8).
    { assert (0 < (p + q) * (q + w) * (w + p) / 8) by (assert (0 < (p + q) * (q + w) * (w + p)) by (repeat apply Rmult_lt_0_compat; lra); lra).
      rewrite <- (sqrt_square ((p + q) * (q + w) * (w + p) / 8)) by lra. f_equal. rewrite T. replace x with (p * p - t) by lra. replace y with (q * q - t) by lra. replace z with (w * w - t) by lra. field. }
    rewrite E. rewrite !sqrt_prod by (try apply Rmult_le_pos; lra). fold p q w. field. repeat split; lra.
  - intros Pr HP. specialize (L0 Pr HP). destruct L0 as [d Hd]. destruct (tau_cont0 x y z Hx Hy Hz (4 * d)) as (d' & Hd' & T); [pose proof (cond_pos d); lra|].
    exists (mkposreal d' Hd'). intros t Bt Ht. assert (t < d'). { unfold ball in Bt; simpl in Bt. unfold AbsRing_ball, abs, minus, plus, opp in Bt; simpl in Bt. apply Rabs_def2 in Bt. lra. }
    specialize (T t (conj Ht H0)). specialize (SP t Ht). fold l in T. apply Hd; [|lra]. unfold ball; simpl. unfold AbsRing_ball, abs, minus, plus, opp; simpl. rewrite Rabs_pos_eq; lra.
  - intros Pr HP. specialize (L1 Pr HP). destruct L1 as [M HM]. exists (Rmax 0 (4 * M)). intros t Ht. pose proof (Rmax_l 0 (4 * M)). pose proof (Rmax_r 0 (4 * M)). apply HM. specialize (SP t ltac:(lra)). lra.
Qed.

(** ** The integral in terms of the relative deviations from the mean *)
Definition den (a b c v : R) : R := (1 - a * (v * v)) * (1 - b * (v * v)) * (1 - c * (v * v)).
Definition G (a b c u : R) : R := RInt (fun v => / sqrt (den a b c v)) 0 u.
Definition safe (a b c v : R) : Prop := a * (v * v) < 1 /\ b * (v * v) < 1 /\ c * (v * v) < 1.
Lemma safe_den a b c v : safe a b c v -> 0 < den a b c v.
Proof. intros (A & B & D). unfold den. repeat apply Rmult_lt_0_compat; lra. Qed.
Lemma safe_below a b c v w : safe a b c v -> 0 <= w * w <= v * v -> safe a b c w.
Proof. assert (Q : forall a, a * (v * v) < 1 -> 0 <= w * w <= v * v -> a * (w * w) < 1). { intros d H1 H2. destruct (Rle_dec d 0); nra. } intros (A & B & D) H. repeat split; apply Q; assumption. Qed.
Lemma safe_cont a b c v : safe a b c v -> continuous (fun v => / sqrt (den a b c v)) v.
Proof.
  intros S. apply safe_den in S. apply (ex_derive_continuous (K := R_AbsRing) (V := R_NormedModule)). unfold den. auto_derive. unfold den in S. split; [exact S|]. split; [|exact Logic.I]. apply Rgt_not_eq, sqrt_lt_R0, S.
Qed.
Lemma safe_locally a b c v : safe a b c v -> locally v (safe a b c).
Proof.
  assert (Q : forall a, a * (v * v) < 1 -> locally v (fun w => a * (w * w) < 1)).
  { intros d H. assert (C : continuous (fun w => d * (w * w)) v). { apply (ex_derive_continuous (K := R_AbsRing) (V := R_NormedModule)). auto_derive. exact Logic.I. }
    apply (C (fun y => y < 1)). exists (mkposreal (1 - d * (v * v)) ltac:(lra)). intros y Hy. unfold ball in Hy; simpl in Hy. unfold AbsRing_ball, abs, minus, plus, opp in Hy; simpl in Hy. apply Rabs_def2 in Hy. lra. }
  intros (A & B & D). apply filter_and; [now apply Q|apply filter_and; now apply Q].
Qed.
Lemma G_derive a b c u : safe a b c u -> is_derive (G a b c) u (/ sqrt (den a b c u)).
Proof.
  intros S. unfold G. apply (is_derive_RInt (fun t => / sqrt (den a b c t)) _ 0); [|now apply safe_cont].
  apply (filter_imp (safe a b c)); [|now apply safe_locally]. intros y Sy. apply (RInt_correct (V := R_CompleteNormedModule)), (ex_RInt_continuous (V := R_CompleteNormedModule)).
  intros t Ht. apply safe_cont. apply (safe_below a b c y t Sy). unfold Rmin, Rmax in Ht. destruct (Rle_dec 0 y); nra.
Qed.
Lemma G_0 a b c : G a b c 0 = 0. Proof. unfold G. apply (RInt_point (V := R_CompleteNormedModule)). Qed.

Lemma RF_base x y z : 0 < x -> 0 < y -> 0 < z -> let A := (x + y + z) / 3 in RFprim x y z (G ((A - x) / A) ((A - y) / A) ((A - z) / A) 1 / sqrt A).
Proof.
  intros Hx Hy Hz A. assert (HA : 0 < A) by (unfold A; lra). set (a := (A - x) / A). set (b := (A - y) / A). set (c := (A - z) / A).
  assert (Ea : x = A * (1 - a)) by (unfold a; field; lra). assert (Eb : y = A * (1 - b)) by (unfold b; field; lra). assert (Ec : z = A * (1 - c)) by (unfold c; field; lra).
  assert (S1 : safe a b c 1). { assert (forall d, 0 < A * (1 - d) -> d * (1 * 1) < 1) by (intros d Hd; nra). repeat split; apply H; [rewrite <- Ea|rewrite <- Eb|rewrite <- Ec]; assumption. }
  set (rA := sqrt A). assert (R0 : 0 < rA) by now apply sqrt_lt_R0. assert (R2 : rA * rA = A) by (apply sqrt_sqrt; lra).
  set (u := fun t => rA / sqrt (A + t)).
  assert (Ut : forall t, 0 <= t -> 0 < u t /\ u t <= 1 /\ (u t) * (u t) * (A + t) = A).
  { intros t Ht. unfold u. assert (P : 0 < sqrt (A + t)) by (apply sqrt_lt_R0; lra). assert (P2 : sqrt (A + t) * sqrt (A + t) = A + t) by (apply sqrt_sqrt; lra). split; [|split].
    - apply Rdiv_lt_0_compat; assumption.
    - apply (Rmult_le_reg_r (sqrt (A + t))); [exact P|]. unfold Rdiv. rewrite Rmult_assoc, Rinv_l by lra. rewrite Rmult_1_r, Rmult_1_l. apply sqrt_le_1_alt. lra.
    - set (s := sqrt (A + t)) in *. clearbody s. rewrite <- P2. transitivity (rA * rA); [field; lra|exact R2]. }
  assert (Su : forall t, 0 <= t -> safe a b c (u t)). { intros t Ht. destruct (Ut t Ht) as (U0 & U1 & _). apply (safe_below a b c 1 (u t) S1). nra. }
  assert (Du : forall t, 0 <= t -> is_derive u t (- (rA / (2 * (sqrt (A + t) * sqrt (A + t) * sqrt (A + t)))))).
  { intros t Ht. assert (P : 0 < sqrt (A + t)) by (apply sqrt_lt_R0; lra). unfold u. evar_last. { auto_derive; [split; [lra|split; [apply Rgt_not_eq, P|exact Logic.I]]|reflexivity]. } field. lra. }
  set (Phi := fun t => - (2 / rA) * G a b c (u t)).
  assert (DP : forall t, 0 <= t -> is_derive Phi t (rf_integrand x y z t)).
  { intros t Ht. unfold Phi. assert (P : 0 < sqrt (A + t)) by (apply sqrt_lt_R0; lra). assert (P2 : sqrt (A + t) * sqrt (A + t) = A + t) by (apply sqrt_sqrt; lra).
    evar_last. { apply (is_derive_scal (fun t => G a b c (u t)) t (- (2 / rA))). apply (is_derive_comp (V := R_NormedModule) (G a b c) u); [apply G_derive, Su, Ht|apply Du, Ht]. }
    unfold scal; simpl. unfold mult; simpl. unfold rf_integrand. pose proof (safe_den a b c (u t) (Su t Ht)) as Dp. pose proof (sqrt_lt_R0 _ Dp) as Dq.
    assert (E : (t + x) * (t + y) * (t + z) = (A + t) * ((A + t) * (A + t)) * den a b c (u t)).
    { destruct (Ut t Ht) as (_ & _ & U2). unfold den. set (uu := u t * u t) in *. assert (uu = A / (A + t)) by (apply (Rmult_eq_reg_r (A + t)); [rewrite U2; field|]; lra). rewrite H, Ea, Eb, Ec. field. lra. }
    assert (N1 : 0 <= A + t) by lra. assert (N2 : 0 <= (A + t) * (A + t)) by (apply Rmult_le_pos; lra). assert (N3 : 0 <= (A + t) * ((A + t) * (A + t))) by (apply Rmult_le_pos; lra).
    rewrite E, (sqrt_mult _ _ N3 (Rlt_le _ _ Dp)), (sqrt_mult _ _ N1 N2), (sqrt_square _ N1).
    set (s := sqrt (A + t)) in *. set (d := sqrt (den a b c (u t))) in *. replace (A + t) with (s * s) by exact P2. field. repeat split; lra. }
  exists Phi. split; [intros t Ht; apply DP; lra|]. split.
  - assert (E0 : - (2 * (G a b c 1 / rA)) = Phi 0). { unfold Phi. replace (u 0) with 1 by (unfold u; rewrite Rplus_0_r; fold rA; field; lra). field. lra. } rewrite E0.
    apply (filterlim_filter_le_1 (F := locally 0) Phi); [apply filter_le_within|]. apply (ex_derive_continuous (K := R_AbsRing) (V := R_NormedModule)). eexists. apply DP. lra.
  - assert (G0 : continuous (fun v => - (2 / rA) * G a b c v) 0). { apply (ex_derive_continuous (K := R_AbsRing) (V := R_NormedModule)). eexists. apply (is_derive_scal (G a b c) 0 (- (2 / rA))). apply G_derive. repeat split; lra. }
    unfold continuous in G0. rewrite G_0, Rmult_0_r in G0. unfold Phi. apply (filterlim_comp _ _ _ u (fun v => - (2 / rA) * G a b c v) (Rbar_locally p_infty) (locally 0)); [|exact G0].
    intros Pr [d Hd]. exists (Rmax 0 (A / (d * d))). intros t Ht. pose proof (Rmax_l 0 (A / (d * d))). pose proof (Rmax_r 0 (A / (d * d))). destruct (Ut t ltac:(lra)) as (U0 & U1 & U2). apply Hd. unfold ball; simpl. unfold AbsRing_ball, abs, minus, plus, opp; simpl.
    rewrite Ropp_0, Rplus_0_r, Rabs_pos_eq by lra. pose proof (cond_pos d) as Hp.
    apply Rnot_le_lt. intros N. assert (A < d * d * t). { apply (Rmult_lt_reg_r (/ (d * d))); [apply Rinv_0_lt_compat; nra|]. replace (d * d * t * / (d * d)) with t by (field; lra). unfold Rdiv in H0. eapply Rle_lt_trans; [exact H0|exact Ht]. } assert (d * d <= u t * u t) by nra. assert (0 < d * d) by nra. nra.
Qed.

(** ** The series *)
Definition P3 (u : R) : R := 1 - u / 2 + 3 / 8 * (u * u) - 5 / 16 * (u * u * u).
Lemma taylor3 u : Rabs u <= 1 / 4 -> Rabs (/ sqrt (1 + u) - P3 u) <= u * u * (u * u) / 2.
Proof.
  intros H. assert (B : - (1 / 4) <= u <= 1 / 4) by (unfold Rabs in H; destruct (Rcase_abs u); lra). assert (S0 : 0 < sqrt (1 + u)) by (apply sqrt_lt_R0; lra). assert (S2 : sqrt (1 + u) * sqrt (1 + u) = 1 + u) by (apply sqrt_sqrt; lra).
  set (s := sqrt (1 + u)) in *. clearbody s. assert (S1 : s <= 9 / 8) by nra.
  assert (Hs : 0 < / s) by now apply Rinv_0_lt_compat. assert (Hs2 : / s * (/ s) * (1 + u) = 1) by (rewrite <- S2; field; lra). assert (Hl : 8 / 9 <= / s). { replace (8 / 9) with (/ (9 / 8)) by field. apply Rinv_le_contravar; lra. }
  set (i := / s) in *. clearbody i.
  assert (Pp : 3 / 4 <= P3 u) by (unfold P3; nra). assert (Pn : u < 0 -> 1 <= P3 u /\ 1 <= i). { intros Hn. split; [unfold P3; nra|nra]. }
  assert (E : P3 u * P3 u * (1 + u) - 1 = u * u * (u * u) * (- (35 / 64) + 14 / 64 * u - 35 / 256 * (u * u) + 25 / 256 * (u * u * u))) by (unfold P3; field).
  assert (Q : - (21 / 32) <= - (35 / 64) + 14 / 64 * u - 35 / 256 * (u * u) + 25 / 256 * (u * u * u) <= 0).
  { assert (0 <= u * u <= 1 / 16) by nra. assert (- (1 / 64) <= u * u * u <= 1 / 64) by nra. lra. }
  set (q := - (35 / 64) + 14 / 64 * u - 35 / 256 * (u * u) + 25 / 256 * (u * u * u)) in *. clearbody q. set (p := P3 u) in *. clearbody p. set (w := u * u * (u * u)) in *. assert (W : 0 <= w) by (unfold w; nra). clearbody w.
  assert (F : (i - p) * ((i + p) * (1 + u)) = - (w * q)) by nra.
  assert (Dn : 3 / 2 <= (i + p) * (1 + u)) by (destruct (Rlt_dec u 0) as [Hn|]; [destruct (Pn Hn)|]; nra). set (dn := (i + p) * (1 + u)) in *. clearbody dn.
  assert (0 <= - (w * q) <= w * (21 / 32)) by nra.
  assert (0 <= i - p) by nra. rewrite Rabs_pos_eq by lra. nra.
Qed.

Lemma mvt_cmp f h f' h' : (forall v, 0 <= v <= 1 -> is_derive f v (f' v)) -> (forall v, 0 <= v <= 1 -> is_derive h v (h' v)) -> (forall v, 0 <= v <= 1 -> Rabs (f' v) <= h' v) ->
  Rabs (f 1 - f 0) <= h 1 - h 0.
Proof.
  intros Df Dh C.
  assert (Q : forall s, s * s = 1 -> s * (f 1 - f 0) <= h 1 - h 0).
  { intros s Hs. destruct (MVT_gen (fun v => h v - s * f v) 0 1 (fun v => h' v - s * f' v)) as (c & Hc & E).
    - intros x Hx. rewrite Rmin_left, Rmax_right in Hx by lra. apply (is_derive_minus (V := R_NormedModule) h (fun v => s * f v)); [apply Dh; lra|]. apply (is_derive_scal f x s). apply Df. lra.
    - intros x Hx. rewrite Rmin_left, Rmax_right in Hx by lra. apply continuity_pt_filterlim. apply (ex_derive_continuous (K := R_AbsRing) (V := R_NormedModule) (fun v => h v - s * f v)). exists (h' x - s * f' x). apply (is_derive_minus (V := R_NormedModule) h (fun v => s * f v)); [apply Dh; lra|]. apply (is_derive_scal f x s). apply Df. lra.
    - rewrite Rmin_left, Rmax_right in Hc by lra. cbv beta in E. specialize (C c Hc). assert (s * f' c <= h' c). { apply Rle_trans with (Rabs (s * f' c)); [apply Rle_abs|]. rewrite Rabs_mult. assert (Rabs s = 1). { assert (Rabs s * Rabs s = 1) by (rewrite <- Rabs_mult, Hs; apply Rabs_R1). pose proof (Rabs_pos s). nra. } rewrite H. lra. } lra. }
  pose proof (Q 1 ltac:(ring)). pose proof (Q (-1) ltac:(ring)). apply Rabs_le. lra.
Qed.

Definition dev2 (a b c : R) := a * b + a * c + b * c.
Definition dev3 (a b c : R) := a * b * c.
Lemma dev_bounds a b c d : a + b + c = 0 -> Rabs a <= d -> Rabs b <= d -> Rabs c <= d -> Rabs (dev2 a b c) <= d * d /\ Rabs (dev3 a b c) <= d * d * d.
Proof.
  intros Z A B C. split.
  - unfold dev2. replace c with (- a - b) in * by lra. assert (forall t, Rabs t <= d -> - d <= t <= d) as U by (intros t; unfold Rabs; destruct (Rcase_abs t); lra). apply U in A, B, C.
    replace (a * b + a * (- a - b) + b * (- a - b)) with (- (a * a + a * b + b * b)) by ring. rewrite Rabs_Ropp, Rabs_pos_eq by nra.
    assert (SA : a * a <= d * d) by (clear - A; nra). assert (SB : b * b <= d * d) by (clear - B; nra). assert (SC : (a + b) * (a + b) <= d * d) by (clear - C; nra). clear - SA SB SC.
    destruct (Rle_dec 0 a) as [Pa|Pa], (Rle_dec 0 b) as [Pb|Pb], (Rle_dec 0 (a + b)) as [Pc|Pc]; try (exfalso; lra).
    + assert (0 <= a * b) by nra. lra.
    + assert (b * (a + b) <= 0) by nra. lra.
    + assert (a * (a + b) <= 0) by nra. lra.
    + assert (a * (a + b) <= 0) by nra. lra.
    + assert (b * (a + b) <= 0) by nra. lra.
    + assert (0 <= a * b) by nra. lra.
  - unfold dev3. rewrite !Rabs_mult. pose proof (Rabs_pos a). pose proof (Rabs_pos b). pose proof (Rabs_pos c). repeat apply Rmult_le_compat; try assumption. apply Rmult_le_pos; assumption.
Qed.
Lemma den_dev a b c v : a + b + c = 0 -> den a b c v = 1 + (dev2 a b c * (v * v * (v * v)) - dev3 a b c * (v * v * (v * v) * (v * v))).
Proof. intros Z. unfold den, dev2, dev3. replace c with (- a - b) by lra. ring. Qed.

Definition sser (e f v : R) : R := v - (e * v ^ 5 / 10 - f * v ^ 7 / 14) + 3 / 8 * (e * e * v ^ 9 / 9 - 2 * (e * f) * v ^ 11 / 11 + f * f * v ^ 13 / 13)
  - 5 / 16 * (e * e * e * v ^ 13 / 13 - 3 * (e * e * f) * v ^ 15 / 15 + 3 * (e * f * f) * v ^ 17 / 17 - f * f * f * v ^ 19 / 19).
Lemma sser_derive e f v : is_derive (sser e f) v (P3 (e * (v * v * (v * v)) - f * (v * v * (v * v) * (v * v)))).
Proof. unfold sser. evar_last. { auto_derive; [exact Logic.I|reflexivity]. } unfold P3. cbn [pred INR pow]. simpl. field. Qed.

Lemma series_error a b c d : a + b + c = 0 -> Rabs a <= d -> Rabs b <= d -> Rabs c <= d -> d <= 3 / 20 ->
  1 / 2 <= G a b c 1 /\ Rabs (G a b c 1 - carlson_series (dev2 a b c) (dev3 a b c)) <= d ^ 8 / 9.
Proof.
  intros Z A B C Hd. destruct (dev_bounds a b c d Z A B C) as [E2 E3]. assert (D0 : 0 <= d) by (pose proof (Rabs_pos a); lra). set (e := dev2 a b c) in *. set (f := dev3 a b c) in *.
  assert (Den : forall v, den a b c v = 1 + (e * (v * v * (v * v)) - f * (v * v * (v * v) * (v * v)))) by (intros v; now apply den_dev).
  assert (S1 : forall v, 0 <= v <= 1 -> safe a b c v). { intros v Hv. assert (V : 0 <= v * v <= 1) by nra. assert (T : forall t, Rabs t <= d -> t * (v * v) < 1) by (intros t Ht; unfold Rabs in Ht; destruct (Rcase_abs t); nra). repeat split; apply T; assumption. }
  set (U := 23 / 20 * (d * d)).
  assert (Ub : forall v, 0 <= v <= 1 -> Rabs (e * (v * v * (v * v)) - f * (v * v * (v * v) * (v * v))) <= U * (v * v * (v * v))).
  { intros v Hv. assert (V : 0 <= v * v <= 1) by nra. set (w := v * v * (v * v)). assert (W : 0 <= w) by (unfold w; nra). eapply Rle_trans; [apply Rabs_triang|]. rewrite Rabs_Ropp, !Rabs_mult, (Rabs_pos_eq w), (Rabs_pos_eq v) by lra. unfold U.
    assert (Rabs e * w <= d * d * w) by nra. assert (Rabs f * (w * (v * v)) <= d * d * d * w). { pose proof (Rabs_pos f). apply Rle_trans with (Rabs f * w); [apply Rmult_le_compat_l; [lra|nra]|nra]. } assert (d * d * d * w <= 3 / 20 * (d * d) * w). { apply Rmult_le_compat_r; [exact W|]. nra. } lra. }
  assert (Us : 0 <= U <= 1 / 16) by (unfold U; nra).
  assert (Ub4 : forall v, 0 <= v <= 1 -> Rabs (e * (v * v * (v * v)) - f * (v * v * (v * v) * (v * v))) <= 1 / 4). { intros v Hv. eapply Rle_trans; [now apply Ub|]. assert (0 <= v * v <= 1) by nra. assert (v * v * (v * v) <= 1) by nra. nra. }
  split.
  - destruct (MVT_gen (G a b c) 0 1 (fun v => / sqrt (den a b c v))) as (m & Hm & E).
    + intros x Hx. rewrite Rmin_left, Rmax_right in Hx by lra. apply G_derive, S1. lra.
    + intros x Hx. rewrite Rmin_left, Rmax_right in Hx by lra. apply continuity_pt_filterlim. apply (ex_derive_continuous (K := R_AbsRing) (V := R_NormedModule) (G a b c)). eexists. apply G_derive, S1. lra.
    + rewrite Rmin_left, Rmax_right in Hm by lra. rewrite G_0 in E. replace (G a b c 1) with (/ sqrt (den a b c m)) by lra. pose proof (safe_den a b c m (S1 m Hm)) as Dp. pose proof (Ub4 m Hm) as B4. rewrite Den in *.
      set (t := e * (m * m * (m * m)) - f * (m * m * (m * m) * (m * m))) in *. replace (1 / 2) with (/ 2) by field. apply Rinv_le_contravar; [now apply sqrt_lt_R0|]. assert (t <= 1 / 4) by (eapply Rle_trans; [apply Rle_abs|exact B4]).
      apply Rle_trans with (sqrt (2 * 2)); [apply sqrt_le_1_alt; lra|rewrite sqrt_square; lra].
  - assert (M : Rabs ((G a b c 1 - sser e f 1) - (G a b c 0 - sser e f 0)) <= U * U * (U * U) / 34 * 1 ^ 17 - U * U * (U * U) / 34 * 0 ^ 17).
    { apply (mvt_cmp (fun v => G a b c v - sser e f v) (fun v => U * U * (U * U) / 34 * v ^ 17)
        (fun v => / sqrt (den a b c v) - P3 (e * (v * v * (v * v)) - f * (v * v * (v * v) * (v * v)))) (fun v => U * U * (U * U) / 2 * v ^ 16)).
      - intros v Hv. apply (is_derive_minus (V := R_NormedModule) (G a b c) (sser e f)); [apply G_derive, S1, Hv|apply sser_derive].
      - intros v Hv. evar_last. { auto_derive; [exact Logic.I|reflexivity]. } simpl. field.
      - intros v Hv. rewrite Den. set (t := e * (v * v * (v * v)) - f * (v * v * (v * v) * (v * v))) in *. eapply Rle_trans; [apply taylor3, Ub4, Hv|]. pose proof (Ub v Hv) as Bt. fold t in Bt.
        assert (T2 : t * t = Rabs t * Rabs t) by (rewrite <- Rabs_mult, Rabs_pos_eq; nra). rewrite T2. pose proof (Rabs_pos t). set (r := Rabs t) in *. set (w := v * v * (v * v)) in *. assert (r * r <= U * w * (U * w)) by nra. assert (0 <= r * r) by nra.
        replace (v ^ 16) with (w * w * (w * w)) by (unfold w; ring). assert (r * r * (r * r) <= U * w * (U * w) * (U * w * (U * w))) by nra. lra. }
    assert (Z0 : sser e f 0 = 0) by (unfold sser; rewrite !pow_i by lia; field). rewrite G_0, Z0, pow1, pow_i in M by lia.
    assert (S1' : sser e f 1 = carlson_series e f - 15 / 272 * (e * f * f) + 5 / 304 * (f * f * f)). { unfold sser, carlson_series. rewrite !pow1. field. }
    rewrite S1' in M. set (g := G a b c 1) in *. set (s := carlson_series e f) in *.
    assert (X1 : Rabs (e * f * f) <= d ^ 8). { rewrite !Rabs_mult. replace (d ^ 8) with (d * d * (d * d * d) * (d * d * d)) by ring. pose proof (Rabs_pos e). pose proof (Rabs_pos f). repeat apply Rmult_le_compat; try assumption. apply Rmult_le_pos; assumption. }
    assert (X2 : Rabs (f * f * f) <= d ^ 8 * (3 / 20)). { rewrite !Rabs_mult. pose proof (Rabs_pos f). apply Rle_trans with (d * d * d * (d * d * d) * (d * d * d)); [repeat apply Rmult_le_compat; try assumption; apply Rmult_le_pos; assumption|]. replace (d * d * d * (d * d * d) * (d * d * d)) with (d ^ 8 * d) by ring. apply Rmult_le_compat_l; [apply pow_le|]; lra. }
    assert (X3 : U * U * (U * U) <= 7 / 4 * d ^ 8). { unfold U. replace (23 / 20 * (d * d) * (23 / 20 * (d * d)) * (23 / 20 * (d * d) * (23 / 20 * (d * d)))) with ((23 / 20) ^ 4 * d ^ 8) by ring. apply Rmult_le_compat_r; [apply pow_le; lra|]. lra. }
    assert (Y : forall t y, Rabs t <= y -> - y <= t <= y) by (intros t y Hy; unfold Rabs in Hy; destruct (Rcase_abs t); lra). apply Y in M, X1, X2. assert (0 <= d ^ 8) by (apply pow_le; lra). apply Rabs_le. lra.
Qed.

(** ** The loop *)
Section Loop.
Variables (eps c : R).
Hypothesis Heps : 0 < eps.
Hypothesis Hc : 0 < c.
Hypothesis Hd : / c <= 3 / 20.
Hypothesis H8 : (/ c) ^ 8 = 3 * (eps / 4).
Definition good (x y z lm Q Am An : R) : Prop := Am = (x + y + z) / 3 /\ An = Am + lm /\ 0 <= x + lm /\ 0 <= y + lm /\ 0 <= z + lm /\ 0 < An /\
  c * Rabs (Am - x) <= Q /\ c * Rabs (Am - y) <= Q /\ c * Rabs (Am - z) <= Q.
Definition approx (v rf : R) : Prop := 0 < rf /\ Rabs (v - rf) <= eps / 4 * rf.

Lemma finish_ok x y z lm Q Am An : good x y z lm Q Am An -> Q <= An -> exists v rf, carlson_finish x y z Am An = Ok v /\ RFprim (x + lm) (y + lm) (z + lm) rf /\ approx v rf.
Proof.
  intros (EA & EN & Hx & Hy & Hz & PA & Qx & Qy & Qz) HQ.
  assert (Dv : forall t, c * Rabs (Am - t) <= Q -> Rabs ((Am - t) / An) <= / c).
  { intros t Ht. unfold Rdiv. rewrite Rabs_mult, Rabs_inv, (Rabs_pos_eq An) by lra. apply (Rmult_le_reg_r (An * c)); [nra|]. replace (/ c * (An * c)) with An by (field; lra). replace (Rabs (Am - t) * / An * (An * c)) with (c * Rabs (Am - t)) by (field; lra). lra. }
  pose proof (Dv x Qx) as Dx. pose proof (Dv y Qy) as Dy. pose proof (Dv z Qz) as Dz.
  assert (PX : forall t, Rabs ((Am - t) / An) <= / c -> 0 < t + lm). { intros t Ht. assert ((Am - t) / An <= 3 / 20) by (eapply Rle_trans; [apply Rle_abs|lra]). assert (t + lm = An * (1 - (Am - t) / An)) by (rewrite EN; field; lra). rewrite H0. apply Rmult_lt_0_compat; lra. }
  pose proof (PX x Dx) as Px. pose proof (PX y Dy) as Py. pose proof (PX z Dz) as Pz.
  pose proof (RF_base (x + lm) (y + lm) (z + lm) Px Py Pz) as B. cbv zeta in B. replace ((x + lm + (y + lm) + (z + lm)) / 3) with An in B by (rewrite EN, EA; field).
  replace (An - (x + lm)) with (Am - x) in B by lra. replace (An - (y + lm)) with (Am - y) in B by lra. replace (An - (z + lm)) with (Am - z) in B by lra.
  set (a := (Am - x) / An) in *. set (b := (Am - y) / An) in *. set (d := (Am - z) / An) in *.
  destruct (series_error a b d (/ c)) as [G1 G2]; [unfold a, b, d; rewrite EA; field; lra|assumption..|].
  assert (R0 : 0 < sqrt An) by now apply sqrt_lt_R0.
  exists (carlson_series (dev2 a b d) (dev3 a b d) / sqrt An), (G a b d 1 / sqrt An). split; [|split; [exact B|]].
  - unfold carlson_finish, fdiv_, sqrt_. destruct (Req_EM_T An 0); [lra|]. cbn [bind]. fold a b d. destruct (Rle_dec 0 An); [|lra]. cbn [bind]. destruct (Req_EM_T (sqrt An) 0); [lra|]. reflexivity.
  - split; [apply Rdiv_lt_0_compat; lra|]. rewrite H8 in G2. replace (carlson_series (dev2 a b d) (dev3 a b d) / sqrt An - G a b d 1 / sqrt An) with (- ((G a b d 1 - carlson_series (dev2 a b d) (dev3 a b d)) * / sqrt An)) by (field; lra).
    assert (I : 0 < / sqrt An) by now apply Rinv_0_lt_compat. rewrite Rabs_Ropp, Rabs_mult, (Rabs_pos_eq (/ sqrt An)) by lra. unfold Rdiv. rewrite <- Rmult_assoc. apply Rmult_le_compat_r; [lra|]. nra.
Qed.

Lemma lam_ge X Y Z m : 0 < m -> m <= X -> m <= Y -> m <= Z -> 3 * m <= lam X Y Z.
Proof.
  intros Hm Hx Hy Hz. assert (T : forall p q, m <= p -> m <= q -> m <= sqrt (p * q)). { intros p q Hp Hq. apply Rle_trans with (sqrt (m * m)); [rewrite sqrt_square; lra|apply sqrt_le_1_alt; nra]. }
  unfold lam. pose proof (T X Y Hx Hy). pose proof (T X Z Hx Hz). pose proof (T Z Y Hz Hy). lra.
Qed.
Lemma lam_pos X Y Z : 0 <= lam X Y Z. Proof. unfold lam. pose proof (sqrt_pos (X * Y)). pose proof (sqrt_pos (X * Z)). pose proof (sqrt_pos (Z * Y)). lra. Qed.

Lemma loop_step fuel x y z lm Q Am An : good x y z lm Q Am An -> An < Q -> let l' := (lm + lam (x + lm) (y + lm) (z + lm)) / 4 in
  carlson_loop (S fuel) x y z lm Q Am An = carlson_loop fuel (x / 4) (y / 4) (z / 4) l' (Q / 4) (Am / 4) (Am / 4 + l') /\
  good (x / 4) (y / 4) (z / 4) l' (Q / 4) (Am / 4) (Am / 4 + l') /\
  (forall t, t / 4 + l' = (t + lm + lam (x + lm) (y + lm) (z + lm)) / 4).
Proof.
  intros (EA & EN & Hx & Hy & Hz & PA & Qx & Qy & Qz) HQ l'. set (L := lam (x + lm) (y + lm) (z + lm)) in *. pose proof (lam_pos (x + lm) (y + lm) (z + lm)) as L0. fold L in L0.
  assert (T : forall t, t / 4 + l' = (t + lm + L) / 4) by (intros t; unfold l'; field).
  split; [|split; [|exact T]].
  - cbn [carlson_loop]. destruct (Rlt_dec (Rabs An) Q) as [_|N]; [|rewrite Rabs_pos_eq in N; lra].
    assert (E : forall p q, 0 <= p + lm -> 0 <= q + lm -> sqrt_ (p * q + (p + q) * lm + lm * lm) = Ok (sqrt ((p + lm) * (q + lm)))).
    { intros p q Hp Hq. unfold sqrt_. replace (p * q + (p + q) * lm + lm * lm) with ((p + lm) * (q + lm)) by ring. destruct (Rle_dec 0 ((p + lm) * (q + lm))) as [_|N]; [reflexivity|]. exfalso. apply N. now apply Rmult_le_pos. }
    rewrite (E x y), (E x z), (E z y) by assumption. cbn [bind]. reflexivity.
  - assert (S : forall t, Am / 4 - t / 4 = (Am - t) / 4) by (intros t; field). assert (Ab : forall t, c * Rabs (Am - t) <= Q -> c * Rabs ((Am - t) / 4) <= Q / 4).
    { intros t Ht. unfold Rdiv. rewrite Rabs_mult, (Rabs_pos_eq (/ 4)) by lra. lra. }
    unfold good. rewrite !T, !S. repeat split; try (apply Ab; assumption); try lra.
Qed.

Lemma loop_ok N : forall m x y z lm Q Am An, good x y z lm Q Am An -> 0 < m -> m <= x + lm -> m <= y + lm -> m <= z + lm -> Q <= m * 4 ^ N ->
  exists v rf, (forall fuel, (N <= fuel)%nat -> carlson_loop fuel x y z lm Q Am An = Ok v) /\ RFprim (x + lm) (y + lm) (z + lm) rf /\ approx v rf.
Proof.
  assert (Stop : forall x y z lm Q Am An, good x y z lm Q Am An -> Q <= An -> exists v rf, (forall fuel, carlson_loop fuel x y z lm Q Am An = Ok v) /\ RFprim (x + lm) (y + lm) (z + lm) rf /\ approx v rf).
  { intros x y z lm Q Am An Gd HQ. destruct (finish_ok _ _ _ _ _ _ _ Gd HQ) as (v & rf & F & R & A). exists v, rf. split; [|now split]. intros fuel. destruct Gd as (_ & _ & _ & _ & _ & PA & _).
    destruct fuel; cbn [carlson_loop]; (destruct (Rlt_dec (Rabs An) Q) as [Lt|_]; [rewrite Rabs_pos_eq in Lt by lra; lra|exact F]). }
  induction N as [|N IH]; intros m x y z lm Q Am An Gd Hm Mx My Mz HQ.
  - destruct (Stop x y z lm Q Am An Gd) as (v & rf & F & R & A); [|exists v, rf; split; [intros fuel _; apply F|now split]]. cbn [pow] in HQ. destruct Gd as (EA & EN & _). rewrite EN, EA. lra.
  - destruct (Rlt_dec An Q) as [Lt|Nl]; [|destruct (Stop x y z lm Q Am An Gd) as (v & rf & F & R & A); [lra|exists v, rf; split; [intros fuel _; apply F|now split]]].
    destruct (loop_step 0 x y z lm Q Am An Gd Lt) as (_ & Gd' & T). set (L := lam (x + lm) (y + lm) (z + lm)) in *. set (l' := (lm + L) / 4) in *.
    pose proof (lam_ge (x + lm) (y + lm) (z + lm) m Hm Mx My Mz) as L3. fold L in L3.
    destruct (IH m (x / 4) (y / 4) (z / 4) l' (Q / 4) (Am / 4) (Am / 4 + l') Gd' Hm) as (v & rf & F & R & A); [rewrite T; lra..|cbn [pow] in HQ; lra|].
    exists v, rf. split; [|split; [|exact A]].
    + intros fuel Hf. destruct fuel as [|fuel]; [lia|]. destruct (loop_step fuel x y z lm Q Am An Gd Lt) as (E & _). fold L in E. fold l' in E. rewrite E. apply F. lia.
    + rewrite !T in R. destruct Gd as (_ & _ & Hx & Hy & Hz & _). now apply RF_dup.
Qed.

Lemma lam_pos_strict X Y Z : 0 <= X -> 0 <= Y -> 0 <= Z -> (0 < X \/ 0 < Y) -> (0 < X \/ 0 < Z) -> (0 < Y \/ 0 < Z) -> 0 < lam X Y Z.
Proof.
  intros HX HY HZ A B C. unfold lam. pose proof (sqrt_pos (X * Y)). pose proof (sqrt_pos (X * Z)). pose proof (sqrt_pos (Z * Y)).
  destruct A as [A|A], B as [B|B], C as [C|C]; try (assert (0 < sqrt (X * Y)) by (apply sqrt_lt_R0; nra); lra); try (assert (0 < sqrt (X * Z)) by (apply sqrt_lt_R0; nra); lra); assert (0 < sqrt (Z * Y)) by (apply sqrt_lt_R0; nra); lra.
Qed.
Lemma loop_start x y z Q N : let Am := (x + y + z) / 3 in good x y z 0 Q Am Am -> (0 < x \/ 0 < y) -> (0 < x \/ 0 < z) -> (0 < y \/ 0 < z) -> Q <= lam x y z * 4 ^ N ->
  exists v rf, (forall fuel, (S N <= fuel)%nat -> carlson_loop fuel x y z 0 Q Am Am = Ok v) /\ RFprim x y z rf /\ approx v rf.
Proof.
  intros Am Gd A B C HN. assert (XX : forall t, t + 0 = t) by (intros; ring).
  destruct (Rlt_dec Am Q) as [Lt|Nl].
  - destruct (loop_step 0 x y z 0 Q Am Am Gd Lt) as (_ & Gd' & T). assert (G0 := Gd). destruct G0 as (_ & _ & Hx & Hy & Hz & _). rewrite XX in Hx, Hy, Hz. rewrite (XX x), (XX y), (XX z) in T, Gd'. assert (T' : forall t, t / 4 + (0 + lam x y z) / 4 = (t + lam x y z) / 4) by (intros; field). clear T. rename T' into T. pose proof (lam_pos_strict x y z Hx Hy Hz A B C) as L0. set (L := lam x y z) in *.
    set (l' := (0 + L) / 4) in *. set (m := L / 4). assert (Hm : 0 < m) by (unfold m; lra).
    destruct (loop_ok N m (x / 4) (y / 4) (z / 4) l' (Q / 4) (Am / 4) (Am / 4 + l') Gd' Hm) as (v & rf & F & R & Ap); [rewrite T; unfold m; lra..|unfold m; lra|].
    exists v, rf. split; [|split; [|exact Ap]].
    + intros fuel Hf. destruct fuel as [|fuel]; [lia|]. destruct (loop_step fuel x y z 0 Q Am Am Gd Lt) as (E & _). rewrite (XX x), (XX y), (XX z) in E. fold L in E. fold l' in E. rewrite E. apply F. lia.
    + rewrite !T in R. now apply RF_dup.
  - destruct (finish_ok _ _ _ _ _ _ _ Gd ltac:(lra)) as (v & rf & F & R & Ap). exists v, rf. rewrite !XX in R. split; [|now split]. intros fuel _. destruct Gd as (_ & _ & _ & _ & _ & PA & _).
    destruct fuel; cbn [carlson_loop]; (destruct (Rlt_dec (Rabs Am) Q) as [Lt|_]; [rewrite Rabs_pos_eq in Lt by lra; lra|exact F]).
Qed.
End Loop.

(** CarlsonRF *)
Definition rf_c (eps : R) : R := Rpower (3 * (eps / 4)) (- (1 / 8)).
Definition rf_Q (eps x y z : R) : R := let Am := (x + y + z) / 3 in rf_c eps * Rmax (Rmax (Rabs (Am - x)) (Rabs (Am - y))) (Rabs (Am - z)).
Lemma carlson_N eps x y z N : 0 < eps <= / 2 ^ 22 -> rf_args x y z -> rf_Q eps x y z <= lam x y z * 4 ^ N ->
  exists v rf, (forall fuel, (S N <= fuel)%nat -> CarlsonRF eps fuel x y z = Ok (Fin v)) /\ RFprim x y z rf /\ 0 < rf /\ Rabs (v - rf) <= eps / 4 * rf.
Proof.
  intros He (Hx & Hy & Hz & XY & XZ & YZ) HN. unfold rf_Q in HN. set (c := rf_c eps) in *. assert (Hc : 0 < c) by apply exp_pos.
  assert (H8 : (/ c) ^ 8 = 3 * (eps / 4)).
  { unfold c, rf_c. rewrite <- Rpower_Ropp, Ropp_involutive, <- Rpower_pow by apply exp_pos. rewrite Rpower_mult. replace (1 / 8 * INR 8) with 1 by (simpl; field). apply Rpower_1. lra. }
  assert (Hd : / c <= 3 / 20).
  { apply Rnot_lt_le. intros L. assert (P : (3 / 20) ^ 8 <= (/ c) ^ 8) by (apply pow_incr; lra). rewrite H8 in P. cbn [pow] in He, P. lra. }
  set (Am := (x + y + z) / 3) in *. set (Q := c * Rmax (Rmax (Rabs (Am - x)) (Rabs (Am - y))) (Rabs (Am - z))) in *.
  destruct (loop_start eps c ltac:(lra) Hc Hd H8 x y z Q N) as (v & rf & F & R & A); [| | | |exact HN|].
  - unfold good. fold Am. rewrite !Rplus_0_r. repeat split; try lra; try (unfold Am; lra); unfold Q; apply Rmult_le_compat_l; try lra.
    + eapply Rle_trans; [|apply Rmax_l]. apply Rmax_l.
    + eapply Rle_trans; [|apply Rmax_l]. apply Rmax_r.
    + apply Rmax_r.
  - destruct (Rlt_dec 0 x); [now left|right; lra].
  - destruct (Rlt_dec 0 x); [now left|right; lra].
  - destruct (Rlt_dec 0 y); [now left|right; lra].
  - exists v, rf. split; [|split; [exact R|exact A]]. intros fuel Hf. unfold CarlsonRF. replace (2 <=? is_zero x + is_zero y + is_zero z)%Z with false.
    + fold (rf_c eps). fold c. fold Am. fold Q. rewrite F by exact Hf. reflexivity.
    + unfold is_zero. destruct (Req_EM_T x 0), (Req_EM_T y 0), (Req_EM_T z 0); try reflexivity; exfalso; lra.
Qed.
Lemma pow4_above r : exists N, r <= 4 ^ N.
Proof.
  exists (Z.to_nat (up r)). destruct (archimed r) as [A _]. apply Rle_trans with (INR (Z.to_nat (up r))).
  - apply Rle_trans with (IZR (up r)); [lra|]. rewrite INR_IZR_INZ. apply IZR_le. lia.
  - generalize (Z.to_nat (up r)) as n. induction n as [|n IH]; [simpl; lra|]. rewrite S_INR. cbn [pow]. assert (1 <= 4 ^ n) by (apply pow_R1_Rle; lra). lra.
Qed.
Lemma carlson_main eps x y z : 0 < eps <= / 2 ^ 22 -> rf_args x y z ->
  exists N v rf, (forall fuel, (N <= fuel)%nat -> CarlsonRF eps fuel x y z = Ok (Fin v)) /\ RFprim x y z rf /\ 0 < rf /\ Rabs (v - rf) <= eps / 4 * rf.
Proof.
  intros He A. assert (L0 : 0 < lam x y z). { destruct A as (Hx & Hy & Hz & XY & XZ & YZ). apply lam_pos_strict; try assumption; [destruct (Rlt_dec 0 x); [now left|right; lra]..|destruct (Rlt_dec 0 y); [now left|right; lra]]. }
  destruct (pow4_above (rf_Q eps x y z / lam x y z)) as [N HN]. destruct (carlson_N eps x y z N He A) as (v & rf & H).
  - apply Rle_trans with (lam x y z * (rf_Q eps x y z / lam x y z)); [right; field; lra|apply Rmult_le_compat_l; lra].
  - exists (S N), v, rf. exact H.
Qed.
(** one bound on the number of passes for all arguments in a range *)
Lemma carlson_uniform eps m M : 0 < eps <= / 2 ^ 22 -> 0 < m -> exists N, forall x y z, rf_args x y z -> x <= M -> y <= M -> z <= M -> m <= lam x y z ->
  forall fuel, (N <= fuel)%nat -> exists v, CarlsonRF eps fuel x y z = Ok (Fin v).
Proof.
  intros He Hm. destruct (pow4_above (rf_c eps * M / m)) as [N HN]. exists (S N). intros x y z A Mx My Mz L fuel Hf. assert (C0 : 0 < rf_c eps) by apply exp_pos.
  destruct (carlson_N eps x y z N He A) as (v & rf & F & _); [|exists v; now apply F].
  assert (M0 : 0 <= M) by (destruct A; lra). assert (P4 : 0 < 4 ^ N) by (apply pow_lt; lra). apply Rle_trans with (m * 4 ^ N); [|apply Rmult_le_compat_r; lra]. apply Rle_trans with (rf_c eps * M).
  - unfold rf_Q. apply Rmult_le_compat_l; [lra|]. destruct A as (Hx & Hy & Hz & _). repeat apply Rmax_lub; apply Rabs_le; lra.
  - apply Rle_trans with (m * (rf_c eps * M / m)); [right; field; lra|apply Rmult_le_compat_l; lra].
Qed.
Lemma carlson_loop_mono fuel : forall fuel' x y z l Q Am An v, (fuel <= fuel')%nat -> carlson_loop fuel x y z l Q Am An = Ok v -> carlson_loop fuel' x y z l Q Am An = Ok v.
Proof.
  induction fuel as [|fuel IH]; intros fuel' x y z l Q Am An v Hf E.
  - cbn [carlson_loop] in E. destruct (Rlt_dec (Rabs An) Q) as [|N] eqn:D; [discriminate|]. destruct fuel'; cbn [carlson_loop]; rewrite D; exact E.
  - destruct fuel' as [|fuel']; [lia|]. cbn [carlson_loop] in *. destruct (Rlt_dec (Rabs An) Q); [|exact E].
    destruct (sqrt_ (x * y + (x + y) * l + l * l)); [|discriminate|discriminate]. cbn [bind] in *. destruct (sqrt_ (x * z + (x + z) * l + l * l)); [|discriminate|discriminate]. cbn [bind] in *. destruct (sqrt_ (z * y + (z + y) * l + l * l)); [|discriminate|discriminate]. cbn [bind] in *.
    apply IH; [lia|exact E].
Qed.
Lemma carlson_mono eps fuel fuel' x y z v : (fuel <= fuel')%nat -> CarlsonRF eps fuel x y z = Ok v -> CarlsonRF eps fuel' x y z = Ok v.
Proof.
  intros Hf E. unfold CarlsonRF in *. destruct (2 <=? is_zero x + is_zero y + is_zero z)%Z; [exact E|]. destruct (carlson_loop fuel _ _ _ _ _ _ _) as [w| |] eqn:L; [|discriminate|discriminate]. cbn [bind] in E. apply (carlson_loop_mono _ fuel') in L; [|exact Hf]. rewrite L. exact E.
Qed.
