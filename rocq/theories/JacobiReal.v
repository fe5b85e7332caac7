(** Jacobi's elliptic functions of a real argument: derivatives, addition theorems, special values (used by C61). *)
From Coq Require Import Reals Lra Lia ZArith List Bool Psatz.
From Coquelicot Require Import Rcomplements Rbar Lub Hierarchy Continuity Derive RInt RInt_analysis AutoDerive ElemFct.
From Verif Require Import EllipticSpec EllipticAM EllipticInv EllipticJacobi.
Open Scope R_scope.

(** the amplitude as a function *)
Definition am (k u : R) : R := real (Lub_Rbar (fun p => legendre_F k p <= u)).
Definition sn k u := sin (am k u).
Definition cn k u := cos (am k u).
Definition dn k u := sqrt (1 - k * k * (sn k u * sn k u)).

Section Real.
Variable k : R.
Hypothesis Hk : 0 <= k < 1.
Lemma F_strict p q : p < q -> legendre_F k p < legendre_F k q.
Proof.
  intros L. rewrite !legendre_Iab by exact Hk. set (kp := sqrt (1 - k * k)). assert (K : 0 < kp <= 1). { unfold kp. split; [apply sqrt_lt_R0; nra|]. apply Rle_trans with (sqrt 1); [apply sqrt_le_1_alt; nra|rewrite sqrt_1; lra]. }
  destruct (MVT_gen (Iab 1 kp) p q (fun u => / sqrt (rad 1 kp u))) as (c & _ & E).
  - intros x _. now apply Iab_derive.
  - intros x _. apply continuity_pt_filterlim. apply (ex_derive_continuous (K := R_AbsRing) (V := R_NormedModule) (Iab 1 kp)). exists (/ sqrt (rad 1 kp x)). now apply Iab_derive.
  - assert (P : 0 < / sqrt (rad 1 kp c)) by (apply Rinv_0_lt_compat, sqrt_lt_R0, rad_pos; exact K). pose proof (Rmult_lt_0_compat _ (q - p) P ltac:(lra)). lra.
Qed.
Lemma F_inj p q : legendre_F k p = legendre_F k q -> p = q.
Proof. intros E. destruct (Rtotal_order p q) as [L|[L|L]]; [|exact L|]; apply F_strict in L; lra. Qed.
Lemma am_unique u p : legendre_F k p = u -> am k u = p.
Proof.
  intros E. unfold am. rewrite (is_lub_Rbar_unique _ (Finite p)); [reflexivity|]. split.
  - intros q Q. cbn. destruct (Rle_dec q p) as [|N]; [assumption|]. pose proof (F_strict p q ltac:(lra)). lra.
  - intros b B. apply (B p). lra.
Qed.
Lemma am_spec u : legendre_F k (am k u) = u.
Proof. destruct (amplitude_total k u ltac:(lra)) as (p & E & _). now rewrite (am_unique u p E). Qed.
Lemma am_F p : am k (legendre_F k p) = p. Proof. now apply am_unique. Qed.
Lemma am_0 : am k 0 = 0. Proof. apply am_unique. apply legendre_F_0. Qed.
Lemma am_K : am k (legendre_K k) = PI / 2. Proof. now apply am_unique. Qed.
Lemma rad_pos' t : 0 < 1 - k * k * (sin t * sin t).
Proof. pose proof (SIN_bound t). assert (sin t * sin t <= 1) by nra. assert (0 <= sin t * sin t) by exact (Rle_0_sqr _). nra. Qed.
Lemma F_derive p : is_derive (legendre_F k) p (/ sqrt (1 - k * k * (sin p * sin p))).
Proof.
  apply (is_derive_ext (Iab 1 (sqrt (1 - k * k)))); [intros t; symmetry; now apply legendre_Iab|]. assert (K : 0 < sqrt (1 - k * k) <= 1). { split; [apply sqrt_lt_R0; nra|]. apply Rle_trans with (sqrt 1); [apply sqrt_le_1_alt; nra|rewrite sqrt_1; lra]. }
  replace (1 - k * k * (sin p * sin p)) with (rad 1 (sqrt (1 - k * k)) p); [now apply Iab_derive|]. unfold rad. replace (sqrt (1 - k * k) ^ 2) with (1 - k * k) by (cbn [pow]; rewrite Rmult_1_r, sqrt_sqrt by nra; reflexivity). pose proof (sin2_cos2 p) as Q. unfold Rsqr in Q. try (rewrite sqrt_sqrt by nra). nra.
Qed.
Lemma am_derive (u : R) : is_derive (am k) u (dn k u).
Proof.
  apply is_derive_Reals. intros e He. set (p := am k u). assert (Ep : legendre_F k p = u) by apply am_spec. pose proof (F_derive p) as D. apply is_derive_Reals in D. set (d := sqrt (1 - k * k * (sin p * sin p))) in *. assert (d0 : 0 < d) by (apply sqrt_lt_R0, rad_pos'). change (dn k u) with d.
  destruct (D (e / (2 * d))) as [del Hd]; [apply Rdiv_lt_0_compat; lra|]. exists del. intros h Hh Hlt. set (q := am k (u + h)). assert (Eq : legendre_F k q = u + h) by apply am_spec. fold p. set (r := q - p). assert (r0 : r <> 0) by (intros Z; assert (q = p) by (unfold r in Z; lra); congruence || (apply Hh; rewrite H in Eq; lra)).
  assert (rh : Rabs r <= Rabs h). { pose proof (legendre_expands k q p Hk) as X. rewrite Eq, Ep in X. replace (u + h - u) with h in X by ring. exact X. }
  specialize (Hd r r0 ltac:(lra)). replace (p + r) with q in Hd by (unfold r; ring). rewrite Eq, Ep in Hd. replace (u + h - u) with h in Hd by ring.
  replace (r / h - d) with (- (d * (r / h)) * (h / r - / d)) by (field; lra). rewrite Rabs_mult, Rabs_Ropp, Rabs_mult, (Rabs_pos_eq d) by lra. assert (B : Rabs (r / h) <= 1) by (unfold Rdiv; rewrite Rabs_mult, Rabs_inv; apply (Rle_div_l (Rabs r) 1 (Rabs h)); [now apply Rabs_pos_lt|lra]). pose proof (Rabs_pos (r / h)). pose proof (Rabs_pos (h / r - / d)).
  apply Rle_lt_trans with (d * 1 * Rabs (h / r - / d)); [apply Rmult_le_compat_r; [assumption|]; apply Rmult_le_compat_l; lra|]. apply Rlt_le_trans with (d * (e / (2 * d))); [rewrite Rmult_1_r; apply Rmult_lt_compat_l; lra|]. replace (d * (e / (2 * d))) with (e / 2) by (field; lra). lra.
Qed.
Lemma sc u : cn k u * cn k u = 1 - sn k u * sn k u.
Proof. unfold sn, cn. pose proof (sin2_cos2 (am k u)) as Q. unfold Rsqr in Q. lra. Qed.
Lemma dn2 u : dn k u * dn k u = 1 - k * k * (sn k u * sn k u).
Proof. unfold dn, sn. apply sqrt_sqrt. left. apply rad_pos'. Qed.
Lemma dn_pos u : 0 < dn k u. Proof. apply sqrt_lt_R0, rad_pos'. Qed.
Lemma sn_derive (u : R) : is_derive (sn k) u (cn k u * dn k u).
Proof. unfold sn. replace (cn k u * dn k u) with (dn k u * cn k u) by ring. apply (is_derive_comp sin (am k)); [apply is_derive_sin|apply am_derive]. Qed.
Lemma cn_derive (u : R) : is_derive (cn k) u (- sn k u * dn k u).
Proof. unfold cn. replace (- sn k u * dn k u) with (dn k u * - sn k u) by ring. apply (is_derive_comp cos (am k)); [apply is_derive_cos|apply am_derive]. Qed.
Lemma dn_derive (u : R) : is_derive (dn k) u (- k * k * sn k u * cn k u).
Proof.
  pose proof (sn_derive u) as S. pose proof (dn_pos u) as P. unfold dn at 1. assert (Ex : ex_derive (fun x => sn k x) u) by (exists (cn k u * dn k u); exact S). auto_derive; [repeat split; try exact Ex; try apply rad_pos'|]. assert (E : Derive (fun x => sn k x) u = cn k u * dn k u) by (apply is_derive_unique; exact S). rewrite E. change (1 + - (k * k * (sn k u * sn k u))) with (1 - k * k * (sn k u * sn k u)). fold (dn k u). field. lra.
Qed.

(** ** Addition *)
Lemma den_pos a b : 0 < 1 - k * k * (sn k a * sn k a) * (sn k b * sn k b).
Proof.
  pose proof (SIN_bound (am k a)). pose proof (SIN_bound (am k b)). unfold sn. assert (sin (am k a) * sin (am k a) <= 1) by nra. assert (sin (am k b) * sin (am k b) <= 1) by nra. assert (0 <= sin (am k a) * sin (am k a)) by exact (Rle_0_sqr _). assert (0 <= sin (am k b) * sin (am k b)) by exact (Rle_0_sqr _).
  assert (sin (am k a) * sin (am k a) * (sin (am k b) * sin (am k b)) <= 1) by nra. assert (0 <= sin (am k a) * sin (am k a) * (sin (am k b) * sin (am k b))) by nra. rewrite (Rmult_assoc (k * k)). nra.
Qed.
Lemma sn_0 : sn k 0 = 0. Proof. unfold sn. rewrite am_0 by exact Hk. apply sin_0. Qed.
Lemma cn_0 : cn k 0 = 1. Proof. unfold cn. rewrite am_0 by exact Hk. apply cos_0. Qed.
Lemma dn_0 : dn k 0 = 1. Proof. unfold dn. rewrite sn_0. rewrite Rmult_0_l, Rmult_0_r, Rminus_0_r. apply sqrt_1. Qed.
Section Add.
Variable c : R.
Let s1 u := sn k u. Let c1 u := cn k u. Let d1 u := dn k u.
Let s2 u := sn k (c - u). Let c2 u := cn k (c - u). Let d2 u := dn k (c - u).
Let D u := 1 - k * k * (s1 u * s1 u) * (s2 u * s2 u).
Lemma rev_derive (f : R -> R) (l u : R) : is_derive f (c - u) l -> is_derive (fun u => f (c - u)) u (- l).
Proof.
  intros H. replace (- l) with (scal (- 1) l) by (unfold scal; simpl; unfold mult; simpl; ring). apply (is_derive_comp f (fun u => c - u) u l (- 1) H). auto_derive; [exact I|ring].
Qed.
Lemma ratio_const (N : R -> R) (N' D' : R -> R) : (forall u, is_derive N u (N' u)) -> (forall u, is_derive D u (D' u)) -> (forall u, N' u * D u - N u * D' u = 0) -> forall u, N u / D u = N 0 / D 0.
Proof.
  intros HN HD E. apply const_of_derive. intros u. assert (P : D u <> 0) by (apply Rgt_not_eq, den_pos). replace 0 with ((N' u * D u - N u * D' u) / D u ^ 2) by (rewrite E; unfold Rdiv; ring). apply (is_derive_div N D u (N' u) (D' u) (HN u) (HD u) P).
Qed.
Lemma D_derive (u : R) : is_derive D u (- 2 * k * k * (s1 u * s2 u) * (c1 u * d1 u * s2 u - s1 u * (c2 u * d2 u))).
Proof.
  assert (S1 : is_derive s1 u (c1 u * d1 u)) by apply sn_derive. assert (S2 : is_derive s2 u (- (c2 u * d2 u))) by (apply rev_derive, sn_derive). unfold D. assert (X1 : ex_derive (fun x => s1 x) u) by (eexists; exact S1). assert (X2 : ex_derive (fun x => s2 x) u) by (eexists; exact S2).
  auto_derive; [repeat split; assumption|]. assert (E1 : Derive (fun x => s1 x) u = c1 u * d1 u) by (apply is_derive_unique; exact S1). assert (E2 : Derive (fun x => s2 x) u = - (c2 u * d2 u)) by (apply is_derive_unique; exact S2). rewrite E1, E2. ring.
Qed.
Lemma dmul (f g : R -> R) (u a b : R) : is_derive f u a -> is_derive g u b -> is_derive (fun t => f t * g t) u (a * g u + f u * b).
Proof. intros A B. exact (is_derive_mult f g u a b A B Rmult_comm). Qed.
Lemma dadd (f g : R -> R) (u a b : R) : is_derive f u a -> is_derive g u b -> is_derive (fun t => f t + g t) u (a + b).
Proof. intros A B. exact (is_derive_plus f g u a b A B). Qed.
Lemma dsub (f g : R -> R) (u a b : R) : is_derive f u a -> is_derive g u b -> is_derive (fun t => f t - g t) u (a - b).
Proof. intros A B. exact (is_derive_minus f g u a b A B). Qed.
Lemma dcst (a u : R) : is_derive (fun _ => a) u 0. Proof. apply (is_derive_const (V := R_NormedModule) a u). Qed.
Lemma ders u : is_derive s1 u (c1 u * d1 u) /\ is_derive c1 u (- s1 u * d1 u) /\ is_derive d1 u (- k * k * s1 u * c1 u) /\ is_derive s2 u (- (c2 u * d2 u)) /\ is_derive c2 u (- (- s2 u * d2 u)) /\ is_derive d2 u (- (- k * k * s2 u * c2 u)).
Proof. exact (conj (sn_derive u) (conj (cn_derive u) (conj (dn_derive u) (conj (rev_derive _ _ u (sn_derive (c - u))) (conj (rev_derive _ _ u (cn_derive (c - u))) (rev_derive _ _ u (dn_derive (c - u)))))))). Qed.
Lemma rels u : c1 u * c1 u = 1 - s1 u * s1 u /\ d1 u * d1 u = 1 - k * k * (s1 u * s1 u) /\ c2 u * c2 u = 1 - s2 u * s2 u /\ d2 u * d2 u = 1 - k * k * (s2 u * s2 u).
Proof. repeat split; [apply sc|apply dn2|apply sc|apply dn2]. Qed.
Lemma at0 : s1 0 = 0 /\ c1 0 = 1 /\ d1 0 = 1 /\ s2 0 = sn k c /\ c2 0 = cn k c /\ d2 0 = dn k c.
Proof. unfold s1, c1, d1, s2, c2, d2. rewrite sn_0, cn_0, dn_0, Rminus_0_r. repeat split. Qed.
Lemma sn_add_c u : s1 u * (c2 u * d2 u) + s2 u * (c1 u * d1 u) = sn k c * D u.
Proof.
  pose (N := fun u => s1 u * (c2 u * d2 u) + s2 u * (c1 u * d1 u)). assert (E : N u / D u = N 0 / D 0).
  { revert u. eapply (ratio_const N).
    - intros u. destruct (ders u) as (S1 & C1 & D1 & S2 & C2 & D2). exact (dadd _ _ u _ _ (dmul _ _ u _ _ S1 (dmul _ _ u _ _ C2 D2)) (dmul _ _ u _ _ S2 (dmul _ _ u _ _ C1 D1))).
    - intros u. apply D_derive.
    - intros u. cbv beta. destruct (rels u) as (R1 & R2 & R3 & R4). unfold N, D. ring [R1 R2 R3 R4]. }
  assert (P : D u <> 0) by (apply Rgt_not_eq, den_pos). change (N u = sn k c * D u). apply (f_equal (fun x => x * D u)) in E. unfold Rdiv at 1 in E. rewrite Rmult_assoc, Rinv_l, Rmult_1_r in E by exact P. rewrite E. f_equal. destruct at0 as (A1 & A2 & A3 & A4 & A5 & A6). unfold N, D. rewrite A1, A2, A3, A4. field.
Qed.
Lemma cn_add_c u : c1 u * c2 u - (s1 u * d1 u) * (s2 u * d2 u) = cn k c * D u.
Proof.
  pose (N := fun u => c1 u * c2 u - (s1 u * d1 u) * (s2 u * d2 u)). assert (E : N u / D u = N 0 / D 0).
  { revert u. eapply (ratio_const N).
    - intros u. destruct (ders u) as (S1 & C1 & D1 & S2 & C2 & D2). exact (dsub _ _ u _ _ (dmul _ _ u _ _ C1 C2) (dmul _ _ u _ _ (dmul _ _ u _ _ S1 D1) (dmul _ _ u _ _ S2 D2))).
    - intros u. apply D_derive.
    - intros u. cbv beta. destruct (rels u) as (R1 & R2 & R3 & R4). unfold N, D. ring [R1 R2 R3 R4]. }
  assert (P : D u <> 0) by (apply Rgt_not_eq, den_pos). change (N u = cn k c * D u). apply (f_equal (fun x => x * D u)) in E. unfold Rdiv at 1 in E. rewrite Rmult_assoc, Rinv_l, Rmult_1_r in E by exact P. rewrite E. f_equal. destruct at0 as (A1 & A2 & A3 & A4 & A5 & A6). unfold N, D. rewrite A1, A2, A3, A5. field.
Qed.
Lemma dn_add_c u : d1 u * d2 u - k * k * ((s1 u * c1 u) * (s2 u * c2 u)) = dn k c * D u.
Proof.
  pose (N := fun u => d1 u * d2 u - k * k * ((s1 u * c1 u) * (s2 u * c2 u))). assert (E : N u / D u = N 0 / D 0).
  { revert u. eapply (ratio_const N).
    - intros u. destruct (ders u) as (S1 & C1 & D1 & S2 & C2 & D2). exact (dsub _ _ u _ _ (dmul _ _ u _ _ D1 D2) (dmul _ _ u _ _ (dcst (k * k) u) (dmul _ _ u _ _ (dmul _ _ u _ _ S1 C1) (dmul _ _ u _ _ S2 C2)))).
    - intros u. apply D_derive.
    - intros u. cbv beta. destruct (rels u) as (R1 & R2 & R3 & R4). unfold N, D. ring [R1 R2 R3 R4]. }
  assert (P : D u <> 0) by (apply Rgt_not_eq, den_pos). change (N u = dn k c * D u). apply (f_equal (fun x => x * D u)) in E. unfold Rdiv at 1 in E. rewrite Rmult_assoc, Rinv_l, Rmult_1_r in E by exact P. rewrite E. f_equal. destruct at0 as (A1 & A2 & A3 & A4 & A5 & A6). unfold N, D. rewrite A1, A2, A3, A6. field.
Qed.
End Add.
(** the addition theorems *)
Definition den a b := 1 - k * k * (sn k a * sn k a) * (sn k b * sn k b).
Lemma sn_add a b : sn k (a + b) * den a b = sn k a * (cn k b * dn k b) + sn k b * (cn k a * dn k a).
Proof. pose proof (sn_add_c (a + b) a) as E. cbv beta in E. replace (a + b - a) with b in E by ring. symmetry. exact E. Qed.
Lemma cn_add a b : cn k (a + b) * den a b = cn k a * cn k b - (sn k a * dn k a) * (sn k b * dn k b).
Proof. pose proof (cn_add_c (a + b) a) as E. cbv beta in E. replace (a + b - a) with b in E by ring. symmetry. exact E. Qed.
Lemma dn_add a b : dn k (a + b) * den a b = dn k a * dn k b - k * k * ((sn k a * cn k a) * (sn k b * cn k b)).
Proof. pose proof (dn_add_c (a + b) a) as E. cbv beta in E. replace (a + b - a) with b in E by ring. symmetry. exact E. Qed.

(** ** Special values and symmetries *)
Notation K := (legendre_K k).
Lemma sn_K : sn k K = 1. Proof. unfold sn. rewrite am_K. apply sin_PI2. Qed.
Lemma cn_K : cn k K = 0. Proof. unfold cn. rewrite am_K. apply cos_PI2. Qed.
Lemma dn_K : dn k K = sqrt (1 - k * k). Proof. unfold dn. rewrite sn_K. f_equal. ring. Qed.
Lemma am_neg u : am k (- u) = - am k u.
Proof.
  apply am_unique. pose proof (am_spec u) as E. rewrite <- E at 2. generalize (am k u). intros p.
  assert (C : forall t, legendre_F k (- t) + legendre_F k t = legendre_F k (- 0) + legendre_F k 0).
  { apply (const_of_derive (fun t => legendre_F k (- t) + legendre_F k t)). intros t. replace 0 with (- (/ sqrt (1 - k * k * (sin (- t) * sin (- t)))) + / sqrt (1 - k * k * (sin t * sin t))); [|rewrite sin_neg; replace (- sin t * - sin t) with (sin t * sin t) by ring; ring].
    apply dadd; [|apply F_derive]. replace (- / sqrt (1 - k * k * (sin (- t) * sin (- t)))) with (scal (- 1) (/ sqrt (1 - k * k * (sin (- t) * sin (- t))))) by (unfold scal; simpl; unfold mult; simpl; ring). apply (is_derive_comp (legendre_F k) (fun t => - t)); [apply F_derive|]. auto_derive; [exact I|ring]. }
  specialize (C p). rewrite Ropp_0, legendre_F_0 in C. lra.
Qed.
Lemma sn_neg u : sn k (- u) = - sn k u. Proof. unfold sn. now rewrite am_neg, sin_neg. Qed.
Lemma cn_neg u : cn k (- u) = cn k u. Proof. unfold cn. now rewrite am_neg, cos_neg. Qed.
Lemma dn_neg u : dn k (- u) = dn k u. Proof. unfold dn. rewrite sn_neg. f_equal. ring. Qed.
Lemma den_pos' a b : 0 < den a b. Proof. apply den_pos. Qed.
Lemma kp_pos : 0 < 1 - k * k. Proof. nra. Qed.
Lemma sn_addK u : sn k (u + K) * dn k u = cn k u.
Proof.
  pose proof (sn_add u K) as E. unfold den in E. rewrite sn_K, cn_K, Rmult_0_l, Rmult_0_r, Rplus_0_l, Rmult_1_l, !Rmult_1_r in E. rewrite <- dn2 in E. pose proof (dn_pos u). apply (Rmult_eq_reg_r (dn k u)); [|lra]. lra.
Qed.
Lemma cn_addK u : cn k (u + K) * dn k u = - (sqrt (1 - k * k) * sn k u).
Proof.
  pose proof (cn_add u K) as E. unfold den in E. rewrite sn_K, cn_K, dn_K, Rmult_0_r, !Rmult_1_l, !Rmult_1_r in E. rewrite <- dn2 in E. pose proof (dn_pos u). apply (Rmult_eq_reg_r (dn k u)); [|lra]. lra.
Qed.
Lemma dn_addK u : dn k (u + K) * dn k u = sqrt (1 - k * k).
Proof.
  pose proof (dn_add u K) as E. unfold den in E. rewrite sn_K, cn_K, dn_K, !Rmult_0_r, !Rmult_1_r, Rminus_0_r in E. rewrite <- dn2 in E. pose proof (dn_pos u). apply (Rmult_eq_reg_r (dn k u)); [|lra]. lra.
Qed.
Lemma sn_add2K u : sn k (u + 2 * K) = - sn k u.
Proof.
  pose proof (sn_addK (u + K)) as E. replace (u + K + K) with (u + 2 * K) in E by ring. pose proof (cn_addK u) as E2. pose proof (dn_addK u) as E3. pose proof (dn_pos u) as P. pose proof (sqrt_lt_R0 _ kp_pos) as Q. apply (Rmult_eq_reg_r (sqrt (1 - k * k))); [|lra]. rewrite <- E3 at 1. rewrite <- Rmult_assoc, E, E2. ring.
Qed.
Lemma cn_add2K u : cn k (u + 2 * K) = - cn k u.
Proof.
  pose proof (cn_addK (u + K)) as E. replace (u + K + K) with (u + 2 * K) in E by ring. pose proof (sn_addK u) as E2. pose proof (dn_addK u) as E3. pose proof (dn_pos u) as P. pose proof (sqrt_lt_R0 _ kp_pos) as Q. apply (Rmult_eq_reg_r (sqrt (1 - k * k))); [|lra]. rewrite <- E3 at 1. rewrite <- Rmult_assoc, E. rewrite <- E2. ring.
Qed.
Lemma dn_add2K u : dn k (u + 2 * K) = dn k u.
Proof. unfold dn. rewrite sn_add2K. f_equal. ring. Qed.
(** ** Products and the inverse *)
Lemma sn_prod u a : sn k (u + a) * sn k (u - a) * den u a = sn k u * sn k u - sn k a * sn k a.
Proof.
  pose proof (sn_add u a) as E1. pose proof (sn_add u (- a)) as E2. rewrite cn_neg, dn_neg, sn_neg in E2. replace (den u (- a)) with (den u a) in E2 by (unfold den; rewrite sn_neg; ring). pose proof (den_pos' u a) as P. replace (u + - a) with (u - a) in E2 by ring.
  apply (Rmult_eq_reg_r (den u a)); [|lra]. replace (sn k (u + a) * sn k (u - a) * den u a * den u a) with ((sn k (u + a) * den u a) * (sn k (u - a) * den u a)) by ring. rewrite E1, E2. unfold den. pose proof (sc u) as R1. pose proof (sc a) as R2. pose proof (dn2 u) as R3. pose proof (dn2 a) as R4. ring [R1 R2 R3 R4].
Qed.
Lemma am_incr u v : u < v -> am k u < am k v.
Proof. intros H. destruct (Rlt_dec (am k u) (am k v)) as [|N]; [assumption|exfalso]. pose proof (am_spec u). pose proof (am_spec v). destruct (Req_dec (am k v) (am k u)) as [E|E]; [rewrite E in *; lra|]. pose proof (F_strict (am k v) (am k u) ltac:(lra)). lra. Qed.
Lemma sn_incr u v : - K <= u -> u < v -> v <= K -> sn k u < sn k v.
Proof.
  intros H1 H2 H3. pose proof (am_incr u v H2). assert (A : - (PI / 2) <= am k u). { rewrite <- am_K, <- am_neg. destruct H1 as [H1| <-]; [left; now apply am_incr|lra]. } assert (B : am k v <= PI / 2). { rewrite <- am_K. destruct H3 as [H3| ->]; [left; now apply am_incr|lra]. } apply sin_increasing_1; lra.
Qed.
Lemma K_pos' : 0 < K. Proof. unfold legendre_K. rewrite <- (legendre_F_0 k). apply F_strict. pose proof PI_RGT_0. lra. Qed.
Lemma sn_pos u : 0 < u <= K -> 0 < sn k u. Proof. intros H. rewrite <- sn_0. apply sn_incr; pose proof K_pos'; lra. Qed.
Lemma sn_lt1 u : - K < u < K -> -1 < sn k u < 1.
Proof. intros H. pose proof (sn_incr (- K) u ltac:(lra) ltac:(lra) ltac:(lra)) as A. pose proof (sn_incr u K ltac:(lra) ltac:(lra) ltac:(lra)) as B. rewrite sn_neg, sn_K in A. rewrite sn_K in B. lra. Qed.
Lemma sn_onto w : -1 <= w <= 1 -> exists u, - K <= u <= K /\ sn k u = w.
Proof.
  intros H. exists (legendre_F k (asin w)). unfold sn. rewrite am_F, sin_asin by exact H. split; [|reflexivity]. pose proof (asin_bound w) as B. assert (M : forall p q, p <= q -> legendre_F k p <= legendre_F k q) by (intros p q [L| ->]; [left; now apply F_strict|lra]). split; [|apply M, B]. replace (- K) with (legendre_F k (- (PI / 2))); [apply M, B|]. rewrite <- am_K, <- am_neg. apply am_spec.
Qed.
Lemma cn_pos u : - K < u < K -> 0 < cn k u.
Proof.
  intros H. unfold cn. apply cos_gt_0; rewrite <- am_K; [rewrite <- am_neg|]; apply am_incr; lra.
Qed.
End Real.
