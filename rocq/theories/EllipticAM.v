(** The arithmetic-geometric mean, Landen's transformation and the amplitude function (used by C57). *)
From Coq Require Import Reals Lra Lia ZArith List Bool.
From Coquelicot Require Import Rcomplements Rbar Hierarchy Continuity Derive RInt RInt_analysis AutoDerive ElemFct.
From Verif Require Import Base BaseFacts Complex EllipticModel EllipticSpec.
Open Scope R_scope.

(** ** The integral with parameters a, b *)
Definition rad (a b t : R) : R := a * a * (cos t * cos t) + b * b * (sin t * sin t).
Definition Iab (a b phi : R) : R := RInt (fun t => / sqrt (rad a b t)) 0 phi.

Lemma rad_bounds a b t : 0 < b <= a -> b * b <= rad a b t <= a * a.
Proof.
  intros H. unfold rad. pose proof (sin2_cos2 t) as T. unfold Rsqr in T. pose proof (Rle_0_sqr (sin t)) as S. pose proof (Rle_0_sqr (cos t)) as U. unfold Rsqr in S, U.
  assert (b * b <= a * a) by nra. split; nra.
Qed.
Lemma rad_pos a b t : 0 < b <= a -> 0 < rad a b t.
Proof. intros H. pose proof (rad_bounds a b t H). nra. Qed.
Lemma rad_cont a b t : 0 < b <= a -> continuous (fun t => / sqrt (rad a b t)) t.
Proof.
  intros H. apply (ex_derive_continuous (K := R_AbsRing) (V := R_NormedModule)). unfold rad. auto_derive. pose proof (rad_pos a b t H) as P. unfold rad in P. split; [exact P|]. split; [|exact Logic.I].
  apply Rgt_not_eq, sqrt_lt_R0, P.
Qed.
Lemma Iab_derive a b phi : 0 < b <= a -> is_derive (Iab a b) phi (/ sqrt (rad a b phi)).
Proof.
  intros H. unfold Iab. apply (is_derive_RInt (fun t => / sqrt (rad a b t)) _ 0).
  - apply filter_forall. intros x. apply (RInt_correct (V := R_CompleteNormedModule)), (ex_RInt_continuous (V := R_CompleteNormedModule)). intros t _. now apply rad_cont.
  - now apply rad_cont.
Qed.
Lemma Iab_0 a b : Iab a b 0 = 0. Proof. unfold Iab. apply (RInt_point (V := R_CompleteNormedModule)). Qed.

(** a function with zero derivative everywhere is constant *)
Lemma const_of_derive f : (forall t, is_derive f t 0) -> forall x, f x = f 0.
Proof.
  intros H x. destruct (Rtotal_order x 0) as [L|[->|L]]; [|reflexivity|].
  - apply (eq_is_derive (V := R_NormedModule) f x 0); [intros t _; apply H|exact L].
  - symmetry. apply (eq_is_derive (V := R_NormedModule) f 0 x); [intros t _; apply H|exact L].
Qed.

Lemma is_derive_asin x : -1 < x < 1 -> is_derive asin x (/ sqrt (1 - x * x)).
Proof.
  intros H. apply is_derive_Reals. pose proof (derive_pt_asin x H) as E. unfold derive_pt, derivable_pt in E. destruct (derivable_pt_asin x H) as [l L]; simpl in E. unfold Rsqr in E.
  replace (/ sqrt (1 - x * x)) with l; [exact L|]. rewrite E. unfold Rdiv. ring.
Qed.
(** ** Landen's transformation *)
Definition landen (s phi : R) : R := (phi + asin (s * sin phi)) / 2.
Lemma landen_step a b : 0 < b <= a -> let a1 := (a + b) / 2 in let g := sqrt (a * b) in let s := ((a - b) / 2) / a1 in
  forall phi, Iab a b (landen s phi) = Iab a1 g phi / 2.
Proof.
  intros H a1 g s. assert (A1 : 0 < a1) by (unfold a1; lra). assert (AB : 0 < a * b) by nra. assert (G : 0 < g) by now apply sqrt_lt_R0.
  assert (Gs : g * g = a * b) by (unfold g; rewrite sqrt_sqrt; lra).
  assert (Ga : 0 < g <= a1). { split; [exact G|]. apply Rsqr_incr_0; [|lra|lra]. unfold Rsqr. rewrite Gs. unfold a1. pose proof (Rle_0_sqr (a - b)) as Q. unfold Rsqr in Q. lra. }
  assert (S0 : 0 <= s < 1). { unfold s. split; [apply Rle_mult_inv_pos; [lra|exact A1]|]. apply (Rmult_lt_reg_r a1); [exact A1|]. unfold Rdiv. rewrite Rmult_assoc, Rinv_l by lra. unfold a1. lra. }
  assert (Ea : a = a1 * (1 + s)) by (unfold s; field_simplify; [unfold a1; field|lra]). assert (Eb : b = a1 * (1 - s)) by (unfold s; field_simplify; [unfold a1; field|lra]).
  assert (D : forall t, is_derive (fun u => Iab a b (landen s u) - Iab a1 g u / 2) t 0).
  { intros t. set (al := asin (s * sin t)).
    assert (St : -1 < s * sin t < 1). { pose proof (SIN_bound t). split; nra. }
    assert (Sal : sin al = s * sin t) by (apply sin_asin; lra).
    assert (Cal : cos al = sqrt (1 - s * sin t * (s * sin t))). { unfold al. rewrite cos_asin by lra. unfold Rsqr. reflexivity. }
    assert (P1 : 0 < 1 - s * sin t * (s * sin t)) by nra. assert (Cp : 0 < cos al) by (rewrite Cal; now apply sqrt_lt_R0).
    assert (C2 : cos al * cos al = 1 - s * sin t * (s * sin t)) by (rewrite Cal, sqrt_sqrt; lra).
    pose proof (sin2_cos2 t) as T. unfold Rsqr in T.
    assert (Q : 0 < cos al + s * cos t).
    { apply Rnot_le_lt. intros N. assert (s * s * (cos t * cos t) >= cos al * cos al) by nra. assert (s * s < 1) by nra. nra. }
    assert (L' : is_derive (landen s) t ((cos al + s * cos t) / (2 * cos al))).
    { unfold landen. evar_last.
      - apply (is_derive_ext (fun u => scal (/ 2) (plus u (asin (s * sin u))))). { intros u. unfold scal, plus; simpl. unfold mult; simpl. field. }
        apply (is_derive_scal (fun u => plus u (asin (s * sin u))) t (/ 2)). apply (is_derive_plus (V := R_NormedModule)); [apply (is_derive_id (K := R_AbsRing))|].
        apply (is_derive_comp (V := R_NormedModule) asin (fun u => s * sin u)); [apply is_derive_asin; exact St|]. auto_derive; [exact Logic.I|reflexivity].
      - unfold scal, plus, one; simpl. unfold mult; simpl. rewrite Cal. unfold Rsqr. field. rewrite <- Cal. lra. }
    assert (R1 : sqrt (rad a b (landen s t)) = a1 * (cos al + s * cos t)).
    { transitivity (sqrt ((a1 * (cos al + s * cos t)) * (a1 * (cos al + s * cos t)))); [|apply sqrt_square; nra]. f_equal.
      assert (E2 : landen s t = (t + al) / 2) by reflexivity. set (h := landen s t) in *.
      assert (C2h : cos (2 * h) = cos t * cos al - sin t * (s * sin t)) by (rewrite E2; replace (2 * ((t + al) / 2)) with (t + al) by field; now rewrite cos_plus, Sal).
      rewrite cos_2a in C2h. pose proof (sin2_cos2 h) as Th. unfold Rsqr in Th. unfold rad.
      assert (Ch : cos h * cos h = (1 + (cos t * cos al - sin t * (s * sin t))) / 2) by lra. assert (Sh : sin h * sin h = (1 - (cos t * cos al - sin t * (s * sin t))) / 2) by lra.
      rewrite Ch, Sh, Ea, Eb.
      transitivity (a1 * a1 * (1 + s * s + 2 * s * (cos t * cos al - sin t * (s * sin t)))); [field|].
      transitivity (a1 * a1 * (cos al * cos al + 2 * s * (cos t * cos al) + s * s * (cos t * cos t))); [|ring]. rewrite C2. replace (cos t * cos t) with (1 - sin t * sin t) by lra. ring. }
    assert (R2 : sqrt (rad a1 g t) = a1 * cos al).
    { transitivity (sqrt ((a1 * cos al) * (a1 * cos al))); [|apply sqrt_square; nra]. f_equal. unfold rad. rewrite Gs, Ea, Eb. transitivity (a1 * a1 * (cos al * cos al)); [|ring]. rewrite C2. replace (cos t * cos t) with (1 - sin t * sin t) by lra. ring. }
    evar_last.
    - apply (is_derive_minus (V := R_NormedModule)).
      + apply (is_derive_comp (V := R_NormedModule) (Iab a b) (landen s)); [now apply Iab_derive|exact L'].
      + apply (is_derive_ext (fun u => scal (/ 2) (Iab a1 g u))). { intros u. unfold scal; simpl. unfold mult; simpl. field. } apply (is_derive_scal (Iab a1 g) t (/ 2)). now apply Iab_derive.
    - rewrite R1, R2. unfold scal, minus, plus, opp; simpl. unfold mult; simpl. field. repeat split; lra. }
  intros phi. pose proof (const_of_derive _ D phi) as E. cbv beta in E. assert (L0 : landen s 0 = 0) by (unfold landen; rewrite sin_0, Rmult_0_r, asin_0; field). rewrite L0, !Iab_0 in E. lra.
Qed.

(** ** Bounds of the integral *)
Lemma derive_div a x : is_derive (fun u : R => u / a) x (/ a).
Proof. evar_last. { auto_derive; [exact Logic.I|reflexivity]. } apply Rmult_1_l. Qed.
Lemma Iab_near a b phi : 0 < b <= a -> Rabs (Iab a b phi - phi / a) <= Rabs phi * (/ b - / a).
Proof.
  intros H. destruct (MVT_gen (fun u => Iab a b u - u / a) 0 phi (fun u => / sqrt (rad a b u) - / a)) as (c & _ & E).
  - intros x _. evar_last. { apply (is_derive_minus (V := R_NormedModule) (Iab a b) (fun u : R => u / a)); [now apply Iab_derive|apply derive_div]. }
    unfold minus, plus, opp, scal, one; simpl. unfold mult; simpl. ring.
  - intros x _. apply continuity_pt_filterlim. apply (ex_derive_continuous (K := R_AbsRing) (V := R_NormedModule) (fun u => Iab a b u - u / a)). exists (/ sqrt (rad a b x) - / a). evar_last.
    { apply (is_derive_minus (V := R_NormedModule) (Iab a b) (fun u : R => u / a)); [now apply Iab_derive|apply derive_div]. }
    unfold minus, plus, opp, scal, one; simpl. unfold mult; simpl. ring.
  - cbv beta in E. rewrite Iab_0 in E. replace (Iab a b phi - phi / a) with ((/ sqrt (rad a b c) - / a) * (phi - 0)) by lra. rewrite Rminus_0_r, Rabs_mult, Rmult_comm. apply Rmult_le_compat_l; [apply Rabs_pos|].
    pose proof (rad_bounds a b c H) as [B1 B2].
    assert (S1 : b <= sqrt (rad a b c)) by (apply Rle_trans with (sqrt (b * b)); [rewrite sqrt_square; lra|now apply sqrt_le_1_alt]). assert (S2 : sqrt (rad a b c) <= a) by (apply Rle_trans with (sqrt (a * a)); [now apply sqrt_le_1_alt|rewrite sqrt_square; lra]).
    assert (/ sqrt (rad a b c) <= / b) by (apply Rinv_le_contravar; lra). assert (/ a <= / sqrt (rad a b c)) by (apply Rinv_le_contravar; lra).
    rewrite Rabs_pos_eq; lra.
Qed.

(** ** The loops *)
Section Loops.
Variable eps : R.
Hypothesis Heps : 0 < eps <= 1.
Notation atR := (at0 (K := Rring)).
Lemma rdR (l : list R) i : (0 <= i < lenZ l)%Z -> rd l i = Ok (atR l i : R).
Proof. apply (rd_at0 (K := Rring)). Qed.

Lemma agm_mean a b : 0 < b <= a -> 0 < sqrt (a * b) <= (a + b) / 2 /\ sqrt (a * b) * sqrt (a * b) = a * b /\ b <= sqrt (a * b).
Proof.
  intros H. assert (AB : 0 < a * b) by nra. assert (G : 0 < sqrt (a * b)) by now apply sqrt_lt_R0. assert (S : sqrt (a * b) * sqrt (a * b) = a * b) by (rewrite sqrt_sqrt; lra).
  split; [|split; [exact S|]].
  - split; [exact G|]. apply Rsqr_incr_0; [|lra|lra]. unfold Rsqr. rewrite S. pose proof (Rle_0_sqr (a - b)) as Q. unfold Rsqr in Q. lra.
  - apply Rsqr_incr_0; [|lra|lra]. unfold Rsqr. rewrite S. nra.
Qed.

Lemma agm_phi kp : eps <= 32 * kp -> forall fuel a b c fs n aN fs' N, agm_loop eps fuel a b c fs n = Ok (aN, fs', N) -> lenZ fs = 32%Z -> (0 <= n)%Z ->
  0 < b <= a -> kp <= a * b -> (Rabs c <= eps / 4 -> a <= b * (1 + eps)) ->
  lenZ fs' = 32%Z /\ (n <= N)%Z /\ (forall i, (0 <= i < n)%Z -> atR fs' i = atR fs i) /\
  exists bN, 0 < bN <= aN /\ aN <= bN * (1 + eps) /\
    forall psi, exists phi, phi_loop (Z.to_nat N) fs' psi = phi_loop (Z.to_nat n) fs' phi /\ Iab a b phi * 2 ^ Z.to_nat (N - n) = Iab aN bN psi.
Proof.
  intros Hk. induction fuel as [|fuel IH]; intros a b c fs n aN fs' N R L Hn H K Cl; cbn [agm_loop] in R.
  - destruct (Rlt_dec (eps / 4) (Rabs c)) as [|Nc]; [discriminate|]. injection R as <- <- <-. split; [exact L|]. split; [lia|]. split; [reflexivity|]. exists b. split; [exact H|]. split; [apply Cl; lra|].
    intros psi. exists psi. split; [reflexivity|]. rewrite Z.sub_diag. simpl. ring.
  - destruct (Rlt_dec (eps / 4) (Rabs c)) as [Lc|Nc].
    2: { injection R as <- <- <-. split; [exact L|]. split; [lia|]. split; [reflexivity|]. exists b. split; [exact H|]. split; [apply Cl; lra|].
         intros psi. exists psi. split; [reflexivity|]. rewrite Z.sub_diag. simpl. ring. }
    destruct (agm_mean a b H) as (G & Gs & Gb).
    unfold sqrt_ in R. destruct (Rle_dec 0 (a * b)) as [_|]; [|discriminate]. cbn [bind] in R. unfold fdiv_ in R. destruct (Req_EM_T ((a + b) / 2) 0) as [E0|_]; [exfalso; lra|]. cbn [bind] in R.
    destruct (Z_lt_dec n 32) as [Ln|]; [|unfold wr in R; replace ((0 <=? n) && (n <? lenZ fs))%Z with false in R by lia; discriminate].
    rewrite wr_ok in R by lia. cbn [bind] in R. unfold iterationLimit in R. destruct (Z.leb_spec 32 (n + 1)); [discriminate|].
    set (s := (a - b) / 2 / ((a + b) / 2)) in *.
    apply IH in R; [|rewrite lenZ_updZ by lia; exact L|lia|exact G|apply Rle_trans with (sqrt (a * b) * sqrt (a * b)); [rewrite Gs; exact K|apply Rmult_le_compat_r; lra]|].
    2: { intros Cs. assert (H1 : Rabs ((a - b) / 2) = (a - b) / 2) by (apply Rabs_pos_eq; lra). rewrite H1 in Cs.
         set (g := sqrt (a * b)) in *. set (a1 := (a + b) / 2) in *.
         assert (D : (a1 - g) * (a1 + g) = (a - b) / 2 * ((a - b) / 2)) by (unfold a1; nra).
         assert (D2 : (a1 - g) * (2 * g) <= eps / 4 * (eps / 4)) by nra.
         assert (D3 : (a1 - g) * (2 * g) <= eps * (2 * (g * g))). { eapply Rle_trans; [exact D2|]. rewrite Gs. nra. }
         nra. }
    destruct R as (L' & NN & Ag & bN & B1 & B2 & B3). split; [exact L'|]. split; [lia|]. split.
    { intros i Hi. rewrite Ag by lia. rewrite (at0_updZ (K := Rring)) by (assert (LK : @lenZ (car Rring) fs = 32%Z) by exact L; lia). destruct (Z.eqb_spec i n); [lia|reflexivity]. }
    exists bN. split; [exact B1|]. split; [exact B2|]. intros psi. destruct (B3 psi) as (p1 & P1 & P2).
    replace (Z.to_nat (n + 1)) with (S (Z.to_nat n)) in P1 by lia. cbn [phi_loop] in P1. rewrite Z2Nat.id in P1 by lia. rewrite rdR in P1 by lia. cbn [bind] in P1.
    assert (F : (atR fs' n : R) = s). { rewrite Ag by lia. rewrite (at0_updZ (K := Rring)) by (assert (LK : @lenZ (car Rring) fs = 32%Z) by exact L; lia). now rewrite Z.eqb_refl. } rewrite F in P1.
    assert (S0 : 0 <= s < 1). { unfold s. split; [apply Rle_mult_inv_pos; lra|]. apply (Rmult_lt_reg_r ((a + b) / 2)); [lra|]. unfold Rdiv at 1. rewrite Rmult_assoc, Rinv_l by lra. lra. }
    unfold asin_ in P1. destruct (Rle_dec (Rabs (s * sin p1)) 1) as [_|Nn].
    2: { exfalso. apply Nn. rewrite Rabs_mult. pose proof (SIN_bound p1). assert (Rabs (sin p1) <= 1) by (apply Rabs_le; lra). rewrite (Rabs_pos_eq s) by lra. pose proof (Rabs_pos (sin p1)). nra. }
    cbn [bind] in P1. exists (landen s p1). split; [exact P1|].
    rewrite <- P2. replace (Z.to_nat (N - n)) with (S (Z.to_nat (N - (n + 1)))) by lia. cbn [pow]. pose proof (landen_step a b H p1) as LS. cbv zeta in LS. fold s in LS. rewrite LS. field.
Qed.

(** *** Termination *)
Fixpoint agm_rank (m : nat) (a b : R) : Prop := match m with O => a - b <= eps / 2 | S m => agm_rank m ((a + b) / 2) (sqrt (a * b)) end.
Lemma agm_total m : forall fuel a b c fs n, agm_rank m a b -> 0 < b <= a -> lenZ fs = 32%Z -> (0 <= n)%Z -> (n + Z.of_nat m + 1 < 32)%Z -> (m + 2 <= fuel)%nat ->
  exists aN fs' N, agm_loop eps fuel a b c fs n = Ok (aN, fs', N) /\ (N <= n + Z.of_nat m + 1)%Z.
Proof.
  assert (Stop : forall fuel a b c fs n, ~ eps / 4 < Rabs c -> agm_loop eps fuel a b c fs n = Ok (a, fs, n)).
  { intros fuel a b c fs n Hc. destruct fuel; cbn [agm_loop]; (destruct (Rlt_dec (eps / 4) (Rabs c)); [tauto|reflexivity]). }
  assert (Step : forall fuel a b c fs n, eps / 4 < Rabs c -> 0 < b <= a -> lenZ fs = 32%Z -> (0 <= n < 31)%Z -> exists fs1, lenZ fs1 = 32%Z /\
    agm_loop eps (S fuel) a b c fs n = agm_loop eps fuel ((a + b) / 2) (sqrt (a * b)) ((a - b) / 2) fs1 (n + 1)).
  { intros fuel a b c fs n Hc H L Hn. exists (updZ fs n ((a - b) / 2 / ((a + b) / 2))). split; [rewrite lenZ_updZ by lia; exact L|]. cbn [agm_loop]. destruct (Rlt_dec (eps / 4) (Rabs c)); [|tauto].
    unfold sqrt_. destruct (Rle_dec 0 (a * b)) as [_|Q]; [|exfalso; apply Q; nra]. cbn [bind]. unfold fdiv_. destruct (Req_EM_T ((a + b) / 2) 0) as [E0|_]; [exfalso; lra|]. cbn [bind]. rewrite wr_ok by lia. cbn [bind].
    unfold iterationLimit. destruct (Z.leb_spec 32 (n + 1)); [lia|]. reflexivity. }
  induction m as [|m IH]; intros fuel a b c fs n Rk H L Hn Hm Hf.
  - destruct (Rlt_dec (eps / 4) (Rabs c)) as [Lc|Nc]; [|exists a, fs, n; split; [now apply Stop|lia]].
    destruct fuel as [|fuel]; [lia|]. destruct (Step fuel a b c fs n Lc H L) as (fs1 & L1 & E); [lia|]. rewrite E.
    do 3 eexists. split; [apply Stop|lia]. cbn [agm_rank] in Rk. rewrite Rabs_pos_eq; lra.
  - destruct (Rlt_dec (eps / 4) (Rabs c)) as [Lc|Nc]; [|exists a, fs, n; split; [now apply Stop|lia]].
    destruct fuel as [|fuel]; [lia|]. destruct (Step fuel a b c fs n Lc H L) as (fs1 & L1 & E); [lia|]. rewrite E. cbn [agm_rank] in Rk. destruct (agm_mean a b H) as (G & _).
    destruct (IH fuel ((a + b) / 2) (sqrt (a * b)) ((a - b) / 2) fs1 (n + 1)%Z Rk G L1) as (aN & fs' & N & E1 & E2); [lia|lia|lia|]. exists aN, fs', N. split; [exact E1|lia].
Qed.
End Loops.

Lemma rank_hi eps m : forall a b e, 0 < b <= a -> a <= 1 -> a - b <= a * e -> 0 <= e -> e ^ (2 ^ m) <= eps / 2 -> agm_rank eps m a b.
Proof.
  induction m as [|m IH]; intros a b e H A D E P; cbn [agm_rank].
  - cbn [Nat.pow pow] in P. nra.
  - destruct (agm_mean a b H) as (G & Gs & Gb). apply (IH _ _ (e * e)); [exact G|lra| |nra|].
    + set (g := sqrt (a * b)) in *. set (a1 := (a + b) / 2) in *.
      assert (X : (a1 - g) * (a1 + g) = (a - b) / 2 * ((a - b) / 2)) by (unfold a1; nra).
      assert (Y : (a - b) * (a - b) <= a * e * (a * e)) by nra.
      assert (Z : a / 2 <= a1) by (unfold a1; lra).
      assert (a1 - g <= (a1 - g) * (a1 + g) / a1). { unfold Rdiv. rewrite Rmult_assoc. rewrite <- (Rmult_1_r (a1 - g)) at 1. apply Rmult_le_compat_l; [lra|]. apply (Rmult_le_reg_r a1); [lra|]. rewrite Rmult_assoc, Rinv_l by lra. lra. }
      eapply Rle_trans; [exact H0|]. rewrite X. apply (Rmult_le_reg_r a1); [lra|]. unfold Rdiv at 1. rewrite Rmult_assoc, Rinv_l, Rmult_1_r by lra.
      apply Rle_trans with (a * e * (a * e) / 4); [lra|]. assert (0 <= e * e) by nra. assert (a * a / 4 <= a1 * a1) by nra. nra.
    + replace (e * e) with (e ^ 2) by ring. rewrite <- pow_mult. exact P.
Qed.
Lemma rank_lo eps m j : forall a b r, 0 < b <= a -> a <= 1 -> 0 < r -> a * r ^ (2 ^ j) <= b -> 0 <= 1 - r -> (1 - r) ^ (2 ^ m) <= eps / 2 -> agm_rank eps (j + m) a b.
Proof.
  induction j as [|j IH]; intros a b r H A Hr L R1 P; cbn [Nat.add agm_rank].
  - apply (rank_hi eps m a b (1 - r)); [exact H|exact A| |exact R1|exact P]. cbn [Nat.pow pow] in L. lra.
  - destruct (agm_mean a b H) as (G & Gs & Gb). apply (IH _ _ r); [exact G|lra|exact Hr| |exact R1|exact P].
    assert (Q : 0 < r ^ (2 ^ j)) by now apply pow_lt. assert (E : r ^ (2 ^ S j) = r ^ (2 ^ j) * r ^ (2 ^ j)). { rewrite <- pow_add. f_equal. cbn [Nat.pow]. lia. } rewrite E in L.
    set (q := r ^ (2 ^ j)) in *. apply Rle_trans with (a * q); [apply Rmult_le_compat_r; lra|]. apply Rsqr_incr_0; [|nra|lra]. unfold Rsqr. rewrite Gs. nra.
Qed.

(** ** The amplitude *)
Lemma legendre_Iab k phi : 0 <= k < 1 -> legendre_F k phi = Iab 1 (sqrt (1 - k * k)) phi.
Proof.
  intros H. unfold legendre_F, Iab. apply (RInt_ext (V := R_CompleteNormedModule)). intros t _. f_equal. f_equal. unfold rad. rewrite sqrt_sqrt by nra. pose proof (sin2_cos2 t) as T. unfold Rsqr in T. replace (cos t * cos t) with (1 - sin t * sin t) by lra. ring.
Qed.
Lemma kp_bounds eps k : 0 < eps <= 1 -> 0 <= k <= 1 - eps / 2 -> eps / 2 <= sqrt (1 - k * k) <= 1 /\ sqrt (1 - k * k) * sqrt (1 - k * k) = 1 - k * k.
Proof.
  intros He H. assert (P : eps / 2 <= 1 - k * k) by nra. assert (S : sqrt (1 - k * k) * sqrt (1 - k * k) = 1 - k * k) by (apply sqrt_sqrt; lra). pose proof (sqrt_pos (1 - k * k)). split; [|exact S].
  assert (sqrt (1 - k * k) <= 1) by nra. split; nra.
Qed.
Lemma am_of_loop eps fs x k aN fs' N : 0 < eps <= 1 -> 0 < k <= 1 - eps / 2 -> lenZ fs = 32%Z -> agm_loop eps 33 1 (sqrt (1 - k * k)) ((1 - sqrt (1 - k * k)) / 2) fs 0 = Ok (aN, fs', N) -> (N < 31)%Z ->
  exists phi, EllipticAM eps fs x k = Ok phi /\ Rabs (legendre_F k phi - x) <= eps * Rabs x.
Proof.
  intros E0 H L E1 E2. destruct (kp_bounds eps k E0) as (B & S); [lra|]. set (kp := sqrt (1 - k * k)) in *.
  assert (Hb : 0 < kp <= 1) by lra.
  destruct (agm_phi eps E0 kp ltac:(lra) 33 1 kp ((1 - kp) / 2) fs 0%Z aN fs' N E1 L ltac:(lia) Hb ltac:(lra)) as (L' & NN & _ & bN & B1 & B2 & B3).
  { intros Q. rewrite Rabs_pos_eq in Q by lra. nra. }
  destruct (B3 (IZR (2 ^ N) * aN * x)) as (phi & P1 & P2). exists phi. split.
  - unfold EllipticAM. destruct (Rle_dec 0 k); [|lra]. destruct (Rle_dec k 1); [|lra]. cbn [andb assert_]. destruct (Req_EM_T k 1); [lra|]. destruct (Req_EM_T k 0); [lra|].
    unfold sqrt_. destruct (Rle_dec 0 (1 - k * k)); [|nra]. cbn [bind]. fold kp. rewrite E1. cbn [bind]. unfold shl_int. replace ((0 <=? N) && (N <? 31))%Z with true by lia. cbn [bind]. rewrite P1. reflexivity.
  - rewrite legendre_Iab by lra. fold kp. rewrite Z.sub_0_r in P2.
    assert (PW : IZR (2 ^ N) = 2 ^ Z.to_nat N). { rewrite <- (Z2Nat.id N) at 1 by lia. rewrite <- pow_IZR. reflexivity. }
    set (w := 2 ^ Z.to_nat N) in *. assert (W : 0 < w) by (apply pow_lt; lra). rewrite PW in P2.
    pose proof (Iab_near aN bN (w * aN * x) B1) as Nr. rewrite <- P2 in Nr. replace (w * aN * x / aN) with (w * x) in Nr by (field; lra).
    replace (Iab 1 kp phi * w - w * x) with (w * (Iab 1 kp phi - x)) in Nr by ring. rewrite !Rabs_mult, (Rabs_pos_eq w), (Rabs_pos_eq aN) in Nr by lra.
    assert (Q : Rabs (Iab 1 kp phi - x) <= Rabs x * (aN * (/ bN - / aN))) by (apply (Rmult_le_reg_l w); [exact W|]; lra).
    eapply Rle_trans; [exact Q|]. rewrite Rmult_comm. apply Rmult_le_compat_r; [apply Rabs_pos|].
    replace (aN * (/ bN - / aN)) with ((aN - bN) / bN) by (field; lra). apply (Rmult_le_reg_r bN); [lra|]. unfold Rdiv. rewrite Rmult_assoc, Rinv_l by lra. lra.
Qed.

Lemma am_main eps fs x k : / 2 ^ 127 <= eps <= 1 -> 0 < k <= 1 - eps / 2 -> lenZ fs = 32%Z ->
  exists phi, EllipticAM eps fs x k = Ok phi /\ Rabs (legendre_F k phi - x) <= eps * Rabs x.
Proof.
  intros He H L. assert (E0 : 0 < eps <= 1). { split; [|lra]. eapply Rlt_le_trans; [|apply He]. apply Rinv_0_lt_compat, pow_lt. lra. }
  destruct (kp_bounds eps k E0) as (B & S); [lra|]. set (kp := sqrt (1 - k * k)) in *.
  assert (Hb : 0 < kp <= 1) by lra.
  destruct (agm_total eps E0 15 33 1 kp ((1 - kp) / 2) fs 0%Z) as (aN & fs' & N & E1 & E2); [|exact Hb|exact L|lia|lia|lia|].
  { assert (P128 : (1 - 1 / 2) ^ (2 ^ 7) <= eps / 2). { replace (1 - 1 / 2) with (/ 2) by field. rewrite pow_inv. change (Nat.pow 2 7) with (Datatypes.S 127). rewrite <- (tech_pow_Rmult 2 127). rewrite Rinv_mult. set (w := / (2 ^ 127)) in *. lra. }
    apply (rank_lo eps 7 8 1 kp (1 / 2)); [exact Hb|lra|lra| |lra|exact P128].
    rewrite Rmult_1_l. eapply Rle_trans; [|apply B]. apply Rle_trans with ((1 / 2) ^ (2 ^ 7)); [|replace (1 - 1 / 2) with (1 / 2) in P128 by field; exact P128].
    change (Nat.pow 2 8) with (128 + 128)%nat. change (Nat.pow 2 7) with 128%nat. rewrite pow_add. rewrite <- (Rmult_1_r ((1 / 2) ^ 128)) at 3. apply Rmult_le_compat_l; [apply pow_le; lra|]. rewrite <- (pow1 128). apply pow_incr. lra. }
  exact (am_of_loop eps fs x k aN fs' N E0 H L E1 ltac:(lia)).
Qed.
(** the loop does not depend on x: if it succeeds once it always does, whatever the tolerance *)
Lemma am_again eps fs x k x0 phi0 : 0 < eps <= 1 -> 0 < k <= 1 - eps / 2 -> lenZ fs = 32%Z -> EllipticAM eps fs x0 k = Ok phi0 ->
  exists phi, EllipticAM eps fs x k = Ok phi /\ Rabs (legendre_F k phi - x) <= eps * Rabs x.
Proof.
  intros E0 H L E. unfold EllipticAM in E. destruct (Rle_dec 0 k); [|lra]. destruct (Rle_dec k 1); [|lra]. cbn [andb assert_] in E. destruct (Req_EM_T k 1); [lra|]. destruct (Req_EM_T k 0); [lra|].
  unfold sqrt_ in E. destruct (Rle_dec 0 (1 - k * k)); [|nra]. cbn [bind] in E. destruct (agm_loop eps 33 1 (sqrt (1 - k * k)) ((1 - sqrt (1 - k * k)) / 2) fs 0) as [[[aN fs'] N]| |] eqn:E1; [|discriminate|discriminate]. cbn [bind] in E. unfold shl_int in E. destruct ((0 <=? N)%Z && (N <? 31)%Z) eqn:E2; [|discriminate].
  exact (am_of_loop eps fs x k aN fs' N E0 H L E1 ltac:(lia)).
Qed.

(** the integral grows at least as fast as the angle *)
Lemma legendre_expands k p q : 0 <= k < 1 -> Rabs (p - q) <= Rabs (legendre_F k p - legendre_F k q).
Proof.
  intros H. rewrite !legendre_Iab by exact H. set (kp := sqrt (1 - k * k)). assert (K : 0 < kp <= 1). { unfold kp. split; [apply sqrt_lt_R0; nra|]. apply Rle_trans with (sqrt 1); [apply sqrt_le_1_alt; nra|rewrite sqrt_1; lra]. }
  destruct (MVT_gen (Iab 1 kp) q p (fun u => / sqrt (rad 1 kp u))) as (c & _ & E).
  - intros x _. now apply Iab_derive.
  - intros x _. apply continuity_pt_filterlim. apply (ex_derive_continuous (K := R_AbsRing) (V := R_NormedModule) (Iab 1 kp)). exists (/ sqrt (rad 1 kp x)). now apply Iab_derive.
  - rewrite E, Rabs_mult. pose proof (rad_bounds 1 kp c K) as [B1 B2]. assert (P : 0 < sqrt (rad 1 kp c)) by (apply sqrt_lt_R0, rad_pos; exact K). assert (Q : sqrt (rad 1 kp c) <= 1) by (apply Rle_trans with (sqrt 1); [apply sqrt_le_1_alt; lra|rewrite sqrt_1; lra]).
    assert (1 <= / sqrt (rad 1 kp c)) by (apply Rle_trans with (/ 1); [rewrite Rinv_1; lra|apply Rinv_le_contravar; lra]). rewrite (Rabs_pos_eq (/ _)) by lra. pose proof (Rabs_pos (p - q)). nra.
Qed.
Lemma legendre_0 phi : legendre_F 0 phi = phi.
Proof.
  unfold legendre_F. rewrite (RInt_ext (V := R_CompleteNormedModule) _ (fun _ => 1)). { rewrite (RInt_const (V := R_CompleteNormedModule)). unfold scal; simpl. unfold mult; simpl. ring. }
  intros t _. rewrite !Rmult_0_l, Rminus_0_r, sqrt_1. apply Rinv_1.
Qed.
(** the limiting case k = 1: the Gudermannian *)
Definition gd (x : R) : R := 2 * atan (exp x) - PI / 2.
Lemma gd_bound x : - (PI / 2) < gd x < PI / 2.
Proof. unfold gd. pose proof (atan_bound (exp x)). assert (0 < atan (exp x)) by (rewrite <- atan_0; apply atan_increasing, exp_pos). lra. Qed.
Lemma cos_gd x : cos (gd x) = 2 * exp x / (1 + exp x * exp x).
Proof.
  unfold gd. replace (2 * atan (exp x) - PI / 2) with (- (PI / 2 - 2 * atan (exp x))) by ring. rewrite cos_neg, cos_shift, sin_2a. rewrite sin_atan, cos_atan. unfold Rsqr.
  assert (P : 0 < 1 + exp x * exp x) by (pose proof (exp_pos x); nra). rewrite <- (sqrt_sqrt (1 + exp x * exp x)) at 3 by lra. field. apply Rgt_not_eq, sqrt_lt_R0, P.
Qed.
Lemma gd_derive x : is_derive gd x (cos (gd x)).
Proof.
  rewrite cos_gd. unfold gd. evar_last. { auto_derive; [exact Logic.I|reflexivity]. } pose proof (exp_pos x). field. nra.
Qed.
Lemma legendre_1_derive p : - (PI / 2) < p < PI / 2 -> is_derive (legendre_F 1) p (/ cos p).
Proof.
  intros H. assert (C : forall t, - (PI / 2) < t < PI / 2 -> / sqrt (1 - 1 * 1 * (sin t * sin t)) = / cos t).
  { intros t Ht. f_equal. pose proof (sin2_cos2 t) as T. unfold Rsqr in T. transitivity (sqrt (cos t * cos t)); [f_equal; lra|]. apply sqrt_square. apply Rlt_le, cos_gt_0; lra. }
  assert (D : forall t, - (PI / 2) < t < PI / 2 -> continuous (fun t => / sqrt (1 - 1 * 1 * (sin t * sin t))) t).
  { intros t Ht. apply (ex_derive_continuous (K := R_AbsRing) (V := R_NormedModule)). pose proof (sin2_cos2 t) as T. unfold Rsqr in T. assert (0 < cos t) by (apply cos_gt_0; lra).
    assert (Q : 0 < 1 + - (1 * 1 * (sin t * sin t))) by nra. auto_derive. split; [exact Q|]. split; [|exact Logic.I]. apply Rgt_not_eq, sqrt_lt_R0, Q. }
  rewrite <- (C p H). unfold legendre_F. apply (is_derive_RInt (fun t => / sqrt (1 - 1 * 1 * (sin t * sin t))) _ 0); [|now apply D].
  assert (P2 : 0 < PI / 2) by (pose proof PI_RGT_0; lra).
  assert (Hd : 0 < Rmin (p + PI / 2) (PI / 2 - p)) by (apply Rmin_pos; lra). exists (mkposreal _ Hd). intros y Hy. apply (RInt_correct (V := R_CompleteNormedModule)), (ex_RInt_continuous (V := R_CompleteNormedModule)).
  assert (Y : - (PI / 2) < y < PI / 2).
  { unfold ball, AbsRing_ball in Hy; simpl in Hy. unfold AbsRing_ball, abs, minus, plus, opp in Hy; simpl in Hy. pose proof (Rmin_l (p + PI / 2) (PI / 2 - p)). pose proof (Rmin_r (p + PI / 2) (PI / 2 - p)).
    apply Rabs_def2 in Hy. lra. }
  intros z Hz. apply D. unfold Rmin, Rmax in Hz. destruct (Rle_dec 0 y); lra.
Qed.
Lemma legendre_gd x : legendre_F 1 (gd x) = x.
Proof.
  assert (D : forall t, is_derive (fun u => legendre_F 1 (gd u) - u) t 0).
  { intros t. evar_last. { apply (is_derive_minus (V := R_NormedModule) (fun u => legendre_F 1 (gd u)) (fun u : R => u)); [|apply (is_derive_id (K := R_AbsRing))].
      apply (is_derive_comp (V := R_NormedModule) (legendre_F 1) gd); [apply legendre_1_derive, gd_bound|apply gd_derive]. }
    unfold minus, plus, opp, scal, one; simpl. unfold mult; simpl. assert (0 < cos (gd t)) by (pose proof (gd_bound t); apply cos_gt_0; lra). field. lra. }
  pose proof (const_of_derive _ D x) as E. cbv beta in E. assert (G0 : gd 0 = 0) by (unfold gd; rewrite exp_0, atan_1; field). rewrite G0 in E. unfold legendre_F in E at 2. rewrite (RInt_point (V := R_CompleteNormedModule)) in E. unfold zero in E; simpl in E. lra.
Qed.
