(** The Dolph-Chebyshev window: its samples are the Fourier coefficients of T_M(beta cos(w/2)). *)
From Coq Require Import ZArith List Bool Lia Reals Lra.
From Verif Require Import Base BaseFacts Complex Dft KernelModel KernelProofs FftModel FftProofs PolyphaseModel ChebyProofs Cheby2Proofs PropsCheby WindowModel WindowProofs.
From Coq Require Import ZifyBool ZifyNat.
Import ListNotations.
Open Scope Z_scope.

(** ** hyperbolic facts *)
Lemma cosh_ln u : (0 < u)%R -> cosh (ln u) = ((u + / u) / 2)%R.
Proof. intros H. unfold cosh. rewrite exp_Ropp, exp_ln by exact H. reflexivity. Qed.
Lemma cosh_acosh y : (1 <= y)%R -> cosh (acosh y) = y.
Proof.
  intros H. unfold acosh. assert (S : (0 <= y * y - 1)%R) by nra. pose proof (sqrt_pos (y * y - 1)) as P. pose proof (sqrt_def _ S) as Q. set (s := sqrt (y * y - 1)) in *.
  rewrite cosh_ln by lra. assert (E : (/ (y + s) = y - s)%R). { apply (Rmult_eq_reg_l (y + s)); [|lra]. rewrite Rinv_r by lra. nra. } rewrite E. lra.
Qed.
Lemma cosh_ge_1 t : (1 <= cosh t)%R.
Proof.
  unfold cosh. rewrite exp_Ropp. pose proof (exp_pos t) as P. set (u := exp t) in *. assert (u * / u = 1)%R by (apply Rinv_r; lra). pose proof (Rinv_0_lt_compat u P). set (v := (/ u)%R) in *.
  assert (E : ((u + v) * (u + v) = (u - v) * (u - v) + 4 * (u * v))%R) by ring. pose proof (Rle_0_sqr (u - v)) as Q. unfold Rsqr in Q. apply Rnot_lt_le. intros L. assert (u + v < 2)%R by lra. assert ((u + v) * (u + v) < 2 * 2)%R by (apply Rmult_le_0_lt_compat; lra). lra.
Qed.
Lemma cosh_step a b : (cosh (a + b) + cosh (a - b) = 2 * cosh a * cosh b)%R.
Proof. unfold cosh. replace (- (a + b))%R with (- a + - b)%R by ring. replace (- (a - b))%R with (- a + b)%R by ring. unfold Rminus. rewrite !exp_plus. lra. Qed.
Lemma cheb_cosh n t : chebT n (cosh t) = cosh (INR n * t).
Proof.
  enough (H : chebT n (cosh t) = cosh (INR n * t) /\ chebT (S n) (cosh t) = cosh (INR (S n) * t)) by apply H.
  induction n as [|n [IH1 IH2]].
  - split; [cbn [chebT INR]; rewrite Rmult_0_l, cosh_0; reflexivity|]. cbn [chebT INR]. now rewrite Rmult_1_l.
  - split; [exact IH2|]. rewrite chebT_SS, IH1, IH2. replace (INR n * t)%R with (INR (S n) * t - t)%R by (rewrite S_INR; ring). replace (INR (S (S n)) * t)%R with (INR (S n) * t + t)%R by (rewrite !S_INR; ring).
    pose proof (cosh_step (INR (S n) * t) t). lra.
Qed.
Lemma ChebyshevPoly_ok n x : 0 <= n -> ChebyshevPoly n x = chebT (Z.to_nat n) x.
Proof.
  intros Hn. unfold ChebyshevPoly. assert (E : IZR n = INR (Z.to_nat n)) by (rewrite INR_IZR_INZ, Z2Nat.id by exact Hn; reflexivity). rewrite E. destruct (Rlt_dec x (-1)) as [L|L].
  - rewrite <- cheb_cosh, cosh_acosh by lra. rewrite chebT_parity. rewrite <- Rmult_assoc. assert (S : ((if n mod 2 =? 0 then 1 else -1) * (-1) ^ Z.to_nat n = 1)%R).
    { assert (D : forall k, ((-1) ^ (2 * k) = 1)%R) by (intros k; rewrite pow_mult; replace ((-1) ^ 2)%R with 1%R by ring; apply pow1).
      destruct (Z.eqb_spec (n mod 2) 0) as [M|M].
      - replace (Z.to_nat n) with (2 * Z.to_nat (n / 2))%nat by (pose proof (Z.div_mod n 2); pose proof (Z.div_pos n 2); lia). rewrite D. ring.
      - replace (Z.to_nat n) with (S (2 * Z.to_nat (n / 2)))%nat by (pose proof (Z.div_mod n 2); pose proof (Z.mod_pos_bound n 2); pose proof (Z.div_pos n 2); lia). cbn [pow]. rewrite D. ring. }
    rewrite S. ring.
  - destruct (Rle_dec x 1) as [L'|L'].
    + rewrite <- cheb_cos. now rewrite cos_acos by lra.
    + rewrite <- cheb_cosh. now rewrite cosh_acosh by lra.
Qed.

(** ** coefficients of T_m(beta cos(w/2)) *)
Section Coef.
Variable beta : R.
Fixpoint dc (m : nat) (k : Z) : R :=
  match m with
  | O => if k =? 0 then 1 else 0
  | S m' => match m' with
            | O => beta / 2 * ((if k =? 0 then 1 else 0) + (if k =? 1 then 1 else 0))
            | S m'' => beta * (dc m' k + dc m' (k - 1)) - dc m'' (k - 1) end
  end%R.
Lemma dc_SS m k : dc (S (S m)) k = (beta * (dc (S m) k + dc (S m) (k - 1)) - dc m (k - 1))%R. Proof. reflexivity. Qed.
Lemma dc_sym m : (forall k, dc m k = dc m (Z.of_nat m - k)) /\ (forall k, dc (S m) k = dc (S m) (Z.of_nat (S m) - k)).
Proof.
  induction m as [|m [IH1 IH2]].
  - split; intros k.
    + cbn [dc]. destruct (Z.eqb_spec k 0), (Z.eqb_spec (Z.of_nat 0 - k) 0); try lia; reflexivity.
    + cbn [dc]. destruct (Z.eqb_spec k 0), (Z.eqb_spec k 1), (Z.eqb_spec (Z.of_nat 1 - k) 0), (Z.eqb_spec (Z.of_nat 1 - k) 1); try lia; lra.
  - split; [exact IH2|]. intros k. rewrite !dc_SS. rewrite (IH2 k), (IH2 (k - 1)), (IH1 (k - 1)).
    replace (Z.of_nat (S m) - (k - 1)) with (Z.of_nat (S (S m)) - k) by lia. replace (Z.of_nat (S m) - k) with (Z.of_nat (S (S m)) - k - 1) by lia. replace (Z.of_nat m - (k - 1)) with (Z.of_nat (S (S m)) - k - 1) by lia. ring.
Qed.
Lemma dc_out m : (forall k, k < 0 \/ Z.of_nat m < k -> dc m k = 0%R) /\ (forall k, k < 0 \/ Z.of_nat (S m) < k -> dc (S m) k = 0%R).
Proof.
  induction m as [|m [IH1 IH2]].
  - split; intros k H.
    + cbn [dc]. destruct (Z.eqb_spec k 0); [lia|reflexivity].
    + cbn [dc]. destruct (Z.eqb_spec k 0); [lia|]. destruct (Z.eqb_spec k 1); [lia|]. lra.
  - split; [exact IH2|]. intros k H. rewrite dc_SS. rewrite !IH2 by lia. rewrite IH1 by lia. ring.
Qed.
(** sum of dc m k e^{i (m/2 - k) w} *)
Definition dsum (m : nat) (w : R) : C := sumZ (K := Cring) 0 (Z.of_nat m + 1) (fun k => Cmul (RtoC (dc m k)) (cis ((INR m / 2 - IZR k) * w))).
Lemma sumZ_extend (F : Z -> C) lo hi lo' hi' : lo' <= lo <= hi -> hi <= hi' -> (forall k, lo' <= k < lo \/ hi <= k < hi' -> F k = C0) -> sumZ (K := Cring) lo' hi' F = sumZ (K := Cring) lo hi F.
Proof.
  intros H1 H2 Z0. rewrite (sumZ_split (K := Cring) lo' lo hi') by lia. rewrite (sumZ_split (K := Cring) lo hi hi') by lia.
  rewrite (sumZ_zero (K := Cring) lo' lo F) by (intros; apply Z0; lia). rewrite (sumZ_zero (K := Cring) hi hi' F) by (intros; apply Z0; lia). cring.
Qed.
Lemma dsum_cheb m w : dsum m w = RtoC (chebT m (beta * cos (w / 2))).
Proof.
  enough (H : dsum m w = RtoC (chebT m (beta * cos (w / 2))) /\ dsum (S m) w = RtoC (chebT (S m) (beta * cos (w / 2)))) by apply H.
  induction m as [|m [IH1 IH2]].
  - split.
    + unfold dsum. change (Z.of_nat 0) with 0. rewrite (sumZ_one (K := Cring)). cbn [dc INR chebT Z.eqb]. replace ((0 / 2 - 0) * w)%R with 0%R by lra. rewrite cis_0. cring.
    + unfold dsum. change (Z.of_nat 1 + 1) with (0 + 1 + 1). rewrite (sumZ_last (K := Cring)) by lia. rewrite (sumZ_one (K := Cring)). cbn [dc INR chebT Z.eqb Z.add].
      replace ((1 / 2 - 0) * w)%R with (w / 2)%R by lra. replace ((1 / 2 - 1) * w)%R with (- (w / 2))%R by lra. rewrite cis_neg. apply C_ext; cbn; lra.
  - split; [exact IH2|].
    set (T := (beta * cos (w / 2))%R) in *. rewrite chebT_SS.
    transitivity (Csub (Cmul (RtoC beta) (Cmul (Cadd (cis (w / 2)) (cis (- (w / 2)))) (dsum (S m) w))) (dsum m w)).
    2: { rewrite IH1, IH2, cis_neg. subst T. apply C_ext; cbn; ring. }
    pose proof (dc_out m) as [O1 O2]. pose proof (S_INR m) as N1. pose proof (S_INR (S m)) as N2.
    set (n := Z.of_nat m) in *. assert (E1 : Z.of_nat (S m) = n + 1) by lia. assert (E2 : Z.of_nat (S (S m)) = n + 2) by lia.
    unfold dsum. rewrite E1, E2. fold n.
    transitivity (sumZ (K := Cring) 0 (n + 3) (fun k => Csub (Cmul (RtoC beta) (Cadd (Cmul (RtoC (dc (S m) k)) (cis ((INR (S (S m)) / 2 - IZR k) * w))) (Cmul (RtoC (dc (S m) (k - 1))) (cis ((INR (S (S m)) / 2 - IZR k) * w))))) (Cmul (RtoC (dc m (k - 1))) (cis ((INR (S (S m)) / 2 - IZR k) * w))))).
    { replace (n + 2 + 1) with (n + 3) by lia. apply sumZ_ext. intros k Hk. rewrite dc_SS. apply C_ext; cbn; ring. }
    set (q := INR (S (S m))) in *.
    transitivity (Csub (Cmul (RtoC beta) (Cadd (sumZ (K := Cring) 0 (n + 3) (fun k => Cmul (RtoC (dc (S m) k)) (cis ((q / 2 - IZR k) * w)))) (sumZ (K := Cring) 0 (n + 3) (fun k => Cmul (RtoC (dc (S m) (k - 1))) (cis ((q / 2 - IZR k) * w)))))) (sumZ (K := Cring) 0 (n + 3) (fun k => Cmul (RtoC (dc m (k - 1))) (cis ((q / 2 - IZR k) * w))))).
    { change Csub with (@rsub Cring). change Cadd with (@radd Cring). change Cmul with (@rmul Cring). rewrite <- (sumZ_add (K := Cring)), <- (sumZ_scale (K := Cring)), <- (sumZ_sub (K := Cring)). reflexivity. }
    f_equal.
    + f_equal. match goal with |- _ = Cmul (Cadd ?a ?b) ?c => transitivity (Cadd (Cmul a c) (Cmul b c)); [|cring] end. f_equal.
      * change Cmul with (@rmul Cring). rewrite <- (sumZ_scale (K := Cring)). change (@rmul Cring) with Cmul. rewrite (sumZ_extend _ 0 (n + 1 + 1) 0 (n + 3)).
        -- apply sumZ_ext. intros k Hk. replace ((q / 2 - IZR k) * w)%R with (w / 2 + (INR (S m) / 2 - IZR k) * w)%R by (rewrite N2; lra). rewrite cis_add. cring.
        -- lia.
        -- lia.
        -- intros k Hk. rewrite O2 by lia. cring.
      * change Cmul with (@rmul Cring). rewrite <- (sumZ_scale (K := Cring)). change (@rmul Cring) with Cmul. rewrite (sumZ_extend _ 1 (n + 3) 0 (n + 3)).
        -- rewrite (sumZ_shift' (K := Cring) 1 (n + 3) 1). replace (1 - 1) with 0 by lia. replace (n + 3 - 1) with (n + 1 + 1) by lia. apply sumZ_ext. intros k Hk. replace (k + 1 - 1) with k by lia. rewrite plus_IZR. replace ((q / 2 - (IZR k + 1)) * w)%R with (- (w / 2) + (INR (S m) / 2 - IZR k) * w)%R by (rewrite N2; lra). rewrite cis_add. cring.
        -- lia.
        -- lia.
        -- intros k Hk. rewrite O2 by lia. cring.
    + rewrite (sumZ_extend _ 1 (n + 2) 0 (n + 3)).
      * rewrite (sumZ_shift' (K := Cring) 1 (n + 2) 1). replace (1 - 1) with 0 by lia. replace (n + 2 - 1) with (n + 1) by lia. apply sumZ_ext. intros k Hk. replace (k + 1 - 1) with k by lia. rewrite plus_IZR. do 2 f_equal. rewrite N2, N1. lra.
      * lia.
      * lia.
      * intros k Hk. rewrite O1 by lia. cring.
Qed.
End Coef.

(** ** the window *)
Definition dolph_beta (n : Z) (att : R) : R := cosh (1 / IZR (n - 1) * acosh (1 / att)).
Lemma dolph_beta_ok n att : 2 <= n -> (0 < att <= 1)%R -> (1 <= dolph_beta n att)%R /\ chebT (Z.to_nat (n - 1)) (dolph_beta n att) = (1 / att)%R.
Proof.
  intros Hn Ha. split; [apply cosh_ge_1|]. unfold dolph_beta. rewrite cheb_cosh. rewrite INR_IZR_INZ, Z2Nat.id by lia.
  assert (D : IZR (n - 1) <> 0%R) by (apply not_0_IZR; lia). replace (IZR (n - 1) * (1 / IZR (n - 1) * acosh (1 / att)))%R with (acosh (1 / att)) by (field; exact D).
  apply cosh_acosh. apply Rmult_le_reg_r with att; [lra|]. unfold Rdiv. rewrite Rmult_assoc, Rinv_l by lra. lra.
Qed.
Section Win.
Variables (n : Z) (beta : R).
Hypothesis Hn : 2 <= n.
Let M := Z.to_nat (n - 1).
(** bin k of the full spectrum *)
Definition dbin (k : Z) : C := Cmul (cis (PI * IZR k / IZR n * IZR ((n - 1) mod 2))) (RtoC (chebT M (beta * cos (PI * IZR k / IZR n)))).
Lemma par : ((n - 1) mod 2 = 0 /\ n = 2 * (n / 2) + 1) \/ ((n - 1) mod 2 = 1 /\ n = 2 * (n / 2)).
Proof.
  pose proof (Z.div_mod n 2 ltac:(lia)) as D. pose proof (Z.mod_pos_bound n 2 ltac:(lia)) as B. assert (E : n mod 2 = 0 \/ n mod 2 = 1) by lia. destruct E as [E|E].
  - right. split; [|lia]. symmetry. apply (Z.mod_unique (n - 1) 2 (n / 2 - 1)); lia.
  - left. split; [|lia]. symmetry. apply (Z.mod_unique (n - 1) 2 (n / 2)); lia.
Qed.
Lemma nR : (0 < IZR n)%R. Proof. apply IZR_lt. lia. Qed.
Lemma pow_m1 : ((-1) ^ M = if (n - 1) mod 2 =? 0 then 1 else -1)%R.
Proof.
  assert (D : forall k, ((-1) ^ (2 * k) = 1)%R) by (intros k; rewrite pow_mult; replace ((-1) ^ 2)%R with 1%R by ring; apply pow1).
  destruct par as [[E F]|[E F]]; rewrite E; cbn [Z.eqb].
  - replace M with (2 * Z.to_nat (n / 2))%nat by (subst M; lia). apply D.
  - replace M with (S (2 * Z.to_nat (n / 2 - 1)))%nat by (subst M; lia). cbn [pow]. rewrite D. ring.
Qed.
Lemma dbin_conj k : Cconj (dbin (n - k)) = dbin k.
Proof.
  unfold dbin. pose proof nR. replace (PI * IZR (n - k) / IZR n)%R with (PI - PI * IZR k / IZR n)%R by (rewrite minus_IZR; field; lra). set (t := (PI * IZR k / IZR n)%R).
  assert (C1 : cos (PI - t) = (- cos t)%R) by (rewrite cos_minus, cos_PI, sin_PI; ring).
  rewrite C1. replace (beta * - cos t)%R with (- (beta * cos t))%R by ring. rewrite chebT_parity, pow_m1. destruct par as [[E F]|[E F]]; rewrite E; cbn [Z.eqb].
  - rewrite !Rmult_0_r, cis_0. apply C_ext; cbn; ring.
  - rewrite !Rmult_1_r. unfold cis. rewrite C1. assert (S1 : sin (PI - t) = sin t) by (rewrite sin_minus, cos_PI, sin_PI; ring). rewrite S1. apply C_ext; cbn; ring.
Qed.
Lemma herm_dbin (H : Z -> C) k : (forall j, 0 <= j <= n / 2 -> H j = dbin j) -> 0 <= k < n -> herm n H k = dbin k.
Proof.
  intros HH Hk. assert (X : n = 2 * (n / 2) \/ n = 2 * (n / 2) + 1) by (destruct par; lia). unfold herm.
  assert (RE : forall j, Cconj (dbin j) = dbin j -> RtoC (re (dbin j)) = dbin j) by (intros j E; apply C_ext; [reflexivity|]; apply (f_equal im) in E; cbn [Cconj im RtoC] in *; lra).
  destruct (Z.eqb_spec k 0) as [->|E0].
  - rewrite HH by lia. unfold dbin. replace (PI * 0 / IZR n)%R with 0%R by (pose proof nR; field; lra). rewrite Rmult_0_l, cis_0. apply C_ext; cbn; ring.
  - destruct (Z.eqb_spec (2 * k) n) as [E1|E1].
    + rewrite HH by lia. apply RE. rewrite <- (dbin_conj k) at 2. do 2 f_equal. lia.
    + destruct (2 * k <? n) eqn:E2; [apply HH; lia|]. rewrite HH by lia. apply dbin_conj.
Qed.
(** the bins are the transform of the rotated coefficients *)
Lemma dbin_dft k : 0 <= k < n -> dbin k = DFT n (fun p => RtoC (dc beta M ((p + n / 2) mod n))) k.
Proof.
  intros Hk. unfold dbin. pose proof nR as Hr. set (e := (n - 1) mod 2).
  assert (E : IZR (n - 1) = INR M) by (subst M; rewrite INR_IZR_INZ, Z2Nat.id by lia; reflexivity).
  replace (PI * IZR k / IZR n)%R with (2 * PI * IZR k / IZR n / 2)%R by (field; lra). rewrite <- dsum_cheb. set (w := (2 * PI * IZR k / IZR n)%R).
  unfold dsum. rewrite <- (sumZ_scale (K := Cring)). change (@rmul Cring) with Cmul. unfold DFT, dft.
  assert (Hp : 0 < n) by lia. refine (eq_trans _ (shift_mod_sum Cfield n (wroot n) Hp (w_add' n Hp) (w_per' n Hp) (w_neq' n Hp) (fun j => Cmul (RtoC (dc beta M ((j + n / 2) mod n))) (wroot n (j * k))) (n / 2))).
  replace (Z.of_nat M + 1) with n by (subst M; lia). apply sumZ_ext. intros j Hj. change (@rmul Cfield) with Cmul.
  replace (((j - n / 2) mod n + n / 2) mod n) with j by (rewrite Z.add_mod_idemp_l by lia; replace (j - n / 2 + n / 2) with j by lia; rewrite Z.mod_small by lia; reflexivity).
  assert (W1 : wroot n ((j - n / 2) mod n * k) = wroot n ((j - n / 2) * k)).
  { rewrite (Z.div_mod (j - n / 2) n) at 2 by lia. replace ((n * ((j - n / 2) / n) + (j - n / 2) mod n) * k) with ((j - n / 2) mod n * k + n * ((j - n / 2) / n * k)) by ring. rewrite wroot_shift by lia. reflexivity. }
  rewrite W1. assert (W2 : wroot n ((j - n / 2) * k) = Cmul (cis (w / 2 * IZR e)) (cis ((INR M / 2 - IZR j) * w))).
  { rewrite <- cis_add. unfold wroot. f_equal. assert (Q : (IZR e + INR M = 2 * IZR (n / 2))%R).
    { rewrite <- E. rewrite <- plus_IZR. replace 2%R with (IZR 2) by reflexivity. rewrite <- mult_IZR. f_equal. subst e. destruct par as [[X1 X2]|[X1 X2]]; lia. }
    rewrite mult_IZR, minus_IZR. subst w. replace (INR M) with (2 * IZR (n / 2) - IZR e)%R by lra. field. lra. }
  rewrite W2. cring.
Qed.
End Win.
Lemma map_lin_grid n k : 2 <= n -> 0 <= k <= n / 2 -> lin (n / 2 + 1) 0 (PI * (IZR (n / 2 + 1 - 1) / IZR n)) true k = (PI * IZR k / IZR n)%R.
Proof.
  intros Hn Hk. unfold lin. assert (1 <= n / 2) by (apply Z.div_le_lower_bound; lia). rewrite Z.max_r by lia. replace (n / 2 + 1 - 1) with (n / 2) by lia.
  assert (IZR (n / 2) <> 0)%R by (apply not_0_IZR; lia). assert (IZR n <> 0)%R by (apply not_0_IZR; lia). field. split; assumption.
Qed.
Lemma rotl_tab {A} n m (f : Z -> A) : 0 <= m <= n -> rotl (tab n f) m = tab n (fun k => f ((k + m) mod n)).
Proof.
  intros Hm. apply list_eq_tab.
  - unfold rotl. rewrite lenZ_app, lenZ_skipn, lenZ_firstn, lenZ_tab. lia.
  - intros i Hi. unfold rotl. assert (Ls : lenZ (skipn (Z.to_nat m) (tab n f)) = n - m) by (rewrite lenZ_skipn, lenZ_tab; lia). destruct (Z_lt_ge_dec i (n - m)) as [L|L].
    + rewrite nthZ_app1 by lia. rewrite nthZ_skipn by lia. rewrite Z2Nat.id by lia. rewrite nthZ_tab by lia. rewrite Z.mod_small by lia. do 2 f_equal. lia.
    + rewrite nthZ_app2 by lia. rewrite Ls. rewrite nthZ_firstn by lia. rewrite nthZ_tab by lia. do 2 f_equal. apply (Z.mod_unique _ n 1); lia.
Qed.
(** the window is the coefficients divided by the largest magnitude *)
Definition dolph_norm (n : Z) (att : R) : R := fold_left Rmax (map Rabs (tab n (dc (dolph_beta n att) (Z.to_nat (n - 1))))) 0%R.
Lemma Dolph_ok W vec (out : list R) att : 1 <= W -> 2 <= lenZ out -> dolph_norm (lenZ out) att <> 0%R ->
  DolphChebyshevWindow W vec out att = Ok (tab (lenZ out) (fun k => dc (dolph_beta (lenZ out) att) (Z.to_nat (lenZ out - 1)) k * (1 / dolph_norm (lenZ out) att))%R).
Proof.
  intros HW Hn H0. unfold DolphChebyshevWindow. set (n := lenZ out) in *. replace (n <? 2) with false by lia. assert (Hs : 1 <= n / 2) by (apply Z.div_le_lower_bound; lia).
  rewrite LinSpace_ok by exact HW. cbn [bind]. assert (Lz : lenZ (zerosR (n / 2 + 1)) = n / 2 + 1) by (unfold zerosR; rewrite lenZ_repeat; lia). rewrite Lz, map_tab.
  rewrite ifft_real_spec by (left; rewrite lenZ_tab; fold n; lia). fold n. cbn [bind]. set (b := dolph_beta n att).
  set (X := tab n _). assert (EX : X = tab n (fun j => dc b (Z.to_nat (n - 1)) ((j + n / 2) mod n))).
  { apply tab_ext. intros j Hj. rewrite (IDFT_ext n _ (dbin n b)) by (try lia; intros k Hk; apply herm_dbin; [lia| |lia]; intros i Hi; rewrite atC_tab by lia; rewrite map_lin_grid by lia; rewrite ChebyshevPoly_ok by lia; reflexivity).
    rewrite (IDFT_ext n _ (DFT n (fun p => RtoC (dc b (Z.to_nat (n - 1)) ((p + n / 2) mod n))))) by (try lia; intros k Hk; apply dbin_dft; lia).
    rewrite IDFT_DFT by lia. reflexivity. }
  rewrite EX. unfold FftShiftInto. rewrite lenZ_tab, Z.max_r by lia.
  assert (Hsh : 0 <= (1 + n) / 2 <= n) by (split; [apply Z.div_pos; lia|apply Z.div_le_upper_bound; lia]).
  rewrite basic_shift_spec; [|discriminate|rewrite lenZ_tab; lia]. cbn [bind]. rewrite rotl_tab by exact Hsh.
  assert (ES : tab n (fun k => dc b (Z.to_nat (n - 1)) (((k + (1 + n) / 2) mod n + n / 2) mod n)) = tab n (dc b (Z.to_nat (n - 1)))).
  { apply tab_ext. intros k Hk. f_equal. rewrite Z.add_mod_idemp_l by lia. assert (Q : (1 + n) / 2 + n / 2 = n).
    { destruct (par n Hn) as [[_ P]|[_ P]]; rewrite P at 1; [replace (1 + (2 * (n / 2) + 1)) with ((n / 2 + 1) * 2) by lia; rewrite Z.div_mul by lia; lia|replace (1 + 2 * (n / 2)) with (1 + n / 2 * 2) by lia; rewrite Z.div_add by lia; change (1 / 2) with 0; lia]. }
    replace (k + (1 + n) / 2 + n / 2) with (k + 1 * n) by lia. rewrite Z.mod_add by lia. apply Z.mod_small. exact Hk. }
  rewrite ES. rewrite (TransformReduce_spec (K := Rring) (Plain Rmax) Rmax W vec); [|left; constructor; intros; first [apply Rmax_assoc|symmetry; apply Rmax_assoc|apply Rmax_comm]|exact HW]. cbn [bind].
  fold b. change (fold_left Rmax (map Rabs (tab n (dc b (Z.to_nat (n - 1))))) 0%R) with (dolph_norm n att). destruct (Req_EM_T _ 0); [contradiction|]. now rewrite mul_tab by exact HW.
Qed.
(** running maximum *)
Lemma fold_max (l : list R) : forall a, (a <= fold_left Rmax l a)%R /\ (forall x, In x l -> (x <= fold_left Rmax l a)%R) /\ (fold_left Rmax l a = a \/ In (fold_left Rmax l a) l).
Proof.
  induction l as [|x l IH]; intros a; cbn [fold_left In].
  - split; [lra|]. split; [tauto|now left].
  - destruct (IH (Rmax a x)) as (A & B & C). pose proof (Rmax_l a x). pose proof (Rmax_r a x). split; [lra|]. split.
    + intros y [<-|Hy]; [lra|now apply B].
    + destruct C as [C|C]; [|now right; right]. destruct (Rle_dec a x) as [L|L]; [right; left; rewrite C; symmetry; now apply Rmax_right|left; rewrite C; apply Rmax_left; lra].
Qed.
Lemma dolph_norm_props n att : 2 <= n -> (0 < att <= 1)%R -> (0 < dolph_norm n att)%R /\
  (forall k, 0 <= k < n -> (Rabs (dc (dolph_beta n att) (Z.to_nat (n - 1)) k) <= dolph_norm n att)%R) /\
  (exists k, 0 <= k < n /\ Rabs (dc (dolph_beta n att) (Z.to_nat (n - 1)) k) = dolph_norm n att).
Proof.
  intros Hn Ha. unfold dolph_norm. set (f := dc (dolph_beta n att) (Z.to_nat (n - 1))). set (l := map Rabs (tab n f)). destruct (fold_max l 0) as (A & B & C). set (N := fold_left Rmax l 0%R) in *.
  assert (B' : forall k, 0 <= k < n -> (Rabs (f k) <= N)%R). { intros k Hk. apply B. unfold l. apply in_map. unfold tab. apply in_map_iff. exists (Z.to_nat k). rewrite Z2Nat.id by lia. split; [reflexivity|]. apply in_seq. lia. }
  assert (P : (0 < N)%R).
  { destruct (Rle_lt_or_eq_dec _ _ A) as [L|E]; [exact L|]. exfalso. pose proof (dsum_cheb (dolph_beta n att) (Z.to_nat (n - 1)) 0) as D. unfold dsum in D. fold f in D. rewrite (sumZ_zero (K := Cring)) in D.
    - replace (0 / 2)%R with 0%R in D by lra. rewrite cos_0, Rmult_1_r in D. rewrite (proj2 (dolph_beta_ok n att Hn Ha)) in D. apply (f_equal re) in D. cbn in D. pose proof (Rinv_0_lt_compat att ltac:(lra)). unfold Rdiv in D. lra.
    - intros k Hk. specialize (B' k ltac:(lia)). rewrite <- E in B'. pose proof (Rabs_pos (f k)). assert (Fk : f k = 0%R) by (destruct (Req_dec (f k) 0) as [Hf|Hf]; [exact Hf|apply Rabs_pos_lt in Hf; lra]). rewrite Fk. cring. }
  split; [exact P|]. split; [exact B'|]. destruct C as [C|C]; [lra|]. unfold l in C. apply in_map_iff in C as (x & E & C). unfold tab in C. apply in_map_iff in C as (i & E' & C). apply in_seq in C. exists (Z.of_nat i). split; [lia|]. rewrite E'. exact E.
Qed.
