(** C39: windowed FIR designs. *)
From Coq Require Import ZArith List Bool Lia Reals Lra.
From Verif Require Import Base BaseFacts Complex KernelModel KernelProofs ConvProofs Dft FirModel FftModel FftProofs PolyphaseModel PolyphaseProofs PropsPolyphase FirBandModel FirBandProofs PropsFirBand WindowModel WindowProofs PropsWindow FirDesignModel FirDesignProofs FejerJackson.
From Coq Require Import ZifyBool ZifyNat.
Import ListNotations.
Open Scope Z_scope.

(** ** Specification *)
(** sum of the taps: the gain at frequency zero *)
Definition dc_gain (h : list R) : R := sumZ (K := Rring) 0 (lenZ h) (atR h).
(** [sinc]: sin x / x, continued by 1 (PropsWindow).  The ideal lowpass with normalised cutoff c (1 is the Nyquist
    frequency), centred on the middle tap: *)
Definition ideal_lowpass (n : Z) (c : R) (k : Z) : R := sinc (IZR (k - n / 2) * (c * PI)).
(** windows that fall off from the middle: symmetric, nowhere negative, positive in the middle, non-increasing *)
Definition bell (w : list R) : Prop :=
  symmetric (K := Rring) w /\ (forall k, 0 <= k < lenZ w -> (0 <= atR w k)%R) /\ (0 < atR w (lenZ w / 2))%R /\
  (forall k, lenZ w / 2 <= k -> k + 1 < lenZ w -> (atR w (k + 1) <= atR w k)%R).
(** the design's window samples: the signal given, or what the window function writes over [out] *)
Definition uses_window (out : list R) (arg : window_arg) (w : list R) : Prop :=
  lenZ w = lenZ out /\ match arg with WindowFunc f => f out = Ok w | WindowSignal s => s = w end.

Lemma dc_centred h : centred h 0 = RtoC (dc_gain h).
Proof.
  unfold centred, dc_gain. generalize (lenZ h / 2). intros o. set (n := lenZ h). assert (Hn : 0 <= n) by apply lenZ_nonneg. revert Hn. generalize n. clear n. apply natlike_ind; [rewrite !sumZ_empty by lia; reflexivity|].
  intros m Hm IH. unfold Z.succ. rewrite !sumZ_last by lia. rewrite IH. rewrite Rmult_0_r, Ropp_0. unfold cis. rewrite cos_0, sin_0. unfold RtoC, radd, Cring, Rring, Cadd, Cmul; cbn [re im]. f_equal; ring.
Qed.

(** ** Lowpass *)
Lemma sum_norm n (f : Z -> R) S : 0 <= n -> S <> 0%R -> sumZ (K := Rring) 0 n f = S -> sumZ (K := Rring) 0 n (fun k => f k / S)%R = 1%R.
Proof.
  intros Hn HS E. transitivity (/ S * sumZ (K := Rring) 0 n f)%R; [|rewrite E; now apply Rinv_l]. rewrite <- (sumZ_scale (K := Rring)). apply sumZ_ext. intros k _. unfold Rdiv. apply Rmult_comm.
Qed.
(** every tap is the window times the ideal lowpass, scaled to unit gain at frequency zero *)
Theorem C39_lowpass W vec out c arg w : 1 <= W -> odd_length out -> uses_window out arg w -> (c <> 0)%R ->
  let S := sumZ (K := Rring) 0 (lenZ out) (fun k => atR w k * ideal_lowpass (lenZ out) c k)%R in
  (S <> 0%R -> exists y, DesignLowpass W vec out c arg = Ok y /\ lenZ y = lenZ out /\
     (forall k, 0 <= k < lenZ out -> atR y k = (atR w k * ideal_lowpass (lenZ out) c k / S)%R) /\
     dc_gain y = 1%R /\ centred y 0 = C1 /\ (symmetric (K := Rring) w -> symmetric (K := Rring) y)) /\
  (S = 0%R -> DesignLowpass W vec out c arg = UB).
Proof.
  intros HW Ho Hw Hc S. pose proof (lenZ_nonneg out) as Hn. destruct (half_lt _ Ho Hn) as [En H0].
  assert (E : DesignLowpass W vec out c arg = normalize_sum W vec (windowed (lenZ out) c w)) by (apply lowpass_ok; [exact HW|exact Ho|exact Hw|now left]). split.
  - intros HS. eexists. split; [rewrite E; apply normalize_windowed; [exact HW|exact Hn|exact HS]|]. set (y := tab _ _).
    assert (L : lenZ y = lenZ out) by (unfold y; rewrite lenZ_tab; lia).
    assert (N : forall k, 0 <= k < lenZ out -> atR y k = (atR w k * ideal_lowpass (lenZ out) c k / S)%R) by (intros k Hk; unfold y; now rewrite (at0_tab (K := Rring)) by exact Hk).
    assert (D : dc_gain y = 1%R).
    { unfold dc_gain. rewrite L. transitivity (sumZ (K := Rring) 0 (lenZ out) (fun k => atR w k * ideal_lowpass (lenZ out) c k / S)%R); [now apply sumZ_ext|]. now apply sum_norm. }
    split; [exact L|]. split; [exact N|]. split; [exact D|]. split; [rewrite dc_centred, D; reflexivity|].
    intros Sy k Hk. asL. rewrite L in *. rewrite !N by lia. f_equal. destruct Hw as [Lw _]. unfold symmetric in Sy. asL. rewrite (Sy k) by lia. rewrite Lw. f_equal. symmetry. apply ideal_sym. exact Ho.
  - intros HS. rewrite E. apply normalize_fail; [exact HW|]. rewrite windowed_sum_ok by exact Hn. exact HS.
Qed.
Print Assumptions C39_lowpass.
(** ** Falling windows never fail *)
Lemma sum_sym_pairs n (f : Z -> R) : n mod 2 = 1 -> 0 <= n -> (forall k, 0 <= k < n -> f (n - 1 - k) = f k) ->
  sumZ (K := Rring) 0 n f = (f (n / 2)%Z + 2 * sumZ (K := Rring) 1 (n / 2 + 1) (fun j => f (n / 2 + j)%Z))%R.
Proof.
  intros Ho Hn Hs. destruct (half_lt n Ho Hn) as [E H0]. set (m := n / 2) in *.
  rewrite (sumZ_split (K := Rring) 0 m n) by lia. rewrite (sumZ_first (K := Rring) m n) by lia.
  rewrite (sumZ_reflect (K := Rring) 0 m (n - 1)). replace (n - 1 - m + 1) with (m + 1) by lia. replace (n - 1 - 0 + 1) with n by lia.
  rewrite (sumZ_ext (K := Rring) (m + 1) n (fun i => f (n - 1 - i)) f) by (intros i Hi; apply Hs; lia).
  rewrite (sumZ_shift' (K := Rring) (m + 1) n m f). replace (m + 1 - m) with 1 by lia. replace (n - m) with (m + 1) by lia.
  rewrite (sumZ_ext (K := Rring) 1 (m + 1) (fun i => f (i + m)) (fun j => f (m + j))) by (intros i Hi; f_equal; lia). set (s := sumZ _ _ _). change (@radd Rring) with Rplus. asL. change (s + (f m + s) = f m + 2 * s)%R. lra.
Qed.
Lemma wsum_sumZ (a : Z -> R) c m : (c <> 0)%R -> sumZ (K := Rring) 1 (Z.of_nat m + 1) (fun j => a j * sinc (IZR j * (c * PI)))%R = (/ (c * PI) * wsum (fun k => a (Z.of_nat k)) m (c * PI))%R.
Proof.
  intros Hc. induction m as [|m IH]; [rewrite sumZ_empty by lia; cbn [wsum]; symmetry; apply Rmult_0_r|].
  replace (Z.of_nat (S m) + 1) with (Z.of_nat m + 1 + 1) by lia. rewrite sumZ_last by lia. rewrite IH. cbn [wsum]. replace (Z.of_nat m + 1) with (Z.of_nat (S m)) by lia.
  rewrite INR_IZR_INZ. assert (Hj : IZR (Z.of_nat (S m)) <> 0%R) by (apply not_0_IZR; lia). unfold sinc. destruct (Req_EM_T _ 0) as [E|_].
  - exfalso. pose proof PI_neq0. apply Rmult_integral in E as [E|E]; [auto|]. apply Rmult_integral in E as [E|E]; auto.
  - pose proof PI_neq0. set (t := wsum _ _ _). set (j := IZR _) in *. match goal with |- ?l = ?r => change (@eq R l r) end. change (@radd Rring) with Rplus. field. repeat split; assumption.
Qed.
Theorem C39_lowpass_gain_positive (out w : list R) c : odd_length out -> lenZ w = lenZ out -> bell w -> (0 < c <= 1)%R ->
  (atR w (lenZ out / 2) <= sumZ (K := Rring) 0 (lenZ out) (fun k => atR w k * ideal_lowpass (lenZ out) c k))%R.
Proof.
  intros Ho Lw (Hs & Hp & Hm & Hd) Hc. pose proof (lenZ_nonneg out) as Hn. unfold odd_length in Ho. unfold symmetric in Hs. asL. rewrite Lw in *. set (n := lenZ out) in *. destruct (half_lt n Ho Hn) as [En H0].
  rewrite (sum_sym_pairs n) by (try assumption; intros k Hk; rewrite (Hs k Hk); f_equal; now apply ideal_sym).
  replace (ideal_lowpass n c (n / 2)) with 1%R by (symmetry; apply ideal_mid). rewrite Rmult_1_r.
  assert (P : (0 <= sumZ (K := Rring) 1 (n / 2 + 1) (fun j => atR w (n / 2 + j) * ideal_lowpass n c (n / 2 + j)))%R); [|lra].
  rewrite (sumZ_ext (K := Rring) 1 (n / 2 + 1) _ (fun j => (fun j => atR w (n / 2 + j)) j * sinc (IZR j * (c * PI)))%R) by (intros j Hj; unfold ideal_lowpass; do 4 f_equal; lia).
  replace (n / 2 + 1) with (Z.of_nat (Z.to_nat (n / 2)) + 1) by lia. rewrite wsum_sumZ by lra. pose proof PI_RGT_0 as HP.
  apply Rmult_le_pos; [left; apply Rinv_0_lt_compat; apply Rmult_lt_0_compat; lra|].
  apply wsum_nonneg.
  - intros k Hk. apply Hp. lia.
  - intros k Hk. replace (n / 2 + Z.of_nat (S k)) with (n / 2 + Z.of_nat k + 1) by lia. apply Hd; lia.
  - split; [apply Rmult_le_pos; lra|]. rewrite <- (Rmult_1_l PI) at 2. apply Rmult_le_compat_r; lra.
Qed.
Print Assumptions C39_lowpass_gain_positive.
(** for every falling window and cutoff in (0, 1] the design succeeds, with unit gain at frequency zero *)
Theorem C39_lowpass_succeeds W vec out c arg w : 1 <= W -> odd_length out -> uses_window out arg w -> bell w -> (0 < c <= 1)%R ->
  exists y, DesignLowpass W vec out c arg = Ok y /\ lenZ y = lenZ out /\ symmetric (K := Rring) y /\ dc_gain y = 1%R.
Proof.
  intros HW Ho Hw Hb Hc. destruct (C39_lowpass W vec out c arg w HW Ho Hw ltac:(lra)) as [H _]. pose proof (C39_lowpass_gain_positive out w c Ho (proj1 Hw) Hb Hc) as P. destruct Hb as (Hs & _ & Hm & _). rewrite (proj1 Hw) in Hm.
  destruct H as (y & E & L & _ & D & _ & Sy); [lra|]. exists y. repeat split; try assumption. now apply Sy.
Qed.
Print Assumptions C39_lowpass_succeeds.

(** the library's falling windows; filters of at least three taps *)
Lemma bell_cos n w g lo hi : n mod 2 = 1 -> 3 <= n -> is_window n w (fun k => g (cos (angle n k))) lo hi -> (0 <= lo)%R -> (0 < g (-1))%R ->
  (forall x y, -1 <= x -> x <= y -> y <= 1 -> g y <= g x)%R -> bell w.
Proof.
  intros Ho Hn (L & Sy & N & B) Hlo Hg Hm. destruct (half_lt n Ho ltac:(lia)) as [E H0]. unfold bell. asL. rewrite L. split; [exact Sy|]. split; [intros k Hk; pose proof (B k Hk); lra|]. split.
  - rewrite N by lia. rewrite angle_mid, cos_PI by lia. exact Hg.
  - intros k H1 H2. rewrite !N by lia. pose proof PI_RGT_0 as P. pose proof (COS_bound (angle n k)). pose proof (COS_bound (angle n (k + 1))). apply Hm; [lra| |lra].
    assert (A : forall j, n / 2 <= j < n -> (PI <= angle n j <= 2 * PI)%R).
    { intros j Hj. split; [rewrite <- (angle_mid n) at 1 by lia|replace (2 * PI)%R with (angle n (n - 1))];
        try (unfold angle, Rdiv; apply Rmult_le_compat_r; [left; apply Rinv_0_lt_compat, IZR_lt; lia|apply Rmult_le_compat_l; [lra|apply IZR_le; lia]]).
      unfold angle. field. apply not_0_IZR. lia. }
    apply cos_incr_1; try (apply A; lia). unfold angle, Rdiv. apply Rmult_le_compat_r; [left; apply Rinv_0_lt_compat, IZR_lt; lia|]. apply Rmult_le_compat_l; [lra|apply IZR_le; lia].
Qed.
Theorem C39_bell_windows W vec (out : list R) sigma : 1 <= W -> odd_length out -> 3 <= lenZ out -> (sigma <> 0)%R ->
  let falls f := exists w, uses_window out (WindowFunc f) w /\ bell w in
  falls RectangularWindow /\ falls (HammingWindow W vec) /\ falls (TriangularWindow W vec) /\ falls (BlackmanWindow W vec) /\ falls (BlackmanHarrisWindow W vec) /\ falls (fun o => GaussianWindow W vec o sigma).
Proof.
  intros HW Ho Hn Hsg falls. unfold odd_length in Ho. set (n := lenZ out) in *. destruct (half_lt n Ho ltac:(lia)) as [E H0]. assert (Ex : forall f w, f out = Ok w -> lenZ w = n -> bell w -> falls f) by (intros f w E1 E2 E3; exists w; split; [split; [exact E2|exact E1]|exact E3]).
  split; [|split; [|split; [|split; [|split]]]].
  - destruct (C40_rectangular out) as (w & Ew & V). fold n in V. apply (Ex _ w Ew); [apply V|]. destruct V as (L & Sy & N & B). unfold bell. asL. rewrite L. split; [exact Sy|]. split; [intros k Hk; rewrite N by exact Hk; lra|]. split; [rewrite N by lia; lra|]. intros k H1 H2. rewrite !N by lia. lra.
  - destruct (C40_hamming W vec out HW) as (w & Ew & V & _). fold n in V. apply (Ex _ w Ew); [apply V|]. apply (bell_cos n w (fun c => 54 / 100 - 46 / 100 * c)%R (8 / 100) 1 Ho Hn V); intros; lra.
  - destruct (C40_triangular W vec out HW) as (w & Ew & V & Vm). fold n in V, Vm. apply (Ex _ w Ew); [apply V|]. destruct V as (L & Sy & N & B). unfold bell. asL. rewrite L. split; [exact Sy|]. split; [intros k Hk; pose proof (B k Hk); lra|]. split; [rewrite Vm by lia; lra|]. intros k H1 H2. rewrite !N by lia. unfold triangle.
    assert (A : forall j, n / 2 <= j -> (0 <= 2 * IZR j / IZR (n - 1) - 1)%R).
    { intros j Hj. assert (Hp : (0 < IZR (n - 1))%R) by (apply IZR_lt; lia). apply Rmult_le_reg_r with (IZR (n - 1)); [exact Hp|]. replace ((2 * IZR j / IZR (n - 1) - 1) * IZR (n - 1))%R with (2 * IZR j - IZR (n - 1))%R by (field; lra). rewrite Rmult_0_l. replace (n - 1) with (2 * (n / 2)) by lia. rewrite mult_IZR. assert (IZR (n / 2) <= IZR j)%R by (apply IZR_le; lia). lra. }
    rewrite !Rabs_right by (apply Rle_ge, A; lia). assert (2 * IZR k / IZR (n - 1) <= 2 * IZR (k + 1) / IZR (n - 1))%R; [|lra]. unfold Rdiv. apply Rmult_le_compat_r; [left; apply Rinv_0_lt_compat, IZR_lt; lia|]. apply Rmult_le_compat_l; [lra|apply IZR_le; lia].
  - destruct (C40_blackman W vec out HW) as (w & Ew & V & _). fold n in V. apply (Ex _ w Ew); [apply V|].
    assert (V' : is_window n w (fun k => (fun c => 42 / 100 - 5 / 10 * c + 8 / 100 * (2 * (c * c) - 1))%R (cos (angle n k))) 0 1).
    { destruct V as (L & Sy & N & B). split; [exact L|]. split; [exact Sy|]. split; [|exact B]. intros k Hk. rewrite N by exact Hk. unfold blackman. rewrite cos2. reflexivity. }
    apply (bell_cos n w _ 0 1 Ho Hn V'); [lra|lra|]. intros x y Hx Hxy Hy. nra.
  - destruct (C40_blackman_harris W vec out HW) as (w & Ew & V & _). fold n in V. apply (Ex _ w Ew); [apply V|].
    assert (V' : is_window n w (fun k => (fun c => 35875 / 100000 - 48829 / 100000 * c + 14128 / 100000 * (2 * (c * c) - 1) - 1168 / 100000 * (4 * (c * c * c) - 3 * c))%R (cos (angle n k))) (6 / 100000) 1).
    { destruct V as (L & Sy & N & B). split; [exact L|]. split; [exact Sy|]. split; [|exact B]. intros k Hk. rewrite N by exact Hk. unfold blackman_harris. rewrite cos2, cos3. reflexivity. }
    apply (bell_cos n w _ (6 / 100000) 1 Ho Hn V'); [lra|lra|]. intros x y Hx Hxy Hy.
    assert (Q : (0 <= 45325 / 100000 - 28256 / 100000 * (x + y) + 4672 / 100000 * (x * x + x * y + y * y))%R) by nra.
    assert (0 <= (y - x) * (45325 / 100000 - 28256 / 100000 * (x + y) + 4672 / 100000 * (x * x + x * y + y * y)))%R by (apply Rmult_le_pos; lra). lra.
  - destruct (C40_gaussian W vec out sigma HW Hsg) as (w & Ew & V & Vp & Vm); [fold n; lia|]. fold n in V, Vp, Vm. apply (Ex _ w Ew); [apply V|]. destruct V as (L & Sy & N & B). unfold bell. asL. rewrite L. split; [exact Sy|]. split; [intros k Hk; pose proof (B k Hk); lra|]. split; [apply Vp; lia|]. intros k H1 H2. rewrite !N by lia. unfold gaussian.
    set (a := (sigma * (IZR (n - 1) / 2))%R). set (b := (IZR (n - 1) / 2)%R). assert (Hb : (IZR (n / 2) = b)%R) by (unfold b; replace (n - 1) with (2 * (n / 2)) by lia; rewrite mult_IZR; field).
    assert (Hk : (0 <= IZR k - b)%R) by (rewrite <- Hb; apply IZR_le in H1; lra). rewrite plus_IZR.
    assert (Q : (Rsqr ((IZR k - b) / a) <= Rsqr ((IZR k + 1 - b) / a))%R). { unfold Rdiv. rewrite !Rsqr_mult. apply Rmult_le_compat_r; [apply Rle_0_sqr|]. apply Rsqr_incr_1; lra. }
    destruct (Rle_lt_or_eq_dec _ _ Q) as [Q'|Q']; [left; apply exp_increasing; lra|]. rewrite Q'. lra.
Qed.
Print Assumptions C39_bell_windows.

(** a cutoff of 0 passes the descriptors' range check, but every tap but the middle one is then 0 / 0 *)
Lemma first_ub {S} lo hi (body : Z -> S -> outcome S) s : lo < hi -> body lo s = UB -> for_ lo hi 1 body s = UB.
Proof. intros H E. unfold for_, trips. replace (lo <? hi) with true by lia. destruct (Z.to_nat _) eqn:En; [exfalso; rewrite Z.div_1_r in En; lia|]. cbn [loop]. rewrite E. reflexivity. Qed.
Theorem C39_zero_cutoff_refuted W vec out arg w : odd_length out -> 3 <= lenZ out -> uses_window out arg w -> DesignLowpass W vec out 0 arg = UB.
Proof.
  intros Ho Hn [L Hw]. unfold odd_length in Ho. destruct (half_lt _ Ho ltac:(lia)) as [E H0]. assert (Z0 : sin_over ((IZR 0 - IZR (lenZ out / 2)) * (0 * PI)) = UB) by (unfold sin_over; destruct (Req_EM_T _ 0) as [_|N]; [reflexivity|]; exfalso; apply N; ring).
  destruct arg as [f|s]; unfold DesignLowpass, KernelWindowedLowpass, KernelWindowedLowpass_func, KernelWindowedLowpass_signal, assert_; replace (lenZ out mod 2 =? 1) with true by lia.
  - rewrite Hw. cbn [bind]. rewrite first_ub; [reflexivity|lia|]. rewrite Z0. reflexivity.
  - subst s. replace (lenZ out =? lenZ w) with true by lia. rewrite first_ub; [reflexivity|lia|]. rewrite Z0. reflexivity.
Qed.
Print Assumptions C39_zero_cutoff_refuted.
(** even lengths, and window signals of another length, are refused *)
Theorem C39_rejects W vec out c response arg : (lenZ out mod 2 = 0 -> DesignLowpass W vec out c arg = UB /\ DesignArbitrary W vec out response arg = UB) /\
  (forall w, lenZ w <> lenZ out -> DesignLowpass W vec out c (WindowSignal w) = UB /\ DesignArbitrary W vec out response (WindowSignal w) = UB).
Proof.
  unfold DesignLowpass, DesignArbitrary, KernelWindowedLowpass, KernelWindowedArbitrary, KernelWindowedLowpass_func, KernelWindowedLowpass_signal, KernelWindowedArbitrary_func, KernelWindowedArbitrary_signal, assert_. split.
  - intros H. rewrite H. change (0 =? 1) with false. destruct arg; split; reflexivity.
  - intros w H. replace (lenZ out =? lenZ w) with false by lia. destruct (lenZ out mod 2 =? 1); split; reflexivity.
Qed.
Print Assumptions C39_rejects.

(** ** Highpass, bandpass, bandstop *)
Lemma in_range c : (0 <= c <= 1)%R -> normalized c = true.
Proof. intros H. unfold normalized. destruct (Rle_dec 0 c); [|lra]. destruct (Rle_dec c 1); [reflexivity|lra]. Qed.
Lemma out_range c : ~ (0 <= c <= 1)%R -> normalized c = false.
Proof. intros H. unfold normalized. destruct (Rle_dec 0 c); [|reflexivity]. destruct (Rle_dec c 1); [exfalso; lra|reflexivity]. Qed.
(** the highpass is the complement of the lowpass with the same parameters, at every frequency; its gain at zero is 0 *)
Theorem C39_highpass W vec out c arg l : 1 <= W -> odd_length out -> (0 <= c <= 1)%R -> DesignLowpass W vec out c arg = Ok l -> odd_length l ->
  exists y, DesignHighpass W vec out c arg = Ok y /\ lenZ y = lenZ l /\
    (forall f, Cadd (centred y f) (centred l f) = C1) /\ (dc_gain l = 1%R -> dc_gain y = 0%R) /\ (symmetric (K := Rring) l -> symmetric (K := Rring) y).
Proof.
  intros HW Ho Hc E Hl. destruct (C37_complementary Rring W vec l l HW eq_refl Hl) as (y & _ & Ey & Ly & Ny & _). asL. exists y.
  assert (R : forall f, Cadd (centred y f) (centred l f) = C1) by (intros f; now apply (C37_complementary_response W vec)).
  split; [unfold DesignHighpass, check_normalized; rewrite (in_range c Hc), E; cbn [bind]; exact Ey|]. split; [exact Ly|]. split; [exact R|]. split.
  - intros D. specialize (R 0%R). rewrite !dc_centred, D in R. unfold RtoC, Cadd, C1 in R. cbn [re im] in R. injection R as R. lra.
  - intros Sy k Hk. unfold odd_length in Hl. unfold symmetric in Sy. asL. rewrite Ly in *. specialize (Sy k Hk). pose proof (Ny k Hk) as N1. pose proof (Ny (lenZ l - 1 - k) ltac:(lia)) as N2. asL. destruct (half_lt _ Hl ltac:(lia)) as [El _]. replace (lenZ l - 1 - k =? lenZ l / 2) with (k =? lenZ l / 2) in N2 by lia. rewrite <- N1 in N2. change (@radd Rring) with Rplus in N2. asL. rewrite Sy in N2. apply Rplus_eq_reg_r in N2. symmetry. exact N2.
Qed.
Print Assumptions C39_highpass.
(** the bandpass is the lowpass of half the bandwidth, moved to the middle of the band and its mirror image *)
Theorem C39_bandpass W vec out lo hi arg l : 1 <= W -> odd_length out -> (0 <= (hi - lo) / 2 <= 1)%R -> DesignLowpass W vec out ((hi - lo) / 2) arg = Ok l -> odd_length l ->
  exists y, DesignBandpass W vec out lo hi arg = Ok y /\ lenZ y = lenZ l /\
    (forall f, centred y f = Cadd (centred l (f - PI * ((hi + lo) / 2))) (centred l (f + PI * ((hi + lo) / 2)))) /\
    (forall k, 0 <= k < lenZ l -> atR y k = (2 * cos (IZR (k - lenZ l / 2) * (PI * ((hi + lo) / 2))) * atR l k)%R).
Proof.
  intros HW Ho Hc E Hl. destruct (C37_shift_in_place W vec l ((hi + lo) / 2) HW Hl) as (y & Ey & Ly & Ny & Nm). exists y.
  split; [unfold DesignBandpass, check_normalized; rewrite (in_range _ Hc), E; cbn [bind]; exact Ey|]. split; [exact Ly|]. split; [intros f; now apply (C37_shift_response W vec)|].
  intros k Hk. destruct (Z.eq_dec k (lenZ l / 2)) as [->|Ne]; [|now apply Ny]. rewrite Z.sub_diag, Rmult_0_l, cos_0. rewrite Nm. asL. lra.
Qed.
Print Assumptions C39_bandpass.
(** the bandstop is the complement of the bandpass *)
Theorem C39_bandstop W vec out lo hi arg b : 1 <= W -> (0 <= lo <= 1)%R -> (0 <= hi <= 1)%R -> (lo <= hi)%R -> DesignBandpass W vec out lo hi arg = Ok b -> odd_length b ->
  exists y, DesignBandstop W vec out lo hi arg = Ok y /\ lenZ y = lenZ b /\ (forall f, Cadd (centred y f) (centred b f) = C1).
Proof.
  intros HW H1 H2 H3 E Hl. destruct (C37_complementary Rring W vec b b HW eq_refl Hl) as (y & _ & Ey & Ly & Ny & _). asL. exists y.
  split; [unfold DesignBandstop, check_normalized; rewrite (in_range _ H1), (in_range _ H2); destruct (Rle_dec lo hi); [|contradiction]; rewrite E; cbn [bind]; exact Ey|]. split; [exact Ly|]. intros f; now apply (C37_complementary_response W vec).
Qed.
Print Assumptions C39_bandstop.
(** with a falling window and valid edges all four designs succeed *)
Theorem C39_designs_succeed W vec out lo hi arg w : 1 <= W -> odd_length out -> uses_window out arg w -> bell w -> (0 <= lo)%R -> (lo < hi)%R -> (hi <= 1)%R ->
  exists lp hp bp bs, DesignLowpass W vec out hi arg = Ok lp /\ DesignHighpass W vec out hi arg = Ok hp /\ DesignBandpass W vec out lo hi arg = Ok bp /\ DesignBandstop W vec out lo hi arg = Ok bs /\
    lenZ lp = lenZ out /\ lenZ hp = lenZ out /\ lenZ bp = lenZ out /\ lenZ bs = lenZ out /\ dc_gain lp = 1%R /\ dc_gain hp = 0%R.
Proof.
  intros HW Ho Hw Hb H1 H2 H3. destruct (C39_lowpass_succeeds W vec out hi arg w HW Ho Hw Hb ltac:(lra)) as (lp & El & Ll & _ & Dl). destruct (C39_lowpass_succeeds W vec out ((hi - lo) / 2) arg w HW Ho Hw Hb ltac:(lra)) as (l2 & E2 & L2 & _).
  assert (Ol : odd_length lp) by (unfold odd_length in *; now rewrite Ll). assert (O2 : odd_length l2) by (unfold odd_length in *; now rewrite L2).
  destruct (C39_highpass W vec out hi arg lp HW Ho ltac:(lra) El Ol) as (hp & Eh & Lh & _ & Dh & _).
  destruct (C39_bandpass W vec out lo hi arg l2 HW Ho ltac:(lra) E2 O2) as (bp & Eb & Lb & _). assert (Ob : odd_length bp) by (unfold odd_length in *; now rewrite Lb).
  destruct (C39_bandstop W vec out lo hi arg bp HW ltac:(lra) ltac:(lra) ltac:(lra) Eb Ob) as (bs & Es & Ls & _).
  exists lp, hp, bp, bs. repeat split; try assumption; try congruence. now apply Dh.
Qed.
Print Assumptions C39_designs_succeed.
(** out of range parameters of the derived designs are refused *)
Theorem C39_domain W vec out c lo hi arg : (~ (0 <= c <= 1)%R -> DesignHighpass W vec out c arg = Throw DomainError) /\
  (~ (0 <= (hi - lo) / 2 <= 1)%R -> DesignBandpass W vec out lo hi arg = Throw DomainError) /\
  (~ (0 <= lo <= 1)%R \/ ~ (0 <= hi <= 1)%R -> DesignBandstop W vec out lo hi arg = Throw DomainError) /\
  ((0 <= lo <= 1)%R -> (0 <= hi <= 1)%R -> (hi < lo)%R -> DesignBandstop W vec out lo hi arg = Throw InvalidArgument).
Proof.
  unfold DesignHighpass, DesignBandpass, DesignBandstop, check_normalized. repeat split.
  - intros H. now rewrite out_range.
  - intros H. now rewrite out_range.
  - intros [H|H]; [now rewrite (out_range lo)|]. destruct (normalized lo); [|reflexivity]. now rewrite (out_range hi).
  - intros H1 H2 H3. rewrite (in_range lo H1), (in_range hi H2). destruct (Rle_dec lo hi); [lra|reflexivity].
Qed.
Print Assumptions C39_domain.

(** ** Hilbert transformers *)
(** odd and even lengths: antisymmetric, from the half band lowpass of the same resp. (2 n - 1) length *)
Theorem C39_hilbert W vec scratch out arg : 1 <= W -> lenZ scratch = 32 -> 1 <= lenZ out ->
  let half := if lenZ out mod 2 =? 0 then repeat 0%R (Z.to_nat (2 * lenZ out - 1)) else out in
  forall w, uses_window half arg w -> bell w ->
  exists h y, DesignLowpass W vec half (1 / 2) arg = Ok h /\ DesignHilbert W vec scratch out arg = Ok y /\ lenZ y = lenZ out /\ antisymmetric (K := Rring) y /\
    (lenZ out mod 2 = 1 -> forall f, centred y f = Cmul (mkC 0 (-1)) (Csub (centred h (f - PI / 2)) (centred h (f + PI / 2)))).
Proof.
  intros HW Hs Hn half w Hw Hb. assert (Hh : odd_length half).
  { unfold odd_length, half. destruct (Z.eqb_spec (lenZ out mod 2) 0) as [E|E]; [|pose proof (Z.mod_pos_bound (lenZ out) 2); lia]. rewrite lenZ_repeat, Z2Nat.id by lia. replace (2 * lenZ out - 1) with (1 + (lenZ out - 1) * 2) by lia. rewrite Z.mod_add by lia. reflexivity. }
  destruct (C39_lowpass_succeeds W vec half (1 / 2) arg w HW Hh Hw Hb ltac:(lra)) as (h & E & L & Sy & _). assert (Oh : odd_length h) by (unfold odd_length in *; now rewrite L). exists h.
  assert (E' : DesignLowpass W vec half (5 / 10) arg = Ok h) by (replace (5 / 10)%R with (1 / 2)%R by lra; exact E).
  unfold DesignHilbert, FirFilterHilbert. destruct (Z.eqb_spec (lenZ out mod 2) 0) as [Ev|Ev].
  - replace (lenZ out =? 0) with false by lia. assert (Lh : lenZ h = 2 * lenZ out - 1) by (rewrite L; unfold half; rewrite lenZ_repeat; lia). destruct (C38_even Rring W vec scratch out h HW Hs Ev Lh) as (z & Ez & E2 & _). asL.
    eexists. split; [exact E|]. unfold zerosR. replace (lenZ out * 2 - 1) with (2 * lenZ out - 1) by lia. fold half. rewrite E'. cbn [bind]. split; [exact E2|]. split; [rewrite lenZ_tab; lia|]. split; [|intros; exfalso; lia].
    eapply (C38_antisymmetric Rring W vec scratch out h); [exact HW|exact Hs|exact Oh|exact Sy|]. right. split; [exact Ev|exact E2].
  - fold half. destruct (C38_odd Rring W vec h h HW Oh eq_refl) as (y & _ & Ey & Ny). asL. exists y. unfold half in *. rewrite E'. cbn [bind]. split; [exact E|]. split; [exact Ey|]. split; [rewrite Ny; asL; rewrite lenZ_tab; asL; lia|]. split.
    + eapply (C38_antisymmetric Rring W vec scratch out h); [exact HW|exact Hs|exact Oh|exact Sy|]. now left.
    + intros _ f. exact (C38_response W vec h y f HW Oh Ey).
Qed.
Print Assumptions C39_hilbert.

(** ** Arbitrary responses *)
(** the real filter of odd length n whose centred response at the frequencies 2 pi j / n, 0 <= j <= n / 2, is r j
    (frequency sampling): *)
Definition sampled (n : Z) (r : Z -> C) (k : Z) : R :=
  ((re (r 0%Z) + sumZ (K := Rring) 1 (n / 2 + 1) (fun j => 2 * re (Cmul (r j) (cis (2 * PI * IZR (j * (k - n / 2)) / IZR n))))) / IZR n)%R.
Lemma grid_point n j : n mod 2 = 1 -> 0 < n -> 0 < j <= n / 2 -> lin (n / 2 + 1) 0 1 true j = (IZR j / IZR (n / 2))%R.
Proof. intros Ho Hn Hj. unfold lin. replace (n / 2 + 1 - 1) with (n / 2) by lia. rewrite Z.max_r by lia. unfold Rdiv. rewrite Rplus_0_r, Rminus_0_r, Rmult_1_l. reflexivity. Qed.
Lemma lin_0 n : lin n 0 1 true 0 = 0%R.
Proof. unfold lin. ring. Qed.
Lemma impulse_sampled n response k : n mod 2 = 1 -> 0 < n -> impulse_at n response ((k - n / 2) mod n) = sampled n (fun j => response (IZR j / IZR (n / 2))%R) k.
Proof.
  intros Ho Hn. destruct (half_lt n Ho ltac:(lia)) as [E H0]. unfold impulse_at, sampled. rewrite IDFT_unf by exact Hn. replace (re (Cmul (RtoC (1 / IZR n)) (sumC 0 n (fun k0 => Cmul (herm n (fun k1 => response (lin (n / 2 + 1) 0 1 true k1)) k0) (wroot n (- ((k - n / 2) mod n * k0))))))) with (1 / IZR n * re (sumC 0 n (fun k0 => Cmul (herm n (fun k1 => response (lin (n / 2 + 1) 0 1 true k1)) k0) (wroot n (- ((k - n / 2) mod n * k0))))))%R by (cbn [re Cmul RtoC im]; ring). rewrite herm_sum_re by exact Hn.
  replace (Z.even n) with false by (rewrite Zeven_mod, Ho; reflexivity). rewrite Rplus_0_r. unfold Rdiv. rewrite (Rmult_1_l (/ IZR n)), Rmult_comm. f_equal. f_equal.
  - rewrite lin_0. do 2 f_equal. ring.
  - replace ((n + 1) / 2) with (n / 2 + 1) by (rewrite E at 2; replace (2 * (n / 2) + 1 + 1) with ((n / 2 + 1) * 2) by lia; now rewrite Z.div_mul). apply sumZ_ext. intros j Hj. do 2 f_equal. rewrite grid_point by lia. f_equal.
    unfold wroot. pose proof (Z.div_mod (k - n / 2) n ltac:(lia)) as D. replace ((k - n / 2) mod n) with (k - n / 2 - n * ((k - n / 2) / n)) by lia. set (q := (k - n / 2) / n). set (d := k - n / 2).
    replace (- (2 * PI * IZR (- ((d - n * q) * j)) / IZR n))%R with (2 * PI * IZR (j * d) * / IZR n + 2 * PI * IZR (- (q * j)))%R.
    + rewrite cis_add, cis_period. unfold Cmul, C1; cbn [re im]. apply C_ext; cbn [re im]; ring.
    + rewrite !opp_IZR, !mult_IZR, minus_IZR, mult_IZR. field. apply not_0_IZR. lia.
Qed.
(** every tap is the window times the sampled filter; symmetric for real responses and symmetric windows *)
Theorem C39_arbitrary W vec out response arg w : 1 <= W -> odd_length out -> uses_window out arg w ->
  exists y, DesignArbitrary W vec out response arg = Ok y /\ lenZ y = lenZ out /\
    (forall k, 0 <= k < lenZ out -> atR y k = (atR w k * sampled (lenZ out) (fun j => response (IZR j / IZR (lenZ out / 2))%R) k)%R) /\
    ((forall f, im (response f) = 0%R) -> symmetric (K := Rring) w -> symmetric (K := Rring) y).
Proof.
  intros HW Ho Hw. pose proof (lenZ_nonneg out) as Hn. destruct (half_lt _ Ho Hn) as [E H0]. eexists. split; [apply (arbitrary_ok W vec out response arg w HW Ho Hw)|]. set (n := lenZ out) in *. set (y := tab _ _).
  assert (L : lenZ y = n) by (unfold y; rewrite lenZ_tab; lia). assert (N : forall k, 0 <= k < n -> atR y k = (atR w k * sampled n (fun j => response (IZR j / IZR (n / 2))%R) k)%R).
  { intros k Hk. unfold y. rewrite (at0_tab (K := Rring)) by exact Hk. unfold arb_tap. f_equal. apply impulse_sampled; [exact Ho|lia]. }
  split; [exact L|]. split; [exact N|]. intros Hr Sy k Hk. asL. rewrite L in *. rewrite !N by lia. destruct Hw as [Lw _]. unfold symmetric in Sy. asL. rewrite (Sy k) by (rewrite Lw; exact Hk). rewrite Lw. fold n. f_equal.
  unfold sampled, Rdiv. do 2 f_equal. apply sumZ_ext. intros j Hj. f_equal. unfold Cmul, cis. cbn [re im]. rewrite Hr, !Rmult_0_l. f_equal. f_equal. replace (n - 1 - k - n / 2) with (- (k - n / 2)) by lia. replace (j * - (k - n / 2)) with (- (j * (k - n / 2))) by lia. rewrite opp_IZR. rewrite <- cos_neg. f_equal. ring.
Qed.
Print Assumptions C39_arbitrary.
(** without a window (all ones) the response at 2 pi j / n is exactly the one asked for at normalised frequency
    j / (n / 2) = 2 j / (n - 1).  The point itself lies at 2 j / n: the designed response is the requested one, stretched by n / (n - 1) *)
Theorem C39_arbitrary_response W vec out response arg w y : 1 <= W -> odd_length out -> uses_window out arg w -> (forall k, 0 <= k < lenZ out -> atR w k = 1%R) -> DesignArbitrary W vec out response arg = Ok y ->
  centred y 0 = RtoC (re (response 0%R)) /\
  forall j, 1 <= j <= lenZ out / 2 -> centred y (2 * PI * IZR j / IZR (lenZ out)) = response (IZR j / IZR (lenZ out / 2))%R.
Proof.
  intros HW Ho Hw H1 Ey. pose proof (lenZ_nonneg out) as Hn. destruct (half_lt _ Ho Hn) as [E H0]. unfold DesignArbitrary in Ey. rewrite (arbitrary_ok W vec out response arg w HW Ho Hw) in Ey. set (n := lenZ out) in *. assert (Hp : 0 < n) by lia.
  assert (Y : y = tab n (arb_tap n response w)) by congruence. clear Ey. set (X := fun k => response (lin (n / 2 + 1) 0 1 true k)).
  assert (G : forall j, 0 <= j < n -> centred y (2 * PI * IZR j / IZR n) = herm n X j).
  { intros j Hj. rewrite <- (DFT_IDFT n Hp (herm n X) j Hj). rewrite DFT_unf. unfold centred. assert (L : lenZ y = n) by (rewrite Y, lenZ_tab; lia). rewrite L.
    etransitivity; [|exact (shift_mod_sum Cfield n (wroot n) Hp (w_add' n Hp) (w_per' n Hp) (w_neq' n Hp) (fun i => Cmul (IDFT n (herm n X) i) (wroot n (i * j))) (n / 2))].
    apply sumZ_ext. intros k Hk. rewrite Y, (at0_tab (K := Rring)) by exact Hk. unfold arb_tap. rewrite H1 by exact Hk. rewrite Rmult_1_l. unfold impulse_at. fold X. f_equal.
    - apply C_ext; cbn [re im RtoC]; [reflexivity|]. symmetry. now apply IDFT_herm_real.
    - unfold wroot. pose proof (Z.div_mod (k - n / 2) n ltac:(lia)) as D. replace ((k - n / 2) mod n) with (k - n / 2 - n * ((k - n / 2) / n)) by lia. set (q := (k - n / 2) / n). set (d := k - n / 2).
      replace (- (2 * PI * IZR ((d - n * q) * j) / IZR n))%R with (- (IZR d * (2 * PI * IZR j / IZR n)) + 2 * PI * IZR (q * j))%R.
      + rewrite cis_add, cis_period. unfold Cmul, C1; cbn [re im]. apply C_ext; cbn [re im]; ring.
      + rewrite !mult_IZR, minus_IZR, mult_IZR. field. apply not_0_IZR. lia. }
  split.
  - replace 0%R with (2 * PI * IZR 0 / IZR n)%R by (unfold Rdiv; ring). rewrite G by lia. unfold herm, X. cbn [Z.eqb]. rewrite lin_0. do 3 f_equal. unfold Rdiv. ring.
  - intros j Hj. rewrite G by lia. unfold herm, X. destruct (Z.eqb_spec j 0); [lia|]. destruct (Z.eqb_spec (2 * j) n); [lia|]. destruct (Z.ltb_spec (2 * j) n); [|lia]. now rewrite grid_point by lia.
Qed.
Print Assumptions C39_arbitrary_response.

Example C39_nontrivial : exists w y, uses_window [7; 7; 7; 7; 7]%R (WindowFunc (HammingWindow 4 true)) w /\ bell w /\ DesignLowpass 4 true [7; 7; 7; 7; 7]%R (1 / 3) (WindowFunc (HammingWindow 4 true)) = Ok y /\ symmetric (K := Rring) y /\ dc_gain y = 1%R.
Proof.
  destruct (C39_bell_windows 4 true [7; 7; 7; 7; 7]%R 1 ltac:(lia) eq_refl ltac:(cbn; lia) ltac:(lra)) as (_ & (w & Hw & Hb) & _). exists w.
  destruct (C39_lowpass_succeeds 4 true [7; 7; 7; 7; 7]%R (1 / 3) _ w ltac:(lia) eq_refl Hw Hb ltac:(lra)) as (y & E & _ & Sy & D). exists y. split; [exact Hw|]. split; [exact Hb|]. split; [exact E|]. split; [exact Sy|exact D].
Qed.
