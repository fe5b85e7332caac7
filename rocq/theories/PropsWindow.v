(** C40 - C42: spaces, window functions, waveform generators. *)
From Coq Require Import ZArith List Bool Lia Reals Lra.
From Verif Require Import Base BaseFacts Complex KernelModel KernelProofs FftModel PolyphaseModel PolyphaseProofs PropsPolyphase PropsFirBand PropsCheby Cheby2Proofs ChebyProofs WindowModel WindowProofs DolphProofs.
From Coq Require Import ZifyBool ZifyNat.
Import ListNotations.
Open Scope Z_scope.

Lemma len_tab (out : list R) f : lenZ (tab (lenZ out) f : list R) = lenZ out.
Proof. rewrite lenZ_tab. pose proof (lenZ_nonneg out). lia. Qed.
Lemma IZR_pred n : (2 <= n)%Z -> (IZR n - 1 <> 0)%R.
Proof. intros H. rewrite <- minus_IZR. apply not_0_IZR. lia. Qed.
Lemma IZR_pos n : (1 <= n)%Z -> (0 < IZR n)%R.
Proof. intros H. apply IZR_lt. lia. Qed.

(** ** C41 *)
(** inclusive: from start to end in equal steps *)
Theorem C41_linspace_inclusive W vec (out : list R) s e : 1 <= W -> 2 <= lenZ out ->
  exists y, LinSpace W vec out s e true = Ok y /\ lenZ y = lenZ out /\
    atR y 0 = s /\ atR y (lenZ y - 1) = e /\
    forall i, 0 <= i < lenZ y - 1 -> (atR y (i + 1) - atR y i = (e - s) / IZR (lenZ y - 1))%R.
Proof.
  intros HW Hn. rewrite LinSpace_ok by exact HW. eexists. split; [reflexivity|]. asL. rewrite len_tab. split; [reflexivity|].
  pose proof (IZR_pred _ Hn) as Hd. rewrite <- minus_IZR in Hd. split; [|split].
  - rewrite (at0_tab (K := Rring)) by lia. unfold lin. ring.
  - rewrite (at0_tab (K := Rring)) by lia. unfold lin. rewrite Z.max_r by lia. field. exact Hd.
  - intros i Hi. rewrite !(at0_tab (K := Rring)) by lia. unfold lin. rewrite Z.max_r by lia. rewrite plus_IZR. field. exact Hd.
Qed.
Print Assumptions C41_linspace_inclusive.
(** exclusive: the next step after the last sample would be end *)
Theorem C41_linspace_exclusive W vec (out : list R) s e : 1 <= W -> 1 <= lenZ out ->
  exists y, LinSpace W vec out s e false = Ok y /\ lenZ y = lenZ out /\
    atR y 0 = s /\ (atR y (lenZ y - 1) + (e - s) / IZR (lenZ y) = e)%R /\
    forall i, 0 <= i < lenZ y - 1 -> (atR y (i + 1) - atR y i = (e - s) / IZR (lenZ y))%R.
Proof.
  intros HW Hn. rewrite LinSpace_ok by exact HW. eexists. split; [reflexivity|]. asL. rewrite len_tab. split; [reflexivity|].
  pose proof (IZR_pos _ Hn) as Hd. split; [|split].
  - rewrite (at0_tab (K := Rring)) by lia. unfold lin. ring.
  - rewrite (at0_tab (K := Rring)) by lia. unfold lin. rewrite Z.sub_0_r, Z.max_r by lia. rewrite minus_IZR. field. lra.
  - intros i Hi. rewrite !(at0_tab (K := Rring)) by lia. unfold lin. rewrite Z.sub_0_r, Z.max_r by lia. rewrite plus_IZR. field. lra.
Qed.
Print Assumptions C41_linspace_exclusive.
(** a single inclusive sample is start; no samples, no output *)
Theorem C41_linspace_degenerate W vec (a : R) s e incl : 1 <= W ->
  LinSpace W vec [a] s e true = Ok [s] /\ LinSpace W vec [] s e incl = Ok [].
Proof.
  intros HW. rewrite !LinSpace_ok by exact HW. split; [|reflexivity]. f_equal. change ([lin 1 s e true 0] = [s]). apply (f_equal (fun x => [x])). unfold lin. ring.
Qed.
Print Assumptions C41_linspace_degenerate.
(** LogSpace: base raised to the points of LinSpace *)
Theorem C41_logspace W vec (out : list R) s e b incl : 1 <= W -> (0 < b)%R ->
  exists x y, LinSpace W vec out s e incl = Ok x /\ LogSpace W vec out s e b incl = Ok y /\ lenZ y = lenZ out /\
    (forall i, 0 <= i < lenZ out -> atR y i = Rpower b (atR x i)) /\
    (2 <= lenZ out -> incl = true -> atR y 0 = Rpower b s /\ atR y (lenZ out - 1) = Rpower b e).
Proof.
  intros HW Hb. rewrite LinSpace_ok, LogSpace_ok by exact HW. do 2 eexists. split; [reflexivity|]. split; [reflexivity|]. asL. rewrite len_tab. split; [reflexivity|].
  assert (A : forall i, 0 <= i < lenZ out -> atR (tab (lenZ out) (fun i => exp (lin (lenZ out) s e incl i * ln b))) i = Rpower b (lin (lenZ out) s e incl i)) by (intros i Hi; rewrite (at0_tab (K := Rring)) by lia; reflexivity).
  split.
  - intros i Hi. rewrite A by exact Hi. rewrite (at0_tab (K := Rring)) by lia. reflexivity.
  - intros Hn ->. pose proof (IZR_pred _ Hn) as Hd. rewrite <- minus_IZR in Hd. rewrite !A by lia. unfold lin. rewrite Z.max_r by lia. split; f_equal; [ring|]. field. exact Hd.
Qed.
Print Assumptions C41_logspace.
Example C41_nontrivial : exists y, LinSpace 4 true (repeat 7%R 5) 1 3 true = Ok y /\ atR y 0 = 1%R /\ atR y 1 = (3 / 2)%R /\ atR y 4 = 3%R.
Proof.
  rewrite LinSpace_ok by lia. eexists. split; [reflexivity|]. change (lenZ (repeat 7%R 5)) with 5. rewrite !(at0_tab (K := Rring)) by lia. unfold lin. change (IZR (Z.max 1 (5 - 1))) with 4%R. asL. split; [|split]; field.
Qed.

(** ** C40 *)
(** the angle of sample k of n on the circle, 2 pi k / (n - 1) *)
Definition angle (n k : Z) : R := (2 * PI * IZR k / IZR (n - 1))%R.
(** [is_window n w f lo hi]: n samples f, symmetric, values in [lo, hi] *)
Definition is_window (n : Z) (w : list R) (f : Z -> R) (lo hi : R) : Prop :=
  lenZ w = n /\ symmetric (K := Rring) w /\
  (forall k, 0 <= k < n -> atR w k = f k) /\
  (forall k, 0 <= k < n -> (lo <= atR w k <= hi)%R).
Lemma window_intro (out : list R) (g f : Z -> R) lo hi :
  (forall k, 0 <= k < lenZ out -> g k = f k) ->
  (forall k, 0 <= k < lenZ out -> f k = f (lenZ out - 1 - k)) ->
  (forall k, 0 <= k < lenZ out -> (lo <= f k <= hi)%R) ->
  is_window (lenZ out) (tab (lenZ out) g) f lo hi.
Proof.
  intros E S B. assert (A : forall k, 0 <= k < lenZ out -> atR (tab (lenZ out) g) k = f k) by (intros k Hk; rewrite (at0_tab (K := Rring)) by lia; auto).
  split; [apply len_tab|]. split; [|split].
  - intros k. asL. rewrite len_tab. intros Hk. rewrite !A by lia. auto.
  - exact A.
  - intros k Hk. rewrite A by exact Hk. auto.
Qed.
Lemma lin_angle n k : 1 <= n -> 0 <= k < n -> lin n 0 (2 * PI) true k = angle n k.
Proof.
  intros Hn Hk. unfold lin, angle. destruct (Z.eq_dec n 1) as [->|E].
  - assert (k = 0) by lia. subst k. unfold Rdiv. change (1 - 1) with 0. ring.
  - rewrite Z.max_r by lia. unfold Rdiv. ring.
Qed.
Lemma angle_sym n k : 2 <= n -> (angle n (n - 1 - k) = 2 * PI - angle n k)%R.
Proof. intros Hn. unfold angle. rewrite (minus_IZR (n - 1) k). assert (IZR (n - 1) <> 0)%R by (apply not_0_IZR; lia). field. assumption. Qed.
Lemma cos_2PI_sub x : cos (2 * PI - x) = cos x.
Proof. rewrite cos_minus, cos_2PI, sin_2PI. ring. Qed.
Lemma cos_angle_sym n k : 1 <= n -> 0 <= k < n -> cos (angle n k) = cos (angle n (n - 1 - k)).
Proof.
  intros Hn Hk. destruct (Z.eq_dec n 1) as [->|E]; [do 2 f_equal; lia|]. rewrite angle_sym by lia. now rewrite cos_2PI_sub.
Qed.
(** the middle sample of an odd window sits at pi *)
Lemma angle_mid n : 3 <= n -> n mod 2 = 1 -> angle n (n / 2) = PI.
Proof.
  intros Hn Ho. unfold angle. assert (E : n - 1 = 2 * (n / 2)) by (pose proof (Z.div_mod n 2); lia). rewrite E, mult_IZR.
  assert (IZR (n / 2) <> 0)%R by (apply not_0_IZR; lia). field. assumption.
Qed.
Lemma cos2 t : (cos (2 * t) = 2 * (cos t * cos t) - 1)%R.
Proof. rewrite cos_2a_cos. ring. Qed.
Lemma cos3 t : (cos (3 * t) = 4 * (cos t * cos t * cos t) - 3 * cos t)%R.
Proof.
  replace (3 * t)%R with (2 * t + t)%R by ring. rewrite cos_plus, cos2, sin_2a. pose proof (sin2_cos2 t) as E. unfold Rsqr in E.
  replace (2 * sin t * cos t * sin t)%R with (2 * cos t * (sin t * sin t))%R by ring. replace (sin t * sin t)%R with (1 - cos t * cos t)%R by lra. ring.
Qed.
Lemma cos4 t : (cos (4 * t) = 8 * (cos t * cos t * cos t * cos t) - 8 * (cos t * cos t) + 1)%R.
Proof. replace (4 * t)%R with (2 * (2 * t))%R by ring. rewrite cos2, cos2. ring. Qed.

Definition hamming (n k : Z) : R := (54 / 100 - 46 / 100 * cos (angle n k))%R.
Theorem C40_hamming W vec (out : list R) : 1 <= W ->
  exists w, HammingWindow W vec out = Ok w /\ is_window (lenZ out) w (hamming (lenZ out)) (8 / 100) 1 /\
    (3 <= lenZ out -> lenZ out mod 2 = 1 -> atR w (lenZ out / 2) = 1%R).
Proof.
  intros HW. rewrite Hamming_ok by exact HW. eexists. split; [reflexivity|]. assert (V : is_window (lenZ out) (tab (lenZ out) (fun i => cos (lin (lenZ out) 0 (2 * PI) true i) * - (46 / 100) + 54 / 100)%R) (hamming (lenZ out)) (8 / 100) 1).
  { apply window_intro.
    - intros k Hk. rewrite lin_angle by lia. unfold hamming. lra.
    - intros k Hk. unfold hamming. now rewrite cos_angle_sym by lia.
    - intros k Hk. unfold hamming. pose proof (COS_bound (angle (lenZ out) k)). lra. }
  split; [exact V|]. intros H3 Ho. destruct V as (_ & _ & F & _). assert (0 <= lenZ out / 2 < lenZ out) by (split; [apply Z.div_pos|apply Z.div_lt]; lia). rewrite F by assumption. unfold hamming. rewrite angle_mid by assumption. rewrite cos_PI. lra.
Qed.
Print Assumptions C40_hamming.

Theorem C40_rectangular (out : list R) : exists w, RectangularWindow out = Ok w /\ is_window (lenZ out) w (fun _ => 1%R) 1 1.
Proof. rewrite Rectangular_ok. eexists. split; [reflexivity|]. apply window_intro; intros; lra. Qed.
Print Assumptions C40_rectangular.

(** rises linearly from 0 at the ends to 1 in the middle *)
Definition triangle (n k : Z) : R := (1 - Rabs (2 * IZR k / IZR (n - 1) - 1))%R.
Theorem C40_triangular W vec (out : list R) : 1 <= W ->
  exists w, TriangularWindow W vec out = Ok w /\ is_window (lenZ out) w (triangle (lenZ out)) 0 1 /\
    (3 <= lenZ out -> lenZ out mod 2 = 1 -> atR w (lenZ out / 2) = 1%R).
Proof.
  intros HW. rewrite Triangular_ok by exact HW. eexists. split; [reflexivity|]. set (n := lenZ out).
  assert (V : is_window n (tab n (fun i => Rabs (lin n 0 2 true i - 1) * -1 + 1)%R) (triangle n) 0 1).
  { apply window_intro; fold n.
    - intros k Hk. unfold triangle, lin. rewrite Rminus_0_r, Rplus_0_r. destruct (Z.eq_dec n 1) as [E|E].
      + assert (k = 0) by lia. subst k. rewrite E. unfold Rdiv. replace (0 * (2 * / IZR (Z.max 1 (1 - 1))) - 1)%R with (2 * 0 * / IZR (1 - 1) - 1)%R by ring. lra.
      + rewrite Z.max_r by lia. replace (IZR k * (2 / IZR (n - 1)))%R with (2 * IZR k / IZR (n - 1))%R by (unfold Rdiv; ring). lra.
    - intros k Hk. unfold triangle. destruct (Z.eq_dec n 1) as [E|E]; [assert (k = 0) by lia; subst k; rewrite E; reflexivity|].
      assert (D : IZR (n - 1) <> 0%R) by (apply not_0_IZR; lia). rewrite (minus_IZR (n - 1) k).
      replace (2 * (IZR (n - 1) - IZR k) / IZR (n - 1) - 1)%R with (- (2 * IZR k / IZR (n - 1) - 1))%R by (field; exact D). now rewrite Rabs_Ropp.
    - intros k Hk. unfold triangle. destruct (Z.eq_dec n 1) as [E|E].
      + assert (k = 0) by lia. subst k. rewrite E. unfold Rdiv. replace (2 * 0 * / IZR (1 - 1) - 1)%R with (-1)%R by ring. rewrite Rabs_left by lra. lra.
      + assert (D : (0 < IZR (n - 1))%R) by (apply IZR_lt; lia). assert (B : (0 <= IZR k / IZR (n - 1) <= 1)%R).
        { assert (0 <= IZR k <= IZR (n - 1))%R by (split; apply IZR_le; lia). split; [apply Rmult_le_pos; [lra|left; now apply Rinv_0_lt_compat]|]. apply Rmult_le_reg_r with (1 := D). unfold Rdiv. rewrite Rmult_assoc, Rinv_l by lra. lra. }
        replace (2 * IZR k / IZR (n - 1))%R with (2 * (IZR k / IZR (n - 1)))%R by (unfold Rdiv; ring). split; [|pose proof (Rabs_pos (2 * (IZR k / IZR (n - 1)) - 1)); lra]. apply Rplus_le_reg_r with (Rabs (2 * (IZR k / IZR (n - 1)) - 1)). ring_simplify. apply Rabs_le. lra. }
  split; [exact V|]. intros H3 Ho. destruct V as (_ & _ & F & _). assert (0 <= n / 2 < n) by (split; [apply Z.div_pos|apply Z.div_lt]; lia). rewrite F by assumption. unfold triangle.
  assert (E : n - 1 = 2 * (n / 2)) by (pose proof (Z.div_mod n 2); lia). rewrite E, mult_IZR. assert (IZR (n / 2) <> 0)%R by (apply not_0_IZR; lia).
  replace (2 * IZR (n / 2) / (2 * IZR (n / 2)) - 1)%R with 0%R by (field; assumption). rewrite Rabs_R0. lra.
Qed.
Print Assumptions C40_triangular.

Definition blackman (n k : Z) : R := (42 / 100 - 5 / 10 * cos (angle n k) + 8 / 100 * cos (2 * angle n k))%R.
Theorem C40_blackman W vec (out : list R) : 1 <= W ->
  exists w, BlackmanWindow W vec out = Ok w /\ is_window (lenZ out) w (blackman (lenZ out)) 0 1 /\
    (3 <= lenZ out -> lenZ out mod 2 = 1 -> atR w (lenZ out / 2) = 1%R).
Proof.
  intros HW. rewrite Blackman_ok by exact HW. eexists. split; [reflexivity|]. set (n := lenZ out). cbv zeta.
  assert (V : is_window n (tab n (fun i => 42 / 100 - 5 / 10 * cos (lin n 0 (2 * PI) true i) + 8 / 100 * cos (2 * lin n 0 (2 * PI) true i))%R) (blackman n) 0 1).
  { apply window_intro; fold n.
    - intros k Hk. now rewrite lin_angle by lia.
    - intros k Hk. unfold blackman. rewrite !cos2. now rewrite cos_angle_sym by lia.
    - intros k Hk. unfold blackman. rewrite cos2. pose proof (COS_bound (angle n k)) as B. set (c := cos (angle n k)) in *. split; nra. }
  split; [exact V|]. intros H3 Ho. destruct V as (_ & _ & F & _). assert (0 <= n / 2 < n) by (split; [apply Z.div_pos|apply Z.div_lt]; lia). rewrite F by assumption. unfold blackman. rewrite cos2. rewrite angle_mid by assumption. rewrite cos_PI. lra.
Qed.
Print Assumptions C40_blackman.

Definition blackman_harris (n k : Z) : R := (35875 / 100000 - 48829 / 100000 * cos (angle n k) + 14128 / 100000 * cos (2 * angle n k) - 1168 / 100000 * cos (3 * angle n k))%R.
Theorem C40_blackman_harris W vec (out : list R) : 1 <= W ->
  exists w, BlackmanHarrisWindow W vec out = Ok w /\ is_window (lenZ out) w (blackman_harris (lenZ out)) (6 / 100000) 1 /\
    (3 <= lenZ out -> lenZ out mod 2 = 1 -> atR w (lenZ out / 2) = 1%R).
Proof.
  intros HW. rewrite BlackmanHarris_ok by exact HW. eexists. split; [reflexivity|]. set (n := lenZ out). cbv zeta.
  match goal with |- is_window _ ?w _ _ _ /\ _ => assert (V : is_window n w (blackman_harris n) (6 / 100000) 1) end.
  { apply window_intro; fold n.
    - intros k Hk. rewrite lin_angle by lia. unfold blackman_harris. lra.
    - intros k Hk. unfold blackman_harris. rewrite !cos2, !cos3. now rewrite cos_angle_sym by lia.
    - intros k Hk. unfold blackman_harris. rewrite cos2, cos3. pose proof (COS_bound (angle n k)) as B. set (c := cos (angle n k)) in *.
      assert (P1 : (0 <= 1 - c)%R) by lra. assert (P2 : (0 <= 1 + c)%R) by lra.
      assert (Q1 : (0 <= 21741 - 23584 * c + 4672 * (c * c))%R) by nra. assert (Q2 : (0 <= 78253 - 32928 * c + 4672 * (c * c))%R) by nra.
      pose proof (Rmult_le_pos _ _ P1 Q1) as M1. pose proof (Rmult_le_pos _ _ P2 Q2) as M2. split; lra. }
  split; [exact V|]. intros H3 Ho. destruct V as (_ & _ & F & _). assert (0 <= n / 2 < n) by (split; [apply Z.div_pos|apply Z.div_lt]; lia). rewrite F by assumption. unfold blackman_harris. rewrite cos2, cos3. rewrite angle_mid by assumption. rewrite cos_PI. lra.
Qed.
Print Assumptions C40_blackman_harris.

(** slightly negative near the ends; the middle is 1.000000003 with the coefficients of the code *)
Definition flat_top_window (n k : Z) : R := (21557895 / 100000000 - 41663158 / 100000000 * cos (angle n k) + 277263158 / 1000000000 * cos (2 * angle n k)
  - 83578947 / 1000000000 * cos (3 * angle n k) + 6947368 / 1000000000 * cos (4 * angle n k))%R.
Theorem C40_flat_top W vec (out : list R) : 1 <= W -> lenZ out <> 1 ->
  exists w, FlatTopWindow W vec out = Ok w /\ is_window (lenZ out) w (flat_top_window (lenZ out)) (- (71 / 1000)) (1000000003 / 1000000000) /\
    (3 <= lenZ out -> lenZ out mod 2 = 1 -> atR w (lenZ out / 2) = (1000000003 / 1000000000)%R).
Proof.
  intros HW H1. rewrite FlatTop_ok by assumption. eexists. split; [reflexivity|]. set (n := lenZ out) in *. cbv zeta.
  match goal with |- is_window _ ?w _ _ _ /\ _ => assert (V : is_window n w (flat_top_window n) (- (71 / 1000)) (1000000003 / 1000000000)) end.
  { apply window_intro; fold n.
    - intros k Hk. rewrite lin_angle by lia. unfold flat_top, flat_top_window. lra.
    - intros k Hk. unfold flat_top_window. rewrite !cos2, !cos3, !cos4. now rewrite cos_angle_sym by lia.
    - intros k Hk. unfold flat_top_window. rewrite cos2, cos3, cos4. pose proof (COS_bound (angle n k)) as B. set (c := cos (angle n k)) in *. split.
      + assert (Q : (0 <= ((918463456757 / 2500000000000) + (- (1945315789 / 6250000000)) * c + (868421 / 15625000) * (c * c)))%R) by nra. pose proof (Rmult_le_pos _ _ (Rle_0_sqr (c - 83 / 400)) Q) as M1. unfold Rsqr in M1. lra.
      + assert (C3 : (c * c * c <= 1)%R) by nra. assert (Q : (0 <= - (55578944 / 1000000000) * (c * c * c) + 389894732 / 1000000000 * (c * c) - 888842104 / 1000000000 * c + 1054736843 / 1000000000)%R) by nra. assert (P2 : (0 <= 1 + c)%R) by lra. pose proof (Rmult_le_pos _ _ P2 Q) as M1. lra. }
  split; [exact V|]. intros H3 Ho. destruct V as (_ & _ & F & _). assert (0 <= n / 2 < n) by (split; [apply Z.div_pos|apply Z.div_lt]; lia). rewrite F by assumption. unfold flat_top_window. rewrite cos2, cos3, cos4. rewrite angle_mid by assumption. rewrite cos_PI. lra.
Qed.
Print Assumptions C40_flat_top.

(** Gaussian of relative width sigma, centred on (n - 1) / 2 *)
Definition gaussian (n : Z) (sigma : R) (k : Z) : R := exp (- (1 / 2) * Rsqr ((IZR k - IZR (n - 1) / 2) / (sigma * (IZR (n - 1) / 2)))).
Theorem C40_gaussian W vec (out : list R) sigma : 1 <= W -> (sigma <> 0)%R -> lenZ out <> 1 ->
  exists w, GaussianWindow W vec out sigma = Ok w /\ is_window (lenZ out) w (gaussian (lenZ out) sigma) 0 1 /\
    (forall k, 0 <= k < lenZ out -> (0 < atR w k)%R) /\
    (3 <= lenZ out -> lenZ out mod 2 = 1 -> atR w (lenZ out / 2) = 1%R).
Proof.
  intros HW Hs H1. rewrite Gaussian_ok by assumption. eexists. split; [reflexivity|]. set (n := lenZ out) in *. cbv zeta.
  match goal with |- is_window _ ?w _ _ _ /\ _ => assert (V : is_window n w (gaussian n sigma) 0 1) end.
  { apply window_intro; fold n.
    - intros k Hk. unfold gaussian, lin, Rsqr. f_equal. rewrite Z.max_r by lia. assert (D : IZR (n - 1) <> 0%R) by (apply not_0_IZR; lia). rewrite <- minus_IZR. field. split; assumption.
    - intros k Hk. unfold gaussian. do 2 f_equal. rewrite (minus_IZR (n - 1) k). assert (D : IZR (n - 1) <> 0%R) by (apply not_0_IZR; lia). set (x := IZR (n - 1)) in *. unfold Rsqr. field. split; assumption.
    - intros k Hk. unfold gaussian. split; [left; apply exp_pos|]. apply Rle_trans with (exp 0); [|rewrite exp_0; lra]. set (x := Rsqr _). assert (0 <= x)%R by apply Rle_0_sqr. destruct (Req_dec x 0) as [->|E].
      + rewrite Rmult_0_r. lra.
      + left. apply exp_increasing. lra. }
  split; [exact V|]. destruct V as (_ & _ & F & _). split.
  - intros k Hk. rewrite F by exact Hk. apply exp_pos.
  - intros H3 Ho. assert (0 <= n / 2 < n) by (split; [apply Z.div_pos|apply Z.div_lt]; lia). rewrite F by assumption. unfold gaussian.
    assert (E : n - 1 = 2 * (n / 2)) by (pose proof (Z.div_mod n 2); lia). rewrite E, mult_IZR. assert (IZR (n / 2) <> 0)%R by (apply not_0_IZR; lia).
    replace ((IZR (n / 2) - 2 * IZR (n / 2) / 2) / (sigma * (2 * IZR (n / 2) / 2)))%R with 0%R by (field; split; assumption). rewrite Rsqr_0, Rmult_0_r. apply exp_0.
Qed.
Print Assumptions C40_gaussian.

(** sin(x)/x over one main lobe *)
Definition sinc (x : R) : R := if Req_EM_T x 0 then 1%R else (sin x / x)%R.
Definition lanczos (n k : Z) : R := sinc (angle n k - PI).
Lemma sinc_even x : sinc (- x) = sinc x.
Proof. unfold sinc. destruct (Req_EM_T (- x) 0), (Req_EM_T x 0); try lra. rewrite sin_neg. field. assumption. Qed.
Lemma sinc_pos_bound x : (0 < x <= PI)%R -> (0 <= sinc x <= 1)%R.
Proof.
  intros H. unfold sinc. destruct (Req_EM_T x 0); [lra|]. split.
  - apply Rmult_le_pos; [apply sin_ge_0; lra|left; apply Rinv_0_lt_compat; lra].
  - apply Rmult_le_reg_r with x; [lra|]. unfold Rdiv. rewrite Rmult_assoc, Rinv_l by lra. pose proof (sin_lt_x x). lra.
Qed.
Lemma sinc_bound x : (- PI <= x <= PI)%R -> (0 <= sinc x <= 1)%R.
Proof.
  intros H. destruct (Rtotal_order x 0) as [L|[->|L]].
  - rewrite <- sinc_even. apply sinc_pos_bound. lra.
  - unfold sinc. destruct (Req_EM_T 0 0); lra.
  - apply sinc_pos_bound. lra.
Qed.
Lemma angle_bound n k : 1 <= n -> 0 <= k < n -> (0 <= angle n k <= 2 * PI)%R.
Proof.
  intros Hn Hk. unfold angle. pose proof PI_RGT_0 as P. destruct (Z.eq_dec n 1) as [->|E]; [assert (k = 0) by lia; subst k; unfold Rdiv; rewrite Rmult_0_r, Rmult_0_l; lra|].
  assert (D : (0 < IZR (n - 1))%R) by (apply IZR_lt; lia). assert (0 <= IZR k <= IZR (n - 1))%R by (split; apply IZR_le; lia).
  assert (0 <= IZR k / IZR (n - 1) <= 1)%R by (split; [apply Rmult_le_pos; [lra|left; now apply Rinv_0_lt_compat]|apply Rmult_le_reg_r with (1 := D); unfold Rdiv; rewrite Rmult_assoc, Rinv_l by lra; lra]).
  replace (2 * PI * IZR k / IZR (n - 1))%R with (2 * PI * (IZR k / IZR (n - 1)))%R by (unfold Rdiv; ring). split; [apply Rmult_le_pos; lra|]. rewrite <- (Rmult_1_r (2 * PI)) at 2. apply Rmult_le_compat_l; lra.
Qed.
Lemma lin_shift n c k : 1 <= n -> 0 <= k < n -> lin n (- c) c true k = (c / PI * (angle n k - PI))%R.
Proof.
  intros Hn Hk. pose proof PI_neq0. unfold lin, angle. destruct (Z.eq_dec n 1) as [->|E].
  - assert (k = 0) by lia. subst k. change (1 - 1) with 0. unfold Rdiv. rewrite !Rmult_0_r, !Rmult_0_l. field. assumption.
  - rewrite Z.max_r by lia. assert (D : IZR (n - 1) <> 0%R) by (apply not_0_IZR; lia). field. split; assumption.
Qed.
Theorem C40_lanczos W vec (out : list R) : 1 <= W ->
  exists w, LanczosWindow W vec out = Ok w /\ is_window (lenZ out) w (lanczos (lenZ out)) 0 1 /\
    (3 <= lenZ out -> lenZ out mod 2 = 1 -> atR w (lenZ out / 2) = 1%R).
Proof.
  intros HW. rewrite Lanczos_ok by exact HW. eexists. split; [reflexivity|]. set (n := lenZ out). cbv zeta. pose proof PI_RGT_0 as P.
  match goal with |- is_window _ ?w _ _ _ /\ _ => assert (V : is_window n w (lanczos n) 0 1) end.
  { apply window_intro; fold n.
    - intros k Hk. unfold lanczos. rewrite lin_shift by lia. replace (PI / PI * (angle n k - PI))%R with (angle n k - PI)%R by (field; lra). reflexivity.
    - intros k Hk. unfold lanczos. destruct (Z.eq_dec n 1) as [E|E]; [do 3 f_equal; lia|]. rewrite angle_sym by lia. replace (2 * PI - angle n k - PI)%R with (- (angle n k - PI))%R by ring. now rewrite sinc_even.
    - intros k Hk. apply sinc_bound. pose proof (angle_bound n k ltac:(lia) Hk). lra. }
  split; [exact V|]. intros H3 Ho. destruct V as (_ & _ & F & _). assert (0 <= n / 2 < n) by (split; [apply Z.div_pos|apply Z.div_lt]; lia). rewrite F by assumption. unfold lanczos. rewrite angle_mid by assumption. unfold sinc. destruct (Req_EM_T (PI - PI) 0); [reflexivity|lra].
Qed.
Print Assumptions C40_lanczos.

(** The modified Bessel function I_0 as its power series sum (x^2/4)^j / (j!)^2. *)
Definition i0_coef (j : nat) : R := / (4 ^ j * (INR (fact j) * INR (fact j))).
Lemma i0_coef_pos j : (0 < i0_coef j)%R.
Proof. apply Rinv_0_lt_compat. pose proof (INR_fact_lt_0 j). apply Rmult_lt_0_compat; [apply pow_lt; lra|apply Rmult_lt_0_compat; assumption]. Qed.
Lemma i0_ratio j : (i0_coef (S j) / i0_coef j = / (4 * (INR (S j) * INR (S j))))%R.
Proof.
  unfold i0_coef. rewrite fact_simpl, mult_INR. cbn [pow]. pose proof (INR_fact_neq_0 j). assert (INR (S j) <> 0)%R by (apply not_0_INR; lia). assert (4 ^ j <> 0)%R by (apply pow_nonzero; lra). field. repeat split; assumption.
Qed.
Lemma i0_alembert : Un_cv (fun j => Rabs (i0_coef (S j) / i0_coef j)) 0.
Proof.
  intros eps He. destruct (archimed_cor1 eps He) as (N & HN & N0). exists N. intros j Hj. rewrite i0_ratio. unfold R_dist. rewrite Rminus_0_r, Rabs_Rabsolu.
  assert (P : (0 < INR (S j))%R) by (apply lt_0_INR; lia). assert (1 <= INR (S j))%R by (rewrite S_INR; pose proof (pos_INR j); lra).
  rewrite Rabs_right by (left; apply Rinv_0_lt_compat; nra). apply Rle_lt_trans with (2 := HN). apply Rinv_le_contravar; [apply lt_0_INR; lia|]. assert (INR N <= INR (S j))%R by (apply le_INR; lia). nra.
Qed.
Definition i0_series (y : R) : {l : R | Pser i0_coef y l}.
Proof. apply Alembert_C3; [intros n; pose proof (i0_coef_pos n); lra|exact i0_alembert]. Qed.
Definition I0 (x : R) : R := proj1_sig (i0_series (x * x)).
Lemma I0_cv x : Un_cv (fun N => sum_f_R0 (fun j => i0_coef j * (x * x) ^ j)%R N) (I0 x).
Proof. unfold I0. destruct (i0_series (x * x)) as [l Hl]. cbn [proj1_sig]. intros eps He. destruct (Hl eps He) as [N HN]. exists N. intros n Hn. exact (HN n Hn). Qed.
Lemma I0_ge_1 x : (1 <= I0 x)%R.
Proof.
  apply (@Rle_cv_lim (fun _ => 1%R) (fun N => sum_f_R0 (fun j => i0_coef j * (x * x) ^ j)%R N)).
  - intros N. induction N as [|N IH]; [cbn; unfold i0_coef; cbn; lra|]. cbn [sum_f_R0]. assert (0 <= (x * x) ^ S N)%R by (apply pow_le; nra). pose proof (i0_coef_pos (S N)). nra.
  - intros eps He. exists 0%nat. intros. unfold R_dist. rewrite Rminus_diag_eq by reflexivity. rewrite Rabs_R0. exact He.
  - apply I0_cv.
Qed.
Lemma I0_monotone x y : (0 <= x <= y)%R -> (I0 x <= I0 y)%R.
Proof.
  intros H. apply (@Rle_cv_lim (fun N => sum_f_R0 (fun j => i0_coef j * (x * x) ^ j)%R N) (fun N => sum_f_R0 (fun j => i0_coef j * (y * y) ^ j)%R N)); [|apply I0_cv|apply I0_cv].
  intros N. apply sum_Rle. intros j _. apply Rmult_le_compat_l; [left; apply i0_coef_pos|]. apply pow_incr. nra.
Qed.
Definition kaiser (n : Z) (alpha : R) (k : Z) : R := (I0 (PI * alpha * sqrt (1 - Rsqr (2 * IZR k / IZR (n - 1) - 1))) / I0 (PI * alpha))%R.
Lemma angle_unit n k : (angle n k / PI = 2 * IZR k / IZR (n - 1))%R.
Proof. unfold angle, Rdiv. pose proof PI_neq0. replace (2 * PI * IZR k * / IZR (n - 1) * / PI)%R with (2 * IZR k * / IZR (n - 1) * (PI * / PI))%R by ring. rewrite Rinv_r by assumption. ring. Qed.
Theorem C40_kaiser W vec (out : list R) alpha : 1 <= W -> (0 <= alpha)%R ->
  exists w, KaiserWindow W vec I0 out alpha = Ok w /\ is_window (lenZ out) w (kaiser (lenZ out) alpha) 0 1 /\
    (forall k, 0 <= k < lenZ out -> (0 < atR w k)%R) /\
    (3 <= lenZ out -> lenZ out mod 2 = 1 -> atR w (lenZ out / 2) = 1%R).
Proof.
  intros HW Ha. rewrite Kaiser_ok by exact HW. eexists. split; [reflexivity|]. set (n := lenZ out). cbv zeta. pose proof PI_RGT_0 as P.
  pose proof (I0_ge_1 (PI * alpha)) as G. assert (Ha' : (0 <= PI * alpha)%R) by (apply Rmult_le_pos; lra).
  assert (U : forall k, 0 <= k < n -> (0 <= Rsqr (2 * IZR k / IZR (n - 1) - 1) <= 1)%R).
  { intros k Hk. split; [apply Rle_0_sqr|]. apply Rle_trans with (Rsqr 1); [|rewrite Rsqr_1; lra]. apply Rsqr_le_abs_1. rewrite Rabs_R1. rewrite <- angle_unit. apply Rabs_le. pose proof (angle_bound n k ltac:(lia) Hk) as B.
    assert (0 <= angle n k / PI <= 2)%R by (split; [apply Rmult_le_pos; [lra|left; now apply Rinv_0_lt_compat]|apply Rmult_le_reg_r with (1 := P); unfold Rdiv; rewrite Rmult_assoc, Rinv_l by lra; lra]). split; lra. }
  match goal with |- is_window _ ?w _ _ _ /\ _ => assert (V : is_window n w (kaiser n alpha) 0 1) end.
  { apply window_intro; fold n.
    - intros k Hk. unfold kaiser. f_equal. f_equal. f_equal. f_equal.
      replace (lin n (-1) 1 true k) with (2 * IZR k / IZR (n - 1) - 1)%R by (rewrite <- angle_unit; replace (-1)%R with (- (1))%R by lra; rewrite lin_shift by lia; field; lra).
      pose proof (U k Hk) as B. unfold Rsqr in *. apply Rmax_right. lra.
    - intros k Hk. unfold kaiser. do 4 f_equal. destruct (Z.eq_dec n 1) as [E|E]; [do 6 f_equal; lia|]. assert (D : IZR (n - 1) <> 0%R) by (apply not_0_IZR; lia). rewrite (minus_IZR (n - 1) k). set (x := IZR (n - 1)) in *. unfold Rsqr. field. assumption.
    - intros k Hk. unfold kaiser. pose proof (U k Hk) as B. set (u := Rsqr _) in *. set (s := sqrt (1 - u)). assert (S : (0 <= s <= 1)%R) by (subst s; split; [apply sqrt_pos|rewrite <- sqrt_1 at 2; apply sqrt_le_1_alt; lra]).
      pose proof (I0_ge_1 (PI * alpha * s)). assert (M : (I0 (PI * alpha * s) <= I0 (PI * alpha))%R) by (apply I0_monotone; split; [apply Rmult_le_pos; lra|rewrite <- (Rmult_1_r (PI * alpha)) at 2; apply Rmult_le_compat_l; lra]).
      split; [apply Rmult_le_pos; [lra|left; apply Rinv_0_lt_compat; lra]|]. apply Rmult_le_reg_r with (I0 (PI * alpha)); [lra|]. unfold Rdiv. rewrite Rmult_assoc, Rinv_l by lra. lra. }
  split; [exact V|]. destruct V as (_ & _ & F & _). split.
  - intros k Hk. rewrite F by exact Hk. unfold kaiser. pose proof (I0_ge_1 (PI * alpha * sqrt (1 - Rsqr (2 * IZR k / IZR (n - 1) - 1)))). apply Rmult_lt_0_compat; [lra|apply Rinv_0_lt_compat; lra].
  - intros H3 Ho. assert (0 <= n / 2 < n) by (split; [apply Z.div_pos|apply Z.div_lt]; lia). rewrite F by assumption. unfold kaiser. rewrite <- angle_unit, angle_mid by assumption.
    replace (PI / PI - 1)%R with 0%R by (field; lra). rewrite Rsqr_0, Rminus_0_r, sqrt_1, Rmult_1_r. asL. field. lra.
Qed.
Print Assumptions C40_kaiser.

(** windows of a single sample: the ends, not the middle; flat top and Gaussian divide zero by zero *)
Theorem C40_one_sample_refuted W vec a sigma : 1 <= W ->
  HammingWindow W vec [a] = Ok [(8 / 100)%R] /\ TriangularWindow W vec [a] = Ok [0%R] /\
  FlatTopWindow W vec [a] = UB /\ GaussianWindow W vec [a] sigma = UB.
Proof.
  intros HW. rewrite Hamming_ok, Triangular_ok by exact HW. split; [|split; [|split]].
  - f_equal. change ([cos (lin 1 0 (2 * PI) true 0) * - (46 / 100) + 54 / 100] = [8 / 100])%R. apply (f_equal (fun x => [x])). unfold lin. rewrite Rmult_0_l, Rplus_0_r, cos_0. lra.
  - f_equal. change ([Rabs (lin 1 0 2 true 0 - 1) * -1 + 1] = [0])%R. apply (f_equal (fun x => [x])). unfold lin. rewrite Rmult_0_l, Rplus_0_r. rewrite Rabs_left by lra. lra.
  - reflexivity.
  - unfold GaussianWindow. rewrite LinSpace_ok by exact HW. cbn [bind]. change (lenZ [a]) with 1. destruct (Req_EM_T _ 0) as [_|E]; [reflexivity|]. exfalso. apply E. unfold Rdiv. rewrite Rminus_diag_eq by reflexivity. ring.
Qed.
Print Assumptions C40_one_sample_refuted.

(** coherent and energy gain: mean and mean square *)
Theorem C40_gains W vec (w : list R) : 1 <= W -> 1 <= lenZ w ->
  CoherentGain W vec w = Ok (sumZ (K := Rring) 0 (lenZ w) (atR w) / IZR (lenZ w))%R /\
  EnergyGain W vec w = Ok (sumZ (K := Rring) 0 (lenZ w) (fun k => Rsqr (atR w k)) / IZR (lenZ w))%R.
Proof.
  intros HW Hn. unfold CoherentGain, EnergyGain, SumSquare. split.
  - rewrite (sum_ok (F := Rfield)) by exact HW. cbn [bind]. destruct (Z.eqb_spec (lenZ w) 0); [lia|]. do 2 f_equal. exact (suml_sumZ (K := Rring) w).
  - rewrite (TransformReduce_spec (K := Rring) (Plain Rplus) Rplus W vec); [|left; constructor; intros; cbn; ring|exact HW]. cbn [bind]. destruct (Z.eqb_spec (lenZ w) 0); [lia|]. do 2 f_equal.
    transitivity (suml (K := Rring) (map (fun a => a * a)%R w)); [reflexivity|]. rewrite suml_sumZ. asL. rewrite lenZ_map. apply sumZ_ext. intros k Hk. unfold Rsqr.
    rewrite (tab_at0 (K := Rring) w) at 1. asL. rewrite map_tab. now rewrite (at0_tab (K := Rring)) by exact Hk.
Qed.
Print Assumptions C40_gains.
(** a rectangular window has unit gains *)
Example C40_nontrivial : exists w, RectangularWindow (repeat 0%R 4) = Ok w /\ CoherentGain 4 true w = Ok 1%R /\ EnergyGain 4 true w = Ok 1%R.
Proof.
  rewrite Rectangular_ok. eexists. split; [reflexivity|]. change (lenZ (repeat 0%R 4)) with 4. destruct (C40_gains 4 true (tab 4 (fun _ => 1%R))) as [-> ->]; [lia|rewrite lenZ_tab; lia|].
  change (lenZ (tab 4 (fun _ => 1%R))) with 4. 
  assert (E : forall g, (forall k, 0 <= k < 4 -> g k = 1%R) -> (sumZ (K := Rring) 0 4 g / 4 = 1)%R).
  { intros g H. rewrite (sumZ_ext (K := Rring) 0 4 g (fun _ => 1%R)) by exact H. unfold sumZ. change (Z.to_nat (4 - 0)) with 4%nat. cbn [sumf]. cbn [radd r0 Rring]. field. }
  split; f_equal; apply E; intros k Hk; rewrite (at0_tab (K := Rring)) by lia; unfold Rsqr; ring.
Qed.

(** ** C42 *)
(** position within the period, in [0, 1) *)
Definition cycle (phase : R) : R := (phase / (2 * PI) - IZR (Int_part (phase / (2 * PI))))%R.
Lemma cycle_range p : (0 <= cycle p < 1)%R.
Proof. unfold cycle. destruct (base_fp (p / (2 * PI))) as [A B]. unfold frac_part in *. lra. Qed.
Lemma Int_part_unique (x : R) z : (IZR z <= x < IZR z + 1)%R -> Int_part x = z.
Proof.
  intros H. destruct (base_Int_part x) as [A B]. assert (X1 : (IZR (Int_part x) < IZR (z + 1))%R) by (rewrite plus_IZR; lra). assert (X2 : (IZR z < IZR (Int_part x + 1))%R) by (rewrite plus_IZR; lra). apply lt_IZR in X1, X2. lia.
Qed.
Lemma cycle_periodic p m : cycle (p + 2 * PI * IZR m) = cycle p.
Proof.
  unfold cycle. pose proof PI_neq0. replace ((p + 2 * PI * IZR m) / (2 * PI))%R with (p / (2 * PI) + IZR m)%R by (field; assumption). set (x := (p / (2 * PI))%R).
  rewrite (Int_part_unique (x + IZR m) (Int_part x + m)); [rewrite plus_IZR; ring|]. destruct (base_Int_part x). rewrite plus_IZR. lra.
Qed.
Lemma cycle_lt_1 p : (0 <= p < 2 * PI)%R -> cycle p = (p / (2 * PI))%R.
Proof.
  intros H. pose proof PI_RGT_0. unfold cycle. rewrite (Int_part_unique _ 0); [lra|]. split; [apply Rmult_le_pos; [lra|left; apply Rinv_0_lt_compat; lra]|]. apply Rmult_lt_reg_r with (2 * PI)%R; [lra|]. unfold Rdiv. rewrite Rmult_assoc, Rinv_l by lra. lra.
Qed.
Lemma modf_cycle p : (0 <= p)%R -> modf (p / (2 * PI)) = cycle p.
Proof.
  intros H. pose proof PI_RGT_0. unfold modf, cycle. destruct (Rle_dec 0 (p / (2 * PI))) as [_|E]; [reflexivity|]. exfalso. apply E. apply Rmult_le_pos; [lra|left; apply Rinv_0_lt_compat; lra].
Qed.
(** sawtooth / triangle: rises from -1 to 1 while the cycle is below tilt (the code's slope is lowered by the smallest
    positive number so that tilt = 0 is not a division by zero), then falls back to -1 *)
Definition sawtooth_spec (tilt u : R) : R :=
  if Rlt_dec tilt u then (1 - 2 * ((u - tilt) / (1 - tilt)))%R else (1 - 2 * ((tilt - u) / (tilt + denorm_min)))%R.
Lemma denorm_pos : (0 < denorm_min)%R.
Proof. apply Rinv_0_lt_compat. apply pow_lt. lra. Qed.
Lemma div_unit x y : (0 <= x <= y)%R -> (0 < y)%R -> (0 <= x / y <= 1)%R.
Proof. intros H Hy. split; [apply Rmult_le_pos; [lra|left; now apply Rinv_0_lt_compat]|]. apply Rmult_le_reg_r with (1 := Hy). unfold Rdiv. rewrite Rmult_assoc, Rinv_l by lra. lra. Qed.
Theorem C42_sawtooth phase tilt : (0 <= phase)%R -> (0 <= tilt <= 1)%R ->
  Sawtooth phase tilt = sawtooth_spec tilt (cycle phase) /\
  (-1 <= Sawtooth phase tilt <= 1)%R /\
  (forall m, 0 <= m -> Sawtooth (phase + 2 * PI * IZR m) tilt = Sawtooth phase tilt).
Proof.
  intros Hp Ht. assert (E : forall p, (0 <= p)%R -> Sawtooth p tilt = sawtooth_spec tilt (cycle p)).
  { intros p H. unfold Sawtooth, sawtooth_spec. rewrite modf_cycle by exact H. set (u := cycle p). destruct (Rlt_dec tilt u) as [L|L]; [rewrite Rabs_right by lra; lra|]. rewrite Rabs_left1 by lra. replace (- (u - tilt))%R with (tilt - u)%R by ring. lra. }
  split; [now apply E|]. split.
  - rewrite E by exact Hp. pose proof (cycle_range phase) as R. set (u := cycle phase) in *. unfold sawtooth_spec. pose proof denorm_pos. destruct (Rlt_dec tilt u) as [L|L].
    + pose proof (div_unit (u - tilt) (1 - tilt) ltac:(lra) ltac:(lra)). lra.
    + pose proof (div_unit (tilt - u) (tilt + denorm_min) ltac:(lra) ltac:(lra)). lra.
  - intros m Hm. pose proof PI_RGT_0. assert (0 <= IZR m)%R by (apply IZR_le; exact Hm). rewrite E by nra. rewrite cycle_periodic. symmetry. now apply E.
Qed.
Print Assumptions C42_sawtooth.
(** pulse width: 1 in the first part of the cycle, 0 in the rest *)
Theorem C42_pwm phase fill : (0 <= phase)%R ->
  Pwm phase fill = (if Rlt_dec (cycle phase) fill then 1 else 0)%R /\
  (forall m, 0 <= m -> Pwm (phase + 2 * PI * IZR m) fill = Pwm phase fill).
Proof.
  intros Hp. assert (E : forall p, (0 <= p)%R -> Pwm p fill = (if Rlt_dec (cycle p) fill then 1 else 0)%R).
  { intros p H. unfold Pwm. rewrite modf_cycle by exact H. pose proof (cycle_range p). destruct (Rlt_dec (cycle p) fill); [reflexivity|]. destruct (Rle_dec 1 fill); [lra|reflexivity]. }
  split; [now apply E|]. intros m Hm. pose proof PI_RGT_0. assert (0 <= IZR m)%R by (apply IZR_le; exact Hm). rewrite E by nra. rewrite cycle_periodic. symmetry. now apply E.
Qed.
Print Assumptions C42_pwm.
(** for negative phases std::modf returns a negative fraction: the sawtooth leaves [-1, 1] and the pulse train is not periodic *)
Lemma modf_neg x : (-1 < x < 0)%R -> modf x = x.
Proof. intros H. unfold modf. destruct (Rle_dec 0 x); [lra|]. rewrite (Int_part_unique (- x) 0) by lra. lra. Qed.
Theorem C42_negative_phase_refuted :
  (Sawtooth (- PI) 1 < -1)%R /\ Pwm (- (PI / 2)) (1 / 2) <> Pwm (- (PI / 2) + 2 * PI) (1 / 2).
Proof.
  pose proof PI_RGT_0 as P. split.
  - unfold Sawtooth. replace (- PI / (2 * PI))%R with (- (1 / 2))%R by (field; lra). rewrite modf_neg by lra. destruct (Rlt_dec 1 (- (1 / 2))); [lra|]. rewrite Rabs_left by lra.
    assert (D : (denorm_min <= 1 / 4)%R). { unfold denorm_min. replace (1 / 4)%R with (/ 2 ^ 2)%R by (cbn; lra). apply Rinv_le_contravar; [cbn; lra|]. apply Rle_pow; [lra|lia]. }
    pose proof denorm_pos. assert (11 / 10 <= - (- (1 / 2) - 1) / (1 + denorm_min))%R; [|lra]. apply Rmult_le_reg_r with (1 + denorm_min)%R; [lra|]. unfold Rdiv at 2. rewrite Rmult_assoc, Rinv_l by lra. lra.
  - unfold Pwm. replace (- (PI / 2) / (2 * PI))%R with (- (1 / 4))%R by (field; lra). rewrite modf_neg by lra. replace ((- (PI / 2) + 2 * PI) / (2 * PI))%R with (3 / 4)%R by (field; lra).
    unfold modf. destruct (Rle_dec 0 (3 / 4)); [|lra]. rewrite (Int_part_unique (3 / 4) 0) by lra. destruct (Rlt_dec (- (1 / 4)) (1 / 2)); [|lra]. destruct (Rlt_dec (3 / 4 - 0) (1 / 2)); [lra|]. destruct (Rle_dec 1 (1 / 2)); lra.
Qed.
Print Assumptions C42_negative_phase_refuted.

(** phase of sample i of a wave of the given frequency *)
Definition wave_phase (sr : Z) (f ph : R) (i : Z) : R := (2 * PI * f * (IZR i / IZR sr) + ph)%R.
Theorem C42_waves W vec (out : list R) sr f ph tilt fill : 1 <= W -> 0 < sr ->
  exists sine saw pwm sqr,
    SineWave out sr f ph = Ok sine /\ SawtoothWave out sr f ph tilt = Ok saw /\ PwmWave out sr f ph fill = Ok pwm /\ SquareWave W vec out sr f ph = Ok sqr /\
    lenZ sine = lenZ out /\ lenZ saw = lenZ out /\ lenZ pwm = lenZ out /\ lenZ sqr = lenZ out /\
    forall i, 0 <= i < lenZ out ->
      let p := wave_phase sr f ph i in
      atR sine i = sin p /\ (-1 <= atR sine i <= 1)%R /\
      ((0 <= p)%R ->
        ((0 <= tilt <= 1)%R -> atR saw i = sawtooth_spec tilt (cycle p) /\ (-1 <= atR saw i <= 1)%R) /\
        atR pwm i = (if Rlt_dec (cycle p) fill then 1 else 0)%R /\
        atR sqr i = (if Rlt_dec (cycle p) (1 / 2) then 1 else -1)%R).
Proof.
  intros HW Hs. unfold SineWave, SawtoothWave, PwmWave, SquareWave. rewrite !GenericWave_ok by lia. cbn [bind]. rewrite mul_tab by exact HW. cbn [bind]. rewrite sub_tab by exact HW. do 4 eexists.
  repeat (split; [reflexivity|]). asL. rewrite !len_tab. repeat (split; [reflexivity|]). intros i Hi. cbv zeta. rewrite !(at0_tab (K := Rring)) by lia.
  replace (2 * PI * (IZR i / IZR sr) * f + ph)%R with (wave_phase sr f ph i) by (unfold wave_phase; ring). set (p := wave_phase sr f ph i). split; [reflexivity|]. split; [apply SIN_bound|]. intros Hp. split; [|split].
  - intros Ht. destruct (C42_sawtooth p tilt Hp Ht) as (A & B & _). split; assumption.
  - apply C42_pwm. exact Hp.
  - destruct (C42_pwm p (5 / 10) Hp) as [-> _]. replace (5 / 10)%R with (1 / 2)%R by lra. destruct (Rlt_dec (cycle p) (1 / 2)); lra.
Qed.
Print Assumptions C42_waves.
(** samples repeat every [m] samples when those are a whole number of periods *)
Theorem C42_wave_period (out : list R) sr f ph tilt fill m c : 0 < sr -> (0 <= f)%R -> (0 <= ph)%R -> (0 <= tilt <= 1)%R -> 0 <= c -> (IZR m * f = IZR c * IZR sr)%R ->
  exists sine saw pwm, SineWave out sr f ph = Ok sine /\ SawtoothWave out sr f ph tilt = Ok saw /\ PwmWave out sr f ph fill = Ok pwm /\
    forall i, 0 <= i < lenZ out -> 0 <= i + m < lenZ out -> atR sine (i + m) = atR sine i /\ atR saw (i + m) = atR saw i /\ atR pwm (i + m) = atR pwm i.
Proof.
  intros Hs Hf Hp Ht Hc E. unfold SineWave, SawtoothWave, PwmWave. rewrite !GenericWave_ok by lia. do 3 eexists. repeat (split; [reflexivity|]). intros i Hi Hj. asL. rewrite !(at0_tab (K := Rring)) by lia.
  pose proof PI_RGT_0. assert (S : (0 < IZR sr)%R) by (apply IZR_lt; lia).
  replace (2 * PI * (IZR (i + m) / IZR sr) * f + ph)%R with (2 * PI * (IZR i / IZR sr) * f + ph + 2 * PI * IZR c)%R.
  2: { rewrite plus_IZR. replace (2 * PI * ((IZR i + IZR m) / IZR sr) * f + ph)%R with (2 * PI * (IZR i / IZR sr) * f + ph + 2 * PI * (IZR m * f) / IZR sr)%R by (field; lra). rewrite E. field. lra. }
  assert (Q : (0 <= 2 * PI * (IZR i / IZR sr) * f + ph)%R). { assert (0 <= IZR i)%R by (apply IZR_le; lia). apply Rplus_le_le_0_compat; [|exact Hp]. apply Rmult_le_pos; [|exact Hf]. apply Rmult_le_pos; [lra|]. apply Rmult_le_pos; [assumption|left; now apply Rinv_0_lt_compat]. }
  set (p := (2 * PI * (IZR i / IZR sr) * f + ph)%R) in *. split; [|split].
  - replace (2 * PI * IZR c)%R with (2 * INR (Z.to_nat c) * PI)%R; [apply sin_period|]. rewrite INR_IZR_INZ, Z2Nat.id by exact Hc. ring.
  - apply C42_sawtooth; assumption.
  - apply C42_pwm; assumption.
Qed.
Print Assumptions C42_wave_period.
(** chirps: the phase starts at ph and advances, from sample i to i + 1, by the frequency half way between them *)
Definition chirp_phase (n sr : Z) (f0 f1 ph : R) (i : Z) : R := (2 * PI / IZR sr * (f0 * IZR i + (f1 - f0) * (IZR i * IZR i) / (2 * IZR n)) + ph)%R.
Theorem C42_chirp_frequency n sr f0 f1 ph i : 0 < n -> 0 < sr ->
  chirp_phase n sr f0 f1 ph 0 = ph /\
  (chirp_phase n sr f0 f1 ph (i + 1) - chirp_phase n sr f0 f1 ph i = 2 * PI / IZR sr * (f0 + (f1 - f0) * (IZR i + 1 / 2) / IZR n))%R.
Proof.
  intros Hn Hs. assert (IZR n <> 0)%R by (apply not_0_IZR; lia). assert (IZR sr <> 0)%R by (apply not_0_IZR; lia). unfold chirp_phase. split; [field; auto|]. rewrite plus_IZR. field. auto.
Qed.
Print Assumptions C42_chirp_frequency.
Theorem C42_chirps W vec (out : list R) sr f0 f1 ph tilt fill : 1 <= W -> 0 < sr ->
  exists sine saw pwm sqr,
    SineChirp out sr f0 f1 ph = Ok sine /\ SawtoothChirp out sr f0 f1 ph tilt = Ok saw /\ PwmChirp out sr f0 f1 ph fill = Ok pwm /\ SquareChirp W vec out sr f0 f1 ph = Ok sqr /\
    lenZ sine = lenZ out /\ lenZ saw = lenZ out /\ lenZ pwm = lenZ out /\ lenZ sqr = lenZ out /\
    forall i, 0 <= i < lenZ out ->
      let p := chirp_phase (lenZ out) sr f0 f1 ph i in
      atR sine i = sin p /\ (-1 <= atR sine i <= 1)%R /\
      ((0 <= p)%R ->
        ((0 <= tilt <= 1)%R -> atR saw i = sawtooth_spec tilt (cycle p) /\ (-1 <= atR saw i <= 1)%R) /\
        atR pwm i = (if Rlt_dec (cycle p) fill then 1 else 0)%R /\
        atR sqr i = (if Rlt_dec (cycle p) (1 / 2) then 1 else -1)%R).
Proof.
  intros HW Hs. unfold SineChirp, SawtoothChirp, PwmChirp, SquareChirp. rewrite !GenericChirp_ok by lia. cbn [bind]. rewrite mul_tab by exact HW. cbn [bind]. rewrite sub_tab by exact HW. do 4 eexists.
  repeat (split; [reflexivity|]). asL. rewrite !len_tab. repeat (split; [reflexivity|]). intros i Hi. cbv zeta. rewrite !(at0_tab (K := Rring)) by lia.
  assert (N0 : (0 < IZR (lenZ out))%R) by (apply IZR_lt; lia). assert (S0 : (0 < IZR sr)%R) by (apply IZR_lt; lia).
  replace (2 * PI * (IZR i / IZR sr * f0 + IZR i / IZR sr * (IZR i / IZR sr) / 2 * (f1 - f0) / (IZR (lenZ out) / IZR sr)) + ph)%R with (chirp_phase (lenZ out) sr f0 f1 ph i) by (unfold chirp_phase; field; lra).
  set (p := chirp_phase (lenZ out) sr f0 f1 ph i). split; [reflexivity|]. split; [apply SIN_bound|]. intros Hp. split; [|split].
  - intros Ht. destruct (C42_sawtooth p tilt Hp Ht) as (A & B & _). split; assumption.
  - apply C42_pwm. exact Hp.
  - destruct (C42_pwm p (5 / 10) Hp) as [-> _]. replace (5 / 10)%R with (1 / 2)%R by lra. destruct (Rlt_dec (cycle p) (1 / 2)); lra.
Qed.
Print Assumptions C42_chirps.
(** a chirp between equal frequencies is the wave of that frequency *)
Theorem C42_chirp_is_wave W vec (out : list R) sr f ph tilt fill : 0 < sr ->
  SineChirp out sr f f ph = SineWave out sr f ph /\ SawtoothChirp out sr f f ph tilt = SawtoothWave out sr f ph tilt /\
  PwmChirp out sr f f ph fill = PwmWave out sr f ph fill /\ SquareChirp W vec out sr f f ph = SquareWave W vec out sr f ph.
Proof.
  intros Hs. assert (E : forall g, GenericChirp out sr f f ph g = GenericWave out sr f ph g).
  { intros g. rewrite GenericChirp_ok, GenericWave_ok by lia. f_equal. apply tab_ext. intros i Hi. cbv zeta. f_equal. rewrite Rminus_diag_eq by reflexivity. unfold Rdiv. ring. }
  unfold SineChirp, SineWave, SawtoothChirp, SawtoothWave, PwmChirp, PwmWave, SquareChirp, SquareWave. rewrite !E. auto.
Qed.
Print Assumptions C42_chirp_is_wave.
Example C42_nontrivial : Pwm (PI / 2) (1 / 2) = 1%R /\ Pwm (3 * (PI / 2)) (1 / 2) = 0%R.
Proof.
  pose proof PI_RGT_0. split.
  - destruct (C42_pwm (PI / 2) (1 / 2)) as [-> _]; [lra|]. rewrite cycle_lt_1 by lra. replace (PI / 2 / (2 * PI))%R with (1 / 4)%R by (field; lra). destruct (Rlt_dec (1 / 4) (1 / 2)); lra.
  - destruct (C42_pwm (3 * (PI / 2)) (1 / 2)) as [-> _]; [lra|]. rewrite cycle_lt_1 by lra. replace (3 * (PI / 2) / (2 * PI))%R with (3 / 4)%R by (field; lra). destruct (Rlt_dec (3 / 4) (1 / 2)); lra.
Qed.

(** ** C40: Dolph-Chebyshev *)
(** For every attenuation (the ratio of the highest side lobe to the main lobe) the window is symmetric, has peak magnitude 1
    and its frequency response is that ratio times the Chebyshev polynomial of degree n - 1, at every frequency: outside
    the main lobe (where beta |cos(w/2)| <= 1) the response is at most att times the response at DC. *)
Theorem C40_dolph_chebyshev W vec (out : list R) att : 1 <= W -> 2 <= lenZ out -> (0 < att <= 1)%R ->
  exists w beta, DolphChebyshevWindow W vec out att = Ok w /\ lenZ w = lenZ out /\ symmetric (K := Rring) w /\
    (forall k, 0 <= k < lenZ w -> (Rabs (atR w k) <= 1)%R) /\ (exists k, 0 <= k < lenZ w /\ Rabs (atR w k) = 1%R) /\
    (1 <= beta)%R /\ (att * chebyshev (Z.to_nat (lenZ w - 1)) beta = 1)%R /\
    (0 < Cabs (response w 0))%R /\
    (forall f, Cabs (response w f) = att * Rabs (chebyshev (Z.to_nat (lenZ w - 1)) (beta * cos (f / 2))) * Cabs (response w 0))%R /\
    (forall f, (beta * Rabs (cos (f / 2)) <= 1)%R -> (Cabs (response w f) <= att * Cabs (response w 0))%R).
Proof.
  intros HW Hn Ha. destruct (dolph_norm_props _ _ Hn Ha) as (N0 & NB & (km & Hkm & NE)). rewrite Dolph_ok by (try assumption; lra). eexists. exists (dolph_beta (lenZ out) att). split; [reflexivity|].
  destruct (dolph_beta_ok _ _ Hn Ha) as [B1 B2]. set (b := dolph_beta (lenZ out) att) in *. asL. rewrite len_tab. split; [reflexivity|]. set (n := lenZ out) in *. set (N := dolph_norm n att) in *. set (M := Z.to_nat (n - 1)) in *. set (w := tab n _).
  assert (A : forall k, 0 <= k < n -> atR w k = (dc b M k / N)%R) by (intros k Hk; unfold w; rewrite (at0_tab (K := Rring)) by exact Hk; asL; unfold Rdiv; ring).
  assert (L : lenZ w = n) by apply len_tab.
  assert (Q : forall k, (Rabs (dc b M k / N) = Rabs (dc b M k) / N)%R) by (intros k; unfold Rdiv; rewrite Rabs_mult, (Rabs_right (/ N)); [reflexivity|left; now apply Rinv_0_lt_compat]).
  assert (RS : forall f, response w f = Cmul (cis (- (INR M / 2 * f))) (RtoC (chebT M (b * cos (f / 2)) / N))).
  { intros f. unfold Rdiv at 2. replace (RtoC (chebT M (b * cos (f / 2)) * / N)) with (Cmul (RtoC (/ N)) (RtoC (chebT M (b * cos (f / 2))))) by (apply C_ext; cbn; ring). rewrite <- dsum_cheb. unfold response, dsum. asL. rewrite L.
    replace (Z.of_nat M + 1) with n by (subst M; lia). rewrite <- !(sumZ_scale (K := Cring)). apply sumZ_ext. intros k Hk. rewrite A by exact Hk. change (@rmul Cring) with Cmul.
    replace (- (IZR k * f))%R with (- (INR M / 2 * f) + (INR M / 2 - IZR k) * f)%R by ring. rewrite cis_add. apply C_ext; cbn; unfold Rdiv; ring. }
  assert (AB : forall f, Cabs (response w f) = (Rabs (chebT M (b * cos (f / 2))) / N)%R).
  { intros f. rewrite RS. unfold Cabs. rewrite Cnorm2_mul, cis_norm, Rmult_1_l. unfold Cnorm2. cbn [re im RtoC]. rewrite Rmult_0_r, Rplus_0_r. fold (Rsqr (chebT M (b * cos (f / 2)) / N)). rewrite sqrt_Rsqr_abs. unfold Rdiv. rewrite Rabs_mult, (Rabs_right (/ N)); [reflexivity|left; now apply Rinv_0_lt_compat]. }
  assert (A0 : Cabs (response w 0) = (/ (att * N))%R).
  { rewrite AB. replace (0 / 2)%R with 0%R by lra. rewrite cos_0, Rmult_1_r, B2. unfold Rdiv. rewrite Rmult_1_l. pose proof (Rinv_0_lt_compat att ltac:(lra)). rewrite Rabs_right by lra. rewrite Rinv_mult. reflexivity. }
  change chebyshev with chebT.
  assert (EQ : forall f, (Cabs (response w f) = att * Rabs (chebT M (b * cos (f / 2))) * Cabs (response w 0))%R) by (intros f; rewrite A0, AB; field; lra).
  split; [|split; [|split; [|split; [|split; [|split; [|split]]]]]].
  - intros k. asL. rewrite L. intros Hk. rewrite !A by lia. f_equal. replace (n - 1 - k) with (Z.of_nat M - k) by (subst M; lia). apply dc_sym.
  - intros k Hk. rewrite A by exact Hk. rewrite Q. apply Rmult_le_reg_r with (1 := N0). unfold Rdiv. rewrite Rmult_assoc, Rinv_l by lra. specialize (NB k Hk). lra.
  - exists km. split; [exact Hkm|]. rewrite A by exact Hkm. rewrite Q, NE. field. lra.
  - exact B1.
  - rewrite B2. field. lra.
  - rewrite A0. apply Rinv_0_lt_compat. apply Rmult_lt_0_compat; lra.
  - exact EQ.
  - intros f Hf. rewrite EQ. rewrite <- (Rmult_1_r att) at 2. apply Rmult_le_compat_r; [rewrite A0; left; apply Rinv_0_lt_compat; apply Rmult_lt_0_compat; lra|]. apply Rmult_le_compat_l; [lra|].
    assert (X : (-1 <= b * cos (f / 2) <= 1)%R) by (assert (Y : (Rabs (b * cos (f / 2)) <= 1)%R) by (rewrite Rabs_mult, (Rabs_right b) by lra; exact Hf); pose proof (Rle_abs (b * cos (f / 2))); pose proof (Rle_abs (- (b * cos (f / 2)))) as Y2; rewrite Rabs_Ropp in Y2; lra).
    pose proof (cheb_in M _ X) as T. rewrite <- Rabs_R1. apply Rsqr_le_abs_0. unfold Rsqr. replace (chebT M (b * cos (f / 2)) ^ 2)%R with (chebT M (b * cos (f / 2)) * chebT M (b * cos (f / 2)))%R in T by ring. lra.
Qed.
Print Assumptions C40_dolph_chebyshev.
Example C40_dolph_nontrivial : exists w, DolphChebyshevWindow 4 true (repeat 0%R 5) (1 / 100) = Ok w /\ lenZ w = 5 /\ symmetric (K := Rring) w.
Proof.
  destruct (C40_dolph_chebyshev 4 true (repeat 0%R 5) (1 / 100)) as (w & b & E & L & S & _); [lia|change (lenZ (repeat 0%R 5)) with 5; lia|lra|]. exists w. auto.
Qed.
