(** Sums of sinusoids through zero-stuffing and convolution, and on the straight line between two samples (used by C79). *)
From Coq Require Import ZArith List Bool Lia Reals Lra QArith Qreals Qround.
From Verif Require Import Base BaseFacts Complex KernelModel KernelProofs ConvModel ConvProofs PropsConv Dft FirModel FftModel FftProofs PolyphaseModel PolyphaseProofs PropsPolyphase ResampleModel ResampleProofs PropsResample FirBandModel FirBandProofs PropsFirBand LsqFacts FunctionModel FunctionProofs PropsFft PropsFunction PropsFirSine.
From Coq Require Import ZifyBool ZifyNat.
Import ListNotations.
Open Scope Z_scope.
#[local] Notation sumR := (sumZ (K := Rring)).
Local Ltac req := match goal with |- ?l = ?r => change (@eq R l r) end.

(** ** Straight lines and cosines *)
Lemma sin_lipschitz a b : (a <= b)%R -> (- (b - a) <= sin b - sin a <= b - a)%R.
Proof.
  intros H. destruct (Req_dec a b) as [->|N]; [lra|]. destruct (MVT_cor2 sin cos a b) as (c & E & _); [lra|intros; apply derivable_pt_lim_sin|]. pose proof (COS_bound c). rewrite E. nra.
Qed.
Lemma chord_cos_up al nu t s : (0 <= t <= 1)%R -> (s = 1 \/ s = -1)%R -> (s * cos (al + t * nu) - ((1 - t) * (s * cos al) + t * (s * cos (al + nu))) <= nu * nu * (t * (1 - t)) / 2)%R.
Proof.
  intros Ht Hs. set (f := fun x => (s * cos (al + x * nu) + nu * nu * (x * x) / 2)%R). set (f' := fun x => (s * (- sin (al + x * nu) * nu) + nu * nu * x)%R).
  assert (D : forall x, derivable_pt_lim f x (f' x)).
  { intros x. unfold f, f'. replace (s * (- sin (al + x * nu) * nu) + nu * nu * x)%R with (s * (- sin (al + x * nu) * (0 + (1 * nu + x * 0))) + (nu * nu / 2) * (1 * x + x * 1))%R by field.
    apply (derivable_pt_lim_ext (fun x => s * cos (al + x * nu) + (nu * nu / 2) * (x * x)))%R; [intros y; field|].
    apply (derivable_pt_lim_plus (fun x => s * cos (al + x * nu))%R (fun x => (nu * nu / 2) * (x * x))%R).
    - apply (derivable_pt_lim_scal (fun x => cos (al + x * nu))). apply (derivable_pt_lim_comp (fun x => al + x * nu)%R cos); [|apply derivable_pt_lim_cos].
      apply (derivable_pt_lim_plus (fun _ => al) (fun x => x * nu)%R); [apply derivable_pt_lim_const|]. apply (derivable_pt_lim_mult id (fun _ => nu)); [apply derivable_pt_lim_id|apply derivable_pt_lim_const].
    - apply (derivable_pt_lim_scal (fun x => x * x)%R). apply (derivable_pt_lim_mult id id); apply derivable_pt_lim_id. }
  assert (Mo : forall x y, (x <= y)%R -> (f' x <= f' y)%R).
  { intros x y H. unfold f'. destruct (Rle_dec 0 nu) as [Hn|Hn].
    - pose proof (sin_lipschitz (al + x * nu) (al + y * nu) ltac:(nra)). destruct Hs as [-> | ->]; nra.
    - pose proof (sin_lipschitz (al + y * nu) (al + x * nu) ltac:(nra)). destruct Hs as [-> | ->]; nra. }
  assert (Cv : (f t <= (1 - t) * f 0 + t * f 1)%R).
  { destruct (Req_dec t 0) as [-> |]; [lra|]. destruct (Req_dec t 1) as [-> |]; [lra|].
    destruct (MVT_cor2 f f' 0 t) as (c1 & E1 & B1); [lra|intros; apply D|]. destruct (MVT_cor2 f f' t 1) as (c2 & E2 & B2); [lra|intros; apply D|]. pose proof (Mo c1 c2 ltac:(lra)) as Hm.
    assert (X : (0 <= (t * (1 - t)) * (f' c2 - f' c1))%R) by (apply Rmult_le_pos; [nra|lra]). replace (f t) with ((1 - t) * f t + t * f t)%R by ring.
    assert (E1' : ((1 - t) * (f t - f 0) = (1 - t) * (f' c1 * (t - 0)))%R) by now rewrite E1. assert (E2' : (t * (f 1 - f t) = t * (f' c2 * (1 - t)))%R) by now rewrite E2. lra. }
  unfold f in Cv. replace (al + 0 * nu)%R with al in Cv by ring. replace (al + 1 * nu)%R with (al + nu)%R in Cv by ring. nra.
Qed.
Lemma chord_cos al nu t : (0 <= t <= 1)%R -> (Rabs ((1 - t) * cos al + t * cos (al + nu) - cos (al + t * nu)) <= nu * nu / 8)%R.
Proof.
  intros Ht. pose proof (chord_cos_up al nu t 1 Ht ltac:(lra)) as A. pose proof (chord_cos_up al nu t (-1) Ht ltac:(lra)) as B.
  assert (nu * nu * (t * (1 - t)) / 2 <= nu * nu / 8)%R by (assert (A0 : (0 <= nu * nu)%R) by nra; pose proof (Rle_0_sqr (t - / 2)) as A1; unfold Rsqr in A1; assert (A2 : (t * (1 - t) <= / 4)%R) by lra; pose proof (Rmult_le_compat_l _ _ _ A0 A2); lra). apply Rabs_le. lra.
Qed.

(** ** One sinusoid out of P stuffed samples is P sinusoids *)
Lemma pick_sum th P n : 0 < P -> sumR 0 P (fun l => cos (th + 2 * PI * IZR l * IZR n / IZR P)%R) = if n mod P =? 0 then (IZR P * cos th)%R else 0%R.
Proof.
  intros HP. assert (P0 : (IZR P <> 0)%R) by (apply (IZR_neq P 0); lia).
  assert (E : sumC 0 P (fun k => wroot P (- n * k)) = if n mod P =? 0 then RtoC (IZR P) else C0).
  { pose proof (orth Cfield P (wroot P) HP (fun a b => wroot_add P a b HP) (fun q => wroot_mult P q HP) (fun m => wroot_neq P m HP) (- n)) as O.
    change (sumC 0 P (fun k => wroot P (- n * k))) with (sumZ (K := Cfield) 0 P (fun k => wroot P (- n * k))). rewrite O.
    replace (- n mod P =? 0) with (n mod P =? 0) by (destruct (Z.eqb_spec (n mod P) 0) as [H|H]; [rewrite Z.mod_opp_l_z by lia; reflexivity|rewrite Z.mod_opp_l_nz by lia; pose proof (Z.mod_pos_bound n P HP); symmetry; apply Z.eqb_neq; lia]).
    destruct (n mod P =? 0); [|reflexivity]. unfold nK. change (sumC 0 P (fun _ => C1) = RtoC (IZR P)). rewrite sumZ_const_C by lia. now rewrite Z.sub_0_r. }
  transitivity (re (Cmul (cis th) (sumC 0 P (fun k => wroot P (- n * k))))).
  - rewrite <- (sumZ_scale (K := Cring)). change (rmul (c := Cring)) with Cmul. rewrite re_sumZ. apply sumZ_ext. intros l Hl. unfold wroot. rewrite <- cis_add. cbn [re cis]. f_equal. rewrite mult_IZR, opp_IZR. req. field. exact P0.
  - rewrite E. destruct (n mod P =? 0); cbn; ring.
Qed.

(** a function of continuous time sampled at n / P where that is an integer, scaled by P; and filtered *)
Definition stuff (f : R -> R) (P n : Z) : R := if n mod P =? 0 then (IZR P * f (IZR n / IZR P))%R else 0%R.
Definition filt (h : list R) (g : Z -> R) (m : Z) : R := sumR 0 (lenZ h) (fun k => atR h k * g (m - k)%Z)%R.
Lemma filt_ext h f g m : (forall k, 0 <= k < lenZ h -> f (m - k) = g (m - k)) -> filt h f m = filt h g m.
Proof. intros H. apply sumZ_ext. intros k Hk. now rewrite H. Qed.
Lemma filt_add h f g m : filt h (fun n => f n + g n)%R m = (filt h f m + filt h g m)%R.
Proof. unfold filt. rewrite <- (sumR_add 0 (lenZ h)). apply sumZ_ext. intros k _. req. ring. Qed.
Lemma filt_zero h m : filt h (fun _ => 0%R) m = 0%R.
Proof. apply sumZ_zero. intros k _. apply Rmult_0_r. Qed.
Lemma ofnat_IZR n : 0 <= n -> ofnat (K := Rring) n = IZR n.
Proof.
  intros H. unfold ofnat. rewrite <- (Z2Nat.id n H) at 2. generalize (Z.to_nat n) as k. clear. induction k as [|k IH]; [reflexivity|]. cbn [sumf]. rewrite IH, Nat2Z.inj_succ, succ_IZR. cbn [radd r1 Rring]. apply Rplus_comm || (req; ring).
Qed.
Lemma Rchar_zero : char_zero Complex.Rfield.
Proof. intros n Hn E. change (ofnat (K := Rring) n = 0%R) in E. rewrite ofnat_IZR in E by lia. apply eq_IZR in E. lia. Qed.
Lemma interpolated_filt (f : R -> R) (x h : list R) P m : 0 < P -> (forall n, 0 <= n < lenZ x -> atR x n = f (IZR n)) -> lenZ h - 1 <= m < lenZ x * P ->
  interpolated (F := Complex.Rfield) x h P m = filt h (stuff f P) m.
Proof.
  intros HP Hx Hm. unfold interpolated. rewrite conv_at_conv, zero_stuffed_eq by exact HP. change (@ofnat Complex.Rfield P) with (ofnat (K := Rring) P). rewrite ofnat_IZR by lia.
  change (@conv Complex.Rfield) with (@conv Rring). rewrite conv_comm. unfold conv, filt. change (@expanded Complex.Rfield x P) with (@expanded Rring x P).
  transitivity (sumR 0 (lenZ h) (fun i => at0 (K := Rring) h i * at0 (K := Rring) (@expanded Rring x P) (m - i) * IZR P)%R); [symmetry; apply (sumZ_scale_r (K := Rring) 0 (lenZ h))|].
  apply sumZ_ext. intros k Hk. unfold expanded. change (lenZ (A := Rring) x) with (lenZ (A := R) x). rewrite at0_tab by lia. unfold stuff. change (at0 (K := Rring) h k) with (atR h k).
  destruct (Z.eqb_spec ((m - k) mod P) 0) as [E|E]; [|req; cbn [r0 Rring]; ring].
  pose proof (Z.div_mod (m - k) P ltac:(lia)) as D. assert (B : 0 <= (m - k) / P < lenZ x) by (split; [apply Z.div_pos; lia|apply Z.div_lt_upper_bound; lia]). change (at0 (K := Rring) x ((m - k) / P)) with (atR x ((m - k) / P)). rewrite (Hx _ B).
  replace (IZR (m - k) / IZR P)%R with (IZR ((m - k) / P)); [req; ring|]. rewrite D at 2. rewrite E, Z.add_0_r, mult_IZR. req. field. apply (IZR_neq P 0). lia.
Qed.

(** ** One sinusoid *)
Definition line (h : list R) (w a phi : R) (m : Z) : R := filt h (fun n => a * cos (w * IZR n + phi))%R m.
Lemma line_response h w a phi m : line h w a phi m = (a * (re (response_at h w) * cos (w * IZR m + phi) - im (response_at h w) * sin (w * IZR m + phi)))%R.
Proof.
  rewrite response_re, response_im. pose proof (lenZ_nonneg h). unfold line, filt.
  transitivity (sumR 0 (lenZ h) (fun j => (a * cos (w * IZR m + phi)) * (atR h j * cos (w * IZR j)) + (a * sin (w * IZR m + phi)) * (atR h j * sin (w * IZR j)))%R).
  - apply sumZ_ext. intros j Hj. rewrite minus_IZR. replace (w * (IZR m - IZR j) + phi)%R with ((w * IZR m + phi) - w * IZR j)%R by ring. rewrite cos_minus. req. ring.
  - rewrite sumR_split2 by assumption. change (car Rring) with R. req. ring.
Qed.
Lemma line_polar h w a phi m A Ph : polar_of (response_at h w) A Ph -> line h w a phi m = (a * A * cos (w * IZR m + phi + Ph))%R.
Proof. intros (_ & _ & _ & E). rewrite line_response, E. cbn [re im]. rewrite (cos_plus (w * IZR m + phi)). ring. Qed.
Lemma line_bound h w a phi m : (Rabs (line h w a phi m) <= Rabs a * Cabs (response_at h w))%R.
Proof.
  rewrite (line_polar h w a phi m _ _ (polar_Cabs_Carg _)), !Rabs_mult. rewrite (Rabs_pos_eq (Cabs _)) by apply Cabs_pos. pose proof (COS_bound (w * IZR m + phi + Carg (response_at h w))).
  assert (Rabs (cos (w * IZR m + phi + Carg (response_at h w))) <= 1)%R by (apply Rabs_le; lra). pose proof (Rabs_pos a). pose proof (Cabs_pos (response_at h w)). assert (0 <= Rabs a * Cabs (response_at h w))%R by now apply Rmult_le_pos. nra.
Qed.
Lemma line_symmetric h w a phi m : symmetric (K := Rring) h -> line h w a phi m = (real_gain h w * a * cos (w * (IZR m - group_delay h) + phi))%R.
Proof.
  intros Sy. pose proof (lenZ_nonneg h). set (d := group_delay h). set (u := (w * (IZR m - d) + phi)%R). unfold line, filt.
  transitivity (sumR 0 (lenZ h) (fun j => (a * cos u) * (atR h j * cos (w * (IZR j - d))) + (a * sin u) * (atR h j * sin (w * (IZR j - d))))%R).
  - apply sumZ_ext. intros j Hj. rewrite minus_IZR. replace (w * (IZR m - IZR j) + phi)%R with (u - w * (IZR j - d))%R by (unfold u; ring). rewrite cos_minus. req. ring.
  - rewrite sumR_split2 by assumption. replace (sumR 0 (lenZ h) (fun j => atR h j * sin (w * (IZR j - d)))%R) with 0%R; [unfold real_gain; fold d; change (car Rring) with R; req; ring|].
    symmetry. apply sumR_zero_by_mirror. intros j Hj. unfold d. rewrite mirror_angle, sin_neg. rewrite (Sy j Hj). req. change (car Rring) with R. ring.
Qed.
Lemma filt_images h a w phi P m : 0 < P -> filt h (stuff (fun t => a * cos (w * t + phi))%R P) m = sumR 0 P (fun l => line h ((w + 2 * PI * IZR l) / IZR P)%R a phi m).
Proof.
  intros HP. assert (P0 : (IZR P <> 0)%R) by (apply (IZR_neq P 0); lia). unfold line, filt. rewrite sumZ_swap. apply sumZ_ext. intros k Hk.
  transitivity (atR h k * a * sumR 0 P (fun l => cos ((w * (IZR (m - k) / IZR P) + phi) + 2 * PI * IZR l * IZR (m - k) / IZR P)%R))%R.
  - rewrite pick_sum by exact HP. unfold stuff. destruct (_ =? 0); req; ring.
  - rewrite <- (sumZ_scale (K := Rring)). apply sumZ_ext. intros l Hl. cbn [rmul Rring]. rewrite Rmult_assoc. req. do 3 f_equal. field. exact P0.
Qed.
Lemma all_but_first n (f : Z -> R) c : 0 < n -> (forall l, 1 <= l < n -> (Rabs (f l) <= c)%R) -> (Rabs (sumR 0 n f - f 0%Z) <= IZR (n - 1) * c)%R.
Proof.
  intros Hn. replace n with (Z.of_nat (Z.to_nat (n - 1)) + 1) by lia. generalize (Z.to_nat (n - 1)) as k. clear. intros k. induction k as [|k IH]; intros H.
  - cbn [Z.of_nat Z.add]. rewrite sumZ_one. change (IZR (1 - 1)) with 0%R. replace (f 0%Z - f 0%Z)%R with 0%R by ring. rewrite Rabs_R0. lra.
  - replace (Z.of_nat (S k) + 1) with (Z.of_nat k + 1 + 1) by lia. rewrite sumZ_last by lia. cbn [radd Rring].
    specialize (IH ltac:(intros l Hl; apply H; lia)). pose proof (H (Z.of_nat k + 1) ltac:(lia)) as B. replace (Z.of_nat k + 1 + 1 - 1) with (Z.of_nat k + 1 - 1 + 1) by lia. rewrite plus_IZR.
    set (s := sumR 0 (Z.of_nat k + 1) f) in *. replace (Rplus s (f (Z.of_nat k + 1)%Z) - f 0%Z)%R with ((s - f 0%Z) + f (Z.of_nat k + 1)%Z)%R by ring. eapply Rle_trans; [apply Rabs_triang|]. lra.
Qed.
(** in a passband the sinusoid comes out delayed by half the filter; the images add what the stopband lets through *)
Lemma filt_passband h a w phi P m eps dl : 0 < P -> symmetric (K := Rring) h -> (Rabs (real_gain h (w / IZR P) - 1) <= eps)%R -> (forall l, 1 <= l < P -> (Cabs (response_at h ((w + 2 * PI * IZR l) / IZR P)) <= dl)%R) ->
  (Rabs (filt h (stuff (fun t => a * cos (w * t + phi))%R P) m - a * cos (w * ((IZR m - group_delay h) / IZR P) + phi)) <= Rabs a * (eps + IZR (P - 1) * dl))%R.
Proof.
  intros HP Sy Hp Hs. assert (P0 : (IZR P <> 0)%R) by (apply (IZR_neq P 0); lia). rewrite filt_images by exact HP. set (f := fun l => line h ((w + 2 * PI * IZR l) / IZR P)%R a phi m).
  pose proof (all_but_first P f (Rabs a * dl)%R HP) as B. specialize (B ltac:(intros l Hl; unfold f; eapply Rle_trans; [apply line_bound|]; apply Rmult_le_compat_l; [apply Rabs_pos|now apply Hs])).
  assert (E : (f 0%Z - a * cos (w * ((IZR m - group_delay h) / IZR P) + phi))%R = (a * ((real_gain h (w / IZR P) - 1) * cos (w * ((IZR m - group_delay h) / IZR P) + phi)))%R).
  { unfold f. replace ((w + 2 * PI * IZR 0) / IZR P)%R with (w / IZR P)%R by (change (IZR 0) with 0%R; field; exact P0). rewrite line_symmetric by exact Sy. replace (w / IZR P * (IZR m - group_delay h))%R with (w * ((IZR m - group_delay h) / IZR P))%R by (field; exact P0). ring. }
  set (c := (a * cos (w * ((IZR m - group_delay h) / IZR P) + phi))%R) in *. replace (sumR 0 P f - c)%R with ((sumR 0 P f - f 0%Z) + (f 0%Z - c))%R by ring. eapply Rle_trans; [apply Rabs_triang|].
  rewrite E, Rabs_mult. pose proof (COS_bound (w * ((IZR m - group_delay h) / IZR P) + phi)) as Cb.
  assert (Rabs ((real_gain h (w / IZR P) - 1) * cos (w * ((IZR m - group_delay h) / IZR P) + phi)) <= eps)%R.
  { rewrite Rabs_mult. set (g := Rabs (real_gain h (w / IZR P) - 1)) in *. assert (0 <= g)%R by apply Rabs_pos. assert (Rabs (cos (w * ((IZR m - group_delay h) / IZR P) + phi)) <= 1)%R by (apply Rabs_le; lra). pose proof (Rabs_pos (cos (w * ((IZR m - group_delay h) / IZR P) + phi))). nra. }
  pose proof (Rabs_pos a). nra.
Qed.
