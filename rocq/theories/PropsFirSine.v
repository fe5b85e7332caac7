(** C76: sinusoids and bounds through FIR filters, measured frequency responses. *)
From Coq Require Import ZArith List Bool Lia Reals Lra.
From Verif Require Import Base BaseFacts Complex KernelModel KernelProofs ConvModel ConvProofs PropsConv Dft FirModel FftModel FftProofs FirProofs OlaModel OlaProofs PropsOla PolyphaseModel PolyphaseProofs PropsPolyphase FirBandModel FirBandProofs PropsFirBand WindowModel WindowProofs PropsWindow FirDesignModel FirDesignProofs PropsFirDesign IirModel PolyModel PolyProofs SysModel SysProofs FunctionModel FunctionProofs LsqFacts PropsFft PropsPoly PropsSys PropsFunction StableProofs PropsStable.
From Coq Require Import ZifyBool ZifyNat.
Import ListNotations.
Open Scope Z_scope.
#[local] Notation sumR := (sumZ (K := Rring)).

(** ** Specification *)
(** the joined output [y] of filtering the signal [x], cut into any blocks, from a zero state *)
Definition fir_filtered (taps x y : list R) : Prop := exists W1 W2 vec (junk : list R) blocks outs final, 1 <= W1 /\ 1 <= W2 /\ W2 <= lenZ junk /\ concat blocks = x /\ concat outs = y /\
  run_blocks (fun b s => FilterConvStateNew (K := Rring) W1 W2 vec junk b taps s) blocks (repeat 0%R (Z.to_nat (lenZ taps - 1))) = Ok (outs, final).
(** x_n = a cos(w n + phi) *)
Definition tone (a w phi : R) (x : list R) : Prop := forall n, 0 <= n < lenZ x -> atR x n = (a * cos (w * IZR n + phi))%R.
Definition sum_abs (h : list R) : R := sumR 0 (lenZ h) (fun j => Rabs (atR h j)).

(** ** Proofs *)
Lemma fir_filtered_conv (taps x y : list R) : 1 <= lenZ taps < 2 ^ 64 -> fir_filtered taps x y -> lenZ y = lenZ x /\ forall n, 0 <= n < lenZ x -> atR y n = sumR 0 (lenZ taps) (fun j => atR taps j * atR x (n - j))%R.
Proof.
  intros Ht (W1 & W2 & vec & junk & blocks & outs & final & H1 & H2 & H3 & <- & <- & E).
  destruct (C19_prefix_of_convolution Rring W1 W2 vec junk taps blocks H1 H2 H3 Ht) as ([o s] & E' & Ho & _).
  pose proof (eq_trans (eq_sym E) E') as E2. injection E2 as <- <-. cbn [fst] in Ho. change (car Rring) with R in *. rewrite Ho. pose proof (lenZ_nonneg (concat blocks)) as L0.
  split; [refine (eq_trans (lenZ_tab _ _) _); lia|]. intros n Hn. refine (eq_trans (at0_tab _ _ _ Hn) _). rewrite conv_at_conv. rewrite conv_comm. reflexivity.
Qed.
Lemma sumR_split2 n (f g : Z -> R) (a b : R) : 0 <= n -> sumR 0 n (fun j => a * f j + b * g j)%R = (a * sumR 0 n f + b * sumR 0 n g)%R.
Proof.
  revert n. apply natlike_ind; [rewrite !sumZ_empty by lia; cbn; ring|]. intros m Hm IH. unfold Z.succ. rewrite !sumZ_last by lia. rewrite IH. cbn. ring.
Qed.
Lemma response_re h w : re (response_at h w) = sumR 0 (lenZ h) (fun j => atR h j * cos (w * IZR j))%R.
Proof.
  unfold response_at. pose proof (lenZ_nonneg h) as H. revert H. generalize (lenZ h). apply natlike_ind; [rewrite !sumZ_empty by lia; reflexivity|].
  intros m Hm IH. unfold Z.succ. rewrite !sumZ_last by lia. cbn. cbn in IH. rewrite IH. f_equal. ring.
Qed.
Lemma response_im h w : im (response_at h w) = (- sumR 0 (lenZ h) (fun j => atR h j * sin (w * IZR j)))%R.
Proof.
  unfold response_at. pose proof (lenZ_nonneg h) as H. revert H. generalize (lenZ h). apply natlike_ind; [rewrite !sumZ_empty by lia; cbn; ring|].
  intros m Hm IH. unfold Z.succ. rewrite !sumZ_last by lia. cbn. cbn in IH. rewrite IH. ring.
Qed.
Lemma tone_sum (taps x : list R) a w phi n : tone a w phi x -> lenZ taps - 1 <= n < lenZ x ->
  sumR 0 (lenZ taps) (fun j => atR taps j * atR x (n - j))%R = (a * (re (response_at taps w) * cos (w * IZR n + phi) - im (response_at taps w) * sin (w * IZR n + phi)))%R.
Proof.
  intros T Hn. rewrite response_re, response_im. pose proof (lenZ_nonneg taps).
  transitivity (sumR 0 (lenZ taps) (fun j => (a * cos (w * IZR n + phi)) * (atR taps j * cos (w * IZR j)) + (a * sin (w * IZR n + phi)) * (atR taps j * sin (w * IZR j)))%R).
  - apply sumZ_ext. intros j Hj. rewrite (T (n - j)) by lia. rewrite minus_IZR. replace (w * (IZR n - IZR j) + phi)%R with ((w * IZR n + phi) - w * IZR j)%R by ring. rewrite cos_minus. match goal with |- ?l = ?r => change (@eq R l r) end. ring.
  - rewrite sumR_split2 by assumption. change (car Rring) with R. match goal with |- ?l = ?r => change (@eq R l r) end. ring.
Qed.
Lemma tone_polar (taps x : list R) a w phi n A P : tone a w phi x -> lenZ taps - 1 <= n < lenZ x -> polar_of (response_at taps w) A P ->
  sumR 0 (lenZ taps) (fun j => atR taps j * atR x (n - j))%R = (A * a * cos (w * IZR n + phi + P))%R.
Proof.
  intros T Hn (_ & _ & _ & Hp). rewrite (tone_sum _ _ _ _ _ _ T Hn). rewrite Hp. cbn [re im]. rewrite (cos_plus (w * IZR n + phi) P). match goal with |- ?l = ?r => change (@eq R l r) end. ring.
Qed.
Lemma sumR_abs_le n (f g : Z -> R) : 0 <= n -> (forall j, 0 <= j < n -> (Rabs (f j) <= g j)%R) -> (Rabs (sumR 0 n f) <= sumR 0 n g)%R.
Proof.
  intros Hn. revert n Hn. apply (natlike_ind (fun n => (forall j, 0 <= j < n -> (Rabs (f j) <= g j)%R) -> (Rabs (sumR 0 n f) <= sumR 0 n g)%R)); [intros _; rewrite !sumZ_empty by lia; cbn; rewrite Rabs_R0; lra|].
  intros m Hm IH H. unfold Z.succ in *. rewrite !sumZ_last by lia. cbn. eapply Rle_trans; [apply Rabs_triang|]. apply Rplus_le_compat; [apply IH; intros j Hj; apply H; lia|apply H; lia].
Qed.
Lemma sumR_scale_r n (f : Z -> R) M : 0 <= n -> sumR 0 n (fun j => f j * M)%R = (sumR 0 n f * M)%R.
Proof.
  revert n. apply natlike_ind; [rewrite !sumZ_empty by lia; cbn; ring|]. intros m Hm IH. unfold Z.succ. rewrite !sumZ_last by lia. rewrite IH. cbn. ring.
Qed.

(** ** Theorems *)
(** every run on a signal gives a result of the signal's length, the same for every partition into blocks *)
Theorem C76_filtered_exists (taps x : list R) : 1 <= lenZ taps < 2 ^ 64 -> exists y, fir_filtered taps x y /\ lenZ y = lenZ x /\ forall y', fir_filtered taps x y' -> y' = y.
Proof.
  intros Ht. destruct (C19_prefix_of_convolution Rring 1 1 false [0%R] taps [x] ltac:(lia) ltac:(lia) ltac:(discriminate) Ht) as ([o s] & E & _).
  assert (F : fir_filtered taps x (concat o)). { exists 1, 1, false, [0%R], [x], o, s. repeat split; try lia; try discriminate. - cbn. apply app_nil_r. - exact E. }
  exists (concat o). split; [exact F|]. destruct (fir_filtered_conv _ _ _ Ht F) as [L H]. split; [exact L|]. intros y' F'. destruct (fir_filtered_conv _ _ _ Ht F') as [L' H'].
  apply (at0_ext (K := Rring)); [exact (eq_trans L' (eq_sym L))|]. intros i Hi. assert (Hi' : 0 <= i < lenZ x) by (rewrite <- L'; exact Hi). exact (eq_trans (H' i Hi') (eq_sym (H i Hi'))).
Qed.
Print Assumptions C76_filtered_exists.

(** a sinusoid leaves the filter, from sample taps - 1 on, as exactly the sinusoid with the amplitude and phase of the response *)
Theorem C76_streaming (taps : list R) a w phi x y A P : 1 <= lenZ taps < 2 ^ 64 -> fir_filtered taps x y -> tone a w phi x -> polar_of (response_at taps w) A P ->
  forall n, lenZ taps - 1 <= n < lenZ x -> atR y n = (A * a * cos (w * IZR n + phi + P))%R.
Proof. intros Ht F T Hp n Hn. destruct (fir_filtered_conv _ _ _ Ht F) as [_ H]. rewrite (H n ltac:(lia)). now apply tone_polar. Qed.
Print Assumptions C76_streaming.

(** central convolution: the same for every output sample, which starts taps - 1 samples later *)
Theorem C76_central W1 W2 vec (junk x taps : list R) a w phi A P : 1 <= W1 -> 1 <= W2 -> W2 <= lenZ junk -> 1 <= lenZ taps <= lenZ x -> lenZ x < 2 ^ 64 -> tone a w phi x -> polar_of (response_at taps w) A P ->
  exists y, Convolution (K := Rring) W1 W2 vec junk x taps CONV_CENTRAL = Ok y /\ lenZ y = lenZ x - lenZ taps + 1 /\
    forall n, 0 <= n < lenZ y -> atR y n = (A * a * cos (w * IZR (n + lenZ taps - 1) + phi + P))%R.
Proof.
  intros H1 H2 H3 Ht Hx T Hp. destruct (C13_central Rring W1 W2 vec junk x taps H1 H2 H3) as (y & E & Ly & Hy & _).
  1,2: intros ->; cbn in *; lia. 1: exact Hx. 1: change (lenZ taps < 2 ^ 64); lia.
  exists y. split; [exact E|]. change (car Rring) with R in *. rewrite Z.max_l, Z.min_r in Ly by lia. rewrite Z.min_r in Hy by lia. split; [exact Ly|]. intros n Hn.
  refine (eq_trans (Hy n Hn) _). rewrite conv_at_conv, conv_comm. unfold conv. change (car Rring) with R. replace (n + lenZ taps - 1) with (lenZ taps - 1 + n) by ring. apply tone_polar; [exact T|lia|exact Hp].
Qed.
Print Assumptions C76_central.

(** the gain for arbitrary bounded signals is at most the sum of the magnitudes of the taps ... *)
Theorem C76_bounded_output (taps x y : list R) M : 1 <= lenZ taps < 2 ^ 64 -> fir_filtered taps x y -> (forall n, 0 <= n < lenZ x -> (Rabs (atR x n) <= M)%R) -> forall n, 0 <= n < lenZ x -> (Rabs (atR y n) <= sum_abs taps * M)%R.
Proof.
  intros Ht F B n Hn. destruct (fir_filtered_conv _ _ _ Ht F) as [_ H]. rewrite (H n Hn). unfold sum_abs. rewrite <- sumR_scale_r by lia. apply sumR_abs_le; [lia|]. intros j Hj. rewrite Rabs_mult. apply Rmult_le_compat_l; [apply Rabs_pos|].
  destruct (Z_lt_ge_dec (n - j) 0) as [Hl|Hl]; [|apply B; lia]. rewrite (at0_out x) by lia. cbn. rewrite Rabs_R0. eapply Rle_trans; [apply Rabs_pos|apply (B n Hn)].
Qed.
Print Assumptions C76_bounded_output.
(** ... and that much is reached *)
Theorem C76_bound_reached (taps : list R) M : 1 <= lenZ taps < 2 ^ 64 -> (0 <= M)%R -> exists x, (forall n, 0 <= n < lenZ x -> (Rabs (atR x n) <= M)%R) /\ lenZ x = lenZ taps /\ forall y, fir_filtered taps x y -> atR y (lenZ taps - 1) = (sum_abs taps * M)%R.
Proof.
  intros Ht HM. set (sg := fun v : R => if Rle_dec 0 v then 1%R else (-1)%R). assert (Hsg : forall v, (v * sg v)%R = Rabs v /\ Rabs (sg v) = 1%R).
  { intros v. unfold sg. destruct (Rle_dec 0 v). - rewrite (Rabs_right v) by lra. rewrite Rabs_R1. split; ring. - rewrite (Rabs_left v) by lra. rewrite Rabs_left by lra. split; ring. }
  set (x := @tab R (lenZ taps) (fun n => (sg (atR taps (lenZ taps - 1 - n)) * M)%R)). assert (Lx : lenZ x = lenZ taps) by (refine (eq_trans (lenZ_tab _ _) _); lia).
  exists x. split; [|split; [exact Lx|]].
  - intros n Hn. change (car Rring) with R in *. rewrite Lx in Hn. unfold x. rewrite (at0_tab (K := Rring)) by exact Hn. rewrite Rabs_mult, (proj2 (Hsg _)), Rmult_1_l, Rabs_right by lra. lra.
  - intros y F. destruct (fir_filtered_conv _ _ _ Ht F) as [_ H]. rewrite H by lia. unfold sum_abs. rewrite <- sumR_scale_r by lia. apply sumZ_ext. intros j Hj. unfold x. rewrite (at0_tab (K := Rring)) by lia. replace (lenZ taps - 1 - (lenZ taps - 1 - j)) with j by ring. rewrite <- (proj1 (Hsg (atR taps j))). match goal with |- ?l = ?r => change (@eq R l r) end. ring.
Qed.
Print Assumptions C76_bound_reached.

(** ** Measured responses *)
(** the response measured by FrequencyResponse of an impulse response is what a sinusoid of that frequency experiences *)
Theorem C76_measured_fir W vec max_size (h : list R) hint : 1 <= W -> 0 <= hint -> 1 <= lenZ h < 2 ^ 64 -> let grid := if 0 <? hint then hint else 10 * lenZ h in let N := Z.max (lenZ h) (2 * grid - 1) in
  2 * grid < 2 ^ 64 -> N <= max_size ->
  exists amp ph, FrequencyResponseImpulse W vec max_size h hint = Ok (amp, ph) /\ lenZ amp = N / 2 + 1 /\
    forall k a phi x y, 0 <= k < lenZ amp -> fir_filtered h x y -> tone a (2 * PI * IZR k / IZR N) phi x -> forall n, lenZ h - 1 <= n < lenZ x ->
      atR y n = (atR amp k * a * cos (2 * PI * IZR k / IZR N * IZR n + phi + atR ph k))%R.
Proof.
  intros HW Hh Hl grid N Hs Hm. assert (Hg : 0 < grid) by (unfold grid; destruct (0 <? hint) eqn:E; lia).
  destruct (C54_impulse W vec max_size h hint HW Hh Hg Hs Hm) as (a & p & E & La & _ & _ & Hp). exists a, p. split; [exact E|]. split; [exact La|].
  intros k a0 phi x y Hk F T n Hn. exact (C76_streaming h a0 _ phi x y _ _ Hl F T (Hp k Hk) n Hn).
Qed.
Print Assumptions C76_measured_fir.
(** the same for stable recursive filters with as many zeros as poles, in the limit *)
Theorem C76_measured_iir W vec (s : zpk) rho hint : 1 <= W -> well_formed s -> (0 < system_order s)%nat -> length (all_roots (zeros s)) = length (all_roots (poles s)) -> (0 < rho <= 1)%R -> poles_inside s rho -> 0 <= hint -> hint <> 1 ->
  exists amp ph B, FrequencyResponseZpk W vec s hint = Ok (amp, ph) /\ lenZ amp = (if 0 <? hint then hint else (1 + Z.of_nat (system_order s)) * 20) /\ (0 <= B)%R /\
    forall k a phi x y, 0 <= k < lenZ amp -> filtered s x y -> sinusoid a (PI * IZR k / IZR (lenZ amp - 1)) phi x -> forall n, (n < length x)%nat ->
      (Rabs (sample y n - atR amp k * a * cos (PI * IZR k / IZR (lenZ amp - 1) * INR n + phi + atR ph k)) <= B * Rabs a * rho ^ n)%R.
Proof.
  intros HW Wf Ho Hz Hr Hp Hh H1. destruct (C54_system W vec s hint HW Wf Hh H1) as (amp & ph & t & E & _ & _ & La & _ & Hpol & _).
  { intros i _ Hv. unfold is_pole in Hv. assert (G : forall qs z, Cabs z = 1%R -> (forall p, In p qs -> (Cabs p < 1)%R) -> vanishing_product qs z <> C0).
    { clear. induction qs as [|q qs IH]; intros z Hz Hq HV; [cbn in HV; apply (f_equal re) in HV; cbn in HV; lra|]. cbn in HV. apply (f_equal Cabs) in HV. rewrite Cabs_mul in HV. rewrite (proj2 (Cabs_0 C0)) in HV by reflexivity. apply Rmult_integral in HV as [HV|HV].
      - apply Cabs_0 in HV. assert (z = q) by (apply C_ext; [apply (f_equal re) in HV|apply (f_equal im) in HV]; cbn in HV; lra). subst. specialize (Hq q (or_introl eq_refl)). lra.
      - apply Cabs_0 in HV. exact (IH z Hz (fun p Hp => Hq p (or_intror Hp)) HV). }
    eapply G; [|intros p Hin; exact (Rlt_le_trans _ _ _ (Hp p Hin) (proj2 Hr))|exact Hv]. apply Cabs_cis. }
  destruct (C73_settles s rho Wf Ho Hr Hp) as (B & HB & H). exists amp, ph, B. split; [exact E|]. split; [exact La|]. split; [exact HB|].
  intros k a phi x y Hk F T n Hn. specialize (H a _ phi x y F T n Hn). rewrite La in *. specialize (Hpol k Hk). unfold grid_frequency in Hpol.
  set (w := (PI * IZR k / IZR ((if 0 <? hint then hint else (1 + Z.of_nat (system_order s)) * 20) - 1))%R) in *. set (Hw := transfer_at s (cis w)) in *.
  rewrite Hz in H. replace (INR n + INR (length (all_roots (poles s))) - INR (length (all_roots (poles s))))%R with (INR n) in H by ring.
  destruct Hpol as (_ & _ & _ & Ep). assert (Eq : (Cabs Hw * cos (w * INR n + phi + Carg Hw) = atR amp k * cos (w * INR n + phi + atR ph k))%R).
  { rewrite (cos_plus _ (Carg Hw)), (cos_plus _ (atR ph k)). pose proof (Carg_polar Hw) as Q. rewrite Ep in Q at 1. pose proof (f_equal re Q) as Q1. pose proof (f_equal im Q) as Q2. cbn in Q1, Q2.
    set (c := cos (w * INR n + phi)) in *. set (sn := sin (w * INR n + phi)) in *. transitivity (c * (Cabs Hw * cos (Carg Hw) - 0 * sin (Carg Hw)) - sn * (Cabs Hw * sin (Carg Hw) + 0 * cos (Carg Hw)))%R; [ring|]. rewrite <- Q1, <- Q2. match goal with |- ?l = ?r => change (@eq R l r) end. ring. }
  replace (atR amp k * a * cos (w * INR n + phi + atR ph k))%R with (a * Cabs Hw * cos (w * INR n + phi + Carg Hw))%R; [exact H|]. rewrite Rmult_assoc, Eq. match goal with |- ?l = ?r => change (@eq R l r) end. ring.
Qed.
Print Assumptions C76_measured_iir.

(** ** Linear phase *)
(** half the length of the filter *)
Definition group_delay (h : list R) : R := (IZR (lenZ h - 1) / 2)%R.
Definition real_gain (h : list R) (w : R) : R := sumR 0 (lenZ h) (fun j => atR h j * cos (w * (IZR j - group_delay h)))%R.
Definition hilbert_gain (h : list R) (w : R) : R := sumR 0 (lenZ h) (fun j => atR h j * sin (w * (IZR j - group_delay h)))%R.
Lemma sumR_zero_by_mirror (n : Z) (f : Z -> R) : (forall j, 0 <= j < n -> f j = (- f (n - 1 - j)%Z)%R) -> sumR 0 n f = 0%R.
Proof.
  intros H. destruct (Z_le_gt_dec n 0) as [Hn|Hn]; [now rewrite sumZ_empty by lia|].
  assert (E : sumR 0 n f = (- sumR 0 n f)%R); [|lra].
  rewrite (sumZ_reflect (K := Rring) 0 n (n - 1)) at 1. replace (n - 1 - n + 1) with 0 by lia. replace (n - 1 - 0 + 1) with n by lia.
  transitivity (sumR 0 n (fun j => f j * -1)%R); [|rewrite sumR_scale_r by lia; match goal with |- ?l = ?r => change (@eq R l r) end; ring].
  apply sumZ_ext. intros j Hj. rewrite (H j Hj). match goal with |- ?l = ?r => change (@eq R l r) end. ring.
Qed.
Lemma tone_centred (h x : list R) a w phi n : tone a w phi x -> lenZ h - 1 <= n < lenZ x ->
  sumR 0 (lenZ h) (fun j => atR h j * atR x (n - j))%R = (a * (real_gain h w * cos (w * (IZR n - group_delay h) + phi) + hilbert_gain h w * sin (w * (IZR n - group_delay h) + phi)))%R.
Proof.
  intros T Hn. pose proof (lenZ_nonneg h). set (m := group_delay h). set (u := (w * (IZR n - m) + phi)%R).
  transitivity (sumR 0 (lenZ h) (fun j => (a * cos u) * (atR h j * cos (w * (IZR j - m))) + (a * sin u) * (atR h j * sin (w * (IZR j - m))))%R).
  - apply sumZ_ext. intros j Hj. rewrite (T (n - j)) by lia. rewrite minus_IZR. replace (w * (IZR n - IZR j) + phi)%R with (u - w * (IZR j - m))%R by (unfold u; ring). rewrite cos_minus. match goal with |- ?l = ?r => change (@eq R l r) end. ring.
  - rewrite sumR_split2 by assumption. unfold real_gain, hilbert_gain. fold m. change (car Rring) with R. match goal with |- ?l = ?r => change (@eq R l r) end. ring.
Qed.
Lemma mirror_angle (h : list R) w j : (w * (IZR (lenZ h - 1 - j) - group_delay h) = - (w * (IZR j - group_delay h)))%R.
Proof. unfold group_delay. rewrite !minus_IZR. field. Qed.
(** symmetric taps: every sinusoid is delayed by half the filter length, whatever its frequency, and scaled by a real factor *)
Theorem C76_symmetric (h x y : list R) a w phi : 1 <= lenZ h < 2 ^ 64 -> symmetric (K := Rring) h -> fir_filtered h x y -> tone a w phi x ->
  forall n, lenZ h - 1 <= n < lenZ x -> atR y n = (real_gain h w * a * cos (w * (IZR n - group_delay h) + phi))%R.
Proof.
  intros Hl Sy F T n Hn. destruct (fir_filtered_conv _ _ _ Hl F) as [_ H]. rewrite (H n ltac:(lia)). rewrite (tone_centred _ _ _ _ _ _ T Hn).
  replace (hilbert_gain h w) with 0%R; [match goal with |- ?l = ?r => change (@eq R l r) end; ring|]. symmetry. apply sumR_zero_by_mirror. intros j Hj. rewrite mirror_angle, sin_neg. rewrite (Sy j Hj). match goal with |- ?l = ?r => change (@eq R l r) end. change (car Rring) with R. ring.
Qed.
Print Assumptions C76_symmetric.
(** antisymmetric taps (Hilbert transformers): delayed by half the filter length, and the cosine becomes a sine *)
Theorem C76_antisymmetric (h x y : list R) a w phi : 1 <= lenZ h < 2 ^ 64 -> antisymmetric (K := Rring) h -> fir_filtered h x y -> tone a w phi x ->
  forall n, lenZ h - 1 <= n < lenZ x -> atR y n = (hilbert_gain h w * a * sin (w * (IZR n - group_delay h) + phi))%R.
Proof.
  intros Hl Sy F T n Hn. destruct (fir_filtered_conv _ _ _ Hl F) as [_ H]. rewrite (H n ltac:(lia)). rewrite (tone_centred _ _ _ _ _ _ T Hn).
  replace (real_gain h w) with 0%R; [match goal with |- ?l = ?r => change (@eq R l r) end; ring|]. symmetry. apply sumR_zero_by_mirror. intros j Hj. rewrite mirror_angle, cos_neg. rewrite (Sy j Hj). match goal with |- ?l = ?r => change (@eq R l r) end. change (car Rring) with R. change (@ropp Rring) with Ropp. ring.
Qed.
Print Assumptions C76_antisymmetric.

(** ** Windowed designs *)
Lemma real_gain_dc h : real_gain h 0 = dc_gain h.
Proof. unfold real_gain, dc_gain. apply sumZ_ext. intros j _. rewrite Rmult_0_l, cos_0. apply Rmult_1_r. Qed.
(** a designed lowpass passes constants unchanged, a designed highpass removes them, once the filter is filled; both delay
    every sinusoid by half their length *)
Theorem C76_windowed W vec (out w : list R) c arg : 1 <= W -> odd_length out -> lenZ out < 2 ^ 64 -> uses_window out arg w -> bell w -> (0 < c <= 1)%R ->
  exists lp hp, DesignLowpass W vec out c arg = Ok lp /\ DesignHighpass W vec out c arg = Ok hp /\ lenZ lp = lenZ out /\ lenZ hp = lenZ out /\
    (forall (v : R) x y, (forall n, 0 <= n < lenZ x -> atR x n = v) -> fir_filtered lp x y -> forall n, lenZ out - 1 <= n < lenZ x -> atR y n = v) /\
    (forall (v : R) x y, (forall n, 0 <= n < lenZ x -> atR x n = v) -> fir_filtered hp x y -> forall n, lenZ out - 1 <= n < lenZ x -> atR y n = 0%R) /\
    forall h, h = lp \/ h = hp -> forall a f phi x y, tone a f phi x -> fir_filtered h x y -> forall n, lenZ out - 1 <= n < lenZ x ->
      atR y n = (real_gain h f * a * cos (f * (IZR n - IZR (lenZ out - 1) / 2) + phi))%R.
Proof.
  intros HW Ho Hl Hw Hb Hc. destruct (C39_lowpass_succeeds W vec out c arg w HW Ho Hw Hb Hc) as (lp & El & Ll & Sl & Dl).
  assert (Ol : odd_length lp) by (unfold odd_length in *; now rewrite Ll).
  destruct (C39_highpass W vec out c arg lp HW Ho ltac:(lra) El Ol) as (hp & Eh & Lh & _ & Dh & Sh). specialize (Dh Dl). specialize (Sh Sl). rewrite Ll in Lh.
  assert (H1 : 1 <= lenZ out). { unfold odd_length in Ho. pose proof (lenZ_nonneg out). destruct (Z.eq_dec (lenZ out) 0) as [E|E]; [rewrite E in Ho; discriminate|lia]. }
  exists lp, hp. split; [exact El|]. split; [exact Eh|]. split; [exact Ll|]. split; [exact Lh|].
  assert (G : forall h : list R, lenZ h = lenZ out -> symmetric (K := Rring) h -> forall a f phi x y, tone a f phi x -> fir_filtered h x y -> forall n, lenZ out - 1 <= n < lenZ x ->
      atR y n = (real_gain h f * a * cos (f * (IZR n - IZR (lenZ out - 1) / 2) + phi))%R).
  { intros h Lh' Sy a f phi x y T F n Hn. rewrite <- Lh' in Hn |- *. apply (C76_symmetric h x y a f phi); try assumption. rewrite Lh'. split; [exact H1|exact Hl]. }
  assert (K : forall (v : R) x, (forall n, 0 <= n < lenZ x -> atR x n = v) -> tone v 0 0 x). { intros v x H n Hn. rewrite (H n Hn). rewrite Rmult_0_l, Rplus_0_l, cos_0. symmetry. apply Rmult_1_r. }
  split; [|split].
  - intros v x y H F n Hn. rewrite (G lp Ll Sl v 0%R 0%R x y (K v x H) F n Hn). rewrite real_gain_dc, Dl. rewrite Rmult_0_l, Rplus_0_l, cos_0. match goal with |- ?l = ?r => change (@eq R l r) end. ring.
  - intros v x y H F n Hn. rewrite (G hp Lh Sh v 0%R 0%R x y (K v x H) F n Hn). rewrite real_gain_dc, Dh. match goal with |- ?l = ?r => change (@eq R l r) end. ring.
  - intros h [->| ->]; now apply G.
Qed.
Print Assumptions C76_windowed.

Example C76_nontrivial : let h := [1; 2; 1]%R in exists y, fir_filtered h [1; -1; 1; -1]%R y /\ atR y 2 = 0%R /\ atR y 3 = 0%R /\ tone 1 PI 0 [1; -1; 1; -1]%R /\ symmetric (K := Rring) h /\ real_gain h 0 = 4%R /\ sum_abs h = 4%R.
Proof.
  intros h. destruct (C76_filtered_exists h [1; -1; 1; -1]%R ltac:(split; [discriminate|reflexivity])) as (y & F & _ & _). exists y. split; [exact F|].
  assert (T : tone 1 PI 0 [1; -1; 1; -1]%R).
  { intros n Hn. change (0 <= n < 4) in Hn. assert (n = 0 \/ n = 1 \/ n = 2 \/ n = 3) as [->|[->|[->| ->]]] by lia; cbn -[PI cos IZR Rmult Rplus]; rewrite Rplus_0_r, ?Rmult_0_r, ?Rmult_1_r, Rmult_1_l.
    - now rewrite cos_0. - now rewrite cos_PI. - replace (PI * 2)%R with (2 * PI)%R by ring. now rewrite cos_2PI. - replace (PI * 3)%R with (PI + 2 * PI)%R by ring. rewrite cos_plus, cos_2PI, sin_2PI, cos_PI, sin_PI. change (-1 = -1 * 1 - 0 * 0)%R. ring. }
  destruct (fir_filtered_conv h _ y ltac:(split; [discriminate|reflexivity]) F) as [_ H].
  assert (V : forall f : Z -> R, sumR 0 (lenZ h) f = (f 0%Z + f 1%Z + f 2%Z)%R) by (intros f; unfold sumZ; change (lenZ h) with 3; change (Z.to_nat (3 - 0)) with 3%nat; cbn [sumf]; change (@radd Rring) with Rplus; change (@r0 Rring) with 0%R; cbn [Z.of_nat Z.add]; match goal with |- ?l = ?r => change (@eq R l r) end; cbn; ring).
  assert (S : symmetric (K := Rring) h). { intros k Hk. change (0 <= k < 3) in Hk. assert (k = 0 \/ k = 1 \/ k = 2) as [->|[->| ->]] by lia; reflexivity. }
  split; [|split; [|split; [exact T|split; [exact S|split]]]].
  - rewrite (H 2 ltac:(change (0 <= 2 < 4); lia)), V. unfold at0, nthZ, h. cbn -[IZR Rplus Rmult Rminus Ropp]. repeat (change (Pos.to_nat 1) with 1%nat || change (Pos.to_nat 2) with 2%nat || change (Pos.to_nat 3) with 3%nat). cbn [nth_error]. change (@r0 Rring) with 0%R. match goal with |- ?l = ?r => change (@eq R l r) end. ring.
  - rewrite (H 3 ltac:(change (0 <= 3 < 4); lia)), V. unfold at0, nthZ, h. cbn -[IZR Rplus Rmult Rminus Ropp]. repeat (change (Pos.to_nat 1) with 1%nat || change (Pos.to_nat 2) with 2%nat || change (Pos.to_nat 3) with 3%nat). cbn [nth_error]. change (@r0 Rring) with 0%R. match goal with |- ?l = ?r => change (@eq R l r) end. ring.
  - rewrite real_gain_dc. unfold dc_gain. rewrite V. unfold at0, nthZ, h. cbn -[IZR Rplus Rmult Rminus Ropp]. repeat (change (Pos.to_nat 1) with 1%nat || change (Pos.to_nat 2) with 2%nat || change (Pos.to_nat 3) with 3%nat). cbn [nth_error]. change (@r0 Rring) with 0%R. match goal with |- ?l = ?r => change (@eq R l r) end. ring.
  - unfold sum_abs. rewrite V. unfold at0, nthZ, h. cbn -[IZR Rplus Rmult Rminus Ropp]. change (Pos.to_nat 1) with 1%nat. change (Pos.to_nat 2) with 2%nat. cbn [nth_error]. rewrite !Rabs_right by lra. match goal with |- ?l = ?r => change (@eq R l r) end. ring.
Qed.
