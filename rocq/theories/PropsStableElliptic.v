(** C73, continued: elliptic designs. *)
From Coq Require Import Reals Lra Lia List ZArith Arith Psatz.
From Verif Require Import Base BaseFacts Complex ConvProofs FunctionModel FunctionProofs IirModel IirProofs PolyModel PolyProofs SysModel SysProofs RootModel ChebyModel PropsPoly PropsIir PropsSys PropsDesign PropsCheby EllipticModel EllipticProto PropsEllipticDesign StableProofs PropsStable PropsStableBands.
Import ListNotations.
Local Open Scope R_scope.

(** the factor by which a sinusoid of frequency w is scaled: in the passband, in the stopband and anywhere *)
Definition bands_elliptic (passband stopband error : R) (pass stop : R -> Prop) (w factor : R) : Prop :=
  (pass w -> 1 - passband - error <= factor <= 1 + error) /\ (stop w -> factor <= stopband + error) /\ factor <= 1 + error.
(** the stopband edge in terms of the solution k of the degree equation (C61) *)
Notation low_stop cutoff k := (fun w => w = PI \/ 0 <= w < PI /\ 1 <= k * low_variable cutoff w).
Notation high_stop cutoff k := (fun w => w = 0 \/ 0 < w < PI /\ 1 <= k * high_variable cutoff w).
Notation band_stop lower upper k := (fun w => w = 0 \/ w = PI \/ 0 < w < PI /\ 1 <= k * Rabs (band_variable lower upper w)).
Notation notch_stop lower upper k := (fun w => 0 < w < PI /\ Rabs (band_variable lower upper w) <= k).

Lemma elliptic_of sys pr sr er (pass stop : R -> Prop) : legal_ripples pr sr -> 0 < er -> (forall w, pass w -> in_pass pr (er * er) (power_at sys w)) -> (forall w, stop w -> in_stop sr (er * er) (power_at sys w)) ->
  (forall w, 0 <= w <= PI -> power_at sys w <= 1 + er * er) ->
  forall w, 0 <= w <= PI -> 0 <= power_at sys w -> sqrt (power_at sys w) * sqrt (power_at sys w) = power_at sys w -> bands_elliptic pr sr er pass stop w (sqrt (power_at sys w)).
Proof.
  intros (P & S & L) He Vi Vo V1 w Hw P0 S2. pose proof (sqrt_pos (power_at sys w)) as Sp. set (q := sqrt (power_at sys w)) in *. specialize (V1 w Hw). assert (U : q <= 1 + er) by nra. split; [|split; [|exact U]].
  - intros H. specialize (Vi w H). unfold in_pass in Vi. cbn [pow] in Vi. split; [|exact U]. destruct (Rle_lt_dec (1 - pr) er); [lra|]. nra.
  - intros H. specialize (Vo w H). unfold in_stop in Vo. cbn [pow] in Vo. nra.
Qed.
Lemma pos_sq er : 0 < er -> 0 < er * er. Proof. nra. Qed.

Theorem C73_elliptic_lowpass : forall order cutoff passband stopband k error, (0 < order < 2 ^ 64)%Z -> 0 < cutoff < 1 -> legal_ripples passband stopband -> solves_degree order passband stopband k -> 0 < error ->
  when_fine (fun eps tmax limit => forall factors, lenZ factors = 32%Z -> exists N sys, (forall fuel, (N <= fuel)%nat -> DesignEllipticLowpass eps fuel factors tmax limit order cutoff passband stopband = Ok sys) /\
    shapes sys (bands_elliptic passband stopband error (fun w => 0 <= w <= cutoff * PI) (low_stop cutoff k))).
Proof.
  intros order c pr sr k er Ho Hc Hr Hk He. destruct (C61_lowpass order c pr sr k (er * er) Ho Hc Hr Hk (pos_sq er He)) as (e0 & L & H0 & H). exists e0, L. split; [exact H0|]. intros eps tmax limit E1 E2 E3 factors Hf.
  destruct (H eps tmax limit E1 E2 E3 factors Hf) as (N & proto & s & _ & E & (W & Pc & Zc & St) & _ & _ & _ & Vi & Vo & Vp & V1). exists N, s. split; [exact E|]. apply (settled_shape s order); auto; [lia|].
  apply (elliptic_of s pr sr er); auto.
  - intros w [-> |[Hw Hs]]; [exact Vp|now apply Vo].
  - intros w Hw. destruct (Rle_lt_dec w (c * PI)) as [Q|Q]; [destruct (Vi w ltac:(lra)); lra|destruct (V1 w ltac:(lra)); lra].
Qed.
Theorem C73_elliptic_highpass : forall order cutoff passband stopband k error, (0 < order < 2 ^ 64)%Z -> 0 < cutoff < 1 -> cutoff <> 1 / 2 -> legal_ripples passband stopband -> solves_degree order passband stopband k -> 0 < error ->
  when_fine (fun eps tmax limit => forall factors, lenZ factors = 32%Z -> exists N sys, (forall fuel, (N <= fuel)%nat -> DesignEllipticHighpass eps fuel factors tmax limit order cutoff passband stopband = Ok sys) /\
    shapes sys (bands_elliptic passband stopband error (fun w => cutoff * PI <= w <= PI) (high_stop cutoff k))).
Proof.
  intros order c pr sr k er Ho Hc Hn Hr Hk He. destruct (C61_highpass order c pr sr k (er * er) Ho Hc Hn Hr Hk (pos_sq er He)) as (e0 & L & H0 & H). exists e0, L. split; [exact H0|]. intros eps tmax limit E1 E2 E3 factors Hf.
  destruct (H eps tmax limit E1 E2 E3 factors Hf) as (N & proto & s & _ & E & (W & Pc & Zc & St) & _ & _ & _ & Vi & Vo & Vp & V1). exists N, s. split; [exact E|]. apply (settled_shape s order); auto; [lia|].
  apply (elliptic_of s pr sr er); auto.
  - intros w [-> |[Hw Hs]]; [exact Vp|now apply Vo].
  - intros w Hw. destruct (Rle_lt_dec (c * PI) w) as [Q|Q]; [destruct (Vi w ltac:(lra)); lra|destruct (V1 w ltac:(lra)); lra].
Qed.
Theorem C73_elliptic_bandpass : forall order lower upper passband stopband k error, (0 < order < 2 ^ 64)%Z -> (order mod 2 = 0)%Z -> 0 < lower -> lower < upper -> upper < 1 -> upper - lower <> 1 / 2 -> legal_ripples passband stopband -> solves_degree (order / 2) passband stopband k -> 0 < error ->
  when_fine (fun eps tmax limit => forall factors, lenZ factors = 32%Z -> exists N sys, (forall fuel, (N <= fuel)%nat -> DesignEllipticBandpass eps fuel factors tmax limit order lower upper passband stopband = Ok sys) /\
    shapes sys (bands_elliptic passband stopband error (fun w => lower * PI <= w <= upper * PI) (band_stop lower upper k))).
Proof.
  intros order lo hi pr sr k er Ho He2 H1 H2 H3 H4 Hr Hk He. destruct (C61_bandpass order lo hi pr sr k (er * er) Ho He2 H1 H2 H3 H4 Hr Hk (pos_sq er He)) as (e0 & L & H0 & H). exists e0, L. split; [exact H0|]. intros eps tmax limit E1 E2 E3 factors Hf.
  destruct (H eps tmax limit E1 E2 E3 factors Hf) as (N & proto & s & _ & E & (W & Pc & Zc & St) & _ & _ & _ & Vi & Vo & V0 & Vp & V1). exists N, s. split; [exact E|]. apply (settled_shape s order); auto; [lia|].
  apply (elliptic_of s pr sr er); auto.
  - intros w [-> |[-> |[Hw Hs]]]; [exact V0|exact Vp|now apply Vo].
  - intros w Hw. destruct (Rle_lt_dec (lo * PI) w) as [Q|Q]; [|destruct (V1 w ltac:(lra)); lra]. destruct (Rle_lt_dec w (hi * PI)) as [Q'|Q']; [destruct (Vi w ltac:(lra)); lra|destruct (V1 w ltac:(lra)); lra].
Qed.
Theorem C73_elliptic_bandstop : forall order lower upper passband stopband k error, (0 < order < 2 ^ 64)%Z -> (order mod 2 = 0)%Z -> 0 < lower -> lower < upper -> upper < 1 -> legal_ripples passband stopband -> solves_degree (order / 2) passband stopband k -> 0 < error ->
  when_fine (fun eps tmax limit => forall factors, lenZ factors = 32%Z -> exists N sys, (forall fuel, (N <= fuel)%nat -> DesignEllipticBandstop eps fuel factors tmax limit order lower upper passband stopband = Ok sys) /\
    shapes sys (bands_elliptic passband stopband error (fun w => 0 <= w <= lower * PI \/ upper * PI <= w <= PI) (notch_stop lower upper k))).
Proof.
  intros order lo hi pr sr k er Ho He2 H1 H2 H3 Hr Hk He. destruct (C61_bandstop order lo hi pr sr k (er * er) Ho He2 H1 H2 H3 Hr Hk (pos_sq er He)) as (e0 & L & H0 & H). exists e0, L. split; [exact H0|]. intros eps tmax limit E1 E2 E3 factors Hf.
  destruct (H eps tmax limit E1 E2 E3 factors Hf) as (N & proto & s & _ & E & (W & Pc & Zc & St) & _ & _ & _ & _ & Vi & Vo & V1). exists N, s. split; [exact E|]. apply (settled_shape s order); auto; [lia|].
  apply (elliptic_of s pr sr er); auto.
  - intros w [Hw Hs]. now apply Vo.
  - intros w Hw. destruct (Rle_lt_dec w (lo * PI)) as [Q|Q]; [destruct (Vi w ltac:(lra)); lra|]. destruct (Rle_lt_dec (hi * PI) w) as [Q'|Q']; [destruct (Vi w ltac:(lra)); lra|destruct (V1 w ltac:(lra)); lra].
Qed.
Print Assumptions C73_elliptic_lowpass.
Print Assumptions C73_elliptic_highpass.
Print Assumptions C73_elliptic_bandpass.
Print Assumptions C73_elliptic_bandstop.
(** ripples of a tenth: orders 3 and 4; a solution of the degree equation exists (C61) *)
Example C73_elliptic_nontrivial : exists k, solves_degree 3 (1 / 10) (1 / 10) k /\
  when_fine (fun eps tmax limit => forall factors, lenZ factors = 32%Z -> exists N sys, (forall fuel, (N <= fuel)%nat -> DesignEllipticLowpass eps fuel factors tmax limit 3 (1 / 3) (1 / 10) (1 / 10) = Ok sys) /\
    shapes sys (bands_elliptic (1 / 10) (1 / 10) (1 / 100) (fun w => 0 <= w <= 1 / 3 * PI) (low_stop (1 / 3) k))).
Proof.
  assert (Hr : legal_ripples (1 / 10) (1 / 10)) by (unfold legal_ripples; lra). destruct (C61_degree_equation_solvable 3 (1 / 10) (1 / 10) ltac:(lia) Hr) as (k & Hk & _). exists k. split; [exact Hk|].
  apply C73_elliptic_lowpass; [lia|lra|exact Hr|exact Hk|lra].
Qed.
