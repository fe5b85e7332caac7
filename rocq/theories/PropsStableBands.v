(** C73, continued: highpass, bandpass and bandstop designs. *)
From Coq Require Import Reals Lra Lia List ZArith Arith Psatz.
From Verif Require Import Base BaseFacts Complex ConvProofs FunctionModel FunctionProofs IirModel IirProofs PolyModel PolyProofs SysModel SysProofs RootModel ChebyModel PropsPoly PropsIir PropsSys PropsDesign PropsCheby StableProofs PropsStable.
Import ListNotations.
Local Open Scope R_scope.

(** once the filter has settled, a sinusoid of frequency [w] leaves it with its amplitude multiplied by [factor]; the phase shift
    and the speed of settling do not depend on the signal *)
Definition scales (sys : zpk) (rho B w factor : R) : Prop := exists phase, forall a phi x y, filtered sys x y -> sinusoid a w phi x -> forall n, (n < length x)%nat ->
  Rabs (sample y n - factor * a * cos (w * INR n + phi + phase)) <= B * Rabs a * rho ^ n.
(** what a filter does to the sinusoids from 0 to the Nyquist frequency *)
Definition shapes (sys : zpk) (factor_ok : R -> R -> Prop) : Prop := exists rho B, 0 < rho < 1 /\ 0 <= B /\ forall w, 0 <= w <= PI -> exists factor, 0 <= factor /\ factor_ok w factor /\ scales sys rho B w factor.

Lemma settled_shape sys order (ok : R -> R -> Prop) : (0 < order)%Z -> well_formed sys -> pole_count sys = order -> zero_count sys = order -> stable sys ->
  (forall w, 0 <= w <= PI -> 0 <= power_at sys w -> sqrt (power_at sys w) * sqrt (power_at sys w) = power_at sys w -> ok w (sqrt (power_at sys w))) -> shapes sys ok.
Proof.
  intros Ho W Pc Zc St H. destruct (C73_amplitude_and_phase sys W St (order_of sys order Ho Pc) ltac:(congruence)) as (rho & B & Hr & HB & D). exists rho, B. split; [exact Hr|]. split; [exact HB|].
  intros w Hw. assert (P0 : 0 <= power_at sys w) by (unfold power_at; apply pow2_ge_0). exists (sqrt (power_at sys w)). split; [apply sqrt_pos|]. split; [apply (H w Hw P0), sqrt_sqrt, P0|].
  exists (Carg (transfer_at sys (cis w))). intros a phi x y F Hs n Hn. specialize (D a w phi x y F Hs n Hn). rewrite power_sqrt in D. now rewrite (Rmult_comm (sqrt _) a).
Qed.
Lemma root_of a b : 0 <= b -> a = b * b -> sqrt a = b. Proof. intros H ->. now apply sqrt_square. Qed.
Lemma root_between q lo hi : 0 <= lo -> 0 <= hi -> lo ^ 2 <= q * q <= hi ^ 2 -> 0 <= q -> lo <= q <= hi. Proof. intros. split; nra. Qed.

(** ** Butterworth *)
Theorem C73_butterworth_highpass order cutoff : (0 < order < 2 ^ 64)%Z -> 0 < cutoff < 1 -> cutoff <> 1 / 2 -> exists sys, DesignButterworthHighpass order cutoff = Ok sys /\
  shapes sys (fun w factor => (0 < w < PI -> factor = / sqrt (1 + (tan (cutoff * PI / 2) / tan (w / 2)) ^ (2 * Z.to_nat order))) /\ (w = 0 -> factor = 0) /\ (w = PI -> factor = 1)).
Proof.
  intros Ho Hc Hh. destruct (C50_highpass order cutoff Ho Hc Hh) as (sys & E & W & Pc & Zc & St & V & V0 & _ & V1). exists sys. split; [exact E|]. apply (settled_shape sys order); auto; [lia|].
  intros w Hw P0 S2. split; [|split].
  - intros Hi. rewrite (V w Hi). unfold Rdiv at 1. rewrite Rmult_1_l. apply sqrt_inv.
  - intros ->. rewrite V0. apply sqrt_0.
  - intros ->. rewrite V1. apply sqrt_1.
Qed.
Print Assumptions C73_butterworth_highpass.
Theorem C73_butterworth_bandpass order lo hi : (0 < order < 2 ^ 64)%Z -> (order mod 2 = 0)%Z -> 0 < lo -> lo < hi -> hi < 1 -> hi - lo <> 1 / 2 -> exists sys, DesignButterworthBandpass order lo hi = Ok sys /\
  shapes sys (fun w factor => (0 < w < PI -> factor = / sqrt (1 + (band_variable lo hi w) ^ (2 * Z.to_nat (order / 2)))) /\ (w = lo * PI \/ w = hi * PI -> factor = sqrt (1 / 2)) /\ (w = 0 \/ w = PI -> factor = 0) /\
    (0 < w < PI -> cos (half_width lo hi) * cos w = cos (centre lo hi) -> factor = 1)).
Proof.
  intros Ho He H1 H2 H3 H4. destruct (C50_bandpass order lo hi Ho He H1 H2 H3 H4) as (sys & E & W & Pc & Zc & St & V & V0 & Vl & Vh & V1 & Vc). exists sys. split; [exact E|]. apply (settled_shape sys order); auto; [lia|].
  intros w Hw P0 S2. split; [|split; [|split]].
  - intros Hi. rewrite (V w Hi). unfold Rdiv at 1. rewrite Rmult_1_l. apply sqrt_inv.
  - intros [-> | ->]; [now rewrite Vl|now rewrite Vh].
  - intros [-> | ->]; [rewrite V0|rewrite V1]; apply sqrt_0.
  - intros Hi Hm. rewrite (Vc w Hi Hm). apply sqrt_1.
Qed.
Print Assumptions C73_butterworth_bandpass.
Theorem C73_butterworth_bandstop order lo hi : (0 < order < 2 ^ 64)%Z -> (order mod 2 = 0)%Z -> 0 < lo -> lo < hi -> hi < 1 -> exists sys, DesignButterworthBandstop order lo hi = Ok sys /\
  shapes sys (fun w factor => (0 < w < PI -> cos (half_width lo hi) * cos w <> cos (centre lo hi) -> factor = / sqrt (1 + (1 / band_variable lo hi w) ^ (2 * Z.to_nat (order / 2)))) /\
    (cos (half_width lo hi) * cos w = cos (centre lo hi) -> factor = 0) /\ (w = lo * PI \/ w = hi * PI -> factor = sqrt (1 / 2)) /\ (w = 0 \/ w = PI -> factor = 1)).
Proof.
  intros Ho He H1 H2 H3. destruct (C50_bandstop order lo hi Ho He H1 H2 H3) as (sys & E & W & Pc & Zc & St & V & Vc & V0 & Vl & Vh & V1). exists sys. split; [exact E|]. apply (settled_shape sys order); auto; [lia|].
  intros w Hw P0 S2. split; [|split; [|split]].
  - intros Hi Hm. rewrite (V w Hi Hm). unfold Rdiv at 1. rewrite Rmult_1_l. apply sqrt_inv.
  - intros Hm. rewrite (Vc w Hm). apply sqrt_0.
  - intros [-> | ->]; [now rewrite Vl|now rewrite Vh].
  - intros [-> | ->]; [rewrite V0|rewrite V1]; apply sqrt_1.
Qed.
Print Assumptions C73_butterworth_bandstop.

(** ** Chebyshev: [pass] and [stop] say in which band a frequency lies *)
Definition bands1 (ripple : R) (pass stop : R -> Prop) (w factor : R) : Prop := (pass w -> 1 - ripple <= factor <= 1) /\ (stop w -> factor < 1 - ripple).
Definition bands2 (ripple : R) (pass stop : R -> Prop) (w factor : R) : Prop := (pass w -> ripple <= factor <= 1) /\ (stop w -> factor <= ripple).
Lemma bands1_of sys ripple (pass stop : R -> Prop) : 0 < ripple < 1 -> (forall w, pass w -> (1 - ripple) ^ 2 <= power_at sys w <= 1) -> (forall w, stop w -> 0 <= power_at sys w < (1 - ripple) ^ 2) ->
  forall w, 0 <= w <= PI -> 0 <= power_at sys w -> sqrt (power_at sys w) * sqrt (power_at sys w) = power_at sys w -> bands1 ripple pass stop w (sqrt (power_at sys w)).
Proof.
  intros Hr Vi Vo w Hw P0 S2. pose proof (sqrt_pos (power_at sys w)) as Sp. set (q := sqrt (power_at sys w)) in *. split; intros H; [specialize (Vi w H); split; nra|specialize (Vo w H); nra].
Qed.
Lemma bands2_of sys ripple (pass stop : R -> Prop) : 0 < ripple < 1 -> (forall w, pass w -> ripple ^ 2 <= power_at sys w <= 1) -> (forall w, stop w -> 0 <= power_at sys w <= ripple ^ 2) ->
  forall w, 0 <= w <= PI -> 0 <= power_at sys w -> sqrt (power_at sys w) * sqrt (power_at sys w) = power_at sys w -> bands2 ripple pass stop w (sqrt (power_at sys w)).
Proof.
  intros Hr Vi Vo w Hw P0 S2. pose proof (sqrt_pos (power_at sys w)) as Sp. set (q := sqrt (power_at sys w)) in *. split; intros H; [specialize (Vi w H); split; nra|specialize (Vo w H); nra].
Qed.
Notation above c := (fun w => c * PI <= w <= PI).
Notation under c := (fun w => 0 <= w < c * PI).
Notation between lo hi := (fun w => lo * PI <= w <= hi * PI).
Notation outside lo hi := (fun w => 0 <= w < lo * PI \/ hi * PI < w <= PI).
Notation beyond lo hi := (fun w => 0 <= w <= lo * PI \/ hi * PI <= w <= PI).
Notation inside lo hi := (fun w => lo * PI < w < hi * PI).
Theorem C73_chebyshev1_highpass order cutoff ripple : (0 < order <= 32)%Z -> 0 < cutoff < 1 -> cutoff <> 1 / 2 -> 0 < ripple < 1 -> exists sys, DesignChebyshev1Highpass order cutoff ripple = Ok sys /\
  shapes sys (bands1 ripple (above cutoff) (under cutoff)).
Proof.
  intros Ho Hc Hh Hr. destruct (C51_highpass order cutoff ripple Ho Hc Hh Hr) as (sys & E & W & Pc & Zc & St & _ & _ & _ & _ & Vi & Vo). exists sys. split; [exact E|]. apply (settled_shape sys order); auto; [lia|]. now apply bands1_of.
Qed.
Print Assumptions C73_chebyshev1_highpass.
Theorem C73_chebyshev1_bandpass order lo hi ripple : (0 < order <= 64)%Z -> (order mod 2 = 0)%Z -> 0 < lo -> lo < hi -> hi < 1 -> hi - lo <> 1 / 2 -> 0 < ripple < 1 -> exists sys, DesignChebyshev1Bandpass order lo hi ripple = Ok sys /\
  shapes sys (bands1 ripple (between lo hi) (outside lo hi)).
Proof.
  intros Ho He H1 H2 H3 H4 Hr. destruct (C51_bandpass order lo hi ripple Ho He H1 H2 H3 H4 Hr) as (sys & E & W & Pc & Zc & St & _ & _ & _ & _ & _ & Vi & Vo). exists sys. split; [exact E|]. apply (settled_shape sys order); auto; [lia|]. now apply bands1_of.
Qed.
Print Assumptions C73_chebyshev1_bandpass.
Theorem C73_chebyshev1_bandstop order lo hi ripple : (0 < order <= 64)%Z -> (order mod 2 = 0)%Z -> 0 < lo -> lo < hi -> hi < 1 -> 0 < ripple < 1 -> exists sys, DesignChebyshev1Bandstop order lo hi ripple = Ok sys /\
  shapes sys (bands1 ripple (beyond lo hi) (inside lo hi)).
Proof.
  intros Ho He H1 H2 H3 Hr. destruct (C51_bandstop order lo hi ripple Ho He H1 H2 H3 Hr) as (sys & E & W & Pc & Zc & St & _ & _ & _ & _ & _ & _ & Vi & Vo). exists sys. split; [exact E|]. apply (settled_shape sys order); auto; [lia|]. now apply bands1_of.
Qed.
Print Assumptions C73_chebyshev1_bandstop.
Theorem C73_chebyshev2_highpass order cutoff ripple : (0 < order < 2 ^ 64)%Z -> 0 < cutoff < 1 -> cutoff <> 1 / 2 -> 0 < ripple < 1 -> exists sys, DesignChebyshev2Highpass order cutoff ripple = Ok sys /\
  shapes sys (bands2 ripple (above cutoff) (under cutoff)).
Proof.
  intros Ho Hc Hh Hr. destruct (C52_highpass order cutoff ripple Ho Hc Hh Hr) as (sys & E & W & Pc & Zc & St & _ & _ & _ & _ & Vi & Vo). exists sys. split; [exact E|]. apply (settled_shape sys order); auto; [lia|]. now apply bands2_of.
Qed.
Print Assumptions C73_chebyshev2_highpass.
Theorem C73_chebyshev2_bandpass order lo hi ripple : (0 < order < 2 ^ 64)%Z -> (order mod 2 = 0)%Z -> 0 < lo -> lo < hi -> hi < 1 -> hi - lo <> 1 / 2 -> 0 < ripple < 1 -> exists sys, DesignChebyshev2Bandpass order lo hi ripple = Ok sys /\
  shapes sys (bands2 ripple (between lo hi) (outside lo hi)).
Proof.
  intros Ho He H1 H2 H3 H4 Hr. destruct (C52_bandpass order lo hi ripple Ho He H1 H2 H3 H4 Hr) as (sys & E & W & Pc & Zc & St & _ & _ & _ & _ & _ & Vi & Vo). exists sys. split; [exact E|]. apply (settled_shape sys order); auto; [lia|]. now apply bands2_of.
Qed.
Print Assumptions C73_chebyshev2_bandpass.
Theorem C73_chebyshev2_bandstop order lo hi ripple : (0 < order < 2 ^ 64)%Z -> (order mod 2 = 0)%Z -> 0 < lo -> lo < hi -> hi < 1 -> 0 < ripple < 1 -> exists sys, DesignChebyshev2Bandstop order lo hi ripple = Ok sys /\
  shapes sys (bands2 ripple (beyond lo hi) (inside lo hi)).
Proof.
  intros Ho He H1 H2 H3 Hr. destruct (C52_bandstop order lo hi ripple Ho He H1 H2 H3 Hr) as (sys & E & W & Pc & Zc & St & _ & _ & _ & _ & _ & _ & Vi & Vo). exists sys. split; [exact E|]. apply (settled_shape sys order); auto; [lia|]. now apply bands2_of.
Qed.
Print Assumptions C73_chebyshev2_bandstop.
(** a bandpass design, a sinusoid and its filtered version *)
Example C73_bands_nontrivial : exists sys x y, DesignButterworthBandpass 4 (1 / 4) (1 / 2) = Ok sys /\ length x = 100%nat /\ sinusoid 2 (PI / 3) 1 x /\ filtered sys x y.
Proof.
  destruct (C50_bandpass 4 (1 / 4) (1 / 2) ltac:(lia) ltac:(reflexivity) ltac:(lra) ltac:(lra) ltac:(lra) ltac:(lra)) as (sys & E & W & Pc & Zc & St & _).
  set (x := map (fun n => 2 * cos (PI / 3 * INR n + 1)) (seq 0 100)). assert (Ho : (0 < system_order sys)%nat) by (apply (order_of sys 4); [lia|exact Pc]).
  destruct (C72_filtered_exists sys x W Ho) as (y & F & _); [unfold system_order, pole_count, zero_count in *; lia|]. exists sys, x, y. split; [exact E|]. split; [unfold x; now rewrite map_length, seq_length|]. split; [|exact F].
  intros n Hn. unfold x in *. rewrite map_length, seq_length in Hn. unfold sample. rewrite (nth_indep _ 0 (2 * cos (PI / 3 * INR 0 + 1))) by now rewrite map_length, seq_length. rewrite (map_nth (fun n => 2 * cos (PI / 3 * INR n + 1)) (seq 0 100) 0%nat). now rewrite seq_nth by exact Hn.
Qed.
