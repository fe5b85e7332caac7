(** C51, C52: the Chebyshev design methods. *)
From Coq Require Import Reals Lra Psatz Permutation.
From Verif Require Import Base BaseFacts Complex KernelProofs ConvModel ConvProofs IirModel IirProofs PolyModel PolyProofs SysModel SysProofs PropsPoly PropsSys RootModel RootProofs ZmapProofs DesignProofs ButterProofs BandProofs PropsDesign ChebyModel ChebyProofs Cheby2Proofs.
From Coq Require Import ZifyBool ZifyNat.
Ltac Zify.zify_post_hook ::= Z.div_mod_to_equations.
Open Scope Z_scope.

(** ** Specification *)
(** the Chebyshev polynomials of the first kind *)
Fixpoint chebyshev (n : nat) (x : R) : R :=
  match n with O => 1 | S m => match m with O => x | S k => 2 * x * chebyshev m x - chebyshev k x end end%R.
(** the squared magnitudes of the type I (ripple r below 1 in the passband) and type II (at most r in the stopband) prototypes at x times the edge frequency *)
Definition type1 (n : Z) (r x : R) : R := (1 / (1 + (1 / (1 - r) ^ 2 - 1) * chebyshev (Z.to_nat n) x ^ 2))%R.
Definition type2 (n : Z) (r x : R) : R :=
  if Req_EM_T x 0 then 1%R else (let t := r ^ 2 / (1 - r ^ 2) * chebyshev (Z.to_nat n) (1 / x) ^ 2 in t / (1 + t))%R.
(** frequency variables: w in radians per sample, edges as fractions of the Nyquist frequency; +-1 at the edges *)
Definition low_variable (cutoff w : R) : R := (tan (w / 2) / tan (cutoff * PI / 2))%R.
Definition high_variable (cutoff w : R) : R := (tan (cutoff * PI / 2) / tan (w / 2))%R.

(** ** Bridges *)
Lemma type1_eq n r x : cheb1_power n r x = type1 n r x. Proof. reflexivity. Qed.
Lemma type2_eq n r x : cheb2_power n r x = type2 n r x. Proof. reflexivity. Qed.
Lemma type1_even n r x : type1 n r (- x) = type1 n r x. Proof. unfold type1. change chebyshev with chebT. now rewrite chebT_neg_sq. Qed.
Lemma type2_even n r x : type2 n r (- x) = type2 n r x.
Proof.
  unfold type2. destruct (Req_EM_T (- x) 0), (Req_EM_T x 0); try lra. change chebyshev with chebT. replace (1 / - x)%R with (- (1 / x))%R by (field; lra). now rewrite chebT_neg_sq.
Qed.
Lemma cheb_cos n t : chebT n (cos t) = cos (INR n * t).
Proof.
  assert (Q : chebT n (cos t) = cos (INR n * t) /\ chebT (S n) (cos t) = cos (INR (S n) * t)); [|tauto].
  induction n as [|n [I1 I2]].
  - split; cbn [chebT]; [rewrite Rmult_0_l, cos_0; reflexivity|]. now rewrite Rmult_1_l.
  - split; [exact I2|]. rewrite chebT_SS, I1, I2, !S_INR. replace ((INR n + 1 + 1) * t)%R with ((INR n + 1) * t + t)%R by ring. replace (INR n * t)%R with ((INR n + 1) * t - t)%R by ring.
    rewrite cos_plus, cos_minus. ring.
Qed.
Lemma cheb_in n x : (-1 <= x <= 1)%R -> (chebT n x ^ 2 <= 1)%R.
Proof.
  intros H. rewrite <- (cos_acos x) by exact H. rewrite cheb_cos. pose proof (COS_bound (INR n * acos x)). nra.
Qed.
Lemma cheb_one n : chebT n 1 = 1%R.
Proof. rewrite <- cos_0, cheb_cos. now rewrite Rmult_0_r. Qed.
Lemma cheb_out_pos n x : (1 < x)%R -> (1 <= chebT n x < chebT (S n) x)%R.
Proof.
  intros H. induction n as [|n I]; [cbn [chebT]; lra|]. rewrite chebT_SS. nra.
Qed.
Lemma cheb_out n x : (0 < n)%nat -> (1 < Rabs x)%R -> (1 < chebT n x ^ 2)%R.
Proof.
  intros Hn H. assert (P : forall y, (1 < y)%R -> (1 < chebT n y ^ 2)%R).
  { intros y Hy. destruct n as [|n]; [lia|]. pose proof (cheb_out_pos n y Hy). nra. }
  unfold Rabs in H. destruct (Rcase_abs x); [|now apply P]. rewrite <- chebT_neg_sq. now apply P.
Qed.
(** ** Bands *)
Lemma tan_mono a b : (0 <= a)%R -> (a < b)%R -> (b < PI / 2)%R -> (0 <= tan a < tan b)%R.
Proof.
  intros H1 H2 H3. split; [|apply tan_increasing; lra]. destruct (Req_EM_T a 0) as [->|]; [rewrite tan_0; lra|]. left. apply tan_gt_0; lra.
Qed.
Lemma low_in c w : (0 < c < 1)%R -> (0 <= w <= c * PI)%R -> (-1 <= low_variable c w <= 1)%R.
Proof.
  intros Hc Hw. pose proof PI_RGT_0. assert (Tc : (0 < tan (c * PI / 2))%R) by (apply tan_gt_0; nra).
  assert (B : (0 <= tan (w / 2) <= tan (c * PI / 2))%R).
  { destruct (Req_EM_T w (c * PI)) as [->|]; [lra|]. pose proof (tan_mono (w / 2) (c * PI / 2)). nra. }
  unfold low_variable. set (a := tan (w / 2)) in *. set (b := tan (c * PI / 2)) in *. assert (E : (a / b * b = a)%R) by (field; lra). nra.
Qed.
Lemma low_out c w : (0 < c < 1)%R -> (c * PI < w < PI)%R -> (1 < Rabs (low_variable c w))%R.
Proof.
  intros Hc Hw. pose proof PI_RGT_0. assert (Tc : (0 < tan (c * PI / 2))%R) by (apply tan_gt_0; nra). pose proof (tan_mono (c * PI / 2) (w / 2)) as M.
  unfold low_variable. set (a := tan (w / 2)) in *. set (b := tan (c * PI / 2)) in *. assert (E : (a / b * b = a)%R) by (field; lra). rewrite Rabs_right; nra.
Qed.
Lemma high_in c w : (0 < c < 1)%R -> (c * PI <= w < PI)%R -> (-1 <= high_variable c w <= 1)%R.
Proof.
  intros Hc Hw. pose proof PI_RGT_0. assert (Tc : (0 < tan (c * PI / 2))%R) by (apply tan_gt_0; nra). assert (0 < c * PI)%R by nra.
  assert (B : (tan (c * PI / 2) <= tan (w / 2))%R).
  { destruct (Req_EM_T w (c * PI)) as [->|]; [lra|]. pose proof (tan_mono (c * PI / 2) (w / 2)). lra. }
  unfold high_variable. set (a := tan (w / 2)) in *. set (b := tan (c * PI / 2)) in *. assert (E : (b / a * a = b)%R) by (field; lra). nra.
Qed.
Lemma high_out c w : (0 < c < 1)%R -> (0 < w < c * PI)%R -> (1 < Rabs (high_variable c w))%R.
Proof.
  intros Hc Hw. pose proof PI_RGT_0. assert (Tc : (0 < tan (w / 2))%R) by (apply tan_gt_0; nra). pose proof (tan_mono (w / 2) (c * PI / 2)) as M.
  unfold high_variable. set (a := tan (w / 2)) in *. set (b := tan (c * PI / 2)) in *. assert (E : (b / a * a = b)%R) by (field; lra). rewrite Rabs_right; nra.
Qed.
(** the two sides of the band as products *)
Lemma band_products lo hi w : let d := half_width lo hi in let g := centre lo hi in
  ((cos d * cos w - cos g) - sin d * sin w = -2 * sin ((w + hi * PI) / 2) * sin ((w - lo * PI) / 2) /\
   (cos d * cos w - cos g) + sin d * sin w = 2 * sin ((w + lo * PI) / 2) * sin ((hi * PI - w) / 2))%R.
Proof.
  intros d g. unfold d, g, half_width, centre. set (a := ((w + hi * PI) / 2)%R). set (b := ((w - lo * PI) / 2)%R). set (a' := ((w + lo * PI) / 2)%R). set (b' := ((hi * PI - w) / 2)%R).
  split.
  - replace (cos ((hi * PI - lo * PI) / 2) * cos w - cos ((lo * PI + hi * PI) / 2) - sin ((hi * PI - lo * PI) / 2) * sin w)%R with (cos ((hi * PI - lo * PI) / 2 + w) - cos ((lo * PI + hi * PI) / 2))%R by (rewrite cos_plus; ring).
    replace ((hi * PI - lo * PI) / 2 + w)%R with (a + b)%R by (unfold a, b; field). replace ((lo * PI + hi * PI) / 2)%R with (a - b)%R by (unfold a, b; field). rewrite cos_plus, cos_minus. ring.
  - replace (cos ((hi * PI - lo * PI) / 2) * cos w - cos ((lo * PI + hi * PI) / 2) + sin ((hi * PI - lo * PI) / 2) * sin w)%R with (cos ((hi * PI - lo * PI) / 2 - w) - cos ((lo * PI + hi * PI) / 2))%R by (rewrite cos_minus; ring).
    replace ((hi * PI - lo * PI) / 2 - w)%R with (b' - a')%R by (unfold a', b'; field). replace ((lo * PI + hi * PI) / 2)%R with (b' + a')%R by (unfold a', b'; field). rewrite cos_plus, cos_minus. ring.
Qed.
Lemma band_in lo hi w : (0 < lo)%R -> (lo < hi)%R -> (hi < 1)%R -> (lo * PI <= w <= hi * PI)%R -> (-1 <= band_variable lo hi w <= 1)%R.
Proof.
  intros H1 H2 H3 Hw. pose proof PI_RGT_0. destruct (band_products lo hi w) as [P1 P2]. destruct (band_edges lo hi H1 H2 H3) as (Sd & _). assert (0 < lo * PI)%R by nra. assert (hi * PI < PI)%R by nra.
  assert (Sw : (0 < sin w)%R) by (apply sin_gt_0; nra). set (x := (cos (half_width lo hi) * cos w - cos (centre lo hi))%R) in *.
  assert (S1 : (0 <= sin ((w + hi * PI) / 2))%R) by (apply sin_ge_0; nra). assert (S2 : (0 <= sin ((w - lo * PI) / 2))%R) by (apply sin_ge_0; nra).
  assert (S3 : (0 <= sin ((w + lo * PI) / 2))%R) by (apply sin_ge_0; nra). assert (S4 : (0 <= sin ((hi * PI - w) / 2))%R) by (apply sin_ge_0; nra).
  unfold band_variable. fold x. set (y := (sin (half_width lo hi) * sin w)%R) in *. assert (Y : (0 < y)%R) by (unfold y; nra). assert (E : (x / y * y = x)%R) by (field; lra).
  assert (A1 : (x <= y)%R) by nra. assert (A2 : (- y <= x)%R) by nra. split; nra.
Qed.
Lemma band_out lo hi w : (0 < lo)%R -> (lo < hi)%R -> (hi < 1)%R -> (0 < w < PI)%R -> (w < lo * PI \/ hi * PI < w)%R -> (1 < Rabs (band_variable lo hi w))%R.
Proof.
  intros H1 H2 H3 Hp Hw. pose proof PI_RGT_0. destruct (band_products lo hi w) as [P1 P2]. destruct (band_edges lo hi H1 H2 H3) as (Sd & _). assert (0 < lo * PI)%R by nra. assert (hi * PI < PI)%R by nra. assert (lo * PI < hi * PI)%R by nra.
  assert (Sw : (0 < sin w)%R) by (apply sin_gt_0; nra). set (x := (cos (half_width lo hi) * cos w - cos (centre lo hi))%R) in *.
  unfold band_variable. fold x. set (y := (sin (half_width lo hi) * sin w)%R) in *. assert (Y : (0 < y)%R) by (unfold y; nra). assert (E : (x / y * y = x)%R) by (field; lra).
  destruct Hw as [Hw|Hw].
  - assert (S1 : (0 < sin ((w + hi * PI) / 2))%R) by (apply sin_gt_0; nra). assert (S2 : (0 < sin ((lo * PI - w) / 2))%R) by (apply sin_gt_0; nra).
    replace ((w - lo * PI) / 2)%R with (- ((lo * PI - w) / 2))%R in P1 by field. rewrite sin_neg in P1. assert (A1 : (y < x)%R) by nra. assert (1 < x / y)%R by nra. rewrite Rabs_right; lra.
  - assert (S1 : (0 < sin ((w + lo * PI) / 2))%R) by (apply sin_gt_0; nra). assert (S2 : (0 < sin ((w - hi * PI) / 2))%R) by (apply sin_gt_0; nra).
    replace ((hi * PI - w) / 2)%R with (- ((w - hi * PI) / 2))%R in P2 by field. rewrite sin_neg in P2. assert (A1 : (x < - y)%R) by nra. assert (x / y < -1)%R by nra. rewrite Rabs_left; lra.
Qed.
Lemma band_in_strict lo hi w : (0 < lo)%R -> (lo < hi)%R -> (hi < 1)%R -> (lo * PI < w < hi * PI)%R -> (-1 < band_variable lo hi w < 1)%R.
Proof.
  intros H1 H2 H3 Hw. pose proof PI_RGT_0. destruct (band_products lo hi w) as [P1 P2]. destruct (band_edges lo hi H1 H2 H3) as (Sd & _). assert (0 < lo * PI)%R by nra. assert (hi * PI < PI)%R by nra.
  assert (Sw : (0 < sin w)%R) by (apply sin_gt_0; nra). set (x := (cos (half_width lo hi) * cos w - cos (centre lo hi))%R) in *.
  assert (S1 : (0 < sin ((w + hi * PI) / 2))%R) by (apply sin_gt_0; nra). assert (S2 : (0 < sin ((w - lo * PI) / 2))%R) by (apply sin_gt_0; nra).
  assert (S3 : (0 < sin ((w + lo * PI) / 2))%R) by (apply sin_gt_0; nra). assert (S4 : (0 < sin ((hi * PI - w) / 2))%R) by (apply sin_gt_0; nra).
  unfold band_variable. fold x. set (y := (sin (half_width lo hi) * sin w)%R) in *. assert (Y : (0 < y)%R) by (unfold y; nra). assert (E : (x / y * y = x)%R) by (field; lra).
  assert (A1 : (x < y)%R) by nra. assert (A2 : (- y < x)%R) by nra. split; nra.
Qed.
Lemma edge_low c : (0 < c < 1)%R -> low_variable c (c * PI) = 1%R.
Proof. intros Hc. pose proof PI_RGT_0. assert (Tc : (0 < tan (c * PI / 2))%R) by (apply tan_gt_0; nra). unfold low_variable. field. lra. Qed.
Lemma edge_high c : (0 < c < 1)%R -> high_variable c (c * PI) = 1%R.
Proof. intros Hc. pose proof PI_RGT_0. assert (Tc : (0 < tan (c * PI / 2))%R) by (apply tan_gt_0; nra). unfold high_variable. field. lra. Qed.
Lemma edge_band lo hi : (0 < lo)%R -> (lo < hi)%R -> (hi < 1)%R -> band_variable lo hi (lo * PI) = 1%R /\ band_variable lo hi (hi * PI) = (- (1))%R.
Proof.
  intros H1 H2 H3. destruct (band_edges lo hi H1 H2 H3) as (Sd & Cd & Sl & Sh & El & Eh2). unfold band_variable. rewrite El, Eh2. split; field; lra.
Qed.
(** ** From a prototype with an even response G to the four filters; P holds of G where |x| <= 1, Q where |x| > 1 and of the limit at infinity *)
Section Generic.
Variables (hb : zpk) (n : Z) (G : R -> R) (Ginf : R) (P Q : R -> Prop).
Hypothesis Hn : n < 2 ^ 64.
Hypothesis Hb : halfband hb n G Ginf.
Hypothesis even : forall x, G (- x)%R = G x.
Hypothesis HP : forall x, (-1 <= x <= 1)%R -> P (G x).
Hypothesis HQ : forall x, (1 < Rabs x)%R -> Q (G x).
Hypothesis HI : Q Ginf.
Lemma gen_low c : (0 < c < 1)%R -> exists sys, Halfband2Lowpass hb c = Ok sys /\ well_formed sys /\ pole_count sys = n /\ zero_count sys = n /\ stable sys /\
  (forall w, (-PI < w < PI)%R -> power_at sys w = G (low_variable c w)) /\ power_at sys 0 = G 0%R /\ power_at sys PI = Ginf /\ power_at sys (c * PI) = G 1%R /\
  (forall w, (0 <= w <= c * PI)%R -> P (power_at sys w)) /\ (forall w, (c * PI < w <= PI)%R -> Q (power_at sys w)).
Proof.
  intros Hc. destruct (band_lowpass hb n G Ginf c Hn Hb Hc) as (sys & Es & (W & Lz & Lp & St) & V & I). exists sys. destruct (counts sys W) as [Ez Ep]. pose proof PI_RGT_0 as Pi.
  split; [exact Es|]. split; [exact W|]. split; [lia|]. split; [lia|]. split; [now apply stable_bridge|].
  assert (M : forall w, (-PI < w < PI)%R -> power_at sys w = G (low_variable c w)).
  { intros w Hw. unfold power_at. rewrite Cabs_sq. apply V. assert (0 < cos (w / 2))%R by (apply cos_gt_0; lra). lra. }
  assert (Mp : power_at sys PI = Ginf) by (unfold power_at; rewrite Cabs_sq; apply I, cos_PI2).
  split; [exact M|]. split; [|split; [exact Mp|split; [|split]]].
  - rewrite M by lra. f_equal. unfold low_variable. replace (0 / 2)%R with 0%R by lra. rewrite tan_0. unfold Rdiv. ring.
  - rewrite M by nra. now rewrite edge_low.
  - intros w Hw. rewrite M by nra. apply HP. now apply low_in.
  - intros w Hw. destruct (Req_EM_T w PI) as [->|]; [now rewrite Mp|]. rewrite M by nra. apply HQ. apply low_out; lra.
Qed.
Lemma gen_high c : (0 < c < 1)%R -> c <> (1 / 2)%R -> exists sys, Halfband2Highpass hb c = Ok sys /\ well_formed sys /\ pole_count sys = n /\ zero_count sys = n /\ stable sys /\
  (forall w, (0 < w < PI)%R -> power_at sys w = G (high_variable c w)) /\ power_at sys 0 = Ginf /\ power_at sys PI = G 0%R /\ power_at sys (c * PI) = G 1%R /\
  (forall w, (c * PI <= w <= PI)%R -> P (power_at sys w)) /\ (forall w, (0 <= w < c * PI)%R -> Q (power_at sys w)).
Proof.
  intros Hc Hne. destruct (band_highpass hb n G Ginf c Hn Hb Hc Hne) as (sys & Es & (W & Lz & Lp & St) & V & I). exists sys. destruct (counts sys W) as [Ez Ep]. pose proof PI_RGT_0 as Pi.
  split; [exact Es|]. split; [exact W|]. split; [lia|]. split; [lia|]. split; [now apply stable_bridge|].
  assert (M : forall w, (0 < w < PI)%R -> power_at sys w = G (high_variable c w)).
  { intros w Hw. assert (0 < sin (w / 2))%R by (apply sin_gt_0; lra). assert (0 < cos (w / 2))%R by (apply cos_gt_0; lra). unfold power_at. rewrite Cabs_sq, V by lra. rewrite even. f_equal.
    unfold high_variable. unfold tan at 3. field. split; lra. }
  assert (M0 : power_at sys 0 = Ginf) by (unfold power_at; rewrite Cabs_sq; apply I; replace (0 / 2)%R with 0%R by lra; apply sin_0).
  assert (Mp : power_at sys PI = G 0%R). { unfold power_at. rewrite Cabs_sq, V by (rewrite sin_PI2; lra). rewrite even, cos_PI2. f_equal. unfold Rdiv. ring. }
  split; [exact M|]. split; [exact M0|]. split; [exact Mp|]. split; [|split].
  - rewrite M by nra. now rewrite edge_high.
  - intros w Hw. destruct (Req_EM_T w PI) as [->|]; [rewrite Mp; apply HP; lra|]. rewrite M by nra. apply HP. apply high_in; lra.
  - intros w Hw. destruct (Req_EM_T w 0) as [->|]; [now rewrite M0|]. rewrite M by nra. apply HQ. apply high_out; lra.
Qed.
Lemma gen_bandpass lo hi : (0 < lo)%R -> (lo < hi)%R -> (hi < 1)%R -> (hi - lo <> 1 / 2)%R -> exists sys, Halfband2Bandpass hb lo hi = Ok sys /\ well_formed sys /\ pole_count sys = 2 * n /\ zero_count sys = 2 * n /\ stable sys /\
  (forall w, (0 < w < PI)%R -> power_at sys w = G (band_variable lo hi w)) /\ power_at sys 0 = Ginf /\ power_at sys PI = Ginf /\ power_at sys (lo * PI) = G 1%R /\ power_at sys (hi * PI) = G 1%R /\
  (forall w, (lo * PI <= w <= hi * PI)%R -> P (power_at sys w)) /\ (forall w, (0 <= w < lo * PI \/ hi * PI < w <= PI)%R -> Q (power_at sys w)).
Proof.
  intros H1 H2 H3 H4. destruct (band_bandpass hb n G Ginf lo hi Hn Hb H1 H2 H3 H4) as (sys & Es & (W & Lz & Lp & St) & V & I). exists sys. destruct (counts sys W) as [Ez Ep]. pose proof PI_RGT_0 as Pi.
  split; [exact Es|]. split; [exact W|]. split; [lia|]. split; [lia|]. split; [now apply stable_bridge|].
  assert (M : forall w, (0 < w < PI)%R -> power_at sys w = G (band_variable lo hi w)).
  { intros w Hw. assert (0 < sin w)%R by (apply sin_gt_0; lra). unfold power_at. rewrite Cabs_sq, V by lra. now rewrite even. }
  assert (M0 : power_at sys 0 = Ginf) by (unfold power_at; rewrite Cabs_sq; apply I, sin_0).
  assert (Mp : power_at sys PI = Ginf) by (unfold power_at; rewrite Cabs_sq; apply I, sin_PI).
  destruct (edge_band lo hi H1 H2 H3) as [B1 B2]. assert (0 < lo * PI)%R by nra. assert (hi * PI < PI)%R by nra. assert (lo * PI < hi * PI)%R by nra.
  split; [exact M|]. split; [exact M0|]. split; [exact Mp|]. split; [|split; [|split]].
  - rewrite M by lra. now rewrite B1.
  - rewrite M by lra. now rewrite B2, even.
  - intros w Hw. rewrite M by lra. apply HP. now apply band_in.
  - intros w Hw. destruct (Req_EM_T w 0) as [->|]; [now rewrite M0|]. destruct (Req_EM_T w PI) as [->|]; [now rewrite Mp|]. rewrite M by lra. apply HQ. apply band_out; lra.
Qed.
Lemma gen_bandstop lo hi : (0 < lo)%R -> (lo < hi)%R -> (hi < 1)%R -> exists sys, Halfband2Bandstop hb lo hi = Ok sys /\ well_formed sys /\ pole_count sys = 2 * n /\ zero_count sys = 2 * n /\ stable sys /\
  (forall w, (0 < w < PI)%R -> band_variable lo hi w <> 0%R -> power_at sys w = G (1 / band_variable lo hi w)%R) /\ (forall w, (0 < w < PI)%R -> band_variable lo hi w = 0%R -> power_at sys w = Ginf) /\
  power_at sys 0 = G 0%R /\ power_at sys PI = G 0%R /\ power_at sys (lo * PI) = G 1%R /\ power_at sys (hi * PI) = G 1%R /\
  (forall w, (0 <= w <= lo * PI \/ hi * PI <= w <= PI)%R -> P (power_at sys w)) /\ (forall w, (lo * PI < w < hi * PI)%R -> Q (power_at sys w)).
Proof.
  intros H1 H2 H3. destruct (band_bandstop hb n G Ginf lo hi Hn Hb H1 H2 H3) as (sys & Es & (W & Lz & Lp & St) & V & I). exists sys. destruct (counts sys W) as [Ez Ep]. pose proof PI_RGT_0 as Pi.
  split; [exact Es|]. split; [exact W|]. split; [lia|]. split; [lia|]. split; [now apply stable_bridge|]. fold (half_width lo hi) in V, I. fold (centre lo hi) in V, I.
  destruct (band_edges lo hi H1 H2 H3) as (Sd & Cd & Sl & Sh & El & Eh2). destruct (edge_band lo hi H1 H2 H3) as [B1 B2]. assert (0 < lo * PI)%R by nra. assert (hi * PI < PI)%R by nra. assert (lo * PI < hi * PI)%R by nra.
  assert (M : forall w, (0 < w < PI)%R -> band_variable lo hi w <> 0%R -> power_at sys w = G (1 / band_variable lo hi w)%R).
  { intros w Hw Hv. assert (Sw : (0 < sin w)%R) by (apply sin_gt_0; lra). assert (X : (cos (half_width lo hi) * cos w - cos (centre lo hi) <> 0)%R) by (intros X; apply Hv; unfold band_variable; rewrite X; unfold Rdiv; ring).
    unfold power_at. rewrite Cabs_sq, V by exact X. f_equal. unfold band_variable. field. repeat split; lra. }
  assert (M1 : forall w, (0 < w < PI)%R -> band_variable lo hi w = 0%R -> power_at sys w = Ginf).
  { intros w Hw Hv. assert (Sw : (0 < sin w)%R) by (apply sin_gt_0; lra). unfold power_at. rewrite Cabs_sq. apply I. unfold band_variable in Hv. set (x := (cos (half_width lo hi) * cos w - cos (centre lo hi))%R) in *.
    assert (E : (x / (sin (half_width lo hi) * sin w) * (sin (half_width lo hi) * sin w) = x)%R) by (field; split; lra). rewrite <- E, Hv. ring. }
  assert (Cg : (Rabs (cos (centre lo hi)) < cos (half_width lo hi))%R).
  { pose proof (band_angles (lo * PI) (hi * PI)) as A. destruct A as (_ & _ & A & _); try lra. fold (half_width lo hi) in A. fold (centre lo hi) in A. unfold Rabs. destruct (Rcase_abs _); nra. }
  assert (M0 : power_at sys 0 = G 0%R). { unfold power_at. rewrite Cabs_sq, V; rewrite cos_0; [|unfold Rabs in Cg; destruct (Rcase_abs _); lra]. rewrite sin_0. f_equal. unfold Rdiv. ring. }
  assert (Mp : power_at sys PI = G 0%R). { unfold power_at. rewrite Cabs_sq, V; rewrite cos_PI; [|unfold Rabs in Cg; destruct (Rcase_abs _); lra]. rewrite sin_PI. f_equal. unfold Rdiv. ring. }
  assert (Inv : forall x, (1 <= Rabs x)%R -> x <> 0%R /\ (-1 <= 1 / x <= 1)%R).
  { intros x Hx. unfold Rabs in Hx. destruct (Rcase_abs x); (split; [lra|]); assert (E : (1 / x * x = 1)%R) by (field; lra); split; nra. }
  split; [exact M|]. split; [exact M1|]. split; [exact M0|]. split; [exact Mp|].
  assert (L : power_at sys (lo * PI) = G 1%R). { rewrite M by (rewrite ?B1; lra). rewrite B1. f_equal. lra. }
  assert (U : power_at sys (hi * PI) = G 1%R). { rewrite M by (rewrite ?B2; lra). rewrite B2. replace (1 / - (1))%R with (- (1))%R by (field; lra). apply even. }
  split; [exact L|]. split; [exact U|]. split.
  - intros w Hw. destruct (Req_EM_T w 0) as [->|]; [rewrite M0; apply HP; lra|]. destruct (Req_EM_T w PI) as [->|]; [rewrite Mp; apply HP; lra|].
    destruct (Req_EM_T w (lo * PI)) as [->|]; [rewrite L; apply HP; lra|]. destruct (Req_EM_T w (hi * PI)) as [->|]; [rewrite U; apply HP; lra|].
    pose proof (band_out lo hi w H1 H2 H3 ltac:(lra) ltac:(lra)) as O. destruct (Inv _ (Rlt_le _ _ O)) as [N B]. rewrite M by (exact N || lra). now apply HP.
  - intros w Hw. pose proof (band_in_strict lo hi w H1 H2 H3 Hw) as B. destruct (Req_EM_T (band_variable lo hi w) 0) as [Z|N]; [rewrite M1 by (exact Z || lra); exact HI|].
    rewrite M by (exact N || lra). apply HQ. set (x := band_variable lo hi w) in *. assert (E : (1 / x * x = 1)%R) by (field; lra). unfold Rabs. destruct (Rcase_abs _); nra.
Qed.
End Generic.
(** ** The two responses on and off the unit interval *)
Lemma type1_in n r x : (0 < r < 1)%R -> (-1 <= x <= 1)%R -> ((1 - r) ^ 2 <= type1 n r x <= 1)%R.
Proof.
  intros Hr Hx. unfold type1. change chebyshev with chebT. pose proof (cheb_in (Z.to_nat n) x Hx) as B. pose proof (pow2_ge_0 (chebT (Z.to_nat n) x)) as B0. set (T := (chebT (Z.to_nat n) x ^ 2)%R) in *.
  assert (R0 : (0 < (1 - r) ^ 2 <= 1)%R) by nra. set (q := ((1 - r) ^ 2)%R) in *. assert (E : (1 / q * q = 1)%R) by (field; lra). set (i := (1 / q)%R) in *. assert (i >= 1)%R by nra.
  set (d := (1 + (i - 1) * T)%R). assert (D : (1 <= d <= i)%R) by (unfold d; nra). assert (E2 : (1 / d * d = 1)%R) by (field; lra). set (j := (1 / d)%R) in *. split; nra.
Qed.
Lemma type1_one n r : (0 < r < 1)%R -> type1 n r 1 = ((1 - r) ^ 2)%R.
Proof. intros Hr. unfold type1. change chebyshev with chebT. rewrite cheb_one. field. nra. Qed.
Lemma type1_out n r x : 0 < n -> (0 < r < 1)%R -> (1 < Rabs x)%R -> (0 <= type1 n r x < (1 - r) ^ 2)%R.
Proof.
  intros Hn Hr Hx. unfold type1. change chebyshev with chebT. pose proof (cheb_out (Z.to_nat n) x ltac:(lia) Hx) as B. set (T := (chebT (Z.to_nat n) x ^ 2)%R) in *.
  assert (R0 : (0 < (1 - r) ^ 2 < 1)%R) by nra. set (q := ((1 - r) ^ 2)%R) in *. assert (E : (1 / q * q = 1)%R) by (field; lra). set (i := (1 / q)%R) in *. assert (i > 1)%R by nra.
  set (d := (1 + (i - 1) * T)%R). assert (D : (i < d)%R) by (unfold d; nra). assert (E2 : (1 / d * d = 1)%R) by (field; lra). set (j := (1 / d)%R) in *. split; nra.
Qed.
Lemma recip_out x : x <> 0%R -> (-1 < x < 1)%R -> (1 < Rabs (1 / x))%R.
Proof. intros N B. assert (E : (1 / x * x = 1)%R) by (field; lra). unfold Rabs. destruct (Rcase_abs _); nra. Qed.
Lemma type2_ratio r T : (0 < r < 1)%R -> (0 <= T)%R -> let t := (r ^ 2 / (1 - r ^ 2) * T)%R in
  (0 <= t / (1 + t) <= 1)%R /\ (T = 1 -> t / (1 + t) = r ^ 2)%R /\ (T <= 1 -> t / (1 + t) <= r ^ 2)%R /\ (1 <= T -> r ^ 2 <= t / (1 + t))%R.
Proof.
  intros Hr HT t. assert (R0 : (0 < r ^ 2 < 1)%R) by nra. set (q := (r ^ 2)%R) in *. assert (E : (q / (1 - q) * (1 - q) = q)%R) by (field; lra). set (k := (q / (1 - q))%R) in *. assert (0 < k)%R by nra. assert (0 <= t)%R by (unfold t; nra).
  assert (E2 : (t / (1 + t) * (1 + t) = t)%R) by (field; lra). set (v := (t / (1 + t))%R) in *. assert (EV : (v + v * (k * T) = k * T)%R) by (fold t; lra). assert (V0 : (0 <= v <= 1)%R) by (split; nra).
  assert (Eq : (q + q * k = k)%R) by lra. split; [exact V0|]. split; [|split].
  - intros ->. rewrite Rmult_1_r in *. assert ((v - q) * (1 + k) = 0)%R by lra. apply Rmult_integral in H1 as [|]; lra.
  - intros L. assert (k * T <= k)%R by nra. assert ((v - q) * (1 + k) <= 0)%R; [|nra]. assert ((1 - v) * (k * T) <= (1 - v) * k)%R by nra. lra.
  - intros L. assert (k <= k * T)%R by nra. assert (0 <= (v - q) * (1 + k))%R; [|nra]. assert ((1 - v) * k <= (1 - v) * (k * T))%R by nra. lra.
Qed.
Lemma type2_one n r : (0 < r < 1)%R -> type2 n r 1 = (r ^ 2)%R.
Proof. intros Hr. unfold type2. destruct (Req_EM_T 1 0); [lra|]. change chebyshev with chebT. replace (1 / 1)%R with 1%R by lra. rewrite cheb_one. apply type2_ratio; [exact Hr|nra|ring]. Qed.
Lemma type2_zero n r : type2 n r 0 = 1%R.
Proof. unfold type2. destruct (Req_EM_T 0 0); [reflexivity|lra]. Qed.
Lemma type2_in n r x : 0 < n -> (0 < r < 1)%R -> (-1 <= x <= 1)%R -> (r ^ 2 <= type2 n r x <= 1)%R.
Proof.
  intros Hn Hr Hx. unfold type2. destruct (Req_EM_T x 0); [nra|]. change chebyshev with chebT. set (T := (chebT (Z.to_nat n) (1 / x) ^ 2)%R). assert (T0 : (0 <= T)%R) by apply pow2_ge_0.
  destruct (type2_ratio r T Hr T0) as (A & B & _ & D). split; [|exact (proj2 A)]. apply D. unfold T.
  destruct (Req_EM_T x 1) as [->|]; [replace (1 / 1)%R with 1%R by lra; rewrite cheb_one; lra|]. destruct (Req_EM_T x (- (1))) as [->|]; [replace (1 / - (1))%R with (- (1))%R by (field; lra); rewrite chebT_neg_sq, cheb_one; lra|].
  left. apply cheb_out; [lia|]. apply recip_out; lra.
Qed.
Lemma type2_out n r x : (0 < r < 1)%R -> (1 < Rabs x)%R -> (0 <= type2 n r x <= r ^ 2)%R.
Proof.
  intros Hr Hx. unfold type2. destruct (Req_EM_T x 0) as [->|N]; [rewrite Rabs_R0 in Hx; lra|]. change chebyshev with chebT. set (T := (chebT (Z.to_nat n) (1 / x) ^ 2)%R). assert (T0 : (0 <= T)%R) by apply pow2_ge_0.
  destruct (type2_ratio r T Hr T0) as (A & _ & B & _). split; [exact (proj1 A)|]. apply B. unfold T. apply cheb_in. assert (E : (1 / x * x = 1)%R) by (field; lra). unfold Rabs in Hx. destruct (Rcase_abs x); split; nra.
Qed.

(** ** C51: type I *)
(** squared magnitude stays between (1-ripple)^2 and 1 where |x| <= 1, touches (1-ripple)^2 at the edge, and is below it outside *)
Theorem C51_type1_shape n r : 0 < n -> (0 < r < 1)%R ->
  (forall x, (-1 <= x <= 1)%R -> ((1 - r) ^ 2 <= type1 n r x <= 1)%R) /\ type1 n r 1 = ((1 - r) ^ 2)%R /\ (forall x, (1 < Rabs x)%R -> (0 <= type1 n r x < (1 - r) ^ 2)%R).
Proof. intros Hn Hr. split; [intros x; now apply type1_in|]. split; [now apply type1_one|]. intros x. now apply type1_out. Qed.
Print Assumptions C51_type1_shape.
Theorem C51_prototype order ripple : 0 < order <= 32 -> (0 < ripple < 1)%R -> exists sys, Chebyshev1 order ripple = Ok sys /\ well_formed sys /\ all_roots (zeros sys) = [] /\ pole_count sys = order /\
  stable_continuous sys /\ (forall w, power_continuous sys w = type1 order ripple w).
Proof.
  intros Hn Hr. exists (cheb1_sys order ripple). split; [now apply cheb1_ok|]. assert (W : well_formed (cheb1_sys order ripple)) by (split; [exact fp_wf_empty|apply sym_wf]).
  split; [exact W|]. split; [reflexivity|]. split; [rewrite (proj2 (counts _ W)); apply sym_num; lia|]. split; [intros p Hp; apply (cheb1_left order ripple p); [lia|exact Hr|exact Hp]|].
  intros w. unfold power_continuous. rewrite Cabs_sq, cheb1_response by (lia || exact Hr). reflexivity.
Qed.
Print Assumptions C51_prototype.
Theorem C51_prototype_order_refuted order ripple : (order = 0 \/ 32 < order < 2 ^ 64) -> Chebyshev1 order ripple = UB.
Proof. intros H. unfold Chebyshev1, shl1, size_sub. destruct H as [->|H]; [reflexivity|]. rewrite Z.mod_small by lia. replace (order - 1 <? 32) with false by lia. now rewrite Bool.andb_false_r. Qed.
Print Assumptions C51_prototype_order_refuted.
Lemma hb1 n r : 0 < n <= 32 -> (0 < r < 1)%R -> exists hb, PrototypeChebyshev1 n r = Ok hb /\ halfband hb n (type1 n r) 0.
Proof. intros H Hr. exact (cheb1_halfband n r H Hr). Qed.
Lemma q1 r : (0 < r < 1)%R -> (0 <= 0 < (1 - r) ^ 2)%R. Proof. intros. nra. Qed.
Theorem C51_lowpass order cutoff ripple : 0 < order <= 32 -> (0 < cutoff < 1)%R -> (0 < ripple < 1)%R -> exists sys, DesignChebyshev1Lowpass order cutoff ripple = Ok sys /\
  well_formed sys /\ pole_count sys = order /\ zero_count sys = order /\ stable sys /\
  (forall w, (-PI < w < PI)%R -> power_at sys w = type1 order ripple (low_variable cutoff w)) /\ power_at sys 0 = type1 order ripple 0 /\ power_at sys PI = 0%R /\ power_at sys (cutoff * PI) = ((1 - ripple) ^ 2)%R /\
  (forall w, (0 <= w <= cutoff * PI)%R -> ((1 - ripple) ^ 2 <= power_at sys w <= 1)%R) /\ (forall w, (cutoff * PI < w <= PI)%R -> (0 <= power_at sys w < (1 - ripple) ^ 2)%R).
Proof.
  intros Hn Hc Hr. destruct (hb1 order ripple Hn Hr) as (hb & E & Hb). unfold DesignChebyshev1Lowpass. rewrite E. cbn [bind].
  pose proof (gen_low hb order (type1 order ripple) 0 (fun y => (1 - ripple) ^ 2 <= y <= 1)%R (fun y => 0 <= y < (1 - ripple) ^ 2)%R ltac:(lia) Hb (type1_even _ _) (fun x Hx => type1_in order ripple x Hr Hx) (fun x Hx => type1_out order ripple x ltac:(lia) Hr Hx) (q1 _ Hr)) as X.
  destruct (X cutoff Hc) as (sys & S). exists sys. rewrite type1_one in S by exact Hr. exact S.
Qed.
Print Assumptions C51_lowpass.
Theorem C51_highpass order cutoff ripple : 0 < order <= 32 -> (0 < cutoff < 1)%R -> cutoff <> (1 / 2)%R -> (0 < ripple < 1)%R -> exists sys, DesignChebyshev1Highpass order cutoff ripple = Ok sys /\
  well_formed sys /\ pole_count sys = order /\ zero_count sys = order /\ stable sys /\
  (forall w, (0 < w < PI)%R -> power_at sys w = type1 order ripple (high_variable cutoff w)) /\ power_at sys 0 = 0%R /\ power_at sys PI = type1 order ripple 0 /\ power_at sys (cutoff * PI) = ((1 - ripple) ^ 2)%R /\
  (forall w, (cutoff * PI <= w <= PI)%R -> ((1 - ripple) ^ 2 <= power_at sys w <= 1)%R) /\ (forall w, (0 <= w < cutoff * PI)%R -> (0 <= power_at sys w < (1 - ripple) ^ 2)%R).
Proof.
  intros Hn Hc Hne Hr. destruct (hb1 order ripple Hn Hr) as (hb & E & Hb). unfold DesignChebyshev1Highpass. rewrite E. cbn [bind].
  pose proof (gen_high hb order (type1 order ripple) 0 (fun y => (1 - ripple) ^ 2 <= y <= 1)%R (fun y => 0 <= y < (1 - ripple) ^ 2)%R ltac:(lia) Hb (type1_even _ _) (fun x Hx => type1_in order ripple x Hr Hx) (fun x Hx => type1_out order ripple x ltac:(lia) Hr Hx) (q1 _ Hr)) as X.
  destruct (X cutoff Hc Hne) as (sys & S). exists sys. rewrite type1_one in S by exact Hr. exact S.
Qed.
Print Assumptions C51_highpass.
Theorem C51_bandpass order lo hi ripple : 0 < order <= 64 -> order mod 2 = 0 -> (0 < lo)%R -> (lo < hi)%R -> (hi < 1)%R -> (hi - lo <> 1 / 2)%R -> (0 < ripple < 1)%R ->
  exists sys, DesignChebyshev1Bandpass order lo hi ripple = Ok sys /\ well_formed sys /\ pole_count sys = order /\ zero_count sys = order /\ stable sys /\
  (forall w, (0 < w < PI)%R -> power_at sys w = type1 (order / 2) ripple (band_variable lo hi w)) /\ power_at sys 0 = 0%R /\ power_at sys PI = 0%R /\
  power_at sys (lo * PI) = ((1 - ripple) ^ 2)%R /\ power_at sys (hi * PI) = ((1 - ripple) ^ 2)%R /\
  (forall w, (lo * PI <= w <= hi * PI)%R -> ((1 - ripple) ^ 2 <= power_at sys w <= 1)%R) /\
  (forall w, (0 <= w < lo * PI \/ hi * PI < w <= PI)%R -> (0 <= power_at sys w < (1 - ripple) ^ 2)%R).
Proof.
  intros Hn Hev H1 H2 H3 H4 Hr. destruct (hb1 (order / 2) ripple ltac:(lia) Hr) as (hb & E & Hb). unfold DesignChebyshev1Bandpass, assert_. rewrite Hev. cbn [Z.eqb]. rewrite E. cbn [bind].
  pose proof (gen_bandpass hb (order / 2) (type1 (order / 2) ripple) 0 (fun y => (1 - ripple) ^ 2 <= y <= 1)%R (fun y => 0 <= y < (1 - ripple) ^ 2)%R ltac:(lia) Hb (type1_even _ _) (fun x Hx => type1_in (order / 2) ripple x Hr Hx) (fun x Hx => type1_out (order / 2) ripple x ltac:(lia) Hr Hx) (q1 _ Hr)) as X.
  destruct (X lo hi H1 H2 H3 H4) as (sys & S). exists sys. rewrite type1_one in S by exact Hr. replace (2 * (order / 2)) with order in S by lia. exact S.
Qed.
Print Assumptions C51_bandpass.
Theorem C51_bandstop order lo hi ripple : 0 < order <= 64 -> order mod 2 = 0 -> (0 < lo)%R -> (lo < hi)%R -> (hi < 1)%R -> (0 < ripple < 1)%R ->
  exists sys, DesignChebyshev1Bandstop order lo hi ripple = Ok sys /\ well_formed sys /\ pole_count sys = order /\ zero_count sys = order /\ stable sys /\
  (forall w, (0 < w < PI)%R -> band_variable lo hi w <> 0%R -> power_at sys w = type1 (order / 2) ripple (1 / band_variable lo hi w)) /\
  (forall w, (0 < w < PI)%R -> band_variable lo hi w = 0%R -> power_at sys w = 0%R) /\
  power_at sys 0 = type1 (order / 2) ripple 0 /\ power_at sys PI = type1 (order / 2) ripple 0 /\ power_at sys (lo * PI) = ((1 - ripple) ^ 2)%R /\ power_at sys (hi * PI) = ((1 - ripple) ^ 2)%R /\
  (forall w, (0 <= w <= lo * PI \/ hi * PI <= w <= PI)%R -> ((1 - ripple) ^ 2 <= power_at sys w <= 1)%R) /\
  (forall w, (lo * PI < w < hi * PI)%R -> (0 <= power_at sys w < (1 - ripple) ^ 2)%R).
Proof.
  intros Hn Hev H1 H2 H3 Hr. destruct (hb1 (order / 2) ripple ltac:(lia) Hr) as (hb & E & Hb). unfold DesignChebyshev1Bandstop, assert_. rewrite Hev. cbn [Z.eqb]. rewrite E. cbn [bind].
  pose proof (gen_bandstop hb (order / 2) (type1 (order / 2) ripple) 0 (fun y => (1 - ripple) ^ 2 <= y <= 1)%R (fun y => 0 <= y < (1 - ripple) ^ 2)%R ltac:(lia) Hb (type1_even _ _) (fun x Hx => type1_in (order / 2) ripple x Hr Hx) (fun x Hx => type1_out (order / 2) ripple x ltac:(lia) Hr Hx) (q1 _ Hr)) as X.
  destruct (X lo hi H1 H2 H3) as (sys & S). exists sys. rewrite type1_one in S by exact Hr. replace (2 * (order / 2)) with order in S by lia. exact S.
Qed.
Print Assumptions C51_bandstop.
Example C51_nontrivial : 0 < 6 <= 32 /\ 6 mod 2 = 0 /\ (0 < 3/10)%R /\ (3/10 < 6/10)%R /\ (6/10 < 1)%R /\ (6/10 - 3/10 <> 1/2)%R /\ (0 < 1/10 < 1)%R /\ chebyshev 3 2 = 26%R.
Proof. repeat split; try lra; try lia. cbn [chebyshev]. lra. Qed.

(** ** C52: type II *)
Theorem C52_type2_shape n r : 0 < n -> (0 < r < 1)%R ->
  type2 n r 0 = 1%R /\ (forall x, (-1 <= x <= 1)%R -> (r ^ 2 <= type2 n r x <= 1)%R) /\ type2 n r 1 = (r ^ 2)%R /\ (forall x, (1 < Rabs x)%R -> (0 <= type2 n r x <= r ^ 2)%R).
Proof. intros Hn Hr. split; [apply type2_zero|]. split; [intros x; now apply type2_in|]. split; [now apply type2_one|]. intros x. now apply type2_out. Qed.
Print Assumptions C52_type2_shape.
Lemma len_tab_Z {A} n (f : Z -> A) : 0 <= n -> Z.of_nat (length (tab n f)) = n.
Proof. intros H. pose proof (lenZ_tab n f) as L. unfold lenZ in L. lia. Qed.
Theorem C52_prototype order ripple : 0 < order -> (0 < ripple < 1)%R -> exists sys, Chebyshev2 order ripple = Ok sys /\ well_formed sys /\ pole_count sys = order /\ zero_count sys = 2 * (order / 2) /\
  stable_continuous sys /\ (forall z, In z (all_roots (zeros sys)) -> re z = 0%R) /\ (forall w, power_continuous sys w = type2 order ripple w).
Proof.
  intros Hn Hr. exists (cheb2_sys order ripple). split; [now apply cheb2_ok|]. assert (W : well_formed (cheb2_sys order ripple)) by (split; [apply mk_fp_wf|apply sym_wf]).
  assert (Ez : num_roots (zeros (cheb2_sys order ripple)) = 2 * (order / 2)).
  { rewrite <- (proj1 (counts _ W)). unfold zero_count. rewrite (Permutation_length (cheb2_zeros order ripple Hn)), map_length. unfold cnodes. rewrite app_length, Nat2Z.inj_add. rewrite !len_tab_Z by lia. lia. }
  split; [exact W|]. split; [rewrite (proj2 (counts _ W)); apply sym_num; lia|]. split; [rewrite (proj1 (counts _ W)); exact Ez|].
  split; [intros p Hp; exact (cheb2_left order ripple p Hn Hr Hp)|]. split.
  - intros p Hp. apply (Permutation_in _ (cheb2_zeros order ripple Hn)) in Hp. apply in_map_iff in Hp as (c & <- & _). unfold Cdiv, Cinv, Cmul, Copp, Ci, C1, RtoC. cbn [re im]. unfold Rdiv. ring.
  - intros w. unfold power_continuous. rewrite Cabs_sq, cheb2_response by assumption. reflexivity.
Qed.
Print Assumptions C52_prototype.
Lemma hb2 n r : 0 < n -> (0 < r < 1)%R -> exists hb, PrototypeChebyshev2 n r = Ok hb /\ halfband hb n (type2 n r) (if n mod 2 =? 0 then r ^ 2 else 0)%R.
Proof. intros H Hr. exact (cheb2_halfband n r H Hr). Qed.
Lemma q2 n r : (0 < r < 1)%R -> (0 <= (if n mod 2 =? 0 then r ^ 2 else 0) <= r ^ 2)%R. Proof. intros. destruct (n mod 2 =? 0); nra. Qed.
Theorem C52_lowpass order cutoff ripple : 0 < order < 2 ^ 64 -> (0 < cutoff < 1)%R -> (0 < ripple < 1)%R -> exists sys, DesignChebyshev2Lowpass order cutoff ripple = Ok sys /\
  well_formed sys /\ pole_count sys = order /\ zero_count sys = order /\ stable sys /\
  (forall w, (-PI < w < PI)%R -> power_at sys w = type2 order ripple (low_variable cutoff w)) /\ power_at sys 0 = 1%R /\ power_at sys PI = (if order mod 2 =? 0 then ripple ^ 2 else 0)%R /\ power_at sys (cutoff * PI) = (ripple ^ 2)%R /\
  (forall w, (0 <= w <= cutoff * PI)%R -> (ripple ^ 2 <= power_at sys w <= 1)%R) /\ (forall w, (cutoff * PI < w <= PI)%R -> (0 <= power_at sys w <= ripple ^ 2)%R).
Proof.
  intros Hn Hc Hr. destruct (hb2 order ripple ltac:(lia) Hr) as (hb & E & Hb). unfold DesignChebyshev2Lowpass. rewrite E. cbn [bind]. pose proof (gen_low hb order (type2 order ripple) _ (fun y => ripple ^ 2 <= y <= 1)%R (fun y => 0 <= y <= ripple ^ 2)%R ltac:(lia) Hb (type2_even _ _) (fun x Hx => type2_in order ripple x ltac:(lia) Hr Hx) (fun x Hx => type2_out order ripple x Hr Hx) (q2 order _ Hr)) as X.
  destruct (X cutoff Hc) as (sys & S). exists sys. rewrite type2_one, type2_zero in S by exact Hr. exact S.
Qed.
Print Assumptions C52_lowpass.
Theorem C52_highpass order cutoff ripple : 0 < order < 2 ^ 64 -> (0 < cutoff < 1)%R -> cutoff <> (1 / 2)%R -> (0 < ripple < 1)%R -> exists sys, DesignChebyshev2Highpass order cutoff ripple = Ok sys /\
  well_formed sys /\ pole_count sys = order /\ zero_count sys = order /\ stable sys /\
  (forall w, (0 < w < PI)%R -> power_at sys w = type2 order ripple (high_variable cutoff w)) /\ power_at sys 0 = (if order mod 2 =? 0 then ripple ^ 2 else 0)%R /\ power_at sys PI = 1%R /\ power_at sys (cutoff * PI) = (ripple ^ 2)%R /\
  (forall w, (cutoff * PI <= w <= PI)%R -> (ripple ^ 2 <= power_at sys w <= 1)%R) /\ (forall w, (0 <= w < cutoff * PI)%R -> (0 <= power_at sys w <= ripple ^ 2)%R).
Proof.
  intros Hn Hc Hne Hr. destruct (hb2 order ripple ltac:(lia) Hr) as (hb & E & Hb). unfold DesignChebyshev2Highpass. rewrite E. cbn [bind]. pose proof (gen_high hb order (type2 order ripple) _ (fun y => ripple ^ 2 <= y <= 1)%R (fun y => 0 <= y <= ripple ^ 2)%R ltac:(lia) Hb (type2_even _ _) (fun x Hx => type2_in order ripple x ltac:(lia) Hr Hx) (fun x Hx => type2_out order ripple x Hr Hx) (q2 order _ Hr)) as X.
  destruct (X cutoff Hc Hne) as (sys & S). exists sys. rewrite type2_one, type2_zero in S by exact Hr. exact S.
Qed.
Print Assumptions C52_highpass.
Theorem C52_bandpass order lo hi ripple : 0 < order < 2 ^ 64 -> order mod 2 = 0 -> (0 < lo)%R -> (lo < hi)%R -> (hi < 1)%R -> (hi - lo <> 1 / 2)%R -> (0 < ripple < 1)%R ->
  exists sys, DesignChebyshev2Bandpass order lo hi ripple = Ok sys /\ well_formed sys /\ pole_count sys = order /\ zero_count sys = order /\ stable sys /\
  (forall w, (0 < w < PI)%R -> power_at sys w = type2 (order / 2) ripple (band_variable lo hi w)) /\
  power_at sys 0 = (if (order / 2) mod 2 =? 0 then ripple ^ 2 else 0)%R /\ power_at sys PI = (if (order / 2) mod 2 =? 0 then ripple ^ 2 else 0)%R /\
  power_at sys (lo * PI) = (ripple ^ 2)%R /\ power_at sys (hi * PI) = (ripple ^ 2)%R /\
  (forall w, (lo * PI <= w <= hi * PI)%R -> (ripple ^ 2 <= power_at sys w <= 1)%R) /\
  (forall w, (0 <= w < lo * PI \/ hi * PI < w <= PI)%R -> (0 <= power_at sys w <= ripple ^ 2)%R).
Proof.
  intros Hn Hev H1 H2 H3 H4 Hr. destruct (hb2 (order / 2) ripple ltac:(lia) Hr) as (hb & E & Hb). unfold DesignChebyshev2Bandpass, assert_. rewrite Hev. cbn [Z.eqb]. rewrite E. cbn [bind].
  pose proof (gen_bandpass hb (order / 2) (type2 (order / 2) ripple) _ (fun y => ripple ^ 2 <= y <= 1)%R (fun y => 0 <= y <= ripple ^ 2)%R ltac:(lia) Hb (type2_even _ _) (fun x Hx => type2_in (order / 2) ripple x ltac:(lia) Hr Hx) (fun x Hx => type2_out (order / 2) ripple x Hr Hx) (q2 (order / 2) _ Hr)) as X.
  destruct (X lo hi H1 H2 H3 H4) as (sys & S). replace (2 * (order / 2)) with order in S by lia. exists sys. rewrite type2_one in S by exact Hr. exact S.
Qed.
Print Assumptions C52_bandpass.
Theorem C52_bandstop order lo hi ripple : 0 < order < 2 ^ 64 -> order mod 2 = 0 -> (0 < lo)%R -> (lo < hi)%R -> (hi < 1)%R -> (0 < ripple < 1)%R ->
  exists sys, DesignChebyshev2Bandstop order lo hi ripple = Ok sys /\ well_formed sys /\ pole_count sys = order /\ zero_count sys = order /\ stable sys /\
  (forall w, (0 < w < PI)%R -> band_variable lo hi w <> 0%R -> power_at sys w = type2 (order / 2) ripple (1 / band_variable lo hi w)) /\
  (forall w, (0 < w < PI)%R -> band_variable lo hi w = 0%R -> power_at sys w = (if (order / 2) mod 2 =? 0 then ripple ^ 2 else 0)%R) /\
  power_at sys 0 = 1%R /\ power_at sys PI = 1%R /\ power_at sys (lo * PI) = (ripple ^ 2)%R /\ power_at sys (hi * PI) = (ripple ^ 2)%R /\
  (forall w, (0 <= w <= lo * PI \/ hi * PI <= w <= PI)%R -> (ripple ^ 2 <= power_at sys w <= 1)%R) /\
  (forall w, (lo * PI < w < hi * PI)%R -> (0 <= power_at sys w <= ripple ^ 2)%R).
Proof.
  intros Hn Hev H1 H2 H3 Hr. destruct (hb2 (order / 2) ripple ltac:(lia) Hr) as (hb & E & Hb). unfold DesignChebyshev2Bandstop, assert_. rewrite Hev. cbn [Z.eqb]. rewrite E. cbn [bind].
  pose proof (gen_bandstop hb (order / 2) (type2 (order / 2) ripple) _ (fun y => ripple ^ 2 <= y <= 1)%R (fun y => 0 <= y <= ripple ^ 2)%R ltac:(lia) Hb (type2_even _ _) (fun x Hx => type2_in (order / 2) ripple x ltac:(lia) Hr Hx) (fun x Hx => type2_out (order / 2) ripple x Hr Hx) (q2 (order / 2) _ Hr)) as X.
  destruct (X lo hi H1 H2 H3) as (sys & S). replace (2 * (order / 2)) with order in S by lia. exists sys. rewrite type2_one, type2_zero in S by exact Hr. exact S.
Qed.
Print Assumptions C52_bandstop.
Example C52_nontrivial : 0 < 7 < 2 ^ 64 /\ (0 < 1/3 < 1)%R /\ (0 < 1/10 < 1)%R /\ chebyshev 2 3 = 17%R.
Proof. repeat split; try lra; try lia. cbn [chebyshev]. lra. Qed.
