(** Proofs about the rational resampler. *)
From Coq Require Import ZArith List Bool Lia QArith Qround.
From Verif Require Import Base BaseFacts IntervalModel RationalModel RationalProofs KernelModel KernelProofs ConvModel ConvProofs FirModel PolyphaseModel PolyphaseProofs ResampleModel.
From Coq Require Import ZifyBool ZifyNat.
Open Scope Z_scope.

(** ** Rational arithmetic with the bounds of each operand *)
Section Rat.
Variable M : Z.
Lemma cross_le r n d : cross r n d -> 0 < d -> Z.abs (num r) <= Z.abs n /\ 0 < den r <= d /\ (0 <= n -> 0 <= num r) /\ (n < d -> num r < den r).
Proof.
  intros [[C1 C2] E] Hd. assert (D : (den r | d)) by (apply (Z.gauss (den r) (num r) d); [exists n; lia|now rewrite Z.gcd_comm]). destruct D as [g ->]. assert (Hg : 0 < g) by nia.
  assert (En : n = g * num r) by nia. subst n. nia.
Qed.
Lemma cross_pos r n d : cross r n d -> 0 < d -> 0 <= n -> 0 <= num r <= n /\ 0 < den r <= d /\ (n < d -> num r < den r).
Proof. intros C Hd Hn. destruct (cross_le r n d C Hd) as (A & B & C0 & D). specialize (C0 Hn). repeat split; try lia; exact D. Qed.
Lemma div_cross a b c d : a * d = c * b -> 0 < b -> 0 < d -> a / b = c / d.
Proof. intros E Hb Hd. rewrite <- (Z.div_mul_cancel_r a b d) by lia. rewrite <- (Z.div_mul_cancel_r c d b) by lia. rewrite E. f_equal. ring. Qed.
Lemma mod_cross a b c d : a * d = c * b -> 0 < b -> 0 < d -> (a mod b) * d = (c mod d) * b.
Proof. intros E Hb Hd. rewrite !Z.mod_eq by lia. rewrite (div_cross a b c d E Hb Hd). set (q := c / d). transitivity (a * d - b * q * d); [ring|]. rewrite E. ring. Qed.
Lemma cross_trans r n d n' d' : cross r n d -> 0 < d -> n * d' = n' * d -> cross r n' d'.
Proof. intros [C E] Hd E'. split; [exact C|]. destruct C as [C _]. apply (Z.mul_cancel_r _ _ d); [lia|]. transitivity (num r * d * d'); [ring|]. rewrite E. transitivity (n * d' * den r); [ring|]. rewrite E'. ring. Qed.

Lemma common_tot l r : 0 < den l -> 0 < den r -> Z.abs (num l) * den r <= M -> Z.abs (num r) * den l <= M -> den l * den r <= M ->
  exists a b c, common M l r = Ok (a, b, c) /\ Z.abs a <= Z.abs (num l) * den r /\ Z.abs b <= Z.abs (num r) * den l /\ 0 < c <= den l * den r.
Proof.
  intros Hl Hr B1 B2 B3. unfold common. rewrite !getden_fit by assumption. cbn [bind]. set (m := Z.lcm (den l) (den r)).
  assert (Hm0 : 0 <= m) by apply Z.lcm_nonneg. assert (Hm1 : m <> 0) by (intros C; apply Z.lcm_eq_0 in C; lia).
  assert (Hm2 : m <= den l * den r). { apply Z.divide_pos_le; [nia|]. apply Z.lcm_least; [apply Z.divide_factor_l|apply Z.divide_factor_r]. }
  assert (E1 : den l * Z.quot m (den l) = m) by (apply quot_exact; [lia|apply Z.divide_lcm_l]). assert (E2 : den r * Z.quot m (den r) = m) by (apply quot_exact; [lia|apply Z.divide_lcm_r]).
  unfold clcm. replace ((Z.abs (den l) <=? M) && (Z.abs (den r) <=? M)) with true by nia. fold m. rewrite ci_fit by lia. cbn [bind]. rewrite cquot_fit by lia. cbn [bind].
  set (ql := Z.quot m (den l)) in *. set (qr := Z.quot m (den r)) in *. assert (Hql : 0 < ql <= den r) by nia. assert (Hqr : 0 < qr <= den l) by nia.
  assert (A1 : Z.abs (num l * ql) <= Z.abs (num l) * den r) by (apply abs_mul_le; lia). assert (A2 : Z.abs (num r * qr) <= Z.abs (num r) * den l) by (apply abs_mul_le; lia).
  unfold cmul. rewrite ci_fit by lia. cbn [bind]. rewrite cquot_fit by lia. cbn [bind]. fold qr. rewrite ci_fit by lia. cbn [bind]. do 3 eexists. split; [reflexivity|]. lia.
Qed.
Lemma add_sub_tot l r : 0 < den l -> 0 < den r -> Z.abs (num l) * den r + Z.abs (num r) * den l <= M -> den l * den r <= M ->
  (exists s, add M l r = Ok s) /\ (exists s, sub M l r = Ok s).
Proof.
  intros Hl Hr B1 B2. destruct (common_tot l r Hl Hr) as (a & b & c & E & Ha & Hb & Hc); [nia|nia|exact B2|]. unfold add, sub. rewrite E. cbn [bind]. unfold cadd, csub. rewrite !ci_fit by lia. cbn [bind]. split; apply reduce_fit; lia.
Qed.
Lemma rle_tot l r : 0 < den l -> 0 < den r -> Z.abs (num l) * den r <= M -> Z.abs (num r) * den l <= M -> den l * den r <= M -> exists c, rle M l r = Ok c /\ exists c', rge M l r = Ok c'.
Proof. intros. destruct (common_tot l r) as (a & b & c & E & _); try assumption. unfold rle, rgt, rge, rlt. rewrite E. cbn [bind]. eauto. Qed.
Lemma cmp_cross a b dl dr ql qr : 0 < dr -> 0 < ql -> dl * ql = dr * qr -> (b * qr < a * ql <-> b * dl < a * dr) /\ (a * ql < b * qr <-> a * dr < b * dl).
Proof.
  intros H1 H2 E. assert (X : (a * ql - b * qr) * dr = (a * dr - b * dl) * ql). { transitivity (a * ql * dr - b * (dr * qr)); [ring|]. rewrite <- E. ring. }
  set (u := a * ql - b * qr) in *. set (v := a * dr - b * dl) in *. assert ((0 < u <-> 0 < v) /\ (u < 0 <-> v < 0)) by (split; split; intros; nia). lia.
Qed.
Lemma rle_ok l r c : rle M l r = Ok c -> 0 < den l /\ 0 < den r /\ c = (num l * den r <=? num r * den l).
Proof.
  unfold rle, rgt. intros H. inv_ok. apply common_ok in E0 as (Hl & Hr & Hc & ql & qr & E1 & E2 & -> & ->). split; [exact Hl|]. split; [exact Hr|]. assert (Hq : 0 < ql) by nia. assert (Hq' : 0 < qr) by nia. assert (Eq : den l * ql = den r * qr) by lia.
  assert (X : num r * qr < num l * ql <-> num r * den l < num l * den r). { apply (cmp_cross (num l) (num r) (den l) (den r) ql qr Hr Hq Eq). }
  destruct (num r * qr <? num l * ql) eqn:E; lia.
Qed.
Lemma rge_ok l r c : rge M l r = Ok c -> 0 < den l /\ 0 < den r /\ c = (num r * den l <=? num l * den r).
Proof.
  unfold rge, rlt. intros H. inv_ok. apply common_ok in E0 as (Hl & Hr & Hc & ql & qr & E1 & E2 & -> & ->). split; [exact Hl|]. split; [exact Hr|]. assert (Hq : 0 < ql) by nia. assert (Hq' : 0 < qr) by nia. assert (Eq : den l * ql = den r * qr) by lia.
  assert (X : num l * ql < num r * qr <-> num l * den r < num r * den l). { apply (cmp_cross (num l) (num r) (den l) (den r) ql qr Hr Hq Eq). }
  destruct (num l * ql <? num r * qr) eqn:E; lia.
Qed.
Lemma mul_tot l r : 0 < den l -> 0 < den r -> Z.abs (num l) <= M -> Z.abs (num r) <= M -> Z.abs (num l) * Z.abs (num r) <= M -> den l * den r <= M -> exists s, mul M l r = Ok s.
Proof.
  intros Hl Hr A1 A2 A3 A4. unfold mul. rewrite !getden_fit by assumption. cbn [bind].
  assert (G1 : Z.gcd (num l) (den r) <> 0) by (intros C; apply Z.gcd_eq_0 in C; lia). assert (G2 : Z.gcd (num r) (den l) <> 0) by (intros C; apply Z.gcd_eq_0 in C; lia).
  assert (G1' : 0 < Z.gcd (num l) (den r)) by (pose proof (Z.gcd_nonneg (num l) (den r)); lia). assert (G2' : 0 < Z.gcd (num r) (den l)) by (pose proof (Z.gcd_nonneg (num r) (den l)); lia).
  assert (den l <= M) by nia. assert (den r <= M) by nia. rewrite !cgcd_fit by lia. cbn [bind]. rewrite cquot_fit by (try assumption; lia). cbn [bind]. rewrite cquot_fit by (try assumption; lia). cbn [bind].
  pose proof (quot_abs_le (num l) _ G1) as Q1. pose proof (quot_abs_le (num r) _ G2) as Q2. pose proof (quot_abs_le (den r) _ G1) as Q3. pose proof (quot_abs_le (den l) _ G2) as Q4.
  pose proof (quot_exact (den r) _ G1 (Z.gcd_divide_r _ _)) as X1. pose proof (quot_exact (den l) _ G2 (Z.gcd_divide_r _ _)) as X2.
  set (a := Z.quot (num l) _) in *. set (b := Z.quot (num r) _) in *. set (c := Z.quot (den r) _) in *. set (e := Z.quot (den l) _) in *.
  assert (0 < c) by (clear - X1 G1' Hr; nia). assert (0 < e) by (clear - X2 G2' Hl; nia). assert (Z.abs (a * b) <= Z.abs (num l) * Z.abs (num r)) by (apply abs_mul_le; lia). assert (Z.abs (c * e) <= den r * den l) by (apply abs_mul_le; lia).
  unfold cmul. rewrite ci_fit by lia. cbn [bind]. rewrite cquot_fit by (try assumption; lia). cbn [bind]. fold c. rewrite cquot_fit by (try assumption; lia). cbn [bind]. fold e. rewrite ci_fit by lia. cbn [bind].
  apply make_fit; [|lia]. split; [apply Z.mul_pos_pos; assumption|lia].
Qed.
Lemma mul_int_tot l k : 0 < den l <= M -> 0 < k <= M -> Z.abs (num l) * k <= M -> exists s, mul_int M l k = Ok s.
Proof.
  intros Hl Hk B. unfold mul_int. rewrite getden_fit by lia. cbn [bind]. rewrite cgcd_fit by lia. cbn [bind]. replace (k <? 0) with false by lia. unfold cmul. rewrite ci_fit by nia. cbn [bind].
  assert (G : Z.gcd k (den l) <> 0) by (intros C; apply Z.gcd_eq_0 in C; lia). assert (G' : 0 < Z.gcd k (den l)) by (pose proof (Z.gcd_nonneg k (den l)); lia).
  rewrite cquot_fit by (try assumption; lia). cbn [bind]. pose proof (quot_abs_le k _ G) as Q1. pose proof (quot_abs_le (1 * den l) _ G) as Q2. pose proof (quot_exact (1 * den l) _ G ltac:(rewrite Z.mul_1_l; apply Z.gcd_divide_r)) as X.
  assert (Z.abs (1 * num l * (Z.quot k (Z.gcd k (den l)))) <= Z.abs (num l) * k) by (apply abs_mul_le; lia). rewrite ci_fit by lia. cbn [bind]. rewrite ci_fit by lia. cbn [bind]. rewrite cquot_fit by (try assumption; lia). cbn [bind].
  apply make_fit; [|lia]. split; [nia|lia].
Qed.
Lemma div_int_tot l k : 0 < den l -> 0 < k -> Z.abs (num l) <= M -> den l * k <= M -> exists s, div_int M l k = Ok s.
Proof.
  intros Hl Hk B1 B2. assert (den l <= M /\ k <= M) by nia. unfold div_int, assert_. replace (negb (k =? 0)) with true by lia. rewrite cgcd_fit by lia. cbn [bind]. replace (k <? 0) with false by lia. unfold cmul. rewrite ci_fit by lia. cbn [bind].
  assert (G : Z.gcd k (num l) <> 0) by (intros C; apply Z.gcd_eq_0 in C; lia). assert (G' : 0 < Z.gcd k (num l)) by (pose proof (Z.gcd_nonneg k (num l)); lia).
  rewrite cquot_fit by (try assumption; lia). cbn [bind]. rewrite getden_fit by lia. cbn [bind]. rewrite ci_fit by lia. cbn [bind]. rewrite cquot_fit by (try assumption; lia). cbn [bind].
  pose proof (quot_abs_le (1 * num l) _ G) as Q1. pose proof (quot_abs_le k _ G) as Q2. pose proof (quot_exact k _ G ltac:(apply Z.gcd_divide_l)) as X.
  assert (0 < Z.quot k (Z.gcd k (num l))) by nia. assert (Z.abs (1 * den l * (Z.quot k (Z.gcd k (num l)))) <= den l * k) by (apply abs_mul_le; lia). rewrite ci_fit by lia. cbn [bind].
  apply make_fit; [|lia]. split; [nia|lia].
Qed.
Lemma div_tot l r : 0 < den l -> canonical r -> 0 < num r <= M -> den r <= M -> Z.abs (num l) * den r <= M -> den l * num r <= M -> exists s, div M l r = Ok s.
Proof.
  intros Hl [Hr Cr] Hn Hd B1 B2. unfold div, assert_. replace (negb (num r =? 0)) with true by lia. replace (num r <? 0) with false by lia. rewrite getden_fit by lia. cbn [bind]. unfold cmul. rewrite !ci_fit by lia. cbn [bind]. rewrite !Z.mul_1_l.
  destruct (make_fit M (den r) (num r)) as [v Hv]; [lia|lia|]. rewrite Hv. cbn [bind]. apply make_ok in Hv as (V1 & V2 & V3). destruct (cross_le v (den r) (num r) (conj V2 V3) V1) as (L1 & L2 & L3 & _).
  apply mul_tot; first [assumption|nia].
Qed.
Lemma add_int_tot l k : 0 < den l <= M -> Z.abs (num l) + Z.abs k * den l <= M -> exists s, add_int M l k = Ok s.
Proof. intros Hl B. unfold add_int. rewrite getden_fit by lia. cbn [bind]. unfold cmul, cadd. rewrite ci_fit by nia. cbn [bind]. rewrite ci_fit by nia. cbn [bind]. apply make_fit; nia. Qed.
Lemma sub_int_tot l k : 0 < den l <= M -> Z.abs (k * den l) <= M -> Z.abs (num l - k * den l) <= M -> exists s, sub_int M l k = Ok s.
Proof. intros Hl B B'. unfold sub_int. rewrite getden_fit by lia. cbn [bind]. unfold cmul, csub. rewrite ci_fit by nia. cbn [bind]. rewrite ci_fit by nia. cbn [bind]. apply make_fit; nia. Qed.
Lemma floor_ok r z : floor M r = Ok z -> 0 <= num r -> 0 < den r /\ z = num r / den r.
Proof. unfold floor, getden. intros H Hn. inv_ok. apply cquot_ok in H as [_ ->]. split; [lia|]. apply Z.quot_div_nonneg; lia. Qed.
Lemma floor_tot r : 0 < den r -> Z.abs (num r) <= M -> exists z, floor M r = Ok z.
Proof. intros H B. unfold floor. rewrite getden_fit by exact H. cbn [bind]. rewrite cquot_fit by lia. eauto. Qed.
Lemma frac_ok r f : frac M r = Ok f -> 0 <= num r -> 0 < den r /\ cross f (num r mod den r) (den r).
Proof.
  unfold frac. intros H Hn. inv_ok. apply floor_ok in E as [Hd ->]; [|exact Hn]. split; [exact Hd|]. apply sub_int_ok in H as [C E]. split; [exact C|]. rewrite E. f_equal. pose proof (Z.div_mod (num r) (den r) ltac:(lia)). lia.
Qed.
Lemma frac_tot r : 0 < den r <= M -> 0 <= num r <= M -> exists f, frac M r = Ok f.
Proof.
  intros Hd Hn. unfold frac. destruct (floor_tot r) as [z E]; [lia|lia|]. rewrite E. cbn [bind]. apply floor_ok in E as [_ ->]; [|lia]. pose proof (Z.div_mod (num r) (den r) ltac:(lia)) as D. pose proof (Z.mod_pos_bound (num r) (den r) ltac:(lia)).
  assert (0 <= num r / den r) by (apply Z.div_pos; lia). apply sub_int_tot; nia.
Qed.

(** ** the pieces of the resampler *)
Lemma change_ok s t q r : ChangeSampleRate M s t q = Ok r -> 0 < s /\ cross r (num q * t) (den q * s).
Proof.
  unfold ChangeSampleRate. intros H. inv_ok. apply make_ok in E as (Hs & [C1 C2] & E). split; [exact Hs|]. apply mul_ok in H as [C E']. split; [exact C|]. apply (Z.mul_cancel_r _ _ (den a)); [lia|].
  transitivity (num r * (den q * den a) * s); [ring|]. rewrite E'. transitivity (num q * den r * (num a * s)); [ring|]. rewrite E. ring.
Qed.
Lemma change_tot s t q : 0 < s <= M -> 0 <= t <= M -> 0 < den q -> 0 <= num q <= M -> num q * t <= M -> den q * s <= M -> exists r, ChangeSampleRate M s t q = Ok r.
Proof.
  intros Hs Ht Hd Hn B1 B2. unfold ChangeSampleRate. destruct (make_fit M t s) as [v Hv]; [lia|lia|]. rewrite Hv. cbn [bind]. apply make_ok in Hv as (V1 & V2 & V3). destruct (cross_le v t s (conj V2 V3) V1) as (L1 & L2 & L3 & _). apply mul_tot; first [assumption|nia].
Qed.
(** the exact position n/d of the sample becomes the two neighbours of n P / d *)
Lemma index_ok q P s1 s2 : InputIndex2Sample M q P = Ok (s1, s2) -> 0 <= num q -> 0 < P ->
  0 < den q /\ let m := (num q * P) / den q in let f := (num q * P) mod den q in
  0 <= inputIndex s1 /\ 0 <= phaseIndex s1 < P /\ inputIndex s1 * P + phaseIndex s1 = m /\
  0 <= inputIndex s2 /\ 0 <= phaseIndex s2 < P /\ inputIndex s2 * P + phaseIndex s2 = m + 1 /\
  0 < weight s1 /\ 0 <= weight s2 /\ weight s2 * den q = f * (weight s1 + weight s2).
Proof.
  unfold InputIndex2Sample. intros H Hn HP. destruct (frac M q) as [f| |] eqn:Ef; [|discriminate|discriminate]. cbn [bind] in H. apply frac_ok in Ef as [Hd Cf]; [|exact Hn]. split; [exact Hd|].
  destruct (mul_int M f P) as [a| |] eqn:Ea; [|discriminate|discriminate]. cbn [bind] in H. replace (P =? 0) with false in H by lia.
  destruct (floor M a) as [p| |] eqn:Ep; [|discriminate|discriminate]. cbn [bind] in H. destruct (frac M a) as [t| |] eqn:Et; [|discriminate|discriminate]. cbn [bind] in H. unfold getden in H.
  destruct (0 <? den t) eqn:Edt; cbn [assert_ bind] in H; [|discriminate]. destruct (csub M (den t) (num t)) as [w| |] eqn:Ew; [|discriminate|discriminate]. apply csub_ok in Ew. cbn [bind] in H.
  destruct (floor M q) as [i| |] eqn:Ei; [|discriminate|discriminate]. cbn [bind] in H. injection H as <- <-. cbn [inputIndex phaseIndex weight]. apply floor_ok in Ei as [_ ->]; [|exact Hn].
  set (n := num q) in *. set (d := den q) in *. destruct (divmod n d Hd) as [Dn Bn]. assert (Hi : 0 <= n / d) by (apply Z.div_pos; lia).
  destruct (cross_le f _ _ Cf Hd) as (_ & F1 & F2 & F3). specialize (F2 ltac:(lia)). apply mul_int_ok in Ea as (_ & [Ca Xa]). destruct (cross_le a (num f * P) (den f) (conj Ca Xa) ltac:(lia)) as (_ & A1 & A2 & _). specialize (A2 ltac:(nia)).
  apply floor_ok in Ep as [_ ->]; [|exact A2]. apply frac_ok in Et as [_ Ct]; [|exact A2]. pose proof (Z.mod_pos_bound (num a) (den a) ltac:(lia)) as Ba. destruct (cross_le t _ _ Ct ltac:(lia)) as (_ & T1 & T2 & T3). specialize (T2 ltac:(lia)). specialize (T3 ltac:(lia)).
  assert (Xn : num a * d = (n mod d * P) * den a). { apply (Z.mul_cancel_r _ _ (den f)); [lia|]. transitivity (num a * den f * d); [ring|]. rewrite Xa. transitivity (num f * d * P * den a); [ring|]. destruct Cf as [_ Xf]. rewrite Xf. ring. }
  rewrite (div_cross (num a) (den a) (n mod d * P) d Xn ltac:(lia) Hd). set (p := n mod d * P / d).
  destruct (divmod (n mod d * P) d Hd) as [Dp Bp]. fold p in Dp. assert (Hp : 0 <= p < P) by nia.
  assert (Em : n * P / d = n / d * P + p). { symmetry. apply (Z.div_unique _ _ _ ((n mod d * P) mod d)); [lia|]. nia. }
  assert (Ef : (n * P) mod d = (n mod d * P) mod d). { symmetry. apply (Z.mod_unique _ _ (n / d * P + p)); [lia|]. nia. }
  rewrite Em, Ef. split; [exact Hi|]. split; [exact Hp|]. split; [reflexivity|].
  assert (E2 : (if (p + 1) mod P =? 0 then n / d + 1 else n / d) * P + (p + 1) mod P = n / d * P + p + 1 /\ 0 <= (p + 1) mod P < P).
  { assert (p + 1 < P \/ p + 1 = P) as [G|G] by lia.
    - rewrite Z.mod_small by lia. replace (p + 1 =? 0) with false by lia. lia.
    - rewrite G, Z.mod_same by lia. cbn [Z.eqb]. lia. }
  destruct E2 as [E2 B2]. split; [destruct (_ =? 0); lia|]. split; [exact B2|]. split; [exact E2|]. subst w. split; [lia|]. split; [exact T2|]. replace (den t - num t + num t) with (den t) by lia.
  destruct Ct as [_ Xt]. pose proof (mod_cross _ _ _ _ Xn ltac:(lia) Hd) as Xm. apply (Z.mul_cancel_r _ _ (den a)); [lia|]. transitivity (num t * den a * d); [ring|]. rewrite Xt. transitivity (num a mod den a * d * den t); [ring|]. rewrite Xm. ring.
Qed.
Lemma index_tot q P : 0 < den q -> 0 <= num q <= M -> 0 < P -> den q * P <= M -> exists r, InputIndex2Sample M q P = Ok r.
Proof.
  intros Hd Hn HP B. assert (den q <= M /\ P <= M) by nia. unfold InputIndex2Sample. destruct (frac_tot q) as [f Ef]; [lia|lia|]. rewrite Ef. cbn [bind]. apply frac_ok in Ef as [_ Cf]; [|lia]. pose proof (Z.mod_pos_bound (num q) (den q) Hd) as Bm.
  destruct (cross_le f _ _ Cf Hd) as (F0 & F1 & F2 & F3). specialize (F2 ltac:(lia)). specialize (F3 ltac:(lia)).
  destruct (mul_int_tot f P) as [a Ea]; [lia|lia|nia|]. rewrite Ea. cbn [bind]. apply mul_int_ok in Ea as (_ & Ca). destruct (cross_le a _ _ Ca ltac:(lia)) as (A0 & A1 & A2 & _). specialize (A2 ltac:(nia)).
  destruct (floor_tot a) as [p ->]; [lia|nia|]. cbn [bind]. replace (P =? 0) with false by lia. destruct (frac_tot a) as [t Et]; [lia|nia|]. rewrite Et. cbn [bind]. apply frac_ok in Et as [_ Ct]; [|lia]. pose proof (Z.mod_pos_bound (num a) (den a) ltac:(lia)) as Ba.
  destruct (cross_le t _ _ Ct ltac:(lia)) as (T0 & T1 & T2 & T3). specialize (T2 ltac:(lia)). specialize (T3 ltac:(lia)). rewrite getden_fit by lia. cbn [bind]. unfold csub. rewrite ci_fit by lia. cbn [bind]. destruct (floor_tot q) as [i ->]; [lia|lia|]. cbn [bind]. eauto.
Qed.
(** the exact value of ResampleLength *)
Lemma length_ok n l P r m q : ResampleLength M n l P r m = Ok q -> canonical r -> 0 <= num r -> 0 < P -> 0 < num r /\ cross q (ConvolutionLength (P * n) l m * den r) (num r * P).
Proof.
  unfold ResampleLength. intros H Cr Hr HP. inv_ok. apply cmul_ok in E. apply ci_ok in E0. subst a a0. unfold int_div in E1. apply div_ok in E1 as (N & C). cbn [num den of_int] in C. split; [lia|]. apply div_int_ok in H as (_ & [Cq Xq]). destruct C as [Ca Xa].
  replace (Z.sgn P) with 1 in Xq by lia. replace (Z.abs P) with P in Xq by lia. replace (Z.sgn (num r)) with 1 in Xa by lia. replace (Z.abs (num r)) with (num r) in Xa by lia. split; [exact Cq|].
  destruct Ca as [Ca _]. set (c := ConvolutionLength (P * n) l m) in *. apply (Z.mul_cancel_r _ _ (den a1)); [lia|]. transitivity (num q * (den a1 * P) * num r); [ring|]. rewrite Xq. transitivity (num a1 * (1 * num r) * den q); [ring|]. rewrite Xa. ring.
Qed.
Lemma suspend_ok next l P r fi st : FindResampleSuspensionPoint M next l P r = Ok (fi, st) -> canonical next -> 0 <= num next -> 0 < num r -> 1 <= l -> 0 < P ->
  0 <= fi /\ canonical st /\ 0 <= num st /\ num st * (den next * num r) = (num next * num r - fi * den r * den next) * den st /\
  (fi = 0 \/ (fi * P + l - 1) * (den r * den next) <= num next * num r * P) /\ 0 < den r.
Proof.
  unfold FindResampleSuspensionPoint. intros H Cn Hn Hr Hl HP. unfold getden in H. destruct (0 <? den r) eqn:Rd0; [|discriminate]. cbn [assert_ bind] in H. assert (Rd : 0 < den r) by lia. clear Rd0. destruct Cn as [Nd Ncop].
  destruct (ChangeSampleRate M (den r) (num r) next) as [ni| |] eqn:E1; [|discriminate|discriminate]. cbn [bind] in H. apply change_ok in E1 as [_ C1].
  destruct (make M (l - 1) P) as [co| |] eqn:E2; [|discriminate|discriminate]. cbn [bind] in H. apply make_ok in E2 as (_ & C2a & C2b). assert (C2 : cross co (l - 1) P) by (split; assumption). clear C2a C2b.
  destruct (sub M ni co) as [fs| |] eqn:E3; [|discriminate|discriminate]. cbn [bind] in H. apply sub_ok in E3. set (A := num next * num r * P - (l - 1) * (den next * den r)) in *. set (B := den next * den r * P) in *. assert (HB : 0 < B) by (unfold B; nia).
  assert (C3 : cross fs A B). { destruct C1 as [[Q1 _] X1]. destruct C2 as [[Q2 _] X2]. apply (cross_trans _ _ _ _ _ E3 ltac:(nia)). unfold A, B. transitivity (num ni * (den next * den r) * (P * den co) - num co * P * (den next * den r * den ni)); [ring|]. rewrite X1, X2. ring. }
  clear E3. destruct C3 as [C3c X3]. pose proof C3c as [F0 _].
  destruct (rle M fs (of_int 0)) as [np| |] eqn:E4; [|discriminate|discriminate]. cbn [bind] in H. apply rle_ok in E4 as (_ & _ & E4). cbn [of_int num den] in E4. destruct np.
  - injection H as <- <-. split; [lia|]. split; [now split|]. split; [exact Hn|]. split; [ring|]. split; [now left|exact Rd].
  - assert (F1 : 0 < num fs) by lia. assert (HA : 0 < A) by nia.
    destruct (floor M fs) as [w| |] eqn:E5; [|discriminate|discriminate]. cbn [bind] in H. apply floor_ok in E5 as [_ ->]; [|lia].
    destruct (frac M fs) as [fr| |] eqn:E6; [|discriminate|discriminate]. cbn [bind] in H. apply frac_ok in E6 as [_ C6]; [|lia].
    rewrite (div_cross (num fs) (den fs) A B X3 F0 HB) in H. pose proof (mod_cross (num fs) (den fs) A B X3 F0 HB) as X6.
    assert (C6' : cross fr (A mod B) B) by (apply (cross_trans _ _ _ _ _ C6 F0); exact X6). clear C6 X6.
    destruct (add M fr co) as [ip| |] eqn:E7; [|discriminate|discriminate]. cbn [bind] in H. apply add_ok in E7. cbn [assert_ bind] in H.
    destruct (ChangeSampleRate M (num r) (den r) ip) as [q| |] eqn:E8; [|discriminate|discriminate]. cbn [bind] in H. injection H as <- <-. apply change_ok in E8 as [_ C8].
    destruct (divmod A B HB) as [DA BA]. set (w := A / B) in *. assert (Hw : 0 <= w) by (apply Z.div_pos; lia). split; [exact Hw|].
    assert (C7 : cross ip (num next * num r - w * den r * den next) (den next * den r)).
    { destruct C6' as [[Q1 _] X1]. destruct C2 as [[Q2 _] X2]. apply (cross_trans _ _ _ _ _ E7 ltac:(nia)). apply (Z.mul_cancel_r _ _ (B * P)); [nia|].
      transitivity ((num fr * B * (P * den co) + num co * P * (B * den fr)) * (den next * den r)); [ring|]. rewrite X1, X2. transitivity (den fr * den co * (den next * den r) * (A mod B * P + (l - 1) * B)); [ring|].
      replace (A mod B) with (A - B * w) by lia. unfold A, B. ring. }
    assert (C8' : cross q ((num next * num r - w * den r * den next) * den r) (den next * den r * num r)).
    { destruct C7 as [[Q1 _] X1]. apply (cross_trans _ _ _ _ _ C8 ltac:(nia)). transitivity (num ip * (den next * den r) * den r * num r); [ring|]. rewrite X1. ring. }
    assert (Hlow : (w * P + l - 1) * (den r * den next) <= num next * num r * P). { unfold A in DA. unfold B in DA. assert (B * w <= A) by nia. unfold A, B in H. nia. }
    assert (Hpos : 0 <= num next * num r - w * den r * den next). { assert (0 <= (num next * num r - w * den r * den next) * P) by nia. nia. }
    destruct (cross_le q _ _ C8' ltac:(nia)) as (_ & _ & Z1 & _). specialize (Z1 ltac:(nia)). destruct C8' as [C8c X8]. split; [exact C8c|]. split; [exact Z1|]. split; [|split; [now right|exact Rd]].
    apply (Z.mul_cancel_r _ _ (den r)); [lia|]. transitivity (num q * (den next * den r * num r)); [ring|]. rewrite X8. ring.
Qed.
End Rat.

(** ** values *)
Lemma for1_part {S} (I : Z -> S -> Prop) lo hi body (s s' : S) : lo <= hi -> I lo s -> (forall i s s', lo <= i < hi -> I i s -> body i s = Ok s' -> I (i + 1) s') -> for_ lo hi 1 body s = Ok s' -> I hi s'.
Proof.
  intros H0 H1 H2. unfold for_, trips. rewrite Z.div_1_r. replace (hi - lo + 1 - 1) with (hi - lo) by lia. remember (Z.to_nat (hi - lo)) as n eqn:En. revert lo s H0 H1 H2 En. induction n as [|n IH]; intros lo s H0 H1 H2 En; cbn [loop].
  - intros E. injection E as <-. now replace hi with lo by lia.
  - destruct (body lo s) as [s1| |] eqn:Eb; [|discriminate|discriminate]. cbn [bind]. apply IH; [lia|apply (H2 lo s s1); [lia|exact H1|exact Eb]| |lia]. intros i t t' Hi. apply H2. lia.
Qed.
Lemma cross_cmp e m a b c d : cross e a b -> cross m c d -> 0 < b -> 0 < d -> (num e * den m <= num m * den e <-> a * d <= c * b).
Proof.
  intros [[E1 _] E2] [[M1 _] M2] Hb Hd. assert (X : (num m * den e - num e * den m) * (b * d) = (c * b - a * d) * (den m * den e)).
  { transitivity (num m * d * (den e * b) - num e * b * (den m * d)); [ring|]. rewrite E2, M2. ring. }
  set (u := num m * den e - num e * den m) in *. set (w := c * b - a * d) in *. assert (0 < b * d) by nia. assert (0 < den m * den e) by nia. assert (0 <= u <-> 0 <= w) by (split; intros; nia). lia.
Qed.
Section Field.
Context {F : CField}.
Add Field FFrs : (fth F).
Hypothesis char0 : forall n, 0 < n -> ofnat n <> (r0 : F).
Lemma ofnat_S n : 0 <= n -> ofnat (n + 1) = radd (ofnat n) (r1 : F).
Proof. intros H. unfold ofnat. replace (Z.to_nat (n + 1)) with (S (Z.to_nat n)) by lia. reflexivity. Qed.
Lemma ofnat_0 : ofnat 0 = (r0 : F). Proof. reflexivity. Qed.
Lemma ofnat_add a b : 0 <= a -> 0 <= b -> ofnat (a + b) = radd (ofnat a) (ofnat b : F).
Proof.
  intros Ha Hb. pattern b. apply natlike_ind; [rewrite Z.add_0_r, ofnat_0; ring| |exact Hb]. intros k Hk IH. unfold Z.succ. rewrite Z.add_assoc. rewrite !ofnat_S by lia. rewrite IH. ring.
Qed.
Lemma ofnat_mul a b : 0 <= a -> 0 <= b -> ofnat (a * b) = rmul (ofnat a) (ofnat b : F).
Proof.
  intros Ha Hb. pattern b. apply natlike_ind; [rewrite Z.mul_0_r, ofnat_0; ring| |exact Hb]. intros k Hk IH. unfold Z.succ. rewrite Z.mul_add_distr_l, Z.mul_1_r. rewrite ofnat_add, ofnat_S by nia. rewrite IH. ring.
Qed.
Lemma ratio_eq a b c d : 0 <= a -> 0 < b -> 0 <= c -> 0 < d -> a * d = c * b -> fdiv (ofnat a) (ofnat b : F) = fdiv (ofnat c) (ofnat d).
Proof.
  intros Ha Hb Hc Hd E. pose proof (char0 b Hb) as Nb. pose proof (char0 d Hd) as Nd. assert (X : rmul (ofnat a) (ofnat d : F) = rmul (ofnat c) (ofnat b)) by (rewrite <- !ofnat_mul by lia; now rewrite E).
  transitivity (fdiv (rmul (ofnat a) (ofnat d : F)) (rmul (ofnat b) (ofnat d))); [field; tauto|]. rewrite X. field. tauto.
Qed.
(** linear interpolation between the integer neighbours of n / d *)
Definition blend (I : Z -> F) (n d : Z) : F :=
  let t := fdiv (ofnat (n mod d)) (ofnat d) in radd (rmul (rsub r1 t) (I (n / d))) (rmul t (I (n / d + 1))).
Lemma blend_cross I a b c d : 0 < b -> 0 < d -> a * d = c * b -> blend I a b = blend I c d.
Proof.
  intros Hb Hd E. unfold blend. rewrite (div_cross a b c d E Hb Hd). pose proof (Z.mod_pos_bound a b Hb). pose proof (Z.mod_pos_bound c d Hd). rewrite (ratio_eq (a mod b) b (c mod d) d); [reflexivity|lia|lia|lia|lia|]. now apply mod_cross.
Qed.
Lemma blend_ext I J a b : I (a / b) = J (a / b) -> I (a / b + 1) = J (a / b + 1) -> blend I a b = blend J a b.
Proof. intros E1 E2. unfold blend. now rewrite E1, E2. Qed.
Lemma blend_shift I k a b : 0 < b -> blend I (a - k * b) b = blend (fun m => I (m - k)) a b.
Proof.
  intros Hb. unfold blend. replace (a - k * b) with (a + (- k) * b) by ring. rewrite Z.div_add, Z_mod_plus_full by lia. replace (a / b + 1 - k) with (a / b + - k + 1) by lia. now replace (a / b - k) with (a / b + - k) by lia.
Qed.
Lemma weights_ok I w1 w2 n d : 0 < w1 -> 0 <= w2 -> 0 < d -> w2 * d = (n mod d) * (w1 + w2) ->
  fdiv (radd (rmul (I (n / d)) (ofnat w1)) (rmul (I (n / d + 1)) (ofnat w2))) (radd (ofnat w1) (ofnat w2 : F)) = blend I n d.
Proof.
  intros H1 H2 Hd E. unfold blend. pose proof (Z.mod_pos_bound n d Hd). rewrite <- (ratio_eq w2 (w1 + w2) (n mod d) d) by (lia || exact E). pose proof (char0 (w1 + w2) ltac:(lia)) as N. rewrite ofnat_add in * by lia. field. exact N.
Qed.

Variables (W : Z) (vec : bool).
Hypothesis HW : 1 <= W.
Lemma sample_ok (x h : list F) v P p i ph : decomposed v h P -> 0 < P -> 0 <= p < P -> 0 <= i -> i * P + p <= lenZ x * P + lenZ h - 1 -> view_at v p = Ok ph ->
  DotProductSample W vec x ph i = Ok (interp x h P (i * P + p)).
Proof.
  clear char0. intros D HP Hp Hi Hm E. destruct (phase_ok v h P p D HP Hp) as (ph' & E' & Lp & Np). rewrite E in E'. injection E' as <-. pose proof (lenZ_nonneg h) as Lh. pose proof (lenZ_nonneg x) as Lx.
  pose proof (psize_nonneg (lenZ h) P p Lh HP) as S0. unfold DotProductSample, gDotProductSample. rewrite Lp. set (m := i * P + p) in *.
  assert (Em : m / P = i) by (symmetry; apply (Z.div_unique m P i p); [lia|unfold m; ring]). assert (Ep : m mod P = p) by (symmetry; apply (Z.mod_unique m P i p); [lia|unfold m; ring]).
  assert (Hc : 0 <= Z.min (lenZ x) (i + 1) - Z.max 0 (i - psize (lenZ h) P p + 1)).
  { destruct (Z_lt_ge_dec i (lenZ x)); [lia|]. pose proof (psize_spec (lenZ h) P p (i - lenZ x) Lh HP Hp ltac:(lia)) as S1. assert (i - lenZ x < psize (lenZ h) P p); [apply S1; unfold m in Hm; nia|lia]. }
  set (s := psize (lenZ h) P p) in *. set (a := Z.max 0 (i - s + 1)) in *. set (b := Z.min (lenZ x) (i + 1)) in *. unfold assert_. replace (0 <=? b - a) with true by lia.
  destruct (slice_at0 x a (b - a)) as (xv & -> & Lxv & Nxv); [lia|lia|lia|]. cbn [bind]. destruct (slice_at0 ph (a - (i - s + 1)) (b - a)) as (pv & -> & Lpv & Npv); [lia|lia|lia|]. cbn [bind].
  rewrite dot_ok by (exact HW || lia). f_equal. rewrite (interp_window x h P m a b HP ltac:(unfold m; nia)); [|intros j J1 J2; rewrite Em, Ep in J2; fold s in J2; lia|lia|lia].
  rewrite Lxv. replace (sumZ a b (fun n => rmul (at0 x n) (rmul (at0 h (m - n * P)) (ofnat P)))) with (sumZ (0 + a) (b - a + a) (fun n => rmul (at0 x n) (rmul (at0 h (m - n * P)) (ofnat P)))) by (f_equal; lia).
  rewrite sumZ_shift. apply sumZ_ext. intros j Hj. rewrite Nxv by lia. rewrite Npv by lia. rewrite (Z.add_comm j a). f_equal. replace (a - (i - s + 1) + j) with (s - 1 - (i - a - j)) by lia. rewrite Np by lia. do 2 f_equal. unfold m. ring.
Qed.

Variable M : Z.
(** one iteration of the resampling loop, partial correctness *)
Definition at_pos (x h : list F) (P : Z) (r s : rat) (i : Z) : F := blend (interp x h P) ((num s + i * den s) * num r * P) (den s * den r).
Lemma resample_part (out x h : list F) v P r s o sp : decomposed v h P -> canonical r -> canonical s -> ResampleInto M W vec out x v r s = Ok (o, sp) ->
  0 < P /\ 0 < num r /\ 0 <= num s /\ (num s + lenZ out * den s) * (num r * P) <= ConvolutionLength (P * lenZ x) (lenZ h) CONV_FULL * den r * den s /\
  o = tab (lenZ out) (at_pos x h P r s) /\
  exists e, cross e (num s + lenZ out * den s) (den s) /\ FindResampleSuspensionPoint M e (lenZ h) P r = Ok sp.
Proof.
  intros D Cr Cs H. pose proof D as (D1 & D2 & D3). unfold ResampleInto, gResampleInto, num_phases, size_original in H. change (gDotProductSample (DotProduct (K := F) W vec)) with (DotProductSample (F := F) W vec) in H. rewrite D1, D2 in H.
  destruct (rge M r (of_int 0)) as [g1| |] eqn:E1; [|discriminate|discriminate]. cbn [bind] in H. destruct g1; [|discriminate]. cbn [assert_] in H. destruct (rge M s (of_int 0)) as [g2| |] eqn:E2; [|discriminate|discriminate]. cbn [bind] in H. destruct g2; [|discriminate]. cbn [assert_] in H.
  destruct (0 <? P) eqn:EP; [|discriminate]. cbn [assert_] in H. assert (HP : 0 < P) by lia. apply rge_ok in E1 as (Rd & _ & E1). apply rge_ok in E2 as (Sd & _ & E2). cbn [of_int num den] in E1, E2. assert (Hr0 : 0 <= num r) by lia. assert (Hs0 : 0 <= num s) by lia.
  destruct (ResampleLength M (lenZ x) (lenZ h) P r CONV_FULL) as [mx| |] eqn:Em; [|discriminate|discriminate]. cbn [bind] in H. apply length_ok in Em as [Hr Cm]; try assumption. set (full := ConvolutionLength (P * lenZ x) (lenZ h) CONV_FULL) in *.
  destruct (add_int M s (lenZ out)) as [e| |] eqn:Ee; [|discriminate|discriminate]. cbn [bind] in H. apply add_int_ok in Ee. destruct (rle M e mx) as [g3| |] eqn:E3; [|discriminate|discriminate]. cbn [bind] in H. destruct g3; [|discriminate]. cbn [assert_] in H. apply rle_ok in E3 as (_ & _ & E3).
  assert (B : (num s + lenZ out * den s) * (num r * P) <= full * den r * den s) by (apply (cross_cmp e mx _ _ _ _ Ee Cm Sd ltac:(nia)); lia).
  split; [exact HP|]. split; [exact Hr|]. split; [exact Hs0|]. split; [exact B|].
  match type of H with bind (for_ 0 (lenZ out) 1 ?body _) _ = _ => destruct (for_ 0 (lenZ out) 1 body (out, s)) as [[o' ix]| |] eqn:Ef; [|discriminate|discriminate]; cbn [bind] in H end.
  destruct (FindResampleSuspensionPoint M ix (lenZ h) P r) as [sp'| |] eqn:Esp; [|discriminate|discriminate]. cbn [bind] in H. injection H as -> ->. pose proof (lenZ_nonneg out) as Lo.
  apply (for1_part (fun i (st : list F * rat) => lenZ (fst st) = lenZ out /\ cross (snd st) (num s + i * den s) (den s) /\ forall j, 0 <= j < i -> at0 (fst st) j = at_pos x h P r s j)) in Ef; [|exact Lo| |]; cbn [fst snd] in *.
  2: {split; [reflexivity|]. split; [split; [exact Cs|ring]|]. intros; lia. }
  2: { clear Esp. intros i [ou q] [ou' q'] Hi (I1 & I2 & I3) Eb. assert (Hni : 0 <= num s + i * den s) by nia. assert (Hdd : 0 < den s * den r) by nia. cbn [fst snd] in *. rewrite (getden_fit r Rd) in Eb. cbn [bind] in Eb.
    destruct (cross_le q _ _ I2 Sd) as (_ & Q1 & Q2 & _). specialize (Q2 ltac:(nia)). destruct (ChangeSampleRate M (den r) (num r) q) as [u| |] eqn:Eu; [|discriminate|discriminate]. cbn [bind] in Eb. apply change_ok in Eu as [_ Cu].
    assert (Cu' : cross u ((num s + i * den s) * num r) (den s * den r)). { destruct I2 as [_ X]. apply (cross_trans _ _ _ _ _ Cu ltac:(nia)). transitivity (num q * den s * num r * den r); [ring|]. rewrite X. ring. }
    destruct (cross_le u _ _ Cu' ltac:(nia)) as (_ & U1 & U2 & _). specialize (U2 ltac:(nia)).
    destruct (InputIndex2Sample M u P) as [[s1 s2]| |] eqn:Ei; [|discriminate|discriminate]. cbn [bind] in Eb. apply index_ok in Ei as (_ & K1 & K2 & K3 & K4 & K5 & K6 & K7 & K8 & K9); [|exact U2|exact HP].
    assert (X : num u * P * (den s * den r) = (num s + i * den s) * num r * P * den u). { destruct Cu' as [_ X]. transitivity (num u * (den s * den r) * P); [ring|]. rewrite X. ring. }
    assert (Hm : num u * P / den u + 1 <= lenZ x * P + lenZ h - 1).
    { rewrite (div_cross _ _ _ _ X ltac:(lia) ltac:(lia)). assert (Hlt : (num s + i * den s) * num r * P < full * (den s * den r)).
      { apply Z.lt_le_trans with ((num s + lenZ out * den s) * (num r * P)); [|lia]. rewrite <- Z.mul_assoc. apply Z.mul_lt_mono_pos_r; [apply Z.mul_pos_pos; lia|apply Z.add_lt_mono_l, Z.mul_lt_mono_pos_r; lia]. }
      assert (Hq : (num s + i * den s) * num r * P / (den s * den r) < full) by (apply Z.div_lt_upper_bound; [lia|lia]).
      assert (0 <= (num s + i * den s) * num r * P / (den s * den r)) by (apply Z.div_pos; [repeat apply Z.mul_nonneg_nonneg; lia|lia]).
      unfold full, ConvolutionLength in Hq. rewrite (Z.mul_comm (lenZ x) P). destruct ((P * lenZ x =? 0) || (lenZ h =? 0)); lia. }
    destruct (view_at v (phaseIndex s1)) as [p1| |] eqn:Ev1; [|discriminate|discriminate]. cbn [bind] in Eb. rewrite (sample_ok x h v P _ _ p1 D HP K2 K1 ltac:(lia) Ev1) in Eb. cbn [bind] in Eb.
    destruct (view_at v (phaseIndex s2)) as [p2| |] eqn:Ev2; [|discriminate|discriminate]. cbn [bind] in Eb. rewrite (sample_ok x h v P _ _ p2 D HP K5 K4 ltac:(lia) Ev2) in Eb. cbn [bind] in Eb. rewrite K3, K6 in Eb. rewrite (weights_ok (interp x h P) _ _ (num u * P) (den u) K7 K8 ltac:(lia) K9) in Eb.
    rewrite wr_ok in Eb by lia. cbn [bind] in Eb. destruct (add_int M q 1) as [q1| |] eqn:Eq1; [|discriminate|discriminate]. cbn [bind] in Eb. injection Eb as <- <-. apply add_int_ok in Eq1.
    split; [rewrite lenZ_updZ; lia|]. split.
    + destruct I2 as [_ Xq]. apply (cross_trans _ _ _ _ _ Eq1 ltac:(lia)). transitivity (num q * den s + den q * den s); [ring|]. rewrite Xq. ring.
    + intros j Hj. rewrite at0_updZ by lia. destruct (j =? i) eqn:Ej; [|apply I3; lia]. replace j with i by lia. unfold at_pos. apply blend_cross; [lia|nia|exact X]. }
  destruct Ef as (G1 & G2 & G3).
  split; [|exists ix; split; [exact G2|exact Esp]]. apply at0_ext; [rewrite lenZ_tab; lia|]. intros j Hj. rewrite at0_tab by lia. apply G3. lia.
Qed.

(** ** where to resume *)
(** dropping the input that is no longer needed *)
Lemma at_pos_drop (x h : list F) P r nx st fi k : 0 < P -> 0 < num r -> 0 < den r -> 0 < den nx -> 0 < den st -> 0 <= num nx -> 0 <= k -> 0 <= fi <= lenZ x ->
  num st * (den nx * num r) = (num nx * num r - fi * den r * den nx) * den st -> (fi = 0 \/ (fi * P + lenZ h - 1) * (den r * den nx) <= num nx * num r * P) ->
  at_pos (skipn (Z.to_nat fi) x) h P r st k = at_pos x h P r nx k.
Proof.
  intros HP Hr Rd Nd Sd Hn Hk Hfi E Hlow. unfold at_pos. set (n := (num nx + k * den nx) * num r * P). set (d := den nx * den r). assert (Hd : 0 < d) by (unfold d; nia).
  rewrite (blend_cross _ ((num st + k * den st) * num r * P) (den st * den r) (n - (P * fi) * d) d); [|nia|exact Hd|].
  - rewrite blend_shift by exact Hd. assert (Hm : fi = 0 \/ fi * P + lenZ h - 1 <= n / d).
    { destruct Hlow as [L|L]; [now left|right]. apply Z.div_le_lower_bound; [exact Hd|]. unfold n, d. assert (0 <= k * den nx * num r * P) by (repeat apply Z.mul_nonneg_nonneg; lia). nia. }
    apply blend_ext; apply interp_drop; try assumption; (destruct Hm as [L|L]; [now left|right; lia]).
  - unfold n, d. transitivity (num st * (den nx * num r) * P * den r + k * den st * num r * P * (den nx * den r)); [ring|]. rewrite E. ring.
Qed.

End Field.
