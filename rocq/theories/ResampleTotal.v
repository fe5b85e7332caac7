(** Proofs about the rational resampler: absence of overflow. *)
From Coq Require Import ZArith List Bool Lia QArith Qround.
From Verif Require Import Base BaseFacts IntervalModel RationalModel RationalProofs KernelModel KernelProofs ConvModel ConvProofs FirModel PolyphaseModel PolyphaseProofs ResampleModel ResampleProofs.
From Coq Require Import ZifyBool ZifyNat.
Open Scope Z_scope.

Ltac pos := first [assumption | (first [apply Z.mul_pos_pos | apply Z.mul_nonneg_nonneg | apply Z.add_nonneg_nonneg]); pos | lia].
Section Tot.
Context {F : CField}.
Variables (W : Z) (vec : bool).
Hypothesis HW : 1 <= W.
Variable M : Z.
(** ** no overflow for moderate sizes *)
Lemma grow a b : 0 <= a -> 0 < b -> a <= a * b /\ a <= b * a.
Proof. intros. nia. Qed.
Lemma bound a b a' b' m : 0 <= a <= a' -> 0 <= b <= b' -> a' * b' <= m -> a * b <= m.
Proof. intros H1 H2 H3. apply Z.le_trans with (a' * b'); [apply Z.mul_le_mono_nonneg; lia|exact H3]. Qed.
Lemma suspend_tot e l P r : canonical e -> canonical r -> 0 <= num e -> 0 < num r -> 1 <= l -> 0 < P -> num e * num r * P + l * (den e * den r) <= M -> den e * den r * (P * P) * num r <= M ->
  (P + l) * P * (den e * den r) * den r <= M -> exists sp, FindResampleSuspensionPoint M e l P r = Ok sp.
Proof.
  intros [Ed _] [Rd Rcop] En Rn Hl HP B1 B2 B3. unfold FindResampleSuspensionPoint. rewrite getden_fit by exact Rd. cbn [bind]. set (D := den e * den r) in *. assert (HD : 0 < D) by (unfold D; nia). assert (den e <= D /\ den r <= D) as [D1 D2] by (unfold D; nia).
  destruct (grow P P) as [PP _]; [lia|lia|]. assert (B4 : D * (P * P) <= M) by (destruct (grow (D * (P * P)) (num r)); nia). assert (B5 : D * P <= M) by (destruct (grow (D * P) P); nia). assert (B6 : (P + l) * P * D <= M) by (destruct (grow ((P + l) * P * D) (den r)); nia).
  destruct (grow (P + l) P) as [B7 _]; [lia|lia|]. assert (B8 : P + l <= M) by (destruct (grow ((P + l) * P) D); [nia|lia|lia]). assert (B9 : num e * num r <= M) by (destruct (grow (num e * num r) P); nia). destruct (grow (num e) (num r)) as [B10 _]; [lia|lia|].
  assert (B11 : num r <= M) by (destruct (grow (num r) (D * (P * P))); [lia|nia|lia]). assert (B12 : den e <= M /\ den r <= M /\ D <= M) by (destruct (grow D P); lia).
  destruct (change_tot M (den r) (num r) e) as [ni E1]; [lia|lia|lia|lia|lia|fold D; lia|]. rewrite E1. cbn [bind]. apply change_ok in E1 as [_ C1]. fold D in C1. destruct (cross_le ni _ _ C1 HD) as (N0 & N1 & N2 & _). specialize (N2 ltac:(pos)).
  destruct (make_fit M (l - 1) P) as [co E2]; [lia|lia|]. rewrite E2. cbn [bind]. apply make_ok in E2 as (_ & C2a & C2b). destruct (cross_le co (l - 1) P (conj C2a C2b) HP) as (O0 & O1 & O2 & _). specialize (O2 ltac:(lia)).
  destruct (add_sub_tot M ni co) as [_ [fs E3]]; [lia|lia| |apply (bound _ _ D P); lia|].
  { assert (Z.abs (num ni) * den co <= num e * num r * P) by (apply Z.mul_le_mono_nonneg; lia). assert (Z.abs (num co) * den ni <= l * D) by (apply Z.mul_le_mono_nonneg; lia). lia. }
  rewrite E3. cbn [bind]. apply sub_ok in E3. destruct (cross_le fs _ _ E3 ltac:(pos)) as (S0 & S1 & _ & _).
  assert (S2 : den fs <= D * P) by (apply Z.le_trans with (den ni * den co); [lia|apply Z.mul_le_mono_nonneg; lia]).
  assert (S3 : Z.abs (num fs) <= M). { assert (num ni * den co <= num e * num r * P) by (apply Z.mul_le_mono_nonneg; lia). assert (num co * den ni <= l * D) by (apply Z.mul_le_mono_nonneg; lia). assert (0 <= num ni * den co) by pos. assert (0 <= num co * den ni) by pos. lia. }
  destruct (rle_tot M fs (of_int 0)) as (np & E4 & _); [lia|cbn; lia|cbn [of_int num den]; lia|cbn [of_int num den]; lia|cbn [of_int num den]; lia|]. rewrite E4. cbn [bind]. destruct np; [eauto|]. apply rle_ok in E4 as (_ & _ & E4). cbn [of_int num den] in E4. assert (S4 : 0 < num fs) by lia.
  destruct (floor_tot M fs) as [w ->]; [lia|lia|]. cbn [bind]. destruct (frac_tot M fs) as [fr E5]; [lia|lia|]. rewrite E5. cbn [bind]. apply frac_ok in E5 as [_ C5]; [|lia]. pose proof (Z.mod_pos_bound (num fs) (den fs) ltac:(lia)) as Bm.
  destruct (cross_le fr _ _ C5 ltac:(lia)) as (R0 & R1 & R2 & R3). specialize (R2 ltac:(lia)). specialize (R3 ltac:(lia)).
  assert (T1 : num fr * den co <= D * P * P) by (apply Z.mul_le_mono_nonneg; lia). assert (T2 : num co * den fr <= l * (D * P)) by (apply Z.mul_le_mono_nonneg; lia). assert (T3 : den fr * den co <= D * P * P) by (apply Z.mul_le_mono_nonneg; lia).
  assert (T4 : D * P * P + l * (D * P) = (P + l) * P * D) by ring.
  destruct (add_sub_tot M fr co) as [[ip E6] _]; [lia|lia|rewrite (Z.abs_eq (num fr)), (Z.abs_eq (num co)) by lia; lia|lia|]. rewrite E6. cbn [bind]. apply add_ok in E6. destruct (cross_le ip _ _ E6 ltac:(pos)) as (I0 & I1 & I2 & _). specialize (I2 ltac:(pos)).
  assert (I3 : num ip <= (P + l) * P * D). { assert (0 <= num fr * den co) by pos. assert (0 <= num co * den fr) by pos. lia. }
  assert (I4 : num ip * den r <= (P + l) * P * D * den r) by (apply Z.mul_le_mono_nonneg_r; lia). assert (I5 : den ip * num r <= D * (P * P) * num r) by (apply Z.mul_le_mono_nonneg_r; lia).
  destruct (change_tot M (num r) (den r) ip) as [q ->]; [lia|lia|lia|destruct (grow (num ip) (den r)); lia|lia|lia|]. cbn [bind]. eauto.
Qed.
Lemma resample_tot (out x h : list F) v P r s : decomposed v h P -> canonical r -> canonical s -> 0 < lenZ x -> 0 < lenZ h -> 0 < P -> 0 < num r -> 0 <= num s ->
  (num s + lenZ out * den s) * (num r * P) <= (lenZ x * P + lenZ h - 1) * den r * den s ->
  (lenZ x * P + 2 * lenZ h) * den r * den s <= M -> den s * den r * (P * P) * num r <= M -> (P + lenZ h) * P * (den s * den r) * den r <= M ->
  exists o sp, ResampleInto M W vec out x v r s = Ok (o, sp).
Proof.
  intros D [Rd Rc] [Sd Sc] Hx Hh HP Rn Sn Hmax B1 B2 B3. pose proof D as (D1 & D2 & D3). unfold ResampleInto, gResampleInto, num_phases, size_original. change (gDotProductSample (DotProduct (K := F) W vec)) with (DotProductSample (F := F) W vec). rewrite D1, D2. pose proof (lenZ_nonneg out) as Lo.
  set (L := lenZ out) in *. set (N := lenZ x) in *. set (l := lenZ h) in *. assert (HD : 0 < den s * den r) by nia. assert (PP : P <= P * P) by nia.
  assert (Hfull : 0 <= N * P + l - 1) by (assert (0 <= N * P) by pos; lia). assert (HT : 0 <= num s + L * den s) by (assert (0 <= L * den s) by pos; lia). assert (HrP : 0 < num r * P) by pos.
  assert (K1 : (N * P + l - 1) * den r * den s + (l + 1) * (den r * den s) <= M) by (replace ((N * P + l - 1) * den r * den s + (l + 1) * (den r * den s)) with ((N * P + 2 * l) * den r * den s) by ring; exact B1).
  assert (K0 : 0 <= (l + 1) * (den r * den s)) by pos. assert (K2 : (num s + L * den s) * (num r * P) <= M) by lia. assert (K4 : num s + L * den s <= M) by (destruct (grow (num s + L * den s) (num r * P)); lia).
  assert (K5 : den s * den r * (P * P) <= M) by (destruct (grow (den s * den r * (P * P)) (num r)); [pos|lia|lia]). assert (K6 : P * P * num r <= den s * den r * (P * P) * num r) by (destruct (grow (P * P * num r) (den s * den r)) as [_ K]; [pos|lia|]; replace (den s * den r * (P * P) * num r) with (den s * den r * (P * P * num r)) by ring; exact K).
  assert (K7 : P * num r <= P * P * num r) by (apply Z.mul_le_mono_nonneg_r; lia). destruct (grow (num r) P) as [_ K8]; [lia|lia|]. destruct (grow P (num r)) as [K9 _]; [lia|lia|]. assert (K10 : den s * den r <= M) by (destruct (grow (den s * den r) (P * P)); [lia|pos|lia]). destruct (grow (den s) (den r)) as [K11 _]; [lia|lia|]. destruct (grow (den r) (den s)) as [_ K12]; [lia|lia|].
  destruct (rle_tot M r (of_int 0)) as (_ & _ & g1 & E1); [lia|cbn; lia|cbn [of_int num den]; lia|cbn [of_int num den]; lia|cbn [of_int num den]; lia|]. rewrite E1. cbn [bind]. apply rge_ok in E1 as (_ & _ & E1). cbn [of_int num den] in E1. replace g1 with true by lia. cbn [assert_].
  destruct (rle_tot M s (of_int 0)) as (_ & _ & g2 & E2); [lia|cbn; lia|cbn [of_int num den]; lia|cbn [of_int num den]; lia|cbn [of_int num den]; lia|]. rewrite E2. cbn [bind]. apply rge_ok in E2 as (_ & _ & E2). cbn [of_int num den] in E2. replace g2 with true by lia. cbn [assert_].
  replace (0 <? P) with true by lia. cbn [assert_].
  assert (EF : ConvolutionLength (P * N) l CONV_FULL = N * P + l - 1) by (unfold ConvolutionLength; replace ((P * N =? 0) || (l =? 0)) with false by (assert (0 < P * N) by pos; lia); lia).
  destruct (grow ((N * P + l - 1) * den r) (den s)) as [K13 _]; [apply Z.mul_nonneg_nonneg; lia|lia|]. destruct (grow (N * P + l - 1) (den r)) as [K14 _]; [lia|lia|]. assert (K15 : 0 <= N * P) by pos.
  assert (EL : exists q, ResampleLength M N l P r CONV_FULL = Ok q).
  { unfold ResampleLength. unfold cmul. rewrite ci_fit by lia. cbn [bind]. rewrite EF. rewrite ci_fit by lia. cbn [bind]. unfold int_div. destruct (div_tot M (of_int (N * P + l - 1)) r) as [q Eq]; [cbn; lia|now split|lia|lia|cbn [of_int num den]; lia|cbn [of_int num den]; lia|]. rewrite Eq. cbn [bind].
    apply div_ok in Eq as (_ & Cq). cbn [of_int num den] in Cq. destruct (cross_le q _ _ Cq ltac:(lia)) as (Q0 & Q1 & _ & _). rewrite (Z.sgn_pos (num r) Rn), Z.mul_1_l in Q0. rewrite (Z.abs_eq (num r)), Z.mul_1_l in Q1 by lia. rewrite (Z.abs_eq ((N * P + l - 1) * den r)) in Q0 by (apply Z.mul_nonneg_nonneg; lia). apply div_int_tot; [lia|lia|lia|apply (bound _ _ (num r) P); lia]. }
  destruct EL as [mx Em]. rewrite Em. cbn [bind]. apply length_ok in Em as [_ Cm]; [|now split|lia|exact HP]. rewrite EF in Cm. destruct (cross_pos mx _ _ Cm ltac:(lia) ltac:(apply Z.mul_nonneg_nonneg; lia)) as (X0 & X1 & _).
  destruct (add_int_tot M s L) as [e Ee]; [lia|rewrite (Z.abs_eq (num s)), (Z.abs_eq L) by lia; exact K4|]. rewrite Ee. cbn [bind]. apply add_int_ok in Ee. destruct (cross_pos e _ _ Ee Sd HT) as (Y0 & Y1 & _).
  destruct (rle_tot M e mx) as (g3 & E3 & _); [lia|lia| | | |].
  { rewrite Z.abs_eq by lia. apply Z.le_trans with ((num s + L * den s) * (num r * P)); [apply Z.mul_le_mono_nonneg; lia|exact K2]. }
  { rewrite Z.abs_eq by lia. apply Z.le_trans with ((N * P + l - 1) * den r * den s); [apply Z.mul_le_mono_nonneg; lia|lia]. }
  { apply Z.le_trans with (den s * (num r * P)); [apply Z.mul_le_mono_nonneg; lia|]. apply Z.le_trans with (den s * den r * (num r * P)); [apply Z.mul_le_mono_nonneg_r; lia|]. apply Z.le_trans with (den s * den r * (P * P * num r)); [apply Z.mul_le_mono_nonneg_l; lia|]. replace (den s * den r * (P * P * num r)) with (den s * den r * (P * P) * num r) by ring. exact B2. }
  rewrite E3. cbn [bind]. apply rle_ok in E3 as (_ & _ & E3). assert (Hg : num e * den mx <= num mx * den e) by (apply (cross_cmp e mx _ _ _ _ Ee Cm Sd ltac:(lia)); exact Hmax). replace g3 with true by lia. cbn [assert_]. clear E3 Hg g3 E1 E2 g1 g2.
  assert (G : okP (for_ 0 L 1 (fun i (st : list F * rat) => let '(out, outputIndex) := st in
       do d <- getden r; do index <- ChangeSampleRate M d (num r) outputIndex; do (firstSampleLoc, secondSampleLoc) <- InputIndex2Sample M index P;
       do phase1 <- view_at v (phaseIndex firstSampleLoc); do firstSampleVal <- DotProductSample W vec x phase1 (inputIndex firstSampleLoc);
       do phase2 <- view_at v (phaseIndex secondSampleLoc); do secondSampleVal <- DotProductSample W vec x phase2 (inputIndex secondSampleLoc);
       do out <- wr out i (fdiv (radd (rmul firstSampleVal (ofnat (weight firstSampleLoc))) (rmul secondSampleVal (ofnat (weight secondSampleLoc)))) (radd (ofnat (weight firstSampleLoc)) (ofnat (weight secondSampleLoc))));
       do outputIndex <- add_int M outputIndex 1; Ok (out, outputIndex)) (out, s)) (fun st => lenZ (fst st) = L /\ cross (snd st) (num s + L * den s) (den s))).
  { assert (KR : num r <= M) by lia. clear B1 B2 B3 K0 K1 K6 K7 K13 K14 K15 EF Cm X0 X1 Ee Y0 Y1. apply (for1_inv (fun i (st : list F * rat) => lenZ (fst st) = L /\ cross (snd st) (num s + i * den s) (den s))); [|exact Lo|].
    - cbn [fst snd]. split; [reflexivity|]. split; [now split|ring].
    - intros i [ou q] Hi [I1 I2]. cbn [fst snd] in *. rewrite getden_fit by exact Rd. cbn [bind]. assert (Hni : 0 <= i * den s) by pos. destruct (cross_pos q _ _ I2 Sd (Z.add_nonneg_nonneg _ _ Sn Hni)) as (Q0 & Q1 & _).
      assert (Hi0 : (i + 1) * den s <= L * den s) by (apply Z.mul_le_mono_nonneg_r; lia). assert (Hi1 : (num s + i * den s) + den s <= num s + L * den s) by lia. assert (Hi4 : num s + i * den s < num s + L * den s) by lia. assert (Hi2 : (num s + i * den s) * (num r * P) <= (num s + L * den s) * (num r * P)) by (apply Z.mul_le_mono_nonneg_r; lia).
      assert (Hi3 : (num s + i * den s) * num r <= M) by (destruct (grow ((num s + i * den s) * num r) P); [pos|lia|lia]).
      destruct (change_tot M (den r) (num r) q) as [u Eu]; [lia|lia|lia|lia|apply Z.le_trans with ((num s + i * den s) * num r); [apply Z.mul_le_mono_nonneg_r; lia|exact Hi3]|apply Z.le_trans with (den s * den r); [apply Z.mul_le_mono_nonneg_r; lia|exact K10]|].
      rewrite Eu. cbn [bind]. apply change_ok in Eu as [_ Cu].
      assert (Cu' : cross u ((num s + i * den s) * num r) (den s * den r)). { destruct I2 as [_ X]. apply (cross_trans _ _ _ _ _ Cu ltac:(pos)). transitivity (num q * den s * num r * den r); [ring|]. rewrite X. ring. }
      destruct (cross_pos u _ _ Cu' HD ltac:(apply Z.mul_nonneg_nonneg; lia)) as (U0 & U1 & _). assert (U2 : 0 <= num u) by lia.
      destruct (index_tot M u P) as [[s1 s2] Ei]; [lia|lia|lia|apply (bound _ _ (den s * den r) (P * P)); lia|]. rewrite Ei. cbn [bind]. apply index_ok in Ei as (_ & J1 & J2 & J3 & J4 & J5 & J6 & J7 & J8 & J9); [|exact U2|exact HP].
      assert (X : num u * P * (den s * den r) = (num s + i * den s) * num r * P * den u). { destruct Cu' as [_ X]. transitivity (num u * (den s * den r) * P); [ring|]. rewrite X. ring. }
      assert (Hm : num u * P / den u + 1 <= N * P + l - 1).
      { rewrite (div_cross _ _ _ _ X ltac:(lia) HD). assert (Hlt : (num s + i * den s) * num r * P < (N * P + l - 1) * (den s * den r)).
        { apply Z.lt_le_trans with ((num s + L * den s) * (num r * P)); [|lia]. rewrite <- Z.mul_assoc. apply Z.mul_lt_mono_pos_r; [exact HrP|exact Hi4]. }
        assert ((num s + i * den s) * num r * P / (den s * den r) < N * P + l - 1) by (apply Z.div_lt_upper_bound; lia). lia. }
      assert (M1 : inputIndex s1 * P + phaseIndex s1 <= lenZ x * P + lenZ h - 1) by (fold N l; rewrite J3; clear - Hm; lia). assert (M2 : inputIndex s2 * P + phaseIndex s2 <= lenZ x * P + lenZ h - 1) by (fold N l; rewrite J6; exact Hm).
      destruct (phase_ok v h P _ D HP J2) as (p1 & Ev1 & _). rewrite Ev1. cbn [bind]. rewrite (sample_ok W vec HW x h v P _ _ p1 D HP J2 J1 M1 Ev1). cbn [bind].
      destruct (phase_ok v h P _ D HP J5) as (p2 & Ev2 & _). rewrite Ev2. cbn [bind]. rewrite (sample_ok W vec HW x h v P _ _ p2 D HP J5 J4 M2 Ev2). cbn [bind]. rewrite wr_ok by (rewrite I1; exact Hi). cbn [bind].
      destruct (add_int_tot M q 1) as [q1 Eq]; [clear - Q1 K10 K11; lia|change (Z.abs 1) with 1; clear - Q0 Q1 Hi1 K4; rewrite (Z.abs_eq (num q)) by lia; lia|]. rewrite Eq. cbn [bind]. apply add_int_ok in Eq. apply okP_ret. cbn [fst snd]. split; [rewrite lenZ_updZ by (rewrite I1; clear - Hi; lia); exact I1|].
      destruct I2 as [_ Xq]. apply (cross_trans _ _ _ _ _ Eq ltac:(lia)). transitivity (num q * den s + den q * den s); [ring|]. rewrite Xq. ring. }
  destruct G as ([o ix] & -> & G1 & G2). cbn [bind fst snd] in *. destruct (cross_pos ix _ _ G2 Sd HT) as (Z0 & Z1 & _). assert (Z2 : 0 <= num ix) by lia. destruct (suspend_tot ix l P r) as [[fi st] ->].
  - apply G2.
  - now split.
  - exact Z2.
  - exact Rn.
  - unfold l; lia.
  - exact HP.
  - assert (num ix * num r * P <= (num s + L * den s) * (num r * P)) by (rewrite <- Z.mul_assoc; apply Z.mul_le_mono_nonneg_r; lia). assert (l * (den ix * den r) <= l * (den s * den r)) by (apply Z.mul_le_mono_nonneg_l; [lia|apply Z.mul_le_mono_nonneg_r; lia]). lia.
  - apply Z.le_trans with (den s * den r * (P * P) * num r); [|exact B2]. apply Z.mul_le_mono_nonneg_r; [lia|]. apply Z.mul_le_mono_nonneg_r; [lia|]. apply Z.mul_le_mono_nonneg_r; lia.
  - apply Z.le_trans with ((P + l) * P * (den s * den r) * den r); [|exact B3]. apply Z.mul_le_mono_nonneg_r; [lia|]. apply Z.mul_le_mono_nonneg_l; [nia|]. apply Z.mul_le_mono_nonneg_r; lia.
  - cbn [bind]. eauto.
Qed.
End Tot.
