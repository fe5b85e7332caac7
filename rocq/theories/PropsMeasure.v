(** C44: filter band measurement. *)
From Coq Require Import ZArith List Bool Lia Reals Lra.
From Verif Require Import Base BaseFacts SolverModel MeasureModel MeasureSpec MeasureProofs.
From Coq Require Import ZifyBool ZifyNat.
Import ListNotations.
Open Scope Z_scope.

Lemma interleaved_weaken b prev l f : interleaved b prev l f -> interleaved false prev l f.
Proof. destruct l, f; cbn [interleaved]; try tauto. intros (H1 & H2 & H3). repeat split; try assumption. destruct b; lia. Qed.
(** ** Extraction: terminates, covers the response from sample 0 on with consecutive bands that alternate; the bands are the
    runs of the two-threshold switch and band k begins between the switch's changes k-1 and k *)
Theorem C44_bands spectrum threshold noise : spectrum <> [] -> (0 <= noise)%R ->
  exists p bands, ExtractFilterBands spectrum threshold noise = Ok ({| first := 0; pass := p |} :: bands) /\
    p :: map pass bands = runs (switched threshold noise spectrum) /\ boundaries (switched threshold noise spectrum) (map first bands) /\
    Forall (fun b => 0 <= first b < lenZ spectrum) bands.
Proof.
  intros Hs Hn. assert (H0 : 0 <= 0 < lenZ spectrum) by (destruct spectrum; [contradiction|rewrite lenZ_cons; pose proof (lenZ_nonneg spectrum); lia]).
  destruct (bands_loop_spec spectrum threshold noise Hn (S (length spectrum)) 0 0 H0 ltac:(unfold lenZ; lia)) as (y & tl & bands & E1 & E2 & E3 & E4 & E5 & _). change (skipn (Z.to_nat 0) spectrum) with spectrum in *.
  exists (gtb y threshold), bands. split; [exact E2|]. assert (O : switched threshold noise spectrum = schmitt (threshold - noise) (threshold + noise) (gtb y threshold) spectrum) by (rewrite E1; reflexivity).
  unfold boundaries. rewrite O. split; [exact E3|]. split; [exact (interleaved_weaken _ _ _ _ E4)|]. destruct (interleaved_sorted (lenZ spectrum) _ _ _ _ E4 ltac:(lia) E5) as [_ B]. apply Forall_forall. exact B.
Qed.
Print Assumptions C44_bands.
Lemma runs_alternate l : forall k a b, nth_error (runs l) k = Some a -> nth_error (runs l) (S k) = Some b -> b = negb a.
Proof.
  assert (Hd : forall l x tl, l = x :: tl -> exists tl', runs l = x :: tl').
  { clear. induction l as [|a l IH]; intros x tl [= -> ->]. destruct tl as [|b tl]; [exists []; reflexivity|]. change (runs (x :: b :: tl)) with (if Bool.eqb x b then runs (b :: tl) else x :: runs (b :: tl)). destruct (Bool.eqb_spec x b) as [->|]; [exact (IH b tl eq_refl)|eauto]. }
  induction l as [|x [|y l] IH]; intros k a b.
  - destruct k; discriminate.
  - destruct k; [discriminate|destruct k; discriminate].
  - change (runs (x :: y :: l)) with (if Bool.eqb x y then runs (y :: l) else x :: runs (y :: l)). destruct (Bool.eqb_spec x y) as [->|N]; [apply IH|]. destruct k as [|k]; [|apply IH]. cbn [nth_error]. intros [= ->]. destruct (Hd _ y l eq_refl) as [tl' ->]. intros [= ->]. destruct a, b; cbn; congruence.
Qed.
Theorem C44_alternate spectrum threshold noise : spectrum <> [] -> (0 <= noise)%R -> exists bands, ExtractFilterBands spectrum threshold noise = Ok bands /\
  (forall k a b, nth_error bands k = Some a -> nth_error bands (S k) = Some b -> pass b = negb (pass a) /\ first a <= first b /\ ((0 < k)%nat -> first a < first b)).
Proof.
  intros Hs Hn. destruct (C44_bands spectrum threshold noise Hs Hn) as (p & bands & E1 & E2 & E3 & E4). eexists. split; [exact E1|]. intros k a b Ha Hb. split.
  - apply (map_nth_error pass) in Ha. apply (map_nth_error pass) in Hb. cbn [map pass] in Ha, Hb. rewrite E2 in Ha, Hb. exact (runs_alternate _ _ _ _ Ha Hb).
  - unfold boundaries in E3. destruct k as [|k].
    + cbn [nth_error] in Ha, Hb. injection Ha as <-. destruct bands as [|b' bands]; [discriminate|]. injection Hb as ->. inversion E4; subst. cbn [first]. split; lia.
    + cbn [nth_error] in Ha, Hb. assert (G : forall bands strict prev f, interleaved strict prev (map first bands) f -> forall k a b, nth_error bands k = Some a -> nth_error bands (S k) = Some b -> first a < first b).
      { clear. induction bands as [|x bands IH]; intros strict prev f Hi k a b Ha Hb; [destruct k; discriminate|]. destruct f as [|y f]; [destruct Hi|]. cbn [map interleaved] in Hi. destruct Hi as (H1 & H2 & H3). destruct k as [|k]; [|exact (IH _ _ _ H3 k a b Ha Hb)].
        cbn [nth_error] in Ha, Hb. injection Ha as <-. destruct bands as [|z bands]; [discriminate|]. injection Hb as <-. destruct f as [|w f]; [destruct H3|]. cbn [map interleaved] in H3. lia. }
      pose proof (G _ _ _ _ E3 k a b Ha Hb). lia.
Qed.
Print Assumptions C44_alternate.
(** ** If no sample is within the noise margin of the threshold, every sample is in a band of its own side *)
Lemma switched_clean threshold noise xs : (0 <= noise)%R -> (forall x, In x xs -> (x <= threshold - noise \/ threshold + noise < x)%R) -> switched threshold noise xs = map (fun x => gtb x threshold) xs.
Proof.
  intros Hn Hc. destruct xs as [|x0 xs0]; [reflexivity|]. unfold switched. generalize (gtb x0 threshold). remember (x0 :: xs0) as xs eqn:Ex. clear Ex. induction xs as [|x xs IH]; intros st; [reflexivity|]. cbn [schmitt map].
  assert (S : (if gtb x (threshold + noise) then true else if gtb x (threshold - noise) then st else false) = gtb x threshold).
  { destruct (Hc x (or_introl eq_refl)) as [H|H].
    - replace (gtb x (threshold + noise)) with false by (symmetry; apply gtb_false; lra). replace (gtb x (threshold - noise)) with false by (symmetry; apply gtb_false; lra). symmetry. apply gtb_false. lra.
    - replace (gtb x (threshold + noise)) with true by (symmetry; apply gtb_true; lra). symmetry. apply gtb_true. lra. }
  rewrite S. f_equal. apply IH. intros z Hz. apply Hc. now right.
Qed.
Lemma run_values l : forall i k s v j, nth_error (i :: changes i l) k = Some s -> nth_error (runs l) k = Some v -> s <= j -> (match nth_error (i :: changes i l) (S k) with Some e => j < e | None => j < i + lenZ l end) -> nth_error l (Z.to_nat (j - i)) = Some v.
Proof.
  assert (Ge : forall l i k s, nth_error (i :: changes i l) k = Some s -> i <= s).
  { clear. induction l as [|x [|y l] IH]; intros i k s H; try (destruct k as [|[|k]]; cbn in H; [injection H as <-; lia| |]; discriminate).
    change (changes i (x :: y :: l)) with (if Bool.eqb x y then changes (i + 1) (y :: l) else (i + 1) :: changes (i + 1) (y :: l)) in H. destruct k as [|k]; [injection H as <-; lia|]. cbn [nth_error] in H. destruct (Bool.eqb x y); [specialize (IH (i + 1) (S k) s H); lia|specialize (IH (i + 1) k s H); lia]. }
  induction l as [|x [|y l] IH]; intros i k s v j Hs Hv H1 H2.
  - destruct k; discriminate.
  - destruct k as [|[|k]]; try discriminate Hv. injection Hs as <-. injection Hv as <-. cbn [changes nth_error] in H2. change (lenZ [x]) with 1 in H2. replace (j - i) with 0 by lia. reflexivity.
  - change (changes i (x :: y :: l)) with (if Bool.eqb x y then changes (i + 1) (y :: l) else (i + 1) :: changes (i + 1) (y :: l)) in *.
    change (runs (x :: y :: l)) with (if Bool.eqb x y then runs (y :: l) else x :: runs (y :: l)) in Hv. rewrite (lenZ_cons x) in H2. destruct (Bool.eqb_spec x y) as [E|E].
    + assert (Hij : i <= j) by (pose proof (Ge (x :: y :: l) i k s); cbn [changes] in *; destruct k; [injection Hs as <-; lia|]; pose proof (Ge (y :: l) (i + 1) (S k) s Hs); lia).
      destruct (Z.eq_dec j i) as [->|Nj].
      * replace (i - i) with 0 by lia. cbn [Z.to_nat nth_error]. destruct k as [|k]; [|pose proof (Ge (y :: l) (i + 1) (S k) s Hs); lia]. clear IH H2 Hs. rewrite <- Hv, E. clear. revert y. induction l as [|z l IH]; intros y; [reflexivity|].
        change (runs (y :: z :: l)) with (if Bool.eqb y z then runs (z :: l) else y :: runs (z :: l)). destruct (Bool.eqb_spec y z) as [->|]; [apply IH|reflexivity].
      * replace (Z.to_nat (j - i)) with (S (Z.to_nat (j - (i + 1)))) by lia. cbn [nth_error]. destruct k as [|k].
        -- injection Hs as <-. apply (IH (i + 1) 0%nat (i + 1) v j); try assumption; try reflexivity; [lia|]. replace (i + 1 + lenZ (y :: l)) with (i + (lenZ (y :: l) + 1)) by lia. exact H2.
        -- apply (IH (i + 1) (S k) s v j); try assumption. replace (i + 1 + lenZ (y :: l)) with (i + (lenZ (y :: l) + 1)) by lia. exact H2.
    + destruct k as [|k].
      * injection Hs as <-. injection Hv as <-. cbn [nth_error] in H2. replace (j - i) with 0 by lia. reflexivity.
      * cbn [nth_error] in Hs, Hv. pose proof (Ge (y :: l) (i + 1) k s Hs). replace (Z.to_nat (j - i)) with (S (Z.to_nat (j - (i + 1)))) by lia. cbn [nth_error]. apply (IH (i + 1) k s v j); try assumption. replace (i + 1 + lenZ (y :: l)) with (i + (lenZ (y :: l) + 1)) by lia. exact H2.
Qed.
Theorem C44_separated spectrum threshold noise : spectrum <> [] -> (0 <= noise)%R -> (forall x, In x spectrum -> (x <= threshold - noise \/ threshold + noise < x)%R) ->
  exists bands, ExtractFilterBands spectrum threshold noise = Ok bands /\
  forall k b i, nth_error bands k = Some b -> first b <= i -> (match nth_error bands (S k) with Some n => i < first n | None => i < lenZ spectrum end) -> (if pass b then threshold < sample spectrum i else sample spectrum i <= threshold)%R.
Proof.
  intros Hs Hn Hc. assert (H0 : 0 <= 0 < lenZ spectrum) by (destruct spectrum; [contradiction|rewrite lenZ_cons; pose proof (lenZ_nonneg spectrum); lia]).
  destruct (bands_loop_spec spectrum threshold noise Hn (S (length spectrum)) 0 0 H0 ltac:(unfold lenZ; lia)) as (y & tl & bands & E1 & E2 & E3 & E4 & E5 & E6). change (skipn (Z.to_nat 0) spectrum) with spectrum in *.
  eexists. split; [exact E2|]. intros k b i Hb H1 H2.
  assert (O : schmitt (threshold - noise) (threshold + noise) (gtb y threshold) spectrum = map (fun x => gtb x threshold) spectrum) by (rewrite <- (switched_clean threshold noise spectrum Hn Hc); rewrite E1; reflexivity).
  rewrite O in *. specialize (E6 Hc). set (dec := map (fun x => gtb x threshold) spectrum) in *.
  assert (V : nth_error dec (Z.to_nat (i - 0)) = Some (pass b)).
  { apply (run_values dec 0 k (first b) (pass b) i).
    - rewrite <- E6. exact (map_nth_error first _ _ Hb).
    - rewrite <- E3. exact (map_nth_error pass _ _ Hb).
    - exact H1.
    - rewrite <- E6. change (0 :: map first bands) with (map first ({| first := 0; pass := gtb y threshold |} :: bands)). destruct (nth_error _ (S k)) as [n|] eqn:En in H2.
      + rewrite (map_nth_error first _ _ En). exact H2.
      + replace (nth_error (map first _) (S k)) with (@None Z); [unfold dec; rewrite lenZ_map; exact H2|]. symmetry. apply nth_error_None. rewrite map_length. now apply nth_error_None. }
  replace (i - 0) with i in V by lia. unfold dec in V. unfold sample. destruct (nth_error spectrum (Z.to_nat i)) as [x|] eqn:Ex.
  - rewrite (map_nth_error _ _ _ Ex) in V. injection V as V. rewrite (nth_error_nth _ _ _ Ex). destruct (pass b); [now apply gtb_true|now apply gtb_false].
  - apply nth_error_None in Ex. assert (nth_error (map (fun x => gtb x threshold) spectrum) (Z.to_nat i) = None) by (apply nth_error_None; rewrite map_length; exact Ex). congruence.
Qed.
Print Assumptions C44_separated.

(** ** Measurement *)
(** edge e of a band that ends at sample s of n, edge e' of the next band *)
Definition around (s n : Z) (e e' : R) : Prop := (e <= IZR s / IZR n <= e')%R.
Section Measure.
Variables (erf : R -> R) (tmax : R) (limit : nat).
Definition normal (e : R) : Prop := (0 <= e <= 1)%R.
Definition lowpass_report (x : list R) (s : Z) (p : lowpass_parameters) : Prop :=
  around s (lenZ x) (lp_passbandEdge p) (lp_stopbandEdge p) /\ normal (lp_passbandEdge p) /\ normal (lp_stopbandEdge p) /\
  peaks_deviation 1 (samples x 0 s) (lp_passbandRipple p) /\ peaks_deviation 0 (samples x s (lenZ x)) (lp_stopbandAtten p).
Definition highpass_report (x : list R) (s : Z) (p : highpass_parameters) : Prop :=
  around s (lenZ x) (hp_stopbandEdge p) (hp_passbandEdge p) /\ normal (hp_stopbandEdge p) /\ normal (hp_passbandEdge p) /\
  peaks_deviation 0 (samples x 0 s) (hp_stopbandAtten p) /\ peaks_deviation 1 (samples x s (lenZ x)) (hp_passbandRipple p).
(** the middle band's edges are in order unless its first sample is its extreme one *)
Definition bandpass_report (x : list R) (s1 s2 : Z) (p : bandpass_parameters) : Prop :=
  around s1 (lenZ x) (bp_lowerStopbandEdge p) (bp_passbandLowerEdge p) /\ around s2 (lenZ x) (bp_passbandUpperEdge p) (bp_upperStopbandEdge p) /\
  normal (bp_lowerStopbandEdge p) /\ normal (bp_passbandLowerEdge p) /\ normal (bp_passbandUpperEdge p) /\ normal (bp_upperStopbandEdge p) /\
  ((exists v, In v (samples x s1 s2) /\ (sample (samples x s1 s2) 0 < v)%R) -> (bp_passbandLowerEdge p <= bp_passbandUpperEdge p)%R) /\
  peaks_deviation 0 (samples x 0 s1) (bp_lowerStopbandAtten p) /\ peaks_deviation 1 (samples x s1 s2) (bp_passbandRipple p) /\ peaks_deviation 0 (samples x s2 (lenZ x)) (bp_upperStopbandAtten p).
Definition bandstop_report (x : list R) (s1 s2 : Z) (p : bandstop_parameters) : Prop :=
  around s1 (lenZ x) (bs_lowerPassbandEdge p) (bs_stopbandLowerEdge p) /\ around s2 (lenZ x) (bs_stopbandUpperEdge p) (bs_upperPassbandEdge p) /\
  normal (bs_lowerPassbandEdge p) /\ normal (bs_stopbandLowerEdge p) /\ normal (bs_stopbandUpperEdge p) /\ normal (bs_upperPassbandEdge p) /\
  ((exists v, In v (samples x s1 s2) /\ (v < sample (samples x s1 s2) 0)%R) -> (bs_stopbandLowerEdge p <= bs_stopbandUpperEdge p)%R) /\
  peaks_deviation 1 (samples x 0 s1) (bs_lowerPassbandRipple p) /\ peaks_deviation 0 (samples x s1 s2) (bs_stopbandAtten p) /\ peaks_deviation 1 (samples x s2 (lenZ x)) (bs_upperPassbandRipple p).
Definition reported (x : list R) (P : filter_parameters) : Prop :=
  let d := switched (1 / 2) (5 / 10000) x in
  match P with
  | LowpassP p => runs d = [true; false] /\ exists s, boundaries d [s] /\ lowpass_report x s p
  | HighpassP p => runs d = [false; true] /\ exists s, boundaries d [s] /\ highpass_report x s p
  | BandpassP p => runs d = [false; true; false] /\ exists s1 s2, boundaries d [s1; s2] /\ bandpass_report x s1 s2 p
  | BandstopP p => runs d = [true; false; true] /\ exists s1 s2, boundaries d [s1; s2] /\ bandstop_report x s1 s2 p
  | NoParameters => ~ In (runs d) [[true; false]; [false; true]; [false; true; false]; [true; false; true]]
  end.
Lemma has_bands bands desired : HasBands bands desired = true <-> map pass bands = desired.
Proof.
  unfold HasBands. destruct (Z.eqb_spec (lenZ desired) (lenZ bands)) as [E|E]; cbn [negb].
  - unfold lenZ in E. apply Nat2Z.inj in E. revert desired E. induction bands as [|b bands IH]; intros [|d desired] E; try discriminate; [split; reflexivity|]. cbn [length] in E. cbn [combine forallb map fst snd]. rewrite andb_true_iff, IH by lia. split.
    + intros [H1 H2]. apply Bool.eqb_prop in H1. congruence.
    + intros [= -> ->]. now rewrite Bool.eqb_reflx.
  - split; [discriminate|]. intros <-. exfalso. apply E. unfold lenZ. now rewrite map_length.
Qed.
Lemma has_bands_dec bands desired : map pass bands = desired \/ HasBands bands desired = false.
Proof. destruct (HasBands bands desired) eqn:E; [left; now apply has_bands|now right]. Qed.
Lemma edge_normal f l n e : 0 < n -> 0 <= f -> l <= n -> (IZR f / IZR n <= e <= IZR l / IZR n)%R -> normal e.
Proof.
  intros Hn Hf Hl [H1 H2]. assert (0 < IZR n)%R by (apply IZR_lt; exact Hn). assert (0 < / IZR n)%R by now apply Rinv_0_lt_compat. assert (0 <= IZR f)%R by (apply IZR_le; exact Hf). assert (IZR l <= IZR n)%R by (apply IZR_le; exact Hl). unfold Rdiv in *. split.
  - eapply Rle_trans; [|exact H1]. apply Rmult_le_pos; lra.
  - eapply Rle_trans; [exact H2|]. replace 1%R with (IZR n * / IZR n)%R by (field; lra). apply Rmult_le_compat_r; lra.
Qed.
Lemma extract_all (x : list R) : x <> [] -> exists bands ps, ExtractFilterBands x threshold noise = Ok bands /\ ParametrizeFilterBands erf tmax limit x bands threshold = Ok ps /\ map pass bands = runs (switched threshold noise x) /\
  reports x true bands ps /\ (exists p rest, bands = {| first := 0; pass := p |} :: rest /\ boundaries (switched threshold noise x) (map first rest)) /\ nondecreasing (lenZ x) bands.
Proof.
  intros Hx. assert (Hl : 0 < lenZ x) by (destruct x; [contradiction|rewrite lenZ_cons; pose proof (lenZ_nonneg x); lia]). assert (Hn : (0 <= noise)%R) by (unfold noise; lra).
  destruct (C44_bands x threshold noise Hx Hn) as (p & bands & E1 & E2 & E3 & E4).
  assert (N : nondecreasing (lenZ x) ({| first := 0; pass := p |} :: bands)).
  { assert (G : forall bands strict prev f, interleaved strict prev (map first bands) f -> Forall (fun b => 0 <= first b < lenZ x) bands -> nondecreasing (lenZ x) bands).
    { clear. induction bands as [|b bands IH]; intros strict prev f Hi Hf; [exact I|]. destruct f as [|y f]; [destruct Hi|]. cbn [map interleaved] in Hi. destruct Hi as (H1 & H2 & H3). inversion Hf as [|? ? Hb Hf']; subst. cbn [nondecreasing]. split; [|split; [lia|exact (IH _ _ _ H3 Hf')]].
      destruct bands as [|b' bands]; [lia|]. destruct f as [|y' f]; [destruct H3|]. cbn [map interleaved] in H3. lia. }
    cbn [nondecreasing first]. split; [|split; [lia|exact (G _ _ _ _ E3 E4)]]. destruct bands; [lia|]. inversion E4; subst. lia. }
  destruct (parametrize_all erf tmax limit x threshold _ Hl true N) as (ps & P1 & P2). exists ({| first := 0; pass := p |} :: bands), ps. split; [exact E1|]. split; [exact P1|]. split; [exact E2|]. split; [exact P2|]. split; [exists p, bands; split; [reflexivity|exact E3]|exact N].
Qed.
(** the response of every filter is measured, classified by its runs, and all reported edges and ripples are within their
    bands; whatever erf is and however long the curve fitting iterates *)
Theorem C44_measure (x : list R) : x <> [] -> exists P, MeasureFilter erf tmax limit x = Ok P /\ reported x P.
Proof.
  intros Hx. assert (Hl : 0 < lenZ x) by (destruct x; [contradiction|rewrite lenZ_cons; pose proof (lenZ_nonneg x); lia]).
  destruct (extract_all x Hx) as (bands & ps & E1 & E2 & E3 & E4 & (p & rest & E5 & E6) & E7). unfold MeasureFilter, measured. rewrite E1. cbn [bind]. rewrite E2. cbn [bind].
  unfold ExtractFilterParameters, ExtractLowpassParameters, ExtractHighpassParameters, ExtractBandpassParameters, ExtractBandstopParameters.
  change (switched (1 / 2) (5 / 10000) x) with (switched threshold noise x). 
  destruct (has_bands_dec bands [true; false]) as [B|B1].
  { pose proof (proj2 (has_bands _ _) B) as H. rewrite H. rewrite E5 in *. destruct rest as [|b1 [|b2 rest]]; try discriminate B. injection B as -> Bp. destruct ps as [|p0 [|p1 [|p2 ps]]]; cbn [reports] in E4; try tauto. cbn [rd nthZ bind]. eexists. split; [reflexivity|].
    unfold reported. change (switched (1 / 2) (5 / 10000) x) with (switched threshold noise x). rewrite <- E3. cbn [map pass]. rewrite Bp. split; [reflexivity|]. exists (first b1). split; [exact E6|]. destruct E4 as (_ & R0 & _ & R1 & _). unfold band_report in R0, R1. rewrite Bp in R1. cbn [first pass negb] in *.
    destruct R0 as (_ & A1 & _ & _ & _ & A2). destruct R1 as (A3 & _ & _ & _ & _ & A4). cbn [nondecreasing first] in E7. unfold lowpass_report, around. cbn [lp_passbandEdge lp_stopbandEdge lp_passbandRipple lp_stopbandAtten].
    split; [lra|]. split; [apply (edge_normal 0 (first b1) (lenZ x)); (lia || exact A1)|]. split; [apply (edge_normal (first b1) (lenZ x) (lenZ x)); (lia || exact A3)|]. split; assumption. }
  rewrite B1. destruct (has_bands_dec bands [false; true]) as [B|B2].
  { pose proof (proj2 (has_bands _ _) B) as H. cbn [bind]. rewrite H. rewrite E5 in *. destruct rest as [|b1 [|b2 rest]]; try discriminate B. injection B as -> Bp. destruct ps as [|p0 [|p1 [|p2 ps]]]; cbn [reports] in E4; try tauto. cbn [rd nthZ bind]. eexists. split; [reflexivity|].
    unfold reported. change (switched (1 / 2) (5 / 10000) x) with (switched threshold noise x). rewrite <- E3. cbn [map pass]. rewrite Bp. split; [reflexivity|]. exists (first b1). split; [exact E6|]. destruct E4 as (_ & R0 & _ & R1 & _). unfold band_report in R0, R1. rewrite Bp in R1. cbn [first pass negb] in *.
    destruct R0 as (_ & A1 & _ & _ & _ & A2). destruct R1 as (A3 & _ & _ & _ & _ & A4). cbn [nondecreasing first] in E7. unfold highpass_report, around. cbn [hp_passbandEdge hp_stopbandEdge hp_passbandRipple hp_stopbandAtten].
    split; [lra|]. split; [apply (edge_normal 0 (first b1) (lenZ x)); (lia || exact A1)|]. split; [apply (edge_normal (first b1) (lenZ x) (lenZ x)); (lia || exact A3)|]. split; assumption. }
  cbn [bind]. rewrite B2. destruct (has_bands_dec bands [false; true; false]) as [B|B3].
  { pose proof (proj2 (has_bands _ _) B) as H. cbn [bind]. rewrite H. rewrite E5 in *. destruct rest as [|b1 [|b2 [|b3 rest]]]; try discriminate B. injection B as -> Bp Bp'. destruct ps as [|p0 [|p1 [|p2 [|p3 ps]]]]; cbn [reports] in E4; try tauto. cbn [rd nthZ bind]. eexists. split; [reflexivity|].
    unfold reported. change (switched (1 / 2) (5 / 10000) x) with (switched threshold noise x). rewrite <- E3. cbn [map pass]. rewrite Bp, Bp'. split; [reflexivity|]. exists (first b1), (first b2). split; [exact E6|]. destruct E4 as (_ & R0 & _ & R1 & _ & R2 & _). unfold band_report in R0, R1, R2. rewrite Bp in R1. rewrite Bp' in R2. cbn [first pass negb] in *.
    destruct R0 as (_ & A1 & _ & _ & _ & A2). destruct R1 as (A3 & A3' & _ & _ & A5 & A4). destruct R2 as (A6 & _ & _ & _ & _ & A7). cbn [nondecreasing first] in E7. unfold bandpass_report, around. cbn [bp_lowerStopbandEdge bp_passbandLowerEdge bp_passbandUpperEdge bp_upperStopbandEdge bp_lowerStopbandAtten bp_passbandRipple bp_upperStopbandAtten].
    split; [lra|]. split; [lra|]. split; [apply (edge_normal 0 (first b1) (lenZ x)); (lia || exact A1)|]. split; [apply (edge_normal (first b1) (first b2) (lenZ x)); (lia || exact A3)|]. split; [apply (edge_normal (first b1) (first b2) (lenZ x)); (lia || exact A3')|]. split; [apply (edge_normal (first b2) (lenZ x) (lenZ x)); (lia || exact A6)|]. repeat split; assumption || apply A2 || apply A4 || apply A7. }
  cbn [bind]. rewrite B3. destruct (has_bands_dec bands [true; false; true]) as [B|B4].
  { pose proof (proj2 (has_bands _ _) B) as H. cbn [bind]. rewrite H. rewrite E5 in *. destruct rest as [|b1 [|b2 [|b3 rest]]]; try discriminate B. injection B as -> Bp Bp'. destruct ps as [|p0 [|p1 [|p2 [|p3 ps]]]]; cbn [reports] in E4; try tauto. cbn [rd nthZ bind]. eexists. split; [reflexivity|].
    unfold reported. change (switched (1 / 2) (5 / 10000) x) with (switched threshold noise x). rewrite <- E3. cbn [map pass]. rewrite Bp, Bp'. split; [reflexivity|]. exists (first b1), (first b2). split; [exact E6|]. destruct E4 as (_ & R0 & _ & R1 & _ & R2 & _). unfold band_report in R0, R1, R2. rewrite Bp in R1. rewrite Bp' in R2. cbn [first pass negb] in *.
    destruct R0 as (_ & A1 & _ & _ & _ & A2). destruct R1 as (A3 & A3' & _ & _ & A5 & A4). destruct R2 as (A6 & _ & _ & _ & _ & A7). cbn [nondecreasing first] in E7. unfold bandstop_report, around. cbn [bs_lowerPassbandEdge bs_stopbandLowerEdge bs_stopbandUpperEdge bs_upperPassbandEdge bs_lowerPassbandRipple bs_stopbandAtten bs_upperPassbandRipple].
    split; [lra|]. split; [lra|]. split; [apply (edge_normal 0 (first b1) (lenZ x)); (lia || exact A1)|]. split; [apply (edge_normal (first b1) (first b2) (lenZ x)); (lia || exact A3)|]. split; [apply (edge_normal (first b1) (first b2) (lenZ x)); (lia || exact A3')|]. split; [apply (edge_normal (first b2) (lenZ x) (lenZ x)); (lia || exact A6)|]. repeat split; assumption || apply A2 || apply A4 || apply A7. }
  cbn [bind]. rewrite B4. exists NoParameters. split; [reflexivity|]. unfold reported. change (switched (1 / 2) (5 / 10000) x) with (switched threshold noise x). rewrite <- E3.
  assert (N : forall d, HasBands bands d = false -> d <> map pass bands) by (intros d Hd E; symmetry in E; apply has_bands in E; congruence). intros [H|[H|[H|[H|[]]]]]; revert H; apply N; assumption.
Qed.
(** the measuring function of one filter type succeeds on exactly the responses of that type and gives the same report;
    on other responses it throws *)
Theorem C44_specific (x : list R) : x <> [] -> exists P, MeasureFilter erf tmax limit x = Ok P /\
  MeasureLowpassFilter erf tmax limit x = (match P with LowpassP p => Ok p | _ => Throw InvalidArgument end) /\
  MeasureHighpassFilter erf tmax limit x = (match P with HighpassP p => Ok p | _ => Throw InvalidArgument end) /\
  MeasureBandpassFilter erf tmax limit x = (match P with BandpassP p => Ok p | _ => Throw InvalidArgument end) /\
  MeasureBandstopFilter erf tmax limit x = (match P with BandstopP p => Ok p | _ => Throw InvalidArgument end).
Proof.
  intros Hx. destruct (C44_measure x Hx) as (P & EP & _). exists P. split; [exact EP|]. revert EP.
  destruct (extract_all x Hx) as (bands & ps & E1 & E2 & _ & E4 & _ & _). unfold MeasureFilter, MeasureLowpassFilter, MeasureHighpassFilter, MeasureBandpassFilter, MeasureBandstopFilter, measured. rewrite E1. cbn [bind]. rewrite E2. cbn [bind].
  unfold ExtractFilterParameters, ExtractLowpassParameters, ExtractHighpassParameters, ExtractBandpassParameters, ExtractBandstopParameters.
  assert (X : forall d1 d2, HasBands bands d1 = true -> d1 <> d2 -> HasBands bands d2 = false) by (intros d1 d2 H N; destruct (HasBands bands d2) eqn:E; [|reflexivity]; apply has_bands in H; apply has_bands in E; congruence).
  destruct (HasBands bands [true; false]) eqn:B1; [|destruct (HasBands bands [false; true]) eqn:B2; [|destruct (HasBands bands [false; true; false]) eqn:B3; [|destruct (HasBands bands [true; false; true]) eqn:B4]]];
    try (rewrite (X _ [false; true] B1) by discriminate); try (rewrite (X _ [false; true; false] B1) by discriminate); try (rewrite (X _ [true; false; true] B1) by discriminate);
    try (rewrite (X _ [false; true; false] B2) by discriminate); try (rewrite (X _ [true; false; true] B2) by discriminate); try (rewrite (X _ [true; false; true] B3) by discriminate); cbn [bind];
    repeat match goal with |- context [rd ps ?i] => destruct (rd ps i); cbn [bind]; try discriminate end; intros [= <-]; repeat split.
Qed.
Theorem C44_empty : MeasureFilter erf tmax limit [] = UB.
Proof. reflexivity. Qed.
End Measure.
Print Assumptions C44_measure.
Print Assumptions C44_specific.
Print Assumptions C44_empty.

(** ** What goes wrong *)
Ltac compares := repeat match goal with |- context [gtb ?a ?b] => first [replace (gtb a b) with true by (symmetry; apply gtb_true; lra) | replace (gtb a b) with false by (symmetry; apply gtb_false; lra)] end.
Lemma bands_step spectrum thr noise x p t c fuel it index : rd spectrum it = Ok x -> gtb x thr = p ->
  find_if (fun bin => negb (Bool.eqb (gtb bin (if p then thr + noise else thr - noise)%R) p)) (skipn (Z.to_nat it) spectrum) = t ->
  find_if (fun bin => negb (Bool.eqb (gtb bin (if p then thr - noise else thr + noise)%R) p)) (skipn (Z.to_nat it) spectrum) = c ->
  bands_loop (S fuel) spectrum thr noise it index = if it + c =? lenZ spectrum then Ok [{| first := index; pass := p |}] else do bands <- bands_loop fuel spectrum thr noise (it + c) ((it + c + (it + t)) / 2); Ok ({| first := index; pass := p |} :: bands).
Proof. intros E <- <- <-. cbn [bands_loop]. rewrite E. reflexivity. Qed.
Ltac found := match goal with |- context [skipn ?n ?l] => let n' := eval compute in n in change n with n'; cbn [skipn] end; cbn [find_if]; compares; reflexivity.
Ltac bands_at x p t c := rewrite (bands_step _ _ _ x p t c); [|reflexivity|solve [apply gtb_true; lra | apply gtb_false; lra]|found|found].
(** a dip into the noise margin before the real transition moves the boundary: samples of value 1 end up in the stop band *)
Theorem C44_wrong_side_refuted : let x := [1; 5003 / 10000; 1; 1; 1; 1; 0]%R in
  ExtractFilterBands x threshold noise = Ok [{| first := 0; pass := true |}; {| first := 3; pass := false |}] /\ sample x 5 = 1%R.
Proof. split; [|reflexivity]. unfold ExtractFilterBands, threshold, noise. change (S (length _)) with 8%nat. bands_at 1%R true 1 6. change (_ =? _) with false. cbv iota. bands_at 0%R false 1 1. reflexivity. Qed.
Print Assumptions C44_wrong_side_refuted.
(** the first band may be empty *)
Theorem C44_first_band_empty_refuted : ExtractFilterBands [5003 / 10000; 0]%R threshold noise = Ok [{| first := 0; pass := true |}; {| first := 0; pass := false |}].
Proof. unfold ExtractFilterBands, threshold, noise. change (S (length _)) with 3%nat. bands_at (5003 / 10000)%R true 0 1. change (_ =? _) with false. cbv iota. bands_at 0%R false 1 1. reflexivity. Qed.
Print Assumptions C44_first_band_empty_refuted.
(** a band of one sample: its lower edge is reported above its upper edge *)
Lemma bisect_zero tmax limit f a b : (forall p, f p = 0%R) -> PropsSolver.between a ((a + b) / 2) (Bisect tmax limit f a b 0).
Proof.
  intros Hf. destruct (PropsSolver.loop_inv (fun a' b' => a' = a /\ PropsSolver.between a b b') f 0%R) with (limit := limit) (a := a) (b := b) (err := tmax) as (a' & b' & (-> & Hb) & E).
  - intros a' b' (-> & Hb). left. split; [reflexivity|]. exact (PropsSolver.between_trans _ _ _ _ _ (PropsSolver.between_l a b) Hb (PropsSolver.mid_between a b')).
  - intros a' b' _. right. rewrite !Hf. lra.
  - split; [reflexivity|apply PropsSolver.between_r].
  - unfold Bisect. rewrite E. unfold PropsSolver.between in *. unfold Rmin, Rmax in *. destruct (Rle_dec a b), (Rle_dec a ((a + b) / 2)); lra.
Qed.
Theorem C44_edges_crossed_refuted erf tmax limit : exists p, MeasureBandpassFilter erf tmax limit [0; 1; 0]%R = Ok p /\ (bp_passbandUpperEdge p < bp_passbandLowerEdge p)%R.
Proof.
  destruct (C44_specific erf tmax limit [0; 1; 0]%R) as (P & EP & _ & _ & EB & _); [discriminate|].
  assert (B : ExtractFilterBands [0; 1; 0]%R threshold noise = Ok [{| first := 0; pass := false |}; {| first := 1; pass := true |}; {| first := 2; pass := false |}]).
  { unfold ExtractFilterBands, threshold, noise. change (S (length _)) with 4%nat. bands_at 0%R false 1 1. change (_ =? _) with false. cbv iota. bands_at 1%R true 1 1. change (_ =? _) with false. cbv iota. bands_at 0%R false 1 1. reflexivity. }
  assert (D0 : forall y p, FitErrorDerivative erf 0 y p = 0%R) by (intros y p; unfold FitErrorDerivative; rewrite Rmult_0_r, Rmult_0_l; reflexivity).
  assert (L : forall inv y p, FitLoss erf [1%R] p inv false y = 0%R) by (intros inv y p; unfold FitLoss; cbn [fold_left fst]; destruct inv; cbn [negb]; [change (IZR (lenZ [1%R] - 0 - 1)) with 0%R|]; rewrite D0; lra).
  assert (FL : (1 / 4 <= FitBand erf tmax limit [1%R] true true threshold <= 1 / 2)%R).
  { unfold FitBand. cbn [negb max_element fold_left fst]. pose proof (bisect_zero tmax limit (fun p => FitLoss erf [1%R] p false false threshold) (1 / 2) (66 / 100 * 0) (L false threshold)) as H. unfold PropsSolver.between in H. rewrite Rmin_right, Rmax_left in H by lra. lra. }
  assert (FR : (1 / 2 <= FitBand erf tmax limit [1%R] true false threshold <= 58 / 100)%R).
  { unfold FitBand. cbn [negb max_element fold_left fst]. change (IZR (lenZ [1%R] - 0)) with 1%R. pose proof (bisect_zero tmax limit (fun p => FitLoss erf [1%R] p true false threshold) (1 / 2) (66 / 100 * 1) (L true threshold)) as H. unfold PropsSolver.between in H. rewrite Rmin_left, Rmax_right in H by lra. lra. }
  destruct (extract_all erf tmax limit [0; 1; 0]%R) as (bands & ps & EBs & EPs & _); [discriminate|]. rewrite B in EBs. assert (bands = [{| first := 0; pass := false |}; {| first := 1; pass := true |}; {| first := 2; pass := false |}]) as -> by congruence.
  unfold MeasureBandpassFilter, measured. rewrite B. cbn [bind]. rewrite EPs. cbn [bind]. clear EB EP EBs P.
  unfold ExtractBandpassParameters in *. change (HasBands _ _) with true in *. cbv iota in *. unfold ParametrizeFilterBands in EPs. cbn [parametrize_loop first] in EPs.
  destruct (parametrize erf tmax limit [0; 1; 0]%R threshold {| first := 0; pass := false |} _ _ _) as [p0| |]; try discriminate EPs. cbn [bind] in EPs.
  destruct (parametrize erf tmax limit [0; 1; 0]%R threshold {| first := 1; pass := true |} _ _ _) as [p1| |] eqn:E1; try discriminate EPs. cbn [bind] in EPs.
  destruct (parametrize erf tmax limit [0; 1; 0]%R threshold {| first := 2; pass := false |} _ _ _) as [p2| |]; try discriminate EPs. cbn [bind] in EPs. assert (ps = [p0; p1; p2]) as -> by congruence. cbn [rd nthZ bind or_throw]. eexists. split; [reflexivity|]. cbn [bp_passbandUpperEdge bp_passbandLowerEdge].
  unfold parametrize in E1. cbn [first pass] in E1. change (view _ _ _) with (Ok [1%R]) in E1. cbn [bind negb FindBandEdgesFit] in E1. change (FindBandEdgesRipple [1%R] true true true) with (@None R, @None R) in E1. cbv beta iota in E1.
  destruct (MeasureBandRipple [1%R] true) as [o| |]; try discriminate E1. cbn [bind MinOptional MaxOptional MaxOptional_cmp value_or] in E1. assert (E : forall u v : band_parameters, Ok u = Ok v -> v = u) by (intros u v [=]; congruence). apply E in E1. rewrite E1. cbn [lowerEdge upperEdge].
  change (IZR (lenZ [1%R])) with 1%R. change (IZR (lenZ [0; 1; 0]%R)) with 3%R. rewrite Rmin_right, Rmax_right by lra. lra.
Qed.
Print Assumptions C44_edges_crossed_refuted.
(** a lowpass response with a ripple: the hypotheses of the theorems above hold, the report is not trivial *)
Example C44_nontrivial erf tmax limit : let x := [1; 9/10; 1; 9/10; 1; 0; 0]%R in x <> [] /\ (forall v, In v x -> (v <= 1 / 2 - 5 / 10000 \/ 1 / 2 + 5 / 10000 < v)%R) /\
  ExtractFilterBands x threshold noise = Ok [{| first := 0; pass := true |}; {| first := 5; pass := false |}] /\ peak gtb (samples x 0 5) 2 = peak gtb [1; 9/10; 1; 9/10; 1]%R 2 /\
  exists p, MeasureFilter erf tmax limit x = Ok (LowpassP p) /\ MeasureLowpassFilter erf tmax limit x = Ok p.
Proof.
  intros x. split; [discriminate|]. split; [intros v Hv; cbn [In x] in Hv; repeat (destruct Hv as [<-|Hv]; [lra|]); destruct Hv|].
  split; [unfold ExtractFilterBands, threshold, noise, x; change (S (length _)) with 8%nat; bands_at 1%R true 5 5; change (_ =? _) with false; cbv iota; bands_at 0%R false 2 2; reflexivity|]. split; [reflexivity|].
  destruct (C44_measure erf tmax limit x) as (P & EP & RP); [discriminate|]. destruct (C44_specific erf tmax limit x) as (P' & EP' & EL & _); [discriminate|]. assert (P' = P) by congruence. subst P'.
  assert (D : switched (1 / 2) (5 / 10000) x = [true; true; true; true; true; false; false]) by (unfold switched, x; cbn [schmitt]; compares; reflexivity).
  unfold reported in RP. cbv zeta in RP. rewrite D in RP. destruct P as [|p|p|p|p].
  - exfalso. apply RP. now left.
  - exists p. split; [exact EP|exact EL].
  - destruct RP; discriminate.
  - destruct RP; discriminate.
  - destruct RP; discriminate.
Qed.
