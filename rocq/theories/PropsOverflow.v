(** C75: a stable filter fed with bounded samples does not overflow. *)
From Coq Require Import Reals Lra Lia List ZArith Arith Psatz.
From Flocq Require Import Core BinarySingleNaN.
From Verif Require Import Base BaseFacts Complex IntervalModel KernelModel KernelProofs ConvModel ConvProofs FloatSpec ReduceTree FloatSum FloatIeee PropsFloat ConvTree ConvFloat FloatStat FirModel IirModel IirProofs PolyModel PolyProofs SysModel SysProofs PropsPoly PropsIir PropsSys PropsDesign IirTree IirFloat PropsIirFloat StableProofs PropsStable NoiseProofs PropsNoise OverflowProofs.
Import ListNotations.
Local Open Scope R_scope.

Section Ieee.
Variables prec emax : Z.
Context (Hprec : Prec_gt_0 prec) (Hmax : Prec_lt_emax prec emax).
Notation float := (binary_float prec emax).
Notation u := (bpow radix2 (- prec)).
Notation eta := (bpow radix2 (3 - emax - prec)).
Notation overflow := (bpow radix2 emax).
Notation fzero := (B754_zero false : float).
Notation finite x := (is_finite x = true).
Notation value := (value prec emax).
Notation side := (side prec emax).
Notation side_abs := (side_abs prec emax).
Notation all_finite := (all_finite prec emax).
Notation stable_denominator := (stable_denominator prec emax).
Notation weight := (weight prec emax).
Notation input_bound := (input_bound prec emax).
Notation is_madd := (is_madd prec emax Hprec Hmax).
Notation usable := (usable prec emax).
Notation lead_value := (lead_value prec emax).
Notation finite_until := (finite_until prec emax).

(** ** Bridges *)
Lemma madd_steady madd : is_madd madd -> steady_madd prec emax madd.
Proof. intros [-> | ->]; [apply steady_unfused|apply steady_fused]. Qed.
Lemma elt_finite (f : list float) n : (forall v, nthZ f n = Some v -> finite v) -> finite (elt fzero f n).
Proof. intros H. unfold elt. destruct (nthZ f n) as [v|]; [now apply H|reflexivity]. Qed.
Lemma all_finite_at (f : list float) : all_finite f -> forall n v, nthZ f n = Some v -> finite v.
Proof. intros H n v E. apply H. pose proof (nthZ_some _ _ _ E). rewrite <- (Z2Nat.id n), nthZ_nth_error in E by lia. now apply nth_error_In in E. Qed.
Lemma newest_pfin c f n : all_finite c -> finite_until f n -> pfin prec emax (newest fzero c f n).
Proof.
  intros Hc Hf p Hp. unfold newest in Hp. apply In_tab in Hp as (i & Hi & ->). cbn [fst snd].
  split; apply elt_finite; intros v E; [|now apply (all_finite_at c Hc _ _ E)]. eapply Hf; [|exact E]. lia.
Qed.
Lemma finite_until_all (f : list float) : finite_until f (lenZ f) -> all_finite f.
Proof.
  intros H v Hv. apply In_nth_error in Hv as [i Hi]. assert (E : nthZ f (Z.of_nat i) = Some v) by now rewrite nthZ_nth_error. pose proof (nthZ_some _ _ _ E). eapply H; [|exact E]. lia.
Qed.
Lemma until_induction (f : list float) : (forall n v, (0 <= n)%Z -> finite_until f (n - 1) -> nthZ f n = Some v -> finite v) -> all_finite f.
Proof.
  intros H. apply finite_until_all. assert (Q : forall k : nat, finite_until f (Z.of_nat k - 1)).
  { induction k as [|k IH]; intros j v Hj E; pose proof (nthZ_some _ _ _ E) as Rj; [exfalso; lia|]. destruct (Z_lt_ge_dec j (Z.of_nat k)); [apply (IH j v ltac:(lia) E)|]. assert (j = Z.of_nat k) by lia. subst j. now apply (H (Z.of_nat k) v ltac:(lia)). }
  specialize (Q (S (length f))). intros j v Hj E. apply (Q j v); [unfold lenZ in Hj; lia|exact E].
Qed.
Lemma okP_both {A} (m : outcome A) (P Q : A -> Prop) : okP m P -> okP m Q -> okP m (fun a => P a /\ Q a).
Proof. intros (a & E & HP) (b & E2 & HQ). exists a. rewrite E in E2. injection E2 as <-. auto. Qed.
Lemma weight_sub k c : weight (firstn k c) <= weight c. Proof. apply weight_firstn. Qed.

(** ** Direct form I *)
Lemma df1_rules madd (sys : tf float) ord x : usable sys ord -> okP (Filter_df1_ieee prec emax Hprec Hmax madd sys x (gdf1_new fzero ord)) (fun r => lenZ (fst r) = lenZ x /\
    forall n, (0 <= n < lenZ x)%Z -> df1_rule fzero Bone (Bminus mode_NE) (Bmult mode_NE) (Bdiv mode_NE) madd sys x (fst r) n).
Proof.
  intros Hu. pose proof (usable_fits _ _ _ _ Hu) as Hf. unfold Filter_df1_ieee, gFilter_df1. rewrite giir_filter_feeds, (df1_pre_new prec emax) by exact Hu. cbn [assert_].
  eapply okP_imp; [apply df1_run; [exact Hf|apply df1_new_has; apply Hu]|]. cbn beta zeta. intros [y s] (L & _ & R). cbn [fst app] in *. split; [exact L|]. intros n Hn. apply R. rewrite lenZ_nil. lia.
Qed.
(** However long the signal: if the number [H] below, which depends on the system and the largest input sample only, is under the overflow threshold (also after
    division by the leading coefficient), every sample of the output is finite, and at most [Y] in absolute value. *)
Theorem C75_direct_form_I madd (sys : tf float) (ord : Z) (x : list float) (lead : R) (ps : list C) (M : R) : is_madd madd -> usable sys ord ->
  all_finite (numerator sys) -> all_finite (denominator sys) -> all_finite x -> stable_denominator (denominator sys) lead ps -> input_bound x M ->
  let N := Nat.max (length (numerator sys)) (length (denominator sys)) in
  let gamma := (1 + u) ^ (N + 4) - 1 in
  let terms := INR (length (numerator sys) + length (denominator sys)) in
  let underflow := (terms * (1 + u) ^ (N + 4) + Rabs (lead_value sys)) * (eta / 2) in
  let A := weight (denominator sys) in let B := weight (numerator sys) in let D := damping lead ps in
  let Y := (1 + 2 * (gamma * A) / D) * (((1 + gamma) * (B * M) + underflow) / D) in
  let H := (1 + gamma) * (B * M + A * Y) + terms * (1 + gamma) * (eta / 2) in
  2 * (gamma * A) <= D -> (1 + u) / Rabs (lead_value sys) + eta / 2 < overflow -> H < overflow -> H / Rabs (lead_value sys) + eta / 2 < overflow ->
  okP (Filter_df1_ieee prec emax Hprec Hmax madd sys x (gdf1_new fzero ord)) (fun r => let y := fst r in all_finite y /\ forall n, Rabs (value y n) <= Y).
Proof.
  intros Hm Hu Fnum Fden Fx Hs [HM Hx] N gamma terms underflow A B D Y H Hk Hi H1 H2. eapply okP_imp; [exact (okP_both _ _ _ (df1_rules madd sys ord x Hu) (C71_direct_form_I_residual prec emax Hprec Hmax madd sys ord x Hm Hu))|].
  cbn beta zeta. intros [y s] [[L Ru] [_ Rs]]. cbn [fst] in *. pose proof (damping_pos _ _ _ _ _ Hs) as HD. fold D in HD. destruct (stable_factors _ _ _ _ _ Hs) as (HP & HF & ED). fold D in ED.
  pose proof (gamma_pos prec (N + 4)) as Hg. fold gamma in Hg. pose proof (weight_pos prec emax (denominator sys)) as HA. pose proof (weight_pos prec emax (numerator sys)) as HB. fold A in HA. fold B in HB.
  pose proof (under_pos prec emax (length (numerator sys) + length (denominator sys)) (N + 4) (Rabs (lead_value sys)) (Rabs_pos _)) as HU. fold terms in HU. fold underflow in HU.
  pose proof (input_value prec emax x M (conj HM Hx)) as Bx. assert (HBM : 0 <= B * M) by now apply Rmult_le_pos. assert (HgBM : 0 <= gamma * (B * M)) by now apply Rmult_le_pos. assert (HgA : 0 <= gamma * A) by now apply Rmult_le_pos.
  assert (HY : 0 <= Y). { unfold Y. apply Rmult_le_pos; [|unfold Rdiv; apply Rmult_le_pos; [lra|left; now apply Rinv_0_lt_compat]]. assert (0 <= 2 * (gamma * A) / D) by (unfold Rdiv; apply Rmult_le_pos; [lra|left; now apply Rinv_0_lt_compat]). lra. }
  (* bounded as long as finite *)
  assert (BY : forall n, (n < lenZ x)%Z -> finite_until y n -> forall j, (j <= n)%Z -> Rabs (value y j) <= Y).
  { intros n Hn Fy j Hj. destruct (Z_lt_ge_dec j 0) as [|Hj0]; [rewrite value_neg, Rabs_R0 by assumption; exact HY|].
    pose proof (noise_core (map B2R (denominator sys)) lead ps (value y) (fun _ => 0) 0 ((1 + gamma) * (B * M) + underflow) (gamma * A) (n + 1) HP HF ltac:(lra) ltac:(lra) HgA) as Q. rewrite ED in Q.
    specialize (Q Hk (fun i Hi' => value_neg _ _ y i Hi') (fun i _ => eq_refl) ltac:(intros; rewrite Rabs_R0; lra)). rewrite Rmult_0_r, Rplus_0_l in Q. fold Y in Q. rewrite <- (Rminus_0_r (value y j)). apply Q; [|lia].
    intros i Y' Hi' HY' BY'. rewrite lin_minus. rewrite (lin_quiet _ (fun _ => 0)) by reflexivity. rewrite Rminus_0_r. rewrite <- (side_lin prec emax).
    destruct (nthZ y i) as [v|] eqn:Ey; [|apply nthZ_none in Ey; exfalso; lia]. destruct (Rs i v Ey (Fy i v ltac:(lia) Ey)) as (_ & _ & E). unfold rounding in E. cbv zeta in E. fold N in E. fold gamma in E. fold terms in E. fold underflow in E.
    pose proof (side_abs_bound prec emax (numerator sys) x i M HM (fun j _ => Bx j)) as S1. pose proof (side_abs_bound prec emax (denominator sys) y i Y' HY' BY') as S2. fold A in S2. fold B in S1.
    assert (S3 : Rabs (side (numerator sys) x i) <= B * M) by (rewrite (side_lin prec emax); unfold B; rewrite <- weight_absum; apply lin_bound; [exact HM|intros; apply Bx]).
    assert (gamma * (side_abs (numerator sys) x i + side_abs (denominator sys) y i) <= gamma * (B * M + A * Y')) by (apply Rmult_le_compat_l; lra).
    set (sy := side (denominator sys) y i) in *. set (sx := side (numerator sys) x i) in *. replace sy with ((sy - sx) + sx) by ring. eapply Rle_trans; [apply Rabs_triang|]. lra. }
  assert (AF : all_finite y).
  { apply until_induction. intros n v Hn0 Fy Ev. pose proof (nthZ_some _ _ _ Ev) as Rn. specialize (Ru n ltac:(lia)). unfold df1_rule in Ru. rewrite (elt_some _ _ _ _ _ Ev) in Ru. rewrite Ru.
    destruct (usable_lead _ _ _ _ Hu) as (l & El & Evl & Fl & Nl & Bl). rewrite El. rewrite Evl in *.
    assert (Ll : S (length (lower (denominator sys))) = length (denominator sys)) by (pose proof (lower_len (denominator sys)); pose proof (proj1 Hu); unfold lenZ in *; lia).
    assert (Flow : all_finite (lower (denominator sys))) by (intros z Hz; apply Fden; unfold lower in Hz; rewrite <- (firstn_skipn (Z.to_nat (lenZ (denominator sys) - 1)) (denominator sys)); apply in_or_app; now left).
    assert (HH : (1 + u) ^ (N + 4) * (pabs B2R (newest fzero (numerator sys) x n) + pabs B2R (newest fzero (lower (denominator sys)) y (n - 1))) + INR (length (newest fzero (numerator sys) x n) + length (newest fzero (lower (denominator sys)) y (n - 1))) * (1 + u) ^ (N + 4) * (eta / 2) <= H).
    { rewrite !(pabs_side prec emax), !(newest_length prec emax). unfold H. replace ((1 + u) ^ (N + 4)) with (1 + gamma) by (unfold gamma; ring). pose proof (side_abs_bound prec emax (numerator sys) x n M HM (fun j _ => Bx j)) as S1. pose proof (side_abs_bound prec emax (lower (denominator sys)) y (n - 1) Y HY (BY (n - 1)%Z ltac:(lia) Fy)) as S2.
      fold B in S1. assert (S3 : weight (lower (denominator sys)) <= A) by apply weight_sub. assert (weight (lower (denominator sys)) * Y <= A * Y) by now apply Rmult_le_compat_r.
      apply Rplus_le_compat; [apply Rmult_le_compat_l; lra|]. apply Rmult_le_compat_r; [apply eta_pos|]. apply Rmult_le_compat_r; [lra|]. unfold terms. apply le_INR. lia. }
    apply (df1_up prec emax Hprec Hmax madd _ _ l N (madd_steady _ Hm) Fl Nl Bl).
    - apply inv_up; [exact Nl|exact Hi].
    - rewrite (newest_length prec emax). unfold N. lia.
    - rewrite (newest_length prec emax). unfold N. lia.
    - apply newest_pfin; [exact Fnum|]. intros j w _ E. now apply (all_finite_at x Fx _ _ E).
    - now apply newest_pfin.
    - exact (Rle_lt_trans _ _ _ HH H1).
    - eapply Rle_lt_trans; [|exact H2]. apply Rplus_le_compat_r. unfold Rdiv. apply Rmult_le_compat_r; [left; now apply Rinv_0_lt_compat, Rabs_pos_lt|]. exact HH. }
  split; [exact AF|]. intros n. destruct (Z_lt_ge_dec n (lenZ x)) as [Hn|Hn].
  - apply (BY n Hn); [|lia]. intros j v _ E. now apply (all_finite_at y AF _ _ E).
  - rewrite (value_elt prec emax). unfold elt. rewrite (proj2 (nthZ_none y n)) by lia. cbn [B2R]. rewrite Rabs_R0. exact HY.
Qed.
(** ** Direct form II *)
Lemma df2_rules madd (sys : tf float) ord x : usable sys ord -> okP (Filter_df2_ieee prec emax Hprec Hmax madd sys x (gdf2_new fzero ord)) (fun r => lenZ (fst r) = lenZ x /\
    exists w, lenZ w = lenZ x /\ forall n, (0 <= n < lenZ x)%Z -> df2_rule fzero Bone (Bminus mode_NE) (Bmult mode_NE) (Bdiv mode_NE) madd sys x w (fst r) n).
Proof.
  intros Hu. pose proof (usable_fits _ _ _ _ Hu) as Hf. unfold Filter_df2_ieee, gFilter_df2. rewrite giir_filter_feeds, (df2_pre_new prec emax) by exact Hu. cbn [assert_].
  eapply okP_imp; [apply (df2_run fzero Bone (Bminus mode_NE) (Bmult mode_NE) (Bdiv mode_NE) madd sys ord x _ [] [] []); [exact Hf|apply df2_new_has; apply Hu|reflexivity|reflexivity]|].
  cbn beta zeta. intros [y s] (L & w & Lw & _ & R). cbn [fst app] in *. split; [exact L|]. exists w. split; [exact Lw|]. intros n Hn. apply R. rewrite lenZ_nil. lia.
Qed.
Lemma one_small : (1 + u) / 1 + eta / 2 < overflow.
Proof.
  pose proof Hprec as P. pose proof Hmax as Q. unfold Prec_gt_0 in P. unfold Prec_lt_emax in Q. assert (u <= / 2) by (change (/ 2) with (bpow radix2 (-1)); apply bpow_le; lia). assert (eta <= 1) by (change 1 with (bpow radix2 0); apply bpow_le; lia).
  assert (4 <= overflow) by (change 4 with (bpow radix2 2); apply bpow_le; lia). unfold Rdiv. rewrite Rinv_1. lra.
Qed.
Lemma flip_pfin ps : pfin prec emax ps -> pfin prec emax (map flip_pair ps).
Proof. intros H p Hp. apply in_map_iff in Hp as (q & <- & Hq). destruct (H q Hq) as [H1 H2]. now split. Qed.
Theorem C75_direct_form_II madd (sys : tf float) (ord : Z) (x : list float) (ps : list C) (M : R) : is_madd madd -> usable sys ord ->
  lead_value sys = 1 -> all_finite (numerator sys) -> all_finite (denominator sys) -> all_finite x -> stable_denominator (denominator sys) 1 ps -> input_bound x M ->
  let Nb := length (numerator sys) in let Na := length (denominator sys) in
  let gb := (1 + u) ^ (Nb + 1) - 1 in let ga := (1 + u) ^ (Na + 2) - 1 in
  let ub := INR Nb * (1 + u) ^ (Nb + 1) * (eta / 2) in let ua := INR Na * (1 + u) ^ (Na + 2) * (eta / 2) in
  let A := weight (denominator sys) in let B := weight (numerator sys) in let D := damping 1 ps in
  let W := (1 + 2 * (ga * A) / D) * (((1 + ga) * M + ua) / D) in
  2 * (ga * A) <= D -> (1 + ga) * (M + A * W) + ua < overflow -> (1 + gb) * (B * W) + ub < overflow ->
  okP (Filter_df2_ieee prec emax Hprec Hmax madd sys x (gdf2_new fzero ord)) (fun r => let y := fst r in all_finite y /\ forall n, Rabs (value y n) <= (1 + gb) * (B * W) + ub).
Proof.
  intros Hm Hu Hl Fnum Fden Fx Hs [HM Hx] Nb Na gb ga ub ua A B D W Hk H1 H2. eapply okP_imp; [apply (df2_rules madd sys ord x Hu)|].
  cbn beta zeta. intros [y s] (L & w & Lw & Ru). cbn [fst] in *. pose proof (damping_pos _ _ _ _ _ Hs) as HD. fold D in HD. destruct (stable_factors _ _ _ _ _ Hs) as (HP & HF & ED). fold D in ED.
  destruct (usable_lead _ _ _ _ Hu) as (l & El & Evl & Fl & Nl & Bl). assert (E1 : B2R l = 1) by congruence. set (num := numerator sys) in *. set (den := denominator sys) in *.
  pose proof (gamma_pos prec (Nb + 1)) as Hgb. fold gb in Hgb. pose proof (gamma_pos prec (Na + 2)) as Hga. fold ga in Hga. pose proof (weight_pos prec emax den) as HA. pose proof (weight_pos prec emax num) as HB. fold A in HA. fold B in HB.
  assert (Hub : 0 <= ub) by (pose proof (under_pos prec emax Nb (Nb + 1) 0 ltac:(lra)) as X; rewrite Rplus_0_r in X; exact X). assert (Hua : 0 <= ua) by (pose proof (under_pos prec emax Na (Na + 2) 0 ltac:(lra)) as X; rewrite Rplus_0_r in X; exact X).
  pose proof (input_value prec emax x M (conj HM Hx)) as Bx. assert (Hd : (0 < lenZ den)%Z) by apply Hu. assert (Ll : S (length (lower den)) = Na) by (pose proof (lower_len den); unfold Na, lenZ in *; lia).
  assert (HgM : 0 <= ga * M) by now apply Rmult_le_pos. assert (HgA : 0 <= ga * A) by now apply Rmult_le_pos.
  assert (HW : 0 <= W). { unfold W. apply Rmult_le_pos; [|unfold Rdiv; apply Rmult_le_pos; [lra|left; now apply Rinv_0_lt_compat]]. assert (0 <= 2 * (ga * A) / D) by (unfold Rdiv; apply Rmult_le_pos; [lra|left; now apply Rinv_0_lt_compat]). lra. }
  assert (WL : weight (lower den) <= A) by apply weight_sub.
  (* the recursion, where it is finite *)
  assert (R2 : forall j v Y, nthZ w j = Some v -> finite v -> 0 <= Y -> (forall i, (i <= j)%Z -> Rabs (value w i) <= Y) -> Rabs (side den w j - value x j) <= ga * (M + A * Y) + ua).
  { intros j v Y Ev Fv HY BY. pose proof (nthZ_some _ _ _ Ev) as Rj. destruct (Ru j ltac:(lia)) as [E _]. rewrite (elt_some _ _ _ _ _ Ev) in E. fold den in E. rewrite El in E.
    destruct (df2_bound prec emax Hprec Hmax madd v (elt fzero x j) _ l (madd_good _ _ _ _ _ Hm) Fl Nl Bl E Fv) as (_ & _ & E2).
    destruct (psum_flip prec emax (newest fzero (lower den) w (j - 1))) as (P1 & P2 & _). rewrite P1, P2, map_length, (psum_side prec emax), (pabs_side prec emax), (newest_length prec emax), E1 in E2. unfold Rdiv in E2 at 1 2. rewrite Rinv_1, Rmult_1_r in E2.
    rewrite (side_split prec emax) by exact Hd. unfold PropsIirFloat.lead_value in Hl. fold den in Hl. rewrite Hl, Rmult_1_l, (value_elt prec emax w j), (elt_some _ _ _ _ _ Ev). rewrite <- (value_elt prec emax x j) in E2. eapply Rle_trans; [exact E2|].
    replace (length (lower den) + 3)%nat with (Na + 2)%nat by lia. replace (length (lower den) + 1)%nat with Na by lia. pose proof (side_abs_bound prec emax (lower den) w (j - 1) Y HY (fun i Hi => BY i ltac:(lia))) as S2. specialize (Bx j).
    fold (ur prec) in ga, ua |- *. fold (tiny prec emax) in ua |- *. fold ga. fold ua. apply Rplus_le_compat_r, Rmult_le_compat_l; [exact Hga|]. apply Rplus_le_compat; [exact Bx|]. eapply Rle_trans; [exact S2|]. now apply Rmult_le_compat_r. }
  assert (BW : forall n, (n < lenZ x)%Z -> finite_until w n -> forall j, (j <= n)%Z -> Rabs (value w j) <= W).
  { intros n Hn Fw j Hj. destruct (Z_lt_ge_dec j 0) as [|Hj0]; [rewrite value_neg, Rabs_R0 by assumption; exact HW|].
    pose proof (noise_core (map B2R den) 1 ps (value w) (fun _ => 0) 0 ((1 + ga) * M + ua) (ga * A) (n + 1) HP HF ltac:(lra) ltac:(lra) HgA) as Q. rewrite ED in Q.
    specialize (Q Hk (fun i Hi' => value_neg _ _ w i Hi') (fun i _ => eq_refl) ltac:(intros; rewrite Rabs_R0; lra)). rewrite Rmult_0_r, Rplus_0_l in Q. fold W in Q. rewrite <- (Rminus_0_r (value w j)). apply Q; [|lia].
    intros i Y' Hi' HY' BY'. rewrite lin_minus. rewrite (lin_quiet _ (fun _ => 0)) by reflexivity. rewrite Rminus_0_r. rewrite <- (side_lin prec emax).
    destruct (nthZ w i) as [v|] eqn:Ey; [|apply nthZ_none in Ey; exfalso; lia]. pose proof (R2 i v Y' Ey (Fw i v ltac:(lia) Ey) HY' BY') as E. specialize (Bx i).
    set (sy := side den w i) in *. set (sx := value x i) in *. replace sy with ((sy - sx) + sx) by ring. eapply Rle_trans; [apply Rabs_triang|]. lra. }
  assert (AF : all_finite w).
  { apply until_induction. intros n v Hn0 Fw Ev. pose proof (nthZ_some _ _ _ Ev) as Rn. destruct (Ru n ltac:(lia)) as [E _]. rewrite (elt_some _ _ _ _ _ Ev) in E. rewrite E. fold den. rewrite El.
    assert (Flow : all_finite (lower den)) by (intros z Hz; apply Fden; unfold lower in Hz; rewrite <- (firstn_skipn (Z.to_nat (lenZ den - 1)) den); apply in_or_app; now left).
    apply (df2_up prec emax Hprec Hmax madd _ _ l (madd_steady _ Hm) Fl Nl Bl).
    - apply inv_up; [exact Nl|]. rewrite E1, Rabs_R1. exact one_small.
    - apply elt_finite. apply all_finite_at, Fx.
    - apply flip_pfin. now apply newest_pfin.
    - destruct (psum_flip prec emax (newest fzero (lower den) w (n - 1))) as (_ & P2 & _). rewrite P2, map_length, (pabs_side prec emax), (newest_length prec emax), E1. unfold Rdiv at 1. rewrite Rinv_1, Rmult_1_r. rewrite <- (value_elt prec emax x n).
      replace (length (lower den) + 3)%nat with (Na + 2)%nat by lia. replace (length (lower den) + 1)%nat with Na by lia. eapply Rle_lt_trans; [|exact H1]. fold ua. apply Rplus_le_compat_r. replace ((1 + ur prec) ^ (Na + 2)) with (1 + ga) by (unfold ga, ur; ring).
      apply Rmult_le_compat_l; [lra|]. apply Rplus_le_compat; [apply Bx|]. eapply Rle_trans; [apply (side_abs_bound prec emax (lower den) w (n - 1) W HW (BW (n - 1)%Z ltac:(lia) Fw))|]. now apply Rmult_le_compat_r. }
  assert (FW : forall n, finite_until w n) by (intros n j v _ E; now apply (all_finite_at w AF _ _ E)).
  assert (BWa : forall j, Rabs (value w j) <= W). { intros j. destruct (Z_lt_ge_dec j (lenZ x)) as [Hj|Hj]; [apply (BW j Hj (FW j)); lia|]. rewrite (value_elt prec emax). unfold elt. rewrite (proj2 (nthZ_none w j)) by lia. cbn [B2R]. rewrite Rabs_R0. exact HW. }
  assert (SA : forall n, side_abs num w n <= B * W) by (intros n; apply side_abs_bound; [exact HW|intros; apply BWa]).
  assert (HT : forall n, (1 + ur prec) ^ (length (map flip_pair (newest fzero num w n)) + 1) * pabs B2R (map flip_pair (newest fzero num w n)) + INR (length (map flip_pair (newest fzero num w n))) * (1 + ur prec) ^ (length (map flip_pair (newest fzero num w n)) + 1) * (tiny prec emax / 2) <= (1 + gb) * (B * W) + ub).
  { intros n. destruct (psum_flip prec emax (newest fzero num w n)) as (_ & P2 & _). rewrite P2, map_length, (pabs_side prec emax), (newest_length prec emax). fold Nb. fold ub. apply Rplus_le_compat_r. replace ((1 + ur prec) ^ (Nb + 1)) with (1 + gb) by (unfold gb, ur; ring). apply Rmult_le_compat_l; [lra|apply SA]. }
  assert (AY : forall n v, nthZ y n = Some v -> finite v /\ Rabs (B2R v) <= (1 + gb) * (B * W) + ub).
  { intros n v Ev. pose proof (nthZ_some _ _ _ Ev) as Rn. destruct (Ru n ltac:(lia)) as [_ E]. rewrite (elt_some _ _ _ _ _ Ev) in E. fold num in E. rewrite E.
    assert (F : finite (sop fzero madd (map flip_pair (newest fzero num w n)))) by (apply (sop_up prec emax madd _ (madd_steady _ Hm)); [apply flip_pfin; now apply newest_pfin|exact (Rle_lt_trans _ _ _ (HT n) H2)]).
    split; [exact F|]. eapply Rle_trans; [apply (sop_size prec emax madd _ (madd_good _ _ _ _ _ Hm) F)|apply HT]. }
  split.
  - intros v Hv. apply In_nth_error in Hv as [i Hi]. apply (AY (Z.of_nat i) v). now rewrite nthZ_nth_error.
  - intros n. rewrite (value_elt prec emax). unfold elt. destruct (nthZ y n) as [v|] eqn:Ev; [now apply (AY n)|]. cbn [B2R]. rewrite Rabs_R0. assert (0 <= B * W) by now apply Rmult_le_pos. assert (0 <= gb * (B * W)) by now apply Rmult_le_pos. lra.
Qed.

(** ** Cascade of biquads *)
Notation g5 := (g5 prec).
Notation u5 := (u5 prec emax).
Notation num_weight := (num_weight prec emax).
Notation den_weight := (den_weight prec emax).
(** the largest sample a section with poles [p], [q] can put out when its input is at most [M] *)
Definition section_level (b : biquad float) (p q : C) (M : R) : R :=
  let A := den_weight b in let B := num_weight b in let D := damping 1 [p; q] in (1 + 2 * (g5 * A) / D) * (((1 + g5) * (B * M) + u5) / D).
Fixpoint cascade_level (sys : list (biquad float)) (poles : list (C * C)) (M : R) : R :=
  match sys, poles with b :: sys, (p, q) :: poles => cascade_level sys poles (section_level b p q M) | _, _ => M end.
(** no section computes a number above the threshold *)
Fixpoint cascade_fits (sys : list (biquad float)) (poles : list (C * C)) (M : R) : Prop :=
  match sys, poles with
  | b :: sys, (p, q) :: poles => let Y := section_level b p q M in (1 + g5) * (num_weight b * M + den_weight b * Y) + u5 < overflow /\ cascade_fits sys poles Y
  | _, _ => True
  end.
Definition finite_section (b : biquad float) : Prop := let '(b0, b1, b2) := bnum b in let '(a0, a1) := bden b in all_finite [b0; b1; b2; a0; a1].
Lemma cf_rules madd (sys : list (biquad float)) ord x : (0 <= ord)%Z -> (lenZ sys <= (ord + 1) / 2)%Z ->
  okP (Filter_cf_ieee prec emax Hprec Hmax madd sys x (gcf_new fzero ord)) (fun r => lenZ (fst r) = lenZ x /\ cascade_rule fzero (Bminus mode_NE) (Bmult mode_NE) madd sys x (fst r)).
Proof.
  intros Ho Hs. unfold Filter_cf_ieee, gFilter_cf. rewrite giir_filter_feeds. cbn [assert_]. assert (0 <= (ord + 1) / 2)%Z by (apply Z.div_pos; lia).
  eapply okP_imp; [apply (casc_run fzero (Bminus mode_NE) (Bmult mode_NE) madd sys x (gcf_new fzero ord) [] [])|].
  - unfold gcf_new, gcf_set_order. rewrite vresize_nil. apply casc_new_has. lia.
  - unfold gcf_new, gcf_set_order. rewrite vresize_nil, lenZ_repeat. lia.
  - cbn beta. intros [y s] (L & R & _). cbn [fst app] in *. now split.
Qed.
Lemma section_flows madd (b : biquad float) (p q : C) (x y : list float) M : is_madd madd -> finite_section b -> all_finite x -> 0 <= M -> (forall n, Rabs (value x n) <= M) -> lenZ y = lenZ x ->
  (let '(a0, a1) := bden b in stable_denominator [a0; a1; Bone] 1 [p; q]) -> 2 * (g5 * den_weight b) <= damping 1 [p; q] ->
  (1 + g5) * (num_weight b * M + den_weight b * section_level b p q M) + u5 < overflow ->
  (forall n, (0 <= n < lenZ x)%Z -> section_rule fzero (Bminus mode_NE) (Bmult mode_NE) madd b x y n) -> 0 <= section_level b p q M /\ all_finite y /\ forall n, Rabs (value y n) <= section_level b p q M.
Proof.
  intros Hm Fb Fx HM Bx L Hs Hk Ho Ru. pose proof (section_of_rule prec emax Hprec Hmax madd b x y Hm L Ru) as Hb. set (Y := section_level b p q M) in *. unfold section_rule in Ru. unfold section_ok in Hb. unfold finite_section in Fb. unfold PropsNoise.den_weight, PropsNoise.num_weight in Hk, Ho. unfold section_level, PropsNoise.den_weight, PropsNoise.num_weight in Y.
  destruct (bnum b) as [[b0 b1] b2]. destruct (bden b) as [a0 a1]. destruct Hb as [_ Hb]. set (A := weight [a0; a1]) in *. set (B := weight [b0; b1; b2]) in *. set (D := damping 1 [p; q]) in *.
  pose proof (damping_pos _ _ _ _ _ Hs) as HD. fold D in HD. destruct (stable_factors _ _ _ _ _ Hs) as (HP & HF & ED). fold D in ED. pose proof (weight_pos prec emax [a0; a1]) as HA. pose proof (weight_pos prec emax [b0; b1; b2]) as HB. fold A in HA. fold B in HB. pose proof (g5_pos prec) as Hg. pose proof (u5_pos prec emax) as Hu.
  assert (HBM : 0 <= B * M) by now apply Rmult_le_pos. assert (HgBM : 0 <= g5 * (B * M)) by now apply Rmult_le_pos. assert (HgA : 0 <= g5 * A) by now apply Rmult_le_pos.
  assert (HY : 0 <= Y). { unfold Y. apply Rmult_le_pos; [|unfold Rdiv; apply Rmult_le_pos; [lra|left; now apply Rinv_0_lt_compat]]. assert (0 <= 2 * (g5 * A) / D) by (unfold Rdiv; apply Rmult_le_pos; [lra|left; now apply Rinv_0_lt_compat]). lra. }
  assert (BY : forall n, (n < lenZ x)%Z -> finite_until y n -> forall j, (j <= n)%Z -> Rabs (value y j) <= Y).
  { intros n Hn Fy j Hj. destruct (Z_lt_ge_dec j 0) as [|Hj0]; [rewrite value_neg, Rabs_R0 by assumption; exact HY|].
    pose proof (noise_core (map B2R [a0; a1; Bone]) 1 [p; q] (value y) (fun _ => 0) 0 ((1 + g5) * (B * M) + u5) (g5 * A) (n + 1) HP HF ltac:(lra) ltac:(lra) HgA) as Q. rewrite ED in Q.
    specialize (Q Hk (fun i Hi' => value_neg _ _ y i Hi') (fun i _ => eq_refl) ltac:(intros; rewrite Rabs_R0; lra)). rewrite Rmult_0_r, Rplus_0_l in Q. fold Y in Q. rewrite <- (Rminus_0_r (value y j)). apply Q; [|lia].
    intros i Y' Hi' HY' BY'. rewrite lin_minus. rewrite (lin_quiet _ (fun _ => 0)) by reflexivity. rewrite Rminus_0_r. rewrite <- (side_lin prec emax).
    destruct (nthZ y i) as [v|] eqn:Ey; [|apply nthZ_none in Ey; exfalso; lia]. destruct (Hb i v Ey (Fy i v ltac:(lia) Ey)) as (_ & _ & E). fold g5 in E. fold u5 in E.
    pose proof (side_abs_bound prec emax [b0; b1; b2] x i M HM (fun j _ => Bx j)) as S1. pose proof (side_abs_bound prec emax [a0; a1] y (i - 1) Y' HY' (fun j Hj => BY' j ltac:(lia))) as S2. fold A in S2. fold B in S1.
    assert (S3 : Rabs (side [b0; b1; b2] x i) <= B * M) by (rewrite (side_lin prec emax); unfold B; rewrite <- weight_absum; apply lin_bound; [exact HM|intros; apply Bx]).
    assert (g5 * (side_abs [b0; b1; b2] x i + side_abs [a0; a1] y (i - 1)) <= g5 * (B * M + A * Y')) by (apply Rmult_le_compat_l; lra).
    set (sy := side [a0; a1; Bone] y i) in *. set (sx := side [b0; b1; b2] x i) in *. replace sy with ((sy - sx) + sx) by ring. eapply Rle_trans; [apply Rabs_triang|]. lra. }
  assert (AF : all_finite y).
  { apply until_induction. intros n v Hn0 Fy Ev. pose proof (nthZ_some _ _ _ Ev) as Rn. specialize (Ru n ltac:(lia)). rewrite (elt_some _ _ _ _ _ Ev) in Ru. rewrite Ru.
    assert (FX : forall j, finite (elt fzero x j)) by (intros j; apply elt_finite; apply all_finite_at, Fx). assert (FY : forall j, (j <= n - 1)%Z -> finite (elt fzero y j)) by (intros j Hj; apply elt_finite; intros z E; now apply (Fy j z Hj)).
    apply (section_up prec emax Hprec Hmax madd _ _ _ _ _ _ _ _ _ _ (madd_steady _ Hm)); try apply FX; try (apply FY; lia); try (apply Fb; cbn; tauto).
    eapply Rle_lt_trans; [|exact Ho]. unfold PropsNoise.u5. fold (ur prec). fold (tiny prec emax). apply Rplus_le_compat; [|apply Req_le; unfold ur, tiny; ring].
    replace ((1 + ur prec) ^ 5) with (1 + g5) by (unfold PropsNoise.g5, ur; ring). apply Rmult_le_compat_l; [lra|].
    pose proof (side_abs_bound prec emax [b0; b1; b2] x n M HM (fun j _ => Bx j)) as S1. pose proof (side_abs_bound prec emax [a0; a1] y (n - 1) Y HY (BY (n - 1)%Z ltac:(lia) Fy)) as S2. fold A in S2. fold B in S1.
    rewrite side_abs3 in S1. rewrite side_abs2 in S2. rewrite !(value_elt prec emax) in S1. rewrite !(value_elt prec emax) in S2. cbv beta zeta; rewrite !Rabs_mult. lra. }
  split; [exact HY|]. split; [exact AF|]. intros n. destruct (Z_lt_ge_dec n (lenZ x)) as [Hn|Hn].
  - apply (BY n Hn); [|lia]. intros j v _ E. now apply (all_finite_at y AF _ _ E).
  - rewrite (value_elt prec emax). unfold elt. rewrite (proj2 (nthZ_none y n)) by lia. cbn [B2R]. rewrite Rabs_R0. exact HY.
Qed.
Lemma cascade_flows madd sys : is_madd madd -> forall poles x y M, damped prec emax Hprec Hmax sys poles -> (forall b, In b sys -> finite_section b) -> all_finite x -> 0 <= M -> (forall n, Rabs (value x n) <= M) -> cascade_fits sys poles M ->
  cascade_rule fzero (Bminus mode_NE) (Bmult mode_NE) madd sys x y -> all_finite y /\ forall n, Rabs (value y n) <= cascade_level sys poles M.
Proof.
  intros Hm. induction sys as [|b sys IH]; intros [|[p q] poles] x y M Hd Fb Fx HM Bx Hf Hc; try contradiction.
  - cbn in Hc. subst y. split; [exact Fx|exact Bx].
  - cbn [damped] in Hd. destruct Hd as (Hs & Hk & Hd). cbn [cascade_fits] in Hf. destruct Hf as [Ho Hf]. cbn [cascade_rule] in Hc. destruct Hc as (m & Lm & Rm & Hc). cbn [cascade_level].
    destruct (section_flows madd b p q x m M Hm (Fb b (or_introl eq_refl)) Fx HM Bx Lm Hs Hk Ho Rm) as (HY & Fm & Bm). apply (IH poles m y _ Hd (fun c Hc' => Fb c (or_intror Hc')) Fm HY Bm Hf Hc).
Qed.
Theorem C75_cascade madd (sys : list (biquad float)) (poles : list (C * C)) (ord : Z) (x : list float) (M : R) : is_madd madd -> (0 <= ord)%Z -> (lenZ sys <= (ord + 1) / 2)%Z ->
  damped prec emax Hprec Hmax sys poles -> (forall b, In b sys -> finite_section b) -> all_finite x -> input_bound x M -> cascade_fits sys poles M ->
  okP (Filter_cf_ieee prec emax Hprec Hmax madd sys x (gcf_new fzero ord)) (fun r => let y := fst r in all_finite y /\ forall n, Rabs (value y n) <= cascade_level sys poles M).
Proof.
  intros Hm Ho Hs Hd Fb Fx Hx Hf. eapply okP_imp; [apply (cf_rules madd sys ord x Ho Hs)|]. cbn beta zeta. intros [y s] [L Rs]. cbn [fst] in *.
  apply (cascade_flows madd sys Hm poles x y M Hd Fb Fx (proj1 Hx) (input_value prec emax x M Hx) Hf Rs).
Qed.
(** ** C74 without the proviso *)
Lemma all_until (y : list float) n : all_finite y -> finite_until y n.
Proof. intros H j v _ E. now apply (all_finite_at y H _ _ E). Qed.
Corollary C75_direct_form_I_accurate madd (sys : tf float) (ord : Z) (x : list float) (exact : list R) (lead : R) (ps : list C) (M : R) : is_madd madd -> usable sys ord ->
  all_finite (numerator sys) -> all_finite (denominator sys) -> all_finite x -> stable_denominator (denominator sys) lead ps -> input_bound x M ->
  difference_equation (K := Complex.Rfield) (map B2R (numerator sys)) (map B2R (denominator sys)) (map B2R x) exact ->
  let N := Nat.max (length (numerator sys)) (length (denominator sys)) in
  let gamma := (1 + u) ^ (N + 4) - 1 in
  let terms := INR (length (numerator sys) + length (denominator sys)) in
  let underflow := (terms * (1 + u) ^ (N + 4) + Rabs (lead_value sys)) * (eta / 2) in
  let A := weight (denominator sys) in let B := weight (numerator sys) in let D := damping lead ps in
  let Y := (1 + 2 * (gamma * A) / D) * (((1 + gamma) * (B * M) + underflow) / D) in
  let H := (1 + gamma) * (B * M + A * Y) + terms * (1 + gamma) * (eta / 2) in
  2 * (gamma * A) <= D -> (1 + u) / Rabs (lead_value sys) + eta / 2 < overflow -> H < overflow -> H / Rabs (lead_value sys) + eta / 2 < overflow ->
  okP (Filter_df1_ieee prec emax Hprec Hmax madd sys x (gdf1_new fzero ord)) (fun r => let y := fst r in
    forall n, (0 <= n < lenZ x)%Z -> Rabs (value y n - at0 (K := Rring) exact n) <= (1 + 2 * (gamma * A) / D) * ((gamma * B * (1 + A / D) * M + underflow) / D)).
Proof.
  intros Hm Hu Fn Fd Fx Hs Hx He N gamma terms underflow A B D Y H Hk Hi H1 H2.
  eapply okP_imp; [exact (okP_both _ _ _ (C75_direct_form_I madd sys ord x lead ps M Hm Hu Fn Fd Fx Hs Hx Hk Hi H1 H2) (C74_direct_form_I prec emax Hprec Hmax madd sys ord x exact lead ps M Hm Hu Hs Hx He Hk))|].
  cbv beta zeta. intros r [[Fy _] E] n Hn. apply E; [exact Hn|now apply all_until].
Qed.
Corollary C75_cascade_accurate madd (sys : list (biquad float)) (poles : list (C * C)) (ord : Z) (x : list float) (exact : list R) (M : R) : is_madd madd -> (0 <= ord)%Z -> (lenZ sys <= (ord + 1) / 2)%Z ->
  damped prec emax Hprec Hmax sys poles -> (forall b, In b sys -> finite_section b) -> all_finite x -> input_bound x M -> cascade_fits sys poles M ->
  sections_in_turn (K := Complex.Rfield) (map (bq_value prec emax) sys) (map B2R x) exact ->
  okP (Filter_cf_ieee prec emax Hprec Hmax madd sys x (gcf_new fzero ord)) (fun r => let y := fst r in
    forall n, (0 <= n < lenZ x)%Z -> Rabs (value y n - at0 (K := Rring) exact n) <= cascade_noise prec emax sys poles 0 M).
Proof.
  intros Hm Ho Hs Hd Fb Fx Hx Hf He. eapply okP_imp; [exact (okP_both _ _ _ (C75_cascade madd sys poles ord x M Hm Ho Hs Hd Fb Fx Hx Hf) (C74_cascade prec emax Hprec Hmax madd sys poles ord x exact M Hm Ho Hs Hd Hx He))|].
  cbv beta zeta. intros r [[Fy _] E] n Hn. apply E; [exact Hn|now apply all_until].
Qed.
End Ieee.
Print Assumptions C75_direct_form_I.
Print Assumptions C75_direct_form_II.
Print Assumptions C75_cascade.
Print Assumptions C75_direct_form_I_accurate.
Print Assumptions C75_cascade_accurate.

#[local] Existing Instance p24.
#[local] Existing Instance e128.
Lemma size32 g uf : 0 <= g <= 1 / 32 -> 0 <= uf <= 3 -> let Y := (1 + 2 * (g * (3 / 2)) / (1 / 2)) * (((1 + g) * (2 * 1) + uf) / (1 / 2)) in 0 <= Y <= 13.
Proof.
  intros Hg Hu Y. assert (E : Y = (1 + 6 * g) * (2 * ((1 + g) * 2 + uf))) by (unfold Y; field). rewrite E. assert (0 <= 1 + 6 * g <= 38 / 32) by lra. assert (0 <= 2 * ((1 + g) * 2 + uf) <= 2 * (66 / 32 + 3)) by lra. split; [apply Rmult_le_pos; lra|].
  apply Rle_trans with (38 / 32 * (2 * (66 / 32 + 3))); [apply Rmult_le_compat; lra|lra].
Qed.
(** the system of C74 with inputs of at most 1 in single precision *)
Example C75_nontrivial :
  let gamma := (1 + bpow radix2 (- 24)) ^ (2 + 4) - 1 in
  let underflow := (INR 4 * (1 + bpow radix2 (- 24)) ^ (2 + 4) + Rabs (PropsIirFloat.lead_value 24 128 noise_sys)) * (bpow radix2 (3 - 128 - 24) / 2) in
  let A := PropsNoise.weight 24 128 (denominator noise_sys) in let B := PropsNoise.weight 24 128 (numerator noise_sys) in let D := damping 1 [RtoC (1 / 2)] in
  let Y := (1 + 2 * (gamma * A) / D) * (((1 + gamma) * (B * 1) + underflow) / D) in
  let H := (1 + gamma) * (B * 1 + A * Y) + INR 4 * (1 + gamma) * (bpow radix2 (3 - 128 - 24) / 2) in
  PropsFloat.all_finite 24 128 (numerator noise_sys) /\ PropsFloat.all_finite 24 128 (denominator noise_sys) /\
  (1 + bpow radix2 (- 24)) / Rabs (PropsIirFloat.lead_value 24 128 noise_sys) + bpow radix2 (3 - 128 - 24) / 2 < bpow radix2 128 /\ H < bpow radix2 128 /\
  H / Rabs (PropsIirFloat.lead_value 24 128 noise_sys) + bpow radix2 (3 - 128 - 24) / 2 < bpow radix2 128.
Proof.
  intros gamma underflow A B D Y H.
  assert (El : PropsIirFloat.lead_value 24 128 noise_sys = 1) by exact b32_one. rewrite El, Rabs_R1 in *.
  assert (Hp : Cabs (RtoC (1 / 2)) = 1 / 2) by (rewrite Cabs_RtoC; apply Rabs_right; lra).
  assert (EA : A = 3 / 2) by (unfold A, PropsNoise.weight; cbn [denominator noise_sys fold_right]; rewrite b32_mhalf, b32_one, Rabs_Ropp, Rabs_R1, (Rabs_right (1 / 2)) by lra; lra).
  assert (EB : B = 2) by (unfold B, PropsNoise.weight; cbn [numerator noise_sys fold_right]; rewrite b32_one, Rabs_R1; lra).
  assert (ED : D = 1 / 2) by (unfold D, damping; cbn [prod_minus]; rewrite Hp, Rabs_R1; lra).
  assert (Hg : 0 <= gamma <= 1 / 32). { split; [apply (gamma_pos 24)|]. unfold gamma. pose proof (pow24 (2 + 4)) as P. cbn in P |- *. lra. }
  assert (Ht : 0 <= bpow radix2 (3 - 128 - 24) <= 1) by (split; [apply bpow_ge_0|change 1 with (bpow radix2 0); apply bpow_le; lia]).
  assert (E4 : INR 4 = 4) by (cbn; lra). assert (EG : (1 + bpow radix2 (- 24)) ^ (2 + 4) = 1 + gamma) by (unfold gamma; lra).
  assert (Hu : 0 <= underflow <= 3). { unfold underflow. rewrite El, Rabs_R1, E4, EG. set (t := bpow radix2 (3 - 128 - 24)) in *. split; [apply Rmult_le_pos; lra|]. apply Rle_trans with (6 * (1 / 2)); [apply Rmult_le_compat; lra|lra]. }
  assert (HY : 0 <= Y <= 13). { unfold Y. rewrite EA, EB, ED. now apply size32. }
  assert (Big : 1024 <= bpow radix2 128) by (change 1024 with (bpow radix2 10); apply bpow_le; lia).
  assert (HH : 0 <= H <= 100). { unfold H. rewrite EA, EB, E4. set (t := bpow radix2 (3 - 128 - 24)) in *. assert (0 <= (1 + gamma) * (2 * 1 + 3 / 2 * Y) <= 2 * 22) by (split; [apply Rmult_le_pos; lra|apply Rmult_le_compat; lra]). assert (0 <= 4 * (1 + gamma) * (t / 2) <= 8 * 1) by (split; [apply Rmult_le_pos; lra|apply Rmult_le_compat; lra]). lra. }
  assert (u24' : bpow radix2 (- 24) <= 1 / 256) by exact u24.
  split; [intros v [<-|[<-|[]]]; vm_compute; reflexivity|]. split; [intros v [<-|[<-|[]]]; vm_compute; reflexivity|].
  unfold Rdiv in *. rewrite Rinv_1. split; [lra|]. split; lra.
Qed.
Print Assumptions C75_nontrivial.
