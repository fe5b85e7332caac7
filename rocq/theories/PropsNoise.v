(** C74: the rounding noise of a stable filter does not accumulate. *)
From Coq Require Import Reals Lra Lia List ZArith Arith Psatz.
From Flocq Require Import Core BinarySingleNaN.
From Verif Require Import Base BaseFacts Complex IntervalModel KernelModel KernelProofs ConvModel ConvProofs FloatSpec ReduceTree FloatSum FloatIeee PropsFloat ConvTree ConvFloat FloatStat FirModel IirModel IirProofs PolyModel PolyProofs SysModel SysProofs PropsPoly PropsIir PropsSys PropsDesign IirTree IirFloat PropsIirFloat StableProofs PropsStable NoiseProofs.
Import ListNotations.
Local Open Scope R_scope.
Notation linR := (lin (K := Complex.Rfield)).

Section Ieee.
Variables prec emax : Z.
Context (Hprec : Prec_gt_0 prec) (Hmax : Prec_lt_emax prec emax).
Notation float := (binary_float prec emax).
Notation u := (bpow radix2 (- prec)).
Notation eta := (bpow radix2 (3 - emax - prec)).
Notation fzero := (B754_zero false : float).
Notation finite x := (is_finite x = true).
Notation value := (value prec emax).
Notation side := (side prec emax).
Notation side_abs := (side_abs prec emax).

(** ** Specification *)
(** the values of the coefficients of [den] (lowest first) are those of lead * prod (z - p), with [ps] inside the unit circle *)
Definition stable_denominator (den : list float) (lead : R) (ps : list C) : Prop :=
  length den = S (length ps) /\ lead <> 0 /\ (forall z, complex_value (map B2R den) z = Cmul (RtoC lead) (vanishing_product ps z)) /\ (forall p, In p ps -> Cabs p < 1).
(** sum of the absolute values of the coefficients *)
Definition weight (c : list float) : R := fold_right (fun a acc => Rabs (B2R a) + acc) 0 c.
(** how far the denominator keeps from zero on the unit circle: |lead| prod (1 - |p|) *)
Definition damping (lead : R) (ps : list C) : R := Rabs lead * prod_minus ps.
Definition input_bound (x : list float) (M : R) : Prop := 0 <= M /\ forall v, In v x -> Rabs (B2R v) <= M.
(** the samples of [y] up to [n] are finite *)
Definition finite_until (y : list float) (n : Z) : Prop := forall j v, (j <= n)%Z -> nthZ y j = Some v -> finite v.

(** ** Bridges *)
Lemma stable_factors den lead ps : stable_denominator den lead ps -> factors (map B2R den) lead ps /\ Forall (fun p => Cabs p < 1) ps /\ Rabs lead * room ps 1 = damping lead ps.
Proof.
  intros (L & Hl & Hv & Hp). split; [split; [exact Hl|]|split; [apply Forall_forall; exact Hp|unfold damping; now rewrite prod_minus_room]].
  apply coefs_from_roots; [unfold lenZ; rewrite !map_length; lia|]. intros x.
  transitivity (Cmul (RtoC (/ lead)) (Cmul (RtoC lead) (vanishing_product ps (RtoC x)))).
  2:{ set (v := vanishing_product ps (RtoC x)). transitivity (Cmul (RtoC (/ lead * lead)) v); [cring|]. rewrite Rinv_l by exact Hl. cring. }
  rewrite <- Hv. rewrite <- complex_value_pval. rewrite <- !(poly_eval_pval (K := Cring) RtoC). clear. induction (map B2R den) as [|c cs IH]; [cbn; cring|]. cbn [map]. rewrite !(poly_eval_cons (K := Cring) RtoC), IH. set (v := poly_eval (K := Cring) RtoC cs (RtoC x)). unfold Rdiv. cring.
Qed.
Lemma weight_absum c : absum (map B2R c) = weight c.
Proof. induction c as [|a c IH]; [reflexivity|]. cbn [map absum fold_right weight]. unfold absum in IH. now rewrite IH. Qed.
Lemma weight_pos c : 0 <= weight c. Proof. rewrite <- weight_absum. apply absum_pos. Qed.
Lemma side_lin c f n : side c f n = linR (map B2R c) (value f) n.
Proof. apply side_is. Qed.
Lemma side_abs_bound c f n Y : 0 <= Y -> (forall j, (j <= n)%Z -> Rabs (value f j) <= Y) -> side_abs c f n <= weight c * Y.
Proof.
  intros HY H. rewrite <- weight_absum, <- absum_sum. unfold side_abs. rewrite lenZ_map.
  pose proof (sumZ_scale_r (K := Rring) 0 (lenZ c) Y (fun k => Rabs (value c (lenZ c - 1 - k)))) as E. eapply Rle_trans; [|apply Req_le; exact E]. clear E. apply sumR_le. intros k Hk. apply Rmult_le_compat_l; [apply Rabs_pos|apply H; lia].
Qed.
Lemma value_neg (f : list float) n : (n < 0)%Z -> value f n = 0. Proof. intros H. unfold PropsIirFloat.value. now apply at0_neg. Qed.
Lemma input_value x M : input_bound x M -> forall n, Rabs (value x n) <= M.
Proof.
  intros [HM H] n. apply (bounded_at0 (map B2R x) M HM). intros v Hv. apply in_map_iff in Hv as (w & <- & Hw). now apply H.
Qed.
Lemma lin_minus (c : list R) f g n : linR c (fun j => f j - g j) n = linR c f n - linR c g n.
Proof. unfold lin. refine (eq_trans _ (sumZ_sub (K := Rring) _ _ _ _)). apply (sumZ_ext (K := Rring)). intros k Hk. cbn. ring. Qed.
Lemma damping_pos den lead ps : stable_denominator den lead ps -> 0 < damping lead ps.
Proof. intros H. destruct (stable_factors _ _ _ H) as ((Hl & _) & HF & <-). apply Rmult_lt_0_compat; [now apply Rabs_pos_lt|now apply room_pos]. Qed.
Lemma gamma_pos k : 0 <= (1 + u) ^ k - 1.
Proof. assert (1 <= (1 + u) ^ k); [|lra]. apply pow_R1_Rle. pose proof (bpow_ge_0 radix2 (- prec)). lra. Qed.
Lemma eta_pos : 0 <= eta / 2. Proof. pose proof (bpow_ge_0 radix2 (3 - emax - prec)). lra. Qed.
Lemma under_pos k j c : 0 <= c -> 0 <= (INR k * (1 + u) ^ j + c) * (eta / 2).
Proof.
  intros Hc. apply Rmult_le_pos; [|apply eta_pos]. apply Rplus_le_le_0_compat; [|exact Hc]. apply Rmult_le_pos; [apply pos_INR|]. pose proof (gamma_pos j). lra.
Qed.
(** the exact answer is bounded *)
Lemma exact_bound den lead ps num (x ex : Z -> R) M T : factors den lead ps -> Forall (fun p => Cabs p < 1) ps -> 0 <= M -> (forall n, Rabs (x n) <= M) -> (forall n, (n < 0)%Z -> ex n = 0) -> (forall n, (0 <= n < T)%Z -> linR den ex n = linR num x n) ->
  forall n, (0 <= n < T)%Z -> Rabs (ex n) <= absum num * M / (Rabs lead * room ps 1).
Proof.
  intros HP HF HM Hx Hz He. apply (factors_within den lead ps ex _ T HP HF); [apply Rmult_le_pos; [apply absum_pos|exact HM]|exact Hz|]. intros n Hn. rewrite He by exact Hn. apply lin_bound; [exact HM|]. intros m _. apply Hx.
Qed.

(** ** Direct form I *)
(** The distance between the output and the exact answer [exact] to the same samples is bounded by a number that depends on the system and the largest
    input sample only, not on the length of the signal. *)
Theorem C74_direct_form_I madd (sys : tf float) (ord : Z) (x : list float) (exact : list R) (lead : R) (ps : list C) (M : R) : is_madd prec emax Hprec Hmax madd -> usable prec emax sys ord ->
  stable_denominator (denominator sys) lead ps -> input_bound x M ->
  difference_equation (K := Complex.Rfield) (map B2R (numerator sys)) (map B2R (denominator sys)) (map B2R x) exact ->
  let N := Nat.max (length (numerator sys)) (length (denominator sys)) in
  let gamma := (1 + u) ^ (N + 4) - 1 in
  let underflow := (INR (length (numerator sys) + length (denominator sys)) * (1 + u) ^ (N + 4) + Rabs (lead_value prec emax sys)) * (eta / 2) in
  let A := weight (denominator sys) in let B := weight (numerator sys) in let D := damping lead ps in
  2 * (gamma * A) <= D ->
  okP (Filter_df1_ieee prec emax Hprec Hmax madd sys x (gdf1_new fzero ord)) (fun r => let y := fst r in
    forall n, (0 <= n < lenZ x)%Z -> finite_until y n -> Rabs (value y n - at0 (K := Rring) exact n) <= (1 + 2 * (gamma * A) / D) * ((gamma * B * (1 + A / D) * M + underflow) / D)).
Proof.
  intros Hm Hu Hs [HM Hx] [Lx He] N gamma underflow A B D Hk. eapply okP_imp; [apply (C71_direct_form_I_residual prec emax Hprec Hmax madd sys ord x Hm Hu)|].
  cbn beta zeta. intros [y s] [L Rs] n Hn Fy. cbn [fst] in *. pose proof (damping_pos _ _ _ Hs) as HD. fold D in HD. destruct (stable_factors _ _ _ Hs) as (HP & HF & ED). fold D in ED.
  rewrite lenZ_map in Lx. pose proof (gamma_pos (N + 4)) as Hg. fold gamma in Hg. pose proof (weight_pos (denominator sys)) as HA. pose proof (weight_pos (numerator sys)) as HB. fold A in HA. fold B in HB.
  pose proof (under_pos (length (numerator sys) + length (denominator sys)) (N + 4) (Rabs (lead_value prec emax sys)) (Rabs_pos _)) as HU. fold underflow in HU.
  assert (EX : forall i, (0 <= i < n + 1)%Z -> linR (map B2R (denominator sys)) (at0 (K := Rring) exact) i = linR (map B2R (numerator sys)) (value x) i) by (intros i Hi; apply He; rewrite lenZ_map; lia).
  pose proof (input_value x M (conj HM Hx)) as Bx.
  pose proof (exact_bound _ _ _ (map B2R (numerator sys)) (value x) (at0 (K := Rring) exact) M (n + 1) HP HF HM Bx (fun i Hi => at0_neg exact i Hi) EX) as BE. rewrite weight_absum, ED in BE. fold B in BE.
  assert (HX : 0 <= B * M / D) by (unfold Rdiv; apply Rmult_le_pos; [now apply Rmult_le_pos|left; now apply Rinv_0_lt_compat]).
  pose proof (noise_core (map B2R (denominator sys)) lead ps (value y) (at0 (K := Rring) exact) (B * M / D) (gamma * (B * M) + underflow) (gamma * A) (n + 1) HP HF HX) as Q. rewrite ED in Q.
  assert (G1 : 0 <= gamma * (B * M)) by (apply Rmult_le_pos; [exact Hg|now apply Rmult_le_pos]).
  specialize (Q ltac:(lra) ltac:(now apply Rmult_le_pos) Hk (fun i Hi => value_neg y i Hi) (fun i Hi => at0_neg exact i Hi) BE).
  eapply Rle_trans; [apply Q; [|lia]|].
  - intros i Y Hi HY BY. rewrite lin_minus, EX by exact Hi. rewrite <- !side_lin. destruct (nthZ y i) as [v|] eqn:Ey; [|apply nthZ_none in Ey; exfalso; lia].
    destruct (Rs i v Ey (Fy i v ltac:(lia) Ey)) as (_ & _ & E). eapply Rle_trans; [exact E|]. unfold rounding. cbv zeta. fold N. fold gamma. fold underflow.
    pose proof (side_abs_bound (numerator sys) x i M HM (fun j _ => Bx j)) as S1. pose proof (side_abs_bound (denominator sys) y i Y HY BY) as S2. fold A in S2. fold B in S1.
    assert (gamma * (side_abs (numerator sys) x i + side_abs (denominator sys) y i) <= gamma * (B * M + A * Y)) by (apply Rmult_le_compat_l; lra). lra.
  - apply Req_le. unfold Rdiv. ring.
Qed.

(** ** Direct form II *)
Lemma side_older den f n : (0 < lenZ den)%Z -> side den f n = value den (lenZ den - 1) * value f n + side (firstn (length den - 1) den) f (n - 1).
Proof.
  intros H. unfold PropsIirFloat.side. rewrite (sumZ_first (K := Rring) 0 (lenZ den)) by lia. rewrite !Z.sub_0_r. apply (f_equal2 Rplus); [reflexivity|].
  set (older := firstn (length den - 1) den). assert (Lo : lenZ older = (lenZ den - 1)%Z) by (unfold older, lenZ; rewrite firstn_length; unfold lenZ in H; lia). rewrite Lo.
  rewrite (sumZ_shift' (K := Rring) (0 + 1) (lenZ den) 1). replace (0 + 1 - 1)%Z with 0%Z by lia. apply (sumZ_ext (K := Rring)). intros k Hk. replace (n - (k + 1))%Z with (n - 1 - k)%Z by lia. apply (f_equal2 Rmult); [|reflexivity].
  replace (lenZ den - 1 - (k + 1))%Z with (lenZ den - 1 - 1 - k)%Z by lia. set (i := (lenZ den - 1 - 1 - k)%Z). assert (Hi : (0 <= i < lenZ den - 1)%Z) by lia. unfold PropsIirFloat.value, at0, nthZ. replace (i <? 0)%Z with false by lia.
  change (car Rring) with R. rewrite !nth_error_map. unfold older. rewrite nth_error_firstn; [reflexivity|]. unfold lenZ in *. lia.
Qed.
Lemma weight_firstn k c : weight (firstn k c) <= weight c.
Proof. revert c. induction k as [|k IH]; intros c; [cbn [firstn]; change (weight []) with 0; apply weight_pos|]. destruct c as [|a c]; [cbn [firstn]; lra|]. cbn [firstn weight fold_right]. specialize (IH c). unfold weight in IH. lra. Qed.
(** The same for direct form II, for a denominator with leading coefficient 1 (C21): first the intermediate signal stays below W, then the error of the output. *)
Theorem C74_direct_form_II madd (sys : tf float) (ord : Z) (x : list float) (exact : list R) (ps : list C) (M : R) : is_madd prec emax Hprec Hmax madd -> usable prec emax sys ord ->
  lead_value prec emax sys = 1 -> stable_denominator (denominator sys) 1 ps -> numerator sys <> [] -> input_bound x M ->
  difference_equation (K := Complex.Rfield) (map B2R (numerator sys)) (map B2R (denominator sys)) (map B2R x) exact ->
  let Nb := length (numerator sys) in let Na := length (denominator sys) in
  let gb := (1 + u) ^ (Nb + 1) - 1 in let ga := (1 + u) ^ (Na + 2) - 1 in
  let ub := INR Nb * (1 + u) ^ (Nb + 1) * (eta / 2) in let ua := INR Na * (1 + u) ^ (Na + 2) * (eta / 2) in
  let A := weight (denominator sys) in let B := weight (numerator sys) in let D := damping 1 ps in
  let W := (1 + 2 * (ga * A) / D) * (((1 + ga) * M + ua) / D) in
  2 * (ga * A) <= D ->
  okP (Filter_df2_ieee prec emax Hprec Hmax madd sys x (gdf2_new fzero ord)) (fun r => let y := fst r in
    forall n, (0 <= n < lenZ x)%Z -> finite_until y n -> Rabs (value y n - at0 (K := Rring) exact n) <= B * (ga * (M + A * W) + ua) / D + (gb * (B * W) + ub)).
Proof.
  intros Hm Hu Hl Hs Hne [HM Hx] [Lx He] Nb Na gb ga ub ua A B D W Hk. eapply okP_imp; [apply (C71_direct_form_II_residual prec emax Hprec Hmax madd sys ord x Hm Hu)|].
  cbn beta zeta. intros [y s] (L & w & Lw & Ry & Rw) n Hn Fy. cbn [fst] in *. pose proof (damping_pos _ _ _ Hs) as HD. fold D in HD. destruct (stable_factors _ _ _ Hs) as (HP & HF & ED). fold D in ED.
  rewrite lenZ_map in Lx. set (num := numerator sys) in *. set (den := denominator sys) in *. set (older := firstn (length den - 1) den) in *.
  pose proof (gamma_pos (Nb + 1)) as Hgb. fold gb in Hgb. pose proof (gamma_pos (Na + 2)) as Hga. fold ga in Hga. pose proof (weight_pos den) as HA. pose proof (weight_pos num) as HB. fold A in HA. fold B in HB.
  assert (Hub : 0 <= ub) by (pose proof (under_pos Nb (Nb + 1) 0 ltac:(lra)) as X; rewrite Rplus_0_r in X; exact X). assert (Hua : 0 <= ua) by (pose proof (under_pos Na (Na + 2) 0 ltac:(lra)) as X; rewrite Rplus_0_r in X; exact X).
  pose proof (input_value x M (conj HM Hx)) as Bx. assert (Hd : (0 < lenZ den)%Z) by apply Hu. assert (Lo : length older = (Na - 1)%nat) by (unfold older; rewrite firstn_length; fold Na; lia). assert (HNa : (1 <= Na)%nat) by (unfold lenZ in Hd; fold Na in Hd; lia).
  assert (Hnum : (0 < lenZ num)%Z) by (destruct num; [congruence|unfold lenZ; cbn [length]; lia]).
  assert (Fw : forall j v, (j <= n)%Z -> nthZ w j = Some v -> finite v).
  { intros j v Hj Ev. pose proof (nthZ_some _ _ _ Ev) as Rj. destruct (nthZ y j) as [q|] eqn:Ey; [|apply nthZ_none in Ey; exfalso; lia]. destruct (Ry j q Ey (Fy j q Hj Ey)) as [SF _]. apply (SF 0%Z v); [lia|now rewrite Z.sub_0_r]. }
  (* the recursion *)
  assert (R2 : forall j Y, (0 <= j < n + 1)%Z -> 0 <= Y -> (forall i, (i <= j)%Z -> Rabs (value w i) <= Y) -> Rabs (linR (map B2R den) (value w) j - value x j) <= ga * (M + A * Y) + ua).
  { intros j Y Hj HY BY. destruct (nthZ w j) as [v|] eqn:Ev; [|apply nthZ_none in Ev; exfalso; lia]. destruct (Rw j v Ev (Fw j v ltac:(lia) Ev)) as (_ & _ & E). rewrite Hl in E. unfold Rdiv in E at 1 2. rewrite Rinv_1, Rmult_1_r in E.
    rewrite <- side_lin, side_older by exact Hd. unfold lead_value in Hl. fold den in Hl. rewrite Hl, Rmult_1_l. fold older. eapply Rle_trans; [exact E|]. rewrite Lo. replace (Na - 1 + 3)%nat with (Na + 2)%nat by lia. replace (Na - 1 + 1)%nat with Na by lia. fold ga. fold ua.
    pose proof (side_abs_bound older w (j - 1) Y HY (fun i Hi => BY i ltac:(lia))) as S2. pose proof (weight_firstn (length den - 1) den) as WF. fold older in WF. fold A in WF. specialize (Bx j).
    apply Rplus_le_compat_r, Rmult_le_compat_l; [exact Hga|]. apply Rplus_le_compat; [exact Bx|]. eapply Rle_trans; [exact S2|]. now apply Rmult_le_compat_r. }
  assert (BW : forall j, (0 <= j < n + 1)%Z -> Rabs (value w j) <= W).
  { pose proof (noise_core (map B2R den) 1 ps (value w) (fun _ => 0) 0 ((1 + ga) * M + ua) (ga * A) (n + 1) HP HF ltac:(lra)) as Q. rewrite ED in Q. assert (0 <= ga * M) by now apply Rmult_le_pos.
    specialize (Q ltac:(lra) ltac:(now apply Rmult_le_pos) Hk (fun i Hi => value_neg w i Hi) (fun i _ => eq_refl) ltac:(intros; rewrite Rabs_R0; lra)). rewrite Rmult_0_r, Rplus_0_l in Q. fold W in Q.
    intros j Hj. rewrite <- (Rminus_0_r (value w j)). apply Q; [|exact Hj]. intros i Y Hi HY BY. rewrite lin_minus. rewrite (lin_quiet _ (fun _ => 0)) by reflexivity. rewrite Rminus_0_r. specialize (R2 i Y Hi HY BY). specialize (Bx i).
    replace (linR (map B2R den) (value w) i) with (linR (map B2R den) (value w) i - value x i + value x i) by ring. eapply Rle_trans; [apply Rabs_triang|]. lra. }
  assert (HW : 0 <= W) by (eapply Rle_trans; [apply Rabs_pos|apply (BW n); lia]).
  assert (BWa : forall j, (j <= n)%Z -> Rabs (value w j) <= W) by (intros j Hj; destruct (Z_lt_ge_dec j 0); [rewrite value_neg, Rabs_R0 by lia; exact HW|apply BW; lia]).
  set (R := ga * (M + A * W) + ua). assert (HR : 0 <= R) by (unfold R; apply Rplus_le_le_0_compat; [apply Rmult_le_pos; [exact Hga|]; apply Rplus_le_le_0_compat; [exact HM|now apply Rmult_le_pos]|exact Hua]).
  assert (E1 : Rabs (linR (map B2R num) (value w) n - at0 (K := Rring) exact n) <= B * R / D).
  { rewrite <- ED. refine (factors_within (map B2R den) 1 ps (fun j => linR (map B2R num) (value w) j - at0 (K := Rring) exact j) (B * R) (n + 1) HP HF _ _ _ n ltac:(lia)); [now apply Rmult_le_pos| |].
    - intros j Hj. rewrite (at0_neg exact) by exact Hj. rewrite (lin_zero (K := Complex.Rfield)); [exact (Rminus_0_r 0)|]. intros i Hi. apply value_neg. lia.
    - intros j Hj. rewrite lin_minus. pose proof (lin_lin_swap (K := Complex.Rfield) (map B2R den) (map B2R num) (value w) j) as SW. assert (EX : linR (map B2R den) (at0 (K := Rring) exact) j = linR (map B2R num) (value x) j) by (apply He; rewrite lenZ_map; lia).
      rewrite EX. refine (Rle_trans _ _ _ (Req_le _ _ (f_equal Rabs (eq_trans (f_equal (fun t => t - linR (map B2R num) (value x) j) SW) (eq_sym (lin_minus (map B2R num) (linR (map B2R den) (value w)) (value x) j))))) _). unfold B. rewrite <- weight_absum. apply lin_bound; [exact HR|].
      intros i Hi. destruct (Z_lt_ge_dec i 0); [|apply R2; [lia|exact HW|intros q Hq; apply BWa; lia]].
      rewrite (value_neg x) by lia. rewrite (lin_zero (K := Complex.Rfield)); [|intros q Hq; apply value_neg; lia]. change (Rabs (0 - 0) <= R). rewrite Rminus_0_r, Rabs_R0. exact HR. }
  destruct (nthZ y n) as [v|] eqn:Ey; [|apply nthZ_none in Ey; exfalso; lia]. destruct (Ry n v Ey (Fy n v ltac:(lia) Ey)) as [_ E2]. fold Nb in E2. fold gb in E2. fold ub in E2. rewrite side_lin in E2.
  pose proof (side_abs_bound num w n W HW BWa) as S1. fold B in S1. assert (gb * side_abs num w n <= gb * (B * W)) by now apply Rmult_le_compat_l.
  replace (value y n - at0 (K := Rring) exact n) with (value y n - linR (map B2R num) (value w) n + (linR (map B2R num) (value w) n - at0 (K := Rring) exact n)) by ring. eapply Rle_trans; [apply Rabs_triang|]. fold R. lra.
Qed.

(** ** Cascade of biquads *)
Definition bq_value (b : biquad float) : biquad R :=
  let '(b0, b1, b2) := bnum b in let '(a0, a1) := bden b in mkBq (B2R b0, B2R b1, B2R b2) (B2R a0, B2R a1) (numOrder b) (denOrder b).
Definition num_weight (b : biquad float) : R := let '(b0, b1, b2) := bnum b in weight [b0; b1; b2].
Definition den_weight (b : biquad float) : R := let '(a0, a1) := bden b in weight [a0; a1].
Definition g5 : R := (1 + u) ^ 5 - 1.
Definition u5 : R := 5 * (1 + u) ^ 5 * (eta / 2).
(** every section z^2 + a1 z + a0 has its two poles inside the unit circle, far enough inside for the precision *)
Fixpoint damped (sys : list (biquad float)) (poles : list (C * C)) : Prop :=
  match sys, poles with
  | [], [] => True
  | b :: sys, (p, q) :: poles => (let '(a0, a1) := bden b in stable_denominator [a0; a1; Bone] 1 [p; q]) /\ 2 * (g5 * den_weight b) <= damping 1 [p; q] /\ damped sys poles
  | _, _ => False
  end.
(** error and size of the signal after each section: [M] bounds the exact samples, [E] the error so far *)
Fixpoint cascade_noise (sys : list (biquad float)) (poles : list (C * C)) (E M : R) : R :=
  match sys, poles with
  | b :: sys, (p, q) :: poles =>
      let A := den_weight b in let B := num_weight b in let D := damping 1 [p; q] in
      cascade_noise sys poles ((1 + 2 * (g5 * A) / D) * ((g5 * A * (B * M / D) + (g5 * (B * (M + E)) + u5 + B * E)) / D)) (B * M / D)
  | _, _ => E
  end.
Lemma sections_finite sys : forall x y n, sections_ok prec emax Hprec Hmax sys x y -> finite_until y n -> finite_until x n.
Proof.
  induction sys as [|b sys IH]; intros x y n H F; [cbn in H; now subst y|]. destruct H as (m & Hb & Hs). specialize (IH m y n Hs F). destruct Hb as [L Hb]. destruct (bnum b) as [[b0 b1] b2]. destruct (bden b) as [a0 a1].
  intros j v Hj Ev. pose proof (nthZ_some _ _ _ Ev). destruct (nthZ m j) as [q|] eqn:Em; [|apply nthZ_none in Em; exfalso; lia]. destruct (Hb j q Em (IH j q Hj Em)) as [SF _]. apply (SF 0%Z v); [change (lenZ [b0; b1; b2]) with 3%Z; lia|now rewrite Z.sub_0_r].
Qed.
Lemma g5_pos : 0 <= g5. Proof. apply gamma_pos. Qed.
Lemma u5_pos : 0 <= u5. Proof. unfold u5. pose proof (gamma_pos 5). pose proof eta_pos. apply Rmult_le_pos; lra. Qed.
Lemma cascade_core sys : forall poles (x y : list float) (xe exact : list R) E M n, damped sys poles -> sections_ok prec emax Hprec Hmax sys x y -> sections_in_turn (K := Complex.Rfield) (map bq_value sys) xe exact ->
  lenZ xe = lenZ x -> (0 <= n < lenZ x)%Z -> finite_until y n -> 0 <= E -> 0 <= M -> (forall j, (j <= n)%Z -> Rabs (at0 (K := Rring) xe j) <= M) -> (forall j, (j <= n)%Z -> Rabs (value x j - at0 (K := Rring) xe j) <= E) ->
  Rabs (value y n - at0 (K := Rring) exact n) <= cascade_noise sys poles E M.
Proof.
  induction sys as [|b sys IH]; intros [|[p q] poles] x y xe exact E M n Hd Ho Hi Le Hn Fy HE HM BM BE; try contradiction.
  - cbn in Ho, Hi. subst y exact. apply BE. lia.
  - cbn [damped] in Hd. destruct Hd as (Sd & Hk & Hd). cbn [sections_ok] in Ho. destruct Ho as (m & Hb & Ho). cbn [map sections_in_turn] in Hi. destruct Hi as (me & Hq & Hi). cbn [cascade_noise].
    assert (Fm : finite_until m n) by (apply (sections_finite sys m y n Ho Fy)). unfold section_ok in Hb. unfold bq_value in Hq. unfold den_weight in Hk |- *. unfold num_weight.
    destruct (bnum b) as [[b0 b1] b2]. destruct (bden b) as [a0 a1]. cbn [bnum bden] in Hq. destruct Hb as [Lm Hb]. destruct Hq as [Lme Hq]. change (lenZ (A := car Complex.Rfield)) with (lenZ (A := R)) in *.
    set (A := weight [a0; a1]) in *. set (B := weight [b0; b1; b2]) in *. set (D := damping 1 [p; q]) in *.
    pose proof (damping_pos _ _ _ Sd) as HD. fold D in HD. destruct (stable_factors _ _ _ Sd) as (HP & HF & ED). fold D in ED. pose proof (weight_pos [a0; a1]) as HA. pose proof (weight_pos [b0; b1; b2]) as HB. fold A in HA. fold B in HB. pose proof g5_pos as Hg. pose proof u5_pos as Hu.
    assert (EN : map B2R [b0; b1; b2] = [B2R b0; B2R b1; B2R b2]) by reflexivity. assert (EDn : map B2R [a0; a1; Bone] = [B2R a0; B2R a1; 1]) by (cbn [map]; now rewrite (Bone_correct prec emax)).
    assert (EX : forall i, (0 <= i < n + 1)%Z -> linR (map B2R [a0; a1; Bone]) (at0 (K := Rring) me) i = linR (map B2R [b0; b1; b2]) (at0 (K := Rring) xe) i) by (intros i Hi'; rewrite EN, EDn; apply Hq; lia).
    assert (BX : forall i, (0 <= i < n + 1)%Z -> Rabs (at0 (K := Rring) me i) <= B * M / D).
    { rewrite <- ED. refine (factors_within _ 1 [p; q] (at0 (K := Rring) me) (B * M) (n + 1) HP HF _ (fun i Hi' => at0_neg me i Hi') _); [now apply Rmult_le_pos|]. intros i Hi'. rewrite EX by exact Hi'. unfold B. rewrite <- weight_absum. apply lin_bound; [exact HM|]. intros j Hj. apply BM. lia. }
    assert (BXa : forall i, (i <= n)%Z -> Rabs (at0 (K := Rring) me i) <= B * M / D).
    { intros i Hi'. destruct (Z_lt_ge_dec i 0); [|apply BX; lia]. rewrite at0_neg, Rabs_R0 by lia. unfold Rdiv. apply Rmult_le_pos; [now apply Rmult_le_pos|left; now apply Rinv_0_lt_compat]. }
    assert (HX : 0 <= B * M / D) by (unfold Rdiv; apply Rmult_le_pos; [now apply Rmult_le_pos|left; now apply Rinv_0_lt_compat]).
    set (V := g5 * (B * (M + E)) + u5 + B * E). assert (HV : 0 <= V). { assert (0 <= B * (M + E)) by (apply Rmult_le_pos; lra). assert (0 <= g5 * (B * (M + E))) by now apply Rmult_le_pos. assert (0 <= B * E) by now apply Rmult_le_pos. unfold V. lra. }
    set (E' := (1 + 2 * (g5 * A) / D) * ((g5 * A * (B * M / D) + V) / D)).
    assert (HE' : 0 <= E'). { unfold E'. assert (0 <= g5 * A) by now apply Rmult_le_pos. assert (0 <= / D) by (left; now apply Rinv_0_lt_compat). apply Rmult_le_pos; [unfold Rdiv; assert (0 <= 2 * (g5 * A) * / D) by (apply Rmult_le_pos; lra); lra|]. unfold Rdiv at 1. apply Rmult_le_pos; [|assumption]. apply Rplus_le_le_0_compat; [now apply Rmult_le_pos|exact HV]. }
    assert (BS : forall i, (0 <= i < n + 1)%Z -> Rabs (value m i - at0 (K := Rring) me i) <= E').
    { pose proof (noise_core (map B2R [a0; a1; Bone]) 1 [p; q] (value m) (at0 (K := Rring) me) (B * M / D) V (g5 * A) (n + 1) HP HF HX HV ltac:(now apply Rmult_le_pos)) as Q. rewrite ED in Q.
      apply Q; [exact Hk|intros i Hi'; now apply value_neg|intros i Hi'; now apply at0_neg|exact BX|]. intros i Y Hi' HY BY. rewrite lin_minus, EX by exact Hi'.
      destruct (nthZ m i) as [v|] eqn:Em; [|apply nthZ_none in Em; exfalso; lia]. destruct (Hb i v Em (Fm i v ltac:(lia) Em)) as (_ & _ & RS). rewrite !side_lin in RS. fold g5 in RS. fold u5 in RS.
      pose proof (side_abs_bound [a0; a1] m (i - 1) Y HY (fun j Hj => BY j ltac:(lia))) as S2. fold A in S2.
      assert (Bxx : forall j, (j <= i)%Z -> Rabs (value x j) <= M + E). { intros j Hj. replace (value x j) with (at0 (K := Rring) xe j + (value x j - at0 (K := Rring) xe j)) by ring. eapply Rle_trans; [apply Rabs_triang|]. specialize (BM j ltac:(lia)). specialize (BE j ltac:(lia)). lra. }
      pose proof (side_abs_bound [b0; b1; b2] x i (M + E) ltac:(lra) Bxx) as S1. fold B in S1.
      assert (LE : Rabs (linR (map B2R [b0; b1; b2]) (fun j => value x j - at0 (K := Rring) xe j) i) <= B * E) by (unfold B; rewrite <- weight_absum; apply lin_bound; [exact HE|]; intros j Hj; apply BE; lia). rewrite lin_minus in LE.
      set (ly := linR (map B2R [a0; a1; Bone]) (value m) i) in *. set (lx := linR (map B2R [b0; b1; b2]) (value x) i) in *. set (le := linR (map B2R [b0; b1; b2]) (at0 (K := Rring) xe) i) in *.
      apply Rle_trans with (Rabs (ly - lx) + Rabs (lx - le)); [replace (Rminus ly le) with ((ly - lx) + (lx - le)) by (unfold Rminus; ring); apply Rabs_triang|].
      assert (g5 * (side_abs [b0; b1; b2] x i + side_abs [a0; a1] m (i - 1)) <= g5 * (B * (M + E) + A * Y)) by (apply Rmult_le_compat_l; lra). unfold V. lra. }
    apply (IH poles m y me exact E' (B * M / D) n Hd Ho Hi); auto; [lia|lia|].
    intros j Hj. destruct (Z_lt_ge_dec j 0); [|apply BS; lia]. rewrite value_neg, at0_neg, Rminus_0_r, Rabs_R0 by lia. exact HE'.
Qed.
Theorem C74_cascade madd (sys : list (biquad float)) (poles : list (C * C)) (ord : Z) (x : list float) (exact : list R) (M : R) : is_madd prec emax Hprec Hmax madd -> (0 <= ord)%Z -> (lenZ sys <= (ord + 1) / 2)%Z ->
  damped sys poles -> input_bound x M -> sections_in_turn (K := Complex.Rfield) (map bq_value sys) (map B2R x) exact ->
  okP (Filter_cf_ieee prec emax Hprec Hmax madd sys x (gcf_new fzero ord)) (fun r => let y := fst r in
    forall n, (0 <= n < lenZ x)%Z -> finite_until y n -> Rabs (value y n - at0 (K := Rring) exact n) <= cascade_noise sys poles 0 M).
Proof.
  intros Hm Ho Hs Hd Hx He. eapply okP_imp; [apply (C71_cascade_residual prec emax Hprec Hmax madd sys ord x Hm Ho Hs)|]. cbn beta zeta. intros [y s] [L Rs] n Hn Fy. cbn [fst] in *.
  pose proof (input_value x M Hx) as Bx. apply (cascade_core sys poles x y (map B2R x) exact 0 M n Hd Rs He); [apply lenZ_map|exact Hn|exact Fy|lra|apply Hx|intros j _; apply Bx|].
  intros j _. unfold PropsIirFloat.value. rewrite (Rminus_diag_eq _ _ eq_refl), Rabs_R0. lra.
Qed.
End Ieee.
Print Assumptions C74_direct_form_I.
Print Assumptions C74_direct_form_II.
Print Assumptions C74_cascade.

(** y(n) = y(n-1)/2 + x(n) + x(n-1) in single precision, and the same pole in a biquad *)
#[local] Existing Instance p24.
#[local] Existing Instance e128.
Definition noise_sys : tf (binary_float 24 128) := mkTf [b32 1 0; b32 1 0] [b32 (-1) (-1); b32 1 0].
Definition noise_section : biquad (binary_float 24 128) := mkBq (b32 1 0, b32 1 0, b32 1 0) (b32 0 0, b32 (-1) (-1)) 2 2.
Lemma b32_mhalf : B2R (b32 (-1) (-1)) = - (1 / 2).
Proof. rewrite <- SF2R_B2SF. replace (B2SF (b32 (-1) (-1))) with (SpecFloat.S754_finite true 8388608 (-24)) by (vm_compute; reflexivity). unfold SF2R, F2R. cbn. lra. Qed.
Lemma b32_zero : B2R (b32 0 0) = 0.
Proof. rewrite <- SF2R_B2SF. replace (B2SF (b32 0 0)) with (SpecFloat.S754_zero false) by (vm_compute; reflexivity). reflexivity. Qed.
Lemma u24 : bpow radix2 (- 24) <= 1 / 256. Proof. replace (1 / 256) with (bpow radix2 (-8)) by (cbn; lra). apply bpow_le. lia. Qed.
Lemma pow24 k : (1 + bpow radix2 (- 24)) ^ k <= (1 + 1 / 256) ^ k.
Proof. apply pow_incr. pose proof u24. pose proof (bpow_ge_0 radix2 (-24)). lra. Qed.
Example C74_nontrivial :
  usable 24 128 noise_sys 1 /\ stable_denominator 24 128 (denominator noise_sys) 1 [RtoC (1 / 2)] /\ input_bound 24 128 [b32 1 0; b32 1 0] 1 /\
  2 * (((1 + bpow radix2 (- 24)) ^ (2 + 4) - 1) * weight 24 128 (denominator noise_sys)) <= damping 1 [RtoC (1 / 2)] /\
  difference_equation (K := Complex.Rfield) (map B2R (numerator noise_sys)) (map B2R (denominator noise_sys)) (map B2R [b32 1 0; b32 1 0]) [1; 5 / 2] /\
  damped 24 128 p24 e128 [noise_section] [(RtoC 0, RtoC (1 / 2))].
Proof.
  assert (Hp : Cabs (RtoC (1 / 2)) = 1 / 2) by (rewrite Cabs_RtoC; apply Rabs_right; lra). assert (Hz : Cabs (RtoC 0) = 0) by (rewrite Cabs_RtoC; apply Rabs_R0).
  repeat split.
  - lia.
  - cbn. lia.
  - exists (b32 1 0). split; [reflexivity|]. split; [vm_compute; reflexivity|]. rewrite b32_one. split; [lra|]. rewrite Rabs_R1. change 1 with (bpow radix2 0). apply bpow_le. lia.
  - lra.
  - intros z. unfold complex_value. cbn [denominator noise_sys map length seq fold_right nth vanishing_product Cpow]. rewrite b32_mhalf, b32_one. apply C_ext; cbn; field.
  - intros p [<-|[]]. rewrite Hp. lra.
  - lra.
  - intros v [<-|[<-|[]]]; rewrite b32_one, Rabs_R1; lra.
  - unfold weight, damping. cbn [denominator noise_sys fold_right prod_minus]. rewrite b32_mhalf, b32_one, Rabs_Ropp, Rabs_R1, Hp, (Rabs_right (1 / 2)) by lra. pose proof (pow24 (2 + 4)). cbn in H |- *. lra.
  - intros n Hn. cbn [numerator denominator noise_sys map]. rewrite b32_mhalf, b32_one. assert (E : n = 0%Z \/ n = 1%Z) by (cbn in Hn; lia). destruct E as [->| ->]; unfold lenZ; cbn; rewrite ?Pos2Nat.inj_1; change (Pos.to_nat 2) with 2%nat; cbn; match goal with |- ?a = ?b => change (@eq R a b) end; cbv [atR lenZ nth]; cbn; change (Pos.to_nat 1) with 1%nat; cbn; lra.
  - lra.
  - intros z. unfold complex_value. cbn [map length seq fold_right nth vanishing_product Cpow]. rewrite b32_mhalf, b32_zero, Bone_correct. apply C_ext; cbn; field.
  - intros p [<-|[<-|[]]]; rewrite ?Hz, ?Hp; lra.
  - unfold g5, den_weight, weight, damping. cbn [bden noise_section fold_right prod_minus]. rewrite b32_mhalf, b32_zero, Rabs_Ropp, Rabs_R1, Rabs_R0, Hz, Hp, (Rabs_right (1 / 2)) by lra. pose proof (pow24 5). cbn in H |- *. lra.
Qed.
Print Assumptions C74_nontrivial.
