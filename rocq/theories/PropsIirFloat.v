(** C71: IIR filtering in floating-point arithmetic. *)
From Verif Require Import Base BaseFacts Complex IntervalModel KernelModel KernelProofs ConvModel ConvProofs FloatSpec ReduceTree FloatSum FloatIeee PropsFloat ConvTree ConvFloat FloatStat FirModel IirModel IirProofs PropsIir IirTree IirFloat.
From Coq Require Import Reals Lra Lia List ZArith Arith Psatz.
From Flocq Require Import Core BinarySingleNaN.
Import ListNotations.
Local Open Scope R_scope.

(** * Blocks: nothing about the arithmetic is needed *)
(** Whatever the number type and its operations, rounding included: feeding the signal in blocks of any
    sizes gives the samples and the state of one call. *)
Theorem C71_blocks_any_arithmetic (K : Type) (zero one : K) (sub mul div : K -> K -> K) (madd : K -> K -> K -> K) :
  (forall sys, same_by_blocks (gFilter_df1 zero one sub mul div madd sys)) /\
  (forall sys, same_by_blocks (gFilter_df2 zero one sub mul div madd sys)) /\
  (forall sys, same_by_blocks (gFilter_cf zero sub mul madd sys)).
Proof.
  split; [|split]; intros sys blocks s y s' H.
  - destruct (blocks_generic zero (fun s => df1_pre s sys) (gdf1_step zero one sub mul div madd sys) blocks s y s') as ([ys q] & E & C & L & Q); [|exact H|].
    + intros v q w q' P Eq. apply gdf1_step_len in Eq as [Q1 Q2]. unfold df1_pre, df1_order in *. now rewrite Q1, Q2.
    + cbn [fst snd] in *. subst q. exists ys. auto.
  - destruct (blocks_generic zero (fun s => df2_pre s sys) (gdf2_step zero one sub mul div madd sys) blocks s y s') as ([ys q] & E & C & L & Q); [|exact H|].
    + intros v q w q' P Eq. apply gdf2_step_len in Eq. unfold df2_pre, df2_order in *. now rewrite Eq.
    + cbn [fst snd] in *. subst q. exists ys. auto.
  - destruct (blocks_generic zero (fun _ => true) (gcf_step sub mul madd sys) blocks s y s') as ([ys q] & E & C & L & Q); [reflexivity|exact H|].
    cbn [fst snd] in *. subst q. exists ys. auto.
Qed.
(** ... the first samples of the output are those of the shorter input, so that nothing that comes later,
    not even a NaN, changes them ... *)
Theorem C71_causal_any_arithmetic (K : Type) (zero one : K) (sub mul div : K -> K -> K) (madd : K -> K -> K -> K) :
  (forall sys, causal (gFilter_df1 zero one sub mul div madd sys)) /\
  (forall sys, causal (gFilter_df2 zero one sub mul div madd sys)) /\
  (forall sys, causal (gFilter_cf zero sub mul madd sys)).
Proof.
  repeat split; intros sys a b s y s' H; destruct (causal_generic _ _ _ _ _ _ _ _ H) as (ya & sa & E & ->); exists sa; exact E.
Qed.
(** ... and filtering in place, or over an array that holds anything, gives the same samples *)
Theorem C71_output_array_any_arithmetic (K : Type) (zero : K) S (pre : bool) (step : K -> S -> outcome (K * S)) (out signal : list K) (s : S) :
  lenZ out = lenZ signal -> IirFilterInto pre step out signal s = gIirFilter zero pre step signal s /\
  assert_ pre (feed_loop_inplace step signal s) = gIirFilter zero pre step signal s.
Proof.
  intros L. rewrite giir_filter_feeds, feed_loop_inplace_feeds. split; [|reflexivity].
  unfold IirFilterInto. rewrite feed_loop_feeds by exact L. replace (lenZ out =? lenZ signal)%Z with true by (symmetry; now apply Z.eqb_eq). reflexivity.
Qed.
Print Assumptions C71_blocks_any_arithmetic.
Print Assumptions C71_causal_any_arithmetic.
Print Assumptions C71_output_array_any_arithmetic.

(** * Rounding *)
Section Ieee.
Variables prec emax : Z.
Context (Hprec : Prec_gt_0 prec) (Hmax : Prec_lt_emax prec emax).
Notation float := (binary_float prec emax).
Notation u := (bpow radix2 (- prec)).
Notation eta := (bpow radix2 (3 - emax - prec)).
Notation fzero := (B754_zero false : float).
Notation finite x := (is_finite x = true).

(** ** Specification *)
(** the machine's filters: std::inner_product may be contracted to fused multiply-adds, or not *)
Definition is_madd (madd : float -> float -> float -> float) : Prop :=
  madd = (fun t a b => Bplus mode_NE t (Bmult mode_NE a b)) \/ madd = (fun t a b => Bfma mode_NE a b t).
Definition Filter_df1_ieee madd := gFilter_df1 fzero Bone (Bminus mode_NE) (Bmult mode_NE) (Bdiv mode_NE) madd.
Definition Filter_df2_ieee madd := gFilter_df2 fzero Bone (Bminus mode_NE) (Bmult mode_NE) (Bdiv mode_NE) madd.
Definition Filter_cf_ieee madd := gFilter_cf fzero (Bminus mode_NE) (Bmult mode_NE) madd.
(** the value of sample [n]; zero outside the signal *)
Definition value (f : list float) (n : Z) : R := at0 (K := Rring) (map B2R f) n.
(** one side of the difference equation at time [n], and the sum of the absolute values of its terms; the
    last coefficient goes with the newest sample *)
Definition side (c f : list float) (n : Z) : R :=
  sumZ (K := Rring) 0 (lenZ c) (fun k => value c (lenZ c - 1 - k) * value f (n - k)).
Definition side_abs (c f : list float) (n : Z) : R :=
  sumZ (K := Rring) 0 (lenZ c) (fun k => Rabs (value c (lenZ c - 1 - k)) * Rabs (value f (n - k))).
(** the samples of [f] that a side reads are finite *)
Definition side_finite (c f : list float) (n : Z) : Prop :=
  forall k x, (0 <= k < lenZ c)%Z -> nthZ f (n - k) = Some x -> finite x.
(** a system one can use: the leading coefficient is finite, nonzero, and so is its reciprocal; the order suffices *)
Definition usable (sys : tf float) (ord : Z) : Prop :=
  (0 < lenZ (denominator sys))%Z /\ (0 <= ord < 2 ^ 64 - 1)%Z /\ (tf_order sys <= ord)%Z /\
  exists lead, nthZ (denominator sys) (lenZ (denominator sys) - 1) = Some lead /\ finite lead /\ B2R lead <> 0 /\ Rabs (B2R lead) <= bpow radix2 (emax - 2).
Definition lead_value (sys : tf float) : R := value (denominator sys) (lenZ (denominator sys) - 1).
(** what rounding may add to the difference equation at time [n]: a relative error per operation, and one
    underflow per product *)
Definition rounding (sys : tf float) (x y : list float) (n : Z) : R :=
  let N := Nat.max (length (numerator sys)) (length (denominator sys)) in
  ((1 + u) ^ (N + 4) - 1) * (side_abs (numerator sys) x n + side_abs (denominator sys) y n) +
  (INR (length (numerator sys) + length (denominator sys)) * (1 + u) ^ (N + 4) + Rabs (lead_value sys)) * (eta / 2).

(** ** Bridge *)
Lemma value_elt (f : list float) n : value f n = B2R (elt fzero f n).
Proof. unfold value. apply (at0_map_val (V := float) fzero (B2R (prec := prec) (emax := emax)) f n). reflexivity. Qed.
Lemma sumR_tab (h : float * float -> R) N g : (0 <= N)%Z -> sumR (map h (tab N g)) = sumZ (K := Rring) 0 N (fun i => h (g i)).
Proof.
  intros HN. pattern N. apply natlike_ind; [reflexivity| |exact HN]. intros k Hk IH. unfold Z.succ. rewrite tab_snoc by exact Hk.
  rewrite sumZ_last by exact Hk. rewrite map_app, sumR_app, IH. cbn [map]. unfold sumR at 1. cbn [fold_right]. rewrite Rplus_0_r. reflexivity.
Qed.
Lemma newest_sum (h : float * float -> R) (F : float -> R) c f n : (forall a b, h (a, b) = F b * F a) ->
  sumR (map h (newest fzero c f n)) = sumZ (K := Rring) 0 (lenZ c) (fun k => F (elt fzero c (lenZ c - 1 - k)) * F (elt fzero f (n - k))).
Proof.
  intros H. unfold newest. rewrite sumR_tab by apply lenZ_nonneg. rewrite (sumZ_reflect (K := Rring) 0 (lenZ c) (lenZ c - 1)).
  replace (lenZ c - 1 - lenZ c + 1)%Z with 0%Z by lia. replace (lenZ c - 1 - 0 + 1)%Z with (lenZ c) by lia.
  apply sumZ_ext. intros i Hi. rewrite H. replace (n - (lenZ c - 1) + (lenZ c - 1 - i))%Z with (n - i)%Z by lia. reflexivity.
Qed.
Lemma psum_side c f n : psum B2R (newest fzero c f n) = side c f n.
Proof.
  unfold psum, side. rewrite (newest_sum _ B2R) by (intros; cbn; ring). apply sumZ_ext. intros. now rewrite !value_elt.
Qed.
Lemma pabs_side c f n : pabs B2R (newest fzero c f n) = side_abs c f n.
Proof.
  unfold pabs, side_abs. rewrite (newest_sum _ (fun x => Rabs (B2R x))) by (intros; cbn [fst snd]; rewrite Rabs_mult; ring). apply sumZ_ext. intros. now rewrite !value_elt.
Qed.
Lemma newest_length c f n : length (newest fzero c f n) = length c.
Proof. unfold newest. pose proof (lenZ_tab (lenZ c) (fun i => (elt fzero f (n - (lenZ c - 1) + i), elt fzero c i))) as H. pose proof (lenZ_nonneg c). unfold lenZ in *. lia. Qed.
Lemma newest_finite c f n : pfin prec emax (newest fzero c f n) -> side_finite c f n.
Proof.
  intros H k x Hk Hx. assert (E : elt fzero f (n - k) = x) by (unfold elt; now rewrite Hx).
  assert (I : In (elt fzero f (n - k), elt fzero c (lenZ c - 1 - k)) (newest fzero c f n)).
  { unfold newest. eapply nth_error_In with (n := Z.to_nat (lenZ c - 1 - k)). rewrite <- nthZ_nth_error, Z2Nat.id by lia. rewrite nthZ_tab by lia. do 3 f_equal; lia. }
  apply H in I. cbn [fst] in I. now rewrite <- E.
Qed.
Lemma elt_lower (c : list float) i : (i < lenZ c - 1)%Z -> elt fzero (lower c) i = elt fzero c i.
Proof.
  intros H. unfold elt, lower. destruct (Z_lt_ge_dec i 0).
  - rewrite (proj2 (nthZ_none _ i)), (proj2 (nthZ_none c i)) by lia. reflexivity.
  - rewrite nthZ_firstn by lia. reflexivity.
Qed.
Lemma side_split c f n : (0 < lenZ c)%Z -> side c f n = value c (lenZ c - 1) * value f n + side (lower c) f (n - 1).
Proof.
  intros H. unfold side at 1. rewrite (sumZ_first (K := Rring)) by exact H. cbn beta. rewrite !Z.sub_0_r. apply (f_equal2 Rplus); [reflexivity|].
  unfold side. rewrite lower_len. rewrite Z.max_r by lia. rewrite (sumZ_shift' (K := Rring) (0 + 1) (lenZ c) 1). change (0 + 1 - 1)%Z with 0%Z.
  apply sumZ_ext. intros i Hi. rewrite !value_elt. rewrite elt_lower by lia. replace (lenZ c - 1 - (i + 1))%Z with (lenZ c - 1 - 1 - i)%Z by lia. replace (n - (i + 1))%Z with (n - 1 - i)%Z by lia. reflexivity.
Qed.
Lemma side_abs_split c f n : (0 < lenZ c)%Z -> side_abs c f n = Rabs (value c (lenZ c - 1)) * Rabs (value f n) + side_abs (lower c) f (n - 1).
Proof.
  intros H. unfold side_abs at 1. rewrite (sumZ_first (K := Rring)) by exact H. cbn beta. rewrite !Z.sub_0_r. apply (f_equal2 Rplus); [reflexivity|].
  unfold side_abs. rewrite lower_len. rewrite Z.max_r by lia. rewrite (sumZ_shift' (K := Rring) (0 + 1) (lenZ c) 1). change (0 + 1 - 1)%Z with 0%Z.
  apply sumZ_ext. intros i Hi. rewrite !value_elt. rewrite elt_lower by lia. replace (lenZ c - 1 - (i + 1))%Z with (lenZ c - 1 - 1 - i)%Z by lia. replace (n - (i + 1))%Z with (n - 1 - i)%Z by lia. reflexivity.
Qed.
Lemma side_abs_pos c f n : 0 <= side_abs c f n.
Proof.
  rewrite <- pabs_side. unfold pabs. induction (newest fzero c f n) as [|p l IH]; unfold sumR in *; cbn [map fold_right]; [lra|]. pose proof (Rabs_pos (B2R (fst p) * B2R (snd p))). lra.
Qed.
Lemma madd_good madd : is_madd madd -> good_madd prec emax madd.
Proof. intros [-> | ->]; [apply madd_unfused|apply madd_fused]. Qed.
Lemma usable_fits sys ord : usable sys ord -> fits sys ord.
Proof.
  intros (H1 & H2 & H3 & _). unfold tf_order, poly_order in H3. pose proof (lenZ_nonneg (numerator sys)). unfold fits.
  destruct (Z.eqb_spec (lenZ (numerator sys)) 0), (Z.eqb_spec (lenZ (denominator sys)) 0); lia.
Qed.
Lemma usable_lead sys ord : usable sys ord -> exists lead, leading fzero (denominator sys) = lead /\ lead_value sys = B2R lead /\ finite lead /\ B2R lead <> 0 /\ Rabs (B2R lead) <= bpow radix2 (emax - 2).
Proof.
  intros (_ & _ & _ & lead & E & F & N & B). exists lead. unfold leading, lead_value. rewrite value_elt. unfold elt. rewrite E. auto.
Qed.
Lemma df1_pre_new sys ord : usable sys ord -> df1_pre (gdf1_new fzero ord) sys = true.
Proof.
  intros (H1 & H2 & H3 & _). destruct (df1_new_has fzero ord ltac:(lia)) as (L1 & L2 & _). unfold df1_pre, df1_order. rewrite L1, L2. lia.
Qed.
Lemma df2_pre_new sys ord : usable sys ord -> df2_pre (gdf2_new fzero ord) sys = true.
Proof.
  intros (H1 & H2 & H3 & _). destruct (df2_new_has fzero ord ltac:(lia)) as (L2 & _). unfold df2_pre, df2_order. rewrite L2. destruct (Z.eqb_spec (ord + 1) 0); [lia|]. cbn [negb andb]. lia.
Qed.
Lemma elt_some (f : list float) n x : nthZ f n = Some x -> elt fzero f n = x.
Proof. intros H. unfold elt. now rewrite H. Qed.

(** ** Direct form I *)
(** The filter accepts every signal. Each finite output sample was computed from finite samples, and at its
    time the difference equation of C20 holds for the values of the signals up to the stated error; nothing
    is assumed about overflow, cancellation or the precision. *)
Theorem C71_direct_form_I_residual madd (sys : tf float) (ord : Z) (x : list float) : is_madd madd -> usable sys ord ->
  okP (Filter_df1_ieee madd sys x (gdf1_new fzero ord)) (fun r => let y := fst r in lenZ y = lenZ x /\
    forall n v, nthZ y n = Some v -> finite v ->
      side_finite (numerator sys) x n /\ side_finite (denominator sys) y n /\
      Rabs (side (denominator sys) y n - side (numerator sys) x n) <= rounding sys x y n).
Proof.
  intros Hm Hu. pose proof (usable_fits _ _ Hu) as Hf. destruct (usable_lead _ _ Hu) as (lead & El & Ev & Fl & Nl & Bl).
  unfold Filter_df1_ieee, gFilter_df1. rewrite giir_filter_feeds, df1_pre_new by exact Hu. cbn [assert_].
  eapply okP_imp; [apply df1_run; [exact Hf|apply df1_new_has; apply Hu]|]. cbn beta zeta. intros [y s] (L & _ & R). cbn [fst app] in *.
  split; [exact L|]. intros n v Hn Fv. pose proof (nthZ_some _ _ _ Hn) as Rn. rewrite lenZ_nil in R. specialize (R n ltac:(lia)).
  unfold df1_rule in R. rewrite (elt_some _ _ _ Hn), El in R.
  set (num := numerator sys) in *. set (den := denominator sys) in *. set (N := Nat.max (length num) (length den)).
  assert (Hd : (0 < lenZ den)%Z) by apply Hu.
  assert (Ll : S (length (lower den)) = length den) by (pose proof (lower_len den); unfold lenZ in *; lia).
  destruct (df1_bound prec emax Hprec Hmax madd v (newest fzero num x n) (newest fzero (lower den) y (n - 1)) lead N (madd_good _ Hm) Fl Nl Bl) as (F1 & F2 & E).
  { rewrite newest_length. unfold N. lia. } { rewrite newest_length. unfold N. lia. } { exact R. } { exact Fv. }
  rewrite !psum_side, !pabs_side, !newest_length in E. split; [now apply newest_finite|]. split.
  - intros k w Hk Hw. destruct (Z.eq_dec k 0) as [->|Hk0].
    + rewrite Z.sub_0_r in Hw. replace w with v by congruence. exact Fv.
    + apply (newest_finite _ _ _ F2 (k - 1)%Z); [rewrite lower_len; lia|]. now replace (n - 1 - (k - 1))%Z with (n - k)%Z by lia.
  - unfold rounding. fold num den. fold N. rewrite (side_split den y n) by exact Hd. fold den in Ev. unfold lead_value in *. fold den in Ev |- *. rewrite Ev.
    rewrite (value_elt y n), (elt_some _ _ _ Hn). pose proof (side_abs_pos num x n). pose proof (side_abs_pos (lower den) y (n - 1)).
    eapply Rle_trans; [exact E|]. apply Rplus_le_compat.
    + apply Rmult_le_compat_l; [pose proof (G_ge1 prec (N + 4)); unfold ur in *; lra|]. rewrite (side_abs_split den y n) by exact Hd.
      assert (0 <= Rabs (value den (lenZ den - 1)) * Rabs (value y n)) by (apply Rmult_le_pos; apply Rabs_pos). lra.
    + apply Rmult_le_compat_r; [apply (e0 prec emax)|]. apply Rplus_le_compat_r. apply Rmult_le_compat_r; [pose proof (G_ge1 prec (N + 4)); unfold ur in *; lra|].
      apply le_INR. lia.
Qed.

(** ** Direct form II *)
(** The state holds an intermediate signal [w]. Each finite output sample is the numerator applied to finite
    samples of [w], up to rounding; and each finite sample of [w] satisfies its recursion (whose lower
    coefficients are not normalised, see C21) up to rounding, with finite older samples. *)
Theorem C71_direct_form_II_residual madd (sys : tf float) (ord : Z) (x : list float) : is_madd madd -> usable sys ord ->
  okP (Filter_df2_ieee madd sys x (gdf2_new fzero ord)) (fun r => let y := fst r in lenZ y = lenZ x /\
    exists w, lenZ w = lenZ x /\
    (forall n v, nthZ y n = Some v -> finite v -> side_finite (numerator sys) w n /\
      let N := length (numerator sys) in
      Rabs (value y n - side (numerator sys) w n) <= ((1 + u) ^ (N + 1) - 1) * side_abs (numerator sys) w n + INR N * (1 + u) ^ (N + 1) * (eta / 2)) /\
    (forall n v, nthZ w n = Some v -> finite v ->
      let older := firstn (length (denominator sys) - 1) (denominator sys) in
      side_finite [Bone] x n /\ side_finite older w (n - 1) /\
      let N := length older in
      Rabs (value w n + side older w (n - 1) - value x n / lead_value sys) <=
        ((1 + u) ^ (N + 3) - 1) * (Rabs (value x n / lead_value sys) + side_abs older w (n - 1)) + INR (N + 1) * (1 + u) ^ (N + 3) * (eta / 2))).
Proof.
  intros Hm Hu. pose proof (usable_fits _ _ Hu) as Hf. destruct (usable_lead _ _ Hu) as (lead & El & Ev & Fl & Nl & Bl).
  unfold Filter_df2_ieee, gFilter_df2. rewrite giir_filter_feeds, df2_pre_new by exact Hu. cbn [assert_].
  eapply okP_imp; [apply (df2_run fzero Bone (Bminus mode_NE) (Bmult mode_NE) (Bdiv mode_NE) madd sys ord x _ [] [] []); [exact Hf|apply df2_new_has; apply Hu|reflexivity|reflexivity]|].
  cbn beta zeta. intros [y s] (L & w & Lw & _ & R). cbn [fst app] in *. rewrite lenZ_nil in R.
  split; [exact L|]. exists w. split; [exact Lw|]. set (num := numerator sys) in *. set (den := denominator sys) in *. split.
  - intros n v Hn Fv. pose proof (nthZ_some _ _ _ Hn) as Rn. destruct (R n ltac:(lia)) as [_ E]. rewrite (elt_some _ _ _ Hn) in E.
    fold num in E. rewrite E in Fv. destruct (sop_err prec emax madd _ (madd_good _ Hm) Fv) as [F1 E1].
    destruct (psum_flip prec emax (newest fzero num w n)) as (P1 & P2 & P3). rewrite P1, P2, map_length, psum_side, pabs_side, newest_length, <- E in E1.
    split; [apply newest_finite, P3, F1|]. rewrite value_elt, (elt_some _ _ _ Hn). exact E1.
  - intros n v Hn Fv. pose proof (nthZ_some _ _ _ Hn) as Rn. destruct (R n ltac:(lia)) as [E _]. rewrite (elt_some _ _ _ Hn) in E. fold den in E. rewrite El in E.
    destruct (df2_bound prec emax Hprec Hmax madd v (elt fzero x n) _ lead (madd_good _ Hm) Fl Nl Bl E Fv) as (Fx & F2 & E2).
    destruct (psum_flip prec emax (newest fzero (lower den) w (n - 1))) as (P1 & P2 & P3). rewrite P1, P2, map_length, psum_side, pabs_side, newest_length in E2.
    replace (firstn (length den - 1) den) with (lower den) by (unfold lower, lenZ; f_equal; lia).
    split; [|split].
    + intros k z Hk Hz. change (lenZ [Bone]) with 1%Z in Hk. replace (n - k)%Z with n in Hz by lia. rewrite (elt_some _ _ _ Hz) in Fx. exact Fx.
    + apply newest_finite, P3, F2.
    + rewrite Ev, (value_elt w n), (elt_some _ _ _ Hn), (value_elt x n). exact E2.
Qed.

(** ** Cascaded form *)
(** one section: where its output is finite, the samples it read are, and its difference equation
    y(n) + a1 y(n-1) + a0 y(n-2) = b2 x(n) + b1 x(n-1) + b0 x(n-2) holds up to rounding *)
Definition section_ok (b : biquad float) (x y : list float) : Prop :=
  lenZ y = lenZ x /\
  let '(b0, b1, b2) := bnum b in let '(a0, a1) := bden b in
  forall n v, nthZ y n = Some v -> finite v ->
    side_finite [b0; b1; b2] x n /\ side_finite [a0; a1; Bone] y n /\
    Rabs (side [a0; a1; Bone] y n - side [b0; b1; b2] x n) <=
      ((1 + u) ^ 5 - 1) * (side_abs [b0; b1; b2] x n + side_abs [a0; a1] y (n - 1)) + 5 * (1 + u) ^ 5 * (eta / 2).
(** every section in turn, starting from the input *)
Fixpoint sections_ok (sys : list (biquad float)) (x y : list float) : Prop :=
  match sys with
  | [] => y = x
  | b :: sys => exists m, section_ok b x m /\ sections_ok sys m y
  end.
Lemma side3 (a b c : float) f n : side [a; b; c] f n = B2R c * value f n + B2R b * value f (n - 1) + B2R a * value f (n - 2).
Proof.
  unfold side. change (lenZ [a; b; c]) with 3%Z. rewrite (sumZ_first (K := Rring) 0 3), (sumZ_first (K := Rring) (0 + 1) 3), (sumZ_first (K := Rring) (0 + 1 + 1) 3) by lia. rewrite sumZ_empty by lia.
  rewrite !Z.sub_0_r. change (value [a; b; c] (3 - 1)) with (B2R c). change (value [a; b; c] (3 - 1 - (0 + 1))) with (B2R b). change (value [a; b; c] (3 - 1 - (0 + 1 + 1))) with (B2R a).
  change (0 + 1 + 1)%Z with 2%Z. change (0 + 1)%Z with 1%Z. cbn [radd r0 Rring]. ring.
Qed.
Lemma side_abs3 (a b c : float) f n : side_abs [a; b; c] f n = Rabs (B2R c) * Rabs (value f n) + Rabs (B2R b) * Rabs (value f (n - 1)) + Rabs (B2R a) * Rabs (value f (n - 2)).
Proof.
  unfold side_abs. change (lenZ [a; b; c]) with 3%Z. rewrite (sumZ_first (K := Rring) 0 3), (sumZ_first (K := Rring) (0 + 1) 3), (sumZ_first (K := Rring) (0 + 1 + 1) 3) by lia. rewrite sumZ_empty by lia.
  rewrite !Z.sub_0_r. change (value [a; b; c] (3 - 1)) with (B2R c). change (value [a; b; c] (3 - 1 - (0 + 1))) with (B2R b). change (value [a; b; c] (3 - 1 - (0 + 1 + 1))) with (B2R a).
  change (0 + 1 + 1)%Z with 2%Z. change (0 + 1)%Z with 1%Z. cbn [radd r0 Rring]. ring.
Qed.
Lemma side_abs2 (a b : float) f n : side_abs [a; b] f (n - 1) = Rabs (B2R b) * Rabs (value f (n - 1)) + Rabs (B2R a) * Rabs (value f (n - 2)).
Proof.
  unfold side_abs. change (lenZ [a; b]) with 2%Z. rewrite (sumZ_first (K := Rring) 0 2), (sumZ_first (K := Rring) (0 + 1) 2) by lia. rewrite sumZ_empty by lia.
  rewrite !Z.sub_0_r. change (value [a; b] (2 - 1)) with (B2R b). change (value [a; b] (2 - 1 - (0 + 1))) with (B2R a).
  replace (n - 1 - (0 + 1))%Z with (n - 2)%Z by lia. cbn [radd r0 Rring]. ring.
Qed.
Lemma section_of_rule madd b x y : is_madd madd -> lenZ y = lenZ x -> (forall n, (0 <= n < lenZ x)%Z -> section_rule fzero (Bminus mode_NE) (Bmult mode_NE) madd b x y n) -> section_ok b x y.
Proof.
  intros Hm L H. split; [exact L|]. unfold section_rule in H. destruct (bnum b) as [[b0 b1] b2], (bden b) as [a0 a1].
  intros n v Hn Fv. pose proof (nthZ_some _ _ _ Hn) as Rn. specialize (H n ltac:(lia)). rewrite (elt_some _ _ _ Hn) in H.
  destruct (section_bound prec emax Hprec Hmax madd _ _ _ _ _ _ _ _ _ _ _ (madd_good _ Hm) H Fv) as ((X0 & X1 & X2) & (Y0 & Y1) & E). cbn zeta in E.
  split; [|split].
  - intros k z Hk Hz. change (lenZ [b0; b1; b2]) with 3%Z in Hk. apply elt_some in Hz. subst z.
    assert (k = 0 \/ k = 1 \/ k = 2)%Z as [-> | [-> | ->]] by lia; rewrite ?Z.sub_0_r; assumption.
  - intros k z Hk Hz. change (lenZ [a0; a1; Bone]) with 3%Z in Hk. assert (k = 0 \/ k = 1 \/ k = 2)%Z as [-> | [-> | ->]] by lia; rewrite ?Z.sub_0_r in Hz.
    + congruence.
    + apply elt_some in Hz. now subst z.
    + apply elt_some in Hz. now subst z.
  - rewrite side3, side3, side_abs3, side_abs2, !value_elt, (elt_some _ _ _ Hn), Bone_correct. rewrite <- !Rabs_mult.
    eapply Rle_trans; [|eapply Rle_trans; [exact E|apply Req_le; unfold ur, tiny; ring]]. apply Req_le. f_equal. ring.
Qed.
Lemma sections_of_rule madd sys : forall x y, is_madd madd -> cascade_rule fzero (Bminus mode_NE) (Bmult mode_NE) madd sys x y -> sections_ok sys x y.
Proof.
  induction sys as [|b sys IH]; intros x y Hm H; cbn [cascade_rule sections_ok] in *; [exact H|].
  destruct H as (m & L & R & H). exists m. split; [now apply (section_of_rule madd)|now apply IH].
Qed.
Theorem C71_cascade_residual madd (sys : list (biquad float)) (ord : Z) (x : list float) : is_madd madd -> (0 <= ord)%Z -> (lenZ sys <= (ord + 1) / 2)%Z ->
  okP (Filter_cf_ieee madd sys x (gcf_new fzero ord)) (fun r => lenZ (fst r) = lenZ x /\ sections_ok sys x (fst r)).
Proof.
  intros Hm Ho Hs. unfold Filter_cf_ieee, gFilter_cf. rewrite giir_filter_feeds. cbn [assert_].
  assert (0 <= (ord + 1) / 2)%Z by (apply Z.div_pos; lia).
  eapply okP_imp; [apply (casc_run fzero (Bminus mode_NE) (Bmult mode_NE) madd sys x (gcf_new fzero ord) [] [])|].
  - unfold gcf_new, gcf_set_order. rewrite vresize_nil. apply casc_new_has. lia.
  - unfold gcf_new, gcf_set_order. rewrite vresize_nil, lenZ_repeat. lia.
  - cbn beta. intros [y s] (L & R & _). cbn [fst app] in *. split; [exact L|]. now apply (sections_of_rule madd).
Qed.
End Ieee.
Print Assumptions C71_direct_form_I_residual.
Print Assumptions C71_direct_form_II_residual.
Print Assumptions C71_cascade_residual.

(** ** The error of the output: the exact response to the residual *)
(** a solution of the difference equation with right hand side [r] is the convolution of [r] with the impulse
    response [h] *)
Section Response.
Context (K : CField).
Add Ring KringIF : (rth K).
Lemma one_term (x : K) : radd (rmul r1 x) r0 = x. Proof. ring. Qed.
Lemma swap_factors (a b c : K) : rmul a (rmul b c) = rmul b (rmul a c). Proof. ring. Qed.
Lemma rmul_1_r' (x : K) : rmul x r1 = x. Proof. ring. Qed.
Lemma rmul_0_r' (x : K) : rmul x r0 = r0. Proof. ring. Qed.
Lemma solution_is_convolution (den r h e delta : list K) : (0 < lenZ den)%Z -> at0 den (lenZ den - 1) <> r0 ->
  lenZ delta = lenZ r -> (forall i, (0 <= i < lenZ r)%Z -> at0 delta i = if (i =? 0)%Z then r1 else r0) ->
  difference_equation [r1] den delta h -> difference_equation [r1] den r e ->
  forall n, (0 <= n < lenZ r)%Z -> at0 e n = sumZ 0 (lenZ r) (fun m => rmul (at0 r m) (at0 h (n - m))).
Proof.
  intros H1 H2 Ld Hd [Lh Hh] He. set (T := lenZ r) in *.
  set (e' := tab T (fun n => sumZ 0 T (fun m => rmul (at0 r m) (at0 h (n - m))))).
  assert (HT : (0 <= T)%Z) by apply lenZ_nonneg.
  assert (V : forall i, (i < T)%Z -> at0 e' i = sumZ 0 T (fun m => rmul (at0 r m) (at0 h (i - m)))).
  { intros i Hi. unfold e'. rewrite at0_tab_gen. destruct (Z_lt_ge_dec i 0) as [Hn|Hn].
    - replace ((0 <=? i)%Z) with false by lia. cbn [andb]. symmetry. apply sumZ_zero. intros m Hm.
      assert (E0 : at0 h (i - m) = r0) by (unfold at0; rewrite (proj2 (nthZ_none h (i - m))) by lia; reflexivity). rewrite E0. apply rmul_0_r'.
    - replace ((0 <=? i)%Z && (i <? T)%Z)%bool with true by lia. reflexivity. }
  assert (H1x : forall (f : list K) n, sumZ 0 (lenZ [@r1 K]) (fun k => rmul (at0 [r1] (lenZ [@r1 K] - 1 - k)) (at0 f (n - k))) = at0 f n).
  { intros f n. change (lenZ [@r1 K]) with 1%Z. rewrite (sumZ_first (K := K) 0 1) by lia. rewrite sumZ_empty by lia. replace (n - 0)%Z with n by lia. change (at0 [@r1 K] (1 - 1 - 0)) with (@r1 K). apply one_term. }
  assert (E : e = e').
  { eapply (obeys_unique (K := K)); [split; [exact H1|exact H2]|exact He|]. split; [unfold e'; rewrite lenZ_tab; lia|]. intros n Hn. fold T in Hn. unfold deq, lin.
    rewrite H1x. transitivity (sumZ 0 (lenZ den) (fun j => sumZ 0 T (fun m => rmul (at0 r m) (rmul (at0 den (lenZ den - 1 - j)) (at0 h (n - m - j)))))).
    { apply sumZ_ext. intros j Hj. rewrite V by lia. rewrite <- sumZ_scale. apply sumZ_ext. intros m Hm. replace (n - j - m)%Z with (n - m - j)%Z by lia. apply swap_factors. }
    rewrite sumZ_swap. rewrite (sumZ_single 0 T n); [|exact Hn|].
    - rewrite sumZ_scale. rewrite Z.sub_diag. rewrite (Hh 0%Z) by (rewrite Ld; lia). rewrite H1x, Hd by (rewrite ?Ld; lia). apply rmul_1_r'.
    - intros m Hm Hmn. rewrite sumZ_scale. destruct (Z_lt_ge_dec (n - m) 0).
      + rewrite sumZ_zero; [apply rmul_0_r'|]. intros j Hj. assert (E0 : at0 h (n - m - j) = r0) by (unfold at0; rewrite (proj2 (nthZ_none h (n - m - j))) by lia; reflexivity). rewrite E0. apply rmul_0_r'.
      + rewrite Hh by (rewrite Ld; lia). rewrite H1x, Hd by (rewrite ?Ld; lia). replace (n - m =? 0)%Z with false by lia. apply rmul_0_r'. }
  intros n Hn. rewrite E. apply V. lia.
Qed.
End Response.
Lemma Rabs_sumZ lo hi (F : Z -> R) : Rabs (sumZ (K := Rring) lo hi F) <= sumZ (K := Rring) lo hi (fun i => Rabs (F i)).
Proof.
  unfold sumZ. induction (Z.to_nat (hi - lo)) as [|n IH]; cbn [sumf]; [cbn [r0 Rring]; rewrite Rabs_R0; lra|].
  cbn [radd Rring]. eapply Rle_trans; [apply Rabs_triang|]. apply Rplus_le_compat_r. exact IH.
Qed.
Lemma sumZ_le lo hi (F G : Z -> R) : (forall i, (lo <= i < hi)%Z -> F i <= G i) -> sumZ (K := Rring) lo hi F <= sumZ (K := Rring) lo hi G.
Proof.
  intros H. unfold sumZ. assert (A : forall n, (n <= Z.to_nat (hi - lo))%nat -> sumf (K := Rring) n (fun i => F (lo + Z.of_nat i)%Z) <= sumf (K := Rring) n (fun i => G (lo + Z.of_nat i)%Z)).
  { induction n as [|n IH]; intros Hn; cbn [sumf]; [apply Rle_refl|]. cbn [radd Rring]. apply Rplus_le_compat; [apply IH; lia|apply H; lia]. }
  apply A. lia.
Qed.

Section Error.
Variables prec emax : Z.
Context (Hprec : Prec_gt_0 prec) (Hmax : Prec_lt_emax prec emax).
Notation float := (binary_float prec emax).
Notation fzero := (B754_zero false : float).
Lemma side_is (c f : list float) n : side prec emax c f n =
  sumZ (K := Complex.Rfield) 0 (lenZ (map B2R c)) (fun k => rmul (at0 (K := Complex.Rfield) (map B2R c) (lenZ (map B2R c) - 1 - k)) (at0 (K := Complex.Rfield) (map B2R f) (n - k))).
Proof. unfold side. rewrite lenZ_map. reflexivity. Qed.
(** Let [exact] be the exact answer to the values of [x] and [h] the exact impulse response of 1/denominator
    (both determined by their difference equations, C20). Where the output has been finite so far, its error is
    at most the sum of the roundings made so far, each weighted by the impulse response. *)
Theorem C71_direct_form_I_error madd (sys : tf float) (ord : Z) (x : list float) (exact h impulse : list R) : is_madd prec emax Hprec Hmax madd -> usable prec emax sys ord ->
  difference_equation (K := Complex.Rfield) (map B2R (numerator sys)) (map B2R (denominator sys)) (map B2R x) exact ->
  lenZ impulse = lenZ x -> (forall i, (0 <= i < lenZ x)%Z -> at0 (K := Rring) impulse i = if (i =? 0)%Z then 1 else 0) ->
  difference_equation (K := Complex.Rfield) [1] (map B2R (denominator sys)) impulse h ->
  okP (Filter_df1_ieee prec emax Hprec Hmax madd sys x (gdf1_new fzero ord)) (fun r => let y := fst r in
    forall n, (0 <= n < lenZ x)%Z -> (forall j v, (j <= n)%Z -> nthZ y j = Some v -> is_finite v = true) ->
      Rabs (value prec emax y n - at0 (K := Rring) exact n) <=
        sumZ (K := Rring) 0 (n + 1) (fun k => Rabs (at0 (K := Rring) h k) * rounding prec emax sys x y (n - k))).
Proof.
  intros Hm Hu [Lx Hx] Li Hi Hh. eapply okP_imp; [apply (C71_direct_form_I_residual prec emax Hprec Hmax madd sys ord x Hm Hu)|].
  cbn beta zeta. intros [y s] [L Rs] n Hn Fy. cbn [fst] in *. set (T := lenZ x) in *. rewrite lenZ_map in Lx.
  set (num := numerator sys) in *. set (den := denominator sys) in *.
  set (r := tab T (fun i => side prec emax den y i - side prec emax num x i)). set (e := tab T (fun i => value prec emax y i - at0 (K := Rring) exact i)).
  assert (HT : (0 <= T)%Z) by apply lenZ_nonneg.
  assert (Lr : lenZ r = T) by (unfold r; rewrite lenZ_tab; lia).
  assert (Ve : forall i, (i < T)%Z -> at0 (K := Rring) e i = value prec emax y i - at0 (K := Rring) exact i).
  { intros i Hi0. unfold e. rewrite at0_tab_gen. destruct (Z_lt_ge_dec i 0).
    - replace (0 <=? i)%Z with false by lia. cbn [andb]. unfold value, at0. rewrite (proj2 (nthZ_none _ i)), (proj2 (nthZ_none _ i)) by lia. change (0 = 0 - 0). ring.
    - replace ((0 <=? i)%Z && (i <? T)%Z)%bool with true by lia. reflexivity. }
  assert (He : difference_equation (K := Complex.Rfield) [1] (map B2R den) r e).
  { split; [transitivity T; [unfold e; rewrite lenZ_tab; lia|symmetry; exact Lr]|]. intros i Hi0'. assert (Hi0 : (0 <= i < T)%Z) by (rewrite <- Lr; exact Hi0'). clear Hi0'.
    change (lenZ [1]) with 1%Z. rewrite (sumZ_first (K := Complex.Rfield) 0 1), (sumZ_empty (K := Complex.Rfield) _ 1) by lia. rewrite Z.sub_0_r.
    assert (A : at0 (K := Complex.Rfield) r i = side prec emax den y i - side prec emax num x i) by (unfold r; now rewrite (at0_tab (K := Complex.Rfield)) by lia).
    specialize (Hx i ltac:(rewrite lenZ_map; exact Hi0)). rewrite <- side_is in Hx.
    transitivity (side prec emax den y i - side prec emax num x i).
    2:{ rewrite <- A. replace (i - 0)%Z with i by lia. set (q := at0 _ i). generalize q. intros q'. symmetry. exact (one_term Complex.Rfield q'). }
    rewrite <- Hx, side_is. rewrite <- (sumZ_sub (K := Complex.Rfield)). apply sumZ_ext. intros k Hk. pose proof (Ve (i - k)%Z ltac:(lia)) as V. change (at0 (K := Complex.Rfield) e (i - k)) with (at0 (K := Rring) e (i - k)). rewrite V.
    first [exact (Rmult_minus_distr_l _ _ _)|symmetry; exact (Rmult_minus_distr_l _ _ _)]. }
  destruct (usable_lead _ _ _ _ Hu) as (lead & El & Ev & Fl & Nl & Bl).
  assert (C := solution_is_convolution Complex.Rfield (map B2R den) r h e impulse).
  specialize (C ltac:(rewrite lenZ_map; apply Hu)). specialize (C ltac:(rewrite lenZ_map; change (lead_value prec emax sys <> 0); now rewrite Ev)).
  specialize (C (eq_trans Li (eq_sym Lr))). specialize (C ltac:(intros i Hi0; apply Hi; rewrite <- Lr; exact Hi0) Hh He n ltac:(change (0 <= n < lenZ r)%Z; rewrite Lr; exact Hn)).
  change (@lenZ (car Complex.Rfield) r) with (lenZ r) in C. rewrite Lr in C.
  rewrite <- Ve by lia. change (at0 (K := Rring) e n) with (at0 (K := Complex.Rfield) e n). rewrite C.
  assert (Sp : sumZ (K := Rring) 0 T (fun m => Rabs (at0 (K := Rring) r m * at0 (K := Rring) h (n - m))) = sumZ (K := Rring) 0 (n + 1) (fun m => Rabs (at0 (K := Rring) r m * at0 (K := Rring) h (n - m)))).
  { rewrite (sumZ_split (K := Rring) 0 (n + 1) T) by lia. rewrite (sumZ_zero (K := Rring) (n + 1) T); [change (sumZ (K := Rring) 0 (n + 1) (fun m => Rabs (at0 (K := Rring) r m * at0 (K := Rring) h (n - m))) + 0 = sumZ (K := Rring) 0 (n + 1) (fun m => Rabs (at0 (K := Rring) r m * at0 (K := Rring) h (n - m)))); ring|].
    intros m Hm0. assert (E0 : at0 (K := Rring) h (n - m) = 0) by (unfold at0; rewrite (proj2 (nthZ_none (A := car Rring) h (n - m))) by lia; reflexivity). rewrite E0, Rmult_0_r. apply Rabs_R0. }
  eapply Rle_trans; [apply Rabs_sumZ|]. change (sumZ (K := Rring) 0 T (fun m => Rabs (at0 (K := Rring) r m * at0 (K := Rring) h (n - m))) <= sumZ (K := Rring) 0 (n + 1) (fun k => Rabs (at0 (K := Rring) h k) * rounding prec emax sys x y (n - k))).
  rewrite Sp. rewrite (sumZ_reflect (K := Rring) 0 (n + 1) n (fun m => Rabs (at0 (K := Rring) r m * at0 (K := Rring) h (n - m)))). replace (n - (n + 1) + 1)%Z with 0%Z by lia. replace (n - 0 + 1)%Z with (n + 1)%Z by lia.
  apply sumZ_le. intros k Hk. replace (n - (n - k))%Z with k by lia. rewrite Rabs_mult, Rmult_comm. apply Rmult_le_compat_l; [apply Rabs_pos|].
  assert (A : at0 (K := Rring) r (n - k) = side prec emax den y (n - k) - side prec emax num x (n - k)) by (unfold r; now rewrite at0_tab by lia). rewrite A.
  destruct (nthZ y (n - k)) as [v|] eqn:Ey; [|apply nthZ_none in Ey; exfalso; lia].
  apply (Rs (n - k)%Z v Ey). apply (Fy (n - k)%Z v ltac:(lia) Ey).
Qed.
End Error.
Print Assumptions C71_direct_form_I_error.

(** a sample that is not finite stays in the loop: with a recursive part, every later sample is not finite either *)
Theorem C71_nonfinite_output_is_permanent prec emax (Hprec : Prec_gt_0 prec) (Hmax : Prec_lt_emax prec emax) madd (sys : tf (binary_float prec emax)) (ord : Z) (x : list (binary_float prec emax)) :
  is_madd prec emax Hprec Hmax madd -> usable prec emax sys ord -> (2 <= lenZ (denominator sys))%Z ->
  okP (Filter_df1_ieee prec emax Hprec Hmax madd sys x (gdf1_new (B754_zero false) ord)) (fun r =>
    forall n m v w, (n <= m)%Z -> nthZ (fst r) n = Some v -> is_finite v = false -> nthZ (fst r) m = Some w -> is_finite w = false).
Proof.
  intros Hm Hu Hd. eapply okP_imp; [apply (C71_direct_form_I_residual prec emax Hprec Hmax madd sys ord x Hm Hu)|].
  cbn beta zeta. intros [y s] [L Rs] n m v w Hnm Hv Fv Hw. cbn [fst] in *.
  assert (A : forall k, (0 <= k)%Z -> forall w, nthZ y (n + k) = Some w -> is_finite w = false).
  { intros k Hk. pattern k. apply natlike_ind; [| |exact Hk].
    - intros z Hz. rewrite Z.add_0_r in Hz. congruence.
    - clear k Hk. intros k Hk IH z Hz. destruct (is_finite z) eqn:Fz; [|reflexivity]. exfalso.
      destruct (nthZ y (n + k)) as [q|] eqn:Eq.
      + specialize (IH q eq_refl). destruct (Rs _ _ Hz Fz) as (_ & F & _). specialize (F 1%Z q ltac:(lia)).
        replace (n + Z.succ k - 1)%Z with (n + k)%Z in F by lia. specialize (F Eq). congruence.
      + apply nthZ_none in Eq. pose proof (nthZ_some _ _ _ Hv). pose proof (nthZ_some _ _ _ Hz). lia. }
  apply (A (m - n)%Z); [lia|]. now replace (n + (m - n))%Z with m by lia.
Qed.
Print Assumptions C71_nonfinite_output_is_permanent.

(** ** Hypotheses are met *)
#[local] Existing Instance p24.
#[local] Existing Instance e128.
(** binary32, 3 y(n) + 2 y(n-1) = x(n) + 5 x(n-1): usable; fed 1, 7, 2^100, all outputs are finite, and 1/3 is rounded *)
Definition example_sys : tf (binary_float 24 128) := mkTf [b32 5 0; b32 1 0] [b32 2 0; b32 3 0].
Lemma b32_three : B2R (b32 3 0) = 3.
Proof. rewrite <- SF2R_B2SF. replace (B2SF (b32 3 0)) with (SpecFloat.S754_finite false 12582912 (-22)) by (vm_compute; reflexivity). unfold SF2R, F2R. cbn. lra. Qed.
Example C71_nontrivial :
  usable 24 128 example_sys 1 /\
  is_madd 24 128 p24 e128 (fun t a b => Bplus mode_NE t (Bmult mode_NE a b)) /\ is_madd 24 128 p24 e128 (fun t a b => Bfma mode_NE a b t) /\
  (match Filter_df1_ieee 24 128 p24 e128 (fun t a b => Bplus mode_NE t (Bmult mode_NE a b)) example_sys [b32 1 0; b32 7 0; b32 1 100] (gdf1_new (B754_zero false) 1) with
   | Ok (y, _) => forallb is_finite y = true /\ option_map B2SF (nthZ y 0) = Some (SpecFloat.S754_finite false 11184811 (-25)) | _ => False end) /\
  (match Filter_df2_ieee 24 128 p24 e128 (fun t a b => Bfma mode_NE a b t) example_sys [b32 1 0; b32 7 0; b32 1 100] (gdf2_new (B754_zero false) 1) with
   | Ok (y, _) => forallb is_finite y = true | _ => False end) /\
  (match Filter_cf_ieee 24 128 p24 e128 (fun t a b => Bfma mode_NE a b t) [mkBq (b32 5 0, b32 1 0, b32 1 (-3)) (b32 1 (-1), b32 1 (-2)) 2 2] [b32 1 0; b32 7 0; b32 1 100] (gcf_new (B754_zero false) 2) with
   | Ok (y, _) => forallb is_finite y = true | _ => False end).
Proof.
  split; [|split; [|split; [|split; [|split]]]].
  - split; [reflexivity|]. split; [lia|]. split; [cbn; lia|]. exists (b32 3 0). split; [reflexivity|]. split; [vm_compute; reflexivity|].
    rewrite b32_three. split; [lra|]. rewrite Rabs_right by lra. apply Rle_trans with (bpow radix2 2); [cbn; lra|]. apply bpow_le. lia.
  - now left.
  - now right.
  - vm_compute. split; reflexivity.
  - vm_compute. reflexivity.
  - vm_compute. reflexivity.
Qed.
(** NaN is not hidden: a finite output was computed from finite samples only; here the second sample is NaN *)
Example C71_nan_propagates :
  match Filter_df1_ieee 24 128 p24 e128 (fun t a b => Bplus mode_NE t (Bmult mode_NE a b)) example_sys [b32 1 0; B754_nan; b32 1 0; b32 1 0; b32 1 0] (gdf1_new (B754_zero false) 1) with
  | Ok (y, _) => map is_finite y = [true; false; false; false; false] | _ => False end.
Proof. vm_compute. reflexivity. Qed.
