(** C86: waves in floating point. *)
From Coq Require Import Reals Lra Lia List ZArith Psatz.
From Flocq Require Import Core Relative BinarySingleNaN.
From Verif Require WindowModel.
From Verif Require Import Base BaseFacts KernelModel KernelProofs FloatIeee FloatStat PropsFloat PropsResampleFloat PropsSpacesFloat WaveModel.
From Coq Require Import ZifyBool ZifyNat.
Import ListNotations.
Local Open Scope Z_scope.

(** over any arithmetic: each sample is the wave at the phase of its index *)
Lemma fill_wave {T} (g : Z -> T) (out : list T) :
  for_ 0 (lenZ out) 1 (fun i out => wr out i (g i)) out = Ok (tab (lenZ out) g).
Proof. apply fill_index. Qed.
Lemma fill_chirp {T} (g : Z -> Z -> T) (out : list T) :
  for_ 0 (lenZ out) 1 (fun i out => wr out i (g (lenZ out) i)) out = Ok (tab (lenZ out) (g (lenZ out))).
Proof.
  destruct (for1_inv (fun i (o : list T) => lenZ o = lenZ out /\ forall j, 0 <= j < i -> nthZ o j = Some (g (lenZ out) j)) 0 (lenZ out) (fun i out => wr out i (g (lenZ out) i)) out) as (o & E & L & N).
  - split; [reflexivity|]. intros j Hj. lia.
  - apply lenZ_nonneg.
  - intros i o Hi [L N]. rewrite wr_ok by lia. apply okP_ret. split; [rewrite lenZ_updZ by lia; exact L|]. intros j Hj. rewrite nthZ_updZ by lia.
    destruct (Z.eqb_spec j i) as [->|Hn]; [now rewrite L|]. apply N. lia.
  - rewrite E. f_equal. apply nthZ_ext; [rewrite lenZ_tab; pose proof (lenZ_nonneg out); lia|]. intros k Hk. rewrite N by lia. now rewrite nthZ_tab by lia.
Qed.
Local Open Scope R_scope.
Section Exact.
Variables prec emax : Z.
Context (Hprec : Prec_gt_0 prec) (Hmax : Prec_lt_emax prec emax).
Notation float := (binary_float prec emax).
Notation rnd := (round radix2 (FLT_exp (3 - emax - prec) prec) ZnearestE).
Notation overflow := (bpow radix2 emax).
Notation fin x := (is_finite x = true).
Notation norm := (binary_normalize prec emax Hprec Hmax mode_NE).
(** std::modf: the fractional part, with the sign of the argument; of an infinity it is zero *)
Definition fmodf (x : float) : float :=
  match x with
  | B754_finite s m e _ => if (0 <=? e)%Z then B754_zero s else norm (if s then - (Zpos m mod 2 ^ (- e)) else Zpos m mod 2 ^ (- e))%Z e s
  | B754_infinity s => B754_zero s
  | _ => x
  end.
(** conversion of a number of any other format to this one *)
Definition fcast {p e'} (x : binary_float p e') : float :=
  match x with
  | B754_finite s m e _ => norm (if s then Zneg m else Zpos m) e s
  | B754_infinity s => B754_infinity s
  | B754_zero s => B754_zero s
  | B754_nan => B754_nan
  end.
Lemma norm_exact m e s : (Z.abs m < 2 ^ prec)%Z -> (3 - emax - prec <= e)%Z -> Rabs (F2R (Float radix2 m e)) < overflow ->
  fin (norm m e s) /\ B2R (norm m e s) = F2R (Float radix2 m e).
Proof.
  intros Hm He Ho. pose proof (binary_normalize_correct prec emax Hprec Hmax mode_NE m e s) as C. cbv zeta in C.
  change (round radix2 (SpecFloat.fexp prec emax) (round_mode mode_NE) (F2R (Float radix2 m e))) with (rnd (F2R (Float radix2 m e))) in C.
  assert (G : rnd (F2R (Float radix2 m e)) = F2R (Float radix2 m e)).
  { apply round_generic; [apply valid_rnd_N|]. apply generic_format_FLT. exists (Float radix2 m e); [reflexivity|exact Hm|exact He]. }
  rewrite G, Rlt_bool_true in C by exact Ho. destruct C as (C1 & C2 & _). auto.
Qed.
Lemma modf_exact (x : float) : fin x -> 0 <= B2R x -> fin (fmodf x) /\ 0 <= B2R (fmodf x) < 1 /\ B2R (fmodf x) = B2R x - IZR (Zfloor (B2R x)).
Proof.
  intros F P. destruct x as [s|s| |s m e He]; try discriminate; cbn [fmodf].
  - split; [reflexivity|]. cbn. rewrite (Zfloor_imp 0) by (cbn; lra). lra.
  - assert (Pm : 0 < F2R (Float radix2 (Zpos m) e)) by (apply F2R_gt_0; reflexivity).
    assert (s = false). { destruct s; [|reflexivity]. exfalso. cbn in P. change (F2R (Float radix2 (Z.neg m) e)) with (F2R (Float radix2 (- Z.pos m) e)) in P. rewrite F2R_Zopp in P. lra. } subst s.
    cbn [B2R SpecFloat.cond_Zopp] in *. change (cond_Zopp false (Z.pos m)) with (Z.pos m) in *.
    pose proof He as Hb. unfold SpecFloat.bounded in Hb. apply andb_prop in Hb as [Hc _]. apply Zeq_bool_eq in Hc.
    destruct (Z.leb_spec 0 e) as [L|L].
    + split; [reflexivity|]. cbn [B2R]. rewrite (Zfloor_imp (Z.pos m * 2 ^ e)).
      * unfold F2R. cbn [Fnum Fexp]. rewrite mult_IZR. rewrite (IZR_Zpower radix2) by exact L. lra.
      * unfold F2R. cbn [Fnum Fexp]. rewrite plus_IZR, mult_IZR. rewrite (IZR_Zpower radix2) by exact L. lra.
    + set (K := (2 ^ (- e))%Z). assert (K0 : (0 < K)%Z) by (apply Z.pow_pos_nonneg; lia). pose proof (Z.mod_pos_bound (Z.pos m) K K0) as Mb.
      assert (Ml : (Z.pos m mod K <= Z.pos m)%Z) by (apply Z.mod_le; lia).
      assert (BK : bpow radix2 e * IZR K = 1). { unfold K. rewrite (IZR_Zpower radix2) by lia. rewrite <- bpow_plus. replace (e + - e)%Z with 0%Z by ring. reflexivity. }
      assert (Be : 0 < bpow radix2 e) by apply bpow_gt_0.
      assert (R1 : 0 <= F2R (Float radix2 (Z.pos m mod K) e) < 1).
      { unfold F2R. cbn [Fnum Fexp]. assert (0 <= IZR (Z.pos m mod K) < IZR K) by (split; [apply (IZR_le 0)|apply IZR_lt]; lia). split; [nra|]. rewrite <- BK. rewrite (Rmult_comm (bpow radix2 e)). apply Rmult_lt_compat_r; lra. }
      assert (Pp : Prec_gt_0 prec) by exact Hprec. unfold Prec_gt_0 in Pp. assert (Pe : (prec < emax)%Z) by exact Hmax.
      destruct (norm_exact (Z.pos m mod K) e false) as [N1 N2].
      * rewrite Z.abs_eq by lia. apply Z.le_lt_trans with (1 := Ml). pose proof (abs_B2R_lt_emax prec emax (B754_finite false m e He)).
        assert (Hd : (Z.pos (SpecFloat.digits2_pos m) <= prec)%Z). { unfold SpecFloat.fexp, SpecFloat.emin in Hc. lia. }
        rewrite Digits.Zpos_digits2_pos in Hd. apply (Digits.Zpower_gt_Zdigits radix2) in Hd. exact Hd.
      * unfold SpecFloat.fexp, SpecFloat.emin in Hc. lia.
      * rewrite Rabs_pos_eq by lra. apply Rlt_trans with 1; [lra|]. apply (bpow_lt radix2 0). lia.
      * split; [exact N1|]. rewrite N2. split; [exact R1|].
        assert (Ed : F2R (Float radix2 (Z.pos m) e) = F2R (Float radix2 (Z.pos m mod K) e) + IZR (Z.pos m / K)).
        { unfold F2R. cbn [Fnum Fexp]. rewrite (Z.div_mod (Z.pos m) K) at 1 by lia. rewrite plus_IZR, mult_IZR. replace (IZR (Z.pos m / K)) with (IZR (Z.pos m / K) * (bpow radix2 e * IZR K)) at 2 by (rewrite BK; ring). ring. }
        rewrite (Zfloor_imp (Z.pos m / K)); [lra|]. rewrite plus_IZR. lra.
Qed.
Lemma cast_rnd {p e'} (x : binary_float p e') : is_finite x = true -> Rabs (rnd (B2R x)) < overflow -> fin (fcast x) /\ B2R (fcast x) = rnd (B2R x).
Proof.
  intros F H. destruct x as [s|s| |s m e He]; try discriminate; cbn [fcast].
  - split; [reflexivity|]. cbn. symmetry. apply round_0, valid_rnd_N.
  - pose proof (binary_normalize_correct prec emax Hprec Hmax mode_NE (if s then Zneg m else Zpos m) e s) as C. cbv zeta in C.
    replace (F2R (Float radix2 (if s then Z.neg m else Z.pos m) e)) with (B2R (B754_finite s m e He)) in C by (destruct s; reflexivity).
    change (round radix2 (SpecFloat.fexp prec emax) (round_mode mode_NE) (B2R (B754_finite s m e He))) with (rnd (B2R (B754_finite s m e He))) in C.
    rewrite Rlt_bool_true in C by exact H. destruct C as (C1 & C2 & _). auto.
Qed.
End Exact.

Section Format.
Variables prec emax : Z.
Context (Hprec : Prec_gt_0 prec) (Hmax : Prec_lt_emax prec emax).
Notation float := (binary_float prec emax).
Notation rnd := (round radix2 (FLT_exp (3 - emax - prec) prec) ZnearestE).
Notation overflow := (bpow radix2 emax).
Notation u := (bpow radix2 (- prec)).
Notation fin x := (is_finite x = true).
Notation size := (fSize prec emax Hprec Hmax).
Definition d0 : float := B754_zero false.
Definition two : float := binary_normalize prec emax Hprec Hmax mode_NE 1 1 false.
Definition denorm_min : float := binary_normalize prec emax Hprec Hmax mode_NE 1 (3 - emax - prec) false.
Notation modf := (fmodf prec emax Hprec Hmax).
Definition fPhase (pi : float) sr f ph i : float := gPhase size (Bplus mode_NE) (Bmult mode_NE) (Bdiv mode_NE) two pi sr f ph i.
Definition fChirpPhase (pi : float) n sr f0 f1 ph i : float := gChirpPhase size (Bplus mode_NE) (Bminus mode_NE) (Bmult mode_NE) (Bdiv mode_NE) two pi n sr f0 f1 ph i.
Definition fSawtooth (pi phase tilt : float) : float :=
  gSawtooth (Bplus mode_NE) (Bminus mode_NE) (Bmult mode_NE) (Bdiv mode_NE) (@Babs prec emax) modf (@Bltb prec emax) Bone two pi denorm_min phase tilt.
Definition fPwm (pi phase fill : float) : float := gPwm (Bmult mode_NE) (Bdiv mode_NE) modf (@Bltb prec emax) (@Bleb prec emax) d0 Bone two pi phase fill.
Lemma emax2 : 4 <= overflow.
Proof.
  assert (P : Prec_gt_0 prec) by exact Hprec. unfold Prec_gt_0 in P. assert (Q : (prec < emax)%Z) by exact Hmax.
  change 4 with (bpow radix2 2). apply bpow_le. lia.
Qed.
Let rnd_mono := rnd_mono prec emax Hprec.
Let rnd_id := rnd_id prec emax.
Lemma two_val : fin two /\ B2R two = 2.
Proof.
  assert (P : Prec_gt_0 prec) by exact Hprec. unfold Prec_gt_0 in P. assert (Q : (prec < emax)%Z) by exact Hmax. pose proof emax2.
  assert (F : F2R (Float radix2 1 1) = 2) by (unfold F2R; cbn; lra).
  destruct (norm_exact prec emax Hprec Hmax 1 1 false) as [A B].
  - change (Z.abs 1) with (2 ^ 0)%Z. apply Z.pow_lt_mono_r; lia.
  - lia.
  - rewrite F, Rabs_pos_eq; lra.
  - split; [exact A|]. rewrite <- F. exact B.
Qed.
Lemma denorm_val : fin denorm_min /\ 0 < B2R denorm_min <= 1.
Proof.
  assert (P : Prec_gt_0 prec) by exact Hprec. unfold Prec_gt_0 in P. assert (Q : (prec < emax)%Z) by exact Hmax. pose proof emax2.
  assert (F : F2R (Float radix2 1 (3 - emax - prec)) = bpow radix2 (3 - emax - prec)) by (unfold F2R; cbn [Fnum Fexp]; lra).
  assert (B1 : 0 < bpow radix2 (3 - emax - prec) <= 1) by (split; [apply bpow_gt_0|apply (bpow_le radix2 _ 0); lia]).
  destruct (norm_exact prec emax Hprec Hmax 1 (3 - emax - prec) false) as [A B].
  - change (Z.abs 1) with (2 ^ 0)%Z. apply Z.pow_lt_mono_r; lia.
  - lia.
  - rewrite F, Rabs_pos_eq; lra.
  - split; [exact A|]. unfold denorm_min. rewrite B, F. exact B1.
Qed.
Lemma one_val : fin (@Bone prec emax Hprec Hmax) /\ B2R (@Bone prec emax Hprec Hmax) = 1.
Proof. split; [apply is_finite_Bone|apply Bone_correct]. Qed.
Lemma rnd1 : rnd 1 = 1.
Proof. rewrite <- (proj2 one_val). apply rnd_id. Qed.
Lemma rnd2 : rnd 2 = 2.
Proof. rewrite <- (proj2 two_val). apply rnd_id. Qed.
Lemma rndm1 : rnd (-1) = -1.
Proof. change (-1) with (- (1)). rewrite round_NE_opp. now rewrite rnd1. Qed.
Lemma rnd_range a b x : rnd a = a -> rnd b = b -> a <= x <= b -> a <= rnd x <= b.
Proof. intros Ha Hb H. split; [rewrite <- Ha|rewrite <- Hb]; now apply rnd_mono. Qed.
Lemma small x : Rabs x <= 2 -> Rabs (rnd x) < overflow.
Proof.
  intros H. apply Rabs_le_inv in H. pose proof emax2. assert (-2 <= rnd x <= 2).
  { apply rnd_range; [change (-2) with (- (2)); rewrite round_NE_opp; now rewrite rnd2|apply rnd2|lra]. }
  apply Rabs_lt. lra.
Qed.
Lemma plus_s (a b : float) : fin a -> fin b -> Rabs (B2R a + B2R b) <= 2 -> fin (Bplus mode_NE a b) /\ B2R (Bplus mode_NE a b) = rnd (B2R a + B2R b).
Proof. intros Fa Fb H. apply plus_rnd; auto. now apply small. Qed.
Lemma minus_s (a b : float) : fin a -> fin b -> Rabs (B2R a - B2R b) <= 2 -> fin (Bminus mode_NE a b) /\ B2R (Bminus mode_NE a b) = rnd (B2R a - B2R b).
Proof. intros Fa Fb H. apply minus_rnd; auto. now apply small. Qed.
Lemma mult_s (a b : float) : fin a -> fin b -> Rabs (B2R a * B2R b) <= 2 -> fin (Bmult mode_NE a b) /\ B2R (Bmult mode_NE a b) = rnd (B2R a * B2R b).
Proof. intros Fa Fb H. apply mult_rnd; auto. now apply small. Qed.
Lemma div_s (a b : float) : fin a -> B2R b <> 0 -> Rabs (rnd (B2R a / B2R b)) < overflow -> fin (Bdiv mode_NE a b) /\ B2R (Bdiv mode_NE a b) = rnd (B2R a / B2R b).
Proof.
  intros Fa Hb H. pose proof (Bdiv_correct prec emax Hprec Hmax mode_NE a b Hb) as C.
  change (round radix2 (SpecFloat.fexp prec emax) (round_mode mode_NE) (B2R a / B2R b)) with (rnd (B2R a / B2R b)) in C.
  rewrite Rlt_bool_true in C by exact H. destruct C as (C1 & C2 & _). rewrite C2. auto.
Qed.
(** pi_v<double>: any number between 1/2 and overflow/4 will do *)
Definition pi_ok (pi : float) : Prop := fin pi /\ 1 / 2 <= B2R pi < overflow / 4.
(** the fraction of the period, as computed *)
Definition unit_phase (pi phase : float) : float := modf (Bdiv mode_NE phase (Bmult mode_NE two pi)).
Lemma quotient_ok pi phase : pi_ok pi -> fin phase -> 0 <= B2R phase -> fin (Bdiv mode_NE phase (Bmult mode_NE two pi)) /\ 0 <= B2R (Bdiv mode_NE phase (Bmult mode_NE two pi)).
Proof.
  intros [Fp Hp] F P. destruct two_val as [F2 V2]. pose proof emax2 as O4. pose proof (rnd_0 prec emax) as R0.
  assert (R2 : 1 <= rnd (2 * B2R pi)) by (rewrite <- rnd1 at 1; apply rnd_mono; lra).
  assert (U2 : rnd (2 * B2R pi) <= overflow / 2).
  { replace (overflow / 2) with (rnd (overflow / 2)); [apply rnd_mono; lra|]. replace (overflow / 2) with (bpow radix2 (emax - 1)).
    - apply round_generic; [apply valid_rnd_N|]. apply generic_format_FLT_bpow; [exact Hprec|]. assert (Q : (prec < emax)%Z) by exact Hmax. assert (P1 : Prec_gt_0 prec) by exact Hprec. unfold Prec_gt_0 in P1. lia.
    - replace (emax - 1)%Z with (-1 + emax)%Z by ring. rewrite bpow_plus. change (bpow radix2 (-1)) with (/ 2). lra. }
  destruct (mult_rnd prec emax Hprec Hmax two pi F2 Fp) as [FM EM]; [rewrite V2, Rabs_pos_eq; lra|]. rewrite V2 in EM.
  destruct (div_s phase (Bmult mode_NE two pi) F) as [FD ED]; [apply Rgt_not_eq; rewrite EM; lra| |].
  - assert (0 <= B2R phase / B2R (Bmult mode_NE two pi) <= B2R phase).
    { split; [apply Rmult_le_pos; [exact P|left; apply Rinv_0_lt_compat; lra]|]. rewrite EM. apply Rmult_le_reg_r with (rnd (2 * B2R pi)); [lra|]. unfold Rdiv. rewrite Rmult_assoc, Rinv_l by lra. nra. }
    pose proof (rnd_range 0 (B2R phase) _ R0 (rnd_id phase) H) as Q. rewrite Rabs_pos_eq by lra. pose proof (abs_B2R_lt_emax prec emax phase) as B. rewrite Rabs_pos_eq in B by exact P. lra.
  - split; [exact FD|]. rewrite ED, <- R0. apply rnd_mono. apply Rmult_le_pos; [exact P|left; apply Rinv_0_lt_compat; lra].
Qed.
Lemma unit_ok pi phase : pi_ok pi -> fin phase -> 0 <= B2R phase -> fin (unit_phase pi phase) /\ 0 <= B2R (unit_phase pi phase) < 1.
Proof. intros Hpi F P. destruct (quotient_ok pi phase Hpi F P) as [A B]. destruct (modf_exact prec emax Hprec Hmax _ A B) as (C & D & _). auto. Qed.
Lemma ratio d l : 0 <= d <= l -> 0 < l -> 0 <= d / l <= 1.
Proof. intros H L. split; [apply Rmult_le_pos; [lra|left; now apply Rinv_0_lt_compat]|]. apply Rmult_le_reg_r with l; [exact L|]. unfold Rdiv. rewrite Rmult_assoc, Rinv_l by lra. lra. Qed.
(** the sawtooth stays in [-1, 1] whatever is rounded *)
Lemma saw_range pi phase tilt : pi_ok pi -> fin phase -> 0 <= B2R phase -> fin tilt -> 0 <= B2R tilt <= 1 -> fin (fSawtooth pi phase tilt) /\ -1 <= B2R (fSawtooth pi phase tilt) <= 1.
Proof.
  intros Hpi F P Ft Ht. destruct (unit_ok pi phase Hpi F P) as [Fu Hu]. unfold fSawtooth, gSawtooth. cbv zeta. fold (unit_phase pi phase). set (v := unit_phase pi phase) in *. set (a := B2R v) in *. set (t := B2R tilt) in *.
  destruct one_val as [F1 V1]. destruct two_val as [F2 V2]. destruct denorm_val as [Fd Vd]. pose proof (rnd_0 prec emax) as R0. pose proof emax2 as O4. pose proof (u_half prec Hprec) as Uh.
  destruct (minus_s v tilt Fu Ft) as [Fm Em]; [fold a t; apply Rabs_le; lra|]. fold a t in Em.
  set (dist := Babs (Bminus mode_NE v tilt)). assert (Fdist : fin dist) by (unfold dist; now rewrite is_finite_Babs). assert (Ed : B2R dist = Rabs (rnd (a - t))) by (unfold dist; now rewrite B2R_Babs, Em).
  set (len := if Bltb tilt v then Bminus mode_NE Bone tilt else Bplus mode_NE tilt denorm_min).
  assert (L : fin len /\ 0 < B2R len /\ B2R dist <= B2R len).
  { unfold len. rewrite (Bltb_correct _ _ tilt v Ft Fu). fold a t. destruct (Rlt_bool_spec t a) as [H|H].
    - destruct (minus_s Bone tilt F1 Ft) as [A B]; [rewrite V1; fold t; apply Rabs_le; lra|]. rewrite V1 in B. fold t in B.
      destruct (fsub_err prec emax Hprec Hmax Bone tilt F1 Ft) as [_ De]; [unfold huge; change (ur prec) with u; rewrite V1; fold t; rewrite Rabs_pos_eq by lra; nra|].
      unfold fsub in De. rewrite B in De. change (ur prec) with u in De. rewrite V1 in De. fold t in De. rewrite (Rabs_pos_eq (1 - t)) in De by lra. pose proof (Rabs_le_inv _ _ De) as De'.
      split; [exact A|]. rewrite B. split; [nra|]. rewrite Ed, Rabs_pos_eq by (rewrite <- R0; apply rnd_mono; lra). apply rnd_mono. lra.
    - destruct (plus_s tilt denorm_min Ft Fd) as [A B]; [fold t; apply Rabs_le; lra|]. fold t in B.
      destruct (fadd_err prec emax Hprec Hmax tilt denorm_min Ft Fd) as [_ De]; [unfold huge; change (ur prec) with u; fold t; rewrite Rabs_pos_eq by lra; nra|].
      unfold fadd in De. rewrite B in De. change (ur prec) with u in De. fold t in De. rewrite (Rabs_pos_eq (t + _)) in De by lra. pose proof (Rabs_le_inv _ _ De) as De'.
      split; [exact A|]. rewrite B. split; [nra|]. rewrite Ed. apply Rle_trans with t.
      + apply Rabs_le. assert (Rt : rnd (- t) = - t) by (rewrite round_NE_opp; unfold t; now rewrite rnd_id). assert (Rt' : rnd t = t) by apply rnd_id.
        apply rnd_range; [exact Rt|exact Rt'|lra].
      + replace t with (rnd t) at 1 by apply rnd_id. apply rnd_mono. lra. }
  destruct L as (Fl & Pl & Dl). assert (D0 : 0 <= B2R dist) by (rewrite Ed; apply Rabs_pos).
  pose proof (ratio _ _ (conj D0 Dl) Pl) as Q. pose proof (rnd_range 0 1 _ R0 rnd1 Q) as Q'.
  destruct (div_s dist len Fdist) as [Fr Er]; [now apply Rgt_not_eq|rewrite Rabs_pos_eq; lra|]. set (r := Bdiv mode_NE dist len) in *.
  destruct (minus_s Bone r F1 Fr) as [Fv Ev]; [rewrite V1, Er; apply Rabs_le; lra|]. set (w := Bminus mode_NE Bone r) in *. rewrite V1, Er in Ev.
  pose proof (rnd_range 0 1 (1 - rnd (B2R dist / B2R len)) R0 rnd1 ltac:(lra)) as Q2. rewrite <- Ev in Q2.
  destruct (mult_s two w F2 Fv) as [Fx Ex]; [rewrite V2; apply Rabs_le; lra|]. set (x := Bmult mode_NE two w) in *. rewrite V2 in Ex.
  pose proof (rnd_range 0 2 (2 * B2R w) R0 rnd2 ltac:(lra)) as Q3. rewrite <- Ex in Q3.
  destruct (minus_s x Bone Fx F1) as [Fy Ey]; [rewrite V1; apply Rabs_le; lra|]. split; [exact Fy|]. rewrite Ey, V1. apply rnd_range; [apply rndm1|apply rnd1|lra].
Qed.
(** 0.5f as a double *)
Definition half : float := binary_normalize prec emax Hprec Hmax mode_NE 1 (-1) false.
Hypothesis Hp2 : (2 <= prec)%Z.
Lemma half_val : fin half /\ B2R half = 1 / 2.
Proof.
  assert (Q : (prec < emax)%Z) by exact Hmax. pose proof emax2.
  assert (F : F2R (Float radix2 1 (-1)) = 1 / 2) by (unfold F2R; cbn; lra).
  destruct (norm_exact prec emax Hprec Hmax 1 (-1) false) as [A B].
  - change (Z.abs 1) with (2 ^ 0)%Z. apply Z.pow_lt_mono_r; lia.
  - lia.
  - rewrite F, Rabs_pos_eq; lra.
  - split; [exact A|]. rewrite <- F. exact B.
Qed.
Lemma pwm_value pi phase fill : pi_ok pi -> fin phase -> 0 <= B2R phase -> fin fill ->
  fPwm pi phase fill = if Rlt_dec (B2R (unit_phase pi phase)) (B2R fill) then Bone else d0.
Proof.
  intros Hpi F P Ff. destruct (unit_ok pi phase Hpi F P) as [Fu Hu]. unfold fPwm, gPwm. cbv zeta. fold (unit_phase pi phase). destruct one_val as [F1 V1].
  rewrite (Bltb_correct _ _ _ _ Fu Ff), (Bleb_correct _ _ _ _ F1 Ff), V1. destruct (Rlt_bool_spec (B2R (unit_phase pi phase)) (B2R fill)) as [H|H]; destruct (Rlt_dec _ _) as [H'|H']; try lra; [reflexivity|].
  rewrite Rle_bool_false by lra. reflexivity.
Qed.
(** the fraction of the period is the exact fractional part of the rounded quotient by the rounded period *)
Theorem C86_unit_phase : forall pi phase, pi_ok pi -> fin phase -> 0 <= B2R phase ->
  let q := Bdiv mode_NE phase (Bmult mode_NE two pi) in
  fin q /\ fin (unit_phase pi phase) /\ B2R (unit_phase pi phase) = B2R q - IZR (Zfloor (B2R q)) /\ 0 <= B2R (unit_phase pi phase) < 1.
Proof. intros pi phase Hpi F P q. destruct (quotient_ok pi phase Hpi F P) as [A B]. destruct (modf_exact prec emax Hprec Hmax _ A B) as (C & D & E). auto. Qed.
(** waves of nonnegative frequency and phase have such phases: finite and not negative *)
Theorem C86_phases : forall pi n sr f ph i, pi_ok pi -> B2R pi <= 4 -> (0 <= i < n)%Z -> (1 <= sr)%Z -> 2 * IZR sr < overflow -> fin f -> fin ph -> 0 <= B2R f -> 0 <= B2R ph ->
  256 * (IZR n * (B2R f + 1) + B2R ph + 1) < overflow -> fin (fPhase pi sr f ph i) /\ 0 <= B2R (fPhase pi sr f ph i).
Proof.
  intros pi n sr f ph i [Fp Hp] Hp4 Hi Hs Ho Ff Fh Pf Ph HO. destruct two_val as [F2 V2]. pose proof (u_half prec Hprec) as Uh. pose proof (rnd_0 prec emax) as R0.
  assert (Pp : Prec_gt_0 prec) by exact Hprec. unfold Prec_gt_0 in Pp. assert (Pe : (prec < emax)%Z) by exact Hmax.
  assert (E1 : 0 < bpow radix2 (3 - emax - prec) <= 1) by (split; [apply bpow_gt_0|apply (bpow_le radix2 _ 0); lia]).
  assert (N1 : 1 <= IZR n) by (apply (IZR_le 1); lia). assert (I0 : 0 <= IZR i <= IZR n) by (split; [apply (IZR_le 0)|apply IZR_le]; lia). assert (S1 : 1 <= IZR sr) by now apply (IZR_le 1).
  set (N := IZR n) in *. set (g := B2R f) in *. set (h := B2R ph) in *. assert (NG : 0 <= N * g) by nra. assert (NG2 : g <= N * g) by nra.
  assert (up : forall x, 0 <= x -> 0 <= rnd x <= 3 / 2 * x + 1 / 2).
  { intros x Hx. split; [rewrite <- R0; now apply rnd_mono|]. pose proof (rnd_upto prec emax Hprec x) as U. rewrite (Rabs_pos_eq x) in U by exact Hx. rewrite Rabs_pos_eq in U by (rewrite <- R0; now apply rnd_mono). nra. }
  destruct (size_rnd prec emax Hprec Hmax i) as (FI & EI & _); [lia|nra|]. destruct (size_rnd prec emax Hprec Hmax sr) as (FS & ES & _); [lia|exact Ho|].
  assert (SR : 1 <= rnd (IZR sr)) by (rewrite <- rnd1 at 1; now apply rnd_mono). pose proof (up _ (proj1 I0)) as UI.
  unfold fPhase, gPhase. cbv zeta. set (t := Bdiv mode_NE (size i) (size sr)).
  assert (Q : 0 <= B2R (size i) / B2R (size sr) <= 2 * N).
  { rewrite EI, ES. split; [apply Rmult_le_pos; [lra|left; apply Rinv_0_lt_compat; lra]|]. apply Rmult_le_reg_r with (rnd (IZR sr)); [lra|]. unfold Rdiv. rewrite Rmult_assoc, Rinv_l by lra. nra. }
  pose proof (up _ (proj1 Q)) as UQ. destruct (div_s (size i) (size sr) FI) as [Ft Et]; [apply Rgt_not_eq; rewrite ES; lra|rewrite Rabs_pos_eq by lra; nra|]. fold t in Ft, Et.
  pose proof (up (2 * B2R pi) ltac:(lra)) as U2. destruct (mult_rnd prec emax Hprec Hmax two pi F2 Fp) as [F3 E3]; [rewrite V2, Rabs_pos_eq by lra; nra|]. rewrite V2 in E3. set (p2 := Bmult mode_NE two pi) in *.
  assert (B3 : 0 <= B2R p2 * B2R t <= 13 * (3 * N + 1 / 2)) by (rewrite E3, Et; split; [apply Rmult_le_pos; lra|apply Rmult_le_compat; lra]).
  pose proof (up _ (proj1 B3)) as U3. destruct (mult_rnd prec emax Hprec Hmax p2 t F3 Ft) as [F4 E4]; [rewrite Rabs_pos_eq by lra; nra|]. set (p3 := Bmult mode_NE p2 t) in *.
  assert (B4 : 0 <= B2R p3 * B2R f <= (60 * N + 11) * g) by (rewrite E4; fold g; split; [apply Rmult_le_pos; lra|apply Rmult_le_compat_r; lra]).
  pose proof (up _ (proj1 B4)) as U4. destruct (mult_rnd prec emax Hprec Hmax p3 f F4 Ff) as [F5 E5]; [rewrite Rabs_pos_eq by lra; nra|]. set (p4 := Bmult mode_NE p3 f) in *.
  assert (B5 : 0 <= B2R p4 + B2R ph) by (rewrite E5; fold h; lra). pose proof (up _ B5) as U5.
  destruct (plus_rnd prec emax Hprec Hmax p4 ph F5 Fh) as [F6 E6]; [rewrite Rabs_pos_eq by lra; rewrite E5 in *; fold h in U5 |- *; nra|].
  split; [exact F6|]. rewrite E6. apply U5.
Qed.
End Format.
Section Ieee.
(** doubles have [prec], [emax]; the elements of the signal [pT], [eT] *)
Variables prec emax pT eT : Z.
Context (Hprec : Prec_gt_0 prec) (Hmax : Prec_lt_emax prec emax) (HpT : Prec_gt_0 pT) (HeT : Prec_lt_emax pT eT).
Notation float := (binary_float prec emax).
Notation element := (binary_float pT eT).
Notation fin x := (is_finite x = true).
Notation size := (fSize prec emax Hprec Hmax).
Notation cast := (fcast pT eT HpT HeT (p := prec) (e' := emax)).
Notation two := (two prec emax Hprec Hmax).
Notation half := (half prec emax Hprec Hmax).
Notation d0 := (d0 prec emax).
Notation pi_ok := (pi_ok prec emax).
Notation fSawtooth := (fSawtooth prec emax Hprec Hmax).
Notation fPwm := (fPwm prec emax Hprec Hmax).
Notation fPhase := (fPhase prec emax Hprec Hmax).
Notation fChirpPhase := (fChirpPhase prec emax Hprec Hmax).
Notation unit_phase := (unit_phase prec emax Hprec Hmax).
Notation two_val := (two_val prec emax Hprec Hmax).
Notation one_val := (one_val prec emax Hprec Hmax).
Notation pwm_value := (pwm_value prec emax Hprec Hmax).
Notation saw_range := (saw_range prec emax Hprec Hmax).
Definition fWave (pi : float) (out : list element) sr f ph (wave : float -> float) : outcome (list element) :=
  gGenericWave size (Bplus mode_NE) (Bmult mode_NE) (Bdiv mode_NE) two pi cast out sr f ph wave.
Definition fChirp (pi : float) (out : list element) sr f0 f1 ph (wave : float -> float) : outcome (list element) :=
  gGenericChirp size (Bplus mode_NE) (Bminus mode_NE) (Bmult mode_NE) (Bdiv mode_NE) two pi cast out sr f0 f1 ph wave.
Definition fSquare W vec (out : list element) : outcome (list element) := gSquare Bone two cast (Bmult mode_NE) (Bminus mode_NE) W vec out.

Hypothesis Hp2 : (2 <= prec)%Z.
Notation half_val := (half_val prec emax Hprec Hmax Hp2).
Let eT2 : 4 <= bpow radix2 eT := emax2 pT eT HpT HeT.
Lemma cast_range (x : float) : fin x -> -1 <= B2R x <= 1 -> fin (cast x) /\ -1 <= B2R (cast x) <= 1 /\ (B2R x = 1 -> B2R (cast x) = 1) /\ (B2R x = 0 -> B2R (cast x) = 0).
Proof.
  intros F H. destruct (cast_rnd pT eT HpT HeT x F) as [A B]; [apply (small pT eT HpT HeT); apply Rabs_le; lra|].
  split; [exact A|]. rewrite B. split; [apply (PropsWaveFloat.rnd_range pT eT HpT); [apply (rndm1 pT eT HpT HeT)|apply (rnd1 pT eT HpT HeT)|exact H]|].
  split; intros ->; [apply (rnd1 pT eT HpT HeT)|apply (rnd_0 pT eT)].
Qed.
Lemma cast_two : fin (cast two) /\ B2R (cast two) = 2.
Proof.
  destruct two_val as [F2 V2]. destruct (cast_rnd pT eT HpT HeT two F2) as [A B]; [rewrite V2; apply (small pT eT HpT HeT); rewrite Rabs_pos_eq; lra|].
  split; [exact A|]. rewrite B, V2. apply (rnd2 pT eT HpT HeT).
Qed.

(** ** C86.  What a sine, a sawtooth, a pulse train and a square wave with the (computed) phases [p i] are *)
Definition waves_at (p : Z -> float) (pi tilt fill : float) (n : Z) (sine saw pwm sqr : list element) : Prop :=
  lenZ sine = n /\ lenZ saw = n /\ lenZ pwm = n /\ lenZ sqr = n /\
  forall i, (0 <= i < n)%Z -> fin (p i) -> exists a b c d, nthZ sine i = Some a /\ nthZ saw i = Some b /\ nthZ pwm i = Some c /\ nthZ sqr i = Some d /\
    (fin a /\ -1 <= B2R a <= 1) /\
    (0 <= B2R (p i) ->
       (fin tilt -> 0 <= B2R tilt <= 1 -> fin b /\ -1 <= B2R b <= 1) /\
       (fin fill -> fin c /\ B2R c = if Rlt_dec (B2R (unit_phase pi (p i))) (B2R fill) then 1 else 0) /\
       (fin d /\ B2R d = if Rlt_dec (B2R (unit_phase pi (p i))) (1 / 2) then 1 else -1)).
Lemma waves_ok p pi tilt fill sin n : pi_ok pi -> (forall x, fin x -> fin (sin x) /\ -1 <= B2R (sin x) <= 1) -> (0 <= n)%Z ->
  waves_at p pi tilt fill n (tab n (fun i => cast (sin (p i)))) (tab n (fun i => cast (fSawtooth pi (p i) tilt))) (tab n (fun i => cast (fPwm pi (p i) fill)))
    (tab n (fun i => Bminus mode_NE (Bmult mode_NE (cast (fPwm pi (p i) half)) (cast two)) (cast Bone))).
Proof.
  intros Hpi Hsin Hn. unfold waves_at. rewrite !lenZ_tab. do 4 (split; [lia|]). intros i Hi F. do 4 eexists. do 4 (split; [apply nthZ_tab; lia|]).
  split; [destruct (Hsin _ F) as [A B]; destruct (cast_range _ A B) as (C & D & _); auto|]. intros P. split; [|split].
  - intros Ft Ht. destruct (saw_range pi (p i) tilt Hpi F P Ft Ht) as [A B]. destruct (cast_range _ A B) as (C & D & _). auto.
  - intros Ff. rewrite pwm_value by assumption. destruct one_val as [F1 V1]. destruct (Rlt_dec _ _).
    + destruct (cast_range Bone F1) as (A & _ & B & _); [lra|]. auto.
    + destruct (cast_range d0 eq_refl) as (A & _ & _ & B); [cbn; lra|]. auto.
  - destruct half_val as [Fh Vh]. rewrite pwm_value, Vh by assumption. destruct one_val as [F1 V1]. destruct cast_two as [C2 W2].
    destruct (cast_range Bone F1) as (A1 & _ & B1 & _); [lra|]. specialize (B1 V1). destruct (cast_range d0 eq_refl) as (A0 & _ & _ & B0); [cbn; lra|]. specialize (B0 eq_refl).
    destruct (Rlt_dec _ _).
    + destruct (mult_s pT eT HpT HeT (cast Bone) (cast two) A1 C2) as [X1 X2]; [rewrite B1, W2, Rabs_pos_eq; lra|]. rewrite B1, W2, Rmult_1_l, (rnd2 pT eT HpT HeT) in X2.
      destruct (minus_s pT eT HpT HeT _ (cast Bone) X1 A1) as [Y1 Y2]; [rewrite X2, B1, Rabs_pos_eq; lra|]. split; [exact Y1|]. rewrite Y2, X2, B1. replace (2 - 1) with 1 by lra. apply (rnd1 pT eT HpT HeT).
    + destruct (mult_s pT eT HpT HeT (cast d0) (cast two) A0 C2) as [X1 X2]; [rewrite B0, W2, Rmult_0_l, Rabs_R0; lra|]. rewrite B0, W2, Rmult_0_l, (rnd_0 pT eT) in X2.
      destruct (minus_s pT eT HpT HeT _ (cast Bone) X1 A1) as [Y1 Y2]; [rewrite X2, B1, Rabs_left; lra|]. split; [exact Y1|]. rewrite Y2, X2, B1. replace (0 - 1) with (-1) by lra. apply (rndm1 pT eT HpT HeT).
Qed.
Lemma square_tab W vec n g : (1 <= W)%Z -> fSquare W vec (tab n g) = Ok (tab n (fun i => Bminus mode_NE (Bmult mode_NE (g i) (cast two)) (cast Bone))).
Proof. intros HW. unfold fSquare, gSquare. rewrite sig_scalar_inplace_ok by exact HW. cbn [bind]. rewrite sig_scalar_inplace_ok by exact HW. now rewrite !map_tab. Qed.
(** constant tones: [sin] is std::sin *)
Theorem C86_waves : forall W vec pi sin (out : list element) sr f ph tilt fill, (1 <= W)%Z -> pi_ok pi -> (forall x, fin x -> fin (sin x) /\ -1 <= B2R (sin x) <= 1) ->
  exists sine saw pwm pulses sqr, fWave pi out sr f ph sin = Ok sine /\ fWave pi out sr f ph (fun x => fSawtooth pi x tilt) = Ok saw /\ fWave pi out sr f ph (fun x => fPwm pi x fill) = Ok pwm /\
    fWave pi out sr f ph (fun x => fPwm pi x half) = Ok pulses /\ fSquare W vec pulses = Ok sqr /\
    waves_at (fPhase pi sr f ph) pi tilt fill (lenZ out) sine saw pwm sqr.
Proof.
  intros W vec pi sin out sr f ph tilt fill HW Hpi Hsin. do 5 eexists. unfold fWave, gGenericWave. do 4 (split; [apply fill_wave|]). split; [apply square_tab; exact HW|].
  apply waves_ok; [exact Hpi|exact Hsin|apply lenZ_nonneg].
Qed.
(** chirps *)
Theorem C86_chirps : forall W vec pi sin (out : list element) sr f0 f1 ph tilt fill, (1 <= W)%Z -> pi_ok pi -> (forall x, fin x -> fin (sin x) /\ -1 <= B2R (sin x) <= 1) ->
  exists sine saw pwm pulses sqr, fChirp pi out sr f0 f1 ph sin = Ok sine /\ fChirp pi out sr f0 f1 ph (fun x => fSawtooth pi x tilt) = Ok saw /\ fChirp pi out sr f0 f1 ph (fun x => fPwm pi x fill) = Ok pwm /\
    fChirp pi out sr f0 f1 ph (fun x => fPwm pi x half) = Ok pulses /\ fSquare W vec pulses = Ok sqr /\
    waves_at (fChirpPhase pi (lenZ out) sr f0 f1 ph) pi tilt fill (lenZ out) sine saw pwm sqr.
Proof.
  intros W vec pi sin out sr f0 f1 ph tilt fill HW Hpi Hsin. do 5 eexists. unfold fChirp, gGenericChirp.
  split; [exact (fill_chirp (fun n idx => cast (sin (fChirpPhase pi n sr f0 f1 ph idx))) out)|]. split; [exact (fill_chirp (fun n idx => cast ((fun x => fSawtooth pi x tilt) (fChirpPhase pi n sr f0 f1 ph idx))) out)|]. split; [exact (fill_chirp (fun n idx => cast ((fun x => fPwm pi x fill) (fChirpPhase pi n sr f0 f1 ph idx))) out)|]. split; [exact (fill_chirp (fun n idx => cast ((fun x => fPwm pi x half) (fChirpPhase pi n sr f0 f1 ph idx))) out)|]. 
  split; [apply square_tab; exact HW|].
  apply waves_ok; [exact Hpi|exact Hsin|apply lenZ_nonneg].
Qed.
End Ieee.
Print Assumptions C86_unit_phase.
Print Assumptions C86_phases.
Print Assumptions C86_waves.
Print Assumptions C86_chirps.
(** the exact arithmetic of C42 is an instance (a zero sample rate apart, which is undefined there) *)
Theorem C86_exact_instance : forall (out : list R) sr f0 f1 ph x tilt fill (g : R -> R), sr <> 0%Z ->
  let lt a b := if Rlt_dec a b then true else false in let le a b := if Rle_dec a b then true else false in
  gGenericWave IZR Rplus Rmult Rdiv 2 PI (fun x => x) out sr f0 ph g = WindowModel.GenericWave out sr f0 ph g /\
  gGenericChirp IZR Rplus Rminus Rmult Rdiv 2 PI (fun x => x) out sr f0 f1 ph g = WindowModel.GenericChirp out sr f0 f1 ph g /\
  gSawtooth Rplus Rminus Rmult Rdiv Rabs WindowModel.modf lt 1 2 PI WindowModel.denorm_min x tilt = WindowModel.Sawtooth x tilt /\
  gPwm Rmult Rdiv WindowModel.modf lt le 0 1 2 PI x fill = WindowModel.Pwm x fill.
Proof.
  intros out sr f0 f1 ph x tilt fill g Hs lt le.
  assert (Z0 : (sr =? 0)%Z = false) by lia.
  unfold gGenericWave, gGenericChirp, gSawtooth, gPwm, WindowModel.GenericWave, WindowModel.GenericChirp, WindowModel.Sawtooth, WindowModel.Pwm, lt, le. rewrite Z0. split; [reflexivity|]. split.
  - rewrite (fill_chirp (fun n idx => g (gChirpPhase IZR Rplus Rminus Rmult Rdiv 2 PI n sr f0 f1 ph idx)) out).
    exact (eq_sym (fill_wave (fun idx => g (gChirpPhase IZR Rplus Rminus Rmult Rdiv 2 PI (lenZ out) sr f0 f1 ph idx)) out)).
  - split; [destruct (Rlt_dec _ _); reflexivity|]. destruct (Rlt_dec _ _); [reflexivity|]. destruct (Rle_dec _ _); reflexivity.
Qed.
Print Assumptions C86_exact_instance.
#[local] Existing Instance p24.
#[local] Existing Instance e128.
Definition pi32 : binary_float 24 128 := b32 13176795 (-22).
Definition show (r : outcome (list (binary_float 24 128))) := match r with Ok y => map B2SF y | _ => [] end.
(** for negative phases the sawtooth leaves [-1, 1]: 8 Hz, frequency -1 *)
Theorem C86_negative_frequency_refuted : exists saw b,
  fWave 24 128 24 128 p24 e128 p24 e128 pi32 (repeat (b32 7 0) 4) 8 (b32 (-1) 0) (b32 0 0) (fun x => fSawtooth 24 128 p24 e128 pi32 x (b32 1 0)) = Ok saw /\
  nthZ saw 1 = Some b /\ B2R b = - (5 / 4).
Proof.
  set (r := fWave _ _ _ _ _ _ _ _ _ _ _ _ _ _). assert (E : option_map B2SF (match r with Ok y => nthZ y 1 | _ => None end) = Some (SpecFloat.S754_finite true 10485760 (-23))) by (vm_compute; reflexivity).
  destruct r as [y| |]; try discriminate. destruct (nthZ y 1) as [b|] eqn:N; [|discriminate]. exists y, b. split; [reflexivity|]. split; [exact N|].
  cbn in E. injection E as E. rewrite <- SF2R_B2SF, E. unfold SF2R, F2R. cbn. lra.
Qed.
Print Assumptions C86_negative_frequency_refuted.
(** a triangle and a pulse train of one period in 8 samples, in single precision; the hypotheses on pi and on std::sin can be met *)
Lemma pi32_val : B2R pi32 = 13176795 / 4194304.
Proof.
  rewrite <- SF2R_B2SF. replace (B2SF pi32) with (SpecFloat.S754_finite false 13176795 (-22)) by (vm_compute; reflexivity).
  unfold SF2R, F2R. cbn [Fnum Fexp cond_Zopp SpecFloat.cond_Zopp]. change (bpow radix2 (-22)) with (/ 4194304). lra.
Qed.
Example C86_nontrivial :
  pi_ok 24 128 pi32 /\ B2R pi32 <= 4 /\ 2 * 8 < bpow radix2 128 /\ 256 * (9 * (B2R (b32 1 0) + 1) + B2R (b32 0 0) + 1) < bpow radix2 128 /\
  show (fWave 24 128 24 128 p24 e128 p24 e128 pi32 (repeat (b32 7 0) 9) 8 (b32 1 0) (b32 0 0) (fun x => fSawtooth 24 128 p24 e128 pi32 x (b32 1 (-1)))) =
    map B2SF [b32 (-1) 0; b32 (-1) (-1); b32 0 0; b32 1 (-1); b32 1 0; b32 1 (-1); b32 0 0; b32 (-1) (-1); b32 (-1) 0] /\
  show (fWave 24 128 24 128 p24 e128 p24 e128 pi32 (repeat (b32 7 0) 9) 8 (b32 1 0) (b32 0 0) (fun x => fPwm 24 128 p24 e128 pi32 x (b32 1 (-2)))) =
    map B2SF [b32 1 0; b32 1 0; b32 0 0; b32 0 0; b32 0 0; b32 0 0; b32 0 0; b32 0 0; b32 1 0] /\
  is_finite (fPhase 24 128 p24 e128 pi32 8 (b32 1 0) (b32 0 0) 5) = true /\
  (forall x : binary_float 24 128, is_finite x = true -> is_finite (b32 1 0) = true /\ -1 <= B2R (b32 1 0) <= 1).
Proof.
  assert (H1 : 8192 <= bpow radix2 128). { apply Rle_trans with (bpow radix2 13); [cbn; lra|apply bpow_le; lia]. }
  split; [split; [reflexivity|rewrite pi32_val; lra]|]. split; [rewrite pi32_val; lra|]. split; [lra|]. split; [rewrite b32_one, sp_zero; lra|].
  split; [vm_compute; reflexivity|]. split; [vm_compute; reflexivity|]. split; [vm_compute; reflexivity|]. intros _ _. split; [reflexivity|rewrite b32_one; lra].
Qed.
