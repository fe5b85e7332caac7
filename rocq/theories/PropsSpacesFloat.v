(** C85: linearly spaced samples in floating point. *)
From Coq Require Import Reals Lra Lia List ZArith Psatz.
From Flocq Require Import Core Relative BinarySingleNaN.
From Verif Require Import Base BaseFacts KernelModel KernelProofs FftModel PolyphaseModel PolyphaseProofs WindowModel FloatIeee FloatStat PropsFloat PropsResampleFloat SpacesModel.
From Coq Require Import ZifyBool ZifyNat.
Import ListNotations.
Local Open Scope Z_scope.

(** over any arithmetic: sample [i] is R(i) * scale + start, with one scale for all *)
Lemma fill_index {T} (of_size : Z -> T) (out : list T) :
  for_ 0 (lenZ out) 1 (fun i out => wr out i (of_size i)) out = Ok (tab (lenZ out) of_size).
Proof.
  destruct (for1_inv (fun i (o : list T) => lenZ o = lenZ out /\ forall j, 0 <= j < i -> nthZ o j = Some (of_size j)) 0 (lenZ out) (fun i out => wr out i (of_size i)) out) as (o & E & L & N).
  - split; [reflexivity|]. intros j Hj. lia.
  - apply lenZ_nonneg.
  - intros i o Hi [L N]. rewrite wr_ok by lia. apply okP_ret. split; [rewrite lenZ_updZ by lia; exact L|]. intros j Hj. rewrite nthZ_updZ by lia.
    destruct (Z.eqb_spec j i) as [->|Hn]; [reflexivity|]. apply N. lia.
  - rewrite E. f_equal. apply nthZ_ext; [rewrite lenZ_tab; pose proof (lenZ_nonneg out); lia|]. intros k Hk. rewrite N by lia. now rewrite nthZ_tab by lia.
Qed.
Theorem C85_any_arithmetic : forall T (of_size : Z -> T) (add sub mul div : T -> T -> T) (log exp : T -> T) W vec (out : list T) (start end_ base : T) (inclusive : bool), 1 <= W ->
  let scale := div (sub end_ start) (of_size (Z.max 1 (lenZ out - (if inclusive then 1 else 0)))) in
  exists y z, gLinSpace of_size add sub mul div W vec out start end_ inclusive = Ok y /\
    gLogSpace of_size add sub mul div log exp W vec out start end_ base inclusive = Ok z /\ lenZ y = lenZ out /\ lenZ z = lenZ out /\
    forall i, 0 <= i < lenZ out -> nthZ y i = Some (add (mul (of_size i) scale) start) /\
                                   nthZ z i = Some (exp (mul (add (mul (of_size i) scale) start) (log base))).
Proof.
  intros T of_size add sub mul div log exp W vec out start end_ base inclusive HW scale.
  assert (Ey : gLinSpace of_size add sub mul div W vec out start end_ inclusive = Ok (tab (lenZ out) (fun i => add (mul (of_size i) scale) start))).
  { unfold gLinSpace. rewrite fill_index. cbn [bind]. fold scale. rewrite sig_scalar_inplace_ok by exact HW. cbn [bind]. rewrite sig_scalar_inplace_ok by exact HW. now rewrite !map_tab. }
  pose proof (lenZ_nonneg out) as Hn.
  exists (tab (lenZ out) (fun i => add (mul (of_size i) scale) start)), (tab (lenZ out) (fun i => exp (mul (add (mul (of_size i) scale) start) (log base)))).
  split; [exact Ey|]. split; [|rewrite !lenZ_tab; repeat split; try lia; now rewrite nthZ_tab by lia].
  unfold gLogSpace. rewrite Ey. cbn [bind]. rewrite sig_scalar_inplace_ok by exact HW. cbn [bind]. rewrite T1_full; [now rewrite !map_tab|exact HW|reflexivity|cbn [src_ok]; lia|reflexivity].
Qed.
Print Assumptions C85_any_arithmetic.
(** the exact arithmetic of C41 is an instance *)
Theorem C85_exact_instance : forall W vec out start end_ base inclusive,
  gLinSpace IZR Rplus Rminus Rmult Rdiv W vec out start end_ inclusive = LinSpace W vec out start end_ inclusive /\
  gLogSpace IZR Rplus Rminus Rmult Rdiv ln exp W vec out start end_ base inclusive = LogSpace W vec out start end_ base inclusive.
Proof. split; reflexivity. Qed.
Print Assumptions C85_exact_instance.

Local Open Scope R_scope.
Section Ieee.
Variables prec emax : Z.
Context (Hprec : Prec_gt_0 prec) (Hmax : Prec_lt_emax prec emax).
Notation float := (binary_float prec emax).
Notation rnd := (round radix2 (FLT_exp (3 - emax - prec) prec) ZnearestE).
Notation u := (bpow radix2 (- prec)).
Notation eta := (bpow radix2 (3 - emax - prec)).
Notation overflow := (bpow radix2 emax).
Notation fin x := (is_finite x = true).
Definition fSize (n : Z) : float := binary_normalize prec emax Hprec Hmax mode_NE n 0 false.
Definition fLinSpace W vec (out : list float) start end_ inclusive : outcome (list float) :=
  gLinSpace fSize (Bplus mode_NE) (Bminus mode_NE) (Bmult mode_NE) (Bdiv mode_NE) W vec out start end_ inclusive.

Lemma u_half : 0 < u <= 1 / 2.
Proof.
  split; [apply bpow_gt_0|]. unfold Prec_gt_0 in Hprec. replace (1 / 2) with (bpow radix2 (-1)) by (cbn; lra). apply bpow_le. lia.
Qed.
Lemma rnd_mono x y : x <= y -> rnd x <= rnd y.
Proof. intros H. apply round_le; [apply FLT_exp_valid; exact Hprec|apply valid_rnd_N|exact H]. Qed.
Lemma rnd_0 : rnd 0 = 0.
Proof. apply round_0. apply valid_rnd_N. Qed.
Lemma rnd_id (x : float) : rnd (B2R x) = B2R x.
Proof. apply round_generic; [apply valid_rnd_N|]. apply (generic_format_B2R prec emax x). Qed.
Lemma rnd_e x : Rabs (rnd x - x) <= u * Rabs x + eta / 2.
Proof. exact (rnd_err prec emax Hprec x). Qed.
Lemma rnd_upto x : Rabs (rnd x) <= (1 + u) * Rabs x + eta / 2.
Proof. pose proof (rnd_e x). replace (rnd x) with ((rnd x - x) + x) by ring. eapply Rle_trans; [apply Rabs_triang|]. lra. Qed.
Lemma plus_rnd (a b : float) : fin a -> fin b -> Rabs (rnd (B2R a + B2R b)) < overflow -> fin (Bplus mode_NE a b) /\ B2R (Bplus mode_NE a b) = rnd (B2R a + B2R b).
Proof.
  intros Fa Fb H. pose proof (Bplus_correct prec emax Hprec Hmax mode_NE a b Fa Fb) as C.
  change (round radix2 (SpecFloat.fexp prec emax) (round_mode mode_NE) (B2R a + B2R b)) with (rnd (B2R a + B2R b)) in C.
  rewrite Rlt_bool_true in C by exact H. destruct C as (C1 & C2 & _). auto.
Qed.
Lemma minus_rnd (a b : float) : fin a -> fin b -> Rabs (rnd (B2R a - B2R b)) < overflow -> fin (Bminus mode_NE a b) /\ B2R (Bminus mode_NE a b) = rnd (B2R a - B2R b).
Proof.
  intros Fa Fb H. pose proof (Bminus_correct prec emax Hprec Hmax mode_NE a b Fa Fb) as C.
  change (round radix2 (SpecFloat.fexp prec emax) (round_mode mode_NE) (B2R a - B2R b)) with (rnd (B2R a - B2R b)) in C.
  rewrite Rlt_bool_true in C by exact H. destruct C as (C1 & C2 & _). auto.
Qed.
Lemma mult_rnd (a b : float) : fin a -> fin b -> Rabs (rnd (B2R a * B2R b)) < overflow -> fin (Bmult mode_NE a b) /\ B2R (Bmult mode_NE a b) = rnd (B2R a * B2R b).
Proof.
  intros Fa Fb H. pose proof (Bmult_correct prec emax Hprec Hmax mode_NE a b) as C.
  change (round radix2 (SpecFloat.fexp prec emax) (round_mode mode_NE) (B2R a * B2R b)) with (rnd (B2R a * B2R b)) in C.
  rewrite Rlt_bool_true in C by exact H. destruct C as (C1 & C2 & _). rewrite C1, C2, Fa, Fb. auto.
Qed.
Lemma size_rnd n : (0 <= n)%Z -> 2 * IZR n < overflow -> fin (fSize n) /\ B2R (fSize n) = rnd (IZR n) /\ Rabs (rnd (IZR n) - IZR n) <= u * IZR n.
Proof.
  intros Hn H. pose proof u_half as Hu. assert (H0 : 0 <= IZR n) by now apply (IZR_le 0).
  assert (E : Rabs (rnd (IZR n) - IZR n) <= u * IZR n).
  { destruct (Z.eq_dec n 0) as [->|Hz]; [rewrite rnd_0, Rminus_0_r, Rabs_R0, Rmult_0_r; lra|].
    destruct (of_size_err prec emax Hprec Hmax n) as (F & P & E); [lia|exact (proj2 Hu)| |].
    - change (ur prec) with u. unfold huge. nra.
    - revert E. unfold of_size. pose proof (binary_normalize_correct prec emax Hprec Hmax mode_NE n 0 false) as C. cbv zeta in C.
      assert (EF : F2R (Float radix2 n 0) = IZR n) by (unfold F2R; cbn; ring). rewrite EF in C.
      change (round radix2 (SpecFloat.fexp prec emax) (round_mode mode_NE) (IZR n)) with (rnd (IZR n)) in C.
      unfold Rlt_bool in C. destruct (Rcompare_spec (Rabs (rnd (IZR n))) overflow) as [HH|HH|HH].
      + destruct C as (-> & _). auto.
      + exfalso. unfold of_size, finite in F. destruct (binary_normalize prec emax Hprec Hmax mode_NE n 0 false); cbn in C, F; congruence.
      + exfalso. unfold of_size, finite in F. destruct (binary_normalize prec emax Hprec Hmax mode_NE n 0 false); cbn in C, F; congruence. }
  assert (U : Rabs (rnd (IZR n)) < overflow).
  { replace (rnd (IZR n)) with ((rnd (IZR n) - IZR n) + IZR n) by ring. eapply Rle_lt_trans; [apply Rabs_triang|]. rewrite (Rabs_pos_eq (IZR n)) by exact H0. nra. }
  pose proof (binary_normalize_correct prec emax Hprec Hmax mode_NE n 0 false) as C. cbv zeta in C.
  assert (EF : F2R (Float radix2 n 0) = IZR n) by (unfold F2R; cbn; ring). rewrite EF in C.
  change (round radix2 (SpecFloat.fexp prec emax) (round_mode mode_NE) (IZR n)) with (rnd (IZR n)) in C.
  rewrite Rlt_bool_true in C by exact U. destruct C as (C1 & C2 & _). auto.
Qed.

(** ** C85.  [samples start end n incl] are the exact values: [n] equal steps from start, of which the last (inclusive)
    or the one after the last (exclusive) is end *)
Definition steps (n : Z) (inclusive : bool) : Z := Z.max 1 (if inclusive then n - 1 else n).
Definition exact_sample (start end_ : R) (m i : Z) : R := start + IZR i * ((end_ - start) / IZR m).
Definition no_overflow (n : Z) (start end_ : float) : Prop :=
  fin start /\ fin end_ /\ 4 * IZR n < overflow /\ 32 * (Rabs (B2R start) + Rabs (B2R end_) + IZR (n + 1) * eta) < overflow.

Section Run.
Variables (n : Z) (start end_ : float) (m : Z).
Hypotheses (Hm1 : (1 <= m)%Z) (Hmn : (m <= n)%Z) (Hnm : (n - 1 <= m)%Z) (Hok : no_overflow n start end_).
Let S := B2R start.
Let E := B2R end_.
Let c := (E - S) / IZR m.
Let q : float := Bdiv mode_NE (Bminus mode_NE end_ start) (fSize m).
Let h := (1 + u) ^ 2 / (1 - u).
Let m1 : 1 <= IZR m. Proof. now apply (IZR_le 1). Qed.
Let e0 : 0 < eta. Proof. apply bpow_gt_0. Qed.
Let tri : Rabs (E - S) <= Rabs S + Rabs E.
Proof. unfold Rminus. eapply Rle_trans; [apply Rabs_triang|]. rewrite Rabs_Ropp. lra. Qed.
Let ic i : (0 <= i <= m)%Z -> 0 <= IZR i * Rabs c <= Rabs (E - S).
Proof.
  intros Hi. assert (0 <= IZR i <= IZR m) by (split; apply IZR_le; lia). pose proof (Rabs_pos c). pose proof (Rabs_pos (E - S)) as P. split; [nra|].
  unfold c. unfold Rdiv. rewrite Rabs_mult, Rabs_inv, (Rabs_pos_eq (IZR m)) by lra.
  replace (Rabs (E - S)) with (IZR m * (Rabs (E - S) * / IZR m)) at 2 by (field; lra).
  apply Rmult_le_compat_r; [apply Rmult_le_pos; [exact P|left; apply Rinv_0_lt_compat; lra]|lra].
Qed.
Lemma h_bound : 1 <= h <= 9 / 2 /\ h - 1 = (3 * u + u * u) / (1 - u).
Proof.
  pose proof u_half as Hu. unfold h. assert (Hd : (1 + u) ^ 2 / (1 - u) - 1 = (3 * u + u * u) / (1 - u)) by (field; lra).
  split; [|exact Hd]. assert (0 <= (3 * u + u * u) / (1 - u) <= 7 / 2); [|lra]. split; [apply Rmult_le_pos; [nra|left; apply Rinv_0_lt_compat; lra]|].
  apply Rmult_le_reg_r with (1 - u); [lra|]. unfold Rdiv. rewrite Rmult_assoc, Rinv_l by lra. nra.
Qed.
Lemma scale_ok : fin q /\ (S <= E -> 0 <= B2R q) /\ (E <= S -> B2R q <= 0) /\ Rabs (B2R q - c) <= Rabs c * (h - 1) + eta / 2 /\ B2R q = rnd (rnd (E - S) / rnd (IZR m)).
Proof.
  destruct Hok as (Fs & Fe & Hn & Ho). pose proof u_half as Hu. pose proof h_bound as [Hh Hh'].
  assert (N0 : 0 <= IZR (n + 1)) by (apply (IZR_le 0); lia).
  assert (Hmo : 2 * IZR m < overflow) by (assert (IZR m <= IZR n) by (now apply IZR_le); lra).
  destruct (size_rnd m) as (FM & EM & DM); [lia|exact Hmo|].
  pose proof (Rabs_pos S). pose proof (Rabs_pos E).
  destruct (fsub_err prec emax Hprec Hmax end_ start Fe Fs) as [FD DD].
  { change (ur prec) with u. unfold huge. fold E S. pose proof (Rabs_pos (E - S)). fold S E in Ho. nra. }
  assert (ED : B2R (Bminus mode_NE end_ start) = rnd (E - S)).
  { apply minus_rnd; [exact Fe|exact Fs|]. fold E S. pose proof (rnd_upto (E - S)). pose proof (Rabs_pos (E - S)). fold S E in Ho.
    assert (1 <= IZR (n + 1)) by (apply (IZR_le 1); lia). nra. }
  unfold fsub, finite in FD, DD. rewrite ED in DD. change (ur prec) with u in DD. fold E S in DD.
  assert (PM : 0 < B2R (fSize m)). { rewrite EM. pose proof (Rabs_le_inv _ _ DM). nra. }
  set (x := B2R (Bminus mode_NE end_ start) / B2R (fSize m)).
  assert (X1 : Rabs (x - c) <= Rabs c * (2 * u / (1 - u))).
  { assert (PMl : (1 - u) * IZR m <= B2R (fSize m)). { rewrite EM. pose proof (Rabs_le_inv _ _ DM). lra. }
    replace (x - c) with (((rnd (E - S) - (E - S)) - (E - S) / IZR m * (B2R (fSize m) - IZR m)) * / B2R (fSize m)) by (unfold x, c; rewrite ED; field; lra).
    rewrite Rabs_mult, Rabs_inv, (Rabs_pos_eq (B2R (fSize m))) by lra. fold c.
    replace (Rabs c * (2 * u / (1 - u))) with (2 * u * (IZR m * Rabs c) * / ((1 - u) * IZR m)) by (field; lra).
    pose proof (ic m ltac:(lia)) as ICm.
    assert (CE : IZR m * Rabs c = Rabs (E - S)). { unfold c, Rdiv. rewrite Rabs_mult, Rabs_inv, (Rabs_pos_eq (IZR m)) by lra. field. lra. }
    apply Rmult_le_compat; [apply Rabs_pos|left; now apply Rinv_0_lt_compat| |apply Rinv_le_contravar; nra].
    unfold Rminus at 1. eapply Rle_trans; [apply Rabs_triang|]. rewrite Rabs_Ropp, Rabs_mult. rewrite EM.
    pose proof (Rmult_le_compat_l _ _ _ (Rabs_pos c) DM). rewrite CE. nra. }
  assert (K0 : 0 <= 2 * u / (1 - u) <= 2). { split; [apply Rmult_le_pos; [lra|left; apply Rinv_0_lt_compat; lra]|]. apply Rmult_le_reg_r with (1 - u); [lra|]. unfold Rdiv. rewrite Rmult_assoc, Rinv_l by lra. lra. }
  assert (CE : Rabs c <= Rabs (E - S)). { pose proof (ic m ltac:(lia)). pose proof (Rabs_pos c). nra. }
  assert (X2 : Rabs x <= Rabs c * (1 + 2 * u / (1 - u))). { replace x with ((x - c) + c) by ring. eapply Rle_trans; [apply Rabs_triang|]. lra. }
  destruct (fdiv_err prec emax Hprec Hmax (Bminus mode_NE end_ start) (fSize m)) as (FQ & EQ & DQ); [exact FD|lra| |].
  { fold x. change (ur prec) with u. change (tiny prec emax) with eta. unfold huge. pose proof (Rabs_pos c). fold S E in Ho. assert (1 <= IZR (n + 1)) by (apply (IZR_le 1); lia).
    assert (Rabs x <= 3 * Rabs (E - S)) by nra. assert ((1 + u) * Rabs x <= 3 / 2 * (3 * Rabs (E - S))) by (apply Rmult_le_compat; [lra|apply Rabs_pos|lra|lra]). nra. }
  fold x q in EQ, DQ. fold q in FQ. change (ur prec) with u in DQ. change (tiny prec emax) with eta in DQ.
  split; [exact FQ|]. split; [|split].
  - intros H1. rewrite EQ. rewrite <- rnd_0. apply rnd_mono. unfold x. rewrite ED. apply Rmult_le_pos; [|left; now apply Rinv_0_lt_compat]. rewrite <- rnd_0. apply rnd_mono. lra.
  - intros H1. rewrite EQ. rewrite <- rnd_0. apply rnd_mono. unfold x. rewrite ED. assert (rnd (E - S) <= 0) by (rewrite <- rnd_0; apply rnd_mono; lra).
    pose proof (Rinv_0_lt_compat _ PM). unfold Rdiv. nra.
  - split; [|rewrite EQ; unfold x; now rewrite ED, EM].
    replace (B2R q - c) with ((B2R q - x) + (x - c)) by ring. eapply Rle_trans; [apply Rabs_triang|]. rewrite Hh'.
    replace (Rabs c * ((3 * u + u * u) / (1 - u))) with (u * (Rabs c * (1 + 2 * u / (1 - u))) + Rabs c * (2 * u / (1 - u))) by (field; lra).
    pose proof (Rmult_le_compat_l u _ _ ltac:(lra) X2). lra.
Qed.
Lemma sample_ok i : (0 <= i < n)%Z -> let p := Bmult mode_NE (fSize i) q in let y := Bplus mode_NE p start in
  fin y /\ B2R y = rnd (rnd (rnd (IZR i) * B2R q) + S) /\
  Rabs (B2R y - exact_sample S E m i) <= u * Rabs (exact_sample S E m i) + (1 + u) * (((1 + u) ^ 4 / (1 - u) - 1) * (IZR i / IZR m * Rabs (E - S)) + (1 + (1 + u) ^ 2 * IZR i) * (eta / 2)).
Proof.
  intros Hi p y. destruct scale_ok as (FQ & _ & _ & DQ & _). destruct Hok as (Fs & Fe & Hn & Ho). fold S E in Ho. pose proof u_half as Hu. pose proof h_bound as [Hh _].
  assert (I0 : 0 <= IZR i) by (apply (IZR_le 0); lia). assert (In : IZR i + 1 <= IZR n) by (rewrite <- plus_IZR; apply IZR_le; lia).
  destruct (size_rnd i) as (FI & EI & DI); [lia|lra|].
  pose proof (ic i ltac:(lia)) as IC. pose proof (Rabs_pos c) as C0. set (a := IZR i * Rabs c) in *.
  assert (N1 : IZR (n + 1) = IZR n + 1) by (rewrite plus_IZR; reflexivity).
  assert (PI : Rabs (rnd (IZR i)) <= (1 + u) * IZR i). { pose proof (Rabs_le_inv _ _ DI). apply Rabs_le. nra. }
  set (x := rnd (IZR i) * B2R q).
  assert (X1 : Rabs (x - IZR i * c) <= a * ((1 + u) * h - 1) + IZR i * (1 + u) * (eta / 2)).
  { replace (x - IZR i * c) with (rnd (IZR i) * (B2R q - c) + (rnd (IZR i) - IZR i) * c) by (unfold x; ring).
    eapply Rle_trans; [apply Rabs_triang|]. rewrite !Rabs_mult.
    pose proof (Rmult_le_compat _ _ _ _ (Rabs_pos _) (Rabs_pos _) PI DQ). pose proof (Rmult_le_compat_r _ _ _ C0 DI). unfold a. nra. }
  assert (X2 : Rabs x <= a * ((1 + u) * h) + IZR i * (1 + u) * (eta / 2)).
  { replace x with ((x - IZR i * c) + IZR i * c) by ring. eapply Rle_trans; [apply Rabs_triang|]. rewrite Rabs_mult, (Rabs_pos_eq (IZR i)) by exact I0. fold a. lra. }
  pose proof (rnd_e x) as RX. 
  assert (P1 : Rabs (rnd x - IZR i * c) <= a * ((1 + u) ^ 2 * h - 1) + (1 + (1 + u) ^ 2 * IZR i) * (eta / 2)).
  { replace (rnd x - IZR i * c) with ((rnd x - x) + (x - IZR i * c)) by ring. eapply Rle_trans; [apply Rabs_triang|].
    pose proof (Rmult_le_compat_l u _ _ ltac:(lra) X2). replace (a * ((1 + u) ^ 2 * h - 1) + (1 + (1 + u) ^ 2 * IZR i) * (eta / 2)) with (u * (a * ((1 + u) * h) + IZR i * (1 + u) * (eta / 2)) + eta / 2 + (a * ((1 + u) * h - 1) + IZR i * (1 + u) * (eta / 2))) by ring. lra. }
  assert (Q1 : a * ((1 + u) ^ 2 * h) <= Rabs (E - S) * (81 / 8)).
  { apply Rmult_le_compat; [lra|nra|lra|]. replace (81 / 8) with (9 / 4 * (9 / 2)) by lra. apply Rmult_le_compat; nra. }
  assert (Q2 : (1 + (1 + u) ^ 2 * IZR i) * (eta / 2) <= 9 / 8 * (IZR (n + 1) * eta)).
  { assert ((1 + u) ^ 2 * IZR i <= 9 / 4 * IZR i) by (apply Rmult_le_compat_r; [exact I0|nra]). rewrite N1. nra. }
  assert (P2 : Rabs (rnd x) <= 81 / 8 * Rabs (E - S) + 9 / 8 * (IZR (n + 1) * eta)).
  { replace (rnd x) with ((rnd x - IZR i * c) + IZR i * c) by ring. eapply Rle_trans; [apply Rabs_triang|]. rewrite (Rabs_mult (IZR i)), (Rabs_pos_eq (IZR i)) by exact I0. fold a. lra. }
  pose proof (Rabs_pos S) as S0. pose proof (Rabs_pos E) as E0'. assert (T0 : 0 <= IZR (n + 1) * eta) by (apply Rmult_le_pos; lra).
  destruct (mult_rnd (fSize i) q FI FQ) as [FP EP]. { rewrite EI. fold x. lra. }
  rewrite EI in EP. fold p in FP, EP. fold x in EP.
  assert (Y0 : Rabs (rnd x + S) <= 81 / 8 * Rabs (E - S) + 9 / 8 * (IZR (n + 1) * eta) + Rabs S) by (eapply Rle_trans; [apply Rabs_triang|]; lra).
  assert (Y1 : (1 + u) * Rabs (rnd x + S) <= 3 / 2 * (81 / 8 * Rabs (E - S) + 9 / 8 * (IZR (n + 1) * eta) + Rabs S)) by (apply Rmult_le_compat; [lra|apply Rabs_pos|lra|exact Y0]).
  destruct (plus_rnd p start FP Fs) as [FY EY].
  { rewrite EP. fold S. pose proof (rnd_upto (rnd x + S)). assert (eta <= IZR (n + 1) * eta) by (rewrite N1; nra). lra. }
  fold y in FY, EY. rewrite EP in EY. fold S in EY. split; [exact FY|]. split; [exact EY|].
  destruct (fadd_err prec emax Hprec Hmax p start FP Fs) as [_ DY]. { change (ur prec) with u. unfold huge. rewrite EP. fold S. lra. }
  change (ur prec) with u in DY. unfold fadd in DY. fold y in DY. rewrite EP in DY. fold S in DY.
  assert (XS : exact_sample S E m i = S + IZR i * c) by reflexivity. rewrite XS.
  assert (Ea : IZR i / IZR m * Rabs (E - S) = a). { unfold a, c, Rdiv. rewrite Rabs_mult, Rabs_inv, (Rabs_pos_eq (IZR m)) by lra. ring. }
  rewrite Ea. replace ((1 + u) ^ 4 / (1 - u)) with ((1 + u) ^ 2 * h) by (unfold h; field; lra).
  replace (B2R y - (S + IZR i * c)) with ((B2R y - (rnd x + S)) + (rnd x - IZR i * c)) by ring. eapply Rle_trans; [apply Rabs_triang|].
  assert (Rabs (rnd x + S) <= Rabs (S + IZR i * c) + Rabs (rnd x - IZR i * c)). { replace (rnd x + S) with ((S + IZR i * c) + (rnd x - IZR i * c)) by ring. apply Rabs_triang. }
  pose proof (Rmult_le_compat_l u _ _ ltac:(lra) H). nra.
Qed.
End Run.

Theorem C85_linspace : forall W vec (out : list float) start end_ inclusive, (1 <= W)%Z -> no_overflow (lenZ out) start end_ ->
  exists y, fLinSpace W vec out start end_ inclusive = Ok y /\ lenZ y = lenZ out /\ all_finite prec emax y /\
  (* the first sample is exactly start *)
  (forall a, nthZ y 0 = Some a -> B2R a = B2R start) /\
  (* the samples never turn back *)
  (forall i j a b, (i <= j)%Z -> nthZ y i = Some a -> nthZ y j = Some b ->
     (B2R start <= B2R end_ -> B2R start <= B2R a <= B2R b) /\ (B2R end_ <= B2R start -> B2R b <= B2R a <= B2R start)) /\
  (* each is near the exact value *)
  (forall i a, nthZ y i = Some a -> let m := steps (lenZ out) inclusive in let exact := exact_sample (B2R start) (B2R end_) m i in
     Rabs (B2R a - exact) <= u * Rabs exact +
       (1 + u) * (((1 + u) ^ 4 / (1 - u) - 1) * (IZR i / IZR m * Rabs (B2R end_ - B2R start)) + (1 + (1 + u) ^ 2 * IZR i) * (eta / 2))).
Proof.
  intros W vec out start end_ inclusive HW Hok.
  destruct (C85_any_arithmetic float fSize (Bplus mode_NE) (Bminus mode_NE) (Bmult mode_NE) (Bdiv mode_NE) (fun x => x) (fun x => x) W vec out start end_ start inclusive HW) as (y & z & Ey & _ & Ly & _ & Hy).
  exists y. split; [exact Ey|]. split; [exact Ly|]. set (n := lenZ out) in *. pose proof (lenZ_nonneg out) as Hn0. fold n in Hn0.
  set (m := steps n inclusive) in *. assert (Em : Z.max 1 (n - (if inclusive then 1 else 0)) = m) by (unfold m, steps; destruct inclusive; f_equal; lia). rewrite Em in Hy.
  set (q := Bdiv mode_NE (Bminus mode_NE end_ start) (fSize m)) in *.
  assert (In : forall i a, nthZ y i = Some a -> (0 <= i < n)%Z /\ a = Bplus mode_NE (Bmult mode_NE (fSize i) q) start).
  { intros i a Ha. assert (Hi : (0 <= i < n)%Z). { rewrite <- Ly. unfold nthZ in Ha. unfold lenZ. destruct (Z.ltb_spec i 0); [discriminate|]. assert (nth_error y (Z.to_nat i) <> None) as N by congruence. apply nth_error_Some in N. lia. }
    split; [exact Hi|]. destruct (Hy i Hi) as [Hy1 _]. congruence. }
  assert (Hm : (0 < n)%Z -> (1 <= m /\ m <= n /\ n - 1 <= m)%Z) by (unfold m, steps; destruct inclusive; lia).
  assert (Hp : forall i, (0 <= i < n)%Z -> (0 < n)%Z) by (intros; lia).
  pose proof (fun i Hi => sample_ok n start end_ m (proj1 (Hm (Hp i Hi))) (proj1 (proj2 (Hm (Hp i Hi)))) (proj2 (proj2 (Hm (Hp i Hi)))) Hok i Hi) as Sok. fold q in Sok. cbv zeta in Sok.
  assert (S0 : forall i, i = 0%Z -> rnd (rnd (rnd (IZR i) * B2R q) + B2R start) = B2R start). { intros i ->. rewrite rnd_0, Rmult_0_l, rnd_0, Rplus_0_l. apply rnd_id. }
  split; [|split; [|split]].
  - intros a Ha. apply In_nth_error in Ha as [k Hk]. destruct (In (Z.of_nat k) a) as [Hi ->]. { unfold nthZ. destruct (Z.ltb_spec (Z.of_nat k) 0); [lia|]. now rewrite Nat2Z.id. } now apply Sok.
  - intros a Ha. destruct (In _ _ Ha) as [Hi ->]. destruct (Sok _ Hi) as (_ & E & _). rewrite E. now apply S0.
  - intros i j a b Hij Ha Hb. destruct (In _ _ Ha) as [Hi ->]. destruct (In _ _ Hb) as [Hj ->]. destruct (Sok _ Hi) as (_ & Ei & _). destruct (Sok _ Hj) as (_ & Ej & _). rewrite Ei, Ej.
    destruct (Hm ltac:(lia)) as (A & B & C). destruct (scale_ok n start end_ m A B Hok) as (_ & Q1 & Q2 & _). fold q in Q1, Q2.
    assert (M1 : rnd (IZR i) <= rnd (IZR j)) by (apply rnd_mono, IZR_le; exact Hij). assert (M0 : 0 <= rnd (IZR i)) by (rewrite <- rnd_0; apply rnd_mono, (IZR_le 0); lia).
    split; intros H.
    + specialize (Q1 H). split; [rewrite <- (S0 0%Z eq_refl) at 1|]; apply rnd_mono, Rplus_le_compat_r, rnd_mono, Rmult_le_compat_r; try assumption. now rewrite rnd_0.
    + specialize (Q2 H). split; [|rewrite <- (S0 0%Z eq_refl) at 2]; apply rnd_mono, Rplus_le_compat_r, rnd_mono; [nra|]. rewrite rnd_0. nra.
  - intros i a Ha. destruct (In _ _ Ha) as [Hi ->]. now apply Sok.
Qed.
(** an inclusive range from 0 to a power of two does not go beyond its end: the windows built on one stay in range *)
Theorem C85_from_zero_to_power : forall W vec (out : list float) end_ k, (1 <= W)%Z -> (2 <= lenZ out <= 2 ^ prec)%Z -> no_overflow (lenZ out) (B754_zero false) end_ ->
  B2R end_ = bpow radix2 k -> (3 - emax + prec <= k)%Z ->
  exists y, fLinSpace W vec out (B754_zero false) end_ true = Ok y /\ lenZ y = lenZ out /\ forall i a, nthZ y i = Some a -> 0 <= B2R a <= B2R end_.
Proof.
  intros W vec out end_ k HW [Hn Hn2] Hok Ek Hk.
  destruct (C85_linspace W vec out (B754_zero false) end_ true HW Hok) as (y & Ey & Ly & _ & _ & Hm & _).
  exists y. split; [exact Ey|]. split; [exact Ly|]. intros i a Ha. set (n := lenZ out) in *.
  assert (Pk : 0 < bpow radix2 k) by apply bpow_gt_0.
  split; [destruct (Hm i i a a ltac:(lia) Ha Ha) as [H _]; cbn [B2R] in H; rewrite Ek in H; lra|].
  destruct (C85_any_arithmetic float fSize (Bplus mode_NE) (Bminus mode_NE) (Bmult mode_NE) (Bdiv mode_NE) (fun x => x) (fun x => x) W vec out (B754_zero false) end_ end_ true HW) as (y' & z & Ey' & _ & _ & _ & Hy).
  assert (y' = y) by (unfold fLinSpace in Ey; congruence). subst y'. fold n in Hy.
  assert (Hi : (0 <= i < n)%Z). { rewrite <- Ly. unfold nthZ in Ha. unfold lenZ. destruct (Z.ltb_spec i 0); [discriminate|]. assert (nth_error y (Z.to_nat i) <> None) as N by congruence. apply nth_error_Some in N. lia. }
  destruct (Hy i Hi) as [Hy1 _]. rewrite Ha in Hy1. injection Hy1 as ->. replace (Z.max 1 (n - 1)) with (n - 1)%Z by lia. set (m := (n - 1)%Z).
  destruct (sample_ok n (B754_zero false) end_ m ltac:(lia) ltac:(lia) ltac:(lia) Hok i Hi) as (_ & -> & _).
  destruct (scale_ok n (B754_zero false) end_ m ltac:(lia) ltac:(lia) Hok) as (_ & Q0 & _ & _ & EQ). set (q := B2R (Bdiv _ _ _)) in *. cbn [B2R] in *. rewrite Ek in *. rewrite Rminus_0_r in EQ. specialize (Q0 ltac:(lra)).
  assert (Re : rnd (bpow radix2 k) = bpow radix2 k) by (rewrite <- Ek; apply rnd_id). rewrite Re in EQ.
  pose proof u_half as Hu. assert (Pp : Prec_gt_0 prec) by exact Hprec. unfold Prec_gt_0 in Pp. assert (Pe : (prec < emax)%Z) by exact Hmax.
  assert (Rm : rnd (IZR m) = IZR m).
  { apply round_generic; [apply valid_rnd_N|]. apply generic_format_FLT. exists (Float radix2 m 0); [unfold F2R; cbn; ring|cbn [Fnum]; change (radix_val radix2) with 2%Z; lia|cbn [Fexp]; lia]. }
  rewrite Rm in EQ. assert (M1 : 1 <= IZR m) by (apply (IZR_le 1); lia).
  assert (Q1 : IZR m * q <= bpow radix2 k * (1 + u / (1 + u))).
  { destruct (relative_error_N_FLT'_ex radix2 (3 - emax - prec) prec Hprec (fun x => negb (Z.even x)) (bpow radix2 k / IZR m)) as (d & t & Hd & Ht & Hdt & Ee).
    rewrite EQ, Ee. rewrite ur_uro in Hd. change (ur prec) with u in Hd.
    replace (IZR m * (bpow radix2 k / IZR m * (1 + d) + t)) with (bpow radix2 k * (1 + d) + IZR m * t) by (field; lra).
    assert (U0 : 0 < u / (1 + u)) by (apply Rmult_lt_0_compat; [lra|apply Rinv_0_lt_compat; lra]).
    apply Rmult_integral in Hdt as [->| ->]; [|pose proof (Rabs_le_inv _ _ Hd); nra].
    assert (T : IZR m * t <= bpow radix2 k * (u / (1 + u))); [|lra].
    pose proof (Rabs_le_inv _ _ Ht) as Ht'. pose proof (bpow_gt_0 radix2 (3 - emax - prec)) as E0.
    assert (Mp : IZR m <= bpow radix2 prec). { rewrite <- (IZR_Zpower radix2) by lia. apply IZR_le. change (Zpower radix2 prec) with (2 ^ prec)%Z. lia. }
    apply Rle_trans with (bpow radix2 prec * (/ 2 * bpow radix2 (3 - emax - prec))); [pose proof (bpow_gt_0 radix2 prec); nra|].
    assert (B1 : bpow radix2 prec * bpow radix2 (3 - emax - prec) <= bpow radix2 k * u). { rewrite <- !bpow_plus. apply bpow_le. lia. }
    assert (B2 : / 2 * u <= u / (1 + u)). { unfold Rdiv. rewrite (Rmult_comm (/ 2)). apply Rmult_le_compat_l; [lra|]. apply Rinv_le_contravar; lra. }
    pose proof (Rmult_le_compat_l _ _ _ (Rlt_le _ _ Pk) B2). nra. }
  assert (Sk : succ radix2 (FLT_exp (3 - emax - prec) prec) (bpow radix2 k) = bpow radix2 k * (1 + 2 * u)).
  { rewrite succ_eq_pos by lra. rewrite ulp_bpow. unfold FLT_exp. rewrite Z.max_l by lia. replace (k + 1 - prec)%Z with (k + 1 + - prec)%Z by ring. rewrite !bpow_plus. change (bpow radix2 1) with 2. ring. }
  assert (Gk : generic_format radix2 (FLT_exp (3 - emax - prec) prec) (bpow radix2 k)) by (apply generic_format_FLT_bpow; [exact Hprec|lia]).
  assert (Ri : 0 <= rnd (IZR i) <= IZR m). { split; [rewrite <- rnd_0; apply rnd_mono, (IZR_le 0); lia|]. rewrite <- Rm. apply rnd_mono, IZR_le. lia. }
  assert (V : u / (1 + u) < u). { unfold Rdiv. rewrite <- (Rmult_1_r u) at 3. apply Rmult_lt_compat_l; [lra|]. rewrite <- Rinv_1 at 2. apply Rinv_lt_contravar; lra. }
  assert (P1 : rnd (rnd (IZR i) * q) <= bpow radix2 k).
  { apply round_N_le_midp; [apply FLT_exp_valid; exact Hprec|exact Gk|]. rewrite Sk. assert (rnd (IZR i) * q <= IZR m * q) by (apply Rmult_le_compat_r; lra). nra. }
  rewrite Rplus_0_r. apply Rle_trans with (rnd (bpow radix2 k)); [apply rnd_mono; exact P1|lra].
Qed.
End Ieee.
Print Assumptions C85_linspace.
Print Assumptions C85_from_zero_to_power.
#[local] Existing Instance p24.
#[local] Existing Instance e128.
Definition last_of {T} (r : outcome (list T)) (n : Z) : option T := match r with Ok y => nthZ y (n - 1) | _ => None end.
Lemma last_value (r : outcome (list (binary_float 24 128))) n sf : option_map B2SF (last_of r n) = Some sf -> exists a, last_of r n = Some a /\ B2R a = SF2R radix2 sf.
Proof. destruct (last_of r n) as [a|]; [|discriminate]. cbn. intros [= <-]. exists a. split; [reflexivity|]. symmetry. apply SF2R_B2SF. Qed.
(** but end need not be reached: in single precision 42 inclusive samples from 0 to 1 stop just below 1, and 22 from 0 to 3
    go beyond 3 *)
Theorem C85_end_is_reached_refuted :
  (exists a, last_of (fLinSpace 24 128 p24 e128 4 true (repeat (b32 0 0) 42) (b32 0 0) (b32 1 0) true) 42 = Some a /\ B2R a < 1) /\
  (exists a, last_of (fLinSpace 24 128 p24 e128 4 true (repeat (b32 0 0) 22) (b32 0 0) (b32 3 0) true) 22 = Some a /\ 3 < B2R a).
Proof.
  split.
  - destruct (last_value (fLinSpace 24 128 p24 e128 4 true (repeat (b32 0 0) 42) (b32 0 0) (b32 1 0) true) 42 (SpecFloat.S754_finite false 16777215 (-24))) as (a & Ea & Va); [vm_compute; reflexivity|].
    exists a. split; [exact Ea|]. rewrite Va. unfold SF2R, F2R. cbn. lra.
  - destruct (last_value (fLinSpace 24 128 p24 e128 4 true (repeat (b32 0 0) 22) (b32 0 0) (b32 3 0) true) 22 (SpecFloat.S754_finite false 12582913 (-22))) as (a & Ea & Va); [vm_compute; reflexivity|].
    exists a. split; [exact Ea|]. rewrite Va. unfold SF2R, F2R. cbn. lra.
Qed.
Print Assumptions C85_end_is_reached_refuted.
Lemma sp_zero : B2R (b32 0 0) = 0. Proof. vm_compute. reflexivity. Qed.
(** those 42 samples meet the hypotheses of C85_linspace *)
Example C85_nontrivial : (b32 0 0 = B754_zero false /\ B2R (b32 1 0) = bpow radix2 0) /\ no_overflow 24 128 42 (b32 0 0) (b32 1 0) /\ no_overflow 24 128 42 (b32 1 0) (b32 0 0) /\
  (match fLinSpace 24 128 p24 e128 4 true (repeat (b32 7 0) 5) (b32 1 0) (b32 0 0) true with
   | Ok y => map B2SF y = map B2SF [b32 1 0; b32 3 (-2); b32 1 (-1); b32 1 (-2); b32 0 0] | _ => False end).
Proof.
  assert (H1 : 4096 <= bpow radix2 128). { apply Rle_trans with (bpow radix2 12); [cbn; lra|apply bpow_le; lia]. }
  assert (H2 : bpow radix2 (3 - 128 - 24) <= 1). { change 1 with (bpow radix2 0). apply bpow_le. lia. }
  split; [split; [vm_compute; reflexivity|rewrite b32_one; reflexivity]|].
  split; [|split; [|vm_compute; reflexivity]]; (split; [reflexivity|]; split; [reflexivity|]; rewrite b32_one, sp_zero, Rabs_R0, Rabs_R1; cbn [Z.add Pos.add Pos.succ]; split; lra).
Qed.
