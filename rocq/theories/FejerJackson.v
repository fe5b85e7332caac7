(** The Fejer-Jackson inequality: sin x + sin 2x / 2 + ... + sin nx / n >= 0 for 0 <= x <= pi, and its
    consequence for sums weighted by a non-increasing sequence (Abel summation).  A mathematical fact about R. *)
From Coq Require Import Reals Lra Lia.
Open Scope R_scope.

Fixpoint FJ (n : nat) (x : R) : R := match n with O => 0 | S m => FJ m x + sin (INR (S m) * x) / INR (S m) end.
Fixpoint cosum (n : nat) (x : R) : R := match n with O => 0 | S m => cosum m x + cos (INR (S m) * x) end.
Lemma INR_S_pos m : 0 < INR (S m).
Proof. rewrite S_INR. pose proof (pos_INR m). lra. Qed.
Lemma FJ_deriv n x : derivable_pt_lim (FJ n) x (cosum n x).
Proof.
  induction n as [|m IH].
  - cbn [FJ cosum]. apply derivable_pt_lim_const.
  - change (FJ (S m)) with (plus_fct (FJ m) (fun x => sin (INR (S m) * x) / INR (S m))). change (cosum (S m) x) with (cosum m x + cos (INR (S m) * x)). apply derivable_pt_lim_plus; [exact IH|].
    set (a := INR (S m)). assert (Ha : a <> 0) by (unfold a; pose proof (INR_S_pos m); lra).
    replace (cos (a * x)) with (/ a * (cos (a * x) * (a * 1))) by (field; exact Ha).
    assert (E : forall y, mult_real_fct (/ a) (comp sin (mult_real_fct a id)) y = sin (a * y) / a) by (intros y; unfold mult_real_fct, comp, id, Rdiv; ring).
    assert (D : derivable_pt_lim (mult_real_fct (/ a) (comp sin (mult_real_fct a id))) x (/ a * (cos (a * x) * (a * 1)))).
    { apply derivable_pt_lim_scal. apply derivable_pt_lim_comp; [apply derivable_pt_lim_scal, derivable_pt_lim_id|]. apply derivable_pt_lim_sin. }
    intros eps He. destruct (D eps He) as [d Hd]. exists d. intros h H1 H2. rewrite <- !E. now apply Hd.
Qed.
Lemma cosum_closed n x : 2 * sin (x / 2) * cosum n x = sin (INR n * x + x / 2) - sin (x / 2).
Proof.
  induction n as [|m IH].
  - cbn [cosum]. change (INR 0) with 0. replace (0 * x + x / 2) with (x / 2) by ring. ring.
  - cbn [cosum]. rewrite Rmult_plus_distr_l, IH. rewrite S_INR. set (a := INR m).
    replace (a * x + x / 2) with ((a + 1) * x - x / 2) by field. rewrite sin_minus, sin_plus. ring.
Qed.
(** at a critical point the last term is not negative *)
Lemma FJ_critical n x : 0 < x < PI -> cosum n x = 0 -> 0 <= sin (INR n * x).
Proof.
  intros Hx H. pose proof (cosum_closed n x) as C. rewrite H, Rmult_0_r in C. set (t := INR n * x) in *.
  assert (Hs : 0 < sin (x / 2)) by (apply sin_gt_0; lra). assert (Hc : 0 < cos (x / 2)) by (apply cos_gt_0; lra).
  assert (S1 : sin (t + x / 2) = sin (x / 2)) by lra.
  assert (C1 : Rsqr (cos (t + x / 2)) = Rsqr (cos (x / 2))) by (pose proof (sin2_cos2 (t + x / 2)); pose proof (sin2_cos2 (x / 2)); rewrite S1 in *; lra).
  replace t with (t + x / 2 - x / 2) by ring. rewrite sin_minus, S1. apply Rsqr_eq in C1 as [-> | ->]; nra.
Qed.
Theorem FJ_nonneg n x : 0 <= x <= PI -> 0 <= FJ n x.
Proof.
  revert x. induction n as [|m IH]; intros x Hx; [cbn [FJ]; lra|].
  assert (D : forall y, derivable_pt (FJ (S m)) y) by (intros y; exists (cosum (S m) y); apply FJ_deriv).
  destruct (continuity_ab_min (FJ (S m)) 0 PI) as [x0 [Hmin Hx0]]; [pose proof PI_RGT_0; lra|intros c _; apply derivable_continuous_pt, D|].
  apply Rle_trans with (FJ (S m) x0); [|now apply Hmin]. clear x Hx.
  assert (Zero : forall k, FJ k 0 = 0) by (induction k as [|k IHk]; [reflexivity|]; cbn [FJ]; rewrite IHk, Rmult_0_r, sin_0; unfold Rdiv; ring).
  assert (Pi : forall k, FJ k PI = 0).
  { induction k as [|k IHk]; [reflexivity|]. cbn [FJ]. rewrite IHk. assert (E : forall j, sin (INR j * PI) = 0).
    { intros j. induction j as [|j IHj]; [change (INR 0) with 0; rewrite Rmult_0_l; apply sin_0|]. rewrite S_INR, Rmult_plus_distr_r, Rmult_1_l, neg_sin, IHj. ring. }
    rewrite E. unfold Rdiv. ring. }
  destruct (Req_dec x0 0) as [->|N0]; [rewrite Zero; lra|]. destruct (Req_dec x0 PI) as [->|N1]; [rewrite Pi; lra|].
  assert (Hi : 0 < x0 < PI) by lra.
  assert (Cr : cosum (S m) x0 = 0).
  { assert (E := deriv_minimum (FJ (S m)) 0 PI x0 (D x0) ltac:(lra) ltac:(lra)). rewrite <- E by (intros y H1 H2; apply Hmin; lra). symmetry. apply derive_pt_eq_0, FJ_deriv. }
  cbn [FJ]. pose proof (IH x0 ltac:(lra)). pose proof (FJ_critical (S m) x0 Hi Cr). pose proof (INR_S_pos m).
  apply Rplus_le_le_0_compat; [assumption|]. apply Rmult_le_pos; [assumption|]. left. now apply Rinv_0_lt_compat.
Qed.
(** weighted by a non-negative non-increasing sequence *)
Fixpoint wsum (a : nat -> R) (n : nat) (x : R) : R := match n with O => 0 | S m => wsum a m x + a (S m) * (sin (INR (S m) * x) / INR (S m)) end.
Lemma wsum_abel a n x : (forall k, (1 <= k < n)%nat -> a (S k) <= a k) -> 0 <= x <= PI -> a n * FJ n x <= wsum a n x.
Proof.
  intros Ha Hx. induction n as [|m IH]; [cbn [FJ wsum]; lra|]. cbn [FJ wsum]. rewrite Rmult_plus_distr_l. apply Rplus_le_compat_r.
  destruct m as [|m]; [cbn [FJ wsum]; lra|]. apply Rle_trans with (a (S m) * FJ (S m) x).
  - apply Rmult_le_compat_r; [now apply FJ_nonneg|]. apply Ha. lia.
  - apply IH. intros k Hk. apply Ha. lia.
Qed.
Theorem wsum_nonneg a n x : (forall k, (1 <= k <= n)%nat -> 0 <= a k) -> (forall k, (1 <= k < n)%nat -> a (S k) <= a k) -> 0 <= x <= PI -> 0 <= wsum a n x.
Proof.
  intros H0 Ha Hx. destruct n as [|m]; [cbn [wsum]; lra|]. apply Rle_trans with (a (S m) * FJ (S m) x); [|now apply wsum_abel]. apply Rmult_le_pos; [apply H0; lia|now apply FJ_nonneg].
Qed.
