(** Lemmas for C66: division, square root and conversion in IEEE arithmetic; sums of nonnegative numbers. *)
From Verif Require Import Base BaseFacts Complex KernelModel FloatSpec ReduceTree FloatSum FloatIeee.
From Coq Require Import Reals Lra Lia List ZArith Arith Psatz.
From Flocq Require Import Core BinarySingleNaN Relative Plus_error Round_pred.
Import ListNotations.
Local Open Scope R_scope.

Section Ieee.
Variables prec emax : Z.
Context (Hprec : Prec_gt_0 prec) (Hmax : Prec_lt_emax prec emax).
Notation float := (binary_float prec emax).
Notation rnd := (round radix2 (FLT_exp (3 - emax - prec) prec) ZnearestE).
Notation u := (ur prec).
Notation eta := (tiny prec emax).
Notation finite := (finite prec emax).

Lemma rnd_err x : Rabs (rnd x - x) <= u * Rabs x + eta / 2.
Proof.
  destruct (relative_error_N_FLT'_ex radix2 (3 - emax - prec) prec Hprec (fun x => negb (Z.even x)) x) as (e & n & He & Hn & _ & E).
  rewrite E. replace (x * (1 + e) + n - x) with (e * x + n) by ring.
  eapply Rle_trans; [apply Rabs_triang|]. apply Rplus_le_compat; [|unfold tiny; lra].
  rewrite Rabs_mult. apply Rmult_le_compat_r; [apply Rabs_pos|now apply eps_le].
Qed.
Lemma rnd_nonneg x : 0 <= x -> 0 <= rnd x.
Proof. intros H. rewrite <- (round_0 radix2 (FLT_exp (3 - emax - prec) prec) ZnearestE). apply round_le; [apply FLT_exp_valid; exact Hprec|apply valid_rnd_N|exact H]. Qed.
Lemma rnd_below x : (1 + u) * Rabs x + eta / 2 < huge emax -> Rabs (rnd x) < bpow radix2 emax.
Proof.
  intros H. pose proof (rnd_err x). replace (rnd x) with ((rnd x - x) + x) by ring.
  eapply Rle_lt_trans; [apply Rabs_triang|]. unfold huge in H. lra.
Qed.

Lemma fdiv_err (a b : float) : finite a -> B2R b <> 0 -> (1 + u) * Rabs (B2R a / B2R b) + eta / 2 < huge emax ->
  finite (Bdiv mode_NE a b) /\ B2R (Bdiv mode_NE a b) = rnd (B2R a / B2R b) /\
  Rabs (B2R (Bdiv mode_NE a b) - B2R a / B2R b) <= u * Rabs (B2R a / B2R b) + eta / 2.
Proof.
  intros Fa Hb HM. unfold FloatIeee.finite in *.
  pose proof (Bdiv_correct prec emax Hprec Hmax mode_NE a b Hb) as C.
  change (round radix2 (SpecFloat.fexp prec emax) (round_mode mode_NE) (B2R a / B2R b)) with (rnd (B2R a / B2R b)) in C.
  rewrite Rlt_bool_true in C by now apply rnd_below. destruct C as (C1 & C2 & _). rewrite C1, C2. split; [exact Fa|]. split; [reflexivity|apply rnd_err].
Qed.
Lemma fsqrt_err (a : float) : finite a -> 0 <= B2R a ->
  finite (Bsqrt mode_NE a) /\ 0 <= B2R (Bsqrt mode_NE a) /\
  Rabs (B2R (Bsqrt mode_NE a) - sqrt (B2R a)) <= u * sqrt (B2R a) + eta / 2.
Proof.
  intros Fa Ha. unfold FloatIeee.finite in *.
  destruct (Bsqrt_correct prec emax Hprec Hmax mode_NE a) as (C1 & C2 & _).
  change (round radix2 (SpecFloat.fexp prec emax) (round_mode mode_NE) (sqrt (B2R a))) with (rnd (sqrt (B2R a))) in C1.
  split.
  - rewrite C2. destruct a as [s|s| |s m e He]; try reflexivity; try discriminate. destruct s; [|reflexivity]. exfalso.
    cbn in Ha. unfold F2R in Ha. cbn [Fnum Fexp] in Ha. pose proof (bpow_gt_0 radix2 e). pose proof (IZR_lt (Z.neg m) 0 eq_refl). nra.
  - rewrite C1. split; [apply rnd_nonneg, sqrt_pos|]. pose proof (rnd_err (sqrt (B2R a))) as E. rewrite (Rabs_pos_eq (sqrt (B2R a))) in E by apply sqrt_pos. exact E.
Qed.
(** the size of a signal as a floating-point number *)
Definition of_size (n : Z) : float := binary_normalize prec emax Hprec Hmax mode_NE n 0 false.
Lemma of_size_err n : (1 <= n)%Z -> u <= 1 / 2 -> (1 + u) * IZR n < huge emax ->
  finite (of_size n) /\ 0 < B2R (of_size n) /\ Rabs (B2R (of_size n) - IZR n) <= u * IZR n.
Proof.
  intros Hn Hu HM. unfold of_size, FloatIeee.finite.
  pose proof (binary_normalize_correct prec emax Hprec Hmax mode_NE n 0 false) as C. cbv zeta in C.
  assert (EF : F2R (Float radix2 n 0) = IZR n) by (unfold F2R; cbn; ring). rewrite EF in C.
  change (round radix2 (SpecFloat.fexp prec emax) (round_mode mode_NE) (IZR n)) with (rnd (IZR n)) in C.
  assert (H1 : 1 <= IZR n) by now apply (IZR_le 1).
  assert (Hp : Prec_gt_0 prec) by exact Hprec. unfold Prec_gt_0 in Hp. assert (Hm : (prec < emax)%Z) by exact Hmax.
  assert (E : Rabs (rnd (IZR n) - IZR n) <= u * Rabs (IZR n)).
  { destruct (relative_error_N_FLT_ex radix2 (3 - emax - prec) prec Hprec (fun x => negb (Z.even x)) (IZR n)) as (e & He & Ee).
    - rewrite Rabs_pos_eq by lra. apply Rle_trans with (2 := H1). apply (bpow_le radix2 _ 0). lia.
    - rewrite Ee. replace (IZR n * (1 + e) - IZR n) with (e * IZR n) by ring. rewrite Rabs_mult. apply Rmult_le_compat_r; [apply Rabs_pos|].
      eapply Rle_trans; [exact He|]. right. unfold ur. rewrite bpow_plus. change (bpow radix2 1) with 2. field. }
  rewrite (Rabs_pos_eq (IZR n)) in E by lra.
  rewrite Rlt_bool_true in C.
  - destruct C as (C1 & C2 & _). rewrite C1, C2. split; [reflexivity|]. split; [|exact E].
    pose proof (Rabs_le_inv _ _ E). nra.
  - replace (rnd (IZR n)) with ((rnd (IZR n) - IZR n) + IZR n) by ring. eapply Rle_lt_trans; [apply Rabs_triang|].
    rewrite (Rabs_pos_eq (IZR n)) by lra. unfold huge in HM. lra.
Qed.

(** nonnegative numbers *)
Definition nonneg (x : float) : Prop := finite x /\ 0 <= B2R x.
Lemma fadd_nonneg (a b : float) : nonneg a -> nonneg b -> (1 + u) * Rabs (B2R a + B2R b) < huge emax ->
  nonneg (Bplus mode_NE a b) /\ Rabs (B2R (Bplus mode_NE a b) - (B2R a + B2R b)) <= u * Rabs (B2R a + B2R b).
Proof.
  intros [Fa Pa] [Fb Pb] HM. destruct (fadd_err prec emax Hprec Hmax a b Fa Fb HM) as [F E]. split; [|exact E]. split; [exact F|].
  pose proof (Bplus_correct prec emax Hprec Hmax mode_NE a b Fa Fb) as C.
  change (round radix2 (SpecFloat.fexp prec emax) (round_mode mode_NE) (B2R a + B2R b)) with (rnd (B2R a + B2R b)) in C.
  destruct (Rlt_bool _ _) in C.
  - destruct C as (-> & _). apply rnd_nonneg. lra.
  - destruct C as (C & _). unfold FloatIeee.finite, fadd in F. destruct (Bplus mode_NE a b) as [s|s| |s m e H]; cbn; try lra.
    exfalso. unfold binary_overflow in C. cbn in C. discriminate.
Qed.
Lemma fmul_square_nonneg (a : float) : finite a -> (1 + u) * Rabs (B2R a * B2R a) + eta / 2 < huge emax -> 0 <= B2R (Bmult mode_NE a a).
Proof.
  intros Fa HM. pose proof (Bmult_correct prec emax Hprec Hmax mode_NE a a) as C.
  change (round radix2 (SpecFloat.fexp prec emax) (round_mode mode_NE) (B2R a * B2R a)) with (rnd (B2R a * B2R a)) in C.
  rewrite Rlt_bool_true in C by now apply rnd_below. destruct C as (-> & _). apply rnd_nonneg. nra.
Qed.
End Ieee.

(** ** Sums of rounded terms, quotients by the size, square roots *)
Section Terms.
Variables prec emax : Z.
Context (Hprec : Prec_gt_0 prec) (Hmax : Prec_lt_emax prec emax).
Notation float := (binary_float prec emax).
Notation u := (ur prec).
Notation eta := (tiny prec emax).
Notation finite := (finite prec emax).
Notation nonneg := (nonneg prec emax).

Lemma pow_1u D : 1 <= (1 + u) ^ D.
Proof. apply pow_R1_Rle. pose proof (ur_pos prec). lra. Qed.

Lemma terms_sum (Q : float -> Prop) T (f : T -> float) (t a : T -> R) c h (l : list T) D v (z : float) :
  (forall x y, Q x -> Q y -> (1 + u) * Rabs (B2R x + B2R y) < huge emax ->
     Q (Bplus mode_NE x y) /\ Rabs (B2R (Bplus mode_NE x y) - (B2R x + B2R y)) <= u * Rabs (B2R x + B2R y)) ->
  1 <= c -> 0 <= h -> Q z -> B2R z = 0 ->
  (forall x, In x l -> Q (f x) /\ Rabs (B2R (f x) - t x) <= (c - 1) * a x + h /\ Rabs (t x) <= a x) ->
  combined (Bplus mode_NE) D v (z :: map f l) ->
  (1 + u) ^ D * (c * sumR (map a l) + IZR (lenZ l) * h) < huge emax ->
  Q v /\ Rabs (B2R v - sumR (map t l)) <= ((1 + u) ^ D * c - 1) * sumR (map a l) + (1 + u) ^ D * (IZR (lenZ l) * h).
Proof.
  intros HQ Hc Hh Qz Ez Hl C HM.
  assert (B : Rabs (sumR (map (fun x => B2R (f x)) l) - sumR (map t l)) <= (c - 1) * sumR (map a l) + IZR (lenZ l) * h /\
              sumR (map (fun x => Rabs (B2R (f x))) l) <= c * sumR (map a l) + IZR (lenZ l) * h).
  { clear C HM. induction l as [|x l IH].
    - cbn. rewrite Rminus_0_r, Rabs_R0. lra.
    - destruct (Hl x (or_introl eq_refl)) as (_ & E1 & E2). destruct IH as [I1 I2]; [intros y Hy; apply Hl; now right|].
      cbn [map]. rewrite !sumR_cons, lenZ_cons, plus_IZR.
      split.
      + replace (B2R (f x) + sumR (map (fun y => B2R (f y)) l) - (t x + sumR (map t l))) with
          ((B2R (f x) - t x) + (sumR (map (fun y => B2R (f y)) l) - sumR (map t l))) by ring.
        eapply Rle_trans; [apply Rabs_triang|]. lra.
      + assert (Rabs (B2R (f x)) <= c * a x + h); [|lra]. replace (B2R (f x)) with ((B2R (f x) - t x) + t x) by ring.
        eapply Rle_trans; [apply Rabs_triang|]. lra. }
  destruct B as [B1 B2].
  assert (U0 : 0 <= u) by (pose proof (ur_pos prec); lra).
  pose proof (pow_1u D) as P1.
  destruct (combined_sum B2R Q (Bplus mode_NE) u (huge emax) U0 HQ D v _ C) as [Qv Ev].
  - intros x [<- | Hx]; [exact Qz|]. apply in_map_iff in Hx as (y & <- & Hy). now apply Hl.
  - unfold vabs. cbn [map]. rewrite sumR_cons, Ez, Rabs_R0, map_map. eapply Rle_lt_trans; [|exact HM].
    apply Rmult_le_compat_l; [lra|]. lra.
  - split; [exact Qv|]. unfold vsum, vabs in Ev. cbn [map] in Ev. rewrite !sumR_cons, Ez, Rabs_R0, !map_map, !Rplus_0_l in Ev.
    set (s := sumR (map (fun x => B2R (f x)) l)) in *. set (sa := sumR (map (fun x => Rabs (B2R (f x))) l)) in *.
    set (S := sumR (map t l)) in *. set (A := sumR (map a l)) in *. set (nh := IZR (lenZ l) * h) in *. set (g := (1 + u) ^ D) in *.
    clearbody s sa S A nh g. replace (B2R v - S) with ((B2R v - s) + (s - S)) by ring.
    eapply Rle_trans; [apply Rabs_triang|]. assert ((g - 1) * sa <= (g - 1) * (c * A + nh)) by (apply Rmult_le_compat_l; lra). lra.
Qed.

Lemma div_size (Q : bool) (s : float) S A g E n : u <= 1 / 1000 -> (1 <= n)%Z -> (1 + u) * IZR n < huge emax ->
  (if Q then nonneg s else finite s) -> 1 <= g -> 0 <= A -> 0 <= E -> Rabs S <= A -> Rabs (B2R s - S) <= (g - 1) * A + E ->
  (1 + u) ^ 3 * ((g * A + E) / IZR n) + eta / 2 < huge emax ->
  let q := Bdiv mode_NE s (of_size prec emax Hprec Hmax n) in
  (if Q then nonneg q else finite q) /\
  Rabs (B2R q - S / IZR n) <= (g * (1 + u) ^ 3 - 1) * (A / IZR n) + (1 + u) ^ 3 * (E / IZR n) + eta / 2.
Proof.
  intros Hu Hn Hov Fs Hg HA HE HS Hs HM q. pose proof (ur_pos prec) as U0.
  assert (N1 : 1 <= IZR n) by now apply (IZR_le 1).
  destruct (of_size_err prec emax Hprec Hmax n Hn) as (Fn & Pn & En); [lra|exact Hov|].
  set (N := B2R (of_size prec emax Hprec Hmax n)) in *.
  assert (Fs' : finite s) by (destruct Q; [apply Fs|exact Fs]).
  assert (Ps : Q = true -> 0 <= B2R s) by (intros ->; apply Fs).
  set (x := B2R s) in *. set (m := IZR n) in *.
  set (d := N / m - 1).
  assert (Hd : Rabs d <= u).
  { unfold d. replace (N / m - 1) with ((N - m) / m) by (field; lra). unfold Rdiv. rewrite Rabs_mult, Rabs_inv, (Rabs_pos_eq m) by lra.
    apply Rmult_le_reg_r with m; [lra|]. rewrite Rmult_assoc, Rinv_l by lra. lra. }
  assert (EN : N = m * (1 + d)) by (unfold d; field; lra).
  apply Rabs_le_inv in Hd.
  set (r := / (1 + d)).
  assert (Er : r * (1 + d) = 1) by (unfold r; apply Rinv_l; lra).
  assert (Pr : 0 < r) by (unfold r; apply Rinv_0_lt_compat; lra).
  assert (Hr : r <= (1 + u) ^ 2 /\ Rabs (r - 1) <= (1 + u) ^ 2 - 1).
  { assert (G : 1 <= (1 + u) ^ 2 * (1 + d)). { assert ((1 + u) ^ 2 * (1 - u) <= (1 + u) ^ 2 * (1 + d)) by (apply Rmult_le_compat_l; [apply pow2_ge_0|lra]). assert (1 <= (1 + u) ^ 2 * (1 - u)) by (clear - U0 Hu; nra). lra. }
    assert (r <= (1 + u) ^ 2). { apply Rmult_le_reg_r with (1 + d); lra. }
    assert (1 - u <= r). { apply Rmult_le_reg_r with (1 + d); [lra|]. rewrite Er. clear - Hd U0 Hu. nra. }
    split; [assumption|]. apply Rabs_le. split; [|lra]. clear - U0 H0. nra. }
  clearbody r. destruct Hr as [Hr1 Hr2].
  assert (Exn : x / N = x * r / m). { rewrite EN. replace r with (/ (1 + d)); [field; lra|]. apply Rmult_eq_reg_r with (1 + d); [|lra]. rewrite Er. apply Rinv_l. lra. }
  assert (Hx : Rabs x <= g * A + E). { replace x with ((x - S) + S) by ring. eapply Rle_trans; [apply Rabs_triang|]. lra. }
  assert (Pg : 0 <= g * A + E) by (pose proof (Rabs_pos x); lra).
  assert (Im : 0 < / m) by (apply Rinv_0_lt_compat; lra).
  assert (Hq : Rabs (x / N) <= (1 + u) ^ 2 * ((g * A + E) / m)).
  { rewrite Exn. unfold Rdiv. rewrite !Rabs_mult, (Rabs_pos_eq r), (Rabs_pos_eq (/ m)) by lra.
    rewrite <- Rmult_assoc. apply Rmult_le_compat_r; [lra|]. rewrite Rmult_comm. apply Rmult_le_compat; try lra. apply Rabs_pos. }
  destruct (fdiv_err prec emax Hprec Hmax s (of_size prec emax Hprec Hmax n)) as (Fq & Eq & Err).
  - exact Fs'.
  - fold N. lra.
  - fold N x. eapply Rle_lt_trans; [|exact HM]. apply Rplus_le_compat_r. replace ((1 + u) ^ 3 * ((g * A + E) / m)) with ((1 + u) * ((1 + u) ^ 2 * ((g * A + E) / m))) by ring.
    apply Rmult_le_compat_l; [lra|exact Hq].
  - fold q in Fq, Eq, Err. fold N x in Eq, Err. split.
    { destruct Q; [|exact Fq]. split; [exact Fq|]. rewrite Eq. apply rnd_nonneg; [exact Hprec|]. rewrite Exn. specialize (Ps eq_refl).
      unfold Rdiv. apply Rmult_le_pos; [apply Rmult_le_pos; lra|lra]. }
    replace (B2R q - S / m) with ((B2R q - x / N) + (x / N - S / m)) by ring. eapply Rle_trans; [apply Rabs_triang|].
    assert (H2 : Rabs (x / N - S / m) <= ((g * (1 + u) ^ 2 - 1) * A + E * (1 + u) ^ 2) / m).
    { rewrite Exn. replace (x * r / m - S / m) with (((x - S) * r + S * (r - 1)) * / m) by (unfold Rdiv; ring).
      rewrite Rabs_mult, (Rabs_pos_eq (/ m)) by lra. unfold Rdiv. apply Rmult_le_compat_r; [lra|].
      eapply Rle_trans; [apply Rabs_triang|]. rewrite !Rabs_mult, (Rabs_pos_eq r) by lra.
      assert (Rabs (x - S) * r <= ((g - 1) * A + E) * (1 + u) ^ 2) by (apply Rmult_le_compat; try lra; apply Rabs_pos).
      assert (Rabs S * Rabs (r - 1) <= A * ((1 + u) ^ 2 - 1)) by (apply Rmult_le_compat; try lra; apply Rabs_pos). lra. }
    assert (H3 : u * Rabs (x / N) <= u * ((1 + u) ^ 2 * ((g * A + E) / m))) by (apply Rmult_le_compat_l; lra).
    eapply Rle_trans; [apply Rplus_le_compat; [exact Err|exact H2]|]. 
    eapply Rle_trans; [apply Rplus_le_compat_r, Rplus_le_compat_r, H3|]. right. unfold Rdiv. ring.
Qed.
End Terms.
