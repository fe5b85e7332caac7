(** C66: statistics in floating-point arithmetic. *)
From Verif Require Import Base BaseFacts Complex KernelModel StatModel FloatSpec ReduceTree FloatSum FloatIeee PropsFloat FloatStat.
From Coq Require Import Reals Lra Lia List ZArith Arith Psatz.
From Flocq Require Import Core BinarySingleNaN.
Import ListNotations.
Local Open Scope R_scope.

(** ** Specification: the statistics of real numbers *)
Definition rsum (l : list R) : R := fold_right Rplus 0 l.
Definition rmean (l : list R) : R := rsum l / IZR (lenZ l).
Definition rmoment2 (c : R) (l : list R) : R := rmean (map (fun x => (x - c) ^ 2) l).
Definition rvariance (l : list R) : R := rmoment2 (rmean l) l.
Definition rcross (a b : R) (l m : list R) : R := rmean (map (fun p => (fst p - a) * (snd p - b)) (combine l m)).
Definition rcross_abs (a b : R) (l m : list R) : R := rmean (map (fun p => Rabs ((fst p - a) * (snd p - b))) (combine l m)).
Definition rcovariance (l m : list R) : R := rcross (rmean l) (rmean m) l m.

Section RealFacts.
Lemma rsum_cons x l : rsum (x :: l) = x + rsum l. Proof. reflexivity. Qed.
Lemma rsum_nonneg l : (forall x, In x l -> 0 <= x) -> 0 <= rsum l.
Proof. induction l as [|x l IH]; intros H; [cbn; lra|]. rewrite rsum_cons. pose proof (H x (or_introl eq_refl)). specialize (IH (fun y Hy => H y (or_intror Hy))). lra. Qed.
Lemma rsum_map_member {A} (f : A -> R) l x : (forall y, In y l -> 0 <= f y) -> In x l -> f x <= rsum (map f l).
Proof.
  induction l as [|y l IH]; intros H Hx; [destruct Hx|]. cbn [map]. rewrite rsum_cons.
  assert (0 <= rsum (map f l)). { apply rsum_nonneg. intros z Hz. apply in_map_iff in Hz as (w & <- & Hw). apply H. now right. }
  destruct Hx as [->|Hx]; [lra|]. specialize (IH (fun z Hz => H z (or_intror Hz)) Hx). pose proof (H y (or_introl eq_refl)). lra.
Qed.
(** the mean of squares around any point is the variance plus the squared distance from the mean *)
Lemma moment2_shift c l : l <> [] -> rmoment2 c l = rvariance l + (rmean l - c) ^ 2.
Proof.
  intros Hl. unfold rvariance, rmoment2. set (m := rmean l).
  assert (Hn : 0 < IZR (lenZ l)).
  { apply (IZR_lt 0). destruct l as [|x t]; [congruence|]. rewrite lenZ_cons. pose proof (lenZ_nonneg t). lia. }
  assert (E : forall c l, rsum (map (fun x => (x - c) ^ 2) l) = rsum (map (fun x => x ^ 2) l) - 2 * c * rsum l + IZR (lenZ l) * c ^ 2).
  { clear. intros c l. induction l as [|x l IH]; [cbn; ring|]. cbn [map]. rewrite !rsum_cons, IH, lenZ_cons, plus_IZR. ring. }
  unfold rmean at 1 2. rewrite !lenZ_map. rewrite !E. assert (Es : rsum l = IZR (lenZ l) * m) by (unfold m, rmean; field; lra). rewrite Es. field. lra.
Qed.
Lemma sqrt_close s S g E : 0 <= s -> 0 <= S -> 1 <= g -> 0 <= E -> Rabs (s - S) <= (g - 1) * S + E ->
  Rabs (sqrt s - sqrt S) <= (g - 1) * sqrt S + sqrt E.
Proof.
  intros Hs HS Hg HE H. apply Rabs_le_inv in H. pose proof (sqrt_pos s) as Ps. pose proof (sqrt_pos S) as PS. pose proof (sqrt_pos E) as PE.
  pose proof (sqrt_sqrt s Hs) as Qs. pose proof (sqrt_sqrt S HS) as QS. pose proof (sqrt_sqrt E HE) as QE.
  set (a := sqrt s) in *. set (b := sqrt S) in *. set (e := sqrt E) in *. clearbody a b e. subst s S E.
  assert (Pgb : 0 <= g * b) by nra.
  assert (U : a <= g * b + e).
  { apply Rnot_lt_le. intros L. assert ((g * b + e) * (g * b + e) < a * a) by (apply Rmult_le_0_lt_compat; lra).
    assert (g * (b * b) <= (g * b) * (g * b)) by (assert (0 <= b * b) by nra; nra). assert (0 <= (g * b) * e) by nra. nra. }
  assert (D : b <= a + (g - 1) * b + e).
  { destruct (Rle_dec 2 g) as [G|G]; [nra|]. apply Rnot_lt_le. intros L. assert (L' : a + e < (2 - g) * b) by lra.
    assert ((a + e) * (a + e) < ((2 - g) * b) * ((2 - g) * b)) by (apply Rmult_le_0_lt_compat; lra).
    assert (((2 - g) * b) * ((2 - g) * b) <= (2 - g) * (b * b)) by (assert (0 <= b * b) by nra; nra). nra. }
  apply Rabs_le. lra.
Qed.
Lemma cross_shift a b l m : l <> [] -> length l = length m ->
  rcross a b l m = rcovariance l m + (rmean l - a) * (rmean m - b).
Proof.
  intros Hl He. unfold rcovariance, rcross.
  assert (EL : forall X (f : _ -> X), lenZ (map f (combine l m)) = lenZ l).
  { intros. unfold lenZ. rewrite map_length, combine_length, <- He, Nat.min_id. reflexivity. }
  assert (Em : lenZ m = lenZ l) by (unfold lenZ; now rewrite He).
  assert (Hn : 0 < IZR (lenZ l)).
  { apply (IZR_lt 0). destruct l as [|x t]; [congruence|]. rewrite lenZ_cons. pose proof (lenZ_nonneg t). lia. }
  assert (E : forall a b l m, length l = length m -> rsum (map (fun p => (fst p - a) * (snd p - b)) (combine l m)) =
     rsum (map (fun p => fst p * snd p) (combine l m)) - b * rsum l - a * rsum m + IZR (lenZ l) * (a * b)).
  { clear. intros a b l. induction l as [|x l IH]; intros [|y m] He; try discriminate; [cbn; ring|].
    cbn [combine map fst snd]. rewrite !rsum_cons, (IH m) by (cbn in He; lia). rewrite lenZ_cons, plus_IZR. ring. }
  set (ml := rmean l). set (mm := rmean m).
  assert (E1 : rsum l = IZR (lenZ l) * ml) by (unfold ml, rmean; field; lra).
  assert (E2 : rsum m = IZR (lenZ l) * mm) by (unfold mm, rmean; rewrite Em; field; lra).
  unfold rmean. rewrite !EL, !(E _ _ l m He), E1, E2. field. lra.
Qed.
Lemma cauchy_pairs {A} (f g : A -> R) l :
  0 <= rsum (map (fun x => f x ^ 2) l) /\ 0 <= rsum (map (fun x => g x ^ 2) l) /\ 0 <= rsum (map (fun x => Rabs (f x * g x)) l) /\
  rsum (map (fun x => Rabs (f x * g x)) l) ^ 2 <= rsum (map (fun x => f x ^ 2) l) * rsum (map (fun x => g x ^ 2) l).
Proof.
  induction l as [|x l (I1 & I2 & I3 & I4)]; [cbn; lra|]. cbn [map]. rewrite !rsum_cons.
  set (X := rsum (map (fun x => f x ^ 2) l)) in *. set (Y := rsum (map (fun x => g x ^ 2) l)) in *. set (P := rsum (map (fun x => Rabs (f x * g x)) l)) in *.
  clearbody X Y P. rewrite Rabs_mult, <- (pow2_abs (f x)), <- (pow2_abs (g x)). pose proof (Rabs_pos (f x)). pose proof (Rabs_pos (g x)).
  set (a := Rabs (f x)) in *. set (b := Rabs (g x)) in *. clearbody a b.
  assert (Pa : 0 <= a ^ 2) by apply pow2_ge_0. assert (Pb : 0 <= b ^ 2) by apply pow2_ge_0. assert (Pab : 0 <= a * b) by (apply Rmult_le_pos; lra).
  repeat split; try lra.
  assert (K : 2 * (P * (a * b)) <= X * b ^ 2 + Y * a ^ 2).
  { apply Rsqr_incr_0; unfold Rsqr.
    - assert (T : P ^ 2 * (a ^ 2 * b ^ 2) <= (X * Y) * (a ^ 2 * b ^ 2)) by (apply Rmult_le_compat_r; [apply Rmult_le_pos; lra|exact I4]).
      pose proof (pow2_ge_0 (X * b ^ 2 - Y * a ^ 2)). lra.
    - assert (0 <= P * (a * b)) by (apply Rmult_le_pos; lra). lra.
    - assert (0 <= X * b ^ 2) by (apply Rmult_le_pos; lra). assert (0 <= Y * a ^ 2) by (apply Rmult_le_pos; lra). lra. }
  lra.
Qed.
Lemma combine_fst {A B C} (f : A -> C) (l : list A) (m : list B) : length l = length m -> map (fun p => f (fst p)) (combine l m) = map f l.
Proof. revert m. induction l as [|x l IH]; intros [|y m] He; try discriminate; [reflexivity|]. cbn [combine map fst]. f_equal. apply IH. cbn in He. lia. Qed.
Lemma combine_snd {A B C} (f : B -> C) (l : list A) (m : list B) : length l = length m -> map (fun p => f (snd p)) (combine l m) = map f m.
Proof. revert m. induction l as [|x l IH]; intros [|y m] He; try discriminate; [reflexivity|]. cbn [combine map snd]. f_equal. apply IH. cbn in He. lia. Qed.
Lemma cross_abs_bound a b l m : l <> [] -> length l = length m ->
  rcross_abs a b l m <= sqrt (rmoment2 a l * rmoment2 b m).
Proof.
  intros Hl He. assert (Em : lenZ m = lenZ l) by (unfold lenZ; now rewrite He).
  assert (Hn : 0 < IZR (lenZ l)).
  { apply (IZR_lt 0). destruct l as [|x t]; [congruence|]. rewrite lenZ_cons. pose proof (lenZ_nonneg t). lia. }
  assert (EL : forall X (f : _ -> X), lenZ (map f (combine l m)) = lenZ l).
  { intros. unfold lenZ. rewrite map_length, combine_length, <- He, Nat.min_id. reflexivity. }
  unfold rcross_abs, rmoment2, rmean. rewrite EL, !lenZ_map, Em.
  destruct (cauchy_pairs (fun p : R * R => fst p - a) (fun p => snd p - b) (combine l m)) as (I1 & I2 & I3 & I4).
  rewrite (combine_fst (fun x => (x - a) ^ 2)) in I1, I4 by exact He. rewrite (combine_snd (fun x => (x - b) ^ 2)) in I2, I4 by exact He.
  set (P := rsum (map (fun p => Rabs ((fst p - a) * (snd p - b))) (combine l m))) in *.
  set (X := rsum (map (fun x => (x - a) ^ 2) l)) in *. set (Y := rsum (map (fun x => (x - b) ^ 2) m)) in *. set (n := IZR (lenZ l)) in *.
  assert (In : 0 < / n) by (apply Rinv_0_lt_compat; lra).
  rewrite <- (sqrt_pow2 (P / n)) by (apply Rmult_le_pos; lra). apply sqrt_le_1_alt.
  replace ((P / n) ^ 2) with (P ^ 2 * (/ n * / n)) by (field; lra). replace (X / n * (Y / n)) with (X * Y * (/ n * / n)) by (field; lra).
  apply Rmult_le_compat_r; [apply Rmult_le_pos; lra|exact I4].
Qed.
End RealFacts.

Section Ieee.
Variables prec emax : Z.
Context (Hprec : Prec_gt_0 prec) (Hmax : Prec_lt_emax prec emax).
Notation float := (binary_float prec emax).
Notation u := (bpow radix2 (- prec)).
Notation eta := (bpow radix2 (3 - emax - prec)).
Notation overflow := (bpow radix2 emax).
(** the operations of the hardware *)
Notation zero := (B754_zero false : float).
Notation fadd := (Bplus mode_NE).
Notation fsub := (Bminus mode_NE).
Notation fmul := (Bmult mode_NE).
Notation fdiv := (fun a b : float => Ok (Bdiv mode_NE a b)).
Notation fsqrt := (fun a : float => Ok (Bsqrt mode_NE a)).
Notation fsize := (of_size prec emax Hprec Hmax).
Definition reals (l : list float) : list R := map B2R l.
Definition abs_mean (l : list float) : R := abs_sum prec emax l / IZR (lenZ l).
Definition sum_square (l : list float) : R := rsum (map (fun x => B2R x ^ 2) l).
Definition mean_square (l : list float) : R := sum_square l / IZR (lenZ l).

Lemma u_small : (10 <= prec)%Z -> 0 < u /\ u <= 1 / 1000.
Proof. intros H. split; [apply bpow_gt_0|]. destruct (prec_u prec H). lra. Qed.
Lemma eta_pos : 0 < eta. Proof. apply bpow_gt_0. Qed.
Lemma len_pos {A} (l : list A) : l <> [] -> (1 <= lenZ l)%Z.
Proof. destruct l as [|x t]; [congruence|]. intros _. rewrite lenZ_cons. pose proof (lenZ_nonneg t). lia. Qed.
Lemma size_pos {A} (l : list A) : l <> [] -> 1 <= IZR (lenZ l).
Proof. intros H. apply (IZR_le 1). now apply len_pos. Qed.
Lemma not_empty {A} (l : list A) : l <> [] -> negb (lenZ l =? 0)%Z = true.
Proof. intros H. pose proof (len_pos l H). destruct (Z.eqb_spec (lenZ l) 0); [lia|reflexivity]. Qed.
Lemma zero_nonneg : FloatStat.nonneg prec emax zero.
Proof. split; [reflexivity|cbn; lra]. Qed.
Lemma div_le x n : 0 <= x -> 1 <= n -> x / n <= x.
Proof. intros Hx Hn. unfold Rdiv. assert (0 < / n <= 1) by (split; [apply Rinv_0_lt_compat; lra|rewrite <- Rinv_1; apply Rinv_le_contravar; lra]). nra. Qed.
Lemma sum_scale (c : R) {A} (f : A -> R) l : sumR (map (fun x => c * f x) l) = c * sumR (map f l).
Proof. induction l as [|x l IH]; cbn [map]; [cbn; ring|]. rewrite !sumR_cons, IH. ring. Qed.
Lemma one_fits : (10 <= prec)%Z -> (1 + u) * 1 < overflow.
Proof.
  intros H. destruct (u_small H). assert (Hm : (prec < emax)%Z) by exact Hmax.
  assert (bpow radix2 4 <= overflow) by (apply bpow_le; lia). change (bpow radix2 4) with 16 in *. lra.
Qed.
Lemma sqrt_rounded (v : float) V g E : (10 <= prec)%Z -> FloatStat.nonneg prec emax v -> 0 <= V -> 1 <= g -> 0 <= E ->
  Rabs (B2R v - V) <= (g - 1) * V + E ->
  is_finite (Bsqrt mode_NE v) = true /\
  Rabs (B2R (Bsqrt mode_NE v) - sqrt V) <= (g * (1 + u) - 1) * sqrt V + (1 + u) * sqrt E + eta / 2.
Proof.
  intros Hp [Fv Pv] HV Hg HE H. destruct (fsqrt_err prec emax Hprec Hmax v Fv Pv) as (F & _ & Er). split; [exact F|].
  pose proof (sqrt_close _ _ g E Pv HV Hg HE H) as C. change (ur prec) with u in Er. change (tiny prec emax) with eta in Er.
  destruct (u_small Hp) as [U0 _]. apply Rabs_le_inv in C. apply Rabs_le_inv in Er. pose proof (sqrt_pos V). pose proof (sqrt_pos E). pose proof (sqrt_pos (B2R v)).
  apply Rabs_le. set (a := sqrt (B2R v)) in *. set (b := sqrt V) in *. set (e := sqrt E) in *. set (r := B2R (Bsqrt mode_NE v)) in *. set (k := eta / 2) in *. set (w := u) in *. clearbody a b e r k w. clear - C Er U0 H0 H1 H2 Hg.
  assert (w * a <= w * (g * b + e)) by (apply Rmult_le_compat_l; lra). lra.
Qed.

(** ** Sum and mean *)
Theorem C66_mean_error : forall batch tail W vec (l : list float),
  (10 <= prec)%Z -> some_order fadd batch -> some_order fadd tail -> (1 <= W)%Z -> l <> [] -> all_finite prec emax l ->
  let D := depth_bound W vec (lenZ l) in
  (1 + u) * IZR (lenZ l) < overflow -> (1 + u) ^ (D + 3) * abs_sum prec emax l + eta < overflow ->
  exists m, gMean zero fadd fdiv fsize batch tail W vec l = Ok m /\ is_finite m = true /\
            Rabs (B2R m - rmean (reals l)) <= ((1 + u) ^ (D + 3) - 1) * abs_mean l + eta / 2.
Proof.
  intros batch tail W vec l Hp Hb Ht HW Hl Hf D Hn HM. destruct (u_small Hp) as [U0 U1]. pose proof eta_pos as T0.
  unfold gMean, gSum. rewrite not_empty by exact Hl.
  assert (PA : 0 <= abs_sum prec emax l) by apply (vabs_nonneg B2R).
  pose proof (pow_1u prec D) as P1. change (ur prec) with u in P1. pose proof (size_pos l Hl) as N1.
  assert (P13 : 1 <= (1 + u) ^ 3) by apply (pow_1u prec 3). rewrite pow_add in HM |- *.
  assert (Ez : abs_sum prec emax (zero :: l) = abs_sum prec emax l) by (unfold abs_sum; cbn; rewrite Rabs_R0; ring).
  assert (Es : exact_sum prec emax (zero :: l) = exact_sum prec emax l) by (unfold exact_sum; cbn; ring).
  set (g := (1 + u) ^ D) in *. set (A := abs_sum prec emax l) in *. set (k := (1 + u) ^ 3) in *.
  assert (HA : g * A <= g * k * A) by (assert (0 <= g * A) by nra; nra).
  destruct (C62_sum_error prec emax Hprec Hmax (Plain fadd) batch tail W vec l zero (or_introl eq_refl) Hb Ht HW) as (s & E & Fs & Err).
  - intros x [<- | Hx]; [reflexivity|now apply Hf].
  - fold D g. rewrite Ez. lra.
  - fold D g in Err. rewrite Ez, Es in Err. rewrite E. cbn [bind].
    assert (GA : 0 <= g * A) by nra.
    assert (KG : 0 <= k * (g * A)) by nra.
    destruct (div_size prec emax Hprec Hmax false s (exact_sum prec emax l) A g 0 (lenZ l)) as (Fq & Eq).
    + exact U1.
    + now apply len_pos.
    + exact Hn.
    + exact Fs.
    + lra.
    + exact PA.
    + lra.
    + apply (vsum_le_vabs B2R).
    + rewrite Rplus_0_r. exact Err.
    + change (ur prec) with u. fold k. change (tiny prec emax) with eta. change (huge emax) with overflow.
      rewrite Rplus_0_r. pose proof (div_le (g * A) (IZR (lenZ l)) GA N1).
      assert (k * (g * A / IZR (lenZ l)) <= k * (g * A)) by (apply Rmult_le_compat_l; lra). lra.
    + exists (Bdiv mode_NE s (fsize (lenZ l))). split; [reflexivity|]. split; [exact Fq|].
      change (ur prec) with u in Eq. change (tiny prec emax) with eta in Eq. fold k in Eq.
      unfold rmean, reals. rewrite lenZ_map. change (rsum (map B2R l)) with (exact_sum prec emax l).
      unfold abs_mean. fold A. eapply Rle_trans; [exact Eq|]. right. unfold Rdiv. ring.
Qed.

(** ** Sums of squares *)
Lemma square_sum_general batch tail W vec (f : float -> float) (t : float -> R) c (l : list float) :
  (10 <= prec)%Z -> some_order fadd batch -> some_order fadd tail -> (1 <= W)%Z -> 1 <= c ->
  (forall x, In x l -> FloatStat.nonneg prec emax (f x) /\ Rabs (B2R (f x) - t x) <= (c - 1) * t x + eta / 2 /\ 0 <= t x) ->
  let D := depth_bound W vec (lenZ l) in
  (1 + u) ^ D * (c * rsum (map t l) + IZR (lenZ l) * (eta / 2)) < overflow ->
  exists v, TransformReduceWith batch tail W vec (Plain fadd) f l zero = Ok v /\ FloatStat.nonneg prec emax v /\
            Rabs (B2R v - rsum (map t l)) <= ((1 + u) ^ D * c - 1) * rsum (map t l) + (1 + u) ^ D * (IZR (lenZ l) * (eta / 2)).
Proof.
  intros Hp Hb Ht HW Hc Hl D HM. pose proof eta_pos as T0.
  destruct (C62_transform_reduce_combines_each_once float float fadd (Plain fadd) batch tail W vec f l zero (or_introl eq_refl) Hb Ht HW) as (v & E & C).
  exists v. split; [exact E|]. fold D in C.
  apply (terms_sum prec emax Hprec Hmax (FloatStat.nonneg prec emax) float f t t c (eta / 2) l D v zero).
  - intros x y Hx Hy. now apply fadd_nonneg.
  - exact Hc.
  - lra.
  - exact zero_nonneg.
  - reflexivity.
  - intros x Hx. destruct (Hl x Hx) as (H1 & H2 & H3). split; [exact H1|]. split; [exact H2|]. rewrite Rabs_pos_eq by exact H3. lra.
  - exact C.
  - exact HM.
Qed.
Lemma square_term x l : (10 <= prec)%Z -> all_finite prec emax l -> In x l -> (1 + u) * sum_square l + eta / 2 < overflow ->
  FloatStat.nonneg prec emax (fmul x x) /\ Rabs (B2R (fmul x x) - B2R x ^ 2) <= (1 + u - 1) * B2R x ^ 2 + eta / 2 /\ 0 <= B2R x ^ 2.
Proof.
  intros Hp Hf Hx HM. destruct (u_small Hp) as [U0 U1]. pose proof (pow2_ge_0 (B2R x)) as P2.
  assert (L : B2R x ^ 2 <= sum_square l) by (apply (rsum_map_member (fun y : float => B2R y ^ 2)); [intros; apply pow2_ge_0|exact Hx]).
  assert (R : (1 + ur prec) * Rabs (B2R x * B2R x) + tiny prec emax / 2 < huge emax).
  { change (ur prec) with u. change (tiny prec emax) with eta. change (huge emax) with overflow.
    replace (B2R x * B2R x) with (B2R x ^ 2) by ring. rewrite Rabs_pos_eq by exact P2.
    assert ((1 + u) * B2R x ^ 2 <= (1 + u) * sum_square l) by (apply Rmult_le_compat_l; lra). lra. }
  destruct (fmul_err prec emax Hprec Hmax x x (Hf x Hx) (Hf x Hx) R) as [F E]. split; [split|split].
  - exact F.
  - apply fmul_square_nonneg; [apply Hf; exact Hx|exact R].
  - change (ur prec) with u in E. change (tiny prec emax) with eta in E. unfold FloatIeee.fmul in E.
    replace (B2R x * B2R x) with (B2R x ^ 2) in E by ring. rewrite (Rabs_pos_eq (B2R x ^ 2)) in E by exact P2. lra.
  - exact P2.
Qed.
Lemma sum_square_nonneg l : 0 <= sum_square l.
Proof. apply rsum_nonneg. intros y Hy. apply in_map_iff in Hy as (z & <- & _). apply pow2_ge_0. Qed.

Theorem C66_sum_square_error : forall batch tail W vec (l : list float),
  (10 <= prec)%Z -> some_order fadd batch -> some_order fadd tail -> (1 <= W)%Z -> all_finite prec emax l ->
  let D := depth_bound W vec (lenZ l) in
  (1 + u) ^ (D + 1) * (sum_square l + IZR (lenZ l) * eta) + eta < overflow ->
  exists v, gSumSquare zero fadd fmul batch tail W vec l = Ok v /\ is_finite v = true /\ 0 <= B2R v /\
            Rabs (B2R v - sum_square l) <= ((1 + u) ^ (D + 1) - 1) * sum_square l + (1 + u) ^ D * (IZR (lenZ l) * (eta / 2)).
Proof.
  intros batch tail W vec l Hp Hb Ht HW Hf D HM. destruct (u_small Hp) as [U0 U1]. pose proof eta_pos as T0.
  pose proof (pow_1u prec D) as P1. change (ur prec) with u in P1. pose proof (sum_square_nonneg l) as PS.
  assert (PN : 0 <= IZR (lenZ l)) by (apply (IZR_le 0), lenZ_nonneg).
  rewrite pow_add, pow_1 in HM |- *. set (g := (1 + u) ^ D) in *. set (S := sum_square l) in *.
  assert (PNe : 0 <= IZR (lenZ l) * eta) by (apply Rmult_le_pos; lra).
  assert (B1 : (1 + u) * S <= g * ((1 + u) * S)) by (assert (0 <= (1 + u) * S) by (apply Rmult_le_pos; lra); nra).
  assert (B2 : 0 <= g * ((1 + u) * (IZR (lenZ l) * eta))) by (apply Rmult_le_pos; [lra|]; apply Rmult_le_pos; lra).
  assert (B3 : g * (IZR (lenZ l) * eta) <= g * ((1 + u) * (IZR (lenZ l) * eta))) by (apply Rmult_le_compat_l; [lra|]; nra).
  assert (B4 : 0 <= g * (IZR (lenZ l) * eta)) by (apply Rmult_le_pos; lra).
  destruct (square_sum_general batch tail W vec (fun a => fmul a a) (fun x => B2R x ^ 2) (1 + u) l Hp Hb Ht HW) as (v & E & Nv & Err).
  - lra.
  - intros x Hx. apply (square_term x l Hp Hf Hx). fold S. lra.
  - fold D g. change (rsum (map (fun x : float => B2R x ^ 2) l)) with S. lra.
  - exists v. split; [exact E|]. split; [apply Nv|]. split; [apply Nv|]. fold D g in Err. exact Err.
Qed.

Theorem C66_mean_square_error : forall batch tail W vec (l : list float),
  (10 <= prec)%Z -> some_order fadd batch -> some_order fadd tail -> (1 <= W)%Z -> l <> [] -> all_finite prec emax l ->
  let D := depth_bound W vec (lenZ l) in
  (1 + u) * IZR (lenZ l) < overflow -> (1 + u) ^ (D + 4) * (sum_square l + IZR (lenZ l) * eta) + eta < overflow ->
  exists v, gMeanSquare zero fadd fmul fdiv fsize batch tail W vec l = Ok v /\ is_finite v = true /\ 0 <= B2R v /\
            Rabs (B2R v - mean_square l) <= ((1 + u) ^ (D + 4) - 1) * mean_square l + ((1 + u) ^ (D + 3) + 1) * (eta / 2).
Proof.
  intros batch tail W vec l Hp Hb Ht HW Hl Hf D Hn HM. destruct (u_small Hp) as [U0 U1]. pose proof eta_pos as T0.
  pose proof (sum_square_nonneg l) as PS. pose proof (size_pos l Hl) as N1.
  assert (PNe : 0 <= IZR (lenZ l) * eta) by (apply Rmult_le_pos; lra).
  assert (G : (1 + u) ^ (D + 1) <= (1 + u) ^ (D + 4)) by (apply Rle_pow; [lra|lia]).
  destruct (C66_sum_square_error batch tail W vec l Hp Hb Ht HW Hf) as (s & E & Fs & Ps & Err).
  - fold D. eapply Rle_lt_trans; [|exact HM]. apply Rplus_le_compat_r, Rmult_le_compat_r; lra.
  - fold D in Err. unfold gMeanSquare. rewrite not_empty by exact Hl. rewrite E. cbn [bind].
    pose proof (pow_1u prec D) as P1. change (ur prec) with u in P1.
    pose proof (pow_1u prec (D + 1)) as P2. change (ur prec) with u in P2.
    assert (Pe : 0 <= (1 + u) ^ D * (IZR (lenZ l) * (eta / 2))) by (apply Rmult_le_pos; [lra|]; apply Rmult_le_pos; lra).
    destruct (div_size prec emax Hprec Hmax true s (sum_square l) (sum_square l) ((1 + u) ^ (D + 1)) ((1 + u) ^ D * (IZR (lenZ l) * (eta / 2))) (lenZ l)) as (Fq & Eq).
    + exact U1.
    + now apply len_pos.
    + exact Hn.
    + split; assumption.
    + exact P2.
    + exact PS.
    + exact Pe.
    + rewrite Rabs_pos_eq by exact PS. lra.
    + exact Err.
    + change (ur prec) with u. change (tiny prec emax) with eta. change (huge emax) with overflow.
      eapply Rle_lt_trans; [|exact HM]. apply Rplus_le_compat; [|lra].
      replace (D + 4)%nat with (3 + (D + 1))%nat by lia. rewrite (pow_add (1 + u) 3).
      rewrite Rmult_assoc. apply Rmult_le_compat_l; [apply pow_le; lra|]. 
      eapply Rle_trans; [apply div_le; [|exact N1]|].
      { apply Rplus_le_le_0_compat; [apply Rmult_le_pos; lra|exact Pe]. }
      rewrite Rmult_plus_distr_l. apply Rplus_le_compat_l.
      assert ((1 + u) ^ D <= (1 + u) ^ (D + 1)) by (apply Rle_pow; [lra|lia]). apply Rmult_le_compat; try lra.
    + exists (Bdiv mode_NE s (fsize (lenZ l))). split; [reflexivity|]. split; [apply Fq|]. split; [apply Fq|].
      change (ur prec) with u in Eq. change (tiny prec emax) with eta in Eq. eapply Rle_trans; [exact Eq|]. right.
      unfold mean_square. rewrite !pow_add. field. lra.
Qed.

Theorem C66_norm_error : forall batch tail W vec (l : list float),
  (10 <= prec)%Z -> some_order fadd batch -> some_order fadd tail -> (1 <= W)%Z -> all_finite prec emax l ->
  let D := depth_bound W vec (lenZ l) in
  (1 + u) ^ (D + 1) * (sum_square l + IZR (lenZ l) * eta) + eta < overflow ->
  exists v, gNorm zero fadd fmul fsqrt batch tail W vec l = Ok v /\ is_finite v = true /\
            Rabs (B2R v - sqrt (sum_square l)) <=
              ((1 + u) ^ (D + 2) - 1) * sqrt (sum_square l) + (1 + u) * sqrt ((1 + u) ^ D * (IZR (lenZ l) * (eta / 2))) + eta / 2.
Proof.
  intros batch tail W vec l Hp Hb Ht HW Hf D HM. destruct (u_small Hp) as [U0 U1]. pose proof eta_pos as T0.
  assert (PN : 0 <= IZR (lenZ l)) by (apply (IZR_le 0), lenZ_nonneg).
  destruct (C66_sum_square_error batch tail W vec l Hp Hb Ht HW Hf HM) as (s & E & Fs & Ps & Err).
  fold D in Err. unfold gNorm. rewrite E. cbn [bind].
  pose proof (pow_1u prec D) as P1. change (ur prec) with u in P1.
  pose proof (pow_1u prec (D + 1)) as P2. change (ur prec) with u in P2.
  destruct (sqrt_rounded s (sum_square l) ((1 + u) ^ (D + 1)) ((1 + u) ^ D * (IZR (lenZ l) * (eta / 2))) Hp) as [F Er].
  - split; assumption.
  - apply sum_square_nonneg.
  - exact P2.
  - apply Rmult_le_pos; [lra|]. apply Rmult_le_pos; lra.
  - exact Err.
  - exists (Bsqrt mode_NE s). split; [reflexivity|]. split; [exact F|].
    replace (D + 2)%nat with (S (D + 1)) by lia. rewrite <- tech_pow_Rmult, (Rmult_comm (1 + u) ((1 + u) ^ (D + 1))). exact Er.
Qed.

Theorem C66_root_mean_square_error : forall batch tail W vec (l : list float),
  (10 <= prec)%Z -> some_order fadd batch -> some_order fadd tail -> (1 <= W)%Z -> l <> [] -> all_finite prec emax l ->
  let D := depth_bound W vec (lenZ l) in
  (1 + u) * IZR (lenZ l) < overflow -> (1 + u) ^ (D + 4) * (sum_square l + IZR (lenZ l) * eta) + eta < overflow ->
  exists v, gRootMeanSquare zero fadd fmul fdiv fsqrt fsize batch tail W vec l = Ok v /\ is_finite v = true /\
            Rabs (B2R v - sqrt (mean_square l)) <=
              ((1 + u) ^ (D + 5) - 1) * sqrt (mean_square l) + (1 + u) * sqrt (((1 + u) ^ (D + 3) + 1) * (eta / 2)) + eta / 2.
Proof.
  intros batch tail W vec l Hp Hb Ht HW Hl Hf D Hn HM. destruct (u_small Hp) as [U0 U1]. pose proof eta_pos as T0.
  pose proof (size_pos l Hl) as N1.
  destruct (C66_mean_square_error batch tail W vec l Hp Hb Ht HW Hl Hf Hn HM) as (s & E & Fs & Ps & Err).
  fold D in Err. unfold gRootMeanSquare. rewrite E. cbn [bind].
  pose proof (pow_1u prec (D + 3)) as P1. change (ur prec) with u in P1.
  pose proof (pow_1u prec (D + 4)) as P2. change (ur prec) with u in P2.
  destruct (sqrt_rounded s (mean_square l) ((1 + u) ^ (D + 4)) (((1 + u) ^ (D + 3) + 1) * (eta / 2)) Hp) as [F Er].
  - split; assumption.
  - unfold mean_square, Rdiv. apply Rmult_le_pos; [apply sum_square_nonneg|]. left. apply Rinv_0_lt_compat. lra.
  - exact P2.
  - apply Rmult_le_pos; lra.
  - exact Err.
  - exists (Bsqrt mode_NE s). split; [reflexivity|]. split; [exact F|].
    replace (D + 5)%nat with (S (D + 4)) by lia. rewrite <- tech_pow_Rmult, (Rmult_comm (1 + u) ((1 + u) ^ (D + 4))). exact Er.
Qed.

(** ** Second central moment about a given value *)
Lemma abs_le_square x : Rabs x <= 1 + x ^ 2.
Proof. pose proof (pow2_abs x) as E. rewrite <- E. pose proof (pow2_ge_0 (Rabs x - 1)). nra. Qed.
Lemma square_pert w d x : 0 <= w <= 1 / 1000 -> Rabs (d - x) <= w * Rabs x -> Rabs (d ^ 2 - x ^ 2) <= ((1 + w) ^ 2 - 1) * x ^ 2.
Proof.
  intros Hw H. replace (d ^ 2 - x ^ 2) with ((d - x) ^ 2 + 2 * x * (d - x)) by ring.
  eapply Rle_trans; [apply Rabs_triang|]. rewrite !Rabs_mult, (Rabs_pos_eq 2), (Rabs_pos_eq ((d - x) ^ 2)) by (try lra; apply pow2_ge_0).
  rewrite <- (pow2_abs (d - x)), <- (pow2_abs x). pose proof (Rabs_pos (d - x)). pose proof (Rabs_pos x).
  set (p := Rabs (d - x)) in *. set (q := Rabs x) in *. clearbody p q.
  assert (p ^ 2 <= (w * q) ^ 2) by (apply pow_incr; lra). assert (q * p <= q * (w * q)) by (apply Rmult_le_compat_l; lra). nra.
Qed.
Lemma moment_term (c x : float) S : (10 <= prec)%Z -> is_finite c = true -> is_finite x = true -> (B2R x - B2R c) ^ 2 <= S ->
  (1 + u) ^ 3 * S + eta < overflow ->
  FloatStat.nonneg prec emax (fmul (fsub x c) (fsub x c)) /\
  Rabs (B2R (fmul (fsub x c) (fsub x c)) - (B2R x - B2R c) ^ 2) <= ((1 + u) ^ 3 - 1) * (B2R x - B2R c) ^ 2 + eta / 2.
Proof.
  intros Hp Fc Fx HS HM. destruct (u_small Hp) as [U0 U1]. pose proof eta_pos as T0.
  set (y := B2R x - B2R c) in *. pose proof (pow2_ge_0 y) as Y0.
  assert (R : (1 + ur prec) * Rabs (B2R x - B2R c) < huge emax).
  { change (ur prec) with u. change (huge emax) with overflow. fold y.
    destruct (Rle_dec (Rabs y) 1) as [L|L].
    - eapply Rle_lt_trans; [|apply (one_fits Hp)]. apply Rmult_le_compat_l; lra.
    - assert (Rabs y <= y ^ 2) by (rewrite <- (pow2_abs y); nra).
      assert ((1 + u) * Rabs y <= (1 + u) * S) by (apply Rmult_le_compat_l; lra).
      assert ((1 + u) * S <= (1 + u) ^ 3 * S) by (apply Rmult_le_compat_r; [lra|]; clear - U0; nra). lra. }
  destruct (fsub_err prec emax Hprec Hmax x c Fx Fc R) as [Fd Ed]. change (FloatIeee.fsub prec emax Hprec Hmax x c) with (fsub x c) in Fd, Ed.
  change (ur prec) with u in Ed. fold y in Ed. set (dd := fsub x c) in *. set (d := B2R dd) in *.
  pose proof (square_pert u d y (conj (Rlt_le _ _ U0) U1) Ed) as Sq. pose proof (pow2_ge_0 d) as D0.
  assert (Bd : d ^ 2 <= (1 + u) ^ 2 * y ^ 2) by (apply Rabs_le_inv in Sq; lra).
  assert (Bs : (1 + u) * d ^ 2 <= (1 + u) ^ 3 * S).
  { replace ((1 + u) ^ 3 * S) with ((1 + u) * ((1 + u) ^ 2 * S)) by ring. apply Rmult_le_compat_l; [lra|].
    eapply Rle_trans; [exact Bd|]. apply Rmult_le_compat_l; [apply pow2_ge_0|exact HS]. }
  assert (R2 : (1 + ur prec) * Rabs (B2R dd * B2R dd) + tiny prec emax / 2 < huge emax).
  { change (ur prec) with u. change (tiny prec emax) with eta. change (huge emax) with overflow. fold d.
    replace (d * d) with (d ^ 2) by ring. rewrite Rabs_pos_eq by exact D0. lra. }
  destruct (fmul_err prec emax Hprec Hmax dd dd Fd Fd R2) as [F E]. split; [split|].
  - exact F.
  - apply fmul_square_nonneg; [exact Fd|exact R2].
  - change (ur prec) with u in E. change (tiny prec emax) with eta in E. unfold FloatIeee.fmul in E. fold d in E.
    replace (d * d) with (d ^ 2) in E by ring. rewrite (Rabs_pos_eq (d ^ 2)) in E by exact D0.
    replace (B2R (fmul dd dd) - y ^ 2) with ((B2R (fmul dd dd) - d ^ 2) + (d ^ 2 - y ^ 2)) by ring.
    eapply Rle_trans; [apply Rabs_triang|]. assert (u * d ^ 2 <= u * ((1 + u) ^ 2 * y ^ 2)) by (apply Rmult_le_compat_l; lra).
    eapply Rle_trans; [apply Rplus_le_compat; [exact E|exact Sq]|]. clear - H. lra.
Qed.

Theorem C66_second_moment_error : forall absPow batch tail W vec (l : list float) (c : float),
  (10 <= prec)%Z -> some_order fadd batch -> some_order fadd tail -> (1 <= W)%Z -> l <> [] -> all_finite prec emax (c :: l) ->
  let D := depth_bound W vec (lenZ l) in
  let n := IZR (lenZ l) in let M := rmoment2 (B2R c) (reals l) in
  (1 + u) * n < overflow -> (1 + u) ^ (D + 6) * (n * (M + eta)) + eta < overflow ->
  exists v, gCentralMoment_mean zero fadd fsub fmul fdiv fsize batch tail W vec absPow l 2 c = Ok v /\
            is_finite v = true /\ 0 <= B2R v /\
            Rabs (B2R v - M) <= ((1 + u) ^ (D + 6) - 1) * M + ((1 + u) ^ (D + 3) + 1) * (eta / 2).
Proof.
  intros absPow batch tail W vec l c Hp Hb Ht HW Hl Hf D n M Hn HM. destruct (u_small Hp) as [U0 U1]. pose proof eta_pos as T0.
  pose proof (size_pos l Hl) as N1. fold n in N1.
  set (t := fun x : float => (B2R x - B2R c) ^ 2). set (S := rsum (map t l)).
  assert (PS : 0 <= S) by (apply rsum_nonneg; intros y Hy; apply in_map_iff in Hy as (z & <- & _); apply pow2_ge_0).
  assert (EM : M = S / n). { unfold M, rmoment2, rmean, reals, S. rewrite !lenZ_map, map_map. reflexivity. }
  assert (ES : n * M = S) by (rewrite EM; field; lra).
  rewrite Rmult_plus_distr_l, ES in HM. assert (Pn : 0 <= n * eta) by (apply Rmult_le_pos; lra).
  pose proof (pow_1u prec D) as P1. change (ur prec) with u in P1.
  pose proof (pow_1u prec 3) as P3. change (ur prec) with u in P3.
  set (g := (1 + u) ^ D) in *. set (k := (1 + u) ^ 3) in *.
  assert (E6 : (1 + u) ^ (D + 6) = k * (g * k)) by (unfold g, k; rewrite <- !pow_add; f_equal; lia).
  assert (E3 : (1 + u) ^ (D + 3) = g * k) by (unfold g, k; now rewrite <- pow_add).
  rewrite E6 in HM |- *. rewrite E3.
  assert (GK : 1 <= g * k) by (clear - P1 P3; nra).
  assert (GKS : 0 <= g * k * (S + n * eta)) by (apply Rmult_le_pos; lra).
  assert (KGK : g * k * (S + n * eta) <= k * (g * k) * (S + n * eta)) by (clear - GKS P3; nra).
  assert (Sk : S <= g * S) by (clear - PS P1; nra).
  assert (KS : k * S <= g * k * (S + n * eta)).
  { assert (k * S <= k * (g * S)) by (apply Rmult_le_compat_l; lra). assert (0 <= g * k * (n * eta)) by (apply Rmult_le_pos; lra). lra. }
  assert (Pe : 0 <= g * (n * (eta / 2))) by (apply Rmult_le_pos; [lra|]; apply Rmult_le_pos; lra).
  assert (Hge : g * (n * (eta / 2)) <= g * k * (n * eta)).
  { rewrite Rmult_assoc. apply Rmult_le_compat_l; [lra|]. assert (n * eta <= k * (n * eta)) by (clear - Pn P3; nra). lra. }
  destruct (square_sum_general batch tail W vec (fun a => fmul (fsub a c) (fsub a c)) t k l Hp Hb Ht HW P3) as (s & E & Ns & Err).
  - intros x Hx. destruct (moment_term c x S Hp) as [H1 H2].
    + apply Hf. now left.
    + apply Hf. now right.
    + apply (rsum_map_member t); [intros; apply pow2_ge_0|exact Hx].
    + fold k. lra.
    + split; [exact H1|]. split; [exact H2|apply pow2_ge_0].
  - fold D g S n. lra.
  - fold D g S n in Err. unfold gCentralMoment_mean. cbv zeta. rewrite E. cbn [bind].
    destruct (div_size prec emax Hprec Hmax true s S S (g * k) (g * (n * (eta / 2))) (lenZ l)) as (Fq & Eq).
    + exact U1.
    + now apply len_pos.
    + exact Hn.
    + exact Ns.
    + exact GK.
    + exact PS.
    + exact Pe.
    + rewrite Rabs_pos_eq by exact PS. lra.
    + exact Err.
    + change (ur prec) with u. change (tiny prec emax) with eta. change (huge emax) with overflow. fold k n.
      eapply Rle_lt_trans; [|exact HM]. apply Rplus_le_compat; [|lra]. rewrite (Rmult_assoc k (g * k)). apply Rmult_le_compat_l; [lra|].
      eapply Rle_trans; [apply div_le; [|exact N1]|lra]. apply Rplus_le_le_0_compat; [apply Rmult_le_pos; lra|exact Pe].
    + exists (Bdiv mode_NE s (fsize (lenZ l))). split; [reflexivity|]. split; [apply Fq|]. split; [apply Fq|].
      change (ur prec) with u in Eq. change (tiny prec emax) with eta in Eq. fold k n in Eq. rewrite EM.
      eapply Rle_trans; [exact Eq|]. right. field. lra.
Qed.

(** ** Variance and standard deviation: the mean is rounded too *)
Theorem C66_variance_error : forall absPow batch tail W vec (l : list float),
  (10 <= prec)%Z -> some_order fadd batch -> some_order fadd tail -> (1 <= W)%Z -> l <> [] -> all_finite prec emax l ->
  let D := depth_bound W vec (lenZ l) in
  let n := IZR (lenZ l) in let V := rvariance (reals l) in
  let e := ((1 + u) ^ (D + 3) - 1) * abs_mean l + eta / 2 in
  (1 + u) * n < overflow -> (1 + u) ^ (D + 3) * abs_sum prec emax l + eta < overflow ->
  (1 + u) ^ (D + 6) * (n * (V + e ^ 2 + eta)) + eta < overflow ->
  exists v, gCentralMoment zero fadd fsub fmul fdiv fsize batch tail W vec absPow l 2 = Ok v /\
            is_finite v = true /\ 0 <= B2R v /\
            Rabs (B2R v - V) <= ((1 + u) ^ (D + 6) - 1) * V + (1 + u) ^ (D + 6) * e ^ 2 + ((1 + u) ^ (D + 3) + 1) * (eta / 2).
Proof.
  intros absPow batch tail W vec l Hp Hb Ht HW Hl Hf D n V e Hn HM1 HM. destruct (u_small Hp) as [U0 U1]. pose proof eta_pos as T0.
  destruct (C66_mean_error batch tail W vec l Hp Hb Ht HW Hl Hf Hn HM1) as (m & Em & Fm & Err). fold D e in Err.
  unfold gCentralMoment. rewrite Em. cbn [bind]. pose proof (size_pos l Hl) as N1. fold n in N1.
  assert (Hr : reals l <> []) by (destruct l; [congruence|discriminate]).
  pose proof (moment2_shift (B2R m) (reals l) Hr) as Sh. fold V in Sh.
  assert (Q : (rmean (reals l) - B2R m) ^ 2 <= e ^ 2).
  { rewrite <- (pow2_abs (rmean (reals l) - B2R m)), <- (pow2_abs e). apply pow_incr. split; [apply Rabs_pos|].
    rewrite Rabs_minus_sym. eapply Rle_trans; [exact Err|apply Rle_abs]. }
  pose proof (pow2_ge_0 (rmean (reals l) - B2R m)) as Q0.
  set (q := (rmean (reals l) - B2R m) ^ 2) in *.
  pose proof (pow_1u prec (D + 6)) as P6. change (ur prec) with u in P6.
  destruct (C66_second_moment_error absPow batch tail W vec l m Hp Hb Ht HW Hl) as (v & Ev & Fv & Pv & Er).
  - intros x [<- | Hx]; [exact Fm|now apply Hf].
  - exact Hn.
  - fold D n. eapply Rle_lt_trans; [|exact HM]. apply Rplus_le_compat_r. apply Rmult_le_compat_l; [lra|]. apply Rmult_le_compat_l; lra.
  - fold D in Er. exists v. split; [exact Ev|]. split; [exact Fv|]. split; [exact Pv|]. rewrite Sh in Er.
    replace (B2R v - V) with ((B2R v - (V + q)) + q) by ring. eapply Rle_trans; [apply Rabs_triang|].
    rewrite (Rabs_pos_eq q) by exact Q0. set (g := (1 + u) ^ (D + 6)) in *. set (h := ((1 + u) ^ (D + 3) + 1) * (eta / 2)) in *.
    clearbody g h q. assert (g * q <= g * e ^ 2) by (apply Rmult_le_compat_l; lra). lra.
Qed.

Theorem C66_standard_deviation_error : forall absPow batch tail W vec (l : list float),
  (10 <= prec)%Z -> some_order fadd batch -> some_order fadd tail -> (1 <= W)%Z -> l <> [] -> all_finite prec emax l ->
  let D := depth_bound W vec (lenZ l) in
  let n := IZR (lenZ l) in let V := rvariance (reals l) in
  let e := ((1 + u) ^ (D + 3) - 1) * abs_mean l + eta / 2 in
  (1 + u) * n < overflow -> (1 + u) ^ (D + 3) * abs_sum prec emax l + eta < overflow ->
  (1 + u) ^ (D + 6) * (n * (V + e ^ 2 + eta)) + eta < overflow ->
  exists v, (do m <- gCentralMoment zero fadd fsub fmul fdiv fsize batch tail W vec absPow l 2; fsqrt m) = Ok v /\
            is_finite v = true /\
            Rabs (B2R v - sqrt V) <= ((1 + u) ^ (D + 7) - 1) * sqrt V
              + (1 + u) * sqrt ((1 + u) ^ (D + 6) * e ^ 2 + ((1 + u) ^ (D + 3) + 1) * (eta / 2)) + eta / 2.
Proof.
  intros absPow batch tail W vec l Hp Hb Ht HW Hl Hf D n V e Hn HM1 HM. destruct (u_small Hp) as [U0 U1]. pose proof eta_pos as T0.
  destruct (C66_variance_error absPow batch tail W vec l Hp Hb Ht HW Hl Hf Hn HM1 HM) as (s & E & Fs & Ps & Err).
  fold D e V in Err. rewrite E. cbn [bind]. pose proof (size_pos l Hl) as N1.
  pose proof (pow_1u prec (D + 3)) as P3. change (ur prec) with u in P3.
  pose proof (pow_1u prec (D + 6)) as P6. change (ur prec) with u in P6.
  destruct (sqrt_rounded s V ((1 + u) ^ (D + 6)) ((1 + u) ^ (D + 6) * e ^ 2 + ((1 + u) ^ (D + 3) + 1) * (eta / 2)) Hp) as [F Er].
  - split; assumption.
  - unfold V, rvariance, rmoment2, rmean at 1, Rdiv. apply Rmult_le_pos.
    + apply rsum_nonneg. intros y Hy. apply in_map_iff in Hy as (z & <- & _). apply pow2_ge_0.
    + left. apply Rinv_0_lt_compat. rewrite lenZ_map. unfold reals. rewrite lenZ_map. lra.
  - exact P6.
  - apply Rplus_le_le_0_compat; [apply Rmult_le_pos; [lra|apply pow2_ge_0]|apply Rmult_le_pos; lra].
  - rewrite <- Rplus_assoc. exact Err.
  - exists (Bsqrt mode_NE s). split; [reflexivity|]. split; [exact F|].
    replace (D + 7)%nat with (S (D + 6)) by lia. rewrite <- tech_pow_Rmult, (Rmult_comm (1 + u) ((1 + u) ^ (D + 6))). exact Er.
Qed.

(** ** Covariance *)
Lemma product_pert w d1 d2 x1 x2 : 0 <= w -> Rabs (d1 - x1) <= w * Rabs x1 -> Rabs (d2 - x2) <= w * Rabs x2 ->
  Rabs (d1 * d2 - x1 * x2) <= ((1 + w) ^ 2 - 1) * Rabs (x1 * x2).
Proof.
  intros Hw H1 H2. replace (d1 * d2 - x1 * x2) with ((d1 - x1) * (d2 - x2) + ((d1 - x1) * x2 + x1 * (d2 - x2))) by ring.
  eapply Rle_trans; [apply Rabs_triang|]. eapply Rle_trans; [apply Rplus_le_compat_l, Rabs_triang|]. rewrite !Rabs_mult.
  pose proof (Rabs_pos (d1 - x1)). pose proof (Rabs_pos (d2 - x2)). pose proof (Rabs_pos x1). pose proof (Rabs_pos x2).
  assert (Rabs (d1 - x1) * Rabs (d2 - x2) <= (w * Rabs x1) * (w * Rabs x2)) by (apply Rmult_le_compat; lra).
  assert (Rabs (d1 - x1) * Rabs x2 <= (w * Rabs x1) * Rabs x2) by (apply Rmult_le_compat_r; lra).
  assert (Rabs x1 * Rabs (d2 - x2) <= Rabs x1 * (w * Rabs x2)) by (apply Rmult_le_compat_l; lra). lra.
Qed.
Lemma cross_term (ca x cb y : float) S : (10 <= prec)%Z -> is_finite ca = true -> is_finite x = true -> is_finite cb = true -> is_finite y = true ->
  (1 + u) * Rabs (B2R x - B2R ca) < overflow -> (1 + u) * Rabs (B2R y - B2R cb) < overflow ->
  Rabs ((B2R x - B2R ca) * (B2R y - B2R cb)) <= S -> (1 + u) ^ 3 * S + eta < overflow ->
  is_finite (fmul (fsub x ca) (fsub y cb)) = true /\
  Rabs (B2R (fmul (fsub x ca) (fsub y cb)) - (B2R x - B2R ca) * (B2R y - B2R cb))
    <= ((1 + u) ^ 3 - 1) * Rabs ((B2R x - B2R ca) * (B2R y - B2R cb)) + eta / 2.
Proof.
  intros Hp Fca Fx Fcb Fy R1 R2 HS HM. destruct (u_small Hp) as [U0 U1]. pose proof eta_pos as T0.
  destruct (fsub_err prec emax Hprec Hmax x ca Fx Fca R1) as [F1 E1]. destruct (fsub_err prec emax Hprec Hmax y cb Fy Fcb R2) as [F2 E2].
  change (FloatIeee.fsub prec emax Hprec Hmax x ca) with (fsub x ca) in F1, E1. change (FloatIeee.fsub prec emax Hprec Hmax y cb) with (fsub y cb) in F2, E2.
  change (ur prec) with u in E1, E2. set (d1 := fsub x ca) in *. set (d2 := fsub y cb) in *.
  set (p := B2R x - B2R ca) in *. set (q := B2R y - B2R cb) in *.
  pose proof (product_pert u (B2R d1) (B2R d2) p q (Rlt_le _ _ U0) E1 E2) as Pp.
  assert (Bd : Rabs (B2R d1 * B2R d2) <= (1 + u) ^ 2 * Rabs (p * q)).
  { replace (B2R d1 * B2R d2) with ((B2R d1 * B2R d2 - p * q) + p * q) by ring. eapply Rle_trans; [apply Rabs_triang|]. lra. }
  assert (Bs : (1 + u) * Rabs (B2R d1 * B2R d2) <= (1 + u) ^ 3 * S).
  { replace ((1 + u) ^ 3 * S) with ((1 + u) * ((1 + u) ^ 2 * S)) by ring. apply Rmult_le_compat_l; [lra|].
    eapply Rle_trans; [exact Bd|]. apply Rmult_le_compat_l; [apply pow2_ge_0|exact HS]. }
  destruct (fmul_err prec emax Hprec Hmax d1 d2 F1 F2) as [F E].
  { change (ur prec) with u. change (tiny prec emax) with eta. change (huge emax) with overflow. lra. }
  split; [exact F|]. change (ur prec) with u in E. change (tiny prec emax) with eta in E. unfold FloatIeee.fmul in E.
  replace (B2R (fmul d1 d2) - p * q) with ((B2R (fmul d1 d2) - B2R d1 * B2R d2) + (B2R d1 * B2R d2 - p * q)) by ring.
  eapply Rle_trans; [apply Rabs_triang|].
  assert (u * Rabs (B2R d1 * B2R d2) <= u * ((1 + u) ^ 2 * Rabs (p * q))) by (apply Rmult_le_compat_l; lra).
  eapply Rle_trans; [apply Rplus_le_compat; [exact E|exact Pp]|]. clear - H. lra.
Qed.

Theorem C66_covariance_about_given_means_error : forall batch tail W vec (a b : list float) (ca cb : float),
  (10 <= prec)%Z -> some_order fadd batch -> some_order fadd tail -> (1 <= W)%Z -> a <> [] -> length a = length b ->
  all_finite prec emax (ca :: a) -> all_finite prec emax (cb :: b) ->
  let D := depth_bound W vec (lenZ a) in
  let n := IZR (lenZ a) in
  let C := rcross (B2R ca) (B2R cb) (reals a) (reals b) in let A := rcross_abs (B2R ca) (B2R cb) (reals a) (reals b) in
  (1 + u) * n < overflow ->
  (forall x, In x a -> (1 + u) * Rabs (B2R x - B2R ca) < overflow) -> (forall x, In x b -> (1 + u) * Rabs (B2R x - B2R cb) < overflow) ->
  (1 + u) ^ (D + 6) * (n * (A + eta)) + eta < overflow ->
  exists v, gCovariance_mean zero fadd fsub fmul fdiv fsize batch tail W vec a b ca cb = Ok v /\ is_finite v = true /\
            Rabs (B2R v - C) <= ((1 + u) ^ (D + 6) - 1) * A + ((1 + u) ^ (D + 3) + 1) * (eta / 2).
Proof.
  intros batch tail W vec a b ca cb Hp Hb Ht HW Hl He Hfa Hfb D n C A Hn Ra Rb HM. destruct (u_small Hp) as [U0 U1]. pose proof eta_pos as T0.
  pose proof (size_pos a Hl) as N1. fold n in N1.
  assert (Ez : lenZ b = lenZ a) by (unfold lenZ; now rewrite He).
  set (t := fun p : float * float => (B2R (fst p) - B2R ca) * (B2R (snd p) - B2R cb)).
  set (S := rsum (map (fun p => Rabs (t p)) (combine a b))).
  assert (El : lenZ (combine a b) = lenZ a) by (unfold lenZ; rewrite combine_length, <- He, Nat.min_id; reflexivity).
  assert (Ecb : combine (reals a) (reals b) = map (fun p => (B2R (fst p), B2R (snd p))) (combine a b)).
  { unfold reals. clear. revert b. induction a as [|x a IH]; intros [|y b]; try reflexivity. cbn [map combine]. now rewrite IH. }
  assert (PS : 0 <= S) by (apply rsum_nonneg; intros y Hy; apply in_map_iff in Hy as (z & <- & _); apply Rabs_pos).
  assert (EM : A = S / n). { unfold A, rcross_abs, rmean. rewrite Ecb, !lenZ_map, !map_map, El. reflexivity. }
  assert (EC : C = rsum (map t (combine a b)) / n). { unfold C, rcross, rmean. rewrite Ecb, !lenZ_map, !map_map, El. reflexivity. }
  assert (ES : n * A = S) by (rewrite EM; field; lra).
  rewrite Rmult_plus_distr_l, ES in HM. assert (Pn : 0 <= n * eta) by (apply Rmult_le_pos; lra).
  pose proof (pow_1u prec D) as P1. change (ur prec) with u in P1.
  pose proof (pow_1u prec 3) as P3. change (ur prec) with u in P3.
  set (g := (1 + u) ^ D) in *. set (k := (1 + u) ^ 3) in *.
  assert (E6 : (1 + u) ^ (D + 6) = k * (g * k)) by (unfold g, k; rewrite <- !pow_add; f_equal; lia).
  assert (E3 : (1 + u) ^ (D + 3) = g * k) by (unfold g, k; now rewrite <- pow_add).
  rewrite E6 in HM |- *. rewrite E3.
  assert (GK : 1 <= g * k) by (clear - P1 P3; nra).
  assert (GKS : 0 <= g * k * (S + n * eta)) by (apply Rmult_le_pos; lra).
  assert (KGK : g * k * (S + n * eta) <= k * (g * k) * (S + n * eta)) by (clear - GKS P3; nra).
  assert (Sk : S <= g * S) by (clear - PS P1; nra).
  assert (KS : k * S <= g * k * (S + n * eta)).
  { assert (k * S <= k * (g * S)) by (apply Rmult_le_compat_l; lra). assert (0 <= g * k * (n * eta)) by (apply Rmult_le_pos; lra). lra. }
  assert (Pe : 0 <= g * (n * (eta / 2))) by (apply Rmult_le_pos; [lra|]; apply Rmult_le_pos; lra).
  assert (Hge : g * (n * (eta / 2)) <= g * k * (n * eta)).
  { rewrite Rmult_assoc. apply Rmult_le_compat_l; [lra|]. assert (n * eta <= k * (n * eta)) by (clear - Pn P3; nra). lra. }
  assert (Tr : Rabs (rsum (map t (combine a b))) <= S).
  { unfold S. clear. induction (combine a b) as [|p l IH]; [cbn; rewrite Rabs_R0; lra|]. cbn [map]. rewrite !rsum_cons. eapply Rle_trans; [apply Rabs_triang|]. lra. }
  unfold gCovariance_mean, assert_. rewrite Ez, Z.eqb_refl.
  destruct (C62_inner_product_combines_each_once float float float fadd (Plain fadd) batch tail W vec (fun x y => fmul (fsub x ca) (fsub y cb)) a b zero (or_introl eq_refl) Hb Ht HW) as (s & E & Cb); [lia|].
  fold D in Cb. rewrite E. cbn [bind].
  destruct (terms_sum prec emax Hprec Hmax (finite prec emax) (float * float) (fun p => fmul (fsub (fst p) ca) (fsub (snd p) cb)) t (fun p => Rabs (t p)) k (eta / 2) (combine a b) D s zero) as [Fs Err].
  - intros x y Hx Hy. now apply fadd_err.
  - exact P3.
  - lra.
  - reflexivity.
  - reflexivity.
  - intros [x y] Hxy. cbn [fst snd]. pose proof (in_combine_l _ _ _ _ Hxy) as Hx. pose proof (in_combine_r _ _ _ _ Hxy) as Hy.
    destruct (cross_term ca x cb y S Hp) as [H1 H2].
    + apply Hfa. now left.
    + apply Hfa. now right.
    + apply Hfb. now left.
    + apply Hfb. now right.
    + now apply Ra.
    + now apply Rb.
    + apply (rsum_map_member (fun p => Rabs (t p)) (combine a b) (x, y)); [intros; apply Rabs_pos|exact Hxy].
    + fold k. lra.
    + split; [exact H1|]. split; [exact H2|]. lra.
  - exact Cb.
  - change (sumR (map (fun p => Rabs (t p)) (combine a b))) with S. rewrite El. fold n. change (ur prec) with u. change (huge emax) with overflow. fold g. lra.
  - change (sumR (map (fun p => Rabs (t p)) (combine a b))) with S in Err. change (sumR (map t (combine a b))) with (rsum (map t (combine a b))) in Err.
    rewrite El in Err. fold n in Err. change (ur prec) with u in Err. fold g in Err.
    destruct (div_size prec emax Hprec Hmax false s (rsum (map t (combine a b))) S (g * k) (g * (n * (eta / 2))) (lenZ a)) as (Fq & Eq).
    + exact U1.
    + now apply len_pos.
    + exact Hn.
    + exact Fs.
    + exact GK.
    + exact PS.
    + exact Pe.
    + exact Tr.
    + exact Err.
    + change (ur prec) with u. change (tiny prec emax) with eta. change (huge emax) with overflow. fold k n.
      eapply Rle_lt_trans; [|exact HM]. apply Rplus_le_compat; [|lra]. rewrite (Rmult_assoc k (g * k)). apply Rmult_le_compat_l; [lra|].
      eapply Rle_trans; [apply div_le; [|exact N1]|lra]. apply Rplus_le_le_0_compat; [apply Rmult_le_pos; lra|exact Pe].
    + exists (Bdiv mode_NE s (fsize (lenZ a))). split; [reflexivity|]. split; [exact Fq|].
      change (ur prec) with u in Eq. change (tiny prec emax) with eta in Eq. fold k n in Eq. rewrite EC, EM.
      eapply Rle_trans; [exact Eq|]. right. field. lra.
Qed.

Theorem C66_covariance_error : forall batch tail W vec (a b : list float),
  (10 <= prec)%Z -> some_order fadd batch -> some_order fadd tail -> (1 <= W)%Z -> a <> [] -> length a = length b ->
  all_finite prec emax a -> all_finite prec emax b ->
  let D := depth_bound W vec (lenZ a) in
  let n := IZR (lenZ a) in
  let ea := ((1 + u) ^ (D + 3) - 1) * abs_mean a + eta / 2 in let eb := ((1 + u) ^ (D + 3) - 1) * abs_mean b + eta / 2 in
  let Va := rvariance (reals a) + ea ^ 2 in let Vb := rvariance (reals b) + eb ^ 2 in
  (1 + u) * n < overflow ->
  (1 + u) ^ (D + 3) * abs_sum prec emax a + eta < overflow -> (1 + u) ^ (D + 3) * abs_sum prec emax b + eta < overflow ->
  (1 + u) * (1 + n * Va) < overflow -> (1 + u) * (1 + n * Vb) < overflow ->
  (1 + u) ^ (D + 6) * (n * (sqrt (Va * Vb) + eta)) + eta < overflow ->
  exists v, gCovariance zero fadd fsub fmul fdiv fsize batch tail W vec a b = Ok v /\ is_finite v = true /\
            Rabs (B2R v - rcovariance (reals a) (reals b)) <=
              ((1 + u) ^ (D + 6) - 1) * sqrt (Va * Vb) + ea * eb + ((1 + u) ^ (D + 3) + 1) * (eta / 2).
Proof.
  intros batch tail W vec a b Hp Hb Ht HW Hl He Hfa Hfb D n ea eb Va Vb Hn Ma Mb Sa Sb HM. destruct (u_small Hp) as [U0 U1]. pose proof eta_pos as T0.
  assert (Ez : lenZ b = lenZ a) by (unfold lenZ; now rewrite He).
  assert (Hl' : b <> []) by (destruct a, b; try discriminate; congruence).
  pose proof (size_pos a Hl) as N1. fold n in N1.
  destruct (C66_mean_error batch tail W vec a Hp Hb Ht HW Hl Hfa Hn Ma) as (ma & Ema & Fma & Ea). fold D ea in Ea.
  destruct (C66_mean_error batch tail W vec b Hp Hb Ht HW Hl' Hfb) as (mb & Emb & Fmb & Eb); [rewrite Ez; exact Hn|rewrite Ez; exact Mb|].
  rewrite Ez in Eb. fold D eb in Eb.
  unfold gCovariance. rewrite Ema, Emb. cbn [bind].
  assert (Hra : reals a <> []) by (destruct a; [congruence|discriminate]). assert (Hrb : reals b <> []) by (destruct b; [congruence|discriminate]).
  assert (Her : length (reals a) = length (reals b)) by (unfold reals; now rewrite !map_length).
  assert (Sq : forall x m e, Rabs (m - x) <= e -> (x - m) ^ 2 <= e ^ 2).
  { intros x m e H. rewrite <- (pow2_abs (x - m)). apply pow_incr. split; [apply Rabs_pos|]. now rewrite Rabs_minus_sym. }
  assert (QA : 0 <= rmoment2 (B2R ma) (reals a) <= Va).
  { split.
    - unfold rmoment2, rmean, Rdiv. apply Rmult_le_pos; [apply rsum_nonneg; intros y Hy; apply in_map_iff in Hy as (z & <- & _); apply pow2_ge_0|].
      left. apply Rinv_0_lt_compat. unfold reals. rewrite !lenZ_map. fold n. lra.
    - rewrite (moment2_shift _ _ Hra). unfold Va. pose proof (Sq _ _ _ Ea). lra. }
  assert (QB : 0 <= rmoment2 (B2R mb) (reals b) <= Vb).
  { split.
    - unfold rmoment2, rmean, Rdiv. apply Rmult_le_pos; [apply rsum_nonneg; intros y Hy; apply in_map_iff in Hy as (z & <- & _); apply pow2_ge_0|].
      left. apply Rinv_0_lt_compat. unfold reals. rewrite !lenZ_map, Ez. fold n. lra.
    - rewrite (moment2_shift _ _ Hrb). unfold Vb. pose proof (Sq _ _ _ Eb). lra. }
  pose proof (cross_abs_bound (B2R ma) (B2R mb) _ _ Hra Her) as CA.
  assert (CA' : rcross_abs (B2R ma) (B2R mb) (reals a) (reals b) <= sqrt (Va * Vb)).
  { eapply Rle_trans; [exact CA|]. apply sqrt_le_1_alt. apply Rmult_le_compat; lra. }
  assert (Rg : forall (l : list float) (m : float) V, lenZ l = lenZ a -> rmoment2 (B2R m) (reals l) <= V -> (1 + u) * (1 + n * V) < overflow ->
     forall x, In x l -> (1 + u) * Rabs (B2R x - B2R m) < overflow).
  { intros l m V Hln HV Hov x Hx. eapply Rle_lt_trans; [|exact Hov]. apply Rmult_le_compat_l; [lra|].
    eapply Rle_trans; [apply abs_le_square|]. apply Rplus_le_compat_l.
    apply Rle_trans with (n * rmoment2 (B2R m) (reals l)); [|apply Rmult_le_compat_l; lra].
    unfold rmoment2, rmean, reals. rewrite !lenZ_map, map_map, Hln. fold n.
    replace (n * (rsum (map (fun x0 : float => (B2R x0 - B2R m) ^ 2) l) / n)) with (rsum (map (fun x0 : float => (B2R x0 - B2R m) ^ 2) l)) by (field; lra).
    apply (rsum_map_member (fun x0 : float => (B2R x0 - B2R m) ^ 2)); [intros; apply pow2_ge_0|exact Hx]. }
  pose proof (pow_1u prec (D + 6)) as P6. change (ur prec) with u in P6.
  destruct (C66_covariance_about_given_means_error batch tail W vec a b ma mb Hp Hb Ht HW Hl He) as (v & Ev & Fv & Er).
  - intros x [<- | Hx]; [exact Fma|now apply Hfa].
  - intros x [<- | Hx]; [exact Fmb|now apply Hfb].
  - exact Hn.
  - apply (Rg a ma Va eq_refl); [lra|exact Sa].
  - apply (Rg b mb Vb Ez); [lra|exact Sb].
  - fold D n. eapply Rle_lt_trans; [|exact HM]. apply Rplus_le_compat_r. apply Rmult_le_compat_l; [lra|]. apply Rmult_le_compat_l; lra.
  - fold D in Er. exists v. split; [exact Ev|]. split; [exact Fv|].
    rewrite (cross_shift _ _ _ _ Hra Her) in Er. set (cv := rcovariance (reals a) (reals b)) in *.
    set (xa := rmean (reals a)) in *. set (xb := rmean (reals b)) in *.
    assert (Pr : Rabs ((xa - B2R ma) * (xb - B2R mb)) <= ea * eb).
    { rewrite Rabs_mult, (Rabs_minus_sym xa), (Rabs_minus_sym xb). apply Rmult_le_compat; try apply Rabs_pos; assumption. }
    set (q := (xa - B2R ma) * (xb - B2R mb)) in *. set (g := (1 + u) ^ (D + 6)) in *. set (h := ((1 + u) ^ (D + 3) + 1) * (eta / 2)) in *.
    set (A := rcross_abs (B2R ma) (B2R mb) (reals a) (reals b)) in *. clearbody q g h A.
    replace (B2R v - cv) with ((B2R v - (cv + q)) + q) by ring. eapply Rle_trans; [apply Rabs_triang|].
    assert ((g - 1) * A <= (g - 1) * sqrt (Va * Vb)) by (apply Rmult_le_compat_l; lra). lra.
Qed.
End Ieee.
Print Assumptions C66_mean_error.
Print Assumptions C66_sum_square_error.
Print Assumptions C66_mean_square_error.
Print Assumptions C66_norm_error.
Print Assumptions C66_root_mean_square_error.
Print Assumptions C66_second_moment_error.
Print Assumptions C66_variance_error.
Print Assumptions C66_standard_deviation_error.
Print Assumptions C66_covariance_about_given_means_error.
Print Assumptions C66_covariance_error.

(** ** The hypotheses are met by ordinary signals *)
#[local] Existing Instance p24.
#[local] Existing Instance e128.
Definition ex_sig : list (binary_float 24 128) := [b32 1 0; b32 2 0; b32 3 0; b32 6 0].
Lemma ex_reals : reals 24 128 ex_sig = [1; 2; 3; 6].
Proof.
  unfold reals, ex_sig. cbn [map]. rewrite <- !SF2R_B2SF.
  replace (B2SF (b32 1 0)) with (SpecFloat.S754_finite false 8388608 (-23)) by (vm_compute; reflexivity).
  replace (B2SF (b32 2 0)) with (SpecFloat.S754_finite false 8388608 (-22)) by (vm_compute; reflexivity).
  replace (B2SF (b32 3 0)) with (SpecFloat.S754_finite false 12582912 (-22)) by (vm_compute; reflexivity).
  replace (B2SF (b32 6 0)) with (SpecFloat.S754_finite false 12582912 (-21)) by (vm_compute; reflexivity).
  unfold SF2R, F2R. cbn. repeat f_equal; lra.
Qed.
Lemma ex_fin : all_finite 24 128 ex_sig.
Proof. intros x Hx. cbn [In ex_sig] in Hx. repeat (destruct Hx as [<-|Hx]; [vm_compute; reflexivity|]). contradiction. Qed.
Lemma ex_abs : abs_sum 24 128 ex_sig = 12.
Proof.
  assert (E : abs_sum 24 128 ex_sig = fold_right Rplus 0 (map Rabs (reals 24 128 ex_sig))) by (unfold reals; now rewrite map_map).
  rewrite E, ex_reals. cbn [map fold_right]. rewrite !Rabs_pos_eq by lra. lra.
Qed.
Lemma ex_squares : sum_square 24 128 ex_sig = 50.
Proof.
  assert (E : sum_square 24 128 ex_sig = rsum (map (fun x => x ^ 2) (reals 24 128 ex_sig))) by (unfold reals; now rewrite map_map).
  rewrite E, ex_reals. cbn [map rsum fold_right]. lra.
Qed.
Lemma ex_variance : rvariance (reals 24 128 ex_sig) = 7 / 2.
Proof. rewrite ex_reals. unfold rvariance, rmoment2, rmean. cbn [map rsum fold_right lenZ length Z.of_nat Pos.of_succ_nat Pos.succ]. unfold lenZ. cbn [length map Z.of_nat Pos.of_succ_nat Pos.succ]. lra. Qed.
Example C66_nontrivial :
  (* the computed variance of 1, 2, 3, 6 in single precision *)
  (match gCentralMoment (B754_zero false) (Bplus mode_NE) (Bminus mode_NE) (Bmult mode_NE) (fun a b => Ok (Bdiv mode_NE a b))
      (of_size 24 128 p24 e128) (fold_left (Bplus mode_NE)) (fold_left (Bplus mode_NE)) 4 false (fun _ x => x) ex_sig 2 with
   | Ok v => B2SF v = B2SF (b32 7 (-1)) | _ => False end) /\
  let u := bpow radix2 (- (24)) in let eta := bpow radix2 (3 - 128 - 24) in let overflow := bpow radix2 128 in
  let n := IZR (lenZ ex_sig) in let D := depth_bound 4 false (lenZ ex_sig) in
  let e := ((1 + u) ^ (D + 3) - 1) * abs_mean 24 128 ex_sig + eta / 2 in
  all_finite 24 128 ex_sig /\ (1 + u) * n < overflow /\
  (1 + u) ^ (D + 4) * (sum_square 24 128 ex_sig + n * eta) + eta < overflow /\
  (1 + u) ^ (D + 3) * abs_sum 24 128 ex_sig + eta < overflow /\
  (1 + u) ^ (D + 6) * (n * (rvariance (reals 24 128 ex_sig) + e ^ 2 + eta)) + eta < overflow /\
  (1 + u) * (1 + n * (rvariance (reals 24 128 ex_sig) + e ^ 2)) < overflow /\ e < 1 / 100000.
Proof.
  split; [vm_compute; reflexivity|]. cbv zeta. unfold abs_mean. rewrite ex_abs, ex_squares, ex_variance.
  change (lenZ ex_sig) with 4%Z. change (depth_bound 4 false 4) with 3%nat.
  change (bpow radix2 (- (24))) with (/ 16777216). change (bpow radix2 128) with 340282366920938463463374607431768211456.
  assert (T : 0 < bpow radix2 (3 - 128 - 24) <= 1 / 100000000).
  { split; [apply bpow_gt_0|]. apply Rle_trans with (bpow radix2 (-30)); [apply bpow_le; lia|]. change (bpow radix2 (-30)) with (/ 1073741824). lra. }
  set (eta := bpow radix2 (3 - 128 - 24)) in *. clearbody eta.
  set (w := ((1 + / 16777216) ^ (3 + 3) - 1) * (12 / 4)). assert (Hw : 0 <= w <= 1 / 200000) by (unfold w; cbn [Nat.add]; lra). clearbody w.
  assert (He : 0 <= (w + eta / 2) ^ 2 <= 1) by (split; [apply pow2_ge_0|]; nra). set (e2 := (w + eta / 2) ^ 2) in *. clearbody e2.
  assert (P : forall k, (k <= 10)%nat -> 1 <= (1 + / 16777216) ^ k <= 2).
  { intros k Hk. split; [apply pow_R1_Rle; lra|]. apply Rle_trans with ((1 + / 16777216) ^ 10); [apply Rle_pow; [lra|exact Hk]|lra]. }
  pose proof (P (3 + 4)%nat ltac:(lia)) as P7. pose proof (P (3 + 3)%nat ltac:(lia)) as P6. pose proof (P (3 + 6)%nat ltac:(lia)) as P9.
  set (p7 := (1 + / 16777216) ^ (3 + 4)) in *. set (p6 := (1 + / 16777216) ^ (3 + 3)) in *. set (p9 := (1 + / 16777216) ^ (3 + 6)) in *. clearbody p7 p6 p9. clear P.
  split; [exact ex_fin|]. repeat split; try nra.
Qed.
