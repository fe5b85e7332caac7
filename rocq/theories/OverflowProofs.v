(** Operations on finite operands stay finite below the overflow threshold. *)
From Coq Require Import Reals Lra Lia List ZArith Arith Psatz.
From Flocq Require Import Core Plus_error Relative BinarySingleNaN.
From Verif Require Import Base BaseFacts Complex KernelModel KernelProofs ConvModel ConvProofs FloatSpec ReduceTree FloatSum FloatIeee ConvTree ConvFloat FloatStat IirModel IirProofs IirTree IirFloat.
Import ListNotations.
Local Open Scope R_scope.

Section Ieee.
Variables prec emax : Z.
Context (Hprec : Prec_gt_0 prec) (Hmax : Prec_lt_emax prec emax).
Notation float := (binary_float prec emax).
Notation rnd := (round radix2 (FLT_exp (3 - emax - prec) prec) ZnearestE).
Notation u := (ur prec).
Notation eta := (tiny prec emax).
Notation fin x := (is_finite x = true).
Notation e := (eta / 2).
Notation G n := ((1 + u) ^ n).
Notation top := (bpow radix2 emax).
Notation psum := (psum B2R).
Notation pabs := (pabs B2R).
Notation pfin := (pfin prec emax).

Lemma rnd_up x : Rabs (rnd x) <= (1 + u) * Rabs x + e.
Proof. pose proof (rnd_err prec emax Hprec x). replace (rnd x) with ((rnd x - x) + x) by ring. eapply Rle_trans; [apply Rabs_triang|]. lra. Qed.
Lemma add_up (a b : float) : fin a -> fin b -> (1 + u) * (Rabs (B2R a) + Rabs (B2R b)) < top -> fin (Bplus mode_NE a b).
Proof.
  intros Fa Fb H. pose proof (Bplus_correct prec emax Hprec Hmax mode_NE a b Fa Fb) as C.
  change (round radix2 (SpecFloat.fexp prec emax) (round_mode mode_NE) (B2R a + B2R b)) with (rnd (B2R a + B2R b)) in C.
  destruct (FLT_plus_error_N_ex radix2 (3 - emax - prec) prec (fun x => negb (Z.even x)) (B2R a) (B2R b)
             (generic_format_B2R prec emax a) (generic_format_B2R prec emax b)) as (d & Hd & E). apply (eps_le prec) in Hd.
  rewrite Rlt_bool_true in C; [apply C|]. rewrite E, Rabs_mult, Rmult_comm. eapply Rle_lt_trans; [|exact H]. apply Rmult_le_compat; try apply Rabs_pos; [|apply Rabs_triang].
  eapply Rle_trans; [apply Rabs_triang|]. rewrite Rabs_R1. lra.
Qed.
Lemma sub_up (a b : float) : fin a -> fin b -> (1 + u) * (Rabs (B2R a) + Rabs (B2R b)) < top -> fin (Bminus mode_NE a b).
Proof.
  intros Fa Fb H. pose proof (Bminus_correct prec emax Hprec Hmax mode_NE a b Fa Fb) as C.
  change (round radix2 (SpecFloat.fexp prec emax) (round_mode mode_NE) (B2R a - B2R b)) with (rnd (B2R a - B2R b)) in C.
  destruct (FLT_plus_error_N_ex radix2 (3 - emax - prec) prec (fun x => negb (Z.even x)) (B2R a) (- B2R b)
             (generic_format_B2R prec emax a) (generic_format_opp _ _ _ (generic_format_B2R prec emax b))) as (d & Hd & E). apply (eps_le prec) in Hd.
  change (B2R a + - B2R b) with (B2R a - B2R b) in E.
  rewrite Rlt_bool_true in C; [apply C|]. rewrite E, Rabs_mult, Rmult_comm. eapply Rle_lt_trans; [|exact H]. apply Rmult_le_compat; try apply Rabs_pos.
  - eapply Rle_trans; [apply Rabs_triang|]. rewrite Rabs_R1. lra.
  - eapply Rle_trans; [apply Rabs_triang|]. rewrite Rabs_Ropp. lra.
Qed.
Lemma mul_up (a b : float) : fin a -> fin b -> (1 + u) * Rabs (B2R a * B2R b) + e < top -> fin (Bmult mode_NE a b).
Proof.
  intros Fa Fb H. pose proof (Bmult_correct prec emax Hprec Hmax mode_NE a b) as C.
  change (round radix2 (SpecFloat.fexp prec emax) (round_mode mode_NE) (B2R a * B2R b)) with (rnd (B2R a * B2R b)) in C.
  rewrite Rlt_bool_true in C; [|eapply Rle_lt_trans; [apply rnd_up|exact H]]. destruct C as (_ & C & _). now rewrite C, Fa, Fb.
Qed.
Lemma fma_up (a b c : float) : fin a -> fin b -> fin c -> (1 + u) * Rabs (B2R a * B2R b + B2R c) + e < top -> fin (Bfma mode_NE a b c).
Proof.
  intros Fa Fb Fc H. pose proof (Bfma_correct prec emax Hprec Hmax mode_NE a b c Fa Fb Fc) as C. cbv zeta in C.
  change (round radix2 (SpecFloat.fexp prec emax) (round_mode mode_NE) (B2R a * B2R b + B2R c)) with (rnd (B2R a * B2R b + B2R c)) in C.
  rewrite Rlt_bool_true in C; [|eapply Rle_lt_trans; [apply rnd_up|exact H]]. apply C.
Qed.
Lemma inv_up (a : float) : B2R a <> 0 -> (1 + u) / Rabs (B2R a) + e < top -> fin (Bdiv mode_NE Bone a).
Proof.
  intros Ha H. pose proof (Bdiv_correct prec emax Hprec Hmax mode_NE Bone a Ha) as C. rewrite Bone_correct in C.
  change (round radix2 (SpecFloat.fexp prec emax) (round_mode mode_NE) (1 / B2R a)) with (rnd (1 / B2R a)) in C.
  rewrite Rlt_bool_true in C. 2:{ eapply Rle_lt_trans; [apply rnd_up|]. unfold Rdiv in *. now rewrite Rmult_1_l, Rabs_inv. }
  destruct C as (_ & C & _). rewrite C. apply is_finite_Bone.
Qed.

(** a sum-of-product step *)
Definition steady_madd (madd : float -> float -> float -> float) : Prop := good_madd prec emax madd /\ forall t a b, fin t -> fin a -> fin b ->
  (1 + u) * (Rabs (B2R t) + (1 + u) * Rabs (B2R a * B2R b) + e) < top -> fin (madd t a b).
Lemma steady_unfused : steady_madd (fun t a b => Bplus mode_NE t (Bmult mode_NE a b)).
Proof.
  split; [apply madd_unfused|]. intros t a b Ft Fa Fb H. pose proof (u0 prec) as U0. pose proof (e0 prec emax) as E0. pose proof (Rabs_pos (B2R t)). pose proof (Rabs_pos (B2R a * B2R b)) as P0.
  assert (Fm : fin (Bmult mode_NE a b)). { apply mul_up; auto. eapply Rle_lt_trans; [|exact H]. set (p := Rabs (B2R a * B2R b)) in *. assert (0 <= u * p) by now apply Rmult_le_pos. assert (0 <= u * (u * p)) by now apply Rmult_le_pos. assert (0 <= u * Rabs (B2R t)) by now apply Rmult_le_pos. assert (0 <= u * e) by now apply Rmult_le_pos. lra. }
  apply add_up; auto. destruct (mul_fin prec emax Hprec Hmax a b Fm) as (_ & _ & E). eapply Rle_lt_trans; [|exact H]. apply Rmult_le_compat_l; [lra|].
  set (m := B2R (Bmult mode_NE a b)) in *. set (p := B2R a * B2R b) in *. assert (Rabs m <= Rabs (m - p) + Rabs p) by (replace m with ((m - p) + p) at 1 by ring; apply Rabs_triang). lra.
Qed.
Lemma steady_fused : steady_madd (fun t a b => Bfma mode_NE a b t).
Proof.
  split; [apply madd_fused|]. intros t a b Ft Fa Fb H. pose proof (u0 prec) as U0. pose proof (e0 prec emax) as E0. apply fma_up; auto. eapply Rle_lt_trans; [|exact H].
  set (p := B2R a * B2R b) in *. pose proof (Rabs_triang p (B2R t)) as T. assert ((1 + u) * Rabs (p + B2R t) <= (1 + u) * (Rabs p + Rabs (B2R t))) by (apply Rmult_le_compat_l; lra).
  pose proof (Rabs_pos p). assert (0 <= u * Rabs p) by now apply Rmult_le_pos. assert (0 <= u * (u * Rabs p)) by now apply Rmult_le_pos. assert (0 <= u * e) by now apply Rmult_le_pos. lra.
Qed.

Lemma fold_up madd s ps : steady_madd madd -> fin s -> pfin ps -> G (length ps + 1) * (Rabs (B2R s) + pabs ps) + INR (length ps) * G (length ps + 1) * e < top ->
  fin (fold_left (fun acc p => madd acc (fst p) (snd p)) ps s).
Proof.
  intros [Hg Hs]. pose proof (u0 prec) as U0. pose proof (e0 prec emax) as E0. induction ps as [|[a b] l IH] using rev_ind; intros Fs Fp H; [exact Fs|].
  rewrite fold_left_app. cbn [fold_left fst snd]. rewrite (pabs_snoc B2R), app_length in H. cbn [length] in H. replace (length l + 1 + 1)%nat with (S (length l + 1)) in H by lia. rewrite plus_INR in H. change (INR 1) with 1 in H. cbn [pow] in H.
  set (q := G (length l + 1)) in *. assert (Hq : 1 + u <= q). { pose proof (G_le prec 1 (length l + 1) ltac:(lia)) as Q. cbn [pow] in Q. rewrite Rmult_1_r in Q. exact Q. }
  set (x := Rabs (B2R a * B2R b)) in *. assert (Hx : 0 <= x) by apply Rabs_pos. assert (HA : 0 <= Rabs (B2R s) + pabs l) by (pose proof (Rabs_pos (B2R s)); pose proof (pabs_nonneg B2R l); lra).
  set (n := INR (length l)) in *. assert (Hn : 0 <= n) by apply pos_INR. replace (Rabs (B2R s) + (pabs l + x)) with ((Rabs (B2R s) + pabs l) + x) in H by ring. set (A := Rabs (B2R s) + pabs l) in *.
  assert (QA : 0 <= q * A) by (apply Rmult_le_pos; lra). assert (Qe : 0 <= q * e) by (apply Rmult_le_pos; lra). assert (Qx : 0 <= q * x) by (apply Rmult_le_pos; lra). assert (Qn : 0 <= n * (q * e)) by now apply Rmult_le_pos.
  assert (Fl : pfin l) by (intros p Hp; apply Fp, in_or_app; now left). destruct (Fp (a, b) ltac:(apply in_or_app; right; now left)) as [Fa Fb]. cbn [fst snd] in Fa, Fb.
  assert (Ft : fin (fold_left (fun acc p => madd acc (fst p) (snd p)) l s)).
  { apply IH; auto. eapply Rle_lt_trans; [|exact H]. assert (0 <= u * (q * A)) by now apply Rmult_le_pos. assert (0 <= (1 + u) * (q * x)) by (apply Rmult_le_pos; lra). assert (0 <= u * (n * (q * e))) by now apply Rmult_le_pos. assert (0 <= (1 + u) * (q * e)) by (apply Rmult_le_pos; lra). lra. }
  apply Hs; auto. destruct (fold_err prec emax madd s l Hg Ft) as (_ & _ & E). set (t := B2R (fold_left _ l s)) in *.
  assert (T : Rabs (B2R s + psum l) <= A) by (unfold A; eapply Rle_trans; [apply Rabs_triang|]; apply Rplus_le_compat_l; apply psum_le). fold q in E. fold A in E. fold n in E.
  assert (Ht : Rabs t <= q * A + n * (q * e)). { replace t with ((t - (B2R s + psum l)) + (B2R s + psum l)) by ring. eapply Rle_trans; [apply Rabs_triang|]. lra. }
  eapply Rle_lt_trans; [|exact H]. fold x. assert (e <= q * e) by (rewrite <- (Rmult_1_l e) at 1; apply Rmult_le_compat_r; lra). assert ((1 + u) * x <= q * x) by (apply Rmult_le_compat_r; lra).
  assert ((1 + u) * (Rabs t + (1 + u) * x + e) <= (1 + u) * ((q * A + n * (q * e)) + q * x + q * e)) by (apply Rmult_le_compat_l; lra). lra.
Qed.
Lemma sop_up madd ps : steady_madd madd -> pfin ps -> G (length ps + 1) * pabs ps + INR (length ps) * G (length ps + 1) * e < top -> fin (sop (B754_zero false) madd ps).
Proof. intros Hm Fp H. apply (fold_up madd _ ps Hm); [reflexivity|exact Fp|]. cbn [B2R]. now rewrite Rabs_R0, Rplus_0_l. Qed.
Lemma sop_size madd ps : good_madd prec emax madd -> fin (sop (B754_zero false) madd ps) -> Rabs (B2R (sop (B754_zero false) madd ps)) <= G (length ps + 1) * pabs ps + INR (length ps) * G (length ps + 1) * e.
Proof.
  intros Hg F. destruct (sop_err prec emax madd ps Hg F) as [_ E]. set (t := B2R _) in *. replace t with ((t - psum ps) + psum ps) by ring. eapply Rle_trans; [apply Rabs_triang|]. pose proof (psum_le B2R ps). lra.
Qed.
Lemma sop_wide k l A e' : (k <= l)%nat -> 0 <= A -> 0 <= e' -> G (k + 1) * A + INR k * G (k + 1) * e' <= G (l + 1) * A + INR k * G (l + 1) * e'.
Proof. intros H HA He. pose proof (G_le prec (k + 1) (l + 1) ltac:(lia)). apply Rplus_le_compat; [now apply Rmult_le_compat_r|]. apply Rmult_le_compat_r; [exact He|]. apply Rmult_le_compat_l; [apply pos_INR|assumption]. Qed.

Lemma df1_up madd (num den : list (float * float)) (lead : float) N : steady_madd madd -> fin lead -> B2R lead <> 0 -> Rabs (B2R lead) <= bpow radix2 (emax - 2) ->
  fin (Bdiv mode_NE Bone lead) -> (length num <= N)%nat -> (length den <= N)%nat -> pfin num -> pfin den ->
  let H := G (N + 4) * (pabs num + pabs den) + INR (length num + length den) * G (N + 4) * e in
  H < top -> H / Rabs (B2R lead) + e < top ->
  fin (Bmult mode_NE (Bminus mode_NE (sop (B754_zero false) madd num) (sop (B754_zero false) madd den)) (Bdiv mode_NE Bone lead)).
Proof.
  intros Hm Fl Hl Hr Fi HN HD Pn Pd H H1 H2. pose proof (u0 prec) as U0. pose proof (e0 prec emax) as E0. pose proof (pabs_nonneg B2R num) as An. pose proof (pabs_nonneg B2R den) as Ad.
  pose proof (sop_wide (length num) N (pabs num) e HN An E0) as Wn. pose proof (sop_wide (length den) N (pabs den) e HD Ad E0) as Wd.
  set (s := G (N + 1) * (pabs num + pabs den) + INR (length num + length den) * G (N + 1) * e).
  assert (Hs : 0 <= s). { unfold s. pose proof (G_ge1 prec (N + 1)). apply Rplus_le_le_0_compat; [apply Rmult_le_pos; lra|]. apply Rmult_le_pos; [|lra]. apply Rmult_le_pos; [apply pos_INR|lra]. }
  assert (EH : H = (1 + u) * ((1 + u) * ((1 + u) * s))) by (unfold H, s; replace (N + 4)%nat with (3 + (N + 1))%nat by lia; rewrite pow_add; cbn [pow]; ring).
  assert (s1 : s <= (1 + u) * s) by nra. assert (s2 : (1 + u) * s <= (1 + u) * ((1 + u) * s)) by nra. assert (s3 : (1 + u) * ((1 + u) * s) <= H) by (rewrite EH; nra).
  assert (Bn : 0 <= G (N + 1) * pabs num + INR (length num) * G (N + 1) * e) by (pose proof (G_ge1 prec (N + 1)); apply Rplus_le_le_0_compat; [apply Rmult_le_pos; lra|]; apply Rmult_le_pos; [|lra]; apply Rmult_le_pos; [apply pos_INR|lra]).
  assert (Bd : 0 <= G (N + 1) * pabs den + INR (length den) * G (N + 1) * e) by (pose proof (G_ge1 prec (N + 1)); apply Rplus_le_le_0_compat; [apply Rmult_le_pos; lra|]; apply Rmult_le_pos; [|lra]; apply Rmult_le_pos; [apply pos_INR|lra]).
  assert (Es : s = (G (N + 1) * pabs num + INR (length num) * G (N + 1) * e) + (G (N + 1) * pabs den + INR (length den) * G (N + 1) * e)) by (unfold s; rewrite plus_INR; ring).
  assert (Ff : fin (sop (B754_zero false) madd num)) by (apply sop_up; [exact Hm|exact Pn|lra]). assert (Fr : fin (sop (B754_zero false) madd den)) by (apply sop_up; [exact Hm|exact Pd|lra]).
  pose proof (sop_size madd num (proj1 Hm) Ff) as Sn. pose proof (sop_size madd den (proj1 Hm) Fr) as Sd.
  assert (S1 : (1 + u) * (Rabs (B2R (sop (B754_zero false) madd num)) + Rabs (B2R (sop (B754_zero false) madd den))) <= (1 + u) * s) by (apply Rmult_le_compat_l; lra).
  assert (Fd : fin (Bminus mode_NE (sop (B754_zero false) madd num) (sop (B754_zero false) madd den))) by (apply sub_up; auto; lra).
  destruct (sub_fin prec emax Hprec Hmax _ _ Fd) as (_ & _ & E). set (d := B2R (Bminus _ _ _)) in *. set (sf := B2R (sop _ madd num)) in *. set (sr := B2R (sop _ madd den)) in *.
  assert (Hd : Rabs d <= (1 + u) * s). { replace d with ((d - (sf - sr)) + (sf - sr)) by ring. eapply Rle_trans; [apply Rabs_triang|]. pose proof (Rabs_triang sf (- sr)) as T. rewrite Rabs_Ropp in T. change (sf + - sr) with (sf - sr) in T. assert (u * Rabs (sf - sr) <= u * (Rabs sf + Rabs sr)) by (apply Rmult_le_compat_l; lra). lra. }
  apply mul_up; auto. destruct (inverse_ok prec emax Hprec Hmax lead Fl Hl Hr Fi) as (dd & Hdd & Ed). rewrite Ed. eapply Rle_lt_trans; [|exact H2]. apply Rplus_le_compat_r. fold d. pose proof (Rabs_pos_lt _ Hl) as L0.
  rewrite EH, !Rabs_mult, Rabs_inv. assert (K : Rabs (1 + dd) <= 1 + u) by (eapply Rle_trans; [apply Rabs_triang|]; rewrite Rabs_R1; lra).
  assert (K2 : Rabs d * Rabs (1 + dd) <= (1 + u) * s * (1 + u)) by (apply Rmult_le_compat; auto; apply Rabs_pos).
  replace ((1 + u) * (Rabs d * (/ Rabs (B2R lead) * Rabs (1 + dd)))) with ((1 + u) * (Rabs d * Rabs (1 + dd)) * / Rabs (B2R lead)) by ring. unfold Rdiv. apply Rmult_le_compat_r; [left; now apply Rinv_0_lt_compat|]. apply Rmult_le_compat_l; lra.
Qed.

Lemma df2_up madd (x : float) (den : list (float * float)) (lead : float) : steady_madd madd -> fin lead -> B2R lead <> 0 -> Rabs (B2R lead) <= bpow radix2 (emax - 2) ->
  fin (Bdiv mode_NE Bone lead) -> fin x -> pfin den ->
  G (length den + 3) * (Rabs (B2R x / B2R lead) + pabs den) + INR (length den + 1) * G (length den + 3) * e < top ->
  fin (Bminus mode_NE (Bmult mode_NE x (Bdiv mode_NE Bone lead)) (sop (B754_zero false) madd den)).
Proof.
  intros Hm Fl Hl Hr Fi Fx Pd H. pose proof (u0 prec) as U0. pose proof (e0 prec emax) as E0. pose proof (pabs_nonneg B2R den) as Ad. set (n := length den) in *. set (v := Rabs (B2R x / B2R lead)) in *. assert (V0 : 0 <= v) by apply Rabs_pos.
  set (q := G (n + 1)) in *. assert (Hq : 1 + u <= q). { pose proof (G_le prec 1 (n + 1) ltac:(lia)) as Q. cbn [pow] in Q. rewrite Rmult_1_r in Q. exact Q. }
  replace (n + 3)%nat with (2 + (n + 1))%nat in H by lia. rewrite (pow_add _ 2) in H. fold q in H. rewrite plus_INR in H. change (INR 1) with 1 in H. set (k := INR n) in *. assert (K0 : 0 <= k) by apply pos_INR. cbn [pow] in H.
  assert (Qa : 0 <= q * pabs den) by (apply Rmult_le_pos; lra). assert (Qe : 0 <= q * e) by (apply Rmult_le_pos; lra). assert (Qk : 0 <= k * (q * e)) by now apply Rmult_le_pos. assert (Qv : 0 <= q * v) by (apply Rmult_le_pos; lra).
  set (s := q * (v + pabs den) + (k + 1) * (q * e)). assert (Hs : 0 <= s) by (unfold s; lra). assert (H' : (1 + u) * ((1 + u) * s) < top) by (eapply Rle_lt_trans; [|exact H]; apply Req_le; unfold s; ring).
  assert (s1 : s <= (1 + u) * s) by nra. assert (s2 : (1 + u) * s <= (1 + u) * ((1 + u) * s)) by nra.
  destruct (inverse_ok prec emax Hprec Hmax lead Fl Hl Hr Fi) as (d & Hd & Ed). assert (Kd : Rabs (1 + d) <= 1 + u) by (eapply Rle_trans; [apply Rabs_triang|]; rewrite Rabs_R1; lra).
  assert (Ep : Rabs (B2R x * B2R (Bdiv mode_NE Bone lead)) <= (1 + u) * v). { rewrite Ed. replace (B2R x * (/ B2R lead * (1 + d))) with ((1 + d) * (B2R x / B2R lead)) by (unfold Rdiv; ring). rewrite Rabs_mult. apply Rmult_le_compat_r; [apply Rabs_pos|exact Kd]. }
  assert (e <= q * e) by (rewrite <- (Rmult_1_l e) at 1; apply Rmult_le_compat_r; lra). assert ((1 + u) * v <= q * v) by (apply Rmult_le_compat_r; lra).
  assert (P1 : (1 + u) * Rabs (B2R x * B2R (Bdiv mode_NE Bone lead)) + e <= (1 + u) * (q * v) + q * e) by (assert ((1 + u) * Rabs (B2R x * B2R (Bdiv mode_NE Bone lead)) <= (1 + u) * (q * v)) by (apply Rmult_le_compat_l; lra); lra).
  assert (us : (1 + u) * (q * v) + q * e + (q * pabs den + k * (q * e)) <= (1 + u) * s). { assert (0 <= u * (q * pabs den)) by now apply Rmult_le_pos. assert (0 <= u * (k * (q * e))) by now apply Rmult_le_pos. assert (0 <= u * (q * e)) by now apply Rmult_le_pos. unfold s. lra. }
  assert (uv : 0 <= u * (q * v)) by now apply Rmult_le_pos.
  assert (Fm : fin (Bmult mode_NE x (Bdiv mode_NE Bone lead))) by (apply mul_up; auto; lra).
  assert (Fr : fin (sop (B754_zero false) madd den)) by (apply sop_up; [exact Hm|exact Pd|]; fold n; fold q; fold k; lra).
  apply sub_up; auto. pose proof (sop_size madd den (proj1 Hm) Fr) as Sd. fold n in Sd. fold q in Sd. fold k in Sd. destruct (mul_fin prec emax Hprec Hmax _ _ Fm) as (_ & _ & E). set (m := B2R (Bmult _ _ _)) in *. set (p := B2R x * B2R (Bdiv mode_NE Bone lead)) in *.
  assert (Rabs m <= Rabs (m - p) + Rabs p) by (replace m with ((m - p) + p) at 1 by ring; apply Rabs_triang).
  eapply Rle_lt_trans; [|exact H']. apply Rmult_le_compat_l; lra.
Qed.

Lemma from_product_up madd (a b : float) (ps : list (float * float)) : steady_madd madd -> fin a -> fin b -> pfin ps ->
  G (length ps + 2) * (Rabs (B2R a * B2R b) + pabs ps) + INR (length ps + 1) * G (length ps + 1) * e < top ->
  fin (fold_left (fun acc p => madd acc (fst p) (snd p)) ps (Bmult mode_NE a b)) /\
  Rabs (B2R (fold_left (fun acc p => madd acc (fst p) (snd p)) ps (Bmult mode_NE a b))) <= G (length ps + 2) * (Rabs (B2R a * B2R b) + pabs ps) + INR (length ps + 1) * G (length ps + 1) * e.
Proof.
  intros Hm Fa Fb Fp H. pose proof (u0 prec) as U0. pose proof (e0 prec emax) as E0. pose proof (pabs_nonneg B2R ps) as Ap. set (p := B2R a * B2R b) in *. pose proof (Rabs_pos p) as P0.
  assert (B : fin (fold_left (fun acc p => madd acc (fst p) (snd p)) ps (Bmult mode_NE a b))).
  { replace (length ps + 2)%nat with (1 + (length ps + 1))%nat in H by lia. rewrite pow_add in H. rewrite plus_INR in H. change (INR 1) with 1 in H. cbn [pow] in H. rewrite Rmult_1_r in H. set (q := G (length ps + 1)) in *. assert (Hq : 1 <= q) by apply G_ge1. set (k := INR (length ps)) in *. assert (K0 : 0 <= k) by apply pos_INR.
    assert (Qe : e <= q * e) by (rewrite <- (Rmult_1_l e) at 1; apply Rmult_le_compat_r; lra). assert (Qk : 0 <= k * (q * e)) by (apply Rmult_le_pos; lra). assert (Qa : 0 <= q * pabs ps) by (apply Rmult_le_pos; lra). assert (Qp : Rabs p <= q * Rabs p) by (rewrite <- (Rmult_1_l (Rabs p)) at 1; apply Rmult_le_compat_r; lra). assert (0 <= u * (q * pabs ps)) by now apply Rmult_le_pos.
    assert (Fm : fin (Bmult mode_NE a b)). { apply mul_up; auto. fold p. assert ((1 + u) * Rabs p <= (1 + u) * (q * Rabs p)) by (apply Rmult_le_compat_l; lra). lra. }
    apply fold_up; auto. destruct (mul_fin prec emax Hprec Hmax _ _ Fm) as (_ & _ & E). set (m := B2R (Bmult _ _ _)) in *. fold p in E.
    assert (Rabs m <= (1 + u) * Rabs p + e) by (replace m with ((m - p) + p) by ring; eapply Rle_trans; [apply Rabs_triang|]; lra). assert (q * Rabs m <= q * ((1 + u) * Rabs p + e)) by (apply Rmult_le_compat_l; lra). fold q. fold k. lra. }
  split; [exact B|]. destruct (fold_from_product prec emax Hprec Hmax madd a b ps (proj1 Hm) B) as (_ & _ & _ & E). set (t := B2R (fold_left _ _ _)) in *. fold p in E. pose proof (psum_le B2R ps). pose proof (Rabs_triang p (psum ps)). replace t with ((t - (p + psum ps)) + (p + psum ps)) by ring. eapply Rle_trans; [apply Rabs_triang|]. lra.
Qed.
Lemma section_up madd (x0 x1 x2 y0 y1 b0 b1 b2 a0 a1 : float) : steady_madd madd -> fin x0 -> fin x1 -> fin x2 -> fin y0 -> fin y1 -> fin b0 -> fin b1 -> fin b2 -> fin a0 -> fin a1 ->
  let F v := B2R v in
  G 5 * (Rabs (F b2 * F x2) + Rabs (F b1 * F x1) + Rabs (F b0 * F x0) + Rabs (F a1 * F y1) + Rabs (F a0 * F y0)) + 5 * G 5 * e < top ->
  fin (Bminus mode_NE (madd (madd (Bmult mode_NE x0 b0) x1 b1) x2 b2) (madd (Bmult mode_NE y0 a0) y1 a1)).
Proof.
  intros Hm X0 X1 X2 Y0 Y1 B0 B1 B2 A0 A1 F H. unfold F in H. pose proof (u0 prec) as U0. pose proof (e0 prec emax) as E0.
  rewrite (Rmult_comm (B2R b0)), (Rmult_comm (B2R b1)), (Rmult_comm (B2R b2)), (Rmult_comm (B2R a0)), (Rmult_comm (B2R a1)) in H.
  pose proof (from_product_up madd x0 b0 [(x1, b1); (x2, b2)] Hm X0 B0) as HF. pose proof (from_product_up madd y0 a0 [(y1, a1)] Hm Y0 A0) as HR. cbn [fold_left fst snd length Nat.add] in HF, HR.
  unfold ConvFloat.pabs, sumR in HF, HR. cbn [map fold_right fst snd] in HF, HR. change (INR 3) with (1 + 1 + 1) in HF. change (INR 2) with (1 + 1) in HR.
  set (p0 := B2R x0 * B2R b0) in *. set (p1 := B2R x1 * B2R b1) in *. set (p2 := B2R x2 * B2R b2) in *. set (q0 := B2R y0 * B2R a0) in *. set (q1 := B2R y1 * B2R a1) in *.
  pose proof (Rabs_pos p0). pose proof (Rabs_pos p1). pose proof (Rabs_pos p2). pose proof (Rabs_pos q0). pose proof (Rabs_pos q1).
  pose proof (G_ge1 prec 4) as G4. pose proof (G_le prec 3 4 ltac:(lia)) as G34. pose proof (G_le prec 2 4 ltac:(lia)) as G24. change (G 5) with ((1 + u) * G 4) in H. set (g := G 4) in *.
  set (SF := g * (Rabs p0 + (Rabs p1 + (Rabs p2 + 0))) + (1 + 1 + 1) * G 3 * e) in *. set (SR := G 3 * (Rabs q0 + (Rabs q1 + 0)) + (1 + 1) * G 2 * e) in *.
  assert (SF0 : 0 <= SF). { unfold SF. pose proof (G_ge1 prec 3). apply Rplus_le_le_0_compat; [apply Rmult_le_pos; lra|apply Rmult_le_pos; lra]. }
  assert (SR0 : 0 <= SR). { unfold SR. pose proof (G_ge1 prec 3). pose proof (G_ge1 prec 2). apply Rplus_le_le_0_compat; [apply Rmult_le_pos; lra|apply Rmult_le_pos; lra]. }
  assert (LT : (1 + u) * (SF + SR) < top).
  { eapply Rle_lt_trans; [|exact H]. rewrite Rmult_assoc. assert (SF + SR <= g * (Rabs p2 + Rabs p1 + Rabs p0 + Rabs q1 + Rabs q0) + 5 * (g * e)).
    { unfold SF, SR. assert (G 3 * (Rabs q0 + (Rabs q1 + 0)) <= g * (Rabs q0 + (Rabs q1 + 0))) by (apply Rmult_le_compat_r; lra). assert (G 3 * e <= g * e) by (apply Rmult_le_compat_r; lra). assert (G 2 * e <= g * e) by (apply Rmult_le_compat_r; lra). lra. }
    apply Rle_trans with ((1 + u) * (g * (Rabs p2 + Rabs p1 + Rabs p0 + Rabs q1 + Rabs q0) + 5 * (g * e))); [apply Rmult_le_compat_l; lra|]. apply Req_le. ring. }
  assert (0 <= u * (SF + SR)) by (apply Rmult_le_pos; lra).
  destruct HF as [F1 M1]; [intros p [<-|[<-|[]]]; auto|lra|]. destruct HR as [F2 M2]; [intros p [<-|[]]; auto|lra|].
  apply sub_up; auto. eapply Rle_lt_trans; [|exact LT]. apply Rmult_le_compat_l; lra.
Qed.
End Ieee.
