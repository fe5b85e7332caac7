(** Rounding in the IIR realizations: a finite result was computed from finite operands, each
    operation with its rounding error. *)
From Verif Require Import Base BaseFacts Complex KernelModel KernelProofs ConvModel ConvProofs FloatSpec ReduceTree FloatSum FloatIeee ConvTree ConvFloat FloatStat IirModel IirProofs IirTree.
From Coq Require Import Reals Lra Lia List ZArith Arith Psatz.
From Flocq Require Import Core Plus_error Relative BinarySingleNaN.
Import ListNotations.
Local Open Scope R_scope.

Section Ieee.
Variables prec emax : Z.
Context (Hprec : Prec_gt_0 prec) (Hmax : Prec_lt_emax prec emax).
Notation float := (binary_float prec emax).
Notation rnd := (round radix2 (FLT_exp (3 - emax - prec) prec) ZnearestE).
Notation u := (ur prec).
Notation eta := (tiny prec emax).
Notation fin x := (is_finite x = true).

Lemma not_overflow (x : float) s : fin x -> B2SF x = binary_overflow prec emax mode_NE s -> False.
Proof. intros F E. destruct x; discriminate. Qed.

Lemma add_fin (a b : float) : fin (Bplus mode_NE a b) ->
  fin a /\ fin b /\ Rabs (B2R (Bplus mode_NE a b) - (B2R a + B2R b)) <= u * Rabs (B2R a + B2R b).
Proof.
  intros F. assert (Fa : fin a) by (destruct a as [?|?| |? ? ? ?], b as [?|?| |? ? ? ?]; try reflexivity; try discriminate F; cbn in F; destruct (Bool.eqb _ _) in F; discriminate F).
  assert (Fb : fin b) by (destruct b as [?|?| |? ? ? ?], a as [?|?| |? ? ? ?]; try reflexivity; try discriminate F; try discriminate Fa).
  split; [exact Fa|]. split; [exact Fb|].
  destruct (FLT_plus_error_N_ex radix2 (3 - emax - prec) prec (fun x => negb (Z.even x)) (B2R a) (B2R b)
             (generic_format_B2R prec emax a) (generic_format_B2R prec emax b)) as (e & He & E).
  assert (HE : Rabs (rnd (B2R a + B2R b) - (B2R a + B2R b)) <= u * Rabs (B2R a + B2R b)).
  { rewrite E. replace ((B2R a + B2R b) * (1 + e) - (B2R a + B2R b)) with (e * (B2R a + B2R b)) by ring.
    rewrite Rabs_mult. apply Rmult_le_compat_r; [apply Rabs_pos|now apply eps_le]. }
  pose proof (Bplus_correct prec emax Hprec Hmax mode_NE a b Fa Fb) as C.
  change (round radix2 (SpecFloat.fexp prec emax) (round_mode mode_NE) (B2R a + B2R b)) with (rnd (B2R a + B2R b)) in C.
  destruct (Rlt_bool _ _); [destruct C as (C1 & _); now rewrite C1|]. exfalso. eapply not_overflow; [exact F|apply C].
Qed.
Lemma sub_fin (a b : float) : fin (Bminus mode_NE a b) ->
  fin a /\ fin b /\ Rabs (B2R (Bminus mode_NE a b) - (B2R a - B2R b)) <= u * Rabs (B2R a - B2R b).
Proof.
  intros F. assert (Fa : fin a) by (destruct a as [?|?| |? ? ? ?], b as [?|?| |? ? ? ?]; try reflexivity; try discriminate F; cbn in F; destruct (Bool.eqb _ _) in F; discriminate F).
  assert (Fb : fin b) by (destruct b as [?|?| |? ? ? ?], a as [?|?| |? ? ? ?]; try reflexivity; try discriminate F; try discriminate Fa).
  split; [exact Fa|]. split; [exact Fb|].
  destruct (FLT_plus_error_N_ex radix2 (3 - emax - prec) prec (fun x => negb (Z.even x)) (B2R a) (- B2R b)
             (generic_format_B2R prec emax a) (generic_format_opp _ _ _ (generic_format_B2R prec emax b))) as (e & He & E).
  change (B2R a + - B2R b) with (B2R a - B2R b) in E.
  assert (HE : Rabs (rnd (B2R a - B2R b) - (B2R a - B2R b)) <= u * Rabs (B2R a - B2R b)).
  { rewrite E. replace ((B2R a - B2R b) * (1 + e) - (B2R a - B2R b)) with (e * (B2R a - B2R b)) by ring.
    rewrite Rabs_mult. apply Rmult_le_compat_r; [apply Rabs_pos|now apply eps_le]. }
  pose proof (Bminus_correct prec emax Hprec Hmax mode_NE a b Fa Fb) as C.
  change (round radix2 (SpecFloat.fexp prec emax) (round_mode mode_NE) (B2R a - B2R b)) with (rnd (B2R a - B2R b)) in C.
  destruct (Rlt_bool _ _); [destruct C as (C1 & _); now rewrite C1|]. exfalso. eapply not_overflow; [exact F|apply C].
Qed.
Lemma mul_fin (a b : float) : fin (Bmult mode_NE a b) ->
  fin a /\ fin b /\ Rabs (B2R (Bmult mode_NE a b) - B2R a * B2R b) <= u * Rabs (B2R a * B2R b) + eta / 2.
Proof.
  intros F. assert (Fa : fin a) by (destruct a as [?|?| |? ? ? ?], b as [?|?| |? ? ? ?]; try reflexivity; discriminate F).
  assert (Fb : fin b) by (destruct b as [?|?| |? ? ? ?], a as [?|?| |? ? ? ?]; try reflexivity; discriminate F).
  split; [exact Fa|]. split; [exact Fb|].
  pose proof (rnd_err prec emax Hprec (B2R a * B2R b)) as HE.
  pose proof (Bmult_correct prec emax Hprec Hmax mode_NE a b) as C.
  change (round radix2 (SpecFloat.fexp prec emax) (round_mode mode_NE) (B2R a * B2R b)) with (rnd (B2R a * B2R b)) in C.
  destruct (Rlt_bool _ _); [destruct C as (C1 & _); now rewrite C1|]. exfalso. eapply not_overflow; [exact F|apply C].
Qed.
Lemma fma_fin (a b c : float) : fin (Bfma mode_NE a b c) ->
  fin a /\ fin b /\ fin c /\ Rabs (B2R (Bfma mode_NE a b c) - (B2R a * B2R b + B2R c)) <= u * Rabs (B2R a * B2R b + B2R c) + eta / 2.
Proof.
  intros F.
  assert (Fs : fin a /\ fin b /\ fin c).
  { destruct a as [?|?| |? ? ? ?], b as [?|?| |? ? ? ?], c as [?|?| |? ? ? ?]; repeat split; try reflexivity; try discriminate F;
      cbn in F; try (destruct (Bool.eqb _ _) in F; discriminate F). }
  destruct Fs as (Fa & Fb & Fc). split; [exact Fa|]. split; [exact Fb|]. split; [exact Fc|].
  pose proof (rnd_err prec emax Hprec (B2R a * B2R b + B2R c)) as HE.
  pose proof (Bfma_correct prec emax Hprec Hmax mode_NE a b c Fa Fb Fc) as C. cbv zeta in C.
  change (round radix2 (SpecFloat.fexp prec emax) (round_mode mode_NE) (B2R a * B2R b + B2R c)) with (rnd (B2R a * B2R b + B2R c)) in C.
  destruct (Rlt_bool _ _); [destruct C as (C1 & _); now rewrite C1|]. exfalso. eapply not_overflow; [exact F|apply C].
Qed.

Notation e := (eta / 2).
Notation G n := ((1 + u) ^ n).
Lemma u0 : 0 <= u. Proof. apply bpow_ge_0. Qed.
Lemma e0 : 0 <= e. Proof. pose proof (bpow_ge_0 radix2 (3 - emax - prec)). unfold tiny. lra. Qed.
Lemma G_ge1 n : 1 <= G n. Proof. apply pow_R1_Rle. pose proof u0. lra. Qed.
Lemma G_le m n : (m <= n)%nat -> G m <= G n. Proof. intros H. apply Rle_pow; [pose proof u0; lra|exact H]. Qed.

Definition good_madd (madd : float -> float -> float -> float) : Prop := forall t a b, fin (madd t a b) ->
  fin t /\ fin a /\ fin b /\
  Rabs (B2R (madd t a b) - (B2R t + B2R a * B2R b)) <= u * Rabs (B2R t) + (2 * u + u * u) * Rabs (B2R a * B2R b) + (1 + u) * e.
Lemma madd_unfused : good_madd (fun t a b => Bplus mode_NE t (Bmult mode_NE a b)).
Proof.
  intros t a b F. apply add_fin in F as (Ft & Fm & E1). apply mul_fin in Fm as (Fa & Fb & E2). split; [exact Ft|]. split; [exact Fa|]. split; [exact Fb|].
  set (m := B2R (Bmult mode_NE a b)) in *. set (p := B2R a * B2R b) in *. set (r := B2R (Bplus _ _ _)) in *. pose proof u0. pose proof e0.
  replace (r - (B2R t + p)) with ((r - (B2R t + m)) + (m - p)) by ring. eapply Rle_trans; [apply Rabs_triang|].
  assert (M : Rabs m <= (1 + u) * Rabs p + e).
  { replace m with ((m - p) + p) by ring. eapply Rle_trans; [apply Rabs_triang|]. lra. }
  assert (T : Rabs (B2R t + m) <= Rabs (B2R t) + Rabs m) by apply Rabs_triang.
  assert (u * Rabs (B2R t + m) <= u * (Rabs (B2R t) + ((1 + u) * Rabs p + e))) by (apply Rmult_le_compat_l; lra).
  lra.
Qed.
Lemma madd_fused : good_madd (fun t a b => Bfma mode_NE a b t).
Proof.
  intros t a b F. apply fma_fin in F as (Fa & Fb & Ft & E1). split; [exact Ft|]. split; [exact Fa|]. split; [exact Fb|].
  set (p := B2R a * B2R b) in *. set (r := B2R (Bfma _ _ _ _)) in *. pose proof u0. pose proof e0.
  replace (r - (B2R t + p)) with (r - (p + B2R t)) by ring. eapply Rle_trans; [exact E1|].
  pose proof (Rabs_triang p (B2R t)) as T. assert (u * Rabs (p + B2R t) <= u * (Rabs p + Rabs (B2R t))) by (apply Rmult_le_compat_l; lra).
  assert (0 <= u * u * Rabs p) by (apply Rmult_le_pos; [nra|apply Rabs_pos]). assert (0 <= u * Rabs p) by (apply Rmult_le_pos; [lra|apply Rabs_pos]). assert (0 <= u * e) by nra. lra.
Qed.

Notation psum := (psum B2R).
Notation pabs := (pabs B2R).
Definition pfin (ps : list (float * float)) : Prop := forall p, In p ps -> fin (fst p) /\ fin (snd p).
Lemma fold_err madd s ps : good_madd madd -> fin (fold_left (fun acc p => madd acc (fst p) (snd p)) ps s) ->
  fin s /\ pfin ps /\
  Rabs (B2R (fold_left (fun acc p => madd acc (fst p) (snd p)) ps s) - (B2R s + psum ps)) <=
    (G (length ps + 1) - 1) * (Rabs (B2R s) + pabs ps) + INR (length ps) * G (length ps + 1) * e.
Proof.
  intros Hg. pose proof u0 as U0. pose proof e0 as E0. induction ps as [|[a b] l IH] using rev_ind; intros F.
  - split; [exact F|]. split; [intros p []|]. cbn [fold_left length]. unfold ConvFloat.psum, ConvFloat.pabs, sumR. cbn [map fold_right fold_left].
    replace (B2R s - (B2R s + 0)) with 0 by ring. rewrite Rabs_R0. pose proof (G_ge1 (0 + 1)). pose proof (Rabs_pos (B2R s)). cbn [INR]. nra.
  - rewrite fold_left_app in *. cbn [fold_left fst snd] in *. set (t := fold_left _ l s) in *.
    destruct (Hg t a b F) as (Ft & Fa & Fb & E). destruct (IH Ft) as (Fs & Fl & El). split; [exact Fs|]. split.
    { intros p Hp. apply in_app_or in Hp as [Hp|[<-|[]]]; [now apply Fl|]. auto. }
    rewrite psum_snoc, pabs_snoc, app_length. cbn [length].
    replace (length l + 1 + 1)%nat with (S (length l + 1)) by lia. rewrite plus_INR. change (INR 1) with 1. cbn [pow].
    set (q := G (length l + 1)) in *. assert (Hq : 1 + u <= q).
    { pose proof (G_le 1 (length l + 1) ltac:(lia)) as Q. cbn [pow] in Q. rewrite Rmult_1_r in Q. exact Q. }
    set (x := Rabs (B2R a * B2R b)) in *. assert (Hx : 0 <= x) by apply Rabs_pos.
    set (A := Rabs (B2R s) + pabs l) in *. replace (Rabs (B2R s) + (pabs l + x)) with (A + x) by (unfold A; ring).
    set (n := INR (length l)) in *. assert (Hn : 0 <= n) by apply pos_INR.
    set (T := B2R s + psum l) in *. assert (HT : Rabs T <= A).
    { unfold T, A. eapply Rle_trans; [apply Rabs_triang|]. apply Rplus_le_compat_l. apply psum_le. }
    assert (Hne : 0 <= n * q * e) by (apply Rmult_le_pos; [apply Rmult_le_pos|]; lra).
    set (r := B2R (madd t a b)) in *. replace (r - (B2R s + (psum l + B2R a * B2R b))) with ((r - (B2R t + B2R a * B2R b)) + (B2R t - T)) by (unfold T; ring).
    eapply Rle_trans; [apply Rabs_triang|].
    assert (Ht : Rabs (B2R t) <= q * A + n * q * e).
    { replace (B2R t) with ((B2R t - T) + T) by ring. eapply Rle_trans; [apply Rabs_triang|]. lra. }
    assert (H1 : u * Rabs (B2R t) <= u * (q * A + n * q * e)) by (apply Rmult_le_compat_l; lra).
    assert (H2 : (2 * u + u * u) * x <= ((1 + u) * q - 1) * x) by (apply Rmult_le_compat_r; nra).
    assert (H3 : (1 + u) * e <= (1 + u) * q * e) by (apply Rmult_le_compat_r; nra).
    lra.
Qed.
Lemma sop_err madd ps : good_madd madd -> fin (sop (B754_zero false) madd ps) ->
  pfin ps /\ Rabs (B2R (sop (B754_zero false) madd ps) - psum ps) <= (G (length ps + 1) - 1) * pabs ps + INR (length ps) * G (length ps + 1) * e.
Proof.
  intros Hg F. destruct (fold_err madd (B754_zero false) ps Hg F) as (_ & Fp & E). split; [exact Fp|].
  cbn [B2R] in E. rewrite Rabs_R0, !Rplus_0_l in E. exact E.
Qed.
Lemma psum_flip ps : psum (map flip_pair ps) = psum ps /\ pabs (map flip_pair ps) = pabs ps /\ (pfin (map flip_pair ps) -> pfin ps).
Proof.
  unfold ConvFloat.psum, ConvFloat.pabs. rewrite !map_map. cbn [flip_pair fst snd]. repeat split.
  - f_equal. apply map_ext. intros p. apply Rmult_comm.
  - f_equal. apply map_ext. intros p. now rewrite Rmult_comm.
  - apply (H (flip_pair p)). now apply in_map.
  - apply (H (flip_pair p)). now apply in_map.
Qed.

(** leading coefficient: its inverse is a normal number *)
Lemma inverse_ok (a : float) : fin a -> B2R a <> 0 -> Rabs (B2R a) <= bpow radix2 (emax - 2) -> fin (Bdiv mode_NE Bone a) ->
  exists d, Rabs d <= u /\ B2R (Bdiv mode_NE Bone a) = / B2R a * (1 + d).
Proof.
  intros Fa Ha Hr F. pose proof (Bdiv_correct prec emax Hprec Hmax mode_NE Bone a Ha) as C. rewrite Bone_correct in C.
  change (round radix2 (SpecFloat.fexp prec emax) (round_mode mode_NE) (1 / B2R a)) with (rnd (1 / B2R a)) in C.
  replace (1 / B2R a) with (/ B2R a) in C by (unfold Rdiv; ring).
  assert (N : bpow radix2 (3 - emax - prec + prec - 1) <= Rabs (/ B2R a)).
  { rewrite Rabs_inv. replace (3 - emax - prec + prec - 1)%Z with (- (emax - 2))%Z by ring. rewrite bpow_opp.
    apply Rinv_le; [now apply Rabs_pos_lt|exact Hr]. }
  destruct (relative_error_N_FLT_ex radix2 (3 - emax - prec) prec Hprec (fun x => negb (Z.even x)) (/ B2R a) N) as (d & Hd & E).
  exists d. split.
  - eapply Rle_trans; [exact Hd|]. unfold ur. rewrite bpow_plus. change (bpow radix2 1) with 2. lra.
  - destruct (Rlt_bool _ _); [destruct C as (C1 & _); rewrite C1; exact E|]. exfalso. eapply not_overflow; [exact F|apply C].
Qed.
Lemma err_trans a b c k A h : Rabs (a - b) <= (G k - 1) * A + h -> Rabs b <= A -> forall m g, Rabs (c - a) <= (G m - 1) * Rabs a + g ->
  Rabs (c - b) <= (G (k + m) - 1) * A + G m * h + g.
Proof.
  intros H1 H2 m g H3. pose proof (G_ge1 k). pose proof (G_ge1 m). replace (c - b) with ((c - a) + (a - b)) by ring. eapply Rle_trans; [apply Rabs_triang|].
  rewrite pow_add. assert (Ha : Rabs a <= G k * A + h).
  { replace a with ((a - b) + b) by ring. eapply Rle_trans; [apply Rabs_triang|]. lra. }
  assert (H4 : (G m - 1) * Rabs a <= (G m - 1) * (G k * A + h)) by (apply Rmult_le_compat_l; lra). lra.
Qed.

(** direct form I: the recursion of [df1_rule], bounded *)
Lemma df1_bound madd (S : float) (num den : list (float * float)) (lead : float) N : good_madd madd -> fin lead -> B2R lead <> 0 ->
  Rabs (B2R lead) <= bpow radix2 (emax - 2) -> (length num <= N)%nat -> (length den <= N)%nat ->
  S = Bmult mode_NE (Bminus mode_NE (sop (B754_zero false) madd num) (sop (B754_zero false) madd den)) (Bdiv mode_NE Bone lead) -> fin S ->
  pfin num /\ pfin den /\
  Rabs (B2R lead * B2R S + psum den - psum num) <= (G (N + 4) - 1) * (pabs num + pabs den) + (INR (length num + length den) * G (N + 4) + Rabs (B2R lead)) * e.
Proof.
  intros Hg Fl Hl Hr HN HD -> F. pose proof u0 as U0. pose proof e0 as E0.
  apply mul_fin in F as (Fd & Fv & E3). destruct (inverse_ok lead Fl Hl Hr Fv) as (d & Hd & Ed). rewrite Ed in *. clear Ed Fv.
  apply sub_fin in Fd as (Ff & Fr & E2). set (D := Bminus _ _ _) in *. apply (sop_err madd num Hg) in Ff as (Pn & E1n). apply (sop_err madd den Hg) in Fr as (Pd & E1d).
  split; [exact Pn|]. split; [exact Pd|].
  set (sf := B2R (sop _ madd num)) in *. set (sr := B2R (sop _ madd den)) in *. set (y := B2R (Bmult mode_NE D (Bdiv mode_NE Bone lead))) in *. set (l := B2R lead) in *.
  assert (An : 0 <= pabs num) by apply pabs_nonneg. assert (Ad : 0 <= pabs den) by apply pabs_nonneg.
  assert (In : 0 <= INR (length num)) by apply pos_INR. assert (Id : 0 <= INR (length den)) by apply pos_INR.
  assert (H1 : Rabs ((sf - sr) - (psum num - psum den)) <= (G (N + 1) - 1) * (pabs num + pabs den) + INR (length num + length den) * G (N + 1) * e).
  { replace ((sf - sr) - (psum num - psum den)) with ((sf - psum num) - (sr - psum den)) by ring. eapply Rle_trans; [apply Rabs_triang|]. rewrite Rabs_Ropp.
    rewrite plus_INR. pose proof (G_le (length num + 1) (N + 1) ltac:(lia)) as G1. pose proof (G_le (length den + 1) (N + 1) ltac:(lia)) as G2.
    assert ((G (length num + 1) - 1) * pabs num <= (G (N + 1) - 1) * pabs num) by (apply Rmult_le_compat_r; lra).
    assert ((G (length den + 1) - 1) * pabs den <= (G (N + 1) - 1) * pabs den) by (apply Rmult_le_compat_r; lra).
    assert (INR (length num) * G (length num + 1) * e <= INR (length num) * G (N + 1) * e) by (apply Rmult_le_compat_r; [lra|]; apply Rmult_le_compat_l; lra).
    assert (INR (length den) * G (length den + 1) * e <= INR (length den) * G (N + 1) * e) by (apply Rmult_le_compat_r; [lra|]; apply Rmult_le_compat_l; lra).
    lra. }
  assert (HA : Rabs (psum num - psum den) <= pabs num + pabs den).
  { eapply Rle_trans; [apply Rabs_triang|]. rewrite Rabs_Ropp. apply Rplus_le_compat; apply psum_le. }
  assert (H2 : Rabs (l * y - (sf - sr)) <= (G 3 - 1) * Rabs (sf - sr) + Rabs l * e).
  { set (b := sf - sr) in *. set (dd := B2R D) in *.
    assert (Hdd : Rabs (dd * (1 + d)) <= (1 + u) * ((1 + u) * Rabs b)).
    { rewrite Rabs_mult, Rmult_comm. apply Rmult_le_compat; try apply Rabs_pos.
      - eapply Rle_trans; [apply Rabs_triang|]. rewrite Rabs_R1. lra.
      - replace dd with ((dd - b) + b) by ring. eapply Rle_trans; [apply Rabs_triang|]. lra. }
    assert (K1 : Rabs (l * y - dd * (1 + d)) <= u * Rabs (dd * (1 + d)) + Rabs l * e).
    { replace (l * y - dd * (1 + d)) with (l * (y - dd * (/ l * (1 + d)))) by (field; exact Hl). rewrite Rabs_mult.
      eapply Rle_trans; [apply Rmult_le_compat_l; [apply Rabs_pos|exact E3]|].
      replace (dd * (/ l * (1 + d))) with (/ l * (dd * (1 + d))) by ring. rewrite Rabs_mult, Rabs_inv.
      replace (Rabs l * (u * (/ Rabs l * Rabs (dd * (1 + d))) + e)) with (u * Rabs (dd * (1 + d)) + Rabs l * e) by (field; now apply Rabs_no_R0). lra. }
    replace (l * y - b) with ((l * y - dd * (1 + d)) + (dd - b) * (1 + d) + b * d) by ring.
    assert (K2 : Rabs ((dd - b) * (1 + d)) <= u * Rabs b * (1 + u)).
    { rewrite Rabs_mult. apply Rmult_le_compat; try apply Rabs_pos; [exact E2|]. eapply Rle_trans; [apply Rabs_triang|]. rewrite Rabs_R1. lra. }
    assert (K3 : Rabs (b * d) <= u * Rabs b) by (rewrite Rabs_mult, Rmult_comm; apply Rmult_le_compat_r; [apply Rabs_pos|exact Hd]).
    eapply Rle_trans; [apply Rabs_triang|]. eapply Rle_trans; [apply Rplus_le_compat_r, Rabs_triang|].
    assert (K4 : u * Rabs (dd * (1 + d)) <= u * ((1 + u) * ((1 + u) * Rabs b))) by (apply Rmult_le_compat_l; lra).
    cbn [pow]. lra. }
  pose proof (err_trans _ _ (l * y) _ _ _ H1 HA 3 _ H2) as H.
  replace (N + 1 + 3)%nat with (N + 4)%nat in H by lia. replace (l * y + psum den - psum num) with (l * y - (psum num - psum den)) by ring.
  eapply Rle_trans; [exact H|]. replace (N + 4)%nat with (3 + (N + 1))%nat by lia. rewrite pow_add. lra.
Qed.

Lemma df2_bound madd (w x : float) (den : list (float * float)) (lead : float) : good_madd madd -> fin lead -> B2R lead <> 0 ->
  Rabs (B2R lead) <= bpow radix2 (emax - 2) ->
  w = Bminus mode_NE (Bmult mode_NE x (Bdiv mode_NE Bone lead)) (sop (B754_zero false) madd den) -> fin w ->
  fin x /\ pfin den /\
  Rabs (B2R w + psum den - B2R x / B2R lead) <=
    (G (length den + 3) - 1) * (Rabs (B2R x / B2R lead) + pabs den) + INR (length den + 1) * G (length den + 3) * e.
Proof.
  intros Hg Fl Hl Hr -> F. pose proof u0 as U0. pose proof e0 as E0.
  apply sub_fin in F as (Fm & Fr & E3). apply mul_fin in Fm as (Fx & Fv & E2). destruct (inverse_ok lead Fl Hl Hr Fv) as (d & Hd & Ed). rewrite Ed in *. clear Ed Fv.
  apply (sop_err madd den Hg) in Fr as (Pd & E1). split; [exact Fx|]. split; [exact Pd|].
  set (sr := B2R (sop _ madd den)) in *. set (p := B2R (Bmult mode_NE x (Bdiv mode_NE Bone lead))) in *. set (w := B2R (Bminus _ _ _)) in *.
  set (v := B2R x / B2R lead) in *. replace (B2R x * (/ B2R lead * (1 + d))) with (v * (1 + d)) in E2 by (unfold v, Rdiv; ring).
  assert (Ad : 0 <= pabs den) by apply pabs_nonneg. assert (Id : 0 <= INR (length den)) by apply pos_INR. pose proof (Rabs_pos v) as V0.
  assert (H0 : Rabs (p - v) <= (G 2 - 1) * Rabs v + e).
  { assert (K : Rabs (v * (1 + d)) <= (1 + u) * Rabs v).
    { rewrite Rabs_mult, Rmult_comm. apply Rmult_le_compat_r; [exact V0|]. eapply Rle_trans; [apply Rabs_triang|]. rewrite Rabs_R1. lra. }
    assert (K3 : Rabs (v * d) <= u * Rabs v) by (rewrite Rabs_mult, Rmult_comm; apply Rmult_le_compat_r; [exact V0|exact Hd]).
    assert (K4 : u * Rabs (v * (1 + d)) <= u * ((1 + u) * Rabs v)) by (apply Rmult_le_compat_l; lra).
    replace (p - v) with ((p - v * (1 + d)) + v * d) by ring. eapply Rle_trans; [apply Rabs_triang|]. cbn [pow]. lra. }
  set (n := length den) in *.
  assert (H1 : Rabs ((p - sr) - (v - psum den)) <= (G (n + 2) - 1) * (Rabs v + pabs den) + INR (n + 1) * G (n + 2) * e).
  { replace ((p - sr) - (v - psum den)) with ((p - v) - (sr - psum den)) by ring. eapply Rle_trans; [apply Rabs_triang|]. rewrite Rabs_Ropp.
    rewrite plus_INR. change (INR 1) with 1. pose proof (G_le 2 (n + 2) ltac:(lia)) as G1. pose proof (G_le (n + 1) (n + 2) ltac:(lia)) as G2. pose proof (G_ge1 (n + 2)) as G3.
    assert ((G 2 - 1) * Rabs v <= (G (n + 2) - 1) * Rabs v) by (apply Rmult_le_compat_r; lra).
    assert ((G (n + 1) - 1) * pabs den <= (G (n + 2) - 1) * pabs den) by (apply Rmult_le_compat_r; lra).
    assert (INR n * G (n + 1) * e <= INR n * G (n + 2) * e) by (apply Rmult_le_compat_r; [lra|]; apply Rmult_le_compat_l; lra).
    assert (1 * e <= G (n + 2) * e) by (apply Rmult_le_compat_r; lra). lra. }
  assert (HA : Rabs (v - psum den) <= Rabs v + pabs den).
  { eapply Rle_trans; [apply Rabs_triang|]. rewrite Rabs_Ropp. apply Rplus_le_compat_l. apply psum_le. }
  assert (H2 : Rabs (w - (p - sr)) <= (G 1 - 1) * Rabs (p - sr) + 0) by (cbn [pow]; lra).
  pose proof (err_trans _ _ w _ _ _ H1 HA 1 _ H2) as H. replace (n + 2 + 1)%nat with (n + 3)%nat in H by lia.
  replace (w + psum den - v) with (w - (v - psum den)) by ring. eapply Rle_trans; [exact H|].
  replace (n + 3)%nat with (1 + (n + 2))%nat by lia. rewrite (pow_add _ 1). lra.
Qed.

(** one section of a cascade *)
Lemma fold_from_product madd (a b : float) (ps : list (float * float)) : good_madd madd ->
  fin (fold_left (fun acc p => madd acc (fst p) (snd p)) ps (Bmult mode_NE a b)) ->
  fin a /\ fin b /\ pfin ps /\
  Rabs (B2R (fold_left (fun acc p => madd acc (fst p) (snd p)) ps (Bmult mode_NE a b)) - (B2R a * B2R b + psum ps)) <=
    (G (length ps + 2) - 1) * (Rabs (B2R a * B2R b) + pabs ps) + INR (length ps + 1) * G (length ps + 1) * e.
Proof.
  intros Hg F. pose proof u0 as U0. pose proof e0 as E0. destruct (fold_err madd _ ps Hg F) as (Fm & Fp & E). apply mul_fin in Fm as (Fa & Fb & Em).
  split; [exact Fa|]. split; [exact Fb|]. split; [exact Fp|]. set (r := B2R (fold_left _ _ _)) in *. set (m := B2R (Bmult mode_NE a b)) in *. set (p := B2R a * B2R b) in *.
  set (q := G (length ps + 1)) in *. assert (Hq : 1 <= q) by apply G_ge1. replace (length ps + 2)%nat with (1 + (length ps + 1))%nat by lia. rewrite pow_add. fold q.
  replace (r - (p + psum ps)) with ((r - (m + psum ps)) + (m - p)) by ring. eapply Rle_trans; [apply Rabs_triang|].
  assert (M : Rabs m <= (1 + u) * Rabs p + e).
  { replace m with ((m - p) + p) by ring. eapply Rle_trans; [apply Rabs_triang|]. lra. }
  assert ((q - 1) * Rabs m <= (q - 1) * ((1 + u) * Rabs p + e)) by (apply Rmult_le_compat_l; lra).
  assert (0 <= pabs ps) by apply pabs_nonneg. assert (0 <= u * q * pabs ps) by (apply Rmult_le_pos; nra).
  rewrite plus_INR. change (INR 1) with 1. cbn [pow]. lra.
Qed.
Lemma section_bound madd (y x0 x1 x2 y0 y1 b0 b1 b2 a0 a1 : float) : good_madd madd ->
  y = Bminus mode_NE (madd (madd (Bmult mode_NE x0 b0) x1 b1) x2 b2) (madd (Bmult mode_NE y0 a0) y1 a1) -> fin y ->
  (fin x0 /\ fin x1 /\ fin x2) /\ (fin y0 /\ fin y1) /\
  let F v := B2R v in
  Rabs (F y + F a1 * F y1 + F a0 * F y0 - (F b2 * F x2 + F b1 * F x1 + F b0 * F x0)) <=
    (G 5 - 1) * (Rabs (F b2 * F x2) + Rabs (F b1 * F x1) + Rabs (F b0 * F x0) + Rabs (F a1 * F y1) + Rabs (F a0 * F y0)) + 5 * G 5 * e.
Proof.
  intros Hg -> Fy. pose proof u0 as U0. pose proof e0 as E0. apply sub_fin in Fy as (Ff & Fr & E).
  pose proof (fold_from_product madd x0 b0 [(x1, b1); (x2, b2)] Hg) as HF. cbn [fold_left fst snd length Nat.add] in HF. specialize (HF Ff). destruct HF as (Fx0 & Fb0 & Px & EF).
  pose proof (fold_from_product madd y0 a0 [(y1, a1)] Hg) as HR. cbn [fold_left fst snd length Nat.add] in HR. specialize (HR Fr). destruct HR as (Fy0 & Fa0 & Py & ER).
  split; [split; [exact Fx0|]; split; [apply (Px (x1, b1)); now left|apply (Px (x2, b2)); now (right; left)]|].
  split; [split; [exact Fy0|apply (Py (y1, a1)); now left]|]. cbv zeta.
  unfold ConvFloat.psum, ConvFloat.pabs, sumR in EF, ER. cbn [map fold_right fold_left fst snd] in EF, ER.
  set (w := B2R (Bminus _ _ _)) in *. set (sf := B2R (madd (madd _ _ _) _ _)) in *. set (sr := B2R (madd (Bmult mode_NE y0 a0) _ _)) in *.
  rewrite (Rmult_comm (B2R b0)), (Rmult_comm (B2R b1)), (Rmult_comm (B2R b2)), (Rmult_comm (B2R a0)), (Rmult_comm (B2R a1)).
  set (p0 := B2R x0 * B2R b0) in *. set (p1 := B2R x1 * B2R b1) in *. set (p2 := B2R x2 * B2R b2) in *. set (q0 := B2R y0 * B2R a0) in *. set (q1 := B2R y1 * B2R a1) in *.
  pose proof (Rabs_pos p0). pose proof (Rabs_pos p1). pose proof (Rabs_pos p2). pose proof (Rabs_pos q0). pose proof (Rabs_pos q1).
  change (INR 3) with (1 + 1 + 1) in EF. change (INR 2) with (1 + 1) in ER.
  pose proof (G_le 3 4 ltac:(lia)) as G34. pose proof (G_le 2 4 ltac:(lia)) as G24.
  set (A := Rabs p2 + Rabs p1 + Rabs p0 + Rabs q1 + Rabs q0).
  assert (B1 : Rabs ((sf - sr) - (p2 + p1 + p0 - q1 - q0)) <= (G 4 - 1) * A + 5 * G 4 * e).
  { replace ((sf - sr) - (p2 + p1 + p0 - q1 - q0)) with ((sf - (p0 + (p1 + (p2 + 0)))) - (sr - (q0 + (q1 + 0)))) by ring.
    eapply Rle_trans; [apply Rabs_triang|]. rewrite Rabs_Ropp.
    assert ((G 3 - 1) * (Rabs q0 + (Rabs q1 + 0)) <= (G 4 - 1) * (Rabs q0 + (Rabs q1 + 0))) by (apply Rmult_le_compat_r; lra).
    assert ((1 + 1 + 1) * G 3 * e <= 3 * G 4 * e) by (apply Rmult_le_compat_r; lra).
    assert ((1 + 1) * G 2 * e <= 2 * G 4 * e) by (apply Rmult_le_compat_r; lra).
    unfold A. lra. }
  assert (HA : Rabs (p2 + p1 + p0 - q1 - q0) <= A).
  { unfold A. replace (p2 + p1 + p0 - q1 - q0) with (p2 + p1 + p0 + - q1 + - q0) by ring. rewrite <- (Rabs_Ropp q0), <- (Rabs_Ropp q1).
    eapply Rle_trans; [apply Rabs_triang|]. apply Rplus_le_compat_r. eapply Rle_trans; [apply Rabs_triang|]. apply Rplus_le_compat_r.
    eapply Rle_trans; [apply Rabs_triang|]. apply Rplus_le_compat_r. apply Rabs_triang. }
  assert (B2 : Rabs (w - (sf - sr)) <= (G 1 - 1) * Rabs (sf - sr) + 0) by (cbn [pow]; lra).
  pose proof (err_trans _ _ w _ _ _ B1 HA 1 _ B2) as K. change (4 + 1)%nat with 5%nat in K.
  fold w. replace (w + q1 + q0 - (p2 + p1 + p0)) with (w - (p2 + p1 + p0 - q1 - q0)) by ring. eapply Rle_trans; [exact K|]. unfold A. cbn [pow]. lra.
Qed.
End Ieee.
