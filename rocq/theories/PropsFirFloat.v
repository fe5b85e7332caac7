(** C77: streaming FIR filtering in floating-point arithmetic. *)
From Coq Require Import Reals Lra Lia List ZArith Arith Psatz.
From Flocq Require Import Core BinarySingleNaN.
From Verif Require Import Base BaseFacts IntervalModel Complex KernelModel KernelProofs ConvModel ConvProofs FirModel FirProofs FloatSpec ReduceTree FloatSum FloatIeee PropsFloat ConvTree ConvFloat PropsConvFloat FirFloat.
From Coq Require Import ZifyBool ZifyNat.
Import ListNotations.
Open Scope Z_scope.

(** ** Any arithmetic *)
(** streaming succeeds block after block in any arithmetic; outputs are as long as the blocks, and the state afterwards consists of the last
    taps - 1 samples seen, bit for bit, whatever the partition *)
Lemma into_any (K : Type) (zero : K) add sub mul fmaV fmaS W1 W2 vec (junk out u v : list K) offset clear : 1 <= W1 -> 1 <= W2 -> W2 <= lenZ junk ->
  offset + lenZ out <= ConvolutionLength (lenZ u) (lenZ v) CONV_FULL ->
  okP (gConvolutionInto zero add sub mul fmaV fmaS W1 W2 vec junk out u v offset clear) (fun o => lenZ o = lenZ out).
Proof.
  intros H1 H2 H3 H4. unfold gConvolutionInto. apply okP_assert; [lia|]. cbv zeta. destruct (_ <=? 32).
  - eapply okP_imp; [now apply slide_chain|]. now intros o [L _].
  - eapply okP_imp; [now apply (reduce_vec_value zero add sub mul fmaV fmaS)|]. now intros o [L _].
Qed.
Theorem C77_state_any_arithmetic : forall (K : Type) (zero : K) add sub mul fmaV fmaS W1 W2 vec (junk taps state : list K) (blocks : list (list K)),
  1 <= W1 -> 1 <= W2 -> W2 <= lenZ junk -> 1 <= lenZ taps < 2 ^ 64 -> lenZ state = lenZ taps - 1 ->
  exists outs final, run_blocks (fun b s => gFilterConvStateNew zero add sub mul fmaV fmaS W1 W2 vec junk b taps s) blocks state = Ok (outs, final) /\
    map (@lenZ K) outs = map (@lenZ K) blocks /\ final = skipn (length (concat blocks)) (state ++ concat blocks).
Proof.
  intros K zero add sub mul fmaV fmaS W1 W2 vec junk taps state blocks H1 H2 H3 H4 H5.
  destruct (blocks_ok (lenZ taps - 1) (fun _ _ _ => True) (fun _ _ => True) (fun _ => True) (fun _ _ _ _ _ _ _ => I) (fun _ _ _ _ _ _ => I) (fun _ _ _ _ _ _ => I) (fun _ _ _ _ _ => I) ltac:(tauto) (fun _ _ _ => I) (fun _ => True)
    (fun b s => gFilterConvStateNew zero add sub mul fmaV fmaS W1 W2 vec junk b taps s)) with (blocks := blocks) (s := state) as ([outs final] & E & M & _ & _ & F); auto; [|now apply Forall_forall|].
  - intros b s _ Ls _ _ _. unfold gFilterConvStateNew.
    eapply okP_imp; [apply (stream_call zero add sub mul fmaV fmaS W1 W2 vec junk (repeat zero (length b)) b taps s (fun w w' => lenZ w' = lenZ w) (fun _ y => lenZ y = lenZ b)); auto|].
    + rewrite lenZ_repeat. reflexivity.
    + intros w ->. apply into_any; auto. pose proof (lenZ_nonneg b). rewrite lenZ_repeat. unfold ConvolutionLength. destruct (((lenZ s =? 0) || (lenZ taps =? 0))%bool) eqn:Ez; lia.
    + intros w w' Hw Lw'. split; [exact Lw'|]. intros o Lo _. pose proof (lenZ_nonneg b). eapply okP_imp; [apply into_any; auto|]; [unfold ConvolutionLength; destruct (((lenZ b =? 0) || (lenZ taps =? 0))%bool) eqn:Ez; lia|]. cbn beta. intros; lia.
    + cbn beta. intros [y s'] ((w & w' & _ & _ & Ly) & Es). cbn [fst snd] in *. split; [exact Ly|]. split; [|exact Es]. intros k Hk. destruct (nthZ_in y k ltac:(lia)) as [v Hv]. exists v. auto.
  - exists outs, final. cbn [fst snd] in *. split; [exact E|]. split; [exact M|]. rewrite F. f_equal. unfold lenZ. apply Nat2Z.id.
Qed.
Print Assumptions C77_state_any_arithmetic.

(** ** Floating point *)
Section Ieee.
Variables prec emax : Z.
Context (Hprec : Prec_gt_0 prec) (Hmax : Prec_lt_emax prec emax).
Notation float := (binary_float prec emax).
Notation u := (bpow radix2 (- prec)).
Notation eta := (bpow radix2 (3 - emax - prec)).
Notation overflow := (bpow radix2 emax).
Notation fzero := (B754_zero false : float).
Local Open Scope R_scope.
(** streaming the blocks through the filter *)
Definition stream fmaV fmaS W1 W2 vec (junk taps : list float) (blocks : list (list float)) (state : list float) :=
  run_blocks (fun b s => gFilterConvStateNew fzero (Bplus mode_NE) (Bminus mode_NE) (Bmult mode_NE) fmaV fmaS W1 W2 vec junk b taps s) blocks state.
(** the machine: vector widths, uninitialised lanes, fused or unfused multiply-adds *)
Definition machine_ok fmaV fmaS (W1 W2 : Z) (junk : list float) : Prop := (10 <= prec)%Z /\ (1 <= W1)%Z /\ (1 <= W2)%Z /\ (W2 <= lenZ junk)%Z /\ is_fma prec emax Hprec Hmax fmaV /\ is_fma prec emax Hprec Hmax fmaS.
(** the gain of one convolution whose shorter operand has at most so many samples (C64); the output is the sum of two *)
Definition gain (taps : Z) : R := Rmax (chain_gain prec (Z.min taps 32)) (vec_gain prec taps) ^ 2.
(** exact output sample n, from the real values: sum over the taps of tap_j * (sample n - j of the signal, preceded by the state) *)
Definition exact_output (taps state signal : list float) (n : Z) : R := exact_conv prec emax (state ++ signal) taps (lenZ state + n).
Definition abs_output (taps state signal : list float) (n : Z) : R := abs_conv prec emax (state ++ signal) taps (lenZ state + n).
Definition fits (taps state signal : list float) : Prop := forall n, (0 <= n < lenZ signal)%Z ->
  3 * (gain (lenZ taps) * abs_output taps state signal n + gain (lenZ taps) * (2 * IZR (lenZ taps) * (eta / 2))) < overflow.
Definition error_bound (taps state signal : list float) (n : Z) : R := (gain (lenZ taps) - 1) * abs_output taps state signal n + gain (lenZ taps) * (2 * IZR (lenZ taps) * (eta / 2)).

Lemma conv_skip_e l taps n j : (0 <= n <= lenZ l)%Z -> (lenZ taps - 1 <= j)%Z -> exact_conv prec emax (skipn (Z.to_nat n) l) taps j = exact_conv prec emax l taps (n + j).
Proof. intros Hn Hj. unfold exact_conv. rewrite <- skipn_map. apply (conv_skipn (K := Rring)); cbn [car Rring]; rewrite lenZ_map; assumption. Qed.
Lemma conv_skip_a l taps n j : (0 <= n <= lenZ l)%Z -> (lenZ taps - 1 <= j)%Z -> abs_conv prec emax (skipn (Z.to_nat n) l) taps j = abs_conv prec emax l taps (n + j).
Proof. intros Hn Hj. unfold abs_conv. rewrite <- skipn_map. apply (conv_skipn (K := Rring)); cbn [car Rring]; rewrite lenZ_map; assumption. Qed.
Lemma conv_app_e l m taps j : (j < lenZ l)%Z -> exact_conv prec emax (l ++ m) taps j = exact_conv prec emax l taps j.
Proof. intros H. rewrite exact_app, (exact_out prec emax m) by lia. apply Rplus_0_r. Qed.
Lemma conv_app_a l m taps j : (j < lenZ l)%Z -> abs_conv prec emax (l ++ m) taps j = abs_conv prec emax l taps j.
Proof. intros H. rewrite abs_app, (abs_out prec emax m) by lia. apply Rplus_0_r. Qed.

(** every output sample, for every partition into blocks, is the exact one up to the error bound, which does not depend on the partition, the
    position in the stream or the length of the signal; the sample is a number *)
Theorem C77_streaming_error : forall fmaV fmaS W1 W2 vec (junk taps state : list float) (blocks : list (list float)),
  machine_ok fmaV fmaS W1 W2 junk -> (1 <= lenZ taps < 2 ^ 64)%Z -> lenZ state = (lenZ taps - 1)%Z -> IZR (lenZ taps / 4) * u <= 1 ->
  all_finite prec emax taps -> all_finite prec emax state -> all_finite prec emax (concat blocks) -> fits taps state (concat blocks) ->
  exists outs final, stream fmaV fmaS W1 W2 vec junk taps blocks state = Ok (outs, final) /\ map (@lenZ float) outs = map (@lenZ float) blocks /\
    final = skipn (length (concat blocks)) (state ++ concat blocks) /\ lenZ (concat outs) = lenZ (concat blocks) /\
    forall n, (0 <= n < lenZ (concat blocks))%Z -> exists y, nthZ (concat outs) n = Some y /\ is_finite y = true /\ Rabs (B2R y - exact_output taps state (concat blocks) n) <= error_bound taps state (concat blocks) n.
Proof.
  intros fmaV fmaS W1 W2 vec junk taps state blocks (Hp & HW1 & HW2 & Hj & HV & HS) Ht Ls Hi Ft Fs Fb Hf.
  destruct (blocks_ok (lenZ taps - 1) (stream_ok prec emax taps) (stream_fits prec emax taps) (all_finite prec emax)) with (okb := fun _ : list float => True)
    (step := fun b s => gFilterConvStateNew fzero (Bplus mode_NE) (Bminus mode_NE) (Bmult mode_NE) fmaV fmaS W1 W2 vec junk b taps s) (blocks := blocks) (s := state) as ([outs final] & E & M & L & H & F); auto.
  - intros n l j v Hn Hjj [F1 F2]. split; [exact F1|]. unfold stream_err in *. rewrite conv_skip_e, conv_skip_a in F2 by assumption. exact F2.
  - intros l m j v Hjj [F1 F2]. split; [exact F1|]. unfold stream_err in *. rewrite conv_app_e, conv_app_a by assumption. exact F2.
  - intros n l j Hn Hjj Q. unfold stream_fits in *. rewrite conv_skip_a by assumption. exact Q.
  - intros l m j Hjj Q. unfold stream_fits in *. rewrite conv_app_a in Q by assumption. exact Q.
  - intros l m. unfold all_finite. split; [intros Q; split; intros x Hx; apply Q; apply in_or_app; auto|intros [Q1 Q2] x Hx; apply in_app_or in Hx as [Hx|Hx]; auto].
  - intros n l Q x Hx. apply Q. rewrite <- (firstn_skipn n l). apply in_or_app. now right.
  - intros b s _ Ls' Fs' Fb' Hf'. unfold gFilterConvStateNew. rewrite <- Ls'. apply (call_ok prec emax Hprec Hmax); auto; try lia.
    + rewrite lenZ_repeat. reflexivity.
    + intros k Hk. rewrite Ls'. now apply Hf'.
  - now apply Forall_forall.
  - intros k Hk. rewrite <- Ls. now apply Hf.
  - exists outs, final. cbn [fst snd] in *. split; [exact E|]. split; [exact M|]. split; [rewrite F; f_equal; unfold lenZ; apply Nat2Z.id|]. split; [exact L|].
    intros n Hn. destruct (H n Hn) as (y & Hy & Fy & Ey). exists y. split; [exact Hy|]. split; [exact Fy|]. unfold exact_output, error_bound, abs_output. rewrite Ls. exact Ey.
Qed.

(** two partitions of the same signal (on any two machines) give outputs within twice the bound of each other, and identical states *)
Theorem C77_partitions_agree : forall fmaV fmaS W1 W2 vec junk fmaV' fmaS' W1' W2' vec' junk' (taps state : list float) (blocks blocks' : list (list float)) outs final outs' final',
  machine_ok fmaV fmaS W1 W2 junk -> machine_ok fmaV' fmaS' W1' W2' junk' -> (1 <= lenZ taps < 2 ^ 64)%Z -> lenZ state = (lenZ taps - 1)%Z -> IZR (lenZ taps / 4) * u <= 1 ->
  all_finite prec emax taps -> all_finite prec emax state -> all_finite prec emax (concat blocks) -> fits taps state (concat blocks) -> concat blocks = concat blocks' ->
  stream fmaV fmaS W1 W2 vec junk taps blocks state = Ok (outs, final) -> stream fmaV' fmaS' W1' W2' vec' junk' taps blocks' state = Ok (outs', final') ->
  final = final' /\ lenZ (concat outs) = lenZ (concat outs') /\
  forall n y y', nthZ (concat outs) n = Some y -> nthZ (concat outs') n = Some y' -> Rabs (B2R y - B2R y') <= 2 * error_bound taps state (concat blocks) n.
Proof.
  intros fmaV fmaS W1 W2 vec junk fmaV' fmaS' W1' W2' vec' junk' taps state blocks blocks' outs final outs' final' M1 M2 Ht Ls Hi Ft Fs Fb Hf Eb E1 E2.
  destruct (C77_streaming_error fmaV fmaS W1 W2 vec junk taps state blocks M1 Ht Ls Hi Ft Fs Fb Hf) as (o1 & f1 & Q1 & _ & S1 & L1 & H1). rewrite E1 in Q1. injection Q1 as <- <-.
  destruct (C77_streaming_error fmaV' fmaS' W1' W2' vec' junk' taps state blocks' M2 Ht Ls Hi Ft Fs) as (o2 & f2 & Q2 & _ & S2 & L2 & H2); [now rewrite <- Eb|now rewrite <- Eb|]. rewrite E2 in Q2. injection Q2 as <- <-.
  split; [now rewrite S1, S2, Eb|]. split; [rewrite L1, L2; now f_equal|]. intros n y y' Hy Hy'. pose proof (nthZ_some _ _ _ Hy) as Hn. rewrite L1 in Hn.
  destruct (H1 n Hn) as (v & Hv & _ & B1). destruct (H2 n ltac:(rewrite <- Eb; exact Hn)) as (v' & Hv' & _ & B2). rewrite <- Eb in B2. assert (v = y) by congruence. assert (v' = y') by congruence. subst.
  replace (B2R y - B2R y') with ((B2R y - exact_output taps state (concat blocks) n) - (B2R y' - exact_output taps state (concat blocks) n)) by ring. eapply Rle_trans; [apply Rabs_triang|]. rewrite Rabs_Ropp. lra.
Qed.
End Ieee.
Print Assumptions C77_streaming_error.
Print Assumptions C77_partitions_agree.

(** ** Double precision *)
Lemma gain53 L : (1 <= L <= 2 ^ 30)%Z -> (1 <= gain 53 L <= 1 + 69 * bpow radix2 (-53))%R.
Proof.
  intros HL. assert (Hu : (bpow radix2 (- (53)) = / 9007199254740992)%R) by reflexivity. unfold gain, chain_gain, vec_gain. change (-53) with (- (53)). set (u := bpow radix2 (- (53))) in *.
  assert (Hq : (0 <= L / 4 <= 268435456)%Z). { split; [apply Z.div_pos; lia|]. change 268435456%Z with (2 ^ 30 / 4)%Z. apply Z.div_le_mono; lia. }
  assert (Hm : (0 <= IZR (L / 4) <= 268435456)%R) by (split; apply IZR_le; lia).
  assert (Hu1 : (0 < u <= 1 / 100000000)%R) by (rewrite Hu; lra).
  assert (Huu : (0 <= u * u <= 1 / 100000000 * u)%R) by (split; [apply Rmult_le_pos; lra|apply Rmult_le_compat_r; lra]).
  assert (Hmu : (0 <= IZR (L / 4) * u <= 1 / 30000000)%R) by (split; [apply Rmult_le_pos; lra|apply Rle_trans with (268435456 * u)%R; [apply Rmult_le_compat_r; lra|rewrite Hu; lra]]).
  assert (H1 : (1 <= (1 + u) ^ (Z.to_nat (Z.min L 32) + 1) <= 1 + 34 * u)%R).
  { split; [apply pow_R1_Rle; lra|]. apply Rle_trans with ((1 + u) ^ 33)%R; [apply Rle_pow; [lra|lia]|].
    assert (E33 : INR 33 = 33%R) by (rewrite INR_IZR_INZ; reflexivity). assert (H33 : (INR 33 * u <= 1)%R) by (rewrite E33; lra). pose proof (pow_second_order u 33 ltac:(lra) H33) as HH. rewrite E33 in HH. cbn [pow] in HH |- *. lra. }
  assert (H2 : (1 <= ((1 + u) ^ 2 * (1 + 6 * u + 14 * IZR (L / 4) * u ^ 2)) ^ 3 * (1 + u) <= 1 + 34 * u)%R).
  { assert (HR : (1 <= 1 + 6 * u + 14 * IZR (L / 4) * u ^ 2 <= 1 + 6 * u + u / 10)%R).
    { assert (0 <= IZR (L / 4) * u * u <= 1 / 30000000 * u)%R by (split; [apply Rmult_le_pos; lra|apply Rmult_le_compat_r; lra]). cbn [pow]. lra. }
    set (Rr := (1 + 6 * u + 14 * IZR (L / 4) * u ^ 2)%R) in *. clearbody Rr.
    assert (HP : (1 <= (1 + u) ^ 2 <= 1 + 2 * u + u / 10)%R) by (cbn [pow]; split; lra). set (P := ((1 + u) ^ 2)%R) in *. clearbody P.
    assert (HPR : (1 <= P * Rr <= 1 + 9 * u)%R). { split; [apply Rle_trans with (1 * 1)%R; [lra|apply Rmult_le_compat; lra]|]. apply Rle_trans with ((1 + 2 * u + u / 10) * (1 + 6 * u + u / 10))%R; [apply Rmult_le_compat; lra|lra]. }
    set (Q := (P * Rr)%R) in *. clearbody Q. assert (HQ3 : (1 <= Q ^ 3 <= (1 + 9 * u) ^ 3)%R) by (split; [apply pow_R1_Rle; lra|apply pow_incr; lra]).
    assert (E3 : ((1 + 9 * u) ^ 3 <= 1 + 28 * u)%R). { assert (u * (u * u) <= 1 / 100000000 * (u * u))%R by (apply Rmult_le_compat_r; lra). cbn [pow]. lra. }
    split; [apply Rle_trans with (1 * 1)%R; [lra|apply Rmult_le_compat; lra]|]. set (T := (Q ^ 3)%R) in *. clearbody T. apply Rle_trans with ((1 + 28 * u) * (1 + u))%R; [apply Rmult_le_compat_r; lra|]. lra. }
  set (a := ((1 + u) ^ (Z.to_nat (Z.min L 32) + 1))%R) in *. set (b := (((1 + u) ^ 2 * (1 + 6 * u + 14 * IZR (L / 4) * u ^ 2)) ^ 3 * (1 + u))%R) in *. clearbody a b.
  assert (M : (1 <= Rmax a b <= 1 + 34 * u)%R) by (split; [eapply Rle_trans; [|apply Rmax_l]; lra|apply Rmax_lub; lra]). set (m := Rmax a b) in *. clearbody m.
  assert ((m * m <= (1 + 34 * u) * (1 + 34 * u))%R) by (apply Rmult_le_compat; lra). cbn [pow]. split; nra.
Qed.
(** a filter of at most 2^30 taps in double precision: 69 units of roundoff of the sum of the absolute products, at every sample of a stream of any
    length cut anyhow; samples of moderate size do not overflow *)
Theorem C77_double_precision : forall (Hprec : Prec_gt_0 53) (Hmax : Prec_lt_emax 53 1024) fmaV fmaS W1 W2 vec (junk taps state : list (binary_float 53 1024)) (blocks : list (list (binary_float 53 1024))),
  machine_ok 53 1024 Hprec Hmax fmaV fmaS W1 W2 junk -> (1 <= lenZ taps <= 2 ^ 30)%Z -> lenZ state = (lenZ taps - 1)%Z ->
  all_finite 53 1024 taps -> all_finite 53 1024 state -> all_finite 53 1024 (concat blocks) ->
  (forall n, (0 <= n < lenZ (concat blocks))%Z -> abs_output 53 1024 taps state (concat blocks) n < bpow radix2 1022 - 1)%R ->
  exists outs final, stream 53 1024 Hprec Hmax fmaV fmaS W1 W2 vec junk taps blocks state = Ok (outs, final) /\ lenZ (concat outs) = lenZ (concat blocks) /\
    forall n, (0 <= n < lenZ (concat blocks))%Z -> exists y, nthZ (concat outs) n = Some y /\ is_finite y = true /\
      (Rabs (B2R y - exact_output 53 1024 taps state (concat blocks) n) <= 69 * bpow radix2 (-53) * abs_output 53 1024 taps state (concat blocks) n + 2 * IZR (lenZ taps) * bpow radix2 (-1074))%R.
Proof.
  intros Hprec Hmax fmaV fmaS W1 W2 vec junk taps state blocks M Ht Ls Ft Fs Fb HA.
  pose proof (gain53 (lenZ taps) Ht) as HG. assert (Hu : (bpow radix2 (-53) = / 9007199254740992)%R) by reflexivity. assert (HLR : (1 <= IZR (lenZ taps) <= 1073741824)%R) by (split; apply IZR_le; lia).
  assert (He : (0 < bpow radix2 (3 - 1024 - 53) <= / 1099511627776)%R) by (split; [apply bpow_gt_0|change (/ 1099511627776)%R with (bpow radix2 (-40)); apply bpow_le; lia]).
  assert (HB4 : (bpow radix2 1024 = 4 * bpow radix2 1022)%R) by (change 1024%Z with (2 + 1022)%Z; rewrite bpow_plus; reflexivity). assert (HB : (1 <= bpow radix2 1022)%R) by (apply (bpow_le radix2 0 1022); lia).
  assert (HE : (0 <= 2 * IZR (lenZ taps) * (bpow radix2 (3 - 1024 - 53) / 2) <= 1 / 100)%R). { set (e := bpow radix2 (3 - 1024 - 53)) in *. clearbody e. assert (0 <= IZR (lenZ taps) * e <= 1073741824 * / 1099511627776)%R by (split; [apply Rmult_le_pos; lra|apply Rmult_le_compat; lra]). lra. }
  assert (Nn : forall n, (0 <= abs_output 53 1024 taps state (concat blocks) n)%R) by (intros n; apply (abs_nonneg 53 1024 Hprec Hmax)).
  destruct (C77_streaming_error 53 1024 Hprec Hmax fmaV fmaS W1 W2 vec junk taps state blocks M) as (outs & final & E & _ & _ & L & H); auto.
  - lia.
  - assert (IZR (lenZ taps / 4) <= 268435456)%R by (apply IZR_le; change 268435456%Z with (2 ^ 30 / 4)%Z; apply Z.div_le_mono; lia). change (bpow radix2 (- (53))) with (bpow radix2 (-53)). rewrite Hu. lra.
  - intros n Hn. specialize (HA n Hn). specialize (Nn n). rewrite HB4. set (A := abs_output 53 1024 taps state (concat blocks) n) in *. set (g := gain 53 (lenZ taps)) in *. set (q := (2 * IZR (lenZ taps) * (bpow radix2 (3 - 1024 - 53) / 2))%R) in *. set (O := bpow radix2 1022) in *. clearbody A g q O.
    assert (g <= 1 + 1 / 1000)%R by (rewrite Hu in HG; lra). assert (g * A <= (1 + 1 / 1000) * A)%R by (apply Rmult_le_compat_r; lra). assert (g * q <= (1 + 1 / 1000) * (1 / 100))%R by (apply Rmult_le_compat; lra). lra.
  - exists outs, final. split; [exact E|]. split; [exact L|]. intros n Hn. destruct (H n Hn) as (y & Hy & Fy & Ey). exists y. split; [exact Hy|]. split; [exact Fy|]. eapply Rle_trans; [exact Ey|]. unfold error_bound. specialize (Nn n).
    set (A := abs_output 53 1024 taps state (concat blocks) n) in *. set (g := gain 53 (lenZ taps)) in *. apply Rplus_le_compat; [apply Rmult_le_compat_r; lra|].
    change (3 - 1024 - 53) with (-1074) in *. set (e := bpow radix2 (-1074)) in *. clearbody e A g. assert (0 <= IZR (lenZ taps) * e)%R by (apply Rmult_le_pos; lra). assert (g <= 2)%R by (rewrite Hu in HG; lra).
    replace (2 * IZR (lenZ taps) * (e / 2))%R with (IZR (lenZ taps) * e)%R by field. rewrite Rmult_assoc. apply Rmult_le_compat_r; lra.
Qed.
Print Assumptions C77_double_precision.

(** ** Bit for bit *)
(** In any arithmetic whose vector and scalar multiply-adds agree, with a filter of at most 33 taps and blocks that are neither longer than the filter
    nor than 32 samples, the output does not depend on the partition bit for bit: sample n is the chain of multiply-adds over the samples n - taps + 1 .. n,
    oldest first *)
Definition chain_of {K} (zero : K) (f : K -> K -> K -> K) (taps state signal : list K) (n : nat) : K :=
  fold_left (fun acc i => f (nth (length taps - 1 - i) taps zero) (nth (n + i) (state ++ signal) zero) acc) (seq 0 (length taps)) zero.
Definition short_blocks {K} (taps : list K) (blocks : list (list K)) : Prop := Forall (fun b => (length b <= length taps)%nat /\ (length b <= 32)%nat) blocks.
Lemma elt_nth {K} (zero : K) l i : elt zero l (Z.of_nat i) = nth i l zero.
Proof. unfold elt. rewrite nthZ_nth_error. destruct (nth_error l i) eqn:E; [symmetry; now apply nth_error_nth|]. symmetry. apply nth_overflow. now apply nth_error_None. Qed.
Theorem C77_short_blocks_any_arithmetic : forall (K : Type) (zero : K) add sub mul f W1 W2 vec (junk taps state : list K) (blocks : list (list K)),
  1 <= W1 -> (1 <= length taps <= 33)%nat -> (length state = length taps - 1)%nat -> short_blocks taps blocks ->
  exists outs, run_blocks (fun b s => gFilterConvStateNew zero add sub mul f f W1 W2 vec junk b taps s) blocks state = Ok (outs, skipn (length (concat blocks)) (state ++ concat blocks)) /\
    concat outs = map (chain_of zero f taps state (concat blocks)) (seq 0 (length (concat blocks))).
Proof.
  intros K zero add sub mul f W1 W2 vec junk taps state blocks H1 H2 H3 H4.
  destruct (blocks_ok (lenZ taps - 1) (fun h j v => v = oldest_first zero f taps h j) (fun _ _ => True) (fun _ => True)) with (okb := fun b : list K => (length b <= length taps)%nat /\ (length b <= 32)%nat)
    (step := fun b s => gFilterConvStateNew zero add sub mul f f W1 W2 vec junk b taps s) (blocks := blocks) (s := state) as ([outs final] & E & _ & L & H & F); auto.
  - intros n l j v Hn Hj ->. unfold oldest_first. replace (n + j - lenZ taps + 1) with (j - lenZ taps + 1 + n) by ring. replace (n + j + 1) with (j + 1 + n) by ring. rewrite (indices_shift (j - lenZ taps + 1) (j + 1) n), fold_map.
    apply fold_ext. intros a m Hm. apply in_indices in Hm. replace (n + j - (m + n)) with (j - m) by ring. f_equal. rewrite elt_skipn by lia. f_equal. lia.
  - intros l m j v Hj ->. unfold oldest_first. apply fold_ext. intros a i Hi. apply in_indices in Hi. f_equal. rewrite elt_app. now replace (i <? lenZ l) with true by lia.
  - tauto.
  - intros b s [Ob1 Ob2] Ls _ _ _. apply short_step; auto; unfold lenZ in *; lia.
  - unfold lenZ. lia.
  - cbn [fst snd] in *. exists outs. split; [rewrite E, F; do 3 f_equal; unfold lenZ; apply Nat2Z.id|].
    apply (elt_ext zero); [rewrite L; unfold lenZ; now rewrite map_length, seq_length|]. intros i Hi. rewrite L in Hi. destruct (H i Hi) as (v & Hv & Ev). rewrite (elt_some zero _ _ _ Hv), Ev.
    rewrite <- (Z2Nat.id i) by lia. set (n := Z.to_nat i). assert (Hn : (n < length (concat blocks))%nat) by (unfold n, lenZ in *; lia).
    rewrite elt_nth. rewrite (nth_indep _ zero (chain_of zero f taps state (concat blocks) 0)) by (now rewrite map_length, seq_length). rewrite map_nth, seq_nth by exact Hn. cbn [Nat.add].
    unfold oldest_first, chain_of. replace (lenZ taps - 1 + Z.of_nat n - lenZ taps + 1) with (Z.of_nat n) by ring. unfold indices, tab. rewrite fold_map. replace (Z.to_nat (lenZ taps - 1 + Z.of_nat n + 1 - Z.of_nat n)) with (length taps) by (unfold lenZ; lia).
    apply fold_ext. intros a j Hj. apply in_seq in Hj. replace (lenZ taps - 1 + Z.of_nat n - (Z.of_nat n + Z.of_nat j)) with (Z.of_nat (length taps - 1 - j)) by (unfold lenZ; lia). replace (Z.of_nat n + Z.of_nat j) with (Z.of_nat (n + j)) by lia. now rewrite !elt_nth.
Qed.
Print Assumptions C77_short_blocks_any_arithmetic.

(** The full statement - the same for blocks of any size - is false: for a block longer than the filter the newest sample is added first *)
#[local] Existing Instance p24.
#[local] Existing Instance e128.
Notation f32 := (binary_float 24 128).
Definition stream32 (taps : list f32) (blocks : list (list f32)) (state : list f32) := stream 24 128 p24 e128 (Bfma mode_NE) (Bfma mode_NE) 4 4 true (repeat B754_nan 4) taps blocks state.
Definition shown (o : outcome (list (list f32) * list f32)) := match o with Ok (outs, _) => Some (map B2SF (concat outs)) | _ => None end.
Definition one : f32 := b32 1 0.
Definition big : f32 := b32 1 24.
Definition zeros2 : list f32 := repeat (B754_zero false) 2.
Theorem C77_long_blocks_differ : exists blocks blocks' y y', concat blocks = concat blocks' /\ shown (stream32 [one; one; one] blocks zeros2) = Some y /\ shown (stream32 [one; one; one] blocks' zeros2) = Some y' /\
  nth 2 y SpecFloat.S754_nan = SpecFloat.S754_finite false 8388609 1 /\ nth 2 y' SpecFloat.S754_nan = SpecFloat.S754_finite false 8388608 1.
Proof.
  exists [[big; one; one; B754_zero false]], [[big; one; one]; [B754_zero false]]. eexists. eexists. split; [reflexivity|]. split; [vm_compute; reflexivity|]. split; [vm_compute; reflexivity|]. split; reflexivity.
Qed.
Print Assumptions C77_long_blocks_differ.

(** hypotheses are met, results as computed: 2^24 + 1 + 1 oldest first and newest first *)
Lemma one_finite : is_finite one = true. Proof. reflexivity. Qed.
Example C77_nontrivial : machine_ok 24 128 p24 e128 (Bfma mode_NE) (Bfma mode_NE) 4 4 (repeat B754_nan 4) /\ short_blocks [one; one; one] [[one; one]; []; [one; one; one]] /\
  shown (stream32 [one; one; one] [[one; one]; []; [one; one; one]] zeros2) = Some (map B2SF [b32 1 0; b32 2 0; b32 3 0; b32 3 0; b32 3 0]).
Proof.
  split; [|split].
  - unfold machine_ok. repeat split; try discriminate; left; reflexivity.
  - repeat constructor; cbn; lia.
  - vm_compute. reflexivity.
Qed.
Lemma conv_ones (n : Z) : (n = 0 \/ n = 1 \/ n = 2)%Z -> conv (K := Rring) [R1; R1; R1; R1] [R1; R1] (1 + n) = (R1 + R1)%R.
Proof. intros [->|[->| ->]]; cbv -[Rplus Rmult R0 R1]; ring. Qed.
Example C77_fits : fits 24 128 [one; one] [one] [one; one; one].
Proof.
  intros n Hn. change (0 <= n < 3)%Z in Hn.
  assert (A : abs_output 24 128 [one; one] [one] [one; one; one] n = 2%R).
  { unfold abs_output, abs_conv, one. cbn [app map]. rewrite b32_one, Rabs_R1. change (lenZ [b32 1 0]) with 1%Z. exact (conv_ones n ltac:(lia)). }
  rewrite A. change (lenZ [one; one]) with 2.
  assert (Hu : (bpow radix2 (- (24)) = / 16777216)%R) by reflexivity.
  assert (G : (0 <= gain 24 2 <= 2)%R).
  { unfold gain. change (Z.min 2 32) with 2. set (m := Rmax _ _). assert (M : (0 <= m <= 11 / 10)%R); [|cbn [pow]; nra].
    unfold m, chain_gain, vec_gain. change (Z.to_nat 2 + 1)%nat with 3%nat. change (2 / 4) with 0. rewrite Hu.
    split; [eapply Rle_trans; [|apply Rmax_l]; cbn [pow]; lra|]. apply Rmax_lub; cbn [pow]; lra. }
  assert (B : (1000 <= bpow radix2 128)%R) by (apply Rle_trans with (bpow radix2 10); [cbn; lra|apply bpow_le; lia]).
  assert (E : (0 <= bpow radix2 (3 - 128 - 24) <= 1)%R) by (split; [apply bpow_ge_0|apply (bpow_le radix2 _ 0); lia]).
  set (g := gain 24 2) in *. set (e := bpow radix2 (3 - 128 - 24)) in *. set (O := bpow radix2 128) in *. clearbody g e O. assert (0 <= g * e <= 2)%R by nra. lra.
Qed.
