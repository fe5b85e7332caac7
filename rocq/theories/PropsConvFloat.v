(** C64, C65: convolution in floating-point arithmetic. *)
From Verif Require Import Base BaseFacts Complex KernelModel KernelProofs ConvModel ConvProofs FloatSpec ReduceTree FloatSum FloatIeee PropsFloat ConvTree ConvFloat.
From Coq Require Import Reals Lra Lia List ZArith Arith Psatz.
From Flocq Require Import Core BinarySingleNaN.
Import ListNotations.
Local Open Scope R_scope.

(** * C64: rounding error of a convolution *)
Section Ieee.
Variables prec emax : Z.
Context (Hprec : Prec_gt_0 prec) (Hmax : Prec_lt_emax prec emax).
Notation float := (binary_float prec emax).
Notation u := (bpow radix2 (- prec)).
Notation eta := (bpow radix2 (3 - emax - prec)).
Notation overflow := (bpow radix2 emax).
Notation fzero := (B754_zero false : float).
Notation all_finite := (all_finite prec emax).

(** sample [j] of the exact convolution of the values ([conv] is the convolution sum of C11, here
    over the real numbers), and of their absolute values *)
Definition exact_conv (a b : list float) (j : Z) : R := conv (K := Rring) (map B2R a) (map B2R b) j.
Definition abs_conv (a b : list float) (j : Z) : R :=
  conv (K := Rring) (map (fun x => Rabs (B2R x)) a) (map (fun x => Rabs (B2R x)) b) j.
(** what the output holds before: zero, or its old content when accumulating *)
Definition before (accumulate : bool) (out : list float) (k : Z) : R :=
  if accumulate then at0 (K := Rring) (map B2R out) k else 0.
(** sample [k] of [out'] is correct up to the relative error [g - 1] and [n] underflows *)
Definition sample_ok (g n : R) (accumulate : bool) (a b out out' : list float) (offset k : Z) : Prop :=
  exists x, nthZ out' k = Some x /\ is_finite x = true /\
    Rabs (B2R x - (before accumulate out k + exact_conv a b (offset + k))) <=
      (g - 1) * (Rabs (before accumulate out k) + abs_conv a b (offset + k)) + g * (n * (eta / 2)).
(** no overflow: the bound itself, doubled and added to the result, stays in range *)
Definition in_range (g n : R) (accumulate : bool) (a b out : list float) (offset k : Z) : Prop :=
  3 * (g * (Rabs (before accumulate out k) + abs_conv a b (offset + k)) + g * (n * (eta / 2))) < overflow.

(** xsimd::fma: fused, or a product and a sum *)
Definition is_fma (f : float -> float -> float -> float) : Prop :=
  f = Bfma mode_NE \/ f = (fun a b c => Bplus mode_NE (Bmult mode_NE a b) c).

Lemma u_nonneg' : 0 <= u. Proof. apply bpow_ge_0. Qed.
Lemma eta_nonneg : 0 <= eta / 2. Proof. pose proof (bpow_ge_0 radix2 (3 - emax - prec)). lra. Qed.
Lemma before_start acc out k : B2R (start fzero acc out k) = before acc out k.
Proof.
  unfold start, before. destruct acc; [|reflexivity]. unfold elt, at0. rewrite nthZ_map. now destruct (nthZ out k).
Qed.
Lemma start_fin acc out k : (acc = true -> all_finite out) -> is_finite (start fzero acc out k) = true.
Proof.
  intros H. unfold start. destruct acc; [|reflexivity]. unfold elt. destruct (nthZ out k) eqn:E; [|reflexivity].
  apply H; [reflexivity|]. pose proof (nthZ_some out k b E). replace k with (Z.of_nat (Z.to_nat k)) in E by lia.
  rewrite nthZ_nth_error in E. now apply nth_error_In in E.
Qed.
Lemma fma_good f : (10 <= prec)%Z -> is_fma f -> good_fma B2R (finite prec emax) (ur prec) (huge emax) (tiny prec emax / 2) f.
Proof.
  intros Hp [-> | ->].
  - apply fused_good; [apply (prec_u prec Hp)|apply eta_nonneg|apply ffma_err].
  - apply (unfused_good B2R (finite prec emax) (fadd prec emax Hprec Hmax) (fmul prec emax Hprec Hmax));
      [apply (prec_u prec Hp)|apply eta_nonneg|apply fadd_err|apply fmul_err].
Qed.

Lemma bound_nonneg g n acc a b out J : 1 <= g -> 0 <= n -> 0 <= abs_conv a b J ->
  0 <= g * (Rabs (before acc out J) + abs_conv a b J) + g * (n * (eta / 2)).
Proof.
  intros Hg Hn HA. pose proof (Rabs_pos (before acc out J)). pose proof eta_nonneg.
  apply Rplus_le_le_0_compat; apply Rmult_le_pos; try lra. apply Rmult_le_pos; lra.
Qed.
Definition pre : (10 <= prec)%Z -> _ := fun Hp => @chain_sample float B2R (finite prec emax) (fadd prec emax Hprec Hmax)
  (fsub prec emax Hprec Hmax) (fmul prec emax Hprec Hmax) fzero (ur prec) (huge emax) (tiny prec emax / 2) (prec_u prec Hp) eta_nonneg
  (fadd_err prec emax Hprec Hmax) (fsub_err prec emax Hprec Hmax) (fmul_err prec emax Hprec Hmax) (zero_ok prec emax).
Definition vec_err : (10 <= prec)%Z -> _ := fun Hp => @rv_err float B2R (finite prec emax) (fadd prec emax Hprec Hmax)
  (fsub prec emax Hprec Hmax) (fmul prec emax Hprec Hmax) fzero (ur prec) (huge emax) (tiny prec emax / 2) (prec_u prec Hp) eta_nonneg
  (fadd_err prec emax Hprec Hmax) (fsub_err prec emax Hprec Hmax) (fmul_err prec emax Hprec Hmax) (zero_ok prec emax).
Definition cover (a b : list float) (J : Z) := @products_cover float B2R (finite prec emax) (fadd prec emax Hprec Hmax)
  (fsub prec emax Hprec Hmax) (fmul prec emax Hprec Hmax) fzero (ur prec) (huge emax) (tiny prec emax / 2)
  (fadd_err prec emax Hprec Hmax) (fsub_err prec emax Hprec Hmax) (fmul_err prec emax Hprec Hmax) a b J.
Lemma abs_conv_nonneg a b J : 0 <= abs_conv a b J.
Proof.
  destruct (cover a b J) as (lo & hi & Hc & _ & _).
  change (abs_conv a b J) with (aconv B2R a b J).
  rewrite <- (@pabs_conv float B2R (finite prec emax) (fadd prec emax Hprec Hmax)
  (fsub prec emax Hprec Hmax) (fmul prec emax Hprec Hmax) fzero (ur prec) (huge emax) (tiny prec emax / 2)
  (fadd_err prec emax Hprec Hmax) (fsub_err prec emax Hprec Hmax) (fmul_err prec emax Hprec Hmax) (zero_ok prec emax) a b J lo hi Hc).
  apply pabs_nonneg.
Qed.
Lemma abs_conv_comm a b J : abs_conv a b J = abs_conv b a J. Proof. apply conv_comm. Qed.
Lemma exact_conv_comm a b J : exact_conv a b J = exact_conv b a J. Proof. apply conv_comm. Qed.
Lemma range_nonneg g n acc a b out offset k : 1 <= g -> 0 <= n ->
  0 <= g * (Rabs (before acc out k) + abs_conv a b (offset + k)) + g * (n * (eta / 2)).
Proof.
  intros Hg Hn. pose proof (Rabs_pos (before acc out k)). pose proof (abs_conv_nonneg a b (offset + k)). pose proof eta_nonneg.
  apply Rplus_le_le_0_compat; apply Rmult_le_pos; try lra. apply Rmult_le_pos; lra.
Qed.
Lemma sample_ok_comm g n acc a b out out' offset k : sample_ok g n acc a b out out' offset k -> sample_ok g n acc b a out out' offset k.
Proof. unfold sample_ok. now rewrite (abs_conv_comm a b), (exact_conv_comm a b). Qed.
Lemma in_range_comm g n acc a b out offset k : in_range g n acc a b out offset k -> in_range g n acc b a out offset k.
Proof. unfold in_range. now rewrite (abs_conv_comm a b). Qed.

(** any of the kernels that multiply and accumulate one product after the other *)
Lemma chain_ok step acc a b out out' offset k lo hi (n : Z) : (10 <= prec)%Z ->
  good_step B2R (finite prec emax) (ur prec) (huge emax) (tiny prec emax / 2) step ->
  covers a b (offset + k) lo hi ->
  chain step (start fzero acc out k) (pairs fzero a b (offset + k) lo hi) (elt fzero out' k) ->
  all_finite a -> all_finite b -> (acc = true -> all_finite out) -> (0 <= n)%Z -> (hi - lo <= n)%Z -> (0 <= k < lenZ out')%Z ->
  in_range ((1 + u) ^ (Z.to_nat n + 1)) (IZR n) acc a b out offset k ->
  sample_ok ((1 + u) ^ (Z.to_nat n + 1)) (IZR n) acc a b out out' offset k.
Proof.
  intros Hp Hs Hc C Fa Fb Fo H0 Hn Hk HM.
  assert (En : INR (Z.to_nat n) = IZR n) by (rewrite INR_IZR_INZ, Z2Nat.id by lia; reflexivity).
  destruct (pre Hp step a b (offset + k)%Z lo hi _ _ (Z.to_nat n) Hs Hc C Fa Fb (start_fin acc out k Fo) ltac:(lia)) as [Fx Ex].
  - rewrite before_start, En. unfold in_range in HM.
    pose proof (range_nonneg ((1 + u) ^ (Z.to_nat n + 1)) (IZR n) acc a b out offset k) as Hr.
    pose proof (pow1u_ge1 u u_nonneg' (Z.to_nat n + 1)). pose proof (IZR_le 0 n H0). specialize (Hr ltac:(assumption) ltac:(assumption)).
    unfold abs_conv in *. unfold aconv, ur, huge, tiny. lra.
  - exists (elt fzero out' k). split; [now apply nthZ_elt|]. split; [exact Fx|]. rewrite before_start, En in Ex. exact Ex.
Qed.

(** the number of products of a sample is at most the length of the shorter operand *)
Definition shorter (a b : list float) : Z := Z.min (lenZ a) (lenZ b).
Definition chain_gain (n : Z) : R := (1 + u) ^ (Z.to_nat n + 1).
Lemma shorter_nonneg a b : (0 <= shorter a b)%Z.
Proof. unfold shorter. pose proof (lenZ_nonneg a). pose proof (lenZ_nonneg b). lia. Qed.
Lemma shorter_comm a b : shorter a b = shorter b a. Proof. apply Z.min_comm. Qed.

(** the plain double loop *)
Theorem C64_naive_error : forall (a b out : list float) offset accumulate, (10 <= prec)%Z ->
  all_finite a -> all_finite b -> (accumulate = true -> all_finite out) ->
  exists out', gConvolutionNaive fzero (Bplus mode_NE) (Bmult mode_NE) a b out offset accumulate = Ok out' /\ lenZ out' = lenZ out /\
    forall k, (0 <= k < lenZ out)%Z ->
      in_range (chain_gain (shorter a b)) (IZR (shorter a b)) accumulate a b out offset k ->
      sample_ok (chain_gain (shorter a b)) (IZR (shorter a b)) accumulate a b out out' offset k.
Proof.
  intros a b out offset acc Hp Fa Fb Fo.
  destruct (naive_chain fzero (Bplus mode_NE) (Bminus mode_NE) (Bmult mode_NE) (Bfma mode_NE) (Bfma mode_NE) a b out offset acc) as (out' & E & L & H).
  exists out'. split; [exact E|]. split; [exact L|]. intros k Hk HM. specialize (H k Hk).
  destruct (cover a b (offset + k)) as (lo & hi & Hc & Hl & Ep). rewrite Ep in H.
  apply (chain_ok (mac_step (Bplus mode_NE) (Bmult mode_NE)) acc a b out out' offset k lo hi); try assumption.
  - apply (mac_good B2R (finite prec emax) (fadd prec emax Hprec Hmax) (fmul prec emax Hprec Hmax)); [apply (prec_u prec Hp)|apply eta_nonneg|apply fadd_err|apply fmul_err].
  - apply shorter_nonneg.
  - lia.
Qed.

(** the kernel that slides one operand over the other, with or without vectors of any width; the
    batches and the scalars at the ends may use different multiply-adds *)
Theorem C64_slide_error : forall fmaV fmaS W vec (a b out : list float) offset accumulate, (10 <= prec)%Z -> (1 <= W)%Z ->
  is_fma fmaV -> is_fma fmaS -> all_finite a -> all_finite b -> (accumulate = true -> all_finite out) ->
  exists out', gConvolutionSlide fzero fmaV fmaS W vec a b out offset accumulate = Ok out' /\ lenZ out' = lenZ out /\
    forall k, (0 <= k < lenZ out)%Z ->
      in_range (chain_gain (shorter a b)) (IZR (shorter a b)) accumulate a b out offset k ->
      sample_ok (chain_gain (shorter a b)) (IZR (shorter a b)) accumulate a b out out' offset k.
Proof.
  intros fmaV fmaS W vec a b out offset acc Hp HW HV HS Fa Fb Fo.
  destruct (slide_chain fzero (Bplus mode_NE) (Bminus mode_NE) (Bmult mode_NE) fmaV fmaS W vec a b out offset acc HW) as (out' & E & L & H).
  exists out'. split; [exact E|]. split; [exact L|]. intros k Hk HM. specialize (H k Hk).
  assert (Hg : good_step B2R (finite prec emax) (ur prec) (huge emax) (tiny prec emax / 2) (fma_step fmaV fmaS))
    by (apply fma_step_good; now apply fma_good).
  destruct (slide_swaps a b).
  - apply sample_ok_comm. apply in_range_comm in HM. rewrite (shorter_comm a b) in *.
    destruct (cover b a (offset + k)) as (lo & hi & Hc & Hl & Ep). rewrite Ep in H.
    apply (chain_ok (fma_step fmaV fmaS) acc b a out out' offset k lo hi); try assumption; [apply shorter_nonneg|lia].
  - destruct (cover a b (offset + k)) as (lo & hi & Hc & Hl & Ep). rewrite Ep in H.
    apply (chain_ok (fma_step fmaV fmaS) acc a b out out' offset k lo hi); try assumption; [apply shorter_nonneg|lia].
Qed.

(** the kernel that computes eight samples at a time *)
Theorem C64_reduce_error : forall (a b out : list float) offset, (10 <= prec)%Z -> all_finite a -> all_finite b ->
  exists out', gConvolutionReduce fzero (Bplus mode_NE) (Bmult mode_NE) a b out offset false = Ok out' /\ lenZ out' = lenZ out /\
    forall k, (0 <= k < lenZ out)%Z ->
      in_range (chain_gain (lenZ a)) (IZR (lenZ a)) false a b out offset k ->
      sample_ok (chain_gain (lenZ a)) (IZR (lenZ a)) false a b out out' offset k.
Proof.
  intros a b out offset Hp Fa Fb.
  destruct (reduce_chain fzero (Bplus mode_NE) (Bminus mode_NE) (Bmult mode_NE) (Bfma mode_NE) (Bfma mode_NE) a b out offset) as (out' & E & L & H).
  exists out'. split; [exact E|]. split; [exact L|]. intros k Hk HM. destruct (H k Hk) as (lo & hi & Hc & C). pose proof (lenZ_nonneg a).
  apply (chain_ok (mac_step (Bplus mode_NE) (Bmult mode_NE)) false a b out out' offset k lo hi); try assumption.
  - apply (mac_good B2R (finite prec emax) (fadd prec emax Hprec Hmax) (fmul prec emax Hprec Hmax)); [apply (prec_u prec Hp)|apply eta_nonneg|apply fadd_err|apply fmul_err].
  - discriminate.
  - unfold covers in Hc. lia.
  - lia.
Qed.

(** the vectorised reduction with compensated summation; [junk] is what the unused lanes contain *)
Definition vec_gain (s : Z) : R := ((1 + u) ^ 2 * (1 + 6 * u + 14 * IZR (s / 4) * u ^ 2)) ^ 3 * (1 + u).
Lemma vec_gain_kfac s : (0 <= s)%Z -> vec_gain s = ((1 + u) ^ 2 * kfac u (Z.to_nat (s / 4))) ^ 3 * (1 + u).
Proof.
  intros Hs. unfold vec_gain, kfac. assert (0 <= s / 4)%Z by (apply Z.div_pos; lia). rewrite INR_IZR_INZ, Z2Nat.id by assumption.
  f_equal. f_equal. f_equal. ring.
Qed.
Lemma vec_ok W a b acc out out' offset k : (10 <= prec)%Z -> (lenZ a <= lenZ b)%Z ->
  all_finite a -> all_finite b -> (acc = true -> all_finite out) -> (0 <= k < lenZ out')%Z -> IZR (lenZ a / 4) * u <= 1 ->
  rv_value fzero (Bplus mode_NE) (Bminus mode_NE) (Bmult mode_NE) W true a b (offset + k) (start fzero acc out k) (elt fzero out' k) ->
  in_range (vec_gain (lenZ a)) (IZR (lenZ a)) acc a b out offset k ->
  sample_ok (vec_gain (lenZ a)) (IZR (lenZ a)) acc a b out out' offset k.
Proof.
  intros Hp Hab Fa Fb Fo Hk Hi HV HM. pose proof (lenZ_nonneg a) as Hl. pose proof u_nonneg' as Hu.
  pose proof (vec_err Hp W a b (offset + k)%Z _ _ (lenZ a) HV Fa Fb (start_fin acc out k Fo) ltac:(lia) Hi) as Hx.
  unfold sample_ok, in_range in *. rewrite vec_gain_kfac in * by assumption.
  cbv zeta in Hx. change (ur prec) with u in Hx. rewrite before_start in Hx.
  assert (HG : 1 <= ((1 + u) ^ 2 * kfac u (Z.to_nat (lenZ a / 4))) ^ 3).
  { apply pow_R1_Rle. pose proof (pow1u_ge1 u Hu 2). pose proof (kfac_ge1 u Hu (Z.to_nat (lenZ a / 4))). nra. }
  set (G := ((1 + u) ^ 2 * kfac u (Z.to_nat (lenZ a / 4))) ^ 3) in *. clearbody G.
  change (aconv B2R a b (offset + k)) with (abs_conv a b (offset + k)) in Hx.
  change (rconv B2R a b (offset + k)) with (exact_conv a b (offset + k)) in Hx.
  change (tiny prec emax) with eta in Hx. change (huge emax) with overflow in Hx.
  assert (Hn : 0 <= IZR (lenZ a) * (eta / 2)) by (apply Rmult_le_pos; [now apply (IZR_le 0)|apply eta_nonneg]).
  set (N := IZR (lenZ a) * (eta / 2)) in *. clearbody N.
  assert (Hgn : G * N <= G * (1 + u) * N) by (apply Rmult_le_compat_r; [exact Hn|nra]).
  destruct Hx as [Fx Ex]; [lra|].
  exists (elt fzero out' k). split; [now apply nthZ_elt|]. split; [exact Fx|]. lra.
Qed.
Theorem C64_reduce_vec_error : forall W (junk a b out : list float) offset accumulate, (10 <= prec)%Z -> (1 <= W)%Z -> (W <= lenZ junk)%Z ->
  all_finite a -> all_finite b -> (accumulate = true -> all_finite out) -> IZR (shorter a b / 4) * u <= 1 ->
  exists out', gConvolutionReduceVec fzero (Bplus mode_NE) (Bminus mode_NE) (Bmult mode_NE) W true junk a b out offset accumulate = Ok out' /\
    lenZ out' = lenZ out /\
    forall k, (0 <= k < lenZ out)%Z ->
      in_range (vec_gain (shorter a b)) (IZR (shorter a b)) accumulate a b out offset k ->
      sample_ok (vec_gain (shorter a b)) (IZR (shorter a b)) accumulate a b out out' offset k.
Proof.
  intros W junk a b out offset acc Hp HW Hj Fa Fb Fo Hi.
  destruct (reduce_vec_value fzero (Bplus mode_NE) (Bminus mode_NE) (Bmult mode_NE) (Bfma mode_NE) (Bfma mode_NE) W true junk a b out offset acc HW Hj)
    as (out' & E & L & H).
  exists out'. split; [exact E|]. split; [exact L|]. intros k Hk HM. specialize (H k Hk).
  destruct (lenZ b <? lenZ a)%Z eqn:El.
  - apply sample_ok_comm. apply in_range_comm in HM. unfold shorter in *. rewrite (Z.min_r (lenZ a) (lenZ b)) in * by lia.
    apply (vec_ok W); try assumption; lia.
  - unfold shorter in *. rewrite (Z.min_l (lenZ a) (lenZ b)) in * by lia. apply (vec_ok W); try assumption; lia.
Qed.

(** the function users call: short operands slide, long ones are reduced *)
Definition conv_gain (s : Z) : R := if (s <=? 32)%Z then chain_gain s else vec_gain s.
Theorem C64_convolution_error : forall fmaV fmaS W1 W2 vec (junk out a b : list float) offset clear,
  (10 <= prec)%Z -> (1 <= W1)%Z -> (1 <= W2)%Z -> (W2 <= lenZ junk)%Z -> is_fma fmaV -> is_fma fmaS ->
  all_finite a -> all_finite b -> (clear = false -> all_finite out) -> IZR (shorter a b / 4) * u <= 1 ->
  (offset + lenZ out <= ConvolutionLength (lenZ a) (lenZ b) CONV_FULL)%Z ->
  exists out', gConvolutionInto fzero (Bplus mode_NE) (Bminus mode_NE) (Bmult mode_NE) fmaV fmaS W1 W2 vec junk out a b offset clear = Ok out' /\
    lenZ out' = lenZ out /\
    forall k, (0 <= k < lenZ out)%Z ->
      in_range (conv_gain (shorter a b)) (IZR (shorter a b)) (negb clear) a b out offset k ->
      sample_ok (conv_gain (shorter a b)) (IZR (shorter a b)) (negb clear) a b out out' offset k.
Proof.
  intros fmaV fmaS W1 W2 vec junk out a b offset clear Hp HW1 HW2 Hj HV HS Fa Fb Fo Hi Hfit.
  assert (Fo' : negb clear = true -> all_finite out) by (destruct clear; [discriminate|auto]).
  unfold gConvolutionInto. apply Z.leb_le in Hfit. rewrite Hfit. cbn [assert_]. cbv zeta. fold (shorter a b). unfold conv_gain.
  destruct (shorter a b <=? 32)%Z; [now apply C64_slide_error|now apply C64_reduce_vec_error].
Qed.
End Ieee.
Print Assumptions C64_convolution_error.

(** in double precision: a window of the convolution of two signals, the shorter of which has at most
    2^30 samples, is exact up to 34 * 2^-53 of the convolution of the absolute values (and underflow),
    however long the signals are *)
Theorem C64_double_precision : forall (Hprec : Prec_gt_0 53) (Hmax : Prec_lt_emax 53 1024) fmaV fmaS W1 W2 vec
    (junk a b : list (binary_float 53 1024)) offset len,
  (1 <= W1)%Z -> (1 <= W2)%Z -> (W2 <= lenZ junk)%Z -> is_fma 53 1024 _ _ fmaV -> is_fma 53 1024 _ _ fmaS ->
  all_finite 53 1024 a -> all_finite 53 1024 b -> (Z.min (lenZ a) (lenZ b) <= 2 ^ 30)%Z ->
  a <> [] -> b <> [] -> (0 <= len)%Z -> (offset + len <= lenZ a + lenZ b - 1)%Z ->
  (forall k, (0 <= k < len)%Z -> abs_conv 53 1024 a b (offset + k) < bpow radix2 1022 - 1) ->
  exists out, gConvolutionAt (B754_zero false) (Bplus mode_NE) (Bminus mode_NE) (Bmult mode_NE) fmaV fmaS W1 W2 vec junk a b offset len = Ok out /\
    lenZ out = len /\
    forall k, (0 <= k < len)%Z -> exists x, nthZ out k = Some x /\ is_finite x = true /\
      Rabs (B2R x - exact_conv 53 1024 a b (offset + k)) <=
        34 * bpow radix2 (-53) * abs_conv 53 1024 a b (offset + k) + IZR (Z.min (lenZ a) (lenZ b)) * bpow radix2 (-1074).
Proof.
  intros Hprec Hmax fmaV fmaS W1 W2 vec junk a b offset len HW1 HW2 Hj HV HS Fa Fb Hs Na Nb Hlen Hfit HM.
  assert (La : (0 < lenZ a)%Z) by (destruct a as [|x a']; [congruence|rewrite lenZ_cons; pose proof (lenZ_nonneg a'); lia]).
  assert (Lb : (0 < lenZ b)%Z) by (destruct b as [|x b']; [congruence|rewrite lenZ_cons; pose proof (lenZ_nonneg b'); lia]).
  assert (Hu : bpow radix2 (- (53)) = / 9007199254740992) by reflexivity.
  assert (Hu1 : 0 < bpow radix2 (- (53)) <= 1 / 100000000) by (rewrite Hu; lra).
  set (s := Z.min (lenZ a) (lenZ b)) in *.
  assert (Hq : (0 <= s / 4 <= 268435456)%Z).
  { split; [apply Z.div_pos; lia|]. change 268435456%Z with (2 ^ 30 / 4)%Z. apply Z.div_le_mono; lia. }
  assert (Hm : 0 <= IZR (s / 4) <= 268435456) by (split; apply IZR_le; lia).
  set (u := bpow radix2 (- (53))) in *.
  assert (Hmu : IZR (s / 4) * u <= 1 / 30000000) by (apply Rle_trans with (268435456 * u); [apply Rmult_le_compat_r; lra|rewrite Hu; lra]).
  assert (Huu : 0 <= u * u <= 1 / 100000000 * u) by (split; [apply Rmult_le_pos; lra|apply Rmult_le_compat_r; lra]).
  assert (HG : 1 <= conv_gain 53 s <= 1 + 34 * u).
  { unfold conv_gain. destruct (s <=? 32)%Z eqn:Es.
    - unfold chain_gain. fold u. split; [apply pow_R1_Rle; lra|].
      apply Rle_trans with ((1 + u) ^ 33); [apply Rle_pow; [lra|lia]|].
      assert (E33 : INR 33 = 33) by (rewrite INR_IZR_INZ; reflexivity). assert (H33 : INR 33 * u <= 1) by (rewrite E33; lra). pose proof (pow_second_order u 33 ltac:(lra) H33) as HH. rewrite E33 in HH.
      cbn [pow] in HH |- *. lra.
    - unfold vec_gain. fold u.
      assert (HR0 : 1 <= 1 + 6 * u + 14 * IZR (s / 4) * u ^ 2).
      { assert (0 <= IZR (s / 4) * u ^ 2) by (apply Rmult_le_pos; [lra|apply pow_le; lra]). lra. }
      assert (HR : 1 + 6 * u + 14 * IZR (s / 4) * u ^ 2 <= 1 + 6 * u + u / 10).
      { assert (IZR (s / 4) * u * u <= 1 / 30000000 * u) by (apply Rmult_le_compat_r; lra). cbn [pow]. lra. }
      set (R := 1 + 6 * u + 14 * IZR (s / 4) * u ^ 2) in *. clearbody R.
      assert (HP : 1 <= (1 + u) ^ 2 <= 1 + 2 * u + u / 10) by (cbn [pow]; split; lra).
      set (P := (1 + u) ^ 2) in *. clearbody P.
      assert (HPR : 1 <= P * R <= 1 + 9 * u).
      { split; [apply Rle_trans with (1 * 1); [lra|apply Rmult_le_compat; lra]|].
        apply Rle_trans with ((1 + 2 * u + u / 10) * (1 + 6 * u + u / 10)); [apply Rmult_le_compat; lra|lra]. }
      set (Q := P * R) in *. clearbody Q.
      assert (HQ3 : 1 <= Q ^ 3 <= (1 + 9 * u) ^ 3) by (split; [now apply pow_R1_Rle|apply pow_incr; lra]).
      assert (E3 : (1 + 9 * u) ^ 3 <= 1 + 28 * u).
      { assert (u * (u * u) <= 1 / 100000000 * (u * u)) by (apply Rmult_le_compat_r; lra). cbn [pow]. lra. }
      split; [apply Rle_trans with (1 * 1); [lra|apply Rmult_le_compat; lra]|].
      set (T := Q ^ 3) in *. clearbody T. 
      apply Rle_trans with ((1 + 28 * u) * (1 + u)); [apply Rmult_le_compat_r; lra|]. lra. }
  assert (HB : 1 <= bpow radix2 1022) by (apply (bpow_le radix2 0 1022); lia).
  assert (HB4 : bpow radix2 1024 = 4 * bpow radix2 1022) by (change 1024%Z with (2 + 1022)%Z; rewrite bpow_plus; reflexivity).
  assert (He : 0 < bpow radix2 (3 - 1024 - 53) <= / 1099511627776).
  { split; [apply bpow_gt_0|]. change (/ 1099511627776) with (bpow radix2 (-40)). apply bpow_le. lia. }
  assert (He' : bpow radix2 (3 - 1024 - 53) = bpow radix2 (-1074)) by reflexivity.
  assert (Hs1 : 1 <= IZR s <= 1073741824) by (split; apply IZR_le; lia).
  assert (Hse : 0 <= IZR s * (bpow radix2 (3 - 1024 - 53) / 2) <= 1 / 1024).
  { split; [apply Rmult_le_pos; lra|]. apply Rle_trans with (1073741824 * (/ 1099511627776 / 2)); [apply Rmult_le_compat; lra|lra]. }
  unfold gConvolutionAt. set (out0 := repeat (B754_zero false : binary_float 53 1024) (Z.to_nat len)).
  assert (L0 : lenZ out0 = len) by (unfold out0; rewrite lenZ_repeat; lia).
  assert (Hb : forall k, before 53 1024 true out0 k = 0).
  { intros k. unfold before, out0. unfold at0. rewrite nthZ_map.
    destruct (nthZ (repeat _ _) k) eqn:Ek; [|reflexivity]. pose proof (nthZ_some _ _ _ Ek) as Hk. rewrite lenZ_repeat in Hk.
    rewrite nthZ_repeat in Ek by lia. injection Ek as <-. reflexivity. }
  destruct (C64_convolution_error 53 1024 Hprec Hmax fmaV fmaS W1 W2 vec junk out0 a b offset false ltac:(lia) HW1 HW2 Hj HV HS Fa Fb) as (out & E & L & H).
  - intros _ x Hx. apply repeat_spec in Hx. now rewrite Hx.
  - fold s. fold u. apply Rle_trans with (1 / 30000000); [exact Hmu|lra].
  - unfold ConvolutionLength. replace ((lenZ a =? 0) || (lenZ b =? 0))%Z%bool with false by lia. rewrite L0. lia.
  - exists out. split; [exact E|]. split; [lia|]. intros k Hk. specialize (HM k Hk). cbn [negb] in H. change (shorter 53 1024 a b) with s in H.
    pose proof (abs_conv_nonneg 53 1024 Hprec Hmax a b (offset + k)) as HA.
    set (A := abs_conv 53 1024 a b (offset + k)) in *. set (g := conv_gain 53 s) in *.
    assert (gA : A <= g * A <= A + 1 / 1000 * A).
    { split; [apply Rle_trans with (1 * A); [lra|apply Rmult_le_compat_r; lra]|].
      apply Rle_trans with ((1 + 1 / 1000) * A); [apply Rmult_le_compat_r; lra|lra]. }
    set (N := IZR s * (bpow radix2 (3 - 1024 - 53) / 2)) in *.
    assert (gN : g * N <= 2 * N) by (apply Rmult_le_compat_r; lra).
    destruct (H k ltac:(lia)) as (x & Ex & Fx & Bx).
    + unfold in_range. fold A. rewrite Hb, Rabs_R0, Rplus_0_l. fold N. rewrite HB4. lra.
    + exists x. split; [exact Ex|]. split; [exact Fx|]. fold A in Bx. rewrite Hb, Rabs_R0, !Rplus_0_l in Bx. fold N in Bx.
      eapply Rle_trans; [exact Bx|]. apply Rplus_le_compat; [change (bpow radix2 (-53)) with u; apply Rmult_le_compat_r; lra|].
      eapply Rle_trans; [exact gN|]. unfold N. rewrite He'. lra.
Qed.
Print Assumptions C64_double_precision.

(** ** the hypotheses are met by ordinary inputs, and rounding does happen *)
#[local] Existing Instance p24.
#[local] Existing Instance e128.
(** (2^23+1)(2^23+1) - (2^46+2^24) in single precision: 1 with fused multiply-adds, 0 with separate
    ones; the bound of C64 covers both *)
Definition ex_a : list (binary_float 24 128) := [b32 (-1) 0; b32 (2 ^ 23 + 1) 0].
Definition ex_b : list (binary_float 24 128) := [b32 (2 ^ 23 + 1) 0; b32 (2 ^ 46 + 2 ^ 24) 0].
Definition unfused32 : binary_float 24 128 -> binary_float 24 128 -> binary_float 24 128 -> binary_float 24 128 :=
  fun a b c => Bplus mode_NE (Bmult mode_NE a b) c.
Definition ex_run f := gConvolution (B754_zero false) (Bplus mode_NE) (Bminus mode_NE) (Bmult mode_NE) f f 2 2 true [B754_nan; B754_nan] ex_a ex_b CONV_FULL.

Lemma b32_m1 : B2R (b32 (-1) 0) = -1.
Proof. rewrite <- SF2R_B2SF. replace (B2SF (b32 (-1) 0)) with (SpecFloat.S754_finite true 8388608 (-23)) by (vm_compute; reflexivity). unfold SF2R, F2R. cbn. lra. Qed.
Lemma b32_a : B2R (b32 (2 ^ 23 + 1) 0) = 8388609.
Proof. rewrite <- SF2R_B2SF. replace (B2SF (b32 (2 ^ 23 + 1) 0)) with (SpecFloat.S754_finite false 8388609 0) by (vm_compute; reflexivity). unfold SF2R, F2R. cbn. lra. Qed.
Lemma b32_b : B2R (b32 (2 ^ 46 + 2 ^ 24) 0) = 70368760954880.
Proof. rewrite <- SF2R_B2SF. replace (B2SF (b32 (2 ^ 46 + 2 ^ 24) 0)) with (SpecFloat.S754_finite false 8388610 23) by (vm_compute; reflexivity). unfold SF2R, F2R. cbn. lra. Qed.
Lemma conv2 (x0 x1 y0 y1 : R) : conv (K := Rring) [x0; x1] [y0; y1] 1 = x0 * y1 + x1 * y0.
Proof. cbv -[Rplus Rmult IZR]. ring. Qed.
Example C64_nontrivial :
  (match ex_run (Bfma mode_NE) with Ok l => map B2SF l = map B2SF [b32 (- (2 ^ 23 + 1)) 0; b32 1 0; b32 8388611 46] | _ => False end) /\
  (match ex_run unfused32 with Ok l => map B2SF l = map B2SF [b32 (- (2 ^ 23 + 1)) 0; b32 0 0; b32 8388611 46] | _ => False end) /\
  is_fma 24 128 _ _ (Bfma mode_NE) /\ is_fma 24 128 _ _ unfused32 /\
  all_finite 24 128 ex_a /\ all_finite 24 128 ex_b /\
  exact_conv 24 128 ex_a ex_b 1 = 1 /\ abs_conv 24 128 ex_a ex_b 1 = 140737521909761 /\
  in_range 24 128 (conv_gain 24 2) 2 true ex_a ex_b (repeat (B754_zero false) 3) 0 1.
Proof.
  split; [vm_compute; reflexivity|]. split; [vm_compute; reflexivity|]. split; [now left|]. split; [now right|].
  split; [intros x [<-|[<-|[]]]; vm_compute; reflexivity|]. split; [intros x [<-|[<-|[]]]; vm_compute; reflexivity|].
  assert (E : abs_conv 24 128 ex_a ex_b 1 = 140737521909761).
  { unfold abs_conv, ex_a, ex_b. cbn [map]. rewrite b32_m1, b32_a, b32_b, (Rabs_pos_eq 8388609), (Rabs_pos_eq 70368760954880), (Rabs_left1 (-1)) by lra.
    rewrite conv2. lra. }
  split; [|split; [exact E|]].
  - unfold exact_conv, ex_a, ex_b. cbn [map]. rewrite b32_m1, b32_a, b32_b. rewrite conv2. lra.
  - unfold in_range. change (0 + 1)%Z with 1%Z. rewrite E. change (before 24 128 true (repeat (B754_zero false) 3) 1) with 0. rewrite Rabs_R0. change (conv_gain 24 2) with ((1 + bpow radix2 (- (24))) ^ (Z.to_nat 2 + 1)).
    change (Z.to_nat 2 + 1)%nat with 3%nat. change (- (24))%Z with (-24)%Z. change (3 - 128 - 24)%Z with (-149)%Z.
    change (bpow radix2 (-24)) with (/ 16777216). change (bpow radix2 128) with 340282366920938463463374607431768211456.
    assert (0 < bpow radix2 (-149) <= 1) by (split; [apply bpow_gt_0|apply (bpow_le radix2 (-149) 0); lia]). lra.
Qed.

(** * C65: which input samples a convolution sample is computed from *)
Local Open Scope Z_scope.
(** Two pairs of signals with the same sizes that agree on all samples [u_i], [v_j] with
    [J - w < i + j < J + w]. For [w = 1] these are the samples that the convolution sum for output
    sample [J] consists of. *)
Definition agree_near {K} (w : Z) (u v u' v' : list K) (J : Z) : Prop :=
  lenZ u' = lenZ u /\ lenZ v' = lenZ v /\
  forall i j, 0 <= i < lenZ u -> 0 <= j < lenZ v -> J - w < i + j < J + w -> nthZ u' i = nthZ u i /\ nthZ v' j = nthZ v j.
Lemma agree_comm {K} w (u v u' v' : list K) J : agree_near w u v u' v' J -> agree_near w v u v' u' J.
Proof. intros (H1 & H2 & H3). split; [exact H2|]. split; [exact H1|]. intros i j Hi Hj Hs. destruct (H3 j i Hj Hi ltac:(lia)). now split. Qed.

Section Local.
Context {K : Type} (zero : K) (add sub mul : K -> K -> K) (fmaV fmaS : K -> K -> K -> K).
Implicit Types (u v out l : list K).
Notation elt := (elt zero).
Lemma chain_fun (f : K -> K -> K -> K) s ps r r' :
  chain (fun t a b r => r = f t a b) s ps r -> chain (fun t a b r => r = f t a b) s ps r' -> r = r'.
Proof.
  intros C. revert r'. induction C as [|l t a b r C IH E].
  - intros r' C'. inversion C' as [|l' t' a' b' x C'' E' H1 H2]; [reflexivity|]. destruct l'; discriminate.
  - intros r' C'. inversion C' as [H1|l' t' a' b' x C'' E' H1 H2]; [destruct l; discriminate|].
    apply app_inj_tail in H1 as [-> H1]. injection H1 as -> ->. subst. now rewrite (IH _ C'').
Qed.
Lemma agree_pair w u v u' v' J i : 1 <= w -> agree_near w u v u' v' J -> 0 <= i < lenZ u -> 0 <= J - i < lenZ v ->
  elt u' i = elt u i /\ elt v' (J - i) = elt v (J - i).
Proof.
  clear add sub mul fmaV fmaS. intros Hw (_ & _ & H) Hi Hj. destruct (H i (J - i) Hi Hj ltac:(lia)) as [E1 E2]. unfold ConvTree.elt. now rewrite E1, E2.
Qed.
Lemma agree_products u v u' v' J : agree_near 1 u v u' v' J -> products zero u' v' J = products zero u v J.
Proof.
  clear add sub mul fmaV fmaS. intros HA. pose proof HA as (L1 & L2 & _). unfold products, overlap_lo, overlap_hi. rewrite L1, L2. unfold pairs. apply tab_ext. intros i Hi.
  destruct (agree_pair 1 u v u' v' J (Z.max 0 (J - lenZ v + 1) + i) ltac:(lia) HA ltac:(lia) ltac:(lia)) as [-> ->]. reflexivity.
Qed.
Lemma agree_mac W vec u v u' v' lenOut n k s : agree_near 1 u v u' v' (n + k) ->
  fold_left (mac zero fmaV fmaS W vec u' v' lenOut n k) (indices (overlap_lo u' v' (n + k)) (overlap_hi u' v' (n + k))) s =
  fold_left (mac zero fmaV fmaS W vec u v lenOut n k) (indices (overlap_lo u v (n + k)) (overlap_hi u v (n + k))) s.
Proof.
  clear add sub mul. intros HA. pose proof HA as (L1 & L2 & _). unfold overlap_lo, overlap_hi. rewrite L1, L2.
  assert (Hin : forall m, In m (indices (Z.max 0 (n + k - lenZ v + 1)) (Z.min (lenZ u) (n + k + 1))) ->
    Z.max 0 (n + k - lenZ v + 1) <= m < Z.min (lenZ u) (n + k + 1)).
  { intros m Hm. unfold indices, tab in Hm. apply in_map_iff in Hm as (q & <- & Hq). apply in_seq in Hq. lia. }
  revert s. induction (indices _ _) as [|m ms IH]; intros s; [reflexivity|]. cbn [fold_left].
  pose proof (Hin m (or_introl eq_refl)) as Hm.
  replace (mac zero fmaV fmaS W vec u' v' lenOut n k s m) with (mac zero fmaV fmaS W vec u v lenOut n k s m).
  - apply IH. intros x Hx. apply Hin. now right.
  - unfold mac. rewrite L2. destruct (agree_pair 1 u v u' v' (n + k) m ltac:(lia) HA ltac:(lia) ltac:(lia)) as [-> ->]. reflexivity.
Qed.
Lemma three_sums_ext comp t t' m0 m1 m2 m3 init : m0 <= m1 <= m2 -> m2 <= m3 -> (forall m, m0 <= m < m3 -> t m = t' m) ->
  three_sums zero add sub comp t m0 m1 m2 m3 init = three_sums zero add sub comp t' m0 m1 m2 m3 init.
Proof.
  intros H1 H2 H. unfold three_sums.
  rewrite (loop_sum_ext zero add sub mul fmaV fmaS comp (fun k => t (m0 + k)) (fun k => t' (m0 + k))) by (intros; try apply H; lia).
  rewrite (loop_sum_ext zero add sub mul fmaV fmaS comp (fun k => t (m1 + k)) (fun k => t' (m1 + k))) by (intros; try apply H; lia).
  apply (loop_sum_ext zero add sub mul fmaV fmaS); [lia|]. intros; apply H; lia.
Qed.
Lemma agree_sample W comp u v u' v' m J init : 1 <= W -> m <= J < m + W -> lenZ u <= lenZ v -> 0 < lenZ v -> agree_near W u v u' v' J ->
  rv_sample zero add sub mul W comp u' v' m J init = rv_sample zero add sub mul W comp u v m J init.
Proof.
  intros HW HJ Hl Hv HA. pose proof HA as (L1 & L2 & H). unfold rv_sample. rewrite L1, L2. pose proof (lenZ_nonneg u).
  apply three_sums_ext; [lia|lia|]. intros i Hi. destruct (Z_lt_ge_dec (J - i) 0) as [C|C]; [|destruct (Z_lt_ge_dec (J - i) (lenZ v)) as [D|D]].
  - rewrite !(elt_out zero v), !(elt_out zero v') by lia. f_equal. unfold ConvTree.elt. destruct (H i 0) as [-> _]; try lia. reflexivity.
  - destruct (agree_pair W u v u' v' J i HW HA ltac:(lia) ltac:(lia)) as [-> ->]. reflexivity.
  - rewrite !(elt_out zero v), !(elt_out zero v') by lia. f_equal. unfold ConvTree.elt. destruct (H i (lenZ v - 1)) as [-> _]; try lia. reflexivity.
Qed.
End Local.

(** any number type and operations: no law of arithmetic, not even [0 * x = 0], is assumed *)
Theorem C65_naive_local : forall K (zero : K) add mul (u v u' v' out : list K) offset accumulate k r r',
  gConvolutionNaive zero add mul u v out offset accumulate = Ok r ->
  gConvolutionNaive zero add mul u' v' out offset accumulate = Ok r' ->
  0 <= k < lenZ out -> agree_near 1 u v u' v' (offset + k) -> nthZ r' k = nthZ r k.
Proof.
  intros K zero add mul u v u' v' out offset acc k r r' E E' Hk HA.
  destruct (naive_chain zero add add mul (fun a _ _ => a) (fun a _ _ => a) u v out offset acc) as (o & Eo & L & H).
  destruct (naive_chain zero add add mul (fun a _ _ => a) (fun a _ _ => a) u' v' out offset acc) as (o' & Eo' & L' & H').
  rewrite E in Eo. injection Eo as <-. rewrite E' in Eo'. injection Eo' as <-. specialize (H k Hk). specialize (H' k Hk).
  rewrite (agree_products zero u v u' v' _ HA) in H'.
  rewrite (nthZ_elt zero r), (nthZ_elt zero r') by lia. f_equal.
  exact (chain_fun (fun t a b => add t (mul a b)) _ _ _ _ H' H).
Qed.
Print Assumptions C65_naive_local.

(** the API with operands of which at least one has at most 32 samples *)
Theorem C65_short_local : forall K (zero : K) add sub mul fmaV fmaS W1 W2 vec (junk out u v u' v' : list K) offset clear k r r',
  1 <= W1 -> Z.min (lenZ u) (lenZ v) <= 32 ->
  gConvolutionInto zero add sub mul fmaV fmaS W1 W2 vec junk out u v offset clear = Ok r ->
  gConvolutionInto zero add sub mul fmaV fmaS W1 W2 vec junk out u' v' offset clear = Ok r' ->
  0 <= k < lenZ out -> agree_near 1 u v u' v' (offset + k) -> nthZ r' k = nthZ r k.
Proof.
  intros K zero add sub mul fmaV fmaS W1 W2 vec junk out u v u' v' offset clear k r r' HW Hs E E' Hk HA.
  pose proof HA as (L1 & L2 & _). unfold gConvolutionInto in E, E'. rewrite L1, L2 in E'. cbv zeta in E, E'.
  replace (Z.min (lenZ u) (lenZ v) <=? 32) with true in * by lia.
  destruct (offset + lenZ out <=? ConvolutionLength (lenZ u) (lenZ v) CONV_FULL); [|discriminate]. cbn [assert_] in E, E'.
  destruct (slide_fold zero add sub mul fmaV fmaS W1 vec u v out offset (negb clear) HW) as (o & Eo & L & H).
  destruct (slide_fold zero add sub mul fmaV fmaS W1 vec u' v' out offset (negb clear) HW) as (o' & Eo' & L' & H').
  rewrite E in Eo. injection Eo as <-. rewrite E' in Eo'. injection Eo' as <-.
  rewrite (nthZ_elt zero r), (nthZ_elt zero r') by lia. f_equal. rewrite H, H' by assumption.
  unfold slide_swaps. rewrite L1, L2. destruct (if 512 <? _ then _ else _).
  - apply agree_mac. now apply agree_comm.
  - now apply agree_mac.
Qed.
Print Assumptions C65_short_local.

(** longer operands: nothing further away than one vector matters *)
Theorem C65_long_within_a_vector : forall K (zero : K) add sub mul fmaV fmaS W1 W2 vec (junk out u v u' v' : list K) offset clear k r r',
  1 <= W2 <= lenZ junk -> 32 < Z.min (lenZ u) (lenZ v) ->
  gConvolutionInto zero add sub mul fmaV fmaS W1 W2 vec junk out u v offset clear = Ok r ->
  gConvolutionInto zero add sub mul fmaV fmaS W1 W2 vec junk out u' v' offset clear = Ok r' ->
  0 <= k < lenZ out -> agree_near W2 u v u' v' (offset + k) -> nthZ r' k = nthZ r k.
Proof.
  intros K zero add sub mul fmaV fmaS W1 W2 vec junk out u v u' v' offset clear k r r' HW Hs E E' Hk HA.
  pose proof HA as (L1 & L2 & _). unfold gConvolutionInto in E, E'. rewrite L1, L2 in E'. cbv zeta in E, E'.
  replace (Z.min (lenZ u) (lenZ v) <=? 32) with false in * by lia.
  destruct (offset + lenZ out <=? ConvolutionLength (lenZ u) (lenZ v) CONV_FULL); [|discriminate]. cbn [assert_] in E, E'.
  destruct (reduce_vec_sample zero add sub mul fmaV fmaS W2 true junk u v out offset (negb clear)) as (o & Eo & L & H); try lia.
  destruct (reduce_vec_sample zero add sub mul fmaV fmaS W2 true junk u' v' out offset (negb clear)) as (o' & Eo' & L' & H'); try lia.
  rewrite E in Eo. injection Eo as <-. rewrite E' in Eo'. injection Eo' as <-.
  rewrite (nthZ_elt zero r), (nthZ_elt zero r') by lia. f_equal. rewrite H, H' by assumption. rewrite L1, L2.
  assert (offset + block_start W2 k <= offset + k < offset + block_start W2 k + W2)
    by (unfold block_start; pose proof (Z.div_mod k W2 ltac:(lia)); pose proof (Z.mod_pos_bound k W2 ltac:(lia)); lia).
  destruct (lenZ v <? lenZ u) eqn:Ev; apply (agree_sample zero add sub mul fmaV fmaS); try lia; [now apply agree_comm|exact HA].
Qed.
Print Assumptions C65_long_within_a_vector.

(** The full statement - that also for longer operands sample [J] depends only on the samples it is made of,
    as for the short ones - is false in floating-point arithmetic: with vectors of 4 samples an
    infinity in the second of 33 samples turns the first sample of the result into a NaN, although
    that sample is just [u_0 * v_0 = 1] *)
Definition clean : list (binary_float 24 128) := repeat (b32 1 0) 33.
Definition dirty : list (binary_float 24 128) := b32 1 0 :: B754_infinity false :: repeat (b32 1 0) 31.
Definition conv32 u v := gConvolution (B754_zero false : binary_float 24 128) (Bplus mode_NE) (Bminus mode_NE) (Bmult mode_NE)
  (Bfma mode_NE) (Bfma mode_NE) 4 4 true (repeat B754_nan 4) u v CONV_FULL.
Lemma first_sample (o : outcome (list (binary_float 24 128))) x :
  match o with Ok r => nthZ (map B2SF r) 0 | _ => None end = Some x -> exists r, o = Ok r /\ nthZ (map B2SF r) 0 = Some x.
Proof. destruct o; [|discriminate|discriminate]. intros H. eexists. split; [reflexivity|exact H]. Qed.
Theorem C65_long_refuted : agree_near 1 clean clean dirty clean 0 /\
  exists r r', conv32 clean clean = Ok r /\ conv32 dirty clean = Ok r' /\
    nthZ (map B2SF r) 0 = Some (B2SF (b32 1 0)) /\ nthZ (map B2SF r') 0 = Some SpecFloat.S754_nan.
Proof.
  split.
  - split; [reflexivity|]. split; [reflexivity|]. intros i j Hi Hj Hs. replace i with 0 by lia. replace j with 0 by lia. split; reflexivity.
  - destruct (first_sample (conv32 clean clean) (B2SF (b32 1 0)) ltac:(vm_compute; reflexivity)) as (r & E1 & H1).
    destruct (first_sample (conv32 dirty clean) SpecFloat.S754_nan ltac:(vm_compute; reflexivity)) as (r' & E2 & H2).
    exists r, r'. exact (conj E1 (conj E2 (conj H1 H2))).
Qed.
Print Assumptions C65_long_refuted.
Lemma agree_37 : agree_near 4 clean clean dirty clean 37.
Proof.
  split; [reflexivity|]. split; [reflexivity|]. intros i j Hi Hj Hs. assert (L : lenZ clean = 33) by reflexivity. rewrite L in Hi, Hj.
  split; [|reflexivity]. unfold dirty, clean. destruct (Z.eq_dec i 0) as [->|N]; [reflexivity|]. assert (2 <= i) by lia.
  replace i with (Z.of_nat (Z.to_nat i)) by lia. rewrite !nthZ_nth_error. destruct (Z.to_nat i) as [|[|q]] eqn:Eq; [lia|lia|]. reflexivity.
Qed.
Lemma dirty_1 : nthZ dirty 1 <> nthZ clean 1.
Proof.
  intros H. apply (f_equal (fun o => match o with Some x => is_finite x | None => false end)) in H. vm_compute in H. discriminate.
Qed.
(** shorter by one sample it works *)
Example C65_nontrivial :
  (match conv32 (firstn 32 dirty) (firstn 32 clean) with Ok r => nthZ (map B2SF r) 0 = Some (B2SF (b32 1 0)) /\ nthZ (map B2SF r) 1 = Some (SpecFloat.S754_infinity false) | _ => False end) /\
  (match conv32 dirty clean with Ok r => nthZ (map B2SF r) 37 = Some (B2SF (b32 28 0)) | _ => False end) /\
  agree_near 4 clean clean dirty clean 37 /\ nthZ dirty 1 <> nthZ clean 1.
Proof.
  split; [|split; [|split]].
  - vm_compute. split. { reflexivity. } reflexivity.
  - vm_compute. reflexivity.
  - exact agree_37.
  - exact dirty_1.
Qed.
