(** C78: interpolation and resampling in any arithmetic, and in floating-point arithmetic. *)
From Coq Require Import Reals Lra Lia List ZArith Arith Psatz QArith Qround Qcanon.
From Flocq Require Import Core BinarySingleNaN.
From Verif Require Import Base BaseFacts IntervalModel RationalModel RationalProofs Complex KernelModel KernelProofs ConvModel ConvProofs FirModel PropsConv PolyphaseModel PolyphaseProofs PropsPolyphase ResampleModel ResampleProofs ResampleTotal PropsResample FloatSpec ReduceTree FloatSum FloatIeee FloatStat PropsFloat ConvTree ResampleTree ResampleAny ResampleFloat.
From Coq Require Import ZifyBool ZifyNat.
Import ListNotations.
Ltac Zify.zify_post_hook ::= idtac.
Open Scope Z_scope.

(** ** Any arithmetic *)
(** a dot product that returns a number for any two signals of equal length; nothing else is known about it, nor about the other operations *)
Definition defined {K : Type} (dot : list K -> list K -> outcome K) : Prop := forall a b, lenZ a = lenZ b -> exists y, dot a b = Ok y.

(** interpolating in calls, each continued on the remaining input as the last one reported, gives the very samples of a single call *)
Theorem C78_interpolation_resumes_any_arithmetic : forall (K : Type) (zero : K) mul ofsize dot W vec (x h : list K) P v start lens, defined dot -> 1 <= W -> 0 < P ->
  gPolyphaseDecompose zero mul ofsize W vec h P = Ok v -> 0 < lenZ x -> 0 < lenZ h -> 0 <= start -> (forall l, In l lens -> 0 < l) -> start + total lens <= lenZ x * P + lenZ h - 1 ->
  any_in_calls zero dot x v start lens = gInterpolate zero dot x v start (total lens) /\ exists y, any_in_calls zero dot x v start lens = Ok y.
Proof.
  intros K zero mul ofsize dot W vec x h P v start lens Hd HW HP E Hx Hh Hs Hp Hm.
  destruct (decompose_gen mul ofsize W vec (repeat zero (length h)) h P HW ltac:(rewrite lenZ_repeat; reflexivity) HP) as (v' & E' & D). unfold gPolyphaseDecompose in E. rewrite E in E'. injection E' as <-.
  set (taps := map (fun t => mul t (ofsize P)) h) in *. assert (Lt : lenZ taps = lenZ h) by (unfold taps; now rewrite lenZ_map).
  rewrite (any_calls_ok zero dot Hd taps v P lens D HP) by (lia || assumption). rewrite (interp_any zero dot Hd x taps v P start (total lens) D HP) by (try lia; now apply total_nonneg). split; [reflexivity|]. eexists. reflexivity.
Qed.
Print Assumptions C78_interpolation_resumes_any_arithmetic.
(** a call that has only seen the samples received so far already produces the final samples *)
Theorem C78_interpolation_streams_any_arithmetic : forall (K : Type) (zero : K) mul ofsize dot W vec (x h : list K) P v len1 len2 received, defined dot -> 1 <= W -> 0 < P ->
  gPolyphaseDecompose zero mul ofsize W vec h P = Ok v -> 0 < lenZ h -> 0 < received <= lenZ x -> 0 <= len1 <= received * P -> 0 < len2 -> len1 + len2 <= lenZ x * P + lenZ h - 1 ->
  exists out1 first start, gInterpolateInto dot (repeat zero (Z.to_nat len1)) (firstn (Z.to_nat received) x) v 0 = Ok (out1, (first, start)) /\ 0 <= first <= received /\
    exists out2, gInterpolate zero dot (skipn (Z.to_nat first) x) v start len2 = Ok out2 /\ gInterpolate zero dot x v 0 (len1 + len2) = Ok (out1 ++ out2).
Proof.
  intros K zero mul ofsize dot W vec x h P v len1 len2 n Hd HW HP E Hh Hn H1 H2 Hm.
  destruct (decompose_gen mul ofsize W vec (repeat zero (length h)) h P HW ltac:(rewrite lenZ_repeat; reflexivity) HP) as (v' & E' & D). unfold gPolyphaseDecompose in E. rewrite E in E'. injection E' as <-.
  set (taps := map (fun t => mul t (ofsize P)) h) in *. assert (Lt : lenZ taps = lenZ h) by (unfold taps; now rewrite lenZ_map). assert (Lr : lenZ (firstn (Z.to_nat n) x) = n) by (rewrite lenZ_firstn; lia).
  destruct (into_any zero dot Hd (firstn (Z.to_nat n) x) taps v P 0 len1 D HP) as (fi & st & E1 & F1 & F2 & F3 & F4 & F5); try lia. eexists _, fi, st. split; [exact E1|]. assert (Hf : 0 <= fi <= n) by nia. split; [exact Hf|]. assert (Hfx : fi < lenZ x) by nia.
  eexists. split; [apply (interp_any zero dot Hd (skipn (Z.to_nat fi) x) taps v P st len2 D HP); rewrite ?lenZ_skipn; nia|]. rewrite (interp_any zero dot Hd x taps v P 0 (len1 + len2) D HP) by lia. f_equal. symmetry.
  apply list_eq_tab; [rewrite lenZ_app, !lenZ_tab; lia|]. intros j Hj. destruct (Z_lt_ge_dec j len1).
  - rewrite nthZ_app1 by (rewrite lenZ_tab; lia). rewrite nthZ_tab by lia. f_equal. apply sample_prefix; lia || nia.
  - rewrite nthZ_app2 by (rewrite lenZ_tab; lia). rewrite lenZ_tab, nthZ_tab by lia. f_equal. rewrite <- (sample_drop zero dot x taps P fi (0 + j)) by (first [lia|destruct F4; [left; assumption|right; lia]]). f_equal. lia.
Qed.
Print Assumptions C78_interpolation_streams_any_arithmetic.
Lemma nthZ_ext {K : Type} (a b : list K) : lenZ a = lenZ b -> (forall i, 0 <= i < lenZ a -> nthZ a i = nthZ b i) -> a = b.
Proof.
  revert b. induction a as [|p a IH]; intros [|q b] L H; try reflexivity; rewrite ?lenZ_cons in L; try (unfold lenZ in L; cbn in L; lia).
  pose proof (lenZ_nonneg a). rewrite lenZ_cons in H. f_equal.
  - specialize (H 0 ltac:(lia)). cbn in H. congruence.
  - apply IH; [lia|]. intros i Hi. specialize (H (i + 1) ltac:(lia)). unfold nthZ in *. replace (i + 1 <? 0) with false in H by lia. replace (i <? 0) with false by lia. replace (Z.to_nat (i + 1)) with (S (Z.to_nat i)) in H by lia. exact H.
Qed.
(** the same for resampling; the sizes are bounded as in C35 so that the rational arithmetic of the positions does not overflow *)
Theorem C78_resampling_resumes_any_arithmetic : forall (K : Type) (zero : K) add mul divide ofsize dot M W vec (x h : list K) P v rate start lens, defined dot -> 1 <= W -> 0 < P ->
  gPolyphaseDecompose zero mul ofsize W vec h P = Ok v -> canonical rate -> canonical start -> 0 < lenZ x -> 0 < lenZ h ->
  (0 < val rate)%Q -> (0 <= val start)%Q -> (forall l, In l lens -> 0 < l) -> (position (val rate) (val start) P (total lens) <= inject_Z (full_len (lenZ x) (lenZ h) P))%Q ->
  (lenZ x * P + 2 * lenZ h) * den rate * (den start * num rate) <= M -> den start * num rate * den rate * (P * P) * num rate <= M -> (P + lenZ h) * P * (den start * num rate * den rate) * den rate <= M ->
  exists y sp, any_resample_calls zero add mul divide ofsize dot M x v rate start lens = Ok y /\
    gResampleInto M add mul divide ofsize dot (repeat zero (Z.to_nat (total lens))) x v rate start = Ok (y, sp).
Proof.
  intros K zero add mul divide ofsize dot M W vec x h P v rate start lens Hd HW HP E Cr Cs Hx Hh Hr Hs Hp Hm B1 B2 B3.
  destruct (decompose_gen mul ofsize W vec (repeat zero (length h)) h P HW ltac:(rewrite lenZ_repeat; reflexivity) HP) as (v' & E' & D). unfold gPolyphaseDecompose in E. rewrite E in E'. injection E' as <-.
  set (taps := map (fun t => mul t (ofsize P)) h) in *. assert (Lt : lenZ taps = lenZ h) by (unfold taps; now rewrite lenZ_map).
  set (hq := repeat (@r0 Qcfield) (length h)). set (xq := repeat (@r0 Qcfield) (length x)). assert (Lh : lenZ hq = lenZ h) by (unfold hq; rewrite lenZ_repeat; reflexivity). assert (Lx : lenZ xq = lenZ x) by (unfold xq; rewrite lenZ_repeat; reflexivity).
  destruct (decompose_ok W vec HW (repeat (@r0 Qcfield) (length hq)) hq P) as (vq & Eq & Dq); [rewrite lenZ_repeat; reflexivity|exact HP|].
  destruct (C35_resume Qcfield M W vec xq hq P vq rate start lens Qc_char_zero HW HP Eq Cr Cs) as (yq & R1 & R2); try (rewrite ?Lh, ?Lx; assumption).
  pose proof Dq as (Q1 & Q2 & _). pose proof D as (D1 & D2 & _).
  destruct (calls_sim zero add mul divide ofsize dot Hd M Qcfield W vec lens x v xq vq rate start yq) as [y Ey]; [exact Lx|rewrite Q2, D2; lia|congruence|exact R1|].
  unfold Resample in R2. destruct (ResampleInto M W vec (repeat r0 (Z.to_nat (total lens))) xq vq rate start) as [[oq sp]| |] eqn:R3; [|discriminate|discriminate].
  destruct (resample_sim radd rmul fdiv ofnat (DotProduct W vec) add mul divide ofsize dot Hd M (repeat r0 (Z.to_nat (total lens))) xq vq (repeat zero (Z.to_nat (total lens))) x v rate start oq sp) as [o Eo]; [now rewrite !lenZ_repeat|exact Lx|rewrite Q2, D2; lia|congruence|exact R3|].
  exists y, sp. split; [exact Ey|]. rewrite Eo. do 2 f_equal. assert (Hs0 : 0 <= num start) by (pose proof Cs as [Sd _]; unfold val, Qle in Hs; cbn [Qnum Qden] in Hs; lia).
  destruct (any_calls_part zero add mul divide ofsize dot Hd M taps v P rate lens D Cr ltac:(lia) (fun l Hl => Z.lt_le_incl _ _ (Hp l Hl)) x start y Cs Hs0 Ey) as [Ly Vy].
  destruct (resample_part_gen zero add mul divide ofsize dot M _ x taps v P rate start o sp D Cr Cs Eo) as (_ & _ & _ & _ & Lo & Vo & _). pose proof (total_nonneg lens Hp) as T0. rewrite lenZ_repeat, Z2Nat.id in * by exact T0.
  apply nthZ_ext; [lia|]. intros i Hi. destruct (Vo i ltac:(lia)) as (z & -> & Bz). destruct (Vy i ltac:(lia)) as (z' & -> & Bz'). f_equal. pose proof Cr as [Rd _]. pose proof Cs as [Sd _].
  apply (blended_unique zero add mul divide ofsize dot x x taps P _ _ _ _ z z' Bz Bz'); [apply Z.mul_pos_pos; lia|apply Z.mul_pos_pos; lia|reflexivity|]. intros k _. split; reflexivity.
Qed.
Print Assumptions C78_resampling_resumes_any_arithmetic.

(** ** Floating point *)
Lemma ofnat_R n : 0 <= n -> ofnat (K := Rring) n = IZR n.
Proof.
  intros H. unfold ofnat. rewrite <- (Z2Nat.id n H) at 2. generalize (Z.to_nat n) as k. clear. induction k as [|k IH]; [reflexivity|]. cbn [sumf]. rewrite IH, Nat2Z.inj_succ, succ_IZR. cbn [radd r1 Rring]. apply Rplus_comm || reflexivity.
Qed.
Lemma R_char_zero : char_zero Complex.Rfield.
Proof. intros n Hn E. change (ofnat (K := Rring) n = 0%R) in E. rewrite ofnat_R in E by lia. apply eq_IZR in E. lia. Qed.
Lemma depth_mono W vec n m : 1 <= W -> 0 <= n <= m -> (depth_bound W vec n <= depth_bound W vec m)%nat.
Proof.
  intros HW H. unfold depth_bound. destruct vec.
  - assert (n / W / 8 <= m / W / 8) by (apply Z.div_le_mono; [lia|]; apply Z.div_le_mono; lia). lia.
  - assert (n / 8 <= m / 8) by (apply Z.div_le_mono; lia). lia.
Qed.

Section Ieee.
Variables prec emax : Z.
Context (Hprec : Prec_gt_0 prec) (Hmax : Prec_lt_emax prec emax).
Notation float := (binary_float prec emax).
Notation u := (bpow radix2 (- prec)).
Notation eta := (bpow radix2 (3 - emax - prec)).
Notation overflow := (bpow radix2 emax).
Notation fzero := (B754_zero false : float).
Notation all_finite := (all_finite prec emax).
Local Open Scope R_scope.
(** the floating-point operations: an integer becomes the nearest float; the dot product adds in any order *)
Definition fint : Z -> float := of_size prec emax Hprec Hmax.
Definition fdot batch tail (W : Z) (vec : bool) (a b : list float) : outcome float :=
  assert_ (lenZ a =? lenZ b)%Z (InnerProductWith batch tail W vec (Plain (Bplus mode_NE)) (Bmult mode_NE) a b fzero).
Definition fdecompose W vec (h : list float) P := gPolyphaseDecompose fzero (Bmult mode_NE) fint W vec h P.
Definition finterpolate batch tail W vec (x : list float) v off len := gInterpolate fzero (fdot batch tail W vec) x v off len.
Definition fresample M batch tail W vec (out x : list float) v rate start :=
  gResampleInto M (Bplus mode_NE) (Bmult mode_NE) (Bdiv mode_NE) fint (fdot batch tail W vec) out x v rate start.

(** sample m of the exact interpolation (C32, C34) of the real values, and of their absolute values *)
Definition exact_at (x h : list float) (P m : Z) : R := interpolated (F := Complex.Rfield) (map B2R x) (map B2R h) P m.
Definition abs_at (x h : list float) (P m : Z) : R := interpolated (F := Complex.Rfield) (map (fun a => Rabs (B2R a)) x) (map (fun a => Rabs (B2R a)) h) P m.
(** the longest phase, the gain of one dot product, the gain of one interpolated sample (stored taps included), and what underflow can add *)
Definition phase_len (h : list float) (P : Z) : Z := ((lenZ h + P - 1) / P)%Z.
Definition dot_gain W vec h P : R := (1 + u) ^ (depth_bound W vec (phase_len h P) + 1).
Definition sample_gain W vec h P : R := (1 + u) ^ 2 * dot_gain W vec h P.
Definition underflow W vec h P (peak : R) : R := dot_gain W vec h P * (IZR (phase_len h P) * ((1 + peak) * (eta / 2))).
Definition machine_ok batch tail (W : Z) : Prop := (10 <= prec)%Z /\ (1 <= W)%Z /\ some_order (Bplus (prec := prec) (emax := emax) mode_NE) batch /\ some_order (Bplus mode_NE) tail.
(** finite filter, few enough phases, taps that do not overflow when scaled; finite samples of at most the given magnitude *)
Definition filter_ok (h : list float) (P : Z) : Prop := (0 < P)%Z /\ (1 + u) * IZR P < overflow /\ all_finite h /\ forall a, In a h -> (1 + u) ^ 2 * (IZR P * Rabs (B2R a)) + eta / 2 < overflow.
Definition signal_ok (x : list float) (peak : R) : Prop := 0 <= peak /\ all_finite x /\ forall a, In a x -> Rabs (B2R a) <= peak.

Lemma u_small : (10 <= prec)%Z -> 0 < u <= 1 / 1000.
Proof. intros H. split; [apply bpow_gt_0|]. apply Rle_trans with (bpow radix2 (- 10)); [apply bpow_le; lia|]. cbn. lra. Qed.
Lemma interpolated_conv (f : float -> R) (x h : list float) P m : (0 < P)%Z -> interpolated (F := Complex.Rfield) (map f x) (map f h) P m = IZR P * conv (K := Rring) (expanded (K := Rring) (map f x) P) (map f h) m.
Proof.
  intros HP. unfold interpolated. rewrite conv_at_conv, zero_stuffed_eq by exact HP. change (@ofnat Complex.Rfield P) with (ofnat (K := Rring) P). rewrite ofnat_R by lia. apply Rmult_comm.
Qed.
Lemma elt_map (f : float -> float) (h : list float) k : B2R (f fzero) = 0 -> B2R (elt fzero (map f h) k) = B2R (f (elt fzero h k)).
Proof. intros H. unfold elt. rewrite nthZ_map. destruct (nthZ h k); [reflexivity|]. cbn [option_map]. now rewrite H. Qed.
(** scaling the taps *)
Lemma tap_err P (a : float) : (10 <= prec)%Z -> (0 < P)%Z -> (1 + u) * IZR P < overflow -> is_finite a = true -> (1 + u) ^ 2 * (IZR P * Rabs (B2R a)) + eta / 2 < overflow ->
  is_finite (Bmult mode_NE a (fint P)) = true /\ Rabs (B2R (Bmult mode_NE a (fint P)) - IZR P * B2R a) <= ((1 + u) ^ 2 - 1) * (IZR P * Rabs (B2R a)) + eta / 2.
Proof.
  intros Hp HP HPo Fa Ha. destruct (u_small Hp) as [U0 U1]. assert (P0 : 1 <= IZR P) by (apply (IZR_le 1); lia). destruct (weight_err prec emax Hprec Hmax P U1 ltac:(lia) HPo) as [FP EP]. fold fint in *. change (ur prec) with u in *.
  assert (X : Rabs (B2R a * B2R (fint P)) <= (1 + u) * (IZR P * Rabs (B2R a))).
  { rewrite Rabs_mult. apply Rle_trans with (Rabs (B2R a) * ((1 + u) * IZR P)); [|right; ring]. apply Rmult_le_compat_l; [apply Rabs_pos|]. apply Rabs_le_inv in EP. apply Rabs_le. nra. }
  destruct (fmul_err prec emax Hprec Hmax a (fint P) Fa FP) as [F E]; [change (ur prec) with u; change (tiny prec emax) with eta; change (huge emax) with overflow; eapply Rle_lt_trans; [|exact Ha]; apply Rplus_le_compat_r; rewrite <- tech_pow_Rmult, pow_1, Rmult_assoc; apply Rmult_le_compat_l; lra|].
  change (ur prec) with u in *. change (tiny prec emax) with eta in *. unfold fmul in *. split; [exact F|]. pose proof (Rabs_pos (B2R a)) as A0.
  destruct (weigh u (eta / 2) 1 0 (B2R a) (B2R a) (Rabs (B2R a)) (B2R (fint P)) (IZR P) (B2R (Bmult mode_NE a (fint P)))) as (_ & D & _); try lra.
  - rewrite Rminus_eq_0, Rabs_R0. lra.
  - rewrite (Rmult_comm (IZR P) (B2R a)). eapply Rle_trans; [exact D|]. right. ring.
Qed.
Lemma fdot_total batch tail W vec : machine_ok batch tail W -> defined (fdot batch tail W vec).
Proof.
  intros (_ & HW & Hb & Ht) a b L. unfold fdot, assert_. replace (lenZ a =? lenZ b)%Z with true by lia.
  destruct (C62_inner_product_combines_each_once float float float (Bplus mode_NE) (Plain (Bplus mode_NE)) batch tail W vec (Bmult mode_NE) a b fzero) as (v & E & _); auto; [lia|]. eauto.
Qed.
Lemma elt_finite (l : list float) i : all_finite l -> is_finite (elt fzero l i) = true.
Proof. intros H. unfold elt. destruct (nthZ l i) eqn:E; [|reflexivity]. apply H. unfold nthZ in E. destruct (i <? 0)%Z; [discriminate|]. now apply nth_error_In in E. Qed.
Lemma tab_finite n (f : Z -> float) : (forall i, is_finite (f i) = true) -> all_finite (tab n f).
Proof. intros H x Hx. unfold tab in Hx. apply in_map_iff in Hx as (i & <- & _). apply H. Qed.

(** one sample *)
Lemma one_sample batch tail W vec (x h : list float) P m peak : machine_ok batch tail W -> filter_ok h P -> signal_ok x peak -> (0 <= m)%Z -> sample_gain W vec h P * abs_at x h P m + underflow W vec h P peak < overflow ->
  let taps := map (fun t => Bmult mode_NE t (fint P)) h in
  exists y, fdot batch tail W vec (xs_of fzero x (lenZ taps) P m) (ts_of fzero taps (lenZ x) P m) = Ok y /\ is_finite y = true /\
    Rabs (exact_at x h P m) <= abs_at x h P m /\ Rabs (B2R y - exact_at x h P m) <= (sample_gain W vec h P - 1) * abs_at x h P m + underflow W vec h P peak.
Proof.
  intros (Hp & HW & Hb & Ht) (HP & HPo & Fh & Oh) (Hpk & Fx & Bx) Hm Hov taps. destruct (u_small Hp) as [U0 U1]. assert (T0 : 0 < eta) by apply bpow_gt_0.
  assert (Lt : lenZ taps = lenZ h) by (unfold taps; now rewrite lenZ_map).
  assert (Hz : B2R (Bmult mode_NE fzero (fint P)) = 0). { pose proof (weight_err prec emax Hprec Hmax P U1 ltac:(lia) HPo) as [FP _]. fold fint in FP. unfold finite in FP. destruct (fint P); try discriminate; reflexivity. }
  assert (Fz : is_finite (Bmult mode_NE fzero (fint P)) = true). { pose proof (weight_err prec emax Hprec Hmax P U1 ltac:(lia) HPo) as [FP _]. fold fint in FP. unfold finite in FP. destruct (fint P); try discriminate; reflexivity. }
  assert (Ft : all_finite taps). { intros t Hin. unfold taps in Hin. apply in_map_iff in Hin as (a & <- & Ha). apply tap_err; auto. }
  assert (Et : forall k, Rabs (B2R (elt fzero taps k) - IZR P * B2R (elt fzero h k)) <= ((1 + u) ^ 2 - 1) * (IZR P * Rabs (B2R (elt fzero h k))) + eta / 2).
  { intros k. unfold taps. rewrite (elt_map (fun t => Bmult mode_NE t (fint P))) by exact Hz. unfold elt. destruct (nthZ h k) as [a|] eqn:E.
    - assert (Ha : In a h) by (unfold nthZ in E; destruct (k <? 0)%Z; [discriminate|]; now apply nth_error_In in E). now apply tap_err; auto.
    - rewrite Hz. cbn [B2R]. rewrite Rmult_0_r, Rminus_0_r, Rabs_R0. lra. }
  assert (C1 : 1 <= (1 + u) ^ 2) by (apply pow_R1_Rle; lra).
  destruct (taps_changed prec emax x h taps P m ((1 + u) ^ 2) (eta / 2) peak HP Hm Lt C1 ltac:(lra) Hpk Bx Et) as (K1 & K2 & K3 & K4 & K5). fold (phase_len h P) in K1, K2.
  unfold exact_at, abs_at in *. rewrite !interpolated_conv in * by exact HP. set (A := IZR P * conv (K := Rring) (expanded (K := Rring) (map (fun a => Rabs (B2R a)) x) P) (map (fun a => Rabs (B2R a)) h) m) in *.
  set (At := conv (K := Rring) (expanded (K := Rring) (map (fun a => Rabs (B2R a)) x) P) (map (fun a => Rabs (B2R a)) taps) m) in *. set (S := IZR P * conv (K := Rring) (expanded (K := Rring) (map B2R x) P) (map B2R h) m) in *.
  set (St := conv (K := Rring) (expanded (K := Rring) (map B2R x) P) (map B2R taps) m) in *. set (p := IZR (phase_len h P)) in *. unfold sample_gain, underflow in *. fold p in Hov. fold p. set (g := dot_gain W vec h P) in *.
  set (xs := xs_of fzero x (lenZ taps) P m). set (ts := ts_of fzero taps (lenZ x) P m). assert (Lxs : (lenZ xs <= phase_len h P)%Z). { unfold xs, xs_of. rewrite lenZ_tab, Lt. unfold phase_len. apply window_size; [exact HP|apply lenZ_nonneg]. }
  assert (Hp0 : 0 <= IZR (lenZ xs) <= p) by (split; [apply (IZR_le 0), lenZ_nonneg|now apply IZR_le]). assert (Hg : 1 <= g) by (unfold g, dot_gain; apply pow_R1_Rle; lra).
  set (Dp := depth_bound W vec (lenZ xs)). assert (Hgd : (1 + u) ^ (Dp + 1) <= g). { unfold g, dot_gain. apply Rle_pow; [lra|]. pose proof (depth_mono W vec (lenZ xs) (phase_len h P) HW ltac:(pose proof (lenZ_nonneg xs); lia)). unfold Dp. lia. }
  assert (Hgd' : 0 <= (1 + u) ^ Dp <= g). { split; [apply pow_le; lra|]. eapply Rle_trans; [|exact Hgd]. apply Rle_pow; [lra|lia]. } assert (Hg1 : 1 <= (1 + u) ^ (Dp + 1)) by (apply pow_R1_Rle; lra).
  assert (EA : abs_dot prec emax xs ts = At) by (unfold xs, ts, At; now apply abs_window). assert (ES : exact_dot prec emax xs ts = St) by (unfold xs, ts, St; now apply exact_window).
  assert (Hpe : IZR (lenZ xs) * (eta / 2) <= p * (eta / 2)) by (apply Rmult_le_compat_r; lra). assert (Hpe0 : 0 <= IZR (lenZ xs) * (eta / 2)) by (apply Rmult_le_pos; lra).
  assert (Hu1 : (1 + u) ^ Dp * (IZR (lenZ xs) * (eta / 2)) <= g * (p * (eta / 2))) by (apply Rmult_le_compat; lra).
  assert (Hu2 : g * At <= g * ((1 + u) ^ 2 * A + p * (peak * (eta / 2)))) by (apply Rmult_le_compat_l; lra).
  destruct (C62_inner_product_error prec emax Hprec Hmax (Plain (Bplus mode_NE)) batch tail W vec xs ts fzero) as (y & E & Fy & Ey); auto.
  - pose proof (xs_len fzero x taps P m). unfold xs, ts. lia.
  - unfold xs, xs_of. apply tab_finite. intros i. now apply elt_finite.
  - unfold ts, ts_of. apply tab_finite. intros i. now apply elt_finite.
  - fold Dp. cbn [B2R]. rewrite Rabs_R0, Rplus_0_l, EA. assert ((1 + u) ^ (Dp + 1) * At <= g * At) by (apply Rmult_le_compat_r; lra).
    replace ((1 + u) ^ 2 * g * A + g * (p * ((1 + peak) * (eta / 2)))) with (g * ((1 + u) ^ 2 * A + p * (peak * (eta / 2))) + g * (p * (eta / 2))) in Hov by ring. lra.
  - exists y. split; [unfold fdot, assert_; fold xs ts; replace (lenZ xs =? lenZ ts)%Z with true by (pose proof (xs_len fzero x taps P m); unfold xs, ts; lia); exact E|]. split; [exact Fy|]. split; [exact K5|].
    fold Dp in Ey. cbn [B2R] in Ey. rewrite Rabs_R0, !Rplus_0_l, EA, ES in Ey. replace (B2R y - S) with ((B2R y - St) + (St - S)) by ring. eapply Rle_trans; [apply Rabs_triang|].
    assert (((1 + u) ^ (Dp + 1) - 1) * At <= (g - 1) * At) by (apply Rmult_le_compat_r; lra). assert ((g - 1) * At <= (g - 1) * ((1 + u) ^ 2 * A + p * (peak * (eta / 2)))) by (apply Rmult_le_compat_l; lra).
    replace (((1 + u) ^ 2 * g - 1) * A + g * (p * ((1 + peak) * (eta / 2)))) with (g * ((1 + u) ^ 2 * A + p * (peak * (eta / 2))) - A + g * (p * (eta / 2))) by ring. lra.
Qed.

(** the taps a decomposition stores are the filter times the number of phases, up to rounding; element p + k P of the filter is element
    size - 1 - k of phase p *)
Theorem C78_decomposition_error : forall W vec (h : list float) P, (10 <= prec)%Z -> (1 <= W)%Z -> filter_ok h P ->
  exists v, fdecompose W vec h P = Ok v /\ num_phases v = P /\ size_original v = lenZ h /\
  forall p, (0 <= p < P)%Z -> exists ph, view_at v p = Ok ph /\ lenZ ph = stride_count (lenZ h) P p /\
    forall k, (0 <= k < lenZ ph)%Z -> exists a t, nthZ h (p + k * P) = Some a /\ nthZ ph (lenZ ph - 1 - k) = Some t /\ is_finite t = true /\
      Rabs (B2R t - IZR P * B2R a) <= ((1 + u) ^ 2 - 1) * (IZR P * Rabs (B2R a)) + eta / 2.
Proof.
  intros W vec h P Hp HW (HP & HPo & Fh & Oh). destruct (decompose_gen (Bmult mode_NE) fint W vec (repeat fzero (length h)) h P HW ltac:(rewrite lenZ_repeat; reflexivity) HP) as (v & E & D). exists v. split; [exact E|]. pose proof D as (D1 & D2 & _). rewrite lenZ_map in D2. split; [exact D1|]. split; [exact D2|].
  intros p Hpp. destruct (phase_gen v _ P p D HP Hpp) as (ph & E1 & L & V). rewrite lenZ_map in L, V. exists ph. split; [exact E1|]. split; [rewrite L; symmetry; apply stride_count_eq; [apply lenZ_nonneg|exact HP|exact Hpp]|].
  intros k Hk. rewrite L in *. rewrite V by exact Hk. rewrite nthZ_map. assert (B : (0 <= p + k * P < lenZ h)%Z). { pose proof (proj1 (psize_spec (lenZ h) P p k (lenZ_nonneg h) HP Hpp ltac:(lia)) ltac:(lia)). nia. }
  destruct (nthZ_in h (p + k * P) B) as [a Ea]. rewrite Ea. exists a, (Bmult mode_NE a (fint P)). split; [reflexivity|]. split; [reflexivity|]. assert (Ha : In a h) by (unfold nthZ in Ea; destruct (p + k * P <? 0)%Z; [discriminate|]; now apply nth_error_In in Ea). apply tap_err; auto.
Qed.
(** interpolation: every sample is a number within the bound of the exact one *)
Theorem C78_interpolation_error : forall batch tail W vec (x h : list float) P off len peak, machine_ok batch tail W -> filter_ok h P -> signal_ok x peak ->
  (0 < lenZ x)%Z -> (0 < lenZ h)%Z -> (0 <= off)%Z -> (0 <= len)%Z -> (off + len <= lenZ x * P + lenZ h - 1)%Z ->
  (forall m, (off <= m < off + len)%Z -> sample_gain W vec h P * abs_at x h P m + underflow W vec h P peak < overflow) ->
  exists v y, fdecompose W vec h P = Ok v /\ finterpolate batch tail W vec x v off len = Ok y /\ lenZ y = len /\
    forall j, (0 <= j < len)%Z -> exists s, nthZ y j = Some s /\ is_finite s = true /\
      Rabs (B2R s - exact_at x h P (off + j)) <= (sample_gain W vec h P - 1) * abs_at x h P (off + j) + underflow W vec h P peak.
Proof.
  intros batch tail W vec x h P off len peak Hm Hf Hs Hx Hh Ho Hl Hb Hov. pose proof Hm as (Hp & HW & _). pose proof Hf as (HP & _). pose proof Hs as (Hpk & _).
  destruct (decompose_gen (Bmult mode_NE) fint W vec (repeat fzero (length h)) h P HW ltac:(rewrite lenZ_repeat; reflexivity) HP) as (v & E & D).
  set (taps := map (fun t => Bmult mode_NE t (fint P)) h) in *. assert (Lt : lenZ taps = lenZ h) by (unfold taps; now rewrite lenZ_map).
  exists v. eexists. split; [exact E|]. split; [apply (interp_any fzero (fdot batch tail W vec) (fdot_total batch tail W vec Hm) x taps v P off len D HP); lia|]. rewrite lenZ_tab. split; [lia|].
  intros j Hj. rewrite nthZ_tab by lia. eexists. split; [reflexivity|].
  destruct (one_sample batch tail W vec x h P (off + j) peak Hm Hf Hs ltac:(lia) (Hov (off + j)%Z ltac:(lia))) as (y & Ey & Fy & Ab & By). fold taps in Ey. unfold sample_at. rewrite Ey. destruct (meets (lenZ x) (lenZ taps) P (off + j)) eqn:Em; [split; assumption|].
  assert (E0 : exact_at x h P (off + j) = 0).
  { unfold exact_at. rewrite interpolated_conv by exact HP. pose proof (conv_window Rring (map B2R x) (map B2R h) P (off + j) HP ltac:(lia)) as Ew. cbn [car Rring] in Ew. rewrite Ew, !lenZ_map. rewrite sumZ_empty; [apply Rmult_0_r|]. unfold meets in Em. rewrite Lt in Em. unfold hi_of, lo_of. clear - Em. lia. }
  split; [reflexivity|]. rewrite E0. cbn [B2R]. rewrite Rminus_0_r, Rabs_R0. destruct (u_small Hp) as [U0 _]. assert (T0 : 0 < eta) by apply bpow_gt_0. pose proof (Rabs_pos (exact_at x h P (off + j))) as R0.
  assert (G1 : 1 <= dot_gain W vec h P) by (unfold dot_gain; apply pow_R1_Rle; lra). assert (C1 : 1 <= (1 + u) ^ 2) by (apply pow_R1_Rle; lra).
  assert (0 <= (sample_gain W vec h P - 1) * abs_at x h P (off + j)) by (apply Rmult_le_pos; [unfold sample_gain; nra|lra]).
  assert (0 <= underflow W vec h P peak). { unfold underflow. apply Rmult_le_pos; [lra|]. apply Rmult_le_pos; [apply (IZR_le 0); unfold phase_len; apply Z.div_pos; lia|]. apply Rmult_le_pos; lra. }
  lra.
Qed.
(** resampling: whatever a call returns, every sample is a number within the bound of the exact one (C34: the straight line between the
    two exact interpolated samples next to the exact position) *)
Theorem C78_resampling_error : forall M batch tail W vec (out x h : list float) P v rate start out' sp peak, machine_ok batch tail W -> filter_ok h P -> signal_ok x peak ->
  canonical rate -> canonical start -> fdecompose W vec h P = Ok v -> fresample M batch tail W vec out x v rate start = Ok (out', sp) ->
  (1 + u) ^ 2 * IZR (den start * den rate) < overflow ->
  (forall m, (0 <= m < lenZ x * P + lenZ h)%Z -> (1 + u) ^ 7 * (IZR (den start * den rate) * (sample_gain W vec h P * abs_at x h P m + underflow W vec h P peak)) + 4 * eta < overflow) ->
  lenZ out' = lenZ out /\ forall i, (0 <= i < lenZ out)%Z -> let pos := position (val rate) (val start) P i in
    exists s, nthZ out' i = Some s /\ is_finite s = true /\
      Rabs (B2R s - between (F := Complex.Rfield) (exact_at x h P) pos) <=
        ((1 + u) ^ 7 * sample_gain W vec h P - 1) * between (F := Complex.Rfield) (abs_at x h P) pos + (1 + u) ^ 7 * underflow W vec h P peak + 2 * eta.
Proof.
  intros M batch tail W vec out x h P v rate start out' sp peak Hm Hf Hs Cr Cs E Hres Hd Hov. pose proof Hm as (Hp & HW & _). pose proof Hf as (HP & _). pose proof Hs as (Hpk & _).
  destruct (decompose_gen (Bmult mode_NE) fint W vec (repeat fzero (length h)) h P HW ltac:(rewrite lenZ_repeat; reflexivity) HP) as (v' & E' & D). unfold fdecompose, gPolyphaseDecompose in E. rewrite E in E'. injection E' as <-.
  set (taps := map (fun t => Bmult mode_NE t (fint P)) h) in *. assert (Lt : lenZ taps = lenZ h) by (unfold taps; now rewrite lenZ_map).
  destruct (resample_part_gen fzero _ _ _ _ _ M out x taps v P rate start out' sp D Cr Cs Hres) as (_ & Hr & Hs0 & _ & Lo & V & _). split; [exact Lo|]. intros i Hi pos. destruct (V i Hi) as (s & Es & (w1 & w2 & y1 & y2 & W1 & W2 & W3 & W4 & W5 & W6 & W7 & W8 & W9 & ->)). eexists. split; [exact Es|].
  pose proof Cr as [Rd _]. pose proof Cs as [Sd _]. set (n := ((num start + i * den start) * num rate * P)%Z) in *. set (d := (den start * den rate)%Z) in *. assert (Hd0 : (0 < d)%Z) by (apply Z.mul_pos_pos; lia). set (m := (n / d)%Z) in *. rewrite Lt in W7.
  destruct (u_small Hp) as [U0 U1]. assert (T0 : 0 < eta) by apply bpow_gt_0. assert (G1 : 1 <= dot_gain W vec h P) by (unfold dot_gain; apply pow_R1_Rle; lra). assert (C1 : 1 <= (1 + u) ^ 2) by (apply pow_R1_Rle; lra). assert (C7 : 1 <= (1 + u) ^ 7) by (apply pow_R1_Rle; lra).
  set (G := sample_gain W vec h P) in *. assert (HG : 1 <= G) by (unfold G, sample_gain; nra). set (e := underflow W vec h P peak) in *.
  assert (He : 0 <= e). { unfold e, underflow. apply Rmult_le_pos; [lra|]. apply Rmult_le_pos; [apply (IZR_le 0); unfold phase_len; apply Z.div_pos; pose proof (lenZ_nonneg h); lia|]. apply Rmult_le_pos; lra. }
  assert (d1 : 1 <= IZR d) by (apply (IZR_le 1); lia).
  assert (Hone : forall k, (0 <= k < lenZ x * P + lenZ h)%Z -> exists y, fdot batch tail W vec (xs_of fzero x (lenZ taps) P k) (ts_of fzero taps (lenZ x) P k) = Ok y /\ is_finite y = true /\ Rabs (exact_at x h P k) <= abs_at x h P k /\ Rabs (B2R y - exact_at x h P k) <= (G - 1) * abs_at x h P k + e).
  { intros k Hk. apply (one_sample batch tail W vec x h P k peak Hm Hf Hs ltac:(lia)). fold G e. specialize (Hov k Hk). set (q := G * abs_at x h P k + e) in *. destruct (Rle_lt_dec q 0) as [Hq|Hq]; [apply Rle_lt_trans with 0; [exact Hq|apply bpow_gt_0]|]. assert (q <= IZR d * q) by nra. assert (IZR d * q <= (1 + u) ^ 7 * (IZR d * q)) by nra. lra. }
  destruct (Hone m ltac:(lia)) as (z1 & Z1 & F1 & A1 & B1). destruct (Hone (m + 1)%Z ltac:(lia)) as (z2 & Z2 & F2 & A2 & B2). rewrite W8 in Z1. injection Z1 as <-. rewrite W9 in Z2. injection Z2 as <-.
  pose proof (Hov m ltac:(lia)) as O1. pose proof (Hov (m + 1)%Z ltac:(lia)) as O2. assert (w1R : 0 < IZR w1) by (apply IZR_lt; lia). assert (w2R : 0 <= IZR w2) by (apply (IZR_le 0); lia). assert (wd : IZR w1 + IZR w2 <= IZR d) by (rewrite <- plus_IZR; apply IZR_le; lia).
  pose proof (Rabs_pos (exact_at x h P m)) as N1. pose proof (Rabs_pos (exact_at x h P (m + 1))) as N2.
  destruct (blend_err prec emax Hprec Hmax y1 y2 (exact_at x h P m) (exact_at x h P (m + 1)) (abs_at x h P m) (abs_at x h P (m + 1)) G e w1 w2) as [Fq Bq]; try assumption; try lia.
  - change (ur prec) with u. change (huge emax) with overflow. eapply Rle_lt_trans; [|exact Hd]. apply Rmult_le_compat_l; [lra|]. apply IZR_le. lia.
  - change (ur prec) with u. change (huge emax) with overflow. change (tiny prec emax) with eta. set (q1 := G * abs_at x h P m + e) in *. set (q2 := G * abs_at x h P (m + 1) + e) in *. assert (Q1 : 0 <= q1) by (unfold q1; nra). assert (Q2 : 0 <= q2) by (unfold q2; nra).
    destruct (Rle_lt_dec q1 q2).
    + assert (IZR w1 * q1 + IZR w2 * q2 <= IZR d * q2) by nra. assert ((1 + u) ^ 7 * (IZR w1 * q1 + IZR w2 * q2) <= (1 + u) ^ 7 * (IZR d * q2)) by (apply Rmult_le_compat_l; lra). lra.
    + assert (IZR w1 * q1 + IZR w2 * q2 <= IZR d * q1) by nra. assert ((1 + u) ^ 7 * (IZR w1 * q1 + IZR w2 * q2) <= (1 + u) ^ 7 * (IZR d * q1)) by (apply Rmult_le_compat_l; lra). lra.
  - change (ur prec) with u in Bq. change (tiny prec emax) with eta in Bq. split; [exact Fq|].
    assert (Bl : forall sig : Z -> R, between (F := Complex.Rfield) sig pos = (IZR w1 * sig m + IZR w2 * sig (m + 1)%Z) / IZR (w1 + w2)).
    { intros sig. unfold pos. rewrite (between_blend R_char_zero sig _ n d Hd0 (position_val rate start P i Cr Cs)). unfold blend. change (@ofnat Complex.Rfield (n mod d)) with (ofnat (K := Rring) (n mod d)). change (@ofnat Complex.Rfield d) with (ofnat (K := Rring) d).
      pose proof (Z.mod_pos_bound n d Hd0). rewrite !ofnat_R by lia. fold m. cbn [fdiv rmul radd rsub r1 Complex.Rfield Rring fring]. match goal with |- ?a = ?b => change (@eq R a b) end.
      assert (Et : IZR (n mod d) / IZR d = IZR w2 / IZR (w1 + w2)). { rewrite plus_IZR. apply (f_equal IZR) in W5. rewrite !mult_IZR, plus_IZR in W5. field_simplify_eq; [|lra]. lra. }
      change (Rdiv (IZR (n mod d)) (IZR d)) with (IZR (n mod d) / IZR d) in *. rewrite Et, plus_IZR. field. lra. }
    rewrite !Bl. exact Bq.
Qed.
(** a simple bound for the sum of the absolute values, to check that nothing overflows *)
Lemma abs_bound (x h : list float) P m peak tap : filter_ok h P -> signal_ok x peak -> 0 <= tap -> (forall a, In a h -> Rabs (B2R a) <= tap) -> (0 <= m)%Z -> abs_at x h P m <= IZR P * (IZR (phase_len h P) * (peak * tap)).
Proof.
  intros (HP & _) (Hpk & _ & Bx) Ht Bh Hm. unfold abs_at. rewrite interpolated_conv by exact HP. apply Rmult_le_compat_l; [apply (IZR_le 0); lia|]. pose proof (conv_window Rring (map (fun a : float => Rabs (B2R a)) x) (map (fun a : float => Rabs (B2R a)) h) P m HP Hm) as Ew. cbn [car Rring] in Ew. rewrite Ew, !lenZ_map. clear Ew.
  assert (G : forall (l : list float) b i, 0 <= b -> (forall a, In a l -> Rabs (B2R a) <= b) -> 0 <= Rabs (B2R (elt fzero l i)) <= b). { intros l b i Hb H. split; [apply Rabs_pos|]. unfold elt. destruct (nthZ l i) eqn:E; [|cbn; now rewrite Rabs_R0]. apply H. unfold nthZ in E. destruct (i <? 0)%Z; [discriminate|]. now apply nth_error_In in E. }
  eapply Rle_trans; [apply (Rsum_le _ _ _ (fun _ => peak * tap))|].
  - intros i _. rewrite !(at0_elt prec emax (fun a => Rabs (B2R a))) by (cbn; apply Rabs_R0). cbn [rmul Rring]. destruct (G x peak i Hpk Bx). destruct (G h tap (m - i * P)%Z Ht Bh). now apply Rmult_le_compat.
  - rewrite Rsum_const. apply Rmult_le_compat_r; [now apply Rmult_le_pos|]. apply IZR_le. apply window_size; [exact HP|apply lenZ_nonneg].
Qed.
End Ieee.
Print Assumptions C78_decomposition_error.
Print Assumptions C78_interpolation_error.
Print Assumptions C78_resampling_error.

(** ** Nontrivial cases, in binary32 *)
#[local] Existing Instance p24.
#[local] Existing Instance e128.
Notation f32 := (binary_float 24 128).
Definition one : f32 := b32 1 0.
Definition sum_left : list f32 -> f32 -> f32 := fold_left (Bplus mode_NE).
Definition M64 : Z := 9223372036854775807.
Lemma ones_finite n : all_finite 24 128 (repeat one n).
Proof. intros a Ha. apply repeat_spec in Ha. now subst. Qed.
Lemma ones_abs n (a : f32) : In a (repeat one n) -> Rabs (B2R a) = 1%R.
Proof. intros Ha. apply repeat_spec in Ha. subst. unfold one. rewrite b32_one. apply Rabs_R1. Qed.
Lemma u24 : (bpow radix2 (Z.opp 24) <= 1 / 1000)%R. Proof. apply (proj2 (u_small 24 ltac:(lia))). Qed.
Lemma eta24 : (0 < bpow radix2 (3 - 128 - 24) <= 1)%R. Proof. split; [apply bpow_gt_0|]. apply (bpow_le radix2 _ 0). lia. Qed.
Lemma over24 : (1000 < bpow radix2 128)%R. Proof. apply Rlt_le_trans with (bpow radix2 10); [cbn; lra|]. apply bpow_le. lia. Qed.
Lemma pow24 n : (n <= 40)%nat -> (0 <= (1 + bpow radix2 (Z.opp 24)) ^ n <= 2)%R.
Proof.
  intros H. pose proof u24. pose proof (bpow_gt_0 radix2 (Z.opp 24)). split; [apply pow_le; lra|]. eapply Rle_trans; [apply (Rle_pow _ n 40); [lra|exact H]|]. eapply Rle_trans; [apply (pow_incr _ (1001 / 1000)); lra|]. lra.
Qed.
(** the hypotheses of the error theorems: five ones, a filter of four ones, two phases; rate 2/3 from position 1/2 on *)
Example C78_hypotheses : machine_ok 24 128 p24 e128 sum_left sum_left 4 /\ filter_ok 24 128 (repeat one 4) 2 /\ signal_ok 24 128 (repeat one 5) 1 /\
  (forall m : Z, 0 <= m -> (sample_gain 24 128 4 true (repeat one 4) 2 * abs_at 24 128 (repeat one 5) (repeat one 4) 2 m + underflow 24 128 4 true (repeat one 4) 2 1 < bpow radix2 128)%R) /\
  ((1 + bpow radix2 (Z.opp 24)) ^ 2 * IZR (2 * 3) < bpow radix2 128)%R /\
  (forall m : Z, 0 <= m -> ((1 + bpow radix2 (Z.opp 24)) ^ 7 * (IZR (2 * 3) * (sample_gain 24 128 4 true (repeat one 4) 2 * abs_at 24 128 (repeat one 5) (repeat one 4) 2 m + underflow 24 128 4 true (repeat one 4) 2 1)) + 4 * bpow radix2 (3 - 128 - 24) < bpow radix2 128)%R).
Proof.
  pose proof u24 as U1. pose proof (bpow_gt_0 radix2 (Z.opp 24)) as U0. pose proof eta24 as [T0 T1]. pose proof over24 as OV.
  assert (Hf : filter_ok 24 128 (repeat one 4) 2).
  { split; [lia|]. split; [lra|]. split; [apply ones_finite|]. intros a Ha. rewrite (ones_abs _ _ Ha). pose proof (pow24 2 ltac:(lia)). lra. }
  assert (Hs : signal_ok 24 128 (repeat one 5) 1) by (split; [lra|]; split; [apply ones_finite|]; intros a Ha; rewrite (ones_abs _ _ Ha); lra).
  assert (G : (0 <= sample_gain 24 128 4 true (repeat one 4) 2 <= 2)%R) by (unfold sample_gain, dot_gain; rewrite <- pow_add; apply pow24; vm_compute; lia).
  assert (N : (0 <= underflow 24 128 4 true (repeat one 4) 2 1 <= 10)%R).
  { unfold underflow. change (phase_len 24 128 (repeat one 4) 2) with 2%Z. assert (D : (0 <= dot_gain 24 128 4 true (repeat one 4) 2 <= 2)%R) by (unfold dot_gain; apply pow24; vm_compute; lia). nra. }
  assert (A : forall m, 0 <= m -> (sample_gain 24 128 4 true (repeat one 4) 2 * abs_at 24 128 (repeat one 5) (repeat one 4) 2 m <= 8)%R).
  { intros m Hm. pose proof (abs_bound 24 128 (repeat one 5) (repeat one 4) 2 m 1 1 Hf Hs ltac:(lra) (fun a Ha => Req_le _ _ (ones_abs 4 a Ha)) Hm) as B. change (phase_len 24 128 (repeat one 4) 2) with 2%Z in B. nra. }
  split; [split; [lia|split; [lia|split; apply fold_left_some_order]]|]. split; [exact Hf|]. split; [exact Hs|]. split; [intros m Hm; specialize (A m Hm); lra|]. split; [pose proof (pow24 2 ltac:(lia)); cbn [Z.mul]; change (Pos.mul 2 3) with 6%positive; lra|].
  intros m Hm. specialize (A m Hm). pose proof (pow24 7 ltac:(lia)) as P7. change (IZR (2 * 3)) with 6%R. set (q := (sample_gain 24 128 4 true (repeat one 4) 2 * abs_at 24 128 (repeat one 5) (repeat one 4) 2 m + underflow 24 128 4 true (repeat one 4) 2 1)%R) in *.
  destruct (Rle_lt_dec q 0) as [Hq|Hq].
  - assert (((1 + bpow radix2 (Z.opp 24)) ^ 7 * (6 * q) <= 0)%R) by nra. lra.
  - assert (q <= 18)%R by (unfold q; lra). assert (((1 + bpow radix2 (Z.opp 24)) ^ 7 * (6 * q) <= 2 * (6 * 18))%R) by (apply Rmult_le_compat; lra). lra.
Qed.
(** and what the float functions return there: 1/3-positions blend 2, 2, 4, ... ; interpolating in two calls gives the same floats *)
Definition shown (o : outcome (list f32)) := match o with Ok l => Some (map B2SF l) | _ => None end.
Definition x32 : list f32 := map (fun n => b32 n 0) [3; -1; 4; 1; 5].
Definition h32 : list f32 := map (fun n => b32 n 0) [1; 2; 2; 1].
Definition resampled := do v <- fdecompose 24 128 p24 e128 4 true h32 2; fresample 24 128 p24 e128 M64 sum_left sum_left 4 true (repeat (B754_zero false) 6) x32 v (mkRat 2 3) (mkRat 1 2).
Example C78_nontrivial : canonical (mkRat 2 3) /\ canonical (mkRat 1 2) /\
  (match resampled with Ok (_, sp) => Some sp | _ => None end) = Some (2, mkRat 7 2) /\
  shown (do (o, _) <- resampled; Ok o) = Some (map B2SF (map (fun n => Bdiv mode_NE (b32 n 0) (b32 3 0)) [30; 30; 8; 32; 54; 38])) /\
  shown (do v <- fdecompose 24 128 p24 e128 4 true h32 2; any_in_calls (B754_zero false) (fdot 24 128 p24 e128 sum_left sum_left 4 true) x32 v 0 [4; 3; 6]) =
  shown (do v <- fdecompose 24 128 p24 e128 4 true h32 2; finterpolate 24 128 p24 e128 sum_left sum_left 4 true x32 v 0 13).
Proof.
  split; [split; reflexivity|]. split; [split; reflexivity|]. split; [vm_compute; reflexivity|]. split; vm_compute; reflexivity.
Qed.
