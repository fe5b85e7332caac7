(** Streaming FIR filtering in an arithmetic without laws, and in floating point. *)
From Coq Require Import Reals Lra Lia List ZArith Arith Psatz.
From Flocq Require Import Core BinarySingleNaN.
From Verif Require Import Base BaseFacts IntervalModel Complex KernelModel KernelProofs ConvModel ConvProofs FftModel FftProofs OlaModel OlaProofs FirModel FirProofs FloatSpec ReduceTree FloatSum FloatIeee PropsFloat ConvTree ConvFloat PropsConvFloat.
From Coq Require Import ZifyBool ZifyNat.
Import ListNotations.
Open Scope Z_scope.

Section Any.
Context {K : Type} (zero : K).
Notation elt := (elt zero).
Lemma elt_ext (l m : list K) : lenZ l = lenZ m -> (forall i, 0 <= i < lenZ l -> elt l i = elt m i) -> l = m.
Proof.
  intros L H. rewrite (tab_elt zero l), (tab_elt zero m), L. apply tab_ext. intros i Hi. apply H. lia.
Qed.
Lemma elt_app (l m : list K) i : elt (l ++ m) i = if i <? lenZ l then elt l i else elt m (i - lenZ l).
Proof. unfold ConvTree.elt. destruct (Z.ltb_spec i (lenZ l)); [now rewrite nthZ_app1|now rewrite nthZ_app2]. Qed.
Lemma elt_skipn (l : list K) n i : 0 <= i -> elt (skipn n l) i = elt l (Z.of_nat n + i).
Proof. intros H. unfold ConvTree.elt. now rewrite nthZ_skipn. Qed.
Lemma shift_any (state signal : list K) : ShiftFilterState state signal = Ok (skipn (Z.to_nat (lenZ signal)) (state ++ signal)).
Proof.
  apply okP_eq. unfold ShiftFilterState.
  pose proof (lenZ_nonneg state) as H1. pose proof (lenZ_nonneg signal) as H2.
  set (S := lenZ state). set (N := lenZ signal).
  assert (Lr : lenZ (skipn (Z.to_nat N) (state ++ signal)) = S) by (rewrite lenZ_skipn, lenZ_app; lia).
  assert (Ar : forall i, 0 <= i -> elt (skipn (Z.to_nat N) (state ++ signal)) i = if N + i <? S then elt state (N + i) else elt signal (N + i - S)).
  { intros i Hi. rewrite elt_skipn by lia. rewrite Z2Nat.id by lia. rewrite elt_app. fold S. destruct (Z.ltb_spec (N + i) S); reflexivity. }
  eapply (okP_bind _ _ (fun s => lenZ s = S /\ forall i, 0 <= i < S - N -> elt s i = elt state (N + i))).
  { destruct (Z.ltb_spec N S).
    - eapply okP_imp.
      { apply (for1_inv' (fun j s => lenZ s = S /\ (forall i, 0 <= i < j -> elt s i = elt state (N + i)) /\ (forall i, j <= i < S -> elt s i = elt state i))).
        - split; [reflexivity|]. split; [intros; lia|reflexivity].
        - intros j s Hj (L & A & B). rewrite (rd_elt zero) by lia. cbn [bind]. rewrite wr_ok by lia. apply okP_ret.
          split; [rewrite lenZ_updZ; lia|]. split; intros i Hi; rewrite elt_updZ by lia; destruct (Z.eqb_spec i j) as [->|]; try lia.
          + apply B. lia.
          + apply A. lia.
          + apply B. lia. }
      cbn beta. intros s (L & A & _). split; [exact L|]. intros i Hi. apply A. lia.
    - apply okP_ret. split; [reflexivity|]. intros; lia. }
  cbn beta. intros s0 (L0 & A0). rewrite L0.
  eapply okP_imp.
  { apply (for1_inv' (fun j s => lenZ s = S /\ (forall i, 0 <= i < S - N -> elt s i = elt state (N + i)) /\
                (forall i, 0 <= i < j -> elt s (S - 1 - i) = elt signal (N - 1 - i)))).
    - split; [exact L0|]. split; [exact A0|intros; lia].
    - intros j s Hj (L & A & B). rewrite (rd_elt zero) by lia. cbn [bind]. rewrite L. rewrite wr_ok by lia. apply okP_ret.
      split; [rewrite lenZ_updZ; lia|]. split; intros i Hi; rewrite elt_updZ by lia.
      + rewrite (proj2 (Z.eqb_neq i _)) by lia. apply A. lia.
      + destruct (Z.eqb_spec (S - 1 - i) (S - 1 - j)); [f_equal; lia|]. apply B. lia. }
  cbn beta. intros s (L & A & B). apply elt_ext; [lia|]. intros i Hi. rewrite Ar by lia.
  destruct (Z.ltb_spec (N + i) S); [apply A; lia|].
  replace i with (S - 1 - (S - 1 - i)) at 1 by lia. rewrite B by lia. f_equal. lia.
Qed.

Variables (add sub mul : K -> K -> K) (fmaV fmaS : K -> K -> K -> K).
(** the two convolutions of one call, for any specification of each *)
Lemma stream_call W1 W2 vec junk out signal filter state (P1 : list K -> list K -> Prop) (P2 : list K -> list K -> Prop) :
  1 <= lenZ filter < 2 ^ 64 -> lenZ state = lenZ filter - 1 -> lenZ out = lenZ signal ->
  (forall w, w = repeat zero (Z.to_nat (Z.min (lenZ signal) (lenZ state))) -> okP (gConvolutionInto zero add sub mul fmaV fmaS W1 W2 vec junk w state filter (lenZ filter - 1) false) (P1 w)) ->
  (forall w w', w = repeat zero (Z.to_nat (Z.min (lenZ signal) (lenZ state))) -> P1 w w' -> lenZ w' = lenZ w /\
     forall o, lenZ o = lenZ signal -> (forall k, 0 <= k < lenZ signal -> elt o k = if k <? lenZ w then elt w' k else zero) ->
       okP (gConvolutionInto zero add sub mul fmaV fmaS W1 W2 vec junk o signal filter 0 false) (P2 w')) ->
  okP (gFilterConvState zero add sub mul fmaV fmaS W1 W2 vec junk out signal filter state)
      (fun r => (exists w w', w = repeat zero (Z.to_nat (Z.min (lenZ signal) (lenZ state))) /\ P1 w w' /\ P2 w' (fst r)) /\ snd r = skipn (Z.to_nat (lenZ signal)) (state ++ signal)).
Proof.
  intros HF HS Ho H1 H2. unfold gFilterConvState, size_sub. rewrite Z.mod_small by lia. apply okP_assert; [lia|]. apply okP_assert; [lia|]. rewrite shift_any.
  pose proof (lenZ_nonneg state). pose proof (lenZ_nonneg signal). set (z := repeat zero (length out)). assert (Lz : lenZ z = lenZ signal) by (unfold z; rewrite lenZ_repeat; unfold lenZ in *; lia).
  rewrite Lz. unfold on_window. set (m := Z.min (lenZ signal) (lenZ state)) in *.
  destruct (okP_slice z 0 m (fun w => w = repeat zero (Z.to_nat m))) as (w & Ew & Hw).
  1-3: lia.
  { intros w Lw Aw. apply elt_ext; [rewrite lenZ_repeat; lia|]. intros i Hi. rewrite elt_repeat. unfold ConvTree.elt. rewrite Aw by lia. unfold z. rewrite nthZ_repeat; [reflexivity|]. unfold lenZ in *. lia. }
  rewrite Ew. cbn [bind]. destruct (H1 w Hw) as (w' & Ew' & Pw'). rewrite Ew'. cbn [bind]. destruct (H2 w w' Hw Pw') as [Lw' H3].
  assert (Lm : lenZ w = m) by (rewrite Hw, lenZ_repeat; lia).
  destruct (okP_wrs z 0 w' (fun o => lenZ o = lenZ signal /\ forall k, 0 <= k < lenZ signal -> elt o k = if k <? lenZ w then elt w' k else zero)) as (o & Eo & Lo & Ho').
  1-2: lia.
  { intros o Lo Ao. split; [lia|]. intros k Hk. unfold ConvTree.elt at 1. rewrite Ao. rewrite Lw'. destruct (Z.ltb_spec k (lenZ w)).
    - replace ((0 <=? k) && (k <? 0 + lenZ w))%bool with true by lia. rewrite Z.sub_0_r. reflexivity.
    - replace ((0 <=? k) && (k <? 0 + lenZ w))%bool with false by lia. apply (elt_repeat zero). }
  rewrite Eo. cbn [bind]. destruct (H3 o Lo Ho') as (y & Ey & Py). rewrite Ey. cbn [bind]. apply okP_ret. cbn [fst snd]. split; [|reflexivity]. exists w, w'. auto.
Qed.
End Any.

Section Float.
Variables prec emax : Z.
Context (Hprec : Prec_gt_0 prec) (Hmax : Prec_lt_emax prec emax).
Notation float := (binary_float prec emax).
Notation u := (bpow radix2 (- prec)).
Notation eta := (bpow radix2 (3 - emax - prec)).
Notation overflow := (bpow radix2 emax).
Notation fzero := (B754_zero false : float).
Notation all_finite := (all_finite prec emax).
Notation exact_conv := (exact_conv prec emax).
Notation abs_conv := (abs_conv prec emax).
Local Open Scope R_scope.

(** the largest gain of the two convolutions of a call *)
Definition worst_gain (taps : Z) : R := Rmax (chain_gain prec (Z.min taps 32)) (vec_gain prec taps).
Lemma chain_gain_mono a b : (0 <= a <= b)%Z -> chain_gain prec a <= chain_gain prec b.
Proof. intros H. unfold chain_gain. apply Rle_pow; [pose proof (bpow_ge_0 radix2 (- prec)); lra|lia]. Qed.
Lemma vec_gain_mono a b : (0 <= a <= b)%Z -> vec_gain prec a <= vec_gain prec b.
Proof.
  intros H. unfold vec_gain. pose proof (bpow_ge_0 radix2 (- prec)) as Hu. assert (Hd : (0 <= a / 4 <= b / 4)%Z) by (split; [apply Z.div_pos; lia|apply Z.div_le_mono; lia]).
  assert (IZR 0 <= IZR (a / 4) <= IZR (b / 4)) as [I1 I2] by (split; apply IZR_le; lia). pose proof (pow2_ge_0 u) as U2.
  assert (0 <= IZR (a / 4) * u ^ 2 <= IZR (b / 4) * u ^ 2) by (split; [apply Rmult_le_pos; lra|apply Rmult_le_compat_r; lra]).
  apply Rmult_le_compat_r; [lra|]. apply pow_incr. split; [apply Rmult_le_pos; [apply pow_le; lra|lra]|]. apply Rmult_le_compat_l; [apply pow_le; lra|lra].
Qed.
Lemma conv_gain_worst s taps : (0 <= s <= taps)%Z -> conv_gain prec s <= worst_gain taps.
Proof.
  intros H. unfold conv_gain, worst_gain. destruct (Z.leb_spec s 32).
  - eapply Rle_trans; [|apply Rmax_l]. apply chain_gain_mono. lia.
  - eapply Rle_trans; [|apply Rmax_r]. now apply vec_gain_mono.
Qed.
Lemma conv_gain_ge1 s : (0 <= s)%Z -> 1 <= conv_gain prec s.
Proof.
  intros Hs. pose proof (bpow_ge_0 radix2 (- prec)) as Hu. unfold conv_gain. destruct (s <=? 32)%Z; [unfold chain_gain; apply pow_R1_Rle; lra|].
  unfold vec_gain. assert (0 <= IZR (s / 4)) by (apply IZR_le; apply Z.div_pos; lia). pose proof (pow2_ge_0 u). assert (0 <= IZR (s / 4) * u ^ 2) by (apply Rmult_le_pos; lra).
  assert (1 <= (1 + u) ^ 2) by (apply pow_R1_Rle; lra). assert (1 <= (1 + u) ^ 2 * (1 + 6 * u + 14 * IZR (s / 4) * u ^ 2)) by nra. assert (1 <= ((1 + u) ^ 2 * (1 + 6 * u + 14 * IZR (s / 4) * u ^ 2)) ^ 3) by now apply pow_R1_Rle. nra.
Qed.

(** sample [j] of the filtered history [h] is represented by [v] *)
Definition stream_err (taps h : list float) (j : Z) : R :=
  (worst_gain (lenZ taps) ^ 2 - 1) * abs_conv h taps j + worst_gain (lenZ taps) ^ 2 * (2 * IZR (lenZ taps) * (eta / 2)).
Definition stream_fits (taps h : list float) (j : Z) : Prop :=
  3 * (worst_gain (lenZ taps) ^ 2 * abs_conv h taps j + worst_gain (lenZ taps) ^ 2 * (2 * IZR (lenZ taps) * (eta / 2))) < overflow.
Definition stream_ok (taps h : list float) (j : Z) (v : float) : Prop := is_finite v = true /\ Rabs (B2R v - exact_conv h taps j) <= stream_err taps h j.

Lemma exact_app s x taps j : exact_conv (s ++ x) taps j = exact_conv s taps j + exact_conv x taps (j - lenZ s).
Proof. unfold PropsConvFloat.exact_conv. rewrite map_app. refine (eq_trans (conv_app (K := Rring) _ _ _ _) _). rewrite lenZ_map. reflexivity. Qed.
Lemma abs_app s x taps j : abs_conv (s ++ x) taps j = abs_conv s taps j + abs_conv x taps (j - lenZ s).
Proof. unfold PropsConvFloat.abs_conv. rewrite map_app. refine (eq_trans (conv_app (K := Rring) _ _ _ _) _). rewrite lenZ_map. reflexivity. Qed.
Lemma exact_out s taps j : (j < 0 \/ lenZ s + lenZ taps - 1 <= j)%Z -> exact_conv s taps j = 0.
Proof. intros H. unfold PropsConvFloat.exact_conv. apply (conv_outside (K := Rring)). cbn [car Rring]. rewrite !lenZ_map. exact H. Qed.
Lemma abs_out s taps j : (j < 0 \/ lenZ s + lenZ taps - 1 <= j)%Z -> abs_conv s taps j = 0.
Proof. intros H. unfold PropsConvFloat.abs_conv. apply (conv_outside (K := Rring)). cbn [car Rring]. rewrite !lenZ_map. exact H. Qed.
Lemma abs_nonneg a b J : 0 <= abs_conv a b J. Proof. apply (abs_conv_nonneg prec emax Hprec Hmax). Qed.

Lemma two_step g1 g2 G n1 n2 L A1 A2 E1 E2 v1 v2 e : 0 <= e -> 1 <= g1 <= G -> 1 <= g2 <= G -> 0 <= n1 <= L -> 0 <= n2 <= L -> 0 <= A1 -> 0 <= A2 -> Rabs E1 <= A1 ->
  Rabs (v1 - E1) <= (g1 - 1) * A1 + g1 * (n1 * e) -> Rabs (v2 - (v1 + E2)) <= (g2 - 1) * (Rabs v1 + A2) + g2 * (n2 * e) ->
  Rabs (v2 - (E1 + E2)) <= (G ^ 2 - 1) * (A1 + A2) + G ^ 2 * (2 * L * e).
Proof.
  intros He [G1 G1'] [G2 G2'] [N1 N1'] [N2 N2'] HA1 HA2 HE H1 H2.
  assert (V1 : Rabs v1 <= g1 * A1 + g1 * (n1 * e)). { replace v1 with ((v1 - E1) + E1) by ring. eapply Rle_trans; [apply Rabs_triang|]. lra. }
  assert (T : Rabs (v2 - (E1 + E2)) <= Rabs (v2 - (v1 + E2)) + Rabs (v1 - E1)). { replace (v2 - (E1 + E2)) with ((v2 - (v1 + E2)) + (v1 - E1)) by ring. apply Rabs_triang. }
  assert (P1 : 0 <= n1 * e <= L * e) by (split; [apply Rmult_le_pos; lra|apply Rmult_le_compat_r; lra]). assert (P2 : 0 <= n2 * e <= L * e) by (split; [apply Rmult_le_pos; lra|apply Rmult_le_compat_r; lra]).
  set (p1 := n1 * e) in *. set (p2 := n2 * e) in *. replace (2 * L * e) with (2 * (L * e)) by ring. set (p := L * e) in *. clearbody p1 p2 p.
  assert (Q : (g2 - 1) * Rabs v1 <= (g2 - 1) * (g1 * A1 + g1 * p1)) by (apply Rmult_le_compat_l; lra).
  assert (GG : g1 * g2 <= G ^ 2) by (cbn [pow]; rewrite Rmult_1_r; apply Rmult_le_compat; lra). assert (G2G : g2 <= G ^ 2) by (cbn [pow]; nra).
  assert (B : Rabs (v2 - (E1 + E2)) <= (g1 * g2 - 1) * A1 + (g2 - 1) * A2 + g1 * g2 * p1 + g2 * p2) by nra.
  assert (C1 : (g1 * g2 - 1) * A1 <= (G ^ 2 - 1) * A1) by (apply Rmult_le_compat_r; lra). assert (C2 : (g2 - 1) * A2 <= (G ^ 2 - 1) * A2) by (apply Rmult_le_compat_r; lra).
  assert (C3 : g1 * g2 * p1 <= G ^ 2 * p) by (apply Rmult_le_compat; nra). assert (C4 : g2 * p2 <= G ^ 2 * p) by (apply Rmult_le_compat; nra). nra.
Qed.

Lemma sumR_triangle n (f g : Z -> R) : (0 <= n)%Z -> (forall j, (0 <= j < n)%Z -> Rabs (f j) <= g j) -> Rabs (sumZ (K := Rring) 0 n f) <= sumZ (K := Rring) 0 n g.
Proof.
  intros Hn. revert n Hn. apply (natlike_ind (fun n => (forall j, (0 <= j < n)%Z -> Rabs (f j) <= g j) -> Rabs (sumZ (K := Rring) 0 n f) <= sumZ (K := Rring) 0 n g)); [intros _; rewrite !sumZ_empty by lia; cbn; rewrite Rabs_R0; lra|].
  intros m Hm IH H. unfold Z.succ in *. rewrite !sumZ_last by lia. cbn. eapply Rle_trans; [apply Rabs_triang|]. apply Rplus_le_compat; [apply IH; intros j Hj; apply H; lia|apply H; lia].
Qed.
Lemma at0_map_abs (l : list float) i : Rabs (at0 (K := Rring) (map B2R l) i) = at0 (K := Rring) (map (fun x => Rabs (B2R x)) l) i.
Proof. unfold at0. rewrite !nthZ_map. destruct (nthZ l i); cbn; [reflexivity|apply Rabs_R0]. Qed.
Lemma exact_abs a b J : Rabs (exact_conv a b J) <= abs_conv a b J.
Proof.
  unfold PropsConvFloat.exact_conv, PropsConvFloat.abs_conv, conv. cbn [car Rring]. rewrite !lenZ_map. apply sumR_triangle; [apply lenZ_nonneg|]. intros j Hj. cbn. rewrite Rabs_mult. rewrite !at0_map_abs. apply Rle_refl.
Qed.

Lemma all_finite_repeat n : all_finite (repeat fzero n).
Proof. intros x Hx. apply repeat_spec in Hx. now subst. Qed.
Lemma elt_finite (l : list float) : (forall k, (0 <= k < lenZ l)%Z -> is_finite (elt fzero l k) = true) -> all_finite l.
Proof.
  intros H x Hx. apply In_nth_error in Hx as [n Hn]. assert (Hr : (0 <= Z.of_nat n < lenZ l)%Z) by (pose proof (nth_error_Some l n) as Q; rewrite Hn in Q; unfold lenZ; specialize (proj1 Q ltac:(discriminate)); lia).
  specialize (H _ Hr). rewrite <- nthZ_nth_error in Hn. now rewrite (elt_some fzero _ _ _ Hn) in H.
Qed.

Lemma before_elt (l : list float) k : before prec emax true l k = B2R (elt fzero l k).
Proof. unfold before, elt, at0. rewrite nthZ_map. now destruct (nthZ l k). Qed.
Lemma gain_sum a b Nn Mm Gg : Gg ^ 2 = Gg * Gg -> 1 <= Gg -> 0 <= a -> 0 <= Nn -> Nn <= 2 * Mm -> Gg * a + Gg * (Nn * b) <= Gg ^ 2 * a + Gg ^ 2 * (2 * Mm * b) \/ b < 0.
Proof.
  intros E HG Ha HN HM. destruct (Rlt_dec b 0); [now right|left]. assert (0 <= Nn * b <= 2 * Mm * b) by (split; [apply Rmult_le_pos; lra|apply Rmult_le_compat_r; lra]).
  assert (Gg <= Gg ^ 2) by (rewrite E; nra). apply Rplus_le_compat; apply Rmult_le_compat; nra.
Qed.
Lemma call_ok fmaV fmaS W1 W2 vec (junk out x taps s : list float) :
  (10 <= prec)%Z -> (1 <= W1)%Z -> (1 <= W2)%Z -> (W2 <= lenZ junk)%Z -> is_fma prec emax Hprec Hmax fmaV -> is_fma prec emax Hprec Hmax fmaS ->
  (1 <= lenZ taps < 2 ^ 64)%Z -> lenZ s = (lenZ taps - 1)%Z -> lenZ out = lenZ x -> all_finite x -> all_finite taps -> all_finite s -> IZR (lenZ taps / 4) * u <= 1 ->
  (forall k, (0 <= k < lenZ x)%Z -> stream_fits taps (s ++ x) (lenZ s + k)) ->
  okP (gFilterConvState fzero (Bplus mode_NE) (Bminus mode_NE) (Bmult mode_NE) fmaV fmaS W1 W2 vec junk out x taps s)
    (fun r => lenZ (fst r) = lenZ x /\ (forall k, (0 <= k < lenZ x)%Z -> exists v, nthZ (fst r) k = Some v /\ stream_ok taps (s ++ x) (lenZ s + k) v) /\ snd r = skipn (Z.to_nat (lenZ x)) (s ++ x)).
Proof.
  intros Hp HW1 HW2 Hj HV HS Ht Ls Lo Fx Ft Fs Hi Hfit. set (S := lenZ s) in *. set (N := lenZ x) in *. set (L := lenZ taps) in *. set (G := worst_gain L) in *.
  assert (N0 : (0 <= N)%Z) by apply lenZ_nonneg. assert (e0 : 0 <= eta / 2) by (pose proof (bpow_ge_0 radix2 (3 - emax - prec)); lra).
  assert (Hquarter : forall m, (0 <= m <= L)%Z -> IZR (m / 4) * u <= 1). { intros m Hm. eapply Rle_trans; [|exact Hi]. apply Rmult_le_compat_r; [apply bpow_ge_0|]. apply IZR_le. apply Z.div_le_mono; lia. }
  assert (IL : 1 <= IZR L) by (apply (IZR_le 1); lia).
  (* first convolution *)
  set (m := Z.min N S). set (n1 := Z.min S L). set (n2 := Z.min N L).
  assert (g1 : 1 <= conv_gain prec n1 <= G) by (split; [apply conv_gain_ge1; unfold n1; lia|apply conv_gain_worst; unfold n1; lia]).
  assert (g2 : 1 <= conv_gain prec n2 <= G) by (split; [apply conv_gain_ge1; unfold n2; lia|apply conv_gain_worst; unfold n2; lia]).
  assert (I1 : 0 <= IZR n1 <= IZR L) by (split; apply IZR_le; unfold n1; lia). assert (I2 : 0 <= IZR n2 <= IZR L) by (split; apply IZR_le; unfold n2; lia).
  assert (G1 : 1 <= G) by lra. assert (GG : G ^ 2 = G * G) by ring.
  assert (Hab : forall k, (0 <= k < N)%Z -> abs_conv (s ++ x) taps (S + k) = abs_conv s taps (S + k) + abs_conv x taps k). { intros k Hk. rewrite abs_app. fold S. f_equal. f_equal. lia. }
  assert (Hex : forall k, (0 <= k < N)%Z -> exact_conv (s ++ x) taps (S + k) = exact_conv s taps (S + k) + exact_conv x taps k). { intros k Hk. rewrite exact_app. fold S. f_equal. f_equal. lia. }
  set (P1 := fun w w' : list float => lenZ w' = lenZ w /\ forall k, (0 <= k < lenZ w)%Z -> is_finite (elt fzero w' k) = true /\ Rabs (B2R (elt fzero w' k) - exact_conv s taps (S + k)) <= (conv_gain prec n1 - 1) * abs_conv s taps (S + k) + conv_gain prec n1 * (IZR n1 * (eta / 2))).
  set (P2 := fun w' y : list float => lenZ y = N /\ forall k, (0 <= k < N)%Z -> exists v, nthZ y k = Some v /\ stream_ok taps (s ++ x) (S + k) v).
  assert (Eoff : (lenZ taps - 1)%Z = S) by (unfold S, L in *; lia).
  eapply okP_imp; [apply (stream_call fzero (Bplus mode_NE) (Bminus mode_NE) (Bmult mode_NE) fmaV fmaS W1 W2 vec junk out x taps s P1 P2)|].
  - exact Ht.
  - exact Ls.
  - exact Lo.
  - intros w Hw. fold N S in Hw. fold m in Hw. assert (Lw : lenZ w = m) by (rewrite Hw, lenZ_repeat; unfold m; lia).
    destruct (C64_convolution_error prec emax Hprec Hmax fmaV fmaS W1 W2 vec junk w s taps (lenZ taps - 1)%Z false) as (w' & E & L' & H); try assumption.
    + intros _. rewrite Hw. apply all_finite_repeat.
    + apply Hquarter. unfold shorter. fold S L. lia.
    + unfold ConvolutionLength. fold S L. rewrite Lw. destruct (((S =? 0) || (L =? 0))%bool) eqn:Ez; unfold m; lia.
    + exists w'. split; [exact E|]. split; [exact L'|]. intros k Hk. unfold shorter in H. fold S L n1 in H. replace (L - 1)%Z with S in H by lia.
      assert (Bz : before prec emax (negb false) w k = 0). { change (negb false) with true. rewrite before_elt, Hw, elt_repeat. reflexivity. }
      destruct (H k Hk) as (v & Hv & Fv & Ev).
      { unfold in_range. rewrite Bz, Rabs_R0, Rplus_0_l. assert (Hk' : (0 <= k < N)%Z) by (unfold m in Lw; lia). specialize (Hfit k Hk'). unfold stream_fits in Hfit. fold L G in Hfit. rewrite (Hab k Hk') in Hfit.
        pose proof (abs_nonneg s taps (S + k)) as A1. pose proof (abs_nonneg x taps k) as A2. eapply Rle_lt_trans; [|exact Hfit]. apply Rmult_le_compat_l; [lra|]. assert (G <= G ^ 2) by (rewrite GG; nra). 
        apply Rplus_le_compat; apply Rmult_le_compat; try lra. - apply Rmult_le_pos; lra. - apply Rmult_le_compat_r; lra. }
      rewrite (elt_some fzero _ _ _ Hv). split; [exact Fv|]. rewrite Bz, Rabs_R0, !Rplus_0_l in Ev. exact Ev.
  - intros w w' Hw [L' H1]. split; [exact L'|]. fold N S in Hw. fold m in Hw. assert (Lw : lenZ w = m) by (rewrite Hw, lenZ_repeat; unfold m; lia). intros o Lo' Ho'. fold N in Lo', Ho'.
    (* what the output holds after the first convolution *)
    assert (H1' : forall k, (0 <= k < N)%Z -> is_finite (elt fzero o k) = true /\ Rabs (B2R (elt fzero o k) - exact_conv s taps (S + k)) <= (conv_gain prec n1 - 1) * abs_conv s taps (S + k) + conv_gain prec n1 * (IZR n1 * (eta / 2))).
    { intros k Hk. rewrite (Ho' k Hk). destruct (Z.ltb_spec k (lenZ w)) as [Hl|Hl]; [apply H1; lia|]. split; [reflexivity|].
      rewrite exact_out, abs_out by (fold S L; unfold m in Lw; lia). cbn [B2R]. rewrite Rminus_0_r, Rabs_R0, Rmult_0_r, Rplus_0_l. apply Rmult_le_pos; [lra|apply Rmult_le_pos; lra]. }
    destruct (C64_convolution_error prec emax Hprec Hmax fmaV fmaS W1 W2 vec junk o x taps 0%Z false) as (y & E & Ly & H); try assumption.
    + intros _. apply elt_finite. intros k Hk. apply H1'. lia.
    + apply Hquarter. unfold shorter. fold N L. lia.
    + unfold ConvolutionLength. fold N L. rewrite Lo'. destruct (((N =? 0) || (L =? 0))%bool) eqn:Ez; lia.
    + exists y. split; [exact E|]. split; [lia|]. intros k Hk. unfold shorter in H. fold N L n2 in H. specialize (H k ltac:(lia)). change (negb false) with true in H. unfold in_range, sample_ok in H. rewrite before_elt, !Z.add_0_l in H.
      destruct (H1' k Hk) as [F1 E1]. pose proof (abs_nonneg s taps (S + k)) as A1. pose proof (abs_nonneg x taps k) as A2. pose proof (exact_abs s taps (S + k)) as EA.
      set (v1 := B2R (elt fzero o k)) in *.
      assert (V1 : Rabs v1 <= conv_gain prec n1 * abs_conv s taps (S + k) + conv_gain prec n1 * (IZR n1 * (eta / 2))).
      { replace v1 with ((v1 - exact_conv s taps (S + k)) + exact_conv s taps (S + k)) by ring. eapply Rle_trans; [apply Rabs_triang|]. lra. }
      destruct H as (v & Hv & Fv & Ev).
      { specialize (Hfit k Hk). unfold stream_fits in Hfit. fold L G in Hfit. rewrite (Hab k Hk) in Hfit. eapply Rle_lt_trans; [|exact Hfit]. apply Rmult_le_compat_l; [lra|].
        set (a1 := abs_conv s taps (S + k)) in *. set (a2 := abs_conv x taps k) in *. set (e := eta / 2) in *. set (q1 := conv_gain prec n1) in *. set (q2 := conv_gain prec n2) in *. clearbody a1 a2 e q1 q2.
        assert (J1 : 0 <= IZR n1 * e <= IZR L * e) by (split; [apply Rmult_le_pos; lra|apply Rmult_le_compat_r; lra]). assert (J2 : 0 <= IZR n2 * e <= IZR L * e) by (split; [apply Rmult_le_pos; lra|apply Rmult_le_compat_r; lra]).
        replace (2 * IZR L * e) with (2 * (IZR L * e)) by ring. set (p1 := IZR n1 * e) in *. set (p2 := IZR n2 * e) in *. set (p := IZR L * e) in *. clearbody p1 p2 p.
        assert (B1 : q2 * Rabs v1 <= q2 * (q1 * a1 + q1 * p1)) by (apply Rmult_le_compat_l; lra). assert (B2 : q2 * q1 <= G ^ 2) by (rewrite GG; apply Rmult_le_compat; lra). assert (B3 : q2 <= G ^ 2) by (rewrite GG; nra).
        assert (q2 * q1 * a1 <= G ^ 2 * a1) by (apply Rmult_le_compat_r; lra). assert (q2 * a2 <= G ^ 2 * a2) by (apply Rmult_le_compat_r; lra). assert (q2 * q1 * p1 <= G ^ 2 * p) by (apply Rmult_le_compat; nra). assert (q2 * p2 <= G ^ 2 * p) by (apply Rmult_le_compat; nra). nra. }
      exists v. split; [exact Hv|]. split; [exact Fv|]. unfold stream_err. fold L G. rewrite (Hab k Hk), (Hex k Hk).
      apply (two_step (conv_gain prec n1) (conv_gain prec n2) G (IZR n1) (IZR n2) (IZR L) (abs_conv s taps (S + k)) (abs_conv x taps k) (exact_conv s taps (S + k)) (exact_conv x taps k) v1 (B2R v) (eta / 2)); assumption || lra.
  - cbn beta. intros [y s'] ((w & w' & Hw & _ & Ly & H) & Es). cbn [fst snd] in *. split; [exact Ly|]. split; [exact H|exact Es].
Qed.
End Float.

Section Blocks.
Context {K : Type} (S : Z) (V : list K -> Z -> K -> Prop) (Fit : list K -> Z -> Prop) (Fin : list K -> Prop).
Hypothesis Vskip : forall n l j v, 0 <= n <= lenZ l -> S <= j -> V (skipn (Z.to_nat n) l) j v -> V l (n + j) v.
Hypothesis Vapp : forall l m j v, j < lenZ l -> V l j v -> V (l ++ m) j v.
Hypothesis Fskip : forall n l j, 0 <= n <= lenZ l -> S <= j -> Fit l (n + j) -> Fit (skipn (Z.to_nat n) l) j.
Hypothesis Fapp : forall l m j, j < lenZ l -> Fit (l ++ m) j -> Fit l j.
Hypothesis Finapp : forall l m, Fin (l ++ m) <-> Fin l /\ Fin m.
Hypothesis Finskip : forall n l, Fin l -> Fin (skipn n l).
Variable okb : list K -> Prop.
Variable step : list K -> list K -> outcome (list K * list K).
Hypothesis Hstep : forall b s, okb b -> lenZ s = S -> Fin s -> Fin b -> (forall k, 0 <= k < lenZ b -> Fit (s ++ b) (S + k)) ->
  okP (step b s) (fun r => lenZ (fst r) = lenZ b /\ (forall k, 0 <= k < lenZ b -> exists v, nthZ (fst r) k = Some v /\ V (s ++ b) (S + k) v) /\ snd r = skipn (Z.to_nat (lenZ b)) (s ++ b)).
Lemma blocks_ok blocks s : Forall okb blocks -> lenZ s = S -> Fin s -> Fin (concat blocks) -> (forall k, 0 <= k < lenZ (concat blocks) -> Fit (s ++ concat blocks) (S + k)) ->
  okP (run_blocks step blocks s) (fun r => map (@lenZ K) (fst r) = map (@lenZ K) blocks /\ lenZ (concat (fst r)) = lenZ (concat blocks) /\
    (forall k, 0 <= k < lenZ (concat blocks) -> exists v, nthZ (concat (fst r)) k = Some v /\ V (s ++ concat blocks) (S + k) v) /\ snd r = skipn (Z.to_nat (lenZ (concat blocks))) (s ++ concat blocks)).
Proof.
  revert s. induction blocks as [|b bs IH]; intros s Hob Ls Fs Fb Hf; cbn [run_blocks concat] in *.
  - apply okP_ret. cbn [fst snd concat map]. split; [reflexivity|]. split; [reflexivity|]. split; [intros k Hk; change (lenZ (@nil K)) with 0 in Hk; lia|]. now rewrite app_nil_r.
  - pose proof (Forall_inv Hob) as Ob. pose proof (Forall_inv_tail Hob) as Obs. pose proof (lenZ_nonneg s) as Ls0. pose proof (lenZ_nonneg b) as Lb0. pose proof (lenZ_nonneg (concat bs)) as Lc0. apply Finapp in Fb as [Fb Fbs].
    eapply okP_bind; [apply (Hstep b s Ob Ls Fs Fb)|].
    + intros k Hk. apply (Fapp _ (concat bs)); [rewrite lenZ_app; lia|]. rewrite <- app_assoc. apply Hf. rewrite lenZ_app. lia.
    + cbn beta. intros [y s1] (Ly & Hy & E1). cbn [fst snd] in *. assert (L1 : lenZ s1 = S) by (rewrite E1, lenZ_skipn, lenZ_app; lia).
      assert (E : s1 ++ concat bs = skipn (Z.to_nat (lenZ b)) (s ++ b ++ concat bs)).
      { rewrite E1, app_assoc, (skipn_app _ (s ++ b)). replace (Z.to_nat (lenZ b) - length (s ++ b))%nat with O by (rewrite app_length; unfold lenZ; lia). reflexivity. }
      assert (Lall : lenZ (s ++ b ++ concat bs) = lenZ s + lenZ b + lenZ (concat bs)) by (rewrite !lenZ_app; lia).
      eapply okP_bind; [apply (IH s1 Obs L1)|].
      * rewrite E1. apply Finskip. apply Finapp. now split.
      * exact Fbs.
      * intros k Hk. rewrite E. apply Fskip; [lia|lia|]. replace (lenZ b + (S + k)) with (S + (lenZ b + k)) by ring. apply Hf. rewrite lenZ_app. lia.
      * cbn beta. intros [ys s2] (M & Lys & Hys & E2). cbn [fst snd] in *. apply okP_ret. cbn [fst snd concat map]. split; [now rewrite Ly, M|]. split; [rewrite !lenZ_app; lia|]. split.
        -- intros k Hk. rewrite lenZ_app in Hk. destruct (Z_lt_ge_dec k (lenZ b)) as [Hl|Hl].
           ++ destruct (Hy k ltac:(lia)) as (v & Hv & Vv). exists v. split; [rewrite nthZ_app1 by lia; exact Hv|]. rewrite app_assoc. apply Vapp; [rewrite lenZ_app; lia|exact Vv].
           ++ destruct (Hys (k - lenZ b) ltac:(lia)) as (v & Hv & Vv). exists v. split; [rewrite nthZ_app2 by lia; rewrite Ly; exact Hv|]. rewrite E in Vv. replace (S + k) with (lenZ b + (S + (k - lenZ b))) by ring. apply Vskip; [lia|lia|exact Vv].
        -- rewrite E2, E, lenZ_app. rewrite skipn_skipn. f_equal. lia.
Qed.
End Blocks.

(** blocks that are not longer than the filter: every sample is one chain of multiply-adds, oldest sample first *)
Lemma fold_ext {A B} (g g' : A -> B -> A) l a : (forall a b, In b l -> g a b = g' a b) -> fold_left g l a = fold_left g' l a.
Proof. revert a. induction l as [|b l IH]; intros a H; [reflexivity|]. cbn. rewrite (H a b (or_introl eq_refl)). apply IH. intros; apply H; now right. Qed.
Lemma in_indices lo hi m : In m (indices lo hi) -> lo <= m < hi.
Proof.
  unfold indices, tab. intros H. apply in_map_iff in H as (i & <- & Hi). apply in_seq in Hi. lia.
Qed.
Lemma indices_app lo mid hi : lo <= mid <= hi -> indices lo hi = indices lo mid ++ indices mid hi.
Proof.
  intros H. unfold indices. replace (hi - lo) with ((mid - lo) + (hi - mid)) by ring. rewrite tab_app by lia. f_equal. apply tab_ext. intros; lia.
Qed.
Lemma indices_shift lo hi d : indices (lo + d) (hi + d) = map (fun m => m + d) (indices lo hi).
Proof. unfold indices, tab. rewrite map_map. replace (hi + d - (lo + d)) with (hi - lo) by ring. apply map_ext. intros; lia. Qed.
Lemma fold_map {A B C} (g : A -> C -> A) (h : B -> C) l a : fold_left g (map h l) a = fold_left (fun a b => g a (h b)) l a.
Proof. revert a. induction l as [|b l IH]; intros a; [reflexivity|apply IH]. Qed.
Section Short.
Context {K : Type} (zero : K) (add sub mul : K -> K -> K) (f : K -> K -> K -> K).
Notation elt := (elt zero).
Definition oldest_first (taps : list K) (h : list K) (j : Z) : K := fold_left (fun t m => f (elt taps (j - m)) (elt h m) t) (indices (j - lenZ taps + 1) (j + 1)) zero.
Lemma short_step W1 W2 vec junk taps b s : 1 <= W1 -> 1 <= lenZ taps <= 33 -> lenZ b <= Z.min (lenZ taps) 32 -> lenZ s = lenZ taps - 1 ->
  okP (gFilterConvStateNew zero add sub mul f f W1 W2 vec junk b taps s)
    (fun r => lenZ (fst r) = lenZ b /\ (forall k, 0 <= k < lenZ b -> exists v, nthZ (fst r) k = Some v /\ v = oldest_first taps (s ++ b) (lenZ taps - 1 + k)) /\ snd r = skipn (Z.to_nat (lenZ b)) (s ++ b)).
Proof.
  intros HW Ht Hb Hs. pose proof (lenZ_nonneg b) as N0. unfold gFilterConvStateNew. set (S := lenZ s) in *. set (N := lenZ b) in *. set (L := lenZ taps) in *.
  set (part1 := fun k => fold_left (fun t m => f (elt taps (S + k - m)) (elt s m) t) (indices k S) zero).
  assert (Mac : forall u v lo n k t m, mac zero f f W1 vec u v lo n k t m = f (elt v (n + k - m)) (elt u m) t) by (intros; unfold mac; now destruct (by_batch _ _ _ _ _ _ _)).
  eapply okP_imp; [apply (stream_call zero add sub mul f f W1 W2 vec junk (repeat zero (length b)) b taps s (fun w w' => lenZ w' = lenZ w /\ forall k, 0 <= k < lenZ w -> elt w' k = part1 k) (fun _ y => lenZ y = N /\ forall k, 0 <= k < N -> elt y k = oldest_first taps (s ++ b) (L - 1 + k)))|].
  - fold L. lia.
  - exact Hs.
  - rewrite lenZ_repeat. reflexivity.
  - intros w Hw. fold N S in Hw. assert (Lw : lenZ w = Z.min N S) by (rewrite Hw, lenZ_repeat; lia). unfold gConvolutionInto. fold S L. apply okP_assert.
    { rewrite Lw. unfold ConvolutionLength. destruct (((S =? 0) || (L =? 0))%bool) eqn:E; lia. }
    cbv zeta. replace (Z.min S L <=? 32) with true by lia. cbn [negb]. eapply okP_imp; [apply (slide_fold zero add sub mul f f W1 vec s taps w (L - 1) true HW)|]. cbn beta. intros w' [Lw' Hw']. split; [exact Lw'|].
    intros k Hk. rewrite (Hw' k Hk). unfold slide_swaps. fold S L. replace (512 <? Z.min S L) with false by lia. replace (L <? S) with false by lia. unfold start. rewrite Hw, elt_repeat. unfold part1.
    unfold overlap_lo, overlap_hi. fold S L. replace (Z.max 0 (L - 1 + k - L + 1)) with k by lia. replace (Z.min S (L - 1 + k + 1)) with S by lia. apply fold_ext. intros a m _. rewrite Mac. now replace (L - 1 + k - m) with (S + k - m) by lia.
  - intros w w' Hw [Lw' Hw']. split; [exact Lw'|]. intros o Lo Ho. fold N in Lo, Ho. fold N S in Hw. assert (Lw : lenZ w = Z.min N S) by (rewrite Hw, lenZ_repeat; lia). unfold gConvolutionInto. fold N L. apply okP_assert.
    { rewrite Lo. unfold ConvolutionLength. destruct (((N =? 0) || (L =? 0))%bool) eqn:E; lia. }
    cbv zeta. replace (Z.min N L <=? 32) with true by lia. cbn [negb]. eapply okP_imp; [apply (slide_fold zero add sub mul f f W1 vec b taps o 0 true HW)|]. cbn beta. intros y [Ly Hy]. split; [lia|].
    intros k Hk. rewrite (Hy k ltac:(lia)). unfold slide_swaps. fold N L. replace (512 <? Z.min N L) with false by lia. replace (L <? N) with false by lia. unfold start. rewrite (Ho k Hk).
    unfold overlap_lo, overlap_hi. fold N L. replace (Z.max 0 (0 + k - L + 1)) with 0 by lia. replace (Z.min N (0 + k + 1)) with (k + 1) by lia.
    assert (E1 : (if k <? lenZ w then elt w' k else zero) = part1 k). { destruct (Z.ltb_spec k (lenZ w)); [apply Hw'; lia|]. assert (Hsk : S <= k) by lia. unfold part1. unfold indices, tab. replace (Z.to_nat (S - k)) with O by lia. reflexivity. }
    rewrite E1. unfold oldest_first. fold L. replace (L - 1 + k - L + 1) with k by ring. destruct (Z_le_gt_dec k S) as [Hks|Hks]; [|lia].
    rewrite (indices_app k S (L - 1 + k + 1)) by lia. rewrite fold_left_app. assert (EI : indices S (L - 1 + k + 1) = map (fun m => m + S) (indices 0 (k + 1))) by (rewrite <- indices_shift; f_equal; lia). rewrite EI, fold_map.
    assert (E2 : fold_left (fun t m => f (elt taps (L - 1 + k - m)) (elt (s ++ b) m) t) (indices k S) zero = part1 k).
    { unfold part1. apply fold_ext. intros a m Hm. apply in_indices in Hm. replace (S + k - m) with (L - 1 + k - m) by lia. f_equal. rewrite elt_app. fold S. now replace (m <? S) with true by lia. }
    rewrite E2. apply fold_ext. intros a m Hm. apply in_indices in Hm. rewrite Mac. rewrite elt_app. fold S. replace (m + S <? S) with false by lia. replace (m + S - S) with m by ring. f_equal. f_equal. lia.
  - cbn beta. intros [y s'] ((w & w' & _ & _ & Ly & Hy) & Es). cbn [fst snd] in *. split; [exact Ly|]. split; [|exact Es]. intros k Hk. exists (elt y k). split; [apply nthZ_elt; lia|]. apply Hy. exact Hk.
Qed.
End Short.
