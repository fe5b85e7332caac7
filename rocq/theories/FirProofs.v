(** Proofs about FirModel. *)
From Coq Require Import Reals.
From Verif Require Import Base BaseFacts IntervalModel KernelModel KernelProofs ConvModel ConvProofs Complex FftModel FftProofs OlaModel OlaProofs FirModel.
From Coq Require Import ZifyBool ZifyNat.
Ltac Zify.zify_post_hook ::= Z.div_mod_to_equations.
Open Scope Z_scope.

Lemma skipn_skipn {A} (a b : nat) (l : list A) : skipn a (skipn b l) = skipn (b + a) l.
Proof. revert l. induction b as [|b IH]; intros l; [reflexivity|]. destruct l; [now rewrite !skipn_nil|apply IH]. Qed.

Section Fir.
Context {K : CRing}.
Add Ring KR : (rth K).
Implicit Types (state signal filter h l m : list K).

Lemma shift_state_spec state signal :
  ShiftFilterState state signal = Ok (skipn (Z.to_nat (lenZ signal)) (state ++ signal)).
Proof.
  apply okP_eq. unfold ShiftFilterState.
  pose proof (lenZ_nonneg state) as H1. pose proof (lenZ_nonneg signal) as H2.
  set (S := lenZ state). set (N := lenZ signal).
  assert (Lr : lenZ (skipn (Z.to_nat N) (state ++ signal)) = S) by (rewrite lenZ_skipn, lenZ_app; lia).
  assert (Ar : forall i, 0 <= i -> at0 (skipn (Z.to_nat N) (state ++ signal)) i = if N + i <? S then at0 state (N + i) else at0 signal (N + i - S)).
  { intros i Hi. rewrite at0_skipn by lia. rewrite Z2Nat.id by lia. rewrite at0_app. fold S.
    destruct (Z.ltb_spec (N + i) S); reflexivity. }
  eapply (okP_bind _ _ (fun s => lenZ s = S /\ forall i, 0 <= i < S - N -> at0 s i = at0 state (N + i))).
  { destruct (Z.ltb_spec N S).
    - eapply okP_imp.
      { apply (for1_inv' (fun j s => lenZ s = S /\ (forall i, 0 <= i < j -> at0 s i = at0 state (N + i)) /\ (forall i, j <= i < S -> at0 s i = at0 state i))).
        - split; [reflexivity|]. split; [intros; lia|reflexivity].
        - intros j s Hj (L & A & B). rewrite rd_at0 by lia. cbn [bind]. rewrite wr_ok by lia. apply okP_ret.
          split; [rewrite lenZ_updZ; lia|]. split; intros i Hi; rewrite at0_updZ by lia; destruct (Z.eqb_spec i j) as [->|]; try lia.
          + apply B. lia.
          + apply A. lia.
          + apply B. lia. }
      cbn beta. intros s (L & A & _). split; [exact L|]. intros i Hi. apply A. lia.
    - apply okP_ret. split; [reflexivity|]. intros; lia. }
  cbn beta. intros s0 (L0 & A0). rewrite L0.
  eapply okP_imp.
  { apply (for1_inv' (fun j s => lenZ s = S /\ (forall i, 0 <= i < S - N -> at0 s i = at0 state (N + i)) /\
                (forall i, 0 <= i < j -> at0 s (S - 1 - i) = at0 signal (N - 1 - i)))).
    - split; [exact L0|]. split; [exact A0|intros; lia].
    - intros j s Hj (L & A & B). rewrite rd_at0 by lia. cbn [bind]. rewrite L. rewrite wr_ok by lia. apply okP_ret.
      split; [rewrite lenZ_updZ; lia|]. split; intros i Hi; rewrite at0_updZ by lia.
      + rewrite (proj2 (Z.eqb_neq i _)) by lia. apply A. lia.
      + destruct (Z.eqb_spec (S - 1 - i) (S - 1 - j)); [f_equal; lia|]. apply B. lia. }
  cbn beta. intros s (L & A & B). apply at0_ext; [lia|]. intros i Hi. rewrite Ar by lia.
  destruct (Z.ltb_spec (N + i) S); [apply A; lia|].
  replace i with (S - 1 - (S - 1 - i)) at 1 by lia. rewrite B by lia. f_equal. lia.
Qed.

Lemma conv_app l m h j : conv (l ++ m) h j = radd (conv l h j) (conv m h (j - lenZ l)).
Proof.
  unfold conv. rewrite lenZ_app. pose proof (lenZ_nonneg l). pose proof (lenZ_nonneg m).
  rewrite (sumZ_split 0 (lenZ l)) by lia. f_equal.
  - apply sumZ_ext. intros i Hi. rewrite at0_app. now replace (i <? lenZ l) with true by lia.
  - rewrite (sumZ_shift' (lenZ l) (lenZ l + lenZ m) (lenZ l)). replace (lenZ l - lenZ l) with 0 by lia.
    replace (lenZ l + lenZ m - lenZ l) with (lenZ m) by lia. apply sumZ_ext. intros i Hi. rewrite at0_app.
    replace (i + lenZ l <? lenZ l) with false by lia. f_equal; f_equal; lia.
Qed.
(** only the last |h| samples matter *)
Lemma conv_skipn l h n j : 0 <= n <= lenZ l -> lenZ h - 1 <= j -> conv (skipn (Z.to_nat n) l) h j = conv l h (n + j).
Proof.
  intros Hn Hj. rewrite <- (firstn_skipn (Z.to_nat n) l) at 2. rewrite conv_app, lenZ_firstn.
  rewrite (conv_outside (firstn _ _)) by (rewrite lenZ_firstn; lia).
  replace (n + j - Z.min (Z.of_nat (Z.to_nat n)) (lenZ l)) with j by lia. ring.
Qed.

Definition fir_ok signal filter state (r : list K * list K) : Prop :=
  fst r = tab (lenZ signal) (fun k => conv (state ++ signal) filter (lenZ state + k)) /\
  snd r = skipn (Z.to_nat (lenZ signal)) (state ++ signal).

Lemma fir_step (c1 c2 : list K -> outcome (list K)) signal filter state z :
  1 <= lenZ filter -> lenZ state = lenZ filter - 1 ->
  lenZ z = lenZ signal -> (forall k, at0 z k = r0) ->
  (forall w, lenZ w = Z.min (lenZ signal) (lenZ state) -> okP (c1 w) (conv_result state filter w (lenZ filter - 1) true)) ->
  (forall w, lenZ w = lenZ signal -> okP (c2 w) (conv_result signal filter w 0 true)) ->
  okP (do out <- on_window z 0 (Z.min (lenZ z) (lenZ state)) c1;
       do out <- c2 out;
       do state <- ShiftFilterState state signal;
       Ok (out, state)) (fir_ok signal filter state).
Proof.
  intros HF HS Hz Az H1 H2. rewrite shift_state_spec.
  pose proof (lenZ_nonneg state). pose proof (lenZ_nonneg signal).
  eapply (okP_bind _ _ (fun o => lenZ o = lenZ signal /\ forall k, 0 <= k < lenZ signal -> at0 o k = conv state filter (lenZ filter - 1 + k))).
  { unfold on_window. rewrite Hz. eapply okP_bind.
    { apply okP_slice; [lia|lia|lia|]. intros w Lw Aw. instantiate (1 := fun w => lenZ w = Z.min (lenZ signal) (lenZ state) /\ forall k, 0 <= k < lenZ w -> at0 w k = r0).
      split; [exact Lw|]. intros k Hk. unfold at0. rewrite Aw by lia. apply (Az (0 + k)). }
    cbn beta. intros w [Lw Aw]. eapply okP_bind; [apply H1; exact Lw|]. cbn beta. intros w' [Lw' Aw'].
    apply okP_wrs; [lia|lia|]. intros o Lo Ao. split; [lia|]. intros k Hk.
    unfold at0 at 1. rewrite Ao.
    destruct (Z_lt_ge_dec k (lenZ w')).
    - replace ((0 <=? k) && (k <? 0 + lenZ w')) with true by lia. rewrite Z.sub_0_r. fold (at0 w' k). rewrite Aw' by lia.
      rewrite Aw by lia. ring.
    - replace ((0 <=? k) && (k <? 0 + lenZ w')) with false by lia. fold (at0 z k). rewrite Az. symmetry. apply conv_outside. lia. }
  cbn beta. intros o [Lo Ao]. eapply okP_bind; [apply H2; exact Lo|]. cbn beta. intros o' [Lo' Ao'].
  cbn [bind]. apply okP_ret. split; cbn [fst snd]; [|reflexivity].
  apply at0_ext; [rewrite lenZ_tab; lia|]. intros k Hk. rewrite at0_tab by lia. rewrite Ao' by lia. rewrite Ao by lia.
  rewrite conv_app. f_equal; f_equal; lia.
Qed.

Lemma at0_repeat n k : at0 (repeat (r0 : K) n) k = r0.
Proof.
  destruct (Z_lt_ge_dec k 0); [apply at0_out; lia|].
  destruct (Z_lt_ge_dec k (Z.of_nat n)); [|apply at0_out; rewrite lenZ_repeat; lia].
  unfold at0. now rewrite nthZ_repeat by lia.
Qed.

Lemma filter_conv_spec W1 W2 vec junk out signal filter state :
  1 <= W1 -> 1 <= W2 -> W2 <= lenZ junk ->
  1 <= lenZ filter < 2 ^ 64 -> lenZ state = lenZ filter - 1 -> lenZ out = lenZ signal ->
  okP (FilterConvState W1 W2 vec junk out signal filter state) (fir_ok signal filter state).
Proof.
  intros HW1 HW2 Hj HF HS Ho. unfold FilterConvState, gFilterConvState, size_sub. rewrite Z.mod_small by lia.
  apply okP_assert; [lia|]. apply okP_assert; [lia|].
  assert (Lr : lenZ (repeat (r0 : K) (length out)) = lenZ out) by (rewrite lenZ_repeat; reflexivity).
  pose proof (lenZ_nonneg state). pose proof (lenZ_nonneg signal).
  apply fir_step; try lia.
  - intros k. apply at0_repeat.
  - intros w Lw. apply conv_into_spec; try assumption. unfold ConvolutionLength.
    destruct ((lenZ state =? 0) || (lenZ filter =? 0)) eqn:E; lia.
  - intros w Lw. apply conv_into_spec; try assumption. unfold ConvolutionLength.
    destruct ((lenZ signal =? 0) || (lenZ filter =? 0)) eqn:E; lia.
Qed.

(** blocks *)
Definition block_step_ok (filter : list K) (ok : list K -> Prop) (sok : list K -> Prop) (step : list K -> list K -> outcome (list K * list K)) : Prop :=
  forall b s, ok b -> sok s -> lenZ s = lenZ filter - 1 -> okP (step b s) (fun r => fir_ok b filter s r /\ sok (snd r)).
Lemma run_blocks_spec filter ok sok step (blocks : list (list K)) s :
  1 <= lenZ filter -> block_step_ok filter ok sok step -> Forall ok blocks -> sok s -> lenZ s = lenZ filter - 1 ->
  okP (run_blocks step blocks s) (fun r =>
    concat (fst r) = tab (lenZ (concat blocks)) (fun k => conv (s ++ concat blocks) filter (lenZ s + k)) /\
    map (@lenZ K) (fst r) = map (@lenZ K) blocks /\
    snd r = skipn (Z.to_nat (lenZ (concat blocks))) (s ++ concat blocks)).
Proof.
  intros HF Hstep. revert s. induction blocks as [|b bs IH]; intros s Hok Hsok Hs; cbn [run_blocks].
  - apply okP_ret. cbn [fst snd concat]. split; [reflexivity|]. split; [reflexivity|]. now rewrite app_nil_r.
  - inversion Hok as [|? ? Hb Hbs]; subst. eapply okP_bind; [apply Hstep; assumption|]. cbn beta.
    intros [y s1] [[E1 E2] Hsok1]. cbn [fst snd] in E1, E2, Hsok1.
    pose proof (lenZ_nonneg s). pose proof (lenZ_nonneg b).
    assert (L1 : lenZ s1 = lenZ s) by (rewrite E2, lenZ_skipn, lenZ_app; lia).
    eapply okP_bind; [apply (IH s1); [exact Hbs|exact Hsok1|lia]|]. cbn beta. intros [ys s2] (F1 & F2 & F3). cbn [fst snd] in *.
    apply okP_ret. cbn [fst snd concat map]. split; [|split].
    + rewrite F1, E1, lenZ_app. pose proof (lenZ_nonneg (concat bs)).
      rewrite tab_app by lia. f_equal.
      * apply tab_ext. intros k Hk. rewrite app_assoc, (conv_app (s ++ b)), lenZ_app.
        rewrite (conv_outside (concat bs)) by lia. ring.
      * apply tab_ext. intros k Hk. rewrite L1.
        assert (E : s1 ++ concat bs = skipn (Z.to_nat (lenZ b)) (s ++ b ++ concat bs)).
        { rewrite E2, app_assoc, (skipn_app _ (s ++ b)). replace (Z.to_nat (lenZ b) - length (s ++ b))%nat with O by (rewrite app_length; unfold lenZ; lia). reflexivity. }
        rewrite E, conv_skipn by (rewrite ?lenZ_app; lia). f_equal. lia.
    + rewrite F2. f_equal. rewrite E1, lenZ_tab. lia.
    + rewrite F3, E2, lenZ_app. rewrite <- (skipn_O (concat bs)) at 2.
      replace O with (Z.to_nat (lenZ b) - length (s ++ b))%nat by (rewrite app_length; unfold lenZ; lia).
      rewrite <- skipn_app. rewrite skipn_skipn, <- app_assoc. f_equal. pose proof (lenZ_nonneg (concat bs)). lia.
Qed.
End Fir.

Lemma filter_ola_spec iters cs cf out signal filter state chunk :
  2 <= lenZ filter < 2 ^ 63 -> signal <> [] -> lenZ signal < 2 ^ 63 ->
  lenZ state = lenZ filter - 1 -> lenZ out = lenZ signal ->
  (chunk = 0 /\ lenZ filter <= 2 ^ 50 \/ 2 * Z.max (lenZ filter - 1) (Z.min (lenZ signal) (lenZ filter)) - 1 <= chunk) ->
  (cs = false -> isreal signal /\ isreal state) -> (cf = false -> isreal filter) ->
  okP (FilterOlaState iters cs cf out signal filter state chunk) (fir_ok (K := Cring) signal filter state).
Proof.
  intros HF Hne Hsig HS Ho Hc Rs Rf. unfold FilterOlaState, size_sub. rewrite Z.mod_small by lia.
  apply okP_assert; [lia|]. apply okP_assert; [lia|].
  pose proof (lenZ_nonneg out). assert (Lr : lenZ (zerosC (lenZ out)) = lenZ out) by (apply lenZ_zerosC; lia).
  pose proof (lenZ_nonneg state). pose proof (lenZ_nonneg signal).
  assert (Hf : filter <> []) by (intros ->; change (lenZ (@nil C)) with 0 in HF; lia).
  assert (Hst : state <> []) by (intros ->; change (lenZ (@nil C)) with 0 in HS; lia).
  apply (fir_step (K := Cring) (fun w => OverlapAddInto iters cs cf w state filter (lenZ filter - 1) chunk false)
           (fun out => OverlapAddInto iters cs cf out signal filter 0 chunk false)); cbn [car Cring]; try lia.
  - intros k. apply at0_repeat.
  - intros w Lw. apply ola_into_spec; try assumption; try lia. intros E. now apply Rs.
  - intros w Lw. apply ola_into_spec; try assumption; try lia. intros E. now apply Rs.
Qed.
