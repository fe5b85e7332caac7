(** Suspending and resuming interpolation and resampling when the arithmetic of the samples obeys no law. *)
From Coq Require Import ZArith List Bool Lia QArith Qround Qcanon.
From Verif Require Import Base BaseFacts IntervalModel RationalModel RationalProofs KernelModel KernelProofs ConvModel ConvProofs FirModel PropsConv PolyphaseModel PolyphaseProofs PropsPolyphase ResampleModel ResampleProofs ResampleTotal PropsResample ConvTree ResampleTree.
From Coq Require Import ZifyBool ZifyNat.
Import ListNotations.
Ltac Zify.zify_post_hook ::= idtac.
Open Scope Z_scope.

Section Interp.
Context {K : Type} (zero : K) (dot : list K -> list K -> outcome K).
Hypothesis dot_total : forall a b, lenZ a = lenZ b -> exists y, dot a b = Ok y.

(** a user interpolating in calls of the given lengths, each on the input that is still needed *)
Fixpoint any_in_calls (x : list K) (v : pview K) (start : Z) (lens : list Z) : outcome (list K) :=
  match lens with
  | [] => Ok []
  | len :: lens =>
    do (out, sp) <- gInterpolateInto dot (repeat zero (Z.to_nat len)) x v start;
    do rest <- any_in_calls (skipn (Z.to_nat (fst sp)) x) v (snd sp) lens;
    Ok (out ++ rest)
  end.
Definition sample_at (x taps : list K) (P m : Z) : K :=
  if meets (lenZ x) (lenZ taps) P m then match dot (xs_of zero x (lenZ taps) P m) (ts_of zero taps (lenZ x) P m) with Ok y => y | _ => zero end else zero.
Lemma sample_drop x taps P fi m : 0 < P -> 0 < lenZ taps -> 0 <= fi <= lenZ x -> (fi = 0 \/ fi * P + lenZ taps - 1 <= m) -> 0 <= m -> sample_at (skipn (Z.to_nat fi) x) taps P (m - P * fi) = sample_at x taps P m.
Proof. intros H1 H2 H3 H4 H5. unfold sample_at. destruct (window_drop zero x taps P fi m H1 H2 H3 H4 H5) as (-> & -> & ->). reflexivity. Qed.
Lemma sample_prefix x taps P n m : 0 < P -> 0 <= n <= lenZ x -> 0 <= m < n * P -> sample_at (firstn (Z.to_nat n) x) taps P m = sample_at x taps P m.
Proof. intros H1 H2 H3. unfold sample_at. destruct (window_prefix zero x taps P n m H1 H2 H3) as (-> & -> & ->). reflexivity. Qed.
Lemma into_any x taps v P off len : holds v taps P -> 0 < P -> 0 < lenZ x -> 0 < lenZ taps -> 0 <= off -> 0 <= len -> off + len <= lenZ x * P + lenZ taps - 1 ->
  exists fi st, gInterpolateInto dot (repeat zero (Z.to_nat len)) x v off = Ok (tab len (fun j => sample_at x taps P (off + j)), (fi, st)) /\
    0 <= fi /\ st = off + len - P * fi /\ 0 <= st /\ (fi = 0 \/ fi * P + lenZ taps - 1 <= off + len) /\ fi * P <= Z.max 0 (off + len - (lenZ taps - 1)).
Proof.
  intros D HP Hx Ht Ho Hl Hm. destruct (interpolate_gen zero dot (repeat zero (Z.to_nat len)) x taps v P off D HP Ho) as ([o sp] & E & L & V & S).
  - rewrite full_length, lenZ_repeat by lia. lia.
  - intros j _ _. apply dot_total. apply xs_len.
  - cbn [fst snd] in *. rewrite lenZ_repeat in *. replace (Z.of_nat (Z.to_nat len)) with len in * by lia. destruct (suspension_ok (off + len) (lenZ taps) P HP ltac:(lia) ltac:(lia)) as (fi & st & Es & F). rewrite Es in S. injection S as <-.
    exists fi, st. split; [|exact F]. rewrite E. do 2 f_equal. apply list_eq_tab; [lia|]. intros j Hj. specialize (V j ltac:(lia)). unfold sample_at. destruct (meets _ _ _ _).
    + destruct V as (y & -> & ->). reflexivity.
    + rewrite V. apply nthZ_repeat. lia.
Qed.
Lemma interp_any x taps v P off len : holds v taps P -> 0 < P -> 0 < lenZ x -> 0 < lenZ taps -> 0 <= off -> 0 <= len -> off + len <= lenZ x * P + lenZ taps - 1 ->
  gInterpolate zero dot x v off len = Ok (tab len (fun j => sample_at x taps P (off + j))).
Proof. intros. unfold gInterpolate. destruct (into_any x taps v P off len) as (fi & st & -> & _); try assumption. reflexivity. Qed.
Lemma any_calls_ok taps v P lens : holds v taps P -> 0 < P -> 0 < lenZ taps -> (forall l, In l lens -> 0 < l) ->
  forall x start, 0 < lenZ x -> 0 <= start -> start + total lens <= lenZ x * P + lenZ taps - 1 -> any_in_calls x v start lens = Ok (tab (total lens) (fun j => sample_at x taps P (start + j))).
Proof.
  intros D HP Ht. induction lens as [|l lens IH]; intros Hp x start Hx Hs Hm; [reflexivity|]. pose proof (Hp l (or_introl eq_refl)) as Hl. pose proof (total_nonneg lens (fun z Hz => Hp z (or_intror Hz))) as T0.
  cbn [any_in_calls]. change (total (l :: lens)) with (l + total lens) in *.
  destruct (into_any x taps v P start l D HP Hx Ht Hs ltac:(lia) ltac:(lia)) as (fi & st & -> & F1 & F2 & F3 & F4 & F5). cbn [bind fst snd].
  destruct lens as [|l2 lens].
  - cbn [any_in_calls bind total fold_right]. rewrite app_nil_r, Z.add_0_r. reflexivity.
  - pose proof (Hp l2 (or_intror (or_introl eq_refl))) as Hl2. pose proof (total_nonneg lens (fun z Hz => Hp z (or_intror (or_intror Hz)))) as T1. change (total (l2 :: lens)) with (l2 + total lens) in *.
    assert (Hf : fi < lenZ x) by nia. rewrite IH.
    + cbn [bind]. f_equal. apply list_eq_tab; [rewrite lenZ_app, !lenZ_tab; change (total (l2 :: lens)) with (l2 + total lens); lia|]. intros j Hj. change (total (l2 :: lens)) with (l2 + total lens).
      destruct (Z_lt_ge_dec j l); [rewrite nthZ_app1 by (rewrite lenZ_tab; lia); now rewrite nthZ_tab by lia|]. rewrite nthZ_app2 by (rewrite lenZ_tab; lia). rewrite lenZ_tab. rewrite nthZ_tab by lia. f_equal. subst st.
      rewrite <- (sample_drop x taps P fi (start + j)) by (first [lia|destruct F4; [left; assumption|right; lia]]). f_equal. lia.
    + intros z Hz. apply Hp. now right.
    + rewrite lenZ_skipn. lia.
    + lia.
    + rewrite lenZ_skipn. change (total (l2 :: lens)) with (l2 + total lens). subst st. nia.
Qed.
End Interp.

Section Res.
Context {F : Type} (zero : F) (fadd fmul fdivide : F -> F -> F) (ofsize : Z -> F) (dot : list F -> list F -> outcome F).
Hypothesis dot_total : forall a b, lenZ a = lenZ b -> exists y, dot a b = Ok y.
Variable M : Z.
Notation blended := (blended zero fadd fmul fdivide ofsize dot).
(** resampling in calls of the given lengths, each from the reported point on *)
Fixpoint any_resample_calls (x : list F) (v : pview F) (rate start : rat) (lens : list Z) : outcome (list F) :=
  match lens with
  | [] => Ok []
  | len :: lens =>
    do (out, sp) <- gResampleInto M fadd fmul fdivide ofsize dot (repeat zero (Z.to_nat len)) x v rate start;
    do rest <- any_resample_calls (skipn (Z.to_nat (fst sp)) x) v rate (snd sp) lens;
    Ok (out ++ rest)
  end.
Lemma calls_sim (F2 : CField) W vec lens : forall (x : list F) v (x2 : list F2) v2 r s y, lenZ x2 = lenZ x -> lenZ (vbuffer v2) = lenZ (vbuffer v) -> vcount v2 = vcount v ->
  resample_calls M W vec x2 v2 r s lens = Ok y -> exists z, any_resample_calls x v r s lens = Ok z.
Proof.
  induction lens as [|l lens IH]; intros x v x2 v2 r s y Lx Lv Cv H; [eexists; reflexivity|]. cbn [resample_calls any_resample_calls] in *.
  destruct (ResampleInto M W vec (repeat r0 (Z.to_nat l)) x2 v2 r s) as [[o sp]| |] eqn:R; [|discriminate|discriminate]. cbn [bind fst snd] in H.
  destruct (resample_sim radd rmul fdiv ofnat (DotProduct W vec) fadd fmul fdivide ofsize dot dot_total M (repeat r0 (Z.to_nat l)) x2 v2 (repeat zero (Z.to_nat l)) x v r s o sp) as [o2 ->]; [now rewrite !lenZ_repeat|assumption|assumption|assumption|exact R|]. cbn [bind fst snd].
  destruct (resample_calls M W vec (skipn (Z.to_nat (fst sp)) x2) v2 r (snd sp) lens) as [rest| |] eqn:Er; [|discriminate|discriminate].
  destruct (IH (skipn (Z.to_nat (fst sp)) x) v (skipn (Z.to_nat (fst sp)) x2) v2 r (snd sp) rest) as [z ->]; [rewrite !lenZ_skipn, Lx; reflexivity|exact Lv|exact Cv|exact Er|]. eexists. reflexivity.
Qed.
(** the sample at a position depends on the position only *)
Lemma blended_move (x x' taps : list F) P n d n' d' y : blended x' taps P n' d' y -> 0 < d -> 0 < d' -> (n mod d) * d' = (n' mod d') * d -> 0 <= n / d -> n / d + 1 <= lenZ x * P + lenZ taps - 1 ->
  (forall k, k = 0 \/ k = 1 -> xs_of zero x (lenZ taps) P (n / d + k) = xs_of zero x' (lenZ taps) P (n' / d' + k) /\ ts_of zero taps (lenZ x) P (n / d + k) = ts_of zero taps (lenZ x') P (n' / d' + k)) -> blended x taps P n d y.
Proof.
  intros (w1 & w2 & y1 & y2 & A1 & A2 & A3 & A4 & A5 & A6 & A7 & A8 & A9 & ->) Hd Hd' E B1 B2 W. exists w1, w2, y1, y2.
  destruct (W 0 (or_introl eq_refl)) as [W1 W2]. destruct (W 1 (or_intror eq_refl)) as [W3 W4]. rewrite !Z.add_0_r in *.
  assert (A5' : w2 * d = n mod d * (w1 + w2)). { apply (Z.mul_cancel_r _ _ d'); [lia|]. transitivity (w2 * d' * d); [ring|]. rewrite A5. transitivity (n' mod d' * d * (w1 + w2)); [ring|]. rewrite <- E. ring. }
  assert (A3' : w1 + w2 <= d). { assert (Dv : (w1 + w2 | d)) by (apply (Z.gauss _ w2 d); [exists (n mod d); lia|now rewrite Z.gcd_comm]). apply Z.divide_pos_le in Dv; lia. }
  repeat (split; [assumption|]). rewrite W1, W2, W3, W4. repeat split; assumption.
Qed.
Lemma same_place n d n' d' f : 0 < d -> 0 < d' -> n' * d = (n - f * d) * d' -> n' / d' = n / d - f /\ (n mod d) * d' = (n' mod d') * d.
Proof.
  intros Hd Hd' E. pose proof (Z.div_mod n d ltac:(lia)) as E1. pose proof (Z.mod_pos_bound n d Hd) as B1. pose proof (Z.div_mod n' d' ltac:(lia)) as E2. pose proof (Z.mod_pos_bound n' d' Hd') as B2.
  set (q := n / d) in *. set (r := n mod d) in *. set (q' := n' / d') in *. set (r' := n' mod d') in *.
  assert (X : (q' + f - q) * (d * d') = r * d' - r' * d) by (rewrite E1, E2 in E; nia).
  assert (U : - (d * d') < r * d' - r' * d < d * d') by nia. assert (q' + f - q = 0) by nia. split; nia.
Qed.
Lemma first_call (x taps : list F) v P r s len out fi st : holds v taps P -> canonical r -> canonical s -> 0 < lenZ taps -> 0 <= len ->
  gResampleInto M fadd fmul fdivide ofsize dot (repeat zero (Z.to_nat len)) x v r s = Ok (out, (fi, st)) ->
  lenZ out = len /\ (forall i, 0 <= i < len -> exists y, nthZ out i = Some y /\ blended x taps P ((num s + i * den s) * num r * P) (den s * den r) y) /\
  0 <= fi <= lenZ x /\ canonical st /\ 0 <= num st /\ 0 < P /\ 0 < num r /\
  num st * (den s * num r) = ((num s + len * den s) * num r - fi * den r * den s) * den st /\
  (fi = 0 \/ (fi * P + lenZ taps - 1) * (den r * den s) <= (num s + len * den s) * num r * P).
Proof.
  intros D Cr Cs Hh Hl H. destruct (resample_part_gen zero fadd fmul fdivide ofsize dot M _ x taps v P r s out (fi, st) D Cr Cs H) as (HP & Hr & Hs & B & Lo & V & e & Ce & Ef). rewrite lenZ_repeat, Z2Nat.id in * by exact Hl. pose proof Cr as [Rd _]. pose proof Cs as [Sd _]. split; [exact Lo|]. split; [exact V|]. clear V H.
  assert (Hn : 0 <= num s + len * den s) by (assert (0 <= len * den s) by (apply Z.mul_nonneg_nonneg; lia); lia). destruct (cross_pos e _ _ Ce Sd Hn) as (E0 & E1 & _). pose proof Ce as [Cec Xe].
  apply suspend_ok in Ef as (F1 & F2 & F3 & F4 & F5 & _); [|exact Cec|lia|exact Hr|lia|exact HP].
  assert (G4 : num st * (den s * num r) = ((num s + len * den s) * num r - fi * den r * den s) * den st).
  { apply (Z.mul_cancel_r _ _ (den e)); [lia|]. transitivity (num st * (den e * num r) * den s); [ring|]. rewrite F4. transitivity ((num e * den s * num r - fi * den r * den s * den e) * den st); [ring|]. rewrite Xe. ring. }
  assert (G5 : fi = 0 \/ (fi * P + lenZ taps - 1) * (den r * den s) <= (num s + len * den s) * num r * P).
  { destruct F5 as [L|L]; [now left|right]. apply (Z.mul_le_mono_pos_r _ _ (den e)); [lia|]. apply Z.le_trans with ((fi * P + lenZ taps - 1) * (den r * den e) * den s); [lia|]. apply Z.le_trans with (num e * num r * P * den s); [apply Z.mul_le_mono_nonneg_r; lia|].
    replace (num e * num r * P * den s) with (num e * den s * num r * P) by ring. rewrite Xe. lia. }
  assert (Hfi : fi <= lenZ x).
  { destruct G5 as [L|L]; [subst; apply lenZ_nonneg|]. pose proof (lenZ_nonneg x) as Lx. rewrite full_len_eq in B by exact HP. assert (X : (fi * P + lenZ taps - 1) * (den r * den s) <= full_len (lenZ x) (lenZ taps) P * (den r * den s)) by lia.
    apply Z.mul_le_mono_pos_r in X; [|apply Z.mul_pos_pos; assumption]. unfold full_len in X. destruct (Z.eqb_spec (lenZ x) 0) as [Ex|Ex].
    - cbn [orb] in X. rewrite Ex. assert (0 <= fi * P) by (apply Z.mul_nonneg_nonneg; lia). assert (fi * P <= 0) by lia. nia.
    - replace (lenZ taps =? 0) with false in X by lia. cbn [orb] in X. assert (fi * P <= lenZ x * P) by lia. now apply Z.mul_le_mono_pos_r in H. }
  split; [lia|]. repeat split; try assumption; apply F2.
Qed.
Lemma moved_back (x taps : list F) P r s len fi st k y : canonical r -> canonical s -> canonical st -> 0 < lenZ taps -> 0 < P -> 0 < num r -> 0 <= num s -> 0 <= len -> 0 <= k -> 0 <= fi <= lenZ x -> 
  num st * (den s * num r) = ((num s + len * den s) * num r - fi * den r * den s) * den st ->
  (fi = 0 \/ (fi * P + lenZ taps - 1) * (den r * den s) <= (num s + len * den s) * num r * P) ->
  blended (skipn (Z.to_nat fi) x) taps P ((num st + k * den st) * num r * P) (den st * den r) y -> blended x taps P ((num s + (len + k) * den s) * num r * P) (den s * den r) y.
Proof.
  intros [Rd _] [Sd _] [Td _] Hh HP Hr Hs Hl Hk Hf G4 G5 B. set (n := (num s + (len + k) * den s) * num r * P). set (n' := (num st + k * den st) * num r * P) in *.
  assert (Hd : 0 < den s * den r) by (apply Z.mul_pos_pos; lia). assert (Hd' : 0 < den st * den r) by (apply Z.mul_pos_pos; lia).
  assert (E : n' * (den s * den r) = (n - fi * P * (den s * den r)) * (den st * den r)).
  { transitivity ((num st * (den s * num r) + k * den st * den s * num r) * P * den r); [unfold n'; ring|]. rewrite G4. unfold n. ring. }
  destruct (same_place n _ n' _ (fi * P) Hd Hd' E) as [Eq Em]. destruct B as (w1 & w2 & y1 & y2 & A1 & A2 & A3 & A4 & A5 & A6 & A7 & A8). assert (B' : blended (skipn (Z.to_nat fi) x) taps P n' (den st * den r) y) by (exists w1, w2, y1, y2; repeat (split; [assumption|]); exact A8).
  rewrite Eq in A6, A7. rewrite lenZ_skipn in A7. replace (Z.max 0 (lenZ x - Z.of_nat (Z.to_nat fi))) with (lenZ x - fi) in A7 by lia.
  assert (N0 : 0 <= fi * P) by (apply Z.mul_nonneg_nonneg; lia). rewrite Z.mul_sub_distr_r in A7.
  assert (Hm : fi = 0 \/ fi * P + lenZ taps - 1 <= n / (den s * den r)).
  { destruct G5 as [L|L]; [now left|right]. apply Z.div_le_lower_bound; [exact Hd|]. apply Z.le_trans with ((num s + len * den s) * num r * P); [lia|]. unfold n. apply Z.mul_le_mono_nonneg_r; [lia|]. apply Z.mul_le_mono_nonneg_r; [lia|]. assert (0 <= k * den s) by (apply Z.mul_nonneg_nonneg; lia). lia. }
  apply (blended_move x (skipn (Z.to_nat fi) x) taps P n (den s * den r) n' (den st * den r) y B' Hd Hd' Em); [lia|lia|].
  intros j Hj. destruct (window_drop zero x taps P fi (n / (den s * den r) + j) HP Hh Hf) as (E1 & E2 & _); [destruct Hm; [now left|right; lia]|lia|].
  rewrite Eq. replace (n / (den s * den r) - fi * P + j) with (n / (den s * den r) + j - P * fi) by ring. now rewrite E1, E2.
Qed.
Lemma any_calls_part (taps : list F) v P r lens : holds v taps P -> canonical r -> 0 < lenZ taps -> (forall l, In l lens -> 0 <= l) -> forall x s y, canonical s -> 0 <= num s -> any_resample_calls x v r s lens = Ok y ->
  lenZ y = total lens /\ forall i, 0 <= i < total lens -> exists z, nthZ y i = Some z /\ blended x taps P ((num s + i * den s) * num r * P) (den s * den r) z.
Proof.
  intros D Cr Hh. induction lens as [|l lens IH]; intros Hp x s y Cs Ns H; [injection H as <-; split; [reflexivity|intros i Hi; cbn in Hi; lia]|]. cbn [any_resample_calls] in H. pose proof (Hp l (or_introl eq_refl)) as Hl.
  destruct (gResampleInto M fadd fmul fdivide ofsize dot (repeat zero (Z.to_nat l)) x v r s) as [[o [fi st]]| |] eqn:R; [|discriminate|discriminate]. cbn [bind fst snd] in H. destruct (first_call x taps v P r s l o fi st D Cr Cs Hh Hl R) as (Lo & V & Hfi & Cst & Nst & HP & Hr & G4 & G5).
  destruct (any_resample_calls (skipn (Z.to_nat fi) x) v r st lens) as [rest| |] eqn:Er; [|discriminate|discriminate]. cbn [bind] in H. injection H as <-. apply IH in Er; [|intros z Hz; apply Hp; now right|exact Cst|exact Nst]. destruct Er as [Lr Vr].
  change (total (l :: lens)) with (l + total lens). split; [rewrite lenZ_app; lia|]. intros i Hi. destruct (Z_lt_ge_dec i l) as [Hlt|Hge].
  - rewrite nthZ_app1 by lia. apply V. lia.
  - rewrite nthZ_app2 by lia. rewrite Lo. destruct (Vr (i - l) ltac:(lia)) as (z & Ez & Bz). exists z. split; [exact Ez|]. replace i with (l + (i - l)) by lia. apply (moved_back x taps P r s l fi st (i - l) z); try assumption; lia.
Qed.
End Res.
