(** Lemmas for C78: real sums behind one interpolated sample, and the blend of two of them in IEEE arithmetic. *)
From Coq Require Import Reals Lra Lia List ZArith Arith Psatz.
From Flocq Require Import Core BinarySingleNaN.
From Verif Require Import Base BaseFacts IntervalModel Complex KernelModel KernelProofs ConvModel ConvProofs FirModel PolyphaseModel PolyphaseProofs FloatSpec ReduceTree FloatSum FloatIeee FloatStat PropsFloat ConvTree ResampleTree.
From Coq Require Import ZifyBool ZifyNat.
Import ListNotations.
Ltac Zify.zify_post_hook ::= idtac.
Local Open Scope R_scope.

(** ** Sums *)
Lemma conv_window (K : CRing) (X T : list K) P m : (0 < P)%Z -> (0 <= m)%Z ->
  conv (expanded X P) T m = sumZ (lo_of (lenZ T) P m) (hi_of (lenZ X) P m) (fun n => rmul (at0 X n) (at0 T (m - n * P)%Z)).
Proof.
  intros HP Hm. unfold conv. rewrite expanded_len by exact HP.
  transitivity (sumZ 0 (lenZ X) (fun n => rmul (at0 X n) (at0 T (m - n * P)%Z))).
  - rewrite <- (sum_stride (lenZ X) P) by (try lia; apply lenZ_nonneg). apply sumZ_ext. intros i Hi. unfold expanded. rewrite at0_tab by lia. destruct (i mod P =? 0)%Z eqn:E.
    + now replace (i / P * P)%Z with i by (pose proof (Z.div_mod i P ltac:(lia)); lia).
    + apply (ARmul_0_l (Rth_ARth (Eqsth K) (Eq_ext radd rmul ropp) (rth K))).
  - apply sumZ_restrict; [|intros i Hi; unfold lo_of, hi_of in Hi; lia]. intros i Hi Hni. destruct (divmod m P HP) as [E B]. assert (0 <= m / P)%Z by (apply Z.div_pos; lia).
    assert (Ho : (~ (0 <= m - i * P < lenZ T))%Z).
    { intros Hb. apply Hni. unfold lo_of, hi_of. assert (i <= m / P)%Z by nia. pose proof (psize_spec (lenZ T) P (m mod P) (m / P - i) (lenZ_nonneg T) HP B ltac:(lia)) as S. assert (m / P - i < psize (lenZ T) P (m mod P))%Z by (apply S; nia). lia. }
    rewrite (at0_out T) by exact Ho. rewrite (Rmul_comm (rth K)). apply (ARmul_0_l (Rth_ARth (Eqsth K) (Eq_ext radd rmul ropp) (rth K))).
Qed.
Lemma window_size L N P m : (0 < P)%Z -> (0 <= L)%Z -> (Z.max 0 (hi_of N P m - lo_of L P m) <= (L + P - 1) / P)%Z.
Proof.
  intros HP HL. unfold hi_of, lo_of. destruct (divmod m P HP) as [_ B]. assert (H : (psize L P (m mod P) <= (L + P - 1) / P)%Z).
  { unfold psize. destruct (divmod L P HP) as [E B']. apply Z.div_le_lower_bound; [exact HP|]. destruct (m mod P <? L mod P)%Z eqn:Ec; nia. }
  assert (0 <= (L + P - 1) / P)%Z by (apply Z.div_pos; lia). lia.
Qed.
Lemma Rsum_triangle lo hi (f g : Z -> R) : (forall i, (lo <= i < hi)%Z -> Rabs (f i) <= g i) -> Rabs (sumZ (K := Rring) lo hi f) <= sumZ (K := Rring) lo hi g.
Proof.
  intros H. destruct (Z_lt_ge_dec lo hi) as [L|L]; [|rewrite !sumZ_empty by lia; cbn; rewrite Rabs_R0; lra].
  assert (G : forall k, (0 <= k)%Z -> (lo + k <= hi)%Z -> Rabs (sumZ (K := Rring) lo (lo + k) f) <= sumZ (K := Rring) lo (lo + k) g).
  { intros k Hk. pattern k. apply natlike_ind; [| |exact Hk].
    - intros _. rewrite !sumZ_empty by lia. cbn. rewrite Rabs_R0. lra.
    - intros j Hj IH Hb. replace (lo + Z.succ j)%Z with (lo + j + 1)%Z by lia. rewrite !sumZ_last by lia. change (@radd Rring) with Rplus. eapply Rle_trans; [apply Rabs_triang|]. apply Rplus_le_compat; [apply IH; lia|apply H; lia]. }
  replace hi with (lo + (hi - lo))%Z by lia. apply G; lia.
Qed.
Lemma Rsum_le lo hi (f g : Z -> R) : (forall i, (lo <= i < hi)%Z -> f i <= g i) -> sumZ (K := Rring) lo hi f <= sumZ (K := Rring) lo hi g.
Proof.
  intros H. assert (G : Rabs (sumZ (K := Rring) lo hi (fun i => g i - f i)) <= sumZ (K := Rring) lo hi (fun i => g i - f i)).
  { apply Rsum_triangle. intros i Hi. specialize (H i Hi). rewrite Rabs_pos_eq; lra. }
  pose proof (Rabs_pos (sumZ (K := Rring) lo hi (fun i => g i - f i))) as G0. pose proof (sumZ_sub (K := Rring) lo hi g f) as E. cbn [rsub Rring car] in E. rewrite E in *. lra.
Qed.
Lemma Rsum_const lo hi c : sumZ (K := Rring) lo hi (fun _ => c) = IZR (Z.max 0 (hi - lo)) * c.
Proof.
  destruct (Z_lt_ge_dec lo hi) as [L|L]; [|rewrite sumZ_empty by lia; replace (Z.max 0 (hi - lo)) with 0%Z by lia; symmetry; exact (Rmult_0_l c)].
  assert (G : forall k, (0 <= k)%Z -> sumZ (K := Rring) lo (lo + k) (fun _ => c) = IZR k * c).
  { intros k Hk. pattern k. apply natlike_ind; [rewrite sumZ_empty by lia; symmetry; exact (Rmult_0_l c)| |exact Hk]. intros j Hj IH. replace (lo + Z.succ j)%Z with (lo + j + 1)%Z by lia. rewrite sumZ_last by lia. rewrite IH. unfold Z.succ. rewrite plus_IZR. match goal with |- ?a = ?b => change (@eq R a b) end. cbn [radd Rring]. ring. }
  replace hi with (lo + (hi - lo))%Z at 1 by lia. rewrite G by lia. now replace (Z.max 0 (hi - lo)) with (hi - lo)%Z by lia.
Qed.
Lemma Rsum_add lo hi (f g : Z -> R) : sumZ (K := Rring) lo hi (fun i => f i + g i) = sumZ (K := Rring) lo hi f + sumZ (K := Rring) lo hi g.
Proof. exact (sumZ_add (K := Rring) lo hi f g). Qed.
Lemma Rsum_scale lo hi c (f : Z -> R) : sumZ (K := Rring) lo hi (fun i => c * f i) = c * sumZ (K := Rring) lo hi f.
Proof. exact (sumZ_scale (K := Rring) lo hi c f). Qed.
Lemma sum_tab n (f : Z -> R) : fold_right Rplus 0 (tab n f) = sumZ (K := Rring) 0 n f.
Proof.
  destruct (Z_lt_ge_dec 0 n) as [L|L]; [|unfold tab; replace (Z.to_nat n) with 0%nat by lia; rewrite sumZ_empty by lia; reflexivity].
  assert (Ga : forall (l : list R) a, fold_right Rplus 0 (l ++ [a]) = fold_right Rplus 0 l + a) by (induction l as [|b l IH]; intros a; cbn; [ring|rewrite IH; ring]).
  assert (G : forall k, (0 <= k)%Z -> fold_right Rplus 0 (tab k f) = sumZ (K := Rring) 0 k f).
  { intros k Hk. pattern k. apply natlike_ind; [rewrite sumZ_empty by lia; reflexivity| |exact Hk]. intros j Hj IH. unfold Z.succ. rewrite sumZ_last by lia. rewrite <- IH. unfold tab. replace (Z.to_nat (j + 1)) with (S (Z.to_nat j)) by lia. rewrite seq_S, map_app, Nat.add_0_l. cbn [map]. rewrite Ga. cbn [radd Rring]. do 2 f_equal. lia. }
  apply G. lia.
Qed.
Lemma combine_tab {A B} n (f : Z -> A) (g : Z -> B) : combine (tab n f) (tab n g) = tab n (fun i => (f i, g i)).
Proof. unfold tab. generalize (seq 0 (Z.to_nat n)). induction l as [|a l IH]; [reflexivity|]. cbn. now rewrite IH. Qed.

(** ** One blend, in reals *)
Lemma weigh u e0 G e Y c A W w T : 0 <= u -> 1 <= G -> 0 <= e -> 0 <= A -> 0 <= w -> Rabs c <= A -> Rabs (Y - c) <= (G - 1) * A + e -> Rabs (W - w) <= u * w -> Rabs (T - Y * W) <= u * Rabs (Y * W) + e0 ->
  Rabs (Y * W) <= (1 + u) * (w * (G * A + e)) /\ Rabs (T - c * w) <= w * (((1 + u) ^ 2 * G - 1) * A + (1 + u) ^ 2 * e) + e0 /\ Rabs T <= (1 + u) ^ 2 * (w * (G * A + e)) + e0.
Proof.
  intros Hu HG He HA Hw Hc HY HW HT. assert (HY' : Rabs Y <= G * A + e) by (replace Y with ((Y - c) + c) by ring; eapply Rle_trans; [apply Rabs_triang|]; lra).
  assert (HW' : Rabs W <= (1 + u) * w) by (replace W with ((W - w) + w) by ring; eapply Rle_trans; [apply Rabs_triang|]; rewrite (Rabs_pos_eq w) by exact Hw; lra).
  assert (H1 : Rabs (Y * W) <= (G * A + e) * ((1 + u) * w)) by (rewrite Rabs_mult; apply Rmult_le_compat; try apply Rabs_pos; assumption).
  split; [eapply Rle_trans; [exact H1|right; ring]|].
  assert (H2 : Rabs ((Y - c) * W) <= ((G - 1) * A + e) * ((1 + u) * w)) by (rewrite Rabs_mult; apply Rmult_le_compat; try apply Rabs_pos; assumption).
  assert (H3 : Rabs (c * (W - w)) <= A * (u * w)) by (rewrite Rabs_mult; apply Rmult_le_compat; try apply Rabs_pos; assumption).
  assert (H4 : u * Rabs (Y * W) <= u * ((G * A + e) * ((1 + u) * w))) by (apply Rmult_le_compat_l; assumption). split.
  - replace (T - c * w) with ((T - Y * W) + ((Y - c) * W + c * (W - w))) by ring. eapply Rle_trans; [apply Rabs_triang|]. pose proof (Rabs_triang ((Y - c) * W) (c * (W - w))) as H5.
    replace (w * (((1 + u) ^ 2 * G - 1) * A + (1 + u) ^ 2 * e)) with (u * ((G * A + e) * ((1 + u) * w)) + (((G - 1) * A + e) * ((1 + u) * w) + A * (u * w))) by ring. lra.
  - replace T with ((T - Y * W) + Y * W) by ring. eapply Rle_trans; [apply Rabs_triang|]. replace ((1 + u) ^ 2 * (w * (G * A + e))) with (u * ((G * A + e) * ((1 + u) * w)) + (G * A + e) * ((1 + u) * w)) by ring. lra.
Qed.
Lemma divide u e0 g E S A w N D q : 0 <= u -> u <= 1 / 1000 -> 1 <= g -> 0 <= E -> 1 <= w -> 0 <= A -> Rabs S <= A -> Rabs (N - S) <= (g - 1) * A + E -> Rabs (D - w) <= (2 * u + u * u) * w ->
  0 < D /\ Rabs (N / D) <= (1 + u) ^ 3 * (g * (A / w) + E / w) /\ (Rabs (q - N / D) <= u * Rabs (N / D) + e0 -> Rabs (q - S / w) <= ((1 + u) ^ 4 * g - 1) * (A / w) + (1 + u) ^ 4 * (E / w) + e0).
Proof.
  intros Hu Hu' Hg HE Hw HA HS HN HD. set (d := 2 * u + u * u) in *. assert (Hd : 0 <= d <= 1 / 100) by (unfold d; nra). apply Rabs_le_inv in HD. assert (HDw : (1 - d) * w <= D) by lra. assert (D0 : 0 < D) by nra. split; [exact D0|].
  set (k := (1 + u) ^ 3). assert (Hk : 1 <= k * (1 - d)).
  { unfold k, d. replace ((1 + u) ^ 3 * (1 - (2 * u + u * u))) with (1 + u * (1 - 4 * u - 8 * (u * u) - 5 * (u * (u * u)) - u * u * (u * u))) by ring. assert (0 <= u * u <= 1 / 1000) by nra. assert (0 <= u * (u * u) <= 1 / 1000) by nra. assert (0 <= u * u * (u * u) <= 1 / 1000) by nra. nra. }
  assert (k0 : 0 < k) by (unfold k; apply pow_lt; lra). assert (HkD : w <= k * D) by nra. assert (Hinv : / D <= k / w).
  { apply (Rmult_le_reg_r (D * w)); [nra|]. replace (/ D * (D * w)) with w by (field; lra). replace (k / w * (D * w)) with (k * D) by (field; lra). exact HkD. }
  assert (I0 : 0 < / D) by now apply Rinv_0_lt_compat. assert (w0 : 0 < / w) by (apply Rinv_0_lt_compat; lra).
  assert (HN' : Rabs N <= g * A + E) by (replace N with ((N - S) + S) by ring; eapply Rle_trans; [apply Rabs_triang|]; lra).
  assert (HND : Rabs (N / D) <= k * (g * (A / w) + E / w)).
  { unfold Rdiv at 1. rewrite Rabs_mult, (Rabs_pos_eq (/ D)) by lra. eapply Rle_trans; [apply Rmult_le_compat; [apply Rabs_pos|lra|exact HN'|exact Hinv]|]. right. field. lra. }
  split; [exact HND|]. intros Hq. assert (HB : Rabs (N / D - S / w) <= (k * g - 1) * (A / w) + k * (E / w)).
  { replace (N / D - S / w) with ((N - S) * / D + S * ((w - D) * (/ D * / w))) by (field; lra). eapply Rle_trans; [apply Rabs_triang|]. rewrite !Rabs_mult, (Rabs_pos_eq (/ D)), (Rabs_pos_eq (/ w)) by lra.
    assert (B1 : Rabs (N - S) * / D <= ((g - 1) * A + E) * (k / w)) by (apply Rmult_le_compat; try lra; apply Rabs_pos).
    assert (B2 : Rabs S * (Rabs (w - D) * (/ D * / w)) <= A * (d * w * (k / w * / w))).
    { apply Rmult_le_compat; [apply Rabs_pos| |exact HS|]; [apply Rmult_le_pos; [apply Rabs_pos|nra]|]. apply Rmult_le_compat; [apply Rabs_pos|nra| |apply Rmult_le_compat_r; lra]. rewrite Rabs_minus_sym. apply Rabs_le. lra. }
    eapply Rle_trans; [apply Rplus_le_compat; [exact B1|exact B2]|]. replace (A * (d * w * (k / w * / w))) with (d * k * (A / w)) by (field; lra). replace (((g - 1) * A + E) * (k / w)) with (k * ((g - 1) * (A / w)) + k * (E / w)) by (field; lra).
    assert (Aw : 0 <= A / w) by (unfold Rdiv; nra). nra. }
  replace (q - S / w) with ((q - N / D) + (N / D - S / w)) by ring. eapply Rle_trans; [apply Rabs_triang|]. assert (B3 : u * Rabs (N / D) <= u * (k * (g * (A / w) + E / w))) by (apply Rmult_le_compat_l; assumption).
  replace (((1 + u) ^ 4 * g - 1) * (A / w) + (1 + u) ^ 4 * (E / w)) with (u * (k * (g * (A / w) + E / w)) + ((k * g - 1) * (A / w) + k * (E / w))) by (unfold k; ring). lra.
Qed.

(** ** Floats *)
Section Ieee.
Variables prec emax : Z.
Context (Hprec : Prec_gt_0 prec) (Hmax : Prec_lt_emax prec emax).
Notation float := (binary_float prec emax).
Notation u := (ur prec).
Notation eta := (tiny prec emax).
Notation fzero := (B754_zero false : float).
Notation finite := (finite prec emax).

Lemma at0_elt (f : float -> R) l i : f fzero = 0 -> at0 (K := Rring) (map f l) i = f (elt fzero l i).
Proof. intros H0. unfold at0, elt. rewrite nthZ_map. destruct (nthZ l i); [reflexivity|]. cbn. now rewrite H0. Qed.
Lemma dot_window (f : float -> R) (x taps : list float) P m : f fzero = 0 -> (0 < P)%Z -> (0 <= m)%Z ->
  fold_right Rplus 0 (map (fun p => f (fst p) * f (snd p)) (combine (xs_of fzero x (lenZ taps) P m) (ts_of fzero taps (lenZ x) P m))) = conv (K := Rring) (expanded (K := Rring) (map f x) P) (map f taps) m.
Proof.
  intros H0 HP Hm. pose proof (conv_window Rring (map f x) (map f taps) P m HP Hm) as E. cbn [car Rring] in E. rewrite !lenZ_map in E. rewrite E. unfold xs_of, ts_of. rewrite combine_tab, map_tab, sum_tab. cbn [fst snd].
  set (a := lo_of (lenZ taps) P m). rewrite (sumZ_shift' a (hi_of (lenZ x) P m) a). rewrite Z.sub_diag. apply sumZ_ext. intros i Hi. rewrite !at0_elt by exact H0. cbn [rmul Rring]. f_equal; f_equal; f_equal; lia.
Qed.
Lemma exact_window (x taps : list float) P m : (0 < P)%Z -> (0 <= m)%Z -> exact_dot prec emax (xs_of fzero x (lenZ taps) P m) (ts_of fzero taps (lenZ x) P m) = conv (K := Rring) (expanded (K := Rring) (map B2R x) P) (map B2R taps) m.
Proof. intros HP Hm. apply (dot_window B2R); [reflexivity|exact HP|exact Hm]. Qed.
Lemma abs_window (x taps : list float) P m : (0 < P)%Z -> (0 <= m)%Z ->
  abs_dot prec emax (xs_of fzero x (lenZ taps) P m) (ts_of fzero taps (lenZ x) P m) = conv (K := Rring) (expanded (K := Rring) (map (fun a => Rabs (B2R a)) x) P) (map (fun a => Rabs (B2R a)) taps) m.
Proof.
  intros HP Hm. rewrite <- (dot_window (fun a => Rabs (B2R a))); [|cbn; apply Rabs_R0|exact HP|exact Hm]. unfold abs_dot. f_equal. apply map_ext. intros [a b]. cbn [fst snd]. apply Rabs_mult.
Qed.

(** the stored taps are [P] times the filter up to a relative error [c - 1] and an absolute one *)
Lemma taps_changed (x h taps : list float) P m c t peak : (0 < P)%Z -> (0 <= m)%Z -> lenZ taps = lenZ h -> 1 <= c -> 0 <= t -> 0 <= peak -> (forall a, In a x -> Rabs (B2R a) <= peak) ->
  (forall k, Rabs (B2R (elt fzero taps k) - IZR P * B2R (elt fzero h k)) <= (c - 1) * (IZR P * Rabs (B2R (elt fzero h k))) + t) ->
  let A := IZR P * conv (K := Rring) (expanded (K := Rring) (map (fun a => Rabs (B2R a)) x) P) (map (fun a => Rabs (B2R a)) h) m in
  let At := conv (K := Rring) (expanded (K := Rring) (map (fun a => Rabs (B2R a)) x) P) (map (fun a => Rabs (B2R a)) taps) m in
  let p := IZR ((lenZ h + P - 1) / P) in
  Rabs (conv (K := Rring) (expanded (K := Rring) (map B2R x) P) (map B2R taps) m - IZR P * conv (K := Rring) (expanded (K := Rring) (map B2R x) P) (map B2R h) m) <= (c - 1) * A + p * (peak * t) /\ At <= c * A + p * (peak * t) /\ 0 <= A /\ 0 <= At /\ 
  Rabs (IZR P * conv (K := Rring) (expanded (K := Rring) (map B2R x) P) (map B2R h) m) <= A.
Proof.
  intros HP Hm L Hc Ht Hpk Hx Htap A At p. assert (P0 : 0 < IZR P) by now apply IZR_lt.
  assert (Hel : forall n, Rabs (B2R (elt fzero x n)) <= peak).
  { intros n. unfold elt. destruct (nthZ x n) eqn:E; [|cbn; now rewrite Rabs_R0]. apply Hx. unfold nthZ in E. destruct (n <? 0)%Z; [discriminate|]. now apply nth_error_In in E. }
  subst A At. pose proof (fun X T => conv_window Rring X T P m HP Hm) as E. cbn [car Rring] in E. rewrite !E. clear E. rewrite !lenZ_map, L. set (lo := lo_of (lenZ h) P m). set (hi := hi_of (lenZ x) P m). cbn [rmul Rring].
  rewrite <- !(sumZ_scale (K := Rring)), <- (sumZ_sub (K := Rring)). cbn [rmul rsub Rring].
  assert (Hp : IZR (Z.max 0 (hi - lo)) * (peak * t) <= p * (peak * t)) by (apply Rmult_le_compat_r; [apply Rmult_le_pos; lra|]; apply IZR_le; apply window_size; [exact HP|apply lenZ_nonneg]).
  assert (B0 : forall n, Rabs (IZR P * (B2R (elt fzero x n) * B2R (elt fzero h (m - n * P)))) <= IZR P * (Rabs (B2R (elt fzero x n)) * Rabs (B2R (elt fzero h (m - n * P))))) by (intros n; rewrite !Rabs_mult, (Rabs_pos_eq (IZR P)) by lra; lra).
  assert (Z0 : Rabs (B2R fzero) = 0) by (cbn; apply Rabs_R0).
  assert (D : forall n, let xn := B2R (elt fzero x n) in let hn := B2R (elt fzero h (m - n * P)) in Rabs (xn * B2R (elt fzero taps (m - n * P)) - IZR P * (xn * hn)) <= (c - 1) * (IZR P * (Rabs xn * Rabs hn)) + peak * t).
  { intros n. cbv zeta. set (xn := B2R (elt fzero x n)). set (hn := B2R (elt fzero h (m - n * P))). set (tn := B2R (elt fzero taps (m - n * P))). replace (xn * tn - IZR P * (xn * hn)) with (xn * (tn - IZR P * hn)) by ring. rewrite Rabs_mult.
    eapply Rle_trans; [apply Rmult_le_compat_l; [apply Rabs_pos|apply Htap]|]. fold hn. rewrite Rmult_plus_distr_l. apply Rplus_le_compat; [right; ring|]. apply Rmult_le_compat_r; [exact Ht|apply Hel]. }
  split; [|split; [|split; [|split]]].
  - eapply Rle_trans; [apply (Rsum_triangle lo hi _ (fun n => (c - 1) * (IZR P * (Rabs (B2R (elt fzero x n)) * Rabs (B2R (elt fzero h (m - n * P))))) + peak * t))|].
    + intros n _. rewrite !(at0_elt B2R) by reflexivity. apply D.
    + rewrite (Rsum_add lo hi (fun n => (c - 1) * (IZR P * (Rabs (B2R (elt fzero x n)) * Rabs (B2R (elt fzero h (m - n * P)))))) (fun _ => peak * t)). rewrite Rsum_const. rewrite (Rsum_scale lo hi (c - 1) (fun n => IZR P * (Rabs (B2R (elt fzero x n)) * Rabs (B2R (elt fzero h (m - n * P)))))).
      apply Rplus_le_compat; [|exact Hp]. right. rewrite <- Rsum_scale. apply sumZ_ext. intros n _. now rewrite !(at0_elt (fun a => Rabs (B2R a))) by exact Z0.
  - eapply Rle_trans; [apply (Rsum_le lo hi _ (fun n => c * (IZR P * (Rabs (B2R (elt fzero x n)) * Rabs (B2R (elt fzero h (m - n * P))))) + peak * t))|].
    + intros n _. rewrite !(at0_elt (fun a => Rabs (B2R a))) by exact Z0. specialize (D n). cbv zeta in D. specialize (B0 n). rewrite <- Rabs_mult. 
      replace (B2R (elt fzero x n) * B2R (elt fzero taps (m - n * P))) with ((B2R (elt fzero x n) * B2R (elt fzero taps (m - n * P)) - IZR P * (B2R (elt fzero x n) * B2R (elt fzero h (m - n * P)))) + IZR P * (B2R (elt fzero x n) * B2R (elt fzero h (m - n * P)))) by ring.
      eapply Rle_trans; [apply Rabs_triang|]. lra.
    + rewrite (Rsum_add lo hi (fun n => c * (IZR P * (Rabs (B2R (elt fzero x n)) * Rabs (B2R (elt fzero h (m - n * P)))))) (fun _ => peak * t)). rewrite Rsum_const. rewrite (Rsum_scale lo hi c (fun n => IZR P * (Rabs (B2R (elt fzero x n)) * Rabs (B2R (elt fzero h (m - n * P)))))).
      apply Rplus_le_compat; [|exact Hp]. right. rewrite <- Rsum_scale. apply sumZ_ext. intros n _. now rewrite !(at0_elt (fun a => Rabs (B2R a))) by exact Z0.
  - eapply Rle_trans; [|apply (Rsum_le lo hi (fun _ => 0))]; [rewrite Rsum_const; lra|]. intros n _. rewrite !(at0_elt (fun a => Rabs (B2R a))) by exact Z0. apply Rmult_le_pos; [lra|]. apply Rmult_le_pos; apply Rabs_pos.
  - eapply Rle_trans; [|apply (Rsum_le lo hi (fun _ => 0))]; [rewrite Rsum_const; lra|]. intros n _. rewrite !(at0_elt (fun a => Rabs (B2R a))) by exact Z0. apply Rmult_le_pos; apply Rabs_pos.
  - apply Rsum_triangle. intros n _. rewrite !(at0_elt (fun a => Rabs (B2R a))) by exact Z0. rewrite !(at0_elt B2R) by reflexivity. apply B0.
Qed.

Notation of_size := (of_size prec emax Hprec Hmax).
Lemma weight_err n : u <= 1 / 1000 -> (0 <= n)%Z -> (1 + u) * IZR n < huge emax -> finite (of_size n) /\ Rabs (B2R (of_size n) - IZR n) <= u * IZR n.
Proof.
  intros Hu Hn HM. destruct (Z.eq_dec n 0) as [->|Hn0].
  - unfold FloatStat.of_size, FloatIeee.finite. pose proof (binary_normalize_correct prec emax Hprec Hmax mode_NE 0 0 false) as C. cbv zeta in C. assert (EF : F2R (Float radix2 0 0) = 0) by (unfold F2R; cbn; ring). rewrite EF, round_0, Rabs_R0, Rlt_bool_true in C by (try apply valid_rnd_round_mode; apply bpow_gt_0).
    destruct C as (C1 & C2 & _). rewrite C1, C2. split; [reflexivity|]. rewrite Rmult_0_r, Rminus_0_r, Rabs_R0. lra.
  - destruct (of_size_err prec emax Hprec Hmax n) as (F & _ & E); [lia|lra|exact HM|]. split; assumption.
Qed.
Lemma blend_err (y1 y2 : float) c1 c2 A1 A2 G e w1 w2 : u <= 1 / 1000 -> (1 <= w1)%Z -> (0 <= w2)%Z -> 1 <= G -> 0 <= e -> Rabs c1 <= A1 -> Rabs c2 <= A2 -> finite y1 -> finite y2 ->
  Rabs (B2R y1 - c1) <= (G - 1) * A1 + e -> Rabs (B2R y2 - c2) <= (G - 1) * A2 + e ->
  (1 + u) ^ 2 * IZR (w1 + w2) < huge emax -> (1 + u) ^ 7 * (IZR w1 * (G * A1 + e) + IZR w2 * (G * A2 + e)) + 4 * eta < huge emax ->
  let q := Bdiv mode_NE (Bplus mode_NE (Bmult mode_NE y1 (of_size w1)) (Bmult mode_NE y2 (of_size w2))) (Bplus mode_NE (of_size w1) (of_size w2)) in
  finite q /\ Rabs (B2R q - (IZR w1 * c1 + IZR w2 * c2) / IZR (w1 + w2)) <= ((1 + u) ^ 7 * G - 1) * ((IZR w1 * A1 + IZR w2 * A2) / IZR (w1 + w2)) + (1 + u) ^ 7 * e + 2 * eta.
Proof.
  intros Hu Hw1 Hw2 HG He Hc1 Hc2 Fy1 Fy2 HY1 HY2 Hov HM q. pose proof (ur_pos prec) as U0. assert (T0 : 0 < eta) by (unfold tiny; apply bpow_gt_0). pose proof (Rabs_pos c1) as A1p. pose proof (Rabs_pos c2) as A2p.
  assert (W1 : 1 <= IZR w1) by now apply (IZR_le 1). assert (W2 : 0 <= IZR w2) by now apply (IZR_le 0). rewrite plus_IZR in *. set (r1 := IZR w1) in *. set (r2 := IZR w2) in *.
  assert (P1 : 1 <= (1 + u) ^ 7) by (apply pow_R1_Rle; lra). assert (P2 : (1 + u) <= (1 + u) ^ 2) by nra. assert (B1 : 0 <= r1 * (G * A1 + e)) by (apply Rmult_le_pos; nra). assert (B2 : 0 <= r2 * (G * A2 + e)) by (apply Rmult_le_pos; nra).
  set (Q1 := r1 * (G * A1 + e)) in *. set (Q2 := r2 * (G * A2 + e)) in *. assert (P72 : (1 + u) ^ 2 <= (1 + u) ^ 7) by (apply Rle_pow; [lra|lia]). assert (P73 : (1 + u) ^ 3 <= (1 + u) ^ 7) by (apply Rle_pow; [lra|lia]).
  destruct (weight_err w1 Hu ltac:(lia)) as [Fw1 Ew1]; [fold r1; nra|]. destruct (weight_err w2 Hu Hw2) as [Fw2 Ew2]; [fold r2; nra|]. fold r1 in Ew1. fold r2 in Ew2.
  assert (X1 : Rabs (B2R y1 * B2R (of_size w1)) <= (1 + u) * Q1).
  { refine (proj1 (weigh u (eta / 2) G e (B2R y1) c1 A1 (B2R (of_size w1)) r1 (B2R y1 * B2R (of_size w1)) _ _ _ _ _ _ _ _ _)); try lra. rewrite Rminus_eq_0, Rabs_R0. pose proof (Rabs_pos (B2R y1 * B2R (of_size w1))). nra. }
  assert (X2 : Rabs (B2R y2 * B2R (of_size w2)) <= (1 + u) * Q2).
  { refine (proj1 (weigh u (eta / 2) G e (B2R y2) c2 A2 (B2R (of_size w2)) r2 (B2R y2 * B2R (of_size w2)) _ _ _ _ _ _ _ _ _)); try lra. rewrite Rminus_eq_0, Rabs_R0. pose proof (Rabs_pos (B2R y2 * B2R (of_size w2))). nra. }
  destruct (fmul_err prec emax Hprec Hmax y1 (of_size w1) Fy1 Fw1) as [FT1 ET1]; [nra|]. destruct (fmul_err prec emax Hprec Hmax y2 (of_size w2) Fy2 Fw2) as [FT2 ET2]; [nra|]. unfold fmul in *.
  destruct (weigh u (eta / 2) G e (B2R y1) c1 A1 (B2R (of_size w1)) r1 (B2R (Bmult mode_NE y1 (of_size w1)))) as (_ & D1 & M1); try lra. destruct (weigh u (eta / 2) G e (B2R y2) c2 A2 (B2R (of_size w2)) r2 (B2R (Bmult mode_NE y2 (of_size w2)))) as (_ & D2 & M2); try lra. fold Q1 in M1. fold Q2 in M2.
  set (t1 := Bmult mode_NE y1 (of_size w1)) in *. set (t2 := Bmult mode_NE y2 (of_size w2)) in *. assert (M12 : Rabs (B2R t1 + B2R t2) <= (1 + u) ^ 2 * (Q1 + Q2) + eta) by (eapply Rle_trans; [apply Rabs_triang|]; lra).
  destruct (fadd_err prec emax Hprec Hmax t1 t2 FT1 FT2) as [FN EN]; [|].
  { eapply Rle_lt_trans; [apply Rmult_le_compat_l; [lra|exact M12]|]. replace ((1 + u) * ((1 + u) ^ 2 * (Q1 + Q2) + eta)) with ((1 + u) ^ 3 * (Q1 + Q2) + (1 + u) * eta) by ring. nra. }
  unfold fadd in *. set (N := Bplus mode_NE t1 t2) in *.
  assert (WS : Rabs (B2R (of_size w1) + B2R (of_size w2)) <= (1 + u) * (r1 + r2)) by (apply Rabs_le_inv in Ew1, Ew2; apply Rabs_le; nra).
  destruct (fadd_err prec emax Hprec Hmax (of_size w1) (of_size w2) Fw1 Fw2) as [FD ED]; [nra|]. unfold fadd in *. set (D := Bplus mode_NE (of_size w1) (of_size w2)) in *.
  set (w := r1 + r2) in *. assert (Hw : 1 <= w) by (unfold w; lra).
  assert (HD : Rabs (B2R D - w) <= (2 * u + u * u) * w).
  { replace (B2R D - w) with ((B2R D - (B2R (of_size w1) + B2R (of_size w2))) + ((B2R (of_size w1) - r1) + (B2R (of_size w2) - r2))) by (unfold w; ring). eapply Rle_trans; [apply Rabs_triang|]. pose proof (Rabs_triang (B2R (of_size w1) - r1) (B2R (of_size w2) - r2)).
    assert (u * Rabs (B2R (of_size w1) + B2R (of_size w2)) <= u * ((1 + u) * w)) by (apply Rmult_le_compat_l; lra). unfold w in *. nra. }
  set (g := (1 + u) ^ 3 * G). set (A := r1 * A1 + r2 * A2). set (E := (1 + u) ^ 3 * (w * e) + (1 + u) * eta).
  assert (HN : Rabs (B2R N - (r1 * c1 + r2 * c2)) <= (g - 1) * A + E).
  { replace (B2R N - (r1 * c1 + r2 * c2)) with ((B2R N - (B2R t1 + B2R t2)) + ((B2R t1 - c1 * r1) + (B2R t2 - c2 * r2))) by ring. eapply Rle_trans; [apply Rabs_triang|]. pose proof (Rabs_triang (B2R t1 - c1 * r1) (B2R t2 - c2 * r2)).
    assert (u * Rabs (B2R t1 + B2R t2) <= u * ((1 + u) ^ 2 * (Q1 + Q2) + eta)) by (apply Rmult_le_compat_l; lra).
    replace ((g - 1) * A + E) with (u * ((1 + u) ^ 2 * (Q1 + Q2) + eta) + (r1 * (((1 + u) ^ 2 * G - 1) * A1 + (1 + u) ^ 2 * e) + eta / 2 + (r2 * (((1 + u) ^ 2 * G - 1) * A2 + (1 + u) ^ 2 * e) + eta / 2))) by (unfold g, A, E, Q1, Q2, w; field). lra. }
  assert (g1 : 1 <= g) by (unfold g; assert (1 <= (1 + u) ^ 3) by (apply pow_R1_Rle; lra); nra). assert (E0 : 0 <= E) by (unfold E; assert (0 <= (1 + u) ^ 3) by (apply pow_le; lra); apply Rplus_le_le_0_compat; apply Rmult_le_pos; nra).
  assert (A0 : 0 <= A) by (unfold A; nra). assert (SA : Rabs (r1 * c1 + r2 * c2) <= A). { eapply Rle_trans; [apply Rabs_triang|]. rewrite !Rabs_mult, (Rabs_pos_eq r1), (Rabs_pos_eq r2) by lra. unfold A. nra. }
  destruct (divide u (eta / 2) g E (r1 * c1 + r2 * c2) A w (B2R N) (B2R D) (B2R q)) as (D0 & MQ & HQ); try assumption; try lra.
  assert (Ew : E / w = (1 + u) ^ 3 * e + (1 + u) * (eta / w)) by (unfold E; field; lra). assert (Tw : 0 <= eta / w <= eta). { assert (0 < / w <= 1) by (split; [apply Rinv_0_lt_compat; lra|rewrite <- Rinv_1; apply Rinv_le; lra]). unfold Rdiv. nra. }
  assert (U4 : (1 + u) ^ 4 * ((1 + u) * (eta / w)) <= 3 / 2 * eta). { replace ((1 + u) ^ 4 * ((1 + u) * (eta / w))) with ((1 + u) ^ 5 * (eta / w)) by ring. apply Rmult_le_compat; try lra; [apply pow_le; lra|]. eapply Rle_trans; [apply (pow_incr _ (1001 / 1000)); lra|]. lra. }
  destruct (fdiv_err prec emax Hprec Hmax N D FN ltac:(lra)) as (Fq & _ & Eq).
  { eapply Rle_lt_trans; [apply Rplus_le_compat_r, Rmult_le_compat_l; [lra|exact MQ]|]. rewrite Ew. unfold g.
    replace ((1 + u) * ((1 + u) ^ 3 * ((1 + u) ^ 3 * G * (A / w) + ((1 + u) ^ 3 * e + (1 + u) * (eta / w))))) with ((1 + u) ^ 7 * ((G * A + w * e) / w) + (1 + u) ^ 4 * ((1 + u) * (eta / w))) by (field; lra).
    assert (H : (G * A + w * e) / w <= G * A + w * e). { assert (0 < / w <= 1) by (split; [apply Rinv_0_lt_compat; lra|rewrite <- Rinv_1; apply Rinv_le; lra]). assert (0 <= G * A + w * e) by nra. unfold Rdiv. nra. }
    replace (Q1 + Q2) with (G * A + w * e) in HM by (unfold Q1, Q2, A, w; ring). assert ((1 + u) ^ 7 * ((G * A + w * e) / w) <= (1 + u) ^ 7 * (G * A + w * e)) by (apply Rmult_le_compat_l; lra). lra. }
  split; [exact Fq|]. specialize (HQ Eq). rewrite Ew in HQ. eapply Rle_trans; [exact HQ|]. unfold g. replace ((1 + u) ^ 4 * ((1 + u) ^ 3 * e + (1 + u) * (eta / w))) with ((1 + u) ^ 7 * e + (1 + u) ^ 4 * ((1 + u) * (eta / w))) by ring.
  replace ((1 + u) ^ 4 * ((1 + u) ^ 3 * G)) with ((1 + u) ^ 7 * G) by ring. lra.
Qed.
End Ieee.
