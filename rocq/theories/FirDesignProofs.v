(** Closed forms of the windowed FIR designs. *)
From Coq Require Import ZArith List Bool Lia Reals Lra.
From Verif Require Import Base BaseFacts Complex KernelModel KernelProofs ConvProofs FirModel FftModel FftProofs PolyphaseModel PolyphaseProofs PropsPolyphase FirBandModel FirBandProofs PropsFirBand WindowModel WindowProofs PropsWindow FirDesignModel.
From Coq Require Import ZifyBool ZifyNat.
Import ListNotations.
Open Scope Z_scope.

(** the ideal lowpass: sinc of the distance to the middle tap *)
Definition ideal (n : Z) (c : R) (k : Z) : R := sinc (IZR (k - n / 2) * (c * PI)).
Lemma ideal_sym n c k : n mod 2 = 1 -> ideal n c (n - 1 - k) = ideal n c k.
Proof. intros Ho. unfold ideal. rewrite <- sinc_even. f_equal. assert (E : n - 1 = 2 * (n / 2)) by (pose proof (Z.div_mod n 2 ltac:(lia)); lia). replace (n - 1 - k - n / 2) with (- (k - n / 2)) by lia. rewrite opp_IZR. ring. Qed.
Lemma ideal_mid n c : ideal n c (n / 2) = 1%R.
Proof. unfold ideal, sinc. rewrite Z.sub_diag, Rmult_0_l. destruct (Req_EM_T 0 0); [reflexivity|lra]. Qed.
Lemma sin_over_ideal n c i : (c <> 0)%R -> 0 <= i < n / 2 -> sin_over ((IZR i - IZR (n / 2)) * (c * PI)) = Ok (ideal n c i).
Proof.
  intros Hc Hi. unfold sin_over, ideal, sinc. rewrite <- minus_IZR. destruct (Req_EM_T _ 0) as [E|E]; [|reflexivity]. exfalso. apply Rmult_integral in E as [E|E].
  - apply eq_IZR in E. lia.
  - apply Rmult_integral in E as [E|E]; [auto|]. now apply PI_neq0.
Qed.
Section Lowpass.
Variables (W : Z) (vec : bool).
Hypothesis HW : 1 <= W.
(** what normalisation yields *)
Lemma normalize_ok (l : list R) : sumZ (K := Rring) 0 (lenZ l) (atR l) <> 0%R ->
  normalize_sum W vec l = Ok (tab (lenZ l) (fun k => atR l k / sumZ (K := Rring) 0 (lenZ l) (atR l))%R).
Proof.
  intros H. unfold normalize_sum. rewrite (sum_ok (F := Rfield)) by exact HW. cbn [bind]. change (suml (K := Rfield) l) with (suml (K := Rring) l). rewrite suml_sumZ. asL. destruct (Req_EM_T _ 0); [contradiction|].
  set (s := sumZ 0 (lenZ l) (atR l)) in *. unfold mul_by. rewrite sig_scalar_inplace_ok by exact HW. f_equal. rewrite (tab_at0 (K := Rring) l) at 1. asL. rewrite map_tab. apply tab_ext. intros k Hk. unfold Rdiv. ring.
Qed.
Lemma normalize_fail (l : list R) : sumZ (K := Rring) 0 (lenZ l) (atR l) = 0%R -> normalize_sum W vec l = UB.
Proof.
  intros H. unfold normalize_sum. rewrite (sum_ok (F := Rfield)) by exact HW. cbn [bind]. change (suml (K := Rfield) l) with (suml (K := Rring) l). rewrite suml_sumZ. asL. rewrite H. destruct (Req_EM_T 0 0); [reflexivity|lra].
Qed.
Lemma half_lt n : n mod 2 = 1 -> 0 <= n -> n = 2 * (n / 2) + 1 /\ 0 <= n / 2.
Proof. intros Ho Hn. pose proof (Z.div_mod n 2 ltac:(lia)). pose proof (Z.div_pos n 2). lia. Qed.
Lemma lowpass_func_loop (w : list R) n c : lenZ w = n -> n mod 2 = 1 -> (c <> 0)%R \/ n = 1 ->
  for_ 0 (n / 2) 1 (fun i coefficients => do sinc <- sin_over ((IZR i - IZR (n / 2)) * (c * PI)); do c <- rd coefficients i; do coefficients <- wr coefficients i (c * sinc)%R;
     do c <- rd coefficients (n - i - 1); wr coefficients (n - i - 1) (c * sinc)%R) w = Ok (tab n (fun k => atR w k * ideal n c k)%R).
Proof.
  intros L Ho Hc. pose proof (lenZ_nonneg w) as Hn. rewrite L in Hn. destruct (half_lt n Ho Hn) as [E H0]. apply okP_eq. eapply okP_imp.
  - apply (for1_inv (fun i (o : list R) => lenZ o = n /\ forall j, 0 <= j < n -> atR o j = if (j <? i) || (n - 1 - j <? i) then (atR w j * ideal n c j)%R else atR w j)).
    + split; [exact L|]. intros j Hj. replace ((j <? 0) || (n - 1 - j <? 0)) with false by lia. reflexivity.
    + exact H0.
    + intros i o Hi [Lo N]. rewrite sin_over_ideal by (try (destruct Hc as [Hc|Hc]; [exact Hc|exfalso; subst n; change (1 / 2) with 0 in Hi; lia]); lia). cbn [bind].
      rewrite (rd_at0 (K := Rring)) by (asL; lia). cbn [bind]. rewrite (wr_ok (A := R)) by lia. cbn [bind]. assert (L1 : lenZ (updZ o i (atR o i * ideal n c i)%R) = n) by (rewrite lenZ_updZ by lia; exact Lo).
      rewrite (rd_at0 (K := Rring)) by (asL; lia). cbn [bind]. rewrite (wr_ok (A := R)) by lia. apply okP_ret. split; [rewrite lenZ_updZ by lia; exact L1|].
      intros j Hj. rewrite (at0_updZ (K := Rring)) by (asL; lia). rewrite !(at0_updZ (K := Rring)) by (asL; lia).
      destruct (Z.eqb_spec j (n - i - 1)) as [->|E1].
      * replace (n - i - 1 =? i) with false by lia. rewrite N by lia. replace ((n - i - 1 <? i) || (n - 1 - (n - i - 1) <? i)) with false by lia. replace ((n - i - 1 <? i + 1) || (n - 1 - (n - i - 1) <? i + 1)) with true by lia.
        replace (n - i - 1) with (n - 1 - i) by lia. rewrite ideal_sym by exact Ho. reflexivity.
      * destruct (Z.eqb_spec j i) as [->|E2].
        -- rewrite N by lia. replace ((i <? i) || (n - 1 - i <? i)) with false by lia. replace ((i <? i + 1) || (n - 1 - i <? i + 1)) with true by lia. reflexivity.
        -- rewrite N by lia. replace ((j <? i + 1) || (n - 1 - j <? i + 1)) with ((j <? i) || (n - 1 - j <? i)) by lia. reflexivity.
  - intros o [Lo N]. rewrite (tab_at0 (K := Rring) o). asL. rewrite Lo. apply tab_ext. intros k Hk. rewrite N by exact Hk. destruct ((k <? n / 2) || (n - 1 - k <? n / 2)) eqn:Ek; [reflexivity|]. assert (k = n / 2) by lia. subst k. rewrite ideal_mid. symmetry. apply Rmult_1_r.
Qed.
(** the taps before normalisation *)
Definition windowed (n : Z) (c : R) (w : list R) : list R := tab n (fun k => atR w k * ideal n c k)%R.
Definition windowed_sum (n : Z) (c : R) (w : list R) : R := sumZ (K := Rring) 0 n (fun k => atR w k * ideal n c k)%R.
Lemma windowed_sum_ok n c w : 0 <= n -> sumZ (K := Rring) 0 (lenZ (windowed n c w)) (atR (windowed n c w)) = windowed_sum n c w.
Proof. intros Hn. unfold windowed. rewrite lenZ_tab, Z.max_r by lia. apply sumZ_ext. intros k Hk. now rewrite (at0_tab (K := Rring)) by exact Hk. Qed.
Lemma normalize_windowed n c w : 0 <= n -> windowed_sum n c w <> 0%R -> normalize_sum W vec (windowed n c w) = Ok (tab n (fun k => atR w k * ideal n c k / windowed_sum n c w)%R).
Proof.
  intros Hn H. rewrite normalize_ok by (rewrite windowed_sum_ok by exact Hn; exact H). rewrite windowed_sum_ok by exact Hn. unfold windowed at 1. rewrite lenZ_tab, Z.max_r by lia. f_equal. apply tab_ext. intros k Hk. unfold windowed. now rewrite (at0_tab (K := Rring)) by exact Hk.
Qed.
Lemma lowpass_func_ok out c wf w : odd_length out -> wf out = Ok w -> lenZ w = lenZ out -> (c <> 0)%R \/ lenZ out = 1 ->
  KernelWindowedLowpass_func W vec out c wf = normalize_sum W vec (windowed (lenZ out) c w).
Proof.
  intros Ho Hw L Hc. unfold odd_length in Ho. unfold KernelWindowedLowpass_func, assert_. replace (lenZ out mod 2 =? 1) with true by lia. rewrite Hw. cbn [bind].
  rewrite (lowpass_func_loop w (lenZ out) c L Ho Hc). reflexivity.
Qed.
Lemma lowpass_signal_loop (o0 : list R) n c : lenZ o0 = n -> n mod 2 = 1 -> (c <> 0)%R \/ n = 1 ->
  (do o <- for_ 0 (n / 2) 1 (fun i coefficients => do sinc <- sin_over ((IZR i - IZR (n / 2)) * (c * PI)); do coefficients <- wr coefficients i sinc; wr coefficients (n - i - 1) sinc) o0; wr o (n / 2) 1%R) = Ok (tab n (ideal n c)).
Proof.
  intros L Ho Hc. pose proof (lenZ_nonneg o0) as Hn. rewrite L in Hn. destruct (half_lt n Ho Hn) as [E H0]. apply okP_eq. eapply okP_bind.
  - apply (for1_inv (fun i (o : list R) => lenZ o = n /\ forall j, 0 <= j < n -> (j <? i) || (n - 1 - j <? i) = true -> atR o j = ideal n c j)).
    + split; [exact L|]. intros j Hj. lia.
    + exact H0.
    + intros i o Hi [Lo N]. rewrite sin_over_ideal by (try (destruct Hc as [Hc|Hc]; [exact Hc|exfalso; subst n; change (1 / 2) with 0 in Hi; lia]); lia). cbn [bind].
      rewrite (wr_ok (A := R)) by lia. cbn [bind]. assert (L1 : lenZ (updZ o i (ideal n c i)) = n) by (rewrite lenZ_updZ by lia; exact Lo).
      rewrite (wr_ok (A := R)) by lia. apply okP_ret. split; [rewrite lenZ_updZ by lia; exact L1|].
      intros j Hj. rewrite (at0_updZ (K := Rring)) by (asL; lia). rewrite !(at0_updZ (K := Rring)) by (asL; lia).
      destruct (Z.eqb_spec j (n - i - 1)) as [->|E1].
      * intros _. replace (n - i - 1) with (n - 1 - i) by lia. now rewrite ideal_sym by exact Ho.
      * destruct (Z.eqb_spec j i) as [->|E2]; [reflexivity|]. intros Hb. apply N; lia.
  - intros o [Lo N]. rewrite (wr_ok (A := R)) by lia. apply okP_ret. rewrite (tab_at0 (K := Rring) (updZ o (n / 2) 1%R)). asL. rewrite lenZ_updZ by lia. rewrite Lo. apply tab_ext. intros k Hk. rewrite (at0_updZ (K := Rring)) by (asL; lia).
    destruct (Z.eqb_spec k (n / 2)) as [->|Ek]; [now rewrite ideal_mid|]. apply N; lia.
Qed.
Lemma lowpass_signal_ok out c w : odd_length out -> lenZ w = lenZ out -> (c <> 0)%R \/ lenZ out = 1 ->
  KernelWindowedLowpass_signal W vec out c w = normalize_sum W vec (windowed (lenZ out) c w).
Proof.
  intros Ho L Hc. unfold odd_length in Ho. pose proof (lenZ_nonneg out) as Hn. unfold KernelWindowedLowpass_signal, assert_. replace (lenZ out mod 2 =? 1) with true by lia. replace (lenZ out =? lenZ w) with true by lia.
  rewrite <- bind_assoc. rewrite (lowpass_signal_loop out (lenZ out) c eq_refl Ho Hc). cbn [bind]. rewrite (sig_sig_inplace_ok W vec Rmult HW) by (rewrite lenZ_tab; lia). cbn [bind]. f_equal.
  rewrite (tab_at0 (K := Rring) w) at 1. asL. rewrite L, map2_tab. unfold windowed. apply tab_ext. intros k Hk. apply Rmult_comm.
Qed.
End Lowpass.
(** [window_yields out arg w]: the window samples that the design uses *)
Definition window_yields (n : Z) (out : list R) (arg : window_arg) (w : list R) : Prop :=
  lenZ w = n /\ match arg with WindowFunc f => f out = Ok w | WindowSignal s => s = w end.
Lemma lowpass_ok W vec out c arg w : 1 <= W -> odd_length out -> window_yields (lenZ out) out arg w -> (c <> 0)%R \/ lenZ out = 1 ->
  KernelWindowedLowpass W vec out c arg = normalize_sum W vec (windowed (lenZ out) c w).
Proof. intros HW Ho [L H] Hc. destruct arg as [f|s]; cbn [KernelWindowedLowpass]; [now apply lowpass_func_ok|]. subst s. now apply lowpass_signal_ok. Qed.

(** ** Arbitrary responses *)
Section Arbitrary.
Variables (W : Z) (vec : bool).
Hypothesis HW : 1 <= W.
(** the inverse transform of the sampled response *)
Definition impulse_at (n : Z) (response : R -> C) (j : Z) : R :=
  re (IDFT n (herm n (fun k => response (lin (n / 2 + 1) 0 1 true k))) j).
Lemma sampled_impulse_ok n response : n mod 2 = 1 -> 0 < n -> sampled_impulse W vec n response = Ok (tab n (impulse_at n response)).
Proof.
  intros Ho Hn. destruct (half_lt n Ho ltac:(lia)) as [E H0]. unfold sampled_impulse. rewrite LinSpace_ok by exact HW. cbn [bind]. unfold zerosR. rewrite !lenZ_repeat, Z2Nat.id by lia. rewrite map_tab.
  unfold IfftHalf, assert_. rewrite lenZ_tab, Z.max_r by lia. replace (n mod 2 =? 0) with false by lia. replace ((n / 2 + 1) * 2 - 1) with n by lia. replace (0 <=? n) with true by lia.
  rewrite ifft_real_spec by (left; unfold zerosR; rewrite lenZ_tab, lenZ_repeat, Z2Nat.id, Z.max_r by lia; reflexivity). unfold zerosR. rewrite lenZ_repeat, Z2Nat.id by lia. f_equal. apply tab_ext. intros j Hj. unfold impulse_at. f_equal. apply IDFT_ext. intros k Hk.
  unfold herm. destruct (Z.eqb_spec k 0); [rewrite (at0_tab (K := Cring)) by lia; reflexivity|]. destruct (Z.eqb_spec (2 * k) n); [exfalso; lia|]. destruct (Z.ltb_spec (2 * k) n); rewrite (at0_tab (K := Cring)) by lia; reflexivity.
Qed.
(** replacing the window [o, o+s) *)
Lemma on_window_set (out : list R) o s f v : 0 <= o -> o + s <= lenZ out -> lenZ v = s -> (forall u : list R, lenZ u = s -> (forall k, 0 <= k < s -> atR u k = atR out (o + k)) -> f u = Ok v) ->
  exists out', on_window (K := R) out o s f = Ok out' /\ lenZ out' = lenZ out /\ forall j, atR out' j = if (o <=? j) && (j <? o + s) then atR v (j - o) else atR out j.
Proof.
  intros H1 H2 Hv Hf. pose proof (lenZ_nonneg v). destruct (slice_at0 (K := Rring) out o s H1 ltac:(lia) H2) as (u & Eu & Lu & Nu). change (slice (A := R) out o s = Ok u) in Eu. unfold on_window. rewrite Eu. cbn [bind]. rewrite (Hf u Lu Nu). cbn [bind]. asL.
  destruct (wrs_ok out o v H1 ltac:(lia)) as (o' & Eo & Lo & No). exists o'. split; [exact Eo|]. split; [exact Lo|]. intros j. unfold at0. change (car Rring) with R. rewrite No, Hv. now destruct ((o <=? j) && (j <? o + s)).
Qed.
Definition arb_tap (n : Z) (response : R -> C) (w : list R) (k : Z) : R := (atR w k * impulse_at n response ((k - n / 2) mod n))%R.
Lemma map2_at (a b : list R) i : lenZ a = lenZ b -> 0 <= i < lenZ a -> atR (map2 Rmult a b) i = (atR a i * atR b i)%R.
Proof. exact (map2_at0 (K := Rring) a b i). Qed.
Lemma map2_as (a b : list R) s f : lenZ a = s -> lenZ b = s -> (forall k, 0 <= k < s -> (atR a k * atR b k)%R = f k) -> map2 Rmult a b = tab s f.
Proof. intros La Lb H. rewrite (tab_at0 (K := Rring) a), (tab_at0 (K := Rring) b). asL. rewrite La, Lb, map2_tab. apply tab_ext. intros k Hk. rewrite <- H by exact Hk. reflexivity. Qed.
Lemma len_map2 (a b : list R) : lenZ a = lenZ b -> lenZ (map2 Rmult a b) = lenZ a.
Proof. intros H. rewrite (tab_at0 (K := Rring) a), (tab_at0 (K := Rring) b). asL. rewrite H, map2_tab, !lenZ_tab. reflexivity. Qed.
Lemma wrap_low n k : n mod 2 = 1 -> 0 <= k < n / 2 -> (k - n / 2) mod n = n / 2 + 1 + k.
Proof. intros Ho Hk. pose proof (Z.div_mod n 2 ltac:(lia)). replace (k - n / 2) with (n / 2 + 1 + k + (-1) * n) by lia. rewrite Z.mod_add by lia. apply Z.mod_small. lia. Qed.
Lemma arbitrary_func_ok out response wf w : odd_length out -> wf out = Ok w -> lenZ w = lenZ out ->
  KernelWindowedArbitrary_func W vec out response wf = Ok (tab (lenZ out) (arb_tap (lenZ out) response w)).
Proof.
  intros Ho Hw L. unfold odd_length in Ho. pose proof (lenZ_nonneg out) as Hn. set (n := lenZ out) in *. destruct (half_lt n Ho Hn) as [E H0]. unfold KernelWindowedArbitrary_func, assert_. fold n. replace (n mod 2 =? 1) with true by lia.
  rewrite sampled_impulse_ok by lia. cbn [bind]. rewrite Hw. cbn [bind]. set (imp := tab n (impulse_at n response)). assert (Li : lenZ imp = n) by (unfold imp; rewrite lenZ_tab; lia). rewrite L, Li.
  destruct (slice_at0 (K := Rring) imp (n / 2 + 1) (n - (n / 2 + 1)) ltac:(lia) ltac:(lia) ltac:(asL; lia)) as (b1 & Eb1 & Lb1 & Nb1). destruct (slice_at0 (K := Rring) imp 0 (n / 2 + 1) ltac:(lia) ltac:(lia) ltac:(asL; lia)) as (b2 & Eb2 & Lb2 & Nb2). asL.
  destruct (on_window_set w 0 (n / 2) (fun v => do b <- slice imp (n / 2 + 1) (n - (n / 2 + 1)); sig_sig_inplace W vec Rmult v b) (tab (n / 2) (fun k => atR w k * atR b1 k)%R)) as (o1 & E1 & L1 & N1); [lia|lia|rewrite lenZ_tab; lia| |].
  { intros u Lu Nu. rewrite Eb1. cbn [bind]. rewrite (sig_sig_inplace_ok W vec Rmult HW) by (asL; lia). asL. f_equal. apply map2_as; [lia|lia|]. intros k Hk. now rewrite Nu by exact Hk. }
  rewrite E1. cbn [bind]. asL. rewrite L1, L.
  destruct (on_window_set o1 (n / 2) (n - n / 2) (fun v => do b <- slice imp 0 (n / 2 + 1); sig_sig_inplace W vec Rmult v b) (tab (n - n / 2) (fun k => atR o1 (n / 2 + k) * atR b2 k)%R)) as (o2 & E2 & L2 & N2); [lia|lia|rewrite lenZ_tab; lia| |].
  { intros u Lu Nu. rewrite Eb2. cbn [bind]. rewrite (sig_sig_inplace_ok W vec Rmult HW) by (asL; lia). asL. f_equal. apply map2_as; [lia|lia|]. intros k Hk. now rewrite Nu by exact Hk. }
  rewrite E2. f_equal. transitivity (tab n (atR o2)); [replace n with (lenZ o2) by lia; exact (tab_at0 (K := Rring) o2)|]. apply tab_ext. intros k Hk. rewrite N2. unfold arb_tap. destruct (Z.ltb_spec k (n / 2)).
  - replace ((n / 2 <=? k) && (k <? n / 2 + (n - n / 2))) with false by lia. rewrite N1. replace ((0 <=? k) && (k <? 0 + n / 2)) with true by lia. rewrite Z.sub_0_r, (at0_tab (K := Rring)) by lia. rewrite Nb1 by lia. unfold imp. rewrite (at0_tab (K := Rring)) by lia. rewrite wrap_low by lia. reflexivity.
  - replace ((n / 2 <=? k) && (k <? n / 2 + (n - n / 2))) with true by lia. rewrite (at0_tab (K := Rring)) by lia. replace (n / 2 + (k - n / 2)) with k by lia. rewrite N1. replace ((0 <=? k) && (k <? 0 + n / 2)) with false by lia. rewrite Nb2 by lia. unfold imp. rewrite (at0_tab (K := Rring)) by lia. rewrite Z.mod_small by lia. reflexivity.
Qed.
Lemma arbitrary_signal_ok out response w : odd_length out -> lenZ w = lenZ out ->
  KernelWindowedArbitrary_signal W vec out response w = Ok (tab (lenZ out) (arb_tap (lenZ out) response w)).
Proof.
  intros Ho L. unfold odd_length in Ho. pose proof (lenZ_nonneg out) as Hn. set (n := lenZ out) in *. destruct (half_lt n Ho Hn) as [E H0]. unfold KernelWindowedArbitrary_signal, assert_. fold n. replace (n mod 2 =? 1) with true by lia. replace (n =? lenZ w) with true by lia.
  rewrite sampled_impulse_ok by lia. cbn [bind]. set (imp := tab n (impulse_at n response)). assert (Li : lenZ imp = n) by (unfold imp; rewrite lenZ_tab; lia). rewrite L, Li.
  destruct (slice_at0 (K := Rring) imp (n / 2 + 1) (n - (n / 2 + 1)) ltac:(lia) ltac:(lia) ltac:(asL; lia)) as (b1 & Eb1 & Lb1 & Nb1). destruct (slice_at0 (K := Rring) imp 0 (n / 2 + 1) ltac:(lia) ltac:(lia) ltac:(asL; lia)) as (b2 & Eb2 & Lb2 & Nb2).
  destruct (slice_at0 (K := Rring) w 0 (n / 2) ltac:(lia) ltac:(lia) ltac:(asL; lia)) as (w1 & Ew1 & Lw1 & Nw1). destruct (slice_at0 (K := Rring) w (n / 2) (n - n / 2) ltac:(lia) ltac:(lia) ltac:(asL; lia)) as (w2 & Ew2 & Lw2 & Nw2). asL.
  destruct (on_window_set out 0 (n / 2) (fun v => do a <- slice imp (n / 2 + 1) (n - (n / 2 + 1)); do b <- slice w 0 (n / 2); sig_sig_into W vec Rmult v a b) (tab (n / 2) (fun k => atR b1 k * atR w1 k)%R)) as (o1 & E1 & L1 & N1); [lia|lia|rewrite lenZ_tab; lia| |].
  { intros u Lu Nu. rewrite Eb1. cbn [bind]. rewrite Ew1. cbn [bind]. rewrite (sig_sig_into_ok W vec Rmult HW) by (asL; lia). asL. f_equal. apply map2_as; [lia|lia|]. reflexivity. }
  rewrite E1. cbn [bind]. asL. rewrite L1. fold n.
  destruct (on_window_set o1 (n / 2) (n - n / 2) (fun v => do a <- slice imp 0 (n / 2 + 1); do b <- slice w (n / 2) (n - n / 2); sig_sig_into W vec Rmult v a b) (tab (n - n / 2) (fun k => atR b2 k * atR w2 k)%R)) as (o2 & E2 & L2 & N2); [lia|lia|rewrite lenZ_tab; lia| |].
  { intros u Lu Nu. rewrite Eb2. cbn [bind]. rewrite Ew2. cbn [bind]. rewrite (sig_sig_into_ok W vec Rmult HW) by (asL; lia). asL. f_equal. apply map2_as; [lia|lia|]. reflexivity. }
  rewrite E2. f_equal. transitivity (tab n (atR o2)); [replace n with (lenZ o2) by lia; exact (tab_at0 (K := Rring) o2)|]. apply tab_ext. intros k Hk. rewrite N2. unfold arb_tap. destruct (Z.ltb_spec k (n / 2)).
  - replace ((n / 2 <=? k) && (k <? n / 2 + (n - n / 2))) with false by lia. rewrite N1. replace ((0 <=? k) && (k <? 0 + n / 2)) with true by lia. rewrite Z.sub_0_r, (at0_tab (K := Rring)) by lia. rewrite Nb1, Nw1 by lia. unfold imp. rewrite (at0_tab (K := Rring)) by lia. rewrite wrap_low by lia. rewrite Z.add_0_l. apply Rmult_comm.
  - replace ((n / 2 <=? k) && (k <? n / 2 + (n - n / 2))) with true by lia. rewrite (at0_tab (K := Rring)) by lia. rewrite Nb2, Nw2 by lia. replace (n / 2 + (k - n / 2)) with k by lia. unfold imp. rewrite (at0_tab (K := Rring)) by lia. rewrite Z.add_0_l, Z.mod_small by lia. apply Rmult_comm.
Qed.
End Arbitrary.
Lemma arbitrary_ok W vec out response arg w : 1 <= W -> odd_length out -> window_yields (lenZ out) out arg w ->
  KernelWindowedArbitrary W vec out response arg = Ok (tab (lenZ out) (arb_tap (lenZ out) response w)).
Proof. intros HW Ho [L H]. destruct arg as [f|s]; cbn [KernelWindowedArbitrary]; [now apply arbitrary_func_ok|]. subst s. now apply arbitrary_signal_ok. Qed.
