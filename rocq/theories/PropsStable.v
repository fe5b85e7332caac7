(** C72, C73: what a stable filter does to a signal, for every realization. *)
From Coq Require Import Reals Lra Lia List ZArith Psatz Permutation.
From Verif Require Import Base BaseFacts Complex ConvProofs FunctionModel FunctionProofs IirModel IirProofs PolyModel PolyProofs SysModel SysProofs RootModel ChebyModel PropsPoly PropsIir PropsSys PropsDesign PropsCheby StableProofs.
Import ListNotations.
Local Open Scope R_scope.
Notation Rfield := Complex.Rfield.

(** ** Specification *)
(** [y] is what filtering [x] with the system [s] returns: through either direct form or through the cascade of biquads, starting from a fresh state of sufficient order *)
Definition filtered (s : zpk) (x y : list R) : Prop := exists ord : Z, (Z.of_nat (system_order s) <= ord < 2 ^ 64 - 1)%Z /\
  ((exists t st, tf_of_zpk s = Ok t /\ Filter_df1 t x (df1_new ord) = Ok (y, st)) \/
   (exists t st, tf_of_zpk s = Ok t /\ Filter_df2 t x (df2_new ord) = Ok (y, st)) \/
   (exists sortR sortP ss st, reorders sortR /\ reorders sortP /\ cascade_of_zpk sortR sortP s = Ok ss /\ Filter_cf ss x (cf_new ord) = Ok (y, st))).
(** all poles strictly inside the circle of radius [rho] *)
Definition poles_inside (s : zpk) (rho : R) : Prop := forall p, In p (all_roots (poles s)) -> Cabs p < rho.
(** product of (1 + |z|), and of (1 - |p|) *)
Fixpoint prod_plus (l : list C) : R := match l with [] => 1 | z :: l => (1 + Cabs z) * prod_plus l end.
Fixpoint prod_minus (l : list C) : R := match l with [] => 1 | p :: l => (1 - Cabs p) * prod_minus l end.
(** a bound on the gain of the filter for any signal whatsoever *)
Definition peak_gain (s : zpk) : R := Rabs (gain s) * prod_plus (all_roots (zeros s)) / prod_minus (all_roots (poles s)).
Definition bounded_by (x : list R) (M : R) : Prop := forall v, In v x -> Rabs v <= M.
Definition sample (x : list R) (n : nat) : R := nth n x 0.
(** x(n) = a cos(w n + phi) *)
Definition sinusoid (a w phi : R) (x : list R) : Prop := forall n, (n < length x)%nat -> sample x n = a * cos (w * INR n + phi).

(** ** Bridges *)
Lemma at0_sample (x : list R) n : at0 (K := Rring) x (Z.of_nat n) = sample x n.
Proof.
  unfold at0, nthZ, sample. replace (Z.of_nat n <? 0)%Z with false by lia. rewrite Nat2Z.id. change (match @nth_error R x n with Some a => a | None => 0 end = nth n x 0).
  destruct (nth_error x n) eqn:E; [symmetry; exact (nth_error_nth x n 0 E)|]. apply nth_error_None in E. symmetry. now apply nth_overflow.
Qed.
Lemma bounded_at0 x M : 0 <= M -> bounded_by x M -> forall n, Rabs (at0 (K := Rring) x n) <= M.
Proof.
  intros HM H n. destruct (Z_lt_ge_dec n 0); [rewrite at0_neg, Rabs_R0 by lia; exact HM|]. destruct (Z_lt_ge_dec n (lenZ x)); [|rewrite at0_end, Rabs_R0 by lia; exact HM].
  rewrite <- (Z2Nat.id n) by lia. rewrite at0_sample. apply H. unfold sample. apply nth_In. unfold lenZ in *. lia.
Qed.
Lemma prod_minus_room l : prod_minus l = room l 1.
Proof. induction l as [|p l IH]; [reflexivity|]. cbn [prod_minus room]. rewrite IH. unfold Rdiv. rewrite Rinv_1. ring. Qed.
Lemma prod_plus_spread l : prod_plus l = spread l.
Proof. induction l as [|p l IH]; [reflexivity|]. cbn [prod_plus spread]. now rewrite IH. Qed.
Lemma filtered_obeys s x y : well_formed s -> (0 < system_order s)%nat -> filtered s x y -> exists t, tf_of_zpk s = Ok t /\ obeys (K := Rfield) (numerator t) (denominator t) x y.
Proof.
  intros W Ho (ord & Hord & H). destruct (tf_spec s (proj1 W) (proj2 W)) as (t & Et & _). exists t. split; [exact Et|].
  assert (Q : forall sortR sortP, reorders sortR -> reorders sortP -> exists y' s1 s2 ss s3, Filter_df1 t x (df1_new ord) = Ok (y', s1) /\ Filter_df2 t x (df2_new ord) = Ok (y', s2) /\ cascade_of_zpk sortR sortP s = Ok ss /\ Filter_cf ss x (cf_new ord) = Ok (y', s3) /\
    obeys (K := Rfield) (numerator t) (denominator t) x y').
  { intros sortR sortP HR HP. destruct (C26_cascade_sections sortR sortP s HR HP W) as (ss & Es & _). destruct (C49_realizations_agree sortR sortP s t ss ord x HR HP W Et Es Ho Hord) as (y' & s1 & s2 & s3 & A & B & C & D).
    exists y', s1, s2, ss, s3. repeat split; try assumption; apply D. }
  destruct H as [(t' & st & Et' & F)|[(t' & st & Et' & F)|(sortR & sortP & ss & st & HR & HP & Es & F)]].
  - destruct (Q (fun l => l) (fun l => l) (fun l => Permutation_refl l) (fun l => Permutation_refl l)) as (y' & s1 & s2 & ss & s3 & A & _ & _ & _ & D). assert (t' = t) by congruence. subst t'. assert (y' = y) by congruence. now subst y'.
  - destruct (Q (fun l => l) (fun l => l) (fun l => Permutation_refl l) (fun l => Permutation_refl l)) as (y' & s1 & s2 & ss & s3 & _ & B & _ & _ & D). assert (t' = t) by congruence. subst t'. assert (y' = y) by congruence. now subst y'.
  - destruct (Q sortR sortP HR HP) as (y' & s1 & s2 & ss' & s3 & _ & _ & Es' & C & D). assert (ss' = ss) by congruence. subst ss'. assert (y' = y) by congruence. now subst y'.
Qed.
Lemma inside_Forall s rho : poles_inside s rho -> Forall (fun p => Cabs p < rho) (all_roots (poles s)).
Proof. intros H. apply Forall_forall. exact H. Qed.
Lemma obeys_len (num den x y : list R) : obeys (K := Rfield) num den x y -> length y = length x.
Proof. intros [L _]. unfold lenZ in L. change (car Rfield) with R in L. lia. Qed.

(** ** C72: bounded in, bounded out; transients die out *)
Theorem C72_filtered_exists s x : well_formed s -> (0 < system_order s)%nat -> (Z.of_nat (system_order s) < 2 ^ 64 - 1)%Z -> exists y, filtered s x y /\ length y = length x /\ forall y', filtered s x y' -> y' = y.
Proof.
  intros W Ho Hs. destruct (tf_spec s (proj1 W) (proj2 W)) as (t & Et & _).
  destruct (C26_cascade_sections (fun l => l) (fun l => l) s (fun l => Permutation_refl l) (fun l => Permutation_refl l) W) as (ss & Es & _).
  destruct (C49_realizations_agree _ _ s t ss (Z.of_nat (system_order s)) x (fun l => Permutation_refl l) (fun l => Permutation_refl l) W Et Es Ho ltac:(lia)) as (y & s1 & s2 & s3 & A & _ & _ & D).
  exists y. split; [exists (Z.of_nat (system_order s)); split; [lia|]; left; eauto|]. split; [exact (obeys_len _ _ _ _ D)|]. intros y' F. destruct (filtered_obeys s x y' W Ho F) as (t' & Et' & D'). assert (t' = t) by congruence. subst t'.
  destruct (tf_proper s t W Et) as [P _]. eapply (obeys_unique (K := Rfield)); [|exact D'|exact D]. exact P.
Qed.
Print Assumptions C72_filtered_exists.
Theorem C72_bounded_output s x y M : well_formed s -> stable s -> (0 < system_order s)%nat -> filtered s x y -> bounded_by x M -> bounded_by y (peak_gain s * M).
Proof.
  intros W St Ho F B v Hv. destruct (filtered_obeys s x y W Ho F) as (t & Et & D). destruct (tf_parts s t W Et) as (Ed & _). destruct (tf_absum s t W Et) as [Ab _]. pose proof (inside_Forall s 1 St) as HF. pose proof (room_pos _ 1 HF) as Hr.
  destruct (In_nth y v 0 Hv) as (n & Hn & <-). pose proof (obeys_len _ _ _ _ D) as L. assert (HM : 0 <= M). { destruct x as [|a x]; [cbn in L; lia|]. apply Rle_trans with (Rabs a); [apply Rabs_pos|apply B; now left]. }
  fold (sample y n). rewrite <- at0_sample. eapply Rle_trans; [apply (core_bounded _ _ _ _ _ M Ed HF D HM (bounded_at0 x M HM B))|].
  unfold peak_gain. rewrite prod_minus_room, prod_plus_spread. unfold Rdiv. rewrite (Rmult_assoc (Rabs _ * _)), (Rmult_comm (/ _) M), <- Rmult_assoc. apply Rmult_le_compat_r; [left; now apply Rinv_0_lt_compat|]. now apply Rmult_le_compat_r.
Qed.
Print Assumptions C72_bounded_output.
(** after the input has stopped the output decays at least as fast as any geometric sequence slower than the slowest pole *)
Theorem C72_transients_decay s rho : well_formed s -> (0 < system_order s)%nat -> 0 < rho <= 1 -> poles_inside s rho -> exists B, 0 <= B /\
  forall x y M N, filtered s x y -> bounded_by x M -> (forall n, (N <= n)%nat -> sample x n = 0) -> forall n, (N <= n < length x)%nat -> Rabs (sample y n) <= B * M * rho ^ (n - N).
Proof.
  intros W Ho Hr Hp. destruct (tf_spec s (proj1 W) (proj2 W)) as (t & Et & _). destruct (tf_parts s t W Et) as (Ed & _ & Ln & _). pose proof (inside_Forall s rho Hp) as HF. pose proof (room_pos _ _ HF) as Hm. pose proof (absum_pos (numerator t)) as Ha.
  pose proof (lenZ_nonneg (all_roots (zeros s))) as Lz. assert (Hi : 0 < / rho) by (apply Rinv_0_lt_compat; lra).
  exists (absum (numerator t) * (/ rho) ^ Z.to_nat (lenZ (numerator t : list R) - 1) / room (all_roots (poles s)) rho).
  split; [unfold Rdiv; apply Rmult_le_pos; [apply Rmult_le_pos; [exact Ha|apply pow_le; lra]|left; now apply Rinv_0_lt_compat]|].
  intros x y M N F B Hq n Hn. destruct (filtered_obeys s x y W Ho F) as (t' & Et' & D). assert (t' = t) by congruence. subst t'.
  assert (HM : 0 <= M). { destruct x as [|a x]; [cbn in Hn; lia|]. apply Rle_trans with (Rabs a); [apply Rabs_pos|apply B; now left]. }
  rewrite <- at0_sample. eapply Rle_trans.
  - apply (core_decay _ _ _ _ _ M rho (Z.of_nat N) Ed HF Hr D HM (bounded_at0 x M HM B)); [lia| |lia|unfold lenZ; lia].
    intros m Hm'. rewrite <- (Z2Nat.id m) by lia. rewrite at0_sample. apply Hq. lia.
  - apply Req_le. rewrite Nat2Z.id. replace (Z.to_nat (Z.of_nat N + lenZ (numerator t : list R) - 1)) with (N + Z.to_nat (lenZ (numerator t : list R) - 1))%nat by lia.
    replace n with (N + (n - N))%nat at 1 by lia. rewrite !pow_add, !pow_inv. field. repeat split; try (apply pow_nonzero; lra); lra.
Qed.
Print Assumptions C72_transients_decay.
Lemma radius l : (forall p, In p l -> Cabs p < 1) -> exists rho, 0 < rho < 1 /\ forall p, In p l -> Cabs p < rho.
Proof.
  induction l as [|p l IH]; intros H; [exists (1 / 2); split; [lra|easy]|]. destruct IH as (rho & Hr & Hl); [intros q Hq; apply H; now right|]. pose proof (H p (or_introl eq_refl)) as Hp. pose proof (Cabs_pos p).
  exists (Rmax rho ((1 + Cabs p) / 2)). split; [split; [eapply Rlt_le_trans; [|apply Rmax_l]; lra|apply Rmax_lub_lt; lra]|]. intros q [<-|Hq]; [eapply Rlt_le_trans; [|apply Rmax_r]; lra|eapply Rlt_le_trans; [now apply Hl|apply Rmax_l]].
Qed.
Corollary C72_dies_out s eps : well_formed s -> stable s -> (0 < system_order s)%nat -> 0 < eps -> exists K,
  forall x y M N, filtered s x y -> bounded_by x M -> (forall n, (N <= n)%nat -> sample x n = 0) -> forall n, (N + K <= n < length x)%nat -> Rabs (sample y n) <= eps * M.
Proof.
  intros W St Ho He. destruct (radius _ St) as (rho & Hr & Hp). destruct (C72_transients_decay s rho W Ho ltac:(lra) Hp) as (B & HB & D).
  destruct (pow_lt_1_zero rho ltac:(rewrite Rabs_right; lra) (eps / (B + 1)) ltac:(apply Rdiv_lt_0_compat; lra)) as (K & HK). exists K. intros x y M N F Bd Hq n Hn.
  eapply Rle_trans; [apply (D x y M N F Bd Hq); lia|]. assert (HM : 0 <= M). { destruct x as [|a x]; [cbn in Hn; lia|]. apply Rle_trans with (Rabs a); [apply Rabs_pos|apply Bd; now left]. }
  specialize (HK (n - N)%nat ltac:(lia)). assert (P : 0 <= rho ^ (n - N)) by (apply pow_le; lra). rewrite Rabs_right in HK by lra.
  assert (E : B * rho ^ (n - N) <= eps). { apply Rle_trans with (B * (eps / (B + 1))); [apply Rmult_le_compat_l; lra|]. apply Rle_trans with ((B + 1) * (eps / (B + 1))); [apply Rmult_le_compat_r; [left; apply Rdiv_lt_0_compat; lra|lra]|]. apply Req_le. field. lra. }
  replace (B * M * rho ^ (n - N)) with (B * rho ^ (n - N) * M) by ring. now apply Rmult_le_compat_r.
Qed.
Print Assumptions C72_dies_out.
(** conversely, a pole on or outside the unit circle that no zero cancels keeps the response to a single unit sample from dying out *)
Theorem C72_stability_needed s p : well_formed s -> gain s <> 0 -> In p (all_roots (poles s)) -> 1 <= Cabs p -> ~ In p (all_roots (zeros s)) -> exists c K, 0 < c /\
  forall x y N, filtered s x y -> sample x 0 = 1 -> (forall n, (0 < n)%nat -> sample x n = 0) -> (N + K < length x)%nat -> exists n, (N <= n < length x)%nat /\ c <= Rabs (sample y n).
Proof.
  intros W Hg Hin Hp Hnz. destruct (in_split _ _ Hin) as (l1 & l2 & El). assert (Ho : (0 < system_order s)%nat) by (unfold system_order; rewrite El, app_length; cbn [length]; lia).
  destruct (tf_spec s (proj1 W) (proj2 W)) as (t & Et & _). destruct (tf_parts s t W Et) as (_ & _ & Ln & Ld & Vd & Vn). set (qs := l1 ++ l2).
  assert (PP : Permutation (all_roots (poles s)) (p :: qs)) by (rewrite El; symmetry; apply Permutation_middle).
  assert (Ed : map RtoC (denominator t) = from_roots (p :: qs)). { apply coefs_from_roots; [unfold lenZ in *; rewrite Ld, (Permutation_length PP); reflexivity|]. intros z. rewrite Vd. now apply vanishing_perm. }
  assert (Nz : pval (K := Cring) RtoC (numerator t) p <> C0).
  { rewrite Vn. intros E. apply (f_equal Cabs) in E. rewrite Cabs_mul, Cabs_RtoC, Cabs_C0 in E. apply Rmult_integral in E as [E|E]; [apply Rabs_no_R0 in E; auto|]. revert Hnz E. clear. induction (all_roots (zeros s)) as [|z l IH]; intros Hn E; cbn [vanishing_product] in E.
    - change C1 with (RtoC 1) in E. rewrite Cabs_RtoC, Rabs_R1 in E. lra.
    - rewrite Cabs_mul in E. apply Rmult_integral in E as [E|E]; [|apply IH; [intros X; apply Hn; now right|exact E]]. apply Cabs_eq0 in E. apply Hn. left. apply C_ext; [apply (f_equal re) in E|apply (f_equal im) in E]; cbn in E; lra. }
  assert (Hv : 0 < Cabs (pval (K := Cring) RtoC (numerator t) p)) by (destruct (Cabs_pos (pval (K := Cring) RtoC (numerator t) p)) as [|E]; [assumption|exfalso; apply Nz, Cabs_eq0; now symmetry]).
  assert (Sp : 0 < spread qs). { clear. induction qs as [|q qs IH]; cbn [spread]; [lra|]. pose proof (Cabs_pos q). apply Rmult_lt_0_compat; lra. }
  exists (Cabs (pval (K := Cring) RtoC (numerator t) p) / spread qs), (length (all_roots (zeros s)) + length qs)%nat. split; [now apply Rdiv_lt_0_compat|].
  intros x y N F H0 Hx Hl. destruct (filtered_obeys s x y W Ho F) as (t' & Et' & D). assert (t' = t) by congruence. subst t'.
  pose proof (lenZ_nonneg (all_roots (zeros s))) as Lz. destruct (core_unstable p qs (numerator t) (denominator t) x y Ed Hp D) with (n := (Z.of_nat (N + length qs + length (all_roots (zeros s))))%Z) as (k & Hk & E); auto.
  - lia.
  - rewrite <- H0. exact (at0_sample x 0).
  - intros m Hm. rewrite <- (Z2Nat.id m) by lia. rewrite at0_sample. apply Hx. lia.
  - rewrite Ln. unfold lenZ. lia.
  - exists (Z.to_nat k). unfold lenZ in Hk. split; [lia|]. rewrite <- at0_sample, Z2Nat.id by lia. exact E.
Qed.
Print Assumptions C72_stability_needed.

(** ** C73: sinusoids *)
(** The output settles to the sinusoid whose amplitude and phase are those of the transfer function at that frequency; when the system has fewer zeros than
    poles the library's realizations leave out the delay of the missing zeros, so that the phase gains w for each of them. *)
Theorem C73_settles s rho : well_formed s -> (0 < system_order s)%nat -> 0 < rho <= 1 -> poles_inside s rho -> exists B, 0 <= B /\
  forall a w phi x y, filtered s x y -> sinusoid a w phi x -> forall n, (n < length x)%nat ->
    Rabs (sample y n - a * Cabs (transfer_at s (cis w)) * cos (w * (INR n + INR (length (all_roots (poles s))) - INR (length (all_roots (zeros s)))) + phi + Carg (transfer_at s (cis w)))) <= B * Rabs a * rho ^ n.
Proof.
  intros W Ho Hr Hp. destruct (tf_spec s (proj1 W) (proj2 W)) as (t & Et & _). destruct (tf_parts s t W Et) as (Ed & _ & Ln & Ld & Vd & Vn). pose proof (inside_Forall s rho Hp) as HF. pose proof (room_pos _ _ HF) as Hm.
  pose proof (absum_pos (numerator t)) as Ha. pose proof (absum_pos (denominator t)) as Hb. assert (Hi : 0 < / rho) by (apply Rinv_0_lt_compat; lra).
  assert (HF1 : Forall (fun p => Cabs p < 1) (all_roots (poles s))) by (eapply Forall_impl; [|exact HF]; cbn; intros; lra). pose proof (room_pos _ _ HF1) as Hm1.
  set (g := Rabs (gain s) * spread (all_roots (zeros s)) / room (all_roots (poles s)) 1).
  assert (Sp : 0 < spread (all_roots (zeros s))). { clear. induction (all_roots (zeros s)) as [|q qs IH]; cbn [spread]; [lra|]. pose proof (Cabs_pos q). apply Rmult_lt_0_compat; lra. }
  assert (Hg : 0 <= g) by (unfold g, Rdiv; apply Rmult_le_pos; [apply Rmult_le_pos; [apply Rabs_pos|lra]|left; now apply Rinv_0_lt_compat]).
  exists ((absum (numerator t) + absum (denominator t) * g) * (/ rho) ^ Z.to_nat (Z.max (lenZ (numerator t : list R)) (lenZ (denominator t : list R)) - 1) / room (all_roots (poles s)) rho).
  assert (Pw : 0 <= (/ rho) ^ Z.to_nat (Z.max (lenZ (numerator t : list R)) (lenZ (denominator t : list R)) - 1)) by (apply pow_le; lra).
  split; [unfold Rdiv; apply Rmult_le_pos; [apply Rmult_le_pos; [apply Rplus_le_le_0_compat; [exact Ha|now apply Rmult_le_pos]|exact Pw]|left; now apply Rinv_0_lt_compat]|].
  intros a w phi x y F Hs n Hn. destruct (filtered_obeys s x y W Ho F) as (t' & Et' & D). assert (t' = t) by congruence. subst t'.
  set (H := transfer_at s (cis w)). set (np := length (all_roots (poles s))) in *. set (nz := length (all_roots (zeros s))) in *.
  pose proof (vanishing_low _ (cis w) (Cabs_cis w) HF1) as Vl. set (vp := vanishing_product (all_roots (poles s)) (cis w)) in *. pose proof (vanishing_high (all_roots (zeros s)) (cis w) (Cabs_cis w)) as Vh. set (vz := vanishing_product (all_roots (zeros s)) (cis w)) in *.
  assert (Np : vp <> C0) by (intros X; rewrite X, Cabs_C0 in Vl; lra).
  assert (EH : Cmul H vp = Cmul (RtoC (gain s)) vz). { unfold H, transfer_at. fold vp vz. unfold Cdiv. transitivity (Cmul (Cmul (RtoC (gain s)) vz) (Cmul vp (Cinv vp))); [set (i := Cinv vp); cring|]. replace (Cmul vp (Cinv vp)) with (Cmul (Cinv vp) vp) by (set (i := Cinv vp); cring). rewrite (Finv_l C_field_theory _ Np). set (q := Cmul _ vz). cring. }
  set (G := Cmul (cis (w * (INR np - INR nz))) H).
  assert (HG : Cabs G <= g). { unfold G. rewrite Cabs_mul, Cabs_cis, Rmult_1_l. unfold g. apply (Rmult_le_reg_r (Cabs vp)); [lra|]. rewrite <- Cabs_mul, EH, Cabs_mul, Cabs_RtoC. 
    set (r := room (all_roots (poles s)) 1) in *. set (sp := spread (all_roots (zeros s))) in *. assert (X : 1 <= / r * Cabs vp) by (apply (Rmult_le_reg_l r); [exact Hm1|]; rewrite <- Rmult_assoc, Rinv_r, Rmult_1_l, Rmult_1_r by lra; exact Vl).
    apply Rle_trans with (Rabs (gain s) * sp * 1); [rewrite Rmult_1_r; apply Rmult_le_compat_l; [apply Rabs_pos|exact Vh]|]. unfold Rdiv. rewrite (Rmult_assoc (Rabs (gain s) * sp)). apply Rmult_le_compat_l; [apply Rmult_le_pos; [apply Rabs_pos|lra]|exact X]. }
  assert (In' : (lenZ (numerator t : list R) - 1 = Z.of_nat nz)%Z) by (rewrite Ln; unfold lenZ, nz; lia). assert (Id' : (lenZ (denominator t : list R) - 1 = Z.of_nat np)%Z) by (rewrite Ld; unfold lenZ, np; lia).
  assert (S : steady (numerator t) (denominator t) w G).
  { unfold steady. rewrite Vd, Vn. fold vp vz. rewrite In', Id', <- !INR_IZR_INZ. rewrite <- EH. unfold G. transitivity (Cmul (Cmul (cis (w * (INR np - INR nz))) (cis (w * INR nz))) (Cmul H vp)); [cring|]. rewrite <- cis_add. do 2 f_equal. ring. }
  set (A := Cmul (RtoC a) (cis phi)). assert (HA : Cabs A = Rabs a) by (unfold A; rewrite Cabs_mul, Cabs_RtoC, Cabs_cis; ring).
  assert (Eo : forall m : nat, osc A w (Z.of_nat m) = Cmul (RtoC a) (cis (w * INR m + phi))). { intros m. unfold osc, A. rewrite <- INR_IZR_INZ. rewrite (Rplus_comm (w * INR m)), cis_add. set (u := cis phi). set (v := cis (w * INR m)). cring. }
  pose proof (core_osc _ (numerator t) (denominator t) x y A w G rho Ed HF Hr D ltac:(lia) ltac:(lia) S) as Q. specialize (Q ltac:(intros m Hm'; rewrite <- (Z2Nat.id m) by lia; rewrite at0_sample, Eo, (Hs (Z.to_nat m)) by (unfold lenZ in *; lia); cbn; ring) (Z.of_nat n) ltac:(unfold lenZ; lia)).
  rewrite at0_sample, Eo, HA, Nat2Z.id in Q.
  assert (ER : re (Cmul G (Cmul (RtoC a) (cis (w * INR n + phi)))) = a * Cabs H * cos (w * (INR n + INR np - INR nz) + phi + Carg H)).
  { unfold G. rewrite (Carg_polar H) at 1. transitivity (re (Cmul (RtoC (a * Cabs H)) (Cmul (Cmul (cis (w * (INR np - INR nz))) (cis (Carg H))) (cis (w * INR n + phi))))).
    - f_equal. set (u := cis (w * _)). set (v := cis (Carg H)). set (z := cis _). cring.
    - rewrite <- !cis_add. cbn. rewrite Rmult_0_l, Rminus_0_r. do 2 f_equal. ring. }
  rewrite ER in Q. eapply Rle_trans; [exact Q|]. apply Rmult_le_compat_r; [apply pow_le; lra|].
  set (sa := absum (numerator t)) in *. set (sb := absum (denominator t)) in *. set (pw := (/ rho) ^ _) in *. unfold Rdiv. rewrite !Rmult_assoc, (Rmult_comm (/ room _ _) (Rabs a)). rewrite <- (Rmult_assoc pw (Rabs a)), (Rmult_comm pw (Rabs a)), !Rmult_assoc.
  apply Rmult_le_compat_r; [apply Rmult_le_pos; [apply Rabs_pos|]; apply Rmult_le_pos; [exact Pw|left; now apply Rinv_0_lt_compat]|]. apply Rplus_le_compat_l, Rmult_le_compat_l; assumption.
Qed.
Print Assumptions C73_settles.
(** with as many zeros as poles, as every designed filter has, the amplitude and the phase are exactly those of the transfer function *)
Corollary C73_amplitude_and_phase s : well_formed s -> stable s -> (0 < system_order s)%nat -> zero_count s = pole_count s -> exists rho B, 0 < rho < 1 /\ 0 <= B /\
  forall a w phi x y, filtered s x y -> sinusoid a w phi x -> forall n, (n < length x)%nat ->
    Rabs (sample y n - a * Cabs (transfer_at s (cis w)) * cos (w * INR n + phi + Carg (transfer_at s (cis w)))) <= B * Rabs a * rho ^ n.
Proof.
  intros W St Ho Hc. destruct (radius _ St) as (rho & Hr & Hp). destruct (C73_settles s rho W Ho ltac:(lra) Hp) as (B & HB & D). exists rho, B. split; [exact Hr|]. split; [exact HB|].
  intros a w phi x y F Hs n Hn. specialize (D a w phi x y F Hs n Hn). unfold zero_count, pole_count in Hc. replace (length (all_roots (zeros s))) with (length (all_roots (poles s))) in D by lia.
  match type of D with context [w * ?e] => replace e with (INR n) in D by ring end. exact D.
Qed.
Print Assumptions C73_amplitude_and_phase.
Lemma power_sqrt s w : Cabs (transfer_at s (cis w)) = sqrt (power_at s w).
Proof. unfold power_at. rewrite <- Rsqr_pow2. symmetry. apply sqrt_Rsqr, Cabs_pos. Qed.
Lemma order_of s n : (0 < n)%Z -> pole_count s = n -> (0 < system_order s)%nat.
Proof. unfold pole_count, system_order. lia. Qed.
(** a Butterworth lowpass filter attenuates a sinusoid by exactly its design curve, once the transient has died out *)
Theorem C73_butterworth_lowpass order cutoff : (0 < order < 2 ^ 64)%Z -> 0 < cutoff < 1 -> exists sys rho B, DesignButterworthLowpass order cutoff = Ok sys /\ 0 < rho < 1 /\ 0 <= B /\
  forall w, -PI < w < PI -> exists phase, forall a phi x y, filtered sys x y -> sinusoid a w phi x -> forall n, (n < length x)%nat ->
    Rabs (sample y n - a / sqrt (1 + (tan (w / 2) / tan (cutoff * PI / 2)) ^ (2 * Z.to_nat order)) * cos (w * INR n + phi + phase)) <= B * Rabs a * rho ^ n.
Proof.
  intros Ho Hc. destruct (C50_lowpass order cutoff Ho Hc) as (sys & E & W & Pc & Zc & St & V & _). destruct (C73_amplitude_and_phase sys W St (order_of sys order ltac:(lia) Pc) ltac:(congruence)) as (rho & B & Hr & HB & D).
  exists sys, rho, B. split; [exact E|]. split; [exact Hr|]. split; [exact HB|]. intros w Hw. exists (Carg (transfer_at sys (cis w))). intros a phi x y F Hs n Hn. specialize (D a w phi x y F Hs n Hn).
  rewrite power_sqrt, (V w Hw) in D. set (q := 1 + _) in *. replace (a / sqrt q) with (a * sqrt (1 / q)); [exact D|]. unfold Rdiv. rewrite Rmult_1_l. rewrite sqrt_inv. reflexivity.
Qed.
Print Assumptions C73_butterworth_lowpass.
(** a Chebyshev lowpass filter passes what it should and suppresses what it should *)
Theorem C73_chebyshev1_lowpass order cutoff ripple : (0 < order <= 32)%Z -> 0 < cutoff < 1 -> 0 < ripple < 1 -> exists sys rho B, DesignChebyshev1Lowpass order cutoff ripple = Ok sys /\ 0 < rho < 1 /\ 0 <= B /\
  forall w, 0 <= w <= PI -> exists amplitude phase, (w <= cutoff * PI -> 1 - ripple <= amplitude <= 1) /\ (cutoff * PI < w -> 0 <= amplitude < 1 - ripple) /\
    forall a phi x y, filtered sys x y -> sinusoid a w phi x -> forall n, (n < length x)%nat -> Rabs (sample y n - amplitude * a * cos (w * INR n + phi + phase)) <= B * Rabs a * rho ^ n.
Proof.
  intros Ho Hc Hr'. destruct (C51_lowpass order cutoff ripple Ho Hc Hr') as (sys & E & W & Pc & Zc & St & _ & _ & _ & _ & Vi & Vo). destruct (C73_amplitude_and_phase sys W St (order_of sys order ltac:(lia) Pc) ltac:(congruence)) as (rho & B & Hr & HB & D).
  exists sys, rho, B. split; [exact E|]. split; [exact Hr|]. split; [exact HB|]. intros w Hw. exists (sqrt (power_at sys w)), (Carg (transfer_at sys (cis w))). pose proof (sqrt_pos (power_at sys w)) as Sp. split; [|split].
  - intros Hl. specialize (Vi w ltac:(lra)). assert (S2 : sqrt (power_at sys w) * sqrt (power_at sys w) = power_at sys w) by (apply sqrt_sqrt; nra). split; nra.
  - intros Hl. specialize (Vo w ltac:(lra)). assert (S2 : sqrt (power_at sys w) * sqrt (power_at sys w) = power_at sys w) by (apply sqrt_sqrt; nra). split; nra.
  - intros a phi x y F Hs n Hn. specialize (D a w phi x y F Hs n Hn). rewrite power_sqrt in D. now rewrite (Rmult_comm (sqrt _) a).
Qed.
Print Assumptions C73_chebyshev1_lowpass.
Theorem C73_chebyshev2_lowpass order cutoff ripple : (0 < order < 2 ^ 64)%Z -> 0 < cutoff < 1 -> 0 < ripple < 1 -> exists sys rho B, DesignChebyshev2Lowpass order cutoff ripple = Ok sys /\ 0 < rho < 1 /\ 0 <= B /\
  forall w, 0 <= w <= PI -> exists amplitude phase, (w <= cutoff * PI -> ripple <= amplitude <= 1) /\ (cutoff * PI < w -> 0 <= amplitude <= ripple) /\
    forall a phi x y, filtered sys x y -> sinusoid a w phi x -> forall n, (n < length x)%nat -> Rabs (sample y n - amplitude * a * cos (w * INR n + phi + phase)) <= B * Rabs a * rho ^ n.
Proof.
  intros Ho Hc Hr'. destruct (C52_lowpass order cutoff ripple Ho Hc Hr') as (sys & E & W & Pc & Zc & St & _ & _ & _ & _ & Vi & Vo). destruct (C73_amplitude_and_phase sys W St (order_of sys order ltac:(lia) Pc) ltac:(congruence)) as (rho & B & Hr & HB & D).
  exists sys, rho, B. split; [exact E|]. split; [exact Hr|]. split; [exact HB|]. intros w Hw. exists (sqrt (power_at sys w)), (Carg (transfer_at sys (cis w))). pose proof (sqrt_pos (power_at sys w)) as Sp. split; [|split].
  - intros Hl. specialize (Vi w ltac:(lra)). assert (S2 : sqrt (power_at sys w) * sqrt (power_at sys w) = power_at sys w) by (apply sqrt_sqrt; nra). split; nra.
  - intros Hl. specialize (Vo w ltac:(lra)). assert (S2 : sqrt (power_at sys w) * sqrt (power_at sys w) = power_at sys w) by (apply sqrt_sqrt; nra). split; nra.
  - intros a phi x y F Hs n Hn. specialize (D a w phi x y F Hs n Hn). rewrite power_sqrt in D. now rewrite (Rmult_comm (sqrt _) a).
Qed.
Print Assumptions C73_chebyshev2_lowpass.
(** the pure one-sample delay 1/z is filtered as if it were the identity: the delay is lost *)
Definition one_delay : zpk := mkZpk 1 (mk_fp [] []) (mk_fp [0] []).
Lemma one_delay_roots : all_roots (zeros one_delay) = [] /\ all_roots (poles one_delay) = [RtoC 0].
Proof. unfold one_delay, all_roots. cbn [zeros poles]. rewrite !mk_fp_real, !mk_fp_pairs. split; reflexivity. Qed.
Lemma one_delay_wf : well_formed one_delay.
Proof. split; apply mk_fp_wf. Qed.
Theorem C73_missing_zeros_refuted : well_formed one_delay /\ stable one_delay /\ (forall z, z <> C0 -> transfer_at one_delay z = Cinv z) /\ forall x y, filtered one_delay x y -> y = x.
Proof.
  destruct one_delay_roots as [Ez Ep]. pose proof one_delay_wf as W. split; [exact W|]. split; [intros p Hp; rewrite Ep in Hp; destruct Hp as [<-|[]]; rewrite Cabs_RtoC, Rabs_R0; lra|]. split.
  - intros z Hz. unfold transfer_at. rewrite Ez, Ep. cbn [vanishing_product gain one_delay]. change (RtoC 1) with C1. replace (Cmul (Csub z (RtoC 0)) C1) with z by cring. unfold Cdiv. set (i := Cinv z). cring.
  - intros x y F. assert (Ho : (0 < system_order one_delay)%nat) by (unfold system_order; rewrite Ez, Ep; cbn; lia). destruct (filtered_obeys one_delay x y W Ho F) as (t & Et & D).
    destruct (tf_parts one_delay t W Et) as (Ed & (cz & En & Ezc) & _). destruct (tf_proper one_delay t W Et) as [P _]. eapply (obeys_unique (K := Rfield)); [exact P|exact D|].
    split; [reflexivity|]. intros n Hn. unfold deq. assert (EC : RtoC (linR (denominator t) (at0 (K := Rring) x) n) = RtoC (linR (numerator t) (at0 (K := Rring) x) n)); [|now injection EC].
    rewrite <- !lin_RtoC. rewrite Ed, Ep. cbn [from_roots]. rewrite (lin_convl (K := Cfield)); [|reflexivity|reflexivity]. rewrite lin_one_pole, !lin_unit. rewrite Ez in Ezc. cbn [from_roots] in Ezc. destruct cz as [|c [|? ?]]; try discriminate. injection Ezc as Ec. subst c.
    rewrite En. cbn [map gain one_delay]. rewrite Rmult_1_r. change (map RtoC [1]) with [C1]. rewrite lin_unit. cring.
Qed.
Print Assumptions C73_missing_zeros_refuted.

(** ** nontrivial instances *)
(** (z + 1) / (z - 1/2): well-formed, stable, equally many zeros and poles *)
Definition example_filter : zpk := mkZpk 1 (mk_fp [-1] []) (mk_fp [1 / 2] []).
Lemma example_roots : all_roots (zeros example_filter) = [RtoC (-1)] /\ all_roots (poles example_filter) = [RtoC (1 / 2)].
Proof. unfold example_filter, all_roots. cbn [zeros poles]. rewrite !mk_fp_real, !mk_fp_pairs. split; reflexivity. Qed.
Example C72_nontrivial : well_formed example_filter /\ stable example_filter /\ (0 < system_order example_filter)%nat /\ poles_inside example_filter (3 / 4) /\ peak_gain example_filter = 4 /\ exists y, filtered example_filter [1; -1; 1] y.
Proof.
  destruct example_roots as [Ez Ep]. assert (W : well_formed example_filter) by (split; apply mk_fp_wf). assert (Ho : (0 < system_order example_filter)%nat) by (unfold system_order; rewrite Ez, Ep; cbn; lia).
  assert (Hp : Cabs (RtoC (1 / 2)) = 1 / 2) by (rewrite Cabs_RtoC; apply Rabs_right; lra).
  split; [exact W|]. split; [intros p H; rewrite Ep in H; destruct H as [<-|[]]; rewrite Hp; lra|]. split; [exact Ho|]. split; [intros p H; rewrite Ep in H; destruct H as [<-|[]]; rewrite Hp; lra|]. split.
  - unfold peak_gain. rewrite Ez, Ep. cbn [prod_plus prod_minus gain example_filter]. rewrite Hp, Cabs_RtoC, Rabs_R1, Rabs_left by lra. field.
  - destruct (C72_filtered_exists example_filter [1; -1; 1] W Ho) as (y & F & _); [unfold system_order; rewrite Ez, Ep; cbn; lia|]. now exists y.
Qed.
Example C73_nontrivial : zero_count example_filter = pole_count example_filter /\ sinusoid 2 PI 0 [2; -2; 2] /\ transfer_at example_filter (cis 0) = RtoC 4.
Proof.
  destruct example_roots as [Ez Ep]. split; [unfold zero_count, pole_count; now rewrite Ez, Ep|]. split.
  - intros n Hn. destruct n as [|[|[|n]]]; cbn in Hn; [| | |lia]; unfold sample; cbn [nth INR]; rewrite Rplus_0_r; [rewrite Rmult_0_r, cos_0; ring|rewrite Rmult_1_r, cos_PI; ring|replace (PI * (1 + 1)) with (2 * PI) by ring; rewrite cos_2PI; ring].
  - unfold transfer_at. rewrite Ez, Ep, cis_0. cbn [vanishing_product gain example_filter]. unfold Cdiv, Cinv, Cnorm2. apply C_ext; cbn; field.
Qed.
