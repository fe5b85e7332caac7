(** Signals that satisfy a difference equation whose characteristic roots lie in a disc grow no faster than
    the radius of the disc allows. *)
From Coq Require Import Reals Lra Lia List ZArith Psatz Permutation.
From Verif Require Import Base BaseFacts Complex ConvProofs FunctionProofs IirModel IirProofs PolyModel PolyProofs SysModel SysProofs PropsPoly PropsIir PropsSys.
Import ListNotations.
Local Open Scope R_scope.
Ltac cring := apply C_ext; cbn; ring.

(** ** modulus *)
Lemma Cabs_mul a b : Cabs (Cmul a b) = Cabs a * Cabs b.
Proof. unfold Cabs. rewrite Cnorm2_mul. apply sqrt_mult; apply Cnorm2_ge0. Qed.
Lemma Cabs_C0 : Cabs C0 = 0. Proof. now apply Cabs_0. Qed.
Lemma Cabs_RtoC x : Cabs (RtoC x) = Rabs x.
Proof. unfold Cabs, Cnorm2. cbn. replace (x * x + 0 * 0) with (Rsqr x) by (unfold Rsqr; ring). apply sqrt_Rsqr_abs. Qed.
Lemma Cabs_opp a : Cabs (Copp a) = Cabs a.
Proof. unfold Cabs, Cnorm2. cbn. f_equal. ring. Qed.
Lemma Cabs_triang a b : Cabs (Cadd a b) <= Cabs a + Cabs b.
Proof.
  pose proof (Cabs_pos a). pose proof (Cabs_pos b). apply Rsqr_incr_0; [|apply Cabs_pos|lra]. unfold Rsqr. rewrite Cabs_sqr.
  replace ((Cabs a + Cabs b) * (Cabs a + Cabs b)) with (Cabs a * Cabs a + Cabs b * Cabs b + 2 * (Cabs a * Cabs b)) by ring. rewrite !Cabs_sqr.
  rewrite <- (Rabs_right (Cabs a)), <- (Rabs_right (Cabs b)) by lra.
  assert (E : re a * re b + im a * im b <= Cabs a * Cabs b).
  { replace (re a * re b + im a * im b) with (re (Cmul a (Cconj b))) by (cbn; ring). replace (Cabs b) with (Cabs (Cconj b)) by (unfold Cabs; now rewrite Cnorm2_conj).
    rewrite <- Cabs_mul. apply re_le_abs. }
  rewrite !Rabs_right by lra. unfold Cnorm2 in *. cbn. lra.
Qed.
Lemma Cabs_triang_sub a b : Cabs (Csub a b) <= Cabs a + Cabs b.
Proof. replace (Csub a b) with (Cadd a (Copp b)) by cring. rewrite <- (Cabs_opp b). apply Cabs_triang. Qed.
Lemma Cabs_sum lo hi (F : Z -> C) : Cabs (sumZ (K := Cring) lo hi F) <= sumZ (K := Rring) lo hi (fun i => Cabs (F i)).
Proof.
  unfold sumZ. induction (Z.to_nat (hi - lo)) as [|n IH]; cbn [sumf]; [apply Req_le, Cabs_C0|].
  eapply Rle_trans; [apply Cabs_triang|]. apply Rplus_le_compat_r. exact IH.
Qed.
Lemma sumR_le lo hi (F G : Z -> R) : (forall i, (lo <= i < hi)%Z -> F i <= G i) -> sumZ (K := Rring) lo hi F <= sumZ (K := Rring) lo hi G.
Proof.
  intros H. unfold sumZ. assert (A : forall n, (n <= Z.to_nat (hi - lo))%nat -> sumf (K := Rring) n (fun i => F (lo + Z.of_nat i)%Z) <= sumf (K := Rring) n (fun i => G (lo + Z.of_nat i)%Z)).
  { induction n as [|n IH]; intros Hn; cbn [sumf]; [apply Rle_refl|]. apply Rplus_le_compat; [apply IH; lia|apply H; lia]. }
  apply A. lia.
Qed.
Lemma sumR_nonneg lo hi (F : Z -> R) : (forall i, (lo <= i < hi)%Z -> 0 <= F i) -> 0 <= sumZ (K := Rring) lo hi F.
Proof.
  intros H. replace 0 with (sumZ (K := Rring) lo hi (fun _ => 0)); [now apply sumR_le|]. apply (sumZ_zero (K := Rring)). reflexivity.
Qed.

(** ** growth *)
Notation linC := (lin (K := Cfield)).
(** [f] starts at 0 and is at most [X rho^n] before [T] *)
Definition within (f : Z -> C) (X rho : R) (T : Z) : Prop := (forall n, (n < 0)%Z -> f n = C0) /\ forall n, (0 <= n < T)%Z -> Cabs (f n) <= X * rho ^ Z.to_nat n.
(** what one side of a difference equation adds *)
Definition side_gain (c : list C) (rho : R) : R := sumZ (K := Rring) 0 (lenZ c) (fun k => Cabs (at0 (K := Cring) c (lenZ c - 1 - k)) * (/ rho) ^ Z.to_nat k).
Lemma side_gain_pos c rho : 0 < rho -> 0 <= side_gain c rho.
Proof.
  intros H. apply sumR_nonneg. intros k _. apply Rmult_le_pos; [apply Cabs_pos|]. apply pow_le. left. now apply Rinv_0_lt_compat.
Qed.
Lemma lin_within c f X rho T : 0 < rho -> 0 <= X -> within f X rho T -> within (linC c f) (side_gain c rho * X) rho T.
Proof.
  intros Hr HX [Hz Hb]. split.
  - intros n Hn. apply (lin_zero (K := Cfield)). intros m Hm. apply Hz. lia.
  - intros n Hn. unfold lin. eapply Rle_trans; [apply Cabs_sum|]. unfold side_gain. rewrite Rmult_assoc.
    pose proof (sumZ_scale_r (K := Rring) 0 (lenZ c) (X * rho ^ Z.to_nat n) (fun k => Cabs (at0 (K := Cring) c (lenZ c - 1 - k)) * (/ rho) ^ Z.to_nat k)) as E.
    eapply Rle_trans; [|apply Req_le; first [exact E | symmetry; exact E]]. clear E.
    apply sumR_le. intros k Hk. change (rmul (c := Cfield)) with Cmul. change (rmul (c := Rring)) with Rmult. rewrite Cabs_mul. change (at0 (K := Cfield) c) with (at0 (K := Cring) c).
    rewrite Rmult_assoc. apply Rmult_le_compat_l; [apply Cabs_pos|]. destruct (Z_lt_ge_dec n k).
    + rewrite Hz by lia. rewrite Cabs_C0. apply Rmult_le_pos; [apply pow_le; left; now apply Rinv_0_lt_compat|]. apply Rmult_le_pos; [exact HX|]. apply pow_le. lra.
    + eapply Rle_trans; [apply Hb; lia|]. apply Req_le. replace (Z.to_nat n) with (Z.to_nat k + Z.to_nat (n - k))%nat by lia. rewrite pow_add.
      rewrite pow_inv. field. apply pow_nonzero. lra.
Qed.
Lemma lin_one_pole p g n : linC [Copp p; C1] g n = Csub (g n) (Cmul p (g (n - 1)%Z)).
Proof.
  unfold lin. change (lenZ [Copp p; C1]) with 2%Z. rewrite (sumZ_first (K := Cfield) 0 2), (sumZ_first (K := Cfield) (0 + 1) 2) by lia. rewrite sumZ_empty by lia.
  change (at0 (K := Cfield) [Copp p; C1] (2 - 1 - 0)) with C1. change (at0 (K := Cfield) [Copp p; C1] (2 - 1 - (0 + 1))) with (Copp p). rewrite Z.sub_0_r. change (0 + 1)%Z with 1%Z.
  change (radd (c := Cfield)) with Cadd. change (rmul (c := Cfield)) with Cmul. change (r0 (c := Cfield)) with C0.
  set (a := g n). set (b := g (n - 1)%Z). apply C_ext; cbn; ring.
Qed.
Lemma pole_within p g W rho T : Cabs p < rho -> 0 <= W -> (forall n, (n < 0)%Z -> g n = C0) -> within (linC [Copp p; C1] g) W rho T -> within g (W / (1 - Cabs p / rho)) rho T.
Proof.
  intros Hp HW Hz [_ Hb]. split; [exact Hz|]. pose proof (Cabs_pos p). assert (Hr : 0 < rho) by lra.
  assert (Hq : Cabs p / rho < 1) by (apply (Rmult_lt_reg_r rho); [exact Hr|]; unfold Rdiv; rewrite Rmult_assoc, Rinv_l by lra; lra).
  set (Y := W / (1 - Cabs p / rho)). assert (HY : 0 <= Y) by (unfold Y, Rdiv; apply Rmult_le_pos; [exact HW|left; apply Rinv_0_lt_compat; lra]).
  assert (EY : W + Cabs p / rho * Y = Y) by (unfold Y; field; split; [lra|]; intros X; apply (Rmult_eq_compat_r (/ rho)) in X; rewrite Rmult_0_l in X; unfold Rdiv in Hq; assert (X2 : (rho - Cabs p) * / rho = 1 - Cabs p * / rho) by (field; lra); lra).
  assert (A : forall k : nat, (Z.of_nat k < T)%Z -> Cabs (g (Z.of_nat k)) <= Y * rho ^ k).
  { induction k as [|k IH]; intros Hk.
    - specialize (Hb 0%Z ltac:(lia)). rewrite lin_one_pole, (Hz (0 - 1)%Z) in Hb by lia. cbn [Z.to_nat pow] in *. change (Z.of_nat 0) with 0%Z.
      replace (Csub (g 0%Z) (Cmul p C0)) with (g 0%Z) in Hb by cring. assert (0 <= Cabs p / rho * Y) by (apply Rmult_le_pos; [|exact HY]; unfold Rdiv; apply Rmult_le_pos; [lra|left; now apply Rinv_0_lt_compat]). lra.
    - specialize (IH ltac:(lia)). specialize (Hb (Z.of_nat (S k)) ltac:(lia)). rewrite lin_one_pole in Hb. replace (Z.of_nat (S k) - 1)%Z with (Z.of_nat k) in Hb by lia. rewrite Nat2Z.id in Hb.
      set (a := g (Z.of_nat (S k))) in *. set (b := g (Z.of_nat k)) in *. replace a with (Cadd (Csub a (Cmul p b)) (Cmul p b)) by cring.
      eapply Rle_trans; [apply Cabs_triang|]. rewrite Cabs_mul. assert (Cabs p * Cabs b <= Cabs p * (Y * rho ^ k)) by (apply Rmult_le_compat_l; [lra|exact IH]).
      apply Rle_trans with (W * rho ^ S k + Cabs p * (Y * rho ^ k)); [lra|]. rewrite <- EY at 2. apply Req_le. cbn [pow]. field. lra. }
  intros n Hn. specialize (A (Z.to_nat n) ltac:(lia)). now rewrite Z2Nat.id in A by lia.
Qed.

(** the polynomial with the roots [ps], lowest coefficient first *)
Fixpoint from_roots (ps : list C) : list C := match ps with [] => [C1] | p :: ps => convl (K := Cfield) [Copp p; C1] (from_roots ps) end.
Fixpoint room (ps : list C) (rho : R) : R := match ps with [] => 1 | p :: ps => (1 - Cabs p / rho) * room ps rho end.
Lemma from_roots_len ps : lenZ (from_roots ps) = (lenZ ps + 1)%Z.
Proof.
  induction ps as [|p ps IH]; [reflexivity|]. cbn [from_roots]. pose proof (lenZ_nonneg ps). assert (H0 : (0 < lenZ (from_roots ps))%Z) by (rewrite IH; lia).
  refine (eq_trans (lenZ_convl (K := Cfield) [Copp p; C1] (from_roots ps) _ H0) _); [reflexivity|]. change (lenZ [Copp p; C1] + lenZ (from_roots ps) - 1 = lenZ (p :: ps) + 1)%Z.
  rewrite IH. change (lenZ [Copp p; C1]) with 2%Z. rewrite (lenZ_cons (A := C) p ps). rewrite Z.add_assoc. ring.
Qed.
Lemma lin_unit f n : linC [C1] f n = f n.
Proof.
  unfold lin. change (lenZ [C1]) with 1%Z. rewrite (sumZ_first (K := Cfield) 0 1) by lia. rewrite sumZ_empty by lia. change (at0 (K := Cfield) [C1] (1 - 1 - 0)) with C1. rewrite Z.sub_0_r.
  set (a := f n). apply C_ext; cbn; ring.
Qed.
Lemma room_pos ps rho : Forall (fun p => Cabs p < rho) ps -> 0 < room ps rho.
Proof.
  induction 1 as [|p ps Hp _ IH]; cbn [room]; [lra|]. pose proof (Cabs_pos p). apply Rmult_lt_0_compat; [|exact IH].
  assert (Cabs p / rho < 1); [|lra]. apply (Rmult_lt_reg_r rho); [lra|]. unfold Rdiv. rewrite Rmult_assoc, Rinv_l by lra. lra.
Qed.
Lemma roots_within ps : forall f W rho T, Forall (fun p => Cabs p < rho) ps -> 0 < rho -> 0 <= W -> (forall n, (n < 0)%Z -> f n = C0) ->
  within (linC (from_roots ps) f) W rho T -> within f (W / room ps rho) rho T.
Proof.
  induction ps as [|p ps IH]; intros f W rho T HF Hr HW Hz [Z0 Hb].
  - split; [exact Hz|]. intros n Hn. specialize (Hb n Hn). cbn [from_roots room] in *. rewrite lin_unit in Hb. unfold Rdiv. rewrite Rinv_1, Rmult_1_r. exact Hb.
  - inversion HF as [|? ? Hp HF']; subst. pose proof (room_pos _ _ HF'). pose proof (from_roots_len ps) as Ll. pose proof (lenZ_nonneg ps) as Ln.
    assert (HP : within (linC [Copp p; C1] (linC (from_roots ps) f)) W rho T).
    { split; intros n Hn; rewrite <- (lin_convl (K := Cfield) [Copp p; C1] (from_roots ps) f n); [now apply Z0|reflexivity| |now apply Hb|reflexivity|]; change (0 < lenZ (from_roots ps))%Z; lia. }
    assert (Hg : forall n, (n < 0)%Z -> linC (from_roots ps) f n = C0) by (intros n Hn; apply (lin_zero (K := Cfield)); intros m Hm; apply Hz; lia).
    pose proof (pole_within p _ W rho T Hp HW Hg HP) as B. pose proof (room_pos [p] rho ltac:(repeat constructor; exact Hp)) as R1. cbn [room] in R1. rewrite Rmult_1_r in R1.
    apply IH in B; [|exact HF'|exact Hr|unfold Rdiv; apply Rmult_le_pos; [exact HW|left; now apply Rinv_0_lt_compat]|exact Hz].
    cbn [room]. destruct B as [_ B]. split; [exact Hz|]. intros n Hn. specialize (B n Hn). replace (W / ((1 - Cabs p / rho) * room ps rho)) with (W / (1 - Cabs p / rho) / room ps rho); [exact B|]. unfold Rdiv. rewrite Rinv_mult. ring.
Qed.

(** ** real difference equations *)
Notation linR := (lin (K := Complex.Rfield)).
Lemma at0_mapC (c : list R) i : at0 (K := Cring) (map RtoC c) i = RtoC (at0 (K := Rring) c i).
Proof.
  unfold at0, nthZ. destruct (i <? 0)%Z; [reflexivity|]. change (car Cring) with C. rewrite (nth_error_map RtoC). change (car Rring) with R. destruct (nth_error c (Z.to_nat i)); reflexivity.
Qed.
Lemma re_sum lo hi (F : Z -> C) : re (sumZ (K := Cring) lo hi F) = sumZ (K := Rring) lo hi (fun i => re (F i)).
Proof. unfold sumZ. induction (Z.to_nat (hi - lo)) as [|n IH]; cbn [sumf]; [reflexivity|]. cbn [radd Cring Rring re Cadd]. now rewrite IH. Qed.
Lemma im_sum lo hi (F : Z -> C) : im (sumZ (K := Cring) lo hi F) = sumZ (K := Rring) lo hi (fun i => im (F i)).
Proof. unfold sumZ. induction (Z.to_nat (hi - lo)) as [|n IH]; cbn [sumf]; [reflexivity|]. cbn [radd Cring Rring im Cadd]. now rewrite IH. Qed.
Lemma lin_re (c : list R) (f : Z -> C) n : re (linC (map RtoC c) f n) = linR c (fun m => re (f m)) n.
Proof.
  unfold lin. rewrite re_sum, lenZ_map. apply (sumZ_ext (K := Rring)). intros k Hk. change (at0 (K := Cfield)) with (at0 (K := Cring)). rewrite at0_mapC. cbn. ring.
Qed.
Lemma lin_RtoC (c : list R) (f : Z -> R) n : linC (map RtoC c) (fun m => RtoC (f m)) n = RtoC (linR c f n).
Proof.
  apply C_ext; [apply (lin_re c (fun m => RtoC (f m)) n)|]. unfold lin. rewrite im_sum. cbn [im RtoC]. apply (sumZ_zero (K := Rring)). intros k Hk.
  change (at0 (K := Cfield)) with (at0 (K := Cring)). rewrite at0_mapC. cbn. ring.
Qed.

Lemma within_real (ps : list C) (den : list R) (e : Z -> R) W rho T : map RtoC den = from_roots ps -> Forall (fun p => Cabs p < rho) ps -> 0 < rho -> 0 <= W ->
  (forall n, (n < 0)%Z -> e n = 0) -> (forall n, (0 <= n < T)%Z -> Rabs (linR den e n) <= W * rho ^ Z.to_nat n) ->
  forall n, (0 <= n < T)%Z -> Rabs (e n) <= W / room ps rho * rho ^ Z.to_nat n.
Proof.
  intros Ed HF Hr HW Hz Hb n Hn. rewrite <- (Cabs_RtoC (e n)).
  refine (proj2 (roots_within ps (fun m => RtoC (e m)) W rho T HF Hr HW _ _) n Hn); [intros m Hm; now rewrite Hz|]. rewrite <- Ed. split.
  - intros m Hm. rewrite lin_RtoC. replace (linR den e m) with 0; [reflexivity|]. symmetry. apply (lin_zero (K := Complex.Rfield)). intros i Hi. apply Hz. lia.
  - intros m Hm. rewrite lin_RtoC, Cabs_RtoC. now apply Hb.
Qed.

(** ** the denominator and the poles *)
Lemma kval_from_roots ps z : kval (K := Cfield) (from_roots ps) z = vanishing_product ps z.
Proof.
  induction ps as [|p ps IH].
  - change (from_roots []) with [C1]. rewrite (kval_cons (K := Cfield)). change (kval (K := Cfield) [] z) with C0. cbn [vanishing_product]. cring.
  - cbn [from_roots vanishing_product]. rewrite (kval_convl (K := Cfield)); [|reflexivity|]. 2:{ pose proof (from_roots_len ps). pose proof (lenZ_nonneg ps). change (0 < lenZ (from_roots ps))%Z. lia. }
    rewrite IH. rewrite !(kval_cons (K := Cfield)). change (kval (K := Cfield) [] z) with C0. set (v := vanishing_product ps z). cring.
Qed.
Lemma kval_parts (c : list C) (x : R) : kval (K := Cfield) c (RtoC x) = mkC (kvalR (map re c) x) (kvalR (map im c) x).
Proof.
  induction c as [|a c IH]; [reflexivity|]. cbn [map]. rewrite !kvalR_cons, (kval_cons (K := Cfield)), IH. cring.
Qed.
Lemma coefs_from_roots (cs : list R) (ps : list C) : lenZ cs = (lenZ ps + 1)%Z -> (forall x : R, pval (K := Cring) RtoC cs (RtoC x) = vanishing_product ps (RtoC x)) -> map RtoC cs = from_roots ps.
Proof.
  intros L H. assert (P : forall x, pval (K := Cring) RtoC cs (RtoC x) = RtoC (kvalR cs x)).
  { clear. intros x. rewrite <- (poly_eval_pval (K := Cring) RtoC). induction cs as [|c cs IH]; [reflexivity|]. rewrite (poly_eval_cons (K := Cring) RtoC), IH, kvalR_cons. cring. }
  assert (Q : forall x, mkC (kvalR cs x) 0 = mkC (kvalR (map re (from_roots ps)) x) (kvalR (map im (from_roots ps)) x)) by (intros x; rewrite <- kval_parts, kval_from_roots, <- H, P; reflexivity).
  pose proof (from_roots_len ps) as Lf.
  assert (Er : cs = map re (from_roots ps)). { apply same_values_same_coefs; [change (car Complex.Rfield) with R; rewrite lenZ_map; lia|]. intros x _. specialize (Q x). injection Q as Q _. exact Q. }
  assert (Ei : repeat 0 (Z.to_nat (lenZ ps + 1)) = map im (from_roots ps)).
  { apply same_values_same_coefs; [change (car Complex.Rfield) with R; rewrite lenZ_map, lenZ_repeat; pose proof (lenZ_nonneg ps); lia|]. intros x _. specialize (Q x). injection Q as _ Q. rewrite <- Q. clear.
    induction (Z.to_nat (lenZ ps + 1)) as [|k IH]; [reflexivity|]. cbn [repeat]. rewrite kvalR_cons. apply (f_equal (fun t => 0 + x * t)%R) in IH. refine (eq_trans IH _). ring. }
  clear P Q H L. rewrite Er. clear Er cs. revert Ei. replace (Z.to_nat (lenZ ps + 1)) with (length (from_roots ps)) by (unfold lenZ in *; lia). clear. induction (from_roots ps) as [|a l IH]; [reflexivity|].
  cbn [map length repeat]. intros E. injection E as E1 E2. rewrite IH by exact E2. f_equal. apply C_ext; cbn; congruence.
Qed.

(** ** size of one side *)
Definition absum (c : list R) : R := fold_right (fun a acc => Rabs a + acc) 0 c.
Lemma absum_pos c : 0 <= absum c.
Proof. induction c as [|a c IH]; cbn [absum fold_right]; [lra|]. pose proof (Rabs_pos a). unfold absum in IH. lra. Qed.
Lemma absum_sum c : sumZ (K := Rring) 0 (lenZ c) (fun k => Rabs (at0 (K := Rring) c (lenZ c - 1 - k))) = absum c.
Proof.
  rewrite (sumZ_reflect (K := Rring) 0 (lenZ c) (lenZ c - 1)). replace (lenZ c - 1 - lenZ c + 1)%Z with 0%Z by lia. replace (lenZ c - 1 - 0 + 1)%Z with (lenZ c) by lia. transitivity (sumZ (K := Rring) 0 (lenZ c) (fun k => Rabs (at0 (K := Rring) c k))).
  { apply (sumZ_ext (K := Rring)). intros k Hk. do 2 f_equal. lia. }
  induction c as [|a c IH]; [reflexivity|]. cbn [absum fold_right]. rewrite lenZ_cons. pose proof (lenZ_nonneg c). rewrite (sumZ_first (K := Rring) 0 (lenZ c + 1)) by lia. apply (f_equal2 Rplus); [reflexivity|].
  refine (eq_trans _ IH). rewrite (sumZ_shift' (K := Rring) (0 + 1) (lenZ c + 1) 1). replace (0 + 1 - 1)%Z with 0%Z by lia. replace (lenZ c + 1 - 1)%Z with (lenZ c) by lia. apply (sumZ_ext (K := Rring)). intros k Hk. f_equal. 
  unfold at0, nthZ. replace (k + 1 <? 0)%Z with false by lia. replace (k <? 0)%Z with false by lia. replace (Z.to_nat (k + 1)) with (S (Z.to_nat k)) by lia. reflexivity.
Qed.
Lemma lin_bound (c : list R) (f : Z -> R) n M : 0 <= M -> (forall m, (m <= n)%Z -> Rabs (f m) <= M) -> Rabs (linR c f n) <= absum c * M.
Proof.
  intros HM H. rewrite <- absum_sum. rewrite <- Cabs_RtoC, <- lin_RtoC. unfold lin. eapply Rle_trans; [apply Cabs_sum|]. rewrite lenZ_map.
  pose proof (sumZ_scale_r (K := Rring) 0 (lenZ c) M (fun k => Rabs (at0 (K := Rring) c (lenZ c - 1 - k)))) as E. eapply Rle_trans; [|apply Req_le; exact E]. clear E.
  apply sumR_le. intros k Hk. change (rmul (c := Cfield)) with Cmul. change (rmul (c := Rring)) with Rmult. rewrite Cabs_mul. change (at0 (K := Cfield)) with (at0 (K := Cring)). rewrite at0_mapC, !Cabs_RtoC.
  apply Rmult_le_compat_l; [apply Rabs_pos|apply H; lia].
Qed.
Lemma lin_quiet (c : list R) (f : Z -> R) n : (forall m, (n - lenZ c < m <= n)%Z -> f m = 0) -> linR c f n = 0.
Proof. intros H. unfold lin. apply (sumZ_zero (K := Rring)). intros k Hk. change (car Complex.Rfield) with R in Hk. rewrite H by lia. cbn. ring. Qed.

(** ** bounded input, bounded output; decay *)
Notation obeysR := (obeys (K := Complex.Rfield)).
Lemma at0_neg (x : list R) n : (n < 0)%Z -> at0 (K := Rring) x n = 0.
Proof. intros H. unfold at0, nthZ. now replace (n <? 0)%Z with true by lia. Qed.
Lemma at0_end (x : list R) n : (lenZ x <= n)%Z -> at0 (K := Rring) x n = 0.
Proof. intros H. unfold at0, nthZ. destruct (n <? 0)%Z; [reflexivity|]. assert (E : nth_error x (Z.to_nat n) = None) by (apply nth_error_None; unfold lenZ in H; lia). change (car Rring) with R. now rewrite E. Qed.
Lemma core_bounded ps (num den x y : list R) M : map RtoC den = from_roots ps -> Forall (fun p => Cabs p < 1) ps -> obeysR num den x y -> 0 <= M -> (forall n, Rabs (at0 (K := Rring) x n) <= M) ->
  forall n, Rabs (at0 (K := Rring) y n) <= absum num * M / room ps 1.
Proof.
  intros Ed HF [L H] HM Hx n. pose proof (room_pos ps 1 HF) as Hr. pose proof (absum_pos num) as Ha. assert (HW : 0 <= absum num * M) by now apply Rmult_le_pos.
  destruct (Z_lt_ge_dec n 0); [|destruct (Z_lt_ge_dec n (lenZ x))].
  - rewrite at0_neg by lia. rewrite Rabs_R0. unfold Rdiv. apply Rmult_le_pos; [exact HW|left; now apply Rinv_0_lt_compat].
  - pose proof (within_real ps den (at0 (K := Rring) y) (absum num * M) 1 (lenZ x) Ed HF ltac:(lra) HW) as B. eapply Rle_trans; [apply B; [intros m Hm; now apply at0_neg| |lia]|apply Req_le; rewrite pow1; ring].
    intros m Hm. rewrite pow1, Rmult_1_r. replace (linR den (at0 (K := Rring) y) m) with (linR num (at0 (K := Rring) x) m) by (symmetry; exact (H m Hm)). apply lin_bound; [exact HM|]. intros i _. apply Hx.
  - change (car Complex.Rfield) with R in L. rewrite at0_end by lia. rewrite Rabs_R0. unfold Rdiv. apply Rmult_le_pos; [exact HW|left; now apply Rinv_0_lt_compat].
Qed.
(** a driving term that stops after [N] samples *)
Lemma core_driven ps (den : list R) (e : Z -> R) W rho N T : map RtoC den = from_roots ps -> Forall (fun p => Cabs p < rho) ps -> 0 < rho <= 1 -> 0 <= W -> (0 <= N)%Z ->
  (forall n, (n < 0)%Z -> e n = 0) -> (forall n, (0 <= n < T)%Z -> Rabs (linR den e n) <= W) -> (forall n, (N <= n < T)%Z -> linR den e n = 0) ->
  forall n, (0 <= n < T)%Z -> Rabs (e n) <= W * (/ rho) ^ Z.to_nat N / room ps rho * rho ^ Z.to_nat n.
Proof.
  intros Ed HF Hr HW HN Hz Hb Hq. assert (Hi : 1 <= / rho) by (rewrite <- Rinv_1; apply Rinv_le_contravar; lra). assert (P : 0 < (/ rho) ^ Z.to_nat N) by (apply pow_lt; lra).
  apply within_real with den; auto; [lra|apply Rmult_le_pos; lra|]. intros n Hn. destruct (Z_lt_ge_dec n N).
  - eapply Rle_trans; [apply Hb; lia|]. rewrite <- (Rmult_1_r W) at 1. rewrite Rmult_assoc. apply Rmult_le_compat_l; [exact HW|].
    replace (Z.to_nat N) with (Z.to_nat n + Z.to_nat (N - n))%nat by lia. rewrite pow_add, !pow_inv. rewrite (Rmult_comm (/ rho ^ Z.to_nat n)), Rmult_assoc, Rinv_l by (apply pow_nonzero; lra). rewrite Rmult_1_r, <- pow_inv. now apply pow_R1_Rle.
  - rewrite Hq by lia. rewrite Rabs_R0. apply Rmult_le_pos; [apply Rmult_le_pos; lra|]. apply pow_le. lra.
Qed.
Lemma core_decay ps (num den x y : list R) M rho N : map RtoC den = from_roots ps -> Forall (fun p => Cabs p < rho) ps -> 0 < rho <= 1 -> obeysR num den x y -> 0 <= M -> (forall n, Rabs (at0 (K := Rring) x n) <= M) ->
  (0 <= N)%Z -> (forall n, (N <= n)%Z -> at0 (K := Rring) x n = 0) -> (0 < lenZ num)%Z ->
  forall n, (0 <= n < lenZ x)%Z -> Rabs (at0 (K := Rring) y n) <= absum num * M * (/ rho) ^ Z.to_nat (N + lenZ num - 1) / room ps rho * rho ^ Z.to_nat n.
Proof.
  intros Ed HF Hr [L H] HM Hx HN Hq Hl. pose proof (absum_pos num) as Ha. apply core_driven with den; auto; [now apply Rmult_le_pos|lia|intros m Hm; now apply at0_neg| |].
  - intros m Hm. replace (linR den (at0 (K := Rring) y) m) with (linR num (at0 (K := Rring) x) m) by (symmetry; exact (H m Hm)). apply lin_bound; [exact HM|]. intros i _. apply Hx.
  - intros m Hm. assert (Hm' : (0 <= m < lenZ x)%Z) by lia. refine (eq_trans (H m Hm') _). apply lin_quiet. intros i Hi. apply Hq. change (car Complex.Rfield) with R in Hi. lia.
Qed.

(** ** sinusoids *)
Definition osc (A : C) (w : R) (m : Z) : C := Cmul A (cis (w * IZR m)).
Lemma Cabs_cis t : Cabs (cis t) = 1.
Proof. unfold Cabs. rewrite cis_norm. apply sqrt_1. Qed.
Lemma cis_pow w k : rpow (K := Cring) (cis w) k = cis (w * INR k).
Proof.
  induction k as [|k IH]; [cbn [rpow INR]; rewrite Rmult_0_r, cis_0; reflexivity|]. cbn [rpow]. rewrite IH, S_INR. change (rmul (c := Cring)) with Cmul.
  rewrite <- cis_add. f_equal. ring.
Qed.
Lemma lin_osc (c : list R) A w n : Cmul (cis (w * IZR (lenZ c - 1))) (linC (map RtoC c) (osc A w) n) = Cmul (osc A w n) (pval (K := Cring) RtoC c (cis w)).
Proof.
  unfold lin, pval. rewrite lenZ_map. rewrite (sumZ_reflect (K := Cring) 0 (lenZ c) (lenZ c - 1)). replace (lenZ c - 1 - lenZ c + 1)%Z with 0%Z by lia. replace (lenZ c - 1 - 0 + 1)%Z with (lenZ c) by lia.
  refine (eq_trans (eq_sym (sumZ_scale (K := Cring) _ _ _ _)) (eq_trans _ (sumZ_scale (K := Cring) _ _ _ _))). apply (sumZ_ext (K := Cring)). intros k Hk. change (at0 (K := Cfield)) with (at0 (K := Cring)). rewrite at0_mapC, cis_pow.
  change (rmul (c := Cring)) with Cmul. change (rmul (c := Cfield)) with Cmul. replace (lenZ c - 1 - (lenZ c - 1 - k))%Z with k by lia.
  unfold osc. set (a := RtoC (at0 (K := Rring) c k)). transitivity (Cmul (Cmul A a) (Cmul (cis (w * IZR (lenZ c - 1))) (cis (w * IZR (n - (lenZ c - 1 - k)))))); [cring|].
  transitivity (Cmul (Cmul A a) (Cmul (cis (w * IZR n)) (cis (w * INR (Z.to_nat k))))); [|cring]. f_equal. rewrite <- !cis_add. f_equal. rewrite INR_IZR_INZ, Z2Nat.id by lia. rewrite !minus_IZR. ring.
Qed.
Lemma Cmul_cancel a b c : Cabs a = 1 -> Cmul a b = Cmul a c -> b = c.
Proof.
  intros Ha E. assert (Cnorm2 a = 1) by (rewrite <- Cabs_sqr, Ha; ring). transitivity (Cmul (Cconj a) (Cmul a b)).
  - transitivity (Cmul (RtoC (Cnorm2 a)) b); [rewrite H; cring|]. unfold Cnorm2. cring.
  - rewrite E. transitivity (Cmul (RtoC (Cnorm2 a)) c); [unfold Cnorm2; cring|]. rewrite H. cring.
Qed.
Lemma re_abs_le a : Rabs (re a) <= Cabs a.
Proof. apply Rabs_le. split; [|apply re_le_abs]. pose proof (re_le_abs (Copp a)) as H. rewrite Cabs_opp in H. cbn in H. lra. Qed.
(** the steady-state gain: the leading coefficients of numerator and denominator meet the newest samples *)
Definition steady (num den : list R) (w : R) (G : C) : Prop :=
  Cmul G (Cmul (cis (w * IZR (lenZ num - 1))) (pval (K := Cring) RtoC den (cis w))) = Cmul (cis (w * IZR (lenZ den - 1))) (pval (K := Cring) RtoC num (cis w)).
Lemma steady_lin num den w G A n : steady num den w G -> linC (map RtoC den) (fun m => Cmul G (osc A w m)) n = linC (map RtoC num) (osc A w) n.
Proof.
  intros S. assert (E : linC (map RtoC den) (fun m => Cmul G (osc A w m)) n = Cmul G (linC (map RtoC den) (osc A w) n)).
  { unfold lin. refine (eq_trans _ (sumZ_scale (K := Cring) _ _ _ _)). apply (sumZ_ext (K := Cring)). intros k Hk. change (rmul (c := Cfield)) with Cmul. change (rmul (c := Cring)) with Cmul. set (u := at0 _ _). cring. }
  rewrite E. apply (Cmul_cancel (Cmul (cis (w * IZR (lenZ num - 1))) (cis (w * IZR (lenZ den - 1))))); [rewrite Cabs_mul, !Cabs_cis; ring|].
  pose proof (lin_osc num A w n) as P. pose proof (lin_osc den A w n) as Q. set (ln := linC (map RtoC num) (osc A w) n) in *. set (ld := linC (map RtoC den) (osc A w) n) in *.
  set (cn := cis (w * IZR (lenZ num - 1))) in *. set (cd := cis (w * IZR (lenZ den - 1))) in *. unfold steady in S. fold cn cd in S.
  set (vn := pval (K := Cring) RtoC num (cis w)) in *. set (vd := pval (K := Cring) RtoC den (cis w)) in *. set (o := osc A w n) in *.
  transitivity (Cmul (Cmul G cn) (Cmul cd ld)); [cring|]. rewrite Q. transitivity (Cmul o (Cmul G (Cmul cn vd))); [cring|]. rewrite S.
  transitivity (Cmul cd (Cmul o vn)); [cring|]. rewrite <- P. cring.
Qed.
Lemma core_osc ps (num den x y : list R) A w G rho : map RtoC den = from_roots ps -> Forall (fun p => Cabs p < rho) ps -> 0 < rho <= 1 -> obeysR num den x y -> (0 < lenZ num)%Z -> (0 < lenZ den)%Z -> steady num den w G ->
  (forall n, (0 <= n < lenZ x)%Z -> at0 (K := Rring) x n = re (osc A w n)) ->
  forall n, (0 <= n < lenZ x)%Z -> Rabs (at0 (K := Rring) y n - re (Cmul G (osc A w n))) <= (absum num + absum den * Cabs G) * Cabs A * (/ rho) ^ Z.to_nat (Z.max (lenZ num) (lenZ den) - 1) / room ps rho * rho ^ Z.to_nat n.
Proof.
  intros Ed HF Hr [L H] Hn Hd S Hx. pose proof (absum_pos num) as Ha. pose proof (absum_pos den) as Hb. pose proof (Cabs_pos A) as HA. pose proof (Cabs_pos G) as HG.
  set (g := fun m => if (m <? 0)%Z then 0 else re (Cmul G (osc A w m))). set (e := fun m => at0 (K := Rring) y m - g m).
  assert (HGp : 0 <= absum den * Cabs G) by now apply Rmult_le_pos.
  assert (Eo : forall m, Cabs (osc A w m) = Cabs A) by (intros m; unfold osc; rewrite Cabs_mul, Cabs_cis; ring).
  assert (Le : forall m, linR den e m = linR den (at0 (K := Rring) y) m - linR den g m).
  { intros m. unfold lin. refine (eq_trans _ (sumZ_sub (K := Rring) _ _ _ _)). apply (sumZ_ext (K := Rring)). intros k Hk. unfold e. cbn. ring. }
  assert (LG : forall m, Rabs (linR den g m) <= absum den * (Cabs G * Cabs A)).
  { intros m. apply lin_bound; [now apply Rmult_le_pos|]. intros i _. unfold g. destruct (i <? 0)%Z; [rewrite Rabs_R0; now apply Rmult_le_pos|]. eapply Rle_trans; [apply re_abs_le|]. rewrite Cabs_mul, Eo. lra. }
  assert (LX : forall m, (0 <= m < lenZ x)%Z -> Rabs (linR den (at0 (K := Rring) y) m) <= absum num * Cabs A).
  { intros m Hm. replace (linR den (at0 (K := Rring) y) m) with (linR num (at0 (K := Rring) x) m) by (symmetry; exact (H m Hm)). apply lin_bound; [exact HA|]. intros i Hi. destruct (Z_lt_ge_dec i 0); [rewrite at0_neg by lia; rewrite Rabs_R0; exact HA|].
    rewrite Hx by lia. eapply Rle_trans; [apply re_abs_le|]. rewrite Eo. lra. }
  intros n Hn0. assert (Ee : at0 (K := Rring) y n - re (Cmul G (osc A w n)) = e n) by (unfold e, g; now replace (n <? 0)%Z with false by lia). rewrite Ee. clear Ee.
  revert n Hn0. apply core_driven with den; auto; [apply Rmult_le_pos; lra|lia| | |].
  - intros n Hn0. unfold e, g. replace (n <? 0)%Z with true by lia. rewrite at0_neg by lia. ring.
  - intros n Hn0. rewrite Le. unfold Rminus. eapply Rle_trans; [apply Rabs_triang|]. rewrite Rabs_Ropp. specialize (LX n Hn0). specialize (LG n). replace ((absum num + absum den * Cabs G) * Cabs A) with (absum num * Cabs A + absum den * (Cabs G * Cabs A)) by ring. lra.
  - intros n Hn0. rewrite Le. assert (Hn1 : (0 <= n < lenZ x)%Z) by lia. replace (linR den (at0 (K := Rring) y) n) with (linR num (at0 (K := Rring) x) n) by (symmetry; exact (H n Hn1)).
    assert (E1 : linR num (at0 (K := Rring) x) n = re (linC (map RtoC num) (osc A w) n)).
    { rewrite lin_re. unfold lin. apply (sumZ_ext (K := Rring)). intros k Hk. change (car Complex.Rfield) with R in Hk. f_equal. apply Hx. lia. }
    assert (E2 : linR den g n = re (linC (map RtoC den) (fun m => Cmul G (osc A w m)) n)).
    { rewrite lin_re. unfold lin. apply (sumZ_ext (K := Rring)). intros k Hk. change (car Complex.Rfield) with R in Hk. unfold g. now replace (n - k <? 0)%Z with false by lia. }
    rewrite E1, E2, (steady_lin num den w G A n S). exact (Rminus_diag_eq _ _ eq_refl).
Qed.

(** ** bounds on coefficients from the roots *)
Definition absumC (c : list C) : R := sumZ (K := Rring) 0 (lenZ c) (fun k => Cabs (at0 (K := Cring) c k)).
Lemma absumC_map c : absumC (map RtoC c) = absum c.
Proof.
  unfold absumC. rewrite lenZ_map, <- absum_sum. rewrite (sumZ_reflect (K := Rring) 0 (lenZ c) (lenZ c - 1)). replace (lenZ c - 1 - lenZ c + 1)%Z with 0%Z by lia. replace (lenZ c - 1 - 0 + 1)%Z with (lenZ c) by lia.
  apply (sumZ_ext (K := Rring)). intros k Hk. now rewrite at0_mapC, Cabs_RtoC.
Qed.
Lemma at0_endC (x : list C) n : (lenZ x <= n)%Z -> at0 (K := Cring) x n = C0.
Proof. intros H. unfold at0, nthZ. destruct (n <? 0)%Z; [reflexivity|]. assert (E : nth_error x (Z.to_nat n) = None) by (apply nth_error_None; unfold lenZ in H; lia). change (car Cring) with C. now rewrite E. Qed.
Lemma at0_negC (x : list C) n : (n < 0)%Z -> at0 (K := Cring) x n = C0.
Proof. intros H. unfold at0, nthZ. now replace (n <? 0)%Z with true by lia. Qed.
Lemma absumC_root p (c : list C) : (0 < lenZ c)%Z -> absumC (convl (K := Cfield) [Copp p; C1] c) <= (1 + Cabs p) * absumC c.
Proof.
  intros Hc. assert (L : lenZ (convl (K := Cfield) [Copp p; C1] c) = (lenZ c + 1)%Z) by (refine (eq_trans (lenZ_convl (K := Cfield) [Copp p; C1] c _ Hc) _); [reflexivity|]; change (lenZ [Copp p; C1]) with 2%Z; change (car Cfield) with C; ring).
  unfold absumC at 1. change (car Cfield) with C in L. change (car Cring) with C. rewrite L.
  apply Rle_trans with (sumZ (K := Rring) 0 (lenZ c + 1) (fun k => Cabs p * Cabs (at0 (K := Cring) c k) + Cabs (at0 (K := Cring) c (k - 1)))).
  - apply sumR_le. intros k Hk. unfold convl. change (lenZ [Copp p; C1] =? 0)%Z with false. change (car Cfield) with C. replace (lenZ c =? 0)%Z with false by lia. cbn [orb].
    rewrite (at0_tab (K := Cring)) by (change (lenZ [Copp p; C1]) with 2%Z; lia). change (lenZ [Copp p; C1]) with 2%Z.
    unfold conv. change (lenZ [Copp p; C1]) with 2%Z. rewrite (sumZ_first (K := Cfield) 0 2), (sumZ_first (K := Cfield) (0 + 1) 2) by lia. rewrite sumZ_empty by lia. 
    change (at0 (K := Cfield) [Copp p; C1] 0) with (Copp p). change (at0 (K := Cfield) [Copp p; C1] (0 + 1)) with C1. change (0 + 1)%Z with 1%Z. rewrite Z.sub_0_r.
    change (radd (c := Cfield)) with Cadd. change (rmul (c := Cfield)) with Cmul. change (r0 (c := Cfield)) with C0. change (at0 (K := Cfield)) with (at0 (K := Cring)).
    set (u := at0 (K := Cring) c k). set (v := at0 (K := Cring) c (k - 1)). replace (Cadd (Cmul (Copp p) u) (Cadd (Cmul C1 v) C0)) with (Cadd (Cmul (Copp p) u) v) by cring.
    eapply Rle_trans; [apply Cabs_triang|]. rewrite Cabs_mul, Cabs_opp. lra.
  - apply Req_le. refine (eq_trans (sumZ_add (K := Rring) _ _ _ _) _). rewrite Rmult_plus_distr_r, Rplus_comm. apply (f_equal2 Rplus).
    + rewrite Rmult_1_l. rewrite (sumZ_first (K := Rring) 0 (lenZ c + 1)) by lia. rewrite at0_negC, Cabs_C0 by lia. rewrite (sumZ_shift' (K := Rring) (0 + 1) (lenZ c + 1) 1). replace (0 + 1 - 1)%Z with 0%Z by lia. replace (lenZ c + 1 - 1)%Z with (lenZ c) by lia.
      refine (eq_trans (Rplus_0_l _) _). apply (sumZ_ext (K := Rring)). intros k Hk. do 2 f_equal. lia.
    + refine (eq_trans (sumZ_scale (K := Rring) _ _ _ _) _). apply (f_equal2 Rmult); [reflexivity|]. rewrite (sumZ_last (K := Rring) 0 (lenZ c)) by lia. rewrite at0_endC, Cabs_C0 by lia. exact (Rplus_0_r _).
Qed.
Fixpoint spread (ps : list C) : R := match ps with [] => 1 | p :: ps => (1 + Cabs p) * spread ps end.
Lemma absumC_from_roots ps : absumC (from_roots ps) <= spread ps.
Proof.
  induction ps as [|p ps IH]; cbn [from_roots spread].
  - apply Req_le. unfold absumC. change (lenZ [C1]) with 1%Z. rewrite (sumZ_first (K := Rring) 0 1) by lia. rewrite sumZ_empty by lia. change (at0 (K := Cring) [C1] 0) with C1. refine (eq_trans (Rplus_0_r _) _). change C1 with (RtoC 1). rewrite Cabs_RtoC. apply Rabs_R1.
  - pose proof (from_roots_len ps). pose proof (lenZ_nonneg ps). eapply Rle_trans; [apply absumC_root; lia|]. apply Rmult_le_compat_l; [pose proof (Cabs_pos p); lra|exact IH].
Qed.
Lemma vanishing_low ps z : Cabs z = 1 -> Forall (fun p => Cabs p < 1) ps -> room ps 1 <= Cabs (vanishing_product ps z).
Proof.
  intros Hz. induction 1 as [|p ps Hp HF IH]; cbn [room vanishing_product]; [change C1 with (RtoC 1); rewrite Cabs_RtoC, Rabs_R1; lra|]. rewrite Cabs_mul. pose proof (room_pos ps 1 HF). pose proof (Cabs_pos p).
  apply Rmult_le_compat; [unfold Rdiv; rewrite Rinv_1; lra|lra| |exact IH]. unfold Rdiv. rewrite Rinv_1, Rmult_1_r. assert (Cabs z <= Cabs (Csub z p) + Cabs p); [|lra].
  replace (Cabs z) with (Cabs (Cadd (Csub z p) p)); [apply Cabs_triang|]. f_equal. cring.
Qed.
Lemma vanishing_high ps z : Cabs z = 1 -> Cabs (vanishing_product ps z) <= spread ps.
Proof.
  intros Hz. induction ps as [|p ps IH]; cbn [spread vanishing_product]; [change C1 with (RtoC 1); rewrite Cabs_RtoC, Rabs_R1; lra|]. rewrite Cabs_mul. apply Rmult_le_compat; try apply Cabs_pos; [|exact IH]. 
  rewrite <- Hz. apply Cabs_triang_sub.
Qed.

(** ** zero-pole-gain systems *)
Lemma tf_parts s t : well_formed s -> tf_of_zpk s = Ok t ->
  map RtoC (denominator t) = from_roots (all_roots (poles s)) /\ (exists cz, numerator t = map (fun c => c * gain s) cz /\ map RtoC cz = from_roots (all_roots (zeros s))) /\
  lenZ (numerator t : list R) = (lenZ (all_roots (zeros s)) + 1)%Z /\ lenZ (denominator t : list R) = (lenZ (all_roots (poles s)) + 1)%Z /\
  (forall z, pval (K := Cring) RtoC (denominator t) z = vanishing_product (all_roots (poles s)) z) /\
  (forall z, pval (K := Cring) RtoC (numerator t) z = Cmul (RtoC (gain s)) (vanishing_product (all_roots (zeros s)) z)).
Proof.
  intros [Wz Wp] E. destruct (expand_spec _ Wz) as (cz & Ez & (M1 & _) & Vz). destruct (expand_spec _ Wp) as (cp & Ep & (N1 & _) & Vp).
  unfold tf_of_zpk in E. rewrite Ez, Ep in E. cbn [bind] in E. injection E as <-. cbn [numerator denominator]. pose proof (roots_len _ Wz) as Lz. pose proof (roots_len _ Wp) as Lp.
  assert (Lz' : lenZ cz = (lenZ (all_roots (zeros s)) + 1)%Z) by (unfold lenZ in *; lia). assert (Lp' : lenZ cp = (lenZ (all_roots (poles s)) + 1)%Z) by (unfold lenZ in *; lia).
  specialize (Vz Cring RtoC emb_RtoC). specialize (Vp Cring RtoC emb_RtoC).
  assert (Vz' : forall z, pval (K := Cring) RtoC cz z = vanishing_product (all_roots (zeros s)) z) by (intros z; rewrite Vz; apply factored_value).
  assert (Vp' : forall z, pval (K := Cring) RtoC cp z = vanishing_product (all_roots (poles s)) z) by (intros z; rewrite Vp; apply factored_value).
  split; [apply coefs_from_roots; auto|]. split; [exists cz; split; [reflexivity|apply coefs_from_roots; auto]|]. split; [rewrite lenZ_map; exact Lz'|]. split; [exact Lp'|]. split; [exact Vp'|].
  intros z. rewrite <- Vz'. rewrite <- !(poly_eval_pval (K := Cring) RtoC). clear. induction cz as [|c cz IH]; [cbn; cring|]. cbn [map]. rewrite !(poly_eval_cons (K := Cring) RtoC), IH. set (v := poly_eval (K := Cring) RtoC cz z). cring.
Qed.
Lemma absum_scale c g : absum (map (fun a => a * g) c) = Rabs g * absum c.
Proof. induction c as [|a c IH]; cbn [map absum fold_right]; [ring|]. unfold absum in IH. rewrite IH, Rabs_mult. ring. Qed.
Lemma tf_absum s t : well_formed s -> tf_of_zpk s = Ok t -> absum (numerator t) <= Rabs (gain s) * spread (all_roots (zeros s)) /\ absum (denominator t) <= spread (all_roots (poles s)).
Proof.
  intros W E. destruct (tf_parts s t W E) as (Ed & (cz & En & Ez) & _). split.
  - rewrite En, absum_scale. apply Rmult_le_compat_l; [apply Rabs_pos|]. rewrite <- absumC_map, Ez. apply absumC_from_roots.
  - rewrite <- absumC_map, Ed. apply absumC_from_roots.
Qed.

(** ** a pole outside the disc shows up in the impulse response *)
Lemma vanishing_perm l m z : Permutation l m -> vanishing_product l z = vanishing_product m z.
Proof. intros P. rewrite !vanishing_prodK. now apply (prodK_perm (K := Cring)). Qed.
Lemma Cabs_eq0 a : Cabs a = 0 -> a = C0.
Proof. intros H. destruct (Req_EM_T (Cnorm2 a) 0) as [E|E]; [|exfalso; apply E; rewrite <- Cabs_sqr, H; ring]. unfold Cnorm2 in E. apply C_ext; cbn; nra. Qed.
Lemma Cabs_rpow p k : Cabs (rpow (K := Cring) p k) = Cabs p ^ k.
Proof. induction k as [|k IH]; cbn [rpow pow]; [change (r1 (c := Cring)) with (RtoC 1); rewrite Cabs_RtoC; apply Rabs_R1|]. change (rmul (c := Cring)) with Cmul. now rewrite Cabs_mul, IH. Qed.
Lemma lin_impulse (c x : list R) n : at0 (K := Rring) x 0 = 1 -> (forall m, (0 < m)%Z -> at0 (K := Rring) x m = 0) -> linR c (at0 (K := Rring) x) n = if (0 <=? n)%Z then at0 (K := Rring) c (lenZ c - 1 - n) else 0.
Proof.
  intros H0 H. destruct (Z.leb_spec 0 n) as [Hn|Hn]; [|apply lin_quiet; intros m Hm; apply at0_neg; lia].
  destruct (Z_lt_ge_dec n (lenZ c)) as [Hl|Hl].
  - unfold lin. change (car Complex.Rfield) with R. rewrite (sumZ_single (K := Rring) 0 (lenZ c) n); [|lia|].
    + rewrite Z.sub_diag. rewrite H0. exact (Rmult_1_r _).
    + intros i Hi Hne. destruct (Z_lt_ge_dec (n - i) 0); [rewrite (at0_neg x) by lia|rewrite H by lia]; exact (Rmult_0_r _).
  - rewrite (at0_neg c) by lia. apply lin_quiet. intros m Hm. change (car Complex.Rfield) with R in Hm. apply H. lia.
Qed.
(** running value of the numerator at [p] *)
Lemma one_pole_run p (num : list R) (u : Z -> C) T : (forall n, (n < 0)%Z -> u n = C0) -> (forall n, (0 <= n < T)%Z -> Csub (u n) (Cmul p (u (n - 1)%Z)) = RtoC (at0 (K := Rring) num (lenZ num - 1 - n))) ->
  forall k : nat, (Z.of_nat k < T)%Z -> u (Z.of_nat k) = sumZ (K := Cring) 0 (Z.of_nat k + 1) (fun i => Cmul (RtoC (at0 (K := Rring) num (lenZ num - 1 - i))) (rpow (K := Cring) p (Z.to_nat (Z.of_nat k - i)))).
Proof.
  intros Hz H. induction k as [|k IH]; intros Hk.
  - specialize (H 0%Z ltac:(lia)). rewrite (Hz (0 - 1)%Z) in H by lia. rewrite (sumZ_last (K := Cring) 0 0) by lia. rewrite sumZ_empty by lia. change (Z.of_nat 0) with 0%Z. change (Z.to_nat (0 - 0)) with 0%nat. cbn [rpow]. rewrite <- H.
    set (v := u 0%Z). cring.
  - specialize (IH ltac:(lia)). specialize (H (Z.of_nat (S k)) ltac:(lia)). replace (Z.of_nat (S k) - 1)%Z with (Z.of_nat k) in H by lia.
    rewrite (sumZ_last (K := Cring) 0 (Z.of_nat (S k))) by lia. rewrite <- H. rewrite Z.sub_diag. change (rpow (K := Cring) p (Z.to_nat 0)) with C1.
    replace (sumZ (K := Cring) 0 (Z.of_nat (S k)) (fun i => Cmul (RtoC (at0 (K := Rring) num (lenZ num - 1 - i))) (rpow (K := Cring) p (Z.to_nat (Z.of_nat (S k) - i))))) with (Cmul p (u (Z.of_nat k))).
    { set (a := u (Z.of_nat (S k))). set (b := u (Z.of_nat k)). cring. }
    rewrite IH. refine (eq_trans (eq_sym (sumZ_scale (K := Cring) _ _ _ _)) _). replace (Z.of_nat (S k)) with (Z.of_nat k + 1)%Z by lia. apply (sumZ_ext (K := Cring)). intros i Hi.
    replace (Z.to_nat (Z.of_nat k + 1 - i)) with (S (Z.to_nat (Z.of_nat k - i))) by lia. cbn [rpow]. change (rmul (c := Cring)) with Cmul. set (a := RtoC _). set (b := rpow (K := Cring) p _). cring.
Qed.
Lemma one_pole_final p (num : list R) (k : nat) : (0 < lenZ num)%Z -> (lenZ num - 1 <= Z.of_nat k)%Z ->
  sumZ (K := Cring) 0 (Z.of_nat k + 1) (fun i => Cmul (RtoC (at0 (K := Rring) num (lenZ num - 1 - i))) (rpow (K := Cring) p (Z.to_nat (Z.of_nat k - i)))) = Cmul (rpow (K := Cring) p (Z.to_nat (Z.of_nat k - (lenZ num - 1)))) (pval (K := Cring) RtoC num p).
Proof.
  intros H0 H. rewrite (sumZ_split (K := Cring) 0 (lenZ num) (Z.of_nat k + 1)) by lia.
  rewrite (sumZ_zero (K := Cring) (lenZ num)). 2:{ intros i Hi. rewrite at0_neg by lia. set (b := rpow (K := Cring) p _). cring. }
  match goal with |- radd ?a _ = _ => transitivity a end; [set (v := sumZ _ _ _); cring|].
  unfold pval. rewrite (sumZ_reflect (K := Cring) 0 (lenZ num) (lenZ num - 1)). replace (lenZ num - 1 - lenZ num + 1)%Z with 0%Z by lia. replace (lenZ num - 1 - 0 + 1)%Z with (lenZ num) by lia.
  refine (eq_trans _ (sumZ_scale (K := Cring) _ _ _ _)). apply (sumZ_ext (K := Cring)). intros i Hi. replace (lenZ num - 1 - (lenZ num - 1 - i))%Z with i by lia.
  replace (Z.to_nat (Z.of_nat k - (lenZ num - 1 - i))) with (Z.to_nat (Z.of_nat k - (lenZ num - 1)) + Z.to_nat i)%nat by lia.
  assert (RA : forall m n, rpow (K := Cring) p (m + n) = Cmul (rpow (K := Cring) p m) (rpow (K := Cring) p n)). { clear. intros m n. induction m as [|m IH]; cbn [Nat.add rpow]; [set (v := rpow _ _); cring|]. rewrite IH. change (rmul (c := Cring)) with Cmul. set (a := rpow _ _). set (b := rpow _ _). cring. }
  rewrite RA. change (rmul (c := Cring)) with Cmul. set (a := RtoC _). set (b := rpow _ _). set (c := rpow _ _). cring.
Qed.
Lemma core_unstable p qs (num den x y : list R) : map RtoC den = from_roots (p :: qs) -> 1 <= Cabs p -> obeysR num den x y -> (0 < lenZ num)%Z -> pval (K := Cring) RtoC num p <> C0 ->
  at0 (K := Rring) x 0 = 1 -> (forall m, (0 < m)%Z -> at0 (K := Rring) x m = 0) ->
  forall n, (lenZ num - 1 <= n < lenZ x)%Z -> exists k, (n - lenZ qs <= k <= n)%Z /\ Cabs (pval (K := Cring) RtoC num p) / (spread qs) <= Rabs (at0 (K := Rring) y k).
Proof.
  intros Ed Hp [L H] Hl Hnz H0 Hx n Hn. set (v := pval (K := Cring) RtoC num p) in *. assert (Hv : 0 < Cabs v) by (destruct (Cabs_pos v) as [|E]; [assumption|exfalso; apply Hnz, Cabs_eq0; now symmetry]).
  assert (Sp : 0 < spread qs). { clear. induction qs as [|q qs IH]; cbn [spread]; [lra|]. pose proof (Cabs_pos q). apply Rmult_lt_0_compat; lra. }
  pose proof (from_roots_len qs) as Lf. pose proof (lenZ_nonneg qs) as Lq.
  set (f := fun m => RtoC (at0 (K := Rring) y m)). set (u := linC (from_roots qs) f).
  assert (Hz : forall m, (m < 0)%Z -> u m = C0) by (intros m Hm; apply (lin_zero (K := Cfield)); intros i Hi; unfold f; rewrite at0_neg by lia; reflexivity).
  assert (Hu : forall m, (0 <= m < lenZ x)%Z -> Csub (u m) (Cmul p (u (m - 1)%Z)) = RtoC (at0 (K := Rring) num (lenZ num - 1 - m))).
  { intros m Hm. rewrite <- lin_one_pole. unfold u. rewrite <- (lin_convl (K := Cfield)); [|reflexivity|change (0 < lenZ (from_roots qs))%Z; lia]. change (convl [Copp p; C1] (from_roots qs)) with (from_roots (p :: qs)). rewrite <- Ed. unfold f. rewrite lin_RtoC. f_equal.
    refine (eq_trans (H m Hm) _). rewrite lin_impulse by assumption. now replace (0 <=? m)%Z with true by lia. }
  pose proof (one_pole_run p num u (lenZ x) Hz Hu (Z.to_nat n) ltac:(lia)) as U. rewrite one_pole_final in U by lia. rewrite Z2Nat.id in U by lia. fold v in U.
  assert (BU : Cabs v <= Cabs (u n)). { rewrite U, Cabs_mul, Cabs_rpow. rewrite <- (Rmult_1_l (Cabs v)) at 1. apply Rmult_le_compat_r; [lra|]. now apply pow_R1_Rle. }
  set (c := Cabs v / spread qs). assert (Hc : 0 < c) by (unfold c, Rdiv; apply Rmult_lt_0_compat; [exact Hv|now apply Rinv_0_lt_compat]).
  assert (Dec : (exists k, (n - lenZ qs <= k <= n)%Z /\ c <= Rabs (at0 (K := Rring) y k)) \/ (forall k, (n - lenZ qs <= k <= n)%Z -> Rabs (at0 (K := Rring) y k) < c)).
  { assert (X : forall j : nat, (exists k, (n - Z.of_nat j < k <= n)%Z /\ c <= Rabs (at0 (K := Rring) y k)) \/ (forall k, (n - Z.of_nat j < k <= n)%Z -> Rabs (at0 (K := Rring) y k) < c)).
    { induction j as [|j IH]; [right; intros k Hk; lia|]. destruct IH as [(k & Hk & E)|IH]; [left; exists k; split; [lia|exact E]|]. destruct (Rlt_dec (Rabs (at0 (K := Rring) y (n - Z.of_nat j)%Z)) c) as [X|X].
      - right. intros k Hk. destruct (Z.eq_dec k (n - Z.of_nat j)) as [->|]; [exact X|]. apply IH. lia.
      - left. exists (n - Z.of_nat j)%Z. split; [lia|lra]. }
    destruct (X (Z.to_nat (lenZ qs + 1))) as [(k & Hk & E)|Y]; [left; exists k; split; [lia|exact E]|right; intros k Hk; apply Y; lia]. }
  destruct Dec as [D|D]; [exact D|exfalso].
  assert (XX : exists c', c' < c /\ 0 <= c' /\ forall k, (n - lenZ qs <= k <= n)%Z -> Rabs (at0 (K := Rring) y k) <= c').
  { assert (X : forall j : nat, (Z.of_nat j <= lenZ qs + 1)%Z -> exists c', c' < c /\ 0 <= c' /\ forall k, (n - Z.of_nat j < k <= n)%Z -> Rabs (at0 (K := Rring) y k) <= c').
    { induction j as [|j IH]; intros Hj; [exists 0; split; [exact Hc|]; split; [lra|]; intros k Hk; lia|]. destruct (IH ltac:(lia)) as (c' & C1' & C2 & C3). specialize (D (n - Z.of_nat j)%Z ltac:(lia)).
      exists (Rmax c' (Rabs (at0 (K := Rring) y (n - Z.of_nat j)%Z))). split; [now apply Rmax_lub_lt|]. split; [eapply Rle_trans; [exact C2|apply Rmax_l]|]. intros k Hk. destruct (Z.eq_dec k (n - Z.of_nat j)) as [->|]; [apply Rmax_r|]. eapply Rle_trans; [apply C3; lia|apply Rmax_l]. }
    destruct (X (Z.to_nat (lenZ qs + 1)) ltac:(lia)) as (c' & A & B & D'). exists c'. split; [exact A|]. split; [exact B|]. intros k Hk. apply D'. lia. }
  destruct XX as (c' & Lt & Nn & Bd).
  assert (BU2 : Cabs (u n) <= spread qs * c').
  { unfold u, lin. eapply Rle_trans; [apply Cabs_sum|]. change (car Cfield) with C. rewrite Lf. apply Rle_trans with (absumC (from_roots qs) * c'); [|apply Rmult_le_compat_r; [exact Nn|apply absumC_from_roots]].
    unfold absumC. rewrite Lf. rewrite (sumZ_reflect (K := Rring) 0 (lenZ qs + 1) (lenZ qs + 1 - 1)). replace (lenZ qs + 1 - 1 - (lenZ qs + 1) + 1)%Z with 0%Z by lia. replace (lenZ qs + 1 - 1 - 0 + 1)%Z with (lenZ qs + 1)%Z by lia.
    rewrite (sumZ_reflect (K := Rring) 0 (lenZ qs + 1) (lenZ qs + 1 - 1) (fun k => Cabs (at0 (K := Cring) (from_roots qs) k))). replace (lenZ qs + 1 - 1 - (lenZ qs + 1) + 1)%Z with 0%Z by lia. replace (lenZ qs + 1 - 1 - 0 + 1)%Z with (lenZ qs + 1)%Z by lia.
    pose proof (sumZ_scale_r (K := Rring) 0 (lenZ qs + 1) c' (fun k => Cabs (at0 (K := Cring) (from_roots qs) (lenZ qs + 1 - 1 - k)))) as E. eapply Rle_trans; [|apply Req_le; exact E]. clear E.
    rewrite (sumZ_reflect (K := Rring) 0 (lenZ qs + 1) (lenZ qs + 1 - 1)). replace (lenZ qs + 1 - 1 - (lenZ qs + 1) + 1)%Z with 0%Z by lia. replace (lenZ qs + 1 - 1 - 0 + 1)%Z with (lenZ qs + 1)%Z by lia.
    apply sumR_le. intros k Hk. change (rmul (c := Cfield)) with Cmul. change (rmul (c := Rring)) with Rmult. change (at0 (K := Cfield)) with (at0 (K := Cring)). rewrite Cabs_mul. replace (lenZ qs + 1 - 1 - (lenZ qs + 1 - 1 - k))%Z with k by lia. apply Rmult_le_compat_l; [apply Cabs_pos|].
    unfold f. rewrite Cabs_RtoC. apply Bd. lia. }
  assert (c * spread qs = Cabs v) by (unfold c; field; lra). assert (c' * spread qs < c * spread qs) by (apply Rmult_lt_compat_r; lra). lra.
Qed.
