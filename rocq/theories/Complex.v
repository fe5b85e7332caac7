(** Complex numbers over the standard library's reals (models std::complex<T> with exact
    arithmetic), and the roots of unity. Vocabulary only: nothing in /repo is modelled here
    except std::complex. *)
From Coq Require Import Reals Lra.
From Verif Require Import Base BaseFacts.
From Coq Require Import ZifyBool ZifyNat.
Open Scope R_scope.

Record C := mkC { re : R; im : R }.
Definition C0 := mkC 0 0.
Definition C1 := mkC 1 0.
Definition Ci := mkC 0 1.
Definition RtoC (x : R) := mkC x 0.
Definition Cadd a b := mkC (re a + re b) (im a + im b).
Definition Csub a b := mkC (re a - re b) (im a - im b).
Definition Copp a := mkC (- re a) (- im a).
Definition Cmul a b := mkC (re a * re b - im a * im b) (re a * im b + im a * re b).
Definition Cconj a := mkC (re a) (- im a).
(** |z|^2 and |z| *)
Definition Cnorm2 a := re a * re a + im a * im a.
Definition Cabs a := sqrt (Cnorm2 a).
Definition Cinv a := mkC (re a / Cnorm2 a) (- im a / Cnorm2 a).
Definition Cdiv a b := Cmul a (Cinv b).

Lemma C_ext a b : re a = re b -> im a = im b -> a = b.
Proof. destruct a, b; simpl; intros -> ->; reflexivity. Qed.
Ltac cring := apply C_ext; cbn; ring.
Lemma C_neq0 a : a <> C0 <-> Cnorm2 a <> 0.
Proof.
  unfold Cnorm2. split.
  - intros H E. apply H. apply C_ext; cbn; nra.
  - intros H ->. apply H. cbn. ring.
Qed.
Lemma Cnorm2_ge0 a : 0 <= Cnorm2 a.
Proof. unfold Cnorm2. nra. Qed.

Lemma C_ring_theory : ring_theory C0 C1 Cadd Cmul Csub Copp eq.
Proof. constructor; intros; cring. Qed.
Lemma C_field_theory : field_theory C0 C1 Cadd Cmul Csub Copp Cdiv Cinv eq.
Proof.
  constructor.
  - apply C_ring_theory.
  - intros H. injection H. lra.
  - reflexivity.
  - intros p Hp. apply C_neq0 in Hp. apply C_ext; cbn; unfold Cnorm2 in *; field; exact Hp.
Qed.
Canonical Structure Cring : CRing := mkCRing C C0 C1 Cadd Cmul Csub Copp C_ring_theory.
Canonical Structure Cfield : CField := mkCField Cring Cinv Cdiv C_field_theory.
Canonical Structure Rring : CRing := mkCRing R 0 1 Rplus Rmult Rminus Ropp RTheory.
Canonical Structure Rfield : CField := mkCField Rring Rinv Rdiv Rfield.
Add Field CFieldTac : C_field_theory.

Lemma Cconj_add a b : Cconj (Cadd a b) = Cadd (Cconj a) (Cconj b). Proof. cring. Qed.
Lemma Cconj_mul a b : Cconj (Cmul a b) = Cmul (Cconj a) (Cconj b). Proof. cring. Qed.
Lemma Cconj_conj a : Cconj (Cconj a) = a. Proof. cring. Qed.
Lemma Cconj_sub a b : Cconj (Csub a b) = Csub (Cconj a) (Cconj b). Proof. cring. Qed.
Lemma Cconj_R x : Cconj (RtoC x) = RtoC x. Proof. cring. Qed.
Lemma Cmul_conj a : Cmul a (Cconj a) = RtoC (Cnorm2 a). Proof. unfold Cnorm2; cring. Qed.
Lemma Cnorm2_mul a b : Cnorm2 (Cmul a b) = Cnorm2 a * Cnorm2 b.
Proof. unfold Cnorm2; cbn; ring. Qed.
Lemma Cnorm2_conj a : Cnorm2 (Cconj a) = Cnorm2 a. Proof. unfold Cnorm2; cbn; ring. Qed.
Lemma Cconj_inv a : Cconj (Cinv a) = Cinv (Cconj a).
Proof. unfold Cinv. rewrite Cnorm2_conj. apply C_ext; cbn; [reflexivity|]. unfold Rdiv. ring. Qed.
Lemma Cconj_0 : Cconj C0 = C0. Proof. cring. Qed.
Lemma Cconj_1 : Cconj C1 = C1. Proof. cring. Qed.
Lemma Cnorm2_inv a : a <> C0 -> Cnorm2 (Cinv a) = / Cnorm2 a.
Proof. intros H. apply C_neq0 in H. unfold Cinv, Cnorm2 in *. cbn. field. exact H. Qed.
Lemma Cmul_0_eq a b : Cmul a b = C0 -> a = C0 \/ b = C0.
Proof.
  intros H. assert (N : Cnorm2 a * Cnorm2 b = 0).
  { rewrite <- Cnorm2_mul, H. unfold Cnorm2; cbn; ring. }
  apply Rmult_integral in N. destruct N as [N|N]; [left|right]; apply C_ext; cbn; unfold Cnorm2 in N; nra.
Qed.
Lemma real_iff_conj a : Cconj a = a <-> im a = 0.
Proof. split; [intros H; apply (f_equal im) in H; cbn in H; lra|intros H; apply C_ext; cbn; lra]. Qed.

(** integral domain *)
Lemma field_integral (K : CField) (a b : K) : rmul a b = r0 -> a <> r0 -> b = r0.
Proof.
  intros H Ha. pose proof (fth K) as F.
  assert (E : rmul (finv a) (rmul a b) = b).
  { rewrite (Rmul_assoc (rth K)). rewrite (Finv_l F) by exact Ha. apply (Rmul_1_l (rth K)). }
  rewrite <- E, H. rewrite (Rmul_comm (rth K)).
  apply (ARmul_0_l (Rth_ARth (Eqsth K) (Eq_ext radd rmul ropp) (rth K))).
Qed.

(** e^{i t} *)
Definition cis (t : R) := mkC (cos t) (sin t).
Lemma cis_add s t : cis (s + t) = Cmul (cis s) (cis t).
Proof. apply C_ext; cbn; [rewrite cos_plus|rewrite sin_plus]; ring. Qed.
Lemma cis_0 : cis 0 = C1.
Proof. unfold cis. now rewrite cos_0, sin_0. Qed.
Lemma cis_neg t : cis (- t) = Cconj (cis t).
Proof. apply C_ext; cbn; [apply cos_neg|apply sin_neg]. Qed.
Lemma cis_norm t : Cnorm2 (cis t) = 1.
Proof. unfold Cnorm2; cbn. pose proof (sin2_cos2 t). unfold Rsqr in *. lra. Qed.
Lemma cis_2PI : cis (2 * PI) = C1.
Proof. unfold cis. now rewrite cos_2PI, sin_2PI. Qed.
Lemma cis_period_nat (k : nat) : cis (2 * PI * INR k) = C1.
Proof.
  induction k as [|k IH]; [simpl INR; rewrite Rmult_0_r; apply cis_0|].
  rewrite S_INR. replace (2 * PI * (INR k + 1)) with (2 * PI * INR k + 2 * PI) by ring.
  rewrite cis_add, IH, cis_2PI. cring.
Qed.
Lemma cis_period (k : Z) : cis (2 * PI * IZR k) = C1.
Proof.
  destruct (Z_le_gt_dec 0 k).
  - rewrite <- (Z2Nat.id k) by assumption. rewrite <- INR_IZR_INZ. apply cis_period_nat.
  - replace (2 * PI * IZR k) with (- (2 * PI * IZR (- k))) by (rewrite opp_IZR; ring).
    rewrite cis_neg. rewrite <- (Z2Nat.id (- k)) by lia. rewrite <- INR_IZR_INZ, cis_period_nat. cring.
Qed.
Lemma cis_neq_1 t : 0 < t < 2 * PI -> cis t <> C1.
Proof.
  intros [H1 H2] E. injection E as Ec Es.
  assert (Hh : cos t = 1 - 2 * sin (t / 2) * sin (t / 2)).
  { replace t with (2 * (t / 2)) at 1 by field. rewrite cos_2a_sin. ring. }
  assert (0 < sin (t / 2)) by (apply sin_gt_0; lra). nra.
Qed.

(** the n-th roots of unity used by the forward transform: w m = e^{-2 pi i m / n} *)
Definition wroot (n m : Z) : C := cis (- (2 * PI * IZR m / IZR n)).
Lemma wroot_add n a b : (0 < n)%Z -> wroot n (a + b) = Cmul (wroot n a) (wroot n b).
Proof.
  intros Hn. unfold wroot. rewrite <- cis_add. f_equal. rewrite plus_IZR. field. apply not_0_IZR. lia.
Qed.
Lemma wroot_mult n q : (0 < n)%Z -> wroot n (n * q) = C1.
Proof.
  intros Hn. unfold wroot. rewrite mult_IZR.
  replace (- (2 * PI * (IZR n * IZR q) / IZR n)) with (2 * PI * IZR (- q)).
  - apply cis_period.
  - rewrite opp_IZR. field. apply not_0_IZR. lia.
Qed.
Lemma wroot_neq n m : (0 < n)%Z -> ~ (n | m)%Z -> wroot n m <> C1.
Proof.
  intros Hn Hd E.
  assert (Hm : (0 < m mod n < n)%Z).
  { pose proof (Z.mod_pos_bound m n Hn). split; [|lia].
    destruct (Z.eq_dec (m mod n) 0) as [E0|]; [|lia]. exfalso. apply Hd. now apply Z.mod_divide; [lia|]. }
  assert (E2 : wroot n (m mod n) = C1).
  { rewrite (Z.div_mod m n) in E by lia. rewrite wroot_add, wroot_mult in E by lia.
    rewrite <- E. cring. }
  unfold wroot in E2. rewrite cis_neg in E2.
  assert (E3 : cis (2 * PI * IZR (m mod n) / IZR n) = C1).
  { rewrite <- (Cconj_conj (cis _)), E2. cring. }
  revert E3. apply cis_neq_1.
  assert (Hn' : 0 < IZR n) by (apply IZR_lt; lia).
  assert (Hm1 : 0 < IZR (m mod n)) by (apply IZR_lt; lia).
  assert (Hm2 : IZR (m mod n) < IZR n) by (apply IZR_lt; lia).
  pose proof PI_RGT_0. split.
  - apply Rdiv_lt_0_compat; [|lra]. nra.
  - apply Rmult_lt_reg_r with (IZR n); [lra|]. unfold Rdiv. rewrite Rmult_assoc, Rinv_l by lra. nra.
Qed.
Lemma wroot_neg n m : wroot n (- m) = Cconj (wroot n m).
Proof. unfold wroot. rewrite <- cis_neg. f_equal. rewrite opp_IZR. unfold Rdiv. ring. Qed.

(** sums and parts *)
Lemma re_sumZ lo hi (F : Z -> C) : re (sumZ (K := Cring) lo hi F) = sumZ (K := Rring) lo hi (fun i => re (F i)).
Proof. unfold sumZ. induction (Z.to_nat (hi - lo)) as [|n IH]; [reflexivity|]. cbn [sumf]. cbn. now rewrite <- IH. Qed.
Lemma im_sumZ lo hi (F : Z -> C) : im (sumZ (K := Cring) lo hi F) = sumZ (K := Rring) lo hi (fun i => im (F i)).
Proof. unfold sumZ. induction (Z.to_nat (hi - lo)) as [|n IH]; [reflexivity|]. cbn [sumf]. cbn. now rewrite <- IH. Qed.
Lemma conj_sumZ lo hi (F : Z -> C) : Cconj (sumZ (K := Cring) lo hi F) = sumZ (K := Cring) lo hi (fun i => Cconj (F i)).
Proof.
  unfold sumZ. induction (Z.to_nat (hi - lo)) as [|n IH]; [cring|].
  cbn [sumf]. rewrite <- IH. apply Cconj_add.
Qed.
Lemma sumZ_const_C lo hi : (lo <= hi)%Z -> sumZ (K := Cring) lo hi (fun _ => C1) = RtoC (IZR (hi - lo)).
Proof.
  intros H. unfold sumZ. rewrite <- (Z2Nat.id (hi - lo)) at 2 by lia. rewrite <- INR_IZR_INZ.
  induction (Z.to_nat (hi - lo)) as [|n IH]; [reflexivity|].
  cbn [sumf]. rewrite IH, S_INR. cring.
Qed.
