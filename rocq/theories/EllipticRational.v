(** The elliptic rational function: the transformation of degree n of sn (used by C61). *)
From Coq Require Import Reals Lra Lia List Permutation Psatz.
From Coquelicot Require Import Rcomplements Rbar Hierarchy Continuity Derive AutoDerive.
From Verif Require Import EllipticSpec EllipticAM EllipticRF EllipticInv EllipticJacobi EllipticProto EllipticDegree JacobiReal PolyRoots.
Import ListNotations.
Open Scope R_scope.

Ltac adside := repeat first [assumption | exact I | apply conj].
Lemma rprod_perm a b f : Permutation a b -> rprod a f = rprod b f.
Proof. induction 1; [reflexivity|rewrite !rprod_cons; now f_equal|rewrite !rprod_cons; ring|congruence]. Qed.
Lemma NoDup_map_in {A B} (f : A -> B) l : (forall x y, In x l -> In y l -> f x = f y -> x = y) -> NoDup l -> NoDup (map f l).
Proof.
  induction l as [|a l IH]; intros I N; [constructor|]. inversion N as [|? ? Na Nl]; subst. cbn [map]. constructor.
  - intros H. apply in_map_iff in H as (b & E & Hb). apply Na. replace a with b; [exact Hb|]. apply I; [now right|now left|exact E].
  - apply IH; [|exact Nl]. intros x y Hx Hy. apply I; now right.
Qed.
Lemma NoDup_app_in' {A} (a b : list A) : NoDup a -> NoDup b -> (forall x, In x a -> In x b -> False) -> NoDup (a ++ b).
Proof.
  induction a as [|x a IH]; intros Na Nb H; [exact Nb|]. inversion Na as [|? ? Nx Na']; subst. cbn [app]. constructor; [|apply IH; [exact Na'|exact Nb|intros y Hy; apply H; now right]]. intros X. apply in_app_or in X as [X|X]; [contradiction|]. apply (H x); [now left|exact X].
Qed.
(** products over the indices 1 .. d *)
Definition iprod (l : list nat) (f : nat -> R) : R := fold_right Rmult 1 (map f l).
Lemma iprod_cons a l f : iprod (a :: l) f = f a * iprod l f. Proof. reflexivity. Qed.
Lemma iprod_nil f : iprod [] f = 1. Proof. reflexivity. Qed.
Lemma iprod_app a b f : iprod (a ++ b) f = iprod a f * iprod b f.
Proof. induction a as [|x a IH]; [rewrite iprod_nil; cbn [app]; ring|]. cbn [app]. rewrite !iprod_cons, IH. ring. Qed.
Lemma iprod_ext l f g : (forall i, In i l -> f i = g i) -> iprod l f = iprod l g.
Proof. induction l as [|a l IH]; intros H; [reflexivity|]. rewrite !iprod_cons, H by now left. rewrite IH; [reflexivity|]. intros i Hi. apply H. now right. Qed.
Lemma iprod_mul l f g : iprod l (fun i => f i * g i) = iprod l f * iprod l g.
Proof. induction l as [|a l IH]; [rewrite !iprod_nil; ring|]. rewrite !iprod_cons, IH. ring. Qed.
Lemma iprod_perm a b f : Permutation a b -> iprod a f = iprod b f.
Proof. induction 1; [reflexivity|rewrite !iprod_cons; now f_equal|rewrite !iprod_cons; ring|congruence]. Qed.
Lemma iprod_map l (g : nat -> nat) f : iprod (map g l) f = iprod l (fun i => f (g i)).
Proof. unfold iprod. now rewrite map_map. Qed.
Lemma iprod_const l c : iprod l (fun _ => c) = c ^ length l.
Proof. induction l as [|a l IH]; [reflexivity|]. rewrite iprod_cons, IH. reflexivity. Qed.
Lemma iprod_pos l f : (forall i, In i l -> 0 < f i) -> 0 < iprod l f.
Proof. induction l as [|a l IH]; intros H; [rewrite iprod_nil; lra|]. rewrite iprod_cons. apply Rmult_lt_0_compat; [apply H; now left|apply IH; intros; apply H; now right]. Qed.
Lemma iprod_n0 l f : (forall i, In i l -> f i <> 0) -> iprod l f <> 0.
Proof. induction l as [|a l IH]; intros H; [rewrite iprod_nil; lra|]. rewrite iprod_cons. apply Rmult_integral_contrapositive_currified; [apply H; now left|apply IH; intros; apply H; now right]. Qed.
Lemma rprod_i l (g : nat -> R) f : rprod (map g l) f = iprod l (fun i => f (g i)).
Proof. unfold rprod, iprod. now rewrite map_map. Qed.
Lemma rev_seq d : Permutation (map (fun i => (S d - i)%nat) (seq 1 d)) (seq 1 d).
Proof.
  apply NoDup_Permutation.
  - apply NoDup_map_in; [|apply seq_NoDup]. intros x y Hx Hy E. apply in_seq in Hx, Hy. lia.
  - apply seq_NoDup.
  - intros x. rewrite in_map_iff, in_seq. split; [intros (y & <- & Hy); apply in_seq in Hy; lia|]. intros H. exists (S d - x)%nat. split; [lia|]. apply in_seq. lia.
Qed.

Section Rational.
Variable k : R.
Hypothesis Hk : 0 < k < 1.
Variable d : nat.
Notation n := (S d).
Notation K := (legendre_K k).
Notation js := (seq 1 d).
Lemma Hk' : 0 <= k < 1. Proof. lra. Qed.
Lemma KP : 0 < K. Proof. apply K_pos'. exact Hk'. Qed.
Lemma nP : 0 < INR n. Proof. apply lt_0_INR. lia. Qed.
Lemma nP1 : 1 <= INR n. Proof. apply (le_INR 1). lia. Qed.
(** the zeros are at even, the extrema at odd multiples of K/n *)
Definition pt (i : nat) : R := INR i * K / INR n.
Definition sg (i : nat) : R := sn k (pt (2 * i)) * sn k (pt (2 * i)).
Definition rho (i : nat) : R := sn k (pt i) * sn k (pt i).
Definition P (q : R) : R := q * iprod js (fun i => sg i - q).
Definition Q (q : R) : R := iprod js (fun i => 1 - k * k * sg i * q).
Definition Fp (x : R) : R := sn k x * iprod js (fun i => sn k (x + pt (2 * i))).
Definition T (x : R) : R := Fp x * Fp x.
Definition B : R := T (pt 1).

Lemma pt_n : pt n = K. Proof. unfold pt. pose proof nP. field. lra. Qed.
Lemma pt_0 : pt 0 = 0. Proof. unfold pt. cbn [INR]. unfold Rdiv. ring. Qed.
Lemma pt_add i j : pt (i + j) = pt i + pt j. Proof. unfold pt. rewrite plus_INR. unfold Rdiv. ring. Qed.
Lemma pt_2n : pt (2 * n) = 2 * K. Proof. replace (2 * n)%nat with (n + n)%nat by lia. rewrite pt_add, pt_n. ring. Qed.
Lemma pt_lt i j : (i < j)%nat -> pt i < pt j.
Proof. intros H. unfold pt. pose proof nP. pose proof KP. apply lt_INR in H. apply Rmult_lt_compat_r; [now apply Rinv_0_lt_compat|]. apply Rmult_lt_compat_r; assumption. Qed.
Lemma pt_rev i : (i <= n)%nat -> pt (2 * (n - i)) = 2 * K - pt (2 * i).
Proof. intros H. rewrite <- pt_2n. replace (2 * n)%nat with (2 * (n - i) + 2 * i)%nat by lia. rewrite pt_add. ring. Qed.

Lemma F_sq x : T x * Q (sn k x * sn k x) = P (sn k x * sn k x).
Proof.
  unfold T, Fp, Q, P. set (s := sn k x). assert (E : iprod js (fun i => sn k (x + pt (2 * i))) = iprod js (fun i => - sn k (x - pt (2 * i)))).
  { rewrite <- (iprod_perm _ _ _ (rev_seq d)), iprod_map. apply iprod_ext. intros i Hi. apply in_seq in Hi. rewrite pt_rev by lia. replace (x + (2 * K - pt (2 * i))) with (x - pt (2 * i) + 2 * K) by ring. rewrite (sn_add2K k Hk'). reflexivity. }
  replace (s * iprod js (fun i => sn k (x + pt (2 * i))) * (s * iprod js (fun i => sn k (x + pt (2 * i))))) with (s * s * (iprod js (fun i => sn k (x + pt (2 * i))) * iprod js (fun i => - sn k (x - pt (2 * i))))) by (rewrite <- E; ring). rewrite Rmult_assoc. rewrite <- !iprod_mul. f_equal. apply iprod_ext. intros i _. pose proof (sn_prod k Hk' x (pt (2 * i))) as H. unfold den in H. fold s in H. unfold sg. rewrite <- (Ropp_involutive (_ - s * s)). rewrite Ropp_minus_distr, <- H. ring.
Qed.
Lemma Fp_shift x : Fp (x + pt 2) = - Fp x.
Proof.
  unfold Fp. assert (E : iprod js (fun i => sn k (x + pt 2 + pt (2 * i))) = iprod (seq 2 d) (fun i => sn k (x + pt (2 * i)))).
  { rewrite <- (seq_shift d 1), iprod_map. apply iprod_ext. intros i _. f_equal. replace (2 * S i)%nat with (2 + 2 * i)%nat by lia. rewrite pt_add. ring. }
  rewrite E. assert (E2 : sn k (x + pt 2) * iprod (seq 2 d) (fun i => sn k (x + pt (2 * i))) = iprod (seq 1 (S d)) (fun i => sn k (x + pt (2 * i)))) by reflexivity. rewrite E2, seq_S, iprod_app. cbn [iprod map fold_right]. replace (1 + d)%nat with n by lia. rewrite pt_2n, (sn_add2K k Hk'). ring.
Qed.
Lemma T_shift x : T (x + pt 2) = T x. Proof. unfold T. rewrite Fp_shift. ring. Qed.
Lemma T_shift_n i x : T (x + pt (2 * i)) = T x.
Proof. induction i as [|i IH]; [change (2 * 0)%nat with O; now rewrite pt_0, Rplus_0_r|]. replace (2 * S i)%nat with (2 * i + 2)%nat by lia. rewrite pt_add, <- Rplus_assoc, T_shift. exact IH. Qed.
Lemma sg_range i : (1 <= i <= d)%nat -> 0 < sg i <= 1.
Proof.
  intros H. assert (N : sn k (pt (2 * i)) <> 0).
  { destruct (le_lt_dec (2 * i) n) as [L|L].
    - apply Rgt_not_eq. apply sn_pos; [exact Hk'|]. split; [rewrite <- pt_0; apply pt_lt; lia|]. rewrite <- pt_n. destruct (Nat.eq_dec (2 * i) n) as [->|]; [lra|left; apply pt_lt; lia].
    - replace i with (n - (n - i))%nat by lia. rewrite pt_rev by lia. replace (2 * K - pt (2 * (n - i))) with (- pt (2 * (n - i)) + 2 * K) by ring. rewrite (sn_add2K k Hk'), (sn_neg k Hk'), Ropp_involutive. apply Rgt_not_eq. apply sn_pos; [exact Hk'|]. split; [rewrite <- pt_0; apply pt_lt; lia|]. rewrite <- pt_n. left. apply pt_lt. lia. }
  unfold sg. pose proof (sc k (pt (2 * i))). assert (0 <= cn k (pt (2 * i)) * cn k (pt (2 * i))) by exact (Rle_0_sqr _). split; [|lra]. destruct (Rdichotomy _ _ N); nra.
Qed.
Lemma rho_range i : (1 <= i <= d)%nat -> 0 < rho i < 1.
Proof. intros H. unfold rho. assert (A : 0 < pt i) by (rewrite <- pt_0; apply pt_lt; lia). assert (A' : pt i < K) by (rewrite <- pt_n; apply pt_lt; lia). pose proof (sn_pos k Hk' (pt i) ltac:(lra)). pose proof (sn_lt1 k Hk' (pt i) ltac:(lra)). nra. Qed.
Lemma rho_lt i j : (i < j)%nat -> (j <= n)%nat -> rho i < rho j.
Proof. intros H L. unfold rho. pose proof KP. assert (A : 0 <= pt i) by (rewrite <- pt_0; destruct i; [lra|left; apply pt_lt; lia]). pose proof (pt_lt i j H). assert (pt j <= K) by (rewrite <- pt_n; destruct (Nat.eq_dec j n) as [->|]; [lra|left; apply pt_lt; lia]). pose proof (sn_incr k Hk' (pt i) (pt j) ltac:(lra) ltac:(lra) ltac:(lra)). assert (0 <= sn k (pt i)) by (destruct (Req_dec (pt i) 0) as [->|]; [rewrite (sn_0 k Hk'); lra|left; apply sn_pos; [exact Hk'|lra]]). nra. Qed.
Lemma rho_0 : rho 0 = 0. Proof. unfold rho. rewrite pt_0, (sn_0 k Hk'). ring. Qed.
Lemma rho_n : rho n = 1. Proof. unfold rho. rewrite pt_n, (sn_K k Hk'). ring. Qed.
Lemma Q_pos q : k * k * q < 1 -> 0 < Q q.
Proof.
  intros H. apply iprod_pos. intros i Hi. apply in_seq in Hi. destruct (sg_range i ltac:(lia)) as [S0 S1]. assert (0 < k * k) by nra. destruct (Rle_dec q 0).
  - assert (0 <= k * k * sg i) by nra. nra.
  - replace (k * k * sg i * q) with (k * k * q * sg i) by ring. assert (0 <= k * k * q) by nra. nra.
Qed.
Lemma T_eq x : T x = P (sn k x * sn k x) / Q (sn k x * sn k x).
Proof. assert (H : 0 < Q (sn k x * sn k x)). { apply Q_pos. pose proof (dn2 k Hk' x). pose proof (dn_pos k Hk' x). nra. } rewrite <- F_sq. field. lra. Qed.
Lemma T_neg x : T (- x) = T x. Proof. rewrite !T_eq, (sn_neg k Hk'). replace (- sn k x * - sn k x) with (sn k x * sn k x) by ring. reflexivity. Qed.
Lemma T_0 : T 0 = 0. Proof. unfold T, Fp. rewrite (sn_0 k Hk'). ring. Qed.
Lemma T_pt i : T (pt i) = 0 \/ T (pt i) = B.
Proof.
  destruct (Nat.Even_or_Odd i) as [[j ->]|[j ->]].
  - left. rewrite <- (Rplus_0_l (pt _)), T_shift_n. apply T_0.
  - right. rewrite Nat.add_comm, pt_add. apply T_shift_n.
Qed.
Lemma T_sym i x : T (pt i - x) = T (pt i + x).
Proof.
  replace (pt i - x) with (- (x + pt i) + (pt i + pt i)) by ring. rewrite <- pt_add. replace (i + i)%nat with (2 * i)%nat by lia. rewrite T_shift_n, T_neg. f_equal. ring.
Qed.
(** the polynomials *)
Lemma isP_P : isP (S d) P.
Proof. apply isP_x. apply (isP_ext _ (fun q => rprod (map sg js) (fun s => s + (-1) * q))); [intros q; rewrite rprod_i; apply iprod_ext; intros; ring|]. replace d with (length (map sg js)) at 1 by (now rewrite map_length, seq_length). apply (isP_rprod _ (fun s => s) (fun _ => -1)). Qed.
Lemma isP_Q : isP d Q.
Proof. apply (isP_ext _ (fun q => rprod (map sg js) (fun s => 1 + (- (k * k * s)) * q))); [intros q; rewrite rprod_i; apply iprod_ext; intros; ring|]. replace d with (length (map sg js)) at 1 by (now rewrite map_length, seq_length). apply (isP_rprod _ (fun s => 1) (fun s => - (k * k * s))). Qed.

Definition s1 : R := (-1) ^ d.
Lemma s1_2 : s1 * s1 = 1. Proof. unfold s1. rewrite <- Rpow_mult_distr. replace (-1 * -1) with 1 by ring. apply pow1. Qed.
Lemma js_len : length js = d. Proof. apply seq_length. Qed.
Lemma kk_pos : 0 < k * k. Proof. nra. Qed.
Lemma refl_Q q : q <> 0 -> Q q = s1 * ((k * k * q) ^ n * P (/ (k * k * q))).
Proof.
  intros Hq. pose proof kk_pos. unfold P, Q, s1. replace ((-1) ^ d) with ((-1) ^ length js) by (now rewrite js_len). cbn [pow]. replace (k * k * q * (k * k * q) ^ d) with (k * k * q * (k * k * q) ^ length js) by (now rewrite js_len). rewrite <- !iprod_const.
  transitivity (iprod js (fun _ => -1) * (iprod js (fun _ => k * k * q) * iprod js (fun i => sg i - / (k * k * q)))). 2:{ field. nra. }
  rewrite <- !iprod_mul. apply iprod_ext. intros i _. field. split; lra.
Qed.
Lemma refl_P q : q <> 0 -> P q = s1 * (q ^ n * Q (/ (k * k * q))).
Proof.
  intros Hq. pose proof kk_pos. unfold P, Q, s1. replace ((-1) ^ d) with ((-1) ^ length js) by (now rewrite js_len). cbn [pow]. replace (q * q ^ d) with (q * q ^ length js) by (now rewrite js_len). rewrite <- !iprod_const.
  transitivity (q * (iprod js (fun _ => -1) * (iprod js (fun _ => q) * iprod js (fun i => 1 - k * k * sg i * / (k * k * q))))). 2:{ ring. }
  f_equal. rewrite <- !iprod_mul. apply iprod_ext. intros i _. field. split; lra.
Qed.
(** the Wronskian *)
Lemma wronskian : exists p' q' : R -> R, (forall x : R, is_derive P x (p' x)) /\ (forall x : R, is_derive Q x (q' x)) /\ isP (d + d) (fun x => p' x * Q x - P x * q' x).
Proof.
  destruct (isP_derive _ P isP_P) as (p' & HP & DP). destruct d as [|e] eqn:Ed.
  - exists p', (fun _ => 0). split; [exact DP|]. split; [intros x; apply (is_derive_ext (fun _ => 1)); [intros t; unfold Q; rewrite Ed; reflexivity|apply (is_derive_const (V := R_NormedModule) 1 x)]|]. destruct HP as [c HP]. exists c. intros x. rewrite HP. unfold Q. rewrite Ed. cbn [seq iprod map fold_right]. ring.
  - rewrite <- Ed in *. assert (HQ : isP (S e) Q) by (rewrite <- Ed; exact isP_Q). destruct (isP_derive _ Q HQ) as (q' & HQ' & DQ). exists p', q'. split; [exact DP|]. split; [exact DQ|]. apply isP_sub; [apply isP_mul; [exact HP|exact isP_Q]|]. replace (d + d)%nat with (S d + e)%nat by lia. apply isP_mul; [exact isP_P|exact HQ'].
Qed.

Section Wr.
Variables p' q' : R -> R.
Hypothesis DP : forall x : R, is_derive P x (p' x).
Hypothesis DQ : forall x : R, is_derive Q x (q' x).
Definition W (x : R) : R := p' x * Q x - P x * q' x.
Hypothesis HW : isP (d + d) W.
Lemma theta_derive (q : R) : Q q <> 0 -> is_derive (fun q => P q / Q q) q (W q / (Q q * Q q)).
Proof.
  intros H. assert (X : ex_derive (fun x => P x) q) by (exists (p' q); apply DP). assert (Y : ex_derive (fun x => Q x) q) by (exists (q' q); apply DQ). auto_derive; [adside|].
  replace (Derive (fun x => P x) q) with (p' q) by (symmetry; apply (is_derive_unique P q _ (DP q))). replace (Derive (fun x => Q x) q) with (q' q) by (symmetry; apply (is_derive_unique Q q _ (DQ q))). unfold W. field. exact H.
Qed.
Lemma q_lt x : k * k * (sn k x * sn k x) < 1. Proof. pose proof (dn2 k Hk' x). pose proof (dn_pos k Hk' x). nra. Qed.
Lemma T_derive (x : R) : is_derive T x (W (sn k x * sn k x) / (Q (sn k x * sn k x) * Q (sn k x * sn k x)) * (2 * (sn k x * (cn k x * dn k x)))).
Proof.
  apply (is_derive_ext (fun x => P (sn k x * sn k x) / Q (sn k x * sn k x))); [intros t; now rewrite T_eq|]. pose proof (Q_pos _ (q_lt x)) as Q0.
  pose proof (is_derive_comp (fun q => P q / Q q) (fun x => sn k x * sn k x) x (W (sn k x * sn k x) / (Q (sn k x * sn k x) * Q (sn k x * sn k x))) (2 * (sn k x * (cn k x * dn k x)))) as H. rewrite Rmult_comm. apply H; [apply theta_derive; lra|]. pose proof (sn_derive k Hk' x) as D. assert (X : ex_derive (fun x => sn k x) x) by (eexists; exact D). auto_derive; [adside|]. replace (Derive (fun x => sn k x) x) with (cn k x * dn k x) by (symmetry; apply (is_derive_unique (sn k) x _ D)). ring.
Qed.
Lemma W_rho i : (1 <= i <= d)%nat -> W (rho i) = 0.
Proof.
  intros H. pose proof (T_derive (pt i)) as D. fold (rho i) in D. pose proof (rho_range i H) as R. assert (Q0 : 0 < Q (rho i)) by (apply Q_pos; unfold rho; apply q_lt).
  set (l := _ / _ * _) in D. assert (Z : l = 0).
  { assert (D1 : is_derive (fun t => T (pt i + t)) 0 l). { apply (is_derive_ext (fun t => T (t + pt i))); [intros t; f_equal; apply Rplus_comm|]. pose proof (is_derive_comp T (fun t => t + pt i) 0 l 1) as C. rewrite <- (Rmult_1_l l). apply C; [now rewrite Rplus_0_l|]. auto_derive; [exact I|ring]. }
    assert (D2 : is_derive (fun t => T (pt i + t)) 0 (- l)). { apply (is_derive_ext (fun t => T (pt i - t))); [intros t; apply T_sym|]. pose proof (is_derive_comp T (fun t => pt i - t) 0 l (-1)) as C. replace (- l) with (-1 * l) by ring. apply C; [now rewrite Rminus_0_r|]. auto_derive; [exact I|ring]. }
    apply is_derive_unique in D1. apply is_derive_unique in D2. rewrite D1 in D2. lra. }
  assert (A : 0 < pt i) by (rewrite <- pt_0; apply pt_lt; lia). assert (A' : pt i < K) by (rewrite <- pt_n; apply pt_lt; lia). pose proof (sn_pos k Hk' (pt i) ltac:(lra)) as S. pose proof (cn_pos k Hk' (pt i) ltac:(lra)) as C. pose proof (dn_pos k Hk' (pt i)) as N.
  unfold l in Z. assert (X : 0 < 2 * (sn k (pt i) * (cn k (pt i) * dn k (pt i)))) by (repeat apply Rmult_lt_0_compat; lra). apply Rmult_integral in Z as [Z|Z]; [|lra]. unfold Rdiv in Z. apply Rmult_integral in Z as [Z|Z]; [exact Z|]. assert (0 < / (Q (rho i) * Q (rho i))) by (apply Rinv_0_lt_compat; nra). lra.
Qed.
Lemma W_refl (q : R) : 0 < q -> W q = (k * k) ^ n * q ^ n * (q ^ n / (k * k * q * q)) * W (/ (k * k * q)).
Proof.
  intros Hq. pose proof kk_pos as Kp. set (u := / (k * k * q)).
  assert (du : is_derive (fun q => / (k * k * q)) q (- / (k * k * q * q))). { auto_derive; [nra|]. field. split; nra. }
  assert (E1 : q' q = s1 * (INR n * (k * k) * (k * k * q) ^ d * P u + (k * k * q) ^ n * (p' u * - / (k * k * q * q)))).
  { rewrite <- (is_derive_unique Q q _ (DQ q)). apply is_derive_unique. apply (is_derive_ext_loc (fun q => s1 * ((k * k * q) ^ n * P (/ (k * k * q))))).
    - exists (mkposreal q Hq). intros y Hy. symmetry. apply refl_Q. intros ->. unfold ball in Hy. cbn in Hy. unfold AbsRing_ball, abs, minus, plus, opp in Hy. cbn in Hy. rewrite Rplus_0_l, Rabs_Ropp, Rabs_pos_eq in Hy; lra.
    - assert (dP : is_derive (fun q => P (/ (k * k * q))) q (p' u * - / (k * k * q * q))). { rewrite (Rmult_comm (p' u)). apply (is_derive_comp P (fun q => / (k * k * q)) q (p' u) (- / (k * k * q * q))); [apply DP|exact du]. }
      assert (X : ex_derive (fun x => P (/ (k * k * x))) q) by (eexists; exact dP). set (g := fun x => P (/ (k * k * x))) in *. change (is_derive (fun q => s1 * ((k * k * q) ^ n * g q)) q (s1 * (INR n * (k * k) * (k * k * q) ^ d * g q + (k * k * q) ^ n * (p' u * - / (k * k * q * q))))). auto_derive; [adside|]. replace (Derive (fun x => g x) q) with (p' u * - / (k * k * q * q)) by (symmetry; apply (is_derive_unique g q _ dP)). change (match d with O => 1 | S _ => INR d + 1 end) with (INR n). cbn [pow]. ring. }
  assert (E2 : p' q = s1 * (INR n * q ^ d * Q u + q ^ n * (q' u * - / (k * k * q * q)))).
  { rewrite <- (is_derive_unique P q _ (DP q)). apply is_derive_unique. apply (is_derive_ext_loc (fun q => s1 * (q ^ n * Q (/ (k * k * q))))).
    - exists (mkposreal q Hq). intros y Hy. symmetry. apply refl_P. intros ->. unfold ball in Hy. cbn in Hy. unfold AbsRing_ball, abs, minus, plus, opp in Hy. cbn in Hy. rewrite Rplus_0_l, Rabs_Ropp, Rabs_pos_eq in Hy; lra.
    - assert (dP : is_derive (fun q => Q (/ (k * k * q))) q (q' u * - / (k * k * q * q))). { rewrite (Rmult_comm (q' u)). apply (is_derive_comp Q (fun q => / (k * k * q)) q (q' u) (- / (k * k * q * q))); [apply DQ|exact du]. }
      assert (X : ex_derive (fun x => Q (/ (k * k * x))) q) by (eexists; exact dP). set (g := fun x => Q (/ (k * k * x))) in *. change (is_derive (fun q => s1 * (q ^ n * g q)) q (s1 * (INR n * q ^ d * g q + q ^ n * (q' u * - / (k * k * q * q))))). auto_derive; [adside|]. replace (Derive (fun x => g x) q) with (q' u * - / (k * k * q * q)) by (symmetry; apply (is_derive_unique g q _ dP)). change (match d with O => 1 | S _ => INR d + 1 end) with (INR n). cbn [pow]. ring. }
  unfold W. rewrite E1, E2, (refl_Q q), (refl_P q) by lra. fold u. pose proof s1_2 as S. rewrite !Rpow_mult_distr. cbn [pow]. set (a := q ^ d). set (b := (k ^ d)). field_simplify_eq [S]; [|split; lra]. replace (s1 ^ 2) with 1 by (rewrite <- s1_2; ring). ring.
Qed.

Lemma rhos_nodup : NoDup (map rho js).
Proof.
  apply NoDup_map_in; [|apply seq_NoDup]. intros i j Hi Hj E. apply in_seq in Hi, Hj. destruct (Nat.lt_total i j) as [L|[L|L]]; [|exact L|]; [pose proof (rho_lt i j L ltac:(lia))|pose proof (rho_lt j i L ltac:(lia))]; lra.
Qed.
Lemma sn_pos2 u : 0 < u < 2 * K -> 0 < sn k u.
Proof.
  intros H. destruct (Rle_dec u K); [apply sn_pos; [exact Hk'|lra]|]. replace u with (- (2 * K - u) + 2 * K) by ring. rewrite (sn_add2K k Hk'), (sn_neg k Hk'), Ropp_involutive. apply sn_pos; [exact Hk'|lra].
Qed.
Lemma Fp_pos x : 0 < x < pt 2 -> 0 < Fp x.
Proof.
  intros H. assert (X : pt 2 <= 2 * K) by (rewrite <- pt_2n; destruct d; [change (2 * 1)%nat with 2%nat; lra|left; apply pt_lt; lia]). unfold Fp. apply Rmult_lt_0_compat; [apply sn_pos2; lra|]. apply iprod_pos. intros i Hi. apply in_seq in Hi. apply sn_pos2. assert (0 < pt (2 * i)) by (rewrite <- pt_0; apply pt_lt; lia). split; [lra|]. apply Rlt_le_trans with (pt 2 + pt (2 * i)); [lra|]. rewrite <- pt_add, <- pt_2n. destruct (Nat.eq_dec (2 + 2 * i) (2 * n)) as [->|]; [lra|left; apply pt_lt; lia].
Qed.
Lemma B_pos : 0 < B.
Proof. unfold B, T. assert (0 < Fp (pt 1)). { apply Fp_pos. split; [rewrite <- pt_0|]; apply pt_lt; lia. } nra. Qed.
Definition SS (q : R) : R := P q * (B * Q q - P q).
Lemma P_rho i : P (rho i) = T (pt i) * Q (rho i). Proof. symmetry. apply F_sq. Qed.
Lemma SS_rho i : SS (rho i) = 0.
Proof. unfold SS. rewrite P_rho. destruct (T_pt i) as [->| ->]; ring. Qed.
Lemma SS_double i : (1 <= i <= d)%nat -> double SS (rho i).
Proof.
  intros H. split; [apply SS_rho|]. pose proof (W_rho i H) as Z. unfold W in Z. pose proof (P_rho i) as PE. assert (Q0 : 0 < Q (rho i)) by (apply Q_pos; unfold rho; apply q_lt). set (r := rho i) in *.
  assert (X : ex_derive (fun x => P x) r) by (exists (p' r); apply DP). assert (Y : ex_derive (fun x => Q x) r) by (exists (q' r); apply DQ).
  assert (D : is_derive SS r (p' r * (B * Q r - P r) + P r * (B * q' r - p' r))). { unfold SS. auto_derive; [adside|]. replace (Derive (fun x => P x) r) with (p' r) by (symmetry; apply (is_derive_unique P r _ (DP r))). replace (Derive (fun x => Q x) r) with (q' r) by (symmetry; apply (is_derive_unique Q r _ (DQ r))). ring. }
  replace 0 with (p' r * (B * Q r - P r) + P r * (B * q' r - p' r)); [exact D|]. apply (Rmult_eq_reg_r (Q r)); [|lra]. rewrite Rmult_0_l. destruct (T_pt i) as [E|E]; rewrite E in PE.
  - rewrite Rmult_0_l in PE. rewrite PE in Z |- *. replace (p' r) with 0; [ring|]. apply (Rmult_eq_reg_r (Q r)); [|lra]. lra.
  - rewrite PE in Z |- *. transitivity (- B * Q r * (p' r * Q r - B * Q r * q' r)); [ring|]. rewrite Z. ring.
Qed.
Lemma isP_SS : isP (length (map rho js) + length (map rho js) + 2) SS.
Proof.
  rewrite map_length, seq_length. replace (d + d + 2)%nat with (S d + S d)%nat by lia. apply isP_mul; [exact isP_P|]. apply isP_sub; [|exact isP_P]. apply isP_S, isP_scale, isP_Q.
Qed.
(** S and W as products *)
Lemma SS_form : exists c, forall q, SS q = c * (q * (q - 1)) * iprod js (fun i => (q - rho i) * (q - rho i)).
Proof.
  destruct (roots_double (map rho js) 2 SS rhos_nodup isP_SS) as (g & Hg & E). { intros r Hr. apply in_map_iff in Hr as (i & <- & Hi). apply in_seq in Hi. apply SS_double. lia. }
  assert (Z : forall r, r = 0 \/ r = 1 -> g r = 0). { intros r Hr. assert (N : rprod (map rho js) (fun s => (r - s) * (r - s)) <> 0). { apply rprod_n0. intros s Hs. apply in_map_iff in Hs as (i & <- & Hi). apply in_seq in Hi. pose proof (rho_range i ltac:(lia)). destruct Hr; subst; nra. } assert (X : SS r = 0) by (destruct Hr as [->| ->]; [pose proof (SS_rho 0) as Y; now rewrite rho_0 in Y|pose proof (SS_rho n) as Y; now rewrite rho_n in Y]). rewrite E in X. apply Rmult_integral in X as [X|X]; [contradiction|exact X]. }
  destruct (roots_simple [0; 1] 0 g) as (h & [c Hh] & E2). { constructor; [intros [X|[]]; lra|]. constructor; [intros []|constructor]. } { exact Hg. } { intros r [<-|[<-|[]]]; apply Z; [now left|now right]. }
  exists c. intros q. rewrite E, E2, Hh, rprod_i. rewrite !rprod_cons, rprod_nil. ring.
Qed.
Lemma W_form : exists c, forall q, W q = c * iprod js (fun i => (q - rho i) * (1 - k * k * rho i * q)).
Proof.
  pose proof kk_pos as Kp. set (rs := map rho js ++ map (fun i => / (k * k * rho i)) js). destruct (roots_simple rs 0 W) as (g & [c Hg] & E).
  - apply NoDup_app_in'; [apply rhos_nodup| |].
    + apply NoDup_map_in; [|apply seq_NoDup]. intros i j Hi Hj E. apply in_seq in Hi, Hj. assert (E2 : rho i = rho j). { pose proof (rho_range i ltac:(lia)). pose proof (rho_range j ltac:(lia)). apply (f_equal Rinv) in E. rewrite !Rinv_inv in E. apply Rmult_eq_reg_l in E; lra. } destruct (Nat.lt_total i j) as [L|[L|L]]; [|exact L|]; [pose proof (rho_lt i j L ltac:(lia))|pose proof (rho_lt j i L ltac:(lia))]; lra.
    + intros x Hx Hx'. apply in_map_iff in Hx as (i & <- & Hi). apply in_map_iff in Hx' as (j & Ej & Hj). apply in_seq in Hi, Hj. pose proof (rho_range i ltac:(lia)). pose proof (rho_range j ltac:(lia)). assert (1 < / (k * k * rho j)); [|lra]. rewrite <- Rinv_1 at 1. apply Rinv_lt_contravar; nra.
  - unfold rs. rewrite app_length, !map_length, seq_length. rewrite Nat.add_0_r. exact HW.
  - intros r Hr. apply in_app_or in Hr as [Hr|Hr]; apply in_map_iff in Hr as (i & <- & Hi); apply in_seq in Hi; [apply W_rho; lia|]. pose proof (rho_range i ltac:(lia)) as Rr. pose proof (W_rho i ltac:(lia)) as Z. rewrite W_refl in Z by lra. apply Rmult_integral in Z as [Z|Z]; [|exact Z]. exfalso. assert (A : 0 < (k * k) ^ n * rho i ^ n * (rho i ^ n / (k * k * rho i * rho i))); [|rewrite Z in A; lra]. assert (0 < rho i ^ n) by (apply pow_lt; lra). assert (0 < (k * k) ^ n) by (apply pow_lt; lra). apply Rmult_lt_0_compat; [now apply Rmult_lt_0_compat|]. apply Rdiv_lt_0_compat; [assumption|]. apply Rmult_lt_0_compat; [|lra]. apply Rmult_lt_0_compat; lra.
  - exists (c * iprod js (fun i => - / (k * k * rho i))). intros q. rewrite E, Hg. unfold rs. rewrite rprod_app, !rprod_i. rewrite (Rmult_comm _ c), Rmult_assoc. f_equal. rewrite <- !iprod_mul. apply iprod_ext. intros i Hi. apply in_seq in Hi. pose proof (rho_range i ltac:(lia)). field. split; nra.
Qed.

Lemma ex_iprod l (f : nat -> R -> R) (x : R) : (forall i, ex_derive (f i) x) -> ex_derive (fun q => iprod l (fun i => f i q)) x.
Proof.
  intros H. induction l as [|a l IH]; [apply (ex_derive_ext (fun _ => 1)); [reflexivity|apply ex_derive_const]|]. apply (ex_derive_ext (fun q => f a q * iprod l (fun i => f i q))); [reflexivity|]. exact (ex_derive_mult (f a) (fun q => iprod l (fun i => f i q)) x (H a) IH).
Qed.
Lemma d0 (f : R -> R) : ex_derive f 0 -> is_derive (fun q => q * f q) 0 (f 0).
Proof. intros H. assert (X : ex_derive (fun x => f x) 0) by exact H. auto_derive; [adside|ring]. Qed.
Lemma P'0 : p' 0 = iprod js sg.
Proof.
  rewrite <- (is_derive_unique P 0 _ (DP 0)). unfold P. transitivity (iprod js (fun i => sg i - 0)); [apply is_derive_unique; apply (d0 (fun q => iprod js (fun i => sg i - q))); apply ex_iprod; intros i; auto_derive; exact I|]. apply iprod_ext. intros i _. ring.
Qed.
Lemma sg_prod_pos : 0 < iprod js sg.
Proof. apply iprod_pos. intros i Hi. apply in_seq in Hi. apply sg_range. lia. Qed.
Lemma Q_0 : Q 0 = 1.
Proof. unfold Q. rewrite (iprod_ext _ _ (fun _ => 1)), iprod_const, pow1; [reflexivity|]. intros; ring. Qed.
Lemma P_0 : P 0 = 0. Proof. unfold P. ring. Qed.
Lemma rho_prod_pos : 0 < iprod js rho.
Proof. apply iprod_pos. intros i Hi. apply in_seq in Hi. apply rho_range. lia. Qed.
Lemma SS_form' : exists c, 0 < c /\ forall q, SS q = c * (q * (1 - q)) * iprod js (fun i => (q - rho i) * (q - rho i)).
Proof.
  destruct SS_form as [c E]. exists (- c). split; [|intros q; rewrite E; ring]. set (f := fun q => c * (q - 1) * iprod js (fun i => (q - rho i) * (q - rho i))). set (g := fun q => iprod js (fun i => sg i - q) * (B * Q q - P q)).
  assert (Xf : ex_derive f 0). { unfold f. assert (X : ex_derive (fun q => iprod js (fun i => (q - rho i) * (q - rho i))) 0) by (apply ex_iprod; intros i; auto_derive; exact I). apply (ex_derive_mult (fun q => c * (q - 1))); [auto_derive; exact I|exact X]. }
  assert (Xg : ex_derive g 0). { unfold g. assert (X : ex_derive (fun q => iprod js (fun i => sg i - q)) 0) by (apply ex_iprod; intros i; auto_derive; exact I). assert (Y : ex_derive (fun q => Q q) 0) by (eexists; apply DQ). assert (Z : ex_derive (fun q => P q) 0) by (eexists; apply DP). apply (ex_derive_mult (fun q => iprod js (fun i => sg i - q))); [exact X|]. auto_derive. adside. }
  assert (FG : f 0 = g 0). { rewrite <- (is_derive_unique _ 0 _ (d0 f Xf)), <- (is_derive_unique _ 0 _ (d0 g Xg)). apply Derive_ext. intros q. pose proof (E q) as Eq. unfold SS in Eq. unfold f, g. transitivity (c * (q * (q - 1)) * iprod js (fun i => (q - rho i) * (q - rho i))); [ring|]. rewrite <- Eq. unfold P at 1. ring. }
  unfold f, g in FG. rewrite P_0, Q_0 in FG. rewrite (iprod_ext _ (fun i => (0 - rho i) * (0 - rho i)) (fun i => rho i * rho i)) in FG by (intros; ring). rewrite iprod_mul in FG. rewrite (iprod_ext _ (fun i => sg i - 0) sg) in FG by (intros; ring). pose proof rho_prod_pos as R0. pose proof sg_prod_pos as S0. pose proof B_pos as B0. set (r := iprod js rho) in *. set (s := iprod js sg) in *. assert (0 < s * B) by nra. assert (0 < r * r) by nra. nra.
Qed.
Lemma W_form' : exists c, 0 < c /\ forall q, W q = c * iprod js (fun i => (rho i - q) * (1 - k * k * rho i * q)).
Proof.
  destruct W_form as [c E]. exists (c * iprod js (fun _ => -1)). assert (E' : forall q, W q = c * iprod js (fun _ => -1) * iprod js (fun i => (rho i - q) * (1 - k * k * rho i * q))). { intros q. rewrite E, Rmult_assoc, <- iprod_mul. f_equal. apply iprod_ext. intros i _. ring. }
  split; [|exact E']. specialize (E' 0). unfold W in E'. rewrite P_0, Q_0, P'0 in E'. rewrite (iprod_ext _ (fun i => (rho i - 0) * (1 - k * k * rho i * 0)) rho) in E' by (intros; ring). pose proof rho_prod_pos. pose proof sg_prod_pos. set (r := iprod js rho) in *. set (cc := c * _) in *. nra.
Qed.
Definition kap : R := B * B * (k * k) ^ n.
Lemma kap_pos : 0 < kap. Proof. unfold kap. pose proof B_pos. pose proof (pow_lt (k * k) n kk_pos). apply Rmult_lt_0_compat; [nra|assumption]. Qed.
Lemma QS_form c : (forall q, SS q = c * (q * (1 - q)) * iprod js (fun i => (q - rho i) * (q - rho i))) -> forall q, q <> 0 ->
  Q q * (B * Q q - kap * P q) = B * c * (1 - k * k * q) * iprod js (fun i => (1 - k * k * rho i * q) * (1 - k * k * rho i * q)).
Proof.
  intros E q Hq. pose proof kk_pos as Kp. set (u := / (k * k * q)). assert (Nq : k * k * q <> 0) by nra. assert (Ku : k * k * q * u = 1) by (unfold u; field; split; lra).
  assert (E1 : Q q * (B * Q q - kap * P q) = - B * ((k * k * q) ^ n * (k * k * q) ^ n) * SS u). { rewrite (refl_Q q Hq), (refl_P q Hq). fold u. unfold SS, kap. rewrite !Rpow_mult_distr. transitivity (s1 * s1 * (B * (k ^ n * k ^ n * q ^ n * (k ^ n * k ^ n * q ^ n)) * (P u * (P u - B * Q u)))); [ring|]. rewrite s1_2. ring. }
  rewrite E1, E. cbn [pow]. replace ((k * k * q) ^ d) with (iprod js (fun _ => k * k * q)) by (rewrite iprod_const, js_len; reflexivity).
  transitivity (- B * c * ((k * k * q * u) * (k * k * q - k * k * q * u)) * (iprod js (fun _ => k * k * q) * iprod js (fun _ => k * k * q) * iprod js (fun i => (u - rho i) * (u - rho i)))); [ring|]. rewrite <- !iprod_mul. rewrite Ku. rewrite (iprod_ext _ _ (fun i => (1 - k * k * rho i * q) * (1 - k * k * rho i * q))); [ring|].
  intros i _. transitivity ((k * k * q * u - k * k * rho i * q) * (k * k * q * u - k * k * rho i * q)); [ring|]. now rewrite Ku.
Qed.
(** the differential equation *)
Lemma ode : exists m, 0 < m /\ forall q, q <> 0 -> q * (1 - q) * (1 - k * k * q) * (W q * W q) = m * (P q * Q q * (B * Q q - P q) * (B * Q q - kap * P q)).
Proof.
  destruct SS_form' as (c & C0 & Es). destruct W_form' as (w & W0 & Ew). pose proof B_pos as B0. exists (w * w / (c * c * B)). split; [apply Rdiv_lt_0_compat; [nra|]; apply Rmult_lt_0_compat; [nra|exact B0]|]. intros q Hq. pose proof (QS_form c Es q Hq) as E2. pose proof (Es q) as E1. unfold SS in E1. rewrite (iprod_ext _ _ (fun i => (rho i - q) * (rho i - q))) in E1 by (intros; ring).
  transitivity (w * w / (c * c * B) * ((P q * (B * Q q - P q)) * (Q q * (B * Q q - kap * P q)))); [|ring]. rewrite E1, E2, Ew. rewrite !iprod_mul. field. lra.
Qed.
(** signs *)
Lemma BQ_pos q : k * k * q < 1 -> 0 < B * Q q - kap * P q.
Proof.
  intros H. pose proof B_pos as B0. pose proof kk_pos as Kp. destruct (Req_dec q 0) as [->|Hq]; [rewrite P_0, Q_0; lra|]. destruct SS_form' as (c & C0 & Es). pose proof (QS_form c Es q Hq) as E2. pose proof (Q_pos q H) as Q0.
  assert (0 < iprod js (fun i => (1 - k * k * rho i * q) * (1 - k * k * rho i * q))). { apply iprod_pos. intros i Hi. apply in_seq in Hi. pose proof (rho_range i ltac:(lia)) as R0. assert (k * k * rho i * q < 1); [|nra]. replace (k * k * rho i * q) with (rho i * (k * k * q)) by ring. destruct (Rle_dec (k * k * q) 0); nra. }
  assert (0 < Q q * (B * Q q - kap * P q)). { rewrite E2. assert (0 < B * c) by (now apply Rmult_lt_0_compat). assert (0 < B * c * (1 - k * k * q)) by (apply Rmult_lt_0_compat; lra). now apply Rmult_lt_0_compat. } nra.
Qed.
Lemma P_range q : 0 <= q <= 1 -> 0 <= P q <= B * Q q.
Proof.
  intros H. pose proof kk_pos as Kp. pose proof B_pos as B0. assert (Q0 : 0 < Q q) by (apply Q_pos; nra).
  assert (P0 : 0 <= P q). { destruct (sn_onto k Hk' (sqrt q)) as (x & _ & Ex). { split; [pose proof (sqrt_pos q); lra|]. rewrite <- sqrt_1. apply sqrt_le_1_alt. lra. } assert (E : sn k x * sn k x = q) by (rewrite Ex; apply sqrt_sqrt; lra). rewrite <- E, <- F_sq, E. apply Rmult_le_pos; [|lra]. unfold T. exact (Rle_0_sqr _). }
  split; [exact P0|]. destruct SS_form' as (c & C0 & Es). specialize (Es q). assert (S0 : 0 <= SS q). { rewrite Es. apply Rmult_le_pos; [apply Rmult_le_pos; nra|]. rewrite iprod_mul. exact (Rle_0_sqr _). } unfold SS in S0. destruct (Req_dec (P q) 0) as [->|N]; nra.
Qed.
Lemma P_far q : 1 <= k * k * q -> 0 < P q * s1 /\ 0 <= Q q * s1 /\ B * (Q q * s1) <= kap * (P q * s1).
Proof.
  intros H. pose proof kk_pos as Kp. pose proof B_pos as B0. assert (q0 : 0 < q) by nra. set (u := / (k * k * q)). assert (Hu : 0 < u <= 1). { split; [apply Rinv_0_lt_compat; lra|]. rewrite <- Rinv_1. apply Rinv_le_contravar; lra. } destruct (P_range u ltac:(lra)) as [P0 P1]. assert (Q0 : 0 < Q u) by (apply Q_pos; nra).
  assert (EQ : Q q * s1 = (k * k) ^ n * q ^ n * P u). { rewrite (refl_Q q) by lra. fold u. rewrite (Rpow_mult_distr (k * k) q). transitivity (s1 * s1 * ((k * k) ^ n * q ^ n * P u)); [ring|]. rewrite s1_2. ring. }
  assert (EP : P q * s1 = q ^ n * Q u). { rewrite (refl_P q) by lra. fold u. transitivity (s1 * s1 * (q ^ n * Q u)); [ring|]. rewrite s1_2. ring. }
  pose proof (pow_lt q n q0) as Pq. pose proof (pow_lt (k * k) n Kp) as Pk. rewrite EP, EQ. unfold kap. split; [now apply Rmult_lt_0_compat|]. split; [apply Rmult_le_pos; [|exact P0]; apply Rmult_le_pos; lra|]. assert (0 < B * ((k * k) ^ n * q ^ n)) by (apply Rmult_lt_0_compat; [exact B0|now apply Rmult_lt_0_compat]). replace (B * ((k * k) ^ n * q ^ n * P u)) with (B * ((k * k) ^ n * q ^ n) * P u) by ring. replace (B * B * (k * k) ^ n * (q ^ n * Q u)) with (B * ((k * k) ^ n * q ^ n) * (B * Q u)) by ring. apply Rmult_le_compat_l; lra.
Qed.
Lemma kap_lt1 : kap < 1.
Proof.
  assert (L : k * k * rho 1 < 1) by (unfold rho; apply q_lt). pose proof (BQ_pos (rho 1) L) as H. rewrite P_rho in H. change (T (pt 1)) with B in H. pose proof B_pos. pose proof (Q_pos _ L). assert (0 < B * Q (rho 1)) by nra. nra.
Qed.
Lemma W_pos q : q < rho 1 -> 0 < W q.
Proof.
  intros H. destruct W_form' as (w & W0 & ->). pose proof kk_pos as Kp. apply Rmult_lt_0_compat; [exact W0|]. apply iprod_pos. intros i Hi. apply in_seq in Hi. pose proof (rho_range i ltac:(lia)). assert (rho 1 <= rho i) by (destruct (Nat.eq_dec i 1) as [->|]; [lra|left; apply rho_lt; lia]). apply Rmult_lt_0_compat; [lra|]. assert (0 < k * k * rho i < 1) by nra. destruct (Rle_dec q 0); nra.
Qed.
End Wr.
Ltac wr H := destruct wronskian as (p' & q' & DP & DQ & HW); solve [eapply H; eassumption].
Lemma B_pos_ : 0 < B. Proof. wr B_pos. Qed.
Lemma kap_pos_ : 0 < kap. Proof. wr kap_pos. Qed.
Lemma kap_lt1_ : kap < 1. Proof. wr kap_lt1. Qed.
Lemma Q_0_ : Q 0 = 1. Proof. wr Q_0. Qed.
Lemma Fp_pos_ x : 0 < x < pt 2 -> 0 < Fp x. Proof. intros H. wr Fp_pos. Qed.
Lemma SS_form_ : exists c, 0 < c /\ forall q, P q * (B * Q q - P q) = c * (q * (1 - q)) * iprod js (fun i => (q - rho i) * (q - rho i)). Proof. wr SS_form'. Qed.
Lemma BQ_pos_ q : k * k * q < 1 -> 0 < B * Q q - kap * P q. Proof. intros H. wr BQ_pos. Qed.
Lemma P_range_ q : 0 <= q <= 1 -> 0 <= P q <= B * Q q. Proof. intros H. wr P_range. Qed.
Lemma P_far_ q : 1 <= k * k * q -> 0 < P q * s1 /\ 0 <= Q q * s1 /\ B * (Q q * s1) <= kap * (P q * s1). Proof. intros H. wr P_far. Qed.
Lemma q_lt_ x : k * k * (sn k x * sn k x) < 1. Proof. wr q_lt. Qed.
End Rational.
