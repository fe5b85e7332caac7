(** The elliptic sine of a complex argument: shifting by real amounts, products, injectivity (used by C61). *)
From Coq Require Import Reals Lra Lia ZArith List Bool Psatz.
From Verif Require Import Base BaseFacts Complex EllipticSpec JacobiReal.
Open Scope R_scope.
Declare Scope Cx_scope.
Delimit Scope Cx_scope with Cx.
Infix "+" := Cadd : Cx_scope.
Infix "-" := Csub : Cx_scope.
Infix "*" := Cmul : Cx_scope.
Infix "/" := Cdiv : Cx_scope.
Notation "- x" := (Copp x) : Cx_scope.

(** the addition law is commutative and associative in its first component *)
Lemma add_assoc (K s c d sa ca da S Cc D : C) : (c * c = C1 - s * s -> d * d = C1 - K * (s * s) -> ca * ca = C1 - sa * sa -> da * da = C1 - K * (sa * sa) -> Cc * Cc = C1 - S * S -> D * D = C1 - K * (S * S) ->
 let D1 := C1 - K * (s * s) * (S * S) in let D2 := C1 - K * (s * s) * (sa * sa) in
 ((s * ca * da + sa * c * d) * D2 * (Cc * D) + S * ((c * ca - s * d * (sa * da)) * (d * da - K * (s * c) * (sa * ca)))) * (D1 * D1 - K * (sa * sa) * ((s * Cc * D + S * c * d) * (s * Cc * D + S * c * d))) =
 ((s * Cc * D + S * c * d) * D1 * (ca * da) + sa * ((c * Cc - s * d * (S * D)) * (d * D - K * (s * c) * (S * Cc)))) * (D2 * D2 - K * (S * S) * ((s * ca * da + sa * c * d) * (s * ca * da + sa * c * d))))%Cx.
Proof. intros H1 H2 H3 H4 H5 H6 D1 D2. unfold D1, D2. ring [H1 H2 H3 H4 H5 H6]. Qed.

Section Cplx.
Variable k : R.
Hypothesis Hk : 0 < k < 1.
Definition kq := sqrt (1 - k * k).
Lemma kq_bounds : 0 < kq < 1 /\ kq * kq = 1 - k * k.
Proof.
  assert (P : 0 < 1 - k * k) by nra. unfold kq. pose proof (sqrt_lt_R0 _ P). pose proof (sqrt_sqrt (1 - k * k) ltac:(lra)). split; [|assumption]. split; [assumption|]. nra.
Qed.
Lemma Hk0 : 0 <= k < 1. Proof. lra. Qed.
Lemma Hq0 : 0 <= kq < 1. Proof. destruct kq_bounds. lra. Qed.
(** denominators *)
Definition qd x y := cn kq y * cn kq y + k * k * (sn kq y * sn kq y) * (sn k x * sn k x).
Definition snC x y : C := mkC (sn k x * dn kq y / qd x y) (sn kq y * cn kq y * (cn k x * dn k x) / qd x y).
Definition cnC x y : C := mkC (cn k x * cn kq y / qd x y) (- (sn k x * dn k x * (sn kq y * dn kq y)) / qd x y).
Definition dnC x y : C := mkC (dn k x * (cn kq y * dn kq y) / qd x y) (- (k * k * (sn k x * cn k x) * sn kq y) / qd x y).
Lemma qd_pos x y : cn kq y <> 0 -> 0 < qd x y.
Proof. intros H. unfold qd. assert (0 < cn kq y * cn kq y) by nra. assert (0 <= sn kq y * sn kq y) by exact (Rle_0_sqr _). assert (0 <= sn k x * sn k x) by exact (Rle_0_sqr _). assert (0 <= k * k) by nra. pose proof (Rmult_le_pos _ _ (Rmult_le_pos (k * k) (sn kq y * sn kq y) ltac:(assumption) ltac:(assumption)) H2). lra. Qed.
Lemma dq2 y : dn kq y * dn kq y = cn kq y * cn kq y + k * k * (sn kq y * sn kq y).
Proof. rewrite (dn2 kq Hq0), (sc kq), (proj2 kq_bounds). ring. Qed.
(** the point i*y *)
Definition iS y : C := mkC 0 (sn kq y / cn kq y).
Definition iC y : C := RtoC (1 / cn kq y).
Definition iD y : C := RtoC (dn kq y / cn kq y).
Local Notation kk := (RtoC (k * k)).
Section Y.
Variable y : R.
Hypothesis Hy : cn kq y <> 0.
Lemma iC2 : (iC y * iC y = C1 - iS y * iS y)%Cx.
Proof. pose proof (sc kq y) as E. apply C_ext; cbn; [|ring]. replace (1 - (0 * 0 - sn kq y / cn kq y * (sn kq y / cn kq y))) with ((cn kq y * cn kq y + sn kq y * sn kq y) / (cn kq y * cn kq y)) by (field; exact Hy). replace (cn kq y * cn kq y + sn kq y * sn kq y) with 1 by lra. field. exact Hy. Qed.
Lemma iD2 : (iD y * iD y = C1 - kk * (iS y * iS y))%Cx.
Proof. pose proof (dq2 y) as E. apply C_ext; cbn; [|ring]. replace (dn kq y / cn kq y * (dn kq y / cn kq y) - 0 * 0) with (dn kq y * dn kq y / (cn kq y * cn kq y)) by (field; exact Hy). rewrite E. field. exact Hy. Qed.
Definition rs x := RtoC (sn k x). Definition rc x := RtoC (cn k x). Definition rd' x := RtoC (dn k x).
Lemma rc2 x : (rc x * rc x = C1 - rs x * rs x)%Cx. Proof. apply C_ext; cbn; [pose proof (sc k x); lra|ring]. Qed.
Lemma rd2 x : (rd' x * rd' x = C1 - kk * (rs x * rs x))%Cx. Proof. apply C_ext; cbn; [pose proof (dn2 k Hk0 x); lra|ring]. Qed.
Definition D1 x := (C1 - kk * (rs x * rs x) * (iS y * iS y))%Cx.
Lemma D1_eq x : D1 x = RtoC (qd x y / (cn kq y * cn kq y)).
Proof. unfold D1, rs, iS, qd. apply C_ext; cbn; field; exact Hy. Qed.
Lemma D1_n0 x : D1 x <> C0.
Proof. rewrite D1_eq. intros E. apply (f_equal re) in E. cbn in E. pose proof (qd_pos x y Hy). assert (0 < cn kq y * cn kq y) by nra. pose proof (Rdiv_lt_0_compat _ _ H H0). lra. Qed.
Lemma snC_D x : (snC x y * D1 x = rs x * iC y * iD y + iS y * rc x * rd' x)%Cx.
Proof. rewrite D1_eq. pose proof (qd_pos x y Hy). unfold snC, rs, rc, rd', iC, iD, iS. apply C_ext; cbn; field; split; lra || exact Hy. Qed.
Lemma cnC_D x : (cnC x y * D1 x = rc x * iC y - rs x * rd' x * (iS y * iD y))%Cx.
Proof. rewrite D1_eq. pose proof (qd_pos x y Hy). unfold cnC, rs, rc, rd', iC, iD, iS. apply C_ext; cbn; field; split; lra || exact Hy. Qed.
Lemma dnC_D x : (dnC x y * D1 x = rd' x * iD y - kk * (rs x * rc x) * (iS y * iC y))%Cx.
Proof. rewrite D1_eq. pose proof (qd_pos x y Hy). unfold dnC, rs, rc, rd', iC, iD, iS. apply C_ext; cbn; field; split; lra || exact Hy. Qed.
Lemma C_cancel (a b c : C) : c <> C0 -> (a * c = b * c)%Cx -> a = b.
Proof. intros Hc E. transitivity ((a * c) / c)%Cx; [field; exact Hc|]. rewrite E. field. exact Hc. Qed.
Lemma snC2 x : (cnC x y * cnC x y = C1 - snC x y * snC x y)%Cx.
Proof.
  apply (C_cancel _ _ (D1 x * D1 x)%Cx); [intros E; apply Cmul_0_eq in E; destruct E as [E|E]; exact (D1_n0 x E)|]. transitivity ((cnC x y * D1 x) * (cnC x y * D1 x))%Cx; [ring|]. transitivity ((D1 x * D1 x) - (snC x y * D1 x) * (snC x y * D1 x))%Cx; [|ring]. rewrite cnC_D, snC_D. unfold D1.
  pose proof (rc2 x) as R1. pose proof (rd2 x) as R2. pose proof iC2 as R3. pose proof iD2 as R4. ring [R1 R2 R3 R4].
Qed.
Lemma dnC2 x : (dnC x y * dnC x y = C1 - kk * (snC x y * snC x y))%Cx.
Proof.
  apply (C_cancel _ _ (D1 x * D1 x)%Cx); [intros E; apply Cmul_0_eq in E; destruct E as [E|E]; exact (D1_n0 x E)|]. transitivity ((dnC x y * D1 x) * (dnC x y * D1 x))%Cx; [ring|]. transitivity ((D1 x * D1 x) - kk * ((snC x y * D1 x) * (snC x y * D1 x)))%Cx; [|ring]. rewrite dnC_D, snC_D. unfold D1.
  pose proof (rc2 x) as R1. pose proof (rd2 x) as R2. pose proof iC2 as R3. pose proof iD2 as R4. ring [R1 R2 R3 R4].
Qed.
(** shifting by a real amount *)
Definition denC x a := (C1 - kk * (rs a * rs a) * (snC x y * snC x y))%Cx.
Lemma rs_add x a : (rs (x + a)%R * RtoC (den k x a) = rs x * rc a * rd' a + rs a * rc x * rd' x)%Cx.
Proof. unfold rs, rc, rd'. apply C_ext; cbn; [pose proof (sn_add k Hk0 x a); lra|ring]. Qed.
Lemma rc_add x a : (rc (x + a)%R * RtoC (den k x a) = rc x * rc a - rs x * rd' x * (rs a * rd' a))%Cx.
Proof. unfold rs, rc, rd'. apply C_ext; cbn; [pose proof (cn_add k Hk0 x a); lra|ring]. Qed.
Lemma rd_add x a : (rd' (x + a)%R * RtoC (den k x a) = rd' x * rd' a - kk * (rs x * rc x) * (rs a * rc a))%Cx.
Proof. unfold rs, rc, rd'. apply C_ext; cbn; [pose proof (dn_add k Hk0 x a); lra|ring]. Qed.
Lemma den_C x a : RtoC (den k x a) = (C1 - kk * (rs x * rs x) * (rs a * rs a))%Cx.
Proof. unfold den, rs. apply C_ext; cbn; ring. Qed.
Lemma den_n0 x a : RtoC (den k x a) <> C0.
Proof. intros E. apply (f_equal re) in E. cbn in E. pose proof (den_pos' k Hk0 x a). lra. Qed.
Lemma snC_shift x a : (snC (x + a)%R y * denC x a = snC x y * (rc a * rd' a) + rs a * (cnC x y * dnC x y))%Cx.
Proof.
  pose proof (add_assoc kk (rs x) (rc x) (rd' x) (rs a) (rc a) (rd' a) (iS y) (iC y) (iD y) (rc2 x) (rd2 x) (rc2 a) (rd2 a) iC2 iD2) as A. cbv zeta in A. fold (D1 x) in A. rewrite <- den_C in A. rewrite <- rs_add, <- snC_D, <- rc_add, <- rd_add, <- cnC_D, <- dnC_D in A.
  set (E := RtoC (den k x a)) in *. set (F := D1 x) in *. pose proof (den_n0 x a : E <> C0) as E0. pose proof (D1_n0 x : F <> C0) as F0. pose proof (D1_n0 (x + a)) as G0. pose proof (snC_D (x + a)) as G. unfold denC.
  apply (C_cancel _ _ (D1 (x + a) * (E * E) * (F * F))%Cx); [intros Z; repeat (apply Cmul_0_eq in Z; destruct Z as [Z|Z]); contradiction|].
  transitivity ((snC (x + a)%R y * D1 (x + a)) * (E * E) * ((F * F) - kk * (rs a * rs a) * ((snC x y * F) * (snC x y * F))))%Cx; [ring|]. rewrite G.
  transitivity ((rs (x + a)%R * E * E * (iC y * iD y) + iS y * (rc (x + a)%R * E * (rd' (x + a)%R * E))) * (F * F - kk * (rs a * rs a) * (snC x y * F * (snC x y * F))))%Cx; [ring|]. rewrite A. unfold D1. ring.
Qed.
Lemma rs_neg a : rs (- a)%R = (- rs a)%Cx. Proof. unfold rs. rewrite (sn_neg k Hk0). apply C_ext; cbn; ring. Qed.
Lemma snC_shift_neg x a : (snC (x - a)%R y * denC x a = snC x y * (rc a * rd' a) - rs a * (cnC x y * dnC x y))%Cx.
Proof.
  pose proof (snC_shift x (- a)) as E. unfold denC in *. rewrite rs_neg in E. unfold rc, rd' in *. rewrite (cn_neg k Hk0), (dn_neg k Hk0) in E. replace (x + - a)%R with (x - a)%R in E by ring. transitivity (snC (x - a)%R y * (C1 - kk * (- rs a * - rs a) * (snC x y * snC x y)))%Cx; [ring|]. rewrite E. ring.
Qed.
Lemma mkC_n0 (a b : R) : a <> 0 -> mkC a b <> C0. Proof. intros H E. apply (f_equal re) in E. cbn in E. lra. Qed.
Lemma denC_n0 x a : denC x a <> C0.
Proof.
  intros E. pose proof (qd_pos x y Hy) as Q. pose proof (dn_pos k Hk0 x) as Dx. unfold denC in E. assert (E' : (kk * (rs a * rs a) * (snC x y * snC x y))%Cx = C1) by (transitivity (C1 - (C1 - kk * (rs a * rs a) * (snC x y * snC x y)))%Cx; [ring|rewrite E; ring]). clear E.
  unfold rs in E'. destruct (snC x y) as [u v] eqn:Es. assert (Er : k * k * (sn k a * sn k a) * (u * u - v * v) = 1) by (apply (f_equal re) in E'; cbn in E'; lra). assert (Ei : k * k * (sn k a * sn k a) * (u * v) = 0) by (apply (f_equal im) in E'; cbn in E'; lra). clear E'.
  assert (g0 : 0 <= k * k * (sn k a * sn k a)) by (apply Rmult_le_pos; [nra|exact (Rle_0_sqr _)]). set (g := k * k * (sn k a * sn k a)) in *. assert (g1 : g <> 0) by (intros Z; rewrite Z in Er; lra). assert (v0 : v = 0). { apply Rmult_integral in Ei. destruct Ei as [Ei|Ei]; [contradiction|]. apply Rmult_integral in Ei. destruct Ei as [->|]; [|assumption]. exfalso. pose proof (Rmult_le_pos g (v * v) g0 (Rle_0_sqr v)). lra. }
  rewrite v0 in Er. unfold snC in Es. injection Es as Eu Ev. rewrite v0 in Ev. assert (Ev' : sn kq y * cn kq y * (cn k x * dn k x) = 0) by (apply (f_equal (fun z => z * qd x y)) in Ev; unfold Rdiv in Ev; rewrite Rmult_assoc, Rinv_l in Ev by lra; lra).
  assert (g2 : g <= k * k). { unfold g. pose proof (sc k a). assert (0 <= cn k a * cn k a) by exact (Rle_0_sqr _). nra. }
  assert (Ed : dn kq y * dn kq y = cn kq y * cn kq y + k * k * (sn kq y * sn kq y)) by apply dq2. assert (Ec : cn kq y * cn kq y = 1 - sn kq y * sn kq y) by apply sc. assert (Eu' : u * qd x y = sn k x * dn kq y) by (rewrite <- Eu; field; lra). assert (Eu2 : u * u * (qd x y * qd x y) = (sn k x * sn k x) * (dn kq y * dn kq y)) by (transitivity ((u * qd x y) * (u * qd x y)); [ring|]; rewrite Eu'; ring).
  assert (Sx : cn k x * cn k x = 1 - sn k x * sn k x) by apply sc. unfold qd in Eu2, Q.
  apply Rmult_integral in Ev'. destruct Ev' as [Ev'|Ev']; [apply Rmult_integral in Ev'; destruct Ev' as [Ev'|Ev']; [|contradiction]|apply Rmult_integral in Ev'; destruct Ev' as [Ev'|Ev']; [|lra]].
  - rewrite Ev' in *. assert (C1' : cn kq y * cn kq y = 1) by lra. assert (D1' : dn kq y * dn kq y = 1) by lra. rewrite C1', D1' in Eu2. assert (U : u * u = sn k x * sn k x) by lra. pose proof (den_pos' k Hk0 a x) as DP. unfold den in DP. change (k * k * (sn k a * sn k a)) with g in DP. rewrite U in Er. lra.
  - rewrite Ev' in Sx. assert (S1' : sn k x * sn k x = 1) by lra. rewrite S1' in Eu2. assert (0 < cn kq y * cn kq y) by nra. set (D := dn kq y * dn kq y) in *. assert (U : u * u * D = 1). { apply (Rmult_eq_reg_r D); [|nra]. replace (cn kq y * cn kq y + k * k * (sn kq y * sn kq y) * 1) with D in Eu2 by lra. rewrite <- Eu2. ring. } assert (D2 : k * k < D). { assert (K2 : 0 < 1 - k * k) by nra. pose proof (Rmult_lt_0_compat _ _ K2 H). nra. } assert (D3 : g = D). { replace (u * u - 0 * 0) with (u * u) in Er by ring. transitivity (g * (u * u * D)); [rewrite U; ring|]. transitivity ((g * (u * u)) * D); [ring|]. rewrite Er. ring. } lra.
Qed.
Lemma snC_prod x a : (snC (x + a)%R y * snC (x - a)%R y * denC x a = snC x y * snC x y - rs a * rs a)%Cx.
Proof.
  apply (C_cancel _ _ (denC x a) (denC_n0 x a)). transitivity ((snC (x + a)%R y * denC x a) * (snC (x - a)%R y * denC x a))%Cx; [ring|]. rewrite snC_shift, snC_shift_neg. unfold denC. pose proof (rc2 a) as R1. pose proof (rd2 a) as R2. pose proof (snC2 x) as R3. pose proof (dnC2 x) as R4. ring [R1 R2 R3 R4].
Qed.
Lemma snC_diff x a : ((snC (x + a)%R y - snC (x - a)%R y) * denC x a = (C1 + C1) * (rs a * (cnC x y * dnC x y)))%Cx.
Proof. transitivity (snC (x + a)%R y * denC x a - snC (x - a)%R y * denC x a)%Cx; [ring|]. rewrite snC_shift, snC_shift_neg. ring. Qed.
Lemma cnC_n0 x : sn kq y <> 0 -> cnC x y <> C0.
Proof.
  intros Hs E. pose proof (qd_pos x y Hy) as Q. pose proof (dn_pos k Hk0 x). pose proof (dn_pos kq Hq0 y). unfold cnC in E. injection E as E1 E2. assert (A1 : cn k x * cn kq y = 0) by (apply (f_equal (fun z => z * qd x y)) in E1; unfold Rdiv in E1; rewrite Rmult_assoc, Rinv_l in E1 by lra; lra). assert (A2 : sn k x * dn k x * (sn kq y * dn kq y) = 0) by (apply (f_equal (fun z => z * qd x y)) in E2; unfold Rdiv in E2; rewrite Rmult_assoc, Rinv_l in E2 by lra; lra).
  apply Rmult_integral in A1. destruct A1 as [A1|A1]; [|contradiction]. apply Rmult_integral in A2. destruct A2 as [A2|A2]; apply Rmult_integral in A2; destruct A2 as [A2|A2]; try lra; try contradiction. pose proof (sc k x) as S. rewrite A1, A2 in S. lra.
Qed.
Lemma dnC_n0 x : dnC x y <> C0.
Proof. pose proof (qd_pos x y Hy) as Q. pose proof (dn_pos k Hk0 x). pose proof (dn_pos kq Hq0 y). apply mkC_n0. unfold Rdiv. apply Rmult_integral_contrapositive_currified; [|apply Rinv_neq_0_compat; lra]. apply Rmult_integral_contrapositive_currified; [lra|]. apply Rmult_integral_contrapositive_currified; [exact Hy|lra]. Qed.
Lemma snC_inj x x' : sn kq y <> 0 -> sn k ((x - x') / 2) <> 0 -> snC x y <> snC x' y.
Proof.
  intros Hs Ha E. pose proof (snC_diff ((x + x') / 2) ((x - x') / 2)) as D. replace ((x + x') / 2 + (x - x') / 2) with x in D by field. replace ((x + x') / 2 - (x - x') / 2) with x' in D by field. rewrite E in D. assert (Z : ((C1 + C1) * (rs ((x - x') / 2) * (cnC ((x + x') / 2) y * dnC ((x + x') / 2) y)))%Cx = C0) by (rewrite <- D; ring).
  apply Cmul_0_eq in Z. destruct Z as [Z|Z]; [apply (f_equal re) in Z; cbn in Z; lra|]. apply Cmul_0_eq in Z. destruct Z as [Z|Z]; [apply (f_equal re) in Z; cbn in Z; contradiction|]. apply Cmul_0_eq in Z. destruct Z as [Z|Z]; [exact (cnC_n0 _ Hs Z)|exact (dnC_n0 _ Z)].
Qed.
(** symmetries and special points *)
Lemma snC_2K x : snC (x + 2 * legendre_K k)%R y = (- snC x y)%Cx.
Proof.
  unfold snC, qd. rewrite (sn_add2K k Hk0), (cn_add2K k Hk0), (dn_add2K k Hk0). pose proof (qd_pos x y Hy) as Q. unfold qd in Q. apply C_ext; cbn; field; repeat split; nra.
Qed.
Lemma snC_0 : snC 0 y = iS y. Proof. unfold snC, qd, iS. rewrite (sn_0 k Hk0), (cn_0 k Hk0), (dn_0 k Hk0). apply C_ext; cbn; field; exact Hy. Qed.
Lemma snC_K : snC (legendre_K k) y = RtoC (1 / dn kq y).
Proof.
  unfold snC, qd. rewrite (sn_K k Hk0), (cn_K k Hk0). pose proof (dn_pos kq Hq0 y). pose proof (dq2 y) as E. replace (cn kq y * cn kq y + k * k * (sn kq y * sn kq y) * (1 * 1)) with (dn kq y * dn kq y) by lra. apply C_ext; cbn; field; lra.
Qed.
Lemma snC_neg x : snC (- x) y = (- Cconj (snC x y))%Cx.
Proof. unfold snC, qd. rewrite (sn_neg k Hk0), (cn_neg k Hk0), (dn_neg k Hk0). pose proof (qd_pos x y Hy) as Q. unfold qd in Q. apply C_ext; cbn; field; repeat split; nra. Qed.
End Y.
Lemma cn_y0 : cn kq 0 <> 0. Proof. rewrite (cn_0 kq Hq0). lra. Qed.
Lemma snC_real x : snC x 0 = RtoC (sn k x).
Proof. unfold snC, qd. rewrite (sn_0 kq Hq0), (cn_0 kq Hq0), (dn_0 kq Hq0). apply C_ext; cbn; field; lra. Qed.
End Cplx.
