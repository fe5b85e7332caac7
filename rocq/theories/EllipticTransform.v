(** The periods of the transformed function: the degree equation, and the point of the imaginary axis with a given value (used by C61). *)
From Coq Require Import Reals Lra Lia List Psatz.
From Coquelicot Require Import Rcomplements Rbar Hierarchy Continuity Derive AutoDerive.
From Verif Require Import EllipticSpec EllipticAM EllipticRF EllipticInv EllipticJacobi EllipticProto EllipticDegree JacobiReal PolyRoots EllipticRational.
Import ListNotations.
Open Scope R_scope.

Lemma sin2_atan s : sin (atan s) * sin (atan s) = s * s / (1 + s * s).
Proof. assert (P : 0 < 1 + s * s) by (assert (0 <= s * s) by exact (Rle_0_sqr _); lra). rewrite sin_atan. replace (1 + s²) with (1 + s * s) by reflexivity. pose proof (sqrt_lt_R0 _ P). replace (s / sqrt (1 + s * s) * (s / sqrt (1 + s * s))) with (s * s / (sqrt (1 + s * s) * sqrt (1 + s * s))) by (field; lra). rewrite sqrt_sqrt by lra. reflexivity. Qed.
Section ODE.
Variables (h : R) (U U' : R -> R) (la L : R).
Hypothesis Hh : 0 <= h < 1.
Hypothesis HL : 0 < L.
Hypothesis Hla : 0 < la.
Hypothesis U0 : U 0 = 0.
Hypothesis Uc : continuity_pt U 0.
Hypothesis Ud : forall x : R, 0 < x < L -> is_derive U x (U' x).
Hypothesis Up : forall x, 0 < x < L -> 0 < U x.
Hypothesis Up' : forall x, 0 < x < L -> 0 < U' x.
Hypothesis Ue : forall x, 0 < x < L -> U' x * U' x = 4 * (la * la) * (U x * (1 + U x) * (1 + (1 - h * h) * U x)).
Definition hh x := legendre_F h (atan (sqrt (U x))).
Lemma hh_derive (x : R) : 0 < x < L -> is_derive hh x la.
Proof.
  intros Hx. pose proof (Up x Hx) as P. pose proof (Up' x Hx) as P'. set (u := U x) in *. set (s := sqrt u). assert (S0 : 0 < s) by now apply sqrt_lt_R0. assert (S2 : s * s = u) by (apply sqrt_sqrt; lra).
  assert (D : is_derive (fun x => atan (sqrt (U x))) x (U' x / (2 * s * (1 + u)))). { assert (X : ex_derive (fun x => U x) x) by (eexists; now apply Ud). auto_derive; [adside; exact P|]. replace (Derive (fun x => U x) x) with (U' x) by (symmetry; apply (is_derive_unique U x _ (Ud x Hx))). fold u s. rewrite !Rmult_1_r, S2. field. lra. }
  pose proof (is_derive_comp (legendre_F h) (fun x => atan (sqrt (U x))) x _ _ (F_derive h Hh (atan (sqrt (U x)))) D) as C. fold u s in C. replace la with (scal (U' x / (2 * s * (1 + u))) (/ sqrt (1 - h * h * (sin (atan s) * sin (atan s))))); [exact C|]. unfold scal. cbn. unfold mult. cbn. rewrite sin2_atan, S2.
  assert (h2 : 0 <= h * h < 1) by nra. assert (E : 1 - h * h * (u / (1 + u)) = (1 + (1 - h * h) * u) / (1 + u)) by (field; lra). rewrite E. assert (N : 0 < 1 + (1 - h * h) * u) by nra. assert (Nq : 0 < (1 + (1 - h * h) * u) / (1 + u)) by (apply Rdiv_lt_0_compat; lra). set (r := sqrt ((1 + (1 - h * h) * u) / (1 + u))). assert (R0 : 0 < r) by now apply sqrt_lt_R0. assert (R2 : r * r = (1 + (1 - h * h) * u) / (1 + u)) by (apply sqrt_sqrt; lra).
  set (X := U' x / (2 * s * (1 + u)) * / r). assert (X0 : 0 < X) by (unfold X; apply Rmult_lt_0_compat; [apply Rdiv_lt_0_compat; [exact P'|nra]|now apply Rinv_0_lt_compat]). assert (X2 : X * X = la * la). { unfold X. replace (U' x / (2 * s * (1 + u)) * / r * (U' x / (2 * s * (1 + u)) * / r)) with (U' x * U' x / (4 * (s * s) * ((1 + u) * (1 + u)) * (r * r))) by (field; lra). rewrite R2, S2, (Ue x Hx). fold u. field. lra. }
  nra.
Qed.
Lemma hh_cont0 : continuity_pt hh 0.
Proof.
  assert (C1 : continuity_pt (fun x => sqrt (U x)) 0) by (apply (continuity_pt_comp U sqrt); [exact Uc|apply continuity_pt_sqrt; rewrite U0; lra]). assert (C2 : continuity_pt (fun x => atan (sqrt (U x))) 0) by (apply (continuity_pt_comp (fun x => sqrt (U x)) atan); [exact C1|apply derivable_continuous_pt; apply derivable_pt_atan]).
  apply (continuity_pt_comp (fun x => atan (sqrt (U x))) (legendre_F h)); [exact C2|]. apply continuity_pt_filterlim. apply (ex_derive_continuous (legendre_F h)). eexists. apply (F_derive h Hh).
Qed.
Lemma hh_0 : hh 0 = 0. Proof. unfold hh. rewrite U0, sqrt_0, atan_0. apply legendre_F_0. Qed.
Lemma hh_eq x : 0 <= x < L -> hh x = la * x.
Proof.
  intros Hx. destruct (Req_dec x 0) as [->|N]; [rewrite hh_0; ring|]. destruct (MVT_gen hh 0 x (fun _ => la)) as (c & _ & E).
  - intros y Hy. rewrite Rmin_left, Rmax_right in Hy by lra. apply hh_derive. lra.
  - intros y Hy. rewrite Rmin_left, Rmax_right in Hy by lra. destruct (Req_dec y 0) as [->|Ny]; [exact hh_cont0|]. apply continuity_pt_filterlim. apply (ex_derive_continuous hh). eexists. apply hh_derive. lra.
  - rewrite hh_0 in E. lra.
Qed.
Hypothesis Ui : forall M, exists x, 0 < x < L /\ M < U x.
Lemma period : legendre_K h = la * L.
Proof.
  pose proof PI_RGT_0 as Pi. destruct (Rtotal_order (legendre_K h) (la * L)) as [C|[C|C]]; [|exact C|]; exfalso.
  - set (x := legendre_K h / la). pose proof (K_pos' h Hh) as K0. assert (Hx : 0 <= x < L) by (unfold x; split; [left; now apply Rdiv_lt_0_compat|apply Rlt_div_l; lra]). pose proof (hh_eq x Hx) as E. replace (la * x) with (legendre_K h) in E by (unfold x; field; lra). unfold hh, legendre_K in E. apply (F_inj h Hh) in E. pose proof (atan_bound (sqrt (U x))). lra.
  - set (th := am h (la * L)). assert (T1 : th < PI / 2) by (unfold th; rewrite <- (am_K h Hh); now apply am_incr). assert (T0 : 0 < th) by (unfold th; rewrite <- (am_0 h Hh); apply am_incr; [exact Hh|nra]). assert (t0 : 0 < tan th) by (apply tan_gt_0; lra).
    destruct (Ui (tan th * tan th)) as (x & Hx & M). assert (L1 : th < atan (sqrt (U x))). { rewrite <- (atan_tan th) by lra. apply atan_increasing. rewrite <- (sqrt_square (tan th)) by lra. apply sqrt_lt_1_alt. split; [nra|exact M]. }
    apply (F_strict h Hh) in L1. unfold th in L1. rewrite (am_spec h Hh) in L1. fold (hh x) in L1. rewrite (hh_eq x) in L1 by lra. assert (la * x < la * L) by (apply Rmult_lt_compat_l; lra). lra.
Qed.
End ODE.

Lemma iprod_le l f g : (forall i, In i l -> 0 <= f i <= g i) -> iprod l f <= iprod l g.
Proof.
  intros H. assert (G : 0 <= iprod l f <= iprod l g); [|lra]. induction l as [|a l IH]; [rewrite !iprod_nil; lra|]. rewrite !iprod_cons. destruct (H a (or_introl eq_refl)). destruct IH; [intros i Hi; apply H; now right|]. split; [now apply Rmult_le_pos|]. apply Rmult_le_compat; assumption.
Qed.
Section Transform.
Variable k : R.
Hypothesis Hk : 0 < k < 1.
Variable d : nat.
Notation n := (S d).
Notation P := (P k d).
Notation Q := (Q k d).
Notation T := (T k d).
Notation B := (B k d).
Notation pt := (pt k d).
Notation kap := (kap k d).
Definition mod1 : R := sqrt kap.
Lemma k0 : 0 <= k < 1. Proof. lra. Qed.
Lemma kap_bounds : 0 < kap < 1.
Proof. split; [now apply kap_pos_|now apply kap_lt1_]. Qed.
Lemma mod1_bounds : 0 < mod1 < 1 /\ mod1 * mod1 = kap.
Proof.
  pose proof kap_bounds. unfold mod1. assert (E : sqrt kap * sqrt kap = kap) by (apply sqrt_sqrt; lra). assert (0 < sqrt kap) by (apply sqrt_lt_R0; lra). split; [|exact E]. split; [assumption|]. nra.
Qed.
Lemma compl1 : 0 <= compl mod1 < 1 /\ 1 - compl mod1 * compl mod1 = kap.
Proof. destruct mod1_bounds as [M E]. destruct (compl_bounds mod1 M) as [C1 C2]. split; [lra|]. rewrite C2, E. ring. Qed.
(** the tangent of the imaginary argument *)
Definition tg y : R := sn (compl k) y / cn (compl k) y.
Definition V y : R := - (P (- (tg y * tg y)) / Q (- (tg y * tg y))).
Lemma Hc : 0 <= compl k < 1. Proof. destruct (compl_bounds k Hk). lra. Qed.
Lemma cn_n0 y : - legendre_K (compl k) < y < legendre_K (compl k) -> 0 < cn (compl k) y.
Proof. apply cn_pos. exact Hc. Qed.
Lemma tg_derive (y : R) : cn (compl k) y <> 0 -> is_derive tg y (dn (compl k) y / (cn (compl k) y * cn (compl k) y)).
Proof.
  intros N. pose proof (sn_derive _ Hc y) as Ds. pose proof (cn_derive _ Hc y) as Dc. unfold tg. assert (X : ex_derive (fun x => sn (compl k) x) y) by (eexists; exact Ds). assert (Y : ex_derive (fun x => cn (compl k) x) y) by (eexists; exact Dc). auto_derive; [adside|]. replace (Derive (fun x => sn (compl k) x) y) with (cn (compl k) y * dn (compl k) y) by (symmetry; apply (is_derive_unique _ y _ Ds)). replace (Derive (fun x => cn (compl k) x) y) with (- sn (compl k) y * dn (compl k) y) by (symmetry; apply (is_derive_unique _ y _ Dc)).
  pose proof (sc (compl k) y) as E. field_simplify_eq; [|exact N]. replace (cn (compl k) y ^ 2) with (1 - sn (compl k) y * sn (compl k) y) by (rewrite <- E; ring). ring.
Qed.
Lemma transform_periods : exists la, 0 < la /\ legendre_K mod1 = la * (legendre_K k / INR n) /\ legendre_K (compl mod1) = la * legendre_K (compl k) /\
  forall y, 0 <= y < legendre_K (compl k) -> legendre_F (compl mod1) (atan (sqrt (V y / B))) = la * y.
Proof.
  destruct (wronskian k d) as (p' & q' & DP & DQ & HW). destruct (ode k Hk d p' q' DP DQ HW) as (m & M0 & E). pose proof (B_pos_ k Hk d) as B0. set (la := sqrt (m * B)). assert (L0 : 0 < la) by (apply sqrt_lt_R0; apply Rmult_lt_0_compat; assumption). assert (L2 : la * la = m * B) by (apply sqrt_sqrt; apply Rmult_le_pos; lra). exists la. split; [exact L0|].
  destruct mod1_bounds as [M1 M2]. destruct compl1 as [C1 C2]. pose proof kap_bounds as Kb. set (W := W k d p' q') in *.
  assert (HP1 : pt 1 = legendre_K k / INR n) by (unfold EllipticRational.pt; cbn [INR]; unfold Rdiv; ring). assert (p1 : 0 < pt 1) by (rewrite <- (pt_0 k d); apply pt_lt; [exact Hk|lia]).
  assert (p1K : pt 1 <= legendre_K k) by (rewrite <- (pt_n k d); destruct d; [lra|left; apply pt_lt; [exact Hk|lia]]).
  (* the real axis *)
  assert (Range : forall x, 0 < x < pt 1 -> 0 < T x < B /\ 0 < sn k x * sn k x < rho k d 1 /\ sn k x * sn k x < 1).
  { intros x Hx. assert (S0 : 0 < sn k x) by (apply sn_pos; [exact k0|lra]). assert (S1 : sn k x < sn k (pt 1)) by (apply sn_incr; [exact k0|lra|lra|lra]). assert (S1' : sn k x < 1) by (apply sn_lt1; [exact k0|lra]). assert (S2 : 0 < sn k x * sn k x < rho k d 1) by (unfold rho; nra). split; [|split; [exact S2|nra]].
    assert (T0 : 0 < T x). { unfold EllipticRational.T. assert (0 < Fp k d x) by (apply Fp_pos_; [exact Hk|]; split; [lra|]; pose proof (pt_lt k Hk d 1 2 ltac:(lia)); lra). nra. } split; [exact T0|].
    destruct (SS_form_ k Hk d) as (c & c0 & Es). specialize (Es (sn k x * sn k x)). rewrite <- (F_sq k Hk d x) in Es. pose proof (Q_pos k Hk d _ (q_lt_ k Hk d x)) as Q0. set (qq := Q (sn k x * sn k x)) in *. set (q := sn k x * sn k x) in *.
    assert (Pp : 0 < iprod (seq 1 d) (fun i => (q - rho k d i) * (q - rho k d i))). { apply iprod_pos. intros i Hi. apply in_seq in Hi. assert (rho k d 1 <= rho k d i) by (destruct (Nat.eq_dec i 1) as [->|]; [lra|left; apply rho_lt; [exact Hk|lia|lia]]). nra. }
    assert (R0 : 0 < c * (q * (1 - q)) * iprod (seq 1 d) (fun i => (q - rho k d i) * (q - rho k d i))). { apply Rmult_lt_0_compat; [apply Rmult_lt_0_compat; [exact c0|]|exact Pp]. apply Rmult_lt_0_compat; [lra|]. unfold q. nra. }
    rewrite <- Es in R0. replace (T x * qq * (B * qq - T x * qq)) with (T x * (qq * qq) * (B - T x)) in R0 by ring. assert (0 < T x * (qq * qq)) by (apply Rmult_lt_0_compat; [exact T0|nra]). nra. }
  set (T' := fun x => W (sn k x * sn k x) / (Q (sn k x * sn k x) * Q (sn k x * sn k x)) * (2 * (sn k x * (cn k x * dn k x)))). assert (DT : forall x : R, is_derive T x (T' x)) by (intros x; exact (T_derive k Hk d p' q' DP DQ x)).
  assert (T'p : forall x, 0 < x < pt 1 -> 0 < T' x). { intros x Hx. destruct (Range x Hx) as (_ & Rq & _). unfold T'. pose proof (Q_pos k Hk d _ (q_lt_ k Hk d x)) as Q0. assert (0 < W (sn k x * sn k x)) by (apply (W_pos k Hk d p' q' DP DQ HW); lra). assert (0 < sn k x) by (apply sn_pos; [exact k0|lra]). assert (0 < cn k x) by (apply cn_pos; [exact k0|lra]). pose proof (dn_pos k k0 x). apply Rmult_lt_0_compat; [apply Rdiv_lt_0_compat; [assumption|nra]|]. repeat apply Rmult_lt_0_compat; lra. }
  assert (T'e : forall x, 0 < x < pt 1 -> T' x * T' x = 4 * m * (T x * (B - T x) * (B - kap * T x))). { intros x Hx. destruct (Range x Hx) as (_ & Rq & _). specialize (E (sn k x * sn k x) ltac:(lra)). rewrite <- (F_sq k Hk d x) in E. pose proof (Q_pos k Hk d _ (q_lt_ k Hk d x)) as Q0. unfold T'. pose proof (sc k x) as E1. pose proof (dn2 k k0 x) as E2. set (q := sn k x * sn k x) in *. set (qq := Q q) in *. set (w := W q) in *. change (EllipticRational.W k d p' q' q) with w in E.
    replace (w / (qq * qq) * (2 * (sn k x * (cn k x * dn k x))) * (w / (qq * qq) * (2 * (sn k x * (cn k x * dn k x))))) with (4 * (q * (cn k x * cn k x) * (dn k x * dn k x) * (w * w)) / (qq * qq * qq * qq)) by (unfold q; field; lra). rewrite E1, E2. fold q. rewrite E. field. lra. }
  (* the imaginary axis *)
  set (Kc := legendre_K (compl k)). destruct (compl_bounds k Hk) as [Cb Cc]. assert (Kc0 : 0 < Kc) by (apply K_pos'; exact Hc).
  set (U' := fun y => W (- (tg y * tg y)) / (Q (- (tg y * tg y)) * Q (- (tg y * tg y))) * (2 * (tg y * (dn (compl k) y / (cn (compl k) y * cn (compl k) y)))) / B).
  assert (Qn : forall t, 0 < Q (- (t * t))) by (intros t; apply Q_pos; [exact Hk|]; assert (0 <= t * t) by exact (Rle_0_sqr _); nra).
  assert (DU : forall y : R, cn (compl k) y <> 0 -> is_derive (fun y => V y / B) y (U' y)).
  { intros y N. pose proof (Qn (tg y)) as Q0. pose proof (tg_derive y N) as Dt. set (t' := dn (compl k) y / (cn (compl k) y * cn (compl k) y)) in *. assert (Dq : is_derive (fun y => - (tg y * tg y)) y (- (2 * (tg y * t')))). { assert (X : ex_derive (fun x => tg x) y) by (eexists; exact Dt). auto_derive; [adside|]. replace (Derive (fun x => tg x) y) with t' by (symmetry; apply (is_derive_unique tg y _ Dt)). ring. }
    pose proof (is_derive_comp (fun q => P q / Q q) (fun y => - (tg y * tg y)) y _ _ (theta_derive k d p' q' DP DQ (- (tg y * tg y)) ltac:(lra)) Dq) as C. unfold scal in C. cbn in C. unfold mult in C. cbn in C. fold W in C.
    set (g := fun y => P (- (tg y * tg y)) / Q (- (tg y * tg y))) in *. change (is_derive (fun y => - g y / B) y (U' y)). assert (X : ex_derive (fun x => g x) y) by (eexists; exact C). auto_derive; [adside|]. replace (Derive (fun x => g x) y) with (- (2 * (tg y * t')) * (W (- (tg y * tg y)) / (Q (- (tg y * tg y)) * Q (- (tg y * tg y))))) by (symmetry; apply (is_derive_unique g y _ C)). unfold U'. fold t'. field. lra. }
  assert (V0 : V 0 / B = 0). { unfold V, tg. rewrite (sn_0 _ Hc). replace (- (0 / cn (compl k) 0 * (0 / cn (compl k) 0))) with 0 by (unfold Rdiv; ring). rewrite P_0. unfold Rdiv. ring. }
  assert (Vc : continuity_pt (fun y => V y / B) 0). { apply continuity_pt_filterlim. apply (ex_derive_continuous (fun y => V y / B)). eexists. apply DU. rewrite (cn_0 _ Hc). lra. }
  assert (tgp : forall y, 0 < y < Kc -> 0 < tg y). { intros y Hy. unfold tg. apply Rdiv_lt_0_compat; [apply sn_pos; [exact Hc|unfold Kc in Hy; lra]|apply cn_pos; [exact Hc|unfold Kc in Hy; lra]]. }
  assert (cnp : forall y, 0 < y < Kc -> 0 < cn (compl k) y) by (intros y Hy; apply cn_pos; [exact Hc|unfold Kc in Hy; lra]).
  assert (Vform : forall y, V y = tg y * tg y * iprod (seq 1 d) (fun i => sg k d i + tg y * tg y) / Q (- (tg y * tg y))). { intros y. unfold V, EllipticRational.P. rewrite (iprod_ext _ (fun i => sg k d i - - (tg y * tg y)) (fun i => sg k d i + tg y * tg y)) by (intros; ring). pose proof (Qn (tg y)). field. lra. }
  assert (Vp : forall y, 0 < y < Kc -> 0 < V y). { intros y Hy. rewrite Vform. pose proof (tgp y Hy). apply Rdiv_lt_0_compat; [|apply Qn]. apply Rmult_lt_0_compat; [nra|]. apply iprod_pos. intros i Hi. apply in_seq in Hi. pose proof (sg_range k Hk d i ltac:(lia)). nra. }
  assert (U'p : forall y, 0 < y < Kc -> 0 < U' y). { intros y Hy. unfold U'. pose proof (Qn (tg y)) as Q0. pose proof (tgp y Hy) as t0. pose proof (cnp y Hy) as c0. pose proof (dn_pos _ Hc y) as dp. apply Rdiv_lt_0_compat; [|exact B0]. apply Rmult_lt_0_compat.
    - apply Rdiv_lt_0_compat; [|nra]. apply (W_pos k Hk d p' q' DP DQ HW). assert (0 < rho k d 1) by (unfold rho; pose proof (sn_pos k k0 (pt 1) ltac:(lra)); nra). nra.
    - apply Rmult_lt_0_compat; [lra|]. apply Rmult_lt_0_compat; [exact t0|]. apply Rdiv_lt_0_compat; [exact dp|nra]. }
  assert (U'e : forall y, 0 < y < Kc -> U' y * U' y = 4 * (la * la) * (V y / B * (1 + V y / B) * (1 + (1 - compl mod1 * compl mod1) * (V y / B)))).
  { intros y Hy. rewrite C2, L2. pose proof (Qn (tg y)) as Q0. pose proof (tgp y Hy) as t0. pose proof (cnp y Hy) as c0. unfold U', V. pose proof (E (- (tg y * tg y)) ltac:(nra)) as Eq. change (EllipticRational.W k d p' q' (- (tg y * tg y))) with (W (- (tg y * tg y))) in Eq.
    assert (t'2 : dn (compl k) y / (cn (compl k) y * cn (compl k) y) * (dn (compl k) y / (cn (compl k) y * cn (compl k) y)) = (1 + tg y * tg y) * (1 + k * k * (tg y * tg y))). { pose proof (sc (compl k) y) as S1. pose proof (dn2 _ Hc y) as S2. unfold tg. replace (dn (compl k) y / (cn (compl k) y * cn (compl k) y) * (dn (compl k) y / (cn (compl k) y * cn (compl k) y))) with (dn (compl k) y * dn (compl k) y / (cn (compl k) y * cn (compl k) y * (cn (compl k) y * cn (compl k) y))) by (field; lra). rewrite S2, Cc. set (c2 := cn (compl k) y * cn (compl k) y) in *. assert (0 < c2) by (unfold c2; nra). replace (sn (compl k) y / cn (compl k) y * (sn (compl k) y / cn (compl k) y)) with (sn (compl k) y * sn (compl k) y / c2) by (unfold c2; field; lra). replace (sn (compl k) y * sn (compl k) y) with (1 - c2) by lra. field. lra. }
    set (t' := dn (compl k) y / (cn (compl k) y * cn (compl k) y)) in *. set (q := - (tg y * tg y)) in *. assert (t2 : tg y * tg y = - q) by (unfold q; ring). set (w := W q) in *. set (pp := P q) in *. set (qq := Q q) in *.
    transitivity (4 * (tg y * tg y * (t' * t') * (w * w)) / (qq * qq * qq * qq * (B * B))). { field. lra. } rewrite t'2, t2. transitivity (- (4 * (q * (1 - q) * (1 - k * k * q) * (w * w))) / (qq * qq * qq * qq * (B * B))). { field. lra. } rewrite Eq. field. lra. }
  assert (Ui : forall M, exists y, 0 < y < Kc /\ M < V y / B).
  { intros M. pose proof PI_RGT_0. assert (Sp : 0 < iprod (seq 1 d) (sg k d)) by (apply iprod_pos; intros i Hi; apply in_seq in Hi; apply sg_range; [exact Hk|lia]). set (sp := iprod (seq 1 d) (sg k d)) in *. set (t := Rmax M 0 * B / sp + 1). assert (M0' : 0 <= Rmax M 0) by apply Rmax_r. assert (M1' : M <= Rmax M 0) by apply Rmax_l. assert (t1 : 1 <= t). { unfold t. assert (0 <= Rmax M 0 * B / sp) by (apply Rmult_le_pos; [apply Rmult_le_pos; lra|left; now apply Rinv_0_lt_compat]). lra. }
    set (th := atan t). assert (T0 : 0 < th) by (unfold th; rewrite <- atan_0; apply atan_increasing; lra). assert (T1 : th < PI / 2) by apply atan_bound. exists (legendre_F (compl k) th). split. { split; [rewrite <- (legendre_F_0 (compl k)); apply (F_strict _ Hc); lra|unfold Kc, legendre_K; apply (F_strict _ Hc); lra]. }
    assert (Et : tg (legendre_F (compl k) th) = t). { unfold tg, sn, cn. rewrite (am_F _ Hc). change (tan th = t). unfold th. apply tan_atan. } rewrite Vform, Et. pose proof (Qn t) as Q0. apply Rlt_le_trans with (t * t * sp / B).
    - apply Rlt_div_r; [exact B0|]. assert (X : Rmax M 0 * B < t * sp). { unfold t. replace ((Rmax M 0 * B / sp + 1) * sp) with (Rmax M 0 * B + sp) by (field; lra). lra. } assert (M * B <= Rmax M 0 * B) by (apply Rmult_le_compat_r; lra). assert (0 < t * sp) by nra. nra.
    - apply Rmult_le_compat_r; [left; now apply Rinv_0_lt_compat|]. apply (proj1 (Rle_div_r _ _ _ Q0)). rewrite Rmult_assoc. apply Rmult_le_compat_l; [nra|]. unfold sp, EllipticRational.Q. rewrite <- iprod_mul. apply iprod_le. intros i Hi. apply in_seq in Hi. destruct (sg_range k Hk d i ltac:(lia)) as [G0 G1]. assert (k * k < 1) by nra. assert (0 < k * k) by nra. assert (0 <= t * t) by nra. cbv beta. split.
      + assert (0 <= k * k * sg k d i * (t * t)) by (apply Rmult_le_pos; [apply Rmult_le_pos; lra|lra]). apply Rmult_le_pos; lra.
      + assert (Y : k * k * (sg k d i * sg k d i) <= 1) by nra. assert (k * k * (sg k d i * sg k d i) * (t * t) <= 1 * (t * t)) by (apply Rmult_le_compat_r; lra). lra. }
  split; [|split].
  - rewrite <- HP1. apply (period mod1 (fun x => T x / (B - T x)) (fun x => B * T' x / ((B - T x) * (B - T x)))); try lra.
    + rewrite (T_0 k Hk d). unfold Rdiv. ring.
    + apply continuity_pt_filterlim. apply (ex_derive_continuous (fun x => T x / (B - T x))). assert (X : ex_derive (fun x => T x) 0) by (eexists; apply DT). auto_derive. adside. rewrite (T_0 k Hk d). lra.
    + intros x Hx. destruct (Range x Hx) as (Rt & _). assert (X : ex_derive (fun x => T x) x) by (eexists; apply DT). auto_derive; [adside; lra|]. replace (Derive (fun x => T x) x) with (T' x) by (symmetry; apply (is_derive_unique T x _ (DT x))). field. lra.
    + intros x Hx. destruct (Range x Hx) as (Rt & _). apply Rdiv_lt_0_compat; lra.
    + intros x Hx. destruct (Range x Hx) as (Rt & _). apply Rdiv_lt_0_compat; [apply Rmult_lt_0_compat; [exact B0|now apply T'p]|nra].
    + intros x Hx. destruct (Range x Hx) as (Rt & _). replace (B * T' x / ((B - T x) * (B - T x)) * (B * T' x / ((B - T x) * (B - T x)))) with (B * B * (T' x * T' x) / ((B - T x) * (B - T x) * (B - T x) * (B - T x))) by (field; lra). rewrite (T'e x Hx), M2, L2. field. lra.
    + intros M. set (M' := Rmax M 1). assert (MM : M <= M' /\ 1 <= M') by (split; [apply Rmax_l|apply Rmax_r]). assert (C : continuity_pt T (pt 1)) by (apply continuity_pt_filterlim; apply (ex_derive_continuous T); eexists; apply DT). destruct (C (B / (2 + M')) ltac:(apply Rdiv_lt_0_compat; lra)) as (al & Al & F). set (x := pt 1 - Rmin (al / 2) (pt 1 / 2)). assert (Mn : 0 < Rmin (al / 2) (pt 1 / 2) <= al / 2 /\ Rmin (al / 2) (pt 1 / 2) <= pt 1 / 2) by (repeat split; [apply Rmin_glb_lt; lra|apply Rmin_l|apply Rmin_r]). assert (Hx : 0 < x < pt 1) by (unfold x; lra). exists x. split; [exact Hx|]. destruct (Range x Hx) as (Rt & _).
      assert (D : Rabs (T x - B) < B / (2 + M')). { apply F. split; [split; [exact I|lra]|]. simpl. unfold R_dist, x. replace (pt 1 - Rmin (al / 2) (pt 1 / 2) - pt 1) with (- Rmin (al / 2) (pt 1 / 2)) by ring. rewrite Rabs_Ropp, Rabs_pos_eq; lra. }
      rewrite Rabs_minus_sym, Rabs_pos_eq in D by lra. apply Rlt_div_r in D; [|lra]. apply Rlt_div_r; [lra|]. apply Rle_lt_trans with (M' * (B - T x)); [apply Rmult_le_compat_r; lra|]. nra.
  - apply (period (compl mod1) (fun y => V y / B) U'); try lra; try assumption; intros y Hy; [apply DU; specialize (cnp y Hy); lra|apply Rdiv_lt_0_compat; [now apply Vp|exact B0]].
  - intros y Hy. apply (hh_eq (compl mod1) (fun y => V y / B) U' la (legendre_K (compl k))); try assumption; intros z Hz; [apply DU; specialize (cnp z Hz); lra|apply Rdiv_lt_0_compat; [now apply Vp|exact B0]].
Qed.
End Transform.
