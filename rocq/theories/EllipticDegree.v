(** The quotient of the complete integrals and the bisection that solves the degree equation (used by C61). *)
From Coq Require Import Reals Lra Lia ZArith List Bool Psatz.
From Coquelicot Require Import Rcomplements Rbar Hierarchy Continuity Derive RInt RInt_gen RInt_analysis AutoDerive ElemFct Lim_seq.
From Verif Require Import Base BaseFacts Complex SolverModel PropsSolver EllipticModel EllipticSpec EllipticAM EllipticRF EllipticInv EllipticJacobi EllipticProto.
Open Scope R_scope.

(** ** Legendre's integral as a function of the modulus *)
Lemma integrand_pos k t : 0 <= k < 1 -> 0 < 1 - k * k * (sin t * sin t).
Proof. intros H. pose proof (sin2_cos2 t) as T. unfold Rsqr in T. assert (0 <= cos t * cos t) by exact (Rle_0_sqr _). assert (0 <= sin t * sin t) by exact (Rle_0_sqr _). assert (k * k < 1) by nra. nra. Qed.
Lemma legendre_diff k l phi : 0 <= k < 1 -> 0 <= l < 1 -> 0 < phi -> exists c, 0 < c < phi /\ legendre_F l phi - legendre_F k phi = (/ sqrt (1 - l * l * (sin c * sin c)) - / sqrt (1 - k * k * (sin c * sin c))) * phi.
Proof.
  intros Hk Hl Hp. set (df := fun t => / sqrt (1 - l * l * (sin t * sin t)) - / sqrt (1 - k * k * (sin t * sin t))).
  assert (D : forall t, derivable_pt_lim (fun p => legendre_F l p - legendre_F k p) t (df t)). { intros t. apply is_derive_Reals. apply (is_derive_minus (V := R_NormedModule) (legendre_F l) (legendre_F k)); now apply legendre_derive_all. }
  destruct (MVT_cor2 (fun p => legendre_F l p - legendre_F k p) df 0 phi Hp (fun c _ => D c)) as (c & E & Hc). exists c. split; [exact Hc|]. unfold df in E. rewrite !legendre_F_0 in E. lra.
Qed.
Lemma legendre_strict k l phi : 0 <= k < l -> l < 1 -> 0 < phi < PI -> legendre_F k phi < legendre_F l phi.
Proof.
  intros Hk Hl Hp. destruct (legendre_diff k l phi ltac:(lra) ltac:(lra) ltac:(lra)) as (c & Hc & E). assert (S : 0 < sin c) by (apply sin_gt_0; lra). assert (S2 : 0 < sin c * sin c) by nra.
  pose proof (integrand_pos k c ltac:(lra)). pose proof (integrand_pos l c ltac:(lra)). assert (K : k * k < l * l) by nra. assert (X : sqrt (1 - l * l * (sin c * sin c)) < sqrt (1 - k * k * (sin c * sin c))) by (apply sqrt_lt_1_alt; nra).
  assert (Y : 0 < sqrt (1 - l * l * (sin c * sin c))) by now apply sqrt_lt_R0. assert (/ sqrt (1 - k * k * (sin c * sin c)) < / sqrt (1 - l * l * (sin c * sin c))) by (apply Rinv_lt_contravar; nra). nra.
Qed.
Lemma K_strict k l : 0 <= k < l -> l < 1 -> legendre_K k < legendre_K l.
Proof. intros H H'. pose proof PI_RGT_0. apply legendre_strict; lra. Qed.
(** where 1 - l^2 sin^2 >= m^2 the integrand is Lipschitz in the modulus *)
Lemma inv_sqrt_lip k l S m : 0 <= k <= l -> l <= 1 -> 0 <= S <= 1 -> 0 < m <= 1 -> m * m <= 1 - l * l * S -> / sqrt (1 - l * l * S) - / sqrt (1 - k * k * S) <= (l - k) / (m * m * m).
Proof.
  intros Hk Hl S0 Hm H. set (A := 1 - l * l * S) in *. set (B := 1 - k * k * S). assert (KL : k * k <= l * l) by (apply Rmult_le_compat; lra). assert (AB : A <= B) by (unfold A, B; apply Rplus_le_compat_l, Ropp_le_contravar, Rmult_le_compat_r; lra). assert (A0 : 0 < A) by nra. assert (a0 : 0 < sqrt A) by now apply sqrt_lt_R0. assert (b0 : 0 < sqrt B) by (apply sqrt_lt_R0; lra). assert (a2 : sqrt A * sqrt A = A) by (apply sqrt_sqrt; lra). assert (b2 : sqrt B * sqrt B = B) by (apply sqrt_sqrt; lra).
  assert (am : m <= sqrt A). { rewrite <- (sqrt_square m) by lra. now apply sqrt_le_1_alt. } assert (bm : m <= sqrt B). { apply Rle_trans with (1 := am). now apply sqrt_le_1_alt. }
  assert (N : B - A <= 2 * (l - k)). { unfold A, B. replace (1 - k * k * S - (1 - l * l * S)) with ((l - k) * ((l + k) * S)) by ring. assert ((l + k) * S <= 2) by nra. nra. }
  set (a := sqrt A) in *. set (b := sqrt B) in *. clearbody a b. rewrite <- a2, <- b2 in N. clear a2 b2 AB A0. clearbody A B.
  assert (ab : 0 < a * b) by nra. assert (D0 : 0 < a * b * (a + b)) by nra. replace (/ a - / b) with ((b * b - a * a) / (a * b * (a + b))). 2:{ field. repeat split; lra. }
  assert (D : 2 * (m * m * m) <= a * b * (a + b)). { assert (m * m <= a * b) by (apply Rmult_le_compat; lra). replace (2 * (m * m * m)) with (m * m * (2 * m)) by ring. apply Rmult_le_compat; try lra. nra. }
  assert (M0 : 0 < m * m * m) by (repeat apply Rmult_lt_0_compat; lra).
  apply Rle_trans with ((2 * (l - k)) / (a * b * (a + b))); [apply Rmult_le_compat_r; [left; now apply Rinv_0_lt_compat|exact N]|]. apply Rle_div_l; [exact D0|]. replace ((l - k) / (m * m * m) * (a * b * (a + b))) with ((l - k) * (a * b * (a + b) / (m * m * m))) by (field; lra). rewrite (Rmult_comm 2). apply Rmult_le_compat_l; [lra|]. apply Rle_div_r; lra.
Qed.
Lemma sin2_range t : 0 <= sin t * sin t <= 1.
Proof. split; [exact (Rle_0_sqr _)|]. pose proof (sin2_cos2 t) as T. unfold Rsqr in T. assert (0 <= cos t * cos t) by exact (Rle_0_sqr _). lra. Qed.
Lemma legendre_lip k l phi m : 0 <= k < l -> l < 1 -> 0 < phi -> 0 < m <= 1 -> (forall t, 0 <= t <= phi -> m * m <= 1 - l * l * (sin t * sin t)) -> legendre_F l phi - legendre_F k phi <= (l - k) / (m * m * m) * phi.
Proof.
  intros Hk Hl Hp Hm H. destruct (legendre_diff k l phi ltac:(lra) ltac:(lra) ltac:(lra)) as (c & Hc & E). rewrite E. apply Rmult_le_compat_r; [lra|]. apply inv_sqrt_lip; try lra; [apply sin2_range|apply H; lra].
Qed.
Lemma K_continuous k : 0 < k < 1 -> continuity_pt legendre_K k.
Proof.
  intros Hk. set (h := (1 + k) / 2). assert (Hh : k < h < 1) by (unfold h; lra). set (m := compl h). destruct (compl_bounds h ltac:(lra)) as [M M2]. fold m in M, M2. assert (M3 : 0 < m * m * m) by (repeat apply Rmult_lt_0_compat; lra). pose proof PI_RGT_0 as P0. set (C := PI / 2 / (m * m * m)). assert (C0 : 0 < C) by (apply Rdiv_lt_0_compat; lra).
  assert (Lip : forall x y, 0 <= x < y -> y <= h -> Rabs (legendre_K y - legendre_K x) <= C * (y - x)).
  { intros x y Hx Hy. pose proof (K_strict x y Hx ltac:(lra)). rewrite Rabs_pos_eq by lra. unfold legendre_K. eapply Rle_trans; [apply (legendre_lip x y (PI / 2) m); try lra|unfold C; right; field; lra].
    intros t _. pose proof (sin2_cos2 t) as T. unfold Rsqr in T. assert (0 <= cos t * cos t) by exact (Rle_0_sqr _). assert (0 <= sin t * sin t) by exact (Rle_0_sqr _). rewrite M2. assert (y * y <= h * h) by nra. nra. }
  intros e He. exists (Rmin (e / C) (Rmin k (h - k))). assert (e0 : 0 < e / C) by (apply Rdiv_lt_0_compat; lra). split; [apply Rmin_glb_lt; [exact e0|apply Rmin_glb_lt; lra]|]. intros x [_ Hx]. unfold Base.lenZ in *. simpl in Hx |- *. unfold R_dist in *.
  pose proof (Rmin_l (e / C) (Rmin k (h - k))). pose proof (Rmin_r (e / C) (Rmin k (h - k))). pose proof (Rmin_l k (h - k)). pose proof (Rmin_r k (h - k)). assert (X1 : Rabs (x - k) < e / C) by lra. assert (X2 : Rabs (x - k) < k) by lra. assert (X3 : Rabs (x - k) < h - k) by lra. apply Rabs_def2 in X2. apply Rabs_def2 in X3.
  apply Rlt_div_r in X1; [|exact C0]. destruct (Rtotal_order x k) as [L|[->|L]].
  - rewrite Rabs_minus_sym. eapply Rle_lt_trans; [apply Lip; lra|]. rewrite Rabs_minus_sym, Rabs_pos_eq in X1 by lra. lra.
  - rewrite Rminus_eq_0, Rabs_R0. exact He.
  - eapply Rle_lt_trans; [apply Lip; lra|]. rewrite Rabs_pos_eq in X1 by lra. lra.
Qed.
(** the complete integral grows without bound *)
Lemma K_unbounded X : exists k, 0 < k < 1 /\ X < legendre_K k.
Proof.
  pose proof PI_RGT_0 as P0. set (x := Rmax 1 (X + 1)). assert (x1 : 1 <= x /\ X + 1 <= x) by (split; [apply Rmax_l|apply Rmax_r]). set (phi := gd x). pose proof (gd_bound x) as B. fold phi in B. pose proof (legendre_gd x) as G. fold phi in G.
  assert (phi0 : 0 < phi). { destruct (Rle_dec phi 0) as [N|]; [|lra]. exfalso. unfold phi, gd in N. assert (E : 1 < exp x) by (rewrite <- exp_0; apply exp_increasing; lra). pose proof (atan_increasing 1 (exp x) E). rewrite atan_1 in *. lra. }
  (* 1 - k^2 sin^2 converges to cos^2 from above *)
  set (g := fun k => legendre_F k phi). assert (cpos : 0 < cos phi) by (apply cos_gt_0; lra).
  assert (Lip : forall k, 0 <= k < 1 -> legendre_F 1 phi - legendre_F k phi <= (1 - k) / (cos phi * cos phi * cos phi) * phi).
  { intros k Hk. set (df := fun t => / sqrt (1 - 1 * 1 * (sin t * sin t)) - / sqrt (1 - k * k * (sin t * sin t))). assert (D : forall t, 0 <= t <= phi -> derivable_pt_lim (fun p => legendre_F 1 p - legendre_F k p) t (df t)). { intros t Ht. apply is_derive_Reals. unfold df. apply (is_derive_minus (V := R_NormedModule) (legendre_F 1) (legendre_F k)); [|now apply legendre_derive_all]. apply legendre_derive; try lra. assert (0 < cos t) by (apply cos_gt_0; lra). pose proof (sin2_cos2 t) as T. unfold Rsqr in T. nra. }
    destruct (MVT_cor2 _ df 0 phi phi0 D) as (c & E & Hc). rewrite !legendre_F_0 in E. replace (legendre_F 1 phi - legendre_F k phi) with (df c * (phi - 0)) by lra. rewrite Rminus_0_r. apply Rmult_le_compat_r; [lra|]. unfold df. apply inv_sqrt_lip; try lra; [apply sin2_range|split; [lra|apply COS_bound]|]. assert (cos phi <= cos c) by (apply cos_decr_1; lra). pose proof (sin2_cos2 c) as T. unfold Rsqr in T. nra. }
  set (M := cos phi * cos phi * cos phi / phi) in *. assert (M0 : 0 < M) by (unfold M; apply Rdiv_lt_0_compat; [repeat apply Rmult_lt_0_compat|]; lra). set (d := Rmin (1 / 2) (M / 2)). assert (d1 : d <= 1 / 2) by apply Rmin_l. assert (d2 : d <= M / 2) by apply Rmin_r. assert (d0 : 0 < d) by (apply Rmin_glb_lt; lra).
  exists (1 - d). split; [lra|]. specialize (Lip (1 - d) ltac:(lra)). replace (1 - (1 - d)) with d in Lip by ring. replace (d / (cos phi * cos phi * cos phi) * phi) with (d / M) in Lip by (unfold M; field; lra). assert (d / M <= 1 / 2) by (apply Rle_div_l; lra). pose proof (legendre_mono (1 - d) phi (PI / 2) ltac:(lra) ltac:(lra)). unfold legendre_K. lra.
Qed.

(** ** The quotient K(k) / K(k') *)
Definition Kq (k : R) : R := legendre_K k / legendre_K (compl k).
Lemma compl_decr k l : 0 < k < l -> l < 1 -> compl l < compl k.
Proof. intros H H'. unfold compl. apply sqrt_lt_1_alt. nra. Qed.
Lemma compl_compl k : 0 < k < 1 -> compl (compl k) = k.
Proof. intros H. destruct (compl_bounds k H) as [_ C]. unfold compl at 1. rewrite C. replace (1 - (1 - k * k)) with (k * k) by ring. apply sqrt_square. lra. Qed.
Lemma Kq_pos k : 0 < k < 1 -> 0 < Kq k.
Proof. intros H. destruct (compl_bounds k H) as [C _]. apply Rdiv_lt_0_compat; now apply K_pos. Qed.
Lemma Kq_incr k l : 0 < k < l -> l < 1 -> Kq k < Kq l.
Proof.
  intros H H'. destruct (compl_bounds k ltac:(lra)) as [Ck _]. destruct (compl_bounds l ltac:(lra)) as [Cl _]. pose proof (K_strict k l ltac:(lra) H') as S1. pose proof (compl_decr k l H H') as D. pose proof (K_strict (compl l) (compl k) ltac:(lra) ltac:(lra)) as S2. pose proof (K_pos k ltac:(lra)). pose proof (K_pos _ Cl). pose proof (K_pos _ Ck).
  unfold Kq. apply Rlt_div_l; [lra|]. replace (legendre_K l / legendre_K (compl l) * legendre_K (compl k)) with (legendre_K l * (legendre_K (compl k) / legendre_K (compl l))) by (field; lra). assert (1 < legendre_K (compl k) / legendre_K (compl l)) by (apply Rlt_div_r; lra). nra.
Qed.
Lemma Kq_continuous k : 0 < k < 1 -> continuity_pt Kq k.
Proof.
  intros H. destruct (compl_bounds k H) as [C _]. unfold Kq. apply continuity_pt_div.
  - now apply K_continuous.
  - apply (continuity_pt_comp compl legendre_K); [|now apply K_continuous]. unfold compl. apply (continuity_pt_comp (fun k => 1 - k * k) sqrt); [reg|]. apply continuity_pt_sqrt. nra.
  - pose proof (K_pos _ C). lra.
Qed.
Lemma Kq_onto q : 0 < q -> exists k, 0 < k < 1 /\ Kq k = q.
Proof.
  intros Hq. pose proof PI_RGT_0 as P0. pose proof PI2_1 as P1. set (h := / 2). assert (Hh : 0 < h < 1) by (unfold h; lra). destruct (compl_bounds h Hh) as [Ch _]. pose proof (K_pos h Hh) as KH. pose proof (K_pos _ Ch) as KC.
  (* above *) destruct (K_unbounded (Rmax (q * legendre_K (compl h)) (legendre_K h))) as (u & Hu & U). pose proof (Rmax_l (q * legendre_K (compl h)) (legendre_K h)). pose proof (Rmax_r (q * legendre_K (compl h)) (legendre_K h)).
  assert (hu : h < u). { destruct (Rlt_dec h u) as [|N]; [assumption|]. exfalso. destruct (Req_dec u h) as [->|N']; [lra|]. pose proof (K_strict u h ltac:(lra) ltac:(lra)). lra. }
  assert (Qu : q < Kq u). { destruct (compl_bounds u Hu) as [Cu _]. pose proof (compl_decr h u ltac:(lra) ltac:(lra)) as D. pose proof (K_strict (compl u) (compl h) ltac:(lra) ltac:(lra)) as S. pose proof (K_pos _ Cu). unfold Kq. apply Rlt_div_r; [lra|]. nra. }
  (* below *) destruct (K_unbounded (Rmax (legendre_K h / q) (legendre_K (compl h)))) as (v & Hv & V). pose proof (Rmax_l (legendre_K h / q) (legendre_K (compl h))). pose proof (Rmax_r (legendre_K h / q) (legendre_K (compl h))).
  assert (hv : compl h < v). { destruct (Rlt_dec (compl h) v) as [|N]; [assumption|]. exfalso. destruct (Req_dec v (compl h)) as [->|N']; [lra|]. pose proof (K_strict v (compl h) ltac:(lra) ltac:(lra)). lra. }
  destruct (compl_bounds v Hv) as [Cv _]. assert (lh : compl v < h) by (pose proof (compl_decr (compl h) v ltac:(lra) ltac:(lra)) as D; rewrite compl_compl in D by exact Hh; exact D).
  assert (Ql : Kq (compl v) < q). { unfold Kq. rewrite compl_compl by exact Hv. pose proof (K_strict (compl v) h ltac:(lra) ltac:(lra)) as S. pose proof (K_pos v Hv). apply Rlt_div_l; [lra|]. assert (W : legendre_K h / q < legendre_K v) by lra. apply Rlt_div_l in W; [|exact Hq]. lra. }
  destruct (root_between (fun k => Kq k - q) (compl v) u) as (r & Hr & Er).
  - intros x Hx. unfold between in Hx. rewrite Rmin_left, Rmax_right in Hx by lra. apply continuity_pt_minus; [apply Kq_continuous; lra|apply continuity_pt_const; now intros y z].
  - nra.
  - unfold between in Hr. rewrite Rmin_left, Rmax_right in Hr by lra. exists r. split; [lra|]. lra.
Qed.
Lemma Kq_lt_inv k l : 0 < k < 1 -> 0 < l < 1 -> Kq k < Kq l -> k < l.
Proof. intros Hk Hl H. destruct (Rtotal_order k l) as [|[->|N]]; [assumption|lra|]. pose proof (Kq_incr l k ltac:(lra) ltac:(lra)). lra. Qed.

(** ** The bisection *)
Lemma bisect_bracket f : f 0 < 0 -> forall limit a b err, 0 <= a < b -> b <= 1 -> f a < 0 -> (b = 1 \/ 0 <= f b) -> (b - a) / 2 < err ->
  exists a' b', bisect_loop limit f 0 a b ((a + b) / 2) err = (a' + b') / 2 /\ 0 <= a' < b' /\ b' <= 1 /\ f a' < 0 /\ (b' = 1 \/ 0 <= f b') /\ b' - a' = (b - a) / 2 ^ limit.
Proof.
  intros F0. induction limit as [|limit IH]; intros a b err Ha Hb Fa Fb He.
  - exists a, b. cbn [bisect_loop pow]. rewrite Rdiv_1. repeat split; try lra; assumption.
  - cbn [bisect_loop]. cbv zeta. destruct (Rle_dec (f a * f ((a + b) / 2)) 0) as [S|S].
    + assert (Fc : 0 <= f ((a + b) / 2)) by nra. assert (W : Rabs ((a + b) / 2 - a) = (b - a) / 2) by (rewrite Rabs_pos_eq; lra). rewrite W. destruct (Rlt_dec 0 ((b - a) / 2)); [|lra]. destruct (Rlt_dec ((b - a) / 2) err); [|lra].
      destruct (IH a ((a + b) / 2) ((b - a) / 2)) as (a' & b' & E & A & B & FA & FB & D); try lra; try (now right). exists a', b'. split; [exact E|]. repeat split; try lra; try assumption. rewrite D. cbn [pow]. field. apply pow_nonzero. lra.
    + assert (Fc : f ((a + b) / 2) < 0) by nra. assert (W : Rabs (b - (a + b) / 2) = (b - a) / 2) by (rewrite Rabs_pos_eq; lra). rewrite W. destruct (Rlt_dec 0 ((b - a) / 2)); [|lra]. destruct (Rlt_dec ((b - a) / 2) err); [|lra].
      destruct (IH ((a + b) / 2) b ((b - a) / 2)) as (a' & b' & E & A & B & FA & FB & D); try lra; try assumption. exists a', b'. split; [exact E|]. repeat split; try lra; try assumption. rewrite D. cbn [pow]. field. apply pow_nonzero. lra.
Qed.
(** the value a sequence of functions settles on *)
Definition settled (f : nat -> R -> R) (x : R) : R := real (Lim_seq (fun n => f n x)).
Lemma settled_eq f x : (exists N, forall n, (N <= n)%nat -> f n x = f N x) -> exists N, forall n, (N <= n)%nat -> f n x = settled f x.
Proof.
  intros [N H]. exists N. intros n Hn. rewrite (H n Hn). unfold settled. rewrite (Lim_seq_ext_loc _ (fun _ => f N x)); [now rewrite Lim_seq_const|]. exists N. intros m Hm. now apply H.
Qed.
Lemma bisect_settled (f : nat -> R -> R) tol : (forall x, 0 <= x < 1 -> exists N, forall n, (N <= n)%nat -> f n x = f N x) ->
  forall limit a b c err, 0 <= a < 1 -> 0 <= c < 1 -> 0 <= b <= 1 -> exists N, forall n, (N <= n)%nat -> bisect_loop limit (f n) tol a b c err = bisect_loop limit (settled f) tol a b c err.
Proof.
  intros H. induction limit as [|limit IH]; intros a b c err Ha Hc Hb; [exists O; reflexivity|]. destruct (settled_eq f a (H a Ha)) as [Na Fa]. destruct (settled_eq f c (H c Hc)) as [Nc Fc].
  assert (G : exists N, forall n, (N <= n)%nat -> let '(a', b') := if Rle_dec (settled f a * settled f c) 0 then (a, c) else (c, b) in bisect_loop limit (f n) tol a' b' ((a' + b') / 2) (Rabs (b' - a')) = bisect_loop limit (settled f) tol a' b' ((a' + b') / 2) (Rabs (b' - a'))).
  { destruct (Rle_dec (settled f a * settled f c) 0) as [Hs|Hs]; apply IH; lra. }
  destruct G as (N & G). exists (max N (max Na Nc)). intros n Hn. cbn [bisect_loop]. cbv zeta. rewrite (Fa n), (Fc n) by lia. specialize (G n ltac:(lia)). destruct (if Rle_dec (settled f a * settled f c) 0 then (a, c) else (c, b)) as [a' b']. destruct (Rlt_dec tol _); [|reflexivity]. destruct (Rlt_dec _ err); [exact G|reflexivity].
Qed.

(** ** With enough precision the design is well conditioned *)
Lemma quot_err e A B a b : 0 < e <= 1 / 1000 -> 0 < A -> 0 < B -> Rabs (a - A) <= e / 4 * A -> Rabs (b - B) <= e / 4 * B -> 0 < b /\ A / B * (1 - e) <= a / b <= A / B * (1 + e).
Proof.
  intros He HA HB Ha Hb. apply Rabs_le_between in Ha. apply Rabs_le_between in Hb. assert (b0 : 0 < b) by nra. split; [exact b0|]. split.
  - apply (proj1 (Rle_div_r _ _ _ b0)). replace (A / B * (1 - e) * b) with (A * ((1 - e) * (b / B))) by (field; lra). assert (b / B <= 1 + e / 4) by (apply Rle_div_l; lra). assert ((1 - e) * (b / B) <= 1 - e / 4) by nra. nra.
  - apply (proj2 (Rle_div_l _ _ _ b0)). replace (A / B * (1 + e) * b) with (A * ((1 + e) * (b / B))) by (field; lra). assert (1 - e / 4 <= b / B) by (apply Rle_div_r; lra). assert (1 + e / 4 <= (1 + e) * (b / B)) by nra. nra.
Qed.
Lemma params_ek eps fuel tmax limit order pr sr p a1 a2 : 0 < pr -> 0 < sr -> sr < 1 - pr -> EllipticK eps fuel (selectivity pr sr) = Ok (Fin a1) -> EllipticK eps fuel (compl (selectivity pr sr)) = Ok (Fin a2) -> EllipticOrderRipples eps fuel tmax limit order pr sr = Ok p ->
  ek p = Bisect tmax limit (fun k => K_quotient eps fuel k - IZR order * a1 / a2) 0 1 0.
Proof.
  intros P S L F1 F2 E. destruct (ripple_factor_pos pr ltac:(lra)) as [R0 R1]. destruct (stop_factor pr sr P S L) as (H1 & H2 & H3). unfold EllipticOrderRipples in E.
  unfold fdiv_ at 1 in E. destruct (Req_EM_T (1 - 2 * pr + pr * pr) 0); [discriminate|]. cbn [bind] in E. unfold sqrt_ at 1 in E. destruct (Rle_dec 0 ((2 * pr - pr * pr) / (1 - 2 * pr + pr * pr))) as [q|]; [|discriminate]. cbn [bind] in E. rewrite R1 in E. unfold fdiv_ at 1 in E. destruct (Req_EM_T (sr * sr) 0); [discriminate|]. cbn [bind] in E.
  unfold sqrt_ at 1 in E. destruct (Rle_dec 0 (1 / (sr * sr) - 1)); [|discriminate]. cbn [bind] in E. rewrite H3 in E. unfold fdiv_ at 1 in E. destruct (Req_EM_T (sqrt (1 / sr ^ 2 - 1)) 0); [discriminate|]. cbn [bind] in E. fold (selectivity pr sr) in E.
  unfold sqrt_ at 1 in E. destruct (Rle_dec 0 (1 - selectivity pr sr * selectivity pr sr)); [|discriminate]. cbn [bind] in E. fold (compl (selectivity pr sr)) in E. rewrite F1, F2 in E. cbn [bind finite] in E. unfold fdiv_ in E. destruct (Req_EM_T a2 0); [discriminate|]. cbn [bind] in E.
  destruct (EllipticK eps fuel (Bisect _ _ _ _ _ _)) as [v| |]; [|discriminate|discriminate]. cbn [bind] in E. destruct (finite v); [|discriminate|discriminate]. cbn [bind] in E. injection E as <-. reflexivity.
Qed.
Lemma half_small y : 0 < y -> exists L, forall n, (L <= n)%nat -> 1 / 2 ^ n < y.
Proof. intros Hy. destruct (pow_lt_1_zero (/ 2)) with (y := y) as [L H]; [rewrite Rabs_pos_eq; lra|exact Hy|]. exists L. intros n Hn. specialize (H n Hn). rewrite Rabs_pos_eq in H by (apply pow_le; lra). rewrite pow_inv in H. unfold Rdiv. lra. Qed.
Definition degree (order : Z) (pr sr : R) : R := IZR order * Kq (selectivity pr sr).
Lemma degree_bracket eps tmax limit order pr sr : 0 < eps <= / 2 ^ 22 -> 1 <= tmax -> (0 < order)%Z -> 0 < pr -> 0 < sr -> sr < 1 - pr ->
  exists N p a b, (forall fuel, (N <= fuel)%nat -> EllipticOrderRipples eps fuel tmax limit order pr sr = Ok p) /\ ek p = (a + b) / 2 /\ 0 <= a < b /\ b <= 1 /\ b - a = 1 / 2 ^ limit /\
    (a = 0 \/ Kq a <= degree order pr sr * (1 + 3 * eps)) /\ (b = 1 \/ degree order pr sr * (1 - 3 * eps) <= Kq b).
Proof.
  intros He' Ht Ho P S HL. assert (P22 : / 2 ^ 22 <= 1 / 1000000) by (cbn [pow]; lra). pose proof (selectivity_bounds pr sr P S HL) as SB. destruct (compl_bounds _ SB) as [CB _]. unfold degree. set (s := selectivity pr sr) in *.
  pose proof (K_pos _ SB) as K1. pose proof (K_pos _ CB) as K1'. assert (N0 : 0 < IZR order) by (apply IZR_lt; lia). set (n := IZR order) in *. unfold Kq at 2 3. set (Qs := n * (legendre_K s / legendre_K (compl s))). assert (Q0 : 0 < Qs) by (unfold Qs; apply Rmult_lt_0_compat; [exact N0|now apply Rdiv_lt_0_compat]).
  destruct (params_total eps tmax limit order pr sr He' Ho P S HL) as (N & p & F). exists N, p.
  destruct (K_total eps s He' ltac:(lra)) as (N1 & a1 & F1 & B1). destruct (K_total eps (compl s) He' ltac:(lra)) as (N2 & a2 & F2 & B2). destruct (quot_err eps _ _ a1 a2 ltac:(lra) K1 K1' B1 B2) as (A2 & R1 & R2). set (c := n * a1 / a2).
  assert (c1 : Qs * (1 - eps) <= c <= Qs * (1 + eps)). { unfold c, Qs. replace (n * a1 / a2) with (n * (a1 / a2)) by (field; lra). rewrite !Rmult_assoc. split; (apply Rmult_le_compat_l; [lra|assumption]). }
  set (g := fun m k => K_quotient eps m k - c). assert (St : forall x, 0 <= x < 1 -> exists N, forall m, (N <= m)%nat -> g m x = g N x). { intros x Hx. destruct (quotient_stable eps x He' Hx) as [M HM]. exists M. intros m Hm. unfold g. now rewrite (HM m Hm). }
  assert (Ek : ek p = Bisect tmax limit (settled g) 0 1 0). { destruct (bisect_settled g 0 St limit 0 1 ((0 + 1) / 2) tmax ltac:(lra) ltac:(lra) ltac:(lra)) as [M HM]. set (m := max (max N M) (max N1 N2)). rewrite (params_ek eps m tmax limit order pr sr p a1 a2 P S HL (F1 m ltac:(lia)) (F2 m ltac:(lia)) (F m ltac:(lia))). unfold Bisect. apply (HM m). lia. }
  assert (g0 : settled g 0 < 0). { destruct (settled_eq g 0 (St 0 ltac:(lra))) as [M HM]. rewrite <- (HM M (le_n M)). unfold g, K_quotient. rewrite (K_one eps M (sqrt _)) by (rewrite sqrt_sqrt; lra). assert (0 < c) by (clear - c1 Q0 He' P22; nra). destruct (EllipticK eps M 0) as [[a|]| |]; lra. }
  assert (gx : forall x, 0 < x < 1 -> Kq x * (1 - eps) - c <= settled g x <= Kq x * (1 + eps) - c). { intros x Hx. destruct (settled_eq g x (St x ltac:(lra))) as [M HM]. destruct (compl_bounds x Hx) as [Cx _]. destruct (K_total eps x He' ltac:(lra)) as (Na & a & Fa & Ba). destruct (K_total eps (compl x) He' ltac:(lra)) as (Nb & b & Fb & Bb). set (m := max M (max Na Nb)). rewrite <- (HM m) by lia. unfold g, K_quotient. fold (compl x). rewrite Fa, Fb by lia. destruct (quot_err eps _ _ a b ltac:(lra) (K_pos x Hx) (K_pos _ Cx) Ba Bb) as (_ & X1 & X2). unfold Kq. lra. }
  destruct (bisect_bracket (settled g) g0 limit 0 1 tmax) as (a' & b' & Eb & Ha' & Hb' & Fa & Fb & W); try lra; try (now left). unfold Bisect in Ek. rewrite Eb in Ek. rewrite Rminus_0_r in W.
  exists a', b'. split; [exact F|]. split; [exact Ek|]. split; [exact Ha'|]. split; [exact Hb'|]. split; [exact W|]. split.
  - destruct (Req_dec a' 0) as [->|Na]; [now left|]. right. destruct (gx a' ltac:(lra)) as [G1 _]. assert (X : Kq a' * (1 - eps) < Qs * (1 + eps)) by lra. apply (Rmult_le_reg_r (1 - eps)); [lra|]. assert (Qs * (1 + eps) <= Qs * (1 + 3 * eps) * (1 - eps)). { rewrite Rmult_assoc. apply Rmult_le_compat_l; [lra|]. clear - He' P22. nra. } lra.
  - destruct Fb as [->|Fb]; [now left|]. destruct (Req_dec b' 1) as [->|Nb]; [now left|]. right. destruct (gx b' ltac:(lra)) as [_ G2]. assert (X : Qs * (1 - eps) <= Kq b' * (1 + eps)) by lra. apply (Rmult_le_reg_r (1 + eps)); [lra|]. assert (Qs * (1 - 3 * eps) * (1 + eps) <= Qs * (1 - eps)). { rewrite (Rmult_assoc Qs). apply Rmult_le_compat_l; [lra|]. clear - He' P22. nra. } lra.
Qed.
Lemma fine order pr sr : (0 < order)%Z -> 0 < pr -> 0 < sr -> sr < 1 - pr -> exists eps0 L, 0 < eps0 <= / 2 ^ 22 /\ forall eps tmax limit, 0 < eps <= eps0 -> 1 <= tmax -> (L <= limit)%nat ->
  exists N p, (forall fuel, (N <= fuel)%nat -> EllipticOrderRipples eps fuel tmax limit order pr sr = Ok p) /\ mild eps order p.
Proof.
  intros Ho P S HL. pose proof PI_RGT_0 as Pi0. assert (P22 : / 2 ^ 22 <= 1 / 1000000) by (cbn [pow]; lra). destruct (ripple_factor_pos pr ltac:(lra)) as [R0 _]. pose proof (selectivity_bounds pr sr P S HL) as SB. destruct (compl_bounds _ SB) as [CB _]. set (s := selectivity pr sr) in *. set (er := ripple_factor pr) in *.
  pose proof (K_pos _ SB) as K1. pose proof (K_pos _ CB) as K1'. assert (N0 : 0 < IZR order) by (apply IZR_lt; lia). set (n := IZR order) in *. set (Qs := n * (legendre_K s / legendre_K (compl s))). assert (Q0 : 0 < Qs) by (unfold Qs; apply Rmult_lt_0_compat; [exact N0|now apply Rdiv_lt_0_compat]).
  set (th := atan (1 / er)). assert (T0 : 0 < th) by (unfold th; rewrite <- atan_0; apply atan_increasing; apply Rdiv_lt_0_compat; lra). assert (T1 : th < PI / 2) by apply atan_bound. set (f := legendre_F (compl s) th). assert (f0 : 0 < f) by (pose proof (legendre_pos (compl s) th ltac:(lra) T0); unfold f; lra). assert (f1 : f < legendre_K (compl s)) by (unfold f, legendre_K; apply legendre_mono; lra).
  set (rho := f / legendre_K (compl s)). assert (r0 : 0 < rho < 1) by (unfold rho; split; [now apply Rdiv_lt_0_compat|apply Rlt_div_l; lra]). set (d := (1 - rho) / 3). assert (d0 : 0 < d < 1 / 3) by (unfold d; lra).
  destruct (Kq_onto (Qs * (1 + d / 2)) ltac:(clear - Q0 d0; nra)) as (k1 & Hk1 & E1). destruct (Kq_onto (Qs * (1 + d)) ltac:(clear - Q0 d0; nra)) as (k2 & Hk2 & E2). destruct (Kq_onto (Qs / 2) ltac:(lra)) as (k0 & Hk0 & E0). assert (k12 : k1 < k2) by (apply Kq_lt_inv; try assumption; rewrite E1, E2; clear - Q0 d0; nra).
  destruct (compl_bounds (k0 / 2) ltac:(lra)) as [C0 _]. destruct (half_small (Rmin (k2 - k1) k0)) as [L HLim]; [apply Rmin_glb_lt; lra|].
  set (e1 := Rmin (d / 12) (Rmin (1 - k2) (Rmin (1 - compl (k0 / 2)) (1 / (4 * n))))). set (eps0 := Rmin (/ 2 ^ 22) e1).
  assert (N4 : 0 < 1 / (4 * n)) by (apply Rdiv_lt_0_compat; lra). assert (e10 : 0 < e1) by (unfold e1; repeat apply Rmin_glb_lt; lra). assert (P22' : 0 < / 2 ^ 22) by (cbn [pow]; lra).
  exists eps0, L. split; [split; [now apply Rmin_glb_lt|apply Rmin_l]|]. intros eps tmax limit He Ht Hlim. specialize (HLim limit Hlim).
  assert (B : eps <= / 2 ^ 22 /\ eps <= d / 12 /\ eps <= 1 - k2 /\ eps <= 1 - compl (k0 / 2) /\ eps <= 1 / (4 * n)). { unfold eps0, e1 in He. destruct He as [_ He]. repeat match type of He with _ <= Rmin ?a ?b => let x := fresh in assert (x : eps <= a) by (eapply Rle_trans; [exact He|apply Rmin_l]); assert (He' : eps <= b) by (eapply Rle_trans; [exact He|apply Rmin_r]); clear He; rename He' into He end. repeat split; assumption. }
  destruct B as (b1 & b2 & b3 & b4 & b5). assert (He' : 0 < eps <= / 2 ^ 22) by lra. destruct (degree_bracket eps tmax limit order pr sr He' Ht Ho P S HL) as (N & p & a' & b' & F & Ek & Ha' & Hb' & W & Fa & Fb). exists N, p. split; [exact F|]. unfold degree in Fa, Fb. fold n s in Fa, Fb. unfold Kq in Fa at 2. unfold Kq in Fb at 1. fold Qs in Fa, Fb. pose proof (Rmin_l (k2 - k1) k0). pose proof (Rmin_r (k2 - k1) k0).
  assert (ak : a' < k1). { destruct Fa as [->|Fa]; [lra|]. destruct (Req_dec a' 0) as [->|Na]; [lra|]. apply Kq_lt_inv; [lra|exact Hk1|]. rewrite E1. apply Rle_lt_trans with (1 := Fa). apply Rmult_lt_compat_l; [exact Q0|]. lra. }
  assert (bk : k0 < b'). { destruct Fb as [->|Fb]; [lra|]. destruct (Req_dec b' 1) as [->|Nb]; [lra|]. apply Kq_lt_inv; [exact Hk0|lra|]. rewrite E0. apply Rlt_le_trans with (2 := Fb). clear - Q0 b1 P22. nra. }
  assert (ku : ek p < k2) by lra. assert (kl : k0 / 2 < ek p) by lra. assert (Hk : 0 < ek p < 1) by lra. destruct (compl_bounds (ek p) Hk) as [Cp _]. assert (cl : compl (ek p) < compl (k0 / 2)) by (apply compl_decr; lra).
  pose proof (params_inv eps N tmax limit order pr sr p He' P S HL (F N (le_n N))) as (Pe & Ps & _).
  split; [split; [lra|right; lra]|]. split; [split; [lra|right; lra]|]. fold n. split. { apply Rle_div_r in b5; [|lra]. clear - b5 He N0. nra. }
  rewrite Pe, Ps. fold er s. fold th. fold f. pose proof (K_pos _ Cp) as Kp. pose proof (K_pos _ Hk) as Kk. assert (Qk : Kq (ek p) < Qs * (1 + d)) by (rewrite <- E2; apply Kq_incr; lra).
  apply (Rmult_lt_reg_r (/ legendre_K (compl (ek p)))); [now apply Rinv_0_lt_compat|]. rewrite Rinv_r by lra. replace (f * (legendre_K (ek p) / (n * legendre_K s)) * (1 + 4 * eps) * / legendre_K (compl (ek p))) with (rho * (Kq (ek p) / Qs) * (1 + 4 * eps)) by (unfold rho, Qs, Kq; field; lra).
  assert (U : Kq (ek p) / Qs < 1 + d) by (apply Rlt_div_l; lra). assert (U0 : 0 < Kq (ek p) / Qs) by (apply Rdiv_lt_0_compat; [now apply Kq_pos|exact Q0]). set (u := Kq (ek p) / Qs) in *. clearbody u. assert (V : u * (1 + 4 * eps) < 1 + 3 * d) by (clear - U U0 d0 b2 He; nra). assert (V' : rho * (1 + 3 * d) <= 1) by (unfold d; clear - r0; nra). clear - V V' r0. nra.
Qed.
