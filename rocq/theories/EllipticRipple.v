(** The power response of a system given by the lists of its poles and zeros, and its limit: the response of the computed elliptic prototype approaches the equiripple response. *)
From Coq Require Import Reals Lra Lia ZArith List Bool Psatz Permutation.
From Coquelicot Require Import Rcomplements Rbar Hierarchy RInt RInt_gen.
From Verif Require Import Base BaseFacts Complex KernelProofs ConvModel ConvProofs IirModel IirProofs PolyModel PolyProofs SysModel SysProofs PropsPoly PropsSys RootModel RootProofs ZmapProofs DesignProofs ButterProofs BandProofs PropsDesign SolverModel PropsSolver ChebyModel ChebyProofs PropsCheby EllipticModel EllipticSpec EllipticAM EllipticRF EllipticInv EllipticJacobi PropsElliptic EllipticProto EllipticDegree JacobiReal JacobiComplex EllipticRational EllipticTransform EllipticResponse UniformLimit EllipticLimit EllipticLocate.
From Coq Require Import ZifyBool ZifyNat.
Import ListNotations.
Open Scope R_scope.

(** ** Power of a list of roots *)
Definition real_term (q r : R) : R := r * r + q.
Definition pair_term (q : R) (c : C) : R := (Cnorm2 c - q) * (Cnorm2 c - q) + 4 * (re c * re c) * q.
Lemma roots_power rs cs w : Cnorm2 (vanishing_product (all_roots (mk_fp rs cs)) (mkC 0 w)) = prodR (real_term (w * w)) rs * prodR (pair_term (w * w)) cs.
Proof.
  rewrite <- pnode_vanishing, pnode_norm. unfold all_roots. rewrite mk_fp_real, mk_fp_pairs, !prodR_app, !prodR_map, <- prodR_mul. f_equal; apply prodR_ext; intros a _.
  - unfold real_term, Cnorm2. cbn. ring.
  - unfold pair_term, Cnorm2. destruct a as [u v]. cbn. ring.
Qed.
Lemma power_raw h o g zf rf cf v : (forall j, (j < h)%nat -> re (zf j) = 0) -> (forall j, (j < o)%nat -> rf j <> 0) -> (forall j, (j < h)%nat -> re (cf j) <> 0) ->
  let s := mkZpk g (mk_fp [] (map zf (seq 0 h))) (mk_fp (map rf (seq 0 o)) (map cf (seq 0 h))) in
  power_continuous s v = g * g * iprod (seq 0 h) (fun j => (im (zf j) * im (zf j) - v * v) * (im (zf j) * im (zf j) - v * v)) / (iprod (seq 0 o) (fun j => rf j * rf j + v * v) * iprod (seq 0 h) (fun j => pair_term (v * v) (cf j))).
Proof.
  intros Hz Hr Hc s. unfold power_continuous. rewrite Cabs_sq. unfold transfer_at, Cdiv. assert (NP : vanishing_product (all_roots (poles s)) (mkC 0 v) <> C0). { rewrite <- pnode_vanishing. intros Q. unfold pnode in Q. apply prodC_zero in Q as (p & Hp & Ep). unfold s, all_roots in Hp. cbn [poles] in Hp. rewrite mk_fp_real, mk_fp_pairs in Hp. assert (Rp : re p = 0) by (apply (f_equal re) in Ep; cbn in Ep; lra). apply in_app_or in Hp as [Hp|Hp]; [|apply in_app_or in Hp as [Hp|Hp]].
      - rewrite map_map in Hp. apply in_map_iff in Hp as (j & <- & Hj). apply in_seq in Hj. cbn in Rp. apply (Hr j); [lia|exact Rp].
      - apply in_map_iff in Hp as (j & <- & Hj). apply in_seq in Hj. apply (Hc j); [lia|exact Rp].
      - rewrite map_map in Hp. apply in_map_iff in Hp as (j & <- & Hj). apply in_seq in Hj. cbn in Rp. apply (Hc j); [lia|exact Rp]. }
    rewrite !Cnorm2_mul, Cnorm2_inv by exact NP. unfold s. cbn [poles zeros gain]. rewrite !roots_power, !prodR_map. unfold Rdiv. rewrite !prodR_iprod. f_equal. f_equal; [unfold Cnorm2; cbn; ring|]. unfold prodR at 1. cbn [map fold_right]. rewrite Rmult_1_l. apply iprod_ext. intros j Hj. apply in_seq in Hj. pose proof (Hz j ltac:(lia)) as Z. unfold pair_term, Cnorm2. rewrite Z. ring.
Qed.
Lemma power_form h o g zf rf cf dc w : (forall j, (j < h)%nat -> re (zf j) = 0 /\ im (zf j) <> 0) -> (forall j, (j < o)%nat -> rf j <> 0) -> (forall j, (j < h)%nat -> re (cf j) <> 0) ->
  let s := mkZpk g (mk_fp [] (map zf (seq 0 h))) (mk_fp (map rf (seq 0 o)) (map cf (seq 0 h))) in
  transfer_at s C0 = RtoC dc -> power_continuous s w = dc * dc * iprod (seq 0 o) (fun j => single_gain (rf j * rf j) (w * w)) * iprod (seq 0 h) (fun j => pair_gain (/ (im (zf j) * im (zf j))) (Cnorm2 (cf j)) (4 * (re (cf j) * re (cf j))) (w * w)).
Proof.
  intros Hz Hr Hc s D. assert (P : forall v, power_continuous s v = g * g * iprod (seq 0 h) (fun j => (im (zf j) * im (zf j) - v * v) * (im (zf j) * im (zf j) - v * v)) / (iprod (seq 0 o) (fun j => rf j * rf j + v * v) * iprod (seq 0 h) (fun j => pair_term (v * v) (cf j)))).
  { intros v. apply power_raw; [intros j Hj; apply (Hz j Hj)|exact Hr|exact Hc]. }
  assert (P0 : power_continuous s 0 = dc * dc). { unfold power_continuous. change (mkC 0 0) with C0. rewrite D, Cabs_sq. unfold Cnorm2. cbn. ring. }
  rewrite P in P0. rewrite P, <- P0. unfold single_gain, pair_gain.
  assert (W2 : 0 <= w * w) by exact (Rle_0_sqr w).
  assert (N1 : forall q, 0 <= q -> forall j, In j (seq 0 o) -> rf j * rf j + q <> 0). { intros q Hq j Hj. apply in_seq in Hj. specialize (Hr j ltac:(lia)). assert (0 < rf j * rf j) by (apply Rsqr_pos_lt in Hr; exact Hr). lra. }
  assert (N2 : forall q, 0 <= q -> forall j, In j (seq 0 h) -> pair_term q (cf j) <> 0). { intros q Hq j Hj. apply in_seq in Hj. specialize (Hc j ltac:(lia)). apply Rsqr_pos_lt in Hc. unfold Rsqr in Hc. unfold pair_term, Cnorm2. assert (0 <= im (cf j) * im (cf j)) by exact (Rle_0_sqr _). set (a := re (cf j) * re (cf j)) in *. set (b := im (cf j) * im (cf j)) in *. assert (0 <= (a + b - q) * (a + b - q)) by exact (Rle_0_sqr _). destruct (Req_dec q 0) as [->|]; nra. }
  assert (N3 : forall j, In j (seq 0 h) -> im (zf j) * im (zf j) <> 0). { intros j Hj. apply in_seq in Hj. destruct (Hz j ltac:(lia)) as [_ Z]. apply Rsqr_pos_lt in Z. unfold Rsqr in Z. lra. }
  rewrite (iprod_div (seq 0 o) _ (fun j => rf j * rf j + w * w)) by (exact (N1 _ W2)). rewrite (iprod_div (seq 0 h) _ (fun j => pair_term (w * w) (cf j))) by (exact (N2 _ W2)).
  rewrite (iprod_ext (seq 0 h) (fun j => (1 - / (im (zf j) * im (zf j)) * (w * w)) * (1 - / (im (zf j) * im (zf j)) * (w * w)) * (Cnorm2 (cf j) * Cnorm2 (cf j))) (fun j => (im (zf j) * im (zf j) - w * w) * (im (zf j) * im (zf j) - w * w) * / (im (zf j) * im (zf j) * (im (zf j) * im (zf j))) * pair_term (0 * 0) (cf j))).
  2:{ intros j Hj. specialize (N3 j Hj). unfold pair_term. field. intros Q; apply N3; rewrite Q; ring. }
  rewrite (iprod_mul (seq 0 h) (fun j => (im (zf j) * im (zf j) - w * w) * (im (zf j) * im (zf j) - w * w) * / (im (zf j) * im (zf j) * (im (zf j) * im (zf j)))) (fun j => pair_term (0 * 0) (cf j))).
  rewrite (iprod_mul (seq 0 h) (fun j => (im (zf j) * im (zf j) - w * w) * (im (zf j) * im (zf j) - w * w)) (fun j => / (im (zf j) * im (zf j) * (im (zf j) * im (zf j))))).
  rewrite (iprod_ext (seq 0 h) (fun j => (im (zf j) * im (zf j) - 0 * 0) * (im (zf j) * im (zf j) - 0 * 0)) (fun j => im (zf j) * im (zf j) * (im (zf j) * im (zf j)))) by (intros; ring).
  rewrite (iprod_ext (seq 0 o) (fun j => rf j * rf j + 0 * 0) (fun j => rf j * rf j)) by (intros; ring).
  assert (I : iprod (seq 0 h) (fun j => / (im (zf j) * im (zf j) * (im (zf j) * im (zf j)))) * iprod (seq 0 h) (fun j => im (zf j) * im (zf j) * (im (zf j) * im (zf j))) = 1).
  { rewrite <- iprod_mul. rewrite (iprod_ext _ _ (fun _ => 1)); [rewrite iprod_const; apply pow1|]. intros j Hj. specialize (N3 j Hj). field. intros Q. apply N3. rewrite Q. ring. }
  assert (A1 : iprod (seq 0 o) (fun j => rf j * rf j) <> 0) by (apply iprod_n0; intros j Hj; pose proof (N1 0 (Rle_refl 0) j Hj); lra). assert (A2 : iprod (seq 0 h) (fun j => pair_term (0 * 0) (cf j)) <> 0) by (rewrite Rmult_0_l; apply iprod_n0; exact (N2 0 (Rle_refl 0))).
  assert (A3 : iprod (seq 0 o) (fun j => rf j * rf j + w * w) <> 0) by (apply iprod_n0; exact (N1 _ W2)). assert (A4 : iprod (seq 0 h) (fun j => pair_term (w * w) (cf j)) <> 0) by (apply iprod_n0; exact (N2 _ W2)).
  revert I A1 A2 A3 A4. generalize (iprod (seq 0 h) (fun j => / (im (zf j) * im (zf j) * (im (zf j) * im (zf j))))) (iprod (seq 0 h) (fun j => im (zf j) * im (zf j) * (im (zf j) * im (zf j)))) (iprod (seq 0 o) (fun j => rf j * rf j)) (iprod (seq 0 h) (fun j => pair_term (0 * 0) (cf j))) (iprod (seq 0 o) (fun j => rf j * rf j + w * w)) (iprod (seq 0 h) (fun j => pair_term (w * w) (cf j))) (iprod (seq 0 h) (fun j => (im (zf j) * im (zf j) - w * w) * (im (zf j) * im (zf j) - w * w))).
  clear. intros I J a b c e u E1 A1 A2 A3 A4. replace u with (u * (I * J)) at 1 by (rewrite E1; ring). field. now repeat split.
Qed.

(** ** The exact filter *)
Section Exact.
Variables (order : Z) (pr sr k : R).
Hypothesis Ho : (0 < order)%Z.
Hypothesis Hr : 0 < pr /\ 0 < sr /\ sr < 1 - pr.
Hypothesis Hk : 0 < k < 1.
Hypothesis Ek : Kq k = degree order pr sr.
Notation k1 := (selectivity pr sr).
Notation er := (ripple_factor pr).
Notation e2 := (ripple_factor pr * ripple_factor pr).
Definition nn : nat := Z.to_nat (order - 1).
Definition hh : nat := Z.to_nat (order / 2).
Definition oo : nat := Z.to_nat (order mod 2).
Definition yo : R := ordinate order k k1 er.
Lemma nn_order : INR (S nn) = IZR order.
Proof. unfold nn. rewrite INR_IZR_INZ. f_equal. lia. Qed.
Lemma nn_half : S nn = (2 * hh + oo)%nat. Proof. unfold nn, hh, oo. pose proof (Z.div_mod order 2 ltac:(lia)). pose proof (Z.mod_pos_bound order 2 ltac:(lia)). assert (0 <= order / 2)%Z by (apply Z.div_pos; lia). lia. Qed.
Lemma oo_le : (oo <= 1)%nat. Proof. unfold oo. pose proof (Z.mod_pos_bound order 2 ltac:(lia)). lia. Qed.
Lemma k1_bounds : 0 < k1 < 1. Proof. apply selectivity_bounds; apply Hr. Qed.
Lemma er_pos : 0 < er. Proof. apply ripple_factor_pos. lra. Qed.
Lemma Kq_inj a b : 0 < a < 1 -> 0 < b < 1 -> Kq a = Kq b -> a = b.
Proof. intros A B E. destruct (Rtotal_order a b) as [H|[H|H]]; [|exact H|]; exfalso; [pose proof (Kq_incr a b)|pose proof (Kq_incr b a)]; lra. Qed.
Lemma exact_facts : mod1 k nn = k1 /\ 0 < yo < legendre_K (compl k) /\ V k nn yo / B k nn = / e2.
Proof.
  destruct (transform_periods k Hk nn) as (la & L0 & P1 & P2 & Pv). destruct (mod1_bounds k Hk nn) as [M0 _]. pose proof k1_bounds as K1b. pose proof er_pos as E0. assert (N0 : 0 < IZR order) by (apply IZR_lt; lia). rewrite nn_order in P1. pose proof (K_pos k Hk) as Kk. pose proof (K_pos (compl k) (proj1 (compl_bounds k Hk))) as Kk'. pose proof (K_pos _ K1b) as Kl. pose proof (proj1 (compl_bounds _ K1b)) as C1. pose proof (K_pos _ C1) as Kl'.
  assert (EM : mod1 k nn = k1). { apply Kq_inj; [exact M0|exact K1b|]. unfold Kq at 1. rewrite P1, P2. apply (Rmult_eq_reg_l (IZR order)); [|lra]. unfold degree in Ek. rewrite <- Ek. unfold Kq. field. repeat split; lra. }
  split; [exact EM|]. rewrite EM in P1, P2, Pv. assert (F1 : 0 < legendre_F (compl k1) (atan (1 / er)) < legendre_K (compl k1)). { assert (A0 : 0 < atan (1 / er)) by (rewrite <- atan_0; apply atan_increasing; now apply Rdiv_lt_0_compat; lra). destruct (atan_bound (1 / er)) as [_ A1]. split; [|unfold legendre_K; apply F_strict; lra]. rewrite <- (legendre_F_0 (compl k1)). apply F_strict; lra. }
  set (f := legendre_F (compl k1) (atan (1 / er))) in *. assert (Ey : la * yo = f). { unfold yo, ordinate. fold f. rewrite P1. field. repeat split; lra. } assert (Hy : 0 < yo < legendre_K (compl k)) by (split; apply (Rmult_lt_reg_l la); lra). split; [exact Hy|].
  specialize (Pv yo ltac:(lra)). rewrite Ey in Pv. unfold f in Pv. apply F_inj in Pv; [|lra]. assert (Q : sqrt (V k nn yo / B k nn) = 1 / er) by (rewrite <- (tan_atan (sqrt _)), Pv, tan_atan; reflexivity). assert (Q0 : 0 < 1 / er) by (apply Rdiv_lt_0_compat; lra). assert (VP : 0 < V k nn yo / B k nn). { destruct (Rlt_le_dec 0 (V k nn yo / B k nn)) as [H|H]; [exact H|]. rewrite sqrt_neg_0 in Q by exact H. lra. }
  rewrite <- (sqrt_sqrt (V k nn yo / B k nn)) by lra. rewrite Q. field. lra.
Qed.
Lemma floor_pass : 1 / (1 + e2) = (1 - pr) * (1 - pr).
Proof.
  assert (P : 0 < (1 - pr) * (1 - pr)) by nra. unfold ripple_factor. rewrite sqrt_sqrt; [field; lra|]. assert (Q0 : 0 < (1 - pr) ^ 2) by nra. assert (1 <= 1 / (1 - pr) ^ 2) by (apply (proj1 (Rle_div_r _ _ _ Q0)); nra). lra.
Qed.
Lemma ceil_stop : kap k nn / (kap k nn + e2) = sr * sr.
Proof.
  destruct exact_facts as (E & _). destruct (mod1_bounds k Hk nn) as [_ M]. rewrite <- M, E. pose proof er_pos as E0. destruct Hr as (R1 & R2 & R3). assert (S0 : 0 < 1 / sr ^ 2 - 1) by (assert (Q0 : 0 < sr ^ 2) by nra; apply Rlt_Rminus; apply (proj1 (Rlt_div_r _ _ _ Q0)); nra). assert (Q : 0 < sqrt (1 / sr ^ 2 - 1)) by (now apply sqrt_lt_R0). unfold selectivity. set (q := sqrt (1 / sr ^ 2 - 1)) in *. assert (Q2 : q * q = 1 / sr ^ 2 - 1) by (apply sqrt_sqrt; lra).
  replace (er / q * (er / q) / (er / q * (er / q) + e2)) with (1 / (1 + q * q)) by (field; repeat split; nra). rewrite Q2. field. nra.
Qed.
Lemma ideal_pass w : -1 <= w <= 1 -> (1 - pr) * (1 - pr) <= response k nn e2 w <= 1.
Proof. intros H. rewrite <- floor_pass. apply pass_response; [exact Hk|pose proof er_pos; nra|exact H]. Qed.
Lemma ideal_stop w : 1 <= k * k * (w * w) -> 0 <= response k nn e2 w <= sr * sr.
Proof. intros H. rewrite <- ceil_stop. apply stop_response; [exact Hk|pose proof er_pos; nra|exact H]. Qed.
Lemma ideal_le1 w : 0 <= response k nn e2 w <= 1.
Proof.
  pose proof er_pos as E0. assert (W2 : 0 <= w * w) by exact (Rle_0_sqr w). destruct (Rle_lt_dec 1 (k * k * (w * w))) as [H|H]; [pose proof (ideal_stop w H); nra|]. destruct (Rle_lt_dec (w * w) 1) as [G|G].
  - assert (H1 : -1 <= w <= 1) by nra. pose proof (ideal_pass w H1). nra.
  - pose proof (D2_pos k Hk nn (w * w) ltac:(lra)) as Dp. assert (Np : 0 < N2 k nn (w * w)). { rewrite <- (D2_refl k Hk nn (w * w)) by lra. apply Rmult_lt_0_compat; [apply pow_lt; lra|]. apply D2_pos; [exact Hk|]. replace (k * k * / (k * k * (w * w))) with (/ (w * w)) by (field; split; [intros Z; rewrite Z in G; lra|lra]). rewrite <- Rinv_1. apply Rinv_le_contravar; lra. }
    unfold response, GG. pose proof (B_pos_ k Hk nn) as Bp. assert (0 < B k nn * D2 k nn (w * w)) by (now apply Rmult_lt_0_compat). assert (0 < e2 * N2 k nn (w * w)) by (apply Rmult_lt_0_compat; [nra|exact Np]). split; [left; apply Rdiv_lt_0_compat; lra|]. apply Rle_div_l; lra.
Qed.
(** ** Convergence *)
Record draw := { d_eps : R; d_k : R; d_xz : nat -> R; d_xp : nat -> R; d_yp : nat -> R; d_yr : nat -> R }.
Definition xo (j : nat) (m : R) : R := abscissa order (2 * Z.of_nat j + 1 + order mod 2) m.
Definition yk (m : R) : R := ordinate order m k1 er.
Definition near (eta : R) (x : draw) : Prop := 0 < d_eps x < eta /\ Rabs (d_k x - k) < eta /\
  (forall j, (j < hh)%nat -> Rabs (d_xz x j - xo j (d_k x)) <= 3 * d_eps x * xo j (d_k x) /\ Rabs (d_xp x j - xo j (d_k x)) <= 3 * d_eps x * xo j (d_k x) /\ Rabs (d_yp x j - yk (d_k x)) <= 4 * d_eps x * yk (d_k x)) /\
  (forall j, (j < oo)%nat -> Rabs (d_yr x j - yk (d_k x)) <= 4 * d_eps x * yk (d_k x)).
Definition FN (P : draw -> Prop) : Prop := exists eta, 0 < eta /\ forall x, near eta x -> P x.
Lemma near_mono a b x : a <= b -> near a x -> near b x.
Proof. intros H (A & B & C). split; [lra|]. split; [lra|exact C]. Qed.
#[local] Instance FN_filter : Filter FN.
Proof.
  constructor.
  - exists 1. split; [lra|]. intros; exact I.
  - intros P Q (a & A & HA) (b & B & HB). exists (Rmin a b). split; [now apply Rmin_glb_lt|]. intros x Hx. split; [apply HA|apply HB]; (eapply near_mono; [|exact Hx]); [apply Rmin_l|apply Rmin_r].
  - intros P Q H (a & A & HA). exists a. split; [exact A|]. intros x Hx. apply H, HA, Hx.
Qed.
Notation FF := FN_filter.
Lemma k_cv : cv FN d_k k.
Proof. apply cv_of; [exact FF|]. intros e He. exists e. split; [exact He|]. intros x (_ & H & _). exact H. Qed.
Lemma eps_cv : cv FN d_eps 0.
Proof. apply cv_of; [exact FF|]. intros e He. exists e. split; [exact He|]. intros x (H & _). rewrite Rminus_0_r, Rabs_pos_eq; lra. Qed.
Lemma cv_squeeze (a b c : draw -> R) l : FN (fun x => Rabs (b x - a x) <= c x) -> cv FN a l -> cv FN c 0 -> cv FN b l.
Proof.
  intros S A Cc. apply cv_of; [exact FF|]. intros e He. assert (He2 : 0 < e / 2) by lra. pose proof (cv_at FN _ _ A (e / 2) He2) as H1. pose proof (cv_at FN _ _ Cc (e / 2) He2) as H2. destruct FF as [_ FA FI]. generalize (FA _ _ S (FA _ _ H1 H2)). apply FI. intros x (U & V & W). pose proof (Rabs_triang (b x - a x) (a x - l)) as T. replace (b x - a x + (a x - l)) with (b x - l) in T by ring. rewrite Rminus_0_r in W. pose proof (Rle_abs (c x)). lra.
Qed.
Lemma FN_near (P : draw -> Prop) : (forall x, near 1 x -> P x) -> FN P. Proof. intros H. exists 1. split; [lra|exact H]. Qed.
Lemma scaled_cv c (a : draw -> R) l : cv FN a l -> cv FN (fun x => c * d_eps x * a x) 0.
Proof. intros A. pose proof (cv_mul FN _ _ _ _ (cv_mul FN _ _ _ _ (cv_const FN c) eps_cv) A) as H. rewrite Rmult_0_r, Rmult_0_l in H. exact H. Qed.
Lemma xo_cv j : cv FN (fun x => xo j (d_k x)) (xo j k).
Proof.
  unfold xo, abscissa. apply cv_div; [exact FF|apply IZR_neq; lia| |apply cv_const; exact FF]. apply cv_mul; [exact FF|apply cv_const; exact FF|]. apply (cv_comp FN _ _ legendre_K k_cv). now apply K_continuous.
Qed.
Lemma yk_cv : cv FN (fun x => yk (d_k x)) yo.
Proof.
  unfold yo, yk, ordinate. pose proof (K_pos _ k1_bounds). assert (0 < IZR order) by (apply IZR_lt; lia). apply cv_mul; [exact FF|apply cv_const; exact FF|]. apply cv_div; [exact FF|nra| |apply cv_const; exact FF]. apply (cv_comp FN _ _ legendre_K k_cv). now apply K_continuous.
Qed.
Lemma xz_cv j : (j < hh)%nat -> cv FN (fun x => d_xz x j) (xo j k).
Proof. intros H. apply (cv_squeeze (fun x => xo j (d_k x)) _ (fun x => 3 * d_eps x * xo j (d_k x))); [|exact (xo_cv j)|exact (scaled_cv 3 _ _ (xo_cv j))]. apply FN_near. intros x (_ & _ & N & _). exact (proj1 (N j H)). Qed.
Lemma xp_cv j : (j < hh)%nat -> cv FN (fun x => d_xp x j) (xo j k).
Proof. intros H. apply (cv_squeeze (fun x => xo j (d_k x)) _ (fun x => 3 * d_eps x * xo j (d_k x))); [|exact (xo_cv j)|exact (scaled_cv 3 _ _ (xo_cv j))]. apply FN_near. intros x (_ & _ & N & _). exact (proj1 (proj2 (N j H))). Qed.
Lemma yp_cv j : (j < hh)%nat -> cv FN (fun x => d_yp x j) yo.
Proof. intros H. apply (cv_squeeze (fun x => yk (d_k x)) _ (fun x => 4 * d_eps x * yk (d_k x))); [|exact yk_cv|exact (scaled_cv 4 _ _ yk_cv)]. apply FN_near. intros x (_ & _ & N & _). exact (proj2 (proj2 (N j H))). Qed.
Lemma yr_cv j : (j < oo)%nat -> cv FN (fun x => d_yr x j) yo.
Proof. intros H. apply (cv_squeeze (fun x => yk (d_k x)) _ (fun x => 4 * d_eps x * yk (d_k x))); [|exact yk_cv|exact (scaled_cv 4 _ _ yk_cv)]. apply FN_near. intros x (_ & _ & _ & N). exact (N j H). Qed.
(** the response of the located poles and zeros *)
Definition drawn (x : draw) (q : R) : R := dc2 e2 oo * iprod (seq 0 oo) (fun j => single_gain (im (snC (d_k x) 0 (d_yr x j)) * im (snC (d_k x) 0 (d_yr x j))) q) *
  iprod (seq 0 hh) (fun j => pair_gain (d_k x * d_k x * (sn (d_k x) (d_xz x j) * sn (d_k x) (d_xz x j))) (Cnorm2 (snC (d_k x) (d_xp x j) (d_yp x j))) (4 * (im (snC (d_k x) (d_xp x j) (d_yp x j)) * im (snC (d_k x) (d_xp x j) (d_yp x j)))) q).
Lemma tt_xo j : tt k nn (half hh oo j) = xo j k.
Proof.
  rewrite (tt_half k nn hh oo nn_half oo_le). unfold pt, xo, abscissa. rewrite nn_order. f_equal. f_equal. rewrite INR_IZR_INZ. f_equal. unfold oo. pose proof (Z.mod_pos_bound order 2 ltac:(lia)). lia.
Qed.
Lemma drawn_ucv : ucv FN drawn (fun q => dc2 e2 oo * iprod (seq 0 oo) (fun _ => single_gain (tg k yo * tg k yo) q) * iprod (seq 0 hh) (fun j => pair_gain (k * k * ss k nn (half hh oo j)) (m2 k nn yo hh oo j) (s4 k nn yo hh oo j) q)).
Proof.
  destruct exact_facts as (_ & Hy & _). pose proof (cy0 k Hk yo Hy) as Cy. pose proof (tg_pos k Hk yo Hy) as T0.
  assert (S : ucv FN (fun x q => iprod (seq 0 oo) (fun j => single_gain (im (snC (d_k x) 0 (d_yr x j)) * im (snC (d_k x) 0 (d_yr x j))) q)) (fun q => iprod (seq 0 oo) (fun _ => single_gain (tg k yo * tg k yo) q)) /\ bounded (fun q => iprod (seq 0 oo) (fun _ => single_gain (tg k yo * tg k yo) q))).
  { apply (ucv_lprod FN (seq 0 oo) (fun j x q => single_gain (im (snC (d_k x) 0 (d_yr x j)) * im (snC (d_k x) 0 (d_yr x j))) q) (fun _ q => single_gain (tg k yo * tg k yo) q)). intros j Hj. apply in_seq in Hj. apply (single_ucv FN (fun x => im (snC (d_k x) 0 (d_yr x j)) * im (snC (d_k x) 0 (d_yr x j)))); [nra|]. pose proof (snC_im_cv FN d_k (fun _ => 0) (fun x => d_yr x j) k 0 yo Hk k_cv (cv_const FN 0) (yr_cv j ltac:(lia)) Cy) as C1. rewrite (snC_0 k Hk yo Cy) in C1. exact (cv_mul FN _ _ _ _ C1 C1). }
  assert (P : ucv FN (fun x q => iprod (seq 0 hh) (fun j => pair_gain (d_k x * d_k x * (sn (d_k x) (d_xz x j) * sn (d_k x) (d_xz x j))) (Cnorm2 (snC (d_k x) (d_xp x j) (d_yp x j))) (4 * (im (snC (d_k x) (d_xp x j) (d_yp x j)) * im (snC (d_k x) (d_xp x j) (d_yp x j)))) q)) (fun q => iprod (seq 0 hh) (fun j => pair_gain (k * k * ss k nn (half hh oo j)) (m2 k nn yo hh oo j) (s4 k nn yo hh oo j) q)) /\ bounded (fun q => iprod (seq 0 hh) (fun j => pair_gain (k * k * ss k nn (half hh oo j)) (m2 k nn yo hh oo j) (s4 k nn yo hh oo j) q))).
  { apply (ucv_lprod FN (seq 0 hh) (fun j x q => pair_gain (d_k x * d_k x * (sn (d_k x) (d_xz x j) * sn (d_k x) (d_xz x j))) (Cnorm2 (snC (d_k x) (d_xp x j) (d_yp x j))) (4 * (im (snC (d_k x) (d_xp x j) (d_yp x j)) * im (snC (d_k x) (d_xp x j) (d_yp x j)))) q) (fun j q => pair_gain (k * k * ss k nn (half hh oo j)) (m2 k nn yo hh oo j) (s4 k nn yo hh oo j) q)). intros j Hj. apply in_seq in Hj. assert (Lj : (j < hh)%nat) by lia.
    pose proof (snC_im_cv FN d_k _ _ k _ yo Hk k_cv (xp_cv j Lj) (yp_cv j Lj) Cy) as CI. pose proof (snC_re_cv FN d_k _ _ k _ yo Hk k_cv (xp_cv j Lj) (yp_cv j Lj) Cy) as CR. pose proof (sn_cv FN d_k _ k _ Hk k_cv (xz_cv j Lj)) as CS. rewrite <- tt_xo in CI, CR, CS.
    apply (pair_ucv FN (fun x => d_k x * d_k x * (sn (d_k x) (d_xz x j) * sn (d_k x) (d_xz x j))) (fun x => Cnorm2 (snC (d_k x) (d_xp x j) (d_yp x j))) (fun x => 4 * (im (snC (d_k x) (d_xp x j) (d_yp x j)) * im (snC (d_k x) (d_xp x j) (d_yp x j))))); [exact (m2_pos k Hk nn yo Hy hh oo nn_half oo_le j Lj)|exact (s4_pos k Hk nn yo Hy hh oo nn_half oo_le j Lj)| | |].
    - exact (cv_mul FN _ _ _ _ (cv_mul FN _ _ _ _ k_cv k_cv) (cv_mul FN _ _ _ _ CS CS)).
    - exact (cv_add FN _ _ _ _ (cv_mul FN _ _ _ _ CR CR) (cv_mul FN _ _ _ _ CI CI)).
    - exact (cv_mul FN _ _ _ _ (cv_const FN 4) (cv_mul FN _ _ _ _ CI CI)). }
  destruct S as [S1 S2]. destruct P as [P1 P2]. apply (ucv_mul FN _ _ _ _ (bounded_mul _ _ (bounded_const _) S2) P2); [|exact P1]. apply (ucv_mul FN _ _ _ _ (bounded_const _) S2); [|exact S1]. exact (cv_const FN _).
Qed.
Theorem drawn_limit dl : 0 < dl -> FN (fun x => forall w, Rabs (drawn x (w * w) - response k nn e2 w) < dl).
Proof.
  intros Hd. destruct exact_facts as (_ & Hy & Ev). pose proof er_pos as E0. destruct (drawn_ucv dl Hd) as (eta & H0 & H). exists eta. split; [exact H0|]. intros x Hx w. rewrite (response_half k Hk nn yo Hy e2 ltac:(nra) Ev hh oo nn_half oo_le w). exact (H x Hx (w * w) (Rle_0_sqr w)).
Qed.
End Exact.

(** ** Far beyond the edges *)
Lemma h1_far : cv (Rbar_locally p_infty) (fun w => h1 (w * w)) 0.
Proof.
  apply cv_of; [typeclasses eauto|]. intros d Hd. exists (/ d + 1). intros w Hw. assert (D0 : 0 < / d) by (now apply Rinv_0_lt_compat). assert (w * w > / d) by nra. rewrite Rminus_0_r. unfold h1. rewrite Rabs_pos_eq by (left; apply Rinv_0_lt_compat; nra). rewrite <- (Rinv_inv d). apply Rinv_lt_contravar; nra.
Qed.
Lemma ratio_far b m t : cv (Rbar_locally p_infty) (fun w => (b - w * w) * (b - w * w) / ((m - w * w) * (m - w * w) + t * (w * w))) 1.
Proof.
  set (H := h1_far). assert (H2 : cv (Rbar_locally p_infty) (fun w => h2 (w * w)) 1). { apply (ucv_ext (Rbar_locally p_infty) (fun w _ => 1 - h1 (w * w)) _ (fun _ => 1 - 0) _); [|intros; ring|exact (cv_sub (Rbar_locally p_infty) _ _ _ _ (cv_const (Rbar_locally p_infty) 1) H)]. intros w q _. destruct (h_facts (w * w) (Rle_0_sqr w)) as (_ & _ & E). lra. }
  set (G := Rbar_locally p_infty) in *. assert (N : cv G (fun w => (b * h1 (w * w) - h2 (w * w)) * (b * h1 (w * w) - h2 (w * w))) 1). { pose proof (cv_sub G _ _ _ _ (cv_mul G _ _ _ _ (cv_const G b) H) H2) as C. pose proof (cv_mul G _ _ _ _ C C) as C2. replace ((b * 0 - 1) * (b * 0 - 1)) with 1 in C2 by ring. exact C2. }
  assert (D : cv G (fun w => (m * h1 (w * w) - h2 (w * w)) * (m * h1 (w * w) - h2 (w * w)) + t * (h1 (w * w) * h2 (w * w))) 1). { pose proof (cv_sub G _ _ _ _ (cv_mul G _ _ _ _ (cv_const G m) H) H2) as C. pose proof (cv_add G _ _ _ _ (cv_mul G _ _ _ _ C C) (cv_mul G _ _ _ _ (cv_const G t) (cv_mul G _ _ _ _ H H2))) as C2. replace ((m * 0 - 1) * (m * 0 - 1) + t * (0 * 1)) with 1 in C2 by ring. exact C2. }
  pose proof (cv_div G _ _ _ _ R1_neq_R0 N D) as Q. apply (ucv_ext G (fun w _ => (b * h1 (w * w) - h2 (w * w)) * (b * h1 (w * w) - h2 (w * w)) / ((m * h1 (w * w) - h2 (w * w)) * (m * h1 (w * w) - h2 (w * w)) + t * (h1 (w * w) * h2 (w * w)))) _ (fun _ => 1 / 1) _); [|intros; field|exact Q]. intros w q _. unfold h1, h2. assert (W : 0 <= w * w) by exact (Rle_0_sqr w). generalize dependent (w * w). intros x Hx.
  replace ((b * / (1 + x) - x * / (1 + x)) * (b * / (1 + x) - x * / (1 + x))) with ((b - x) * (b - x) * / ((1 + x) * (1 + x))) by (field; lra). replace ((m * / (1 + x) - x * / (1 + x)) * (m * / (1 + x) - x * / (1 + x)) + t * (/ (1 + x) * (x * / (1 + x)))) with (((m - x) * (m - x) + t * x) * / ((1 + x) * (1 + x))) by (field; lra). assert (U : (1 + x) * (1 + x) <> 0) by nra. generalize dependent ((1 + x) * (1 + x)). intros u U. generalize ((b - x) * (b - x)) ((m - x) * (m - x) + t * x). intros A D'. unfold Rdiv. rewrite (Rinv_mult D'), Rinv_inv. set (z := / D'). field. exact U.
Qed.
Lemma iprod_cv {X} (G : (X -> Prop) -> Prop) {FG : Filter G} l (f : nat -> X -> R) : (forall j, In j l -> cv G (f j) 1) -> cv G (fun x => iprod l (fun j => f j x)) 1.
Proof.
  induction l as [|a l IH]; intros H; [exact (cv_const G 1)|]. pose proof (cv_mul G _ _ _ _ (H a (or_introl eq_refl)) (IH (fun j Hj => H j (or_intror Hj)))) as C. rewrite Rmult_1_l in C. exact C.
Qed.
Lemma far_bound h g zf cf c W : (forall j, (j < h)%nat -> re (zf j) = 0) -> (forall j, (j < h)%nat -> re (cf j) <> 0) ->
  let s := mkZpk g (mk_fp [] (map zf (seq 0 h))) (mk_fp [] (map cf (seq 0 h))) in (forall w, W <= w -> power_continuous s w <= c) -> g * g <= c.
Proof.
  intros Hz Hc s H. set (G := Rbar_locally p_infty). assert (C : cv G (fun w => power_continuous s w) (g * g)).
  { assert (Q : cv G (fun w => g * g * iprod (seq 0 h) (fun j => (im (zf j) * im (zf j) - w * w) * (im (zf j) * im (zf j) - w * w) / ((Cnorm2 (cf j) - w * w) * (Cnorm2 (cf j) - w * w) + 4 * (re (cf j) * re (cf j)) * (w * w)))) (g * g * 1)). { apply cv_mul; [unfold G; typeclasses eauto|apply cv_const; unfold G; typeclasses eauto|]. apply (iprod_cv G (seq 0 h) (fun j w => (im (zf j) * im (zf j) - w * w) * (im (zf j) * im (zf j) - w * w) / ((Cnorm2 (cf j) - w * w) * (Cnorm2 (cf j) - w * w) + 4 * (re (cf j) * re (cf j)) * (w * w)))). intros j _. apply ratio_far. }
    apply (ucv_ext G (fun w _ => g * g * iprod (seq 0 h) (fun j => (im (zf j) * im (zf j) - w * w) * (im (zf j) * im (zf j) - w * w) / ((Cnorm2 (cf j) - w * w) * (Cnorm2 (cf j) - w * w) + 4 * (re (cf j) * re (cf j)) * (w * w)))) _ (fun _ => g * g * 1) _); [|intros; ring|exact Q]. intros w q _. pose proof (power_raw h 0 g zf (fun _ => 0) cf w Hz ltac:(lia) Hc) as PR. cbv zeta in PR. change (map (fun _ : nat => 0) (seq 0 0)) with (@nil R) in PR. fold s in PR. rewrite PR. change (seq 0 0) with (@nil nat). rewrite iprod_nil, Rmult_1_l. enough (ID : iprod (seq 0 h) (fun j => (im (zf j) * im (zf j) - w * w) * (im (zf j) * im (zf j) - w * w) / pair_term (w * w) (cf j)) = iprod (seq 0 h) (fun j => (im (zf j) * im (zf j) - w * w) * (im (zf j) * im (zf j) - w * w)) / iprod (seq 0 h) (fun j => pair_term (w * w) (cf j))) by (unfold pair_term in *; rewrite ID; unfold Rdiv; ring). apply iprod_div. intros j Hj. apply in_seq in Hj. specialize (Hc j ltac:(lia)). apply Rsqr_pos_lt in Hc. unfold Rsqr in Hc. unfold pair_term, Cnorm2. assert (0 <= im (cf j) * im (cf j)) by exact (Rle_0_sqr _). assert (0 <= w * w) by exact (Rle_0_sqr _). generalize dependent (w * w). generalize dependent (im (cf j) * im (cf j)). generalize dependent (re (cf j) * re (cf j)). clear. intros a Ha b Hb x Hx. assert (0 <= (a + b - x) * (a + b - x)) by exact (Rle_0_sqr _). destruct (Req_dec x 0) as [->|]; nra. }
  apply Rnot_lt_le. intros L. destruct (cv_at G _ _ C (g * g - c) ltac:(lra)) as [M HM]. specialize (HM (Rmax M W + 1)). pose proof (Rmax_l M W). pose proof (Rmax_r M W). specialize (HM ltac:(lra)). specialize (H (Rmax M W + 1) ltac:(lra)). apply Rabs_def2 in HM. lra.
Qed.
