(** The elliptic functions depend continuously on argument and modulus together (used by C61). *)
From Coq Require Import Reals Lra Lia ZArith List Bool Psatz.
From Coquelicot Require Import Rcomplements Hierarchy Continuity Derive.
From Verif Require Import Base BaseFacts Complex EllipticSpec EllipticAM EllipticRF EllipticInv EllipticJacobi EllipticProto EllipticDegree JacobiReal JacobiComplex UniformLimit.
Open Scope R_scope.

Lemma F_lip k l h phi : 0 <= k <= h -> 0 <= l <= h -> 0 < h < 1 -> 0 <= phi -> Rabs (legendre_F l phi - legendre_F k phi) <= Rabs (l - k) * (phi / (compl h * compl h * compl h)).
Proof.
  intros Hk Hl Hh Hp. destruct (compl_bounds h Hh) as [M M2]. set (m := compl h) in *. assert (M3 : 0 < m * m * m) by (repeat apply Rmult_lt_0_compat; lra).
  destruct (Req_dec phi 0) as [->|P0]. { rewrite !legendre_F_0, Rminus_diag_eq, Rabs_R0 by reflexivity. apply Rmult_le_pos; [apply Rabs_pos|]. unfold Rdiv. rewrite Rmult_0_l. lra. }
  assert (W : forall a b, 0 <= a < b -> b <= h -> Rabs (legendre_F b phi - legendre_F a phi) <= (b - a) * (phi / (m * m * m))).
  { intros a b Ha Hb. assert (L : legendre_F b phi - legendre_F a phi <= (b - a) / (m * m * m) * phi). { apply legendre_lip; try lra. intros t _. pose proof (sin2_range t). rewrite M2. assert (b * b <= h * h) by nra. nra. }
    assert (G : 0 <= legendre_F b phi - legendre_F a phi). { destruct (legendre_diff a b phi ltac:(lra) ltac:(lra) ltac:(lra)) as (c & Hc & E). rewrite E. apply Rmult_le_pos; [|lra]. assert (I1 := integrand_pos b c ltac:(lra)). assert (/ sqrt (1 - a * a * (sin c * sin c)) <= / sqrt (1 - b * b * (sin c * sin c))); [|lra]. apply Rinv_le_contravar; [now apply sqrt_lt_R0|]. apply sqrt_le_1_alt. pose proof (sin2_range c). assert (a * a <= b * b) by nra. nra. }
    rewrite Rabs_pos_eq by exact G. eapply Rle_trans; [exact L|]. right. field. lra. }
  destruct (Rtotal_order k l) as [L|[->|L]].
  - rewrite (Rabs_pos_eq (l - k)) by lra. apply W; lra.
  - rewrite !Rminus_eq_0, Rabs_R0. lra.
  - rewrite Rabs_minus_sym, (Rabs_minus_sym l k), (Rabs_pos_eq (k - l)) by lra. apply W; lra.
Qed.
Lemma F_cont k phi : 0 < k < 1 -> continuity_pt (fun k => legendre_F k phi) k.
Proof.
  intros Hk. set (h := (1 + k) / 2). assert (Hh : k < h < 1) by (unfold h; lra). destruct (compl_bounds h ltac:(lra)) as [M _]. set (m := compl h) in *. assert (M3 : 0 < m * m * m) by (repeat apply Rmult_lt_0_compat; lra). set (c := Rabs phi / (m * m * m) + 1). assert (C0 : 0 < c). { unfold c. assert (0 <= Rabs phi / (m * m * m)); [|lra]. apply Rle_mult_inv_pos; [apply Rabs_pos|exact M3]. }
  assert (L : forall l, 0 <= l <= h -> Rabs (legendre_F l phi - legendre_F k phi) <= Rabs (l - k) * c).
  { intros l Hl. assert (B : forall p, 0 <= p -> p = Rabs phi -> Rabs (legendre_F l p - legendre_F k p) <= Rabs (l - k) * c). { intros p Hp Ep. eapply Rle_trans; [apply (F_lip k l h p); lra|]. apply Rmult_le_compat_l; [apply Rabs_pos|]. unfold c. fold m. rewrite <- Ep. lra. }
    destruct (Rle_dec 0 phi) as [P|P]; [apply B; [exact P|now rewrite Rabs_pos_eq]|]. specialize (B (- phi) ltac:(lra) ltac:(rewrite Rabs_left; lra)). rewrite !legendre_odd in B by lra. rewrite <- Rabs_Ropp. eapply Rle_trans; [|exact B]. right. f_equal. ring. }
  intros e He. exists (Rmin (e / c) (Rmin k (h - k))). assert (e0 : 0 < e / c) by (apply Rdiv_lt_0_compat; lra). split; [apply Rmin_glb_lt; [exact e0|apply Rmin_glb_lt; lra]|]. intros x [_ Hx]. simpl in Hx |- *. unfold R_dist in *.
  pose proof (Rmin_l (e / c) (Rmin k (h - k))). pose proof (Rmin_r (e / c) (Rmin k (h - k))). pose proof (Rmin_l k (h - k)). pose proof (Rmin_r k (h - k)). assert (X1 : Rabs (x - k) < e / c) by lra. assert (X2 : Rabs (x - k) < k) by lra. assert (X3 : Rabs (x - k) < h - k) by lra. apply Rabs_def2 in X2. apply Rabs_def2 in X3. apply Rlt_div_r in X1; [|exact C0]. eapply Rle_lt_trans; [apply L; lra|exact X1].
Qed.
Lemma compl_cont k : 0 < k < 1 -> continuity_pt compl k.
Proof.
  intros Hk. unfold compl. apply (continuity_pt_comp (fun k => 1 - k * k) sqrt); [|apply continuity_pt_sqrt; nra]. apply derivable_continuous_pt. apply derivable_pt_minus; [apply derivable_pt_const|apply derivable_pt_mult; apply derivable_pt_id].
Qed.

Section Limit.
Context {X : Type} (F : (X -> Prop) -> Prop) {FF : Filter F}.
Notation cv := (cv F).
Variables (kx ux : X -> R) (k u : R).
Hypothesis Hk : 0 < k < 1.
Hypothesis Ck : cv kx k.
Hypothesis Cu : cv ux u.
Lemma modulus_near : F (fun x => 0 < kx x < 1).
Proof. generalize (filter_and (F := F) _ _ (cv_at F _ _ Ck k ltac:(lra)) (cv_at F _ _ Ck (1 - k) ltac:(lra))). apply filter_imp. intros x [A B]. apply Rabs_def2 in A, B. lra. Qed.
Lemma am_cv : cv (fun x => am (kx x) (ux x)) (am k u).
Proof.
  assert (k0 : 0 <= k < 1) by lra. apply cv_of; [exact FF|]. intros d Hd. set (p := am k u). assert (Ep : legendre_F k p = u) by (apply am_spec; exact k0). assert (Lo : legendre_F k (p - d / 2) < u) by (rewrite <- Ep; apply F_strict; [exact k0|lra]). assert (Hi : u < legendre_F k (p + d / 2)) by (rewrite <- Ep; apply F_strict; [exact k0|lra]).
  pose proof (cv_comp F _ _ (fun k => legendre_F k (p - d / 2)) Ck (F_cont k _ Hk)) as C1. pose proof (cv_comp F _ _ (fun k => legendre_F k (p + d / 2)) Ck (F_cont k _ Hk)) as C2. set (e := Rmin (u - legendre_F k (p - d / 2)) (legendre_F k (p + d / 2) - u)). assert (E0 : 0 < e) by (apply Rmin_glb_lt; lra). assert (E1 : e <= u - legendre_F k (p - d / 2)) by apply Rmin_l. assert (E2 : e <= legendre_F k (p + d / 2) - u) by apply Rmin_r.
  generalize (filter_and (F := F) _ _ modulus_near (filter_and (F := F) _ _ (cv_at F _ _ Cu (e / 2) ltac:(lra)) (filter_and (F := F) _ _ (cv_at F _ _ C1 (e / 2) ltac:(lra)) (cv_at F _ _ C2 (e / 2) ltac:(lra))))). apply filter_imp. intros x (Hx & A & B & D). assert (x0 : 0 <= kx x < 1) by lra. apply Rabs_def2 in A, B, D.
  assert (L1 : am (kx x) (legendre_F (kx x) (p - d / 2)) < am (kx x) (ux x)) by (apply am_incr; [exact x0|lra]). assert (L2 : am (kx x) (ux x) < am (kx x) (legendre_F (kx x) (p + d / 2))) by (apply am_incr; [exact x0|lra]). rewrite !am_F in L1, L2 by exact x0. apply Rabs_def1; lra.
Qed.
Lemma sn_cv : cv (fun x => sn (kx x) (ux x)) (sn k u). Proof. exact (cv_comp F _ _ sin am_cv (continuity_sin _)). Qed.
Lemma cn_cv : cv (fun x => cn (kx x) (ux x)) (cn k u). Proof. exact (cv_comp F _ _ cos am_cv (continuity_cos _)). Qed.
Lemma dn_cv : cv (fun x => dn (kx x) (ux x)) (dn k u).
Proof.
  unfold dn. assert (C : cv (fun x => 1 - kx x * kx x * (sn (kx x) (ux x) * sn (kx x) (ux x))) (1 - k * k * (sn k u * sn k u))). { apply cv_sub; [exact FF|apply cv_const; exact FF|]. apply cv_mul; [exact FF| |]; apply cv_mul; try exact FF; (exact Ck || exact sn_cv). }
  apply (cv_comp F _ _ sqrt C). apply continuity_pt_sqrt. left. apply rad_pos'. lra.
Qed.
Lemma kq_cv : cv (fun x => kq (kx x)) (kq k). Proof. exact (cv_comp F _ _ compl Ck (compl_cont k Hk)). Qed.
End Limit.
Section LimitC.
Context {X : Type} (F : (X -> Prop) -> Prop) {FF : Filter F}.
Notation cv := (cv F).
Variables (kx ux yx : X -> R) (k u y : R).
Hypothesis Hk : 0 < k < 1.
Hypothesis Ck : cv kx k.
Hypothesis Cu : cv ux u.
Hypothesis Cy : cv yx y.
Hypothesis Hy : cn (kq k) y <> 0.
Ltac cvs := repeat first [exact FF | assumption | apply cv_mul | apply cv_add | apply cv_const | apply sn_cv | apply cn_cv | apply dn_cv | apply kq_cv | (destruct (kq_bounds k Hk); assumption)].
Lemma qd_cv : cv (fun x => qd (kx x) (ux x) (yx x)) (qd k u y). Proof. unfold qd. cvs. Qed.
Lemma snC_re_cv : cv (fun x => re (snC (kx x) (ux x) (yx x))) (re (snC k u y)).
Proof. unfold snC. cbn [re]. apply cv_div; [exact FF|pose proof (qd_pos k u y Hy); lra| |exact qd_cv]. cvs. Qed.
Lemma snC_im_cv : cv (fun x => im (snC (kx x) (ux x) (yx x))) (im (snC k u y)).
Proof. unfold snC. cbn [im]. apply cv_div; [exact FF|pose proof (qd_pos k u y Hy); lra| |exact qd_cv]. cvs. Qed.
End LimitC.
