(** The discretised Butterworth halfband prototype and the four band transforms. *)
From Coq Require Import Reals Lra Psatz Permutation.
From Verif Require Import Base BaseFacts Complex KernelProofs ConvModel ConvProofs IirModel IirProofs PolyModel PolyProofs SysModel SysProofs PropsPoly PropsSys RootModel RootProofs ZmapProofs DesignProofs ButterProofs.
From Coq Require Import ZifyBool ZifyNat.
Ltac Zify.zify_post_hook ::= Z.div_mod_to_equations.
Open Scope Z_scope.

Lemma Cnorm2_C0 : Cnorm2 C0 = 0%R. Proof. unfold Cnorm2. cbn. ring. Qed.
(** *** the prototype *)
Lemma proto_k : bilinear_k (2 / PI) (Some 1%R) = 1%R.
Proof.
  unfold bilinear_k. pose proof PI_RGT_0. replace (1 / (2 / PI) / 2)%R with (PI / 4)%R by (field; lra). rewrite tan_PI4. field.
Qed.
Definition butter_sys (n : Z) : zpk := mkZpk 1 empty_fp (butter_poles n).
Lemma butter_wf n : 0 <= n -> well_formed (butter_sys n).
Proof. intros H. split; [exact fp_wf_empty|]. apply mk_fp_wf. Qed.
Lemma butter_order n : 0 <= n -> num_roots (poles (butter_sys n)) = n /\ num_roots (zeros (butter_sys n)) = 0.
Proof.
  intros H. split; [|reflexivity]. cbn [poles butter_sys]. unfold butter_poles, num_roots, mk_fp. cbn [nreal npairs]. rewrite lenZ_tab. unfold lenZ. rewrite repeat_length. lia.
Qed.
Lemma butter_transfer n z : transfer_at (butter_sys n) z = Cdiv C1 (pnode (all_roots (butter_poles n)) z).
Proof. unfold transfer_at. rewrite <- !pnode_vanishing. cbn [gain zeros poles butter_sys]. change (all_roots empty_fp) with (@nil C). unfold Cdiv. change (pnode [] z) with C1. change (RtoC 1) with C1. ring. Qed.
(** off the poles; [N] and [D] are numerator and denominator of a point of the sphere *)
Lemma proto_spec n : 0 < n < 2 ^ 64 -> exists hb, PrototypeButterworth n = Ok hb /\ well_formed hb /\ num_roots (zeros hb) = n /\ num_roots (poles hb) = n /\
  stable_poles hb /\ closed_zeros hb /\
  (forall w (N D : C), D <> C0 -> Csub N D = Cmul (mkC 0 w) (Cadd N D) -> Cadd N D <> C0 ->
     ~ is_pole hb (Cdiv N D) /\ Cnorm2 (transfer_at hb (Cdiv N D)) = (1 / (1 + w ^ (2 * Z.to_nat n)))%R) /\
  (~ is_pole hb (RtoC (-1)) /\ transfer_at hb (RtoC (-1)) = C0).
Proof.
  intros H. unfold PrototypeButterworth. rewrite butter_ok by lia. cbn [bind]. fold (butter_poles n). fold (butter_sys n). unfold DiscretizePrototype.
  pose proof proto_k as Ek.
  destruct (butter_order n ltac:(lia)) as [Op Oz].
  assert (Left : forall p, In p (all_roots (butter_poles n)) -> (re p < 0)%R) by (intros p Hp; exact (bpole_left n p ltac:(lia) Hp)).
  destruct (bilinear_spec (butter_sys n) (2 / PI) (Some 1%R) (butter_wf n ltac:(lia))) as (hb & E & W & Lz & Lp & V & P & Zr).
  { intros p [Hp|Hp] Ep; [destruct Hp|]. specialize (Left p Hp). rewrite Ep, Ek in Left. cbn in Left. lra. }
  rewrite Ek in *. assert (Eo : zpk_order (butter_sys n) = n) by (unfold zpk_order; rewrite Op, Oz; lia). rewrite Eo in *.
  assert (Sp : stable_poles hb).
  { intros z Hz. specialize (P z). rewrite Op in P. replace (Z.to_nat (n - n)) with 0%nat in P by lia. cbn [cpow] in P.
    assert (P' : Cmul (prodC (cb 1) (all_roots (poles (butter_sys n)))) (pnode (all_roots (poles hb)) z) = prodC (fun p => Csub (Nb 1 z) (Cmul p (Db z))) (all_roots (poles (butter_sys n)))) by (rewrite P; ring).
    destruct (new_pole _ _ _ _ _ z P' Hz) as (p & Hp & Q). apply (stable_bilinear 1 p z); [lra|now apply Left|exact Q]. }
  assert (Cz : forall z, In z (all_roots (zeros hb)) -> z = RtoC (-1)).
  { intros z Hz. specialize (Zr z). cbn [zeros butter_sys] in Zr. change (all_roots empty_fp) with (@nil C) in Zr. rewrite (pnode_root _ _ Hz) in Zr.
    destruct (Ceq_dec z (RtoC (-1))) as [|n1]; [assumption|exfalso]. apply (cpow_neq0 (Db z) (Z.to_nat (n - num_roots empty_fp))).
    - intros E0. apply n1. unfold Db in E0. transitivity (Csub (Cadd z C1) C1); [ring|]. rewrite E0. cring.
    - cbn [prodC prodK fold_right] in Zr. unfold prodK in Zr. cbn [fold_right r1 rmul Cring] in Zr. transitivity (Cmul C1 (cpow (Db z) (Z.to_nat (n - num_roots empty_fp)))); [ring|]. rewrite <- Zr. ring. }
  exists hb. split; [exact E|]. split; [exact W|]. split; [exact Lz|]. split; [exact Lp|]. split; [exact Sp|]. split.
  { intros z Hz. rewrite (Cz z Hz). unfold closed_disc, Cnorm2. cbn. lra. }
  split.
  - intros w N D HD Hw Hs.
    assert (H1 : Cdiv N D <> RtoC (-1)).
    { intros E1. apply Hs. transitivity (Cmul D (Cadd (Cdiv N D) C1)); [field; exact HD|]. rewrite E1. transitivity (Cmul D C0); [f_equal; cring|ring]. }
    assert (E1 : Cdiv (Nb 1 (Cdiv N D)) (Db (Cdiv N D)) = mkC 0 w).
    { assert (H2 : Db (Cdiv N D) <> C0). { intros E0. apply H1. unfold Db in E0. transitivity (Csub (Cadd (Cdiv N D) C1) C1); [ring|]. rewrite E0. cring. }
      transitivity (Cdiv (Csub N D) (Cadd N D)).
      - unfold Nb, Db in *. change (RtoC 1) with C1. field. split; [exact Hs|]. exact HD.
      - rewrite Hw. field. exact Hs. }
    destruct (V (Cdiv N D) H1) as [V1 V2].
    + rewrite E1. unfold is_pole. rewrite <- pnode_vanishing. intros E0. pose proof (butter_mag n w ltac:(lia)) as M. cbn [poles butter_sys] in E0. rewrite E0 in M.
      assert (0 <= w ^ (2 * Z.to_nat n))%R by (rewrite pow_mult; apply pow_le; apply pow2_ge_0). rewrite Cnorm2_C0 in M. lra.
    + split; [exact V1|]. rewrite V2, E1, butter_transfer.
      assert (P0 : pnode (all_roots (butter_poles n)) (mkC 0 w) <> C0). { intros E0. pose proof (butter_mag n w ltac:(lia)) as M. rewrite E0 in M.
        assert (0 <= w ^ (2 * Z.to_nat n))%R by (rewrite pow_mult; apply pow_le; apply pow2_ge_0). rewrite Cnorm2_C0 in M. lra. }
      assert (M : (Cnorm2 (Cdiv C1 (pnode (all_roots (butter_poles n)) (mkC 0 w))) * Cnorm2 (pnode (all_roots (butter_poles n)) (mkC 0 w)) = 1)%R).
      { rewrite <- Cnorm2_mul. transitivity (Cnorm2 C1); [f_equal; field; exact P0|unfold Cnorm2; cbn; ring]. }
      rewrite (butter_mag n w ltac:(lia)) in M. assert (0 <= w ^ (2 * Z.to_nat n))%R by (rewrite pow_mult; apply pow_le; apply pow2_ge_0).
      apply (Rmult_eq_reg_r (1 + w ^ (2 * Z.to_nat n))); [|lra]. rewrite M. field. lra.
  - assert (Np : ~ is_pole hb (RtoC (-1))).
    { unfold is_pole. rewrite <- pnode_vanishing. intros E0. unfold pnode in E0. apply prodC_zero in E0 as (p & Hp & Ep). specialize (Sp p Hp). unfold unit_disc in Sp.
      assert (p = RtoC (-1)) by (transitivity (Csub (RtoC (-1)) (Csub (RtoC (-1)) p)); [ring|rewrite Ep; ring]). subst p. unfold Cnorm2 in Sp. cbn in Sp. lra. }
    split; [exact Np|]. unfold transfer_at. unfold is_pole in Np.
    assert (Z0 : vanishing_product (all_roots (zeros hb)) (RtoC (-1)) = C0).
    { rewrite <- pnode_vanishing. pose proof (roots_len (zeros hb) (proj1 W)) as L. destruct (all_roots (zeros hb)) as [|z l] eqn:Ea; [exfalso|].
      - cbn [length] in L. lia.
      - apply pnode_root. left. apply Cz. now left. }
    rewrite Z0. unfold Cdiv. ring.
Qed.

(** *** on the unit circle *)
Lemma circle_half w : Csub (cis w) C1 = Cmul (cis (w / 2)) (mkC 0 (2 * sin (w / 2))) /\ Cadd (cis w) C1 = Cmul (cis (w / 2)) (RtoC (2 * cos (w / 2))).
Proof.
  assert (C2 : cos w = (cos (w / 2) * cos (w / 2) - sin (w / 2) * sin (w / 2))%R) by (rewrite <- cos_plus; f_equal; field).
  assert (S2 : sin w = (2 * sin (w / 2) * cos (w / 2))%R) by (rewrite <- sin_2a; f_equal; field).
  pose proof (sin2_cos2 (w / 2)) as T. unfold Rsqr in T. unfold cis. rewrite C2, S2.
  split; unfold Csub, Cadd, Cmul, C1, RtoC, Copp; cbn [re im]; f_equal; nra.
Qed.
Lemma cis_sq w : Cadd (Cmul (cis w) (cis w)) C1 = Cmul (cis w) (RtoC (2 * cos w)) /\ Csub (Cmul (cis w) (cis w)) C1 = Cmul (cis w) (mkC 0 (2 * sin w)).
Proof.
  pose proof (sin2_cos2 w) as T. unfold Rsqr in T. unfold cis. split; unfold Csub, Cadd, Cmul, C1, RtoC, Copp; cbn [re im]; f_equal; nra.
Qed.
Lemma cis_neq0 w : cis w <> C0.
Proof. apply C_neq0. rewrite cis_norm. lra. Qed.
Lemma even_sign x k : ((- x) ^ (2 * k) = x ^ (2 * k))%R.
Proof. rewrite !pow_mult. f_equal. ring. Qed.
Lemma divides_ok d m : d <> 0%R -> divides_by d m = m.
Proof. intros H. unfold divides_by. destruct (Req_EM_T d 0); [contradiction|reflexivity]. Qed.

(** what the four coefficient computations amount to *)
Lemma half_angle w : (0 < w < PI)%R -> (0 < sin (w / 2))%R /\ (0 < cos (w / 2))%R /\ cos w = (1 - 2 * (sin (w / 2) * sin (w / 2)))%R /\ sin w = (2 * sin (w / 2) * cos (w / 2))%R /\
  (sin (w / 2) * sin (w / 2) + cos (w / 2) * cos (w / 2) = 1)%R.
Proof.
  intros H. pose proof (sin2_cos2 (w / 2)) as T. unfold Rsqr in T. repeat split.
  - apply sin_gt_0; lra.
  - apply cos_gt_0; lra.
  - transitivity (cos (w / 2 + w / 2)); [f_equal; field|]. rewrite cos_plus. lra.
  - rewrite <- sin_2a. f_equal. field.
  - exact T.
Qed.
Lemma lp_coef w : (0 < w < PI)%R -> (1 + sin w <> 0 /\ lp_a0 w * lp_a0 w < 1 /\ (1 - lp_a0 w) * sin (w / 2) = (1 + lp_a0 w) * cos (w / 2))%R.
Proof.
  intros H. destruct (half_angle w H) as (A & B & E1 & E2 & E3). unfold lp_a0. set (S := sin (w / 2)) in *. set (D := cos (w / 2)) in *.
  assert (P : (1 + sin w = (S + D) * (S + D))%R) by (rewrite E2; nra). assert (Q : (cos w = (D - S) * (D + S))%R) by (rewrite E1; nra).
  assert (L : (- (cos w / (1 + sin w)) = - ((D - S) / (S + D)))%R) by (rewrite P, Q; field; lra).
  rewrite L. split; [rewrite P; nra|]. split.
  - assert (X : ((D - S) / (S + D) * (S + D) = D - S)%R) by (field; lra). set (q := ((D - S) / (S + D))%R) in *.
    assert (q < 1)%R by (apply (Rmult_lt_reg_r (S + D)); lra). assert (-1 < q)%R by (apply (Rmult_lt_reg_r (S + D)); lra). nra.
  - field. lra.
Qed.
Lemma hp_coef w : (0 < w < PI)%R -> w <> (PI / 2)%R -> (-1 + sin w <> 0 /\ 1 < hp_a1 w * hp_a1 w /\ (hp_a1 w + 1) * cos (w / 2) = - ((1 - hp_a1 w) * sin (w / 2)))%R.
Proof.
  intros H Hw. destruct (half_angle w H) as (A & B & E1 & E2 & E3).
  assert (Hne : sin (w / 2) <> cos (w / 2)).
  { intros E. apply Hw. assert (Hc : cos w = 0%R) by (rewrite E1; nra).
    destruct (Rtotal_order w (PI / 2)) as [L|[L|L]]; [|exact L|].
    - exfalso. assert (0 < cos w)%R by (apply cos_gt_0; lra). lra.
    - exfalso. assert (cos w < 0)%R by (apply cos_lt_0; lra). lra. }
  unfold hp_a1. set (S := sin (w / 2)) in *. set (D := cos (w / 2)) in *.
  assert (P : (-1 + sin w = - ((D - S) * (D - S)))%R) by (rewrite E2; nra). assert (Q : (cos w = (D - S) * (D + S))%R) by (rewrite E1; nra).
  assert (Hds : (D - S <> 0)%R) by lra.
  assert (L : (cos w / (-1 + sin w) = - ((D + S) / (D - S)))%R) by (rewrite P, Q; field; exact Hds).
  rewrite L. split; [rewrite P; intros X; assert ((D - S) * (D - S) = 0)%R by lra; apply Rmult_integral in H0; lra|]. split.
  - assert (X : ((D + S) / (D - S) * (D - S) = D + S)%R) by (field; exact Hds). set (q := ((D + S) / (D - S))%R) in *.
    assert (Y : (q * q * ((D - S) * (D - S)) = (D + S) * (D + S))%R) by (rewrite <- X; ring). assert (0 < (D - S) * (D - S))%R by nra.
    apply (Rmult_lt_reg_r ((D - S) * (D - S))); [assumption|]. nra.
  - field. exact Hds.
Qed.
(** centre and half width of the band *)
Lemma band_angles w1 w2 : (0 < w1 -> w1 < w2 -> w2 < PI -> let d := (w2 - w1) / 2 in let g := (w1 + w2) / 2 in
  0 < sin d /\ 0 < cos d /\ cos g * cos g < cos d * cos d /\ sin d * sin d + cos d * cos d = 1 /\
  cos w1 + cos w2 = 2 * cos g * cos d /\ sin w1 - sin w2 = - (2 * cos g * sin d) /\ sin (w1 - w2) = - (2 * sin d * cos d) /\ tan ((w1 - w2) / 2) = - (sin d / cos d))%R.
Proof.
  intros H1 H2 H3 d g. assert (Ew1 : w1 = (g - d)%R) by (unfold g, d; field). assert (Ew2 : w2 = (g + d)%R) by (unfold g, d; field).
  assert (Sd : (0 < sin d)%R) by (apply sin_gt_0; unfold d; lra). assert (Cd : (0 < cos d)%R) by (apply cos_gt_0; unfold d; lra).
  pose proof (sin2_cos2 d) as T. unfold Rsqr in T.
  split; [exact Sd|]. split; [exact Cd|]. split.
  { assert (0 < sin w1)%R by (apply sin_gt_0; lra). assert (0 < sin w2)%R by (apply sin_gt_0; lra). rewrite Ew1, sin_minus in H. rewrite Ew2, sin_plus in H0.
    pose proof (sin2_cos2 g) as T2. unfold Rsqr in T2.
    assert (0 < (sin g * cos d - cos g * sin d) * (sin g * cos d + cos g * sin d))%R by (apply Rmult_lt_0_compat; assumption).
    assert (X : (sin g * cos d * (sin g * cos d) - cos g * sin d * (cos g * sin d) = cos d * cos d - cos g * cos g)%R).
    { transitivity ((sin g * sin g) * (cos d * cos d) - (cos g * cos g) * (sin d * sin d))%R; [ring|]. replace (sin g * sin g)%R with (1 - cos g * cos g)%R by lra. replace (sin d * sin d)%R with (1 - cos d * cos d)%R by lra. ring. }
    lra. }
  split; [exact T|]. split; [rewrite Ew1, Ew2, cos_plus, cos_minus; ring|]. split; [rewrite Ew1, Ew2, sin_plus, sin_minus; ring|]. split.
  - replace (w1 - w2)%R with (- (2 * d))%R by (unfold d; field). rewrite sin_neg, sin_2a. ring.
  - replace ((w1 - w2) / 2)%R with (- d)%R by (unfold d; field). rewrite tan_neg. reflexivity.
Qed.
Lemma bp_coef w1 w2 : (0 < w1 -> w1 < w2 -> w2 < PI -> w2 - w1 <> PI / 2 -> let d := (w2 - w1) / 2 in let g := (w1 + w2) / 2 in
  1 + tan ((w1 - w2) / 2) <> 0 /\ 1 + sin (w1 - w2) <> 0 /\ cos d - sin d <> 0 /\
  bp_a2 w1 w2 = (cos d + sin d) / (cos d - sin d) /\ bp_a1 w1 w2 = - (2 * cos g / (cos d - sin d)))%R.
Proof.
  intros H1 H2 H3 H4 d g. destruct (band_angles w1 w2 H1 H2 H3) as (Sd & Cd & _ & T & E1 & E2 & E3 & E4). fold d g in Sd, Cd, T, E1, E2, E3, E4.
  assert (Hn : (cos d - sin d <> 0)%R).
  { intros X. apply H4. assert (Y : cos (w2 - w1) = 0%R). { replace (w2 - w1)%R with (d + d)%R by (unfold d; field). rewrite cos_plus. replace (cos d) with (sin d) by lra. ring. }
    destruct (Rtotal_order (w2 - w1) (PI / 2)) as [L|[L|L]]; [|exact L|].
    - exfalso. assert (0 < cos (w2 - w1))%R by (apply cos_gt_0; lra). lra.
    - exfalso. assert (cos (w2 - w1) < 0)%R by (apply cos_lt_0; lra). lra. }
  assert (E5 : (1 + tan ((w1 - w2) / 2) = (cos d - sin d) / cos d)%R) by (rewrite E4; field; lra).
  assert (E6 : (1 + sin (w1 - w2) = (cos d - sin d) * (cos d - sin d))%R) by (rewrite E3; lra).
  split; [rewrite E5; unfold Rdiv; apply Rmult_integral_contrapositive; split; [exact Hn|apply Rinv_neq_0_compat; lra]|].
  split; [rewrite E6; now apply Rmult_integral_contrapositive|]. split; [exact Hn|]. split.
  - unfold bp_a2. rewrite E5. field. split; lra.
  - unfold bp_a1. rewrite E6. replace (cos w1 + cos w2 + sin w1 - sin w2)%R with ((cos w1 + cos w2) + (sin w1 - sin w2))%R by ring. rewrite E1, E2. field. exact Hn.
Qed.
Lemma bs_coef w1 w2 : (0 < w1 -> w1 < w2 -> w2 < PI -> let d := (w2 - w1) / 2 in let g := (w1 + w2) / 2 in
  -1 + tan ((w1 - w2) / 2) <> 0 /\ -1 + sin (w1 - w2) <> 0 /\ 0 < cos d + sin d /\
  bs_a0 w1 w2 = (cos d - sin d) / (cos d + sin d) /\ bs_a1 w1 w2 = - (2 * cos g / (cos d + sin d)))%R.
Proof.
  intros H1 H2 H3 d g. destruct (band_angles w1 w2 H1 H2 H3) as (Sd & Cd & _ & T & E1 & E2 & E3 & E4). fold d g in Sd, Cd, T, E1, E2, E3, E4.
  assert (E5 : (-1 + tan ((w1 - w2) / 2) = - ((cos d + sin d) / cos d))%R) by (rewrite E4; field; lra).
  assert (E6 : (-1 + sin (w1 - w2) = - ((cos d + sin d) * (cos d + sin d)))%R) by (rewrite E3; lra).
  split; [rewrite E5; apply Ropp_neq_0_compat; unfold Rdiv; apply Rmult_integral_contrapositive; split; [lra|apply Rinv_neq_0_compat; lra]|].
  split; [rewrite E6; apply Ropp_neq_0_compat, Rmult_integral_contrapositive; lra|]. split; [lra|]. split.
  - unfold bs_a0. rewrite E5. field. split; lra.
  - unfold bs_a1. rewrite E6. replace (cos w1 + cos w2 - sin w1 + sin w2)%R with ((cos w1 + cos w2) - (sin w1 - sin w2))%R by ring. rewrite E1, E2. field. lra.
Qed.

(** *** band transforms of a discretised prototype.  [G] is the power response of the
    prototype on the imaginary axis, [Ginf] its limit. *)
Definition halfband (hb : zpk) (n : Z) (G : R -> R) (Ginf : R) : Prop :=
  well_formed hb /\ num_roots (zeros hb) = n /\ num_roots (poles hb) = n /\ stable_poles hb /\ closed_zeros hb /\
  (forall w (N D : C), D <> C0 -> Csub N D = Cmul (mkC 0 w) (Cadd N D) -> Cadd N D <> C0 -> Cnorm2 (transfer_at hb (Cdiv N D)) = G w) /\
  Cnorm2 (transfer_at hb (RtoC (-1))) = Ginf.
Lemma butter_halfband n : 0 < n < 2 ^ 64 -> exists hb, PrototypeButterworth n = Ok hb /\ halfband hb n (fun w => 1 / (1 + w ^ (2 * Z.to_nat n)))%R 0.
Proof.
  intros H. destruct (proto_spec n H) as (hb & E & W & Lz & Lp & Sp & Cz & V & _ & I). exists hb. split; [exact E|]. unfold halfband.
  split; [exact W|]. split; [exact Lz|]. split; [exact Lp|]. split; [exact Sp|]. split; [exact Cz|]. split.
  - intros w N D H1 H2 H3. exact (proj2 (V w N D H1 H2 H3)).
  - rewrite I. apply Cnorm2_C0.
Qed.
Definition on_circle (z : C) : Prop := Cnorm2 z = 1%R.
Lemma stable_no_pole sys z : stable_poles sys -> (1 <= Cnorm2 z)%R -> ~ is_pole sys z.
Proof.
  intros S H E. unfold is_pole in E. rewrite <- pnode_vanishing in E. unfold pnode in E. apply prodC_zero in E as (p & Hp & Ep). specialize (S p Hp). unfold unit_disc in S.
  assert (p = z) by (transitivity (Csub z (Csub z p)); [ring|rewrite Ep; ring]). subst p. lra.
Qed.
Lemma neg_one (N D : C) : D <> C0 -> Cadd N D = C0 -> Cdiv N D = RtoC (-1).
Proof. intros H E. transitivity (Csub (Cdiv (Cadd N D) D) C1); [field; exact H|]. rewrite E. unfold Cdiv. transitivity (Copp C1); [ring|cring]. Qed.
Definition responds (sys : zpk) (n : Z) (N D : C -> C) (G : R -> R) (Ginf : R) : Prop :=
  well_formed sys /\ num_roots (zeros sys) = n /\ num_roots (poles sys) = n /\ stable_poles sys /\
  (forall z, on_circle z -> (forall w, Csub (N z) (D z) = Cmul (mkC 0 w) (Cadd (N z) (D z)) -> Cadd (N z) (D z) <> C0 -> Cnorm2 (transfer_at sys z) = G w) /\
     (Cadd (N z) (D z) = C0 -> Cnorm2 (transfer_at sys z) = Ginf)).
Lemma norm_div_one (N D : C) : D <> C0 -> Cnorm2 N = Cnorm2 D -> (1 <= Cnorm2 (Cdiv N D))%R.
Proof.
  intros H E. assert (X : (Cnorm2 (Cdiv N D) * Cnorm2 D = Cnorm2 N)%R) by (rewrite <- Cnorm2_mul; f_equal; field; exact H).
  assert (0 < Cnorm2 D)%R by (apply C_neq0 in H; pose proof (Cnorm2_ge0 D); lra). right. symmetry. apply (Rmult_eq_reg_r (Cnorm2 D)); lra.
Qed.
Lemma design1 hb n G Ginf s a0 a1 : n < 2 ^ 64 -> halfband hb n G Ginf -> (s * s = 1)%R -> (a0 * a0 < a1 * a1)%R ->
  exists sys, MapZDomain1 hb s a0 a1 = Ok sys /\ responds sys n (N1 s a0 a1) (D1 a0 a1) G Ginf.
Proof.
  intros Hn (W & Lz & Lp & Sp & Cz & V & I) Hs Ha.
  destruct (mz1_spec hb s a0 a1 W) as (sys & E & W' & Lz' & Lp' & V' & P'); [lia|right; lia| |].
  { intros p Hp. apply c1_disc; [exact Hs|exact Ha|]. destruct Hp as [Hp|Hp]; [now apply Cz|]. unfold closed_disc. specialize (Sp p Hp). unfold unit_disc in Sp. lra. }
  exists sys. split; [exact E|]. split; [exact W'|]. split; [lia|]. split; [lia|]. split; [now apply (stable_map1 hb sys s a0 a1)|].
  intros z Hz. unfold on_circle in Hz. pose proof (N1_neq0 s a0 a1 z Hs Ha ltac:(lra)) as P0. pose proof (N1_D1_norm s a0 a1 z Hs) as ND. rewrite Hz in ND.
  assert (D0 : D1 a0 a1 z <> C0) by (apply C_neq0; lra).
  assert (T : transfer_at sys z = transfer_at hb (Cdiv (N1 s a0 a1 z) (D1 a0 a1 z))).
  { apply V'; [exact D0|]. apply stable_no_pole; [exact Sp|]. apply norm_div_one; [exact D0|lra]. }
  split.
  - intros w H1 H2. rewrite T. now apply V.
  - intros H1. rewrite T, neg_one by assumption. exact I.
Qed.
Lemma design2 hb n G Ginf s a0 a1 a2 : n < 2 ^ 64 -> halfband hb n G Ginf -> (s * s = 1)%R -> (a0 * a0 < a2 * a2)%R -> (a1 * a1 < (a2 + a0) * (a2 + a0))%R ->
  exists sys, MapZDomain2 hb s a0 a1 a2 = Ok sys /\ responds sys (2 * n) (N2 s a0 a1 a2) (D2 a0 a1 a2) G Ginf.
Proof.
  intros Hn (W & Lz & Lp & Sp & Cz & V & I) Hs Ha Hb.
  destruct (mz2_spec hb s a0 a1 a2 W) as (sys & E & W' & Lz' & Lp' & V' & P'); [lia|right; lia| |].
  { intros p Hp. apply c1_disc; [exact Hs|exact Ha|]. destruct Hp as [Hp|Hp]; [now apply Cz|]. unfold closed_disc. specialize (Sp p Hp). unfold unit_disc in Sp. lra. }
  exists sys. split; [exact E|]. split; [exact W'|]. split; [lia|]. split; [lia|]. split; [now apply (stable_map2 hb sys s a0 a1 a2)|].
  intros z Hz. unfold on_circle in Hz.
  assert (ND : Cnorm2 (N2 s a0 a1 a2 z) = Cnorm2 (D2 a0 a1 a2 z)) by (pose proof (N2_D2_norm s a0 a1 a2 z Hs) as X; rewrite Hz in X; lra).
  assert (D0 : D2 a0 a1 a2 z <> C0).
  { intros E0. apply (N2_D2_coprime s a0 a1 a2 z Hs Ha Hb); [|exact E0]. rewrite E0, Cnorm2_C0 in ND. destruct (Ceq_dec (N2 s a0 a1 a2 z) C0) as [|n0]; [assumption|]. apply C_neq0 in n0. contradiction. }
  assert (T : transfer_at sys z = transfer_at hb (Cdiv (N2 s a0 a1 a2 z) (D2 a0 a1 a2 z))).
  { apply V'; [exact D0|]. apply stable_no_pole; [exact Sp|]. now apply norm_div_one. }
  split.
  - intros w H1 H2. rewrite T. now apply V.
  - intros H1. rewrite T, neg_one by assumption. exact I.
Qed.
Lemma on_circle_cis w : on_circle (cis w). Proof. apply cis_norm. Qed.

(** *** the four designs *)
Definition shape (sys : zpk) (n : Z) : Prop := well_formed sys /\ num_roots (zeros sys) = n /\ num_roots (poles sys) = n /\ stable_poles sys.
Lemma band_lowpass hb n G Ginf to : n < 2 ^ 64 -> halfband hb n G Ginf -> (0 < to < 1)%R -> exists sys, Halfband2Lowpass hb to = Ok sys /\ shape sys n /\
  (forall w, cos (w / 2) <> 0%R -> Cnorm2 (transfer_at sys (cis w)) = G (tan (w / 2) / tan (to * PI / 2))%R) /\
  (forall w, cos (w / 2) = 0%R -> Cnorm2 (transfer_at sys (cis w)) = Ginf).
Proof.
  intros Hn Hb Ht. pose proof PI_RGT_0. assert (Hw : (0 < to * PI < PI)%R) by nra. set (wc := (to * PI)%R) in *. destruct (lp_coef wc Hw) as (A & B & E). destruct (half_angle wc Hw) as (S1 & C2 & _).
  unfold Halfband2Lowpass. fold wc. rewrite divides_ok by exact A. set (a0 := lp_a0 wc) in *.
  destruct (design1 hb n G Ginf 1 a0 1 Hn Hb ltac:(lra) ltac:(lra)) as (sys & Es & (W & Lz & Lp & Sp & V)).
  exists sys. split; [exact Es|]. split; [now split; [|split; [|split]]|].
  assert (ED : forall z, Csub (N1 1 a0 1 z) (D1 a0 1 z) = Cmul (RtoC (1 - a0)) (Csub z C1)) by (intros z; unfold N1, D1; cring).
  assert (EA : forall z, Cadd (N1 1 a0 1 z) (D1 a0 1 z) = Cmul (RtoC (1 + a0)) (Cadd z C1)) by (intros z; unfold N1, D1; cring).
  assert (a1 : (0 < 1 + a0)%R) by nra.
  split; intros w Hc; destruct (V (cis w) (on_circle_cis w)) as [V1 V2]; destruct (circle_half w) as [K1 K2].
  - apply V1; rewrite ?ED, EA, ?K1, K2.
    + unfold tan. transitivity (Cmul (cis (w / 2)) (mkC 0 ((1 - a0) * (2 * sin (w / 2))))); [cring|].
      transitivity (Cmul (cis (w / 2)) (mkC 0 ((sin (w / 2) / cos (w / 2) / (sin (wc / 2) / cos (wc / 2))) * ((1 + a0) * (2 * cos (w / 2)))))); [|cring].
      do 2 f_equal. assert (Q : (1 - a0 = (1 + a0) * cos (wc / 2) / sin (wc / 2))%R) by (rewrite <- E; field; lra). rewrite Q. field. repeat split; lra.
    + intros X. apply Cmul_0_eq in X as [X|X]; [revert X; apply RtoC_neq0; lra|]. apply Cmul_0_eq in X as [X|X]; [revert X; apply cis_neq0|]. revert X. apply RtoC_neq0. lra.
  - apply V2. rewrite EA, K2, Hc. cring.
Qed.
Lemma band_highpass hb n G Ginf to : n < 2 ^ 64 -> halfband hb n G Ginf -> (0 < to < 1)%R -> to <> (1 / 2)%R -> exists sys, Halfband2Highpass hb to = Ok sys /\ shape sys n /\
  (forall w, sin (w / 2) <> 0%R -> Cnorm2 (transfer_at sys (cis w)) = G (- (tan (to * PI / 2) * (cos (w / 2) / sin (w / 2))))%R) /\
  (forall w, sin (w / 2) = 0%R -> Cnorm2 (transfer_at sys (cis w)) = Ginf).
Proof.
  intros Hn Hb Ht Hne. pose proof PI_RGT_0. assert (Hw : (0 < to * PI < PI)%R) by nra. assert (Hw2 : (to * PI <> PI / 2)%R) by (intros X; apply Hne; apply (Rmult_eq_reg_r PI); lra).
  set (wc := (to * PI)%R) in *. destruct (hp_coef wc Hw Hw2) as (A & B & E). destruct (half_angle wc Hw) as (S1 & C2 & _).
  unfold Halfband2Highpass. fold wc. rewrite divides_ok by exact A. set (a1 := hp_a1 wc) in *.
  destruct (design1 hb n G Ginf (- (1)) 1 a1 Hn Hb ltac:(lra) ltac:(lra)) as (sys & Es & (W & Lz & Lp & Sp & V)).
  exists sys. split; [exact Es|]. split; [now split; [|split; [|split]]|].
  assert (ED : forall z, Csub (N1 (- (1)) 1 a1 z) (D1 1 a1 z) = Cmul (RtoC (- (a1 + 1))) (Cadd z C1)) by (intros z; unfold N1, D1; cring).
  assert (EA : forall z, Cadd (N1 (- (1)) 1 a1 z) (D1 1 a1 z) = Cmul (RtoC (1 - a1)) (Csub z C1)) by (intros z; unfold N1, D1; cring).
  assert (a1n : (1 - a1 <> 0)%R) by nra.
  split; intros w Hc; destruct (V (cis w) (on_circle_cis w)) as [V1 V2]; destruct (circle_half w) as [K1 K2].
  - apply V1; rewrite ?ED, EA, ?K1, ?K2.
    + unfold tan. transitivity (Cmul (cis (w / 2)) (mkC (- (a1 + 1) * (2 * cos (w / 2))) 0)); [cring|].
      transitivity (Cmul (cis (w / 2)) (mkC (- (- (sin (wc / 2) / cos (wc / 2) * (cos (w / 2) / sin (w / 2)))) * ((1 - a1) * (2 * sin (w / 2)))) 0)); [|cring].
      do 2 f_equal. assert (Q : (a1 + 1 = - ((1 - a1) * sin (wc / 2)) / cos (wc / 2))%R) by (rewrite <- E; field; lra). rewrite Q. field. repeat split; lra.
    + intros X. apply Cmul_0_eq in X as [X|X]; [revert X; apply RtoC_neq0; exact a1n|]. apply Cmul_0_eq in X as [X|X]; [revert X; apply cis_neq0|]. injection X as X. lra.
  - apply V2. rewrite EA, K1, Hc. cring.
Qed.
Lemma sumdiff2 s a0 a1 a2 z : Csub (N2 s a0 a1 a2 z) (D2 a0 a1 a2 z) = Cadd (Cmul (RtoC (s * a2 - a0)) (Cmul z z)) (Cadd (Cmul (RtoC (s * a1 - a1)) z) (RtoC (s * a0 - a2))) /\
  Cadd (N2 s a0 a1 a2 z) (D2 a0 a1 a2 z) = Cadd (Cmul (RtoC (s * a2 + a0)) (Cmul z z)) (Cadd (Cmul (RtoC (s * a1 + a1)) z) (RtoC (s * a0 + a2))).
Proof. split; unfold N2, D2; cring. Qed.
Lemma plus_circle a0 a1 a2 w : let z := cis w in Cadd (Cmul (RtoC (a2 + a0)) (Cadd (Cmul z z) C1)) (Cmul (RtoC (2 * a1)) z) = Cmul z (RtoC (2 * ((a2 + a0) * cos w + a1))).
Proof. intros z. unfold z. rewrite (proj1 (cis_sq w)). cring. Qed.
Lemma minus_circle a0 a2 w : let z := cis w in Cmul (RtoC (a2 - a0)) (Csub (Cmul z z) C1) = Cmul z (mkC 0 (2 * ((a2 - a0) * sin w))).
Proof. intros z. unfold z. rewrite (proj2 (cis_sq w)). cring. Qed.
Lemma band_bandpass hb n G Ginf t1 t2 : n < 2 ^ 64 -> halfband hb n G Ginf -> (0 < t1)%R -> (t1 < t2)%R -> (t2 < 1)%R -> (t2 - t1 <> 1 / 2)%R ->
  let d := ((t2 * PI - t1 * PI) / 2)%R in let g := ((t1 * PI + t2 * PI) / 2)%R in
  exists sys, Halfband2Bandpass hb t1 t2 = Ok sys /\ shape sys (2 * n) /\
  (forall w, sin w <> 0%R -> Cnorm2 (transfer_at sys (cis w)) = G (- ((cos d * cos w - cos g) / (sin d * sin w)))%R) /\
  (forall w, sin w = 0%R -> Cnorm2 (transfer_at sys (cis w)) = Ginf).
Proof.
  intros Hn Hb H1 H2 H3 H4 d g. pose proof PI_RGT_0. assert (K1 : (0 < t1 * PI)%R) by nra. assert (K2 : (t1 * PI < t2 * PI)%R) by nra. assert (K3 : (t2 * PI < PI)%R) by nra.
  assert (K4 : (t2 * PI - t1 * PI <> PI / 2)%R) by (intros X; apply H4; apply (Rmult_eq_reg_r PI); lra).
  unfold Halfband2Bandpass. set (w1 := (t1 * PI)%R) in *. set (w2 := (t2 * PI)%R) in *.
  destruct (bp_coef w1 w2 K1 K2 K3 K4) as (A1 & A2 & A3 & A4 & A5). destruct (band_angles w1 w2 K1 K2 K3) as (Sd & Cd & Cg & _). fold d g in A3, A4, A5, Sd, Cd, Cg.
  rewrite !divides_ok by assumption. set (a2 := bp_a2 w1 w2) in *. set (a1 := bp_a1 w1 w2) in *.
  assert (E2 : (a2 * (cos d - sin d) = cos d + sin d)%R) by (rewrite A4; field; exact A3). assert (E1 : (a1 * (cos d - sin d) = - (2 * cos g))%R) by (rewrite A5; field; exact A3).
  assert (Q : (0 < (cos d - sin d) * (cos d - sin d))%R) by nra.
  destruct (design2 hb n G Ginf (- (1)) 1 a1 a2 Hn Hb ltac:(lra)) as (sys & Es & (W & Lz & Lp & Sp & V)).
  - apply (Rmult_lt_reg_r _ _ _ Q). replace (a2 * a2 * ((cos d - sin d) * (cos d - sin d)))%R with ((a2 * (cos d - sin d)) * (a2 * (cos d - sin d)))%R by ring. rewrite E2. nra.
  - apply (Rmult_lt_reg_r _ _ _ Q). replace (a1 * a1 * ((cos d - sin d) * (cos d - sin d)))%R with ((a1 * (cos d - sin d)) * (a1 * (cos d - sin d)))%R by ring.
    replace ((a2 + 1) * (a2 + 1) * ((cos d - sin d) * (cos d - sin d)))%R with ((a2 * (cos d - sin d) + (cos d - sin d)) * (a2 * (cos d - sin d) + (cos d - sin d)))%R by ring. rewrite E1, E2. nra.
  - exists sys. split; [exact Es|]. split; [now split; [|split; [|split]]|].
    assert (ED : forall w, Csub (N2 (- (1)) 1 a1 a2 (cis w)) (D2 1 a1 a2 (cis w)) = Cmul (cis w) (RtoC (- (2 * ((a2 + 1) * cos w + a1))))).
    { intros w. rewrite RtoC_opp. transitivity (Copp (Cmul (cis w) (RtoC (2 * ((a2 + 1) * cos w + a1))))); [|ring]. rewrite <- plus_circle. unfold N2, D2. cring. }
    assert (EA : forall w, Cadd (N2 (- (1)) 1 a1 a2 (cis w)) (D2 1 a1 a2 (cis w)) = Cmul (cis w) (mkC 0 (- (2 * ((a2 - 1) * sin w))))).
    { intros w. transitivity (Copp (Cmul (cis w) (mkC 0 (2 * ((a2 - 1) * sin w))))); [|cring]. rewrite <- minus_circle. unfold N2, D2. cring. }
    assert (E3 : ((a2 - 1) * (cos d - sin d) = 2 * sin d)%R) by lra. assert (E4 : ((a2 + 1) * (cos d - sin d) = 2 * cos d)%R) by lra.
    assert (N3 : (a2 - 1 <> 0)%R) by (intros X; rewrite X in E3; lra).
    split; intros w Hc; destruct (V (cis w) (on_circle_cis w)) as [V1 V2].
    + apply V1; rewrite ?ED, EA.
      * transitivity (Cmul (cis w) (RtoC (- (- ((cos d * cos w - cos g) / (sin d * sin w))) * (- (2 * ((a2 - 1) * sin w)))))); [|cring]. do 2 f_equal.
        apply (Rmult_eq_reg_r (cos d - sin d)); [|exact A3].
        transitivity (- (2 * (((a2 + 1) * (cos d - sin d)) * cos w + a1 * (cos d - sin d))))%R; [ring|].
        transitivity (- (- ((cos d * cos w - cos g) / (sin d * sin w))) * - (2 * ((a2 - 1) * (cos d - sin d) * sin w)))%R; [|ring].
        rewrite E4, E3, E1. field. split; lra.
      * intros X. apply Cmul_0_eq in X as [X|X]; [revert X; apply cis_neq0|]. injection X as X. assert ((a2 - 1) * sin w = 0)%R by lra. apply Rmult_integral in H0; tauto.
    + apply V2. rewrite EA, Hc. cring.
Qed.
Lemma band_bandstop hb n G Ginf t1 t2 : n < 2 ^ 64 -> halfband hb n G Ginf -> (0 < t1)%R -> (t1 < t2)%R -> (t2 < 1)%R ->
  let d := ((t2 * PI - t1 * PI) / 2)%R in let g := ((t1 * PI + t2 * PI) / 2)%R in
  exists sys, Halfband2Bandstop hb t1 t2 = Ok sys /\ shape sys (2 * n) /\
  (forall w, (cos d * cos w - cos g <> 0)%R -> Cnorm2 (transfer_at sys (cis w)) = G (sin d * sin w / (cos d * cos w - cos g))%R) /\
  (forall w, (cos d * cos w - cos g = 0)%R -> Cnorm2 (transfer_at sys (cis w)) = Ginf).
Proof.
  intros Hn Hb H1 H2 H3 d g. pose proof PI_RGT_0. assert (K1 : (0 < t1 * PI)%R) by nra. assert (K2 : (t1 * PI < t2 * PI)%R) by nra. assert (K3 : (t2 * PI < PI)%R) by nra.
  unfold Halfband2Bandstop. set (w1 := (t1 * PI)%R) in *. set (w2 := (t2 * PI)%R) in *.
  destruct (bs_coef w1 w2 K1 K2 K3) as (A1 & A2 & A3 & A4 & A5). destruct (band_angles w1 w2 K1 K2 K3) as (Sd & Cd & Cg & _). fold d g in A3, A4, A5, Sd, Cd, Cg.
  rewrite !divides_ok by assumption. set (a0 := bs_a0 w1 w2) in *. set (a1 := bs_a1 w1 w2) in *.
  assert (E2 : (a0 * (cos d + sin d) = cos d - sin d)%R) by (rewrite A4; field; lra). assert (E1 : (a1 * (cos d + sin d) = - (2 * cos g))%R) by (rewrite A5; field; lra).
  assert (Q : (0 < (cos d + sin d) * (cos d + sin d))%R) by nra.
  destruct (design2 hb n G Ginf 1 a0 a1 1 Hn Hb ltac:(lra)) as (sys & Es & (W & Lz & Lp & Sp & V)).
  - apply (Rmult_lt_reg_r _ _ _ Q). replace (a0 * a0 * ((cos d + sin d) * (cos d + sin d)))%R with ((a0 * (cos d + sin d)) * (a0 * (cos d + sin d)))%R by ring. rewrite E2. nra.
  - apply (Rmult_lt_reg_r _ _ _ Q). replace (a1 * a1 * ((cos d + sin d) * (cos d + sin d)))%R with ((a1 * (cos d + sin d)) * (a1 * (cos d + sin d)))%R by ring.
    replace ((1 + a0) * (1 + a0) * ((cos d + sin d) * (cos d + sin d)))%R with ((a0 * (cos d + sin d) + (cos d + sin d)) * (a0 * (cos d + sin d) + (cos d + sin d)))%R by ring. rewrite E1, E2. nra.
  - exists sys. split; [exact Es|]. split; [now split; [|split; [|split]]|].
    assert (ED : forall w, Csub (N2 1 a0 a1 1 (cis w)) (D2 a0 a1 1 (cis w)) = Cmul (cis w) (mkC 0 (2 * ((1 - a0) * sin w)))).
    { intros w. rewrite <- minus_circle. unfold N2, D2. cring. }
    assert (EA : forall w, Cadd (N2 1 a0 a1 1 (cis w)) (D2 a0 a1 1 (cis w)) = Cmul (cis w) (RtoC (2 * ((1 + a0) * cos w + a1)))).
    { intros w. rewrite <- plus_circle. unfold N2, D2. cring. }
    assert (E3 : ((1 - a0) * (cos d + sin d) = 2 * sin d)%R) by lra. assert (E4 : ((1 + a0) * (cos d + sin d) = 2 * cos d)%R) by lra.
    assert (E5 : forall w, (((1 + a0) * cos w + a1) * (cos d + sin d) = 2 * (cos d * cos w - cos g))%R).
    { intros w. transitivity (((1 + a0) * (cos d + sin d)) * cos w + a1 * (cos d + sin d))%R; [ring|]. rewrite E4, E1. ring. }
    split; intros w Hc; destruct (V (cis w) (on_circle_cis w)) as [V1 V2]; specialize (E5 w).
    + apply V1; rewrite ?ED, EA.
      * transitivity (Cmul (cis w) (mkC 0 (sin d * sin w / (cos d * cos w - cos g) * (2 * ((1 + a0) * cos w + a1))))); [|cring]. do 2 f_equal.
        apply (Rmult_eq_reg_r (cos d + sin d)); [|lra].
        transitivity (2 * (((1 - a0) * (cos d + sin d)) * sin w))%R; [ring|].
        transitivity (sin d * sin w / (cos d * cos w - cos g) * (2 * (((1 + a0) * cos w + a1) * (cos d + sin d))))%R; [|ring].
        rewrite E3, E5. field. exact Hc.
      * intros X. apply Cmul_0_eq in X as [X|X]; [revert X; apply cis_neq0|]. injection X as X. apply Hc. assert ((1 + a0) * cos w + a1 = 0)%R by lra. rewrite H0 in E5. lra.
    + apply V2. assert (X : ((1 + a0) * cos w + a1 = 0)%R). { rewrite Hc in E5. apply (Rmult_eq_reg_r (cos d + sin d)); lra. } rewrite EA, X. cring.
Qed.
