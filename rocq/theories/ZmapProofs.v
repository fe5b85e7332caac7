(** Instances of the root transform: first and second order z-maps, bilinear transform. *)
From Coq Require Import Reals Lra Psatz Permutation.
From Verif Require Import Base BaseFacts Complex ConvModel ConvProofs IirModel IirProofs PolyModel PolyProofs SysModel SysProofs PropsPoly PropsSys RootModel RootProofs.
From Coq Require Import ZifyBool ZifyNat.
Ltac Zify.zify_post_hook ::= Z.div_mod_to_equations.
Open Scope Z_scope.

Lemma perm_conj_closed l : Permutation (map Cconj l) l -> conj_closed l.
Proof.
  intros P r. pose proof (proj1 (Permutation_count_occ Ceq_dec _ _) P r) as E. rewrite count_map_conj in E. congruence.
Qed.
Lemma conj_closed_one t : im t = 0%R -> conj_closed [t].
Proof. intros H. apply perm_conj_closed. cbn [map]. replace (Cconj t) with t; [reflexivity|]. symmetry. now apply real_iff_conj. Qed.
Lemma conj_closed_two t u : (im t = 0%R /\ im u = 0%R) \/ u = Cconj t -> conj_closed [t; u].
Proof.
  intros [[H1 H2]| ->]; apply perm_conj_closed; cbn [map].
  - rewrite (proj2 (real_iff_conj t) H1), (proj2 (real_iff_conj u) H2). reflexivity.
  - rewrite Cconj_conj. apply perm_swap.
Qed.
Lemma pnode1 t z : pnode [t] z = Csub z t.
Proof. unfold pnode. cbn [prodK fold_right]. cbn [rmul r1 Cring]. asC. ring. Qed.
Lemma pnode2 t u z : pnode [t; u] z = Cmul (Csub z t) (Csub z u).
Proof. unfold pnode. cbn [prodK fold_right]. cbn [rmul r1 Cring]. asC. ring. Qed.
Lemma RtoC_add a b : RtoC (a + b) = Cadd (RtoC a) (RtoC b). Proof. cring. Qed.
Lemma RtoC_sub a b : RtoC (a - b) = Csub (RtoC a) (RtoC b). Proof. cring. Qed.
Lemma RtoC_opp a : RtoC (- a) = Copp (RtoC a). Proof. cring. Qed.
Lemma CdivR_Cdiv c r : r <> 0%R -> CdivR c r = Cdiv c (RtoC r).
Proof. intros H. unfold CdivR, Cdiv, Cinv, Cnorm2. apply C_ext; cbn; replace (r * r + 0 * 0)%R with (r * r)%R by ring; field; exact H. Qed.

(** *** complex square root *)
Lemma Cabs_ge_re d : (Rabs (re d) <= Cabs d)%R.
Proof.
  unfold Cabs. rewrite <- sqrt_Rsqr_abs. apply sqrt_le_1_alt. unfold Rsqr, Cnorm2. nra.
Qed.
Lemma Csqrt_sq d : Cmul (Csqrt d) (Csqrt d) = d.
Proof.
  pose proof (Cabs_ge_re d) as H. assert (H1 : (0 <= (Cabs d + re d) / 2)%R) by (unfold Rabs in H; destruct (Rcase_abs (re d)); lra).
  assert (H2 : (0 <= (Cabs d - re d) / 2)%R) by (unfold Rabs in H; destruct (Rcase_abs (re d)); lra).
  unfold Csqrt. set (u := sqrt ((Cabs d + re d) / 2)). set (v := sqrt ((Cabs d - re d) / 2)).
  assert (U : (u * u = (Cabs d + re d) / 2)%R) by now apply sqrt_sqrt. assert (V : (v * v = (Cabs d - re d) / 2)%R) by now apply sqrt_sqrt.
  assert (UV : (2 * (u * v) = Rabs (im d))%R).
  { unfold u, v. rewrite <- sqrt_mult by assumption. replace ((Cabs d + re d) / 2 * ((Cabs d - re d) / 2))%R with (Rsqr (im d / 2))%R.
    - rewrite sqrt_Rsqr_abs. unfold Rdiv. rewrite Rabs_mult. rewrite (Rabs_right (/ 2)%R) by lra. lra.
    - unfold Rsqr. assert (E : (Cabs d * Cabs d = re d * re d + im d * im d)%R) by (unfold Cabs; rewrite sqrt_sqrt by apply Cnorm2_ge0; reflexivity). nra. }
  set (sg := (if Rltb (im d) 0 then -1 else 1)%R).
  assert (S2 : (sg * sg = 1)%R) by (unfold sg; destruct (Rltb (im d) 0); lra).
  assert (SI : (sg * Rabs (im d) = im d)%R) by (unfold sg, Rltb; destruct (Rlt_dec (im d) 0); unfold Rabs; destruct (Rcase_abs (im d)); lra).
  apply C_ext; cbn [Cmul re im].
  - replace (u * u - sg * v * (sg * v))%R with (u * u - (sg * sg) * (v * v))%R by ring. rewrite S2, U, V. lra.
  - replace (u * (sg * v) + sg * v * u)%R with (sg * (2 * (u * v)))%R by ring. now rewrite UV.
Qed.
Lemma Csqrt_real d : im (Csqrt (RtoC d)) = 0%R \/ re (Csqrt (RtoC d)) = 0%R.
Proof.
  assert (E : Cabs (RtoC d) = Rabs d) by (unfold Cabs, Cnorm2; cbn [RtoC re im]; replace (d * d + 0 * 0)%R with (Rsqr d) by (unfold Rsqr; ring); apply sqrt_Rsqr_abs).
  unfold Csqrt. rewrite E. cbn [re im RtoC]. unfold Rabs. destruct (Rcase_abs d).
  - right. replace ((- d + d) / 2)%R with 0%R by lra. apply sqrt_0.
  - left. replace ((d - d) / 2)%R with 0%R by lra. rewrite sqrt_0. ring.
Qed.

(** *** first order *)
Definition N1 (s a0 a1 : R) (z : C) : C := Cmul (RtoC s) (Cadd (Cmul (RtoC a1) z) (RtoC a0)).
Definition D1 (a0 a1 : R) (z : C) : C := Cadd (RtoC a1) (Cmul (RtoC a0) z).
Definition c1 (s a0 a1 : R) (p : C) : C := Csub (RtoC (a1 * s)) (Cmul p (RtoC a0)).
Lemma c1_den s a0 a1 p : c1 s a0 a1 p <> C0 -> Csub (Cmul (RtoC a0) p) (RtoC (a1 * s)) <> C0.
Proof. intros H E. apply H. unfold c1. transitivity (Copp (Csub (Cmul (RtoC a0) p) (RtoC (a1 * s)))); [ring|]. rewrite E. ring. Qed.
Lemma mz1_HC s a0 a1 p : c1 s a0 a1 p <> C0 -> forall z, Cmul (c1 s a0 a1 p) (pnode [mz1_image s a0 a1 p] z) = Csub (N1 s a0 a1 z) (Cmul p (D1 a0 a1 z)).
Proof.
  intros H z. pose proof (c1_den s a0 a1 p H) as H'. rewrite pnode1. unfold c1, N1, D1, mz1_image. rewrite !RtoC_mul in *. field. exact H'.
Qed.
Lemma mz1_real s a0 a1 r : c1 s a0 a1 (RtoC r) <> C0 -> mz1_imageR s a0 a1 r = mz1_image s a0 a1 (RtoC r).
Proof.
  intros H. pose proof (c1_den s a0 a1 _ H) as H'. unfold mz1_imageR, mz1_image. rewrite <- !RtoC_mul, <- RtoC_opp, <- RtoC_add, <- RtoC_sub in *.
  apply RtoC_div. intros E. apply H'. now rewrite E.
Qed.
Lemma N1_conj s a0 a1 z : N1 s a0 a1 (Cconj z) = Cconj (N1 s a0 a1 z).
Proof. unfold N1. cring. Qed.
Lemma D1_conj a0 a1 z : D1 a0 a1 (Cconj z) = Cconj (D1 a0 a1 z).
Proof. unfold D1. cring. Qed.
Lemma c1_conj s a0 a1 z : c1 s a0 a1 (Cconj z) = Cconj (c1 s a0 a1 z).
Proof. unfold c1. cring. Qed.
Lemma rgain_c s a0 a1 r : RtoC (mz1_rgain s a0 a1 r) = c1 s a0 a1 (RtoC r).
Proof. unfold mz1_rgain, c1. cring. Qed.
Lemma cgain_c s a0 a1 p : RtoC (mz1_cgain s a0 a1 p) = Cmul (c1 s a0 a1 p) (c1 s a0 a1 (Cconj p)).
Proof. unfold mz1_cgain, c1. cring. Qed.

Lemma powerRZ_cpow a n : 0 <= n -> RtoC (powerRZ a n) = cpow (RtoC a) (Z.to_nat n).
Proof.
  intros H. rewrite <- (Z2Nat.id n H) at 1. rewrite <- pow_powerRZ. generalize (Z.to_nat n). clear.
  induction n as [|n IH]; [reflexivity|]. cbn [pow cpow]. now rewrite RtoC_mul, IH.
Qed.
Lemma norm_gain_cpow s a0 : well_formed s -> num_roots (zeros s) <= num_roots (poles s) < 2 ^ 64 ->
  RtoC (norm_gain s a0) = cpow (RtoC a0) (Z.to_nat (num_roots (poles s) - num_roots (zeros s))).
Proof.
  intros [(?&?&?) (?&?&?)] H'. unfold norm_gain, size_sub. unfold num_roots in *. rewrite Z.mod_small by lia.
  destruct (_ =? 0) eqn:E.
  - replace (Z.to_nat _) with 0%nat by lia. reflexivity.
  - apply powerRZ_cpow. lia.
Qed.

Section Order.
(** the part common to the first and the second order map *)
Context (s a0 aN : R) (N D : C -> C) (funcR : R -> list C) (funcC : C -> list C) (pads : list C).
Let c := c1 s a0 aN.
Hypothesis Nconj : forall z, N (Cconj z) = Cconj (N z).
Hypothesis Dconj : forall z, D (Cconj z) = Cconj (D z).
Hypothesis HC : forall p, c p <> C0 -> forall z, Cmul (c p) (pnode (funcC p) z) = Csub (N z) (Cmul p (D z)).
Hypothesis HR : forall r, c (RtoC r) <> C0 -> forall z, Cmul (c (RtoC r)) (pnode (funcR r) z) = Csub (N z) (Cmul (RtoC r) (D z)).
Hypothesis cR : forall r, conj_closed (funcR r).
Hypothesis cP : conj_closed pads.
Hypothesis lR : forall r, lenZ (funcR r) = lenZ pads.
Hypothesis lC : forall p, lenZ (funcC p) = lenZ pads.
Hypothesis HP : a0 <> 0%R -> forall z, Cmul (RtoC a0) (pnode pads z) = D z.
Definition map_generic (system : zpk) : outcome zpk :=
  let numRoots := Z.max (num_roots (zeros system)) (num_roots (poles system)) in
  do newZeros <- TransformRoots (zeros system) funcR funcC numRoots pads;
  do newPoles <- TransformRoots (poles system) funcR funcC numRoots pads;
  let newGain := (norm_gain system a0 * gain system * TransformGain (zeros system) (mz1_rgain s a0 aN) (mz1_cgain s a0 aN)
                  / TransformGain (poles system) (mz1_rgain s a0 aN) (mz1_cgain s a0 aN))%R in
  Ok (mkZpk newGain newZeros newPoles).
Lemma map_generic_spec sys : well_formed sys -> num_roots (zeros sys) <= num_roots (poles sys) < 2 ^ 64 ->
  a0 <> 0%R \/ num_roots (zeros sys) = num_roots (poles sys) ->
  (forall p, In p (all_roots (zeros sys)) \/ In p (all_roots (poles sys)) -> c p <> C0) ->
  exists sys', map_generic sys = Ok sys' /\ well_formed sys' /\
    num_roots (zeros sys') = lenZ pads * num_roots (poles sys) /\ num_roots (poles sys') = lenZ pads * num_roots (poles sys) /\
    (forall z, D z <> C0 -> ~ is_pole sys (Cdiv (N z) (D z)) -> ~ is_pole sys' z /\ transfer_at sys' z = transfer_at sys (Cdiv (N z) (D z))) /\
    (forall z, Cmul (prodC c (all_roots (poles sys))) (pnode (all_roots (poles sys')) z) = prodC (fun p => Csub (N z) (Cmul p (D z))) (all_roots (poles sys))).
Proof.
  intros W Hn Ha Hc. pose proof W as [Wz Wp]. set (nz := num_roots (zeros sys)) in *. set (np := num_roots (poles sys)) in *.
  assert (Z0 : 0 <= nz) by (unfold nz, num_roots; destruct Wz as (?&?&?); lia). unfold map_generic. fold nz np. rewrite Z.max_r by lia.
  assert (cconj : forall p, c (Cconj p) = Cconj (c p)) by apply c1_conj.
  destruct (map_roots N D c funcR funcC pads Nconj Dconj cconj HC HR cR cP lR lC (zeros sys) np Wz) as (qz & Ez & Wqz & Lz & Vz); [intros; apply Hc; auto|fold nz; lia|].
  destruct (map_roots N D c funcR funcC pads Nconj Dconj cconj HC HR cR cP lR lC (poles sys) np Wp) as (qp & Ep & Wqp & Lp & Vp); [intros; apply Hc; auto|fold np; lia|].
  rewrite Ez, Ep. cbn [bind]. eexists. split; [reflexivity|]. split; [now split|]. cbn [zeros poles]. fold nz in Lz, Vz. fold np in Lp, Vp.
  set (kz := (if np =? 0 then nz else np) - nz) in *. set (kp := (if np =? 0 then np else np) - np) in *.
  assert (KZ : kz = np - nz) by (unfold kz; destruct (np =? 0) eqn:E; lia). assert (KP : kp = 0) by (unfold kp; destruct (np =? 0); lia).
  split; [rewrite Lz; f_equal; lia|]. split; [rewrite Lp; f_equal; lia|]. rewrite KP in Vp. change (Z.to_nat 0) with 0%nat in Vp.
  assert (Cp : prodC c (all_roots (poles sys)) <> C0) by (apply prodC_neq0; intros; apply Hc; auto).
  split.
  - intros z HD Hpole.
    assert (GP : TransformGain (poles sys) (mz1_rgain s a0 aN) (mz1_cgain s a0 aN) <> 0%R).
    { intros E. apply Cp. unfold c. rewrite <- (TransformGain_prod (c1 s a0 aN) _ _ (poles sys) (rgain_c s a0 aN) (cgain_c s a0 aN)), E. reflexivity. }
    unfold is_pole, transfer_at in *. cbn [zeros poles gain]. rewrite <- !pnode_vanishing in *.
    refine (sys_map (RtoC (gain sys)) _ (RtoC a0) (N z) (D z) (pnode pads z) (all_roots (zeros sys)) (all_roots (poles sys)) (all_roots qz) (all_roots qp) c (Z.to_nat kz) 0 z (Vz z) (Vp z) _ _ _ HD Cp _ Hpole).
    + rewrite <- cpow_mul. destruct Ha as [Ha|Ha]; [now rewrite HP|]. replace (Z.to_nat kz) with 0%nat by lia. reflexivity.
    + cbn [cpow]. ring.
    + pose proof (roots_len _ Wz). pose proof (roots_len _ Wp). unfold nz, np in *. lia.
    + rewrite KZ. unfold nz, np. rewrite <- (norm_gain_cpow sys a0 W Hn). unfold c.
      rewrite <- !(TransformGain_prod (c1 s a0 aN) _ _ _ (rgain_c s a0 aN) (cgain_c s a0 aN)). cbn [cpow].
      rewrite RtoC_div by exact GP. rewrite !RtoC_mul. field. now apply RtoC_neq0.
  - intros z. rewrite Vp. cbn [cpow]. asC. ring.
Qed.
End Order.

Lemma mz1_spec sys s a0 a1 : well_formed sys -> num_roots (zeros sys) <= num_roots (poles sys) < 2 ^ 64 ->
  a0 <> 0%R \/ num_roots (zeros sys) = num_roots (poles sys) ->
  (forall p, In p (all_roots (zeros sys)) \/ In p (all_roots (poles sys)) -> c1 s a0 a1 p <> C0) ->
  exists sys', MapZDomain1 sys s a0 a1 = Ok sys' /\ well_formed sys' /\
    num_roots (zeros sys') = num_roots (poles sys) /\ num_roots (poles sys') = num_roots (poles sys) /\
    (forall z, D1 a0 a1 z <> C0 -> ~ is_pole sys (Cdiv (N1 s a0 a1 z) (D1 a0 a1 z)) -> ~ is_pole sys' z /\ transfer_at sys' z = transfer_at sys (Cdiv (N1 s a0 a1 z) (D1 a0 a1 z))) /\
    (forall z, Cmul (prodC (c1 s a0 a1) (all_roots (poles sys))) (pnode (all_roots (poles sys')) z) = prodC (fun p => Csub (N1 s a0 a1 z) (Cmul p (D1 a0 a1 z))) (all_roots (poles sys))).
Proof.
  intros W Hn Ha Hc.
  destruct (map_generic_spec s a0 a1 (N1 s a0 a1) (D1 a0 a1) (fun p => [mz1_imageR s a0 a1 p]) (fun p => [mz1_image s a0 a1 p]) [RtoC (- (a1 / a0))]
    (N1_conj s a0 a1) (D1_conj a0 a1) (mz1_HC s a0 a1)) with (sys := sys) as (sys' & E & W' & L1 & L2 & V & S); auto.
  - intros r Hr z. rewrite mz1_real by exact Hr. now apply mz1_HC.
  - intros r. now apply conj_closed_one.
  - now apply conj_closed_one.
  - intros Ha0 z. rewrite pnode1, RtoC_opp, RtoC_div by exact Ha0. unfold D1. field. now apply RtoC_neq0.
  - exists sys'. change (lenZ [RtoC (- (a1 / a0))]) with 1 in *. rewrite Z.mul_1_l in *. split; [exact E|]. auto 10.
Qed.

(** *** second order *)
Definition N2 (s a0 a1 a2 : R) (z : C) : C := Cmul (RtoC s) (Cadd (Cadd (Cmul (Cmul (RtoC a2) z) z) (Cmul (RtoC a1) z)) (RtoC a0)).
Definition D2 (a0 a1 a2 : R) (z : C) : C := Cadd (Cadd (RtoC a2) (Cmul (RtoC a1) z)) (Cmul (Cmul (RtoC a0) z) z).
Lemma N2_conj s a0 a1 a2 z : N2 s a0 a1 a2 (Cconj z) = Cconj (N2 s a0 a1 a2 z). Proof. unfold N2. cring. Qed.
Lemma D2_conj a0 a1 a2 z : D2 a0 a1 a2 (Cconj z) = Cconj (D2 a0 a1 a2 z). Proof. unfold D2. cring. Qed.
Lemma RtoC_2 : RtoC 2 <> C0. Proof. apply RtoC_neq0. lra. Qed.
Lemma RtoC_4 : RtoC 4 = Cmul (RtoC 2) (RtoC 2). Proof. cring. Qed.
(** quadratic formula *)
Lemma quadratic (A B E q z : C) : A <> C0 -> Cmul q q = Csub (Cmul B B) (Cmul (RtoC 4) (Cmul A E)) ->
  Cmul A (Cmul (Csub z (Cdiv (Cadd (Copp B) q) (Cmul (RtoC 2) A))) (Csub z (Cdiv (Csub (Copp B) q) (Cmul (RtoC 2) A)))) =
  Cadd (Cadd (Cmul (Cmul A z) z) (Cmul B z)) E.
Proof.
  intros HA Hq. pose proof RtoC_2 as H2.
  transitivity (Cdiv (Csub (Cmul (Cadd (Cmul (Cmul (RtoC 2) A) z) B) (Cadd (Cmul (Cmul (RtoC 2) A) z) B)) (Cmul q q)) (Cmul (Cmul (RtoC 2) (RtoC 2)) A)); [field; auto|].
  rewrite Hq, RtoC_4. assert (E2 : RtoC 2 = Cadd C1 C1) by cring. rewrite E2 in *. field. split; [exact HA|]. intros F. injection F. lra.
Qed.
Lemma c1_den2 s a0 a2 p : c1 s a0 a2 p <> C0 -> Csub (Cmul (RtoC (2 * a0)) p) (RtoC (2 * a2 * s)) <> C0.
Proof.
  intros H E. apply H. apply (Cmul_cancel (RtoC 2)); [exact RtoC_2|]. unfold c1. transitivity (Copp (Csub (Cmul (RtoC (2 * a0)) p) (RtoC (2 * a2 * s)))); [rewrite !RtoC_mul; ring|]. rewrite E. ring.
Qed.
Lemma mz2_HC s a0 a1 a2 p : c1 s a0 a2 p <> C0 -> forall z, Cmul (c1 s a0 a2 p) (pnode (mz2_images s a0 a1 a2 p) z) = Csub (N2 s a0 a1 a2 z) (Cmul p (D2 a0 a1 a2 z)).
Proof.
  intros H z. pose proof (c1_den2 s a0 a2 p H) as H'. unfold mz2_images. cbn zeta. set (ap := Csub (Cmul (RtoC a1) p) (RtoC (a1 * s))).
  match goal with |- context [Csqrt ?d] => set (det := d) end. set (den := Csub (Cmul (RtoC (2 * a0)) p) (RtoC (2 * a2 * s))) in *. rewrite pnode2.
  assert (Ed : den = Copp (Cmul (RtoC 2) (c1 s a0 a2 p))) by (unfold den, c1; rewrite !RtoC_mul; ring).
  assert (Q : Cmul (Csqrt det) (Csqrt det) = Csub (Cmul (Copp ap) (Copp ap)) (Cmul (RtoC 4) (Cmul (c1 s a0 a2 p) (Csub (RtoC (a0 * s)) (Cmul (RtoC a2) p))))).
  { rewrite Csqrt_sq. unfold det, c1, ap. generalize (RtoC 4). intros four. rewrite !RtoC_mul. ring. }
  transitivity (Cadd (Cadd (Cmul (Cmul (c1 s a0 a2 p) z) z) (Cmul (Copp ap) z)) (Csub (RtoC (a0 * s)) (Cmul (RtoC a2) p))).
  - rewrite <- (quadratic _ (Copp ap) _ (Csqrt det) z H Q). rewrite Ed. pose proof RtoC_2. field. repeat split; auto.
    intros E. apply H'. rewrite Ed. exact E.
  - unfold c1, ap, N2, D2. rewrite !RtoC_mul. ring.
Qed.
Lemma mz2_real s a0 a1 a2 r : c1 s a0 a2 (RtoC r) <> C0 -> mz2_imagesR s a0 a1 a2 r = mz2_images s a0 a1 a2 (RtoC r).
Proof.
  intros H. pose proof (c1_den2 s a0 a2 _ H) as H'. unfold mz2_imagesR, mz2_images. cbn zeta.
  rewrite <- !RtoC_mul, <- RtoC_opp, <- !RtoC_sub, <- !RtoC_add, <- !RtoC_mul, <- RtoC_add in *.
  rewrite !CdivR_Cdiv by (intros E; apply H'; now rewrite E). reflexivity.
Qed.
Lemma div_real_conj (x q den : R) (w : C) : im w = 0%R \/ re w = 0%R ->
  let t := CdivR (Cadd (RtoC x) w) den in let u := CdivR (Csub (RtoC x) w) den in (im t = 0%R /\ im u = 0%R) \/ u = Cconj t.
Proof.
  intros [H|H]; cbn; [left; cbn; rewrite H; unfold Rdiv; split; ring|right].
  unfold CdivR. apply C_ext; cbn; rewrite ?H; unfold Rdiv; ring.
Qed.
Lemma mz2_pads_closed a0 a1 a2 : conj_closed (mz2_pads a0 a1 a2).
Proof.
  unfold mz2_pads. cbn zeta. apply conj_closed_two. destruct (div_real_conj (- a1) 0 (2 * a0) _ (Csqrt_real (a1 * a1 - 4 * a0 * a2))) as [[A B]|A].
  - left. split; assumption.
  - right. rewrite A, Cconj_conj. reflexivity.
Qed.
Lemma mz2_real_closed s a0 a1 a2 r : conj_closed (mz2_imagesR s a0 a1 a2 r).
Proof.
  unfold mz2_imagesR. cbn zeta. apply conj_closed_two.
  match goal with |- context [Csqrt (RtoC ?d)] => pose proof (Csqrt_real d) as Q; set (w := Csqrt (RtoC d)) in * end.
  destruct (div_real_conj (a1 * r - a1 * s) 0 (2 * a0 * r - 2 * a2 * s) w Q) as [[A B]|A].
  - left. cbn [Copp im]. rewrite A, B. lra.
  - right. rewrite A. cring.
Qed.
Lemma mz2_pads_D a0 a1 a2 : a0 <> 0%R -> forall z, Cmul (RtoC a0) (pnode (mz2_pads a0 a1 a2) z) = D2 a0 a1 a2 z.
Proof.
  intros H z. unfold mz2_pads. cbn zeta. rewrite pnode2, !CdivR_Cdiv by lra.
  set (q := Csqrt (RtoC (a1 * a1 - 4 * a0 * a2))).
  assert (Q : Cmul q q = Csub (Cmul (RtoC a1) (RtoC a1)) (Cmul (RtoC 4) (Cmul (RtoC a0) (RtoC a2)))).
  { unfold q. rewrite Csqrt_sq. rewrite RtoC_sub, (RtoC_mul (4 * a0)), (RtoC_mul 4), (RtoC_mul a1). ring. }
  transitivity (Cadd (Cadd (Cmul (Cmul (RtoC a0) z) z) (Cmul (RtoC a1) z)) (RtoC a2)); [|unfold D2; ring].
  rewrite <- (quadratic (RtoC a0) (RtoC a1) (RtoC a2) q z (RtoC_neq0 _ H) Q). rewrite !RtoC_mul, RtoC_opp. ring.
Qed.
Lemma mz2_spec sys s a0 a1 a2 : well_formed sys -> num_roots (zeros sys) <= num_roots (poles sys) < 2 ^ 64 ->
  a0 <> 0%R \/ num_roots (zeros sys) = num_roots (poles sys) ->
  (forall p, In p (all_roots (zeros sys)) \/ In p (all_roots (poles sys)) -> c1 s a0 a2 p <> C0) ->
  exists sys', MapZDomain2 sys s a0 a1 a2 = Ok sys' /\ well_formed sys' /\
    num_roots (zeros sys') = 2 * num_roots (poles sys) /\ num_roots (poles sys') = 2 * num_roots (poles sys) /\
    (forall z, D2 a0 a1 a2 z <> C0 -> ~ is_pole sys (Cdiv (N2 s a0 a1 a2 z) (D2 a0 a1 a2 z)) ->
       ~ is_pole sys' z /\ transfer_at sys' z = transfer_at sys (Cdiv (N2 s a0 a1 a2 z) (D2 a0 a1 a2 z))) /\
    (forall z, Cmul (prodC (c1 s a0 a2) (all_roots (poles sys))) (pnode (all_roots (poles sys')) z) = prodC (fun p => Csub (N2 s a0 a1 a2 z) (Cmul p (D2 a0 a1 a2 z))) (all_roots (poles sys))).
Proof.
  intros W Hn Ha Hc.
  destruct (map_generic_spec s a0 a2 (N2 s a0 a1 a2) (D2 a0 a1 a2) (mz2_imagesR s a0 a1 a2) (mz2_images s a0 a1 a2) (mz2_pads a0 a1 a2)
    (N2_conj s a0 a1 a2) (D2_conj a0 a1 a2) (mz2_HC s a0 a1 a2)) with (sys := sys) as (sys' & E & W' & L1 & L2 & V & S); auto.
  - intros r Hr z. rewrite mz2_real by exact Hr. now apply mz2_HC.
  - intros r. apply mz2_real_closed.
  - apply mz2_pads_closed.
  - apply mz2_pads_D.
  - exists sys'. change (lenZ (mz2_pads a0 a1 a2)) with 2 in *. split; [exact E|]. auto 10.
Qed.

(** *** bilinear transform *)
Definition Nb (k : R) (z : C) : C := Cmul (RtoC k) (Csub z C1).
Definition Db (z : C) : C := Cadd z C1.
Definition cb (k : R) (p : C) : C := Csub (RtoC k) p.
Lemma prodC_cb k l : prodC (cb k) l = pnode l (RtoC k). Proof. reflexivity. Qed.
Lemma bilinear_spec sys fs pw : let k := bilinear_k fs pw in well_formed sys ->
  (forall p, In p (all_roots (zeros sys)) \/ In p (all_roots (poles sys)) -> p <> RtoC k) ->
  exists sys', BilinearTransform sys fs pw = Ok sys' /\ well_formed sys' /\
    num_roots (zeros sys') = zpk_order sys /\ num_roots (poles sys') = zpk_order sys /\
    (forall z, z <> RtoC (-1) -> ~ is_pole sys (Cdiv (Nb k z) (Db z)) -> ~ is_pole sys' z /\ transfer_at sys' z = transfer_at sys (Cdiv (Nb k z) (Db z))) /\
    (forall z, Cmul (prodC (cb k) (all_roots (poles sys))) (pnode (all_roots (poles sys')) z) =
       Cmul (prodC (fun p => Csub (Nb k z) (Cmul p (Db z))) (all_roots (poles sys))) (cpow (Db z) (Z.to_nat (zpk_order sys - num_roots (poles sys))))) /\
    (forall z, Cmul (prodC (cb k) (all_roots (zeros sys))) (pnode (all_roots (zeros sys')) z) =
       Cmul (prodC (fun p => Csub (Nb k z) (Cmul p (Db z))) (all_roots (zeros sys))) (cpow (Db z) (Z.to_nat (zpk_order sys - num_roots (zeros sys))))).
Proof.
  intros k W Hk. pose proof W as [Wz Wp]. set (nz := num_roots (zeros sys)) in *. set (np := num_roots (poles sys)) in *.
  assert (Z0 : 0 <= nz) by (unfold nz, num_roots; destruct Wz as (?&?&?); lia). assert (P0 : 0 <= np) by (unfold np, num_roots; destruct Wp as (?&?&?); lia).
  unfold BilinearTransform. fold k. cbn zeta. unfold zpk_order. fold nz np. set (m := Z.max nz np).
  assert (cn : forall p, p <> RtoC k -> cb k p <> C0). { intros p H E. apply H. unfold cb in E. transitivity (Csub (RtoC k) (Csub (RtoC k) p)); [ring|]. rewrite E. ring. }
  assert (nc : forall p, cb k p <> C0 -> Csub (RtoC k) p <> C0) by (intros p H; exact H).
  assert (HC : forall p, cb k p <> C0 -> forall z, Cmul (cb k p) (pnode [Cdiv (Cadd (RtoC k) p) (Csub (RtoC k) p)] z) = Csub (Nb k z) (Cmul p (Db z))).
  { intros p Hp z. rewrite pnode1. unfold cb, Nb, Db. field. exact Hp. }
  assert (HR : forall r, cb k (RtoC r) <> C0 -> forall z, Cmul (cb k (RtoC r)) (pnode [RtoC ((k + r) / (k - r))] z) = Csub (Nb k z) (Cmul (RtoC r) (Db z))).
  { intros r Hr z. rewrite <- (HC _ Hr z). do 3 f_equal. rewrite RtoC_div, RtoC_add, RtoC_sub; [reflexivity|]. intros E. apply Hr. unfold cb. rewrite <- RtoC_sub, E. reflexivity. }
  assert (Nc : forall z, Nb k (Cconj z) = Cconj (Nb k z)) by (intros; unfold Nb; cring).
  assert (Dc : forall z, Db (Cconj z) = Cconj (Db z)) by (intros; unfold Db; cring).
  assert (cc : forall z, cb k (Cconj z) = Cconj (cb k z)) by (intros; unfold cb; cring).
  assert (PD : forall z, pnode [RtoC (-1)] z = Db z) by (intros; rewrite pnode1; unfold Db; cring).
  destruct (map_roots (Nb k) Db (cb k) (fun p => [RtoC ((k + p) / (k - p))]) (fun p => [Cdiv (Cadd (RtoC k) p) (Csub (RtoC k) p)]) [RtoC (-1)] Nc Dc cc HC HR) with (poly := zeros sys) (numRoots := m)
    as (qz & Ez & Wqz & Lz & Vz); auto; [intros; now apply conj_closed_one|now apply conj_closed_one|fold nz; lia|].
  destruct (map_roots (Nb k) Db (cb k) (fun p => [RtoC ((k + p) / (k - p))]) (fun p => [Cdiv (Cadd (RtoC k) p) (Csub (RtoC k) p)]) [RtoC (-1)] Nc Dc cc HC HR) with (poly := poles sys) (numRoots := m)
    as (qp & Ep & Wqp & Lp & Vp); auto; [intros; now apply conj_closed_one|now apply conj_closed_one|fold np; lia|].
  rewrite Ez, Ep. cbn [bind]. eexists. split; [reflexivity|]. split; [now split|]. cbn [zeros poles]. fold nz in Lz, Vz. fold np in Lp, Vp.
  set (kz := (if m =? 0 then nz else m) - nz) in *. set (kp := (if m =? 0 then np else m) - np) in *.
  assert (KZ : kz = m - nz) by (unfold kz; destruct (m =? 0) eqn:E; lia). assert (KP : kp = m - np) by (unfold kp; destruct (m =? 0) eqn:E; lia).
  change (lenZ [RtoC (-1)]) with 1 in *. split; [lia|]. split; [lia|]. rewrite <- KZ, <- KP.
  assert (Vp' : forall z, Cmul (prodC (cb k) (all_roots (poles sys))) (pnode (all_roots qp) z) = Cmul (prodC (fun p => Csub (Nb k z) (Cmul p (Db z))) (all_roots (poles sys))) (cpow (Db z) (Z.to_nat kp))).
  { intros z. now rewrite Vp, PD. }
  assert (Vz' : forall z, Cmul (prodC (cb k) (all_roots (zeros sys))) (pnode (all_roots qz) z) = Cmul (prodC (fun p => Csub (Nb k z) (Cmul p (Db z))) (all_roots (zeros sys))) (cpow (Db z) (Z.to_nat kz))).
  { intros z. now rewrite Vz, PD. }
  split; [|split; [exact Vp'|exact Vz']].
  assert (Cp : prodC (cb k) (all_roots (poles sys)) <> C0) by (apply prodC_neq0; intros; apply cn, Hk; auto).
  intros z HD Hpole.
  assert (HD' : Db z <> C0). { intros E. apply HD. unfold Db in E. transitivity (Csub (Cadd z C1) C1); [ring|]. rewrite E. cring. }
  unfold is_pole, transfer_at in *. cbn [zeros poles gain]. rewrite <- !pnode_vanishing in *.
  assert (O1 : forall j, cpow C1 j = C1) by (induction j as [|j IH]; cbn [cpow]; [reflexivity|]; rewrite IH; cring).
  refine (sys_map (RtoC (gain sys)) _ C1 (Nb k z) (Db z) (Db z) (all_roots (zeros sys)) (all_roots (poles sys)) (all_roots qz) (all_roots qp) (cb k) (Z.to_nat kz) (Z.to_nat kp) z (Vz' z) (Vp' z) _ _ _ HD' Cp _ Hpole).
  - rewrite O1. ring.
  - rewrite O1. ring.
  - pose proof (roots_len _ Wz). pose proof (roots_len _ Wp). unfold nz, np in *. lia.
  - rewrite !O1. rewrite real_at; [|unfold is_pole; rewrite <- pnode_vanishing; exact Cp].
    unfold transfer_at. rewrite <- !pnode_vanishing, !prodC_cb. field. exact Cp.
Qed.
