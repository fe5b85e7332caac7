(** Stability, Butterworth prototype, band edges. *)
From Coq Require Import Reals Lra Psatz Permutation.
From Verif Require Import Base BaseFacts Complex ConvModel ConvProofs IirModel IirProofs PolyModel PolyProofs SysModel SysProofs PropsPoly PropsSys RootModel RootProofs ZmapProofs.
From Coq Require Import ZifyBool ZifyNat.
Ltac Zify.zify_post_hook ::= Z.div_mod_to_equations.
Open Scope Z_scope.

(** *** complex polynomials with known roots *)
Fixpoint ev (p : list C) (x : C) : C := match p with [] => C0 | c :: p => Cadd c (Cmul x (ev p x)) end.
Fixpoint quot (r : C) (p : list C) : list C :=
  match p with [] => [] | c :: p' => match p' with [] => [] | _ => ev p' r :: quot r p' end end.
Lemma quot_cons r c d p : quot r (c :: d :: p) = ev (d :: p) r :: quot r (d :: p). Proof. reflexivity. Qed.
Lemma quot_spec r p x : p <> [] -> ev p x = Cadd (Cmul (Csub x r) (ev (quot r p) x)) (ev p r).
Proof.
  induction p as [|c [|d p] IH]; intros H; [easy|cbn [quot ev]; ring|]. rewrite quot_cons.
  change (ev (c :: d :: p) x) with (Cadd c (Cmul x (ev (d :: p) x))). rewrite (IH ltac:(discriminate)).
  change (ev (ev (d :: p) r :: quot r (d :: p)) x) with (Cadd (ev (d :: p) r) (Cmul x (ev (quot r (d :: p)) x))).
  change (ev (c :: d :: p) r) with (Cadd c (Cmul r (ev (d :: p) r))). ring.
Qed.
Lemma quot_len r c p : length (quot r (c :: p)) = length p.
Proof. revert c. induction p as [|d p IH]; intros c; [reflexivity|]. rewrite quot_cons. cbn [length]. now rewrite IH. Qed.
Lemma quot_last r c d p : last (quot r (c :: d :: p)) C0 = last (d :: p) C0.
Proof.
  revert c d. induction p as [|e p IH]; intros c d; [cbn; ring|]. rewrite quot_cons. rewrite quot_cons.
  change (last (ev (d :: e :: p) r :: ev (e :: p) r :: quot r (e :: p)) C0) with (last (ev (e :: p) r :: quot r (e :: p)) C0).
  change (last (d :: e :: p) C0) with (last (e :: p) C0). rewrite <- (IH d e). reflexivity.
Qed.
Lemma factor rs : NoDup rs -> forall p, length p = S (length rs) -> (forall r, In r rs -> ev p r = C0) ->
  forall x, ev p x = Cmul (last p C0) (pnode rs x).
Proof.
  induction 1 as [|r rs Hr ND IH]; intros p L H x.
  - destruct p as [|c [|? ?]]; try discriminate. unfold pnode. cbn. cring.
  - destruct p as [|c [|d p]]; try discriminate. rewrite (quot_spec r) by discriminate. rewrite (H r) by now left.
    assert (Q : ev (quot r (c :: d :: p)) x = Cmul (last (quot r (c :: d :: p)) C0) (pnode rs x)).
    { apply IH.
      - rewrite quot_len. cbn [length] in *. lia.
      - intros q Hq. assert (N : Csub q r <> C0).
        { intros E. apply Hr. replace r with q; [exact Hq|]. transitivity (Cadd (Csub q r) r); [ring|]. rewrite E. ring. }
        apply (Cmul_cancel (Csub q r)); [exact N|]. pose proof (quot_spec r (c :: d :: p) q ltac:(discriminate)) as E.
        rewrite (H q), (H r) in E by (cbn; auto). transitivity (Cadd (Cmul (Csub q r) (ev (quot r (c :: d :: p)) q)) C0); [ring|]. rewrite <- E. ring. }
    rewrite Q, quot_last. change (last (c :: d :: p) C0) with (last (d :: p) C0). unfold pnode, prodK. cbn [fold_right]. cbn [rmul Cring]. asC. ring.
Qed.
Lemma ev_monomial n x : ev (repeat C0 n ++ [C1]) x = cpow x n.
Proof. induction n as [|n IH]; [cbn [repeat app ev cpow]; ring|]. cbn [repeat app ev cpow]. rewrite IH. ring. Qed.
(** n distinct numbers with r^n = c are all the roots of x^n - c *)
Lemma roots_of_power rs c : NoDup rs -> (0 < length rs)%nat -> (forall r, In r rs -> cpow r (length rs) = c) ->
  forall x, pnode rs x = Csub (cpow x (length rs)) c.
Proof.
  intros ND L H x. destruct (length rs) as [|n] eqn:En; [lia|].
  assert (E : forall x, ev (Copp c :: repeat C0 n ++ [C1]) x = Csub (cpow x (S n)) c).
  { intros y. change (ev (Copp c :: repeat C0 n ++ [C1]) y) with (Cadd (Copp c) (Cmul y (ev (repeat C0 n ++ [C1]) y))). rewrite ev_monomial. cbn [cpow]. ring. }
  rewrite <- E. rewrite (factor rs ND).
  - replace (last (Copp c :: repeat C0 n ++ [C1]) C0) with C1; [ring|]. change (Copp c :: repeat C0 n ++ [C1]) with ((Copp c :: repeat C0 n) ++ [C1]). now rewrite last_last.
  - cbn [length]. rewrite app_length, repeat_length. cbn [length]. rewrite En. lia.
  - intros r Hr. rewrite E, (H r Hr). ring.
Qed.

(** *** cis *)
Lemma cpow_cis t n : cpow (cis t) n = cis (INR n * t).
Proof.
  induction n as [|n IH]; [cbn [cpow INR]; rewrite Rmult_0_l; symmetry; apply cis_0|]. cbn [cpow]. rewrite IH, <- cis_add. f_equal. rewrite S_INR. ring.
Qed.
Lemma cis_PI : cis PI = RtoC (-1). Proof. unfold cis. rewrite cos_PI, sin_PI. reflexivity. Qed.
Lemma cis_inj a b : (0 < a - b < 2 * PI)%R -> cis a <> cis b.
Proof.
  intros H E. apply (cis_neq_1 (a - b) H). unfold Rminus. rewrite cis_add, E, <- cis_add. replace (b + - b)%R with 0%R by ring. apply cis_0.
Qed.
Lemma NoDup_tab {A} n (F : Z -> A) : (forall i j, 0 <= i < j -> j < n -> F i <> F j) -> NoDup (tab n F).
Proof.
  intros H. destruct (Z_le_gt_dec n 0) as [L|L]; [unfold tab; replace (Z.to_nat n) with 0%nat by lia; constructor|].
  apply NoDup_nth_error. intros i j Hi E. pose proof (lenZ_tab n F) as LT. unfold lenZ in LT.
  assert (G : forall k, (k < length (tab n F))%nat -> nth_error (tab n F) k = Some (F (Z.of_nat k))).
  { intros k Hk. pose proof (nthZ_tab n F (Z.of_nat k) ltac:(lia)) as Q. unfold nthZ in Q. replace (Z.of_nat k <? 0) with false in Q by lia. now rewrite Nat2Z.id in Q. }
  destruct (Nat.lt_ge_cases j (length (tab n F))) as [Hj|Hj].
  - rewrite !G in E by assumption. injection E as E. destruct (Nat.lt_trichotomy i j) as [|[|]]; [|assumption|]; exfalso.
    + apply (H (Z.of_nat i) (Z.of_nat j)); try lia. exact E.
    + apply (H (Z.of_nat j) (Z.of_nat i)); try lia. symmetry. exact E.
  - rewrite (G i Hi) in E. apply nth_error_None in Hj. congruence.
Qed.
(** the n-th roots of -1 *)
Definition neg_root (n i : Z) : C := cis (PI * IZR (2 * i + 1) / IZR n).
Lemma neg_roots n x : 0 < n -> pnode (tab n (neg_root n)) x = Cadd (cpow x (Z.to_nat n)) C1.
Proof.
  intros Hn. assert (Hn' : (0 < IZR n)%R) by now apply IZR_lt. pose proof PI_RGT_0 as Pi0.
  pose proof (lenZ_tab n (neg_root n)) as L. assert (L' : length (tab n (neg_root n)) = Z.to_nat n) by (unfold lenZ in L; lia).
  rewrite (roots_of_power _ (RtoC (-1))); rewrite ?L'; [|..].
  - cring.
  - apply NoDup_tab. intros i j Hi Hj E. symmetry in E. revert E. apply cis_inj.
    replace (PI * IZR (2 * j + 1) / IZR n - PI * IZR (2 * i + 1) / IZR n)%R with (2 * PI * (IZR (j - i) / IZR n))%R.
    2:{ rewrite !plus_IZR, !mult_IZR, minus_IZR. field. lra. }
    assert (0 < IZR (j - i) / IZR n)%R by (apply Rdiv_lt_0_compat; [apply IZR_lt; lia|lra]).
    assert (IZR (j - i) / IZR n < 1)%R. { apply (Rmult_lt_reg_r (IZR n)); [lra|]. unfold Rdiv. rewrite Rmult_assoc, Rinv_l, Rmult_1_r, Rmult_1_l by lra. apply IZR_lt. lia. }
    split; nra.
  - lia.
  - intros r Hr. apply In_tab in Hr as (i & Hi & ->). unfold neg_root. rewrite cpow_cis. rewrite INR_IZR_INZ, Z2Nat.id by lia.
    replace (IZR n * (PI * IZR (2 * i + 1) / IZR n))%R with (2 * PI * IZR i + PI)%R by (rewrite plus_IZR, mult_IZR; field; lra).
    rewrite cis_add, cis_period, cis_PI. cring.
Qed.

(** *** stability *)
Definition unit_disc (z : C) : Prop := (Cnorm2 z < 1)%R.
Definition closed_disc (z : C) : Prop := (Cnorm2 z <= 1)%R.
Lemma pnode_root l z : In z l -> pnode l z = C0.
Proof.
  intros H. induction l as [|a l IH]; [easy|]. change (pnode (a :: l) z) with (Cmul (Csub z a) (pnode l z)). destruct H as [->|H].
  - ring.
  - rewrite IH by exact H. ring.
Qed.
Lemma prodC_zero {A} (f : A -> C) l : prodC f l = C0 -> exists a, In a l /\ f a = C0.
Proof.
  induction l as [|a l IH]; intros H; [exfalso; now apply C1_neq0|]. cbn [prodK fold_right] in H. apply Cmul_0_eq in H as [H|H]; [exists a; cbn; auto|].
  destruct (IH H) as (b & Hb & E). exists b. cbn; auto.
Qed.
Lemma new_pole (Nz Dz c : C) ps ps' z : Cmul c (pnode ps' z) = prodC (fun p => Csub Nz (Cmul p Dz)) ps -> In z ps' -> exists p, In p ps /\ Nz = Cmul p Dz.
Proof.
  intros E H. rewrite (pnode_root ps' z H) in E. assert (E' : prodC (fun p => Csub Nz (Cmul p Dz)) ps = C0) by (rewrite <- E; asC; ring).
  apply prodC_zero in E' as (p & Hp & Q). exists p. split; [exact Hp|]. transitivity (Cadd (Csub Nz (Cmul p Dz)) (Cmul p Dz)); [ring|]. rewrite Q. ring.
Qed.
Lemma c1_disc s a0 aN p : (s * s = 1)%R -> (a0 * a0 < aN * aN)%R -> closed_disc p -> c1 s a0 aN p <> C0.
Proof.
  intros Hs Ha Hp E. assert (E' : Cmul p (RtoC a0) = RtoC (aN * s)) by (unfold c1 in E; transitivity (Csub (RtoC (aN * s)) (Csub (RtoC (aN * s)) (Cmul p (RtoC a0)))); [ring|rewrite E; ring]).
  apply (f_equal Cnorm2) in E'. rewrite Cnorm2_mul in E'. unfold closed_disc in Hp. pose proof (Cnorm2_ge0 p).
  unfold Cnorm2 at 2 3 in E'. cbn [RtoC re im] in E'. nra.
Qed.
Lemma N1_D1_norm s a0 a1 z : (s * s = 1)%R -> (Cnorm2 (N1 s a0 a1 z) - Cnorm2 (D1 a0 a1 z) = (a1 * a1 - a0 * a0) * (Cnorm2 z - 1))%R.
Proof.
  intros Hs. unfold N1. rewrite Cnorm2_mul. unfold Cnorm2 at 1. cbn [RtoC re im]. rewrite Hs. unfold Cnorm2, D1. cbn. ring.
Qed.
Lemma N1_neq0 s a0 a1 z : (s * s = 1)%R -> (a0 * a0 < a1 * a1)%R -> (1 <= Cnorm2 z)%R -> (0 < Cnorm2 (N1 s a0 a1 z))%R.
Proof.
  intros Hs Ha Hz. pose proof (N1_D1_norm s a0 a1 z Hs) as E. pose proof (Cnorm2_ge0 (D1 a0 a1 z)). destruct (Rle_lt_or_eq_dec _ _ (Cnorm2_ge0 (N1 s a0 a1 z))) as [|E0]; [assumption|exfalso].
  assert (E1 : N1 s a0 a1 z = C0). { destruct (Ceq_dec (N1 s a0 a1 z) C0); [assumption|]. apply C_neq0 in n. lra. }
  unfold N1 in E1. apply Cmul_0_eq in E1 as [E1|E1]; [injection E1; nra|].
  assert (E2 : Cmul (RtoC a1) z = RtoC (- a0)). { transitivity (Csub (Cadd (Cmul (RtoC a1) z) (RtoC a0)) (RtoC a0)); [ring|]. rewrite E1. cring. }
  apply (f_equal Cnorm2) in E2. rewrite Cnorm2_mul in E2. unfold Cnorm2 at 1 3 in E2. cbn [RtoC re im] in E2. nra.
Qed.
Lemma N2_D2_norm s a0 a1 a2 z : (s * s = 1)%R ->
  (Cnorm2 (N2 s a0 a1 a2 z) - Cnorm2 (D2 a0 a1 a2 z) = (Cnorm2 z - 1) * ((a2 - a0) * ((a2 + a0) * (1 + Cnorm2 z) + 2 * a1 * re z)))%R.
Proof.
  intros Hs. unfold N2. rewrite Cnorm2_mul. unfold Cnorm2 at 1. cbn [RtoC re im]. rewrite Hs. unfold Cnorm2, D2. cbn. ring.
Qed.
Lemma re_le_norm z : (re z * re z <= Cnorm2 z)%R. Proof. unfold Cnorm2. nra. Qed.
Lemma schur2 a0 a1 a2 z : (a0 * a0 < a2 * a2)%R -> (a1 * a1 < (a2 + a0) * (a2 + a0))%R ->
  (0 <= (a2 - a0) * ((a2 + a0) * (1 + Cnorm2 z) + 2 * a1 * re z))%R.
Proof.
  intros H1 H2. pose proof (re_le_norm z) as Hr. set (r := Cnorm2 z) in *. set (x := re z) in *.
  assert (B : (Rabs (2 * a1 * x) <= Rabs (a2 + a0) * (1 + r))%R).
  { rewrite !Rabs_mult. rewrite (Rabs_right 2) by lra. assert (A1 : (Rabs a1 <= Rabs (a2 + a0))%R) by (apply Rsqr_le_abs_0; unfold Rsqr; lra).
    assert (X1 : (2 * Rabs x <= 1 + r)%R). { assert (XX : (Rabs x * Rabs x = x * x)%R) by (rewrite <- Rabs_mult; apply Rabs_right; apply Rle_ge, Rle_0_sqr).
      pose proof (Rle_0_sqr (Rabs x - 1)%R) as Q. unfold Rsqr in Q. nra. }
    pose proof (Rabs_pos x) as X0. pose proof (Rabs_pos a1) as A0.
    apply Rle_trans with (Rabs a1 * (1 + r))%R; [nra|]. apply Rmult_le_compat_r; [lra|exact A1]. }
  assert (S : ((a2 - a0) * (a2 + a0) > 0)%R) by nra.
  unfold Rabs in B. destruct (Rcase_abs (a2 + a0)), (Rcase_abs (2 * a1 * x)).
  - assert (a2 - a0 < 0)%R by nra. nra.
  - assert (a2 - a0 < 0)%R by nra. nra.
  - assert (a2 - a0 > 0)%R by nra. nra.
  - assert (a2 - a0 > 0)%R by nra. nra.
Qed.
Lemma N2_D2_coprime s a0 a1 a2 z : (s * s = 1)%R -> (a0 * a0 < a2 * a2)%R -> (a1 * a1 < (a2 + a0) * (a2 + a0))%R ->
  N2 s a0 a1 a2 z = C0 -> D2 a0 a1 a2 z = C0 -> False.
Proof.
  intros Hs H1 H2 EN ED. unfold N2 in EN. apply Cmul_0_eq in EN as [EN|EN]; [injection EN; nra|]. unfold D2 in ED.
  assert (F : Cmul (RtoC (a2 - a0)) (Cmul (Csub z C1) (Cadd z C1)) = C0).
  { transitivity (Csub (Cadd (Cadd (Cmul (Cmul (RtoC a2) z) z) (Cmul (RtoC a1) z)) (RtoC a0)) (Cadd (Cadd (RtoC a2) (Cmul (RtoC a1) z)) (Cmul (Cmul (RtoC a0) z) z))); [rewrite RtoC_sub; ring|]. rewrite EN, ED. ring. }
  apply Cmul_0_eq in F as [F|F]; [injection F; nra|]. apply Cmul_0_eq in F as [F|F].
  - assert (z = C1) by (transitivity (Cadd (Csub z C1) C1); [ring|rewrite F; ring]). subst z. apply (f_equal re) in EN. cbn in EN. nra.
  - assert (z = Copp C1) by (transitivity (Csub (Cadd z C1) C1); [ring|rewrite F; ring]). subst z. apply (f_equal re) in EN. cbn in EN. nra.
Qed.
Definition stable_poles (s : zpk) : Prop := forall p, In p (all_roots (poles s)) -> unit_disc p.
Definition closed_zeros (s : zpk) : Prop := forall p, In p (all_roots (zeros s)) -> closed_disc p.
(** a pole of the image on or outside the unit circle would come from a pole on or outside the unit circle *)
Lemma stable_from (Nz Dz p : C) : (Cnorm2 Dz <= Cnorm2 Nz)%R -> ~ (Nz = C0 /\ Dz = C0) -> Nz = Cmul p Dz -> ~ unit_disc p.
Proof.
  intros H1 H2 E Hp. apply H2. unfold unit_disc in Hp. pose proof (f_equal Cnorm2 E) as E2. rewrite Cnorm2_mul in E2. pose proof (Cnorm2_ge0 p). pose proof (Cnorm2_ge0 Dz).
  assert (D0 : Dz = C0). { destruct (Ceq_dec Dz C0) as [|n]; [assumption|]. apply C_neq0 in n. exfalso. nra. }
  split; [|exact D0]. rewrite E, D0. ring.
Qed.
Lemma stable_map1 sys sys' s a0 a1 : (s * s = 1)%R -> (a0 * a0 < a1 * a1)%R -> stable_poles sys ->
  (forall z, Cmul (prodC (c1 s a0 a1) (all_roots (poles sys))) (pnode (all_roots (poles sys')) z) = prodC (fun p => Csub (N1 s a0 a1 z) (Cmul p (D1 a0 a1 z))) (all_roots (poles sys))) ->
  stable_poles sys'.
Proof.
  intros Hs Ha St E z Hz. destruct (Rlt_le_dec (Cnorm2 z) 1) as [|H]; [assumption|exfalso].
  destruct (new_pole _ _ _ _ _ z (E z) Hz) as (p & Hp & Q). apply (stable_from (N1 s a0 a1 z) (D1 a0 a1 z) p); [| |exact Q|now apply St].
  - pose proof (N1_D1_norm s a0 a1 z Hs). nra.
  - intros [E1 _]. pose proof (N1_neq0 s a0 a1 z Hs Ha H) as P. rewrite E1 in P. cbn in P. unfold Cnorm2 in P. cbn in P. lra.
Qed.
Lemma stable_map2 sys sys' s a0 a1 a2 : (s * s = 1)%R -> (a0 * a0 < a2 * a2)%R -> (a1 * a1 < (a2 + a0) * (a2 + a0))%R -> stable_poles sys ->
  (forall z, Cmul (prodC (c1 s a0 a2) (all_roots (poles sys))) (pnode (all_roots (poles sys')) z) = prodC (fun p => Csub (N2 s a0 a1 a2 z) (Cmul p (D2 a0 a1 a2 z))) (all_roots (poles sys))) ->
  stable_poles sys'.
Proof.
  intros Hs Ha Hb St E z Hz. destruct (Rlt_le_dec (Cnorm2 z) 1) as [|H]; [assumption|exfalso].
  destruct (new_pole _ _ _ _ _ z (E z) Hz) as (p & Hp & Q). apply (stable_from (N2 s a0 a1 a2 z) (D2 a0 a1 a2 z) p); [| |exact Q|now apply St].
  - pose proof (N2_D2_norm s a0 a1 a2 z Hs). pose proof (schur2 a0 a1 a2 z Ha Hb). nra.
  - intros [E1 E2]. exact (N2_D2_coprime s a0 a1 a2 z Hs Ha Hb E1 E2).
Qed.
Lemma stable_bilinear k p z : (0 < k)%R -> (re p < 0)%R -> Nb k z = Cmul p (Db z) -> unit_disc z.
Proof.
  intros Hk Hp E. unfold unit_disc. destruct (Rlt_le_dec (Cnorm2 z) 1) as [|H]; [assumption|exfalso].
  assert (E2 : Cmul (Nb k z) (Cconj (Db z)) = Cmul p (RtoC (Cnorm2 (Db z)))) by (rewrite E, <- Cmul_conj; ring).
  apply (f_equal re) in E2. unfold Nb, Db, Cnorm2 in E2. unfold Cnorm2 in H. cbn in E2.
  assert (Q : (k * (re z * re z + im z * im z - 1) = re p * ((re z + 1) * (re z + 1) + im z * im z))%R) by lra.
  assert (Z1 : ((re z + 1) * (re z + 1) + im z * im z = 0)%R) by nra.
  assert (re z = -1)%R by nra. assert (im z = 0)%R by nra.
  assert (E3 : re (Nb k z) = 0%R) by (rewrite E; unfold Db; cbn; rewrite H0, H1; ring). unfold Nb in E3. cbn in E3. rewrite H0, H1 in E3. nra.
Qed.
