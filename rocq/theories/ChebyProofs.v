(** The Chebyshev polynomials and the product formula behind the Chebyshev prototypes. *)
From Coq Require Import Reals Lra Psatz Permutation.
From Verif Require Import Base BaseFacts Complex KernelProofs ConvModel ConvProofs IirModel IirProofs PolyModel PolyProofs SysModel SysProofs PropsPoly PropsSys RootModel RootProofs ZmapProofs DesignProofs ButterProofs BandProofs ChebyModel.
From Coq Require Import ZifyBool ZifyNat.
Ltac Zify.zify_post_hook ::= Z.div_mod_to_equations.
Open Scope Z_scope.

(** Chebyshev polynomial of the first kind *)
Fixpoint chebT (n : nat) (x : R) : R :=
  match n with O => 1 | S m => match m with O => x | S k => 2 * x * chebT m x - chebT k x end end%R.

Lemma power_roots N u z : 0 < N -> u <> C0 -> pnode (tab N (fun m => Cmul u (cis (2 * PI * IZR m / IZR N)))) z = Csub (cpow z (Z.to_nat N)) (cpow u (Z.to_nat N)).
Proof.
  intros Hn Hu. assert (Hn' : (0 < IZR N)%R) by now apply IZR_lt. pose proof PI_RGT_0 as Pi0. set (F := fun m => Cmul u (cis (2 * PI * IZR m / IZR N))).
  pose proof (lenZ_tab N F) as L. assert (L' : length (tab N F) = Z.to_nat N) by (unfold lenZ in L; lia).
  rewrite (roots_of_power _ (cpow u (Z.to_nat N))); rewrite ?L'; [|..].
  - reflexivity.
  - apply NoDup_tab. intros i j Hi Hj E. unfold F in E. apply (Cmul_cancel u) in E; [|exact Hu]. symmetry in E. revert E. apply cis_inj.
    replace (2 * PI * IZR j / IZR N - 2 * PI * IZR i / IZR N)%R with (2 * PI * (IZR (j - i) / IZR N))%R by (rewrite minus_IZR; field; lra).
    assert (0 < IZR (j - i) / IZR N)%R by (apply Rdiv_lt_0_compat; [apply IZR_lt; lia|lra]).
    assert (IZR (j - i) / IZR N < 1)%R. { apply (Rmult_lt_reg_r (IZR N)); [lra|]. unfold Rdiv. rewrite Rmult_assoc, Rinv_l, Rmult_1_r, Rmult_1_l by lra. apply IZR_lt. lia. }
    split; nra.
  - lia.
  - intros r Hr. apply In_tab in Hr as (i & Hi & ->). unfold F. rewrite cpow_mul, cpow_cis. rewrite INR_IZR_INZ, Z2Nat.id by lia.
    replace (IZR N * (2 * PI * IZR i / IZR N))%R with (2 * PI * IZR i)%R by (field; lra). rewrite cis_period. ring.
Qed.
Lemma prodC_tab {A} (f : A -> C) N (F : Z -> A) : prodC f (tab N F) = prodC (fun i => f (F i)) (tab N (fun i => i)).
Proof. replace (tab N F) with (map F (tab N (fun i => i))) by (rewrite map_tab; reflexivity). apply (prodK_map (K := Cring)). Qed.
Lemma pnode_tab N (F : Z -> C) z : pnode (tab N F) z = prodC (fun i => Csub z (F i)) (tab N (fun i => i)).
Proof. apply prodC_tab. Qed.
Lemma cpow_inv z n : z <> C0 -> Cmul (cpow z n) (cpow (Cdiv C1 z) n) = C1.
Proof. intros H. rewrite <- cpow_mul. replace (Cmul z (Cdiv C1 z)) with C1 by (field; exact H). induction n as [|n IH]; [reflexivity|]. cbn [cpow]. rewrite IH. ring. Qed.
(** prod (z + 1/z - u_m - 1/u_m) = z^N + z^-N - u^N - u^-N *)
Lemma cheb_prod N u z : 0 < N -> u <> C0 -> z <> C0 -> let um m := Cmul u (cis (2 * PI * IZR m / IZR N)) in
  prodC (fun m => Csub (Cadd z (Cdiv C1 z)) (Cadd (um m) (Cdiv C1 (um m)))) (tab N (fun i => i)) =
  Csub (Cadd (cpow z (Z.to_nat N)) (cpow (Cdiv C1 z) (Z.to_nat N))) (Cadd (cpow u (Z.to_nat N)) (cpow (Cdiv C1 u) (Z.to_nat N))).
Proof.
  intros HN Hu Hz um. assert (Hum : forall m, um m <> C0) by (intros m X; apply Cmul_0_eq in X as [X|X]; [now apply Hu|revert X; apply cis_neq0]).
  pose proof (power_roots N u z HN Hu) as P1. pose proof (power_roots N u (Cdiv C1 z) HN Hu) as P2. pose proof (power_roots N u C0 HN Hu) as P3. rewrite pnode_tab in P1, P2, P3. fold um in P1, P2, P3.
  set (k := Z.to_nat N) in *. set (I := tab N (fun i => i)) in *.
  assert (Z0 : cpow C0 k = C0). { unfold k. replace (Z.to_nat N) with (S (Z.to_nat (N - 1))) by lia. cbn [cpow]. ring. }
  rewrite Z0 in P3. apply (Cmul_cancel (Csub C0 (cpow u k))).
  - intros X. apply (cpow_neq0 u k Hu). transitivity (Csub C0 (Csub C0 (cpow u k))); [ring|]. rewrite X. ring.
  - rewrite <- P3, <- prodC_mul.
    transitivity (Cmul (Csub (cpow z k) (cpow u k)) (Csub (cpow (Cdiv C1 z) k) (cpow u k))).
    + rewrite <- P1, <- P2, <- prodC_mul. apply (prodK_ext (K := Cring)). intros m _. pose proof (Hum m) as Hm. change (Cmul u (cis (2 * PI * IZR m / IZR N))) with (um m). generalize dependent (um m). intros v Hv. asC. field. auto.
    + rewrite P3. pose proof (cpow_inv z k Hz) as Iz. pose proof (cpow_inv u k Hu) as Iu. set (zk := cpow z k) in *. set (zi := cpow (Cdiv C1 z) k) in *. set (uk := cpow u k) in *. set (ui := cpow (Cdiv C1 u) k) in *.
      transitivity (Cadd (Csub (Cmul zk zi) (Cmul uk (Cadd zk zi))) (Cmul uk uk)); [ring|]. rewrite Iz. transitivity (Cadd (Csub (Cmul uk ui) (Cmul uk (Cadd zk zi))) (Cmul uk uk)); [rewrite Iu; reflexivity|]. ring.
Qed.
(** T_n((z + 1/z)/2) = (z^n + z^-n)/2 *)
Lemma chebT_joukowsky z x : z <> C0 -> Cadd z (Cdiv C1 z) = RtoC (2 * x) -> forall n, RtoC (2 * chebT n x) = Cadd (cpow z n) (cpow (Cdiv C1 z) n).
Proof.
  intros Hz E. set (y := Cdiv C1 z) in *. assert (Zy : Cmul z y = C1) by (unfold y; field; exact Hz).
  assert (Q : forall n, RtoC (2 * chebT n x) = Cadd (cpow z n) (cpow y n) /\ RtoC (2 * chebT (S n) x) = Cadd (cpow z (S n)) (cpow y (S n))).
  { induction n as [|n [IH1 IH2]].
    - split; [cbn [chebT cpow]; cring|]. cbn [chebT cpow]. rewrite <- E. ring.
    - split; [exact IH2|]. change (chebT (S (S n)) x) with (2 * x * chebT (S n) x - chebT n x)%R.
      replace (2 * (2 * x * chebT (S n) x - chebT n x))%R with ((2 * x) * (2 * chebT (S n) x) - 2 * chebT n x)%R by ring.
      rewrite RtoC_sub, RtoC_mul, IH1, IH2, <- E. cbn [cpow]. transitivity (Cadd (Csub (Cadd (Cmul z (Cmul z (cpow z n))) (Cmul y (Cmul y (cpow y n)))) (Cadd (cpow z n) (cpow y n))) (Cmul (Cmul z y) (Cadd (cpow z n) (cpow y n)))); [ring|]. rewrite Zy. ring. }
  intros n. apply Q.
Qed.
Lemma joukowsky_exists x : exists z, z <> C0 /\ Cadd z (Cdiv C1 z) = RtoC (2 * x).
Proof.
  set (w := Csqrt (RtoC (x * x - 1))). pose proof (Csqrt_sq (RtoC (x * x - 1))) as Q. fold w in Q.
  assert (P : Cmul (Cadd (RtoC x) w) (Csub (RtoC x) w) = C1). { transitivity (Csub (Cmul (RtoC x) (RtoC x)) (Cmul w w)); [ring|]. rewrite Q. cring. }
  assert (Z0 : Cadd (RtoC x) w <> C0). { intros X. rewrite X in P. assert (C0 = C1) by (rewrite <- P; ring). injection H. lra. }
  exists (Cadd (RtoC x) w). split; [exact Z0|].
  replace (Cdiv C1 (Cadd (RtoC x) w)) with (Csub (RtoC x) w).
  - cring.
  - apply (Cmul_cancel (Cadd (RtoC x) w)); [exact Z0|]. rewrite P. field. exact Z0.
Qed.

(** *** the points cos((2m+1) pi / 2n - i b) *)
Definition alpha (n m : Z) : R := (PI * IZR (2 * m + 1) / IZR (2 * n))%R.
Definition qpt (n : Z) (b : R) (m : Z) : C := mkC (cos (alpha n m) * cosh b) (sin (alpha n m) * sinh b).
Lemma cosh_exp b : cosh b = ((exp b + / exp b) / 2)%R. Proof. unfold cosh. now rewrite exp_Ropp. Qed.
Lemma sinh_exp b : sinh b = ((exp b - / exp b) / 2)%R. Proof. unfold sinh. now rewrite exp_Ropp. Qed.
Lemma exp_pow b n : (exp b ^ n = exp (INR n * b))%R.
Proof. induction n as [|n IH]; [cbn; rewrite Rmult_0_l; symmetry; apply exp_0|]. cbn [pow]. rewrite IH, <- exp_plus. f_equal. rewrite S_INR. ring. Qed.
Lemma cpow_RtoC r n : cpow (RtoC r) n = RtoC (r ^ n).
Proof. induction n as [|n IH]; [reflexivity|]. cbn [cpow pow]. now rewrite IH, RtoC_mul. Qed.
Lemma inv_polar r t : r <> 0%R -> Cdiv C1 (Cmul (RtoC r) (cis t)) = Cmul (RtoC (/ r)) (cis (- t)).
Proof.
  intros H. apply (Cmul_cancel (Cmul (RtoC r) (cis t))).
  - intros X. apply Cmul_0_eq in X as [X|X]; [revert X; now apply RtoC_neq0|revert X; apply cis_neq0].
  - transitivity C1; [field; split; [apply cis_neq0|now apply RtoC_neq0]|].
    transitivity (Cmul (RtoC (r * / r)) (cis (t + - t))); [rewrite Rinv_r by exact H; replace (t + - t)%R with 0%R by ring; rewrite cis_0; cring|].
    rewrite RtoC_mul, cis_add. ring.
Qed.
Lemma qpt_joukowsky n b m : Cadd (Cmul (RtoC (exp b)) (cis (alpha n m))) (Cdiv C1 (Cmul (RtoC (exp b)) (cis (alpha n m)))) = Cmul (RtoC 2) (qpt n b m).
Proof.
  pose proof (exp_pos b). rewrite inv_polar by lra. unfold qpt. rewrite cosh_exp, sinh_exp. unfold cis. rewrite cos_neg, sin_neg.
  unfold Cadd, Cmul, RtoC. cbn [re im]. f_equal; field; lra.
Qed.
Lemma qpt_conj n b m : 0 < n -> qpt n b (2 * n - 1 - m) = Cconj (qpt n b m).
Proof.
  intros H. assert (IZR n <> 0)%R by (apply not_0_IZR; lia). unfold qpt.
  assert (E : alpha n (2 * n - 1 - m) = (- alpha n m + 2 * PI)%R). { unfold alpha. replace (2 * (2 * n - 1 - m) + 1) with (2 * (2 * n) - (2 * m + 1)) by lia. rewrite !minus_IZR, !mult_IZR. field. assumption. }
  assert (Q : cis (alpha n (2 * n - 1 - m)) = cis (- alpha n m)) by (rewrite E, cis_add, cis_2PI; ring). pose proof (f_equal re Q) as Q1. pose proof (f_equal im Q) as Q2. unfold cis in Q1, Q2. cbn [re im] in Q1, Q2. rewrite Q1, Q2, cos_neg, sin_neg. unfold Cconj. cbn [re im]. f_equal. ring.
Qed.
Lemma Cnorm2_prod_conj (f : Z -> C) l : Cmul (prodC f l) (prodC (fun m => Cconj (f m)) l) = RtoC (Cnorm2 (prodC f l)).
Proof. rewrite cnorm_prod. reflexivity. Qed.
Lemma prodC_rev (f : Z -> C) n : 0 <= n -> prodC f (tab n (fun i => i)) = prodC (fun i => f (n - 1 - i)) (tab n (fun i => i)).
Proof. intros H. rewrite <- (prodC_tab f n (fun i => n - 1 - i)). symmetry. apply (prodK_perm (K := Cring)). exact (perm_tab_rev n (fun i => i) H). Qed.
Lemma cheb_product n b x : 0 < n -> (Cnorm2 (pnode (tab n (qpt n b)) (RtoC x)) * 4 ^ Z.to_nat n = 4 * (chebT (Z.to_nat n) x ^ 2 + sinh (IZR n * b) ^ 2))%R.
Proof.
  intros Hn. assert (Hn' : (IZR n <> 0)%R) by (apply not_0_IZR; lia). destruct (joukowsky_exists x) as (z & Hz & Ez). pose proof (exp_pos b) as Eb.
  set (u := Cmul (RtoC (exp b)) (cis (PI / IZR (2 * n)))).
  assert (Hu : u <> C0) by (intros X; apply Cmul_0_eq in X as [X|X]; [revert X; apply RtoC_neq0; lra|revert X; apply cis_neq0]).
  assert (H2n : (IZR (2 * n) <> 0)%R) by (apply not_0_IZR; lia).
  assert (Eu : forall m, Cmul u (cis (2 * PI * IZR m / IZR (2 * n))) = Cmul (RtoC (exp b)) (cis (alpha n m))).
  { intros m. unfold u. transitivity (Cmul (RtoC (exp b)) (Cmul (cis (PI / IZR (2 * n))) (cis (2 * PI * IZR m / IZR (2 * n))))); [ring|]. rewrite <- cis_add. do 2 f_equal. unfold alpha. rewrite plus_IZR, (mult_IZR 2 m). field. exact H2n. }
  pose proof (cheb_prod (2 * n) u z ltac:(lia) Hu Hz) as P. cbn zeta in P.
  assert (L : prodC (fun m => Csub (Cadd z (Cdiv C1 z)) (Cadd (Cmul u (cis (2 * PI * IZR m / IZR (2 * n)))) (Cdiv C1 (Cmul u (cis (2 * PI * IZR m / IZR (2 * n))))))) (tab (2 * n) (fun i => i)) =
     prodC (fun m => Cmul (RtoC 2) (Csub (RtoC x) (qpt n b m))) (tab (2 * n) (fun i => i))).
  { apply (prodK_ext (K := Cring)). intros m _. rewrite Eu, qpt_joukowsky, Ez, RtoC_mul. asC. ring. }
  apply (eq_trans (eq_sym L)) in P. clear L. set (f := fun m => Csub (RtoC x) (qpt n b m)).
  assert (S : prodC (fun m => Cmul (RtoC 2) (Csub (RtoC x) (qpt n b m))) (tab (2 * n) (fun i => i)) = Cmul (cpow (RtoC 2) (Z.to_nat (2 * n))) (RtoC (Cnorm2 (prodC f (tab n (fun i => i)))))).
  { rewrite prodC_mul. f_equal.
    - rewrite (prodK_ext (K := Cring) _ (fun m => Cmul (RtoC 2) C1)) by (intros; asC; ring).
      assert (G : forall l : list Z, prodC (fun _ => Cmul (RtoC 2) C1) l = cpow (RtoC 2) (length l)). { induction l as [|a l IH]; [reflexivity|]. unfold prodK in *. cbn [fold_right length cpow]. rewrite IH. cbn [rmul Cring]. asC. ring. }
      rewrite G. f_equal. pose proof (lenZ_tab (2 * n) (fun i => i)) as Q. unfold lenZ in Q. lia.
    - replace (2 * n) with (n + n) by lia. rewrite tab_app by lia. rewrite (prodK_app (K := Cring)). rewrite <- Cnorm2_prod_conj. cbn [rmul Cring]. f_equal.
      rewrite (prodC_tab (fun m => Csub (RtoC x) (qpt n b m)) n (fun i => n + i)).
      rewrite (prodC_rev _ n) by lia. apply (prodK_ext (K := Cring)). intros i Hi. apply In_tab in Hi as (i' & Hi & ->).
      unfold f. rewrite Cconj_sub, Cconj_R. f_equal. rewrite <- qpt_conj by lia. f_equal. lia. }
  rewrite S in P. fold (tab n (fun i => i)) in P. rewrite pnode_tab. fold f. set (M := Cnorm2 (prodC f (tab n (fun i => i)))) in *.
  set (k := Z.to_nat n). assert (E2 : Z.to_nat (2 * n) = (k + k)%nat) by (unfold k; lia). rewrite E2 in P.
  assert (Pu : cpow u (k + k) = RtoC (- (exp b ^ (k + k)))).
  { unfold u. rewrite cpow_mul, cpow_RtoC, cpow_cis. replace (INR (k + k) * (PI / IZR (2 * n)))%R with PI; [rewrite cis_PI; cring|]. rewrite plus_INR, INR_IZR_INZ. unfold k. rewrite Z2Nat.id by lia. rewrite mult_IZR. field. exact Hn'. }
  assert (Pv : cpow (Cdiv C1 u) (k + k) = RtoC (- / (exp b ^ (k + k)))).
  { pose proof (cpow_inv u (k + k) Hu) as I. rewrite Pu in I. pose proof (pow_lt (exp b) (k + k) Eb) as Q. apply (Cmul_cancel (RtoC (- exp b ^ (k + k)))); [apply RtoC_neq0; lra|]. rewrite I, <- RtoC_mul. unfold C1. change {| re := 1; im := 0 |} with (RtoC 1). f_equal. field. lra. }
  rewrite Pu, Pv in P. pose proof (chebT_joukowsky z x Hz Ez k) as T. pose proof (cpow_inv z k Hz) as Iz. rewrite (cpow_add z), (cpow_add (Cdiv C1 z)) in P.
  assert (P' : Cmul (cpow (RtoC 2) (k + k)) (RtoC M) = RtoC ((2 * chebT k x) * (2 * chebT k x) - 2 + (exp b ^ (k + k) + / exp b ^ (k + k)))).
  { rewrite P. rewrite RtoC_add, RtoC_sub, RtoC_mul, T. set (zk := cpow z k) in *. set (zi := cpow (Cdiv C1 z) k) in *. rewrite RtoC_add, !RtoC_opp. replace (RtoC 2) with (Cadd (Cmul zk zi) (Cmul zk zi)) by (rewrite Iz; cring). ring. }
  rewrite cpow_RtoC, <- RtoC_mul in P'. injection P' as P'.
  assert (Es : (sinh (IZR n * b) ^ 2 = (exp b ^ (k + k) + / exp b ^ (k + k) - 2) / 4)%R).
  { rewrite sinh_exp. replace (IZR n * b)%R with (INR k * b)%R by (rewrite INR_IZR_INZ; unfold k; rewrite Z2Nat.id by lia; reflexivity). rewrite <- exp_pow. rewrite pow_add. pose proof (pow_lt (exp b) k Eb). field. lra. }
  rewrite Es. replace (4 ^ k)%R with (2 ^ (k + k))%R by (rewrite pow_add, <- Rpow_mult_distr; f_equal; lra). lra.
Qed.

(** *** roots given by a symmetric family *)
Lemma fill_all {A} (F : Z -> A) h l : lenZ l = h -> for_ 0 h 1 (fun i cs => wr cs i (F i)) l = Ok (tab h F).
Proof.
  intros L. pose proof (lenZ_nonneg l) as Hh. rewrite L in Hh.
  assert (G : okP (for_ 0 h 1 (fun i cs => wr cs i (F i)) l) (fun cs => lenZ cs = h /\ forall k, 0 <= k < h -> nthZ cs k = Some (F k))).
  { apply (for1_inv (fun j (cs : list A) => lenZ cs = h /\ forall k, 0 <= k < j -> nthZ cs k = Some (F k))); [|lia|].
    - split; [exact L|lia].
    - intros i cs Hi [L' E]. unfold wr. rewrite L'. replace ((0 <=? i) && (i <? h)) with true by lia. eexists. split; [reflexivity|]. split; [rewrite lenZ_updZ; lia|].
      intros k Hk. rewrite nthZ_updZ by lia. destruct (Z.eqb_spec k i) as [->|]; [reflexivity|apply E; lia]. }
  destruct G as (cs & E & L' & Q). rewrite E. f_equal. apply list_eq_tab; [lia|]. intros i Hi. now apply Q.
Qed.

Definition sym_poly (n : Z) (F : Z -> C) : fp := mk_fp (tab (n mod 2) (fun _ => re (F (n / 2)))) (tab (n / 2) F).
(** the family is closed under conjugation: F(n-1-i) = conj F(i) *)
Lemma sym_roots n (F : Z -> C) : 0 < n -> (forall i, 0 <= i < n -> F (n - 1 - i) = Cconj (F i)) -> Permutation (all_roots (sym_poly n F)) (tab n F).
Proof.
  intros H Hc. unfold all_roots, sym_poly. rewrite mk_fp_real, mk_fp_pairs, !map_tab. set (h := n / 2). set (r := n mod 2).
  assert (Er : tab r (fun _ => RtoC (re (F h))) = tab r (fun i => F (h + i))).
  { apply tab_ext. intros i Hi. assert (i = 0 /\ n = 2 * h + 1) as [-> En] by (unfold h, r in *; lia). rewrite Z.add_0_r. specialize (Hc h ltac:(lia)). replace (n - 1 - h) with h in Hc by lia.
    pose proof (f_equal im Hc) as I. unfold Cconj in I. cbn [im] in I. unfold RtoC. destruct (F h) as [a b]. cbn [re im] in *. f_equal. lra. }
  rewrite Er. assert (En : tab n F = tab (h + (r + h)) F) by (f_equal; unfold h, r; lia). rewrite En. clear En.
  rewrite tab_app by (unfold h, r; lia). rewrite (tab_app r h) by (unfold h, r; lia).
  rewrite app_assoc. rewrite (Permutation_app_comm (tab r _) (tab h _)). rewrite <- app_assoc. apply Permutation_app_head, Permutation_app_head.
  assert (El : tab h (fun i => Cconj (F i)) = tab h (fun i => (fun j => F (h + (r + j))) (h - 1 - i))).
  { apply tab_ext. intros i Hi. rewrite <- Hc by (unfold h in Hi; lia). f_equal. unfold h, r. lia. }
  rewrite El. exact (perm_tab_rev h (fun j => F (h + (r + j))) ltac:(unfold h; lia)).
Qed.
Lemma sym_num n F : 0 <= n -> num_roots (sym_poly n F) = n.
Proof. intros H. unfold sym_poly, num_roots, mk_fp. cbn [nreal npairs]. rewrite !lenZ_tab. lia. Qed.
(** the same without the middle root *)
Lemma pair_roots n (F : Z -> C) : 0 < n -> (forall i, 0 <= i < n / 2 -> F (n - 1 - i) = Cconj (F i)) ->
  Permutation (all_roots (mk_fp [] (tab (n / 2) F))) (tab (n / 2) F ++ tab (n / 2) (fun j => F (n / 2 + n mod 2 + j))).
Proof.
  intros H Hc. unfold all_roots. rewrite mk_fp_real, mk_fp_pairs, !map_tab. cbn [map app]. apply Permutation_app_head. set (h := n / 2). set (r := n mod 2).
  assert (El : tab h (fun i => Cconj (F i)) = tab h (fun i => (fun j => F (h + r + j)) (h - 1 - i))).
  { apply tab_ext. intros i Hi. rewrite <- Hc by (unfold h in Hi; lia). f_equal. unfold h, r. lia. }
  rewrite El. exact (perm_tab_rev h (fun j => F (h + r + j)) ltac:(unfold h; lia)).
Qed.
Lemma sym_fill n F : 0 <= n -> exists p, fp_resize empty_fp (n mod 2) (n / 2) 0%R C0 = Ok p /\ npairs p = n / 2 /\ nreal p = n mod 2 /\ for_ 0 (npairs p) 1 (fun i cs => wr cs i (F i)) (complex_pairs p) = Ok (tab (n / 2) F) /\ for_ 0 (nreal p) 1 (fun i rs => wr rs i (re (F (npairs p)))) (real_roots p) = Ok (tab (n mod 2) (fun _ => re (F (n / 2)))).
Proof.
  intros H. destruct (resize_spec empty_fp (n mod 2) (n / 2) 0 C0 fp_wf_empty ltac:(lia) ltac:(lia) ltac:(now right)) as (q & E & W & Q1 & Q2 & Q3 & Q4).
  exists q. split; [exact E|]. split; [exact Q2|]. split; [exact Q1|]. pose proof (lenZ_complex_pairs q W). pose proof (lenZ_real_roots q W). split.
  - rewrite Q2. apply fill_all. lia.
  - rewrite Q2, Q1. exact (fill_all (fun _ => re (F (n / 2))) (n mod 2) (real_roots q) ltac:(lia)).
Qed.

(** *** Chebyshev I *)
Definition beta (n : Z) (e : R) : R := (arcsinh (1 / e) / IZR n)%R.
Lemma pole1_qpt n m e : 0 < n -> Chebyshev1Pole m n e = Cmul Ci (qpt n (beta n e) m).
Proof.
  intros H. assert (Hn : (IZR n <> 0)%R) by (apply not_0_IZR; lia). unfold Chebyshev1Pole. f_equal. unfold Ccos, Cacos_imag, qpt, Cadd, Cmul, RtoC. cbn [re im].
  replace (1 / IZR n * (PI / 2) - 0 * - arcsinh (1 / e) + IZR m / IZR n * PI)%R with (alpha n m) by (unfold alpha; rewrite plus_IZR, !mult_IZR; field; exact Hn).
  replace (1 / IZR n * - arcsinh (1 / e) + 0 * (PI / 2) + 0)%R with (- beta n e)%R by (unfold beta; field; exact Hn).
  f_equal.
  - f_equal. unfold cosh. rewrite Ropp_involutive. lra.
  - unfold sinh. rewrite Ropp_involutive. lra.
Qed.
Definition cpole (n : Z) (e : R) (m : Z) : C := Cmul Ci (qpt n (beta n e) m).
Lemma alpha_mirror n m : 0 < n -> alpha n (n - 1 - m) = (PI - alpha n m)%R.
Proof. intros H. assert (IZR n <> 0)%R by (apply not_0_IZR; lia). unfold alpha. replace (2 * (n - 1 - m) + 1) with (2 * n - (2 * m + 1)) by lia. rewrite !minus_IZR, !mult_IZR. field. assumption. Qed.
Lemma qpt_mirror n b m : 0 < n -> qpt n b (n - 1 - m) = Copp (Cconj (qpt n b m)).
Proof. intros H. unfold qpt. rewrite alpha_mirror by exact H. rewrite Rtrigo_facts.cos_pi_minus, Rtrigo_facts.sin_pi_minus. unfold Copp, Cconj. cbn [re im]. f_equal; ring. Qed.
Lemma cpole_conj n e m : 0 < n -> cpole n e (n - 1 - m) = Cconj (cpole n e m).
Proof. intros H. unfold cpole. rewrite qpt_mirror by exact H. cring. Qed.
Lemma alpha_range n m : 0 <= m < n -> (0 < alpha n m < PI)%R.
Proof.
  intros H. pose proof PI_RGT_0. unfold alpha. assert (0 < IZR (2 * n))%R by (apply IZR_lt; lia).
  assert (E : (PI * IZR (2 * m + 1) / IZR (2 * n) = PI * (IZR (2 * m + 1) / IZR (2 * n)))%R) by (field; lra). rewrite E.
  assert (0 < IZR (2 * m + 1) / IZR (2 * n))%R by (apply Rdiv_lt_0_compat; [apply IZR_lt; lia|lra]).
  assert (IZR (2 * m + 1) / IZR (2 * n) < 1)%R. { apply (Rmult_lt_reg_r (IZR (2 * n))); [lra|]. unfold Rdiv. rewrite Rmult_assoc, Rinv_l, Rmult_1_r, Rmult_1_l by lra. apply IZR_lt. lia. }
  split; nra.
Qed.
Lemma sinh_pos b : (0 < b)%R -> (0 < sinh b)%R. Proof. intros H. rewrite <- sinh_0. now apply sinh_lt. Qed.
Lemma cosh_pos b : (0 < cosh b)%R. Proof. unfold cosh. pose proof (exp_pos b). pose proof (exp_pos (- b)). lra. Qed.
Lemma beta_pos n e : 0 < n -> (0 < e)%R -> (0 < beta n e)%R.
Proof. intros H He. unfold beta. apply Rdiv_lt_0_compat; [|now apply IZR_lt]. rewrite <- arcsinh_0. apply arcsinh_lt. apply Rdiv_lt_0_compat; lra. Qed.
Lemma cpole_left n e m : (0 < e)%R -> 0 <= m < n -> (re (cpole n e m) < 0)%R.
Proof.
  intros He H. unfold cpole, qpt, Ci, Cmul. cbn [re im]. pose proof (alpha_range n m H) as A. pose proof (sin_gt_0 _ (proj1 A) (proj2 A)). pose proof (sinh_pos _ (beta_pos n e ltac:(lia) He)). nra.
Qed.
Lemma sinh_beta n e : 0 < n -> sinh (IZR n * beta n e) = (1 / e)%R.
Proof. intros H. unfold beta. replace (IZR n * (arcsinh (1 / e) / IZR n))%R with (arcsinh (1 / e)) by (field; apply not_0_IZR; lia). apply sinh_arcsinh. Qed.
Definition prodR {A} (f : A -> R) (l : list A) : R := fold_right (fun a r => (f a * r)%R) 1%R l.
Lemma norm_prodC {A} (f : A -> C) l : Cnorm2 (prodC f l) = prodR (fun a => Cnorm2 (f a)) l.
Proof. induction l as [|a l IH]; [unfold Cnorm2; cbn; ring|]. change (prodC f (a :: l)) with (Cmul (f a) (prodC f l)). rewrite Cnorm2_mul, IH. reflexivity. Qed.
Lemma prodR_cons {A} (f : A -> R) a l : prodR f (a :: l) = (f a * prodR f l)%R. Proof. reflexivity. Qed.
Lemma prodR_ext {A} (f g : A -> R) l : (forall a, In a l -> f a = g a) -> prodR f l = prodR g l.
Proof. induction l as [|a l IH]; intros H; [reflexivity|]. rewrite !prodR_cons, IH, H; [reflexivity|now left|intros; apply H; now right]. Qed.
Lemma prodR_app {A} (f : A -> R) l m : prodR f (l ++ m) = (prodR f l * prodR f m)%R.
Proof. induction l as [|a l IH]; [change (prodR f ([] ++ m)) with (prodR f m); change (prodR f (@nil A)) with 1%R; ring|]. cbn [app]. rewrite !prodR_cons, IH. ring. Qed.
Lemma prodR_map {A B} (f : B -> R) (g : A -> B) l : prodR f (map g l) = prodR (fun a => f (g a)) l.
Proof. induction l as [|a l IH]; [reflexivity|]. cbn [map]. now rewrite !prodR_cons, IH. Qed.
Lemma prodR_tab {A} (f : A -> R) n (F : Z -> A) : prodR f (tab n F) = prodR (fun i => f (F i)) (tab n (fun i => i)).
Proof. replace (tab n F) with (map F (tab n (fun i => i))) by (rewrite map_tab; reflexivity). apply prodR_map. Qed.
Lemma prodR_mul {A} (f g : A -> R) l : prodR (fun a => f a * g a)%R l = (prodR f l * prodR g l)%R.
Proof. induction l as [|a l IH]; [cbn; ring|]. rewrite !prodR_cons, IH. ring. Qed.
Lemma prodR_const {A} c (l : list A) : prodR (fun _ => c) l = (c ^ length l)%R.
Proof. induction l as [|a l IH]; [reflexivity|]. rewrite prodR_cons, IH. reflexivity. Qed.
Lemma prodR_perm {A} (f : A -> R) l m : Permutation l m -> prodR f l = prodR f m.
Proof. intros P. induction P; rewrite ?prodR_cons; [reflexivity|now rewrite IHP|ring|now rewrite IHP1]. Qed.
Lemma prodR_neq0 {A} (f : A -> R) l : (forall a, In a l -> f a <> 0%R) -> prodR f l <> 0%R.
Proof. induction l as [|a l IH]; intros H; [cbn; lra|]. rewrite prodR_cons. apply Rmult_integral_contrapositive. split; [apply H; now left|apply IH; intros; apply H; now right]. Qed.
Lemma pnode_norm l z : Cnorm2 (pnode l z) = prodR (fun a => Cnorm2 (Csub z a)) l. Proof. apply norm_prodC. Qed.
(** |prod (jw - p)|^2 *)
Lemma cheb1_mag n e w : 0 < n -> (Cnorm2 (pnode (tab n (cpole n e)) (mkC 0 w)) * 4 ^ Z.to_nat n = 4 * (chebT (Z.to_nat n) w ^ 2 + (1 / e) ^ 2))%R.
Proof.
  intros H. rewrite <- (sinh_beta n e H), <- (cheb_product n (beta n e) w H). f_equal. rewrite !pnode_norm, (prodR_tab _ n (cpole n e)), (prodR_tab _ n (qpt n (beta n e))). apply prodR_ext. intros i _. unfold cpole, Cnorm2, Ci, Csub, Cmul, RtoC. cbn [re im]. unfold Copp. cbn [re im]. ring.
Qed.

(** *** discretising any stable prototype *)
Lemma bilinear_gain sys fs pw sys' : BilinearTransform sys fs pw = Ok sys' -> gain sys' = zpk_eval (K := Rfield) (fun r => r) sys (bilinear_k fs pw).
Proof. unfold BilinearTransform. destruct (TransformRoots _ _ _ _ _); cbn [bind]; try discriminate. destruct (TransformRoots _ _ _ _ _); cbn [bind]; try discriminate. intros E. injection E as <-. reflexivity. Qed.
Lemma closed_bilinear k p z : (0 < k)%R -> (re p <= 0)%R -> Nb k z = Cmul p (Db z) -> closed_disc z.
Proof.
  intros Hk Hp E. unfold closed_disc. destruct (Rle_lt_dec (Cnorm2 z) 1) as [|H]; [assumption|exfalso].
  assert (E2 : Cmul (Nb k z) (Cconj (Db z)) = Cmul p (RtoC (Cnorm2 (Db z)))) by (rewrite E, <- Cmul_conj; ring).
  apply (f_equal re) in E2. unfold Nb, Db, Cnorm2 in E2. unfold Cnorm2 in H. cbn in E2.
  assert (Q : (k * (re z * re z + im z * im z - 1) = re p * ((re z + 1) * (re z + 1) + im z * im z))%R) by lra.
  assert (0 <= (re z + 1) * (re z + 1) + im z * im z)%R by nra. nra.
Qed.
Definition limit_power (sys : zpk) : R := if num_roots (zeros sys) =? num_roots (poles sys) then (gain sys ^ 2)%R else 0%R.
Lemma proto_general sys n G : 0 < n -> well_formed sys -> num_roots (poles sys) = n -> num_roots (zeros sys) <= n ->
  (forall p, In p (all_roots (poles sys)) -> (re p < 0)%R) -> (forall p, In p (all_roots (zeros sys)) -> (re p <= 0)%R) ->
  (forall w, Cnorm2 (transfer_at sys (mkC 0 w)) = G w) ->
  exists hb, DiscretizePrototype sys = Ok hb /\ halfband hb n G (limit_power sys).
Proof.
  intros Hn W Op Oz Left LeftZ HG. unfold DiscretizePrototype. pose proof proto_k as Ek.
  assert (Nk : forall p, In p (all_roots (zeros sys)) \/ In p (all_roots (poles sys)) -> p <> RtoC 1).
  { intros p [Hp|Hp] Ep; [specialize (LeftZ p Hp); rewrite Ep in LeftZ; cbn in LeftZ; lra|specialize (Left p Hp); rewrite Ep in Left; cbn in Left; lra]. }
  destruct (bilinear_spec sys (2 / PI) (Some 1%R) W) as (hb & E & W' & Lz & Lp & V & P & Zr); [rewrite Ek; exact Nk|].
  pose proof (bilinear_gain _ _ _ _ E) as Eg.
  rewrite Ek in *. assert (Eo : zpk_order sys = n) by (unfold zpk_order; lia). rewrite Eo in *.
  assert (Sp : stable_poles hb).
  { intros z Hz. specialize (P z). rewrite Op in P. replace (Z.to_nat (n - n)) with 0%nat in P by lia. cbn [cpow] in P.
    assert (P' : Cmul (prodC (cb 1) (all_roots (poles sys))) (pnode (all_roots (poles hb)) z) = prodC (fun p => Csub (Nb 1 z) (Cmul p (Db z))) (all_roots (poles sys))) by (rewrite P; ring).
    destruct (new_pole _ _ _ _ _ z P' Hz) as (p & Hp & Q). apply (stable_bilinear 1 p z); [lra|now apply Left|exact Q]. }
  assert (cpow0 : forall z, Db z <> C0 -> forall k, cpow (Db z) k <> C0) by (intros; now apply cpow_neq0).
  assert (Dm : forall z, Db z = C0 -> z = RtoC (-1)) by (intros z X; unfold Db in X; transitivity (Csub (Cadd z C1) C1); [ring|]; rewrite X; cring).
  exists hb. split; [exact E|]. split; [exact W'|]. split; [exact Lz|]. split; [exact Lp|]. split; [exact Sp|]. split; [|split].
  - intros z Hz. specialize (Zr z). rewrite (pnode_root _ _ Hz) in Zr. assert (Zr' : Cmul (prodC (fun p => Csub (Nb 1 z) (Cmul p (Db z))) (all_roots (zeros sys))) (cpow (Db z) (Z.to_nat (n - num_roots (zeros sys)))) = C0) by (rewrite <- Zr; ring).
    apply Cmul_0_eq in Zr' as [X|X].
    + apply prodC_zero in X as (p & Hp & X). apply (closed_bilinear 1 p z); [lra|now apply LeftZ|]. transitivity (Cadd (Csub (Nb 1 z) (Cmul p (Db z))) (Cmul p (Db z))); [ring|]. rewrite X. ring.
    + destruct (Ceq_dec (Db z) C0) as [D0|D0]; [|exfalso; revert X; now apply cpow_neq0]. rewrite (Dm z D0). unfold closed_disc, Cnorm2. cbn. lra.
  - intros w N D HD Hw Hs.
    assert (H1 : Cdiv N D <> RtoC (-1)).
    { intros E1. apply Hs. transitivity (Cmul D (Cadd (Cdiv N D) C1)); [field; exact HD|]. rewrite E1. transitivity (Cmul D C0); [f_equal; cring|ring]. }
    assert (E1 : Cdiv (Nb 1 (Cdiv N D)) (Db (Cdiv N D)) = mkC 0 w).
    { assert (H2 : Db (Cdiv N D) <> C0) by (intros E0; apply H1; now apply Dm).
      transitivity (Cdiv (Csub N D) (Cadd N D)).
      - unfold Nb, Db in *. change (RtoC 1) with C1. field. split; [exact Hs|]. exact HD.
      - rewrite Hw. field. exact Hs. }
    destruct (V (Cdiv N D) H1) as [V1 V2].
    + rewrite E1. unfold is_pole. rewrite <- pnode_vanishing. intros E0. unfold pnode in E0. apply prodC_zero in E0 as (p & Hp & Ep). specialize (Left p Hp).
      apply (f_equal re) in Ep. cbn in Ep. lra.
    + rewrite V2, E1. apply HG.
  - assert (Np : pnode (all_roots (poles hb)) (RtoC (-1)) <> C0).
    { intros E0. unfold pnode in E0. apply prodC_zero in E0 as (p & Hp & Ep). specialize (Sp p Hp). unfold unit_disc in Sp.
      assert (p = RtoC (-1)) by (transitivity (Csub (RtoC (-1)) (Csub (RtoC (-1)) p)); [ring|rewrite Ep; ring]). subst p. unfold Cnorm2 in Sp. cbn in Sp. lra. }
    unfold limit_power. rewrite Op. unfold transfer_at. rewrite <- !pnode_vanishing.
    assert (D1' : Db (RtoC (-1)) = C0) by (unfold Db; cring).
    destruct (Z.eqb_spec (num_roots (zeros sys)) n) as [En|En].
    + assert (Cp : prodC (cb 1) (all_roots (poles sys)) <> C0). { apply prodC_neq0. intros p Hp X. apply (Nk p); [now right|]. unfold cb in X. transitivity (Csub (RtoC 1) (Csub (RtoC 1) p)); [ring|]. rewrite X. ring. }
      assert (Cz : prodC (cb 1) (all_roots (zeros sys)) <> C0). { apply prodC_neq0. intros p Hp X. apply (Nk p); [now left|]. unfold cb in X. transitivity (Csub (RtoC 1) (Csub (RtoC 1) p)); [ring|]. rewrite X. ring. }
      assert (Pk : ~ is_pole sys (RtoC 1)) by (unfold is_pole; rewrite <- pnode_vanishing; exact Cp).
      pose proof (real_at sys 1 Pk) as Ra. rewrite <- Eg in Ra. unfold transfer_at in Ra. rewrite <- !pnode_vanishing, <- !prodC_cb in Ra.
      pose proof (P (RtoC (-1))) as P1. pose proof (Zr (RtoC (-1))) as Z1. rewrite Op, Z.sub_diag in P1. rewrite En, Z.sub_diag in Z1. cbn [Z.to_nat cpow] in P1, Z1. rewrite D1' in P1, Z1.
      assert (S : forall l, Z.of_nat (length l) = n -> Cmul (prodC (fun p => Csub (Nb 1 (RtoC (-1))) (Cmul p C0)) l) C1 = cpow (RtoC (-2)) (Z.to_nat n)).
      { intros l Hl. replace (Z.to_nat n) with (length l) by lia. clear Hl. induction l as [|a l IH]; [cbn; cring|]. change (prodC (fun p => Csub (Nb 1 (RtoC (-1))) (Cmul p C0)) (a :: l)) with (Cmul (Csub (Nb 1 (RtoC (-1))) (Cmul a C0)) (prodC (fun p => Csub (Nb 1 (RtoC (-1))) (Cmul p C0)) l)).
        cbn [length cpow]. rewrite <- IH. replace (Csub (Nb 1 (RtoC (-1))) (Cmul a C0)) with (RtoC (-2)) by (unfold Nb; cring). ring. }
      rewrite S in P1 by (rewrite roots_len by apply W; exact Op). rewrite S in Z1 by (rewrite roots_len by apply W; exact En).
      assert (T : Cdiv (Cmul (RtoC (gain hb)) (pnode (all_roots (zeros hb)) (RtoC (-1)))) (pnode (all_roots (poles hb)) (RtoC (-1))) = RtoC (gain sys)).
      { rewrite Ra. set (A := prodC (cb 1) (all_roots (poles sys))) in *. set (B := prodC (cb 1) (all_roots (zeros sys))) in *. set (zz := pnode (all_roots (zeros hb)) (RtoC (-1))) in *. set (pp := pnode (all_roots (poles hb)) (RtoC (-1))) in *.
        apply (Cmul_cancel (Cmul A pp)); [intros X; apply Cmul_0_eq in X; tauto|].
        transitivity (Cmul (RtoC (gain sys)) (Cmul B zz)); [field; split; assumption|]. rewrite Z1, P1. ring. }
      rewrite T. unfold Cnorm2, RtoC. cbn [re im]. ring.
    + assert (Z0 : pnode (all_roots (zeros hb)) (RtoC (-1)) = C0).
      { pose proof (Zr (RtoC (-1))) as Z1. rewrite D1' in Z1. replace (Z.to_nat (n - num_roots (zeros sys))) with (S (Z.to_nat (n - num_roots (zeros sys) - 1))) in Z1 by lia. cbn [cpow] in Z1.
        assert (Cz : prodC (cb 1) (all_roots (zeros sys)) <> C0). { apply prodC_neq0. intros p Hp X. apply (Nk p); [now left|]. unfold cb in X. transitivity (Csub (RtoC 1) (Csub (RtoC 1) p)); [ring|]. rewrite X. ring. }
        apply (Cmul_cancel _ _ _ Cz). rewrite Z1. ring. }
      rewrite Z0. unfold Cdiv. transitivity (Cnorm2 C0); [f_equal; ring|apply Cnorm2_C0].
Qed.

(** *** the Chebyshev I prototype *)
Definition eps1 (r : R) : R := sqrt (1 / (1 - r) ^ 2 - 1).
Lemma eps1_sq r : (0 < r < 1)%R -> (0 < eps1 r)%R /\ (eps1 r ^ 2 = 1 / (1 - r) ^ 2 - 1)%R.
Proof.
  intros H. assert (P : (0 < 1 / (1 - r) ^ 2 - 1)%R).
  { assert (0 < (1 - r) ^ 2 < 1)%R by (split; [apply pow_lt; lra|]; replace ((1 - r) ^ 2)%R with ((1 - r) * (1 - r))%R by ring; nra).
    assert (1 < 1 / (1 - r) ^ 2)%R by (apply (Rmult_lt_reg_r ((1 - r) ^ 2)); [lra|]; unfold Rdiv; rewrite Rmult_assoc, Rinv_l by lra; lra). lra. }
  unfold eps1. split; [now apply sqrt_lt_R0|]. rewrite <- Rsqr_pow2. apply Rsqr_sqrt. lra.
Qed.
Definition cheb1_sys (n : Z) (r : R) : zpk := mkZpk (1 / (IZR (2 ^ (n - 1)) * eps1 r)) empty_fp (sym_poly n (cpole n (eps1 r))).
Lemma cheb1_ok n r : 0 < n <= 32 -> Chebyshev1 n r = Ok (cheb1_sys n r).
Proof.
  intros H. unfold Chebyshev1. fold (eps1 r). unfold shl1. assert (Es : size_sub n 1 = n - 1) by (unfold size_sub; rewrite Z.mod_small; lia). rewrite Es. replace ((0 <=? n - 1) && (n - 1 <? 32)) with true by lia. cbn [bind].
  destruct (sym_fill n (fun i => Chebyshev1Pole i n (eps1 r)) ltac:(lia)) as (p & -> & Np & Nr & Ec & Er). cbn [bind]. rewrite Ec. cbn [bind]. rewrite Er. cbn [bind]. unfold cheb1_sys, sym_poly. do 3 f_equal.
  - apply tab_ext. intros i Hi. now rewrite pole1_qpt by lia.
  - apply tab_ext. intros i Hi. now rewrite pole1_qpt by lia.
Qed.
Lemma pow4 n : 0 < n -> (4 ^ Z.to_nat n = 4 * IZR (2 ^ (n - 1)) ^ 2)%R.
Proof.
  intros H. rewrite <- (Z2Nat.id (n - 1)) by lia. rewrite <- pow_IZR. replace (Z.to_nat n) with (S (Z.to_nat (n - 1))) by lia. cbn [pow]. set (k := Z.to_nat (n - 1)).
  replace (4 ^ k)%R with (2 ^ k * 2 ^ k)%R by (rewrite <- Rpow_mult_distr; f_equal; lra). ring.
Qed.
Lemma sym_wf n F : consistent (sym_poly n F). Proof. apply mk_fp_wf. Qed.
Lemma norm_div a b : b <> C0 -> Cnorm2 (Cdiv a b) = (Cnorm2 a / Cnorm2 b)%R.
Proof.
  intros H. apply C_neq0 in H as H'. apply (Rmult_eq_reg_r (Cnorm2 b)); [|exact H']. rewrite <- Cnorm2_mul. transitivity (Cnorm2 a); [f_equal; field; exact H|]. field. exact H'.
Qed.
Lemma norm_RtoC x : Cnorm2 (RtoC x) = (x ^ 2)%R. Proof. unfold Cnorm2, RtoC. cbn [re im]. ring. Qed.
Lemma pnode_perm l m z : Permutation l m -> pnode l z = pnode m z. Proof. intros P. exact (prodK_perm (K := Cring) _ _ _ P). Qed.
Definition cheb1_power (n : Z) (r w : R) : R := (1 / (1 + (1 / (1 - r) ^ 2 - 1) * chebT (Z.to_nat n) w ^ 2))%R.
Lemma cheb1_roots n r : 0 < n -> Permutation (all_roots (poles (cheb1_sys n r))) (tab n (cpole n (eps1 r))).
Proof. intros H. apply sym_roots; [exact H|]. intros i Hi. now apply cpole_conj. Qed.
Lemma cheb1_left n r p : 0 < n -> (0 < r < 1)%R -> In p (all_roots (poles (cheb1_sys n r))) -> (re p < 0)%R.
Proof. intros H Hr Hp. apply (Permutation_in _ (cheb1_roots n r H)) in Hp. apply In_tab in Hp as (i & Hi & ->). apply cpole_left; [apply eps1_sq; lra|lia]. Qed.
Lemma left_not_pole l w : (forall p, In p l -> (re p < 0)%R) -> pnode l (mkC 0 w) <> C0.
Proof. intros H E0. unfold pnode in E0. apply prodC_zero in E0 as (p & Hp & Ep). specialize (H p Hp). apply (f_equal re) in Ep. cbn in Ep. lra. Qed.
Lemma cheb1_response n r w : 0 < n -> (0 < r < 1)%R -> Cnorm2 (transfer_at (cheb1_sys n r) (mkC 0 w)) = cheb1_power n r w.
Proof.
  intros H Hr. destruct (eps1_sq r Hr) as [E0 E2]. unfold transfer_at. rewrite <- !pnode_vanishing. rewrite norm_div by (apply left_not_pole; intros p Hp; exact (cheb1_left n r p H Hr Hp)).
  rewrite (pnode_perm _ _ _ (cheb1_roots n r H)). cbn [gain zeros cheb1_sys]. change (pnode (all_roots empty_fp) (mkC 0 w)) with C1. replace (Cmul (RtoC (1 / (IZR (2 ^ (n - 1)) * eps1 r))) C1) with (RtoC (1 / (IZR (2 ^ (n - 1)) * eps1 r))) by ring. rewrite norm_RtoC.
  pose proof (cheb1_mag n (eps1 r) w H) as M. rewrite (pow4 n H) in M. unfold cheb1_power. rewrite <- E2. set (e := eps1 r) in *. set (X := IZR (2 ^ (n - 1))) in *.
  assert (X0 : (0 < X)%R) by (apply IZR_lt; apply Z.pow_pos_nonneg; lia). set (T := chebT (Z.to_nat n) w) in *. set (Y := Cnorm2 (pnode (tab n (cpole n e)) (mkC 0 w))) in *.
  assert (EY : Y = ((T ^ 2 + (1 / e) ^ 2) / X ^ 2)%R) by (apply (Rmult_eq_reg_r (4 * X ^ 2)); [rewrite M; field; lra|nra]). rewrite EY. field. pose proof (pow2_ge_0 T). pose proof (pow2_ge_0 (e * T)). replace (e ^ 2 * T ^ 2)%R with ((e * T) ^ 2)%R in * by ring. replace (T ^ 2 * e ^ 2)%R with ((e * T) ^ 2)%R in * by ring. repeat split; lra.
Qed.
Lemma cheb1_halfband n r : 0 < n <= 32 -> (0 < r < 1)%R -> exists hb, PrototypeChebyshev1 n r = Ok hb /\ halfband hb n (cheb1_power n r) 0.
Proof.
  intros H Hr. unfold PrototypeChebyshev1. rewrite cheb1_ok by exact H. cbn [bind].
  assert (Np : num_roots (poles (cheb1_sys n r)) = n) by (apply sym_num; lia).
  destruct (proto_general (cheb1_sys n r) n (cheb1_power n r)) as (hb & E & Hb); [lia| | | | | | |].
  - split; [exact fp_wf_empty|apply sym_wf].
  - exact Np.
  - change (num_roots (zeros (cheb1_sys n r))) with 0. lia.
  - intros p Hp. exact (cheb1_left n r p ltac:(lia) Hr Hp).
  - intros p [].
  - intros w. apply cheb1_response; [lia|exact Hr].
  - exists hb. split; [exact E|]. unfold limit_power in Hb. rewrite Np in Hb. change (num_roots (zeros (cheb1_sys n r))) with 0 in Hb. replace (0 =? n) with false in Hb by lia. exact Hb.
Qed.
