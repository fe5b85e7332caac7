(** The Chebyshev II prototype. *)
From Coq Require Import Reals Lra Psatz Permutation.
From Verif Require Import Base BaseFacts Complex KernelProofs ConvModel ConvProofs IirModel IirProofs PolyModel PolyProofs SysModel SysProofs PropsPoly PropsSys RootModel RootProofs ZmapProofs DesignProofs ButterProofs BandProofs ChebyModel ChebyProofs.
From Coq Require Import ZifyBool ZifyNat.
Ltac Zify.zify_post_hook ::= Z.div_mod_to_equations.
Open Scope Z_scope.

Lemma chebT_SS n x : chebT (S (S n)) x = (2 * x * chebT (S n) x - chebT n x)%R. Proof. reflexivity. Qed.
Lemma chebT_parity n x : (chebT n (- x) = (-1) ^ n * chebT n x)%R.
Proof.
  assert (Q : (chebT n (- x) = (-1) ^ n * chebT n x)%R /\ (chebT (S n) (- x) = (-1) ^ S n * chebT (S n) x)%R); [|tauto].
  induction n as [|n [IH1 IH2]]; [split; cbn; lra|]. split; [exact IH2|]. rewrite !chebT_SS, IH1, IH2. cbn [pow]. ring.
Qed.
Lemma chebT_neg_sq n x : (chebT n (- x) ^ 2 = chebT n x ^ 2)%R.
Proof.
  rewrite chebT_parity. replace (((-1) ^ n * chebT n x) ^ 2)%R with (((-1) ^ n * (-1) ^ n) * chebT n x ^ 2)%R by ring. rewrite <- Rpow_mult_distr. replace (-1 * -1)%R with 1%R by ring. rewrite pow1. ring.
Qed.
Lemma chebT_cont n : continuity (chebT n).
Proof.
  assert (Q : continuity (chebT n) /\ continuity (chebT (S n))); [|tauto].
  induction n as [|n [IH1 IH2]].
  - split; [apply continuity_const; intros a b; reflexivity|]. intros x. apply derivable_continuous_pt, derivable_pt_id.
  - split; [exact IH2|]. intros x. change (chebT (S (S n))) with (fun x => (2 * x * chebT (S n) x - chebT n x)%R). apply continuity_pt_minus; [|apply IH1]. apply continuity_pt_mult; [|apply IH2].
    apply continuity_pt_mult; [apply continuity_pt_const; intros a b; reflexivity|apply derivable_continuous_pt, derivable_pt_id].
Qed.
Lemma chebT_zero k : exists V, continuity V /\ (forall x, chebT (2 * k + 1) x = x * V x)%R /\ (V 0 = (-1) ^ k * INR (2 * k + 1))%R /\ (chebT (2 * k) 0 = (-1) ^ k)%R.
Proof.
  induction k as [|k (V & Cv & Ev & V0 & T0)].
  - exists (fun _ => 1%R). split; [apply continuity_const; intros a b; reflexivity|]. split; [intros x; cbn; lra|]. split; cbn; lra.
  - exists (fun x => 2 * chebT (2 * k + 2) x - V x)%R.
    assert (T2 : (chebT (2 * k + 2) 0 = (-1) ^ S k)%R).
    { replace (2 * k + 2)%nat with (S (S (2 * k))) by lia. rewrite chebT_SS, T0. cbn [pow]. ring. }
    split; [|split; [|split]].
    + intros x. apply continuity_pt_minus; [|apply Cv]. apply continuity_pt_mult; [apply continuity_pt_const; intros a b; reflexivity|apply chebT_cont].
    + intros x. replace (2 * S k + 1)%nat with (S (S (2 * k + 1))) by lia. rewrite chebT_SS, Ev. replace (S (2 * k + 1)) with (2 * k + 2)%nat by lia. ring.
    + rewrite T2, V0. rewrite !plus_INR, !mult_INR, (S_INR k). replace (INR 2) with 2%R by (cbn; lra). change (INR 1) with 1%R. cbn [pow]. ring.
    + replace (2 * S k)%nat with (2 * k + 2)%nat by lia. exact T2.
Qed.
Lemma cont_eq0 f g : continuity_pt f 0 -> continuity_pt g 0 -> (forall x, x <> 0%R -> f x = g x) -> f 0%R = g 0%R.
Proof.
  intros Cf Cg E. set (h := (f - g)%F). assert (Ch : continuity_pt h 0) by now apply continuity_pt_minus.
  assert (H0 : h 0%R = 0%R); [|unfold h, minus_fct in H0; lra].
  destruct (Req_dec (h 0%R) 0) as [|N]; [assumption|exfalso]. destruct (Ch (Rabs (h 0%R)) (Rabs_pos_lt _ N)) as (d & Hd & Q).
  assert (X : (0 < d / 2)%R) by lra. specialize (Q (d / 2)%R). assert (D : (Rabs (h (d / 2) - h 0) < Rabs (h 0))%R).
  { apply Q. split; [split; [exact I|lra]|]. cbn. unfold R_dist. rewrite Rminus_0_r, Rabs_right; lra. }
  replace (h (d / 2)%R) with 0%R in D; [|unfold h, minus_fct; rewrite E by lra; ring]. unfold Rminus in D. rewrite Rplus_0_l, Rabs_Ropp in D. lra.
Qed.
Lemma prodR_cont (cs : list R) : continuity (fun y => prodR (fun c => (y - c) ^ 2)%R cs).
Proof.
  induction cs as [|c cs IH]; [apply continuity_const; intros a b; reflexivity|]. intros x.
  change (fun y => prodR (fun c0 => (y - c0) ^ 2)%R (c :: cs)) with (fun y => ((y - c) ^ 2 * prodR (fun c0 => (y - c0) ^ 2)%R cs)%R).
  apply (continuity_pt_mult (fun y => ((y - c) ^ 2)%R)); [|apply IH].
  apply derivable_continuous_pt. reg.
Qed.

(** the nonzero nodes cos((2m+1) pi / 2n) *)
Definition cnode (n m : Z) : R := cos (alpha n m).
Definition cnodes (n : Z) : list R := tab (n / 2) (cnode n) ++ tab (n / 2) (fun j => cnode n (n / 2 + n mod 2 + j)).
Definition Bp (n : Z) (y : R) : R := prodR (fun c => (y - c) ^ 2)%R (cnodes n).
Lemma cnode_mid n : 0 < n -> n mod 2 = 1 -> cnode n (n / 2) = 0%R.
Proof.
  intros H E. assert (IZR n <> 0)%R by (apply not_0_IZR; lia). unfold cnode. replace (alpha n (n / 2)) with (PI / 2)%R; [apply cos_PI2|].
  unfold alpha. replace (2 * (n / 2) + 1) with n by lia. rewrite mult_IZR. field. assumption.
Qed.
Lemma cnode_mirror n m : 0 < n -> cnode n (n - 1 - m) = (- cnode n m)%R.
Proof. intros H. unfold cnode. rewrite alpha_mirror by exact H. apply Rtrigo_facts.cos_pi_minus. Qed.
Lemma cnode_pos n m : 0 <= m < n / 2 -> (0 < cnode n m)%R.
Proof.
  intros H. pose proof (alpha_range n m ltac:(lia)) as A. unfold cnode. apply cos_gt_0; [lra|]. unfold alpha. pose proof PI_RGT_0.
  assert (0 < IZR (2 * n))%R by (apply IZR_lt; lia). apply (Rmult_lt_reg_r (IZR (2 * n))); [lra|]. unfold Rdiv at 1. rewrite Rmult_assoc, Rinv_l by lra.
  replace (PI / 2 * IZR (2 * n))%R with (PI * IZR n)%R by (rewrite mult_IZR; field). assert (IZR (2 * m + 1) < IZR n)%R by (apply IZR_lt; lia). nra.
Qed.
Lemma cnode_neq0 n c : 0 < n -> In c (cnodes n) -> c <> 0%R.
Proof.
  intros Hn H. unfold cnodes in H. apply in_app_or in H as [H|H]; apply In_tab in H as (i & Hi & ->).
  - pose proof (cnode_pos n i ltac:(lia)). lra.
  - replace (n / 2 + n mod 2 + i) with (n - 1 - (n / 2 - 1 - i)) by lia. rewrite cnode_mirror by exact Hn. pose proof (cnode_pos n (n / 2 - 1 - i) ltac:(lia)). lra.
Qed.
Lemma B_split n y : 0 < n -> Cnorm2 (pnode (tab n (qpt n 0)) (RtoC y)) = (Bp n y * (if n mod 2 =? 0 then 1 else y ^ 2))%R.
Proof.
  intros H. rewrite pnode_norm, (prodR_tab _ n (qpt n 0)).
  rewrite (prodR_ext _ (fun i => (y - cnode n i) ^ 2)%R) by (intros i _; unfold qpt, Cnorm2, Csub, RtoC, Copp, cnode; cbn [re im]; rewrite sinh_0, cosh_0; ring).
  unfold Bp, cnodes. set (h := n / 2). set (r := n mod 2). replace (tab n (fun i => i)) with (tab (h + (r + h)) (fun i => i)) by (f_equal; unfold h, r; lia).
  rewrite tab_app by (unfold h, r; lia). rewrite (tab_app r h) by (unfold h, r; lia). rewrite !prodR_app.
  rewrite (prodR_tab _ h (cnode n)), (prodR_tab _ h (fun i => h + (r + i))), (prodR_tab _ h (fun j => cnode n (h + r + j))).
  rewrite (prodR_ext (fun i => (y - cnode n (h + (r + i))) ^ 2)%R (fun i => (y - cnode n (h + r + i)) ^ 2)%R) by (intros i _; now rewrite Z.add_assoc).
  assert (r = 0 \/ r = 1) as [E|E] by (unfold r; lia); rewrite E; [cbn [Z.eqb]; change (tab 0 (fun i => h + i)) with (@nil Z); change (prodR (fun i => (y - cnode n i) ^ 2)%R []) with 1%R; ring|].
  cbn [Z.eqb]. rewrite tab_1. rewrite prodR_cons. change (prodR (fun i => (y - cnode n i) ^ 2)%R []) with 1%R. rewrite Z.add_0_r. unfold h at 2. rewrite (cnode_mid n H E). ring.
Qed.
Lemma B_value n y : 0 < n -> (Bp n y * (if n mod 2 =? 0 then 1 else y ^ 2) * 4 ^ Z.to_nat n = 4 * chebT (Z.to_nat n) y ^ 2)%R.
Proof. intros H. rewrite <- B_split by exact H. rewrite cheb_product by exact H. rewrite Rmult_0_r, sinh_0. ring. Qed.
(** values at zero *)
Lemma T0_even n : 0 < n -> n mod 2 = 0 -> (chebT (Z.to_nat n) 0 ^ 2 = 1)%R.
Proof.
  intros H E. destruct (chebT_zero (Z.to_nat (n / 2))) as (V & _ & _ & _ & T0). replace (Z.to_nat n) with (2 * Z.to_nat (n / 2))%nat by lia. rewrite T0.
  rewrite <- pow_mult, Nat.mul_comm, pow_mult. replace ((-1) ^ 2)%R with 1%R by ring. apply pow1.
Qed.
Lemma T0_odd n : 0 < n -> n mod 2 = 1 -> (chebT (Z.to_nat n) 0 = 0)%R.
Proof. intros H E. destruct (chebT_zero (Z.to_nat (n / 2))) as (V & _ & Ev & _). replace (Z.to_nat n) with (2 * Z.to_nat (n / 2) + 1)%nat by lia. rewrite Ev. ring. Qed.
Lemma Bp0 n : 0 < n -> (Bp n 0 * 4 ^ Z.to_nat n = 4 * (if n mod 2 =? 0 then 1 else IZR n ^ 2))%R.
Proof.
  intros H. assert (n mod 2 = 0 \/ n mod 2 = 1) as [E|E] by lia.
  - pose proof (B_value n 0 H) as B. rewrite E in *. cbn [Z.eqb] in *. rewrite (T0_even n H E) in B. lra.
  - rewrite E. cbn [Z.eqb]. destruct (chebT_zero (Z.to_nat (n / 2))) as (V & Cv & Ev & V0 & _). set (k := Z.to_nat (n / 2)) in *. assert (En : Z.to_nat n = (2 * k + 1)%nat) by (unfold k; lia).
    assert (Q : (Bp n 0 * 4 ^ Z.to_nat n = 4 * (V 0 * V 0))%R).
    { apply (cont_eq0 (fun y => Bp n y * 4 ^ Z.to_nat n)%R (fun y => 4 * (V y * V y))%R).
      - apply (continuity_pt_mult (Bp n) (fun _ => 4 ^ Z.to_nat n)%R); [apply prodR_cont|apply continuity_pt_const; intros a b; reflexivity].
      - apply (continuity_pt_mult (fun _ => 4%R) (fun y => V y * V y)%R); [apply continuity_pt_const; intros a b; reflexivity|]. apply (continuity_pt_mult V V); apply Cv.
      - intros y Hy. pose proof (B_value n y H) as B. rewrite E in B. cbn [Z.eqb] in B. rewrite En in B at 2. rewrite Ev in B. apply (Rmult_eq_reg_r (y ^ 2)); [|now apply pow_nonzero]. transitivity (Bp n y * y ^ 2 * 4 ^ Z.to_nat n)%R; [ring|]. rewrite B. ring. }
    rewrite Q, V0, <- En, INR_IZR_INZ, Z2Nat.id by lia. replace ((-1) ^ k * IZR n * ((-1) ^ k * IZR n))%R with (((-1) ^ k * (-1) ^ k) * IZR n ^ 2)%R by ring. rewrite <- Rpow_mult_distr. replace (-1 * -1)%R with 1%R by ring. rewrite pow1. ring.
Qed.

(** *** the prototype *)
Definition eps2 (r : R) : R := (r / sqrt (1 - r * r))%R.
Lemma eps2_sq r : (0 < r < 1)%R -> (0 < eps2 r)%R /\ (eps2 r ^ 2 = r ^ 2 / (1 - r ^ 2))%R.
Proof.
  intros H. assert (P : (0 < 1 - r * r)%R) by nra. assert (S : (0 < sqrt (1 - r * r))%R) by now apply sqrt_lt_R0. unfold eps2. split; [apply Rdiv_lt_0_compat; lra|].
  pose proof (sqrt_sqrt (1 - r * r) ltac:(lra)) as Q. set (s := sqrt (1 - r * r)) in *. replace (1 - r ^ 2)%R with (s * s)%R by (rewrite Q; ring). field. lra.
Qed.
Definition zero2 (n m : Z) : C := Cdiv C1 (Cmul (Copp Ci) (RtoC (cnode n m))).
Definition pole2 (n : Z) (e : R) (m : Z) : C := Cdiv C1 (cpole n e m).
Definition gain2 (n : Z) (r : R) : R := (if n mod 2 =? 0 then r else eps2 r * IZR n)%R.
Definition cheb2_sys (n : Z) (r : R) : zpk := mkZpk (gain2 n r) (mk_fp [] (tab (n / 2) (zero2 n))) (sym_poly n (pole2 n (eps2 r))).
Lemma zero2_model n m : 0 < n -> Chebyshev2Zero m n = zero2 n m.
Proof. intros H. unfold Chebyshev2Zero, zero2, cnode. do 4 f_equal. unfold alpha. rewrite (mult_IZR 2 n). field. apply not_0_IZR. lia. Qed.
Lemma cheb2_ok n r : 0 < n -> Chebyshev2 n r = Ok (cheb2_sys n r).
Proof.
  intros H. unfold Chebyshev2. fold (eps2 r). destruct (sym_fill n (fun i => Chebyshev2Pole i n (eps2 r)) ltac:(lia)) as (p & -> & Np & Nr & Ec & Er). cbn [bind].
  destruct (resize_spec empty_fp 0 (n / 2) 0 C0 fp_wf_empty ltac:(lia) ltac:(lia) ltac:(now right)) as (q & E & W & Q1 & Q2 & Q3 & Q4).
  rewrite E. cbn [bind]. rewrite Ec. cbn [bind]. rewrite Er. cbn [bind]. rewrite Q2. rewrite (fill_all (fun i => Chebyshev2Zero i n)) by (rewrite lenZ_complex_pairs by exact W; exact Q2). cbn [bind].
  unfold cheb2_sys, sym_poly. do 2 f_equal.
  - rewrite Q3. change (vresize (real_roots empty_fp) 0 0%R) with (@nil R). f_equal. apply tab_ext. intros i Hi. now apply zero2_model.
  - f_equal; apply tab_ext; intros i Hi; unfold Chebyshev2Pole, pole2; now rewrite pole1_qpt by lia.
Qed.
Lemma cpole_neq0 n e m : (0 < e)%R -> 0 <= m < n -> cpole n e m <> C0.
Proof. intros He Hm X. pose proof (cpole_left n e m He Hm) as L. rewrite X in L. cbn in L. lra. Qed.
Lemma Cdiv_conj a b : b <> C0 -> Cconj (Cdiv a b) = Cdiv (Cconj a) (Cconj b).
Proof.
  intros H. assert (H' : Cconj b <> C0) by (intros X; apply H; rewrite <- (Cconj_conj b), X; cring). apply (Cmul_cancel (Cconj b)); [exact H'|].
  transitivity (Cconj (Cmul b (Cdiv a b))); [cring|]. replace (Cmul b (Cdiv a b)) with a by (field; exact H). field. exact H'.
Qed.
Lemma pole2_conj n e m : (0 < e)%R -> 0 <= m < n -> pole2 n e (n - 1 - m) = Cconj (pole2 n e m).
Proof. intros He Hm. unfold pole2. rewrite cpole_conj by lia. rewrite Cdiv_conj by (apply cpole_neq0; assumption). f_equal. cring. Qed.
Lemma pole2_left n e m : (0 < e)%R -> 0 <= m < n -> (re (pole2 n e m) < 0)%R.
Proof.
  intros He Hm. pose proof (cpole_left n e m He Hm) as L. pose proof (cpole_neq0 n e m He Hm) as N. apply C_neq0 in N. pose proof (Cnorm2_ge0 (cpole n e m)) as G.
  unfold pole2, Cdiv, Cinv, Cmul, C1. cbn [re im]. set (p := cpole n e m) in *. assert (Q : (re p / Cnorm2 p < 0)%R). { unfold Rdiv. assert (0 < / Cnorm2 p)%R by (apply Rinv_0_lt_compat; lra). nra. } lra.
Qed.
Lemma cden_neq0 c : c <> 0%R -> Cmul (Copp Ci) (RtoC c) <> C0.
Proof. intros H X. apply (f_equal im) in X. unfold Cmul, Copp, Ci, RtoC in X. cbn [re im] in X. apply H. cbn in X. lra. Qed.
Lemma zero2_conj n m : 0 <= m < n / 2 -> zero2 n (n - 1 - m) = Cconj (zero2 n m).
Proof.
  intros H. unfold zero2. rewrite cnode_mirror by lia. rewrite Cdiv_conj by (apply cden_neq0; pose proof (cnode_pos n m H); lra). f_equal; cring.
Qed.
Lemma zero2_axis n m : re (zero2 n m) = 0%R.
Proof. unfold zero2, Cdiv, Cinv, Cmul, Copp, Ci, C1, RtoC. cbn [re im]. unfold Rdiv. ring. Qed.
Lemma cheb2_poles n r : 0 < n -> (0 < r < 1)%R -> Permutation (all_roots (poles (cheb2_sys n r))) (tab n (pole2 n (eps2 r))).
Proof. intros H Hr. apply sym_roots; [exact H|]. intros i Hi. apply pole2_conj; [apply eps2_sq; lra|lia]. Qed.
Lemma cheb2_zeros n r : 0 < n -> Permutation (all_roots (zeros (cheb2_sys n r))) (map (fun c => Cdiv C1 (Cmul (Copp Ci) (RtoC c))) (cnodes n)).
Proof.
  intros H. unfold cnodes. rewrite map_app, !map_tab. exact (pair_roots n (zero2 n) H (fun i Hi => zero2_conj n i Hi)).
Qed.
Lemma cheb2_left n r p : 0 < n -> (0 < r < 1)%R -> In p (all_roots (poles (cheb2_sys n r))) -> (re p < 0)%R.
Proof. intros H Hr Hp. apply (Permutation_in _ (cheb2_poles n r H Hr)) in Hp. apply In_tab in Hp as (i & Hi & ->). apply pole2_left; [apply eps2_sq; lra|lia]. Qed.
Lemma cnodes_len n : 0 < n -> length (cnodes n) = Z.to_nat (2 * (n / 2)).
Proof. intros H. unfold cnodes. rewrite app_length. pose proof (lenZ_tab (n / 2) (cnode n)) as A. pose proof (lenZ_tab (n / 2) (fun j => cnode n (n / 2 + n mod 2 + j))) as B. unfold lenZ in *. lia. Qed.
(** squared magnitudes on the imaginary axis *)
Lemma zeros_mag n r w : 0 < n -> w <> 0%R -> (Cnorm2 (pnode (all_roots (zeros (cheb2_sys n r))) (mkC 0 w)) * Bp n 0 = (w ^ 2) ^ Z.to_nat (2 * (n / 2)) * Bp n (1 / w))%R.
Proof.
  intros H Hw. rewrite (pnode_perm _ _ _ (cheb2_zeros n r H)), pnode_norm, prodR_map. unfold Bp. rewrite <- cnodes_len by exact H. rewrite <- prodR_const, <- !prodR_mul. apply prodR_ext. intros c Hc.
  pose proof (cnode_neq0 n c H Hc) as C0'. replace (Csub (mkC 0 w) (Cdiv C1 (Cmul (Copp Ci) (RtoC c)))) with (mkC 0 (w - 1 / c)).
  - unfold Cnorm2. cbn [re im]. field. split; assumption.
  - unfold Csub, Cdiv, Cinv, Cmul, Copp, Ci, C1, RtoC, Cadd, Cnorm2. cbn [re im]. f_equal; field; assumption.
Qed.
Lemma zeros_mag0 n r : 0 < n -> (Cnorm2 (pnode (all_roots (zeros (cheb2_sys n r))) (mkC 0 0)) * Bp n 0 = 1)%R.
Proof.
  intros H. rewrite (pnode_perm _ _ _ (cheb2_zeros n r H)), pnode_norm, prodR_map. unfold Bp. rewrite <- prodR_mul. transitivity (prodR (fun _ => 1%R) (cnodes n)); [|rewrite prodR_const; apply pow1].
  apply prodR_ext. intros c Hc. pose proof (cnode_neq0 n c H Hc) as C0'. replace (Csub (mkC 0 0) (Cdiv C1 (Cmul (Copp Ci) (RtoC c)))) with (mkC 0 (- (1 / c))).
  - unfold Cnorm2. cbn [re im]. field. assumption.
  - unfold Csub, Cdiv, Cinv, Cmul, Copp, Ci, C1, RtoC, Cadd, Cnorm2. cbn [re im]. f_equal; field; assumption.
Qed.
Definition Ap (n : Z) (e x : R) : R := Cnorm2 (pnode (tab n (qpt n (beta n e))) (RtoC x)).
Lemma Ap_value n e x : 0 < n -> (Ap n e x * 4 ^ Z.to_nat n = 4 * (chebT (Z.to_nat n) x ^ 2 + (1 / e) ^ 2))%R.
Proof. intros H. unfold Ap. rewrite cheb_product by exact H. rewrite sinh_beta by exact H. reflexivity. Qed.
Lemma poles_mag n e w : 0 < n -> (0 < e)%R -> w <> 0%R -> (Cnorm2 (pnode (tab n (pole2 n e)) (mkC 0 w)) * Ap n e 0 = (w ^ 2) ^ Z.to_nat n * Ap n e (- (1 / w)))%R.
Proof.
  intros H He Hw. unfold Ap. rewrite !pnode_norm, (prodR_tab _ n (pole2 n e)), !(prodR_tab _ n (qpt n (beta n e))).
  replace (Z.to_nat n) with (length (tab n (fun i => i))) by (pose proof (lenZ_tab n (fun i => i)) as Q; unfold lenZ in Q; lia). rewrite <- prodR_const, <- !prodR_mul. apply prodR_ext. intros i Hi. apply In_tab in Hi as (j & Hj & ->).
  pose proof (cpole_neq0 n e j He Hj) as N. assert (E : Csub (mkC 0 w) (pole2 n e j) = Cdiv (Csub (Cmul (mkC 0 w) (cpole n e j)) C1) (cpole n e j)) by (unfold pole2; field; exact N).
  rewrite E, norm_div by exact N. apply C_neq0 in N. unfold cpole in *. set (q := qpt n (beta n e) j) in *.
  assert (Eq : Cnorm2 (Csub (RtoC 0) q) = Cnorm2 (Cmul Ci q)) by (unfold Cnorm2, Ci, Csub, Cmul, RtoC, Copp, Cadd; cbn [re im]; ring). rewrite Eq.
  assert (En : Cnorm2 (Csub (Cmul (mkC 0 w) (Cmul Ci q)) C1) = (w ^ 2 * Cnorm2 (Csub (RtoC (- (1 / w))) q))%R) by (unfold Cnorm2, Ci, Csub, Cmul, RtoC, Copp, Cadd, C1; cbn [re im]; field; assumption).
  rewrite En. field. exact N.
Qed.
Lemma poles_mag0 n e : 0 < n -> (0 < e)%R -> (Cnorm2 (pnode (tab n (pole2 n e)) (mkC 0 0)) * Ap n e 0 = 1)%R.
Proof.
  intros H He. unfold Ap. rewrite !pnode_norm, (prodR_tab _ n (pole2 n e)), !(prodR_tab _ n (qpt n (beta n e))). rewrite <- !prodR_mul. transitivity (prodR (fun _ : Z => 1%R) (tab n (fun i => i))); [|rewrite prodR_const; apply pow1].
  apply prodR_ext. intros i Hi. apply In_tab in Hi as (j & Hj & ->).
  pose proof (cpole_neq0 n e j He Hj) as N. assert (E : Csub (mkC 0 0) (pole2 n e j) = Cdiv (Copp C1) (cpole n e j)) by (unfold pole2; change (mkC 0 0) with C0; field; exact N).
  rewrite E, norm_div by exact N. apply C_neq0 in N. unfold cpole in *. set (q := qpt n (beta n e) j) in *.
  assert (Eq : Cnorm2 (Csub (RtoC 0) q) = Cnorm2 (Cmul Ci q)) by (unfold Cnorm2, Ci, Csub, Cmul, RtoC, Copp, Cadd; cbn [re im]; ring). rewrite Eq.
  replace (Cnorm2 (Copp C1)) with 1%R by (unfold Cnorm2, Copp, C1; cbn [re im]; ring). field. exact N.
Qed.
(** the gain normalises the response at zero frequency *)
Lemma gain2_dc n r : 0 < n -> (0 < r < 1)%R -> (gain2 n r ^ 2 * Ap n (eps2 r) 0 = Bp n 0)%R.
Proof.
  intros H Hr. destruct (eps2_sq r Hr) as [E0 E2]. pose proof (Ap_value n (eps2 r) 0 H) as A. pose proof (Bp0 n H) as B. assert (P4 : (0 < 4 ^ Z.to_nat n)%R) by (apply pow_lt; lra).
  apply (Rmult_eq_reg_r (4 ^ Z.to_nat n)); [|lra]. rewrite B, Rmult_assoc, A. unfold gain2. set (e := eps2 r) in *. assert (I : ((1 / e) ^ 2 = (1 - r ^ 2) / r ^ 2)%R).
  { assert (r2 : (0 < 1 - r ^ 2)%R) by nra. transitivity (1 / e ^ 2)%R; [field; lra|]. rewrite E2. field. split; [lra|nra]. }
  assert (n mod 2 = 0 \/ n mod 2 = 1) as [E|E] by lia; rewrite E; cbn [Z.eqb].
  - rewrite (T0_even n H E), I. field. lra.
  - rewrite (T0_odd n H E). field. lra.
Qed.
(** response: zero frequency has gain one; otherwise e^2 T^2 / (1 + e^2 T^2) with T = T_n(1/w), e^2 = r^2/(1-r^2) *)
Definition cheb2_power (n : Z) (r w : R) : R := (if Req_EM_T w 0 then 1 else let t := r ^ 2 / (1 - r ^ 2) * chebT (Z.to_nat n) (1 / w) ^ 2 in t / (1 + t))%R.
Lemma pos_neq n e x : 0 < n -> (0 < e)%R -> (0 < Ap n e x)%R.
Proof.
  intros H He. pose proof (Ap_value n e x H) as A. assert (P4 : (0 < 4 ^ Z.to_nat n)%R) by (apply pow_lt; lra). apply (Rmult_lt_reg_r (4 ^ Z.to_nat n)); [exact P4|]. rewrite A.
  pose proof (pow2_ge_0 (chebT (Z.to_nat n) x)). assert (0 < (1 / e) ^ 2)%R by (apply pow_lt, Rdiv_lt_0_compat; lra). lra.
Qed.
Lemma cheb2_response n r w : 0 < n -> (0 < r < 1)%R -> Cnorm2 (transfer_at (cheb2_sys n r) (mkC 0 w)) = cheb2_power n r w.
Proof.
  intros H Hr. destruct (eps2_sq r Hr) as [E0 E2]. unfold transfer_at. rewrite <- !pnode_vanishing. rewrite norm_div by (apply left_not_pole; intros p Hp; exact (cheb2_left n r p H Hr Hp)).
  rewrite Cnorm2_mul, norm_RtoC. rewrite (pnode_perm _ _ _ (cheb2_poles n r H Hr)). cbn [gain cheb2_sys]. fold (cheb2_sys n r).
  pose proof (gain2_dc n r H Hr) as D. pose proof (pos_neq n (eps2 r) 0 H E0) as A0. set (e := eps2 r) in *. set (g := gain2 n r) in *.
  assert (g0 : (0 < g)%R). { unfold g, gain2. destruct (n mod 2 =? 0); [lra|]. fold e. apply Rmult_lt_0_compat; [exact E0|now apply IZR_lt]. }
  assert (B0 : (0 < Bp n 0)%R) by (rewrite <- D; apply Rmult_lt_0_compat; [now apply pow_lt|exact A0]). unfold cheb2_power. destruct (Req_EM_T w 0) as [->|Hw].
  - pose proof (zeros_mag0 n r H) as Z0. pose proof (poles_mag0 n e H E0) as P0. set (zz := Cnorm2 (pnode (all_roots (zeros (cheb2_sys n r))) (mkC 0 0))) in *. set (pp := Cnorm2 (pnode (tab n (pole2 n e)) (mkC 0 0))) in *.
    assert (pp <> 0)%R by nra. assert (Ep : pp = (1 / Ap n e 0)%R) by (apply (Rmult_eq_reg_r (Ap n e 0)); [rewrite P0; field|]; lra). assert (Ez : zz = (1 / Bp n 0)%R) by (apply (Rmult_eq_reg_r (Bp n 0)); [rewrite Z0; field|]; lra).
    rewrite Ep, Ez, <- D. field. split; lra.
  - pose proof (zeros_mag n r w H Hw) as Z0. pose proof (poles_mag n e w H E0 Hw) as P0. pose proof (pos_neq n e (- (1 / w)) H E0) as A1.
    set (zz := Cnorm2 (pnode (all_roots (zeros (cheb2_sys n r))) (mkC 0 w))) in *. set (pp := Cnorm2 (pnode (tab n (pole2 n e)) (mkC 0 w))) in *.
    assert (w2 : (0 < w ^ 2)%R) by (rewrite <- Rsqr_pow2; now apply Rsqr_pos_lt). assert (wn : (0 < (w ^ 2) ^ Z.to_nat n)%R) by now apply pow_lt.
    assert (Ep : pp = ((w ^ 2) ^ Z.to_nat n * Ap n e (- (1 / w)) / Ap n e 0)%R) by (apply (Rmult_eq_reg_r (Ap n e 0)); [rewrite P0; field|]; lra).
    assert (Ez : zz = ((w ^ 2) ^ Z.to_nat (2 * (n / 2)) * Bp n (1 / w) / Bp n 0)%R) by (apply (Rmult_eq_reg_r (Bp n 0)); [rewrite Z0; field|]; lra).
    pose proof (B_value n (1 / w) H) as Bv. pose proof (Ap_value n e (- (1 / w)) H) as Av. rewrite chebT_neg_sq in Av. set (T := chebT (Z.to_nat n) (1 / w)) in *. set (F := (4 ^ Z.to_nat n)%R) in *. assert (F0 : (0 < F)%R) by (unfold F; apply pow_lt; lra).
    assert (Bw : ((w ^ 2) ^ Z.to_nat (2 * (n / 2)) * Bp n (1 / w) = (w ^ 2) ^ Z.to_nat n * (4 * T ^ 2 / F))%R).
    { assert (n mod 2 = 0 \/ n mod 2 = 1) as [E|E] by lia; rewrite E in Bv; cbn [Z.eqb] in Bv.
      - replace (2 * (n / 2)) with n by lia. f_equal. apply (Rmult_eq_reg_r F); [|lra]. transitivity (Bp n (1 / w) * 1 * F)%R; [ring|]. rewrite Bv. field. lra.
      - replace (Z.to_nat n) with (S (Z.to_nat (2 * (n / 2)))) by lia. cbn [pow]. apply (Rmult_eq_reg_r F); [|lra]. set (ww := ((w * (w * 1)) ^ Z.to_nat (2 * (n / 2)))%R). 
        transitivity (ww * (w ^ 2) * (Bp n (1 / w) * (1 / w) ^ 2 * F))%R; [field; exact Hw|]. rewrite Bv. field. lra. }
    rewrite Ez, Bw, Ep, <- D. rewrite <- E2. assert (Aw : Ap n e (- (1 / w)) = (4 * (T ^ 2 + (1 / e) ^ 2) / F)%R) by (apply (Rmult_eq_reg_r F); [rewrite Av; field|]; lra). rewrite Aw. cbn zeta. field.
    pose proof (pow2_ge_0 T). pose proof (pow2_ge_0 (e * T)). replace (e ^ 2 * T ^ 2)%R with ((e * T) ^ 2)%R in * by ring. replace (T ^ 2 * e ^ 2)%R with ((e * T) ^ 2)%R in * by ring. repeat split; lra.
Qed.
Lemma cheb2_halfband n r : 0 < n -> (0 < r < 1)%R -> exists hb, PrototypeChebyshev2 n r = Ok hb /\ halfband hb n (cheb2_power n r) (if n mod 2 =? 0 then r ^ 2 else 0)%R.
Proof.
  intros H Hr. unfold PrototypeChebyshev2. rewrite cheb2_ok by exact H. cbn [bind].
  assert (Np : num_roots (poles (cheb2_sys n r)) = n) by (apply sym_num; lia).
  assert (Nz : num_roots (zeros (cheb2_sys n r)) = 2 * (n / 2)) by (unfold num_roots, cheb2_sys, mk_fp; cbn [zeros nreal npairs]; rewrite lenZ_tab; change (lenZ (@nil R)) with 0; lia).
  destruct (proto_general (cheb2_sys n r) n (cheb2_power n r)) as (hb & E & Hb); [lia| | | | | | |].
  - split; [apply mk_fp_wf|apply sym_wf].
  - exact Np.
  - lia.
  - intros p Hp. exact (cheb2_left n r p H Hr Hp).
  - intros p Hp. apply (Permutation_in _ (cheb2_zeros n r H)) in Hp. apply in_map_iff in Hp as (c & <- & _). right. unfold Cdiv, Cinv, Cmul, Copp, Ci, C1, RtoC. cbn [re im]. unfold Rdiv. ring.
  - intros w. now apply cheb2_response.
  - exists hb. split; [exact E|]. unfold limit_power in Hb. rewrite Np, Nz in Hb. cbn [gain cheb2_sys] in Hb. unfold gain2 in Hb.
    assert (n mod 2 = 0 \/ n mod 2 = 1) as [Em|Em] by lia; rewrite Em in *; cbn [Z.eqb] in *; [replace (2 * (n / 2) =? n) with true in Hb by lia|replace (2 * (n / 2) =? n) with false in Hb by lia]; exact Hb.
Qed.
