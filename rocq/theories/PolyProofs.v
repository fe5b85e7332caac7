(** Proofs about PolyModel. *)
From Coq Require Import Reals Lra Permutation.
From Verif Require Import Base BaseFacts Complex KernelProofs ConvProofs IirModel PolyModel.
From Coq Require Import ZifyBool ZifyNat.
Ltac Zify.zify_post_hook ::= Z.div_mod_to_equations.
Open Scope Z_scope.

Lemma Reqb_spec a b : Bool.reflect (a = b) (Reqb a b).
Proof. unfold Reqb. destruct (Req_EM_T a b); now constructor. Qed.
Lemma Rltb_spec a b : Bool.reflect (a < b)%R (Rltb a b).
Proof. unfold Rltb. destruct (Rlt_dec a b); now constructor. Qed.
Lemma Ceqb_spec a b : Bool.reflect (a = b) (Ceqb a b).
Proof.
  unfold Ceqb. destruct (Reqb_spec (re a) (re b)); cbn [andb]; [|constructor; congruence].
  destruct (Reqb_spec (im a) (im b)); constructor; [now apply C_ext|congruence].
Qed.

(** *** embeddings of the coefficients *)
Record is_emb {K : CRing} (emb : R -> K) : Prop := {
  emb0 : emb 0%R = r0; emb1 : emb 1%R = r1;
  embadd : forall a b, emb (a + b)%R = radd (emb a) (emb b);
  embmul : forall a b, emb (a * b)%R = rmul (emb a) (emb b) }.
Lemma emb_id : is_emb (K := Rring) (fun r => r).
Proof. constructor; reflexivity. Qed.
Lemma emb_RtoC : is_emb (K := Cring) RtoC.
Proof. constructor; intros; cring. Qed.

Section Emb.
Context {K : CRing} (emb : R -> K) (He : is_emb emb).
Add Ring KR : (rth K).
Lemma embopp a : emb (- a)%R = ropp (emb a).
Proof.
  assert (H : radd (emb (- a)%R) (emb a) = r0) by (rewrite <- (embadd _ He), <- (emb0 _ He); f_equal; lra).
  transitivity (rsub (radd (emb (- a)%R) (emb a)) (emb a)); [ring|]. rewrite H. ring.
Qed.
Lemma emb2 : emb 2%R = radd r1 r1.
Proof. replace 2%R with (1 + 1)%R by lra. now rewrite (embadd _ He), (emb1 _ He). Qed.

(** value of the coefficient list at x *)
Definition pval (cs : list R) (x : K) : K := sumZ 0 (lenZ cs) (fun i => rmul (emb (at0 (K := Rring) cs i)) (rpow x (Z.to_nat i))).

Lemma poly_eval_cons c cs x : poly_eval emb (c :: cs) x = radd (rmul x (poly_eval emb cs x)) (emb c).
Proof. unfold poly_eval, poly_eval_with. cbn [rev]. now rewrite fold_left_app. Qed.
Lemma poly_eval_pval cs x : poly_eval emb cs x = pval cs x.
Proof.
  induction cs as [|c cs IH]; [reflexivity|]. rewrite poly_eval_cons, IH. unfold pval. rewrite lenZ_cons.
  pose proof (lenZ_nonneg cs). rewrite (sumZ_first 0 (lenZ cs + 1)) by lia. change (at0 (K := Rring) (c :: cs) 0) with c. cbn [Z.to_nat rpow].
  rewrite (sumZ_shift' (0 + 1) (lenZ cs + 1) 1). replace (0 + 1 - 1) with 0 by lia. replace (lenZ cs + 1 - 1) with (lenZ cs) by lia.
  rewrite <- sumZ_scale.
  rewrite (sumZ_ext 0 (lenZ cs) (fun i => rmul (emb (at0 (K := Rring) (c :: cs) (i + 1))) _) (fun i => rmul x (rmul (emb (at0 (K := Rring) cs i)) (rpow x (Z.to_nat i))))).
  { ring. }
  intros i Hi. rewrite at0_cons by lia. replace (i + 1 =? 0) with false by lia. replace (i + 1 - 1) with i by lia.
  replace (Z.to_nat (i + 1)) with (S (Z.to_nat i)) by lia. cbn [rpow]. ring.
Qed.

(** *** products *)
Definition prodK {A} (f : A -> K) (l : list A) : K := fold_right (fun a acc => rmul (f a) acc) r1 l.
Lemma fold_left_prod {A} (f : A -> K) l a0 : fold_left (fun acc a => rmul acc (f a)) l a0 = rmul a0 (prodK f l).
Proof. revert a0. induction l as [|a l IH]; intros a0; cbn [fold_left prodK fold_right]; [ring|]. rewrite IH. unfold prodK. ring. Qed.
Lemma prodK_app {A} (f : A -> K) l m : prodK f (l ++ m) = rmul (prodK f l) (prodK f m).
Proof. unfold prodK. induction l as [|a l IH]; cbn [app fold_right]; [ring|]. rewrite IH. ring. Qed.
Lemma prodK_perm {A} (f : A -> K) l m : Permutation l m -> prodK f l = prodK f m.
Proof. induction 1; cbn [prodK fold_right] in *; [reflexivity|now f_equal|unfold prodK; ring|congruence]. Qed.
Lemma prodK_ext {A} (f g : A -> K) l : (forall a, In a l -> f a = g a) -> prodK f l = prodK g l.
Proof. intros H. induction l as [|a l IH]; [reflexivity|]. cbn. rewrite H by now left. f_equal. apply IH. intros; apply H; now right. Qed.
Lemma prodK_mul {A} (f g : A -> K) l : prodK (fun a => rmul (f a) (g a)) l = rmul (prodK f l) (prodK g l).
Proof. unfold prodK. induction l as [|a l IH]; cbn [fold_right]; [ring|]. rewrite IH. ring. Qed.
Lemma prodK_map {A B} (f : B -> K) (g : A -> B) l : prodK f (map g l) = prodK (fun a => f (g a)) l.
Proof. unfold prodK. induction l as [|a l IH]; cbn; [reflexivity|]. now rewrite IH. Qed.

(** factors as polynomials in x *)
Definition lin_factor (x : K) (r : R) : K := rsub x (emb r).
Definition quad_factor (x : K) (c : C) : K :=
  radd (radd (rmul x x) (rmul (emb (-2 * re c)%R) x)) (emb (re c * re c + im c * im c)%R).
Lemma fp_eval_prod p x : fp_eval emb p x = rmul (prodK (lin_factor x) (real_roots p)) (prodK (quad_factor x) (complex_pairs p)).
Proof.
  unfold fp_eval. rewrite (fold_left_prod (lin_factor x)).
  rewrite (fold_left_prod (fun c => radd (radd (rsub (rmul x x) (rmul (emb (2 * re c)%R) x)) (emb (re c * re c)%R)) (emb (im c * im c)%R))).
  rewrite (prodK_ext _ (quad_factor x)); [ring|]. intros c _. unfold quad_factor.
  replace (-2 * re c)%R with (- (2 * re c))%R by lra. rewrite embopp, (embadd _ He). ring.
Qed.

(** *** in-place multiplication: the values *)
Lemma pval_mul1 (cs : list R) c0 x : at0 (K := Rring) cs (lenZ cs - 1) = 0%R ->
  pval (tab (lenZ cs) (fun k => at0 (K := Rring) cs (k - 1) + at0 (K := Rring) cs k * c0)%R) x = rmul (radd x (emb c0)) (pval cs x).
Proof.
  intros H. unfold pval. rewrite lenZ_tab. pose proof (lenZ_nonneg cs). rewrite Z.max_r by lia.
  rewrite (sumZ_ext 0 (lenZ cs) _ (fun i => radd (rmul (emb (at0 (K := Rring) cs (i - 1))) (rpow x (Z.to_nat i))) (rmul (emb c0) (rmul (emb (at0 (K := Rring) cs i)) (rpow x (Z.to_nat i)))))).
  2:{ intros i Hi. rewrite at0_tab by lia. rewrite (embadd _ He), (embmul _ He). ring. }
  rewrite sumZ_add, sumZ_scale.
  assert (E : sumZ 0 (lenZ cs) (fun i => rmul (emb (at0 (K := Rring) cs (i - 1))) (rpow x (Z.to_nat i))) = rmul x (sumZ 0 (lenZ cs) (fun i => rmul (emb (at0 (K := Rring) cs i)) (rpow x (Z.to_nat i))))).
  { rewrite <- sumZ_scale. rewrite (sumZ_restrict 0 (lenZ cs) (0 + 1) (lenZ cs + 1)).
    - rewrite sumZ_shift. apply sumZ_ext. intros i Hi. replace (i + 1 - 1) with i by lia. replace (Z.to_nat (i + 1)) with (S (Z.to_nat i)) by lia. cbn [rpow]. ring.
    - intros i Hi Ho. replace (i - 1) with (-1) by lia. rewrite (at0_out cs) by lia. change (@r0 Rring) with 0%R. rewrite (emb0 _ He). ring.
    - intros i Hi Ho. replace (i - 1) with (lenZ cs - 1) by lia. rewrite H, (emb0 _ He). ring. }
  rewrite E. ring.
Qed.
Lemma pval_mul2 (cs : list R) c0 c1 x : at0 (K := Rring) cs (lenZ cs - 1) = 0%R -> at0 (K := Rring) cs (lenZ cs - 2) = 0%R ->
  pval (tab (lenZ cs) (fun k => at0 (K := Rring) cs (k - 2) + at0 (K := Rring) cs (k - 1) * c1 + at0 (K := Rring) cs k * c0)%R) x =
  rmul (radd (radd (rmul x x) (rmul (emb c1) x)) (emb c0)) (pval cs x).
Proof.
  intros H H'. unfold pval. rewrite lenZ_tab. pose proof (lenZ_nonneg cs). rewrite Z.max_r by lia.
  set (P := fun i => rmul (emb (at0 (K := Rring) cs i)) (rpow x (Z.to_nat i))).
  rewrite (sumZ_ext 0 (lenZ cs) _ (fun i => radd (radd (rmul (emb (at0 (K := Rring) cs (i - 2))) (rpow x (Z.to_nat i))) (rmul (emb c1) (rmul (emb (at0 (K := Rring) cs (i - 1))) (rpow x (Z.to_nat i))))) (rmul (emb c0) (P i)))).
  2:{ intros i Hi. rewrite at0_tab by lia. rewrite !(embadd _ He), !(embmul _ He). unfold P. ring. }
  rewrite !sumZ_add, !sumZ_scale.
  assert (E : sumZ 0 (lenZ cs) (fun i => rmul (emb (at0 (K := Rring) cs (i - 1))) (rpow x (Z.to_nat i))) = rmul x (sumZ 0 (lenZ cs) P)).
  { rewrite <- sumZ_scale. rewrite (sumZ_restrict 0 (lenZ cs) (0 + 1) (lenZ cs + 1)).
    - rewrite sumZ_shift. apply sumZ_ext. intros i Hi. replace (i + 1 - 1) with i by lia. replace (Z.to_nat (i + 1)) with (S (Z.to_nat i)) by lia. cbn [rpow]. unfold P. ring.
    - intros i Hi Ho. replace (i - 1) with (-1) by lia. rewrite (at0_out cs) by lia. change (@r0 Rring) with 0%R. rewrite (emb0 _ He). ring.
    - intros i Hi Ho. replace (i - 1) with (lenZ cs - 1) by lia. rewrite H, (emb0 _ He). ring. }
  assert (E' : sumZ 0 (lenZ cs) (fun i => rmul (emb (at0 (K := Rring) cs (i - 2))) (rpow x (Z.to_nat i))) = rmul (rmul x x) (sumZ 0 (lenZ cs) P)).
  { rewrite <- sumZ_scale. rewrite (sumZ_restrict 0 (lenZ cs) (0 + 2) (lenZ cs + 2)).
    - rewrite sumZ_shift. apply sumZ_ext. intros i Hi. replace (i + 2 - 2) with i by lia. replace (Z.to_nat (i + 2)) with (S (S (Z.to_nat i))) by lia. cbn [rpow]. unfold P. ring.
    - intros i Hi Ho. rewrite (at0_out cs) by lia. change (@r0 Rring) with 0%R. rewrite (emb0 _ He). ring.
    - intros i Hi Ho. assert (E0 : i - 2 = lenZ cs - 1 \/ i - 2 = lenZ cs - 2) by lia. destruct E0 as [-> | ->]; [rewrite H|rewrite H']; rewrite (emb0 _ He); ring. }
  rewrite E, E'. ring.
Qed.
End Emb.

(** *** in-place multiplication: the coefficients *)
Section Mul.
Context {K : CRing}.
Add Ring KR2 : (rth K).
Lemma rmul0l (a : K) : rmul r0 a = r0. Proof. ring. Qed.
Lemma mul1_spec (cs : list K) c0 :
  MultiplyPolynomialBy1stOrder cs c0 = Ok (tab (lenZ cs) (fun k => radd (at0 cs (k - 1)) (rmul (at0 cs k) c0))).
Proof.
  unfold MultiplyPolynomialBy1stOrder. apply okP_eq. pose proof (lenZ_nonneg cs) as Hl. set (n := lenZ cs) in *.
  eapply okP_imp.
  { apply (for1_inv' (fun j t => lenZ t = n /\ (forall k, 0 <= k < n - j -> at0 t k = at0 cs k) /\
      (forall k, n - j <= k < n -> at0 t k = radd (at0 cs (k - 1)) (rmul (at0 cs k) c0)))).
    - split; [reflexivity|]. split; [reflexivity|intros; lia].
    - intros j t Hj (L & A & B). cbn zeta.
      assert (E : (if n - 1 - j - 1 <? 0 then Ok r0 else rd t (n - 1 - j - 1)) = Ok (at0 cs (n - 1 - j - 1))).
      { destruct (Z.ltb_spec (n - 1 - j - 1) 0); [now rewrite at0_out by lia|]. rewrite rd_at0 by lia. now rewrite A by lia. }
      rewrite E. cbn [bind]. rewrite rd_at0 by lia. cbn [bind]. rewrite wr_ok by lia. apply okP_ret.
      split; [rewrite lenZ_updZ; lia|]. split; intros k Hk; rewrite at0_updZ by lia; destruct (Z.eqb_spec k (n - 1 - j)) as [->|]; try lia.
      + apply A. lia.
      + now rewrite (A (n - 1 - j)) by lia.
      + apply B. lia. }
  cbn beta. intros t (L & _ & B). apply at0_ext; [rewrite lenZ_tab; lia|]. rewrite L. intros k Hk. rewrite at0_tab by lia. apply B. lia.
Qed.
Lemma mul2_spec (cs : list K) c0 c1 :
  MultiplyPolynomialBy2ndOrder cs c0 c1 = Ok (tab (lenZ cs) (fun k => radd (radd (at0 cs (k - 2)) (rmul (at0 cs (k - 1)) c1)) (rmul (at0 cs k) c0))).
Proof.
  unfold MultiplyPolynomialBy2ndOrder. apply okP_eq. pose proof (lenZ_nonneg cs) as Hl. set (n := lenZ cs) in *.
  eapply okP_imp.
  { apply (for1_inv' (fun j t => lenZ t = n /\ (forall k, 0 <= k < n - j -> at0 t k = at0 cs k) /\
      (forall k, n - j <= k < n -> at0 t k = radd (radd (at0 cs (k - 2)) (rmul (at0 cs (k - 1)) c1)) (rmul (at0 cs k) c0)))).
    - split; [reflexivity|]. split; [reflexivity|intros; lia].
    - intros j t Hj (L & A & B). cbn zeta.
      assert (E : forall d, 0 < d -> (if n - 1 - j - d <? 0 then Ok r0 else rd t (n - 1 - j - d)) = Ok (at0 cs (n - 1 - j - d))).
      { intros d Hd. destruct (Z.ltb_spec (n - 1 - j - d) 0); [now rewrite at0_out by lia|]. rewrite rd_at0 by lia. now rewrite A by lia. }
      rewrite !E by lia. cbn [bind]. rewrite rd_at0 by lia. cbn [bind]. rewrite wr_ok by lia. apply okP_ret.
      split; [rewrite lenZ_updZ; lia|]. split; intros k Hk; rewrite at0_updZ by lia; destruct (Z.eqb_spec k (n - 1 - j)) as [->|]; try lia.
      + apply A. lia.
      + now rewrite (A (n - 1 - j)) by lia.
      + apply B. lia. }
  cbn beta. intros t (L & _ & B). apply at0_ext; [rewrite lenZ_tab; lia|]. rewrite L. intros k Hk. rewrite at0_tab by lia. apply B. lia.
Qed.
End Mul.

(** *** expansion *)
Notation atR := (at0 (K := Rring)).
(** a monic coefficient list of degree [d] in an array of [n] *)
Definition monic_in (cs : list R) (n d : Z) : Prop :=
  lenZ cs = n /\ atR cs d = 1%R /\ forall k, d < k -> atR cs k = 0%R.

Lemma mul1_R (cs : list R) c0 : MultiplyPolynomialBy1stOrder (K := Rring) cs c0 = Ok (tab (lenZ cs) (fun k => (atR cs (k - 1) + atR cs k * c0)%R)).
Proof. exact (mul1_spec (K := Rring) cs c0). Qed.
Lemma mul2_R (cs : list R) c0 c1 : MultiplyPolynomialBy2ndOrder (K := Rring) cs c0 c1 = Ok (tab (lenZ cs) (fun k => (atR cs (k - 2) + atR cs (k - 1) * c1 + atR cs k * c0)%R)).
Proof. exact (mul2_spec (K := Rring) cs c0 c1). Qed.
Lemma atR_tab' n (F : Z -> R) k : 0 <= k < n -> atR (tab n F) k = F k.
Proof. exact (at0_tab (K := Rring) n F k). Qed.
Lemma atR_tab_gen n (F : Z -> R) k : atR (tab n F) k = if (0 <=? k) && (k <? n) then F k else 0%R.
Proof. exact (at0_tab_gen (K := Rring) n F k). Qed.
Lemma expand_reals n rs : forall cs d, monic_in cs n d -> 0 <= d -> d + lenZ rs < n ->
  okP (foldM (fun root cs => MultiplyPolynomialBy1stOrder (K := Rring) cs (- root)%R) rs cs) (fun cs' =>
    monic_in cs' n (d + lenZ rs) /\
    forall (K : CRing) (emb : R -> K), is_emb emb -> forall x, pval emb cs' x = rmul (prodK (lin_factor emb x) rs) (pval emb cs x)).
Proof.
  induction rs as [|r rs IH]; intros cs d (L & M & Z0) Hd Hn; cbn [foldM].
  - apply okP_ret. split; [rewrite lenZ_nil, Z.add_0_r; repeat split; assumption|]. intros K emb He x. cbn [prodK fold_right]. symmetry. apply (Rmul_1_l (rth K)).
  - rewrite lenZ_cons in Hn. pose proof (lenZ_nonneg rs). rewrite mul1_R. cbn [bind].
    match goal with |- okP (foldM _ rs ?t) _ => set (cs1 := t) end.
    assert (M1 : monic_in cs1 n (d + 1)).
    { unfold cs1. split; [rewrite lenZ_tab; lia|]. split.
      - rewrite atR_tab' by lia. replace (d + 1 - 1) with d by lia. rewrite M, (Z0 (d + 1)) by lia. cbn [car Rring]. ring.
      - intros k Hk. rewrite atR_tab_gen. destruct ((0 <=? k) && (k <? lenZ cs)); [|reflexivity]. rewrite !Z0 by lia. cbn [car Rring]. ring. }
    eapply okP_imp; [apply (IH cs1 (d + 1) M1); lia|]. cbn beta. intros cs' [M2 V]. split.
    + rewrite lenZ_cons. now replace (d + (lenZ rs + 1)) with (d + 1 + lenZ rs) by lia.
    + intros K emb He x. rewrite (V K emb He x). unfold cs1.
      pose proof (pval_mul1 emb He cs (- r)%R x) as P.  rewrite P by (apply Z0; lia).
      cbn [prodK fold_right]. unfold lin_factor at 2. rewrite (embopp emb He).
      pose proof (rth K) as RT. rewrite (Rsub_def RT).
      rewrite (Rmul_assoc RT). rewrite (Rmul_comm RT (prodK _ _)). reflexivity.
Qed.
Lemma expand_pairs n rs : forall cs d, monic_in cs n d -> 0 <= d -> d + 2 * lenZ rs < n ->
  okP (foldM (fun root cs => MultiplyPolynomialBy2ndOrder (K := Rring) cs (re root * re root + im root * im root)%R (-2 * re root)%R) rs cs) (fun cs' =>
    monic_in cs' n (d + 2 * lenZ rs) /\
    forall (K : CRing) (emb : R -> K), is_emb emb -> forall x, pval emb cs' x = rmul (prodK (quad_factor emb x) rs) (pval emb cs x)).
Proof.
  induction rs as [|r rs IH]; intros cs d (L & M & Z0) Hd Hn; cbn [foldM].
  - apply okP_ret. split; [rewrite (@lenZ_nil C), Z.mul_0_r, Z.add_0_r; repeat split; assumption|]. intros K emb He x. cbn [prodK fold_right]. symmetry. apply (Rmul_1_l (rth K)).
  - rewrite lenZ_cons in Hn. pose proof (lenZ_nonneg rs). rewrite mul2_R. cbn [bind].
    match goal with |- okP (foldM _ rs ?t) _ => set (cs1 := t) end.
    assert (M1 : monic_in cs1 n (d + 2)).
    { unfold cs1. split; [rewrite lenZ_tab; lia|]. split.
      - rewrite atR_tab' by lia. replace (d + 2 - 2) with d by lia. rewrite M, !Z0 by lia. cbn [car Rring]. ring.
      - intros k Hk. rewrite atR_tab_gen. destruct ((0 <=? k) && (k <? lenZ cs)); [|reflexivity]. rewrite !Z0 by lia. cbn [car Rring]. ring. }
    eapply okP_imp; [apply (IH cs1 (d + 2) M1); lia|]. cbn beta. intros cs' [M2 V]. split.
    + rewrite lenZ_cons. now replace (d + 2 * (lenZ rs + 1)) with (d + 2 + 2 * lenZ rs) by lia.
    + intros K emb He x. rewrite (V K emb He x). unfold cs1.
      pose proof (pval_mul2 emb He cs (re r * re r + im r * im r)%R (-2 * re r)%R x) as P. 
      rewrite P by (apply Z0; lia). cbn [prodK fold_right].
      pose proof (rth K) as RT. rewrite (Rmul_assoc RT). rewrite (Rmul_comm RT (prodK _ _)). reflexivity.
Qed.

Definition fp_wf (p : fp) : Prop := 0 <= nreal p /\ 0 <= npairs p /\ lenZ (mem p) = nreal p + 2 * npairs p.
Lemma lenZ_real_roots p : fp_wf p -> lenZ (real_roots p) = nreal p.
Proof. intros (H1 & H2 & H3). unfold real_roots. rewrite lenZ_firstn. lia. Qed.
Lemma lenZ_complex_pairs p : fp_wf p -> lenZ (complex_pairs p) = npairs p.
Proof. intros (H1 & H2 & H3). unfold complex_pairs. rewrite lenZ_tab. lia. Qed.

Lemma expand_spec p : fp_wf p -> okP (ExpandPolynomial p) (fun cs => monic_in cs (num_roots p + 1) (num_roots p) /\
  forall (K : CRing) (emb : R -> K), is_emb emb -> forall x, pval emb cs x = fp_eval emb p x).
Proof.
  intros W. pose proof W as (H1 & H2 & H3). unfold ExpandPolynomial. unfold num_roots in *.
  set (n := nreal p + 2 * npairs p + 1). set (z := repeat 0%R (Z.to_nat n)).
  assert (Lz : lenZ z = n) by (unfold z, n; rewrite lenZ_repeat; lia).
  rewrite wr_ok by lia. cbn [bind].
  assert (Az : forall k, atR z k = 0%R).
  { intros k. unfold z. destruct (Z_lt_ge_dec k 0); [apply at0_out; lia|].
    destruct (Z_lt_ge_dec k n); [|apply at0_out; rewrite lenZ_repeat; lia]. unfold at0. now rewrite nthZ_repeat by lia. }
  set (c0 := updZ z 0 1%R).
  assert (M0 : monic_in c0 n 0).
  { unfold c0. split; [rewrite lenZ_updZ; lia|]. split.
    - now rewrite (at0_updZ (K := Rring)) by (change (0 <= 0 < lenZ z); lia).
    - intros k Hk. rewrite (at0_updZ (K := Rring)) by (change (0 <= 0 < lenZ z); lia). replace (k =? 0) with false by lia. apply Az. }
  pose proof (lenZ_real_roots p W) as Lr. pose proof (lenZ_complex_pairs p W) as Lc.
  eapply okP_bind; [apply (expand_reals n (real_roots p) c0 0 M0); lia|]. cbn beta. intros c1 [M1 V1].
  eapply okP_imp; [apply (expand_pairs n (complex_pairs p) c1 _ M1); lia|]. cbn beta. intros c2 [M2 V2].
  split; [now replace (nreal p + 2 * npairs p) with (0 + lenZ (real_roots p) + 2 * lenZ (complex_pairs p)) by lia|].
  intros K emb He x. rewrite (V2 K emb He x), (V1 K emb He x), (fp_eval_prod emb He).
  assert (P0 : pval emb c0 x = r1).
  { unfold pval. destruct M0 as (L0 & A0 & B0). rewrite L0. rewrite (sumZ_single _ _ 0) by (try lia; intros i Hi Hne; rewrite B0 by lia; rewrite (emb0 _ He); apply rmul0l).
    rewrite A0, (emb1 _ He). cbn [Z.to_nat rpow]. apply (Rmul_1_l (rth K)). }
  rewrite P0. pose proof (rth K) as RT. rewrite (Rmul_comm RT (prodK _ (complex_pairs p))). f_equal.
  rewrite (Rmul_comm RT). apply (Rmul_1_l RT).
Qed.

(** *** the memory layout *)
Lemma rd_atR' (l : list R) i : 0 <= i < lenZ l -> rd l i = Ok (atR l i).
Proof. exact (rd_at0 (K := Rring) l i). Qed.
Lemma atR_updZ' (l : list R) i v j : 0 <= i < lenZ l -> atR (updZ l i v) j = if j =? i then v else atR l j.
Proof. exact (at0_updZ (K := Rring) l i v j). Qed.
Lemma nthZ_atR (l : list R) i : 0 <= i < lenZ l -> nthZ l i = Some (atR l i).
Proof. exact (nthZ_at0 (K := Rring) l i). Qed.
Lemma lenZ_flat cs : lenZ (flat cs) = 2 * lenZ cs.
Proof. induction cs as [|c cs IH]; [reflexivity|]. unfold flat in *. cbn [flat_map]. rewrite lenZ_app, IH, !lenZ_cons, lenZ_nil. lia. Qed.
Lemma atR_app (l m : list R) i : atR (l ++ m) i = if i <? lenZ l then atR l i else atR m (i - lenZ l).
Proof. exact (at0_app (K := Rring) l m i). Qed.
Lemma at_flat cs i c : 0 <= i -> nthZ cs i = Some c -> atR (flat cs) (2 * i) = re c /\ atR (flat cs) (2 * i + 1) = im c.
Proof.
  revert i. induction cs as [|a cs IH]; intros i Hi H.
  - apply nthZ_some in H. change (lenZ (@nil C)) with 0 in H. lia.
  - change (flat (a :: cs)) with ([re a; im a] ++ flat cs). rewrite !atR_app. change (lenZ [re a; im a]) with 2.
    destruct (Z.eq_dec i 0) as [->|].
    + cbn in H. injection H as ->. split; reflexivity.
    + rewrite nthZ_consS in H by lia. destruct (IH (i - 1) ltac:(lia) H) as [E1 E2].
      replace (2 * i <? 2) with false by lia. replace (2 * i + 1 <? 2) with false by lia.
      replace (2 * i - 2) with (2 * (i - 1)) by lia. replace (2 * i + 1 - 2) with (2 * (i - 1) + 1) by lia. auto.
Qed.
Lemma mk_fp_wf rs cs : fp_wf (mk_fp rs cs).
Proof. unfold fp_wf, mk_fp. cbn [nreal npairs mem]. rewrite lenZ_app, lenZ_flat. pose proof (lenZ_nonneg rs). pose proof (lenZ_nonneg cs). lia. Qed.
Lemma mk_fp_real rs cs : real_roots (mk_fp rs cs) = rs.
Proof.
  unfold real_roots, mk_fp. cbn [nreal mem]. unfold lenZ. rewrite Nat2Z.id, firstn_app, firstn_all.
  rewrite Nat.sub_diag. apply app_nil_r.
Qed.
Lemma mk_fp_pairs rs cs : complex_pairs (mk_fp rs cs) = cs.
Proof.
  unfold complex_pairs, mk_fp. cbn [nreal npairs mem]. symmetry. apply list_eq_tab; [pose proof (lenZ_nonneg cs); lia|]. intros i Hi.
  destruct (nthZ_in cs i Hi) as [c Hc]. rewrite Hc. f_equal. destruct (at_flat cs i c ltac:(lia) Hc) as [E1 E2].
  rewrite !atR_app. pose proof (lenZ_nonneg rs).
  replace (lenZ rs + 2 * i <? lenZ rs) with false by lia. replace (lenZ rs + 2 * i + 1 <? lenZ rs) with false by lia.
  replace (lenZ rs + 2 * i - lenZ rs) with (2 * i) by lia. replace (lenZ rs + 2 * i + 1 - lenZ rs) with (2 * i + 1) by lia.
  rewrite E1, E2. now destruct c.
Qed.

Lemma lenZ_vresize {A} (l : list A) n v : 0 <= n -> lenZ (vresize l n v) = n.
Proof. intros. unfold vresize. rewrite lenZ_app, lenZ_firstn, lenZ_repeat. pose proof (lenZ_nonneg l). lia. Qed.
Lemma nthZ_vresize {A} (l : list A) n v i : 0 <= i < n -> nthZ (vresize l n v) i = if i <? lenZ l then nthZ l i else Some v.
Proof.
  intros H. unfold vresize. pose proof (lenZ_nonneg l). destruct (Z.ltb_spec i (lenZ l)).
  - rewrite nthZ_app1 by (rewrite lenZ_firstn; lia). apply nthZ_firstn. lia.
  - rewrite nthZ_app2 by (rewrite lenZ_firstn; lia). rewrite lenZ_firstn. apply nthZ_repeat. lia.
Qed.
Lemma atR_vresize (l : list R) n v i : 0 <= i < n -> atR (vresize l n v) i = if i <? lenZ l then atR l i else v.
Proof. intros H. unfold at0. change (car Rring) with R. rewrite (nthZ_vresize l n v i H). destruct (i <? lenZ l); reflexivity. Qed.

Lemma move_down_spec (m : list R) first last d : 0 <= d <= first -> first <= last <= lenZ m ->
  okP (move_down m first last d) (fun m' : list R => lenZ m' = lenZ m /\ forall k, atR m' k = if (d <=? k) && (k <? d + (last - first)) then atR m (k - d + first) else atR m k).
Proof.
  intros H1 H2. unfold move_down. apply okP_assert; [lia|].
  eapply okP_imp.
  { apply (for1_inv' (fun j (t : list R) => lenZ t = lenZ m /\ forall k, atR t k = if (d <=? k) && (k <? d + j) then atR m (k - d + first) else atR m k)).
    - split; [reflexivity|]. intros k. now replace ((d <=? k) && (k <? d + 0)) with false by lia.
    - intros j t Hj (L & A). rewrite rd_atR' by lia. cbn [bind]. rewrite wr_ok by lia. apply okP_ret.
      split; [rewrite lenZ_updZ; lia|]. intros k. rewrite atR_updZ' by lia. destruct (Z.eqb_spec k (d + j)) as [->|].
      + replace ((d <=? d + j) && (d + j <? d + (j + 1))) with true by lia. rewrite A.
        replace ((d <=? first + j) && (first + j <? d + j)) with false by lia. f_equal. lia.
      + rewrite A. replace ((d <=? k) && (k <? d + (j + 1))) with ((d <=? k) && (k <? d + j)) by lia. reflexivity. }
  cbn beta. intros t (L & A). split; [exact L|]. intros k. rewrite A. now replace (Z.max 0 (last - first)) with (last - first) by lia.
Qed.
Lemma move_up_spec (m : list R) first last dl : 0 <= first -> first <= last <= dl -> dl <= lenZ m ->
  okP (move_up m first last dl) (fun m' : list R => lenZ m' = lenZ m /\ forall k, atR m' k = if (dl - (last - first) <=? k) && (k <? dl) then atR m (k - dl + last) else atR m k).
Proof.
  intros H0 H1 H2. unfold move_up. apply okP_assert; [lia|].
  eapply okP_imp.
  { apply (for1_inv' (fun j (t : list R) => lenZ t = lenZ m /\ forall k, atR t k = if (dl - j <=? k) && (k <? dl) then atR m (k - dl + last) else atR m k)).
    - split; [reflexivity|]. intros k. now replace ((dl - 0 <=? k) && (k <? dl)) with false by lia.
    - intros j t Hj (L & A). rewrite rd_atR' by lia. cbn [bind]. rewrite wr_ok by lia. apply okP_ret.
      split; [rewrite lenZ_updZ; lia|]. intros k. rewrite atR_updZ' by lia. destruct (Z.eqb_spec k (dl - 1 - j)) as [->|].
      + replace ((dl - (j + 1) <=? dl - 1 - j) && (dl - 1 - j <? dl)) with true by lia. rewrite A.
        replace ((dl - j <=? last - 1 - j) && (last - 1 - j <? dl)) with false by lia. f_equal. lia.
      + rewrite A. replace ((dl - (j + 1) <=? k) && (k <? dl)) with ((dl - j <=? k) && (k <? dl)) by lia. reflexivity. }
  cbn beta. intros t (L & A). split; [exact L|]. intros k. rewrite A. now replace (Z.max 0 (last - first)) with (last - first) by lia.
Qed.
Lemma fill_real_spec (m : list R) from to v : 0 <= from -> from <= to <= lenZ m ->
  okP (fill_real m from to v) (fun m' : list R => lenZ m' = lenZ m /\ forall k, atR m' k = if (from <=? k) && (k <? to) then v else atR m k).
Proof.
  intros H0 H1. unfold fill_real. eapply okP_imp.
  { apply (for1_inv' (fun j (t : list R) => lenZ t = lenZ m /\ forall k, atR t k = if (from <=? k) && (k <? j) then v else atR m k)).
    - split; [reflexivity|]. intros k. now replace ((from <=? k) && (k <? from)) with false by lia.
    - intros j t Hj (L & A). rewrite wr_ok by lia. apply okP_ret. split; [rewrite lenZ_updZ; lia|]. intros k. rewrite atR_updZ' by lia.
      destruct (Z.eqb_spec k j) as [->|].
      + now replace ((from <=? j) && (j <? j + 1)) with true by lia.
      + rewrite A. now replace ((from <=? k) && (k <? j + 1)) with ((from <=? k) && (k <? j)) by lia. }
  cbn beta. intros t (L & A). split; [exact L|]. intros k. rewrite A. now replace (Z.max from to) with to by lia.
Qed.
Lemma fill_pairs_spec (m : list R) nr from to v : 0 <= nr -> 0 <= from -> from <= to -> nr + 2 * to <= lenZ m ->
  okP (fill_pairs m nr from to v) (fun m' : list R => lenZ m' = lenZ m /\ forall k, atR m' k =
     if (nr + 2 * from <=? k) && (k <? nr + 2 * to) then (if (k - nr) mod 2 =? 0 then re v else im v) else atR m k).
Proof.
  intros H0 H1 H2 H3. unfold fill_pairs. eapply okP_imp.
  { apply (for1_inv' (fun j (t : list R) => lenZ t = lenZ m /\ forall k, atR t k = if (nr + 2 * from <=? k) && (k <? nr + 2 * j) then (if (k - nr) mod 2 =? 0 then re v else im v) else atR m k)).
    - split; [reflexivity|]. intros k. now replace ((nr + 2 * from <=? k) && (k <? nr + 2 * from)) with false by lia.
    - intros j t Hj (L & A). rewrite wr_ok by lia. cbn [bind]. rewrite wr_ok by (rewrite lenZ_updZ; lia). apply okP_ret.
      assert (L' : lenZ (updZ t (nr + 2 * j) (re v)) = lenZ t) by (apply lenZ_updZ; lia).
      split; [rewrite lenZ_updZ; lia|]. intros k. rewrite atR_updZ' by lia. rewrite atR_updZ' by lia.
      destruct (Z.eqb_spec k (nr + 2 * j + 1)) as [->|].
      { replace ((nr + 2 * from <=? nr + 2 * j + 1) && (nr + 2 * j + 1 <? nr + 2 * (j + 1))) with true by lia.
        now replace ((nr + 2 * j + 1 - nr) mod 2 =? 0) with false by lia. }
      destruct (Z.eqb_spec k (nr + 2 * j)) as [->|].
      { replace ((nr + 2 * from <=? nr + 2 * j) && (nr + 2 * j <? nr + 2 * (j + 1))) with true by lia.
        now replace ((nr + 2 * j - nr) mod 2 =? 0) with true by lia. }
      rewrite A. now replace ((nr + 2 * from <=? k) && (k <? nr + 2 * (j + 1))) with ((nr + 2 * from <=? k) && (k <? nr + 2 * j)) by lia. }
  cbn beta. intros t (L & A). split; [exact L|]. intros k. rewrite A. now replace (Z.max from to) with to by lia.
Qed.

(** the object whose memory holds the resized roots *)
Lemma layout_done (p : fp) nr np rv cv (m : list R) : fp_wf p -> 0 <= nr -> 0 <= np -> lenZ m = nr + 2 * np ->
  (forall i, 0 <= i < nr -> atR m i = if i <? nreal p then atR (mem p) i else rv) ->
  (forall j, 0 <= j < 2 * np -> atR m (nr + j) = if j <? 2 * npairs p then atR (mem p) (nreal p + j) else (if j mod 2 =? 0 then re cv else im cv)) ->
  let q := mkFp m nr np in fp_wf q /\ real_roots q = vresize (real_roots p) nr rv /\ complex_pairs q = vresize (complex_pairs p) np cv.
Proof.
  intros W Hr Hp L A B. pose proof W as (W1 & W2 & W3). cbn zeta. split; [|split].
  - repeat split; cbn [nreal npairs mem]; lia.
  - unfold real_roots at 1. cbn [nreal mem]. apply list_ext.
    { rewrite lenZ_vresize by lia. rewrite lenZ_firstn. lia. }
    rewrite lenZ_firstn. intros i Hi. rewrite nthZ_firstn by lia. rewrite nthZ_vresize by lia. rewrite lenZ_real_roots by exact W.
    rewrite nthZ_atR by lia. rewrite A by lia. destruct (Z.ltb_spec i (nreal p)); [|reflexivity].
    unfold real_roots. rewrite nthZ_firstn by lia. rewrite nthZ_atR by lia. reflexivity.
  - unfold complex_pairs at 1. cbn [npairs nreal mem]. symmetry. apply list_eq_tab; [rewrite lenZ_vresize; lia|]. intros i Hi.
    rewrite nthZ_vresize by lia. rewrite lenZ_complex_pairs by exact W.
    pose proof (B (2 * i) ltac:(lia)) as B1. pose proof (B (2 * i + 1) ltac:(lia)) as B2. rewrite !Z.add_assoc in B2. rewrite B1, B2.
    destruct (Z.ltb_spec i (npairs p)).
    + replace (2 * i <? 2 * npairs p) with true by lia. replace (2 * i + 1 <? 2 * npairs p) with true by lia.
      unfold complex_pairs. rewrite nthZ_tab by lia. reflexivity.
    + replace (2 * i <? 2 * npairs p) with false by lia. replace (2 * i + 1 <? 2 * npairs p) with false by lia.
      replace ((2 * i) mod 2 =? 0) with true by lia. replace ((2 * i + 1) mod 2 =? 0) with false by lia. now destruct cv.
Qed.

Lemma resize_spec p nr np rv cv : fp_wf p -> 0 <= nr -> 0 <= np -> nr <= nreal p \/ nreal p = 0 ->
  okP (fp_resize p nr np rv cv) (fun q => fp_wf q /\ nreal q = nr /\ npairs q = np /\
    real_roots q = vresize (real_roots p) nr rv /\ complex_pairs q = vresize (complex_pairs p) np cv).
Proof.
  intros W Hr Hp Hc. pose proof W as (W1 & W2 & W3). unfold fp_resize. set (n := nr + 2 * np).
  eapply (okP_bind _ _ (fun m : list R => lenZ m = lenZ (mem p) /\ (nr <= nreal p -> (forall k, 0 <= k < nr -> atR m k = atR (mem p) k) /\
     (forall j, 0 <= j < 2 * npairs p -> atR m (nr + j) = atR (mem p) (nreal p + j))) /\ (nreal p < nr -> m = mem p))).
  { destruct (Z.ltb_spec nr (nreal p)).
    - eapply okP_imp; [apply move_down_spec; lia|]. cbn beta. intros m (L & A). split; [exact L|]. split; [|lia]. intros _. split.
      + intros k Hk. rewrite A. now replace ((nr <=? k) && (k <? nr + (lenZ (mem p) - nreal p))) with false by lia.
      + intros j Hj. rewrite A. replace ((nr <=? nr + j) && (nr + j <? nr + (lenZ (mem p) - nreal p))) with true by lia. f_equal. lia.
    - apply okP_ret. split; [reflexivity|]. split; [|reflexivity]. intros Hle. assert (nr = nreal p) by lia. subst nr. auto. }
  cbn beta. intros m0 (L0 & A0 & E0). cbn zeta.
  set (m1 := vresize m0 n 0%R).
  assert (L1 : lenZ m1 = n) by (apply lenZ_vresize; unfold n; lia).
  eapply (okP_bind _ _ (fun m : list R => lenZ m = n /\ (forall k, 0 <= k < nr -> k < nreal p -> atR m k = atR (mem p) k) /\
     (forall j, 0 <= j < 2 * np -> j < 2 * npairs p -> atR m (nr + j) = atR (mem p) (nreal p + j)))).
  { destruct (Z.ltb_spec (nreal p) nr).
    - assert (Z0 : nreal p = 0) by lia. rewrite Z0. eapply okP_imp; [apply move_up_spec; unfold n in *; lia|]. cbn beta. intros m (L & A).
      split; [lia|]. split; [intros; lia|]. intros j Hj Hj'. rewrite A, L1. unfold n at 1 2 3 4.
      replace ((nr + 2 * np - (nr + 2 * np - nr - 0) <=? nr + j) && (nr + j <? nr + 2 * np)) with true by lia.
      unfold n. replace (nr + j - (nr + 2 * np) + (nr + 2 * np - nr)) with j by lia.
      unfold m1. rewrite atR_vresize by (unfold n; lia). rewrite (E0 ltac:(lia)). replace (j <? lenZ (mem p)) with true by lia. f_equal.
    - apply okP_ret. split; [exact L1|]. destruct (A0 ltac:(lia)) as [P Q]. split.
      + intros k Hk _. unfold m1. rewrite atR_vresize by (unfold n; lia). replace (k <? lenZ m0) with true by lia. now apply P.
      + intros j Hj Hj'. unfold m1. rewrite atR_vresize by (unfold n; lia). replace (nr + j <? lenZ m0) with true by lia. apply Q. lia. }
  cbn beta. intros m2 (L2 & A2 & B2).
  eapply (okP_bind _ _ (fun m : list R => lenZ m = n /\ (forall k, 0 <= k < nr -> atR m k = if k <? nreal p then atR (mem p) k else rv) /\
     (forall j, 0 <= j < 2 * np -> j < 2 * npairs p -> atR m (nr + j) = atR (mem p) (nreal p + j)))).
  { destruct (Z.ltb_spec (nreal p) nr).
    - eapply okP_imp; [apply fill_real_spec; unfold n in *; lia|]. cbn beta. intros m (L & A). split; [lia|]. split.
      + intros k Hk. rewrite A. destruct (Z.ltb_spec k (nreal p)).
        * replace ((nreal p <=? k) && (k <? nr)) with false by lia. apply A2; lia.
        * now replace ((nreal p <=? k) && (k <? nr)) with true by lia.
      + intros j Hj Hj'. rewrite A. replace ((nreal p <=? nr + j) && (nr + j <? nr)) with false by lia. now apply B2.
    - apply okP_ret. split; [exact L2|]. split; [|exact B2]. intros k Hk. replace (k <? nreal p) with true by lia. apply A2; lia. }
  cbn beta. intros m3 (L3 & A3 & B3).
  eapply (okP_bind _ _ (fun m : list R => lenZ m = n /\ (forall k, 0 <= k < nr -> atR m k = if k <? nreal p then atR (mem p) k else rv) /\
     (forall j, 0 <= j < 2 * np -> atR m (nr + j) = if j <? 2 * npairs p then atR (mem p) (nreal p + j) else (if j mod 2 =? 0 then re cv else im cv)))).
  { destruct (Z.ltb_spec (npairs p) np).
    - eapply okP_imp; [apply fill_pairs_spec; unfold n in *; lia|]. cbn beta. intros m (L & A). split; [lia|]. split.
      + intros k Hk. rewrite A. replace ((nr + 2 * npairs p <=? k) && (k <? nr + 2 * np)) with false by lia. now apply A3.
      + intros j Hj. rewrite A. destruct (Z.ltb_spec j (2 * npairs p)).
        * replace ((nr + 2 * npairs p <=? nr + j) && (nr + j <? nr + 2 * np)) with false by lia. apply B3; lia.
        * replace ((nr + 2 * npairs p <=? nr + j) && (nr + j <? nr + 2 * np)) with true by lia. now replace (nr + j - nr) with j by lia.
    - apply okP_ret. split; [exact L3|]. split; [exact A3|]. intros j Hj. replace (j <? 2 * npairs p) with true by lia. apply B3; lia. }
  cbn beta. intros m4 (L4 & A4 & B4). apply okP_ret.
  destruct (layout_done p nr np rv cv m4 W Hr Hp L4 A4 B4) as (Q1 & Q2 & Q3). cbn [nreal npairs]. auto.
Qed.

Lemma regroup_spec p nr rv cv : fp_wf p -> 0 <= nr <= num_roots p -> nr mod 2 = num_roots p mod 2 ->
  okP (fp_regroup p nr rv cv) (fun q => fp_wf q /\ nreal q = nr /\ num_roots q = num_roots p /\
    real_roots q = vresize (real_roots p) nr rv /\ complex_pairs q = vresize (complex_pairs p) ((num_roots p - nr) / 2) cv).
Proof.
  intros W Hr Hm. pose proof W as (W1 & W2 & W3). unfold fp_regroup. replace (negb (nr mod 2 =? num_roots p mod 2)) with false by lia.
  replace (num_roots p <? nr) with false by lia. unfold num_roots in *. cbn zeta. set (np := (nreal p + 2 * npairs p - nr) / 2).
  assert (Hp : nr + 2 * np = nreal p + 2 * npairs p) by (unfold np; lia). assert (Hp0 : 0 <= np) by lia. clearbody np.
  eapply (okP_bind _ _ (fun m : list R => lenZ m = lenZ (mem p) /\ (nr <= nreal p -> (forall k, 0 <= k < nr -> atR m k = atR (mem p) k) /\
     (forall j, 0 <= j < 2 * npairs p -> atR m (nr + j) = atR (mem p) (nreal p + j))) /\ (nreal p < nr -> m = mem p))).
  { destruct (Z.ltb_spec nr (nreal p)).
    - eapply okP_imp; [apply move_down_spec; lia|]. cbn beta. intros m (L & A). split; [exact L|]. split; [|lia]. intros _. split.
      + intros k Hk. rewrite A. now replace ((nr <=? k) && (k <? nr + (lenZ (mem p) - nreal p))) with false by lia.
      + intros j Hj. rewrite A. replace ((nr <=? nr + j) && (nr + j <? nr + (lenZ (mem p) - nreal p))) with true by lia. f_equal. lia.
    - apply okP_ret. split; [reflexivity|]. split; [|reflexivity]. intros Hle. assert (nr = nreal p) by lia. subst nr. auto. }
  cbn beta. intros m0 (L0 & A0 & E0).
  eapply (okP_bind _ _ (fun m : list R => lenZ m = lenZ (mem p) /\ (forall k, 0 <= k < nr -> k < nreal p -> atR m k = atR (mem p) k) /\
     (forall j, 0 <= j < 2 * np -> j < 2 * npairs p -> atR m (nr + j) = atR (mem p) (nreal p + j)))).
  { destruct (Z.ltb_spec (nreal p) nr).
    - rewrite (E0 ltac:(lia)). eapply okP_imp; [apply move_up_spec; lia|]. cbn beta. intros m (L & A).
      split; [lia|]. split.
      + intros k Hk Hk'. rewrite A. match goal with |- (if ?b then _ else _) = _ => replace b with false by lia end. reflexivity.
      + intros j Hj Hj'. rewrite A. match goal with |- (if ?b then _ else _) = _ => replace b with true by lia end. f_equal. lia.
    - apply okP_ret. split; [exact L0|]. destruct (A0 ltac:(lia)) as [P Q]. split.
      + intros k Hk _. now apply P.
      + intros j Hj Hj'. apply Q. lia. }
  cbn beta. intros m2 (L2 & A2 & B2).
  eapply (okP_bind _ _ (fun m : list R => lenZ m = lenZ (mem p) /\ (forall k, 0 <= k < nr -> atR m k = if k <? nreal p then atR (mem p) k else rv) /\
     (forall j, 0 <= j < 2 * np -> j < 2 * npairs p -> atR m (nr + j) = atR (mem p) (nreal p + j)))).
  { destruct (Z.ltb_spec (nreal p) nr).
    - eapply okP_imp; [apply fill_real_spec; lia|]. cbn beta. intros m (L & A). split; [lia|]. split.
      + intros k Hk. rewrite A. destruct (Z.ltb_spec k (nreal p)).
        * replace ((nreal p <=? k) && (k <? nr)) with false by lia. apply A2; lia.
        * now replace ((nreal p <=? k) && (k <? nr)) with true by lia.
      + intros j Hj Hj'. rewrite A. replace ((nreal p <=? nr + j) && (nr + j <? nr)) with false by lia. now apply B2.
    - apply okP_ret. split; [exact L2|]. split; [|exact B2]. intros k Hk. replace (k <? nreal p) with true by lia. apply A2; lia. }
  cbn beta. intros m3 (L3 & A3 & B3).
  eapply (okP_bind _ _ (fun m : list R => lenZ m = lenZ (mem p) /\ (forall k, 0 <= k < nr -> atR m k = if k <? nreal p then atR (mem p) k else rv) /\
     (forall j, 0 <= j < 2 * np -> atR m (nr + j) = if j <? 2 * npairs p then atR (mem p) (nreal p + j) else (if j mod 2 =? 0 then re cv else im cv)))).
  { destruct (Z.ltb_spec (npairs p) np).
    - eapply okP_imp; [apply fill_pairs_spec; lia|]. cbn beta. intros m (L & A). split; [lia|]. split.
      + intros k Hk. rewrite A. replace ((nr + 2 * npairs p <=? k) && (k <? nr + 2 * np)) with false by lia. now apply A3.
      + intros j Hj. rewrite A. destruct (Z.ltb_spec j (2 * npairs p)).
        * replace ((nr + 2 * npairs p <=? nr + j) && (nr + j <? nr + 2 * np)) with false by lia. apply B3; lia.
        * replace ((nr + 2 * npairs p <=? nr + j) && (nr + j <? nr + 2 * np)) with true by lia. now replace (nr + j - nr) with j by lia.
    - apply okP_ret. split; [exact L3|]. split; [exact A3|]. intros j Hj. replace (j <? 2 * npairs p) with true by lia. apply B3; lia. }
  cbn beta. intros m4 (L4 & A4 & B4). apply okP_ret.
  destruct (layout_done p nr np rv cv m4 W ltac:(lia) Hp0 ltac:(lia) A4 B4) as (Q1 & Q2 & Q3). cbn [nreal npairs]. repeat split; try assumption; apply Q1.
Qed.

(** *** the constructor *)
From Verif Require Import IirProofs.
Lemma push_all_full {A} (vs : list A) : forall pre suf : list A, lenZ suf = lenZ vs ->
  push_all vs (pre ++ suf, lenZ pre) = Ok (pre ++ vs, lenZ pre + lenZ vs).
Proof.
  induction vs as [|v vs IH]; intros pre suf H.
  - destruct suf; [|rewrite lenZ_cons in H; pose proof (lenZ_nonneg suf); change (lenZ (@nil A)) with 0 in H; lia].
    cbn [push_all]. change (lenZ (@nil A)) with 0. now rewrite Z.add_0_r.
  - destruct suf as [|s suf]; [rewrite lenZ_cons in H; pose proof (lenZ_nonneg vs); change (lenZ (@nil A)) with 0 in H; lia|].
    cbn [push_all]. unfold push. cbn [fst snd]. rewrite wr_midA. cbn [bind].
    assert (H' : lenZ suf = lenZ vs) by (rewrite !lenZ_cons in H; lia).
    assert (L : lenZ (pre ++ [v]) = lenZ pre + 1) by (rewrite lenZ_app, lenZ_cons; change (lenZ (@nil A)) with 0; lia).
    pose proof (IH (pre ++ [v]) suf H') as E. rewrite L, <- !app_assoc in E. cbn [app] in E. rewrite E. rewrite lenZ_cons. do 2 f_equal. lia.
Qed.

Definition Ceq_dec (a b : C) : {a = b} + {a <> b}.
Proof. destruct a as [a a'], b as [b b']. destruct (Req_EM_T a b) as [->|n]; [|right; congruence]. destruct (Req_EM_T a' b') as [->|n']; [left; reflexivity|right; congruence]. Defined.

Lemma count_eq_occ roots r : count_eq roots r = Z.of_nat (count_occ Ceq_dec roots r).
Proof.
  unfold count_eq. induction roots as [|a l IH]; [reflexivity|]. cbn [filter count_occ].
  destruct (Ceqb_spec a r), (Ceq_dec a r); try contradiction; [rewrite lenZ_cons; lia|exact IH].
Qed.
Lemma count_filter (f : C -> bool) l r : count_occ Ceq_dec (filter f l) r = if f r then count_occ Ceq_dec l r else 0%nat.
Proof.
  induction l as [|a l IH]; [now destruct (f r)|]. cbn [filter count_occ]. destruct (Ceq_dec a r) as [->|n].
  - destruct (f r) eqn:E; [|exact IH]. cbn [count_occ]. destruct (Ceq_dec r r); [now rewrite IH|contradiction].
  - destruct (f a); [|exact IH]. cbn [count_occ]. destruct (Ceq_dec a r); [contradiction|exact IH].
Qed.
Lemma count_map_conj l r : count_occ Ceq_dec (map Cconj l) r = count_occ Ceq_dec l (Cconj r).
Proof.
  induction l as [|a l IH]; [reflexivity|]. cbn [map count_occ].
  destruct (Ceq_dec (Cconj a) r) as [E|n], (Ceq_dec a (Cconj r)) as [E'|n']; [now rewrite IH|exfalso|exfalso|exact IH].
  - apply n'. now rewrite <- E, Cconj_conj.
  - apply n. now rewrite E', Cconj_conj.
Qed.

Definition conj_closed (roots : list C) : Prop := forall r, count_occ Ceq_dec roots r = count_occ Ceq_dec roots (Cconj r).
Lemma pairs_spec roots : AreRootsConjugatePairs roots = true <-> conj_closed roots.
Proof.
  unfold AreRootsConjugatePairs. rewrite forallb_forall. split.
  - intros H r. destruct (in_dec Ceq_dec r roots) as [Hi|Hn].
    + specialize (H r Hi). rewrite !count_eq_occ in H. lia.
    + destruct (in_dec Ceq_dec (Cconj r) roots) as [Hi|Hn'].
      * specialize (H _ Hi). rewrite !count_eq_occ, Cconj_conj in H. lia.
      * apply (count_occ_not_In Ceq_dec) in Hn. apply (count_occ_not_In Ceq_dec) in Hn'. congruence.
  - intros H r _. rewrite !count_eq_occ, (H r). apply Z.eqb_refl.
Qed.

Definition is_real (r : C) : bool := Reqb (im r) 0.
Definition is_pos (r : C) : bool := Rltb 0 (im r).
Definition is_neg (r : C) : bool := Rltb (im r) 0.
Lemma tri r : (is_real r = true /\ is_pos r = false /\ is_neg r = false) \/ (is_real r = false /\ is_pos r = true /\ is_neg r = false) \/
  (is_real r = false /\ is_pos r = false /\ is_neg r = true).
Proof.
  unfold is_real, is_pos, is_neg. destruct (Reqb_spec (im r) 0), (Rltb_spec 0 (im r)), (Rltb_spec (im r) 0); try (exfalso; lra); auto. 
Qed.
Lemma split3 roots : Permutation roots (filter is_real roots ++ filter is_pos roots ++ filter is_neg roots).
Proof.
  apply (Permutation_count_occ Ceq_dec). intros r. rewrite !count_occ_app, !count_filter.
  destruct (tri r) as [(->&->&->)|[(->&->&->)|(->&->&->)]]; lia.
Qed.
Lemma neg_perm roots : conj_closed roots -> Permutation (filter is_neg roots) (map Cconj (filter is_pos roots)).
Proof.
  intros H. apply (Permutation_count_occ Ceq_dec). intros r. rewrite count_map_conj, !count_filter, <- (H r).
  replace (is_pos (Cconj r)) with (is_neg r); [reflexivity|]. unfold is_pos, is_neg. cbn [Cconj im].
  destruct (Rltb_spec (im r) 0), (Rltb_spec 0 (- im r)); try reflexivity; exfalso; lra.
Qed.

Lemma fp_wf_empty : fp_wf empty_fp. Proof. repeat split; cbn; lia. Qed.
Lemma ctor_ok roots : conj_closed roots ->
  fp_of_roots roots = Ok (mk_fp (map re (filter is_real roots)) (filter is_pos roots)).
Proof.
  intros H. unfold fp_of_roots. fold is_real. fold is_pos.
  pose proof (Permutation_length (split3 roots)) as P3. rewrite !app_length in P3. pose proof (Permutation_length (neg_perm roots H)) as PN. rewrite map_length in PN.
  assert (E : lenZ roots - lenZ (filter is_real roots) = 2 * lenZ (filter is_pos roots)) by (unfold lenZ; lia).
  change (filter (fun r => Reqb (im r) 0) roots) with (filter is_real roots). change (filter (fun r => Rltb 0 (im r)) roots) with (filter is_pos roots).
  rewrite E. pose proof (lenZ_nonneg (filter is_pos roots)). pose proof (lenZ_nonneg (filter is_real roots)).
  replace (negb (2 * lenZ (filter is_pos roots) mod 2 =? 0)) with false by lia.
  rewrite (proj2 (pairs_spec roots) H). cbn [negb].
  replace (2 * lenZ (filter is_pos roots) / 2) with (lenZ (filter is_pos roots)) by lia.
  pose proof (resize_spec empty_fp (lenZ (filter is_real roots)) (lenZ (filter is_pos roots)) 0 C0 fp_wf_empty ltac:(lia) ltac:(lia) ltac:(right; reflexivity)) as RS.
  destruct RS as (p & -> & W & N1 & N2 & _). cbn [bind].
  pose proof (push_all_full (map re (filter is_real roots)) [] (real_roots p)) as E1. cbn [app] in E1. change (lenZ (@nil R)) with 0 in E1.
  rewrite E1 by (rewrite lenZ_real_roots, lenZ_map by exact W; lia). cbn [bind].
  pose proof (push_all_full (filter is_pos roots) [] (complex_pairs p)) as E2. cbn [app] in E2. change (lenZ (@nil C)) with 0 in E2.
  rewrite E2 by (rewrite lenZ_complex_pairs by exact W; lia). reflexivity.
Qed.
Lemma ctor_throw roots : ~ conj_closed roots -> fp_of_roots roots = Throw InvalidArgument.
Proof.
  intros H. unfold fp_of_roots. destruct (negb _); [reflexivity|]. destruct (AreRootsConjugatePairs roots) eqn:E; [|reflexivity].
  apply pairs_spec in E. contradiction.
Qed.

Lemma quad_conj (x c : C) : quad_factor (K := Cring) RtoC x c = Cmul (Csub x c) (Csub x (Cconj c)).
Proof. unfold quad_factor. destruct x, c. cbn. unfold Cadd, Cmul, Csub, RtoC, Cconj. cbn. f_equal; ring. Qed.
Lemma ctor_value roots : conj_closed roots -> forall x : C,
  fp_eval (K := Cring) RtoC (mk_fp (map re (filter is_real roots)) (filter is_pos roots)) x = prodK (K := Cring) (fun r => Csub x r) roots.
Proof.
  intros H x. rewrite (fp_eval_prod (K := Cring) RtoC emb_RtoC), mk_fp_real, mk_fp_pairs.
  rewrite (prodK_perm (K := Cring) _ _ _ (split3 roots)), !(prodK_app (K := Cring)).
  rewrite (prodK_perm (K := Cring) _ _ _ (neg_perm roots H)), !(prodK_map (K := Cring)).
  rewrite <- (prodK_mul (K := Cring)). f_equal.
  - apply (prodK_ext (K := Cring)). intros r Hr. apply filter_In in Hr. destruct Hr as [_ Hr]. unfold is_real in Hr.
    destruct (Reqb_spec (im r) 0) as [E|]; [|discriminate]. unfold lin_factor. cbn [rsub Cring]. f_equal. apply C_ext; cbn; congruence.
  - apply (prodK_ext (K := Cring)). intros c _. apply quad_conj.
Qed.
