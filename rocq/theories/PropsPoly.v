(** C24, C25: polynomials and factored polynomials. *)
From Coq Require Import Reals Lra.
From Verif Require Import Base BaseFacts Complex ConvProofs IirModel PolyModel PolyProofs.
From Coq Require Import ZifyBool ZifyNat.
Ltac Zify.zify_post_hook ::= Z.div_mod_to_equations.
Open Scope Z_scope.

(** ** Specification *)
(** sum c_i x^i, at a real and at a complex point *)
Definition real_value (cs : list R) (x : R) : R := fold_right (fun i acc => (nth i cs 0 * x ^ i + acc)%R) 0%R (seq 0 (length cs)).
Fixpoint Cpow (z : C) (n : nat) : C := match n with O => C1 | S n => Cmul z (Cpow z n) end.
Definition complex_value (cs : list R) (z : C) : C := fold_right (fun i acc => Cadd (Cmul (RtoC (nth i cs 0%R)) (Cpow z i)) acc) C0 (seq 0 (length cs)).
(** product of (z - r) over a list of roots *)
Fixpoint vanishing_product (roots : list C) (z : C) : C := match roots with [] => C1 | r :: roots => Cmul (Csub z r) (vanishing_product roots z) end.
(** all roots of a factored polynomial: every stored complex root stands for itself and its conjugate *)
Definition all_roots (p : fp) : list C := map RtoC (real_roots p) ++ complex_pairs p ++ map Cconj (complex_pairs p).
(** an object in a consistent state: the memory block is exactly as large as its two views *)
Definition consistent (p : fp) : Prop := 0 <= nreal p /\ 0 <= npairs p /\ lenZ (mem p) = nreal p + 2 * npairs p.
Fixpoint occurrences (r : C) (l : list C) : nat := match l with [] => 0%nat | a :: l => ((if Ceq_dec a r then 1 else 0) + occurrences r l)%nat end.
(** every root occurs as often as its conjugate *)
Definition in_conjugate_pairs (roots : list C) : Prop := forall r, occurrences r roots = occurrences (Cconj r) roots.
(** the first n of [l], padded with [v] *)
Definition kept {A} (l : list A) (n : Z) (v : A) : list A := firstn (Z.to_nat n) l ++ repeat v (Z.to_nat n - length l).

(** ** Bridges *)
Lemma sum_seq {K : CRing} (f : nat -> K) n : fold_right (fun i acc => radd (f i) acc) r0 (seq 0 n) = sumZ 0 (Z.of_nat n) (fun i => f (Z.to_nat i)).
Proof.
  pose proof (rth K) as RT. assert (G : forall l a, fold_right (fun i acc => radd (f i) acc) a l = radd (fold_right (fun i acc => radd (f i) acc) r0 l) a).
  { induction l as [|x l IH]; intros a; cbn [fold_right]; [symmetry; apply (Radd_0_l RT)|]. rewrite (IH a). apply (Radd_assoc RT). }
  induction n as [|n IH]; [reflexivity|]. rewrite seq_S, fold_right_app. cbn [plus fold_right]. rewrite G, IH.
  replace (Z.of_nat (S n)) with (Z.of_nat n + 1) by lia. rewrite sumZ_last by lia. rewrite Nat2Z.id.
  f_equal. rewrite (Radd_comm RT). apply (Radd_0_l RT).
Qed.
Lemma at0_nth (l : list R) i : 0 <= i -> at0 (K := Rring) l i = nth (Z.to_nat i) l 0%R.
Proof.
  intros H. unfold at0, nthZ. replace (i <? 0) with false by lia. change (car Rring) with R. destruct (nth_error l (Z.to_nat i)) eqn:E.
  - symmetry. now apply nth_error_nth.
  - apply nth_error_None in E. now rewrite nth_overflow.
Qed.
Lemma real_value_pval cs x : pval (K := Rring) (fun r => r) cs x = real_value cs x.
Proof.
  unfold real_value. rewrite (sum_seq (K := Rring) (fun i => nth i cs 0 * x ^ i)%R). unfold pval. apply sumZ_ext. intros i Hi.
  rewrite at0_nth by lia. cbn [rmul Rring]. f_equal. clear. induction (Z.to_nat i); cbn; congruence.
Qed.
Lemma complex_value_pval cs x : pval (K := Cring) RtoC cs x = complex_value cs x.
Proof.
  unfold complex_value. rewrite (sum_seq (K := Cring) (fun i => Cmul (RtoC (nth i cs 0%R)) (Cpow x i))). unfold pval. apply sumZ_ext. intros i Hi.
  rewrite at0_nth by lia. cbn [rmul Cring]. f_equal. clear. induction (Z.to_nat i); cbn; congruence.
Qed.
Lemma vanishing_prodK l z : vanishing_product l z = prodK (K := Cring) (fun r => Csub z r) l.
Proof. induction l as [|r l IH]; [reflexivity|]. cbn [vanishing_product]. rewrite IH. reflexivity. Qed.
Lemma occ_count r l : occurrences r l = count_occ Ceq_dec l r.
Proof. induction l as [|a l IH]; cbn [occurrences count_occ]; [reflexivity|]. rewrite IH. destruct (Ceq_dec a r); reflexivity. Qed.
Lemma pairs_closed l : in_conjugate_pairs l <-> conj_closed l.
Proof. split; intros H r; specialize (H r); rewrite ?occ_count in *; exact H. Qed.
Lemma kept_vresize {A} (l : list A) n v : 0 <= n -> kept l n v = vresize l n v.
Proof. intros H. unfold kept, vresize. do 2 f_equal. unfold lenZ. lia. Qed.
Lemma factored_value p z : fp_eval (K := Cring) RtoC p z = vanishing_product (all_roots p) z.
Proof.
  rewrite (fp_eval_prod (K := Cring) RtoC emb_RtoC), vanishing_prodK. unfold all_roots.
  rewrite !(prodK_app (K := Cring)), !(prodK_map (K := Cring)), <- (prodK_mul (K := Cring)). f_equal.
  apply (prodK_ext (K := Cring)). intros c _. apply quad_conj.
Qed.

(** ** C24 *)
(** evaluation gives sum c_i x^i (the empty polynomial is 0) *)
Theorem C24_eval_real : forall (cs : list R) (x : R), poly_eval (K := Rring) (fun r => r) cs x = real_value cs x.
Proof. intros. rewrite (poly_eval_pval (K := Rring) _). apply real_value_pval. Qed.
Theorem C24_eval_complex : forall (cs : list R) (z : C), poly_eval (K := Cring) RtoC cs z = complex_value cs z.
Proof. intros. rewrite (poly_eval_pval (K := Cring) _). apply complex_value_pval. Qed.
(** a factored polynomial evaluates to the product of (z - r) over all its roots, and does so consistently at real points *)
Theorem C24_factored_eval : forall (p : fp) (z : C), fp_eval (K := Cring) RtoC p z = vanishing_product (all_roots p) z.
Proof. exact factored_value. Qed.
Theorem C24_factored_eval_real : forall (p : fp) (x : R), RtoC (fp_eval (K := Rring) (fun r => r) p x) = vanishing_product (all_roots p) (RtoC x).
Proof.
  intros p x. rewrite <- factored_value, (fp_eval_prod (K := Rring) _ emb_id), (fp_eval_prod (K := Cring) RtoC emb_RtoC).
  assert (G : forall A (f : A -> R) l, RtoC (prodK (K := Rring) f l) = prodK (K := Cring) (fun a => RtoC (f a)) l).
  { intros A f l. induction l as [|a l IH]; [reflexivity|]. cbn [prodK fold_right]. unfold prodK in IH. rewrite <- IH. cbn [rmul Rring Cring]. apply (embmul _ emb_RtoC). }
  cbn [rmul Rring Cring]. rewrite (embmul _ emb_RtoC). rewrite !G. cbn [rmul Cring]. f_equal.
  - apply (prodK_ext (K := Cring)). intros r _. unfold lin_factor. cbn [rsub Rring Cring]. apply C_ext; cbn; ring.
  - apply (prodK_ext (K := Cring)). intros c _. unfold quad_factor. cbn [radd rmul Rring Cring]. apply C_ext; cbn; ring.
Qed.
(** expansion: as many coefficients as roots plus one, leading coefficient 1, the same value everywhere *)
Theorem C24_expand : forall p, consistent p -> exists cs, ExpandPolynomial p = Ok cs /\
  length cs = S (length (all_roots p)) /\ nth (length (all_roots p)) cs 0%R = 1%R /\
  (forall z, complex_value cs z = vanishing_product (all_roots p) z) /\
  (forall x, real_value cs x = fp_eval (K := Rring) (fun r => r) p x).
Proof.
  intros p W. destruct (expand_spec p W) as (cs & E & (M1 & M2 & M3) & V). exists cs. split; [exact E|].
  assert (L : Z.of_nat (length (all_roots p)) = num_roots p).
  { unfold all_roots. rewrite !app_length, !map_length. pose proof (lenZ_real_roots p W). pose proof (lenZ_complex_pairs p W). unfold lenZ, num_roots in *. lia. }
  split; [unfold lenZ in M1; lia|]. split; [|split].
  - rewrite <- M2, at0_nth by lia. f_equal. lia.
  - intros z. rewrite <- complex_value_pval, (V Cring RtoC emb_RtoC). apply factored_value.
  - intros x. rewrite <- real_value_pval. apply (V Rring (fun r => r) emb_id).
Qed.
Example C24_nontrivial : consistent (mk_fp [3%R] [mkC 1 2]) /\ all_roots (mk_fp [3%R] [mkC 1 2]) = [RtoC 3; mkC 1 2; mkC 1 (-2)] /\
  ExpandPolynomial (mk_fp [3%R] [mkC 1 2]) = Ok [-15; 11; -5; 1]%R.
Proof.
  split; [apply mk_fp_wf|]. split; [unfold all_roots; rewrite mk_fp_real, mk_fp_pairs; reflexivity|].
  unfold ExpandPolynomial. rewrite mk_fp_real, mk_fp_pairs. change (num_roots (mk_fp [3%R] [mkC 1 2])) with 3.
  lazy -[Rplus Rmult Ropp IZR]. apply f_equal. repeat (apply f_equal2; [lra|]). reflexivity.
Qed.

(** ** C25 *)
(** construction from roots succeeds exactly when they come in conjugate pairs ... *)
Theorem C25_construct_iff : forall roots, (exists p, fp_of_roots roots = Ok p) <-> in_conjugate_pairs roots.
Proof.
  intros roots. rewrite pairs_closed. split.
  - intros [p Hp]. destruct (AreRootsConjugatePairs roots) eqn:E; [now apply pairs_spec|]. exfalso.
    rewrite (ctor_throw roots) in Hp; [discriminate|]. intros H. apply pairs_spec in H. congruence.
  - intros H. eexists. apply ctor_ok, H.
Qed.
(** ... otherwise it throws std::invalid_argument: no other outcome *)
Theorem C25_construct_throws : forall roots, ~ in_conjugate_pairs roots -> fp_of_roots roots = Throw InvalidArgument.
Proof. intros roots H. apply ctor_throw. now rewrite <- pairs_closed. Qed.
(** the constructed polynomial is prod (z - r) over the given roots, hence vanishes exactly there *)
Theorem C25_construct_value : forall roots p, fp_of_roots roots = Ok p ->
  consistent p /\ forall z, fp_eval (K := Cring) RtoC p z = vanishing_product roots z.
Proof.
  intros roots p Hp. assert (H : conj_closed roots) by (apply pairs_closed, C25_construct_iff; eauto).
  rewrite (ctor_ok roots H) in Hp. injection Hp as <-. split; [apply mk_fp_wf|]. intros z. rewrite vanishing_prodK. now apply ctor_value.
Qed.
Theorem C25_vanishes_exactly : forall roots p, fp_of_roots roots = Ok p -> forall z, fp_eval (K := Cring) RtoC p z = C0 <-> In z roots.
Proof.
  intros roots p Hp z. rewrite (proj2 (C25_construct_value roots p Hp) z). clear. induction roots as [|r roots IH]; cbn [vanishing_product In].
  - split; [|contradiction]. intros H. injection H as H. lra.
  - rewrite <- IH. split.
    + intros H. apply Cmul_0_eq in H. destruct H as [H|H]; [left|now right]. destruct z, r. injection H as H1 H2. apply C_ext; cbn in *; lra.
    + intros [->|H].
      * apply C_ext; cbn; ring.
      * rewrite H. apply C_ext; cbn; ring.
Qed.
(** the roots are stored in the order given: real ones first, then the pairs by their upper member *)
Theorem C25_construct_roots : forall roots p, fp_of_roots roots = Ok p ->
  map RtoC (real_roots p) = filter (fun r => if Req_EM_T (im r) 0 then true else false) roots /\
  complex_pairs p = filter (fun r => if Rlt_dec 0 (im r) then true else false) roots.
Proof.
  intros roots p Hp. assert (H : conj_closed roots) by (apply pairs_closed, C25_construct_iff; eauto).
  rewrite (ctor_ok roots H) in Hp. injection Hp as <-. rewrite mk_fp_real, mk_fp_pairs. split; [|reflexivity].
  rewrite map_map. change (filter (fun r => if Req_EM_T (im r) 0 then true else false) roots) with (filter is_real roots).
  rewrite <- (map_id (filter is_real roots)) at 2. apply map_ext_in. intros r Hr. apply filter_In in Hr. destruct Hr as [_ Hr]. unfold is_real in Hr.
  destruct (Reqb_spec (im r) 0) as [E|]; [|discriminate]. apply C_ext; cbn; congruence.
Qed.
(** resizing keeps the roots that fit and pads with the given values, as long as the number of real roots does not
    grow, or grows from zero (the only ways the library itself uses it) *)
Theorem C25_resize_partial : forall p nr np rv cv, consistent p -> 0 <= nr -> 0 <= np -> nr <= nreal p \/ nreal p = 0 ->
  exists q, fp_resize p nr np rv cv = Ok q /\ consistent q /\
    real_roots q = kept (real_roots p) nr rv /\ complex_pairs q = kept (complex_pairs p) np cv.
Proof.
  intros p nr np rv cv W Hr Hp Hc. destruct (resize_spec p nr np rv cv W Hr Hp Hc) as (q & E & W' & _ & _ & E1 & E2).
  exists q. rewrite !kept_vresize by assumption. auto.
Qed.
(** missing: growing a nonzero number of real roots.  There the code loses roots: from real root 5 and pair 1 +- 2i,
    asking for two real roots and one pair turns the pair into 2 +- i ... *)
Theorem C25_resize_refuted : exists p nr np rv cv q, consistent p /\ nreal p < nr /\ npairs p = np /\
  fp_resize p nr np rv cv = Ok q /\ complex_pairs p = [mkC 1 2] /\ complex_pairs q = [mkC 2 1].
Proof.
  exists (mk_fp [5%R] [mkC 1 2]), 2, 1, 0%R, C0. eexists. split; [apply mk_fp_wf|]. do 2 (split; [reflexivity|]).
  split; [vm_compute; reflexivity|]. split; reflexivity.
Qed.
(** ... and without any pairs the copied range is backwards (undefined behaviour) *)
Theorem C25_resize_invalid_range_refuted : exists p nr, consistent p /\ nreal p < nr /\ forall rv cv, fp_resize p nr 0 rv cv = UB.
Proof. exists (mk_fp [5%R] []), 2. split; [apply mk_fp_wf|]. split; [reflexivity|]. reflexivity. Qed.
(** regrouping keeps the number of roots and the roots that fit; it throws exactly when the count of real roots has the
    wrong parity or is too large *)
Theorem C25_regroup : forall p nr rv cv, consistent p -> 0 <= nr ->
  (nr <= num_roots p /\ nr mod 2 = num_roots p mod 2 ->
     exists q, fp_regroup p nr rv cv = Ok q /\ consistent q /\ num_roots q = num_roots p /\
       real_roots q = kept (real_roots p) nr rv /\ complex_pairs q = kept (complex_pairs p) ((num_roots p - nr) / 2) cv) /\
  (~ (nr <= num_roots p /\ nr mod 2 = num_roots p mod 2) -> fp_regroup p nr rv cv = Throw InvalidArgument).
Proof.
  intros p nr rv cv W Hr. split.
  - intros [H1 H2]. destruct (regroup_spec p nr rv cv W ltac:(lia) H2) as (q & E & W' & _ & E0 & E1 & E2).
    exists q. rewrite !kept_vresize by lia. auto.
  - intros H. unfold fp_regroup. destruct (Z.eqb_spec (nr mod 2) (num_roots p mod 2)); cbn [negb]; [|reflexivity].
    destruct (Z.ltb_spec (num_roots p) nr); [reflexivity|]. exfalso. apply H. lia.
Qed.
Example C25_nontrivial :
  (exists p, fp_of_roots [mkC 1 2; mkC 3 0; mkC 1 (-2)] = Ok p) /\
  fp_of_roots [mkC 1 2; mkC 1 2] = Throw InvalidArgument /\
  consistent (mk_fp [5%R; 6%R] [mkC 1 2]) /\ (nreal (mk_fp [5%R; 6%R] [mkC 1 2]) = 2) /\ num_roots (mk_fp [5%R; 6%R] [mkC 1 2]) = 4.
Proof.
  split; [|split; [|split; [apply mk_fp_wf|split; reflexivity]]].
  - apply C25_construct_iff, pairs_closed. intros r. rewrite <- count_map_conj.
    apply (Permutation.Permutation_count_occ Ceq_dec).
    replace (map Cconj [mkC 1 2; mkC 3 0; mkC 1 (-2)]) with (rev [mkC 1 2; mkC 3 0; mkC 1 (-2)]); [apply Permutation.Permutation_rev|].
    cbn. unfold Cconj. cbn [re im]. repeat (apply f_equal2; [apply C_ext; cbn; lra|]). reflexivity.
  - apply C25_construct_throws. intros H. specialize (H (mkC 1 2)). cbn [occurrences] in H.
    destruct (Ceq_dec (mkC 1 2) (mkC 1 2)); [|congruence]. destruct (Ceq_dec (mkC 1 2) (Cconj (mkC 1 2))) as [E|]; [|discriminate].
    injection E as E. lra.
Qed.

Print Assumptions C24_eval_real.
Print Assumptions C24_eval_complex.
Print Assumptions C24_factored_eval.
Print Assumptions C24_factored_eval_real.
Print Assumptions C24_expand.
Print Assumptions C25_construct_iff.
Print Assumptions C25_construct_throws.
Print Assumptions C25_construct_value.
Print Assumptions C25_vanishes_exactly.
Print Assumptions C25_construct_roots.
Print Assumptions C25_resize_partial.
Print Assumptions C25_resize_refuted.
Print Assumptions C25_resize_invalid_range_refuted.
Print Assumptions C25_regroup.
