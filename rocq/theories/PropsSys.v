(** C26, C48, C49: the three descriptions of a linear system. *)
From Coq Require Import Reals Lra Permutation.
From Verif Require Import Base BaseFacts Complex ConvProofs IirModel IirProofs PolyModel PolyProofs SysModel SysProofs PropsPoly PropsIir.
From Coq Require Import ZifyBool ZifyNat.
Ltac Zify.zify_post_hook ::= Z.div_mod_to_equations.
Open Scope Z_scope.

(** ** Specification *)
(** H(z) = gain * prod (z - zero) / prod (z - pole) *)
Definition transfer_at (s : zpk) (z : C) : C :=
  Cdiv (Cmul (RtoC (gain s)) (vanishing_product (all_roots (zeros s)) z)) (vanishing_product (all_roots (poles s)) z).
Definition well_formed (s : zpk) : Prop := consistent (zeros s) /\ consistent (poles s).
Definition is_pole (s : zpk) (z : C) : Prop := vanishing_product (all_roots (poles s)) z = C0.
(** number of zeros or poles, whichever is larger *)
Definition system_order (s : zpk) : nat := Nat.max (length (all_roots (zeros s))) (length (all_roots (poles s))).
(** all that is used of std::sort *)
Definition reorders {A} (sort : list A -> list A) : Prop := forall l, Permutation (sort l) l.

(** ** Bridges *)
Lemma zpk_eval_at s z : zpk_eval (K := Cfield) RtoC s z = transfer_at s z.
Proof.
  unfold zpk_eval, transfer_at. pose proof (factored_value (zeros s) z) as E1. pose proof (factored_value (poles s) z) as E2.
  change (fp_eval (K := Cfield) RtoC) with (fp_eval (K := Cring) RtoC). change (fdiv (c := Cfield)) with Cdiv. change (rmul (c := Cfield)) with Cmul.
  now rewrite E1, E2.
Qed.
Lemma poles_at p z : fp_eval (K := Cfield) RtoC p z = vanishing_product (all_roots p) z.
Proof. exact (factored_value p z). Qed.
Lemma roots_len p : consistent p -> Z.of_nat (length (all_roots p)) = num_roots p.
Proof.
  intros W. unfold all_roots. rewrite !app_length, !map_length. pose proof (lenZ_real_roots p W). pose proof (lenZ_complex_pairs p W). unfold lenZ, num_roots in *. lia.
Qed.
Lemma order_len s : well_formed s -> Z.of_nat (system_order s) = zpk_order s.
Proof. intros [A B]. unfold system_order, zpk_order. rewrite <- (roots_len _ A), <- (roots_len _ B). lia. Qed.
Lemma RtoC_div a b : b <> 0%R -> RtoC (a / b)%R = Cdiv (RtoC a) (RtoC b).
Proof.
  intros H. unfold Cdiv, Cinv, Cnorm2. apply C_ext; cbn; replace (b * b + 0 * 0)%R with (b * b)%R by ring; field; assumption.
Qed.
Lemma real_at s x : ~ is_pole s (RtoC x) -> RtoC (zpk_eval (K := Rfield) (fun r => r) s x) = transfer_at s (RtoC x).
Proof.
  intros H. unfold zpk_eval, transfer_at, is_pole in *. rewrite <- !C24_factored_eval_real in *.
  change (fdiv (c := Rfield)) with Rdiv. change (rmul (c := Rfield)) with Rmult. change (fp_eval (K := Rfield) (fun r => r)) with (fp_eval (K := Rring) (fun r => r)).
  rewrite RtoC_div; [|intros E; apply H; now rewrite E]. f_equal. apply (embmul _ emb_RtoC).
Qed.
Lemma real_pole s x : ~ is_pole s (RtoC x) -> fp_eval (K := Rfield) (fun r => r) (poles s) x <> 0%R.
Proof. unfold is_pole. rewrite <- C24_factored_eval_real. intros H E. apply H. change (fp_eval (K := Rfield) (fun r => r)) with (fp_eval (K := Rring) (fun r => r)) in E. now rewrite E. Qed.

(** ** C26 *)
(** operator() of the zero-pole-gain form *)
Theorem C26_zero_pole_gain_value : forall s z, zpk_eval (K := Cfield) RtoC s z = transfer_at s z.
Proof. exact zpk_eval_at. Qed.
(** the transfer function always exists, and represents the same function *)
Theorem C26_transfer_function : forall s, well_formed s -> exists t, tf_of_zpk s = Ok t /\
  (forall z, tf_eval (K := Cfield) RtoC t z = transfer_at s z) /\
  (forall x, ~ is_pole s (RtoC x) -> RtoC (tf_eval (K := Rfield) (fun r => r) t x) = transfer_at s (RtoC x)).
Proof.
  intros s [A B]. destruct (tf_spec s A B) as (t & E & _ & _ & _ & V). exists t. split; [exact E|]. split.
  - intros z. rewrite (V Cfield RtoC emb_RtoC z). apply zpk_eval_at.
  - intros x Hx. rewrite (V Rfield (fun r => r) emb_id x). now apply real_at.
Qed.
(** so does the cascade, provided the system has a zero or a pole at all (see the refutation below), at every point
    that is not a pole *)
Theorem C26_cascade_partial : forall sortR sortP s, reorders sortR -> reorders sortP -> well_formed s -> (0 < system_order s)%nat ->
  exists ss, cascade_of_zpk sortR sortP s = Ok ss /\
  (forall z, ~ is_pole s z -> cascade_eval (K := Cfield) RtoC ss z = Ok (transfer_at s z)) /\
  (forall x, ~ is_pole s (RtoC x) -> exists v, cascade_eval (K := Rfield) (fun r => r) ss x = Ok v /\ RtoC v = transfer_at s (RtoC x)).
Proof.
  intros sortR sortP s HR HP W Ho. pose proof (order_len s W) as EO. destruct W as [A B].
  destruct (cascade_spec sortR sortP HR HP s A B) as (ss & E & _). exists ss. split; [exact E|]. split.
  - intros z Hz. rewrite (cascade_value sortR sortP HR HP s ss E A B ltac:(lia) Cfield RtoC emb_RtoC z); [f_equal; apply zpk_eval_at|].
    rewrite poles_at. exact Hz.
  - intros x Hx. eexists. split; [apply (cascade_value sortR sortP HR HP s ss E A B ltac:(lia) Rfield (fun r => r) emb_id x); now apply real_pole|].
    now apply real_at.
Qed.
(** the number of second-order sections is the smallest possible one *)
Theorem C26_cascade_sections : forall sortR sortP s, reorders sortR -> reorders sortP -> well_formed s ->
  exists ss, cascade_of_zpk sortR sortP s = Ok ss /\ length ss = ((system_order s + 1) / 2)%nat.
Proof.
  intros sortR sortP s HR HP W. pose proof (order_len s W) as EO. destruct W as [A B].
  destruct (cascade_spec sortR sortP HR HP s A B) as (ss & E & L & _). exists ss. split; [exact E|].
  unfold half_up, zpk_order in *. unfold lenZ in L. 
  assert (Z.of_nat ((system_order s + 1) / 2)%nat = (Z.of_nat (system_order s) + 1) / 2) by (rewrite Nat2Z.inj_div; f_equal; lia). lia.
Qed.
(** a system without zeros and poles loses its gain in the cascade *)
Theorem C26_cascade_gain_refuted : forall sortR sortP, reorders sortR -> reorders sortP ->
  exists s ss, well_formed s /\ cascade_of_zpk sortR sortP s = Ok ss /\
  forall z, ~ is_pole s z /\ cascade_eval (K := Cfield) RtoC ss z = Ok C1 /\ transfer_at s z <> C1.
Proof.
  intros sortR sortP HR HP. set (s := mkZpk 2 (mk_fp [] []) (mk_fp [] [])).
  assert (W : well_formed s) by (split; apply mk_fp_wf). pose proof W as [A B].
  destruct (cascade_spec sortR sortP HR HP s A B) as (ss & E & _ & _ & _ & _ & _ & _ & N). rewrite (N eq_refl) in E.
  exists s, []. split; [exact W|]. split; [exact E|]. intros z.
  assert (P : vanishing_product (all_roots (poles s)) z = C1) by (unfold all_roots, s; cbn [poles]; rewrite mk_fp_real, mk_fp_pairs; reflexivity).
  assert (Q : vanishing_product (all_roots (zeros s)) z = C1) by (unfold all_roots, s; cbn [zeros]; rewrite mk_fp_real, mk_fp_pairs; reflexivity).
  split; [unfold is_pole; rewrite P; intros H; injection H; lra|]. split; [reflexivity|].
  unfold transfer_at. rewrite P, Q. intros H. apply (f_equal re) in H.
  replace (re (Cdiv (Cmul (RtoC (gain s)) C1) C1)) with 2%R in H; [cbn in H; lra|]. unfold Cdiv, Cinv, Cnorm2. cbn. field.
Qed.
Example C26_nontrivial : let s := mkZpk 3 (mk_fp [1%R] []) (mk_fp [2; -2]%R [mkC 1 2]) in
  well_formed s /\ system_order s = 4%nat /\ reorders (fun l : list R => rev l) /\ ~ is_pole s (RtoC 0) /\
  exists ss, cascade_of_zpk (fun l => rev l) (fun l => rev l) s = Ok ss /\ length ss = 2%nat.
Proof.
  cbn zeta. assert (W : well_formed (mkZpk 3 (mk_fp [1%R] []) (mk_fp [2; -2]%R [mkC 1 2]))) by (split; apply mk_fp_wf).
  assert (RV : forall A, reorders (fun l : list A => rev l)) by (intros A l; symmetry; apply Permutation_rev).
  split; [exact W|]. split; [unfold system_order, all_roots; cbn [zeros poles]; rewrite !mk_fp_real, !mk_fp_pairs; reflexivity|].
  split; [apply RV|]. split.
  - unfold is_pole, all_roots. cbn [poles]. rewrite mk_fp_real, mk_fp_pairs. cbn. intros H. injection H. lra.
  - destruct (C26_cascade_sections _ _ _ (RV R) (RV spoly) W) as (ss & E & L). exists ss. split; [exact E|]. rewrite L.
    unfold system_order, all_roots. cbn [zeros poles]. rewrite !mk_fp_real, !mk_fp_pairs. reflexivity.
Qed.
Print Assumptions C26_zero_pole_gain_value.
Print Assumptions C26_transfer_function.
Print Assumptions C26_cascade_partial.
Print Assumptions C26_cascade_sections.
Print Assumptions C26_cascade_gain_refuted.

(** ** C48: order() *)
Theorem C48_zero_pole_gain_order : forall s, well_formed s -> zpk_order s = Z.of_nat (system_order s).
Proof. intros s W. symmetry. now apply order_len. Qed.
Theorem C48_transfer_function_order : forall s t, well_formed s -> tf_of_zpk s = Ok t -> tf_order t = Z.of_nat (system_order s).
Proof.
  intros s t W E. rewrite (order_len s W). destruct W as [A B]. destruct (tf_spec s A B) as (t' & E' & L1 & L2 & _). assert (t' = t) by congruence. subst t'.
  unfold tf_order, poly_order, zpk_order. assert (0 <= num_roots (zeros s)) by (destruct A as (?&?&?); unfold num_roots; lia). assert (0 <= num_roots (poles s)) by (destruct B as (?&?&?); unfold num_roots; lia).
  rewrite L1, L2. destruct (num_roots (zeros s) + 1 =? 0) eqn:E1, (num_roots (poles s) + 1 =? 0) eqn:E2; lia.
Qed.
(** the cascade reports one more than the order of the system it was made from *)
Theorem C48_cascade_order_refuted : forall sortR sortP s ss, reorders sortR -> reorders sortP -> well_formed s ->
  cascade_of_zpk sortR sortP s = Ok ss -> (0 < system_order s)%nat -> cascade_order ss = Z.of_nat (system_order s) + 1.
Proof.
  intros sortR sortP s ss HR HP W E Ho. pose proof (order_len s W). destruct W as [A B].
  destruct (cascade_spec sortR sortP HR HP s A B) as (ss' & E' & L & N1 & N2 & _). assert (ss' = ss) by congruence. subst ss'.
  unfold cascade_order. rewrite (fold_add numOrder ss 1), (fold_add denOrder ss 1), N1, N2.
  unfold zpk_order, half_up in *. change (car Rfield) with R in *. destruct (lenZ ss =? 0) eqn:E1; lia.
Qed.
Print Assumptions C48_zero_pole_gain_order.
Print Assumptions C48_transfer_function_order.
Print Assumptions C48_cascade_order_refuted.

(** ** C49: filtering with any realization of the designed system gives the same samples *)
Lemma tf_proper s t : well_formed s -> tf_of_zpk s = Ok t -> proper_system t /\ at0 (K := Rfield) (denominator t) (lenZ (denominator t) - 1) = 1%R.
Proof.
  intros [A B] E. destruct (tf_spec s A B) as (t' & E' & L1 & L2 & M & _). assert (t' = t) by congruence. subst t'.
  assert (M' : at0 (K := Rfield) (denominator t) (lenZ (denominator t) - 1) = 1%R).
  { change (car Rfield) with R in *. rewrite L2. replace (num_roots (poles s) + 1 - 1) with (num_roots (poles s)) by lia. exact M. }
  split; [|exact M']. split; [|rewrite M'; apply R1_neq_R0]. change (car Rfield) with R in *. destruct B as (?&?&?). unfold num_roots in *. lia.
Qed.
Theorem C49_realizations_agree : forall sortR sortP s t ss (ord : Z) (x : list R), reorders sortR -> reorders sortP -> well_formed s ->
  tf_of_zpk s = Ok t -> cascade_of_zpk sortR sortP s = Ok ss -> (0 < system_order s)%nat -> Z.of_nat (system_order s) <= ord < 2 ^ 64 - 1 ->
  exists y s1 s2 s3,
    Filter_df1 t x (df1_new ord) = Ok (y, s1) /\ Filter_df2 t x (df2_new ord) = Ok (y, s2) /\ Filter_cf ss x (cf_new ord) = Ok (y, s3) /\
    difference_equation (K := Rfield) (numerator t) (denominator t) x y.
Proof.
  intros sortR sortP s t ss ord x HR HP W Et Es Ho Hord. destruct (tf_proper s t W Et) as [P M].
  pose proof (C48_transfer_function_order s t W Et) as TO. pose proof (order_len s W) as OL.
  assert (OS : order_suffices t ord) by (split; lia).
  destruct (C21_direct_form_II_equals_I_partial Rfield t ord ord x P M OS OS) as (y & s1 & s2 & E1 & E2).
  destruct (C20_direct_form_I_obeys_difference_equation Rfield t ord x P OS) as ([y0 s1'] & E1' & D). cbn [fst] in D.
  assert (y0 = y) by congruence. subst y0.
  destruct W as [A B]. destruct (cascade_spec sortR sortP HR HP s A B) as (ss' & E' & L & _). assert (ss' = ss) by congruence. subst ss'.
  destruct (cf_fresh (K := Rfield) ss ord x ltac:(lia)) as ([y3 s3] & E3 & L3 & Hc).
  { change (car Rfield) with R in *. unfold half_up, zpk_order in *. lia. }
  cbn [fst] in *. apply chain_obeys in Hc.
  destruct (cascade_polys sortR sortP s ss t HR HP A B ltac:(lia) Es Et) as (j & k & Q1 & Q2). 
  assert (Hc' : obeys (K := Rfield) (repeat (r0 (c := Rfield)) j ++ numerator t) (repeat (r0 (c := Rfield)) k ++ denominator t) x y3).
  { change (r0 (c := Rfield)) with 0%R. change (car Rfield) with R in *. rewrite Q1, Q2 in Hc. exact Hc. }
  apply (obeys_pad (K := Rfield)) in Hc'.
  assert (y3 = y). { eapply (obeys_unique (K := Rfield)); [|exact Hc'|exact D]. exact P. }
  subst y3. exists y, s1, s2, s3. repeat split; auto; apply D.
Qed.
Example C49_nontrivial : let s := mkZpk 3 (mk_fp [1%R] []) (mk_fp [2; -2]%R [mkC 1 2]) in
  exists t ss, tf_of_zpk s = Ok t /\ cascade_of_zpk (fun l => l) (fun l => l) s = Ok ss /\ (0 < system_order s)%nat /\ Z.of_nat (system_order s) <= 4.
Proof.
  cbn zeta. assert (W : well_formed (mkZpk 3 (mk_fp [1%R] []) (mk_fp [2; -2]%R [mkC 1 2]))) by (split; apply mk_fp_wf).
  destruct (C26_transfer_function _ W) as (t & E & _).
  destruct (C26_cascade_sections (fun l => l) (fun l => l) _ (fun l => Permutation_refl l) (fun l => Permutation_refl l) W) as (ss & E' & _).
  exists t, ss. split; [exact E|]. split; [exact E'|]. unfold system_order, all_roots. cbn [zeros poles]. rewrite !mk_fp_real, !mk_fp_pairs. cbn. lia.
Qed.
Print Assumptions C49_realizations_agree.
