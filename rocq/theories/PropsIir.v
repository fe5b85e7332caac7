(** C20-C23: IIR realizations. *)
From Coq Require Import Reals Lra.
From Verif Require Import Base BaseFacts IntervalModel KernelModel ConvModel ConvProofs Complex FirModel IirModel IirProofs.
From Coq Require Import ZifyBool ZifyNat.
Ltac Zify.zify_post_hook ::= Z.div_mod_to_equations.
Open Scope Z_scope.

(** ** Specification *)
Section Spec.
Context {K : CField}.
(** [y] answers [x] under [sum_k a_k y(n-k) = sum_k b_k x(n-k)], where a_0, b_0 are the last (highest)
    coefficients of [den], [num], and both signals are zero before they start *)
Definition difference_equation (num den x y : list K) : Prop :=
  lenZ y = lenZ x /\
  forall n, 0 <= n < lenZ x ->
    sumZ 0 (lenZ den) (fun k => rmul (at0 den (lenZ den - 1 - k)) (at0 y (n - k))) =
    sumZ 0 (lenZ num) (fun k => rmul (at0 num (lenZ num - 1 - k)) (at0 x (n - k))).
(** a usable system: nonempty denominator, nonzero leading coefficient *)
Definition proper_system (sys : tf K) : Prop :=
  0 < lenZ (denominator sys) /\ at0 (denominator sys) (lenZ (denominator sys) - 1) <> r0.
(** the order given to the realization suffices for the system *)
Definition order_suffices (sys : tf K) (ord : Z) : Prop :=
  0 <= ord < 2 ^ 64 - 1 /\ tf_order sys <= ord.
(** every section in turn answers the one before; a section has denominator a0 + a1 z + z^2 *)
Fixpoint sections_in_turn (sys : list (biquad K)) (x y : list K) : Prop :=
  match sys with
  | [] => y = x
  | b :: sys => exists m,
      (let '(b0, b1, b2) := bnum b in let '(a0, a1) := bden b in difference_equation [b0; b1; b2] [a0; a1; r1] x m) /\
      sections_in_turn sys m y
  end.
(** a x + b y, sample by sample *)
Definition combine_signals (a b : K) (x y : list K) : list K := map2 (fun u v => radd (rmul a u) (rmul b v)) x y.
(** [x] preceded by [d] zeros *)
Definition delay (d : Z) (x : list K) : list K := repeat r0 (Z.to_nat d) ++ x.
(** coefficients of the product of two polynomials *)
Definition poly_mul (a b : list K) : list K := tab (lenZ a + lenZ b - 1) (fun k => sumZ 0 (lenZ a) (fun i => rmul (at0 a i) (at0 b (k - i)))).
(** numerator and denominator of a cascade multiplied out *)
Fixpoint product_tf (sys : list (biquad K)) : tf K :=
  match sys with
  | [] => mkTf [r1] [r1]
  | b :: sys => let p := product_tf sys in
      let '(b0, b1, b2) := bnum b in let '(a0, a1) := bden b in
      mkTf (poly_mul [b0; b1; b2] (numerator p)) (poly_mul [a0; a1; r1] (denominator p))
  end.
End Spec.

Section Bridge.
Context {K : CField}.
Lemma de_obeys (num den x y : list K) : difference_equation num den x y <-> obeys num den x y.
Proof. reflexivity. Qed.
Lemma sys_ok_of (sys : tf K) ord : proper_system sys -> order_suffices sys ord -> sys_ok sys ord.
Proof.
  intros [H1 H2] [H3 H4]. unfold tf_order, poly_order in H4. pose proof (lenZ_nonneg (numerator sys)).
  unfold sys_ok. destruct (lenZ (numerator sys) =? 0) eqn:E1, (lenZ (denominator sys) =? 0) eqn:E2; repeat split; try assumption; lia.
Qed.
Lemma turn_chain (sys : list (biquad K)) : forall x y, sections_in_turn sys x y <-> chain sys x y.
Proof.
  induction sys as [|b sys IH]; intros x y; cbn [sections_in_turn chain]; [reflexivity|].
  split; intros (m & H1 & H2); exists m; (split; [|now apply IH]); revert H1; unfold bq_num, bq_den; destruct (bnum b) as [[? ?] ?], (bden b); exact (fun h => h).
Qed.
Lemma poly_mul_convl (a b : list K) : 0 < lenZ a -> 0 < lenZ b -> poly_mul a b = convl a b.
Proof. intros. unfold poly_mul, convl. replace ((lenZ a =? 0) || (lenZ b =? 0)) with false by lia. reflexivity. Qed.
Lemma product_prod (sys : list (biquad K)) : product_tf sys = mkTf (prod_num sys) (prod_den sys).
Proof.
  induction sys as [|b sys IH]; [reflexivity|]. cbn [product_tf prod_num prod_den]. rewrite IH. cbn [numerator denominator].
  pose proof (len_prod sys) as [L1 L2]. pose proof (lenZ_nonneg sys).
  unfold bq_num, bq_den. destruct (bnum b) as [[b0 b1] b2], (bden b) as [a0 a1].
  rewrite !poly_mul_convl; [reflexivity| | | |]; try lia; reflexivity.
Qed.
End Bridge.

(** ** C20 *)
Theorem C20_direct_form_I_obeys_difference_equation (K : CField) (sys : tf K) (ord : Z) (x : list K) :
  proper_system sys -> order_suffices sys ord ->
  okP (Filter_df1 sys x (df1_new ord)) (fun r => difference_equation (numerator sys) (denominator sys) x (fst r)).
Proof. intros H1 H2. apply df1_fresh; [apply H2|now apply sys_ok_of]. Qed.
(** ... and no other output does *)
Theorem C20_difference_equation_has_one_solution (K : CField) (sys : tf K) (x y y' : list K) :
  proper_system sys ->
  difference_equation (numerator sys) (denominator sys) x y -> difference_equation (numerator sys) (denominator sys) x y' -> y = y'.
Proof. intros H. apply (obeys_unique (K := K)). exact H. Qed.
(** the system is rejected when the realization is too small, whatever the input *)
Theorem C20_too_small_order_is_rejected (K : CField) (sys : tf K) (ord : Z) (x : list K) :
  0 <= ord < tf_order sys -> Filter_df1 sys x (df1_new ord) = UB /\ Filter_df2 sys x (df2_new ord) = UB.
Proof.
  intros H. unfold Filter_df1, Filter_df2. rewrite !iir_filter_feeds.
  destruct (df1_new_hist (K := K) ord ltac:(lia)) as (L1 & L2 & _). destruct (df2_new_hist (K := K) ord ltac:(lia)) as (L3 & _).
  unfold df1_pre, df2_pre, df1_order, df2_order. rewrite L1, L2, L3.
  replace (tf_order sys <=? ord) with false by lia.
  replace (tf_order sys <=? (if ord + 1 =? 0 then 0 else ord + 1 - 1)) with false by (destruct (ord + 1 =? 0) eqn:E; lia).
  rewrite !andb_false_r. split; reflexivity.
Qed.
Print Assumptions C20_direct_form_I_obeys_difference_equation.
Print Assumptions C20_difference_equation_has_one_solution.
Print Assumptions C20_too_small_order_is_rejected.

(** ** C21 *)
(** with leading denominator coefficient 1 (what every design function of the library produces) the forms agree,
    whatever the two orders; the general statement is refuted below *)
Theorem C21_direct_form_II_equals_I_partial (K : CField) (sys : tf K) (ord1 ord2 : Z) (x : list K) :
  proper_system sys -> at0 (denominator sys) (lenZ (denominator sys) - 1) = r1 ->
  order_suffices sys ord1 -> order_suffices sys ord2 ->
  exists y s1 s2, Filter_df1 sys x (df1_new ord1) = Ok (y, s1) /\ Filter_df2 sys x (df2_new ord2) = Ok (y, s2).
Proof.
  intros H1 Hm H2 H3.
  destruct (df1_fresh sys ord1 x ltac:(apply H2) (sys_ok_of _ _ H1 H2)) as ([y s1] & E1 & O1).
  destruct (df2_fresh sys ord2 x ltac:(apply H3) (sys_ok_of _ _ H1 H3)) as ([y' s2] & E2 & O2). cbn [fst] in *.
  destruct (norm_monic (numerator sys) (denominator sys) ltac:(apply H1) Hm) as [N1 N2]. rewrite N1, N2 in O2.
  assert (y' = y) by (eapply (obeys_unique (K := K)); [exact H1|exact O2|exact O1]). subst y'.
  exists y, s1, s2. auto.
Qed.
(** what direct form II computes for any leading coefficient: the lower denominator coefficients are not normalised *)
Theorem C21_direct_form_II_general (K : CField) (sys : tf K) (ord : Z) (x : list K) :
  proper_system sys -> order_suffices sys ord ->
  let lead := at0 (denominator sys) (lenZ (denominator sys) - 1) in
  okP (Filter_df2 sys x (df2_new ord)) (fun r =>
    difference_equation (map (fun b => rmul b (fdiv r1 lead)) (numerator sys))
                        (updZ (denominator sys) (lenZ (denominator sys) - 1) r1) x (fst r)).
Proof. intros H1 H2. apply df2_fresh; [apply H2|now apply sys_ok_of]. Qed.
Lemma deq_first_order (b a0 a1 : R) (x y : list R) n : deq (K := Rfield) [b] [a1; a0] x y n ->
  (a0 * at0 (K := Rring) y n + a1 * at0 (K := Rring) y (n - 1) = b * at0 (K := Rring) x n)%R.
Proof.
  unfold deq, lin. change (lenZ [a1; a0]) with 2. change (lenZ [b]) with 1.
  rewrite (sumZ_first 0 2), (sumZ_first (0 + 1) 2), (sumZ_empty _ 2), (sumZ_first 0 1), sumZ_empty by lia.
  change (0 + 1) with 1. change (2 - 1 - 0) with 1. change (2 - 1 - 1) with 0. change (1 - 1 - 0) with 0. rewrite !Z.sub_0_r.
  change (at0 (K := Rfield) [b] 0) with b. change (at0 (K := Rfield) [a1; a0] 1) with a0. change (at0 (K := Rfield) [a1; a0] 0) with a1.
  change (@r0 (fring Rfield)) with 0%R. change (@radd (fring Rfield)) with Rplus. change (@rmul (fring Rfield)) with Rmult. intros H.
  transitivity (a0 * at0 (K := Rring) y n + (a1 * at0 (K := Rring) y (n - 1) + 0))%R; [ring|].
  transitivity (b * at0 (K := Rring) x n + 0)%R; [exact H|ring].
Qed.
(** H = 1 / (1 + 2 z): the forms differ *)
Theorem C21_direct_form_II_equals_I_refuted :
  exists (sys : tf Rfield) (ord : Z) (x y1 y2 : list Rfield) s1 s2, proper_system sys /\ order_suffices sys ord /\
    Filter_df1 sys x (df1_new ord) = Ok (y1, s1) /\ Filter_df2 sys x (df2_new ord) = Ok (y2, s2) /\ y1 <> y2.
Proof.
  set (sys := mkTf (K := Rfield) [1%R] [1%R; 2%R]). set (x := [1%R; 0%R] : list Rfield).
  assert (P : proper_system sys) by (split; [reflexivity|]; change (2%R <> 0%R); lra).
  assert (O : order_suffices sys 1) by (split; cbn; lia).
  destruct (df1_fresh sys 1 x ltac:(lia) (sys_ok_of _ _ P O)) as ([y s1] & E1 & [_ O1]).
  destruct (df2_fresh sys 1 x ltac:(lia) (sys_ok_of _ _ P O)) as ([y' s2] & E2 & [_ O2]). cbn [fst] in *.
  exists sys, 1, x, y, y', s1, s2. split; [exact P|]. split; [exact O|]. split; [exact E1|]. split; [exact E2|].
  intros <-. pose proof (O1 0 ltac:(cbn; lia)) as A. pose proof (O1 1 ltac:(cbn; lia)) as B.
  pose proof (O2 0 ltac:(cbn; lia)) as C. pose proof (O2 1 ltac:(cbn; lia)) as D.
  apply (deq_first_order 1 2 1) in A. apply (deq_first_order 1 2 1) in B.
  apply (deq_first_order (1 * (1 / 2)) 1 1) in C. apply (deq_first_order (1 * (1 / 2)) 1 1) in D.
  change (0 - 1) with (-1) in *. change (1 - 1) with 0 in *.
  change (at0 (K := Rring) y (-1)) with 0%R in A, C. change (at0 (K := Rring) x 0) with 1%R in *. change (at0 (K := Rring) x 1) with 0%R in *. lra.
Qed.
Print Assumptions C21_direct_form_II_equals_I_partial.
Print Assumptions C21_direct_form_II_general.
Print Assumptions C21_direct_form_II_equals_I_refuted.

(** ** C22 *)
(** [CascadedForm(ord)] has room for [(ord + 1) / 2] sections *)
Theorem C22_cascade_runs_the_sections_in_turn (K : CField) (sys : list (biquad K)) (ord : Z) (x : list K) :
  0 <= ord -> lenZ sys <= (ord + 1) / 2 ->
  okP (Filter_cf sys x (cf_new ord)) (fun r => lenZ (fst r) = lenZ x /\ sections_in_turn sys x (fst r)).
Proof.
  intros H1 H2. eapply okP_imp; [apply cf_fresh; [exact H1|lia]|]. cbn beta. intros r [L H]. split; [exact L|now apply turn_chain].
Qed.
(** the cascade and direct form I on the multiplied-out polynomials produce the same samples *)
Theorem C22_cascade_equals_direct_form_I_of_product (K : CField) (sys : list (biquad K)) (ord ord1 : Z) (x : list K) :
  0 <= ord -> lenZ sys <= (ord + 1) / 2 -> 2 * lenZ sys <= ord1 < 2 ^ 64 - 1 ->
  exists y s1 s2, Filter_cf sys x (cf_new ord) = Ok (y, s1) /\ Filter_df1 (product_tf sys) x (df1_new ord1) = Ok (y, s2).
Proof.
  intros H1 H2 H3. destruct (cf_fresh sys ord x H1 ltac:(lia)) as ([y s1] & E1 & L & Hc). cbn [fst] in *.
  apply chain_obeys in Hc. rewrite product_prod. pose proof (len_prod sys) as [L1 L2]. pose proof (lenZ_nonneg sys).
  pose proof (leads_prod sys) as Hl.
  assert (P : proper_system (mkTf (prod_num sys) (prod_den sys))) by exact Hl.
  assert (O : order_suffices (mkTf (prod_num sys) (prod_den sys)) ord1).
  { split; [lia|]. unfold tf_order, poly_order. cbn [numerator denominator]. rewrite L1, L2. destruct (2 * lenZ sys + 1 =? 0) eqn:E; lia. }
  destruct (df1_fresh _ ord1 x ltac:(lia) (sys_ok_of _ _ P O)) as ([y' s2] & E2 & O2). cbn [fst numerator denominator] in *.
  assert (y' = y) by (eapply (obeys_unique (K := K)); [exact Hl|exact O2|exact Hc]). subst y'. exists y, s1, s2. auto.
Qed.
Theorem C22_too_many_sections_are_rejected (K : CField) (sys : list (biquad K)) (ord : Z) (v : K) (x : list K) :
  0 <= ord -> (ord + 1) / 2 < lenZ sys -> Filter_cf sys (v :: x) (cf_new ord) = UB.
Proof.
  intros H1 H2. unfold Filter_cf. rewrite iir_filter_feeds. cbn [assert_ feeds]. unfold cf_step at 1, gcf_step at 1.
  destruct (cf_new_zero (K := K) ord H1) as [L _]. rewrite L. replace (lenZ sys + 1 <=? 1 + (ord + 1) / 2) with false by lia. reflexivity.
Qed.
Print Assumptions C22_cascade_runs_the_sections_in_turn.
Print Assumptions C22_cascade_equals_direct_form_I_of_product.
Print Assumptions C22_too_many_sections_are_rejected.

(** ** C23 *)
(** Every state the API can produce. [order(n)], [reset()] and feeding any system and signal, in any order *)
Inductive df1_reachable {K : CField} : Z -> df1 K -> Prop :=
| df1_r_new ord : 0 <= ord -> df1_reachable ord (df1_new ord)
| df1_r_order ord s n : df1_reachable ord s -> 0 <= n -> df1_reachable n (df1_set_order s n)
| df1_r_reset ord s : df1_reachable ord s -> df1_reachable ord (df1_reset s)
| df1_r_feed ord s sys x y s' : df1_reachable ord s -> Filter_df1 sys x s = Ok (y, s') -> df1_reachable ord s'.
Inductive df2_reachable {K : CField} : Z -> list K -> Prop :=
| df2_r_new ord : 0 <= ord -> df2_reachable ord (df2_new ord)
| df2_r_order ord s n : df2_reachable ord s -> 0 <= n -> df2_reachable n (df2_set_order s n)
| df2_r_reset ord s : df2_reachable ord s -> df2_reachable ord (df2_reset s)
| df2_r_feed ord s sys x y s' : df2_reachable ord s -> Filter_df2 sys x s = Ok (y, s') -> df2_reachable ord s'.
Inductive cf_reachable {K : CField} : Z -> list (arr3 K) -> Prop :=
| cf_r_new ord : 0 <= ord -> cf_reachable ord (cf_new ord)
| cf_r_order ord s n : cf_reachable ord s -> 0 <= n -> cf_reachable n (cf_set_order s n)
| cf_r_reset ord s : cf_reachable ord s -> cf_reachable ord (cf_reset s)
| cf_r_feed ord s sys x y s' : cf_reachable ord s -> Filter_cf sys x s = Ok (y, s') -> cf_reachable ord s'.

Lemma lenZ_vresize {A} (l : list A) n v : 0 <= n -> lenZ (vresize l n v) = n.
Proof. intros. unfold vresize. rewrite lenZ_app, lenZ_firstn, lenZ_repeat. pose proof (lenZ_nonneg l). lia. Qed.
Lemma map_const_repeat {A B} (l : list A) (v : B) n : lenZ l = n -> map (fun _ => v) l = repeat v (Z.to_nat n).
Proof. intros <-. unfold lenZ. rewrite Nat2Z.id. induction l as [|a l IH]; cbn; [reflexivity|]. now rewrite IH. Qed.
Lemma filter_inv {K : CField} {S} pre (step : K -> S -> outcome (K * S)) x s y s' :
  IirFilter pre step x s = Ok (y, s') -> pre = true /\ feeds step x s = Ok (y, s').
Proof. rewrite iir_filter_feeds. apply assert_inv. Qed.
Lemma df1_reachable_len {K : CField} ord (s : df1 K) : df1_reachable ord s -> 0 <= ord /\ lenZ (rec1 s) = ord /\ lenZ (fw1 s) = ord + 1.
Proof.
  induction 1 as [ord H|ord s n Hs IH Hn|ord s Hs IH|ord s sys x y s' Hs IH E].
  - split; [exact H|]. destruct (df1_new_hist (K := K) ord H) as (L1 & L2 & _). auto.
  - split; [exact Hn|]. unfold df1_set_order, gdf1_set_order. cbn [rec1 fw1]. rewrite !lenZ_vresize by lia. auto.
  - unfold df1_reset, gdf1_reset. cbn [rec1 fw1]. now rewrite !lenZ_map.
  - split; [apply IH|]. apply filter_inv in E as [_ E].
    apply (feeds_preserves (df1_step sys) (fun s => lenZ (rec1 s) = ord /\ lenZ (fw1 s) = ord + 1) x s y s'); [|tauto|exact E].
    intros v q w q' [P1 P2] Eq. apply df1_step_len in Eq as [Q1 Q2]. lia.
Qed.
Lemma df2_reachable_len {K : CField} ord (s : list K) : df2_reachable ord s -> 0 <= ord /\ lenZ s = ord + 1.
Proof.
  induction 1 as [ord H|ord s n Hs IH Hn|ord s Hs IH|ord s sys x y s' Hs IH E].
  - split; [exact H|]. now destruct (df2_new_hist (K := K) ord H) as (L1 & _).
  - split; [exact Hn|]. unfold df2_set_order, gdf2_set_order. rewrite !lenZ_vresize by lia. auto.
  - unfold df2_reset, gdf2_reset. now rewrite !lenZ_map.
  - split; [apply IH|]. apply filter_inv in E as [_ E].
    apply (feeds_preserves (df2_step sys) (fun s => lenZ s = ord + 1) x s y s'); [|tauto|exact E].
    intros v q w q' P1 Eq. apply df2_step_len in Eq. lia.
Qed.
Lemma cf_step_len {K : CField} sys (v : K) s w s' : cf_step sys v s = Ok (w, s') -> lenZ s' = lenZ s.
Proof.
  intros H. destruct (Z_le_gt_dec (lenZ sys + 1) (lenZ s)) as [L|L].
  - rewrite cf_step_casc in H by exact L. assert (E : s' = snd (casc sys v s)) by (injection H; intros G; now rewrite G).
    rewrite E. apply casc_len.
  - unfold cf_step, gcf_step in H. replace (lenZ sys + 1 <=? lenZ s) with false in H by lia. discriminate.
Qed.
Lemma cf_reachable_len {K : CField} ord (s : list (arr3 K)) : cf_reachable ord s -> 0 <= ord /\ lenZ s = 1 + (ord + 1) / 2.
Proof.
  induction 1 as [ord H|ord s n Hs IH Hn|ord s Hs IH|ord s sys x y s' Hs IH E].
  - split; [exact H|]. now destruct (cf_new_zero (K := K) ord H) as (L1 & _).
  - split; [exact Hn|]. unfold cf_set_order, gcf_set_order. rewrite !lenZ_vresize by lia. auto.
  - unfold cf_reset, gcf_reset. now rewrite !lenZ_map.
  - split; [apply IH|]. apply filter_inv in E as [_ E].
    apply (feeds_preserves (cf_step sys) (fun s => lenZ s = 1 + (ord + 1) / 2) x s y s'); [|tauto|exact E].
    intros v q w q' P1 Eq. apply cf_step_len in Eq. lia.
Qed.

(** reset: as freshly constructed, after any history *)
Theorem C23_reset_direct_form_I (K : CField) ord (s : df1 K) : df1_reachable ord s -> df1_reset s = df1_new ord /\ df1_order s = ord.
Proof.
  intros H. apply df1_reachable_len in H as (H & L1 & L2). split; [|exact L1].
  unfold df1_reset, df1_new, df1_set_order, gdf1_reset, gdf1_new, gdf1_set_order. cbn [rec1 fw1]. rewrite !vresize_nil. f_equal; now apply map_const_repeat.
Qed.
Theorem C23_reset_direct_form_II (K : CField) ord (s : list K) : df2_reachable ord s -> df2_reset s = df2_new ord /\ df2_order s = ord.
Proof.
  intros H. apply df2_reachable_len in H as (H & L1). split.
  - unfold df2_reset, df2_new, df2_set_order, gdf2_reset, gdf2_new, gdf2_set_order. rewrite !vresize_nil. now apply map_const_repeat.
  - unfold df2_order. rewrite L1. destruct (ord + 1 =? 0) eqn:E; lia.
Qed.
(** (CascadedForm::order() rounds an odd order up to the next even one) *)
Theorem C23_reset_cascaded_form (K : CField) ord (s : list (arr3 K)) : cf_reachable ord s -> cf_reset s = cf_new ord /\ cf_order s = 2 * ((ord + 1) / 2).
Proof.
  intros H. apply cf_reachable_len in H as (H & L1). split.
  - unfold cf_reset, cf_new, cf_set_order, gcf_reset, gcf_new, gcf_set_order. rewrite !vresize_nil. now apply map_const_repeat.
  - unfold cf_order. rewrite L1. lia.
Qed.
(** from every reachable state, admissible systems run without error *)
Theorem C23_direct_form_I_never_fails (K : CField) ord (s : df1 K) (sys : tf K) (x : list K) :
  df1_reachable ord s -> proper_system sys -> order_suffices sys ord ->
  okP (Filter_df1 sys x s) (fun r => lenZ (fst r) = lenZ x /\ df1_reachable ord (snd r)).
Proof.
  intros Hr P O. pose proof (df1_reachable_len _ _ Hr) as (H & L1 & L2).
  set (hx := fw1 s). set (hy := repeat r0 1 ++ rec1 s).
  assert (Hh : df1_hist s ord hx hy).
  { repeat split; try assumption.
    - unfold hy, hx. rewrite lenZ_app, lenZ_repeat. lia.
    - intros i Hi. unfold hy. rewrite lenZ_app, lenZ_repeat, at0_app, lenZ_repeat.
      replace (Z.of_nat 1 + lenZ (rec1 s) - ord + i <? Z.of_nat 1) with false by lia. f_equal. lia.
    - intros i Hi. unfold hx. f_equal. lia. }
  destruct (df1_feeds_spec sys ord x s hx hy (sys_ok_of _ _ P O) Hh) as ([y s'] & E & L & _). cbn [fst] in L.
  assert (Ef : Filter_df1 sys x s = Ok (y, s')).
  { unfold Filter_df1. rewrite iir_filter_feeds, E. destruct O as [_ O]. unfold df1_pre, df1_order. rewrite L1, L2.
    replace (negb (ord + 1 =? 0) && (tf_order sys <=? ord)) with true by lia. reflexivity. }
  exists (y, s'). split; [exact Ef|]. split; [exact L|]. eapply df1_r_feed; eassumption.
Qed.
Theorem C23_direct_form_II_never_fails (K : CField) ord (s : list K) (sys : tf K) (x : list K) :
  df2_reachable ord s -> proper_system sys -> order_suffices sys ord ->
  okP (Filter_df2 sys x s) (fun r => lenZ (fst r) = lenZ x /\ df2_reachable ord (snd r)).
Proof.
  intros Hr P O. pose proof (df2_reachable_len _ _ Hr) as (H & L1).
  assert (Hh : df2_hist s ord s) by (split; [exact L1|]; intros i Hi; f_equal; lia).
  destruct (df2_feeds_spec sys ord x s s (sys_ok_of _ _ P O) Hh) as ([y s'] & E & L & _). cbn [fst] in L.
  assert (Ef : Filter_df2 sys x s = Ok (y, s')).
  { unfold Filter_df2. rewrite iir_filter_feeds, E. destruct O as [_ O]. unfold df2_pre, df2_order. rewrite L1.
    replace (negb (ord + 1 =? 0) && (tf_order sys <=? (if ord + 1 =? 0 then 0 else ord + 1 - 1))) with true by (destruct (ord + 1 =? 0) eqn:?; lia). reflexivity. }
  exists (y, s'). split; [exact Ef|]. split; [exact L|]. eapply df2_r_feed; eassumption.
Qed.
Theorem C23_cascaded_form_never_fails (K : CField) ord (s : list (arr3 K)) (sys : list (biquad K)) (x : list K) :
  cf_reachable ord s -> lenZ sys <= (ord + 1) / 2 ->
  okP (Filter_cf sys x s) (fun r => lenZ (fst r) = lenZ x /\ cf_reachable ord (snd r)).
Proof.
  intros Hr O. pose proof (cf_reachable_len _ _ Hr) as (H & L1).
  assert (G : forall q, lenZ q = lenZ s -> okP (feeds (cf_step sys) x q) (fun r => lenZ (fst r) = lenZ x)).
  { induction x as [|v x IH]; intros q Lq; cbn [feeds]; [apply okP_ret; reflexivity|].
    rewrite cf_step_casc by lia. cbn [bind]. destruct (casc sys v q) as [o q'] eqn:Ec. pose proof (casc_len sys q v) as L'. rewrite Ec in L'. cbn [snd] in L'.
    eapply okP_bind; [apply (IH q'); lia|]. cbn beta. intros [ys q2] L. cbn [fst] in L. apply okP_ret. cbn [fst]. rewrite !lenZ_cons. lia. }
  destruct (G s eq_refl) as ([y s'] & E & L). cbn [fst] in L.
  assert (Ef : Filter_cf sys x s = Ok (y, s')) by (unfold Filter_cf; rewrite iir_filter_feeds; exact E).
  exists (y, s'). split; [exact Ef|]. split; [exact L|]. eapply cf_r_feed; eassumption.
Qed.

(** block by block = in one call; the blocks may have any sizes, zero included, the state may be any *)
Definition same_by_blocks {K : Type} {S} (filter : list K -> S -> outcome (list K * S)) : Prop :=
  forall (blocks : list (list K)) (s : S) y s', filter (concat blocks) s = Ok (y, s') ->
    exists ys, run_blocks filter blocks s = Ok (ys, s') /\ concat ys = y /\ map (@lenZ K) ys = map (@lenZ K) blocks.
Theorem C23_blocks_direct_form_I (K : CField) (sys : tf K) : same_by_blocks (Filter_df1 sys).
Proof.
  intros blocks s y s' H. destruct (blocks_generic r0 (fun s => df1_pre s sys) (df1_step sys) blocks s y s') as ([ys q] & E & C & L & Q); [|exact H|].
  - intros v q w q' P Eq. apply df1_step_len in Eq as [Q1 Q2]. unfold df1_pre, df1_order in *. now rewrite Q1, Q2.
  - cbn [fst snd] in *. subst q. exists ys. auto.
Qed.
Theorem C23_blocks_direct_form_II (K : CField) (sys : tf K) : same_by_blocks (Filter_df2 sys).
Proof.
  intros blocks s y s' H. destruct (blocks_generic r0 (fun s => df2_pre s sys) (df2_step sys) blocks s y s') as ([ys q] & E & C & L & Q); [|exact H|].
  - intros v q w q' P Eq. apply df2_step_len in Eq. unfold df2_pre, df2_order in *. now rewrite Eq.
  - cbn [fst snd] in *. subst q. exists ys. auto.
Qed.
Theorem C23_blocks_cascaded_form (K : CField) (sys : list (biquad K)) : same_by_blocks (Filter_cf sys).
Proof.
  intros blocks s y s' H. destruct (blocks_generic r0 (fun _ => true) (cf_step sys) blocks s y s') as ([ys q] & E & C & L & Q); [|exact H|].
  - reflexivity.
  - cbn [fst snd] in *. subst q. exists ys. auto.
Qed.

(** the first samples of the output depend on the first samples of the input only *)
Definition causal {K : Type} {S} (filter : list K -> S -> outcome (list K * S)) : Prop :=
  forall (a b : list K) (s : S) y s', filter (a ++ b) s = Ok (y, s') -> exists sa, filter a s = Ok (firstn (length a) y, sa).
Theorem C23_causal (K : CField) :
  (forall sys : tf K, causal (Filter_df1 sys)) /\ (forall sys : tf K, causal (Filter_df2 sys)) /\ (forall sys : list (biquad K), causal (Filter_cf sys)).
Proof.
  repeat split; intros sys a b s y s' H; destruct (causal_generic _ _ _ _ _ _ _ _ H) as (ya & sa & E & ->); exists sa; exact E.
Qed.
(** in place, or over an array holding anything, the samples are the same *)
Theorem C23_output_array_irrelevant (K : CField) S (pre : bool) (step : K -> S -> outcome (K * S)) (out signal : list K) (s : S) :
  lenZ out = lenZ signal -> IirFilterInto pre step out signal s = IirFilter pre step signal s /\
  assert_ pre (feed_loop_inplace step signal s) = IirFilter pre step signal s.
Proof.
  intros L. rewrite iir_filter_feeds, feed_loop_inplace_feeds. split; [|reflexivity].
  unfold IirFilterInto. rewrite feed_loop_feeds by exact L. replace (lenZ out =? lenZ signal) with true by lia. reflexivity.
Qed.
(** sample by sample = in one call *)
Theorem C23_single_samples (K : CField) (sys : tf K) (v : K) (s : df1 K) (s2 : list K) :
  Filter_df1 sys [v] s = (do (y, s) <- df1_feed sys v s; Ok ([y], s)) /\
  Filter_df2 sys [v] s2 = (do (y, s) <- df2_feed sys v s2; Ok ([y], s)).
Proof.
  unfold Filter_df1, Filter_df2, df1_feed, df2_feed. rewrite !iir_filter_feeds. cbn [feeds bind]. split.
  - destruct (df1_pre s sys); [|reflexivity]. cbn [assert_]. now destruct (df1_step sys v s) as [[w q]|e|].
  - destruct (df2_pre s2 sys); [|reflexivity]. cbn [assert_]. now destruct (df2_step sys v s2) as [[w q]|e|].
Qed.

(** linear and time-invariant, from the fresh state *)
Definition lti {K : CField} {S} (filter : list K -> outcome (list K * S)) : Prop :=
  (forall x x' a b, lenZ x' = lenZ x -> exists y y' s s' s'',
     filter x = Ok (y, s) /\ filter x' = Ok (y', s') /\ filter (combine_signals a b x x') = Ok (combine_signals a b y y', s'')) /\
  (forall x d, 0 <= d -> exists y s s', filter x = Ok (y, s) /\ filter (delay d x) = Ok (delay d y, s')).
Lemma lti_generic {K : CField} {S} (filter : list K -> outcome (list K * S)) num den :
  leads den -> (forall x, okP (filter x) (fun r => obeys num den x (fst r))) -> lti filter.
Proof.
  intros Hl H. split.
  - intros x x' a b L. destruct (H x) as ([y s] & E & O). destruct (H x') as ([y' s'] & E' & O'). destruct (H (combine_signals a b x x')) as ([y'' s''] & E'' & O''). cbn [fst] in *.
    exists y, y', s, s', s''. split; [exact E|]. split; [exact E'|]. rewrite E''. do 2 f_equal.
    eapply (obeys_unique (K := K)); [exact Hl|exact O''|]. now apply obeys_comb.
  - intros x d Hd. destruct (H x) as ([y s] & E & O). destruct (H (delay d x)) as ([y' s'] & E' & O'). cbn [fst] in *.
    exists y, s, s'. split; [exact E|]. rewrite E'. do 2 f_equal. eapply (obeys_unique (K := K)); [exact Hl|exact O'|]. now apply obeys_delayed.
Qed.
Theorem C23_linear_time_invariant_direct_form_I (K : CField) (sys : tf K) ord : proper_system sys -> order_suffices sys ord ->
  lti (fun x => Filter_df1 sys x (df1_new ord)).
Proof. intros P O. eapply lti_generic; [exact P|]. intros x. apply df1_fresh; [apply O|now apply sys_ok_of]. Qed.
Theorem C23_linear_time_invariant_direct_form_II (K : CField) (sys : tf K) ord : proper_system sys -> order_suffices sys ord ->
  lti (fun x => Filter_df2 sys x (df2_new ord)).
Proof. intros P O. eapply lti_generic; [apply leads_norm; exact P|]. intros x. apply df2_fresh; [apply O|now apply sys_ok_of]. Qed.
Theorem C23_linear_time_invariant_cascaded_form (K : CField) (sys : list (biquad K)) ord : 0 <= ord -> lenZ sys <= (ord + 1) / 2 ->
  lti (fun x => Filter_cf sys x (cf_new ord)).
Proof.
  intros H1 H2. eapply lti_generic; [apply leads_prod|]. intros x. eapply okP_imp; [apply cf_fresh; [exact H1|lia]|].
  cbn beta. intros r [_ H]. apply chain_obeys. exact H.
Qed.
Print Assumptions C23_reset_direct_form_I.
Print Assumptions C23_reset_direct_form_II.
Print Assumptions C23_reset_cascaded_form.
Print Assumptions C23_direct_form_I_never_fails.
Print Assumptions C23_direct_form_II_never_fails.
Print Assumptions C23_cascaded_form_never_fails.
Print Assumptions C23_blocks_direct_form_I.
Print Assumptions C23_blocks_direct_form_II.
Print Assumptions C23_blocks_cascaded_form.
Print Assumptions C23_causal.
Print Assumptions C23_output_array_irrelevant.
Print Assumptions C23_single_samples.
Print Assumptions C23_linear_time_invariant_direct_form_I.
Print Assumptions C23_linear_time_invariant_direct_form_II.
Print Assumptions C23_linear_time_invariant_cascaded_form.

(** ** Concrete instances *)
Example C20_nontrivial : let sys := mkTf (K := Rfield) [3%R; 1%R] [1%R; 0%R; 2%R] in proper_system sys /\ order_suffices sys 2 /\ order_suffices sys 5.
Proof. split; [split; [reflexivity|change (2%R <> 0%R); lra]|]. split; split; cbn; lia. Qed.
Example C21_nontrivial : let sys := mkTf (K := Rfield) [3%R; 1%R] [(1/2)%R; 0%R; 1%R] in
  proper_system sys /\ at0 (denominator sys) (lenZ (denominator sys) - 1) = (r1 : Rfield) /\ order_suffices sys 2.
Proof. split; [split; [reflexivity|change (1%R <> 0%R); lra]|]. split; [reflexivity|]. split; cbn; lia. Qed.
Example C22_nontrivial : let sys := [mkBq (K := Rfield) (1, 2, 1)%R (1/2, 0)%R 2 2; mkBq (K := Rfield) (0, 1, 1)%R (0, 1/2)%R 1 1] in
  lenZ sys <= (3 + 1) / 2 /\ 2 * lenZ sys <= 4 < 2 ^ 64 - 1.
Proof. cbn. lia. Qed.
(** reachable, nonzero states exist *)
Example C23_nontrivial : exists (s : df1 Rfield), df1_reachable 2 s /\ proper_system (mkTf (K := Rfield) [1%R] [1%R; 1%R]) /\ at0 (K := Rfield) (fw1 s) 2 = 5%R.
Proof.
  set (sys := mkTf (K := Rfield) [1%R] [1%R; 1%R]).
  assert (P : proper_system sys) by (split; [reflexivity|change (1%R <> 0%R); lra]).
  assert (O : order_suffices sys 2) by (split; cbn; lia).
  destruct (df1_feeds_spec sys 2 [5%R] (df1_new 2) [] [] (sys_ok_of _ _ P O) (df1_new_hist 2 ltac:(lia))) as ([y s'] & E & L & H & _).
  exists s'. split; [|split; [exact P|]].
  - eapply df1_r_feed; [apply df1_r_new; lia|]. unfold Filter_df1. rewrite iir_filter_feeds. rewrite E. reflexivity.
  - destruct H as (_ & _ & _ & _ & A). cbn [snd] in A. rewrite A by lia. reflexivity.
Qed.
