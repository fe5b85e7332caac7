(** C62, C63: what the reductions compute in floating-point arithmetic. *)
From Verif Require Import Base BaseFacts KernelModel KernelProofs FloatSpec ReduceTree FloatSum FloatIeee.
From Coq Require Import Reals Lra Lia List ZArith Arith Psatz.
From Flocq Require Import Core BinarySingleNaN.
Import ListNotations.
Local Open Scope R_scope.

(** * C62: the operator need not be associative or commutative *)
(** [plain_redop r op]: [r] is the operator [op], std::plus or any other, without compensation.
    [some_order op red]: the std:: algorithm / horizontal reduction [red] combines its arguments in
    an order of its choice.  An element goes through at most this many applications: *)
Definition depth_bound (W : Z) (vec : bool) (n : Z) : nat :=
  if vec then 3 + Z.to_nat (n / W / 8) + 2 * Z.to_nat W else 3 + Z.to_nat (n / 8).

Theorem C62_reduce_combines_each_once : forall K (op : K -> K -> K) (r : redop K) batch tail W vec (l : list K) init,
  (r = Plain op \/ r = Plus op) -> some_order op batch -> some_order op tail -> (1 <= W)%Z ->
  exists v, ReduceWith batch tail W vec r l init = Ok v /\
            combined op (depth_bound W vec (lenZ l)) v (init :: l).
Proof. intros. now apply (Reduce_tree op batch tail r W vec). Qed.
Print Assumptions C62_reduce_combines_each_once.

Theorem C62_transform_reduce_combines_each_once : forall T K (op : K -> K -> K) (r : redop K) batch tail W vec (f : T -> K) (l : list T) init,
  (r = Plain op \/ r = Plus op) -> some_order op batch -> some_order op tail -> (1 <= W)%Z ->
  exists v, TransformReduceWith batch tail W vec r f l init = Ok v /\
            combined op (depth_bound W vec (lenZ l)) v (init :: map f l).
Proof. intros. now apply (TransformReduce_tree op batch tail r W vec). Qed.
Print Assumptions C62_transform_reduce_combines_each_once.

Theorem C62_inner_product_combines_each_once : forall T1 T2 K (op : K -> K -> K) (r : redop K) batch tail W vec (prod : T1 -> T2 -> K) a b init,
  (r = Plain op \/ r = Plus op) -> some_order op batch -> some_order op tail -> (1 <= W)%Z -> (lenZ a <= lenZ b)%Z ->
  exists v, InnerProductWith batch tail W vec r prod a b init = Ok v /\
            combined op (depth_bound W vec (lenZ a)) v (init :: map (fun p => prod (fst p) (snd p)) (combine a b)).
Proof. intros. now apply (InnerProduct_tree op batch tail r W vec). Qed.
Print Assumptions C62_inner_product_combines_each_once.

(** the functions of the exact model (C09) are the left-to-right instances *)
Theorem C62_left_to_right_is_an_order : forall K (op : K -> K -> K) (r : redop K), (r = Plain op \/ r = Plus op) ->
  some_order op (batch_of r) /\ some_order op (fold_left (op_of r)).
Proof.
  intros K op r [-> | ->]; cbn [batch_of op_of]; split; try apply fold_left_some_order. apply ReduceBatchPlus_some_order.
Qed.
Print Assumptions C62_left_to_right_is_an_order.

(** ** IEEE-754 *)
Section Ieee.
Variables prec emax : Z.
Context (Hprec : Prec_gt_0 prec) (Hmax : Prec_lt_emax prec emax).
Notation float := (binary_float prec emax).
(** rounding to nearest: relative error 2^-prec; products also lose half the smallest number *)
Notation u := (bpow radix2 (- prec)).
Notation eta := (bpow radix2 (3 - emax - prec)).
Notation overflow := (bpow radix2 emax).
Definition exact_sum (l : list float) : R := fold_right Rplus 0 (map B2R l).
Definition abs_sum (l : list float) : R := fold_right Rplus 0 (map (fun x => Rabs (B2R x)) l).
Definition all_finite (l : list float) : Prop := forall x, In x l -> is_finite x = true.

Lemma approx_out g (v : float) l : approx B2R (finite prec emax) g v l ->
  is_finite v = true /\ Rabs (B2R v - exact_sum l) <= (g - 1) * abs_sum l.
Proof. intros H. exact H. Qed.
Lemma u_nonneg : 0 <= u. Proof. apply bpow_ge_0. Qed.

Theorem C62_sum_error : forall (r : redop float) batch tail W vec (l : list float) init,
  (r = Plain (Bplus mode_NE) \/ r = Plus (Bplus mode_NE)) ->
  some_order (Bplus mode_NE) batch -> some_order (Bplus mode_NE) tail -> (1 <= W)%Z ->
  all_finite (init :: l) ->
  let D := depth_bound W vec (lenZ l) in
  (1 + u) ^ D * abs_sum (init :: l) < overflow ->
  exists v, ReduceWith batch tail W vec r l init = Ok v /\ is_finite v = true /\
            Rabs (B2R v - exact_sum (init :: l)) <= ((1 + u) ^ D - 1) * abs_sum (init :: l).
Proof.
  intros r batch tail W vec l init Hr Hb Ht HW Hf D HM.
  destruct (C62_reduce_combines_each_once float (Bplus mode_NE) r batch tail W vec l init Hr Hb Ht HW) as (v & E & C).
  exists v. split; [exact E|]. apply approx_out.
  apply (combined_sum B2R (finite prec emax) _ (ur prec) (huge emax) u_nonneg (fadd_err prec emax Hprec Hmax) _ _ _ C Hf HM).
Qed.

Theorem C62_transformed_sum_error : forall T (f : T -> float) (r : redop float) batch tail W vec (l : list T) init,
  (r = Plain (Bplus mode_NE) \/ r = Plus (Bplus mode_NE)) ->
  some_order (Bplus mode_NE) batch -> some_order (Bplus mode_NE) tail -> (1 <= W)%Z ->
  all_finite (init :: map f l) ->
  let D := depth_bound W vec (lenZ l) in
  (1 + u) ^ D * abs_sum (init :: map f l) < overflow ->
  exists v, TransformReduceWith batch tail W vec r f l init = Ok v /\ is_finite v = true /\
            Rabs (B2R v - exact_sum (init :: map f l)) <= ((1 + u) ^ D - 1) * abs_sum (init :: map f l).
Proof.
  intros T f r batch tail W vec l init Hr Hb Ht HW Hf D HM.
  destruct (C62_transform_reduce_combines_each_once T float (Bplus mode_NE) r batch tail W vec f l init Hr Hb Ht HW) as (v & E & C).
  exists v. split; [exact E|]. apply approx_out.
  apply (combined_sum B2R (finite prec emax) _ (ur prec) (huge emax) u_nonneg (fadd_err prec emax Hprec Hmax) _ _ _ C Hf HM).
Qed.

(** ** inner products: the products are rounded too *)
Definition exact_dot (a b : list float) : R := fold_right Rplus 0 (map (fun p => B2R (fst p) * B2R (snd p)) (combine a b)).
Definition abs_dot (a b : list float) : R := fold_right Rplus 0 (map (fun p => Rabs (B2R (fst p) * B2R (snd p))) (combine a b)).

Lemma products (a b : list float) : all_finite a -> all_finite b ->
  (1 + u) * abs_dot a b + IZR (lenZ a) * (eta / 2) < overflow ->
  let ps := map2 (Bmult mode_NE) a b in
  all_finite ps /\ abs_sum ps <= (1 + u) * abs_dot a b + IZR (lenZ a) * (eta / 2) /\
  Rabs (exact_sum ps - exact_dot a b) <= u * abs_dot a b + IZR (lenZ a) * (eta / 2).
Proof.
  pose proof u_nonneg as Hu. assert (He : 0 <= eta) by apply bpow_ge_0.
  cbn zeta. revert b; induction a as [|x a IH]; intros b Fa Fb HM.
  - unfold all_finite, abs_sum, exact_sum, exact_dot, abs_dot. cbn. repeat split; [tauto| |]; rewrite ?Rminus_0_r, ?Rabs_R0; lra.
  - rewrite lenZ_cons, plus_IZR in *. assert (Hl : 0 <= IZR (lenZ a)) by (apply (IZR_le 0), lenZ_nonneg).
    assert (Hle : 0 <= IZR (lenZ a) * (eta / 2)) by (apply Rmult_le_pos; lra).
    destruct b as [|y b].
    + unfold all_finite, abs_sum, exact_sum, exact_dot, abs_dot in *. cbn in *. repeat split; [tauto| |]; rewrite ?Rminus_0_r, ?Rabs_R0; lra.
    + rewrite map2_cons. change (abs_dot (x :: a) (y :: b)) with (Rabs (B2R x * B2R y) + abs_dot a b) in *.
      change (exact_dot (x :: a) (y :: b)) with (B2R x * B2R y + exact_dot a b).
      set (p := Bmult mode_NE x y). set (ps := map2 (Bmult mode_NE) a b).
      change (abs_sum (p :: ps)) with (Rabs (B2R p) + abs_sum ps). change (exact_sum (p :: ps)) with (B2R p + exact_sum ps).
      assert (N1 : 0 <= abs_dot a b).
      { unfold abs_dot. apply (sumR_nonneg). intros z Hz. apply in_map_iff in Hz as (q & <- & _). apply Rabs_pos. }
      assert (N2 : 0 <= u * abs_dot a b) by (apply Rmult_le_pos; lra).
      pose proof (Rabs_pos (B2R x * B2R y)) as N3. assert (N4 : 0 <= u * Rabs (B2R x * B2R y)) by (apply Rmult_le_pos; lra).
      destruct (IH b) as (F & A & E); [intros z Hz; apply Fa; now right|intros z Hz; apply Fb; now right|lra|].
      fold ps in F, A, E.
      destruct (fmul_err prec emax Hprec Hmax x y) as [Fp Ep].
      { apply Fa; now left. } { apply Fb; now left. } { unfold ur, tiny, huge. lra. }
      unfold finite, fmul, ur, tiny in Fp, Ep. fold p in Fp, Ep.
      repeat split.
      * intros z [<-|Hz]; auto.
      * assert (Rabs (B2R p) <= Rabs (B2R p - B2R x * B2R y) + Rabs (B2R x * B2R y)); [|lra].
        replace (B2R p) with ((B2R p - B2R x * B2R y) + B2R x * B2R y) at 1 by ring. apply Rabs_triang.
      * replace (B2R p + exact_sum ps - (B2R x * B2R y + exact_dot a b)) with ((B2R p - B2R x * B2R y) + (exact_sum ps - exact_dot a b)) by ring.
        eapply Rle_trans; [apply Rabs_triang|]. lra.
Qed.

(** from the sum of the rounded products to the sum of the exact ones *)
Lemma dot_error (Q : float -> Prop) c g (init : float) a b : 1 <= c -> 1 <= g ->
  all_finite a -> all_finite b -> is_finite init = true ->
  c * (g * (1 + u) * (Rabs (B2R init) + abs_dot a b) + g * (IZR (lenZ a) * (eta / 2))) < overflow ->
  (all_finite (init :: map2 (Bmult mode_NE) a b) -> c * (g * abs_sum (init :: map2 (Bmult mode_NE) a b)) < overflow ->
   exists v, Q v /\ is_finite v = true /\ Rabs (B2R v - exact_sum (init :: map2 (Bmult mode_NE) a b)) <= (g - 1) * abs_sum (init :: map2 (Bmult mode_NE) a b)) ->
  exists v, Q v /\ is_finite v = true /\
  Rabs (B2R v - (B2R init + exact_dot a b)) <=
    (g * (1 + u) - 1) * (Rabs (B2R init) + abs_dot a b) + g * (IZR (lenZ a) * (eta / 2)).
Proof.
  intros Hc Hg Fa Fb Fi HM H. pose proof u_nonneg as Hu. assert (He : 0 <= eta) by apply bpow_ge_0.
  assert (Hl : 0 <= IZR (lenZ a)) by (apply (IZR_le 0), lenZ_nonneg).
  set (E := IZR (lenZ a) * (eta / 2)) in *. assert (HE0 : 0 <= E) by (apply Rmult_le_pos; lra).
  set (X := abs_dot a b) in *. set (I := Rabs (B2R init)) in *. assert (HI : 0 <= I) by apply Rabs_pos.
  assert (HX : 0 <= X).
  { unfold X, abs_dot. apply (sumR_nonneg). intros z Hz. apply in_map_iff in Hz as (q & <- & _). apply Rabs_pos. }
  assert (HuX : 0 <= u * X) by (apply Rmult_le_pos; lra). assert (HuI : 0 <= u * I) by (apply Rmult_le_pos; lra).
  set (T := (1 + u) * (I + X)). assert (HT : 0 <= T) by (unfold T; lra).
  assert (EG : g * (1 + u) * (I + X) + g * E = g * (T + E)) by (unfold T; ring). rewrite EG in HM.
  assert (HgT : T + E <= g * (T + E)) by nra.
  assert (HcT : g * (T + E) <= c * (g * (T + E))) by nra.
  destruct (products a b Fa Fb) as (F & A & Er); [fold X E; unfold T in *; lra|]. fold X E in A, Er.
  set (ps := map2 (Bmult mode_NE) a b) in *.
  change (abs_sum (init :: ps)) with (I + abs_sum ps) in H. change (exact_sum (init :: ps)) with (B2R init + exact_sum ps) in H.
  assert (HA : I + abs_sum ps <= T + E) by (unfold T; lra).
  destruct H as (v & Qv & Fv & Ev).
  - intros z [<-|Hz]; auto.
  - eapply Rle_lt_trans; [apply Rmult_le_compat_l; [lra|apply Rmult_le_compat_l; [lra|exact HA]]|exact HM].
  - exists v. split; [exact Qv|]. split; [exact Fv|].
    replace (B2R v - (B2R init + exact_dot a b)) with ((B2R v - (B2R init + exact_sum ps)) + (exact_sum ps - exact_dot a b)) by ring.
    eapply Rle_trans; [apply Rabs_triang|].
    assert ((g - 1) * (I + abs_sum ps) <= (g - 1) * (T + E)) by (apply Rmult_le_compat_l; lra). unfold T in *. lra.
Qed.

Theorem C62_inner_product_error : forall (r : redop float) batch tail W vec (a b : list float) init,
  (r = Plain (Bplus mode_NE) \/ r = Plus (Bplus mode_NE)) ->
  some_order (Bplus mode_NE) batch -> some_order (Bplus mode_NE) tail -> (1 <= W)%Z -> (lenZ a <= lenZ b)%Z ->
  all_finite a -> all_finite b -> is_finite init = true ->
  let D := depth_bound W vec (lenZ a) in
  (1 + u) ^ (D + 1) * (Rabs (B2R init) + abs_dot a b) + (1 + u) ^ D * (IZR (lenZ a) * (eta / 2)) < overflow ->
  exists v, InnerProductWith batch tail W vec r (Bmult mode_NE) a b init = Ok v /\ is_finite v = true /\
    Rabs (B2R v - (B2R init + exact_dot a b)) <=
      ((1 + u) ^ (D + 1) - 1) * (Rabs (B2R init) + abs_dot a b) + (1 + u) ^ D * (IZR (lenZ a) * (eta / 2)).
Proof.
  intros r batch tail W vec a b init Hr Hb Ht HW Hab Fa Fb Fi D HM.
  destruct (C62_inner_product_combines_each_once float float float (Bplus mode_NE) r batch tail W vec (Bmult mode_NE) a b init Hr Hb Ht HW Hab) as (v & E & C).
  rewrite pow_add, pow_1 in *. apply (dot_error (fun v => InnerProductWith batch tail W vec r (Bmult mode_NE) a b init = Ok v) 1); auto; [lra| |lra|].
  - apply (pow1u_ge1 u u_nonneg).
  - intros Ff HMM. rewrite Rmult_1_l in HMM. exists v. split; [exact E|]. apply approx_out.
    apply (combined_sum B2R (finite prec emax) _ (ur prec) (huge emax) u_nonneg (fadd_err prec emax Hprec Hmax) _ _ _ C Ff HMM).
Qed.

(** * C63: compensated summation loses only a constant number of roundoffs *)
(** the error factor: (2W + 3) plain additions, and 6 roundoffs plus a second-order term for the
    compensated loop of m steps *)
Definition comp_gain (W : Z) (vec : bool) (n : Z) : R :=
  let m := IZR (if vec then n / W / 8 else n / 8)%Z in
  (1 + u) ^ (if vec then 3 + 2 * Z.to_nat W else 3)%nat * (1 + 6 * u + 14 * m * u ^ 2).
Definition comp_iterations (W : Z) (vec : bool) (n : Z) : Z := if vec then n / W / 8 else n / 8.

Lemma comp_gain_factor W vec n : (1 <= W)%Z -> (0 <= n)%Z -> comp_gain W vec n = comp_factor u W vec n.
Proof.
  intros HW Hn. unfold comp_gain, comp_factor, kfac.
  assert (H1 : (0 <= n / W / 8)%Z) by (apply Z.div_pos; [apply Z.div_pos|]; lia). assert (H2 : (0 <= n / 8)%Z) by (apply Z.div_pos; lia).
  destruct vec; rewrite INR_IZR_INZ, Z2Nat.id by lia; ring.
Qed.
Lemma zero_ok : finite prec emax (B754_zero false) /\ B2R (B754_zero false : float) = 0.
Proof. split; reflexivity. Qed.
Lemma prec_u : (10 <= prec)%Z -> 0 <= u <= 1 / 1000.
Proof.
  intros H. split; [apply bpow_ge_0|]. apply Rle_trans with (bpow radix2 (- 10)); [apply bpow_le; lia|].
  change (bpow radix2 (-10)) with (/ IZR 1024). lra.
Qed.

Notation csum := (Comp (Bplus mode_NE) (Bminus mode_NE) (B754_zero false : float)).
Lemma comp_any batch tail W vec lds ldv (x : Z -> float) n init :
  some_order (Bplus mode_NE) batch -> some_order (Bplus mode_NE) tail -> (1 <= W)%Z -> (0 <= n)%Z -> (10 <= prec)%Z ->
  (forall k, (0 <= k < n)%Z -> lds k = Ok (x k)) ->
  (forall k, (0 <= k)%Z -> (k + W <= n)%Z -> ldv k = Ok (tab W (fun j => x (k + j)%Z))) ->
  all_finite (init :: tab n x) ->
  3 * (comp_gain W vec n * abs_sum (init :: tab n x)) < overflow ->
  IZR (comp_iterations W vec n) * u <= 1 ->
  exists v, reduce_top_with batch tail W vec csum lds ldv n init = Ok v /\ is_finite v = true /\
            Rabs (B2R v - exact_sum (init :: tab n x)) <= (comp_gain W vec n - 1) * abs_sum (init :: tab n x).
Proof.
  intros Hb Ht HW Hn Hp Hs Hv Hf HM Hm. pose proof (prec_u Hp) as Hu. rewrite comp_gain_factor in * by assumption.
  destruct (reduce_top_comp B2R (finite prec emax) (fadd prec emax Hprec Hmax) (fsub prec emax Hprec Hmax) (B754_zero false) (ur prec) (huge emax) Hu
     (fadd_err prec emax Hprec Hmax) (fsub_err prec emax Hprec Hmax) zero_ok batch tail W vec lds ldv x n init Hb Ht HW Hn Hs Hv) as (v & E & A).
  - apply Hf; now left.
  - intros k Hk. apply Hf. right. unfold tab. apply in_map_iff. exists (Z.to_nat k). split; [now rewrite Z2Nat.id by lia|]. apply in_seq. lia.
  - exact HM.
  - exact Hm.
  - exists v. split; [exact E|]. apply approx_out. exact A.
Qed.

Theorem C63_compensated_sum_error : forall batch tail W vec (l : list float) init,
  some_order (Bplus mode_NE) batch -> some_order (Bplus mode_NE) tail -> (1 <= W)%Z -> (10 <= prec)%Z ->
  all_finite (init :: l) ->
  let g := comp_gain W vec (lenZ l) in
  3 * (g * abs_sum (init :: l)) < overflow ->
  IZR (comp_iterations W vec (lenZ l)) * u <= 1 ->
  exists v, ReduceWith batch tail W vec csum l init = Ok v /\ is_finite v = true /\
            Rabs (B2R v - exact_sum (init :: l)) <= (g - 1) * abs_sum (init :: l).
Proof.
  intros batch tail W vec l init Hb Ht HW Hp Hf g HM Hm. pose proof (lenZ_nonneg l) as Hn.
  assert (ET : tab (lenZ l) (val_at init (fun x : float => x) l) = l) by (rewrite tab_val_at, map_id; reflexivity).
  set (x := val_at init (fun x : float => x) l) in *.
  pose proof (comp_any batch tail W vec (fun i => rd l i) (fun i => slice l i W) x (lenZ l) init Hb Ht HW Hn Hp) as H.
  rewrite ET in H. apply H; try assumption.
  - intros k Hk. pose proof (rd_val_at init (fun x : float => x) l k Hk) as R1.
    destruct (rd l k) eqn:E; cbn [bind] in R1; [rewrite R1; reflexivity|discriminate|discriminate].
  - intros k Hk Hl. pose proof (slice_val_at W init HW (fun x : float => x) l k Hk Hl) as R1.
    destruct (slice l k W); cbn [bind] in R1; [|discriminate|discriminate]. now rewrite map_id in R1.
Qed.

Theorem C63_compensated_transformed_sum_error : forall T (f : T -> float) batch tail W vec (l : list T) init,
  some_order (Bplus mode_NE) batch -> some_order (Bplus mode_NE) tail -> (1 <= W)%Z -> (10 <= prec)%Z ->
  all_finite (init :: map f l) ->
  let g := comp_gain W vec (lenZ l) in
  3 * (g * abs_sum (init :: map f l)) < overflow ->
  IZR (comp_iterations W vec (lenZ l)) * u <= 1 ->
  exists v, TransformReduceWith batch tail W vec csum f l init = Ok v /\ is_finite v = true /\
            Rabs (B2R v - exact_sum (init :: map f l)) <= (g - 1) * abs_sum (init :: map f l).
Proof.
  intros T f batch tail W vec l init Hb Ht HW Hp Hf g HM Hm. pose proof (lenZ_nonneg l) as Hn.
  unfold TransformReduceWith, g in *. rewrite <- (tab_val_at init f l) in *. apply comp_any; try assumption.
  - intros k Hk. now apply rd_val_at.
  - intros k Hk Hl. now apply slice_val_at.
Qed.

Theorem C63_compensated_inner_product_error : forall batch tail W vec (a b : list float) init,
  some_order (Bplus mode_NE) batch -> some_order (Bplus mode_NE) tail -> (1 <= W)%Z -> (10 <= prec)%Z -> (lenZ a <= lenZ b)%Z ->
  all_finite a -> all_finite b -> is_finite init = true ->
  let g := comp_gain W vec (lenZ a) in
  3 * (g * (1 + u) * (Rabs (B2R init) + abs_dot a b) + g * (IZR (lenZ a) * (eta / 2))) < overflow ->
  IZR (comp_iterations W vec (lenZ a)) * u <= 1 ->
  exists v, InnerProductWith batch tail W vec csum (Bmult mode_NE) a b init = Ok v /\ is_finite v = true /\
    Rabs (B2R v - (B2R init + exact_dot a b)) <=
      (g * (1 + u) - 1) * (Rabs (B2R init) + abs_dot a b) + g * (IZR (lenZ a) * (eta / 2)).
Proof.
  intros batch tail W vec a b init Hb Ht HW Hp Hab Fa Fb Fi g HM Hm. pose proof (lenZ_nonneg a) as Hn.
  assert (Hg : 1 <= g).
  { unfold g. rewrite comp_gain_factor by assumption. unfold comp_factor. pose proof u_nonneg as Hu.
    destruct vec; pose proof (pow1u_ge1 u Hu (3 + 2 * Z.to_nat W)); pose proof (pow1u_ge1 u Hu 3);
      [pose proof (kfac_ge1 u Hu (Z.to_nat (lenZ a / W / 8)))|pose proof (kfac_ge1 u Hu (Z.to_nat (lenZ a / 8)))]; nra. }
  pose proof (tab_prod_at init (@Bmult prec emax _ _ mode_NE) a b Hab) as ET.
  apply (dot_error (fun v => InnerProductWith batch tail W vec csum (Bmult mode_NE) a b init = Ok v) 3); auto; [lra|]. intros Ff HMM.
  rewrite <- ET in Ff, HMM |- *. apply comp_any; try assumption.
  - intros k Hk. now apply rd_prod_at.
  - intros k Hk Hl. now apply slice_prod_at.
Qed.
End Ieee.
Print Assumptions C62_sum_error.
Print Assumptions C62_transformed_sum_error.
Print Assumptions C62_inner_product_error.
Print Assumptions C63_compensated_sum_error.
Print Assumptions C63_compensated_transformed_sum_error.
Print Assumptions C63_compensated_inner_product_error.

(** ** readable consequences *)
Lemma pow_second_order (x : R) n : 0 <= x -> INR n * x <= 1 -> (1 + x) ^ n <= 1 + INR n * x + (INR n * x) ^ 2.
Proof.
  intros Hx. induction n as [|n IH]; intros Hn; [cbn; lra|]. rewrite S_INR in *. cbn [pow] in *.
  pose proof (pos_INR n) as Hp. assert (H1 : INR n * x <= 1) by nra. specialize (IH H1).
  set (N := INR n) in *. assert (0 <= N * x) by nra.
  apply Rle_trans with ((1 + x) * (1 + N * x + N * x * (N * x * 1))); [apply Rmult_le_compat_l; lra|].
  assert (N * x * (N * x) * x <= N * x * x) by (rewrite <- (Rmult_1_r (N * x)) at 3; apply Rmult_le_compat_r; nra).
  assert (0 <= x * x) by nra. lra.
Qed.
(** to first order, a plain sum of n elements loses one roundoff per 8W elements *)
Theorem C62_sum_error_first_order : forall prec emax (Hprec : Prec_gt_0 prec) (Hmax : Prec_lt_emax prec emax)
    (r : redop (binary_float prec emax)) batch tail W vec l init,
  (r = Plain (Bplus mode_NE) \/ r = Plus (Bplus mode_NE)) ->
  some_order (Bplus mode_NE) batch -> some_order (Bplus mode_NE) tail -> (1 <= W)%Z ->
  all_finite prec emax (init :: l) ->
  let x := INR (depth_bound W vec (lenZ l)) * bpow radix2 (- prec) in
  x <= 1 -> 3 * abs_sum prec emax (init :: l) < bpow radix2 emax ->
  exists v, ReduceWith batch tail W vec r l init = Ok v /\ is_finite v = true /\
            Rabs (B2R v - exact_sum prec emax (init :: l)) <= (x + x ^ 2) * abs_sum prec emax (init :: l).
Proof.
  intros prec emax Hprec Hmax r batch tail W vec l init Hr Hb Ht HW Hf x Hx HM.
  pose proof (vabs_nonneg B2R (init :: l)) as HA. change (vabs B2R (init :: l)) with (abs_sum prec emax (init :: l)) in HA.
  pose proof (pow_second_order (bpow radix2 (- prec)) _ (bpow_ge_0 _ _) Hx) as HP. fold x in HP.
  assert (H0 : 0 <= x) by (unfold x; apply Rmult_le_pos; [apply pos_INR|apply bpow_ge_0]).
  assert (x ^ 2 <= 1) by (cbn [pow]; nra).
  destruct (C62_sum_error prec emax Hprec Hmax r batch tail W vec l init Hr Hb Ht HW Hf) as (v & E & Fv & Ev).
  - eapply Rle_lt_trans; [apply Rmult_le_compat_r; [exact HA|exact HP]|]. nra.
  - exists v. repeat split; try assumption. eapply Rle_trans; [exact Ev|]. apply Rmult_le_compat_r; [exact HA|lra].
Qed.
Print Assumptions C62_sum_error_first_order.

(** in double precision with up to 8 lanes, a compensated sum of up to 2^48 W elements is exact up to
    2^-48 of the sum of the absolute values, however many elements there are *)
Theorem C63_double_precision : forall (Hprec : Prec_gt_0 53) (Hmax : Prec_lt_emax 53 1024) batch tail W (l : list (binary_float 53 1024)) init,
  some_order (Bplus mode_NE) batch -> some_order (Bplus mode_NE) tail -> (1 <= W <= 8)%Z -> (lenZ l / W / 8 <= 2 ^ 45)%Z ->
  all_finite 53 1024 (init :: l) ->
  4 * abs_sum 53 1024 (init :: l) < bpow radix2 1024 ->
  exists v, ReduceWith batch tail W true (Comp (Bplus mode_NE) (Bminus mode_NE) (B754_zero false)) l init = Ok v /\ is_finite v = true /\
            Rabs (B2R v - exact_sum 53 1024 (init :: l)) <= bpow radix2 (- 48) * abs_sum 53 1024 (init :: l).
Proof.
  intros Hprec Hmax batch tail W l init Hb Ht HW Hl Hf HM.
  pose proof (vabs_nonneg B2R (init :: l)) as HA. change (vabs B2R (init :: l)) with (abs_sum 53 1024 (init :: l)) in HA.
  assert (Hu : bpow radix2 (- 53) = / IZR (2 ^ 53)) by reflexivity.
  assert (H45 : IZR (lenZ l / W / 8) <= IZR (2 ^ 45)) by now apply IZR_le.
  pose proof (lenZ_nonneg l) as Hn.
  assert (Hm0 : 0 <= IZR (lenZ l / W / 8)) by (apply IZR_le; apply Z.div_pos; [apply Z.div_pos|]; lia).
  assert (Hu1 : 0 < bpow radix2 (- 53) <= 1 / 100000000) by (rewrite Hu; change (2 ^ 53)%Z with 9007199254740992%Z; lra).
  set (u := bpow radix2 (- 53)) in *.
  assert (Hmu : IZR (lenZ l / W / 8) * u <= 1 / 256).
  { apply Rle_trans with (IZR (2 ^ 45) * u); [apply Rmult_le_compat_r; lra|]. rewrite Hu.
    change (2 ^ 45)%Z with 35184372088832%Z. change (2 ^ 53)%Z with 9007199254740992%Z. lra. }
  assert (HG : comp_gain 53 W true (lenZ l) <= 1 + 32 * u).
  { unfold comp_gain. cbv zeta iota. fold u. set (m := IZR (lenZ l / W / 8)) in *.
    assert (HD : (3 + 2 * Z.to_nat W <= 19)%nat) by lia.
    assert (HP : (1 + u) ^ (3 + 2 * Z.to_nat W) <= (1 + u) ^ 19) by (apply Rle_pow; [lra|exact HD]).
    assert (HQ : (1 + u) ^ 19 <= 1 + 20 * u).
    { assert (E19 : INR 19 = 19) by (cbn; lra). assert (H19 : INR 19 * u <= 1) by (rewrite E19; lra).
      pose proof (pow_second_order u 19 ltac:(lra) H19) as HS. rewrite E19 in HS.
      assert (u * u <= 1 / 100000000 * u) by (apply Rmult_le_compat_r; lra). cbn [pow] in HS |- *. lra. }
    assert (HR : 1 + 6 * u + 14 * m * u ^ 2 <= 1 + 7 * u).
    { assert (m * u * u <= 1 / 256 * u) by (apply Rmult_le_compat_r; lra). cbn [pow]. lra. }
    assert (H0 : 0 <= (1 + u) ^ (3 + 2 * Z.to_nat W)) by (apply pow_le; lra).
    assert (H1 : 0 <= 1 + 6 * u + 14 * m * u ^ 2).
    { assert (0 <= m * u ^ 2) by (apply Rmult_le_pos; [lra|apply pow_le; lra]). lra. }
    apply Rle_trans with ((1 + 20 * u) * (1 + 7 * u)); [apply Rmult_le_compat; [exact H0|exact H1|exact (Rle_trans _ _ _ HP HQ)|exact HR]|]. assert (u * u <= 1 / 100000000 * u) by (apply Rmult_le_compat_r; lra). lra. }
  destruct (C63_compensated_sum_error 53 1024 Hprec Hmax batch tail W true l init Hb Ht ltac:(lia) ltac:(lia) Hf) as (v & E & Fv & Ev).
  - assert (comp_gain 53 W true (lenZ l) * abs_sum 53 1024 (init :: l) <= (1 + 32 * u) * abs_sum 53 1024 (init :: l)) by (apply Rmult_le_compat_r; lra).
    assert (u * abs_sum 53 1024 (init :: l) <= 1 / 100000000 * abs_sum 53 1024 (init :: l)) by (apply Rmult_le_compat_r; lra). lra.
  - apply Rle_trans with (1 / 256); [exact Hmu|lra].
  - exists v. repeat split; try assumption. eapply Rle_trans; [exact Ev|]. apply Rmult_le_compat_r; [exact HA|].
    replace (bpow radix2 (- 48)) with (32 * u); [lra|].
    change (bpow radix2 (- 48)) with (/ IZR 281474976710656). rewrite Hu. change (2 ^ 53)%Z with 9007199254740992%Z. lra.
Qed.
Print Assumptions C63_double_precision.

(** ** the hypotheses are met by ordinary inputs, and rounding does happen *)
#[local] Instance p24 : Prec_gt_0 24. Proof. reflexivity. Qed.
#[local] Instance e128 : Prec_lt_emax 24 128. Proof. reflexivity. Qed.
Definition b32 (m : Z) (e : Z) : binary_float 24 128 := binary_normalize 24 128 p24 e128 mode_NE m e false.
Lemma b32_big : B2R (b32 1 27) = 134217728.
Proof. rewrite <- SF2R_B2SF. replace (B2SF (b32 1 27)) with (SpecFloat.S754_finite false 8388608 4) by (vm_compute; reflexivity). unfold SF2R, F2R. cbn. lra. Qed.
Lemma b32_one : B2R (b32 1 0) = 1.
Proof. rewrite <- SF2R_B2SF. replace (B2SF (b32 1 0)) with (SpecFloat.S754_finite false 8388608 (-23)) by (vm_compute; reflexivity). unfold SF2R, F2R. cbn. lra. Qed.
Lemma big_sum : abs_sum 24 128 (b32 1 27 :: repeat (b32 1 0) 16) = 134217744.
Proof. unfold abs_sum. cbn [map repeat fold_right]. rewrite b32_big, b32_one, !Rabs_pos_eq by lra. lra. Qed.
Lemma big_fin : all_finite 24 128 (b32 1 27 :: repeat (b32 1 0) 16).
Proof. intros x Hx. cbn [In repeat] in Hx. repeat (destruct Hx as [<-|Hx]; [vm_compute; reflexivity|]). contradiction. Qed.
(** 2^27 and sixteen ones, in single precision: the plain sum loses all of the ones (each group of
    eight rounds back to 2^27), the compensated one is exact *)
Example C62_nontrivial :
  (match ReduceWith (fold_left (Bplus mode_NE)) (fold_left (Bplus mode_NE)) 4 false (Plus (Bplus mode_NE)) (repeat (b32 1 0) 16) (b32 1 27) with
   | Ok v => B2SF v = B2SF (b32 1 27) | _ => False end) /\
  (match ReduceWith (fold_left (Bplus mode_NE)) (fold_left (Bplus mode_NE)) 2 true (Plus (Bplus mode_NE)) (repeat (b32 1 0) 45) (b32 1 27) with
   | Ok v => B2SF v = B2SF (b32 (2 ^ 27 + 32) 0) | _ => False end) /\
  some_order (@Bplus 24 128 _ _ mode_NE) (fold_left (Bplus mode_NE)) /\
  all_finite 24 128 (b32 1 27 :: repeat (b32 1 0) 16) /\
  (1 + bpow radix2 (-24)) ^ depth_bound 4 false 16 * abs_sum 24 128 (b32 1 27 :: repeat (b32 1 0) 16) < bpow radix2 128.
Proof.
  split; [vm_compute; reflexivity|]. split; [vm_compute; reflexivity|]. split; [apply fold_left_some_order|].
  split; [exact big_fin|]. rewrite big_sum. change (depth_bound 4 false 16) with 5%nat.
  change (bpow radix2 (-24)) with (/ 16777216). change (bpow radix2 128) with 340282366920938463463374607431768211456. lra.
Qed.
Example C63_nontrivial :
  (match ReduceWith (fold_left (Bplus mode_NE)) (fold_left (Bplus mode_NE)) 4 false (Comp (Bplus mode_NE) (Bminus mode_NE) (B754_zero false)) (repeat (b32 1 0) 16) (b32 1 27) with
   | Ok v => B2SF v = B2SF (b32 (2 ^ 27 + 16) 0) | _ => False end) /\
  all_finite 24 128 (b32 1 27 :: repeat (b32 1 0) 16) /\
  3 * (comp_gain 24 4 false 16 * abs_sum 24 128 (b32 1 27 :: repeat (b32 1 0) 16)) < bpow radix2 128 /\
  IZR (comp_iterations 4 false 16) * bpow radix2 (-24) <= 1.
Proof.
  split; [vm_compute; reflexivity|]. split; [exact big_fin|]. rewrite big_sum. unfold comp_gain, comp_iterations. cbv zeta iota.
  change (16 / 8)%Z with 2%Z.
  change (- (24))%Z with (-24)%Z. change (bpow radix2 (-24)) with (/ 16777216). change (bpow radix2 128) with 340282366920938463463374607431768211456.
  split; lra.
Qed.
