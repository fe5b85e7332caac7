(** Property theorems C01, C02 (Interval). *)
From Verif Require Import Base IntervalModel IntervalProofs.

(* C01 *)
Theorem C01_disjoint_iff_no_common_point : forall a b,
  IsDisjoint a b = true <-> ~ exists x, has_point a x /\ has_point b x.
Proof. exact disjoint_iff. Qed.
Print Assumptions C01_disjoint_iff_no_common_point.

Theorem C01_intersection_is_set_intersection : forall a b x,
  has_point (Intersection a b) x <-> has_point a x /\ has_point b x.
Proof. exact intersection_points. Qed.
Print Assumptions C01_intersection_is_set_intersection.

Theorem C01_empty_intersection_is_canonical : forall a b,
  (~ exists x, has_point a x /\ has_point b x) -> Intersection a b = mkI 0 0.
Proof. exact intersection_empty. Qed.
Print Assumptions C01_empty_intersection_is_canonical.

Theorem C01_encompassing_union_is_least : forall a b,
  subset a (EncompassingUnion a b) /\ subset b (EncompassingUnion a b) /\
  (nonempty a -> nonempty b -> forall c, subset a c -> subset b c -> subset (EncompassingUnion a b) c).
Proof. exact encompassing. Qed.
Print Assumptions C01_encompassing_union_is_least.

Theorem C01_union_is_set_union : forall a b,
  (forall u, Union a b = Some u -> forall x, has_point u x <-> has_point a x \/ has_point b x) /\
  (Union a b = None <-> ~ exists x, has_point a x /\ has_point b x).
Proof. exact union_some. Qed.
Print Assumptions C01_union_is_set_union.

Theorem C01_shift_translates : forall a d x,
  (has_point (shift_add a d) x <-> has_point a (x - d)) /\
  (has_point (shift_sub a d) x <-> has_point a (x + d)) /\
  size (shift_add a d) = size a /\ size (shift_sub a d) = size a /\
  shift_sub (shift_add a d) d = a.
Proof. exact shift_points. Qed.
Print Assumptions C01_shift_translates.

Example C01_nontrivial : nonempty (mkI 2 5) /\ nonempty (mkI 4 9) /\
  Union (mkI 2 5) (mkI 4 9) = Some (mkI 2 9) /\ IsDisjoint (mkI 2 5) (mkI 5 6) = true.
Proof. repeat split; [exists 2|exists 4]; unfold has_point; simpl; lia. Qed.

(* C02: full statement  forall a b, interval_eq a b = true <-> a = b  is false of the code: *)
Theorem C02_interval_equality_refuted : exists a b, interval_eq a b = true /\ a <> b.
Proof. exact eq_refuted. Qed.
Print Assumptions C02_interval_equality_refuted.

Theorem C02_interval_equality_reflexive_refuted : exists a, interval_eq a a = false.
Proof. exact eq_refuted2. Qed.
Print Assumptions C02_interval_equality_reflexive_refuted.

(* missing: last endpoints are never compared, and equality fails when last = 0 *)
Theorem C02_interval_equality_partial : forall a b,
  last a <> 0 -> a = b -> interval_eq a b = true /\ interval_ne a b = false.
Proof. exact eq_partial. Qed.
Print Assumptions C02_interval_equality_partial.

Theorem C02_interval_equality_exact_partial : forall a b,
  (interval_eq a b = true <-> first a = first b /\ last a <> 0 /\ last b <> 0) /\ interval_ne a b = negb (interval_eq a b).
Proof. intros a b. split; [|reflexivity]. unfold interval_eq, truth. rewrite !Bool.andb_true_iff, Z.eqb_eq, !Bool.negb_true_iff, !Z.eqb_neq. tauto. Qed.
Print Assumptions C02_interval_equality_exact_partial.

Theorem C02_interval_equality_first_partial : forall a b,
  interval_eq a b = true -> first a = first b.
Proof. exact eq_partial_first. Qed.
Print Assumptions C02_interval_equality_first_partial.

Example C02_nontrivial : last (mkI 3 7) <> 0.
Proof. discriminate. Qed.
