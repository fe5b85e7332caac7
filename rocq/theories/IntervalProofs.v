From Verif Require Import Base IntervalModel.
From Coq Require Import ZifyBool.

(** Specification: the half-open interval as a set of points. *)
Definition has_point (i : interval) (x : Z) : Prop := first i <= x < last i.
Definition nonempty (i : interval) : Prop := exists x, has_point i x.
Definition subset (a b : interval) : Prop := forall x, has_point a x -> has_point b x.

Ltac ic := unfold Union, IsDisjoint, Intersection, EncompassingUnion, has_point, size,
  shift_add, shift_sub, interval_ne, interval_eq, truth in *; cbn [first last] in *.

Lemma disjoint_iff a b : IsDisjoint a b = true <-> ~ exists x, has_point a x /\ has_point b x.
Proof.
  split.
  - intros H [x Hx]. ic. lia.
  - intros H. destruct (IsDisjoint a b) eqn:E; [reflexivity|exfalso].
    apply H. exists (Z.max (first a) (first b)). ic. lia.
Qed.
Lemma intersection_points a b x :
  has_point (Intersection a b) x <-> has_point a x /\ has_point b x.
Proof. ic. destruct (_ <? _) eqn:E; cbn [first last]; lia. Qed.
Lemma intersection_empty a b :
  (~ exists x, has_point a x /\ has_point b x) -> Intersection a b = mkI 0 0.
Proof. intros H. apply disjoint_iff in H. ic. now destruct (_ <? _). Qed.
Lemma encompassing a b :
  subset a (EncompassingUnion a b) /\ subset b (EncompassingUnion a b) /\
  (nonempty a -> nonempty b -> forall c, subset a c -> subset b c -> subset (EncompassingUnion a b) c).
Proof.
  unfold subset, nonempty. split; [|split].
  - intros x Hx. ic. lia.
  - intros x Hx. ic. lia.
  - intros [p Hp] [q Hq] c Ha Hb x Hx.
    pose proof (Ha (first a)) as A1. pose proof (Ha (last a - 1)) as A2.
    pose proof (Hb (first b)) as B1. pose proof (Hb (last b - 1)) as B2. ic. lia.
Qed.
Lemma union_some a b :
  (forall u, Union a b = Some u -> forall x, has_point u x <-> has_point a x \/ has_point b x) /\
  (Union a b = None <-> ~ exists x, has_point a x /\ has_point b x).
Proof.
  split.
  - intros u H x. unfold Union in H. destruct (IsDisjoint a b) eqn:E; [discriminate|].
    injection H as <-. ic. lia.
  - rewrite <- disjoint_iff. unfold Union. destruct (IsDisjoint a b); simpl; split; intros; congruence.
Qed.
Lemma shift_points a d x :
  (has_point (shift_add a d) x <-> has_point a (x - d)) /\
  (has_point (shift_sub a d) x <-> has_point a (x + d)) /\
  size (shift_add a d) = size a /\ size (shift_sub a d) = size a /\
  shift_sub (shift_add a d) d = a.
Proof.
  ic. repeat split; try lia. destruct a as [f l]; cbn [first last]. f_equal; lia.
Qed.
Lemma eq_refuted : exists a b, interval_eq a b = true /\ a <> b.
Proof. exists (mkI 1 2), (mkI 1 3). split; [reflexivity|discriminate]. Qed.
Lemma eq_refuted2 : exists a, interval_eq a a = false.
Proof. exists (mkI (-3) 0). reflexivity. Qed.
(** what the code as written does decide *)
Lemma eq_partial a b : last a <> 0 -> a = b -> interval_eq a b = true /\ interval_ne a b = false.
Proof. intros H <-. ic. split; lia. Qed.
Lemma eq_partial_first a b : interval_eq a b = true -> first a = first b.
Proof. ic. lia. Qed.
