(** Property theorems C03, C04, C05 (Rational).
    [M] is the largest value of the integer type; [val] the represented rational
    number (stdlib Q); [canonical]: positive denominator, lowest terms;
    [Ok] means: no assert failed and no integer overflowed. *)
From Coq Require Import QArith Qround.
From Verif Require Import Base RationalModel RationalProofs.
Open Scope Z_scope.

Theorem C03_construction_exact_canonical : forall M n d r, make M n d = Ok r ->
  0 < d /\ canonical r /\ (val r == Qmake n (Z.to_pos d))%Q.
Proof. exact make_val. Qed.
Print Assumptions C03_construction_exact_canonical.

Theorem C03_construction_total : forall M n d, 0 < d <= M -> Z.abs n <= M -> exists r, make M n d = Ok r.
Proof. exact make_fit. Qed.
Print Assumptions C03_construction_total.

Theorem C03_construction_rejects_nonpositive_denominator : forall M n d, d <= 0 -> make M n d = UB.
Proof. exact make_rejects. Qed.
Print Assumptions C03_construction_rejects_nonpositive_denominator.

Theorem C03_integer_construction : forall v, canonical (of_int v) /\ (val (of_int v) == inject_Z v)%Q.
Proof. exact of_int_canonical. Qed.
Print Assumptions C03_integer_construction.

Theorem C03_add_exact : forall M l r s, canonical l -> canonical r -> add M l r = Ok s ->
  canonical s /\ (val s == val l + val r)%Q.
Proof. exact add_val. Qed.
Print Assumptions C03_add_exact.

Theorem C03_sub_exact : forall M l r s, canonical l -> canonical r -> sub M l r = Ok s ->
  canonical s /\ (val s == val l - val r)%Q.
Proof. exact sub_val. Qed.
Print Assumptions C03_sub_exact.

Theorem C03_mul_exact : forall M l r s, canonical l -> canonical r -> mul M l r = Ok s ->
  canonical s /\ (val s == val l * val r)%Q.
Proof. exact mul_val. Qed.
Print Assumptions C03_mul_exact.

Theorem C03_div_exact : forall M l r s, canonical l -> canonical r -> div M l r = Ok s ->
  canonical s /\ ~ (val r == 0)%Q /\ (val s == val l / val r)%Q.
Proof. exact div_val. Qed.
Print Assumptions C03_div_exact.

Theorem C03_div_by_zero_rejected : forall M l r, num r = 0 -> div M l r = UB.
Proof. exact div_zero. Qed.
Print Assumptions C03_div_by_zero_rejected.

(** no overflow as long as twice the product of the magnitudes fits the type *)
Theorem C03_add_sub_total : forall M B l r, canonical l -> canonical r -> fits B l -> fits B r ->
  2 * B * B <= M -> (exists s, add M l r = Ok s) /\ (exists s, sub M l r = Ok s).
Proof. exact add_sub_fit. Qed.
Print Assumptions C03_add_sub_total.

Theorem C03_mul_total : forall M B l r, canonical l -> canonical r -> fits B l -> fits B r ->
  2 * B * B <= M -> exists s, mul M l r = Ok s.
Proof. exact mul_fit. Qed.
Print Assumptions C03_mul_total.

Theorem C03_div_total : forall M B l r, canonical l -> canonical r -> fits B l -> fits B r ->
  2 * B * B <= M -> num r <> 0 -> exists s, div M l r = Ok s.
Proof. exact div_fit. Qed.
Print Assumptions C03_div_total.

Theorem C03_add_int_exact : forall M l k s, canonical l -> add_int M l k = Ok s ->
  canonical s /\ (val s == val l + inject_Z k)%Q.
Proof. exact add_int_val. Qed.
Print Assumptions C03_add_int_exact.

Theorem C03_sub_int_exact : forall M l k s, canonical l -> sub_int M l k = Ok s ->
  canonical s /\ (val s == val l - inject_Z k)%Q.
Proof. exact sub_int_val. Qed.
Print Assumptions C03_sub_int_exact.

Theorem C03_div_int_exact : forall M l k s, canonical l -> div_int M l k = Ok s ->
  canonical s /\ k <> 0 /\ (val s == val l / inject_Z k)%Q.
Proof. exact div_int_val. Qed.
Print Assumptions C03_div_int_exact.

(** when it returns at all, rational * integer is exact ... *)
Theorem C03_mul_int_exact_partial : forall M l k s, canonical l -> mul_int M l k = Ok s ->
  canonical s /\ (val s == val l * inject_Z k)%Q.
Proof. exact mul_int_val. Qed.
Print Assumptions C03_mul_int_exact_partial.

(** ... but for every negative integer it violates its own denominator contract *)
Theorem C03_mul_negative_int_refuted : forall M l k, 0 < den l -> k < 0 -> mul_int M l k = UB.
Proof. exact mul_int_negative. Qed.
Print Assumptions C03_mul_negative_int_refuted.

Theorem C03_incr_exact : forall M r s, canonical r -> incr M r = Ok s -> canonical s /\ (val s == val r + 1)%Q.
Proof. exact incr_val. Qed.
Print Assumptions C03_incr_exact.

Theorem C03_decr_exact : forall M r s, canonical r -> decr M r = Ok s -> canonical s /\ (val s == val r - 1)%Q.
Proof. exact decr_val. Qed.
Print Assumptions C03_decr_exact.

Example C03_nontrivial :
  let l := mkRat 5 6 in let r := mkRat (-3) 4 in
  canonical l /\ canonical r /\ fits 6 l /\ fits 6 r /\ 2 * 6 * 6 <= M32 /\
  add M32 l r = Ok (mkRat 1 12) /\ sub M32 l r = Ok (mkRat 19 12) /\ mul M32 l r = Ok (mkRat (-5) 8) /\
  div M32 l r = Ok (mkRat (-10) 9) /\ mul_int M32 l 3 = Ok (mkRat 5 2) /\ div_int M32 l (-3) = Ok (mkRat (-5) 18).
Proof. repeat split; vm_compute; congruence. Qed.

Theorem C04_comparisons_are_rational_order : forall M l r,
  (forall c, rlt M l r = Ok c -> (c = true <-> (val l < val r)%Q)) /\
  (forall c, rgt M l r = Ok c -> (c = true <-> (val r < val l)%Q)) /\
  (forall c, rle M l r = Ok c -> (c = true <-> (val l <= val r)%Q)) /\
  (forall c, rge M l r = Ok c -> (c = true <-> (val r <= val l)%Q)) /\
  (forall c, req M l r = Ok c -> (c = true <-> (val l == val r)%Q)) /\
  (forall c, rne M l r = Ok c -> (c = true <-> ~ (val l == val r)%Q)).
Proof. exact compare_ok. Qed.
Print Assumptions C04_comparisons_are_rational_order.

Theorem C04_comparisons_total : forall M B l r, canonical l -> canonical r -> fits B l -> fits B r ->
  2 * B * B <= M -> exists c, rlt M l r = Ok c.
Proof. exact rlt_total. Qed.
Print Assumptions C04_comparisons_total.

Theorem C04_canonical_forms_are_unique : forall l r, canonical l -> canonical r -> (val l == val r)%Q -> l = r.
Proof. exact canonical_unique. Qed.
Print Assumptions C04_canonical_forms_are_unique.

Example C04_nontrivial : rlt M32 (mkRat 5 6) (mkRat 7 8) = Ok true /\ req M32 (mkRat 1 3) (mkRat 1 3) = Ok true.
Proof. split; reflexivity. Qed.

(** C05: full statement  floor r = Ok (Qfloor (val r)), ceil r = Ok (Qceiling (val r)),
    0 <= frac r < 1  for every canonical r; false for negative numbers. *)
Theorem C05_floor_partial : forall M r, canonical r -> 0 <= num r <= M -> floor M r = Ok (Qfloor (val r)).
Proof. exact floor_nonneg. Qed.
Print Assumptions C05_floor_partial.

Theorem C05_ceil_partial : forall M r, canonical r -> - den r < num r -> num r + den r <= M ->
  ceil M r = Ok (Qceiling (val r)).
Proof. exact ceil_above_minus_one. Qed.
Print Assumptions C05_ceil_partial.

Theorem C05_frac_partial : forall M r f, canonical r -> 0 <= num r -> frac M r = Ok f ->
  canonical f /\ (val f == val r - inject_Z (Qfloor (val r)))%Q /\ (0 <= val f < 1)%Q.
Proof. exact frac_nonneg. Qed.
Print Assumptions C05_frac_partial.

Theorem C05_floor_refuted : exists r z, canonical r /\ floor M32 r = Ok z /\ z <> Qfloor (val r).
Proof. exact floor_refuted. Qed.
Print Assumptions C05_floor_refuted.

Theorem C05_ceil_refuted : exists r z, canonical r /\ ceil M32 r = Ok z /\ z <> Qceiling (val r).
Proof. exact ceil_refuted. Qed.
Print Assumptions C05_ceil_refuted.

Theorem C05_frac_refuted : exists r f, canonical r /\ frac M32 r = Ok f /\ (val f < 0)%Q.
Proof. exact frac_refuted. Qed.
Print Assumptions C05_frac_refuted.

Example C05_nontrivial : floor M32 (mkRat 7 3) = Ok 2 /\ ceil M32 (mkRat 7 3) = Ok 3 /\
  frac M32 (mkRat 7 3) = Ok (mkRat 1 3) /\ ceil M32 (mkRat (-1) 3) = Ok 0.
Proof. repeat split. Qed.
