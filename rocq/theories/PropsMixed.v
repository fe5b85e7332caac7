(** C70: signal arithmetic between different element types. *)
From Coq Require Import Reals.
From Verif Require Import Base BaseFacts KernelModel KernelProofs MixedModel Complex.
From Coq Require Import ZifyBool ZifyNat Lra.
Open Scope Z_scope.

(** ** Specification: every sample of the result is the operation applied to the samples at the same place *)
Definition each2 {A B C} (op : A -> B -> C) (a : list A) (b : list B) (r : list C) : Prop :=
  lenZ r = lenZ a /\ lenZ r = lenZ b /\
  forall i x y, nthZ a i = Some x -> nthZ b i = Some y -> nthZ r i = Some (op x y).
Definition each1 {A C} (f : A -> C) (a : list A) (r : list C) : Prop :=
  lenZ r = lenZ a /\ forall i x, nthZ a i = Some x -> nthZ r i = Some (f x).

(** ** Proof *)
Lemma op_unchanged {A C} (out : list C) (s : operand C A) k g out' i :
  written out 0 k g out' -> 0 <= k <= i -> nthZ (op_array out' s) i = nthZ (op_array out s) i.
Proof.
  intros [_ H] Hi. destruct s as [|A l]; cbn [op_array]; [|reflexivity].
  rewrite H. now replace ((0 <=? i) && (i <? 0 + k)) with false by lia.
Qed.
Lemma op_len {A C} (out : list C) (s : operand C A) k g out' : written out 0 k g out' -> lenZ (op_array out' s) = lenZ (op_array out s).
Proof. intros [H _]. destruct s; [exact H|reflexivity]. Qed.
Lemma nthZ_map2_mixed {A B C} (f : A -> B -> C) a b i : 0 <= i < lenZ a -> 0 <= i < lenZ b ->
  nthZ (map2 f a b) i = lift2 f (nthZ a i) (nthZ b i).
Proof.
  intros Ha Hb. destruct (nthZ_in a i Ha) as (x & Ex). destruct (nthZ_in b i Hb) as (y & Ey).
  rewrite (nthZ_map2 f a b i x y Ex Ey), Ex, Ey. reflexivity.
Qed.

Lemma Transform2Mixed_spec {A B C} W vec (out : list C) (s1 : operand C A) (s2 : operand C B) count f :
  1 <= W -> 0 <= count <= lenZ out -> count <= lenZ (op_array out s1) -> count <= lenZ (op_array out s2) ->
  okP (Transform2Mixed W vec out s1 s2 count f)
      (written out 0 count (fun i => lift2 f (nthZ (op_array out s1) i) (nthZ (op_array out s2) i))).
Proof.
  intros HW Hc H1 H2. unfold Transform2Mixed.
  set (g := fun i => lift2 f (nthZ (op_array out s1) i) (nthZ (op_array out s2) i)).
  set (vl := if vec then (count / W) * W else 0).
  assert (Hvl : 0 <= vl <= count).
  { subst vl. destruct vec; [|lia]. pose proof (div_mul_bounds count W HW (proj1 Hc)). lia. }
  eapply okP_bind with (P := written out 0 vl g).
  - destruct vec.
    + eapply okP_imp.
      * apply (for_inv (fun k => written out 0 (k * W) g)); [lia| |].
        { split; [reflexivity|]. intros j. now replace ((0 <=? j) && (j <? 0 + 0 * W)) with false by lia. }
        intros k o Hk Hlt Hw. replace (0 + k * W) with (k * W) in * by lia.
        assert (Hkw : k * W + W <= count).
        { subst vl. pose proof (div_mul_bounds count W HW (proj1 Hc)) as (D1 & D2 & D3).
          generalize dependent (count / W). intros q; intros. assert (k < q) by nia. nia. }
        assert (0 <= k * W) by nia.
        pose proof (op_len out s1 (k * W) g o Hw) as Q1. pose proof (op_len out s2 (k * W) g o Hw) as Q2.
        destruct (slice_ok (op_array o s1) (k * W) W ltac:(lia) ltac:(lia) ltac:(lia)) as (v1 & E1 & L1 & N1).
        destruct (slice_ok (op_array o s2) (k * W) W ltac:(lia) ltac:(lia) ltac:(lia)) as (v2 & E2 & L2 & N2).
        rewrite E1, E2. cbn [bind].
        assert (Lm : lenZ (map2 f v1 v2) = W) by (rewrite lenZ_map2; lia).
        replace ((k + 1) * W) with (k * W + lenZ (map2 f v1 v2)) by lia.
        apply (written_wrs out o 0 (k * W)); try assumption; try lia.
        intros j Hj. subst g. cbv beta. rewrite nthZ_map2_mixed, N1, N2 by lia.
        now rewrite (op_unchanged out s1 _ _ o (k * W + j) Hw), (op_unchanged out s2 _ _ o (k * W + j) Hw) by lia.
      * intros o (k & Hk & Hge & Hor & Hw). replace vl with (k * W); [exact Hw|].
        subst vl. pose proof (div_mul_bounds count W HW (proj1 Hc)) as (D1 & D2 & D3).
        apply (strided_end k W (count / W)); assumption.
    + apply okP_ret. split; [reflexivity|]. intros j. subst vl. now replace ((0 <=? j) && (j <? 0 + 0)) with false by lia.
  - intros o Hw.
    apply (for1_inv (fun k => written out 0 k g)); [exact Hw|lia|].
    intros i o' Hi Hw'. pose proof (op_len out s1 i g o' Hw') as Q1. pose proof (op_len out s2 i g o' Hw') as Q2.
    destruct (rd_ok (op_array o' s1) i ltac:(lia)) as (a & E1 & N1). destruct (rd_ok (op_array o' s2) i ltac:(lia)) as (b & E2 & N2).
    rewrite E1, E2. cbn [bind]. apply (written_wr out o' 0 i); try assumption; try lia. subst g. cbv beta.
    rewrite <- (op_unchanged out s1 _ _ o' i Hw'), <- (op_unchanged out s2 _ _ o' i Hw') by lia. now rewrite N1, N2.
Qed.
Lemma Transform1Mixed_spec {A C} W vec (out : list C) (s : operand C A) count f :
  1 <= W -> 0 <= count <= lenZ out -> count <= lenZ (op_array out s) ->
  okP (Transform1Mixed W vec out s count f) (written out 0 count (fun i => option_map f (nthZ (op_array out s) i))).
Proof.
  intros HW Hc H1. unfold Transform1Mixed.
  set (g := fun i => option_map f (nthZ (op_array out s) i)).
  set (vl := if vec then (count / W) * W else 0).
  assert (Hvl : 0 <= vl <= count).
  { subst vl. destruct vec; [|lia]. pose proof (div_mul_bounds count W HW (proj1 Hc)). lia. }
  eapply okP_bind with (P := written out 0 vl g).
  - destruct vec.
    + eapply okP_imp.
      * apply (for_inv (fun k => written out 0 (k * W) g)); [lia| |].
        { split; [reflexivity|]. intros j. now replace ((0 <=? j) && (j <? 0 + 0 * W)) with false by lia. }
        intros k o Hk Hlt Hw. replace (0 + k * W) with (k * W) in * by lia.
        assert (Hkw : k * W + W <= count).
        { subst vl. pose proof (div_mul_bounds count W HW (proj1 Hc)) as (D1 & D2 & D3).
          generalize dependent (count / W). intros q; intros. assert (k < q) by nia. nia. }
        assert (0 <= k * W) by nia.
        pose proof (op_len out s (k * W) g o Hw) as Q1.
        destruct (slice_ok (op_array o s) (k * W) W ltac:(lia) ltac:(lia) ltac:(lia)) as (v1 & E1 & L1 & N1).
        rewrite E1. cbn [bind].
        assert (Lm : lenZ (map f v1) = W) by (rewrite lenZ_map; lia).
        replace ((k + 1) * W) with (k * W + lenZ (map f v1)) by lia.
        apply (written_wrs out o 0 (k * W)); try assumption; try lia.
        intros j Hj. subst g. cbv beta. rewrite nthZ_map, N1 by lia.
        now rewrite (op_unchanged out s _ _ o (k * W + j) Hw) by lia.
      * intros o (k & Hk & Hge & Hor & Hw). replace vl with (k * W); [exact Hw|].
        subst vl. pose proof (div_mul_bounds count W HW (proj1 Hc)) as (D1 & D2 & D3).
        apply (strided_end k W (count / W)); assumption.
    + apply okP_ret. split; [reflexivity|]. intros j. subst vl. now replace ((0 <=? j) && (j <? 0 + 0)) with false by lia.
  - intros o Hw.
    apply (for1_inv (fun k => written out 0 k g)); [exact Hw|lia|].
    intros i o' Hi Hw'. pose proof (op_len out s i g o' Hw') as Q1.
    destruct (rd_ok (op_array o' s) i ltac:(lia)) as (a & E1 & N1).
    rewrite E1. cbn [bind]. apply (written_wr out o' 0 i); try assumption; try lia. subst g. cbv beta.
    rewrite <- (op_unchanged out s _ _ o' i Hw') by lia. now rewrite N1.
Qed.

(** The three-argument forms, whether the output is a signal of its own, the first operand or the second one *)
Theorem C70_signal_signal : forall A B C W vec (op : A -> B -> C) (r : list C) (a : operand C A) (b : operand C B), 1 <= W ->
  (lenZ (op_array r a) = lenZ r -> lenZ (op_array r b) = lenZ r ->
     okP (mixed_sig_sig W vec op r a b) (each2 op (op_array r a) (op_array r b))) /\
  ((lenZ (op_array r a) <> lenZ r \/ lenZ (op_array r b) <> lenZ r) -> mixed_sig_sig W vec op r a b = Throw InvalidArgument).
Proof.
  intros A B C W vec op r a b HW. unfold mixed_sig_sig, CheckSizes3. split.
  - intros Ha Hb. rewrite Ha, Hb, Z.eqb_refl. cbn [negb orb bind]. pose proof (lenZ_nonneg r).
    eapply okP_imp; [apply Transform2Mixed_spec; lia|]. intros o [L N]. split; [lia|]. split; [lia|].
    intros i x y Hx Hy. rewrite N. assert (0 <= i < lenZ (op_array r a)) by (apply nthZ_some in Hx; exact Hx).
    replace ((0 <=? i) && (i <? 0 + lenZ r)) with true by lia. rewrite Z.sub_0_r, Hx, Hy. reflexivity.
  - intros H. replace (negb (lenZ r =? lenZ (op_array r a)) || negb (lenZ r =? lenZ (op_array r b))) with true by lia. reflexivity.
Qed.
Print Assumptions C70_signal_signal.
Theorem C70_signal_scalar : forall A B C W vec (op : A -> B -> C) (r : list C) (a : operand C A) (s : B), 1 <= W ->
  (lenZ (op_array r a) = lenZ r -> okP (mixed_sig_scalar W vec op r a s) (each1 (fun x => op x s) (op_array r a))) /\
  (lenZ (op_array r a) <> lenZ r -> mixed_sig_scalar W vec op r a s = Throw InvalidArgument).
Proof.
  intros A B C W vec op r a s HW. unfold mixed_sig_scalar, CheckSizes2. split.
  - intros Ha. rewrite Ha, Z.eqb_refl. cbn [negb bind]. pose proof (lenZ_nonneg r).
    eapply okP_imp; [apply Transform1Mixed_spec; lia|]. intros o [L N]. split; [lia|].
    intros i x Hx. rewrite N. assert (0 <= i < lenZ (op_array r a)) by (apply nthZ_some in Hx; exact Hx).
    replace ((0 <=? i) && (i <? 0 + lenZ r)) with true by lia. rewrite Z.sub_0_r, Hx. reflexivity.
  - intros H. replace (negb (lenZ r =? lenZ (op_array r a))) with true by lia. reflexivity.
Qed.
Print Assumptions C70_signal_scalar.
Theorem C70_scalar_signal : forall A B C W vec (op : A -> B -> C) (r : list C) (s : A) (b : operand C B), 1 <= W ->
  (lenZ (op_array r b) = lenZ r -> okP (mixed_scalar_sig W vec op r s b) (each1 (fun x => op s x) (op_array r b))) /\
  (lenZ (op_array r b) <> lenZ r -> mixed_scalar_sig W vec op r s b = Throw InvalidArgument).
Proof. intros A B C W vec op r s b HW. apply (C70_signal_scalar B A C W vec (fun x s => op s x) r b s HW). Qed.
Print Assumptions C70_scalar_signal.

Lemma fresh {A C} (d : C) (a : list A) : lenZ (repeat d (length a)) = lenZ a.
Proof. unfold lenZ. now rewrite repeat_length. Qed.
(** the operators a op b, a op= b *)
Theorem C70_operators : forall A B C W vec (op : A -> B -> C) (op' : A -> B -> A) (d : C) (a : list A) (b : list B) (sa : A) (sb : B), 1 <= W ->
  (lenZ a = lenZ b -> okP (mixed_op W vec op d a b) (each2 op a b) /\ okP (mixed_assign W vec op' a b) (each2 op' a b)) /\
  (lenZ a <> lenZ b -> mixed_op W vec op d a b = Throw InvalidArgument /\ mixed_assign W vec op' a b = Throw InvalidArgument) /\
  okP (mixed_op_scalar W vec op d a sb) (each1 (fun x => op x sb) a) /\
  okP (mixed_scalar_op W vec op d sa b) (each1 (fun x => op sa x) b) /\
  okP (mixed_assign_scalar W vec op' a sb) (each1 (fun x => op' x sb) a).
Proof.
  intros A B C W vec op op' d a b sa sb HW.
  destruct (C70_signal_signal A B C W vec op (repeat d (length a)) (Array a) (Array b) HW) as [H1 H2].
  destruct (C70_signal_signal A B A W vec op' a InOut (Array b) HW) as [H3 H4]. cbn [op_array] in *. rewrite fresh in *.
  split; [intros E; split; [apply H1|apply H3]; congruence|]. split; [intros E; split; [apply H2|apply H4]; right; congruence|].
  split; [|split].
  - apply (C70_signal_scalar A B C W vec op (repeat d (length a)) (Array a) sb HW). cbn [op_array]. now rewrite fresh.
  - apply (C70_scalar_signal A B C W vec op (repeat d (length b)) sa (Array b) HW). cbn [op_array]. now rewrite fresh.
  - apply (C70_signal_scalar A B A W vec op' a InOut sb HW). reflexivity.
Qed.
Print Assumptions C70_operators.

(** a complex signal times a real one; a complex signal scaled in place *)
Example C70_nontrivial :
  mixed_op 2 true (fun (z : Complex.C) (x : R) => Cmul z (RtoC x)) C0 [mkC 1 2; mkC 3 4; mkC 5 6] [2%R; 3%R; 4%R] =
    Ok [Cmul (mkC 1 2) (RtoC 2); Cmul (mkC 3 4) (RtoC 3); Cmul (mkC 5 6) (RtoC 4)] /\
  mixed_assign 2 true (fun (z : Z) (x : nat) => z * Z.of_nat x) [5; -6; 7] [1; 2; 3]%nat = Ok [5; -12; 21] /\
  mixed_assign 2 true (fun (z : Z) (x : nat) => z * Z.of_nat x) [5; -6; 7] [1; 2]%nat = Throw InvalidArgument.
Proof. split; [reflexivity|]. split; reflexivity. Qed.
