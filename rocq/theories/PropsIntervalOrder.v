(** C83: intervals over any ordered type: integers, rational, real and floating-point numbers. *)
From Coq Require Import Reals Lra List QArith.
From Flocq Require Import Core BinarySingleNaN.
From Verif Require Import Base IntervalModel IntervalOrderModel PropsFloat PropsExtreme.
From Coq Require Import ZArith Lia.
Local Open Scope Z_scope.

(** ** Specification.  [lt] orders the values in [D] (all values but NaN, for floating point) up to values none of which is less
    than the other (the two zeros). *)
Definition orders {T : Type} (D : T -> Prop) (lt : T -> T -> bool) : Prop :=
  (forall x, D x -> lt x x = false) /\
  (forall x y z, D x -> D y -> D z -> lt x y = true -> lt y z = true -> lt x z = true) /\
  (forall x y z, D x -> D y -> D z -> lt x z = true -> lt x y = true \/ lt y z = true).
(** the values from the first endpoint on and before the last *)
Definition is_in {T : Type} (D : T -> Prop) (lt : T -> T -> bool) (i : ginterval T) (x : T) : Prop :=
  D x /\ lt x (gfirst i) = false /\ lt x (glast i) = true.
Definition endpoints_in {T : Type} (D : T -> Prop) (i : ginterval T) : Prop := D (gfirst i) /\ D (glast i).

Section P.
Context {T : Type} (D : T -> Prop) (lt : T -> T -> bool) (O : orders D lt).
Notation mx := (gmax lt). Notation mn := (gmin lt).
Lemma irr x : D x -> lt x x = false. Proof. apply O. Qed.
Lemma tr x y z : D x -> D y -> D z -> lt x y = true -> lt y z = true -> lt x z = true. Proof. apply O. Qed.
Lemma co x y z : D x -> D y -> D z -> lt x z = true -> lt x y = true \/ lt y z = true. Proof. apply O. Qed.
Lemma asym x y : D x -> D y -> lt x y = true -> lt y x = false.
Proof. intros Hx Hy H. destruct (lt y x) eqn:E; [|reflexivity]. rewrite <- (irr x Hx). symmetry. now apply (tr x y x). Qed.
Lemma D_max a b : D a -> D b -> D (mx a b). Proof. unfold gmax. now destruct (lt a b). Qed.
Lemma D_min a b : D a -> D b -> D (mn a b). Proof. unfold gmin. now destruct (lt b a). Qed.
(** transitivity of "not less" *)
Lemma ntr x y z : D x -> D y -> D z -> lt y x = false -> lt z y = false -> lt z x = false.
Proof. intros Hx Hy Hz A B. destruct (lt z x) eqn:E; [|reflexivity]. destruct (co z y x Hz Hy Hx E); congruence. Qed.
Lemma ge_max a b x : D a -> D b -> D x -> lt x (mx a b) = false <-> lt x a = false /\ lt x b = false.
Proof.
  intros Ha Hb Hx. unfold gmax. destruct (lt a b) eqn:E; split; try tauto.
  - intros H. split; [|exact H]. apply (ntr a b x); try assumption. now apply asym.
  - intros H. split; [exact H|]. now apply (ntr b a x).
Qed.
Lemma lt_max a b x : D a -> D b -> D x -> lt x (mx a b) = true <-> lt x a = true \/ lt x b = true.
Proof.
  intros Ha Hb Hx. pose proof (ge_max a b x Ha Hb Hx) as G. destruct (lt x (mx a b)), (lt x a), (lt x b); intuition congruence.
Qed.
Lemma lt_min a b x : D a -> D b -> D x -> lt x (mn a b) = true <-> lt x a = true /\ lt x b = true.
Proof.
  intros Ha Hb Hx. unfold gmin. destruct (lt b a) eqn:E; split; try tauto.
  - intros H. split; [|exact H]. now apply (tr x b a).
  - intros H. split; [exact H|]. destruct (lt x b) eqn:F; [reflexivity|]. destruct (co x b a Hx Hb Ha H); congruence.
Qed.
Lemma ge_min a b x : D a -> D b -> D x -> lt x (mn a b) = false <-> lt x a = false \/ lt x b = false.
Proof.
  intros Ha Hb Hx. pose proof (lt_min a b x Ha Hb Hx) as G. destruct (lt x (mn a b)), (lt x a), (lt x b); intuition congruence.
Qed.
Lemma meet i j x : endpoints_in D i -> endpoints_in D j ->
  is_in D lt (mkGI (mx (gfirst i) (gfirst j)) (mn (glast i) (glast j))) x <-> is_in D lt i x /\ is_in D lt j x.
Proof.
  intros [A1 A2] [B1 B2]. unfold is_in. cbn [gfirst glast]. split.
  - intros (Hx & F & L). apply ge_max in F; try assumption. apply lt_min in L; try assumption. tauto.
  - intros ((Hx & F1 & L1) & (_ & F2 & L2)). split; [exact Hx|]. rewrite ge_max, lt_min by assumption. tauto.
Qed.
Lemma first_in i : endpoints_in D i -> lt (gfirst i) (glast i) = true -> is_in D lt i (gfirst i).
Proof. intros [A B] H. repeat split; [exact A|now apply irr|exact H]. Qed.
Lemma empty_no i x : endpoints_in D i -> lt (gfirst i) (glast i) = false -> ~ is_in D lt i x.
Proof. intros [A B] H (Hx & F & L). destruct (co x (gfirst i) (glast i) Hx A B L); congruence. Qed.
Lemma D_meet i j : endpoints_in D i -> endpoints_in D j -> endpoints_in D (mkGI (mx (gfirst i) (gfirst j)) (mn (glast i) (glast j))).
Proof. intros [A1 A2] [B1 B2]. split; cbn [gfirst glast]; [now apply D_max|now apply D_min]. Qed.
End P.

(** ** C83 *)
Theorem C83_disjoint_iff_no_common_value : forall T (D : T -> Prop) lt (i j : ginterval T), orders D lt -> endpoints_in D i -> endpoints_in D j ->
  gIsDisjoint lt i j = true <-> ~ exists x, is_in D lt i x /\ is_in D lt j x.
Proof.
  intros T D lt i j O Hi Hj. unfold gIsDisjoint. cbv zeta. pose proof (D_meet D lt i j Hi Hj) as DM. destruct (lt _ _) eqn:E; cbn [negb].
  - split; [discriminate|]. intros H. exfalso. apply H. exists (gmax lt (gfirst i) (gfirst j)). apply (meet D lt O i j _ Hi Hj).
    exact (first_in D lt O _ DM E).
  - split; [|reflexivity]. intros _ (x & Hx). apply (meet D lt O i j _ Hi Hj) in Hx. now apply (empty_no D lt O _ _ DM E) in Hx.
Qed.
Print Assumptions C83_disjoint_iff_no_common_value.
Theorem C83_intersection : forall T (D : T -> Prop) lt zero (i j : ginterval T), orders D lt -> endpoints_in D i -> endpoints_in D j -> D zero ->
  (forall x, is_in D lt (gIntersection lt zero i j) x <-> is_in D lt i x /\ is_in D lt j x) /\
  ((~ exists x, is_in D lt i x /\ is_in D lt j x) -> gIntersection lt zero i j = mkGI zero zero).
Proof.
  intros T D lt zero i j O Hi Hj Hz. pose proof (D_meet D lt i j Hi Hj) as DM. unfold gIntersection. cbv zeta. destruct (lt _ _) eqn:E.
  - split; [intros x; now apply meet|]. intros H. exfalso. apply H. exists (gmax lt (gfirst i) (gfirst j)). apply (meet D lt O i j _ Hi Hj).
    exact (first_in D lt O _ DM E).
  - split; [|reflexivity]. intros x. rewrite <- (meet D lt O i j x Hi Hj). split; intros H; exfalso; revert H.
    + apply (empty_no D lt O); [now split|]. cbn. now apply (irr D lt O).
    + now apply (empty_no D lt O).
Qed.
Print Assumptions C83_intersection.
(** the smallest interval containing two that are not empty *)
Theorem C83_encompassing : forall T (D : T -> Prop) lt (i j : ginterval T), orders D lt -> endpoints_in D i -> endpoints_in D j ->
  (forall x, is_in D lt i x \/ is_in D lt j x -> is_in D lt (gEncompassingUnion lt i j) x) /\
  ((exists x, is_in D lt i x) -> (exists x, is_in D lt j x) ->
   forall k, endpoints_in D k -> (forall x, is_in D lt i x \/ is_in D lt j x -> is_in D lt k x) -> forall x, is_in D lt (gEncompassingUnion lt i j) x -> is_in D lt k x).
Proof.
  intros T D lt i j O Hi Hj. pose proof Hi as [A1 A2]. pose proof Hj as [B1 B2]. split.
  - intros x H. assert (Hx : D x) by (destruct H as [H|H]; apply H). unfold is_in, gEncompassingUnion. cbn [gfirst glast]. split; [exact Hx|].
    rewrite (ge_min D lt O), (lt_max D lt O) by assumption. unfold is_in in H. tauto.
  - intros [p Hp] [q Hq] k [K1 K2] Hk x (Hx & F & L). unfold gEncompassingUnion in F, L. cbn [gfirst glast] in F, L.
    rewrite (ge_min D lt O) in F by assumption. rewrite (lt_max D lt O) in L by assumption.
    assert (Ei : lt (gfirst i) (glast i) = true). { destruct (lt (gfirst i) (glast i)) eqn:E; [reflexivity|]. now apply (empty_no D lt O i p Hi E) in Hp. }
    assert (Ej : lt (gfirst j) (glast j) = true). { destruct (lt (gfirst j) (glast j)) eqn:E; [reflexivity|]. now apply (empty_no D lt O j q Hj E) in Hq. }
    pose proof (Hk _ (or_introl (first_in D lt O i Hi Ei))) as (_ & I1 & I2). pose proof (Hk _ (or_intror (first_in D lt O j Hj Ej))) as (_ & J1 & J2).
    split; [exact Hx|]. split.
    + destruct F as [F|F]; [apply (ntr D lt O _ (gfirst i))|apply (ntr D lt O _ (gfirst j))]; assumption.
    + destruct L as [L|L].
      * destruct (lt x (gfirst i)) eqn:E; [now apply (tr D lt O x (gfirst i) (glast k))|]. now apply (Hk x (or_introl (conj Hx (conj E L)))).
      * destruct (lt x (gfirst j)) eqn:E; [now apply (tr D lt O x (gfirst j) (glast k))|]. now apply (Hk x (or_intror (conj Hx (conj E L)))).
Qed.
Print Assumptions C83_encompassing.
(** Union: the set union of intervals that meet; nothing for the others *)
Theorem C83_union : forall T (D : T -> Prop) lt (i j : ginterval T), orders D lt -> endpoints_in D i -> endpoints_in D j ->
  (forall u, gUnion lt i j = Some u -> forall x, is_in D lt u x <-> is_in D lt i x \/ is_in D lt j x) /\
  (gUnion lt i j = None <-> ~ exists x, is_in D lt i x /\ is_in D lt j x).
Proof.
  intros T D lt i j O Hi Hj. pose proof (C83_disjoint_iff_no_common_value T D lt i j O Hi Hj) as G. pose proof (C83_encompassing T D lt i j O Hi Hj) as [S _].
  unfold gUnion. destruct (gIsDisjoint lt i j) eqn:E; cbn [negb].
  - split; [discriminate|]. tauto.
  - split; [|split; [discriminate|]].
    + intros u [= <-] x. split; [|apply S]. intros (Hx & F & L). pose proof Hi as [A1 A2]. pose proof Hj as [B1 B2]. unfold gEncompassingUnion in F, L. cbn [gfirst glast] in F, L.
      rewrite (ge_min D lt O) in F by assumption. rewrite (lt_max D lt O) in L by assumption.
      unfold gIsDisjoint in E. cbv zeta in E. apply Bool.negb_false_iff in E.
      set (m := gmax lt (gfirst i) (gfirst j)) in *. assert (Dm : D m) by now apply D_max.
      rewrite (lt_min D lt O) in E by assumption. destruct E as [E1 E2].
      unfold is_in. destruct (lt x (gfirst i)) eqn:X1, (lt x (gfirst j)) eqn:X2; try (destruct F; discriminate).
      * right. split; [exact Hx|]. split; [reflexivity|]. apply (tr D lt O x m); try assumption. apply (lt_max D lt O); try assumption. now left.
      * left. split; [exact Hx|]. split; [reflexivity|]. apply (tr D lt O x m); try assumption. apply (lt_max D lt O); try assumption. now right.
      * tauto.
    + intros H. exfalso. apply G in H. discriminate.
Qed.
Print Assumptions C83_union.
(** shifting translates, where adding and subtracting undo each other and respect the order (not in floating point) *)
Theorem C83_shift : forall T (D : T -> Prop) lt add sub (i : ginterval T) d x,
  (forall a b, lt (add a d) (add b d) = lt a b) -> (forall a, sub (add a d) d = a) -> (forall a, add (sub a d) d = a) ->
  (forall a, D (add a d) <-> D a) ->
  (is_in D lt (gshift_add add i d) x <-> is_in D lt i (sub x d)) /\ (is_in D lt (gshift_sub sub i d) x <-> is_in D lt i (add x d)).
Proof.
  intros T D lt add sub i d x Hl H1 H2 HD. unfold is_in, gshift_add, gshift_sub. cbn [gfirst glast]. split.
  - rewrite <- (HD (sub x d)), H2. rewrite <- (Hl (sub x d) (gfirst i)), <- (Hl (sub x d) (glast i)), H2. tauto.
  - rewrite HD. rewrite <- (Hl x (sub (gfirst i) d)), <- (Hl x (sub (glast i) d)), !H2. tauto.
Qed.
Print Assumptions C83_shift.
(** ** Types *)
Theorem C83_integers : orders (fun _ => True) Z.ltb.
Proof. repeat split; intros; rewrite ?Z.ltb_lt, ?Z.ltb_ge in *; lia. Qed.
Print Assumptions C83_integers.
(** for the integers it is the model of C01 *)
Theorem C83_integer_instance : forall a b c d,
  let i := mkI a b in let j := mkI c d in let gi := mkGI a b in let gj := mkGI c d in
  let same (x : ginterval Z) (y : interval) := gfirst x = first y /\ glast x = last y in
  gIsDisjoint Z.ltb gi gj = IsDisjoint i j /\ same (gIntersection Z.ltb 0 gi gj) (Intersection i j) /\ same (gEncompassingUnion Z.ltb gi gj) (EncompassingUnion i j).
Proof.
  intros a b c d. cbv zeta. unfold gIsDisjoint, IsDisjoint, gIntersection, Intersection, gEncompassingUnion, EncompassingUnion. cbn [gfirst glast first last]. cbv zeta.
  assert (M : forall x y, gmax Z.ltb x y = Z.max x y) by (intros; unfold gmax; destruct (Z.ltb_spec x y); lia).
  assert (N : forall x y, gmin Z.ltb x y = Z.min x y) by (intros; unfold gmin; destruct (Z.ltb_spec y x); lia).
  rewrite !M, !N. split; [reflexivity|]. destruct (_ <? _); repeat split.
Qed.
Print Assumptions C83_integer_instance.
(** floating-point numbers of any precision, infinities and both zeros included; not NaN *)
Theorem C83_floats : forall prec emax, Prec_gt_0 prec -> Prec_lt_emax prec emax -> orders (T := binary_float prec emax) (not_nan prec emax) Bltb.
Proof.
  intros prec emax Hp Hm. repeat split.
  - intros x Hx. rewrite lt_key by assumption. apply Rlt_bool_false. lra.
  - intros x y z Hx Hy Hz. rewrite !lt_key by assumption. intros A B. apply Rlt_bool_true.
    revert A B. do 2 (case Rlt_bool_spec; intros ?; try discriminate). lra.
  - intros x y z Hx Hy Hz. rewrite !lt_key by assumption. do 3 (case Rlt_bool_spec; intros ?); try tauto; try discriminate. lra.
Qed.
Print Assumptions C83_floats.
Definition Qltb (a b : Q) : bool := negb (Qle_bool b a).
Theorem C83_rationals : orders (fun _ => True) Qltb.
Proof.
  assert (L : forall a b, Qltb a b = true <-> (a < b)%Q).
  { intros a b. unfold Qltb. rewrite Bool.negb_true_iff. split.
    - intros H. apply Qnot_le_lt. intros C. apply Qle_bool_iff in C. congruence.
    - intros H. destruct (Qle_bool b a) eqn:E; [|reflexivity]. apply Qle_bool_iff in E. now apply Qlt_not_le in H. }
  repeat split; intros.
  - destruct (Qltb x x) eqn:E; [|reflexivity]. apply L in E. now apply Qlt_irrefl in E.
  - apply L. apply L in H2, H3. now apply Qlt_trans with y.
  - rewrite !L in *. destruct (Qlt_le_dec x y); [now left|]. right. now apply Qle_lt_trans with x.
Qed.
Print Assumptions C83_rationals.

(** ** NaN endpoints: IsDisjoint depends on the order of its arguments; shifts of floating-point intervals may lose all values *)
Definition fnan : binary_float 24 128 := B754_nan.
Theorem C83_nan_refuted : let i := mkGI (b32 0 0) fnan in let j := mkGI (b32 (-1) 0) (b32 1 1) in
  gIsDisjoint Bltb i j = true /\ gIsDisjoint Bltb j i = false.
Proof. split; vm_compute; reflexivity. Qed.
Print Assumptions C83_nan_refuted.
Theorem C83_float_shift_refuted : exists (i : ginterval (binary_float 24 128)) d x,
  is_in (not_nan 24 128) Bltb i x /\ forall y, ~ is_in (not_nan 24 128) Bltb (gshift_add (@Bplus 24 128 p24 e128 mode_NE) i d) y.
Proof.
  exists (mkGI (b32 0 0) (b32 1 0)), (b32 1 25), (b32 0 0). split; [repeat split; vm_compute; reflexivity|].
  intros y. apply (empty_no _ _ (C83_floats 24 128 p24 e128)); [split; vm_compute; reflexivity|vm_compute; reflexivity].
Qed.
Print Assumptions C83_float_shift_refuted.
(** the hypotheses are met: [-1, 2) and [0.5, infinity) in binary32 meet in [0.5, 2) *)
Example C83_nontrivial : let i := mkGI (b32 (-1) 0) (b32 1 1) in let j := mkGI (b32 1 (-1)) (B754_infinity false : binary_float 24 128) in
  endpoints_in (not_nan 24 128) i /\ endpoints_in (not_nan 24 128) j /\ gIsDisjoint Bltb i j = false /\
  B2SF (gfirst (gIntersection Bltb (b32 0 0) i j)) = B2SF (b32 1 (-1)) /\ B2SF (glast (gIntersection Bltb (b32 0 0) i j)) = B2SF (b32 1 1).
Proof. repeat split; vm_compute; reflexivity. Qed.
