(** C54, C55, C56: frequency responses, elementwise functions, dot product. *)
From Coq Require Import ZArith List Bool Lia Reals Lra.
From Verif Require Import Base BaseFacts KernelModel KernelProofs ConvProofs Complex Dft FftModel FftProofs IirModel PolyModel PolyProofs SysModel SysProofs WindowModel WindowProofs FunctionModel FunctionProofs LsqFacts PropsFft PropsPoly PropsSys.
From Coq Require Import ZifyBool ZifyNat.
Import ListNotations.
Open Scope Z_scope.

(** ** C55: functions of signals *)
(** y has the samples f(x_i) *)
Definition samplewise {A B} (f : A -> B) (x : list A) (y : list B) : Prop := lenZ y = lenZ x /\ forall i v, nthZ x i = Some v -> nthZ y i = Some (f v).
Theorem C55_function : forall A B W vec (f : A -> B) d (x : list A), 1 <= W -> exists y, apply W vec f d x = Ok y /\ samplewise f x y.
Proof.
  intros A B W vec f d x HW. exists (map f x). split; [now apply apply_ok|]. split; [apply lenZ_map|]. intros i v Hv. rewrite nthZ_map. now rewrite Hv.
Qed.
Print Assumptions C55_function.
(** into an existing signal: as many samples as the input has are overwritten, the rest stays *)
Theorem C55_into : forall A W vec (f : A -> A) (out x : list A), 1 <= W -> lenZ x <= lenZ out -> exists y, apply_into W vec f out (Some x) = Ok y /\ lenZ y = lenZ out /\
  (forall i v, nthZ x i = Some v -> nthZ y i = Some (f v)) /\ (forall i, lenZ x <= i -> nthZ y i = nthZ out i).
Proof.
  intros A W vec f out x HW Hl. unfold apply_into. destruct (TransformTo_spec W vec out x f HW Hl) as (y & E & L & N). exists y. split; [exact E|]. split; [exact L|]. split.
  - intros i v Hv. rewrite N. assert (0 <= i < lenZ x) by (exact (nthZ_some _ _ _ Hv)). replace ((0 <=? i) && (i <? 0 + lenZ x)) with true by lia. rewrite Z.sub_0_r. now rewrite Hv.
  - intros i Hi. rewrite N. now replace ((0 <=? i) && (i <? 0 + lenZ x)) with false by lia.
Qed.
Print Assumptions C55_into.
(** in place *)
Theorem C55_in_place : forall A W vec (f : A -> A) (x : list A), 1 <= W -> exists y, apply_into W vec f x None = Ok y /\ samplewise f x y.
Proof.
  intros A W vec f x HW. exists (map f x). split.
  - unfold apply_into. apply T1_full; [exact HW|reflexivity|cbn; lia|]. intros i. cbn [src_nth]. now rewrite Z.add_0_l.
  - split; [apply lenZ_map|]. intros i v Hv. rewrite nthZ_map. now rewrite Hv.
Qed.
Print Assumptions C55_in_place.
(** unlike the arithmetic operators, the functions do not check the size of their output: too short a signal is overrun *)
Theorem C55_short_output : forall A W vec (f : A -> A) (out x : list A), 1 <= W -> lenZ out < lenZ x -> apply_into W vec f out (Some x) = UB.
Proof. intros A W vec f out x HW Hl. now apply TransformTo_short. Qed.
Print Assumptions C55_short_output.
(** modulus and argument are the polar form, real and imaginary part the Cartesian one, conjugation is an involution *)
Theorem C55_complex W vec (x : list C) : 1 <= W -> exists a p r i c c2, Abs W vec x = Ok a /\ Arg W vec x = Ok p /\ Real W vec x = Ok r /\ Imag W vec x = Ok i /\ Conj W vec x = Ok c /\ Conj W vec c = Ok c2 /\
  lenZ a = lenZ x /\ lenZ p = lenZ x /\ lenZ r = lenZ x /\ lenZ i = lenZ x /\ lenZ c = lenZ x /\ c2 = x /\
  forall k, 0 <= k < lenZ x -> let z := atC x k in
    (0 <= atR a k)%R /\ (- PI < atR p k <= PI)%R /\ z = mkC (atR a k * cos (atR p k)) (atR a k * sin (atR p k)) /\ z = mkC (atR r k) (atR i k) /\ atC c k = mkC (atR r k) (- atR i k).
Proof.
  intros HW. unfold Abs, Arg, Real, Imag, Conj. rewrite !apply_ok by exact HW. do 6 eexists. do 5 (split; [reflexivity|]). split; [apply apply_ok; exact HW|]. rewrite !lenZ_map. do 5 (split; [reflexivity|]). split.
  { rewrite map_map. rewrite <- (map_id x) at 2. apply map_ext. intros z. apply Cconj_conj. }
  intros k Hk. set (z := atC x k). assert (M : forall (f : C -> R), atR (map f x) k = f z) by (intros f; unfold z, at0; rewrite nthZ_map; destruct (nthZ_in x k Hk) as (v & Hv); cbn [car Cring]; rewrite Hv; reflexivity).
  rewrite !M. split; [apply Cabs_pos|]. split; [apply Carg_range|]. split; [rewrite (Carg_polar z) at 1; apply C_ext; cbn; ring|]. split; [now destruct z|].
  unfold at0. rewrite nthZ_map. unfold z, at0. destruct (nthZ_in x k Hk) as (v & Hv). cbn [car Cring]. rewrite Hv. reflexivity.
Qed.
Print Assumptions C55_complex.
Example C55_nontrivial : apply 2 true (fun x => x * x) 0 [1; 2; 3; 4; 5] = Ok [1; 4; 9; 16; 25] /\ apply_into 2 true Z.opp [7; 8; 9; 10; 11] (Some [1; 2; 3]) = Ok [-1; -2; -3; 10; 11] /\ apply_into 4 true Z.opp [7; 8] (Some [1; 2; 3]) = UB.
Proof. repeat split. Qed.

(** ** C56: dot product *)
Definition dotR (a b : list R) : R := sumR 0 (lenZ a) (fun i => atR a i * atR b i)%R.
Definition dotC (a b : list C) : C := sumC 0 (lenZ a) (fun i => Cmul (atC a i) (Cconj (atC b i))).
(** energy *)
Definition energy (a : list C) : R := sumR 0 (lenZ a) (fun i => Cnorm2 (atC a i)).
Lemma fold_map2_sum {A B} {K : CRing} (p : A -> B -> K) (a : list A) (b : list B) (F : Z -> K) : lenZ a = lenZ b -> (forall i x y, nthZ a i = Some x -> nthZ b i = Some y -> p x y = F i) ->
  fold_left radd (map2 p a b) r0 = sumZ 0 (lenZ a) F.
Proof.
  intros Hl HF. etransitivity; [exact (suml_sumZ (map2 p a b))|]. rewrite lenZ_map2, <- Hl, Z.min_id. apply sumZ_ext. intros i Hi. destruct (nthZ_in a i Hi) as (x & Hx). destruct (nthZ_in b i ltac:(lia)) as (y & Hy). unfold at0. rewrite (nthZ_map2 _ _ _ _ _ _ Hx Hy). now apply HF.
Qed.
Lemma dot_by {A B} {K : CRing} W vec (p : A -> B -> K) a b F : 1 <= W -> lenZ a = lenZ b -> (forall i x y, nthZ a i = Some x -> nthZ b i = Some y -> p x y = F i) -> DotProductBy W vec p a b = Ok (sumZ 0 (lenZ a) F).
Proof.
  intros HW Hl HF. unfold DotProductBy. rewrite Hl, Z.eqb_refl. cbn [assert_]. rewrite (InnerProduct_spec (Plain radd) radd W vec); [|left; apply RO_plain; [exact (Ring_theory.Radd_assoc (rth K))|exact (Ring_theory.Radd_comm (rth K))]|exact HW|lia]. f_equal. rewrite <- Hl. now apply fold_map2_sum.
Qed.
(** for signals of equal length: the sum of the products, the second factor conjugated if it is complex *)
Theorem C56_value W vec : 1 <= W ->
  (forall a b, lenZ a = lenZ b -> DotProductRR W vec a b = Ok (dotR a b)) /\
  (forall a b, lenZ a = lenZ b -> DotProductCC W vec a b = Ok (dotC a b)) /\
  (forall a b, lenZ a = lenZ b -> DotProductRC W vec a b = Ok (dotC (map RtoC a) b)) /\
  (forall a b, lenZ a = lenZ b -> DotProductCR W vec a b = Ok (dotC a (map RtoC b))).
Proof.
  intros HW. repeat split; intros a b Hl.
  - apply (dot_by (K := Rring)); try assumption. intros i x y Hx Hy. unfold at0. cbn [car Rring] in *. now rewrite Hx, Hy.
  - apply (dot_by (K := Cring)); try assumption. intros i x y Hx Hy. unfold at0. cbn [car Cring] in *. now rewrite Hx, Hy.
  - unfold dotC. rewrite lenZ_map. apply (dot_by (K := Cring)); try assumption. intros i x y Hx Hy. unfold at0. rewrite nthZ_map. cbn [car Cring] in *. now rewrite Hx, Hy.
  - unfold dotC. apply (dot_by (K := Cring)); try assumption. intros i x y Hx Hy. unfold at0. rewrite nthZ_map. cbn [car Cring] in *. rewrite Hx, Hy. cbn [option_map]. now rewrite Cconj_R.
Qed.
Print Assumptions C56_value.
(** signals of different length violate the precondition *)
Theorem C56_size_mismatch : forall A B (K : CRing) W vec (p : A -> B -> K) a b, lenZ a <> lenZ b -> DotProductBy W vec p a b = UB.
Proof. intros A B K W vec p a b H. unfold DotProductBy. apply Z.eqb_neq in H. now rewrite H. Qed.
Print Assumptions C56_size_mismatch.
(** linear in the first signal, conjugate symmetric, positive: an inner product; hence the Cauchy-Schwarz inequality *)
Lemma re_sumC n F : re (sumC 0 n F) = sumR 0 n (fun i => re (F i)). Proof. apply re_sumZ. Qed.
Lemma im_sumC n F : im (sumC 0 n F) = sumR 0 n (fun i => im (F i)). Proof. apply im_sumZ. Qed.
Theorem C56_inner_product W vec (a a' b : list C) (c : C) : 1 <= W -> lenZ a = lenZ b -> lenZ a' = lenZ b ->
  exists ab a'b ba aa bb, DotProductCC W vec a b = Ok ab /\ DotProductCC W vec a' b = Ok a'b /\ DotProductCC W vec b a = Ok ba /\ DotProductCC W vec a a = Ok aa /\ DotProductCC W vec b b = Ok bb /\
  DotProductCC W vec (map2 (fun x y => Cadd (Cmul c x) y) a a') b = Ok (Cadd (Cmul c ab) a'b) /\
  ba = Cconj ab /\ aa = RtoC (energy a) /\ (0 <= energy a)%R /\ (energy a = 0%R <-> forall z, In z a -> z = C0) /\ (Cnorm2 ab <= energy a * energy b)%R.
Proof.
  intros HW H1 H2. destruct (C56_value W vec HW) as (_ & V & _). rewrite (V a b), (V a' b), (V b a), (V a a), (V b b) by lia. do 5 eexists. do 5 (split; [reflexivity|]).
  assert (Ln : 0 <= lenZ a) by apply lenZ_nonneg.
  assert (AA : forall x, dotC x x = RtoC (energy x)).
  { intros x. unfold dotC, energy. apply C_ext; [rewrite re_sumC|rewrite im_sumC]; cbn [re im RtoC]; [apply sumR_ext; intros i Hi; cbn; unfold Cnorm2; ring|apply sumR_zero; intros i Hi; cbn; ring]. }
  assert (P : forall x, (0 <= energy x)%R) by (intros x; apply sumR_nonneg; [apply lenZ_nonneg|intros i Hi; apply Cnorm2_ge0]).
  split; [|split; [|split; [apply AA|split; [apply P|split]]]].
  - rewrite V by (rewrite lenZ_map2; lia). f_equal. unfold dotC. rewrite lenZ_map2. replace (Z.min (lenZ a) (lenZ a')) with (lenZ a) by lia. replace (lenZ a') with (lenZ a) by lia.
    transitivity (sumC 0 (lenZ a) (fun i => radd (c := Cring) (rmul (c := Cring) c (Cmul (atC a i) (Cconj (atC b i)))) (Cmul (atC a' i) (Cconj (atC b i))))).
    + apply (sumZ_ext (K := Cring)). intros i Hi. destruct (nthZ_in a i Hi) as (x & Hx). destruct (nthZ_in a' i ltac:(lia)) as (y & Hy). assert (E : atC (map2 (fun x y => Cadd (Cmul c x) y) a a') i = Cadd (Cmul c x) y) by (unfold at0; now rewrite (nthZ_map2 _ _ _ _ _ _ Hx Hy)).
      rewrite E. unfold at0. cbn [car Cring] in *. rewrite Hx, Hy. cbn [radd rmul Cring]. apply C_ext; cbn; ring.
    + rewrite (sumZ_add (K := Cring)), (sumZ_scale (K := Cring)). reflexivity.
  - unfold dotC. rewrite conj_sumZ, H1. apply (sumZ_ext (K := Cring)). intros i Hi. rewrite Cconj_mul, Cconj_conj. apply C_ext; cbn; ring.
  - unfold energy. split.
    + intros E z Hz. assert (Q : sumR 0 (lenZ a) (fun i => sqrt (Cnorm2 (atC a i)) * sqrt (Cnorm2 (atC a i)))%R = 0%R) by (rewrite <- E; apply sumR_ext; intros i Hi; apply sqrt_sqrt, Cnorm2_ge0).
      destruct (In_nth_error _ _ Hz) as (k & Hk). assert (Hk' : (k < length a)%nat) by (apply nth_error_Some; congruence). pose proof (sumR_sq_zero _ (fun i => sqrt (Cnorm2 (atC a i))) Ln Q (Z.of_nat k) ltac:(unfold lenZ; lia)) as R0. cbv beta in R0. apply (proj1 (Cabs_0 z)). unfold Cabs. rewrite <- R0. f_equal. f_equal. unfold at0. rewrite nthZ_nth_error. cbn [car Cring]. rewrite Hk. reflexivity.
    + intros Hz. apply sumR_zero. intros i Hi. destruct (nthZ_in a i Hi) as (x & Hx). unfold at0. cbn [car Cring]. rewrite Hx. rewrite (Hz x); [unfold Cnorm2; cbn; ring|]. unfold nthZ in Hx. destruct (i <? 0); [discriminate|]. exact (nth_error_In _ _ Hx).
  - set (S := dotC a b). set (A := energy a). set (B := energy b). set (n := lenZ a).
    assert (HB : (0 <= B)%R) by apply P.
    assert (E1 : sumR 0 n (fun i => Cnorm2 (Csub (Cmul (RtoC B) (atC a i)) (Cmul S (atC b i)))) = (B * B * A - B * Cnorm2 S)%R).
    { transitivity (sumR 0 n (fun i => B * B * Cnorm2 (atC a i) - 2 * B * (re S * re (Cmul (atC a i) (Cconj (atC b i))) + im S * im (Cmul (atC a i) (Cconj (atC b i)))) + Cnorm2 S * Cnorm2 (atC b i))%R).
      { apply sumR_ext. intros i Hi. unfold Cnorm2. cbn. ring. }
      rewrite sumR_add, sumR_sub, !sumR_scale, sumR_add, !sumR_scale.
      assert (Er : sumR 0 n (fun i => re (Cmul (atC a i) (Cconj (atC b i)))) = re S) by (unfold S, dotC; now rewrite re_sumC).
      assert (Ei : sumR 0 n (fun i => im (Cmul (atC a i) (Cconj (atC b i)))) = im S) by (unfold S, dotC; now rewrite im_sumC).
      rewrite Er, Ei. replace (sumR 0 n (fun i => Cnorm2 (atC b i))) with B by (unfold B, energy, n; now rewrite H1). change (sumR 0 n (fun i => Cnorm2 (atC a i))) with A. unfold Cnorm2. match goal with |- ?l = ?r => change (@eq R l r) end. ring. }
    assert (E2 : (0 <= B * B * A - B * Cnorm2 S)%R) by (rewrite <- E1; apply sumR_nonneg; [exact Ln|intros; apply Cnorm2_ge0]).
    destruct (Req_EM_T B 0) as [Z0'|NB].
    + assert (Hb0 : forall i, 0 <= i < n -> atC b i = C0).
      { intros i Hi. assert (Q : sumR 0 n (fun i => sqrt (Cnorm2 (atC b i)) * sqrt (Cnorm2 (atC b i)))%R = 0%R) by (rewrite <- Z0'; unfold B, energy, n; rewrite H1; apply sumR_ext; intros j Hj; apply sqrt_sqrt, Cnorm2_ge0).
        apply (proj1 (Cabs_0 (atC b i))). exact (sumR_sq_zero _ (fun i => sqrt (Cnorm2 (atC b i))) Ln Q i Hi). }
      assert (HS : S = C0). { apply (sumZ_zero (K := Cring)). intros i Hi. rewrite (Hb0 i Hi). apply C_ext; cbn; ring. }
      rewrite HS, Z0'. unfold Cnorm2. cbn. lra.
    + assert (0 < B)%R by lra. apply (Rmult_le_reg_l B); [assumption|]. nra.
Qed.
Print Assumptions C56_inner_product.
Example C56_nontrivial : DotProductCC 2 true [mkC 1 2; mkC 0 1; mkC 3 0] [mkC 0 1; mkC 1 1; mkC 2 0] = Ok (dotC [mkC 1 2; mkC 0 1; mkC 3 0] [mkC 0 1; mkC 1 1; mkC 2 0]) /\
  dotC [mkC 1 2; mkC 0 1; mkC 3 0] [mkC 0 1; mkC 1 1; mkC 2 0] = mkC 9 0.
Proof.
  split; [apply (C56_value 2 true ltac:(lia)); reflexivity|]. unfold dotC, sumZ. change (lenZ _) with 3. change (Z.to_nat (3 - 0)) with 3%nat. cbn [sumf].
  apply C_ext; unfold at0, nthZ; cbn -[IZR Rplus Rmult Rminus Ropp]; change (Pos.to_nat 1) with 1%nat; change (Pos.to_nat 2) with 2%nat; cbn [nth_error re im]; match goal with |- ?l = ?r => change (@eq R l r) end; ring.
Qed.

(** ** C54: frequency responses *)
(** the response of an impulse response at angular frequency w: sum of h_j e^(-iwj) *)
Definition response_at (h : list R) (w : R) : C := sumC 0 (lenZ h) (fun j => Cmul (RtoC (atR h j)) (mkC (cos (w * IZR j)) (- sin (w * IZR j)))).
(** amplitude a and phase p represent the complex number z *)
Definition polar_of (z : C) (a p : R) : Prop := (0 <= a)%R /\ a = sqrt (re z * re z + im z * im z) /\ (- PI < p <= PI)%R /\ z = mkC (a * cos p) (a * sin p).
Lemma polar_Cabs_Carg z : polar_of z (Cabs z) (Carg z).
Proof. split; [apply Cabs_pos|]. split; [reflexivity|]. split; [apply Carg_range|]. rewrite (Carg_polar z) at 1. apply C_ext; cbn; ring. Qed.
Lemma polar_replaced z : polar_of z (Cabs z) (Carg (if Req_EM_T (re z) 0 then if Req_EM_T (im z) 0 then C1 else z else z)).
Proof.
  destruct (Req_EM_T (re z) 0) as [E1|E1]; [|apply polar_Cabs_Carg]. destruct (Req_EM_T (im z) 0) as [E2|E2]; [|apply polar_Cabs_Carg].
  assert (z = C0) as -> by (apply C_ext; assumption). assert (A : Cabs C0 = 0%R) by now apply Cabs_0. split; [rewrite A; lra|]. split; [reflexivity|]. split; [apply Carg_range|]. rewrite A. apply C_ext; cbn; ring.
Qed.
Lemma padded_bin (h : list R) N k : lenZ h <= N -> 0 < N -> exists padded, wrs (zerosR N) 0 h = Ok padded /\ lenZ padded = N /\ spec_bin (complexify padded) k = response_at h (2 * PI * IZR k / IZR N).
Proof.
  intros Hl HN. assert (L0 : lenZ (zerosR N) = N) by (unfold zerosR, lenZ; rewrite repeat_length; lia).
  destruct (wrs_ok (zerosR N) 0 h ltac:(lia) ltac:(lia)) as (p & E & L & Nn). exists p. split; [exact E|]. split; [lia|]. pose proof (lenZ_nonneg h) as H0.
  assert (Ap : forall j, 0 <= j < N -> atC (complexify p) j = RtoC (if j <? lenZ h then atR h j else 0%R)).
  { intros j Hj. unfold at0, complexify. rewrite nthZ_map. cbn [car Cring Rring]. rewrite Nn, Z.sub_0_r. destruct (Z.ltb_spec j (lenZ h)) as [B|B].
    - replace ((0 <=? j) && (j <? 0 + lenZ h)) with true by lia. destruct (nthZ_in h j ltac:(lia)) as (v & Hv). rewrite Hv. reflexivity.
    - replace ((0 <=? j) && (j <? 0 + lenZ h)) with false by lia. unfold zerosR. rewrite nthZ_repeat by lia. reflexivity. }
  unfold spec_bin. rewrite lenZ_complexify, L, L0. unfold response_at.
  rewrite (sumZ_split (K := Cring) 0 (lenZ h) N) by lia.
  transitivity (radd (c := Cring) (response_at h (2 * PI * IZR k / IZR N)) C0); [apply f_equal2|fold (response_at h (2 * PI * IZR k / IZR N)); generalize (response_at h (2 * PI * IZR k / IZR N)); intros q; change (Cadd q C0 = q); destruct q; apply C_ext; cbn; ring].
  2: { apply (sumZ_zero (K := Cring)). intros j Hj. cbv zeta. rewrite Ap by lia. replace (j <? lenZ h) with false by lia. apply C_ext; cbn; ring. }
  apply (sumZ_ext (K := Cring)). intros j Hj. cbv zeta. rewrite Ap by lia. replace (j <? lenZ h) with true by lia.
  assert (Ew : (2 * PI * IZR (j * k) / IZR N = 2 * PI * IZR k / IZR N * IZR j)%R) by (rewrite mult_IZR; field; apply IZR_neq; lia). now rewrite Ew.
Qed.
(** an impulse response: a grid of N/2 + 1 frequencies 2 pi k / N from 0 up to pi (excluded for odd N), where N is twice the
    requested grid size less one, or the length of the impulse response if that is larger *)
Theorem C54_impulse W vec max_size (h : list R) hint : 1 <= W -> 0 <= hint -> let grid := if 0 <? hint then hint else 10 * lenZ h in let N := Z.max (lenZ h) (2 * grid - 1) in
  0 < grid -> 2 * grid < 2 ^ 64 -> N <= max_size ->
  exists a p, FrequencyResponseImpulse W vec max_size h hint = Ok (a, p) /\ lenZ a = N / 2 + 1 /\ lenZ p = N / 2 + 1 /\ (lenZ h <= 2 * grid -> lenZ a = (if lenZ h =? 2 * grid then grid + 1 else grid)) /\
    forall k, 0 <= k < lenZ a -> polar_of (response_at h (2 * PI * IZR k / IZR N)) (atR a k) (atR p k).
Proof.
  intros HW Hh grid N Hg Hs Hm. pose proof (lenZ_nonneg h) as H0. unfold FrequencyResponseImpulse, FrequencyResponseFftSize.
  assert (Eg : (if 0 <? hint then hint else (lenZ h * 10) mod 2 ^ 64) = grid) by (unfold grid in *; destruct (0 <? hint); [reflexivity|rewrite Z.mod_small; lia]).
  rewrite Eg. rewrite (Z.mod_small (2 * grid - 1)) by lia. fold N. replace (max_size <? N) with false by lia. assert (HN : 0 < N) by (unfold N; lia).
  destruct (padded_bin h N 0 ltac:(unfold N; lia) HN) as (pd & E & L & _). rewrite E. cbn [bind]. destruct (C16_real_forward pd ltac:(lia)) as [EF _]. rewrite EF. cbn [bind]. unfold Abs, Arg. rewrite !apply_ok by exact HW. cbn [bind].
  do 2 eexists. split; [reflexivity|]. unfold replace_zero. rewrite !lenZ_map, lenZ_tab, L. assert (0 <= N / 2) by (apply Z.div_pos; lia). split; [lia|]. split; [lia|]. split.
  - intros Hl. destruct (Z.eqb_spec (lenZ h) (2 * grid)) as [Eq|Ne].
    + assert (N = grid * 2) by (unfold N; lia). rewrite H1, Z.div_mul by lia. lia.
    + assert (N = (grid - 1) * 2 + 1) by (unfold N; lia). rewrite H1, Z.div_add_l by lia. change (1 / 2) with 0. lia.
  - intros k Hk. assert (Hk' : 0 <= k < N / 2 + 1) by lia. clear Hk. destruct (padded_bin h N k ltac:(unfold N; lia) HN) as (pd' & E' & _ & B). assert (pd' = pd) by congruence. subst pd'.
    assert (Ea : forall f : C -> R, atR (map f (tab (N / 2 + 1) (spec_bin (complexify pd)))) k = f (response_at h (2 * PI * IZR k / IZR N))).
    { intros f. rewrite map_tab. rewrite (at0_tab (K := Rring)) by lia. now rewrite B. }
    rewrite map_map. rewrite !Ea. apply polar_replaced.
Qed.
Print Assumptions C54_impulse.
(** an empty impulse response with the default grid size asks for 2^64 - 1 samples *)
Theorem C54_empty_impulse W vec max_size : max_size < 2 ^ 64 - 1 -> FrequencyResponseImpulse W vec max_size [] 0 = Throw LogicError.
Proof. intros H. unfold FrequencyResponseImpulse, FrequencyResponseFftSize. change (lenZ []) with 0. change (0 <? 0) with false. cbv iota. change (Z.max 0 _) with (2 ^ 64 - 1). now replace (max_size <? 2 ^ 64 - 1) with true by lia. Qed.
Print Assumptions C54_empty_impulse.

(** a system: grid frequencies from 0 to pi inclusive *)
Definition grid_frequency (n i : Z) : R := (PI * IZR i / IZR (n - 1))%R.
Lemma sys_response W vec order sys hint (H : C -> C) : 1 <= W -> let n := if 0 <? hint then hint else (1 + order) * 20 in 2 <= n -> (forall i, 0 <= i < n -> sys (cis (grid_frequency n i)) = Ok (H (cis (grid_frequency n i)))) ->
  exists a p, FrequencyResponseSystem W vec order sys hint = Ok (a, p) /\ lenZ a = n /\ lenZ p = n /\ forall i, 0 <= i < n -> polar_of (H (cis (grid_frequency n i))) (atR a i) (atR p i).
Proof.
  intros HW n Hn Hsys. unfold FrequencyResponseSystem. fold n. assert (L0 : lenZ (zerosR n) = n) by (unfold zerosR, lenZ; rewrite repeat_length; lia).
  rewrite LinSpace_ok by exact HW. cbn [bind]. rewrite L0.
  assert (Fr : forall i, lin n 0 PI true i = grid_frequency n i) by (intros i; unfold lin, grid_frequency; rewrite Z.max_r by lia; field; apply IZR_neq; lia).
  assert (G : okP (for_ 0 n 1 (fun i '(amplitude, phase) => do freq <- rd amplitude i; do response <- sys (cis freq); do amplitude <- wr amplitude i (Cabs response); do phase <- wr phase i (Carg response); Ok (amplitude, phase)) (tab n (lin n 0 PI true), zerosR n))
    (fun s => lenZ (fst s) = n /\ lenZ (snd s) = n /\ (forall i, 0 <= i < n -> polar_of (H (cis (grid_frequency n i))) (atR (fst s) i) (atR (snd s) i)))).
  { eapply okP_imp; [apply (for1_inv (fun k (s : list R * list R) => lenZ (fst s) = n /\ lenZ (snd s) = n /\ (forall i, 0 <= i < k -> polar_of (H (cis (grid_frequency n i))) (atR (fst s) i) (atR (snd s) i)) /\ (forall i, k <= i < n -> atR (fst s) i = grid_frequency n i)))|].
    - cbn [fst snd]. split; [rewrite lenZ_tab; lia|]. split; [exact L0|]. split; [intros i Hi; lia|]. intros i Hi. rewrite (at0_tab (K := Rring)) by lia. apply Fr.
    - lia.
    - intros i [a p] Hi (La & Lp & Hd & Ht). cbn [fst snd] in *. rewrite (rd_at0 (K := Rring)) by (cbn [car Rring]; lia). cbn [bind]. rewrite (Ht i) by lia. rewrite Hsys by lia. cbn [bind]. rewrite wr_ok by lia. cbn [bind]. rewrite wr_ok by lia. cbn [bind]. apply okP_ret. cbn [fst snd].
      split; [rewrite lenZ_updZ; lia|]. split; [rewrite lenZ_updZ; lia|]. split.
      + intros j Hj. rewrite !(at0_updZ (K := Rring)) by (cbn [car Rring]; lia). destruct (Z.eqb_spec j i) as [->|Nj]; [apply polar_Cabs_Carg|apply Hd; lia].
      + intros j Hj. rewrite (at0_updZ (K := Rring)) by (cbn [car Rring]; lia). destruct (Z.eqb_spec j i) as [->|Nj]; [lia|apply Ht; lia].
    - intros s (A & B & D & _). auto. }
  destruct G as ([a p] & E & La & Lp & Hp). exists a, p. cbn [fst snd] in *. auto.
Qed.
(** the zero-pole-gain system, its transfer function and its biquad cascade have the same measured response, which is the
    transfer function on the unit circle; the default size is 20 (order + 1), for the cascade 20 (order + 2) *)
Theorem C54_system W vec (s : zpk) hint : 1 <= W -> well_formed s -> 0 <= hint -> hint <> 1 -> let n := if 0 <? hint then hint else (1 + Z.of_nat (system_order s)) * 20 in
  (forall i, 0 <= i < n -> ~ is_pole s (cis (grid_frequency n i))) ->
  exists a p t, FrequencyResponseZpk W vec s hint = Ok (a, p) /\ tf_of_zpk s = Ok t /\ FrequencyResponseTf W vec t hint = Ok (a, p) /\ lenZ a = n /\ lenZ p = n /\
    (forall i, 0 <= i < n -> polar_of (transfer_at s (cis (grid_frequency n i))) (atR a i) (atR p i)) /\
    (0 < hint -> (0 < system_order s)%nat -> forall sortR sortP, reorders sortR -> reorders sortP -> exists ss, cascade_of_zpk sortR sortP s = Ok ss /\ FrequencyResponseCascade W vec ss hint = Ok (a, p)).
Proof.
  intros HW Wf Hh H1 n Hp. pose proof (C48_zero_pole_gain_order s Wf) as Eo. assert (Hn : 2 <= n) by (unfold n; destruct (Z.ltb_spec 0 hint); lia).
  destruct (C26_transfer_function s Wf) as (t & Et & Ht & _). pose proof (C48_transfer_function_order s t Wf Et) as Eto.
  destruct (sys_response W vec (zpk_order s) (fun z => Ok (zpk_eval (K := Cfield) RtoC s z)) hint (transfer_at s) HW) as (a & p & E & La & Lp & Hap); [rewrite Eo; exact Hn|intros i Hi; f_equal; apply C26_zero_pole_gain_value|].
  rewrite Eo in La, Lp, Hap. fold n in La, Lp, Hap. exists a, p, t. split; [exact E|]. split; [exact Et|]. 
  assert (Same : forall order sys, (if 0 <? hint then hint else (1 + order) * 20) = n -> (forall i, 0 <= i < n -> sys (cis (grid_frequency n i)) = Ok (transfer_at s (cis (grid_frequency n i)))) -> FrequencyResponseSystem W vec order sys hint = Ok (a, p)).
  { intros order sys Es Hs'. destruct (sys_response W vec order sys hint (transfer_at s) HW) as (a' & p' & E' & La' & Lp' & _); [rewrite Es; exact Hn|rewrite Es; exact Hs'|]. rewrite Es in La', Lp'.
    rewrite <- E. unfold FrequencyResponseZpk, FrequencyResponseSystem. rewrite Es. fold n in La. replace (if 0 <? hint then hint else (1 + zpk_order s) * 20) with n by (unfold n; now rewrite Eo).
    rewrite LinSpace_ok by exact HW. cbn [bind]. assert (L0 : lenZ (zerosR n) = n) by (unfold zerosR, lenZ; rewrite repeat_length; lia). rewrite L0.
    assert (Fr : forall i, lin n 0 PI true i = grid_frequency n i) by (intros i; unfold lin, grid_frequency; rewrite Z.max_r by lia; field; apply IZR_neq; lia).
    assert (G : forall m k (st : list R * list R), k + Z.of_nat m = n -> 0 <= k -> lenZ (fst st) = n -> (forall i, k <= i < n -> atR (fst st) i = grid_frequency n i) ->
      loop m k 1 (fun i '(amplitude, phase) => do freq <- rd amplitude i; do response <- sys (cis freq); do amplitude0 <- wr amplitude i (Cabs response); do phase0 <- wr phase i (Carg response); Ok (amplitude0, phase0)) st =
      loop m k 1 (fun i '(amplitude, phase) => do freq <- rd amplitude i; do response <- Ok (zpk_eval (K := Cfield) RtoC s (cis freq)); do amplitude0 <- wr amplitude i (Cabs response); do phase0 <- wr phase i (Carg response); Ok (amplitude0, phase0)) st).
    { induction m as [|m IH]; intros k [x y] Hk K0 Lx Hx; [reflexivity|]. cbn [loop fst] in *. rewrite (rd_at0 (K := Rring)) by (cbn [car Rring]; lia). cbn [bind]. rewrite (Hx k) by lia. rewrite Hs' by lia. rewrite C26_zero_pole_gain_value. cbn [bind]. rewrite wr_ok by lia. cbn [bind].
      destruct (wr y k _) as [y'| |]; [|reflexivity|reflexivity]. cbn [bind]. apply IH; cbn [fst]; try lia; [rewrite lenZ_updZ; lia|]. intros i Hi. rewrite (at0_updZ (K := Rring)) by (cbn [car Rring]; lia). destruct (Z.eqb_spec i k); [lia|]. apply Hx. lia. }
    apply G; cbn [fst]; try lia.
    - unfold trips. replace (n - 0 + 1 - 1) with n by lia. rewrite Z.div_1_r. lia.
    - rewrite lenZ_tab. lia.
    - intros i Hi. rewrite (at0_tab (K := Rring)) by lia. apply Fr. }
  split; [apply Same; [rewrite Eto; reflexivity|intros i Hi; f_equal; apply Ht]|]. split; [exact La|]. split; [exact Lp|]. split; [exact Hap|].
  intros Hpos Ho sortR sortP HR HP. destruct (C26_cascade_partial sortR sortP s HR HP Wf Ho) as (ss & Es & Hv & _). exists ss. split; [exact Es|]. apply Same; [unfold n; now replace (0 <? hint) with true by lia|]. intros i Hi. apply Hv, Hp, Hi.
Qed.
Print Assumptions C54_system.
(** a concrete system without poles on the unit circle: every grid is fine *)
Example C54_nontrivial : let s := mkZpk 3 (mk_fp [1%R] []) (mk_fp [2; -2]%R []) in
  well_formed s /\ (0 < system_order s)%nat /\ (forall w, ~ is_pole s (cis w)) /\
  (exists a p, FrequencyResponseImpulse 4 true 1000 [1; 1]%R 2 = Ok (a, p) /\ lenZ a = 2 /\ atR a 0 = 2%R).
Proof.
  cbn zeta. split; [split; apply mk_fp_wf|]. split; [unfold system_order, all_roots; cbn [zeros poles]; rewrite !mk_fp_real, !mk_fp_pairs; cbn; lia|]. split.
  - intros w. unfold is_pole, all_roots. cbn [poles]. rewrite mk_fp_real, mk_fp_pairs. cbn. intros H.
    pose proof (f_equal re H) as Hr. pose proof (f_equal im H) as Hi. cbn in Hr, Hi. pose proof (sin2_cos2 w) as T. unfold Rsqr in T.
    assert (E : (cos w * cos w - sin w * sin w = 4)%R) by lra. pose proof (Rle_0_sqr (sin w)) as S. unfold Rsqr in S. lra.
  - destruct (C54_impulse 4 true 1000 [1; 1]%R 2 ltac:(lia) ltac:(lia) ltac:(reflexivity) ltac:(reflexivity) ltac:(discriminate)) as (a & p & E & La & _ & _ & Hp).
    exists a, p. split; [exact E|]. assert (L2 : lenZ a = 2) by exact La. split; [exact L2|]. destruct (Hp 0 ltac:(lia)) as (_ & E0 & _). rewrite E0.
    replace (response_at [1; 1]%R _) with (RtoC 2); [cbn; replace (2 * 2 + 0 * 0)%R with (2 * 2)%R by ring; apply sqrt_square; lra|].
    unfold response_at, sumZ. change (lenZ [1; 1]%R) with 2. change (Z.to_nat (2 - 0)) with 2%nat. cbn [sumf].
    replace (2 * PI * 0 / IZR (Z.max 2 (2 * (if 0 <? 2 then 2 else 10 * 2) - 1)))%R with 0%R by (unfold Rdiv; ring).
    rewrite !Rmult_0_l, cos_0, sin_0. apply C_ext; unfold at0, nthZ; cbn -[IZR Rplus Rmult Rminus Ropp]; change (Pos.to_nat 1) with 1%nat; cbn [nth_error re im]; match goal with |- ?l = ?r => change (@eq R l r) end; ring.
Qed.
