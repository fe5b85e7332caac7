(** C68: statistics of complex signals (exact arithmetic, any order of the additions). *)
From Coq Require Import Reals Lra Lia List ZArith Arith Psatz.
From Verif Require Import Base BaseFacts Complex KernelModel StatModel FloatSpec ReduceTree PropsFloat RootModel.
Import ListNotations.
Local Open Scope R_scope.

(** ** Specification *)
Definition total (l : list R) : R := fold_right Rplus 0 l.
(** the complex statistics of Statistics.hpp: T = std::complex *)
Definition Cdiv_ (a b : C) : outcome C := if Req_EM_T (Cnorm2 b) 0 then UB else Ok (Cdiv a b).
Definition Csize (n : Z) : C := RtoC (IZR n).
Notation CSum := (gSum C0 Cadd).
Notation CMean := (gMean C0 Cadd Cdiv_ Csize).
Notation CSumSquare := (gSumSquare C0 Cadd Cmul).
Notation CNorm := (gNorm C0 Cadd Cmul (fun x => Ok (Csqrt x))).
Notation CVariance batch tail W vec := (fun l => gCentralMoment C0 Cadd Csub Cmul Cdiv_ Csize batch tail W vec (fun _ d => d) l 2).

(** ** In exact arithmetic the order does not matter *)
Lemma combined_exact d v l : combined Cadd d v l -> re v = total (map re l) /\ im v = total (map im l).
Proof.
  assert (A : forall a b, total (a ++ b) = total a + total b) by (unfold total; induction a as [|x a IH]; intros b; cbn [app fold_right]; [lra|rewrite IH; lra]).
  assert (Pm : forall a b, Permutation a b -> total a = total b) by (induction 1; cbn in *; unfold total in *; lra).
  induction 1 as [x|d1 d2 x y lx ly C1 I1 C2 I2|d v l l' C I P|d d' v l C I Hd].
  - cbn. split; ring.
  - rewrite !map_app, !A. destruct I1 as [<- <-], I2 as [<- <-]. now split.
  - rewrite <- (Pm (map re l) (map re l')), <- (Pm (map im l) (map im l')) by (now apply Permutation_map). exact I.
  - exact I.
Qed.
Lemma transform_sum batch tail W vec (f : C -> C) l : some_order Cadd batch -> some_order Cadd tail -> (1 <= W)%Z ->
  TransformReduceWith batch tail W vec (Plain Cadd) f l C0 = Ok (mkC (total (map (fun x => re (f x)) l)) (total (map (fun x => im (f x)) l))).
Proof.
  intros Hb Ht HW.
  destruct (C62_transform_reduce_combines_each_once C C Cadd (Plain Cadd) batch tail W vec f l C0 (or_introl eq_refl) Hb Ht HW) as (v & E & Cv).
  rewrite E. f_equal. destruct (combined_exact _ _ _ Cv) as [H1 H2]. cbn [map total fold_right re im C0] in H1, H2. rewrite map_map in H1, H2.
  apply C_ext; cbn [re im]; unfold total in *; lra.
Qed.

Theorem C68_sum : forall batch tail W vec l, some_order Cadd batch -> some_order Cadd tail -> (1 <= W)%Z ->
  CSum batch tail W vec l = Ok (mkC (total (map re l)) (total (map im l))).
Proof.
  intros batch tail W vec l Hb Ht HW.
  destruct (C62_reduce_combines_each_once C Cadd (Plain Cadd) batch tail W vec l C0 (or_introl eq_refl) Hb Ht HW) as (v & E & Cv).
  unfold gSum. rewrite E. f_equal. destruct (combined_exact _ _ _ Cv) as [H1 H2]. cbn [map total fold_right re im C0] in H1, H2.
  apply C_ext; cbn [re im]; unfold total in *; lra.
Qed.
Print Assumptions C68_sum.

Lemma size_ne {A} (l : list A) : l <> [] -> 0 < IZR (lenZ l).
Proof. intros H. apply (IZR_lt 0). destruct l as [|x t]; [congruence|]. rewrite lenZ_cons. pose proof (lenZ_nonneg t). lia. Qed.
Lemma div_by_size a {A} (l : list A) : l <> [] -> Cdiv_ a (Csize (lenZ l)) = Ok (mkC (re a / IZR (lenZ l)) (im a / IZR (lenZ l))).
Proof.
  intros H. pose proof (size_ne l H) as P. unfold Cdiv_, Csize. destruct (Req_EM_T _ _) as [E|E].
  - exfalso. unfold Cnorm2 in E. cbn in E. nra.
  - f_equal. apply C_ext; cbn; unfold Cnorm2; cbn; field; lra.
Qed.
Lemma nonempty {A} (l : list A) : l <> [] -> negb (lenZ l =? 0)%Z = true.
Proof. intros H. destruct l as [|x t]; [congruence|]. rewrite lenZ_cons. pose proof (lenZ_nonneg t). destruct (Z.eqb_spec (lenZ t + 1) 0); [lia|reflexivity]. Qed.

(** the mean, component by component *)
Theorem C68_mean : forall batch tail W vec l, some_order Cadd batch -> some_order Cadd tail -> (1 <= W)%Z ->
  CMean batch tail W vec l = Ok (match l with [] => C0 | _ => mkC (total (map re l) / IZR (lenZ l)) (total (map im l) / IZR (lenZ l)) end).
Proof.
  intros batch tail W vec l Hb Ht HW. unfold gMean. destruct l as [|x t]; [reflexivity|].
  rewrite nonempty by discriminate. rewrite C68_sum by assumption. cbn [bind]. now rewrite div_by_size by discriminate.
Qed.
Print Assumptions C68_mean.

(** the sum of squares adds z^2, not |z|^2: right for real signals, too small in modulus otherwise *)
Theorem C68_sum_square_partial : forall batch tail W vec l, some_order Cadd batch -> some_order Cadd tail -> (1 <= W)%Z ->
  exists s, CSumSquare batch tail W vec l = Ok s /\
    s = mkC (total (map (fun z => re z ^ 2 - im z ^ 2) l)) (total (map (fun z => 2 * (re z * im z)) l)) /\
    Cabs s <= total (map Cnorm2 l) /\
    ((forall z, In z l -> im z = 0) -> s = RtoC (total (map Cnorm2 l))).
Proof.
  intros batch tail W vec l Hb Ht HW. unfold gSumSquare. rewrite transform_sum by assumption. eexists. split; [reflexivity|].
  set (s := mkC _ _).
  assert (Es : s = mkC (total (map (fun z => re z ^ 2 - im z ^ 2) l)) (total (map (fun z => 2 * (re z * im z)) l))).
  { unfold s. f_equal; f_equal; apply map_ext; intros z; cbn; ring. }
  split; [exact Es|]. rewrite Es. clear s Es. split.
  - assert (G : 0 <= total (map Cnorm2 l) /\
      total (map (fun z => re z ^ 2 - im z ^ 2) l) ^ 2 + total (map (fun z => 2 * (re z * im z)) l) ^ 2 <= total (map Cnorm2 l) ^ 2).
    { induction l as [|z l [I0 I]]; [cbn; lra|]. cbn [map total fold_right]. fold (total (map (fun z => re z ^ 2 - im z ^ 2) l)). fold (total (map (fun z => 2 * (re z * im z)) l)). fold (total (map Cnorm2 l)).
      set (A := total (map (fun z => re z ^ 2 - im z ^ 2) l)) in *. set (B := total (map (fun z => 2 * (re z * im z)) l)) in *. set (N := total (map Cnorm2 l)) in *.
      pose proof (Cnorm2_ge0 z) as Z0. split; [lra|].
      set (a := re z ^ 2 - im z ^ 2). set (b := 2 * (re z * im z)). set (n := Cnorm2 z) in *.
      assert (En : a ^ 2 + b ^ 2 = n ^ 2) by (unfold a, b, n, Cnorm2; ring). clearbody A B N a b n.
      assert (K : A * a + B * b <= N * n).
      { apply Rnot_lt_le. intros L. assert (0 <= N * n) by (apply Rmult_le_pos; lra).
        assert ((N * n) * (N * n) < (A * a + B * b) * (A * a + B * b)) by (apply Rmult_le_0_lt_compat; lra).
        assert ((A * a + B * b) * (A * a + B * b) <= (A ^ 2 + B ^ 2) * (a ^ 2 + b ^ 2)) by (pose proof (pow2_ge_0 (A * b - B * a)); lra).
        assert ((A ^ 2 + B ^ 2) * n ^ 2 <= N ^ 2 * n ^ 2) by (apply Rmult_le_compat_r; [apply pow2_ge_0|exact I]). rewrite En in *. lra. }
      lra. }
    destruct G as [G0 G]. unfold Cabs, Cnorm2 at 1. cbn [re im]. rewrite <- (sqrt_pow2 (total (map Cnorm2 l))) by exact G0.
    apply sqrt_le_1_alt. lra.
  - intros Hz. apply C_ext; cbn [re im RtoC].
    + f_equal. apply map_ext_in. intros z Hzl. unfold Cnorm2. rewrite (Hz z Hzl). ring.
    + clear Hb Ht HW. induction l as [|z l IH]; [reflexivity|]. cbn [map total fold_right]. fold (total (map (fun z => 2 * (re z * im z)) l)).
      rewrite IH by (intros y Hy; apply Hz; now right). rewrite (Hz z (or_introl eq_refl)). ring.
Qed.
Print Assumptions C68_sum_square_partial.

(** Norm is not a norm of complex signals, and Variance is not a variance: both vanish for nonzero, nonconstant signals *)
Theorem C68_norm_refuted : forall W vec, (1 <= W)%Z ->
  let l := [C1; Ci] in
  CNorm (fold_left Cadd) (fold_left Cadd) W vec l = Ok C0 /\ total (map Cnorm2 l) = 2 /\ some_order Cadd (fold_left Cadd).
Proof.
  intros W vec HW l. split; [|split; [cbn; unfold Cnorm2; cbn; ring|apply fold_left_some_order]].
  unfold gNorm, gSumSquare. rewrite transform_sum by (apply fold_left_some_order || assumption). cbn [bind]. f_equal.
  replace (mkC _ _) with C0 by (apply C_ext; cbn; ring).
  assert (E : Cabs C0 = 0) by (unfold Cabs, Cnorm2; cbn; rewrite Rmult_0_l, Rplus_0_l; apply sqrt_0).
  unfold Csqrt. rewrite E. cbn [re im C0]. replace ((0 + 0) / 2) with 0 by field. replace ((0 - 0) / 2) with 0 by field. rewrite sqrt_0. apply C_ext; cbn; ring.
Qed.
Print Assumptions C68_norm_refuted.
Theorem C68_variance_refuted : forall W vec, (1 <= W)%Z ->
  let l := [C1; Ci; Copp C1; Copp Ci] in
  CVariance (fold_left Cadd) (fold_left Cadd) W vec l = Ok C0.
Proof.
  intros W vec HW l. assert (O : some_order Cadd (fold_left Cadd)) by apply fold_left_some_order.
  unfold gCentralMoment. rewrite C68_mean by assumption. cbn [bind].
  replace (match l with [] => C0 | _ => _ end) with C0.
  - unfold gCentralMoment_mean. cbv zeta. rewrite transform_sum by assumption. cbn [bind].
    rewrite (div_by_size _ l) by discriminate. f_equal. apply C_ext; cbn [re im C0]; cbn; field.
  - unfold l. cbv beta iota. apply C_ext; cbn; field.
Qed.
Print Assumptions C68_variance_refuted.
Example C68_nontrivial : CMean (fold_left Cadd) (fold_left Cadd) 4 true [C1; Ci; mkC 2 5] = Ok (mkC 1 2).
Proof. rewrite C68_mean by (apply fold_left_some_order || lia). f_equal. apply C_ext; cbn; field. Qed.
