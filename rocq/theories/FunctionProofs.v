(** Lemmas for C54-C56. *)
From Coq Require Import ZArith List Bool Lia Reals Lra.
From Verif Require Import Base BaseFacts KernelModel KernelProofs Complex FunctionModel.
From Coq Require Import ZifyBool ZifyNat.
Import ListNotations.
Open Scope Z_scope.

Lemma TransformTo_spec {A B} W vec (out : list B) (inp : list A) (f : A -> B) : 1 <= W -> lenZ inp <= lenZ out ->
  okP (TransformTo W vec out inp f) (written out 0 (lenZ inp) (fun i => option_map f (nthZ inp i))).
Proof.
  intros HW Hl. pose proof (lenZ_nonneg inp) as Hc. unfold TransformTo.
  set (g := fun i => option_map f (nthZ inp i)). set (count := lenZ inp) in *.
  set (vl := if vec then (count / W) * W else 0).
  assert (Hvl : 0 <= vl <= count).
  { subst vl. destruct vec; [|lia]. pose proof (div_mul_bounds count W HW Hc). lia. }
  eapply okP_bind with (P := written out 0 vl g).
  - destruct vec.
    + eapply okP_imp.
      * apply (for_inv (fun k => written out 0 (k * W) g)); [lia| |].
        { split; [reflexivity|]. intros j. now replace ((0 <=? j) && (j <? 0 + 0 * W)) with false by lia. }
        intros k o Hk Hlt Hw. replace (0 + k * W) with (k * W) in * by lia.
        assert (Hkw : k * W + W <= count).
        { subst vl. pose proof (div_mul_bounds count W HW Hc) as (D1 & D2 & D3).
          generalize dependent (count / W). intros q; intros. assert (k < q) by nia. nia. }
        assert (0 <= k * W) by nia.
        destruct (slice_ok inp (k * W) W ltac:(lia) ltac:(lia) ltac:(subst count; lia)) as (v1 & E1 & L1 & N1).
        rewrite E1. cbn [bind].
        assert (Lm : lenZ (map f v1) = W) by (rewrite lenZ_map; lia).
        replace ((k + 1) * W) with (k * W + lenZ (map f v1)) by lia.
        apply (written_wrs out o 0 (k * W)); try assumption; try lia.
        intros j Hj. subst g. cbv beta. rewrite nthZ_map, N1 by lia. reflexivity.
      * intros o (k & Hk & Hge & Hor & Hw). replace vl with (k * W); [exact Hw|].
        subst vl. pose proof (div_mul_bounds count W HW Hc) as (D1 & D2 & D3).
        apply (strided_end k W (count / W)); assumption.
    + apply okP_ret. split; [reflexivity|]. intros j. subst vl. now replace ((0 <=? j) && (j <? 0 + 0)) with false by lia.
  - intros o Hw.
    apply (for1_inv (fun k => written out 0 k g)); [exact Hw|lia|].
    intros i o' Hi Hw'. destruct (rd_ok inp i ltac:(subst count; lia)) as (a & E1 & N1).
    rewrite E1. cbn [bind]. apply (written_wr out o' 0 i); try assumption; try lia. subst g. cbv beta. now rewrite N1.
Qed.
Lemma apply_ok {A B} W vec (f : A -> B) d inp : 1 <= W -> apply W vec f d inp = Ok (map f inp).
Proof.
  intros HW. unfold apply. apply okP_eq. assert (L : lenZ (repeat d (length inp)) = lenZ inp) by (unfold lenZ; now rewrite repeat_length).
  eapply okP_imp; [apply TransformTo_spec; [exact HW|lia]|]. intros r [L' N]. apply list_ext; [rewrite lenZ_map; lia|]. intros i Hi.
  rewrite N. replace ((0 <=? i) && (i <? 0 + lenZ inp)) with true by lia. rewrite Z.sub_0_r. now rewrite nthZ_map.
Qed.
(** a loop that succeeds has run its last iteration *)
Lemma loop_last {S} n : forall i step (body : Z -> S -> outcome S) s s', loop (Datatypes.S n) i step body s = Ok s' -> exists s1, loop n i step body s = Ok s1 /\ body (i + Z.of_nat n * step) s1 = Ok s'.
Proof.
  induction n as [|n IH]; intros i step body s s' H.
  - cbn [loop] in *. exists s. split; [reflexivity|]. destruct (body i s) as [x| |] eqn:E; [|discriminate|discriminate]. cbn [bind] in H. assert (x = s') by congruence. subst. replace (i + Z.of_nat 0 * step) with i by lia. exact E.
  - change (loop (Datatypes.S (Datatypes.S n)) i step body s) with (do s <- body i s; loop (Datatypes.S n) (i + step) step body s) in H. destruct (body i s) as [x| |] eqn:E; [|discriminate|discriminate]. cbn [bind] in H. destruct (IH _ _ _ _ _ H) as (s1 & E1 & E2). exists s1. split.
    + cbn [loop]. rewrite E. exact E1.
    + rewrite <- E2. f_equal. lia.
Qed.
Lemma loop_keeps {S} (P : S -> Prop) n : forall i step (body : Z -> S -> outcome S) s s', (forall i s s', P s -> body i s = Ok s' -> P s') -> P s -> loop n i step body s = Ok s' -> P s'.
Proof.
  induction n as [|n IH]; intros i step body s s' Hb Hs H; [cbn in H; congruence|]. cbn [loop] in H. destruct (body i s) as [x| |] eqn:E; [|discriminate|discriminate]. cbn [bind] in H. exact (IH _ _ _ _ _ Hb (Hb _ _ _ Hs E) H).
Qed.
Lemma wr_len {A} (l : list A) i v l' : wr l i v = Ok l' -> lenZ l' = lenZ l /\ i < lenZ l.
Proof. unfold wr. destruct ((0 <=? i) && (i <? lenZ l)) eqn:E; [|discriminate]. intros [= <-]. split; [apply lenZ_updZ; lia|lia]. Qed.
Lemma wrs_len {A} (l : list A) i v l' : wrs l i v = Ok l' -> lenZ l' = lenZ l /\ i + lenZ v <= lenZ l.
Proof.
  unfold wrs. destruct ((0 <=? i) && (i + lenZ v <=? lenZ l)) eqn:E; [|discriminate]. intros H. destruct (wrs_ok l i v) as (l2 & E2 & L & _); [lia|lia|]. unfold wrs in E2. rewrite E in E2. split; [congruence|lia].
Qed.
(** an output that is too short is written past its end *)
Lemma TransformTo_short {A B} W vec (out : list B) (inp : list A) (f : A -> B) : 1 <= W -> lenZ out < lenZ inp -> TransformTo W vec out inp f = UB.
Proof.
  intros HW Hs. pose proof (lenZ_nonneg inp) as Hc. pose proof (lenZ_nonneg out) as Ho.
  assert (NT : forall lo hi step (body : Z -> list B -> outcome (list B)) s, (forall i s e, body i s <> Throw e) -> forall e, for_ lo hi step body s <> Throw e).
  { clear. intros lo hi step body s Hb e. unfold for_. set (n := trips _ _ _). clearbody n. revert lo s. induction n as [|n IH]; intros lo s; [discriminate|]. cbn [loop]. destruct (body lo s) as [x|x|] eqn:E; cbn [bind]; [apply IH| |discriminate]. exfalso. exact (Hb _ _ _ E). }
  assert (T1 : forall i (s : list B) e, (do x <- rd inp i; wr s i (f x)) <> Throw e) by (intros i s e; unfold rd, wr; destruct (nthZ inp i); cbn [bind]; [destruct (_ && _)|]; discriminate).
  assert (T2 : forall i (s : list B) e, (do v <- slice inp i W; wrs s i (map f v)) <> Throw e) by (intros i s e; unfold slice, wrs; destruct (_ && _ && _); cbn [bind]; [destruct (_ && _)|]; discriminate).
  assert (K1 : forall i (s s' : list B), lenZ s = lenZ out -> (do x <- rd inp i; wr s i (f x)) = Ok s' -> lenZ s' = lenZ out).
  { intros i s s' L H. destruct (rd inp i) as [x| |]; [|discriminate|discriminate]. cbn [bind] in H. apply wr_len in H. lia. }
  assert (K2 : forall i (s s' : list B), lenZ s = lenZ out -> (do v <- slice inp i W; wrs s i (map f v)) = Ok s' -> lenZ s' = lenZ out).
  { intros i s s' L H. destruct (slice inp i W) as [x| |]; [|discriminate|discriminate]. cbn [bind] in H. apply wrs_len in H. lia. }
  unfold TransformTo. set (count := lenZ inp) in *. set (vl := if vec then (count / W) * W else 0).
  assert (Hvl : 0 <= vl <= count). { subst vl. destruct vec; [|lia]. pose proof (div_mul_bounds count W HW Hc). lia. }
  set (first := if vec then _ else _). assert (F : match first with Ok o => lenZ o = lenZ out /\ (vl = count -> False) | Throw _ => False | UB => True end).
  { subst first. destruct vec; [|split; [reflexivity|subst vl; lia]]. destruct (for_ 0 vl W _ out) as [o|e|] eqn:E; [|exact (NT _ _ _ _ _ T2 _ E)|exact I]. unfold for_, trips in E. split; [exact (loop_keeps (fun s => lenZ s = lenZ out) _ _ _ _ _ _ K2 eq_refl E)|].
    intros Ev. destruct (Z.to_nat ((vl - 0 + W - 1) / W)) as [|n] eqn:En.
    - assert (0 < (vl - 0 + W - 1) / W) by (apply Z.div_str_pos; lia). lia.
    - destruct (loop_last _ _ _ _ _ _ E) as (s1 & E1 & E2). pose proof (loop_keeps (fun s => lenZ s = lenZ out) _ _ _ _ _ _ K2 eq_refl E1) as L1. cbv beta in L1.
      assert (Hn : Z.of_nat n * W + W = vl).
      { assert (Z.of_nat n + 1 = (vl - 0 + W - 1) / W) by lia. assert (D : (vl - 0 + W - 1) / W = count / W). { replace (vl - 0 + W - 1) with (count / W * W + (W - 1)) by (subst vl; lia). rewrite Z.div_add_l by lia. rewrite (Z.div_small (W - 1)) by lia. lia. } subst vl. rewrite <- D, <- H. lia. }
      destruct (slice inp (0 + Z.of_nat n * W) W) as [v| |] eqn:Ew; [|discriminate|discriminate]. cbn [bind] in E2. apply wrs_len in E2. rewrite lenZ_map in E2. unfold slice in Ew. destruct (_ && _ && _) eqn:Eb in Ew; [|discriminate]. assert (lenZ v = W).
      { destruct (slice_ok inp (0 + Z.of_nat n * W) W) as (v' & E' & L' & _); [lia|lia|lia|]. unfold slice in E'. rewrite Eb in E'. congruence. }
      lia. }
  destruct first as [o|e|]; [|contradiction|reflexivity]. cbn [bind]. destruct F as [L F].
  destruct (for_ vl count 1 _ o) as [o'|e|] eqn:E; [|exfalso; exact (NT _ _ _ _ _ T1 _ E)|reflexivity]. exfalso. unfold for_, trips in E. destruct (Z.to_nat ((count - vl + 1 - 1) / 1)) as [|n] eqn:En.
  - replace (count - vl + 1 - 1) with (count - vl) in En by lia. rewrite Z.div_1_r in En. lia.
  - destruct (loop_last _ _ _ _ _ _ E) as (s1 & E1 & E2). pose proof (loop_keeps (fun s => lenZ s = lenZ out) _ _ _ _ _ _ K1 L E1) as L1. cbv beta in L1.
    replace (count - vl + 1 - 1) with (count - vl) in En by lia. rewrite Z.div_1_r in En.
    destruct (rd inp _) as [x| |]; [|discriminate|discriminate]. cbn [bind] in E2. apply wr_len in E2. lia.
Qed.

(** ** Polar form *)
Open Scope R_scope.
Lemma Cabs_sqr z : Cabs z * Cabs z = Cnorm2 z. Proof. unfold Cabs. apply sqrt_sqrt, Cnorm2_ge0. Qed.
Lemma Cabs_pos z : 0 <= Cabs z. Proof. apply sqrt_pos. Qed.
Lemma Cabs_0 z : Cabs z = 0 <-> z = C0.
Proof.
  split; intros H.
  - pose proof (Cabs_sqr z) as S. rewrite H, Rmult_0_l in S. unfold Cnorm2 in S. apply C_ext; cbn; nra.
  - subst. unfold Cabs, Cnorm2, C0. cbn [re im]. replace (0 * 0 + 0 * 0) with 0 by ring. apply sqrt_0.
Qed.
Lemma re_le_abs z : - Cabs z <= re z <= Cabs z.
Proof. pose proof (Cabs_sqr z) as S. pose proof (Cabs_pos z). unfold Cnorm2 in S. split; nra. Qed.
Lemma Carg_polar z : z = Cmul (RtoC (Cabs z)) (cis (Carg z)).
Proof.
  unfold Carg. destruct (Req_EM_T (Cabs z) 0) as [E|E].
  - apply Cabs_0 in E as ->. replace (Cabs C0) with 0 by (symmetry; now apply Cabs_0). apply C_ext; cbn; ring.
  - pose proof (Cabs_pos z) as P. assert (P' : 0 < Cabs z) by lra. pose proof (re_le_abs z) as B. pose proof (Cabs_sqr z) as S. unfold Cnorm2 in S.
    assert (B' : -1 <= re z / Cabs z <= 1).
    { split; apply (Rmult_le_reg_r (Cabs z)); try lra; unfold Rdiv; rewrite Rmult_assoc, Rinv_l by lra; lra. }
    assert (Sn : sin (acos (re z / Cabs z)) = Rabs (im z) / Cabs z).
    { rewrite sin_acos by exact B'. apply Rsqr_inj; [apply sqrt_pos|apply Rmult_le_pos; [apply Rabs_pos|left; now apply Rinv_0_lt_compat]|].
      rewrite Rsqr_sqrt by (unfold Rsqr; nra). unfold Rsqr, Rdiv. replace (Rabs (im z) * / Cabs z * (Rabs (im z) * / Cabs z)) with ((Rabs (im z) * Rabs (im z)) * (/ Cabs z * / Cabs z)) by ring.
      replace (Rabs (im z) * Rabs (im z)) with (im z * im z) by (unfold Rabs; destruct (Rcase_abs _); ring). apply (Rmult_eq_reg_r (Cabs z * Cabs z)); [|nra]. field_simplify; [nra|lra|lra]. }
    destruct (Rlt_dec (im z) 0) as [N|N].
    + rewrite cis_neg. unfold cis. rewrite cos_acos, Sn by exact B'. rewrite Rabs_left by exact N. apply C_ext; cbn; field; lra.
    + unfold cis. rewrite cos_acos, Sn by exact B'. rewrite Rabs_right by lra. apply C_ext; cbn; field; lra.
Qed.
Lemma Carg_range z : - PI < Carg z <= PI.
Proof.
  pose proof PI_RGT_0. unfold Carg. destruct (Req_EM_T (Cabs z) 0) as [E|E]; [lra|]. pose proof (acos_bound (re z / Cabs z)) as B. destruct (Rlt_dec (im z) 0) as [N|N]; [|lra]. split; [|lra].
  destruct (Req_EM_T (acos (re z / Cabs z)) PI) as [E'|E']; [|lra]. exfalso. pose proof (Cabs_pos z). pose proof (re_le_abs z) as B1. pose proof (Cabs_sqr z) as S. unfold Cnorm2 in S.
  assert (B' : -1 <= re z / Cabs z <= 1).
  { split; apply (Rmult_le_reg_r (Cabs z)); try lra; unfold Rdiv; rewrite Rmult_assoc, Rinv_l by lra; lra. }
  pose proof (cos_acos _ B') as Cc. rewrite E', cos_PI in Cc. assert (re z = - Cabs z) by (apply (Rmult_eq_reg_r (/ Cabs z)); [unfold Rdiv in Cc; rewrite <- Cc; field; lra|apply Rinv_neq_0_compat; lra]). nra.
Qed.
