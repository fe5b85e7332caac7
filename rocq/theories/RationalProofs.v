From Verif Require Import Base.
From Coq Require Import QArith Qround Znumtheory ZifyBool.
From Verif Require Import RationalModel.
Open Scope Z_scope.

(** Specification: the rational number represented, and canonical form. *)
Definition val (r : rat) : Q := Qmake (num r) (Z.to_pos (den r)).
Definition canonical (r : rat) : Prop := 0 < den r /\ Z.gcd (num r) (den r) = 1.

Lemma Ok_inj {A} (a b : A) : Ok a = Ok b -> a = b.
Proof. congruence. Qed.
Ltac inv_ok :=
  repeat match goal with
  | H : bind ?m _ = Ok _ |- _ =>
      let E := fresh "E" in destruct m eqn:E; cbn [bind] in H; try discriminate H
  | H : assert_ ?b _ = Ok _ |- _ =>
      let E := fresh "E" in unfold assert_ in H; destruct b eqn:E; try discriminate H
  | H : (let '(_, _) := ?p in _) = Ok _ |- _ => destruct p
  | H : Ok _ = Ok _ |- _ => apply Ok_inj in H; subst
  end.

Section P.
Variable M : Z.

Lemma ci_ok v w : ci M v = Ok w -> w = v.
Proof. unfold ci. destruct (_ && _); congruence. Qed.
Lemma cadd_ok a b w : cadd M a b = Ok w -> w = a + b. Proof. apply ci_ok. Qed.
Lemma csub_ok a b w : csub M a b = Ok w -> w = a - b. Proof. apply ci_ok. Qed.
Lemma cmul_ok a b w : cmul M a b = Ok w -> w = a * b. Proof. apply ci_ok. Qed.
Lemma cgcd_ok a b w : cgcd M a b = Ok w -> w = Z.gcd a b.
Proof. unfold cgcd. destruct (_ && _); congruence. Qed.
Lemma clcm_ok a b w : clcm M a b = Ok w -> w = Z.lcm a b.
Proof. unfold clcm. destruct (_ && _); [apply ci_ok|congruence]. Qed.
Lemma cquot_ok a b w : cquot M a b = Ok w -> b <> 0 /\ w = Z.quot a b.
Proof. unfold cquot. destruct (Z.eqb_spec b 0); [congruence|]. intros H; apply ci_ok in H; auto. Qed.

Ltac clean :=
  repeat match goal with
  | H : cadd _ _ _ = Ok _ |- _ => apply cadd_ok in H
  | H : csub _ _ _ = Ok _ |- _ => apply csub_ok in H
  | H : cmul _ _ _ = Ok _ |- _ => apply cmul_ok in H
  | H : cgcd _ _ _ = Ok _ |- _ => apply cgcd_ok in H
  | H : clcm _ _ _ = Ok _ |- _ => apply clcm_ok in H
  | H : cquot _ _ _ = Ok _ |- _ => apply cquot_ok in H; destruct H
  | H : getden _ = Ok _ |- _ => unfold getden in H; inv_ok
  end.

Lemma quot_exact a s : s <> 0 -> (s | a) -> s * Z.quot a s = a.
Proof. intros Hs [k ->]. rewrite Z.quot_mul by exact Hs. lia. Qed.

Lemma make_ok n d r : make M n d = Ok r -> 0 < d /\ canonical r /\ num r * d = n * den r.
Proof.
  unfold make. intros H. inv_ok. clean. subst. cbn [num den].
  assert (Hd : 0 < d) by lia. split; [exact Hd|].
  set (g := Z.gcd n d) in *.
  assert (Hg : 0 < g) by (pose proof (Z.gcd_nonneg n d); lia).
  pose proof (quot_exact n g ltac:(lia) (Z.gcd_divide_l n d)) as Hn.
  pose proof (quot_exact d g ltac:(lia) (Z.gcd_divide_r n d)) as Hdd.
  unfold canonical; cbn [num den]. split; [split|].
  - nia.
  - rewrite !Z.quot_div_exact by (try lia; first [apply Z.gcd_divide_l | apply Z.gcd_divide_r]).
    apply Z.gcd_div_gcd; [lia|reflexivity].
  - set (qn := Z.quot n g) in *. set (qd := Z.quot d g) in *. nia.
Qed.

Lemma of_int_canonical v : canonical (of_int v) /\ (val (of_int v) == inject_Z v)%Q.
Proof. split; [split; [reflexivity|apply Z.gcd_1_r]|reflexivity]. Qed.

(* everything in cross-multiplied form first *)
Definition cross (r : rat) (n d : Z) : Prop := canonical r /\ num r * d = n * den r.

Lemma common_ok l r a b c : common M l r = Ok (a, b, c) ->
  0 < den l /\ 0 < den r /\ 0 < c /\ exists ql qr, c = den l * ql /\ c = den r * qr /\
  a = num l * ql /\ b = num r * qr.
Proof.
  unfold common. intros H. inv_ok. clean.
  injection H as <- <- <-. subst.
  assert (Hl : 0 < den l) by lia. assert (Hr : 0 < den r) by lia.
  split; [exact Hl|]. split; [exact Hr|].
  assert (0 < Z.lcm (den l) (den r)).
  { pose proof (Z.lcm_nonneg (den l) (den r)).
    assert (Z.lcm (den l) (den r) <> 0); [|lia].
    intros C. apply Z.lcm_eq_0 in C. lia. }
  split; [assumption|].
  exists (Z.quot (Z.lcm (den l) (den r)) (den l)), (Z.quot (Z.lcm (den l) (den r)) (den r)).
  rewrite !quot_exact by (try lia; first [apply Z.divide_lcm_l | apply Z.divide_lcm_r]).
  auto.
Qed.

Lemma reduce_twice n c r : 0 < c ->
  make M (Z.quot n (Z.gcd n c)) (Z.quot c (Z.gcd n c)) = Ok r -> cross r n c.
Proof.
  intros Hc H. apply make_ok in H as [Hd [Hcan Hx]]. split; [exact Hcan|].
  set (g := Z.gcd n c) in *.
  assert (g <> 0) by (intros C; apply Z.gcd_eq_0 in C; lia).
  pose proof (quot_exact n g ltac:(lia) (Z.gcd_divide_l n c)) as Hn.
  pose proof (quot_exact c g ltac:(lia) (Z.gcd_divide_r n c)) as Hcc.
  set (x := Z.quot n g) in *. set (y := Z.quot c g) in *. nia.
Qed.

Lemma add_ok l r s : add M l r = Ok s -> cross s (num l * den r + num r * den l) (den l * den r).
Proof.
  unfold add. intros H. inv_ok. apply common_ok in E as (Hl & Hr & Hc & ql & qr & Hc1 & Hc2 & -> & ->).
  clean. subst a. subst a0. subst a1 a2.
  apply reduce_twice in H as [Hcan Hx]; [|exact Hc]. split; [exact Hcan|].
  apply (Z.mul_reg_l _ _ z); [lia|].
  transitivity (num s * z * (den l * den r)); [ring|]. rewrite Hx.
  transitivity (den s * (num l * den r * (den l * ql) + num r * den l * (den r * qr))); [ring|].
  rewrite <- Hc1, <- Hc2. ring.
Qed.
Lemma sub_ok l r s : sub M l r = Ok s -> cross s (num l * den r - num r * den l) (den l * den r).
Proof.
  unfold sub. intros H. inv_ok. apply common_ok in E as (Hl & Hr & Hc & ql & qr & Hc1 & Hc2 & -> & ->).
  clean. subst a. subst a0. subst a1 a2.
  apply reduce_twice in H as [Hcan Hx]; [|exact Hc]. split; [exact Hcan|].
  apply (Z.mul_reg_l _ _ z); [lia|].
  transitivity (num s * z * (den l * den r)); [ring|]. rewrite Hx.
  transitivity (den s * (num l * den r * (den l * ql) - num r * den l * (den r * qr))); [ring|].
  rewrite <- Hc1, <- Hc2. ring.
Qed.
Lemma mul_ok l r s : mul M l r = Ok s -> cross s (num l * num r) (den l * den r).
Proof.
  unfold mul. intros H. inv_ok. clean. subst. apply make_ok in H as [Hd [Hcan Hx]].
  split; [exact Hcan|].
  set (g1 := Z.gcd (num l) (den r)) in *. set (g2 := Z.gcd (num r) (den l)) in *.
  pose proof (quot_exact (num l) g1 ltac:(lia) (Z.gcd_divide_l _ _)) as A.
  pose proof (quot_exact (den r) g1 ltac:(lia) (Z.gcd_divide_r _ _)) as B.
  pose proof (quot_exact (num r) g2 ltac:(lia) (Z.gcd_divide_l _ _)) as C.
  pose proof (quot_exact (den l) g2 ltac:(lia) (Z.gcd_divide_r _ _)) as D.
  set (a := Z.quot (num l) g1) in *. set (b := Z.quot (den r) g1) in *.
  set (c := Z.quot (num r) g2) in *. set (d := Z.quot (den l) g2) in *.
  rewrite <- A, <- B, <- C, <- D.
  transitivity (g1 * g2 * (num s * (b * d))); [ring|]. rewrite Hx. ring.
Qed.
Lemma div_ok l r s : div M l r = Ok s ->
  num r <> 0 /\ cross s (num l * (Z.sgn (num r) * den r)) (den l * Z.abs (num r)) .
Proof.
  unfold div. intros H. inv_ok. clean. apply make_ok in E3 as [Hd [Hcan Hx]].
  apply mul_ok in H as [Hc Hy]. split; [lia|]. split; [exact Hc|].
  assert (Hden : 0 < den a2) by apply Hcan. subst.
  assert (S : num a2 * Z.abs (num r) = Z.sgn (num r) * den r * den a2).
  { destruct (num r <? 0) eqn:Q.
    - replace (Z.sgn (num r)) with (-1) by lia. replace (Z.abs (num r)) with (-1 * num r) by lia. exact Hx.
    - replace (Z.sgn (num r)) with 1 by lia. replace (Z.abs (num r)) with (1 * num r) by lia. exact Hx. }
  apply (Z.mul_reg_l _ _ (den a2)); [lia|].
  transitivity (num s * (den l * den a2) * Z.abs (num r)); [ring|]. rewrite Hy.
  transitivity (num l * den s * (num a2 * Z.abs (num r))); [ring|]. rewrite S. ring.
Qed.
Lemma add_int_ok l k s : add_int M l k = Ok s -> cross s (num l + k * den l) (den l).
Proof.
  unfold add_int. intros H. inv_ok. clean. subst. apply make_ok in H as [Hd [Hc Hx]].
  split; [exact Hc|]. rewrite Hx. ring.
Qed.
Lemma sub_int_ok l k s : sub_int M l k = Ok s -> cross s (num l - k * den l) (den l).
Proof.
  unfold sub_int. intros H. inv_ok. clean. subst. apply make_ok in H as [Hd [Hc Hx]].
  split; [exact Hc|]. rewrite Hx. ring.
Qed.
Lemma mul_int_ok l k s : mul_int M l k = Ok s -> 0 <= k /\ cross s (num l * k) (den l).
Proof.
  unfold mul_int. intros H. inv_ok. clean. subst. apply make_ok in H as [Hd [Hc Hx]].
  set (g := Z.gcd k (den l)) in *.
  assert (Hg : 0 < g) by (pose proof (Z.gcd_nonneg k (den l)); lia).
  pose proof (quot_exact k g ltac:(lia) (Z.gcd_divide_l _ _)) as A.
  pose proof (quot_exact (den l) g ltac:(lia) (Z.gcd_divide_r _ _)) as B.
  destruct (k <? 0) eqn:Hk.
  - exfalso. rewrite <- B in Hd.
    replace (-1 * (g * (den l ÷ g))) with ((- (den l ÷ g)) * g) in Hd by ring.
    rewrite Z.quot_mul in Hd by lia. nia.
  - split; [lia|]. split; [exact Hc|]. rewrite !Z.mul_1_l in Hx.
    set (a := Z.quot k g) in *. set (b := Z.quot (den l) g) in *.
    rewrite <- A, <- B. transitivity (g * (num s * b)); [ring|]. rewrite Hx. ring.
Qed.
Lemma div_int_ok l k s : div_int M l k = Ok s ->
  k <> 0 /\ cross s (Z.sgn k * num l) (den l * Z.abs k).
Proof.
  unfold div_int. intros H. inv_ok. clean. subst. apply make_ok in H as [Hd [Hc Hx]].
  split; [lia|]. split; [exact Hc|].
  set (g := Z.gcd k (num l)) in *.
  pose proof (quot_exact k g ltac:(lia) (Z.gcd_divide_l _ _)) as A.
  pose proof (quot_exact (num l) g ltac:(lia) (Z.gcd_divide_r _ _)) as B.
  set (a := Z.quot k g) in *. set (b := Z.quot (num l) g) in *.
  destruct (k <? 0) eqn:Hk.
  - replace (Z.sgn k) with (-1) by lia. replace (Z.abs k) with (-1 * k) by lia.
    rewrite <- B in Hx. replace (-1 * (g * b)) with ((-1 * b) * g) in Hx by ring.
    rewrite Z.quot_mul in Hx by lia. rewrite <- A, <- B.
    transitivity (g * (num s * (-1 * den l * a))); [ring|]. rewrite Hx. ring.
  - replace (Z.sgn k) with 1 by lia. replace (Z.abs k) with (1 * k) by lia.
    rewrite <- B in Hx. replace (1 * (g * b)) with ((1 * b) * g) in Hx by ring.
    rewrite Z.quot_mul in Hx by lia. rewrite <- A, <- B.
    transitivity (g * (num s * (1 * den l * a))); [ring|]. rewrite Hx. ring.
Qed.

(** from cross-multiplied form to Q *)
Lemma pos_to_pos d : 0 < d -> Z.pos (Z.to_pos d) = d.
Proof. intros. apply Z2Pos.id. assumption. Qed.
Lemma cross_val r n d : 0 < d -> cross r n d -> (val r == Qmake n (Z.to_pos d))%Q.
Proof.
  intros Hd [[Hc _] H]. unfold val, Qeq; cbn [Qnum Qden].
  rewrite !pos_to_pos by assumption. exact H.
Qed.
End P.

Lemma Q_add a b c d : 0 < b -> 0 < d ->
  (Qmake (a * d + c * b) (Z.to_pos (b * d)) == Qmake a (Z.to_pos b) + Qmake c (Z.to_pos d))%Q.
Proof.
  intros Hb Hd. unfold Qeq, Qplus; cbn [Qnum Qden]. rewrite Pos2Z.inj_mul, !pos_to_pos by nia. ring.
Qed.
Lemma Q_sub a b c d : 0 < b -> 0 < d ->
  (Qmake (a * d - c * b) (Z.to_pos (b * d)) == Qmake a (Z.to_pos b) - Qmake c (Z.to_pos d))%Q.
Proof.
  intros Hb Hd. unfold Qeq, Qminus, Qplus, Qopp; cbn [Qnum Qden].
  rewrite Pos2Z.inj_mul, !pos_to_pos by nia. ring.
Qed.
Lemma Q_mul a b c d : 0 < b -> 0 < d ->
  (Qmake (a * c) (Z.to_pos (b * d)) == Qmake a (Z.to_pos b) * Qmake c (Z.to_pos d))%Q.
Proof.
  intros Hb Hd. unfold Qeq, Qmult; cbn [Qnum Qden]. rewrite Pos2Z.inj_mul, !pos_to_pos by nia. ring.
Qed.
Lemma Q_div a b c d : 0 < b -> 0 < d -> c <> 0 ->
  (Qmake (a * (Z.sgn c * d)) (Z.to_pos (b * Z.abs c)) == Qmake a (Z.to_pos b) / Qmake c (Z.to_pos d))%Q.
Proof.
  intros Hb Hd Hc. unfold Qdiv, Qinv; cbn [Qnum Qden].
  destruct c as [|p|p]; [lia| |]; unfold Qeq, Qmult; cbn [Qnum Qden Z.sgn Z.abs];
    rewrite Pos2Z.inj_mul, !pos_to_pos by nia; rewrite <- ?Pos2Z.opp_pos; try ring.
  all: rewrite (pos_to_pos d) by assumption; try ring.
Qed.

Ltac cv H := eapply Qeq_trans; [eapply cross_val; [|exact H]; nia|].
Section Q.
Variable M : Z.

Lemma make_val n d r : make M n d = Ok r ->
  0 < d /\ canonical r /\ (val r == Qmake n (Z.to_pos d))%Q.
Proof.
  intros H. apply make_ok in H as [Hd [Hc Hx]]. split; [exact Hd|]. split; [exact Hc|].
  apply cross_val; [exact Hd|split; assumption].
Qed.
Lemma make_rejects n d : d <= 0 -> make M n d = UB.
Proof. intros H. unfold make, assert_. now replace (0 <? d) with false by lia. Qed.

Lemma add_val l r s : canonical l -> canonical r -> add M l r = Ok s ->
  canonical s /\ (val s == val l + val r)%Q.
Proof.
  intros [Hl _] [Hr _] H. apply add_ok in H. split; [apply H|].
  cv H. apply Q_add; assumption.
Qed.
Lemma sub_val l r s : canonical l -> canonical r -> sub M l r = Ok s ->
  canonical s /\ (val s == val l - val r)%Q.
Proof.
  intros [Hl _] [Hr _] H. apply sub_ok in H. split; [apply H|].
  cv H. apply Q_sub; assumption.
Qed.
Lemma mul_val l r s : canonical l -> canonical r -> mul M l r = Ok s ->
  canonical s /\ (val s == val l * val r)%Q.
Proof.
  intros [Hl _] [Hr _] H. apply mul_ok in H. split; [apply H|].
  cv H. apply Q_mul; assumption.
Qed.
Lemma div_val l r s : canonical l -> canonical r -> div M l r = Ok s ->
  canonical s /\ ~ (val r == 0)%Q /\ (val s == val l / val r)%Q.
Proof.
  intros [Hl _] [Hr _] H. apply div_ok in H as [Hn H]. split; [apply H|]. split.
  - unfold val, Qeq; cbn [Qnum Qden]. rewrite Z.mul_1_r, Z.mul_0_l. exact Hn.
  - cv H. apply Q_div; assumption.
Qed.
Lemma div_zero l r : num r = 0 -> div M l r = UB.
Proof. intros H. unfold div. rewrite H. reflexivity. Qed.

Lemma int_Q k : (inject_Z k == Qmake k (Z.to_pos 1))%Q. Proof. reflexivity. Qed.
Lemma add_int_val l k s : canonical l -> add_int M l k = Ok s ->
  canonical s /\ (val s == val l + inject_Z k)%Q.
Proof.
  intros [Hl _] H. apply add_int_ok in H. split; [apply H|].
  cv H; rewrite int_Q. unfold val. rewrite <- Q_add by lia.
  replace (den l * 1) with (den l) by ring. replace (num l * 1 + k * den l) with (num l + k * den l) by ring.
  reflexivity.
Qed.
Lemma sub_int_val l k s : canonical l -> sub_int M l k = Ok s ->
  canonical s /\ (val s == val l - inject_Z k)%Q.
Proof.
  intros [Hl _] H. apply sub_int_ok in H. split; [apply H|].
  cv H; rewrite int_Q. unfold val. rewrite <- Q_sub by lia.
  replace (den l * 1) with (den l) by ring. replace (num l * 1 - k * den l) with (num l - k * den l) by ring.
  reflexivity.
Qed.
Lemma mul_int_val l k s : canonical l -> mul_int M l k = Ok s ->
  canonical s /\ (val s == val l * inject_Z k)%Q.
Proof.
  intros [Hl _] H. apply mul_int_ok in H as [Hk H]. split; [apply H|].
  cv H; rewrite int_Q. unfold val. rewrite <- Q_mul by lia.
  replace (den l * 1) with (den l) by ring. reflexivity.
Qed.
Lemma mul_int_negative l k : 0 < den l -> k < 0 -> mul_int M l k = UB.
Proof.
  intros Hd Hk. destruct (mul_int M l k) as [s|e|] eqn:E; [|exfalso|reflexivity].
  - apply mul_int_ok in E. lia.
  - revert E. unfold mul_int, getden, assert_.
    replace (0 <? den l) with true by lia. cbn [bind].
    assert (Hc : forall v, ci M v <> Throw e) by (intros v; unfold ci; destruct (_ && _); discriminate).
    assert (Hq : forall a b, cquot M a b <> Throw e) by (intros a b; unfold cquot; destruct (_ =? _); [discriminate|apply Hc]).
    assert (Hg : forall a b, cgcd M a b <> Throw e) by (intros a b; unfold cgcd; destruct (_ && _); discriminate).
    repeat match goal with
    | |- bind ?m _ = _ -> False =>
        let E := fresh in destruct m eqn:E; cbn [bind];
        [|intros X; injection X as ->; first [now apply Hc in E|now apply Hq in E|now apply Hg in E]|discriminate]
    end.
    unfold make, assert_. destruct (0 <? _); [|discriminate].
    repeat match goal with
    | |- bind ?m _ = _ -> False =>
        let E := fresh in destruct m eqn:E; cbn [bind];
        [|intros X; injection X as ->; first [now apply Hc in E|now apply Hq in E|now apply Hg in E]|discriminate]
    end. discriminate.
Qed.
Lemma div_int_val l k s : canonical l -> div_int M l k = Ok s ->
  canonical s /\ k <> 0 /\ (val s == val l / inject_Z k)%Q.
Proof.
  intros [Hl _] H. apply div_int_ok in H as [Hk H]. split; [apply H|]. split; [exact Hk|].
  cv H; rewrite int_Q. unfold val. rewrite <- Q_div by lia.
  replace (num l * (Z.sgn k * 1)) with (Z.sgn k * num l) by ring. reflexivity.
Qed.
Lemma incr_val r s : canonical r -> incr M r = Ok s -> canonical s /\ (val s == val r + 1)%Q.
Proof.
  intros [Hd Hg] H. unfold incr in H. inv_ok. apply cadd_ok in E. subst. split.
  - split; cbn [num den]; [exact Hd|]. rewrite Z.gcd_comm, Z.gcd_add_diag_r, Z.gcd_comm. exact Hg.
  - unfold val, Qeq, Qplus; cbn [num den Qnum Qden]. rewrite Pos2Z.inj_mul, !pos_to_pos by assumption. ring.
Qed.
Lemma decr_val r s : canonical r -> decr M r = Ok s -> canonical s /\ (val s == val r - 1)%Q.
Proof.
  intros [Hd Hg] H. unfold decr in H. inv_ok. apply csub_ok in E. subst. split.
  - split; cbn [num den]; [exact Hd|].
    rewrite Z.gcd_comm, Z.gcd_sub_diag_r, Z.gcd_comm. exact Hg.
  - unfold val, Qeq, Qminus, Qplus, Qopp; cbn [num den Qnum Qden].
    rewrite Pos2Z.inj_mul, !pos_to_pos by assumption. ring.
Qed.

(** comparisons *)
Lemma common_order l r a b c : common M l r = Ok (a, b, c) ->
  ((a < b) <-> (val l < val r)%Q) /\ ((a = b) <-> (val l == val r)%Q) /\ ((b < a) <-> (val r < val l)%Q).
Proof.
  intros H. apply common_ok in H as (Hl & Hr & Hc & ql & qr & H1 & H2 & -> & ->).
  unfold val, Qlt, Qeq; cbn [Qnum Qden]. rewrite !pos_to_pos by assumption.
  assert (P1 : num l * ql * (den l * den r) = num l * den r * c) by (rewrite H1; ring).
  assert (P2 : num r * qr * (den l * den r) = num r * den l * c) by (rewrite H2; ring).
  assert (Hp : 0 < den l * den r) by nia.
  generalize dependent (num l * ql). generalize dependent (num r * qr). intros y P2 x P1.
  generalize dependent (num l * den r). generalize dependent (num r * den l). intros v P2 u P1.
  generalize dependent (den l * den r). intros p P2 P1 Hp.
  split; [|split]; nia.
Qed.
Lemma compare_ok l r :
  (forall c, rlt M l r = Ok c -> (c = true <-> (val l < val r)%Q)) /\
  (forall c, rgt M l r = Ok c -> (c = true <-> (val r < val l)%Q)) /\
  (forall c, rle M l r = Ok c -> (c = true <-> (val l <= val r)%Q)) /\
  (forall c, rge M l r = Ok c -> (c = true <-> (val r <= val l)%Q)) /\
  (forall c, req M l r = Ok c -> (c = true <-> (val l == val r)%Q)) /\
  (forall c, rne M l r = Ok c -> (c = true <-> ~ (val l == val r)%Q)).
Proof.
  unfold rle, rge, rne, rlt, rgt, req.
  repeat split; intros; inv_ok;
  match goal with H : common _ _ _ = Ok _ |- _ => apply common_order in H as (O1 & O2 & O3) end;
  try rewrite <- O1 in *; try rewrite <- O2 in *; try rewrite <- O3 in *; try lia.
  - apply Qnot_lt_le. rewrite <- O3. lia.
  - match goal with H : (_ <= _)%Q |- _ => apply Qle_not_lt in H; rewrite <- O3 in H; lia end.
  - apply Qnot_lt_le. rewrite <- O1. lia.
  - match goal with H : (_ <= _)%Q |- _ => apply Qle_not_lt in H; rewrite <- O1 in H; lia end.
Qed.

(** totality: operands small enough for the integer type never overflow *)
Definition fits (B : Z) (r : rat) : Prop := Z.abs (num r) <= B /\ den r <= B.

Lemma ci_fit v : Z.abs v <= M -> ci M v = Ok v.
Proof. intros H. unfold ci. now replace ((- M - 1 <=? v) && (v <=? M)) with true by lia. Qed.
Lemma cgcd_fit a b : Z.abs a <= M -> Z.abs b <= M -> cgcd M a b = Ok (Z.gcd a b).
Proof. intros. unfold cgcd. now replace ((Z.abs a <=? M) && (Z.abs b <=? M)) with true by lia. Qed.
Lemma quot_abs_le a b : b <> 0 -> Z.abs (Z.quot a b) <= Z.abs a.
Proof.
  intros Hb. rewrite <- Z.quot_abs by exact Hb. apply Z.quot_le_upper_bound; [lia|]. nia.
Qed.
Lemma cquot_fit a b : b <> 0 -> Z.abs a <= M -> cquot M a b = Ok (Z.quot a b).
Proof.
  intros Hb Ha. unfold cquot. destruct (Z.eqb_spec b 0); [contradiction|].
  apply ci_fit. pose proof (quot_abs_le a b Hb). lia.
Qed.
Lemma abs_mul_le a b A B : Z.abs a <= A -> Z.abs b <= B -> Z.abs (a * b) <= A * B.
Proof. intros Ha Hb. rewrite Z.abs_mul. apply Z.mul_le_mono_nonneg; lia. Qed.
Lemma make_fit n d : 0 < d <= M -> Z.abs n <= M -> exists r, make M n d = Ok r.
Proof.
  intros Hd Hn. unfold make, assert_. replace (0 <? d) with true by lia.
  assert (Hg : Z.gcd n d <> 0) by (intros C; apply Z.gcd_eq_0 in C; lia).
  rewrite cgcd_fit by lia. cbn [bind]. rewrite !cquot_fit by (try assumption; lia). cbn [bind]. eauto.
Qed.
Lemma getden_fit r : 0 < den r -> getden r = Ok (den r).
Proof. intros H. unfold getden, assert_. now replace (0 <? den r) with true by lia. Qed.

Lemma common_fit B l r : canonical l -> canonical r -> fits B l -> fits B r -> 2 * B * B <= M ->
  exists a b c, common M l r = Ok (a, b, c) /\ Z.abs a <= B * B /\ Z.abs b <= B * B /\ 0 < c <= B * B.
Proof.
  intros [Hl _] [Hr _] [A1 A2] [A3 A4] HB. unfold common.
  rewrite !getden_fit by assumption. cbn [bind].
  set (m := Z.lcm (den l) (den r)).
  assert (Hm0 : 0 <= m) by apply Z.lcm_nonneg.
  assert (Hm1 : m <> 0) by (intros C; apply Z.lcm_eq_0 in C; lia).
  assert (Hm2 : m <= den l * den r).
  { apply Z.divide_pos_le; [nia|]. apply Z.lcm_least; [apply Z.divide_factor_l|apply Z.divide_factor_r]. }
  pose proof (quot_exact m (den l) ltac:(lia) (Z.divide_lcm_l _ _)) as Q1.
  pose proof (quot_exact m (den r) ltac:(lia) (Z.divide_lcm_r _ _)) as Q2.
  assert (B1 : B <= B * B) by nia.
  assert (Hmm : m <= B * B) by nia.
  unfold clcm. replace ((Z.abs (den l) <=? M) && (Z.abs (den r) <=? M)) with true by lia.
  fold m. rewrite ci_fit by lia. cbn [bind].
  rewrite cquot_fit by lia. cbn [bind].
  set (ql := Z.quot m (den l)) in *. set (qr := Z.quot m (den r)) in *.
  assert (Hql : 0 < ql <= B) by nia.
  assert (Hqr : 0 < qr <= B) by nia.
  assert (Z.abs (num l * ql) <= B * B) by (apply abs_mul_le; lia).
  assert (Z.abs (num r * qr) <= B * B) by (apply abs_mul_le; lia).
  unfold cmul. rewrite ci_fit by lia. cbn [bind]. rewrite cquot_fit by lia. cbn [bind]. fold qr.
  rewrite ci_fit by lia. cbn [bind]. do 3 eexists. split; [reflexivity|]. lia.
Qed.
Lemma reduce_fit n c : 0 < c <= M -> Z.abs n <= M ->
  exists r, (do s <- cgcd M n c; do n' <- cquot M n s; do d' <- cquot M c s; make M n' d') = Ok r.
Proof.
  intros Hc Hn. rewrite cgcd_fit by lia. cbn [bind].
  assert (Hg : Z.gcd n c <> 0) by (intros C; apply Z.gcd_eq_0 in C; lia).
  assert (Hg0 : 0 < Z.gcd n c) by (pose proof (Z.gcd_nonneg n c); lia).
  rewrite !cquot_fit by (try assumption; lia). cbn [bind].
  pose proof (quot_exact c _ Hg (Z.gcd_divide_r n c)).
  pose proof (quot_abs_le n (Z.gcd n c) Hg). pose proof (quot_abs_le c (Z.gcd n c) Hg).
  apply make_fit; [|lia]. split; [nia|lia].
Qed.
Lemma add_sub_fit B l r : canonical l -> canonical r -> fits B l -> fits B r -> 2 * B * B <= M ->
  (exists s, add M l r = Ok s) /\ (exists s, sub M l r = Ok s).
Proof.
  intros Hl Hr Fl Fr HB. destruct (common_fit B l r Hl Hr Fl Fr HB) as (a & b & c & E & Ha & Hb & Hc).
  unfold add, sub. rewrite E. cbn [bind]. unfold cadd, csub. rewrite !ci_fit by lia. cbn [bind].
  split; apply reduce_fit; lia.
Qed.
Lemma mul_fit B l r : canonical l -> canonical r -> fits B l -> fits B r -> 2 * B * B <= M ->
  exists s, mul M l r = Ok s.
Proof.
  intros [Hl _] [Hr _] [A1 A2] [A3 A4] HB. unfold mul. rewrite !getden_fit by assumption. cbn [bind].
  assert (B1 : B <= B * B) by nia.
  assert (G1 : Z.gcd (num l) (den r) <> 0) by (intros C; apply Z.gcd_eq_0 in C; lia).
  assert (G2 : Z.gcd (num r) (den l) <> 0) by (intros C; apply Z.gcd_eq_0 in C; lia).
  assert (G1' : 0 < Z.gcd (num l) (den r)) by (pose proof (Z.gcd_nonneg (num l) (den r)); lia).
  assert (G2' : 0 < Z.gcd (num r) (den l)) by (pose proof (Z.gcd_nonneg (num r) (den l)); lia).
  rewrite !cgcd_fit by lia. cbn [bind].
  rewrite cquot_fit by (try assumption; lia). cbn [bind].
  rewrite cquot_fit by (try assumption; lia). cbn [bind].
  pose proof (quot_abs_le (num l) _ G1). pose proof (quot_abs_le (num r) _ G2).
  pose proof (quot_abs_le (den r) _ G1). pose proof (quot_abs_le (den l) _ G2).
  pose proof (quot_exact (den r) _ G1 (Z.gcd_divide_r _ _)).
  pose proof (quot_exact (den l) _ G2 (Z.gcd_divide_r _ _)).
  assert (N : Z.abs ((num l ÷ Z.gcd (num l) (den r)) * (num r ÷ Z.gcd (num r) (den l))) <= B * B)
    by (apply abs_mul_le; lia).
  assert (D : Z.abs ((den r ÷ Z.gcd (num l) (den r)) * (den l ÷ Z.gcd (num r) (den l))) <= B * B)
    by (apply abs_mul_le; lia).
  unfold cmul. rewrite ci_fit by lia. cbn [bind].
  rewrite cquot_fit by (try assumption; lia). cbn [bind].
  rewrite cquot_fit by (try assumption; lia). cbn [bind].
  rewrite ci_fit by lia. cbn [bind].
  apply make_fit; [|lia]. split; [|lia].
  apply Z.mul_pos_pos; nia.
Qed.
Lemma div_fit B l r : canonical l -> canonical r -> fits B l -> fits B r -> 2 * B * B <= M ->
  num r <> 0 -> exists s, div M l r = Ok s.
Proof.
  intros Hl Hr Fl Fr HB Hn. unfold div, assert_. replace (negb (num r =? 0)) with true by lia.
  destruct Hr as [Hr Gr]. rewrite getden_fit by assumption. cbn [bind].
  destruct Fr as [A3 A4]. assert (B1 : B <= B * B) by nia.
  set (sg := if num r <? 0 then -1 else 1).
  assert (Hs : sg * num r = Z.abs (num r) /\ Z.abs (sg * den r) = den r /\ Z.abs (sg * num r) <= B)
    by (subst sg; destruct (num r <? 0) eqn:E; lia).
  destruct Hs as (S1 & S2 & S3).
  unfold cmul. rewrite !ci_fit by lia. cbn [bind].
  destruct (make_fit (sg * den r) (sg * num r)) as [v Hv]; [lia|lia|].
  rewrite Hv. cbn [bind].
  apply make_ok in Hv as Hv'. destruct Hv' as [Hp [Hc Hx]].
  apply (mul_fit B); try assumption; try (split; assumption).
  (* the inverse fits again *)
  unfold make, assert_ in Hv. replace (0 <? sg * num r) with true in Hv by lia.
  assert (G : Z.gcd (sg * den r) (sg * num r) <> 0) by (intros C; apply Z.gcd_eq_0 in C; lia).
  rewrite cgcd_fit in Hv by lia. cbn [bind] in Hv.
  rewrite !cquot_fit in Hv by (try assumption; lia). cbn [bind] in Hv.
  apply Ok_inj in Hv. subst v. split; cbn [num den].
  - pose proof (quot_abs_le (sg * den r) _ G). lia.
  - pose proof (quot_abs_le (sg * num r) _ G). lia.
Qed.

(** floor / ceil / frac *)
Lemma floor_nonneg r : canonical r -> 0 <= num r <= M -> floor M r = Ok (Qround.Qfloor (val r)).
Proof.
  intros [Hd _] Hn. unfold floor. rewrite getden_fit by assumption. cbn [bind].
  rewrite cquot_fit by lia. f_equal. unfold val, Qround.Qfloor. rewrite pos_to_pos by assumption.
  apply Z.quot_div_nonneg; lia.
Qed.
Lemma ceil_above_minus_one r : canonical r -> - den r < num r -> num r + den r <= M ->
  ceil M r = Ok (Qround.Qceiling (val r)).
Proof.
  intros [Hd _] Hn HM. unfold ceil. rewrite getden_fit by assumption. cbn [bind].
  unfold cadd, csub. rewrite ci_fit by lia. cbn [bind]. rewrite ci_fit by lia. cbn [bind].
  rewrite cquot_fit by lia. f_equal. unfold val, Qround.Qceiling, Qround.Qfloor, Qopp; cbn [Qnum Qden].
  rewrite pos_to_pos by assumption. rewrite Z.quot_div_nonneg by lia.
  pose proof (Z.div_mod (num r + den r - 1) (den r) ltac:(lia)).
  pose proof (Z.mod_pos_bound (num r + den r - 1) (den r) Hd).
  pose proof (Z.div_mod (- num r) (den r) ltac:(lia)).
  pose proof (Z.mod_pos_bound (- num r) (den r) Hd). nia.
Qed.
Lemma frac_nonneg r f : canonical r -> 0 <= num r -> frac M r = Ok f ->
  canonical f /\ (val f == val r - inject_Z (Qround.Qfloor (val r)))%Q /\ (0 <= val f < 1)%Q.
Proof.
  intros Hr Hn H. unfold frac in H. inv_ok.
  assert (E' : a = Qround.Qfloor (val r)).
  { unfold floor in E. inv_ok. unfold getden in E0. inv_ok. apply cquot_ok in E as [_ ->].
    unfold val, Qround.Qfloor. rewrite pos_to_pos by apply Hr. apply Z.quot_div_nonneg; [lia|apply Hr]. }
  subst a. apply sub_int_val in H as [Hc Hv]; [|exact Hr]. split; [exact Hc|]. split; [exact Hv|].
  rewrite Hv. pose proof (Qround.Qfloor_le (val r)) as L1. pose proof (Qround.Qlt_floor (val r)) as L2.
  rewrite inject_Z_plus in L2. change (inject_Z 1) with 1%Q in L2. split.
  - setoid_replace 0%Q with (inject_Z (Qround.Qfloor (val r)) - inject_Z (Qround.Qfloor (val r)))%Q by ring.
    apply Qplus_le_compat; [exact L1|apply Qle_refl].
  - setoid_replace 1%Q with (inject_Z (Qround.Qfloor (val r)) + 1 - inject_Z (Qround.Qfloor (val r)))%Q by ring.
    apply Qplus_lt_le_compat; [exact L2|apply Qle_refl].
Qed.
End Q.

Definition M32 : Z := 2147483647.
Lemma mul_int_refuted : exists r k, canonical r /\ fits 2 r /\ k = -1 /\ mul_int M32 r k = UB.
Proof. exists (mkRat 1 2), (-1). repeat split; vm_compute; congruence. Qed.
Lemma floor_refuted : exists r z, canonical r /\ floor M32 r = Ok z /\ z <> Qround.Qfloor (val r).
Proof. exists (mkRat (-1) 2), 0. repeat split; vm_compute; congruence. Qed.
Lemma ceil_refuted : exists r z, canonical r /\ ceil M32 r = Ok z /\ z <> Qround.Qceiling (val r).
Proof. exists (mkRat (-7) 3), (-1). repeat split; vm_compute; congruence. Qed.
Lemma frac_refuted : exists r f, canonical r /\ frac M32 r = Ok f /\ (val f < 0)%Q.
Proof. exists (mkRat (-1) 2), (mkRat (-1) 2). repeat split; vm_compute; congruence. Qed.

Lemma rlt_total M B l r : canonical l -> canonical r -> fits B l -> fits B r -> 2 * B * B <= M ->
  exists c, rlt M l r = Ok c.
Proof.
  intros Hl Hr Fl Fr HB. destruct (common_fit M B l r Hl Hr Fl Fr HB) as (a & b & c & E & _).
  unfold rlt. rewrite E. cbn [bind]. eauto.
Qed.
Lemma canonical_unique l r : canonical l -> canonical r -> (val l == val r)%Q -> l = r.
Proof.
  destruct l as [a b], r as [c d]. intros [Hb G1] [Hd G2]. unfold val, Qeq; cbn [num den Qnum Qden] in *.
  rewrite !pos_to_pos by assumption. intros E.
  assert (D1 : (b | d)).
  { apply Z.gauss with a; [exists c; exact E|]. rewrite Z.gcd_comm; exact G1. }
  assert (D2 : (d | b)).
  { apply Z.gauss with c; [exists a; symmetry; exact E|]. rewrite Z.gcd_comm; exact G2. }
  assert (b = d) by (apply Z.divide_antisym_nonneg; first [assumption | lia]). subst d.
  f_equal. nia.
Qed.
