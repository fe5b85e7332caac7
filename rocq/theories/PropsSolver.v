(** C45: root finding by bisection. *)
From Coq Require Import Reals Lra Lia List.
From Coq Require Import Ranalysis5.
From Verif Require Import Base SolverModel.
Import ListNotations.
Open Scope R_scope.

(** ** Specification *)
Definition between (a b x : R) : Prop := Rmin a b <= x <= Rmax a b.
Definition strictly_between (a b x : R) : Prop := Rmin a b < x < Rmax a b.

Lemma loop_inv (P : R -> R -> Prop) func tolerance : (forall a b, P a b -> P a ((a + b) / 2) \/ 0 < func a * func ((a + b) / 2)) -> (forall a b, P a b -> P ((a + b) / 2) b \/ func a * func ((a + b) / 2) <= 0) ->
  forall limit a b err, P a b -> exists a' b', P a' b' /\ bisect_loop limit func tolerance a b ((a + b) / 2) err = (a' + b') / 2.
Proof.
  intros H1 H2. induction limit as [|limit IH]; intros a b err H; [exists a, b; split; [exact H|reflexivity]|]. cbn [bisect_loop].
  destruct (Rle_dec (func a * func ((a + b) / 2)) 0) as [E|E].
  - destruct (H1 a b H) as [H'|H']; [|lra]. destruct (Rlt_dec _ _); [destruct (Rlt_dec _ _)|]; [apply IH; exact H'| |]; exists a, ((a + b) / 2); split; (exact H' || reflexivity).
  - destruct (H2 a b H) as [H'|H']; [|lra]. destruct (Rlt_dec _ _); [destruct (Rlt_dec _ _)|]; [apply IH; exact H'| |]; exists ((a + b) / 2), b; split; (exact H' || reflexivity).
Qed.
Lemma mid_between a b : between a b ((a + b) / 2).
Proof. unfold between. destruct (Rle_dec a b); [rewrite Rmin_left, Rmax_right by lra|rewrite Rmin_right, Rmax_left by lra]; lra. Qed.
Lemma mid_strict a b : a <> b -> strictly_between a b ((a + b) / 2).
Proof. intros H. unfold strictly_between. destruct (Rle_dec a b); [rewrite Rmin_left, Rmax_right by lra|rewrite Rmin_right, Rmax_left by lra]; lra. Qed.
Lemma between_trans a b a' b' x : between a b a' -> between a b b' -> between a' b' x -> between a b x.
Proof. unfold between. intros H1 H2 H3. pose proof (Rmin_glb a' b' (Rmin a b)). pose proof (Rmax_lub a' b' (Rmax a b)). lra. Qed.
Lemma between_l a b : between a b a. Proof. unfold between. split; [apply Rmin_l|apply Rmax_l]. Qed.
Lemma between_r a b : between a b b. Proof. unfold between. split; [apply Rmin_r|apply Rmax_r]. Qed.

(** whatever the function, the result lies strictly between the end points, which are only ever looked at from inside *)
Theorem C45_inside tmax limit func a b tolerance : a <> b -> strictly_between a b (Bisect tmax limit func a b tolerance).
Proof.
  intros Hab. destruct (loop_inv (fun a' b' => between a b a' /\ between a b b' /\ a' <> b') func tolerance) with (limit := limit) (a := a) (b := b) (err := tmax) as (a' & b' & (Ha & Hb & Hn) & E).
  - intros a' b' (Ha & Hb & Hn). left. split; [exact Ha|]. split; [exact (between_trans _ _ _ _ _ Ha Hb (mid_between a' b'))|lra].
  - intros a' b' (Ha & Hb & Hn). left. split; [exact (between_trans _ _ _ _ _ Ha Hb (mid_between a' b'))|]. split; [exact Hb|lra].
  - repeat split; (apply between_l || apply between_r || exact Hab).
  - unfold Bisect. rewrite E. pose proof (mid_strict a' b' Hn) as M. unfold between, strictly_between in *. pose proof (Rmin_glb a' b' (Rmin a b)). pose proof (Rmax_lub a' b' (Rmax a b)). lra.
Qed.
Print Assumptions C45_inside.

(** ** The bracket *)
Lemma root_between f a b : (forall x, between a b x -> continuity_pt f x) -> f a * f b <= 0 -> exists r, between a b r /\ f r = 0.
Proof.
  assert (W : forall a b, a <= b -> (forall x, a <= x <= b -> continuity_pt f x) -> f a * f b <= 0 -> exists r, a <= r <= b /\ f r = 0).
  { clear a b. intros a b Hab Hc Hs. destruct (Req_EM_T (f a) 0) as [E|E]; [exists a; split; [lra|exact E]|]. destruct (Req_EM_T (f b) 0) as [E'|E']; [exists b; split; [lra|exact E']|].
    assert (a < b) by (destruct Hab as [Hlt|Heq]; [exact Hlt|subst; nra]).
    destruct (Rlt_dec (f a) 0) as [N|N].
    - assert (0 < f b) by nra. destruct (IVT_interv f a b) as (z & Hz & E0); try assumption. exists z. now split.
    - assert (Fa : 0 < f a) by lra. assert (Fb : f b < 0) by nra. destruct (IVT_interv (fun x => - f x)%R a b) as (z & Hz & E0); try assumption; try lra.
      + intros x Hx. exact (continuity_pt_opp f x (Hc x Hx)).
      + exists z. split; [exact Hz|lra]. }
  intros Hc Hs. unfold between in *. destruct (Rle_dec a b) as [L|L].
  - rewrite Rmin_left, Rmax_right in * by lra. now apply W.
  - rewrite Rmin_right, Rmax_left in * by lra. apply W; [lra|exact Hc|lra].
Qed.
Definition width_after (k : nat) (a b : R) : R := Rabs (b - a) / 2 ^ k.
Lemma half_abs a b : Rabs ((a + b) / 2 - a) = Rabs (b - a) / 2.
Proof. replace ((a + b) / 2 - a) with ((b - a) * / 2) by lra. rewrite Rabs_mult, (Rabs_right (/ 2)) by lra. reflexivity. Qed.
Lemma half_abs' a b : Rabs (b - (a + b) / 2) = Rabs (b - a) / 2.
Proof. replace (b - (a + b) / 2) with ((b - a) * / 2) by lra. rewrite Rabs_mult, (Rabs_right (/ 2)) by lra. reflexivity. Qed.
(** the loop with its bracket: the number of halvings k; it ends early only when the bracket is within the tolerance *)
Lemma loop_trace func tolerance a0 b0 : a0 <> b0 -> forall limit k a b err, Rabs (b - a) = width_after k a0 b0 -> Rabs (b - a) / 2 < err -> func a * func b <= 0 -> between a0 b0 a -> between a0 b0 b ->
  exists a' b' k', bisect_loop limit func tolerance a b ((a + b) / 2) err = (a' + b') / 2 /\ func a' * func b' <= 0 /\ between a0 b0 a' /\ between a0 b0 b' /\ Rabs (b' - a') = width_after k' a0 b0 /\
    (k' <= limit + k)%nat /\ (k' = (limit + k)%nat \/ width_after k' a0 b0 <= tolerance) /\ (k' = k \/ (k < k')%nat /\ (forall j, (k < j < k')%nat -> tolerance < width_after j a0 b0)).
Proof.
  intros H0. induction limit as [|limit IH]; intros k a b err Hw He Hs Ha Hb.
  { exists a, b, k. repeat split; try assumption; try (apply Ha || apply Hb); try lia; now left. }
  cbn [bisect_loop]. set (c := (a + b) / 2).
  assert (Hc : between a0 b0 c) by (eapply between_trans; [exact Ha|exact Hb|apply mid_between]).
  assert (HW : width_after (S k) a0 b0 = width_after k a0 b0 / 2) by (unfold width_after; cbn [pow]; field; apply pow_nonzero; lra).
  assert (Hpos : 0 < width_after (S k) a0 b0).
  { unfold width_after. apply Rmult_lt_0_compat; [apply Rabs_pos_lt; lra|]. apply Rinv_0_lt_compat, pow_lt; lra. }
  assert (G : forall a1 b1, Rabs (b1 - a1) = Rabs (b - a) / 2 -> func a1 * func b1 <= 0 -> between a0 b0 a1 -> between a0 b0 b1 ->
    exists a' b' k', (if Rlt_dec tolerance (Rabs (b1 - a1)) then if Rlt_dec (Rabs (b1 - a1)) err then bisect_loop limit func tolerance a1 b1 ((a1 + b1) / 2) (Rabs (b1 - a1)) else (a1 + b1) / 2 else (a1 + b1) / 2) = (a' + b') / 2 /\ func a' * func b' <= 0 /\ between a0 b0 a' /\ between a0 b0 b' /\ Rabs (b' - a') = width_after k' a0 b0 /\
    (k' <= S limit + k)%nat /\ (k' = (S limit + k)%nat \/ width_after k' a0 b0 <= tolerance) /\ (k' = k \/ (k < k')%nat /\ (forall j, (k < j < k')%nat -> tolerance < width_after j a0 b0))).
  { intros a1 b1 E1 S1 A1 B1. assert (E2 : Rabs (b1 - a1) = width_after (S k) a0 b0) by lra. destruct (Rlt_dec tolerance (Rabs (b1 - a1))) as [T|T].
    - destruct (Rlt_dec (Rabs (b1 - a1)) err) as [L|L]; [|exfalso; lra].
      destruct (IH (S k) a1 b1 (Rabs (b1 - a1))) as (a' & b' & k' & R1 & R2 & R3 & R4 & R5 & R6 & R7 & R8); try assumption; try lra.
      exists a', b', k'. repeat (split; [assumption|]). split; [lia|]. split; [destruct R7 as [->|R7]; [left; lia|now right]|]. right.
      destruct R8 as [->|[R8 R9]]; (split; [lia|]); intros j Hj; [lia|]. destruct (Nat.eq_dec j (S k)) as [->|Nj]; [lra|apply R9; lia].
    - exists a1, b1, (S k). repeat (split; [assumption || reflexivity|]). split; [lia|]. split; [right; lra|]. right. split; [lia|]. intros j Hj. lia. }
  destruct (Rle_dec (func a * func c) 0) as [E|E]; apply G; try assumption; try apply half_abs; try apply half_abs'.
  apply Rnot_le_lt in E. destruct (Rle_dec (func c * func b) 0) as [|N]; [assumption|]. exfalso. assert (0 < (func a * func c) * (func c * func b)) by (apply Rmult_lt_0_compat; lra).
  assert (0 <= func c * func c) by apply Rle_0_sqr. replace (func a * func c * (func c * func b)) with ((func a * func b) * (func c * func c)) in H by ring. nra.
Qed.
(** a sign change is kept: after [limit] halvings, or once the bracket is within the tolerance, a root is at most half a
    bracket away from the result *)
Theorem C45_root tmax limit func a b tolerance : a <> b -> Rabs (b - a) / 2 < tmax -> (forall x, between a b x -> continuity_pt func x) -> func a * func b <= 0 ->
  exists r, between a b r /\ func r = 0 /\ Rabs (Bisect tmax limit func a b tolerance - r) <= Rmax (tolerance / 2) (Rabs (b - a) / 2 ^ S limit).
Proof.
  intros Hab Hm Hc Hs. destruct (loop_trace func tolerance a b Hab limit 0%nat a b tmax) as (a' & b' & k & E & S' & A & B & Wd & K1 & K2 & _); try assumption; try apply between_l; try apply between_r.
  { unfold width_after. cbn [pow]. lra. }
  destruct (root_between func a' b') as (r & Hr & Er); [|exact S'|].
  { intros x Hx. apply Hc. exact (between_trans _ _ _ _ _ A B Hx). }
  exists r. split; [exact (between_trans _ _ _ _ _ A B Hr)|]. split; [exact Er|]. unfold Bisect. rewrite E.
  assert (D : Rabs ((a' + b') / 2 - r) <= Rabs (b' - a') / 2).
  { unfold between in Hr. unfold Rabs. destruct (Rle_dec a' b') as [L|L]; [rewrite Rmin_left, Rmax_right in Hr by lra|rewrite Rmin_right, Rmax_left in Hr by lra]; destruct (Rcase_abs _), (Rcase_abs _); lra. }
  eapply Rle_trans; [exact D|]. rewrite Wd. destruct K2 as [->|K2].
  - eapply Rle_trans; [|apply Rmax_r]. right. rewrite Nat.add_0_r. unfold width_after. cbn [pow]. field. apply pow_nonzero. lra.
  - eapply Rle_trans; [|apply Rmax_l]. lra.
Qed.
Print Assumptions C45_root.
Lemma loop_stable func tolerance a0 b0 : forall limit k a b err, Rabs (b - a) = width_after k a0 b0 -> width_after (limit + k) a0 b0 <= tolerance ->
  (1 <= limit)%nat -> forall more, bisect_loop (limit + more) func tolerance a b ((a + b) / 2) err = bisect_loop limit func tolerance a b ((a + b) / 2) err.
Proof.
  induction limit as [|limit IH]; intros k a b err Hw Ht Hl more; [lia|]. cbn [Nat.add bisect_loop].
  assert (G : forall a1 b1, Rabs (b1 - a1) = Rabs (b - a) / 2 -> (if Rlt_dec tolerance (Rabs (b1 - a1)) then if Rlt_dec (Rabs (b1 - a1)) err then bisect_loop (limit + more) func tolerance a1 b1 ((a1 + b1) / 2) (Rabs (b1 - a1)) else (a1 + b1) / 2 else (a1 + b1) / 2) =
    (if Rlt_dec tolerance (Rabs (b1 - a1)) then if Rlt_dec (Rabs (b1 - a1)) err then bisect_loop limit func tolerance a1 b1 ((a1 + b1) / 2) (Rabs (b1 - a1)) else (a1 + b1) / 2 else (a1 + b1) / 2)).
  { intros a1 b1 E. assert (E2 : Rabs (b1 - a1) = width_after (S k) a0 b0) by (rewrite E, Hw; unfold width_after; cbn [pow]; field; apply pow_nonzero; lra). destruct (Rlt_dec tolerance (Rabs (b1 - a1))) as [T|T]; [|reflexivity]. destruct (Rlt_dec (Rabs (b1 - a1)) err); [|reflexivity].
    destruct limit as [|limit]; [exfalso; cbn [Nat.add] in Ht; rewrite E2 in T; lra|]. apply (IH (S k)); [exact E2|replace (S limit + S k)%nat with (S (S limit) + k)%nat by lia; exact Ht|lia]. }
  destruct (Rle_dec (func a * func ((a + b) / 2)) 0); apply G; [apply half_abs|apply half_abs'].
Qed.
(** with a positive tolerance the loop ends by itself: some number of iterations is enough for every function, more change
    nothing, and the root is within half the tolerance *)
Theorem C45_terminates tmax func a b tolerance : a <> b -> Rabs (b - a) / 2 < tmax -> 0 < tolerance -> exists enough, forall limit, (enough <= limit)%nat ->
  Bisect tmax limit func a b tolerance = Bisect tmax enough func a b tolerance /\
  ((forall x, between a b x -> continuity_pt func x) -> func a * func b <= 0 -> exists r, between a b r /\ func r = 0 /\ Rabs (Bisect tmax limit func a b tolerance - r) <= tolerance / 2).
Proof.
  intros Hab Hm Ht. assert (Hp : 0 < Rabs (b - a)) by (apply Rabs_pos_lt; lra).
  assert (P : exists n, (1 <= n)%nat /\ Rabs (b - a) / 2 ^ n <= tolerance).
  { destruct (archimed_cor1 (tolerance / Rabs (b - a))) as (n & H1 & H2); [apply Rmult_lt_0_compat; [lra|now apply Rinv_0_lt_compat]|]. exists n. split; [lia|].
    assert (B : INR n <= 2 ^ n). { clear. induction n as [|n IH]; [cbn; lra|]. rewrite S_INR. cbn [pow]. assert (1 <= 2 ^ n) by (apply pow_R1_Rle; lra). lra. }
    assert (Hn : 0 < INR n) by (apply lt_0_INR; lia). assert (H3 : / 2 ^ n <= / INR n) by (apply Rinv_le_contravar; assumption).
    replace tolerance with (Rabs (b - a) * (tolerance / Rabs (b - a))) by (field; lra). unfold Rdiv at 1. apply Rmult_le_compat_l; lra. }
  destruct P as (n & Hn & Hw). exists n. intros limit Hl.
  assert (E : Bisect tmax limit func a b tolerance = Bisect tmax n func a b tolerance).
  { unfold Bisect. replace limit with (n + (limit - n))%nat by lia. apply (loop_stable func tolerance a b n 0%nat); [unfold width_after; cbn [pow]; lra|rewrite Nat.add_0_r; exact Hw|exact Hn]. }
  split; [exact E|]. intros Hc Hs. destruct (C45_root tmax limit func a b tolerance Hab Hm Hc Hs) as (r & H1 & H2 & H3). exists r. split; [exact H1|]. split; [exact H2|]. eapply Rle_trans; [exact H3|].
  apply Rmax_lub; [lra|]. cbn [pow]. assert (2 ^ n <= 2 ^ limit) by (apply Rle_pow; [lra|lia]). assert (0 < 2 ^ n) by (apply pow_lt; lra). assert (/ 2 ^ limit <= / 2 ^ n) by (apply Rinv_le_contravar; assumption).
  replace (Rabs (b - a) / (2 * 2 ^ limit)) with (Rabs (b - a) * / 2 ^ limit / 2) by (field; lra). unfold Rdiv in Hw. assert (Rabs (b - a) * / 2 ^ limit <= Rabs (b - a) * / 2 ^ n) by (apply Rmult_le_compat_l; lra). lra.
Qed.
Print Assumptions C45_terminates.
(** with the default tolerance, 0, exact arithmetic never stops: every limit is used up (in floating point the midpoint
    eventually rounds to an end point) *)
Theorem C45_default_tolerance tmax limit func a b : a <> b -> Rabs (b - a) / 2 < tmax -> exists a' b', Bisect tmax limit func a b 0 = (a' + b') / 2 /\ Rabs (b' - a') = Rabs (b - a) / 2 ^ limit /\ (func a * func b <= 0 -> func a' * func b' <= 0).
Proof.
  intros Hab Hm. destruct (Rle_dec (func a * func b) 0) as [Hs|Hs].
  - destruct (loop_trace func 0 a b Hab limit 0%nat a b tmax) as (a' & b' & k & E & S' & A & B & Wd & K1 & K2 & _); try assumption; try apply between_l; try apply between_r.
    { unfold width_after. cbn [pow]. lra. }
    exists a', b'. split; [exact E|]. split; [|tauto]. rewrite Wd. destruct K2 as [->|K2]; [now rewrite Nat.add_0_r|]. exfalso.
    assert (0 < width_after k a b) by (unfold width_after; apply Rmult_lt_0_compat; [apply Rabs_pos_lt; lra|apply Rinv_0_lt_compat, pow_lt; lra]). lra.
  - assert (G : forall limit a b err, a <> b -> Rabs (b - a) / 2 < err -> exists a' b', bisect_loop limit func 0 a b ((a + b) / 2) err = (a' + b') / 2 /\ Rabs (b' - a') = Rabs (b - a) / 2 ^ limit).
    { clear. induction limit as [|limit IH]; intros a b err Hab He; [exists a, b; split; [reflexivity|cbn [pow]; lra]|]. cbn [bisect_loop].
      assert (G : forall a1 b1, Rabs (b1 - a1) = Rabs (b - a) / 2 -> exists a' b', (if Rlt_dec 0 (Rabs (b1 - a1)) then if Rlt_dec (Rabs (b1 - a1)) err then bisect_loop limit func 0 a1 b1 ((a1 + b1) / 2) (Rabs (b1 - a1)) else (a1 + b1) / 2 else (a1 + b1) / 2) = (a' + b') / 2 /\ Rabs (b' - a') = Rabs (b - a) / 2 ^ S limit).
      { intros a1 b1 E. assert (0 < Rabs (b - a)) by (apply Rabs_pos_lt; lra). destruct (Rlt_dec 0 (Rabs (b1 - a1))); [|lra]. destruct (Rlt_dec (Rabs (b1 - a1)) err); [|lra].
        destruct (IH a1 b1 (Rabs (b1 - a1))) as (a' & b' & E1 & E2); [intros ->; rewrite Rminus_eq_0, Rabs_R0 in *; lra|lra|]. exists a', b'. split; [exact E1|]. rewrite E2, E. cbn [pow]. field. apply pow_nonzero. lra. }
      destruct (Rle_dec (func a * func ((a + b) / 2)) 0); apply G; [apply half_abs|apply half_abs']. }
    destruct (G limit a b tmax Hab Hm) as (a' & b' & E1 & E2). exists a', b'. split; [exact E1|]. split; [exact E2|]. intros; contradiction.
Qed.
Print Assumptions C45_default_tolerance.
(** equal end points: returned at once *)
Theorem C45_degenerate tmax limit func a tolerance : (1 <= limit)%nat -> 0 <= tolerance -> Bisect tmax limit func a a tolerance = a.
Proof.
  intros Hl Ht. unfold Bisect. destruct limit as [|limit]; [lia|]. cbn [bisect_loop]. replace ((a + a) / 2) with a by lra. destruct (Rle_dec (func a * func a) 0); rewrite Rminus_eq_0, Rabs_R0; (destruct (Rlt_dec tolerance 0); [lra|]); lra.
Qed.
Print Assumptions C45_degenerate.
(** the square root of 2 *)
Example C45_nontrivial limit : exists r, between 0 2 r /\ r * r - 2 = 0 /\ Rabs (Bisect 1000 limit (fun x => x * x - 2) 0 2 0 - r) <= / 2 ^ limit.
Proof.
  destruct (C45_root 1000 limit (fun x => x * x - 2) 0 2 0) as (r & H1 & H2 & H3); [lra|rewrite Rminus_0_r, Rabs_right; lra|intros x _; reg|lra|]. exists r. split; [exact H1|]. split; [exact H2|]. eapply Rle_trans; [exact H3|].
  assert (0 < / 2 ^ limit) by (apply Rinv_0_lt_compat, pow_lt; lra). apply Rmax_lub; [lra|]. rewrite Rminus_0_r, Rabs_right by lra. cbn [pow]. right. field. apply pow_nonzero. lra.
Qed.
