(** Rounding noise driving a stable difference equation. *)
From Coq Require Import Reals Lra Lia List ZArith Psatz Permutation.
From Verif Require Import Base BaseFacts Complex ConvProofs FunctionProofs IirModel IirProofs PolyModel PolyProofs SysModel SysProofs PropsPoly PropsIir PropsSys StableProofs.
Import ListNotations.
Local Open Scope R_scope.
Notation linR := (lin (K := Complex.Rfield)).

(** [den] is [lead] times the product of (z - p) *)
Definition factors (den : list R) (lead : R) (ps : list C) : Prop := lead <> 0 /\ map RtoC (map (fun a => a / lead) den) = from_roots ps.
Lemma lin_scaled (c : list R) k (f : Z -> R) n : linR (map (fun a => a * k) c) f n = k * linR c f n.
Proof.
  unfold lin. refine (eq_trans _ (sumZ_scale (K := Rring) _ _ _ _)). rewrite lenZ_map. apply (sumZ_ext (K := Rring)). intros i Hi. change (car Complex.Rfield) with R in *.
  assert (E : at0 (K := Rring) (map (fun a => a * k) c) (lenZ c - 1 - i) = at0 (K := Rring) c (lenZ c - 1 - i) * k).
  { unfold at0, nthZ. destruct (lenZ c - 1 - i <? 0)%Z; [symmetry; exact (Rmult_0_l k)|]. change (car Rring) with R. rewrite nth_error_map. destruct (nth_error c _); [reflexivity|]. symmetry. exact (Rmult_0_l k). }
  change (at0 (K := Complex.Rfield)) with (at0 (K := Rring)). rewrite E. change (rmul (c := Complex.Rfield)) with Rmult. change (rmul (c := Rring)) with Rmult. set (a := at0 (K := Rring) c _). set (b := f _). change (a * k * b = k * (a * b)). ring.
Qed.
Lemma factors_within den lead ps (e : Z -> R) W T : factors den lead ps -> Forall (fun p => Cabs p < 1) ps -> 0 <= W -> (forall n, (n < 0)%Z -> e n = 0) -> (forall n, (0 <= n < T)%Z -> Rabs (linR den e n) <= W) ->
  forall n, (0 <= n < T)%Z -> Rabs (e n) <= W / (Rabs lead * room ps 1).
Proof.
  intros [Hl Ed] HF HW Hz Hb n Hn. pose proof (room_pos ps 1 HF) as Hr. pose proof (Rabs_pos_lt _ Hl) as Hl'. 
  assert (B : Rabs (e n) <= W / Rabs lead / room ps 1 * 1 ^ Z.to_nat n).
  { refine (within_real ps _ e (W / Rabs lead) 1 T Ed HF ltac:(lra) _ Hz _ n Hn); [unfold Rdiv; apply Rmult_le_pos; [exact HW|left; now apply Rinv_0_lt_compat]|].
    intros m Hm. unfold Rdiv at 1. rewrite lin_scaled, Rabs_mult, pow1, Rmult_1_r, Rabs_inv, Rmult_comm. apply Rmult_le_compat_r; [left; now apply Rinv_0_lt_compat|now apply Hb]. }
  rewrite pow1, Rmult_1_r in B. eapply Rle_trans; [exact B|]. apply Req_le. unfold Rdiv. rewrite Rinv_mult. ring.
Qed.
Lemma prefix_max (e : Z -> R) (T : nat) : exists m, 0 <= m /\ (forall n, (0 <= n < Z.of_nat T)%Z -> Rabs (e n) <= m) /\ (m = 0 \/ exists n, (0 <= n < Z.of_nat T)%Z /\ m = Rabs (e n)).
Proof.
  induction T as [|T (m & H0 & H1 & H2)]; [exists 0; split; [lra|]; split; [intros; lia|now left]|]. destruct (Rle_dec (Rabs (e (Z.of_nat T))) m) as [L|L].
  - exists m. split; [exact H0|]. split; [intros n Hn; destruct (Z.eq_dec n (Z.of_nat T)) as [->|]; [exact L|apply H1; lia]|]. destruct H2 as [H2|(n & Hn & E)]; [now left|right; exists n; split; [lia|exact E]].
  - exists (Rabs (e (Z.of_nat T))). split; [apply Rabs_pos|]. split; [intros n Hn; destruct (Z.eq_dec n (Z.of_nat T)) as [->|]; [lra|]; eapply Rle_trans; [apply H1; lia|lra]|]. right. exists (Z.of_nat T). split; [lia|reflexivity].
Qed.
(** each step may add an error proportional to the size of the output so far; the output stays within a fixed distance of the exact one *)
Lemma noise_core den lead ps (y ex : Z -> R) X V kappa T : factors den lead ps -> Forall (fun p => Cabs p < 1) ps -> 0 <= X -> 0 <= V -> 0 <= kappa -> 2 * kappa <= Rabs lead * room ps 1 ->
  (forall n, (n < 0)%Z -> y n = 0) -> (forall n, (n < 0)%Z -> ex n = 0) -> (forall n, (0 <= n < T)%Z -> Rabs (ex n) <= X) ->
  (forall n Y, (0 <= n < T)%Z -> 0 <= Y -> (forall j, (j <= n)%Z -> Rabs (y j) <= Y) -> Rabs (linR den (fun j => y j - ex j) n) <= kappa * Y + V) ->
  forall n, (0 <= n < T)%Z -> Rabs (y n - ex n) <= (1 + 2 * kappa / (Rabs lead * room ps 1)) * ((kappa * X + V) / (Rabs lead * room ps 1)).
Proof.
  intros HP HF HX HV Hk Hk2 Hy He Bx Hr n Hn. set (e := fun j => y j - ex j). pose proof (room_pos ps 1 HF) as Rp. pose proof (Rabs_pos_lt _ (proj1 HP)) as Lp. set (D := Rabs lead * room ps 1) in *. assert (HD : 0 < D) by now apply Rmult_lt_0_compat.
  destruct (prefix_max e (Z.to_nat T)) as (m & M0 & M1 & M2). rewrite Z2Nat.id in M1, M2 by lia.
  assert (Q : forall j, (0 <= j < T)%Z -> Rabs (e j) <= (kappa * (X + m) + V) / D).
  { intros j Hj. apply (factors_within den lead ps e _ T HP HF); [|intros i Hi; unfold e; rewrite Hy, He by lia; ring| |exact Hj].
    - apply Rplus_le_le_0_compat; [apply Rmult_le_pos; lra|exact HV].
    - intros i Hi. apply Hr; [exact Hi|lra|]. intros k Hk'. destruct (Z_lt_ge_dec k 0); [rewrite Hy by lia; rewrite Rabs_R0; lra|]. replace (y k) with (ex k + e k) by (unfold e; ring). eapply Rle_trans; [apply Rabs_triang|]. specialize (M1 k ltac:(lia)). specialize (Bx k ltac:(lia)). lra. }
  assert (Hm : m <= 2 * (kappa * X + V) / D).
  { assert (P0 : 0 <= kappa * X) by now apply Rmult_le_pos. destruct M2 as [->|(j & Hj & ->)]; [unfold Rdiv; apply Rmult_le_pos; [lra|left; now apply Rinv_0_lt_compat]|]. specialize (Q j Hj). set (m := Rabs (e j)) in *. 
    apply (Rmult_le_reg_r D); [exact HD|]. unfold Rdiv in *. rewrite Rmult_assoc, Rinv_l, Rmult_1_r by lra. apply (Rmult_le_compat_r D) in Q; [|lra]. rewrite Rmult_assoc, Rinv_l, Rmult_1_r in Q by lra.
    assert (2 * kappa * m <= D * m) by (apply Rmult_le_compat_r; lra). lra. }
  eapply Rle_trans; [apply (Q n Hn)|]. apply Rle_trans with ((kappa * (X + 2 * (kappa * X + V) / D) + V) / D); [|apply Req_le; field; lra].
  unfold Rdiv at 1 3. apply Rmult_le_compat_r; [left; now apply Rinv_0_lt_compat|]. apply Rplus_le_compat_r, Rmult_le_compat_l; [exact Hk|]. unfold Rdiv in Hm. unfold Rdiv. lra.
Qed.
