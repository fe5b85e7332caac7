(** Rounding-error analysis of the reductions over an abstract floating-point type: values
    [val], finite values [fin], addition and subtraction correct to a relative error [u] as
    long as the result stays below the overflow threshold [M]. *)
From Verif Require Import Base BaseFacts KernelModel KernelProofs FloatSpec ReduceTree.
From Coq Require Import Reals Lra Lia List ZArith Arith Psatz.
Import ListNotations.
Local Open Scope R_scope.

Definition sumR (l : list R) : R := fold_right Rplus 0 l.
Lemma sumR_app l m : sumR (l ++ m) = sumR l + sumR m.
Proof. induction l as [|x l IH]; cbn [sumR app fold_right] in *; [unfold sumR; lra|]. fold (sumR (l ++ m)). fold (sumR l). rewrite IH. lra. Qed.
Lemma sumR_cons x l : sumR (x :: l) = x + sumR l. Proof. reflexivity. Qed.
Lemma sumR_perm l m : Permutation l m -> sumR l = sumR m.
Proof. induction 1; rewrite ?sumR_cons in *; try lra; try reflexivity. Qed.
Lemma sumR_nonneg l : (forall x, In x l -> 0 <= x) -> 0 <= sumR l.
Proof.
  induction l as [|x l IH]; intros H; [unfold sumR; cbn; lra|]. rewrite sumR_cons.
  pose proof (H x (or_introl eq_refl)). specialize (IH (fun y Hy => H y (or_intror Hy))). lra.
Qed.

Section Abstract.
Context {V : Type} (val : V -> R) (fin : V -> Prop) (add : V -> V -> V) (u M : R).
Hypothesis Hu : 0 <= u.
Hypothesis Hadd : forall a b, fin a -> fin b -> (1 + u) * Rabs (val a + val b) < M ->
  fin (add a b) /\ Rabs (val (add a b) - (val a + val b)) <= u * Rabs (val a + val b).

Definition vsum (l : list V) := sumR (map val l).
Definition vabs (l : list V) := sumR (map (fun x => Rabs (val x)) l).
Lemma vabs_nonneg l : 0 <= vabs l.
Proof. apply sumR_nonneg. intros x Hx. apply in_map_iff in Hx as (y & <- & _). apply Rabs_pos. Qed.
Lemma vsum_le_vabs l : Rabs (vsum l) <= vabs l.
Proof.
  unfold vsum, vabs. induction l as [|x l IH]; cbn [map]; [unfold sumR; cbn; rewrite Rabs_R0; lra|].
  rewrite !sumR_cons. eapply Rle_trans; [apply Rabs_triang|]. lra.
Qed.
Lemma vsum_app l m : vsum (l ++ m) = vsum l + vsum m. Proof. unfold vsum. now rewrite map_app, sumR_app. Qed.
Lemma vabs_app l m : vabs (l ++ m) = vabs l + vabs m. Proof. unfold vabs. now rewrite map_app, sumR_app. Qed.
Lemma vsum_perm l m : Permutation l m -> vsum l = vsum m.
Proof. intros H. apply sumR_perm. now apply Permutation_map. Qed.
Lemma vabs_perm l m : Permutation l m -> vabs l = vabs m.
Proof. intros H. apply sumR_perm. now apply Permutation_map. Qed.

(** [approx g v l]: [v] is finite and is the sum of [l] up to a relative error [g - 1] (of the
    sum of the absolute values) *)
Definition approx (g : R) (v : V) (l : list V) : Prop :=
  fin v /\ Rabs (val v - vsum l) <= (g - 1) * vabs l.
Lemma approx_one v : fin v -> approx 1 v [v].
Proof.
  intros H. split; [exact H|]. unfold vsum, vabs, sumR. cbn. rewrite Rplus_0_r, Rminus_diag_eq by reflexivity.
  rewrite Rabs_R0. lra.
Qed.
Lemma approx_weaken g g' v l : approx g v l -> g <= g' -> approx g' v l.
Proof. intros [H1 H2] Hg. split; [exact H1|]. pose proof (vabs_nonneg l). nra. Qed.
Lemma approx_perm g v l l' : approx g v l -> Permutation l l' -> approx g v l'.
Proof. intros [H1 H2] HP. split; [exact H1|]. now rewrite <- (vsum_perm _ _ HP), <- (vabs_perm _ _ HP). Qed.
Lemma approx_abs g v l : approx g v l -> Rabs (val v) <= g * vabs l.
Proof.
  intros [_ H]. pose proof (vsum_le_vabs l). replace (val v) with ((val v - vsum l) + vsum l) by ring.
  eapply Rle_trans; [apply Rabs_triang|]. lra.
Qed.
Lemma approx_add g a b la lb : 1 <= g -> approx g a la -> approx g b lb ->
  g * (1 + u) * vabs (la ++ lb) < M -> approx (g * (1 + u)) (add a b) (la ++ lb).
Proof.
  intros Hg Ha Hb HM. pose proof (approx_abs _ _ _ Ha) as Aa. pose proof (approx_abs _ _ _ Hb) as Ab.
  destruct Ha as [Fa Ea], Hb as [Fb Eb]. rewrite vabs_app in HM.
  pose proof (Rabs_triang (val a) (val b)) as HT.
  destruct (Hadd a b Fa Fb) as [Fr Er]; [nra|]. split; [exact Fr|].
  rewrite vsum_app, vabs_app.
  replace (val (add a b) - (vsum la + vsum lb)) with
    ((val (add a b) - (val a + val b)) + ((val a - vsum la) + (val b - vsum lb))) by ring.
  eapply Rle_trans; [apply Rabs_triang|].
  pose proof (Rabs_triang (val a - vsum la) (val b - vsum lb)).
  pose proof (vabs_nonneg la). pose proof (vabs_nonneg lb).
  assert (u * Rabs (val a + val b) <= u * (g * (vabs la + vabs lb))) by (apply Rmult_le_compat_l; lra). lra.
Qed.
Lemma pow1u_ge1 d : 1 <= (1 + u) ^ d.
Proof. induction d as [|d IH]; cbn [pow]; [lra|]. nra. Qed.
Lemma pow1u_mono d d' : (d <= d')%nat -> (1 + u) ^ d <= (1 + u) ^ d'.
Proof. intros H. apply Rle_pow; [lra|exact H]. Qed.

(** a combination tree over leaves that are themselves approximations *)
Lemma combined_approx d v l : combined add d v l -> forall g Ls, 1 <= g -> Forall2 (approx g) l Ls ->
  g * (1 + u) ^ d * vabs (concat Ls) < M -> approx (g * (1 + u) ^ d) v (concat Ls).
Proof.
  induction 1 as [x|d1 d2 a b la lb Ha IHa Hb IHb|d v l l' H IH P|d d1 v l H IH Hd]; intros g Ls Hg HF HM.
  - inversion HF as [|? L ? m Hx Hr]; subst. inversion Hr; subst. cbn [concat pow] in *. rewrite app_nil_r in *.
    replace (g * 1) with g by ring. exact Hx.
  - apply Forall2_app_inv_l in HF as (La & Lb & FA & FB & ->). rewrite concat_app in *.
    rewrite vabs_app in HM. pose proof (vabs_nonneg (concat La)) as Na. pose proof (vabs_nonneg (concat Lb)) as Nb.
    cbn [pow] in *. set (m := Nat.max d1 d2) in *. pose proof (pow1u_ge1 m) as Hm.
    pose proof (pow1u_mono d1 m ltac:(lia)) as H1. pose proof (pow1u_mono d2 m ltac:(lia)) as H2.
    pose proof (pow1u_ge1 d1) as G1. pose proof (pow1u_ge1 d2) as G2.
    assert (B0 : 0 <= g * (1 + u) ^ m) by (apply Rmult_le_pos; lra).
    assert (B1 : g * (1 + u) ^ d1 <= g * (1 + u) ^ m) by (apply Rmult_le_compat_l; lra).
    assert (B2 : g * (1 + u) ^ d2 <= g * (1 + u) ^ m) by (apply Rmult_le_compat_l; lra).
    assert (HM' : g * (1 + u) ^ m * (vabs (concat La) + vabs (concat Lb)) < M).
    { eapply Rle_lt_trans; [|exact HM]. apply Rmult_le_compat_r; [lra|]. nra. }
    replace (g * ((1 + u) * (1 + u) ^ m)) with (g * (1 + u) ^ m * (1 + u)) in * by ring.
    apply approx_add; [nra| | |rewrite vabs_app; exact HM].
    + eapply approx_weaken; [apply IHa; [exact Hg|exact FA|]|exact B1]. nra.
    + eapply approx_weaken; [apply IHb; [exact Hg|exact FB|]|exact B2]. nra.
  - destruct (Forall2_perm_l _ _ _ _ (Permutation_sym P) HF) as (m' & Pm & F').
    assert (PC : Permutation (concat m') (concat Ls)) by (apply concat_perm; now symmetry).
    eapply approx_perm; [apply IH; [exact Hg|exact F'|]|exact PC]. rewrite (vabs_perm _ _ PC). exact HM.
  - pose proof (pow1u_mono d d1 Hd) as H1. pose proof (vabs_nonneg (concat Ls)) as Na.
    assert (B1 : g * (1 + u) ^ d <= g * (1 + u) ^ d1) by (apply Rmult_le_compat_l; lra).
    eapply approx_weaken; [apply IH; [exact Hg|exact HF|]|exact B1]. nra.
Qed.
Lemma concat_singletons {A} (l : list A) : concat (map (fun y => [y]) l) = l.
Proof. induction l as [|y l IH]; [reflexivity|]. cbn [map concat app]. now f_equal. Qed.
Lemma combined_sum d v l : combined add d v l -> (forall x, In x l -> fin x) ->
  (1 + u) ^ d * vabs l < M -> approx ((1 + u) ^ d) v l.
Proof.
  intros H Hf HM. rewrite <- (concat_singletons l) at 1. rewrite <- (Rmult_1_l ((1 + u) ^ d)).
  apply (combined_approx d v l H); [lra| |rewrite concat_singletons; lra].
  clear H HM. induction l as [|x l IH]; cbn [map]; constructor; [apply approx_one, Hf; left; reflexivity|].
  apply IH. intros; apply Hf; right; assumption.
Qed.

(** ** compensated summation *)
Variable sub : V -> V -> V.
Hypothesis Hsub : forall a b, fin a -> fin b -> (1 + u) * Rabs (val a - val b) < M ->
  fin (sub a b) /\ Rabs (val (sub a b) - (val a - val b)) <= u * Rabs (val a - val b).
Hypothesis Hu3 : u <= 1 / 1000.

(** one step: [A] bounds everything summed, [E] the error made so far *)
Lemma kahan_step A S E c s b : fin c -> fin s -> fin b -> 0 <= A -> 3 * A < M -> Rabs (val b) <= A ->
  Rabs (val c) <= 39 / 10 * u * A -> Rabs (val s) <= 102 / 100 * A ->
  Rabs (val s - val c - S) <= E ->
  let st := kahan add sub c s b in
  fin (fst st) /\ fin (snd st) /\ Rabs (val (fst st)) <= 39 / 10 * u * A /\
  Rabs (val (snd st) - val (fst st) - (S + val b)) <= E + (201 / 100 * u * Rabs (val b) + 14 * u * u * A).
Proof.
  intros Fc Fs Fb HA HM Hb Hc Hs HE. cbn zeta. unfold kahan. cbn [fst snd].
  pose proof (Rabs_triang (val b) (- val c)) as T1. rewrite Rabs_Ropp in T1. fold (val b - val c) in T1.
  assert (huA : 0 <= u * A) by nra.
  assert (uA : u * A <= A / 1000) by nra.
  assert (K1 : u * Rabs (val b - val c) <= A / 900).
  { assert (u * Rabs (val b - val c) <= u * (1004 / 1000 * A)) by (apply Rmult_le_compat_l; lra). lra. }
  destruct (Hsub b c Fb Fc) as [Fy Ey]; [lra|]. set (y := sub b c) in *.
  set (rho := val y - (val b - val c)) in *.
  assert (Hrho : Rabs rho <= u * (Rabs (val b) + Rabs (val c))) by (eapply Rle_trans; [exact Ey|]; apply Rmult_le_compat_l; lra).
  assert (Hy : Rabs (val y) <= (1 + u) * (Rabs (val b) + Rabs (val c))).
  { replace (val y) with (rho + (val b - val c)) by (unfold rho; ring). eapply Rle_trans; [apply Rabs_triang|]. lra. }
  assert (HyA : Rabs (val y) <= 1006 / 1000 * A).
  { assert (Rabs (val b) + Rabs (val c) <= 1004 / 1000 * A) by lra. nra. }
  pose proof (Rabs_triang (val s) (val y)) as T2.
  assert (Hsy : Rabs (val s + val y) <= 2026 / 1000 * A) by lra.
  destruct (Hadd s y Fs Fy) as [Ft Et].
  { assert (u * Rabs (val s + val y) <= 1 / 1000 * (2026 / 1000 * A)) by (apply Rmult_le_compat; try lra; apply Rabs_pos). lra. }
  set (t := add s y) in *. set (r := val t - (val s + val y)) in *.
  assert (Hr : Rabs r <= 2026 / 1000 * (u * A)) by (eapply Rle_trans; [exact Et|]; nra).
  assert (Ets : val t - val s = val y + r) by (unfold r; ring).
  pose proof (Rabs_triang (val y) r) as T3.
  destruct (Hsub t s Ft Fs) as [Fe Ee].
  { rewrite Ets. assert (Rabs (val y + r) <= 101 / 100 * A) by lra.
    assert (u * Rabs (val y + r) <= 1 / 1000 * (101 / 100 * A)) by (apply Rmult_le_compat; try lra; apply Rabs_pos). lra. }
  rewrite Ets in Ee. set (e := sub t s) in *. set (tau := val e - (val y + r)) in *.
  assert (Htau : Rabs tau <= u * (Rabs (val y) + Rabs r)) by (eapply Rle_trans; [exact Ee|]; apply Rmult_le_compat_l; lra).
  assert (HtauA : Rabs tau <= 101 / 100 * (u * A)).
  { eapply Rle_trans; [exact Htau|]. assert (Rabs (val y) + Rabs r <= 101 / 100 * A) by lra. nra. }
  assert (Eey : val e - val y = r + tau) by (unfold tau; ring).
  pose proof (Rabs_triang r tau) as T4.
  destruct (Hsub e y Fe Fy) as [Fc' Ec'].
  { rewrite Eey. assert (H : Rabs (r + tau) <= A / 300) by lra.
    assert (u * Rabs (r + tau) <= 1 / 1000 * (A / 300)) by (apply Rmult_le_compat; try lra; apply Rabs_pos). lra. }
  rewrite Eey in Ec'. set (c' := sub e y) in *. set (kap := val c' - (r + tau)) in *.
  assert (Hkap : Rabs kap <= u * (Rabs r + Rabs tau)) by (eapply Rle_trans; [exact Ec'|]; apply Rmult_le_compat_l; lra).
  assert (HkapA : Rabs kap <= 304 / 100 * (u * u * A)).
  { eapply Rle_trans; [exact Hkap|]. replace (304 / 100 * (u * u * A)) with (u * (304 / 100 * (u * A))) by ring.
    apply Rmult_le_compat_l; lra. }
  repeat split; [exact Fc'|exact Ft| |].
  - replace (val c') with (kap + (r + tau)) by (unfold kap; ring). eapply Rle_trans; [apply Rabs_triang|].
    assert (u * u * A <= 1 / 1000 * (u * A)) by (rewrite Rmult_assoc; apply Rmult_le_compat_r; lra). lra.
  - replace (val t - val c' - (S + val b)) with ((val s - val c - S) + (rho - tau - kap))
      by (unfold kap, tau, r, rho; ring).
    eapply Rle_trans; [apply Rabs_triang|]. apply Rplus_le_compat; [exact HE|].
    unfold Rminus. eapply Rle_trans; [apply Rabs_triang|]. rewrite Rabs_Ropp.
    pose proof (Rabs_triang rho (- tau)) as T5. rewrite Rabs_Ropp in T5.
    (* rho <= u(|b| + |c|), tau <= u((1+u)(|b|+|c|) + |r|), kap <= u(...) *)
    assert (P1 : u * Rabs (val c) <= 4 * (u * u * A)) by (replace (4 * (u * u * A)) with (u * (4 * u * A)) by ring; apply Rmult_le_compat_l; lra).
    assert (P2 : u * Rabs r <= 2026 / 1000 * (u * u * A)) by (replace (2026 / 1000 * (u * u * A)) with (u * (2026 / 1000 * (u * A))) by ring; apply Rmult_le_compat_l; lra).
    assert (P3 : u * Rabs (val y) <= 1001 / 1000 * (u * (Rabs (val b) + Rabs (val c)))).
    { set (X := Rabs (val b) + Rabs (val c)) in *.
      assert (0 <= X) by (pose proof (Rabs_pos (val b)); pose proof (Rabs_pos (val c)); unfold X; lra).
      assert (0 <= u * X) by (apply Rmult_le_pos; lra).
      apply Rle_trans with (u * ((1 + u) * X)); [apply Rmult_le_compat_l; lra|].
      replace (u * ((1 + u) * X)) with ((1 + u) * (u * X)) by ring. apply Rmult_le_compat_r; lra. }
    assert (0 <= u * Rabs (val b)) by (apply Rmult_le_pos; [lra|apply Rabs_pos]).
    assert (0 <= u * u * A) by (rewrite Rmult_assoc; apply Rmult_le_pos; lra).
    lra.
Qed.

Notation kstep := (fun st b => kahan add sub (fst st) (snd st) b).
Variable zero : V.
Hypothesis Hz : fin zero /\ val zero = 0.

Lemma kahan_inv A s0 bs : fin s0 -> (forall b, In b bs -> fin b) ->
  Rabs (val s0) + vabs bs <= A -> 3 * A < M -> INR (length bs) * u <= 1 ->
  let st := fold_left kstep bs (zero, s0) in
  fin (fst st) /\ fin (snd st) /\ Rabs (val (fst st)) <= 39 / 10 * u * A /\
  Rabs (val (snd st) - val (fst st) - (val s0 + vsum bs)) <= 201 / 100 * u * vabs bs + 14 * INR (length bs) * u * u * A.
Proof.
  intros F0. cbn zeta. induction bs as [|b bs IH] using rev_ind; intros Fb HA HM Hm.
  - cbn [fold_left fst snd length INR]. destruct Hz as [Fz Vz]. unfold vsum, vabs, sumR in *. cbn [map fold_right] in *.
    assert (0 <= A) by (pose proof (Rabs_pos (val s0)); lra).
    repeat split; [exact Fz|exact F0| |].
    + rewrite Vz, Rabs_R0. assert (0 <= u * A) by (apply Rmult_le_pos; lra). lra.
    + rewrite Vz. replace (val s0 - 0 - (val s0 + 0)) with 0 by ring. rewrite Rabs_R0. lra.
  - rewrite vabs_app in HA. pose proof (vabs_nonneg bs) as Nb. pose proof (Rabs_pos (val s0)) as N0.
    assert (E1 : vabs [b] = Rabs (val b)) by (unfold vabs, sumR; cbn; lra).
    assert (E2 : vsum [b] = val b) by (unfold vsum, sumR; cbn; lra).
    rewrite E1 in HA. pose proof (Rabs_pos (val b)) as N1.
    rewrite app_length in *. cbn [length] in *. rewrite plus_INR in *. cbn [INR] in *.
    destruct IH as (Fc & Fs & Hc & HE); [intros; apply Fb, in_or_app; auto|lra|exact HM|lra|].
    rewrite fold_left_app. cbn [fold_left]. set (st := fold_left _ bs _) in *.
    assert (HA0 : 0 <= A) by lra. assert (HuA : 0 <= u * A) by (apply Rmult_le_pos; lra).
    assert (HuA1 : u * A <= A / 1000) by (apply Rle_trans with (1 / 1000 * A); [apply Rmult_le_compat_r; lra|lra]).
    assert (Hs : Rabs (val (snd st)) <= 102 / 100 * A).
    { replace (val (snd st)) with ((val (snd st) - val (fst st) - (val s0 + vsum bs)) + (val (fst st) + (val s0 + vsum bs))) by ring.
      eapply Rle_trans; [apply Rabs_triang|]. pose proof (Rabs_triang (val (fst st)) (val s0 + vsum bs)) as T1.
      pose proof (Rabs_triang (val s0) (vsum bs)) as T2. pose proof (vsum_le_vabs bs) as T3.
      assert (B1 : 201 / 100 * u * vabs bs <= 201 / 100 * (u * A)) by (rewrite Rmult_assoc; apply Rmult_le_compat_l; [lra|apply Rmult_le_compat_l; lra]).
      assert (B2 : 14 * INR (length bs) * u * u * A <= 14 * (u * A)).
      { replace (14 * INR (length bs) * u * u * A) with (14 * ((INR (length bs) * u) * (u * A))) by ring.
        apply Rmult_le_compat_l; [lra|]. rewrite <- (Rmult_1_l (u * A)) at 2. apply Rmult_le_compat_r; lra. }
      lra. }
    assert (Fbb : fin b) by (apply Fb, in_or_app; right; left; reflexivity).
    destruct (kahan_step A (val s0 + vsum bs) _ (fst st) (snd st) b Fc Fs Fbb HA0 HM ltac:(lra) Hc Hs HE) as (G1 & G2 & G3 & G4).
    repeat split; [exact G1|exact G2|exact G3|]. rewrite vsum_app, vabs_app, E1, E2.
    replace (val s0 + (vsum bs + val b)) with (val s0 + vsum bs + val b) by ring. lra.
Qed.

Definition kfac (m : nat) : R := 1 + 6 * u + 14 * INR m * u * u.
Lemma kfac_ge1 m : 1 <= kfac m.
Proof.
  unfold kfac. pose proof (pos_INR m). assert (0 <= INR m * u * u) by (repeat apply Rmult_le_pos; lra). lra.
Qed.
Lemma kahan_sum s0 bs : fin s0 -> (forall b, In b bs -> fin b) -> 3 * vabs (s0 :: bs) < M -> INR (length bs) * u <= 1 ->
  approx (kfac (length bs)) (snd (fold_left kstep bs (zero, s0))) (s0 :: bs).
Proof.
  intros F0 Fb HM Hm. set (A := vabs (s0 :: bs)) in *.
  assert (EA : A = Rabs (val s0) + vabs bs) by reflexivity.
  destruct (kahan_inv A s0 bs F0 Fb ltac:(lra) HM Hm) as (_ & Fs & Hc & HE).
  set (st := fold_left _ bs _) in *. split; [exact Fs|].
  change (vsum (s0 :: bs)) with (val s0 + vsum bs). fold A.
  replace (val (snd st) - (val s0 + vsum bs)) with ((val (snd st) - val (fst st) - (val s0 + vsum bs)) + val (fst st)) by ring.
  eapply Rle_trans; [apply Rabs_triang|]. unfold kfac.
  pose proof (Rabs_pos (val s0)). pose proof (vabs_nonneg bs).
  assert (B1 : 201 / 100 * u * vabs bs <= 201 / 100 * (u * A)) by (rewrite Rmult_assoc; apply Rmult_le_compat_l; [lra|apply Rmult_le_compat_l; lra]).
  assert (0 <= u * A) by (apply Rmult_le_pos; lra). lra.
Qed.
Lemma approx_list g l Ls : Forall2 (approx g) l Ls ->
  (forall x, In x l -> fin x) /\ vabs l <= g * vabs (concat Ls) /\ Rabs (vsum l - vsum (concat Ls)) <= (g - 1) * vabs (concat Ls).
Proof.
  induction 1 as [|x L l Ls Hx H IH]; cbn [concat].
  - repeat split; [intros ? []| |]; unfold vabs, vsum, sumR; cbn; rewrite ?Rminus_0_r, ?Rabs_R0; lra.
  - destruct IH as (IF & IA & IE). pose proof (approx_abs _ _ _ Hx) as Ax. destruct Hx as [Fx Ex].
    rewrite vabs_app, vsum_app. change (vabs (x :: l)) with (Rabs (val x) + vabs l). change (vsum (x :: l)) with (val x + vsum l).
    repeat split; [intros y [<-|Hy]; auto|lra|].
    replace (val x + vsum l - (vsum L + vsum (concat Ls))) with ((val x - vsum L) + (vsum l - vsum (concat Ls))) by ring.
    eapply Rle_trans; [apply Rabs_triang|]. lra.
Qed.
Lemma kahan_approx g s0 bs Ls : 1 <= g -> Forall2 (approx g) (s0 :: bs) Ls ->
  3 * (g * vabs (concat Ls)) < M -> INR (length bs) * u <= 1 ->
  approx (g * kfac (length bs)) (snd (fold_left kstep bs (zero, s0))) (concat Ls).
Proof.
  intros Hg HF HM Hm. destruct (approx_list _ _ _ HF) as (Ff & HA & HE).
  destruct (kahan_sum s0 bs) as [Fs Es]; [apply Ff; left; reflexivity|intros; apply Ff; right; assumption|lra|exact Hm|].
  split; [exact Fs|]. set (s := snd _) in *. set (k := kfac (length bs)) in *.
  pose proof (kfac_ge1 (length bs)) as Hk. fold k in Hk.
  replace (val s - vsum (concat Ls)) with ((val s - vsum (s0 :: bs)) + (vsum (s0 :: bs) - vsum (concat Ls))) by ring.
  eapply Rle_trans; [apply Rabs_triang|].
  assert ((k - 1) * vabs (s0 :: bs) <= (k - 1) * (g * vabs (concat Ls))) by (apply Rmult_le_compat_l; lra).
  lra.
Qed.

(** the scalar unrolled loop with compensation *)
Definition kval (v : Z -> V) (count : Z) (init : V) : V :=
  snd (fold_left kstep (tab (count / 8) (fun k => block add v (pre_len count + 8 * k)%Z)) (zero, pre_acc add v count init)).
Lemma kval_approx v count init : (0 <= count)%Z -> fin init -> (forall k, (0 <= k < count)%Z -> fin (v k)) ->
  3 * ((1 + u) ^ 3 * vabs (init :: tab count v)) < M -> IZR (count / 8) * u <= 1 ->
  approx ((1 + u) ^ 3 * kfac (Z.to_nat (count / 8))) (kval v count init) (init :: tab count v).
Proof.
  intros Hc Fi Fv HM Hm. unfold kval. destruct (pre_len_blocks count Hc) as [Hp0 Hp1].
  assert (Hq : (0 <= count / 8)%Z) by (apply Z.div_pos; lia).
  assert (El : forall (f : Z -> V), length (tab (count / 8) f) = Z.to_nat (count / 8)) by (intros f; unfold tab; now rewrite map_length, seq_length).
  pose proof (concat_blocks v count Hc) as Hcat.
  set (bs := tab (count / 8) _).
  set (Lb := tab (count / 8) (fun k => tab 8 (fun j => v (pre_len count + 8 * k + j)%Z))) in *.
  assert (Hall : init :: tab count v = concat ((init :: tab (pre_len count) v) :: Lb)) by (cbn [concat app]; now rewrite Hcat).
  assert (Fall : forall x, In x (init :: tab count v) -> fin x).
  { intros x [<-|Hx]; [exact Fi|]. unfold tab in Hx. apply in_map_iff in Hx as (k & <- & Hk). apply in_seq in Hk. apply Fv. lia. }
  pose proof (pow1u_ge1 3) as G3.
  assert (Part : forall L, (forall x, In x L -> In x (init :: tab count v)) -> vabs L <= vabs (init :: tab count v) ->
     forall y, combined add 3 y L -> approx ((1 + u) ^ 3) y L).
  { intros L HL HA y Hy. apply combined_sum; [exact Hy|auto|].
    pose proof (vabs_nonneg L). assert ((1 + u) ^ 3 * vabs L <= (1 + u) ^ 3 * vabs (init :: tab count v)) by (apply Rmult_le_compat_l; lra).
    assert (0 <= (1 + u) ^ 3 * vabs (init :: tab count v)) by (apply Rmult_le_pos; [lra|apply vabs_nonneg]). lra. }
  rewrite Hall. replace (Z.to_nat (count / 8)) with (length bs) by apply El.
  apply kahan_approx; [exact G3| |rewrite <- Hall; exact HM|unfold bs; rewrite El, INR_IZR_INZ, Z2Nat.id by lia; exact Hm].
  constructor.
  - apply Part; [| |apply comb_pre].
    + intros x Hx. rewrite Hall. cbn [concat]. apply in_or_app. now left.
    + rewrite Hall. cbn [concat]. rewrite vabs_app. pose proof (vabs_nonneg (concat Lb)). lra.
  - assert (G : forall n, (0 <= n <= count / 8)%Z -> Forall2 (approx ((1 + u) ^ 3))
       (tab n (fun k => block add v (pre_len count + 8 * k)%Z)) (tab n (fun k => tab 8 (fun j => v (pre_len count + 8 * k + j)%Z)))).
    { intros n Hn. destruct Hn as [Hn0 Hn1]. revert Hn1. pattern n. apply natlike_ind; [constructor| |exact Hn0].
      intros k Hk IH Hk1. unfold Z.succ. rewrite !tab_snoc by lia. apply Forall2_app; [apply IH; lia|]. constructor; [|constructor].
      apply Part; [| |apply comb_block].
      - intros x Hx. rewrite Hall. cbn [concat]. apply in_or_app. right. apply in_concat.
        exists (tab 8 (fun j => v (pre_len count + 8 * k + j)%Z)). split; [|exact Hx].
        unfold Lb, tab at 1. apply in_map_iff. exists (Z.to_nat k). split; [now rewrite Z2Nat.id by lia|]. apply in_seq. lia.
      - rewrite Hall. cbn [concat]. rewrite vabs_app. pose proof (vabs_nonneg (init :: tab (pre_len count) v)).
        assert (HIn : In (tab 8 (fun j => v (pre_len count + 8 * k + j)%Z)) Lb).
        { unfold Lb, tab at 2. apply in_map_iff. exists (Z.to_nat k). split; [now rewrite Z2Nat.id by lia|]. apply in_seq. lia. }
        apply in_split in HIn as (L1 & L2 & ->). rewrite concat_app. cbn [concat]. rewrite !vabs_app.
        pose proof (vabs_nonneg (concat L1)). pose proof (vabs_nonneg (concat L2)). lra. }
    apply (G (count / 8)%Z). lia.
Qed.
End Abstract.

(** ** lanes of the compensated loop *)
Section KahanLanes.
Context {V : Type} (add sub : V -> V -> V) (zero dflt : V) (W : nat).
Notation lane j r := (nth j r dflt).
Notation badd := (map2 add).
Notation bsub := (map2 sub).
Lemma lane_block (rows : Z -> list V) c j : (forall k, length (rows k) = W) -> (j < W)%nat ->
  length (block badd rows c) = W /\ lane j (block badd rows c) = block add (fun k => lane j (rows k)) c.
Proof.
  intros HL Hj. unfold block. split.
  - repeat apply length_map2; apply HL.
  - rewrite !(lane_map2 dflt W) by (repeat apply length_map2; auto). reflexivity.
Qed.
Lemma lane_pre (rows : Z -> list V) count init j : (forall k, length (rows k) = W) -> length init = W -> (j < W)%nat ->
  length (pre_acc badd rows count init) = W /\
  lane j (pre_acc badd rows count init) = pre_acc add (fun k => lane j (rows k)) count (lane j init).
Proof.
  intros HL Hi Hj. unfold pre_acc. destruct (Z.odd count), (Z.testbit count 1), (Z.testbit count 2); cbn [Z.b2z]; (split;
  [repeat apply length_map2; auto | rewrite ?(lane_map2 dflt W) by (repeat apply length_map2; auto); reflexivity]).
Qed.
Lemma lane_kahan c s b j : length c = W -> length s = W -> length b = W -> (j < W)%nat ->
  length (fst (kahan badd bsub c s b)) = W /\ length (snd (kahan badd bsub c s b)) = W /\
  lane j (fst (kahan badd bsub c s b)) = fst (kahan add sub (lane j c) (lane j s) (lane j b)) /\
  lane j (snd (kahan badd bsub c s b)) = snd (kahan add sub (lane j c) (lane j s) (lane j b)).
Proof.
  intros Hc Hs Hb Hj. unfold kahan. cbn [fst snd].
  repeat split; try (repeat apply length_map2; auto); rewrite !(lane_map2 dflt W) by (repeat apply length_map2; auto); reflexivity.
Qed.
Lemma lane_kfold bs c s j : (forall b, In b bs -> length b = W) -> length c = W -> length s = W -> (j < W)%nat ->
  let st := fold_left (fun st b => kahan badd bsub (fst st) (snd st) b) bs (c, s) in
  length (snd st) = W /\
  lane j (snd st) = snd (fold_left (fun st b => kahan add sub (fst st) (snd st) b) (map (fun b => lane j b) bs) (lane j c, lane j s)).
Proof.
  cbn zeta. intros Hb Hc Hs Hj. revert c s Hc Hs. induction bs as [|b bs IH]; intros c s Hc Hs; [auto|].
  cbn [fold_left map fst snd].
  destruct (lane_kahan c s b j Hc Hs (Hb b (or_introl eq_refl)) Hj) as (L1 & L2 & E1 & E2).
  destruct (kahan badd bsub c s b) as [c' s'] eqn:Ek. cbn [fst snd] in *.
  destruct (IH (fun b' H => Hb b' (or_intror H)) c' s' L1 L2) as [Lr Er]. split; [exact Lr|]. rewrite Er.
  rewrite E1, E2. now destruct (kahan add sub (lane j c) (lane j s) (lane j b)).
Qed.
Lemma explicit_batch_lanes ld rows first last count init : (1 <= W)%nat -> (0 <= count)%Z ->
  last = (first + count * Z.of_nat W)%Z ->
  (forall k, (0 <= k < count)%Z -> ld (first + k * Z.of_nat W)%Z = Ok (rows k)) ->
  (forall k, length (rows k) = W) -> length init = W ->
  okP (explicit_batch (Z.of_nat W) (Comp add sub zero) ld first last init)
      (fun v => length v = W /\ forall j, (j < W)%nat -> lane j v = kval add sub zero (fun k => lane j (rows k)) count (lane j init)).
Proof.
  intros HW Hc Hl Hld HL Hi. unfold explicit_batch.
  rewrite (Explicit_shape _ _ _ _ rows _ _ _ count) by (lia || assumption). apply okP_ret.
  rewrite Nat2Z.id. set (bs := tab (count / 8) _).
  assert (Hz : length (repeat zero W) = W) by apply repeat_length.
  assert (Hbs : forall b, In b bs -> length b = W).
  { intros b Hin. unfold bs, tab in Hin. apply in_map_iff in Hin as (k & <- & _). apply (lane_block rows _ 0); [exact HL|lia]. }
  assert (Hpre : length (pre_acc badd rows count init) = W) by (apply (lane_pre rows count init 0); auto; lia).
  split; [apply (lane_kfold bs _ _ 0 Hbs Hz Hpre); lia|]. intros j Hj.
  destruct (lane_kfold bs _ _ j Hbs Hz Hpre Hj) as [_ E]. rewrite E.
  destruct (lane_pre rows count init j HL Hi Hj) as [_ E2]. rewrite E2. unfold kval, bs. rewrite map_tab.
  f_equal. f_equal.
  - apply tab_ext. intros k Hk. apply lane_block; [exact HL|exact Hj].
  - f_equal. rewrite (nth_indep _ dflt zero) by (rewrite repeat_length; exact Hj). apply nth_repeat.
Qed.
End KahanLanes.

Section CompTop.
Context {V : Type} (val : V -> R) (fin : V -> Prop) (add sub : V -> V -> V) (zero : V) (u M : R).
Hypothesis Hu : 0 <= u <= 1 / 1000.
Hypothesis Hadd : forall a b, fin a -> fin b -> (1 + u) * Rabs (val a + val b) < M ->
  fin (add a b) /\ Rabs (val (add a b) - (val a + val b)) <= u * Rabs (val a + val b).
Hypothesis Hsub : forall a b, fin a -> fin b -> (1 + u) * Rabs (val a - val b) < M ->
  fin (sub a b) /\ Rabs (val (sub a b) - (val a - val b)) <= u * Rabs (val a - val b).
Hypothesis Hz : fin zero /\ val zero = 0.
Notation approx := (approx val fin).
Notation vabs := (vabs val).

Definition comp_factor (W : Z) (vec : bool) (n : Z) : R :=
  if vec then (1 + u) ^ (3 + 2 * Z.to_nat W) * kfac u (Z.to_nat (n / W / 8)) else (1 + u) ^ 3 * kfac u (Z.to_nat (n / 8)).
Definition comp_steps (W : Z) (vec : bool) (n : Z) : Z := (if vec then n / W / 8 else n / 8)%Z.

Lemma kfac_mono m n : (m <= n)%nat -> kfac u m <= kfac u n.
Proof.
  intros H. unfold kfac. apply le_INR in H.
  assert (INR m * u * u <= INR n * u * u) by (apply Rmult_le_compat_r; [lra|apply Rmult_le_compat_r; lra]). lra.
Qed.

Lemma reduce_top_comp (batch tail : list V -> V -> V) W vec lds ldv (x : Z -> V) count init :
  some_order add batch -> some_order add tail ->
  (1 <= W)%Z -> (0 <= count)%Z ->
  (forall k, (0 <= k < count)%Z -> lds k = Ok (x k)) ->
  (forall k, (0 <= k)%Z -> (k + W <= count)%Z -> ldv k = Ok (tab W (fun j => x (k + j)%Z))) ->
  fin init -> (forall k, (0 <= k < count)%Z -> fin (x k)) ->
  3 * (comp_factor W vec count * vabs (init :: tab count x)) < M ->
  IZR (comp_steps W vec count) * u <= 1 ->
  okP (reduce_top_with batch tail W vec (Comp add sub zero) lds ldv count init)
      (fun v => approx (comp_factor W vec count) v (init :: tab count x)).
Proof.
  intros Hbt Htl HW Hc Hs Hv Fi Fx HM Hm. unfold reduce_top_with, comp_factor, comp_steps in *.
  assert (Hu0 : 0 <= u) by lra. assert (Hu1 : u <= 1 / 1000) by lra.
  destruct vec.
  2:{ unfold explicit_scalar. rewrite (Explicit_shape _ _ _ _ x _ _ _ count); [|lia|lia|lia|intros k Hk; replace (0 + k * 1)%Z with k by lia; auto].
      apply okP_ret. apply (kval_approx val fin add u M Hu0 Hadd sub Hsub Hu1 zero Hz x count init Hc Fi Fx); [|exact Hm].
      eapply Rle_lt_trans; [|exact HM]. pose proof (vabs_nonneg val (init :: tab count x)) as HA.
      pose proof (kfac_ge1 u Hu0 (Z.to_nat (count / 8))) as HK. pose proof (pow1u_ge1 u Hu0 3) as H3.
      assert (0 <= (1 + u) ^ 3 * vabs (init :: tab count x)) by (apply Rmult_le_pos; lra).
      replace ((1 + u) ^ 3 * kfac u (Z.to_nat (count / 8)) * vabs (init :: tab count x)) with
        (kfac u (Z.to_nat (count / 8)) * ((1 + u) ^ 3 * vabs (init :: tab count x))) by ring. nra. }
  set (vc := (count / W)%Z) in *.
  pose proof (div_mul_bounds count W HW Hc) as Hdm. fold vc in Hdm.
  assert (Hvc : (0 <= vc)%Z) by (subst vc; apply Z.div_pos; lia).
  set (Wn := Z.to_nat W) in *. assert (HWn : Z.of_nat Wn = W) by (subst Wn; lia).
  set (kf := kfac u (Z.to_nat (vc / 8))) in *.
  pose proof (kfac_ge1 u Hu0 (Z.to_nat (vc / 8))) as HK. fold kf in HK.
  set (A := vabs (init :: tab count x)) in *.
  assert (HA0 : 0 <= A) by apply vabs_nonneg.
  (* everything smaller than the total is below the threshold *)
  assert (HMM : forall d L, (d <= 3 + 2 * Wn)%nat -> vabs L <= A -> 3 * ((1 + u) ^ d * kf * vabs L) < M).
  { intros d L Hd HL. eapply Rle_lt_trans; [|exact HM]. apply Rmult_le_compat_l; [lra|].
    pose proof (pow1u_mono u Hu0 d _ Hd) as H1. pose proof (pow1u_ge1 u Hu0 d) as H2. pose proof (vabs_nonneg val L) as H3.
    apply Rmult_le_compat; [apply Rmult_le_pos; lra|exact H3| |exact HL]. apply Rmult_le_compat_r; lra. }
  assert (Htab : forall n, (0 <= n <= count)%Z -> vabs (init :: tab n x) <= A).
  { intros n Hn. unfold A. replace count with (n + (count - n))%Z by lia. rewrite (tab_plus n (count - n)) by lia.
    rewrite app_comm_cons, vabs_app. pose proof (vabs_nonneg val (tab (count - n) (fun j => x (n + j)%Z))). lra. }
  assert (P : okP (if negb (vc =? 0)%Z then
         do vinit <- ldv 0%Z;
         do vres <- explicit_batch W (Comp add sub zero) ldv W (vc * W) vinit;
         Ok (batch vres init, (vc * W)%Z)
       else Ok (init, 0%Z)) (fun st => snd st = (vc * W)%Z /\
         approx ((1 + u) ^ (3 + Wn) * kf) (fst st) (init :: tab (vc * W) x))).
  { destruct (Z.eqb_spec vc 0) as [E0|Hne]; cbn [negb].
    - apply okP_ret. cbn [fst snd]. rewrite E0. split; [lia|]. change (0 * W)%Z with 0%Z. cbn [tab Z.to_nat seq map].
      eapply approx_weaken; [apply approx_one; exact Fi|]. pose proof (pow1u_ge1 u Hu0 (3 + Wn)). nra.
    - rewrite (Hv 0%Z) by nia. cbn [bind].
      set (row := fun k => tab W (fun j => x ((k + 1) * W + j)%Z)).
      assert (Hrow : forall k, (0 <= k < vc - 1)%Z -> ldv (W + k * W)%Z = Ok (row k)).
      { intros k Hk. rewrite Hv by nia. f_equal. apply tab_ext. intros j Hj. f_equal. ring. }
      set (v0 := tab W (fun j => x (0 + j)%Z)).
      assert (Hv0 : length v0 = Wn) by (unfold v0, tab; rewrite map_length, seq_length; reflexivity).
      assert (Hlr : forall k, length (row k) = Wn) by (intros k; unfold row, tab; rewrite map_length, seq_length; reflexivity).
      assert (E : okP (explicit_batch W (Comp add sub zero) ldv W (vc * W) v0)
        (fun v => length v = Wn /\ forall j, (j < Wn)%nat -> nth j v init = kval add sub zero (fun k => nth j (row k) init) (vc - 1) (nth j v0 init))).
      { pose proof (explicit_batch_lanes add sub zero init Wn ldv row W (vc * W) (vc - 1) v0) as EB. rewrite HWn in EB.
        apply EB; try assumption; try lia. }
      eapply okP_bind; [exact E|]. intros vres [Lv Ev]. apply okP_ret. cbn [fst snd]. split; [reflexivity|].
      set (rows := v0 :: tab (vc - 1) row).
      assert (HWs : forall rw, In rw rows -> length rw = Wn).
      { intros rw [<-|Hin]; [exact Hv0|]. unfold tab in Hin at 1. apply in_map_iff in Hin as (k & <- & _). apply Hlr. }
      assert (Hcat : concat rows = tab (vc * W) x).
      { unfold rows. cbn [concat].
        assert (Hcat : concat (tab (vc - 1) row) = tab ((vc - 1) * W) (fun i => x (W + i)%Z)).
        { rewrite <- (concat_rows (fun i => x (W + i)%Z) W (vc - 1)) by lia. f_equal.
          apply tab_ext. intros k Hk. unfold row. apply tab_ext. intros j Hj. f_equal. ring. }
        rewrite Hcat. replace (vc * W)%Z with (W + (vc - 1) * W)%Z by ring. rewrite tab_app by nia. reflexivity. }
      set (lanes := map (fun j => map (fun r => nth j r init) rows) (seq 0 Wn)).
      assert (Hperm : Permutation (concat lanes) (tab (vc * W) x)).
      { rewrite <- Hcat. apply transpose_perm. exact HWs. }
      assert (Flane : forall j, (j < Wn)%nat -> forall r, In r rows -> fin (nth j r init)).
      { intros j Hj r Hr. assert (HIn : In (nth j r init) (concat rows)).
        { apply in_concat. exists r. split; [exact Hr|]. apply nth_In. rewrite (HWs r Hr). exact Hj. }
        rewrite Hcat in HIn. unfold tab in HIn. apply in_map_iff in HIn as (k & <- & Hk). apply in_seq in Hk. apply Fx. nia. }
      assert (Hlane : forall j, (j < Wn)%nat -> approx ((1 + u) ^ 3 * kf) (nth j vres init) (map (fun r => nth j r init) rows)).
      { intros j Hj. rewrite (Ev j Hj). unfold rows. cbn [map]. rewrite map_tab.
        eapply approx_weaken.
        - apply (kval_approx val fin add u M Hu0 Hadd sub Hsub Hu1 zero Hz); [lia| | | |].
          + apply Flane; [exact Hj|left; reflexivity].
          + intros k Hk. apply Flane; [exact Hj|]. right. unfold tab at 1. apply in_map_iff.
            exists (Z.to_nat k). split; [now rewrite Z2Nat.id by lia|]. apply in_seq. lia.
          + rewrite <- (map_tab (fun r => nth j r init) (vc - 1) row). change (nth j v0 init :: map (fun r => nth j r init) (tab (vc - 1) row)) with (map (fun r => nth j r init) rows).
            assert (HL : vabs (map (fun r => nth j r init) rows) <= A).
            { apply Rle_trans with (vabs (init :: concat lanes)).
              - assert (HIn : In (map (fun r => nth j r init) rows) lanes) by (apply in_map_iff; exists j; split; [reflexivity|apply in_seq; lia]).
                apply in_split in HIn as (L1 & L2 & ->). rewrite concat_app. cbn [concat]. rewrite app_comm_cons, !vabs_app.
                pose proof (vabs_nonneg val (init :: concat L1)). pose proof (vabs_nonneg val (concat L2)). lra.
              - rewrite (vabs_perm val (init :: concat lanes) (init :: tab (vc * W) x)) by (apply perm_skip; exact Hperm). apply Htab. nia. }
            pose proof (HMM 3%nat _ ltac:(lia) HL) as HX. eapply Rle_lt_trans; [|exact HX].
            pose proof (vabs_nonneg val (map (fun r => nth j r init) rows)) as HN. pose proof (pow1u_ge1 u Hu0 3) as H3.
            assert (HP : 0 <= (1 + u) ^ 3 * vabs (map (fun r => nth j r init) rows)) by (apply Rmult_le_pos; lra).
            replace ((1 + u) ^ 3 * kf * vabs (map (fun r => nth j r init) rows)) with (kf * ((1 + u) ^ 3 * vabs (map (fun r => nth j r init) rows))) by ring.
            nra.
          + eapply Rle_trans; [|exact Hm]. apply Rmult_le_compat_r; [lra|]. apply IZR_le. apply Z.div_le_mono; lia.
        - apply Rmult_le_compat_l; [pose proof (pow1u_ge1 u Hu0 3); lra|]. apply kfac_mono.
          apply Z2Nat.inj_le; [apply Z.div_pos; lia|apply Z.div_pos; lia|apply Z.div_le_mono; lia]. }
      assert (HF : Forall2 (approx ((1 + u) ^ 3 * kf)) (init :: vres) ([init] :: lanes)).
      { constructor.
        - eapply approx_weaken; [apply approx_one; exact Fi|]. pose proof (pow1u_ge1 u Hu0 3). nra.
        - rewrite <- (lanes_all init Wn vres Lv). unfold lanes.
          assert (G : forall s, (forall j, In j s -> (j < Wn)%nat) ->
            Forall2 (approx ((1 + u) ^ 3 * kf)) (map (fun j => nth j vres init) s) (map (fun j => map (fun r => nth j r init) rows) s)).
          { induction s as [|j s IH]; intros H; cbn [map]; constructor; [apply Hlane, H; left; reflexivity|].
            apply IH; intros; apply H; right; assumption. }
          apply G. intros j Hj. apply in_seq in Hj. lia. }
      pose proof (Hbt vres init) as HB. rewrite Lv in HB.
      assert (HPP : Permutation (concat ([init] :: lanes)) (init :: tab (vc * W) x)) by (cbn [concat app]; apply perm_skip; exact Hperm).
      assert (HG3 : 1 <= (1 + u) ^ 3 * kf) by (pose proof (pow1u_ge1 u Hu0 3); clear - HK H; nra).
      eapply approx_perm; [eapply approx_weaken; [apply (combined_approx val fin add u M Hu0 Hadd Wn _ _ HB _ _ HG3 HF)|]|exact HPP].
      + rewrite (vabs_perm val _ _ HPP). assert (Hn : (0 <= vc * W <= count)%Z) by lia. pose proof (HMM (3 + Wn)%nat (init :: tab (vc * W) x) ltac:(lia) (Htab _ Hn)) as HX.
        rewrite pow_add in HX. pose proof (vabs_nonneg val (init :: tab (vc * W) x)).
        assert (0 <= (1 + u) ^ 3 * (1 + u) ^ Wn * kf * vabs (init :: tab (vc * W) x)).
        { pose proof (pow1u_ge1 u Hu0 3). pose proof (pow1u_ge1 u Hu0 Wn). repeat apply Rmult_le_pos; lra. }
        replace ((1 + u) ^ 3 * kf * (1 + u) ^ Wn) with ((1 + u) ^ 3 * (1 + u) ^ Wn * kf) by ring. lra.
      + rewrite pow_add. right. ring. }
  eapply okP_bind; [exact P|]. intros [a p] [Hp Ha]. cbn [fst snd] in *. subst p.
  rewrite (fetch_spec lds x) by (auto with zarith; intros; apply Hs; nia). cbn [bind]. apply okP_ret.
  set (rest := tab (count - vc * W) _).
  pose proof (Htl rest a) as HT.
  assert (Lr : (length rest <= Wn)%nat) by (unfold rest, tab; rewrite map_length, seq_length; apply Z2Nat.inj_le; lia).
  assert (Frest : forall y, In y rest -> fin y).
  { intros y Hy. unfold rest, tab in Hy. apply in_map_iff in Hy as (k & <- & Hk). apply in_seq in Hk. apply Fx. nia. }
  pose proof (pow1u_ge1 u Hu0 (3 + Wn)) as H3W.
  assert (HG : 1 <= (1 + u) ^ (3 + Wn) * kf) by nra.
  assert (HF : Forall2 (approx ((1 + u) ^ (3 + Wn) * kf)) (a :: rest) ((init :: tab (vc * W) x) :: map (fun y => [y]) rest)).
  { constructor; [exact Ha|]. clear -Frest HG. induction rest as [|y l IH]; cbn [map]; constructor.
    - eapply approx_weaken; [apply approx_one, Frest; left; reflexivity|exact HG].
    - apply IH. intros; apply Frest; right; assumption. }
  assert (HPP : concat ((init :: tab (vc * W) x) :: map (fun y => [y]) rest) = init :: tab count x).
  { cbn [concat app]. rewrite concat_singletons. f_equal. unfold rest. rewrite <- tab_app by nia. f_equal. ring. }
  pose proof (pow1u_ge1 u Hu0 (3 + Wn + length rest)) as H4.
  assert (Hle : (1 + u) ^ (3 + Wn) * kf * (1 + u) ^ length rest <= (1 + u) ^ (3 + 2 * Wn) * kf).
  { replace ((1 + u) ^ (3 + Wn) * kf * (1 + u) ^ length rest) with ((1 + u) ^ (3 + Wn + length rest) * kf) by (rewrite pow_add; ring).
    apply Rmult_le_compat_r; [lra|]. apply pow1u_mono; [exact Hu0|lia]. }
  rewrite <- HPP. eapply approx_weaken; [apply (combined_approx val fin add u M Hu0 Hadd _ _ _ HT _ _ HG HF)|exact Hle].
  rewrite HPP. fold A. pose proof (HMM (3 + 2 * Wn)%nat (init :: tab count x) ltac:(lia) ltac:(unfold A; lra)) as HX. fold A in HX.
  eapply Rle_lt_trans; [apply Rmult_le_compat_r; [exact HA0|exact Hle]|].
  assert (0 <= (1 + u) ^ (3 + 2 * Wn) * kf * A).
  { pose proof (pow1u_ge1 u Hu0 (3 + 2 * Wn)) as HH. set (pw := (1 + u) ^ (3 + 2 * Wn)) in *. clearbody pw. apply Rmult_le_pos; [apply Rmult_le_pos; lra|exact HA0]. }
  lra.
Qed.
End CompTop.
