(** IEEE-754 binary arithmetic (Flocq) as an instance of the abstract analysis of FloatSum.v. *)
From Verif Require Import Base BaseFacts KernelModel KernelProofs FloatSpec ReduceTree FloatSum.
From Coq Require Import Reals Lra Lia List ZArith Arith Psatz.
From Flocq Require Import Core BinarySingleNaN Relative Plus_error.
Import ListNotations.
Local Open Scope R_scope.

(** where the top-level functions fetch their values *)
Section Fetch.
Context {T1 T2 K : Type} (W : Z) (d : K).
Hypothesis HW : (1 <= W)%Z.
Definition val_at {T} (f : T -> K) (l : list T) (i : Z) : K := match nthZ l i with Some a => f a | None => d end.
Lemma tab_val_at {T} (f : T -> K) (l : list T) : tab (lenZ l) (val_at f l) = map f l.
Proof.
  symmetry. apply list_eq_tab; [rewrite lenZ_map; pose proof (lenZ_nonneg l); lia|]. intros i Hi.
  unfold val_at. rewrite nthZ_map. destruct (nthZ l i) eqn:E; [reflexivity|]. destruct (nthZ_in l i Hi). congruence.
Qed.
Lemma rd_val_at {T} (f : T -> K) (l : list T) k : (0 <= k < lenZ l)%Z ->
  (do x <- rd l k; Ok (f x)) = Ok (val_at f l k).
Proof. intros Hk. unfold rd, val_at. destruct (nthZ_in l k Hk) as [a ->]. reflexivity. Qed.
Lemma slice_val_at {T} (f : T -> K) (l : list T) k : (0 <= k)%Z -> (k + W <= lenZ l)%Z ->
  (do v <- slice l k W; Ok (map f v)) = Ok (tab W (fun j => val_at f l (k + j)%Z)).
Proof.
  intros Hk Hl. destruct (slice_ok l k W Hk ltac:(lia) Hl) as (v & -> & L & N). cbn [bind]. f_equal.
  apply list_eq_tab; [rewrite lenZ_map; lia|]. intros i Hi. rewrite nthZ_map, N by lia. unfold val_at.
  destruct (nthZ_in l (k + i)%Z ltac:(lia)) as [a ->]. reflexivity.
Qed.
Definition prod_at (f : T1 -> T2 -> K) (a : list T1) (b : list T2) (i : Z) : K :=
  match nthZ a i, nthZ b i with Some x, Some y => f x y | _, _ => d end.
Lemma tab_prod_at (f : T1 -> T2 -> K) a b : (lenZ a <= lenZ b)%Z -> tab (lenZ a) (prod_at f a b) = map2 f a b.
Proof.
  intros Hab. symmetry. apply list_eq_tab; [rewrite lenZ_map2; pose proof (lenZ_nonneg a); lia|]. intros i Hi.
  destruct (nthZ_in a i ltac:(lia)) as [x Hx]. destruct (nthZ_in b i ltac:(lia)) as [y Hy].
  rewrite (nthZ_map2 _ _ _ _ _ _ Hx Hy). unfold prod_at. now rewrite Hx, Hy.
Qed.
Lemma rd_prod_at (f : T1 -> T2 -> K) a b k : (lenZ a <= lenZ b)%Z -> (0 <= k < lenZ a)%Z ->
  (do x <- rd a k; do y <- rd b k; Ok (f x y)) = Ok (prod_at f a b k).
Proof.
  intros Hab Hk. unfold rd, prod_at. destruct (nthZ_in a k Hk) as [x ->]. destruct (nthZ_in b k ltac:(lia)) as [y ->]. reflexivity.
Qed.
Lemma slice_prod_at (f : T1 -> T2 -> K) a b k : (lenZ a <= lenZ b)%Z -> (0 <= k)%Z -> (k + W <= lenZ a)%Z ->
  (do v <- slice a k W; do w <- slice b k W; Ok (map2 f v w)) = Ok (tab W (fun j => prod_at f a b (k + j)%Z)).
Proof.
  intros Hab Hk Hl. destruct (slice_ok a k W Hk ltac:(lia) Hl) as (v & -> & L & N). cbn [bind].
  destruct (slice_ok b k W Hk ltac:(lia) ltac:(lia)) as (w & -> & Lw & Nw). cbn [bind]. f_equal.
  apply list_eq_tab; [rewrite lenZ_map2; lia|]. intros i Hi.
  destruct (nthZ_in a (k + i)%Z ltac:(lia)) as [x Hx]. destruct (nthZ_in b (k + i)%Z ltac:(lia)) as [y Hy].
  rewrite (nthZ_map2 f v w i x y); [unfold prod_at; now rewrite Hx, Hy|rewrite N by lia; exact Hx|rewrite Nw by lia; exact Hy].
Qed.
End Fetch.

Section Ieee.
Variables prec emax : Z.
Context (Hprec : Prec_gt_0 prec) (Hmax : Prec_lt_emax prec emax).
Notation float := (binary_float prec emax).
Notation rnd x := (round radix2 (FLT_exp (3 - emax - prec) prec) ZnearestE x).

(** unit roundoff, smallest positive number, overflow threshold *)
Definition ur : R := bpow radix2 (- prec).
Definition tiny : R := bpow radix2 (3 - emax - prec).
Definition huge : R := bpow radix2 emax.
Definition fadd : float -> float -> float := Bplus mode_NE.
Definition fsub : float -> float -> float := Bminus mode_NE.
Definition fmul : float -> float -> float := Bmult mode_NE.
Definition finite (x : float) : Prop := is_finite x = true.

Lemma ur_pos : 0 < ur. Proof. apply bpow_gt_0. Qed.
Lemma ur_uro : u_ro radix2 prec = ur.
Proof. unfold u_ro, ur. rewrite bpow_plus. change (bpow radix2 1) with 2. field. Qed.
Lemma eps_le e : Rabs e <= u_ro radix2 prec / (1 + u_ro radix2 prec) -> Rabs e <= ur.
Proof.
  rewrite ur_uro. intros H. eapply Rle_trans; [exact H|]. pose proof ur_pos.
  apply Rmult_le_reg_r with (1 + ur); [lra|]. unfold Rdiv. rewrite Rmult_assoc, Rinv_l by lra. nra.
Qed.
Lemma rnd_lt x y : Rabs (rnd x - x) <= ur * Rabs x -> (1 + ur) * Rabs x < y -> Rabs (rnd x) < y.
Proof.
  intros H1 H2. replace (rnd x) with ((rnd x - x) + x) by ring. eapply Rle_lt_trans; [apply Rabs_triang|]. lra.
Qed.
Lemma fadd_err (a b : float) : finite a -> finite b -> (1 + ur) * Rabs (B2R a + B2R b) < huge ->
  finite (fadd a b) /\ Rabs (B2R (fadd a b) - (B2R a + B2R b)) <= ur * Rabs (B2R a + B2R b).
Proof.
  intros Fa Fb HM. unfold finite, fadd in *.
  destruct (FLT_plus_error_N_ex radix2 (3 - emax - prec) prec (fun x => negb (Z.even x)) (B2R a) (B2R b)
             (generic_format_B2R prec emax a) (generic_format_B2R prec emax b)) as (e & He & E).
  assert (HE : Rabs (rnd (B2R a + B2R b) - (B2R a + B2R b)) <= ur * Rabs (B2R a + B2R b)).
  { rewrite E. replace ((B2R a + B2R b) * (1 + e) - (B2R a + B2R b)) with (e * (B2R a + B2R b)) by ring.
    rewrite Rabs_mult. apply Rmult_le_compat_r; [apply Rabs_pos|now apply eps_le]. }
  pose proof (Bplus_correct prec emax Hprec Hmax mode_NE a b Fa Fb) as C.
  change (round radix2 (SpecFloat.fexp prec emax) (round_mode mode_NE) (B2R a + B2R b)) with (rnd (B2R a + B2R b)) in C.
  rewrite Rlt_bool_true in C by (now apply rnd_lt). destruct C as (C1 & C2 & _). rewrite C1. auto.
Qed.
Lemma fsub_err (a b : float) : finite a -> finite b -> (1 + ur) * Rabs (B2R a - B2R b) < huge ->
  finite (fsub a b) /\ Rabs (B2R (fsub a b) - (B2R a - B2R b)) <= ur * Rabs (B2R a - B2R b).
Proof.
  intros Fa Fb HM. unfold finite, fsub in *.
  destruct (FLT_plus_error_N_ex radix2 (3 - emax - prec) prec (fun x => negb (Z.even x)) (B2R a) (- B2R b)
             (generic_format_B2R prec emax a) (generic_format_opp _ _ _ (generic_format_B2R prec emax b))) as (e & He & E).
  change (B2R a + - B2R b) with (B2R a - B2R b) in E.
  assert (HE : Rabs (rnd (B2R a - B2R b) - (B2R a - B2R b)) <= ur * Rabs (B2R a - B2R b)).
  { rewrite E. replace ((B2R a - B2R b) * (1 + e) - (B2R a - B2R b)) with (e * (B2R a - B2R b)) by ring.
    rewrite Rabs_mult. apply Rmult_le_compat_r; [apply Rabs_pos|now apply eps_le]. }
  pose proof (Bminus_correct prec emax Hprec Hmax mode_NE a b Fa Fb) as C.
  change (round radix2 (SpecFloat.fexp prec emax) (round_mode mode_NE) (B2R a - B2R b)) with (rnd (B2R a - B2R b)) in C.
  rewrite Rlt_bool_true in C by (now apply rnd_lt). destruct C as (C1 & C2 & _). rewrite C1. auto.
Qed.
Lemma fmul_err (a b : float) : finite a -> finite b -> (1 + ur) * Rabs (B2R a * B2R b) + tiny / 2 < huge ->
  finite (fmul a b) /\ Rabs (B2R (fmul a b) - B2R a * B2R b) <= ur * Rabs (B2R a * B2R b) + tiny / 2.
Proof.
  intros Fa Fb HM. unfold finite, fmul in *.
  destruct (relative_error_N_FLT'_ex radix2 (3 - emax - prec) prec Hprec (fun x => negb (Z.even x)) (B2R a * B2R b)) as (e & n & He & Hn & _ & E).
  assert (HE : Rabs (rnd (B2R a * B2R b) - (B2R a * B2R b)) <= ur * Rabs (B2R a * B2R b) + tiny / 2).
  { rewrite E. replace (B2R a * B2R b * (1 + e) + n - B2R a * B2R b) with (e * (B2R a * B2R b) + n) by ring.
    eapply Rle_trans; [apply Rabs_triang|]. apply Rplus_le_compat; [|unfold tiny; lra].
    rewrite Rabs_mult. apply Rmult_le_compat_r; [apply Rabs_pos|now apply eps_le]. }
  pose proof (Bmult_correct prec emax Hprec Hmax mode_NE a b) as C.
  change (round radix2 (SpecFloat.fexp prec emax) (round_mode mode_NE) (B2R a * B2R b)) with (rnd (B2R a * B2R b)) in C.
  rewrite Rlt_bool_true in C.
  - destruct C as (C1 & C2 & _). rewrite C1, C2, Fa, Fb. auto.
  - replace (rnd (B2R a * B2R b)) with ((rnd (B2R a * B2R b) - B2R a * B2R b) + B2R a * B2R b) by ring.
    eapply Rle_lt_trans; [apply Rabs_triang|]. unfold huge in HM. lra.
Qed.
Lemma ffma_err (a b c : float) : finite a -> finite b -> finite c -> (1 + ur) * Rabs (B2R a * B2R b + B2R c) + tiny / 2 < huge ->
  finite (Bfma mode_NE a b c) /\
  Rabs (B2R (Bfma mode_NE a b c) - (B2R a * B2R b + B2R c)) <= ur * Rabs (B2R a * B2R b + B2R c) + tiny / 2.
Proof.
  intros Fa Fb Fc HM. unfold finite in *. pose proof (Bfma_correct prec emax Hprec Hmax mode_NE a b c Fa Fb Fc) as C. cbv zeta in C.
  set (x := B2R a * B2R b + B2R c) in *.
  destruct (relative_error_N_FLT'_ex radix2 (3 - emax - prec) prec Hprec (fun x => negb (Z.even x)) x) as (e & n & He & Hn & _ & E).
  assert (HE : Rabs (rnd x - x) <= ur * Rabs x + tiny / 2).
  { rewrite E. replace (x * (1 + e) + n - x) with (e * x + n) by ring.
    eapply Rle_trans; [apply Rabs_triang|]. apply Rplus_le_compat; [|unfold tiny; lra].
    rewrite Rabs_mult. apply Rmult_le_compat_r; [apply Rabs_pos|now apply eps_le]. }
  change (round radix2 (SpecFloat.fexp prec emax) (round_mode mode_NE) x) with (rnd x) in C.
  rewrite Rlt_bool_true in C.
  - destruct C as (C1 & C2 & _). rewrite C1. auto.
  - replace (rnd x) with ((rnd x - x) + x) by ring.
    eapply Rle_lt_trans; [apply Rabs_triang|]. unfold huge in HM. lra.
Qed.
End Ieee.
