(** C69: evaluating a polynomial in floating-point arithmetic. *)
From Coq Require Import Reals Lra Lia List ZArith Arith Psatz.
From Verif Require Import Base BaseFacts Complex KernelModel PolyModel PolyProofs PropsPoly FloatSpec ReduceTree FloatSum FloatIeee PropsFloat ConvFloat PropsConvFloat.
From Flocq Require Import Core BinarySingleNaN.
Import ListNotations.
Local Open Scope R_scope.

(** [real_value cs x] (PropsPoly) is the sum of c_i x^i *)
Lemma value_cons c cs x : real_value (c :: cs) x = x * real_value cs x + c.
Proof. rewrite <- !C24_eval_real. rewrite (poly_eval_cons (K := Rring)). reflexivity. Qed.
Lemma value_nil x : real_value [] x = 0. Proof. reflexivity. Qed.
Lemma value_nonneg cs x : 0 <= x -> (forall c, In c cs -> 0 <= c) -> 0 <= real_value cs x.
Proof.
  intros Hx. induction cs as [|c cs IH]; intros Hc; [rewrite value_nil; lra|]. rewrite value_cons.
  pose proof (Hc c (or_introl eq_refl)). specialize (IH (fun d Hd => Hc d (or_intror Hd))). assert (0 <= x * real_value cs x) by (apply Rmult_le_pos; lra). lra.
Qed.
Lemma value_mono cs x y : 0 <= x <= y -> (forall c, In c cs -> 0 <= c) -> real_value cs x <= real_value cs y.
Proof.
  intros Hx. induction cs as [|c cs IH]; intros Hc; [rewrite !value_nil; lra|]. rewrite !value_cons.
  specialize (IH (fun d Hd => Hc d (or_intror Hd))). pose proof (value_nonneg cs x (proj1 Hx) (fun d Hd => Hc d (or_intror Hd))).
  assert (x * real_value cs x <= y * real_value cs y) by (apply Rmult_le_compat; lra). lra.
Qed.
Lemma value_abs cs x : Rabs (real_value cs x) <= real_value (map Rabs cs) (Rabs x).
Proof.
  induction cs as [|c cs IH]; [cbn; rewrite Rabs_R0; lra|]. cbn [map]. rewrite !value_cons. eapply Rle_trans; [apply Rabs_triang|].
  rewrite Rabs_mult. apply Rplus_le_compat_r. apply Rmult_le_compat_l; [apply Rabs_pos|exact IH].
Qed.

Section Ieee.
Variables prec emax : Z.
Context (Hprec : Prec_gt_0 prec) (Hmax : Prec_lt_emax prec emax).
Notation float := (binary_float prec emax).
Notation u := (bpow radix2 (- prec)).
Notation eta := (bpow radix2 (3 - emax - prec)).
Notation overflow := (bpow radix2 emax).
(** sum of |c_i| r^i, and 1 + r + ... + r^(n-1) *)
Definition abs_value (cs : list float) (r : R) : R := real_value (map (fun c => Rabs (B2R c)) cs) r.
Definition geometric (n : nat) (r : R) : R := real_value (repeat 1 n) r.

Lemma abs_value_nonneg cs r : 0 <= r -> 0 <= abs_value cs r.
Proof. intros H. apply value_nonneg; [exact H|]. intros c Hc. apply in_map_iff in Hc as (d & <- & _). apply Rabs_pos. Qed.
Lemma geometric_nonneg n r : 0 <= r -> 0 <= geometric n r.
Proof. intros H. apply value_nonneg; [exact H|]. intros c Hc. apply repeat_spec in Hc. lra. Qed.

Theorem C69_horner_error : forall mad (cs : list float) (x : float),
  (10 <= prec)%Z -> is_fma prec emax Hprec Hmax mad -> (forall c, In c cs -> is_finite c = true) -> is_finite x = true ->
  let n := length cs in let r := Rabs (B2R x) in
  (1 + u) ^ (2 * n) * (abs_value cs (Rmax 1 r) + eta * geometric n (Rmax 1 r)) < overflow ->
  let y := poly_eval_with (B754_zero false) mad (fun c => c) cs x in
  is_finite y = true /\
  Rabs (B2R y - real_value (map B2R cs) (B2R x)) <=
    ((1 + u) ^ (2 * n) - 1) * abs_value cs r + (1 + u) ^ (2 * n) * (eta / 2 * geometric n r).
Proof.
  intros mad cs x Hp Hm Hf Fx n r HM y.
  destruct (prec_u prec Hp) as [U0 U1]. assert (T0 : 0 < eta) by apply bpow_gt_0.
  pose proof (fma_good prec emax Hprec Hmax mad Hp Hm) as Good.
  set (X := Rmax 1 r) in *. assert (HX : 0 <= r <= X /\ 1 <= X) by (unfold X; split; [split; [apply Rabs_pos|apply Rmax_r]|apply Rmax_l]).
  assert (G : forall m, (m <= n)%nat -> 1 <= (1 + u) ^ (2 * m) <= (1 + u) ^ (2 * n)).
  { intros m H. split; [apply pow_R1_Rle; lra|apply Rle_pow; [lra|lia]]. }
  assert (Main : forall ds, (length ds <= n)%nat -> (forall c, In c ds -> is_finite c = true) -> abs_value ds X <= abs_value cs X -> geometric (length ds) X <= geometric n X ->
    let z := poly_eval_with (B754_zero false) mad (fun c => c) ds x in
    is_finite z = true /\
    Rabs (B2R z - real_value (map B2R ds) (B2R x)) <= ((1 + u) ^ (2 * length ds) - 1) * abs_value ds r + (1 + u) ^ (2 * length ds) * (eta / 2 * geometric (length ds) r)).
  { induction ds as [|c ds IH]; intros Hl Hfd HA HG z.
    - split; [reflexivity|]. unfold z. cbn. rewrite Rminus_0_r, Rabs_R0. unfold abs_value, geometric. cbn. lra.
    - cbn [length] in *.
      assert (EA : forall t, abs_value (c :: ds) t = t * abs_value ds t + Rabs (B2R c)) by (intros t; unfold abs_value; cbn [map]; apply value_cons).
      assert (EG : forall t, geometric (S (length ds)) t = t * geometric (length ds) t + 1) by (intros t; unfold geometric; cbn [repeat]; apply value_cons).
      pose proof (abs_value_nonneg ds r (proj1 (proj1 HX))) as PA. pose proof (geometric_nonneg (length ds) r (proj1 (proj1 HX))) as PG.
      pose proof (abs_value_nonneg ds X ltac:(lra)) as PAX. pose proof (geometric_nonneg (length ds) X ltac:(lra)) as PGX.
      pose proof (Rabs_pos (B2R c)) as PC.
      assert (MA : abs_value (c :: ds) r <= abs_value (c :: ds) X).
      { apply value_mono; [lra|]. intros d Hd. apply in_map_iff in Hd as (e & <- & _). apply Rabs_pos. }
      assert (MG : geometric (S (length ds)) r <= geometric (S (length ds)) X).
      { apply value_mono; [lra|]. intros d Hd. apply repeat_spec in Hd. lra. }
      destruct IH as [Fz Ez].
      + lia.
      + intros d Hd. apply Hfd. now right.
      + rewrite EA in HA. assert (abs_value ds X <= X * abs_value ds X) by nra. lra.
      + rewrite EG in HG. assert (geometric (length ds) X <= X * geometric (length ds) X) by nra. lra.
      + assert (Ev : z = mad x (poly_eval_with (B754_zero false) mad (fun c => c) ds x) c).
        { unfold z, poly_eval_with. cbn [rev]. now rewrite fold_left_app. }
        set (w := poly_eval_with (B754_zero false) mad (fun c => c) ds x) in *.
        cbn [map]. rewrite value_cons. set (V := real_value (map B2R ds) (B2R x)) in *.
        assert (HV : Rabs V <= abs_value ds r).
        { unfold V, abs_value, r. eapply Rle_trans; [apply value_abs|]. rewrite map_map. lra. }
        replace (2 * S (length ds))%nat with (2 + 2 * length ds)%nat by lia. rewrite pow_add.
        set (g := (1 + u) ^ (2 * length ds)) in *. assert (Hg : 1 <= g) by (unfold g; apply G; lia).
        assert (Gn : (1 + u) ^ 2 * g <= (1 + u) ^ (2 * n)) by (unfold g; rewrite <- pow_add; apply Rle_pow; [lra|lia]).
        set (A := abs_value ds r) in *. set (K := geometric (length ds) r) in *.
        rewrite EA in MA |- *. rewrite EG in MG |- *. fold A in MA |- *. fold K in MG |- *.
        set (h := eta / 2) in *. assert (Hh : 0 <= h <= eta) by (unfold h; lra).
        assert (Hw : Rabs (B2R w) <= g * A + g * (h * K)).
        { replace (B2R w) with ((B2R w - V) + V) by ring. eapply Rle_trans; [apply Rabs_triang|]. lra. }
        assert (Hxw : Rabs (B2R w * B2R x) <= r * (g * A + g * (h * K))).
        { rewrite Rabs_mult, Rmult_comm. apply Rmult_le_compat_l; [apply Rabs_pos|exact Hw]. }
        assert (B : (1 + u) ^ 2 * g * ((r * A + Rabs (B2R c)) + h * (r * K + 1)) < overflow).
        { eapply Rle_lt_trans; [|exact HM]. assert (0 <= r * A) by (apply Rmult_le_pos; lra). assert (0 <= r * K) by (apply Rmult_le_pos; lra).
          apply Rmult_le_compat; [apply Rmult_le_pos; [apply pow2_ge_0|lra]| |exact Gn|].
          - assert (0 <= h * (r * K + 1)) by (apply Rmult_le_pos; lra). lra.
          - apply Rplus_le_compat; [lra|]. apply Rmult_le_compat; lra. }
        set (q := Rabs (B2R w * B2R x)) in *. assert (Q0 : 0 <= q) by apply Rabs_pos.
        assert (B2 : (1 + u) * (Rabs (B2R c) + (1 + u) * q + h) <= (1 + u) ^ 2 * g * ((r * A + Rabs (B2R c)) + h * (r * K + 1))).
        { assert (S1 : (1 + u) * ((1 + u) * q) <= (1 + u) ^ 2 * (r * (g * A + g * (h * K)))).
          { replace ((1 + u) * ((1 + u) * q)) with ((1 + u) ^ 2 * q) by ring. apply Rmult_le_compat_l; [apply pow2_ge_0|exact Hxw]. }
          assert (S2 : (1 + u) * (Rabs (B2R c) + h) <= (1 + u) ^ 2 * g * (Rabs (B2R c) + h)).
          { apply Rmult_le_compat_r; [lra|]. assert (1 <= (1 + u) * g) by (clear - Hg U0; nra). clear - H U0. nra. }
          lra. }
        destruct (Good c w x z) as [F E].
        * exact Ev.
        * apply Hfd. now left.
        * exact Fz.
        * exact Fx.
        * change (ur prec) with u. change (huge emax) with overflow. change (tiny prec emax / 2) with h. fold q. lra.
        * split; [exact F|]. change (ur prec) with u in E. change (tiny prec emax / 2) with h in E. fold q in E.
          replace (B2R z - (B2R x * V + B2R c)) with ((B2R z - (B2R c + B2R w * B2R x)) + (B2R w - V) * B2R x) by ring.
          eapply Rle_trans; [apply Rabs_triang|]. rewrite (Rabs_mult (B2R w - V)). fold r.
          assert (S1 : Rabs (B2R w - V) * r <= ((g - 1) * A + g * (h * K)) * r) by (apply Rmult_le_compat_r; [apply HX|exact Ez]).
          assert (S2 : (2 * u + u * u) * q <= (2 * u + u * u) * (r * (g * A + g * (h * K)))) by (apply Rmult_le_compat_l; [clear - U0; nra|exact Hxw]).
          assert (S3 : u * Rabs (B2R c) <= ((1 + u) ^ 2 * g - 1) * Rabs (B2R c)).
          { apply Rmult_le_compat_r; [exact PC|]. clear - Hg U0. nra. }
          assert (S4 : (1 + u) * h <= (1 + u) ^ 2 * g * h).
          { apply Rmult_le_compat_r; [lra|]. clear - Hg U0. nra. }
          clear - E S1 S2 S3 S4. lra. }
  apply (Main cs).
  - unfold n. lia.
  - exact Hf.
  - lra.
  - unfold n. lra.
Qed.
End Ieee.
Print Assumptions C69_horner_error.

(** ** 1 + 2 x + 3 x^2 at x = 2^13 + 1 in single precision: rounding happens, and the hypotheses hold *)
#[local] Existing Instance p24.
#[local] Existing Instance e128.
Definition ex_poly : list (binary_float 24 128) := [b32 1 0; b32 2 0; b32 3 0].
Lemma ex_poly_values : map (fun c => Rabs (B2R c)) ex_poly = [1; 2; 3] /\ B2R (b32 8193 0) = 8193.
Proof.
  unfold ex_poly. cbn [map]. rewrite <- !SF2R_B2SF.
  replace (B2SF (b32 1 0)) with (SpecFloat.S754_finite false 8388608 (-23)) by (vm_compute; reflexivity).
  replace (B2SF (b32 2 0)) with (SpecFloat.S754_finite false 8388608 (-22)) by (vm_compute; reflexivity).
  replace (B2SF (b32 3 0)) with (SpecFloat.S754_finite false 12582912 (-22)) by (vm_compute; reflexivity).
  replace (B2SF (b32 8193 0)) with (SpecFloat.S754_finite false 8389632 (-10)) by (vm_compute; reflexivity).
  unfold SF2R, F2R. cbn. split; [|lra]. rewrite !Rabs_pos_eq by lra. repeat f_equal; lra.
Qed.
Example C69_nontrivial :
  B2SF (poly_eval_with (B754_zero false) (Bfma mode_NE) (fun c => c) ex_poly (b32 8193 0)) = B2SF (b32 201392136 0) /\
  real_value [1; 2; 3] 8193 = 201392134 /\
  is_fma 24 128 p24 e128 (Bfma mode_NE) /\ (forall c, In c ex_poly -> is_finite c = true) /\
  (1 + bpow radix2 (- (24))) ^ (2 * length ex_poly) *
    (abs_value 24 128 ex_poly (Rmax 1 (Rabs (B2R (b32 8193 0)))) + bpow radix2 (3 - 128 - 24) * geometric (length ex_poly) (Rmax 1 (Rabs (B2R (b32 8193 0))))) < bpow radix2 128.
Proof.
  split; [vm_compute; reflexivity|]. split; [unfold real_value; cbn; lra|]. split; [now left|].
  split; [intros c Hc; cbn [In ex_poly] in Hc; repeat (destruct Hc as [<-|Hc]; [vm_compute; reflexivity|]); contradiction|].
  destruct ex_poly_values as [E1 E2]. unfold abs_value. rewrite E1, E2. rewrite (Rabs_pos_eq 8193) by lra. rewrite Rmax_right by lra.
  unfold geometric. cbn [length ex_poly repeat]. rewrite !value_cons, !value_nil.
  change (bpow radix2 (- (24))) with (/ 16777216). change (bpow radix2 128) with 340282366920938463463374607431768211456.
  assert (T : 0 < bpow radix2 (3 - 128 - 24) <= 1).
  { split; [apply bpow_gt_0|]. apply (bpow_le radix2 _ 0). lia. }
  set (eta := bpow radix2 (3 - 128 - 24)) in *. clearbody eta. cbn [Nat.mul Nat.add].
  assert (P : 1 <= (1 + / 16777216) ^ 6 <= 2) by (split; lra). set (p := (1 + / 16777216) ^ 6) in *. clearbody p. nra.
Qed.
