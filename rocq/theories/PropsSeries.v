(** C80: filters connected in series, in parallel, and undone. *)
From Coq Require Import Reals Lra.
From Verif Require Import Base BaseFacts IntervalModel KernelModel KernelProofs ConvModel ConvProofs PropsConv Complex
  FftModel FftProofs OlaModel OlaProofs FirModel FirProofs PropsOla IirModel IirProofs PropsIir.
From Coq Require Import ZifyBool ZifyNat.
Ltac Zify.zify_post_hook ::= Z.div_mod_to_equations.
Open Scope Z_scope.

(** ** Specification.  A system is a numerator and a denominator, coefficients of ascending powers;
    [poly_mul] (PropsIir) multiplies coefficient lists, [combine_signals] is a x + b y. *)
Section Spec.
Context {K : CField}.
(** the transfer functions multiplied *)
Definition in_series (s t : tf K) : tf K :=
  mkTf (poly_mul (numerator s) (numerator t)) (poly_mul (denominator s) (denominator t)).
(** two coefficient lists added, aligned at their highest coefficients: the realizations let the highest
    coefficient of the numerator meet the newest sample (C73), whatever the degrees *)
Definition add_aligned (a b : list K) : list K :=
  let n := Z.max (lenZ a) (lenZ b) in
  tab n (fun k => radd (at0 a (k - (n - lenZ a))) (at0 b (k - (n - lenZ b)))).
(** the transfer functions added, over the common denominator *)
Definition in_parallel (s t : tf K) : tf K :=
  mkTf (add_aligned (poly_mul (numerator s) (denominator t)) (poly_mul (numerator t) (denominator s)))
       (poly_mul (denominator s) (denominator t)).
(** the reciprocal of the transfer function *)
Definition inverse (s : tf K) : tf K := mkTf (denominator s) (numerator s).
(** filtering [x] from rest, by direct form I of any sufficient order, succeeds with output [y] *)
Definition filters_to (s : tf K) (x y : list K) : Prop :=
  forall ord, order_suffices s ord -> exists st, Filter_df1 s x (df1_new ord) = Ok (y, st).
(** a FIR filter as a system: the taps reversed over 1 *)
Definition fir_system (taps : list K) : tf K := mkTf (rev taps) [r1].
(** streaming the blocks through the FIR filter from rest gives, joined, [y] *)
Definition streams_to W1 W2 vec junk (taps : list K) (blocks : list (list K)) (y : list K) : Prop :=
  exists outs st, run_blocks (fun b s => FilterConvStateNew W1 W2 vec junk b taps s) blocks (repeat r0 (Z.to_nat (lenZ taps - 1))) = Ok (outs, st) /\ concat outs = y.
End Spec.

Section Facts.
Context {K : CField}.
Add Ring Kr : (rth K).
Add Field Kf : (fth K).
Lemma filters_obeys (s : tf K) x y : proper_system s -> difference_equation (numerator s) (denominator s) x y -> filters_to s x y.
Proof.
  intros P O ord Ho. destruct (C20_direct_form_I_obeys_difference_equation K s ord x P Ho) as ([y' st] & E & O'). cbn [fst] in O'.
  exists st. rewrite E. do 2 f_equal. now apply (C20_difference_equation_has_one_solution K s x).
Qed.
Lemma obeys_exists (s : tf K) x : proper_system s -> tf_order s < 2 ^ 64 - 1 -> exists y, difference_equation (numerator s) (denominator s) x y.
Proof.
  intros P B. assert (O : order_suffices s (tf_order s)).
  { split; [|lia]. unfold tf_order, poly_order in *. pose proof (lenZ_nonneg (numerator s)). pose proof (lenZ_nonneg (denominator s)).
    destruct P as [P _]. destruct (lenZ (numerator s) =? 0), (lenZ (denominator s) =? 0) eqn:E; lia. }
  destruct (C20_direct_form_I_obeys_difference_equation K s _ x P O) as ([y st] & E & O'). now exists y.
Qed.
Lemma mul_neq0 (a b : K) : a <> r0 -> b <> r0 -> rmul a b <> r0.
Proof.
  intros Ha Hb E. apply Hb. transitivity (rmul (finv a) (rmul a b)); [field; exact Ha|]. rewrite E. ring.
Qed.
Lemma top_convl (a b : list K) : 0 < lenZ a -> 0 < lenZ b ->
  at0 (convl a b) (lenZ (convl a b) - 1) = rmul (at0 a (lenZ a - 1)) (at0 b (lenZ b - 1)).
Proof.
  intros Ha Hb. rewrite lenZ_convl by assumption. unfold convl. replace ((lenZ a =? 0) || (lenZ b =? 0)) with false by lia.
  rewrite at0_tab by lia. unfold conv. rewrite (sumZ_single 0 (lenZ a) (lenZ a - 1)) by
   (try lia; intros i Hi Hn; rewrite (at0_out b) by lia; ring). f_equal. f_equal. lia.
Qed.
Lemma leads_convl (a b : list K) : leads a -> leads b -> leads (convl a b).
Proof.
  intros [A1 A2] [B1 B2]. split; [rewrite lenZ_convl; lia|]. rewrite top_convl by assumption. now apply mul_neq0.
Qed.
Lemma proper_series (s t : tf K) : proper_system s -> proper_system t -> 
  leads (poly_mul (denominator s) (denominator t)).
Proof. intros P Q. rewrite poly_mul_convl by (apply P || apply Q). apply leads_convl; assumption. Qed.
Lemma series_obeys (s t : tf K) x y z : proper_system s -> proper_system t -> numerator s <> [] -> numerator t <> [] ->
  difference_equation (numerator s) (denominator s) x y -> difference_equation (numerator t) (denominator t) y z ->
  difference_equation (numerator (in_series s t)) (denominator (in_series s t)) x z.
Proof.
  intros [P1 _] [Q1 _] N1 N2 [L1 H1] [L2 H2]. cbn [in_series numerator denominator].
  assert (0 < lenZ (numerator s)) by (destruct (numerator s); [congruence|rewrite lenZ_cons; pose proof (lenZ_nonneg l); lia]).
  assert (0 < lenZ (numerator t)) by (destruct (numerator t); [congruence|rewrite lenZ_cons; pose proof (lenZ_nonneg l); lia]).
  rewrite !poly_mul_convl by assumption. split; [lia|].
  apply (deq_chain _ _ _ _ x y z); try assumption; [lia|]. intros n Hn. apply H2. lia.
Qed.
Lemma at0_aligned (a b : list K) k : at0 (add_aligned a b) (lenZ (add_aligned a b) - 1 - k) = radd (at0 a (lenZ a - 1 - k)) (at0 b (lenZ b - 1 - k)).
Proof.
  unfold add_aligned. cbv zeta. rewrite lenZ_tab. pose proof (lenZ_nonneg a). pose proof (lenZ_nonneg b).
  set (n := Z.max (lenZ a) (lenZ b)). rewrite (Z.max_r 0 n) by lia. rewrite at0_tab_gen.
  replace (n - 1 - k - (n - lenZ a)) with (lenZ a - 1 - k) by lia. replace (n - 1 - k - (n - lenZ b)) with (lenZ b - 1 - k) by lia.
  destruct ((0 <=? n - 1 - k) && (n - 1 - k <? n)) eqn:E; [reflexivity|].
  destruct (Z_lt_ge_dec k 0); rewrite !at0_out by lia; ring.
Qed.
Lemma lin_wide (c : list K) f n m : lenZ c <= m -> lin c f n = sumZ 0 m (fun k => rmul (at0 c (lenZ c - 1 - k)) (f (n - k))).
Proof.
  intros H. unfold lin. pose proof (lenZ_nonneg c). rewrite (sumZ_split 0 (lenZ c) m) by lia.
  rewrite (sumZ_zero (lenZ c) m); [ring|]. intros i Hi. rewrite at0_out by lia. ring.
Qed.
Lemma lin_aligned (a b : list K) f n : lin (add_aligned a b) f n = radd (lin a f n) (lin b f n).
Proof.
  pose proof (lenZ_nonneg a). pose proof (lenZ_nonneg b).
  assert (L : lenZ (add_aligned a b) = Z.max (lenZ a) (lenZ b)) by (unfold add_aligned; cbv zeta; rewrite lenZ_tab; lia).
  rewrite (lin_wide a f n (Z.max (lenZ a) (lenZ b))), (lin_wide b f n (Z.max (lenZ a) (lenZ b))) by lia.
  unfold lin. rewrite L at 1. rewrite <- sumZ_add. apply sumZ_ext. intros k Hk. rewrite at0_aligned. ring.
Qed.
Lemma lin_one f n : lin [r1 : K] f n = f n.
Proof. unfold lin. change (lenZ [r1 : K]) with 1. rewrite (sumZ_one 0). change (at0 [r1 : K] (1 - 1 - 0)) with (r1 : K). rewrite Z.sub_0_r. ring. Qed.
(** a FIR stream obeys the difference equation of [fir_system] *)
Lemma rev_pos (l : list K) k : 0 <= k < lenZ l -> at0 (rev l) (lenZ l - 1 - k) = at0 l k.
Proof.
  intros H. unfold lenZ in H. unfold at0, nthZ. replace (lenZ l - 1 - k <? 0) with false by (unfold lenZ; lia). replace (k <? 0) with false by lia.
  destruct (nth_error l (Z.to_nat k)) eqn:E.
  - rewrite (nth_error_nth' _ c) by (rewrite rev_length; unfold lenZ; lia).
    rewrite rev_nth by (unfold lenZ; lia). 
    replace (length l - S (Z.to_nat (lenZ l - 1 - k)))%nat with (Z.to_nat k) by (unfold lenZ; lia). now apply nth_error_nth.
  - apply nth_error_None in E. lia.
Qed.
Lemma lenZ_rev' (l : list K) : lenZ (rev l) = lenZ l.
Proof. unfold lenZ. now rewrite rev_length. Qed.
Lemma lin_rev (taps : list K) x n : 0 <= n < lenZ x -> lin (rev taps) (at0 x) n = conv_at x taps n.
Proof.
  intros Hn. unfold lin. rewrite lenZ_rev', conv_at_conv, conv_comm. unfold conv. apply sumZ_ext. intros k Hk. now rewrite rev_pos.
Qed.
Lemma fir_obeys (taps x y : list K) : y = tab (lenZ x) (conv_at x taps) <-> difference_equation (rev taps) [r1] x y.
Proof.
  rewrite de_obeys. unfold obeys, deq. pose proof (lenZ_nonneg x). split.
  - intros ->. split; [rewrite lenZ_tab; lia|]. intros n Hn. rewrite lin_one, lin_rev, at0_tab by lia. reflexivity.
  - intros [L H']. apply at0_ext; [rewrite lenZ_tab; lia|]. intros i Hi. specialize (H' i ltac:(lia)).
    rewrite lin_one, lin_rev in H' by lia. now rewrite at0_tab by lia.
Qed.
Lemma proper_fir (taps : list K) : proper_system (fir_system taps).
Proof. split; [reflexivity|]. cbn. exact (F_1_neq_0 (fth K)). Qed.
Lemma convl_rev (a b : list K) : 0 < lenZ a -> 0 < lenZ b -> rev (convl a b) = convl (rev a) (rev b).
Proof.
  intros Ha Hb. apply at0_ext; [rewrite lenZ_rev', !lenZ_convl; rewrite ?lenZ_rev'; lia|].
  intros i Hi. rewrite lenZ_rev', lenZ_convl in Hi by assumption.
  replace i with (lenZ (convl a b) - 1 - (lenZ (convl a b) - 1 - i)) at 1 by lia. rewrite rev_pos by (rewrite lenZ_convl; lia).
  rewrite lenZ_convl by assumption. unfold convl. rewrite !lenZ_rev'. replace ((lenZ a =? 0) || (lenZ b =? 0)) with false by lia.
  rewrite !at0_tab by lia. unfold conv. rewrite lenZ_rev'.
  rewrite (sumZ_reflect 0 (lenZ a) (lenZ a - 1)). replace (lenZ a - 1 - lenZ a + 1) with 0 by lia. replace (lenZ a - 1 - 0 + 1) with (lenZ a) by lia.
  apply sumZ_ext. intros k Hk. replace (at0 (rev a) k) with (at0 a (lenZ a - 1 - k)).
  2:{ rewrite <- (rev_pos a (lenZ a - 1 - k)) by lia. f_equal. lia. }
  f_equal. replace (lenZ a + lenZ b - 1 - 1 - i - (lenZ a - 1 - k)) with (lenZ b - 1 - (i - k)) by lia.
  destruct (Z_lt_ge_dec (i - k) 0); [rewrite !at0_out by (rewrite ?lenZ_rev'; lia); reflexivity|].
  destruct (Z_lt_ge_dec (i - k) (lenZ b)); [|rewrite !at0_out by (rewrite ?lenZ_rev'; lia); reflexivity].
  rewrite <- (rev_pos b (lenZ b - 1 - (i - k))) by lia. f_equal. lia.
Qed.
End Facts.

(** ** C80 *)
(** two filters in turn are the filter of the product *)
Theorem C80_series : forall (K : CField) (s t : tf K) (x y z : list K),
  proper_system s -> proper_system t -> numerator s <> [] -> numerator t <> [] -> tf_order s < 2 ^ 64 - 1 -> tf_order t < 2 ^ 64 - 1 ->
  filters_to s x y -> filters_to t y z ->
  proper_system (in_series s t) /\ filters_to (in_series s t) x z.
Proof.
  intros K s t x y z P Q N1 N2 B1 B2 Hy Hz.
  destruct (obeys_exists s x P B1) as (y' & Oy). destruct (obeys_exists t y Q B2) as (z' & Oz).
  assert (Unique : forall s (x y y' : list K), proper_system s -> tf_order s < 2 ^ 64 - 1 -> filters_to s x y -> difference_equation (numerator s) (denominator s) x y' -> y = y').
  { clear. intros s x y y' P B H O. apply (filters_obeys s x y' P) in O.
    assert (Or : order_suffices s (tf_order s)).
    { split; [|lia]. split; [|lia]. unfold tf_order, poly_order. pose proof (lenZ_nonneg (numerator s)). destruct P as [P _].
      destruct (lenZ (numerator s) =? 0), (lenZ (denominator s) =? 0) eqn:E; lia. }
    destruct (H _ Or) as [st1 E1]. destruct (O _ Or) as [st2 E2]. congruence. }
  pose proof (Unique _ _ _ _ P B1 Hy Oy). pose proof (Unique _ _ _ _ Q B2 Hz Oz). subst y' z'.
  assert (P' : proper_system (in_series s t)) by exact (proper_series s t P Q).
  split; [exact P'|]. apply filters_obeys; [exact P'|]. now apply (series_obeys s t x y z).
Qed.
(** every proper system of representable order filters every signal to exactly one output *)
Theorem C80_filters_to_one : forall (K : CField) (s : tf K) (x : list K), proper_system s -> tf_order s < 2 ^ 64 - 1 ->
  exists y, filters_to s x y /\ lenZ y = lenZ x /\ forall y', filters_to s x y' -> y' = y.
Proof.
  intros K s x P B. destruct (obeys_exists s x P B) as (y & O). exists y. pose proof (filters_obeys s x y P O) as F.
  split; [exact F|]. split; [apply O|]. intros y' F'.
  assert (Or : order_suffices s (tf_order s)).
  { split; [|lia]. split; [|lia]. unfold tf_order, poly_order. pose proof (lenZ_nonneg (numerator s)). destruct P as [P _].
    destruct (lenZ (numerator s) =? 0), (lenZ (denominator s) =? 0) eqn:E; lia. }
  destruct (F _ Or) as [st1 E1]. destruct (F' _ Or) as [st2 E2]. congruence.
Qed.
Section Facts2.
Context {K : CField}.
Add Ring Kr2 : (rth K).
Add Field Kf2 : (fth K).
Lemma filters_iff (s : tf K) x y : proper_system s -> tf_order s < 2 ^ 64 - 1 ->
  filters_to s x y <-> difference_equation (numerator s) (denominator s) x y.
Proof.
  intros P B. split; [|now apply filters_obeys]. intros F. destruct (obeys_exists s x P B) as (y' & O).
  destruct (C80_filters_to_one K s x P B) as (y0 & _ & _ & U). rewrite (U y F). rewrite <- (U y'); [exact O|now apply filters_obeys].
Qed.
Lemma nonempty_pos (l : list K) : l <> [] -> 0 < lenZ l.
Proof. destruct l; [congruence|]. intros _. rewrite lenZ_cons. pose proof (lenZ_nonneg l). lia. Qed.
Lemma order_aligned_poly (s t : tf K) : proper_system s -> proper_system t -> numerator s <> [] -> numerator t <> [] ->
  tf_order (in_parallel s t) <= tf_order s + tf_order t.
Proof.
  intros [P _] [Q _] N1 N2. apply nonempty_pos in N1, N2. unfold tf_order, poly_order, in_parallel. cbn [numerator denominator].
  unfold add_aligned. cbv zeta. rewrite !poly_mul_convl by assumption. rewrite !lenZ_tab, !lenZ_convl by assumption.
  repeat match goal with |- context [?a =? 0] => replace (a =? 0) with false by lia end. lia.
Qed.
End Facts2.

(** the order of the two filters is immaterial *)
Theorem C80_order_of_filters_is_immaterial : forall (K : CField) (s t : tf K) (x y z y' : list K),
  proper_system s -> proper_system t -> numerator s <> [] -> numerator t <> [] -> tf_order s + tf_order t < 2 ^ 64 - 1 ->
  filters_to s x y -> filters_to t y z -> filters_to t x y' -> filters_to s y' z.
Proof.
  intros K s t x y z y' P Q N1 N2 B F1 F2 F3.
  assert (N : forall s : tf K, proper_system s -> 0 <= tf_order s).
  { clear. intros s [P _]. unfold tf_order, poly_order. destruct (lenZ (denominator s) =? 0) eqn:E; lia. }
  pose proof (N s P). pose proof (N t Q). apply nonempty_pos in N1 as N1', N2 as N2'.
  apply filters_iff in F1, F2, F3; try assumption; try lia.
  destruct (obeys_exists s y' P ltac:(lia)) as (z' & O). apply filters_iff; [assumption|lia|].
  pose proof (series_obeys s t x y z P Q N1 N2 F1 F2) as S1. pose proof (series_obeys t s x y' z' Q P N2 N1 F3 O) as S2.
  assert (z' = z); [|now subst].
  cbn [in_series numerator denominator] in S1, S2. rewrite !poly_mul_convl in S1, S2 by (assumption || apply P || apply Q).
  apply (obeys_unique (convl (numerator s) (numerator t)) (convl (denominator s) (denominator t)) x); [now apply leads_convl| |exact S1].
  destruct P as [P _], Q as [Q _].
  destruct S2 as [L S2]. split; [exact L|]. intros n Hn. specialize (S2 n Hn). unfold deq in *. rewrite !lin_convl in * by assumption.
  change (lin (convl (denominator t) (denominator s)) (at0 z') n = lin (convl (numerator t) (numerator s)) (at0 x) n) in S2.
  rewrite !lin_convl in S2 by assumption. rewrite (lin_lin_swap (denominator s)), (lin_lin_swap (numerator s)). exact S2.
Qed.
(** the outputs of two filters fed the same signal, added, are the output of the sum *)
Theorem C80_parallel : forall (K : CField) (s t : tf K) (x y z : list K),
  proper_system s -> proper_system t -> numerator s <> [] -> numerator t <> [] -> tf_order s + tf_order t < 2 ^ 64 - 1 ->
  filters_to s x y -> filters_to t x z ->
  proper_system (in_parallel s t) /\ filters_to (in_parallel s t) x (combine_signals r1 r1 y z).
Proof.
  intros K s t x y z P Q N1 N2 B F1 F2.
  assert (N : forall s : tf K, proper_system s -> 0 <= tf_order s).
  { clear. intros s [P _]. unfold tf_order, poly_order. destruct (lenZ (denominator s) =? 0) eqn:E; lia. }
  pose proof (N s P). pose proof (N t Q). apply nonempty_pos in N1 as N1', N2 as N2'.
  apply filters_iff in F1, F2; try assumption; try lia.
  assert (P' : proper_system (in_parallel s t)) by exact (proper_series s t P Q).
  split; [exact P'|]. apply filters_obeys; [exact P'|]. cbn [in_parallel numerator denominator].
  destruct P as [P _], Q as [Q _]. rewrite !poly_mul_convl by assumption.
  destruct F1 as [L1 D1], F2 as [L2 D2].
  split; [unfold combine_signals; rewrite lenZ_map2; lia|]. intros n Hn.
  change (lin (convl (denominator s) (denominator t)) (at0 (comb r1 r1 y z)) n =
          lin (add_aligned (convl (numerator s) (denominator t)) (convl (numerator t) (denominator s))) (at0 x) n).
  rewrite (lin_ext _ _ (fun m => radd (rmul r1 (at0 y m)) (rmul r1 (at0 z m)))) by (intros; apply at0_comb; lia).
  rewrite lin_comb, lin_aligned, !lin_convl by assumption.
  assert (G : forall (num den w : list K), lenZ w = lenZ x -> (forall n, 0 <= n < lenZ x -> deq num den x w n) -> forall c, lin c (lin den (at0 w)) n = lin c (lin num (at0 x)) n).
  { intros num den w Lw H1 c. apply lin_ext. intros m Hm. destruct (Z_lt_ge_dec m 0); [now apply deq_neg|]. apply H1. lia. }
  rewrite (lin_lin_swap (denominator s)). rewrite (G _ _ _ L1 D1), (G _ _ _ L2 D2).
  rewrite (lin_lin_swap (numerator s)), (lin_lin_swap (numerator t)).
  pose proof (rth K) as RK. rewrite !(Rmul_1_l RK). reflexivity.
Qed.
(** swapping numerator and denominator undoes the filter *)
Theorem C80_inverse_undoes : forall (K : CField) (s : tf K) (x y : list K),
  proper_system s -> proper_system (inverse s) -> tf_order s < 2 ^ 64 - 1 ->
  filters_to s x y -> filters_to (inverse s) y x.
Proof.
  intros K s x y P Q B F. apply filters_iff in F; [|assumption|lia]. destruct F as [L H].
  apply filters_obeys; [exact Q|]. split; [now symmetry|]. intros n Hn. symmetry. apply H. lia.
Qed.
Print Assumptions C80_series.
Print Assumptions C80_filters_to_one.
Print Assumptions C80_order_of_filters_is_immaterial.
Print Assumptions C80_parallel.
Print Assumptions C80_inverse_undoes.

(** *** FIR filters *)
(** streaming through a FIR filter is filtering with its taps reversed over 1, whatever the blocks *)
Theorem C80_fir_is_a_system : forall (K : CField) W1 W2 vec (junk taps : list K) (blocks : list (list K)) (y : list K),
  1 <= W1 -> 1 <= W2 -> W2 <= lenZ junk -> 1 <= lenZ taps < 2 ^ 64 ->
  streams_to W1 W2 vec junk taps blocks y <-> filters_to (fir_system taps) (concat blocks) y.
Proof.
  intros K W1 W2 vec junk taps blocks y H1 H2 H3 H4.
  rewrite filters_iff; [|apply proper_fir|].
  2:{ unfold tf_order, poly_order, fir_system. cbn [numerator denominator]. rewrite lenZ_rev'. change (lenZ [r1 : K]) with 1.
      replace (lenZ taps =? 0) with false by lia. change (1 =? 0) with false. cbv iota. lia. }
  cbn [fir_system numerator denominator]. rewrite <- fir_obeys.
  destruct (C19_prefix_of_convolution K W1 W2 vec junk taps blocks H1 H2 H3 H4) as ([outs st] & E & E1 & _). cbn [fst] in E1.
  split.
  - intros (outs' & st' & E' & <-). rewrite E in E'. injection E' as <- <-. exact E1.
  - intros ->. now exists outs, st.
Qed.
(** two FIR filters in turn, the second fed the first's output in any blocks, are the FIR filter of the convolved taps, fed any blocks *)
Theorem C80_fir_series : forall (K : CField) W1 W2 vec (junk taps taps' both : list K) (blocks blocks' blocks'' : list (list K)) (y z : list K),
  1 <= W1 -> 1 <= W2 -> W2 <= lenZ junk -> 1 <= lenZ taps -> 1 <= lenZ taps' -> lenZ taps + lenZ taps' <= 2 ^ 64 ->
  Convolution W1 W2 vec junk taps taps' CONV_FULL = Ok both ->
  streams_to W1 W2 vec junk taps blocks y -> concat blocks' = y -> streams_to W1 W2 vec junk taps' blocks' z ->
  concat blocks'' = concat blocks -> streams_to W1 W2 vec junk both blocks'' z.
Proof.
  intros K W1 W2 vec junk taps taps' both blocks blocks' blocks'' y z H1 H2 H3 L1 L2 B EC F1 E1 F2 E2.
  assert (N1 : taps <> []) by (intros ->; cbn in L1; lia). assert (N2 : taps' <> []) by (intros ->; cbn in L2; lia).
  destruct (C13_full K W1 W2 vec junk taps taps' H1 H2 H3 N1 N2) as (b & EC' & LB & HB). rewrite EC in EC'. injection EC' as <-.
  assert (EB : both = convl taps taps').
  { apply at0_ext; [rewrite lenZ_convl; lia|]. intros i Hi. rewrite HB by lia. unfold convl.
    replace ((lenZ taps =? 0) || (lenZ taps' =? 0)) with false by lia. rewrite at0_tab by lia. apply conv_at_conv. }
  assert (OF : forall h : list K, 1 <= lenZ h < 2 ^ 64 -> tf_order (fir_system h) < 2 ^ 64 - 1).
  { intros h Hh. unfold tf_order, poly_order, fir_system. cbn [numerator denominator]. rewrite lenZ_rev'. change (lenZ [r1 : K]) with 1.
    replace (lenZ h =? 0) with false by lia. change (1 =? 0) with false. cbv iota. lia. }
  apply C80_fir_is_a_system in F1; try assumption; try lia. apply C80_fir_is_a_system in F2; try assumption; try lia.
  apply C80_fir_is_a_system; try assumption; try lia. rewrite E1 in F2. rewrite E2.
  apply filters_iff in F1; [|apply proper_fir|apply OF; lia]. apply filters_iff in F2; [|apply proper_fir|apply OF; lia].
  apply filters_obeys; [apply proper_fir|].
  assert (R : forall h : list K, h <> [] -> numerator (fir_system h) <> []).
  { intros h Hh E. cbn in E. apply (f_equal (@rev K)) in E. rewrite rev_involutive in E. now apply Hh. }
  pose proof (series_obeys (fir_system taps) (fir_system taps') _ y z (proper_fir _) (proper_fir _) (R _ N1) (R _ N2) F1 F2) as S.
  cbn [in_series fir_system numerator denominator] in S |- *. rewrite !poly_mul_convl in S by (rewrite ?lenZ_rev'; try reflexivity; lia).
  rewrite <- convl_rev, <- EB in S by lia.
  destruct S as [L S]. split; [exact L|]. intros n Hn. specialize (S n Hn).
  change (lin [r1] (at0 z) n = lin (rev both) (at0 (concat blocks)) n).
  change (lin (convl [r1] [r1]) (at0 z) n = lin (rev both) (at0 (concat blocks)) n) in S.
  rewrite lin_convl in S by reflexivity. rewrite !lin_one in *. exact S.
Qed.
Print Assumptions C80_fir_is_a_system.
Print Assumptions C80_fir_series.
(** *** cascades *)
(** filtering with one cascade, then another, is filtering with the sections of both *)
Theorem C80_cascades : forall (K : CField) (s t : list (biquad K)) (x : list K) ord1 ord2 ord,
  0 <= ord1 -> 0 <= ord2 -> 0 <= ord -> lenZ s + 1 <= 1 + (ord1 + 1) / 2 -> lenZ t + 1 <= 1 + (ord2 + 1) / 2 -> lenZ (s ++ t) + 1 <= 1 + (ord + 1) / 2 ->
  exists y z st1 st2 st,
    Filter_cf s x (cf_new ord1) = Ok (y, st1) /\ Filter_cf t y (cf_new ord2) = Ok (z, st2) /\ Filter_cf (s ++ t) x (cf_new ord) = Ok (z, st).
Proof.
  intros K s t x ord1 ord2 ord A1 A2 A3 B1 B2 B3.
  destruct (cf_fresh s ord1 x A1 B1) as ([y st1] & E1 & O1). destruct (cf_fresh t ord2 y A2 B2) as ([z st2] & E2 & O2).
  destruct (cf_fresh (s ++ t) ord x A3 B3) as ([z' st] & E3 & O3). cbn [fst] in *.
  exists y, z, st1, st2, st. split; [exact E1|]. split; [exact E2|]. rewrite E3. do 2 f_equal.
  assert (LB : forall b : biquad K, leads (bq_den b)).
  { clear. intros b. unfold bq_den. destruct (bden b) as [a0 a1]. split; [reflexivity|]. cbn. exact (F_1_neq_0 (fth K)). }
  assert (U : forall (t : list (biquad K)) y z z', chain t y z -> chain t y z' -> z' = z).
  { clear - LB. induction t as [|b t IH]; cbn [chain]; intros y z z'; [congruence|]. intros (m & H1 & H2) (m' & H3 & H4).
    rewrite (obeys_unique _ _ _ _ _ (LB b) H3 H1) in H4. now apply (IH m). }
  assert (G : forall s x y, chain s x y -> chain (s ++ t) x z' -> chain t y z').
  { clear - LB. induction s as [|b s IH]; cbn [app chain]; intros x y; [now intros ->|]. intros (m & H1 & H2) (m' & H3 & H4).
    rewrite (obeys_unique _ _ _ _ _ (LB b) H3 H1) in H4. now apply (IH m y). }
  apply (U t y z z'); [apply O2|]. apply (G s x y); [apply O1|apply O3].
Qed.
Print Assumptions C80_cascades.

(** two first-order systems over the reals, and two pairs of taps *)
Example C80_nontrivial :
  (let s := mkTf (K := Rfield) [2%R; 1%R] [3%R; 1%R] in let t := mkTf (K := Rfield) [1%R; 1%R] [5%R; 1%R] in
   proper_system s /\ proper_system t /\ numerator s <> [] /\ numerator t <> [] /\ tf_order s + tf_order t < 2 ^ 64 - 1 /\
   proper_system (inverse s) /\ order_suffices s 1 /\ order_suffices (in_series s t) 2) /\
  exists both, Convolution (K := Rring) 4 4 true [0;0;0;0]%R [1;2]%R [3;4;5]%R CONV_FULL = Ok both /\ lenZ both = 4.
Proof.
  split.
  - cbn zeta. unfold proper_system, order_suffices, tf_order, poly_order, inverse. cbn [numerator denominator].
    repeat match goal with |- _ /\ _ => split | |- context [lenZ ?l] => let n := eval vm_compute in (length l) in change (lenZ l) with (Z.of_nat n) end;
    try (cbn; lia); try (cbn; congruence); try (cbn; lra).
    all: cbn; try lia. all: match goal with |- ?a <> _ => change ((1 : R) <> 0)%R end; lra.
  - destruct (C13_full Rring 4 4 true [0;0;0;0]%R [1;2]%R [3;4;5]%R) as (b & E & L & _); try (cbn; lia); try discriminate.
    exists b. split; [exact E|]. rewrite L. reflexivity.
Qed.
