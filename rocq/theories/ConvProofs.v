(** Proofs about the convolution kernels. *)
From Verif Require Import Base BaseFacts IntervalModel KernelModel KernelProofs ConvModel.
From Coq Require Import ZifyBool ZifyNat.
Ltac Zify.zify_post_hook ::= Z.div_mod_to_equations.

Section ConvP.
Context {K : CRing}.
Add Ring Kring : (rth K).
Local Open Scope ring_scope'.
Local Open Scope Z_scope.
Implicit Types (u v out : list K) (n j : Z).
Local Notation rl_term := (grl_term rmul).
Local Notation rv_padding := (grv_padding r0).
Local Notation load_partial_front := gload_partial_front.
Local Notation store_partial_front := gstore_partial_front.

(** ** Specification: sample [j] of the convolution of [u] and [v], both extended by zeros *)
Definition conv u v (j : Z) : K := sumZ 0 (lenZ u) (fun i => rmul (at0 u i) (at0 v (j - i))).

Lemma conv_range u v j lo hi :
  lo <= Z.max 0 (j - lenZ v + 1) -> Z.min (lenZ u) (j + 1) <= hi ->
  conv u v j = sumZ lo hi (fun i => rmul (at0 u i) (at0 v (j - i))).
Proof.
  intros H1 H2. unfold conv. apply sumZ_restrict.
  - intros i Hi Hn. rewrite (at0_out v) by lia. ring.
  - intros i Hi Hn. rewrite (at0_out u) by lia. ring.
Qed.
Lemma conv_comm u v j : conv u v j = conv v u j.
Proof.
  rewrite (conv_range v u j (j - lenZ u + 1) (j + 1)) by lia.
  unfold conv. rewrite (sumZ_reflect 0 (lenZ u) j).
  replace (j - 0 + 1) with (j + 1) by lia. apply sumZ_ext. intros i Hi.
  replace (j - (j - i)) with i by lia. ring.
Qed.
Lemma conv_outside u v j : j < 0 \/ lenZ u + lenZ v - 1 <= j -> conv u v j = r0.
Proof.
  intros H. unfold conv. apply sumZ_zero. intros i Hi. rewrite (at0_out v) by lia. ring.
Qed.

(** the result of a kernel *)
Definition conv_result u v out n (accumulate : bool) out' : Prop :=
  lenZ out' = lenZ out /\
  forall k, 0 <= k < lenZ out ->
    at0 out' k = radd (if accumulate then at0 out k else r0) (conv u v (n + k)).

Lemma conv_result_swap u v out n acc out' :
  conv_result v u out n acc out' -> conv_result u v out n acc out'.
Proof. intros [L H]. split; [exact L|]. intros k Hk. rewrite H by lia. now rewrite conv_comm. Qed.

(** ** Naive *)
Lemma naive_spec u v out n acc : okP (ConvolutionNaive u v out n acc) (conv_result u v out n acc).
Proof.
  unfold ConvolutionNaive, gConvolutionNaive.
  pose proof (lenZ_nonneg u). pose proof (lenZ_nonneg v). pose proof (lenZ_nonneg out).
  eapply okP_imp.
  - apply (for1_inv (fun k o => lenZ o = lenZ out /\ forall j, 0 <= j < lenZ out ->
      at0 o j = if j <? k then radd (if acc then at0 out j else r0) (conv u v (n + j)) else at0 out j));
      [|lia|].
    + split; [reflexivity|]. intros j Hj. now replace (j <? 0) with false by lia.
    + intros k o Hk [Lo Ho]. cbv zeta.
      assert (E0 : (if acc then rd o k else Ok r0) = Ok (if acc then at0 out k else r0)).
      { destruct acc; [|reflexivity]. rewrite rd_at0 by lia. rewrite Ho by lia.
        now replace (k <? k) with false by lia. }
      rewrite E0. cbn [bind]. set (base := if acc then at0 out k else r0).
      set (mF := Z.max 0 (n + k - lenZ v + 1)). set (mL := Z.min (lenZ u) (n + k + 1)).
      destruct (Z_le_gt_dec mF mL) as [Hle|Hgt].
      * eapply okP_bind.
        { apply (for1_inv (fun m a => a = radd base (sumZ mF m (fun i => rmul (at0 u i) (at0 v (n + k - i)))))); [|exact Hle|].
          - rewrite sumZ_empty by lia. ring.
          - intros m a Hm ->. rewrite rd_at0 by lia. cbn [bind]. rewrite rd_at0 by lia. cbn [bind].
            apply okP_ret. rewrite sumZ_last by lia. ring. }
        intros a ->. rewrite wr_ok by lia. apply okP_ret. split.
        { rewrite lenZ_updZ by lia. exact Lo. }
        intros j Hj. rewrite at0_updZ by lia. destruct (Z.eqb_spec j k) as [->|].
        { replace (k <? k + 1) with true by lia. f_equal. symmetry. apply conv_range; lia. }
        rewrite Ho by lia. destruct (j <? k) eqn:E; [now replace (j <? k + 1) with true by lia|now replace (j <? k + 1) with false by lia].
      * assert (T : trips mF mL 1 = O) by (unfold trips; rewrite Z.div_1_r; lia).
        unfold for_ at 1. rewrite T. cbn [loop bind]. rewrite wr_ok by lia. apply okP_ret. split.
        { rewrite lenZ_updZ by lia. exact Lo. }
        intros j Hj. rewrite at0_updZ by lia. destruct (Z.eqb_spec j k) as [->|].
        { replace (k <? k + 1) with true by lia. rewrite (conv_range u v (n + k) mF mL) by lia.
          rewrite sumZ_empty by lia. subst base. ring. }
        rewrite Ho by lia. destruct (j <? k) eqn:E; [now replace (j <? k + 1) with true by lia|now replace (j <? k + 1) with false by lia].
  - intros o [Lo Ho]. split; [exact Lo|]. intros k Hk. rewrite Ho by lia.
    now replace (k <? lenZ out) with true by lia.
Qed.

(** ** loops that may be empty *)
Lemma for1_inv' {S} (I : Z -> S -> Prop) (lo hi : Z) body (s : S) :
  I lo s ->
  (forall i s, lo <= i < hi -> I i s -> okP (body i s) (I (i + 1))) ->
  okP (for_ lo hi 1 body s) (I (Z.max lo hi)).
Proof.
  intros H0 Hs. destruct (Z_le_gt_dec lo hi).
  - rewrite Z.max_r by lia. apply for1_inv; auto.
  - rewrite Z.max_l by lia. assert (T : trips lo hi 1 = O) by (unfold trips; rewrite Z.div_1_r; lia).
    unfold for_. rewrite T. apply okP_ret. exact H0.
Qed.

Lemma T2_empty {A} W vec (o : list A) s1 s2 po f g : 1 <= W -> Transform2With W vec o s1 s2 po 0 f g = Ok o.
Proof.
  intros HW. unfold Transform2With. rewrite Z.div_0_l by lia. cbn [Z.mul].
  assert (T : forall s, 1 <= s -> trips 0 0 s = O).
  { intros s Hs. unfold trips. rewrite Z.div_small by lia. reflexivity. }
  destruct vec; unfold for_; rewrite ?T by lia; reflexivity.
Qed.

(** ** Slide *)
Lemma slide_body_spec W vec u v out n acc : 1 <= W ->
  okP (SlideBody W vec u v out n acc) (conv_result u v out n acc).
Proof.
  intros HW. unfold SlideBody, gSlideBody. cbn [IntervalModel.first IntervalModel.last].
  pose proof (lenZ_nonneg u). pose proof (lenZ_nonneg v). pose proof (lenZ_nonneg out).
  set (out0 := if acc then out else repeat r0 (length out)).
  assert (L0 : lenZ out0 = lenZ out) by (subst out0; destruct acc; [reflexivity|apply lenZ_repeat]).
  assert (B0 : forall k, 0 <= k < lenZ out -> at0 out0 k = if acc then at0 out k else r0).
  { intros k Hk. subst out0. destruct acc; [reflexivity|]. apply at0_in, nthZ_repeat. exact Hk. }
  set (mF := Z.max 0 (n - lenZ v + 1)). set (mL := Z.min (lenZ u) (n + lenZ out)).
  eapply okP_imp.
  - apply (for1_inv' (fun f o => lenZ o = lenZ out /\ forall k, 0 <= k < lenZ out ->
      at0 o k = radd (at0 out0 k) (sumZ mF f (fun m => rmul (at0 u m) (at0 v (n + k - m)))))).
    + split; [exact L0|]. intros k Hk. rewrite sumZ_empty by lia. ring.
    + intros f o Hf [Lo Ho]. rewrite rd_at0 by lia. cbn [bind].
      unfold Intersection, shift_sub, size. cbn [IntervalModel.first IntervalModel.last].
      set (a := Z.max n f). set (b := Z.min (n + lenZ out) (f + lenZ v)).
      destruct (Z.ltb_spec a b) as [Hab|Hab]; cbn [IntervalModel.first IntervalModel.last].
      * replace (b - n - (a - n)) with (b - a) by lia.
        eapply okP_imp.
        { apply Transform2_spec; try lia.
          - cbn [src_ok]. lia.
          - cbn [src_ok]. lia. }
        intros o' [Lo' Ho']. split; [lia|]. intros k Hk. rewrite sumZ_last by lia.
        unfold at0 at 1. rewrite Ho'. cbn [src_nth].
        destruct ((a - n <=? k) && (k <? a - n + (b - a))) eqn:E.
        { replace (a - n + (k - (a - n))) with k by lia.
          rewrite (nthZ_at0 o k) by lia. rewrite (nthZ_at0 v) by lia.
          cbn [lift2]. unfold gconvolution_fma, exact_fma. rewrite Ho by lia.
          replace (a - f + (k - (a - n))) with (n + k - f) by lia. ring. }
        { change (match nthZ o k with Some x => x | None => r0 end) with (at0 o k).
          rewrite Ho by lia. rewrite (at0_out v (n + k - f)) by lia. ring. }
      * replace (0 - n - (0 - n)) with 0 by lia. rewrite T2_empty by lia. apply okP_ret.
        split; [exact Lo|]. intros k Hk. rewrite sumZ_last by lia. rewrite Ho by lia.
        rewrite (at0_out v (n + k - f)) by lia. ring.
  - intros o [Lo Ho]. split; [exact Lo|]. intros k Hk. rewrite Ho by lia. rewrite B0 by lia. f_equal.
    symmetry. apply conv_range; lia.
Qed.

Lemma slide_spec W vec u v out n acc : 1 <= W ->
  okP (ConvolutionSlide W vec u v out n acc) (conv_result u v out n acc).
Proof.
  intros HW. unfold ConvolutionSlide, gConvolutionSlide. cbn [gConvolutionSlide_].
  rewrite (Z.min_comm (lenZ v) (lenZ u)).
  destruct (512 <? Z.min (lenZ u) (lenZ v)) eqn:E.
  - destruct (lenZ u <? lenZ v) eqn:E2; [|now apply slide_body_spec].
    replace (lenZ v <? lenZ u) with false by lia.
    eapply okP_imp; [now apply slide_body_spec|]. intros. now apply conv_result_swap.
  - destruct (lenZ v <? lenZ u) eqn:E2; [|now apply slide_body_spec].
    replace (lenZ u <? lenZ v) with false by lia.
    eapply okP_imp; [now apply slide_body_spec|]. intros. now apply conv_result_swap.
Qed.

(** ** Reduce *)
Lemma reduce_spec u v out n :
  okP (ConvolutionReduce u v out n false) (conv_result u v out n false).
Proof.
  unfold ConvolutionReduce, gConvolutionReduce. cbn [negb assert_].
  pose proof (lenZ_nonneg u). pose proof (lenZ_nonneg v). pose proof (lenZ_nonneg out).
  eapply okP_imp.
  - apply (for_inv (fun k o => lenZ o = lenZ out /\ forall j, 0 <= j < lenZ out -> j < k * 8 ->
      at0 o j = conv u v (n + j))); [lia| |].
    + split; [reflexivity|]. intros; lia.
    + intros k o Hk Hlt [Lo Ho]. replace (0 + k * 8) with (k * 8) in * by lia. cbv zeta.
      set (fo := k * 8) in *. set (mF := Z.max 0 (n + fo - lenZ v + 1)). set (mL := Z.min (lenZ u) (n + fo + 8)).
      eapply okP_bind with (P := fun st => fst st = tab 8 (fun i => conv u v (n + fo + i))).
      { eapply okP_imp.
        - apply (for1_inv' (fun m (st : list K * list K) => lenZ (snd st) = 8 /\
            fst st = tab 8 (fun i => sumZ mF m (fun x => rmul (at0 u x) (at0 v (n + fo + i - x)))))).
          + split; [reflexivity|]. cbn [fst]. change (repeat r0 8) with (tab 8 (fun _ => @r0 K)).
            apply tab_ext. intros i Hi. now rewrite sumZ_empty by lia.
          + intros m [a d] Hm [Ld Ha]. cbn [fst snd] in *. subst a.
            eapply okP_bind with (P := fun d => d = tab 8 (fun i => at0 v (n + fo + i - m))).
            { eapply okP_imp.
              - apply (for1_inv (fun i d => lenZ d = 8 /\ forall j, 0 <= j < i -> at0 d j = at0 v (n + fo + j - m))); [|lia|].
                + split; [exact Ld|]. intros; lia.
                + intros i d' Hi [Ld' Hd'].
                  assert (E : (if (0 <=? n + fo + i - m) && (n + fo + i - m <? lenZ v) then rd v (n + fo + i - m) else Ok r0)
                              = Ok (at0 v (n + fo + i - m))).
                  { destruct ((0 <=? n + fo + i - m) && (n + fo + i - m <? lenZ v)) eqn:E; [apply rd_at0; lia|].
                    rewrite at0_out by lia. reflexivity. }
                  rewrite E. cbn [bind]. rewrite wr_ok by lia. apply okP_ret. split; [rewrite lenZ_updZ by lia; exact Ld'|].
                  intros j Hj. rewrite at0_updZ by lia. destruct (Z.eqb_spec j i) as [->|]; [reflexivity|]. apply Hd'; lia.
              - intros d' [Ld' Hd']. apply list_eq_tab; [exact Ld'|]. intros i Hi.
                rewrite nthZ_at0 by lia. f_equal. apply Hd'. lia. }
            intros d' ->.
            eapply okP_bind with (P := fun a => a = tab 8 (fun i => sumZ mF (m + 1) (fun x => rmul (at0 u x) (at0 v (n + fo + i - x))))).
            { eapply okP_imp.
              - apply (for1_inv (fun i a => lenZ a = 8 /\ forall j, 0 <= j < 8 -> at0 a j =
                    sumZ mF (if j <? i then m + 1 else m) (fun x => rmul (at0 u x) (at0 v (n + fo + j - x))))); [|lia|].
                + split; [reflexivity|]. intros j Hj. rewrite at0_tab by lia. now replace (j <? 0) with false by lia.
                + intros i a Hi [La Hal]. rewrite rd_at0 by lia. cbn [bind]. rewrite rd_at0 by lia. cbn [bind].
                  rewrite rd_at0 by (rewrite lenZ_tab; lia). cbn [bind]. rewrite wr_ok by lia. apply okP_ret.
                  split; [rewrite lenZ_updZ by lia; exact La|]. intros j Hj. rewrite at0_updZ by lia.
                  destruct (Z.eqb_spec j i) as [->|].
                  * replace (i <? i + 1) with true by lia. rewrite Hal by lia. replace (i <? i) with false by lia.
                    rewrite at0_tab by lia. now rewrite sumZ_last by lia.
                  * rewrite Hal by lia. destruct (j <? i) eqn:E; [now replace (j <? i + 1) with true by lia|now replace (j <? i + 1) with false by lia].
              - intros a [La Hal]. apply list_eq_tab; [exact La|]. intros i Hi. rewrite nthZ_at0 by lia. f_equal.
                rewrite Hal by lia. now replace (i <? 8) with true by lia. }
            intros a ->. apply okP_ret. split; [reflexivity|]. reflexivity.
        - intros [a d] [Ld Ha]. cbn [fst snd] in *. subst a. apply tab_ext. intros i Hi. symmetry. apply conv_range; lia. }
      intros [a d] Ha. cbn [fst] in Ha. subst a. cbv iota beta.
      assert (Hmn : 0 <= Z.min 8 (lenZ o - fo)) by lia.
      eapply okP_imp.
      * apply (for1_inv (fun i o => lenZ o = lenZ out /\ forall j, 0 <= j < lenZ out -> j < fo + i ->
           at0 o j = conv u v (n + j))); [|exact Hmn|].
        { split; [exact Lo|]. intros j Hj1 Hj2. apply Ho; lia. }
        intros i o' Hi [Lo' Ho']. rewrite rd_at0 by (rewrite lenZ_tab; lia). cbn [bind]. rewrite wr_ok by lia.
        apply okP_ret. split; [rewrite lenZ_updZ by lia; exact Lo'|]. intros j Hj1 Hj2. rewrite at0_updZ by lia.
        destruct (Z.eqb_spec j (fo + i)) as [->|]; [rewrite at0_tab by lia; f_equal; lia|]. apply Ho'; lia.
      * intros o' [Lo' Ho']. split; [exact Lo'|]. intros j Hj1 Hj2. apply Ho'; lia.
  - intros o (k & Hk & Hge & Hor & Lo & Ho). split; [exact Lo|]. intros j Hj. rewrite Ho by lia. ring.
Qed.

(** ** ReduceVec *)
Lemma map2_tab {A B C} (f : A -> B -> C) W F G :
  map2 f (tab W F) (tab W G) = tab W (fun i => f (F i) (G i)).
Proof.
  apply list_eq_tab; [rewrite lenZ_map2, !lenZ_tab; lia|]. intros i Hi.
  apply nthZ_map2; now rewrite nthZ_tab by lia.
Qed.
Lemma length_tab {A} W (F : Z -> A) : length (tab W F) = Z.to_nat W.
Proof. unfold tab. now rewrite map_length, seq_length. Qed.
Lemma tab_eq {A} n m (F G : Z -> A) : n = m -> (forall i, 0 <= i < n -> F i = G i) -> tab n F = tab m G.
Proof. intros <-. apply tab_ext. Qed.

Lemma rl_term_spec W (a b : list K) p1 p2 : 0 <= W -> 0 <= p1 < lenZ a -> 0 <= p2 -> p2 + W <= lenZ b ->
  rl_term W a p1 b p2 = Ok (tab W (fun i => rmul (at0 a p1) (at0 b (p2 + i)))).
Proof.
  intros HW H1 H2 H3. unfold grl_term. rewrite rd_at0 by lia. cbn [bind].
  destruct (slice_ok b p2 W H2 HW H3) as (y & E & L & N). rewrite E. cbn [bind]. f_equal.
  apply list_eq_tab; [rewrite lenZ_map; lia|]. intros i Hi. rewrite nthZ_map, N by lia.
  rewrite nthZ_at0 by lia. reflexivity.
Qed.

Lemma bits_of_count2 c : 0 <= c -> c = Z.b2z (Z.odd c) + 2 * Z.b2z (Z.testbit c 1) + 4 * (c / 4).
Proof.
  intros H. rewrite <- Z.bit0_odd. rewrite !Z.testbit_spec' by lia.
  change (2 ^ 0) with 1. change (2 ^ 1) with 2. rewrite Z.div_1_r. lia.
Qed.

Lemma reduce_loop_spec W comp (a b : list K) p1 p2 count (A : Z -> K) :
  1 <= W -> 0 <= count ->
  (0 < count -> 0 <= p1 /\ p1 + count <= lenZ a /\ 0 <= p2 - count + 1 /\ p2 + W <= lenZ b) ->
  ConvolutionReduceLoop W comp a p1 b p2 (tab W A) count =
  Ok (tab W (fun i => radd (A i) (sumZ 0 count (fun k => rmul (at0 a (p1 + k)) (at0 b (p2 - k + i)))))).
Proof.
  intros HW Hc Hb. unfold ConvolutionReduceLoop, gConvolutionReduceLoop.
  pose proof (bits_of_count2 count Hc) as Hbits. set (q := count / 4) in *.
  assert (Hq : 0 <= q) by (subst q; apply Z.div_pos; lia).
  set (P := fun c => tab W (fun i => radd (A i) (sumZ 0 c (fun k => rmul (at0 a (p1 + k)) (at0 b (p2 - k + i)))))).
  assert (TM : forall c, 0 <= c < count -> rl_term W a (p1 + c) b (p2 - c) =
             Ok (tab W (fun i => rmul (at0 a (p1 + c)) (at0 b (p2 - c + i))))).
  { intros c Hcc. apply rl_term_spec; lia. }
  match goal with |- bind ?m _ = _ => assert (S1 : m = Ok (P (Z.b2z (Z.odd count)), Z.b2z (Z.odd count))) end.
  { destruct (Z.odd count); cbn [Z.b2z] in *.
    - specialize (TM 0 ltac:(lia)). rewrite Z.add_0_r, Z.sub_0_r in TM. rewrite TM. cbn [bind].
      do 2 f_equal. rewrite map2_tab. apply tab_ext. intros i Hi.
      rewrite (sumZ_last 0 0) by lia. rewrite sumZ_empty by lia. rewrite Z.add_0_r, Z.sub_0_r. ring.
    - do 2 f_equal. apply tab_ext. intros i Hi. rewrite sumZ_empty by lia. ring. }
  rewrite S1. cbn [bind]. clear S1. set (c1 := Z.b2z (Z.odd count)) in *.
  assert (Hc1 : 0 <= c1 <= 1) by (subst c1; destruct (Z.odd count); cbn; lia).
  match goal with |- bind ?m _ = _ => assert (S2 : m = Ok (P (c1 + 2 * Z.b2z (Z.testbit count 1)), c1 + 2 * Z.b2z (Z.testbit count 1))) end.
  { destruct (Z.testbit count 1); cbn [Z.b2z] in *.
    - rewrite TM by lia. cbn [bind].
      replace (p1 + c1 + 1) with (p1 + (c1 + 1)) by lia. replace (p2 - c1 - 1) with (p2 - (c1 + 1)) by lia.
      rewrite TM by lia. cbn [bind]. f_equal. f_equal. unfold P. rewrite !map2_tab. apply tab_ext. intros i Hi.
      replace (c1 + 2 * 1) with (c1 + 1 + 1) by lia. rewrite !sumZ_last by lia. ring.
    - now rewrite Z.mul_0_r, Z.add_0_r. }
  rewrite S2. cbn [bind]. clear S2. set (c2 := c1 + 2 * Z.b2z (Z.testbit count 1)) in *.
  assert (Hc2 : 0 <= c2 <= 3) by (subst c2; destruct (Z.testbit count 1); cbn; lia).
  set (zeros := repeat r0 (Z.to_nat W)).
  match goal with |- bind (for_ _ _ _ ?bd _) _ = _ => set (body := bd) end.
  assert (L : okP (for_ c2 count 4 body (zeros, P c2)) (fun st => st = (zeros, P count))).
  { eapply okP_imp.
    - apply (for_inv (fun k st => st = (zeros, P (c2 + k * 4)))); [lia| |].
      + do 2 f_equal. lia.
      + intros k st Hk Hlt ->. subst body. cbv beta iota. set (c := c2 + k * 4) in *.
        assert (c + 4 <= count) by lia.
        rewrite TM by lia. cbn [bind].
        replace (p1 + c + 1) with (p1 + (c + 1)) by lia. replace (p2 - c - 1) with (p2 - (c + 1)) by lia.
        rewrite TM by lia. cbn [bind].
        replace (p1 + c + 2) with (p1 + (c + 2)) by lia. replace (p2 - c - 2) with (p2 - (c + 2)) by lia.
        rewrite TM by lia. cbn [bind].
        replace (p1 + c + 3) with (p1 + (c + 3)) by lia. replace (p2 - c - 3) with (p2 - (c + 3)) by lia.
        rewrite TM by lia. cbn [bind]. apply okP_ret. unfold P at 1. rewrite !map2_tab.
        match goal with |- (if comp then _ else _) _ ?x ?y = _ =>
          assert (E : (if comp then kahan (map2 radd) (map2 rsub) else nocarry (map2 radd)) zeros x y = (zeros, map2 radd x y)) end.
        { destruct comp; [|reflexivity]. apply kahan_batch; apply length_tab. }
        rewrite E. f_equal. rewrite map2_tab. unfold P. apply tab_ext. intros i Hi.
        replace (c2 + (k + 1) * 4) with (c + 1 + 1 + 1 + 1) by lia. rewrite !sumZ_last by lia.
        replace (c + 1 + 1 + 1) with (c + 3) by lia. replace (c + 1 + 1) with (c + 2) by lia. ring.
    - intros st (k & Hk & Hge & Hor & ->). do 2 f_equal. lia. }
  apply okP_eq in L. rewrite L. reflexivity.
Qed.

(** the padding array: its elements, seen from the front and from the back *)
Lemma rv_padding_spec W v : 1 <= W -> exists pad, rv_padding W v = Ok pad /\ lenZ pad = 4 * W - 2 /\
  (forall t, - W < t < W -> at0 pad (W - 1 + t) = at0 v t) /\
  (forall t, lenZ v - W < t < lenZ v + W - 1 -> at0 pad (3 * W - 1 - lenZ v + t) = at0 v t).
Proof.
  intros HW. unfold grv_padding. pose proof (lenZ_nonneg v).
  set (mw := Z.min W (lenZ v)).
  destruct (slice_ok v 0 mw ltac:(lia) ltac:(lia) ltac:(lia)) as (fr & E1 & L1 & N1). rewrite E1. cbn [bind].
  set (p0 := repeat r0 (Z.to_nat (W * 4 - 2))).
  assert (Lp0 : lenZ p0 = 4 * W - 2) by (subst p0; rewrite lenZ_repeat; lia).
  assert (Np0 : forall i, 0 <= i < 4 * W - 2 -> nthZ p0 i = Some r0).
  { intros i Hi. subst p0. apply nthZ_repeat. lia. }
  destruct (wrs_ok p0 (W - 1) fr ltac:(lia) ltac:(lia)) as (p1 & E2 & L2 & N2). rewrite E2. cbn [bind].
  destruct (slice_ok v (lenZ v - mw) mw ltac:(lia) ltac:(lia) ltac:(lia)) as (bk & E3 & L3 & N3). rewrite E3. cbn [bind].
  rewrite L2, Lp0.
  destruct (wrs_ok p1 (4 * W - 2 - 1 - (W - 1) - (mw - 1)) bk ltac:(lia) ltac:(lia)) as (p2 & E4 & L4 & N4).
  exists p2. split; [exact E4|]. split; [lia|].
  assert (R : forall i, 0 <= i < 4 * W - 2 -> at0 p2 i =
     if (3 * W - 1 - mw <=? i) && (i <? 3 * W - 1) then at0 v (lenZ v - (3 * W - 1) + i)
     else if (W - 1 <=? i) && (i <? W - 1 + mw) then at0 v (i - (W - 1)) else r0).
  { intros i Hi. unfold at0 at 1. rewrite N4, L3, N2, L1, Np0 by lia.
    replace (4 * W - 2 - 1 - (W - 1) - (mw - 1)) with (3 * W - 1 - mw) by lia.
    replace (3 * W - 1 - mw + mw) with (3 * W - 1) by lia.
    destruct ((3 * W - 1 - mw <=? i) && (i <? 3 * W - 1)) eqn:B1.
    - rewrite N3 by lia. unfold at0.
      replace (lenZ v - mw + (i - (3 * W - 1 - mw))) with (lenZ v - (3 * W - 1) + i) by lia. reflexivity.
    - destruct ((W - 1 <=? i) && (i <? W - 1 + mw)) eqn:B2; [|reflexivity].
      rewrite N1 by lia. unfold at0. reflexivity. }
  split.
  - intros t Ht. rewrite R by lia.
    destruct ((3 * W - 1 - mw <=? W - 1 + t) && (W - 1 + t <? 3 * W - 1)) eqn:B1; [lia|].
    destruct ((W - 1 <=? W - 1 + t) && (W - 1 + t <? W - 1 + mw)) eqn:B2; [f_equal; lia|].
    rewrite at0_out by lia. reflexivity.
  - intros t Ht. rewrite R by lia.
    destruct ((3 * W - 1 - mw <=? 3 * W - 1 - lenZ v + t) && (3 * W - 1 - lenZ v + t <? 3 * W - 1)) eqn:B1; [f_equal; lia|].
    destruct ((W - 1 <=? 3 * W - 1 - lenZ v + t) && (3 * W - 1 - lenZ v + t <? W - 1 + mw)) eqn:B2.
    + lia.
    + rewrite at0_out by lia. reflexivity.
Qed.

Lemma load_partial_spec W junk (l : list K) p c : 1 <= W -> W <= lenZ junk -> 0 <= p -> 0 <= c <= W -> p + c <= lenZ l ->
  exists A, load_partial_front W junk l p c = Ok (tab W A) /\ forall i, 0 <= i < c -> A i = at0 l (p + i).
Proof.
  intros HW Hj Hp Hc Hl. unfold gload_partial_front.
  destruct (slice_ok l p c Hp ltac:(lia) Hl) as (y & E & L & N).
  destruct (Z.eqb_spec c W) as [->|Hne].
  - exists (at0 y). split.
    + rewrite E. f_equal. rewrite (tab_at0 y) at 1. now rewrite L.
    + intros i Hi. unfold at0. now rewrite N by lia.
  - rewrite E. cbn [bind]. set (full := y ++ firstn (Z.to_nat (W - c)) junk).
    exists (at0 full). split.
    + f_equal. rewrite (tab_at0 full) at 1. f_equal. unfold full. rewrite lenZ_app, lenZ_firstn. lia.
    + intros i Hi. unfold full. rewrite at0_app. replace (i <? lenZ y) with true by lia.
      unfold at0. now rewrite N by lia.
Qed.
Lemma store_partial_spec W (l : list K) p A c : 1 <= W -> 0 <= p -> 0 <= c <= W -> p + c <= lenZ l ->
  okP (store_partial_front W l p (tab W A) c)
    (fun l' => lenZ l' = lenZ l /\ forall j, 0 <= j < lenZ l -> at0 l' j = if (p <=? j) && (j <? p + c) then A (j - p) else at0 l j).
Proof.
  intros HW Hp Hc Hl. unfold gstore_partial_front.
  assert (LT : lenZ (tab W A) = W) by (rewrite lenZ_tab; lia).
  destruct (Z.eqb_spec c W) as [->|Hne].
  - apply okP_wrs; [lia|lia|]. intros l' L' N'. split; [exact L'|]. intros j Hj. unfold at0. rewrite N', LT.
    destruct ((p <=? j) && (j <? p + W)) eqn:B; [|reflexivity]. now rewrite nthZ_tab by lia.
  - destruct (slice_ok (tab W A) 0 c ltac:(lia) ltac:(lia) ltac:(lia)) as (y & E & L & N). rewrite E. cbn [bind].
    apply okP_wrs; [lia|lia|]. intros l' L' N'. split; [exact L'|]. intros j Hj. unfold at0. rewrite N', L.
    destruct ((p <=? j) && (j <? p + c)) eqn:B; [|reflexivity]. rewrite N by lia. now rewrite nthZ_tab by lia.
Qed.

Lemma reduce_vec_body_spec W comp junk u v out n acc :
  1 <= W -> W <= lenZ junk -> lenZ u <= lenZ v ->
  okP (ReduceVecBody W comp junk u v out n acc) (conv_result u v out n acc).
Proof.
  intros HW Hj Huv. unfold ReduceVecBody, gReduceVecBody.
  pose proof (lenZ_nonneg u). pose proof (lenZ_nonneg v). pose proof (lenZ_nonneg out).
  destruct (rv_padding_spec W v HW) as (pad & E & Lp & Nfr & Nbk). rewrite E. cbn [bind].
  eapply okP_imp.
  - apply (for_inv (fun k o => lenZ o = lenZ out /\ forall j, 0 <= j < lenZ out ->
      at0 o j = if j <? k * W then radd (if acc then at0 out j else r0) (conv u v (n + j)) else at0 out j)); [lia| |].
    + split; [reflexivity|]. intros j Hj'. now replace (j <? 0 * W) with false by lia.
    + intros k o Hk Hlt [Lo Ho]. replace (0 + k * W) with (k * W) in * by lia. cbv zeta.
      assert (Hfo : 0 <= k * W) by nia. replace ((k + 1) * W) with (k * W + W) by lia.
      set (fo := k * W) in *. clearbody fo. rewrite Lp, Lo.
      set (iw := Z.min (lenZ out - fo) W).
      assert (A0 : exists A, (if acc then load_partial_front W junk o fo iw else Ok (repeat r0 (Z.to_nat W))) = Ok (tab W A)
                     /\ forall i, 0 <= i < iw -> A i = if acc then at0 out (fo + i) else r0).
      { destruct acc.
        - destruct (load_partial_spec W junk o fo iw HW Hj Hfo ltac:(lia) ltac:(lia)) as (A & EA & HA).
          exists A. split; [exact EA|]. intros i Hi. rewrite HA by lia. rewrite Ho by lia.
          now replace (fo + i <? fo) with false by lia.
        - exists (fun _ => r0). split; [|reflexivity]. f_equal. apply list_eq_tab; [rewrite lenZ_repeat; lia|].
          intros i Hi. apply nthZ_repeat. lia. }
      destruct A0 as (A & EA & HA). rewrite EA. cbn [bind].
      set (m := n + fo) in *.
      set (mF := Z.max 0 (m - lenZ v + 1)). set (mL := Z.min (lenZ u) (m + W)).
      set (mPre := Z.max mF (Z.min mL (m + W - lenZ v))). set (mMid := Z.max mPre (Z.min m mL)).
      set (mPost := Z.max mMid mL).
      change (gConvolutionReduceLoop r0 radd rsub rmul) with (@ConvolutionReduceLoop K).
      rewrite reduce_loop_spec; [|exact HW|lia|lia]. cbn [bind].
      rewrite reduce_loop_spec; [|exact HW|lia|lia]. cbn [bind].
      rewrite reduce_loop_spec; [|exact HW|lia|lia]. cbn [bind].
      eapply okP_imp; [apply store_partial_spec; lia|].
      intros o' [Lo' Ho']. split; [lia|]. intros j Hjr. rewrite Ho' by lia.
      destruct ((fo <=? j) && (j <? fo + iw)) eqn:B.
      * replace (j <? fo + W) with true by lia. rewrite HA by lia.
        replace (fo + (j - fo)) with j by lia.
        assert (S : forall lo hi (b : list K) (g : Z -> Z), lo <= hi ->
            (forall x, lo <= x < hi -> at0 b (g (x - lo) + (j - fo)) = at0 v (n + j - x)) ->
            sumZ 0 (hi - lo) (fun k0 => rmul (at0 u (lo + k0)) (at0 b (g k0 + (j - fo)))) =
            sumZ lo hi (fun i => rmul (at0 u i) (at0 v (n + j - i)))).
        { intros lo hi b g Hle Hb. rewrite (sumZ_shift' lo hi lo). replace (lo - lo) with 0 by lia.
          apply sumZ_ext. intros x Hx. replace (lo + x) with (x + lo) by lia. f_equal.
          rewrite <- Hb by lia. f_equal. f_equal. f_equal. lia. }
        rewrite (S mF mPre pad (fun k0 => 4 * W - 2 - W + 1 + m - mF - lenZ v - k0)); [|lia|].
        2:{ intros x Hx. rewrite <- Nbk by lia. f_equal. lia. }
        rewrite (S mPre mMid v (fun k0 => Z.max 0 (m - mPre) - k0)); [|lia|].
        2:{ intros x Hx. f_equal. lia. }
        rewrite (S mMid mPost pad (fun k0 => m - mMid + W - 1 - k0)); [|lia|].
        2:{ intros x Hx. rewrite <- Nfr by lia. f_equal. lia. }
        rewrite (conv_range u v (n + j) mF mPost) by lia.
        rewrite (sumZ_split mF mPre mPost) by lia. rewrite (sumZ_split mPre mMid mPost) by lia. ring.
      * rewrite Ho by lia. destruct (j <? fo) eqn:B2.
        { now replace (j <? fo + W) with true by lia. }
        { now replace (j <? fo + W) with false by lia. }
  - intros o (k & Hk & Hge & Hor & Lo & Ho). split; [exact Lo|]. intros j Hjr. rewrite Ho by lia.
    now replace (j <? k * W) with true by lia.
Qed.

Lemma reduce_vec_spec W comp junk u v out n acc : 1 <= W -> W <= lenZ junk ->
  okP (ConvolutionReduceVec W comp junk u v out n acc) (conv_result u v out n acc).
Proof.
  intros HW Hj. unfold ConvolutionReduceVec, gConvolutionReduceVec. cbn [gConvolutionReduceVec_].
  destruct (lenZ v <? lenZ u) eqn:E.
  - replace (lenZ u <? lenZ v) with false by lia.
    eapply okP_imp; [apply reduce_vec_body_spec; lia|]. intros. now apply conv_result_swap.
  - apply reduce_vec_body_spec; lia.
Qed.

(** ** The API *)
Lemma conv_into_spec W1 W2 vec junk out u v offset clear :
  1 <= W1 -> 1 <= W2 -> W2 <= lenZ junk -> offset + lenZ out <= ConvolutionLength (lenZ u) (lenZ v) CONV_FULL ->
  okP (ConvolutionInto W1 W2 vec junk out u v offset clear) (conv_result u v out offset (negb clear)).
Proof.
  intros H1 H2 H3 H4. unfold ConvolutionInto, gConvolutionInto. apply okP_assert; [lia|].
  destruct (Z.min (lenZ u) (lenZ v) <=? 32); [now apply slide_spec|now apply reduce_vec_spec].
Qed.

Lemma conv_at_spec W1 W2 vec junk u v offset len :
  1 <= W1 -> 1 <= W2 -> W2 <= lenZ junk -> 0 <= len -> offset + len <= ConvolutionLength (lenZ u) (lenZ v) CONV_FULL ->
  ConvolutionAt W1 W2 vec junk u v offset len = Ok (tab len (fun k => conv u v (offset + k))).
Proof.
  intros H1 H2 H3 H4 H5. unfold ConvolutionAt, gConvolutionAt. apply okP_eq.
  assert (LR : lenZ (repeat (@r0 K) (Z.to_nat len)) = len) by (rewrite lenZ_repeat; lia).
  eapply okP_imp; [apply conv_into_spec; rewrite ?LR; assumption|].
  intros o [Lo Ho]. rewrite LR in *. apply list_eq_tab; [lia|]. intros i Hi. rewrite nthZ_at0 by lia. f_equal.
  rewrite Ho by lia. cbn [negb]. replace (at0 (repeat r0 (Z.to_nat len)) i) with (@r0 K); [ring|].
  symmetry. apply at0_in, nthZ_repeat. lia.
Qed.
End ConvP.

Ltac fold_conv :=
  repeat match goal with
  | |- context [@gConvolutionAt (car ?K) r0 radd rsub rmul exact_fma exact_fma ?W1 ?W2 ?vec] =>
      change (@gConvolutionAt (car K) r0 radd rsub rmul exact_fma exact_fma W1 W2 vec) with (@ConvolutionAt K W1 W2 vec)
  | |- context [@gConvolutionInto (car ?K) r0 radd rsub rmul exact_fma exact_fma ?W1 ?W2 ?vec] =>
      change (@gConvolutionInto (car K) r0 radd rsub rmul exact_fma exact_fma W1 W2 vec) with (@ConvolutionInto K W1 W2 vec)
  end.
