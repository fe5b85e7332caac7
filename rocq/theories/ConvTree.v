(** What the convolution kernels compute when the arithmetic of the elements obeys no law:
    the exact sequence of operations behind every output sample. *)
From Verif Require Import Base BaseFacts IntervalModel KernelModel KernelProofs ConvModel ConvProofs FloatSpec ReduceTree.
From Coq Require Import List ZifyBool ZifyNat.
Import ListNotations.
Ltac Zify.zify_post_hook ::= Z.div_mod_to_equations.
Local Open Scope Z_scope.

(** [chain step s ps r]: starting from [s], the pairs of [ps] were absorbed one after the other *)
Inductive chain {K : Type} (step : K -> K -> K -> K -> Prop) (s : K) : list (K * K) -> K -> Prop :=
| chain_nil : chain step s [] s
| chain_snoc l t a b r : chain step s l t -> step t a b r -> chain step s (l ++ [(a, b)]) r.

Section Elements.
Context {K : Type} (zero : K).
Implicit Types (u v out l : list K).

(** element [i], [zero] outside of the list *)
Definition elt l (i : Z) : K := match nthZ l i with Some x => x | None => zero end.
Lemma elt_some l i x : nthZ l i = Some x -> elt l i = x.
Proof. intros H. unfold elt. now rewrite H. Qed.
Lemma nthZ_elt l i : 0 <= i < lenZ l -> nthZ l i = Some (elt l i).
Proof. intros H. unfold elt. destruct (nthZ_in l i H) as [x ->]. reflexivity. Qed.
Lemma rd_elt l i : 0 <= i < lenZ l -> rd l i = Ok (elt l i).
Proof. intros H. unfold rd. now rewrite nthZ_elt. Qed.
Lemma elt_out l i : i < 0 \/ lenZ l <= i -> elt l i = zero.
Proof. intros H. unfold elt. rewrite (proj2 (nthZ_none l i)); [reflexivity|lia]. Qed.
Lemma elt_updZ l i x j : 0 <= i < lenZ l -> elt (updZ l i x) j = if j =? i then x else elt l j.
Proof. intros H. unfold elt. rewrite nthZ_updZ by exact H. now destruct (j =? i). Qed.
Lemma elt_tab n (F : Z -> K) i : 0 <= i < n -> elt (tab n F) i = F i.
Proof. intros H. apply elt_some. now rewrite nthZ_tab by lia. Qed.
Lemma tab_elt l : l = tab (lenZ l) (elt l).
Proof. apply list_eq_tab; [pose proof (lenZ_nonneg l); lia|]. intros i Hi. now apply nthZ_elt. Qed.
Lemma elt_repeat n i : elt (repeat zero n) i = zero.
Proof.
  destruct (Z_lt_ge_dec i 0); [apply elt_out; lia|].
  destruct (Z_lt_ge_dec i (Z.of_nat n)); [|apply elt_out; rewrite lenZ_repeat; lia].
  apply elt_some, nthZ_repeat. lia.
Qed.

(** the factors of the products of sample [J], for the indices [lo .. hi-1] of the first operand *)
Definition pairs u v (J lo hi : Z) : list (K * K) := tab (hi - lo) (fun i => (elt u (lo + i), elt v (J - (lo + i)))).
Lemma pairs_empty u v J lo hi : hi <= lo -> pairs u v J lo hi = [].
Proof. intros H. unfold pairs, tab. now replace (Z.to_nat (hi - lo)) with O by lia. Qed.
Lemma pairs_snoc u v J lo m : lo <= m -> pairs u v J lo (m + 1) = pairs u v J lo m ++ [(elt u m, elt v (J - m))].
Proof.
  intros H. unfold pairs. replace (m + 1 - lo) with (m - lo + 1) by lia. rewrite tab_snoc by lia.
  now replace (lo + (m - lo)) with m by lia.
Qed.
(** all products of sample [J] that exist *)
Definition overlap_lo u v J := Z.max 0 (J - lenZ v + 1).
Definition overlap_hi u v J := Z.min (lenZ u) (J + 1).
Definition products u v (J : Z) : list (K * K) := pairs u v J (overlap_lo u v J) (overlap_hi u v J).

Definition start (accumulate : bool) out (k : Z) : K := if accumulate then elt out k else zero.

End Elements.

Section Law_free.
Context {K : Type} (zero : K) (add sub mul : K -> K -> K) (fmaV fmaS : K -> K -> K -> K).
Implicit Types (u v out l : list K).
Notation elt := (elt zero).
Notation pairs := (pairs zero).
Notation products := (products zero).
Notation start := (start zero).
(** ** Naive *)
Lemma naive_chain u v out n acc : okP (gConvolutionNaive zero add mul u v out n acc) (fun out' => lenZ out' = lenZ out /\
  forall k, 0 <= k < lenZ out ->
    chain (fun t a b r => r = add t (mul a b)) (start acc out k) (products u v (n + k)) (elt out' k)).
Proof.
  unfold gConvolutionNaive.
  pose proof (lenZ_nonneg u). pose proof (lenZ_nonneg v). pose proof (lenZ_nonneg out).
  set (P := fun k (o : list K) => chain (fun t a b r => r = add t (mul a b)) (start acc out k) (products u v (n + k)) (elt o k)).
  eapply okP_imp.
  - apply (for1_inv (fun k o => lenZ o = lenZ out /\ forall j, 0 <= j < lenZ out -> if j <? k then P j o else elt o j = elt out j));
      [|lia|].
    + split; [reflexivity|]. intros j Hj. now replace (j <? 0) with false by lia.
    + intros k o Hk [Lo Ho]. cbv zeta.
      assert (E0 : (if acc then rd o k else Ok zero) = Ok (start acc out k)).
      { unfold start. destruct acc; [|reflexivity]. rewrite (rd_elt zero) by lia. f_equal. specialize (Ho k ltac:(lia)).
        now replace (k <? k) with false in Ho by lia. }
      rewrite E0. cbn [bind]. set (mF := Z.max 0 (n + k - lenZ v + 1)). set (mL := Z.min (lenZ u) (n + k + 1)).
      eapply okP_bind.
      { apply (for1_inv' (fun m a => chain (fun t a b r => r = add t (mul a b)) (start acc out k) (pairs u v (n + k) mF m) a)).
        - rewrite (pairs_empty zero) by lia. constructor.
        - intros m a Hm Ca. rewrite (rd_elt zero) by lia. cbn [bind]. rewrite (rd_elt zero) by lia. cbn [bind]. apply okP_ret.
          rewrite (pairs_snoc zero) by lia. econstructor; [exact Ca|reflexivity]. }
      intros a Ca. rewrite wr_ok by lia. apply okP_ret. split; [rewrite lenZ_updZ by lia; exact Lo|].
      intros j Hj. specialize (Ho j Hj). unfold P. rewrite (elt_updZ zero) by lia. destruct (Z.eqb_spec j k) as [->|Hne].
      * replace (k <? k + 1) with true by lia. unfold products, overlap_lo, overlap_hi. fold mF mL.
        destruct (Z_le_gt_dec mF mL); [now rewrite Z.max_r in Ca by lia|].
        rewrite Z.max_l in Ca by lia. rewrite (pairs_empty zero) in * by lia. exact Ca.
      * destruct (j <? k) eqn:E; [now replace (j <? k + 1) with true by lia|now replace (j <? k + 1) with false by lia].
  - intros o [Lo Ho]. split; [exact Lo|]. intros k Hk. specialize (Ho k Hk). now replace (k <? lenZ out) with true in Ho by lia.
Qed.

(** ** Slide *)
Definition fma_step (t a b r : K) : Prop := r = fmaV b a t \/ r = fmaS b a t.
(** is the product with element [f] of the first operand added to sample [k] by a batch operation;
    depends on the sizes only *)
Definition by_batch (W : Z) (vec : bool) (lenV lenOut n k f : Z) : bool :=
  k - (Z.max n f - n) <? (if vec then (Z.min (n + lenOut) (f + lenV) - Z.max n f) / W * W else 0).
Definition mac W vec u v (lenOut n k : Z) (t : K) (m : Z) : K :=
  (if by_batch W vec (lenZ v) lenOut n k m then fmaV else fmaS) (elt v (n + k - m)) (elt u m) t.
Definition indices (lo hi : Z) : list Z := tab (hi - lo) (fun i => lo + i).
Lemma indices_snoc lo m : lo <= m -> indices lo (m + 1) = indices lo m ++ [m].
Proof.
  intros H. unfold indices. replace (m + 1 - lo) with (m - lo + 1) by lia. rewrite tab_snoc by lia.
  now replace (lo + (m - lo)) with m by lia.
Qed.
Lemma indices_empty lo hi : hi <= lo -> indices lo hi = [].
Proof. intros H. unfold indices, tab. now replace (Z.to_nat (hi - lo)) with O by lia. Qed.
Lemma slide_body_fold W vec u v out n acc : 1 <= W ->
  okP (gSlideBody zero fmaV fmaS W vec u v out n acc) (fun out' => lenZ out' = lenZ out /\
  forall k, 0 <= k < lenZ out -> elt out' k =
    fold_left (mac W vec u v (lenZ out) n k) (indices (overlap_lo u v (n + k)) (overlap_hi u v (n + k))) (start acc out k)).
Proof.
  intros HW. unfold gSlideBody. cbn [IntervalModel.first IntervalModel.last].
  pose proof (lenZ_nonneg u). pose proof (lenZ_nonneg v). pose proof (lenZ_nonneg out).
  set (out0 := if acc then out else repeat zero (length out)).
  assert (L0 : lenZ out0 = lenZ out) by (subst out0; destruct acc; [reflexivity|apply lenZ_repeat]).
  assert (B0 : forall k, elt out0 k = start acc out k).
  { intros k. subst out0. unfold start. destruct acc; [reflexivity|]. apply (elt_repeat zero). }
  set (mF := Z.max 0 (n - lenZ v + 1)). set (mL := Z.min (lenZ u) (n + lenZ out)).
  eapply okP_imp.
  - apply (for1_inv' (fun f o => lenZ o = lenZ out /\ forall k, 0 <= k < lenZ out ->
      elt o k =
      fold_left (mac W vec u v (lenZ out) n k) (indices (overlap_lo u v (n + k)) (Z.min f (overlap_hi u v (n + k)))) (start acc out k))).
    + split; [exact L0|]. intros k Hk. rewrite B0. rewrite indices_empty by (unfold overlap_lo, overlap_hi; lia). reflexivity.
    + intros f o Hf [Lo Ho]. rewrite (rd_elt zero) by lia. cbn [bind].
      unfold Intersection, shift_sub, size. cbn [IntervalModel.first IntervalModel.last].
      set (a := Z.max n f). set (b := Z.min (n + lenZ out) (f + lenZ v)).
      destruct (Z.ltb_spec a b) as [Hab|Hab]; cbn [IntervalModel.first IntervalModel.last].
      * replace (b - n - (a - n)) with (b - a) by lia.
        eapply okP_imp.
        { apply Transform2With_spec; try lia.
          - cbn [src_ok]. lia.
          - cbn [src_ok]. lia. }
        intros o' [Lo' Ho']. split; [lia|]. intros k Hk. specialize (Ho k Hk).
        unfold elt at 1. rewrite Ho'. cbn [src_nth].
        destruct ((a - n <=? k) && (k <? a - n + (b - a))) eqn:E.
        { replace (a - n + (k - (a - n))) with k by lia.
          rewrite (nthZ_elt zero o k) by lia. rewrite (nthZ_elt zero v) by lia. cbn [lift2]. unfold gconvolution_fma.
          replace (a - f + (k - (a - n))) with (n + k - f) by lia.
          replace (Z.min (f + 1) (overlap_hi u v (n + k))) with (f + 1) by (unfold overlap_hi; lia).
          replace (Z.min f (overlap_hi u v (n + k))) with f in Ho by (unfold overlap_hi; lia).
          rewrite indices_snoc by (unfold overlap_lo; lia). rewrite fold_left_app. cbn [fold_left]. rewrite <- Ho. unfold mac, by_batch. fold a b.
          destruct (k - (a - n) <? _); reflexivity. }
        { change (match nthZ o k with Some x => x | None => zero end) with (elt o k).
          destruct (Z_lt_ge_dec (n + k) f).
          - replace (Z.min (f + 1) (overlap_hi u v (n + k))) with (Z.min f (overlap_hi u v (n + k))) by (unfold overlap_hi; lia). exact Ho.
          - rewrite indices_empty in * by (unfold overlap_lo; lia). exact Ho. }
      * replace (0 - n - (0 - n)) with 0 by lia. rewrite T2_empty by lia. apply okP_ret.
        split; [exact Lo|]. intros k Hk. specialize (Ho k Hk). destruct (Z_lt_ge_dec (n + k) f).
        { replace (Z.min (f + 1) (overlap_hi u v (n + k))) with (Z.min f (overlap_hi u v (n + k))) by (unfold overlap_hi; lia). exact Ho. }
        { rewrite indices_empty in * by (unfold overlap_lo; lia). exact Ho. }
  - intros o [Lo Ho]. split; [exact Lo|]. intros k Hk. specialize (Ho k Hk).
    destruct (Z_le_gt_dec (overlap_hi u v (n + k)) (overlap_lo u v (n + k))).
    + rewrite indices_empty in * by lia. exact Ho.
    + replace (Z.min (Z.max mF mL) (overlap_hi u v (n + k))) with (overlap_hi u v (n + k)) in Ho by (unfold overlap_hi, overlap_lo in *; lia).
      exact Ho.
Qed.

Lemma fold_mac_chain W vec u v lenOut n k s lo hi :
  chain fma_step s (pairs u v (n + k) lo hi) (fold_left (mac W vec u v lenOut n k) (indices lo hi) s).
Proof.
  destruct (Z_le_gt_dec lo hi) as [H|H]; [|rewrite (pairs_empty zero), indices_empty by lia; constructor].
  replace hi with (lo + (hi - lo)) by lia. assert (Hd : 0 <= hi - lo) by lia. set (d := hi - lo) in *. clearbody d. clear H.
  pattern d. apply natlike_ind; [| |exact Hd].
  - rewrite (pairs_empty zero), indices_empty by lia. constructor.
  - intros x Hx IH. unfold Z.succ. rewrite Z.add_assoc, (pairs_snoc zero), indices_snoc by lia. rewrite fold_left_app. cbn [fold_left].
    econstructor; [exact IH|]. unfold fma_step, mac. destruct (by_batch _ _ _ _ _ _ _); [now left|now right].
Qed.
Lemma slide_body_chain W vec u v out n acc : 1 <= W ->
  okP (gSlideBody zero fmaV fmaS W vec u v out n acc) (fun out' => lenZ out' = lenZ out /\
  forall k, 0 <= k < lenZ out -> chain fma_step (start acc out k) (products u v (n + k)) (elt out' k)).
Proof.
  intros HW. eapply okP_imp; [now apply slide_body_fold|]. intros o [Lo Ho]. split; [exact Lo|]. intros k Hk. rewrite Ho by exact Hk.
  apply fold_mac_chain.
Qed.

(** which operand the outer loop runs over *)
Definition slide_swaps u v : bool := if 512 <? Z.min (lenZ u) (lenZ v) then lenZ u <? lenZ v else lenZ v <? lenZ u.
Lemma slide_fold W vec u v out n acc : 1 <= W ->
  okP (gConvolutionSlide zero fmaV fmaS W vec u v out n acc) (fun out' => lenZ out' = lenZ out /\
  forall k, 0 <= k < lenZ out -> elt out' k =
    if slide_swaps u v
    then fold_left (mac W vec v u (lenZ out) n k) (indices (overlap_lo v u (n + k)) (overlap_hi v u (n + k))) (start acc out k)
    else fold_left (mac W vec u v (lenZ out) n k) (indices (overlap_lo u v (n + k)) (overlap_hi u v (n + k))) (start acc out k)).
Proof.
  intros HW. unfold gConvolutionSlide, slide_swaps. cbn [gConvolutionSlide_].
  rewrite (Z.min_comm (lenZ v) (lenZ u)).
  destruct (512 <? Z.min (lenZ u) (lenZ v)) eqn:E.
  - destruct (lenZ u <? lenZ v) eqn:E2; [|now apply slide_body_fold].
    replace (lenZ v <? lenZ u) with false by lia. now apply slide_body_fold.
  - destruct (lenZ v <? lenZ u) eqn:E2; [|now apply slide_body_fold].
    replace (lenZ u <? lenZ v) with false by lia. now apply slide_body_fold.
Qed.
Lemma slide_chain W vec u v out n acc : 1 <= W ->
  okP (gConvolutionSlide zero fmaV fmaS W vec u v out n acc) (fun out' => lenZ out' = lenZ out /\
  forall k, 0 <= k < lenZ out ->
    chain fma_step (start acc out k) (if slide_swaps u v then products v u (n + k) else products u v (n + k)) (elt out' k)).
Proof.
  intros HW. unfold gConvolutionSlide, slide_swaps. cbn [gConvolutionSlide_].
  rewrite (Z.min_comm (lenZ v) (lenZ u)).
  destruct (512 <? Z.min (lenZ u) (lenZ v)) eqn:E.
  - destruct (lenZ u <? lenZ v) eqn:E2; [|now apply slide_body_chain].
    replace (lenZ v <? lenZ u) with false by lia. now apply slide_body_chain.
  - destruct (lenZ v <? lenZ u) eqn:E2; [|now apply slide_body_chain].
    replace (lenZ u <? lenZ v) with false by lia. now apply slide_body_chain.
Qed.

(** ** Reduce: every block of 8 samples uses one common range of products; products reaching
    outside of [v] have the factor [zero] *)
Definition mac_step (t a b r : K) : Prop := r = add t (mul a b).
Definition covers u v (J lo hi : Z) : Prop :=
  0 <= lo <= hi /\ (lo < hi -> hi <= lenZ u) /\
  (overlap_lo u v J < overlap_hi u v J -> lo <= overlap_lo u v J /\ overlap_hi u v J <= hi).
Lemma reduce_chain u v out n :
  okP (gConvolutionReduce zero add mul u v out n false) (fun out' => lenZ out' = lenZ out /\
  forall k, 0 <= k < lenZ out -> exists lo hi, covers u v (n + k) lo hi /\
    chain mac_step zero (pairs u v (n + k) lo hi) (elt out' k)).
Proof.
  unfold gConvolutionReduce. cbn [negb assert_].
  pose proof (lenZ_nonneg u). pose proof (lenZ_nonneg v). pose proof (lenZ_nonneg out).
  set (P := fun J x => exists lo hi, covers u v J lo hi /\ chain mac_step zero (pairs u v J lo hi) x).
  eapply okP_imp.
  - apply (for_inv (fun k o => lenZ o = lenZ out /\ forall j, 0 <= j < lenZ out -> j < k * 8 -> P (n + j) (elt o j))); [lia| |].
    + split; [reflexivity|]. intros; lia.
    + intros k o Hk Hlt [Lo Ho]. replace (0 + k * 8) with (k * 8) in * by lia. cbv zeta.
      set (fo := k * 8) in *. set (mF := Z.max 0 (n + fo - lenZ v + 1)). set (mL := Z.min (lenZ u) (n + fo + 8)).
      eapply okP_bind with (P := fun st => lenZ (fst st) = 8 /\ forall i, 0 <= i < 8 -> P (n + fo + i) (elt (fst st) i)).
      { eapply okP_imp.
        - apply (for1_inv' (fun m (st : list K * list K) => lenZ (snd st) = 8 /\ lenZ (fst st) = 8 /\
            forall i, 0 <= i < 8 -> chain mac_step zero (pairs u v (n + fo + i) mF m) (elt (fst st) i))).
          + split; [reflexivity|]. split; [reflexivity|]. intros i Hi. cbn [fst]. rewrite (elt_repeat zero 8). rewrite (pairs_empty zero) by lia. constructor.
          + intros m [a d] Hm (Ld & La & Ca). cbn [fst snd] in *.
            eapply okP_bind with (P := fun d => lenZ d = 8 /\ forall i, 0 <= i < 8 -> elt d i = elt v (n + fo + i - m)).
            { eapply okP_imp.
              - apply (for1_inv (fun i d => lenZ d = 8 /\ forall j, 0 <= j < i -> elt d j = elt v (n + fo + j - m))); [|lia|].
                + split; [exact Ld|]. intros; lia.
                + intros i d' Hi [Ld' Hd'].
                  assert (E : (if (0 <=? n + fo + i - m) && (n + fo + i - m <? lenZ v) then rd v (n + fo + i - m) else Ok zero)
                              = Ok (elt v (n + fo + i - m))).
                  { destruct ((0 <=? n + fo + i - m) && (n + fo + i - m <? lenZ v)) eqn:E; [apply (rd_elt zero); lia|].
                    rewrite (elt_out zero) by lia. reflexivity. }
                  rewrite E. cbn [bind]. rewrite wr_ok by lia. apply okP_ret. split; [rewrite lenZ_updZ by lia; exact Ld'|].
                  intros j Hj. rewrite (elt_updZ zero) by lia. destruct (Z.eqb_spec j i) as [->|]; [reflexivity|]. apply Hd'; lia.
              - intros d' [Ld' Hd']. split; [exact Ld'|]. intros i Hi. apply Hd'. lia. }
            intros d' [Ld' Hd'].
            eapply okP_bind with (P := fun a => lenZ a = 8 /\ forall i, 0 <= i < 8 -> chain mac_step zero (pairs u v (n + fo + i) mF (m + 1)) (elt a i)).
            { eapply okP_imp.
              - apply (for1_inv (fun i a => lenZ a = 8 /\ forall j, 0 <= j < 8 ->
                    chain mac_step zero (pairs u v (n + fo + j) mF (if j <? i then m + 1 else m)) (elt a j))); [|lia|].
                + split; [exact La|]. intros j Hj. replace (j <? 0) with false by lia. now apply Ca.
                + intros i a' Hi [La' Hal]. rewrite (rd_elt zero) by lia. cbn [bind]. rewrite (rd_elt zero) by lia. cbn [bind].
                  rewrite (rd_elt zero) by lia. cbn [bind]. rewrite wr_ok by lia. apply okP_ret.
                  split; [rewrite lenZ_updZ by lia; exact La'|]. intros j Hj. specialize (Hal j Hj). rewrite (elt_updZ zero) by lia.
                  destruct (Z.eqb_spec j i) as [->|].
                  * replace (i <? i + 1) with true by lia. replace (i <? i) with false in Hal by lia.
                    rewrite (pairs_snoc zero) by lia. econstructor; [exact Hal|]. unfold mac_step. now rewrite Hd' by lia.
                  * destruct (j <? i) eqn:E; [now replace (j <? i + 1) with true by lia|now replace (j <? i + 1) with false by lia].
              - intros a' [La' Hal]. split; [exact La'|]. intros i Hi. specialize (Hal i Hi). now replace (i <? 8) with true in Hal by lia. }
            intros a' [La' Ca']. apply okP_ret. repeat split; assumption.
        - intros [a d] (Ld & La & Ca). cbn [fst snd] in *. split; [exact La|]. intros i Hi.
          exists mF, (Z.max mF mL). split; [|apply Ca; lia]. unfold covers, overlap_lo, overlap_hi. lia. }
      intros [a d] [La Ca]. cbn [fst] in *. cbv iota beta.
      assert (Hmn : 0 <= Z.min 8 (lenZ o - fo)) by lia.
      eapply okP_imp.
      * apply (for1_inv (fun i o => lenZ o = lenZ out /\ forall j, 0 <= j < lenZ out -> j < fo + i -> P (n + j) (elt o j))); [|exact Hmn|].
        { split; [exact Lo|]. intros j Hj1 Hj2. apply Ho; lia. }
        intros i o' Hi [Lo' Ho']. rewrite (rd_elt zero) by lia. cbn [bind]. rewrite wr_ok by lia.
        apply okP_ret. split; [rewrite lenZ_updZ by lia; exact Lo'|]. intros j Hj1 Hj2. rewrite (elt_updZ zero) by lia.
        destruct (Z.eqb_spec j (fo + i)) as [->|]; [|apply Ho'; lia].
        replace (n + (fo + i)) with (n + fo + i) by lia. apply Ca. lia.
      * intros o' [Lo' Ho']. split; [exact Lo'|]. intros j Hj1 Hj2. apply Ho'; lia.
  - intros o (k & Hk & Hge & Hor & Lo & Ho). split; [exact Lo|]. intros j Hj. apply Ho; lia.
Qed.

(** ** ReduceVec *)
Definition pre4 (t : Z -> K) (count : Z) (init : K) : K :=
  let c1 := Z.b2z (Z.odd count) in
  let a1 := if Z.odd count then add init (t 0) else init in
  if Z.testbit count 1 then add a1 (add (t c1) (t (c1 + 1))) else a1.
Definition pre4_len (count : Z) := Z.b2z (Z.odd count) + 2 * Z.b2z (Z.testbit count 1).
Definition block4 (t : Z -> K) (c : Z) : K := add (add (t c) (t (c + 1))) (add (t (c + 2)) (t (c + 3))).
Definition op3 (comp : bool) : K -> K -> K -> K * K := if comp then kahan add sub else nocarry add.
(** the sum of [count] terms by the unrolled loop *)
Definition loop_state (comp : bool) (t : Z -> K) (count q : Z) (init : K) : K * K :=
  fold_left (fun st b => op3 comp (fst st) (snd st) b) (tab q (fun k => block4 t (pre4_len count + 4 * k))) (zero, pre4 t count init).
Definition loop_sum (comp : bool) (t : Z -> K) (count : Z) (init : K) : K := snd (loop_state comp t count (count / 4) init).

Lemma loop_sum_ext comp t t' count init : 0 <= count -> (forall k, 0 <= k < count -> t k = t' k) ->
  loop_sum comp t count init = loop_sum comp t' count init.
Proof.
  intros Hc H. unfold loop_sum, loop_state. pose proof (bits_of_count2 count Hc) as Hb. unfold pre4_len, pre4.
  set (c1 := Z.b2z (Z.odd count)) in *. set (c2 := Z.b2z (Z.testbit count 1)) in *.
  assert (0 <= c1 <= 1) by (subst c1; destruct (Z.odd count); cbn; lia).
  assert (0 <= c2 <= 1) by (subst c2; destruct (Z.testbit count 1); cbn; lia).
  assert (0 <= count / 4) by (apply Z.div_pos; lia).
  f_equal. f_equal; [|f_equal].
  - apply tab_ext. intros k Hk. unfold block4. now rewrite !H by lia.
  - destruct (Z.odd count); cbn [Z.b2z] in c1; destruct (Z.testbit count 1); cbn [Z.b2z] in c2; subst c1 c2; rewrite ?H by lia; reflexivity.
Qed.

Lemma rl_term_elt W (a b : list K) p1 p2 : 0 <= W -> 0 <= p1 < lenZ a -> 0 <= p2 -> p2 + W <= lenZ b ->
  grl_term mul W a p1 b p2 = Ok (tab W (fun i => mul (elt a p1) (elt b (p2 + i)))).
Proof.
  intros HW H1 H2 H3. unfold grl_term. rewrite (rd_elt zero) by lia. cbn [bind].
  destruct (slice_ok b p2 W H2 HW H3) as (y & E & L & N). rewrite E. cbn [bind]. f_equal.
  apply list_eq_tab; [rewrite lenZ_map; lia|]. intros i Hi. rewrite nthZ_map, N by lia.
  rewrite (nthZ_elt zero) by lia. reflexivity.
Qed.

Lemma op3_tab (comp : bool) W (C S B : Z -> K) :
  (if comp return (list K -> list K -> list K -> list K * list K) then kahan (map2 add) (map2 sub) else nocarry (map2 add)) (tab W C) (tab W S) (tab W B) =
  (tab W (fun i => fst (op3 comp (C i) (S i) (B i))), tab W (fun i => snd (op3 comp (C i) (S i) (B i)))).
Proof. unfold op3. destruct comp; unfold kahan, nocarry; cbn [fst snd]; now rewrite ?map2_tab. Qed.

Lemma reduce_loop_shape W comp (a b : list K) p1 p2 count (A : Z -> K) :
  1 <= W -> 0 <= count ->
  (0 < count -> 0 <= p1 /\ p1 + count <= lenZ a /\ 0 <= p2 - count + 1 /\ p2 + W <= lenZ b) ->
  gConvolutionReduceLoop zero add sub mul W comp a p1 b p2 (tab W A) count =
  Ok (tab W (fun i => loop_sum comp (fun k => mul (elt a (p1 + k)) (elt b (p2 - k + i))) count (A i))).
Proof.
  intros HW Hc Hb. unfold gConvolutionReduceLoop.
  pose proof (bits_of_count2 count Hc) as Hbits. set (q := count / 4) in *.
  assert (Hq : 0 <= q) by (subst q; apply Z.div_pos; lia).
  set (T := fun i k => mul (elt a (p1 + k)) (elt b (p2 - k + i))).
  assert (TM : forall c, 0 <= c < count -> grl_term mul W a (p1 + c) b (p2 - c) = Ok (tab W (fun i => T i c))).
  { intros c Hcc. apply rl_term_elt; lia. }
  set (a1 := fun i => if Z.odd count then add (A i) (T i 0) else A i).
  match goal with |- bind ?m _ = _ => assert (S1 : m = Ok (tab W a1, Z.b2z (Z.odd count))) end.
  { subst a1. destruct (Z.odd count); cbn [Z.b2z] in *; [|reflexivity].
    specialize (TM 0 ltac:(lia)). rewrite Z.add_0_r, Z.sub_0_r in TM. rewrite TM. cbn [bind]. now rewrite map2_tab. }
  rewrite S1. cbn [bind]. clear S1. set (c1 := Z.b2z (Z.odd count)) in *.
  assert (Hc1 : 0 <= c1 <= 1) by (subst c1; destruct (Z.odd count); cbn; lia).
  match goal with |- bind ?m _ = _ => assert (S2 : m = Ok (tab W (fun i => pre4 (T i) count (A i)), pre4_len count)) end.
  { unfold pre4_len, pre4. fold c1. destruct (Z.testbit count 1); cbn [Z.b2z] in *.
    - rewrite TM by lia. cbn [bind].
      replace (p1 + c1 + 1) with (p1 + (c1 + 1)) by lia. replace (p2 - c1 - 1) with (p2 - (c1 + 1)) by lia.
      rewrite TM by lia. cbn [bind]. now rewrite !map2_tab.
    - now rewrite Z.mul_0_r, Z.add_0_r. }
  rewrite S2. cbn [bind]. clear S2. assert (Hc2 : 0 <= pre4_len count /\ count = pre4_len count + 4 * q).
  { unfold pre4_len. fold c1. destruct (Z.testbit count 1); cbn [Z.b2z] in *; lia. }
  set (c2 := pre4_len count) in *.
  match goal with |- bind (for_ _ _ _ ?bd _) _ = _ => set (body := bd) end.
  set (stt := fun k => (tab W (fun i => fst (loop_state comp (T i) count k (A i))), tab W (fun i => snd (loop_state comp (T i) count k (A i))))).
  assert (L : okP (for_ c2 count 4 body (repeat zero (Z.to_nat W), tab W (fun i => pre4 (T i) count (A i)))) (fun st => st = stt q)).
  { eapply okP_imp.
    - apply (for_inv (fun k st => st = stt k)); [lia| |].
      + unfold stt. f_equal. apply list_eq_tab; [rewrite lenZ_repeat; lia|]. intros i Hi. cbn. apply nthZ_repeat. lia.
      + intros k st Hk Hlt ->. subst body. unfold stt at 1. cbv beta iota. set (c := c2 + k * 4) in *.
        assert (c + 4 <= count) by lia.
        rewrite TM by lia. cbn [bind].
        replace (p1 + c + 1) with (p1 + (c + 1)) by lia. replace (p2 - c - 1) with (p2 - (c + 1)) by lia.
        rewrite TM by lia. cbn [bind].
        replace (p1 + c + 2) with (p1 + (c + 2)) by lia. replace (p2 - c - 2) with (p2 - (c + 2)) by lia.
        rewrite TM by lia. cbn [bind].
        replace (p1 + c + 3) with (p1 + (c + 3)) by lia. replace (p2 - c - 3) with (p2 - (c + 3)) by lia.
        rewrite TM by lia. cbn [bind]. apply okP_ret. rewrite !map2_tab, op3_tab. unfold stt.
        assert (E : forall i, loop_state comp (T i) count (k + 1) (A i) =
          op3 comp (fst (loop_state comp (T i) count k (A i))) (snd (loop_state comp (T i) count k (A i))) (block4 (T i) c)).
        { intros i. unfold loop_state. rewrite tab_snoc by lia. rewrite fold_left_app. cbn [fold_left]. fold c2.
          now replace (c2 + 4 * k) with c by lia. }
        f_equal; apply tab_ext; intros i Hi; now rewrite E.
    - intros st (k & Hk & Hge & Hor & ->). f_equal. lia. }
  apply okP_eq in L. rewrite L. reflexivity.
Qed.

Lemma rv_padding_elt W v : 1 <= W -> exists pad, grv_padding zero W v = Ok pad /\ lenZ pad = 4 * W - 2 /\
  (forall t, - W < t < W -> elt pad (W - 1 + t) = elt v t) /\
  (forall t, lenZ v - W < t < lenZ v + W - 1 -> elt pad (3 * W - 1 - lenZ v + t) = elt v t).
Proof.
  intros HW. unfold grv_padding. pose proof (lenZ_nonneg v).
  set (mw := Z.min W (lenZ v)).
  destruct (slice_ok v 0 mw ltac:(lia) ltac:(lia) ltac:(lia)) as (fr & E1 & L1 & N1). rewrite E1. cbn [bind].
  set (p0 := repeat zero (Z.to_nat (W * 4 - 2))).
  assert (Lp0 : lenZ p0 = 4 * W - 2) by (subst p0; rewrite lenZ_repeat; lia).
  assert (Np0 : forall i, 0 <= i < 4 * W - 2 -> nthZ p0 i = Some zero).
  { intros i Hi. subst p0. apply nthZ_repeat. lia. }
  destruct (wrs_ok p0 (W - 1) fr ltac:(lia) ltac:(lia)) as (p1 & E2 & L2 & N2). rewrite E2. cbn [bind].
  destruct (slice_ok v (lenZ v - mw) mw ltac:(lia) ltac:(lia) ltac:(lia)) as (bk & E3 & L3 & N3). rewrite E3. cbn [bind].
  rewrite L2, Lp0.
  destruct (wrs_ok p1 (4 * W - 2 - 1 - (W - 1) - (mw - 1)) bk ltac:(lia) ltac:(lia)) as (p2 & E4 & L4 & N4).
  exists p2. split; [exact E4|]. split; [lia|].
  assert (R : forall i, 0 <= i < 4 * W - 2 -> elt p2 i =
     if (3 * W - 1 - mw <=? i) && (i <? 3 * W - 1) then elt v (lenZ v - (3 * W - 1) + i)
     else if (W - 1 <=? i) && (i <? W - 1 + mw) then elt v (i - (W - 1)) else zero).
  { intros i Hi. unfold elt at 1. rewrite N4, L3, N2, L1, Np0 by lia.
    replace (4 * W - 2 - 1 - (W - 1) - (mw - 1)) with (3 * W - 1 - mw) by lia.
    replace (3 * W - 1 - mw + mw) with (3 * W - 1) by lia.
    destruct ((3 * W - 1 - mw <=? i) && (i <? 3 * W - 1)) eqn:B1.
    - rewrite N3 by lia. unfold elt.
      replace (lenZ v - mw + (i - (3 * W - 1 - mw))) with (lenZ v - (3 * W - 1) + i) by lia. reflexivity.
    - destruct ((W - 1 <=? i) && (i <? W - 1 + mw)) eqn:B2; [|reflexivity].
      rewrite N1 by lia. unfold elt. reflexivity. }
  split.
  - intros t Ht. rewrite R by lia.
    destruct ((3 * W - 1 - mw <=? W - 1 + t) && (W - 1 + t <? 3 * W - 1)) eqn:B1; [lia|].
    destruct ((W - 1 <=? W - 1 + t) && (W - 1 + t <? W - 1 + mw)) eqn:B2; [f_equal; lia|].
    rewrite (elt_out zero) by lia. reflexivity.
  - intros t Ht. rewrite R by lia.
    destruct ((3 * W - 1 - mw <=? 3 * W - 1 - lenZ v + t) && (3 * W - 1 - lenZ v + t <? 3 * W - 1)) eqn:B1; [f_equal; lia|].
    destruct ((W - 1 <=? 3 * W - 1 - lenZ v + t) && (3 * W - 1 - lenZ v + t <? W - 1 + mw)) eqn:B2.
    + lia.
    + rewrite (elt_out zero) by lia. reflexivity.
Qed.
Lemma load_partial_elt W junk (l : list K) p c : 1 <= W -> W <= lenZ junk -> 0 <= p -> 0 <= c <= W -> p + c <= lenZ l ->
  exists A, gload_partial_front W junk l p c = Ok (tab W A) /\ forall i, 0 <= i < c -> A i = elt l (p + i).
Proof.
  intros HW Hj Hp Hc Hl. unfold gload_partial_front.
  destruct (slice_ok l p c Hp ltac:(lia) Hl) as (y & E & L & N).
  destruct (Z.eqb_spec c W) as [->|Hne].
  - exists (elt y). split.
    + rewrite E. f_equal. rewrite (tab_elt zero y) at 1. now rewrite L.
    + intros i Hi. unfold elt. now rewrite N by lia.
  - rewrite E. cbn [bind]. set (full := y ++ firstn (Z.to_nat (W - c)) junk).
    exists (elt full). split.
    + f_equal. rewrite (tab_elt zero full) at 1. f_equal. unfold full. rewrite lenZ_app, lenZ_firstn. lia.
    + intros i Hi. unfold full, elt. rewrite nthZ_app1 by lia. now rewrite N by lia.
Qed.
Lemma store_partial_elt W (l : list K) p A c : 1 <= W -> 0 <= p -> 0 <= c <= W -> p + c <= lenZ l ->
  okP (gstore_partial_front W l p (tab W A) c)
    (fun l' => lenZ l' = lenZ l /\ forall j, 0 <= j < lenZ l -> elt l' j = if (p <=? j) && (j <? p + c) then A (j - p) else elt l j).
Proof.
  intros HW Hp Hc Hl. unfold gstore_partial_front.
  assert (LT : lenZ (tab W A) = W) by (rewrite lenZ_tab; lia).
  destruct (Z.eqb_spec c W) as [->|Hne].
  - apply okP_wrs; [lia|lia|]. intros l' L' N'. split; [exact L'|]. intros j Hj. unfold elt. rewrite N', LT.
    destruct ((p <=? j) && (j <? p + W)) eqn:B; [|reflexivity]. now rewrite nthZ_tab by lia.
  - destruct (slice_ok (tab W A) 0 c ltac:(lia) ltac:(lia) ltac:(lia)) as (y & E & L & N). rewrite E. cbn [bind].
    apply okP_wrs; [lia|lia|]. intros l' L' N'. split; [exact L'|]. intros j Hj. unfold elt. rewrite N', L.
    destruct ((p <=? j) && (j <? p + c)) eqn:B; [|reflexivity]. rewrite N by lia. now rewrite nthZ_tab by lia.
Qed.

(** three runs of the loop, one after the other, over adjacent ranges of products *)
Definition three_sums (comp : bool) (t : Z -> K) (m0 m1 m2 m3 : Z) (init : K) : K :=
  loop_sum comp (fun k => t (m2 + k)) (m3 - m2) (loop_sum comp (fun k => t (m1 + k)) (m2 - m1)
    (loop_sum comp (fun k => t (m0 + k)) (m1 - m0) init)).
Definition rv_value (W : Z) comp u v (J : Z) (init x : K) : Prop :=
  exists m0 m1 m2 m3, m0 <= m1 <= m2 /\ m2 <= m3 /\ covers u v J m0 m3 /\ m3 - m0 <= lenZ v + W - 1 /\
    x = three_sums comp (fun m => mul (elt u m) (elt v (J - m))) m0 m1 m2 m3 init.

(** sample [J], computed with the vector of samples that starts at [m] *)
Definition rv_sample (W : Z) comp u v (m J : Z) (init : K) : K :=
  let len1 := lenZ u in let len2 := lenZ v in
  let mF := Z.max 0 (m - len2 + 1) in
  let mL := Z.min len1 (m + W) in
  let mPre := Z.max mF (Z.min mL (m + W - len2)) in
  let mMid := Z.max mPre (Z.min m mL) in
  let mPost := Z.max mMid mL in
  three_sums comp (fun m => mul (elt u m) (elt v (J - m))) mF mPre mMid mPost init.
Lemma rv_sample_value W comp u v m J init : m <= J < m + W -> lenZ u <= lenZ v ->
  rv_value W comp u v J init (rv_sample W comp u v m J init).
Proof.
  intros HJ Hl. pose proof (lenZ_nonneg u). pose proof (lenZ_nonneg v).
  eexists _, _, _, _. split; [|split; [|split; [|split; [|reflexivity]]]]; unfold covers, overlap_lo, overlap_hi; lia.
Qed.

(** the vector sample [k] belongs to *)
Definition block_start (W k : Z) : Z := k / W * W.
Lemma reduce_vec_body_sample W comp junk u v out n acc :
  1 <= W -> W <= lenZ junk -> lenZ u <= lenZ v ->
  okP (gReduceVecBody zero add sub mul W comp junk u v out n acc) (fun out' => lenZ out' = lenZ out /\
    forall k, 0 <= k < lenZ out -> elt out' k = rv_sample W comp u v (n + block_start W k) (n + k) (start acc out k)).
Proof.
  intros HW Hj Huv. unfold gReduceVecBody.
  pose proof (lenZ_nonneg u). pose proof (lenZ_nonneg v). pose proof (lenZ_nonneg out).
  destruct (rv_padding_elt W v HW) as (pad & E & Lp & Nfr & Nbk). rewrite E. cbn [bind].
  eapply okP_imp.
  - apply (for_inv (fun k o => lenZ o = lenZ out /\ forall j, 0 <= j < lenZ out ->
      elt o j = if j <? k * W then rv_sample W comp u v (n + block_start W j) (n + j) (start acc out j) else elt out j)); [lia| |].
    + split; [reflexivity|]. intros j Hj'. now replace (j <? 0 * W) with false by lia.
    + intros k o Hk Hlt [Lo Ho]. replace (0 + k * W) with (k * W) in * by lia. cbv zeta.
      assert (Hfo : 0 <= k * W) by nia. replace ((k + 1) * W) with (k * W + W) by lia.
      assert (Hblk : forall j, k * W <= j < k * W + W -> block_start W j = k * W).
      { intros j Hj'. unfold block_start. replace (j / W) with k; [reflexivity|]. apply Z.div_unique with (j - k * W); lia. }
      set (fo := k * W) in *. clearbody fo. rewrite Lp, Lo.
      set (iw := Z.min (lenZ out - fo) W).
      assert (A0 : exists A, (if acc then gload_partial_front W junk o fo iw else Ok (repeat zero (Z.to_nat W))) = Ok (tab W A)
                     /\ forall i, 0 <= i < iw -> A i = start acc out (fo + i)).
      { unfold start. destruct acc.
        - destruct (load_partial_elt W junk o fo iw HW Hj Hfo ltac:(lia) ltac:(lia)) as (A & EA & HA).
          exists A. split; [exact EA|]. intros i Hi. rewrite HA by lia. rewrite Ho by lia.
          now replace (fo + i <? fo) with false by lia.
        - exists (fun _ => zero). split; [|reflexivity]. f_equal. apply list_eq_tab; [rewrite lenZ_repeat; lia|].
          intros i Hi. apply nthZ_repeat. lia. }
      destruct A0 as (A & EA & HA). rewrite EA. cbn [bind].
      set (m := n + fo) in *.
      set (mF := Z.max 0 (m - lenZ v + 1)). set (mL := Z.min (lenZ u) (m + W)).
      set (mPre := Z.max mF (Z.min mL (m + W - lenZ v))). set (mMid := Z.max mPre (Z.min m mL)).
      set (mPost := Z.max mMid mL).
      rewrite reduce_loop_shape; [|exact HW|lia|lia]. cbn [bind].
      rewrite reduce_loop_shape; [|exact HW|lia|lia]. cbn [bind].
      rewrite reduce_loop_shape; [|exact HW|lia|lia]. cbn [bind].
      eapply okP_imp; [apply store_partial_elt; lia|].
      intros o' [Lo' Ho']. split; [lia|]. intros j Hjr. rewrite Ho' by lia.
      destruct ((fo <=? j) && (j <? fo + iw)) eqn:B.
      * replace (j <? fo + W) with true by lia. rewrite HA by lia.
        replace (fo + (j - fo)) with j by lia.
        rewrite Hblk by lia. unfold rv_sample. cbv zeta. fold m. fold mF mL. fold mPre. fold mMid. fold mPost. unfold three_sums.
        assert (S : forall lo hi (b : list K) (g : Z -> Z) x, lo <= hi ->
            (forall x, lo <= x < hi -> elt b (g (x - lo) + (j - fo)) = elt v (n + j - x)) ->
            loop_sum comp (fun k0 => mul (elt u (lo + k0)) (elt b (g k0 + (j - fo)))) (hi - lo) x =
            loop_sum comp (fun k0 => mul (elt u (lo + k0)) (elt v (n + j - (lo + k0)))) (hi - lo) x).
        { intros lo hi b g x Hle Hb. apply loop_sum_ext; [lia|]. intros y Hy. f_equal.
          rewrite <- Hb by lia. f_equal. f_equal. f_equal. lia. }
        rewrite (S mF mPre pad (fun k0 => 4 * W - 2 - W + 1 + m - mF - lenZ v - k0)); [|lia|].
        2:{ intros x Hx. rewrite <- Nbk by lia. f_equal. lia. }
        rewrite (S mPre mMid v (fun k0 => Z.max 0 (m - mPre) - k0)); [|lia|].
        2:{ intros x Hx. f_equal. lia. }
        rewrite (S mMid mPost pad (fun k0 => m - mMid + W - 1 - k0)); [reflexivity|lia|].
        intros x Hx. rewrite <- Nfr by lia. f_equal. lia.
      * rewrite Ho by lia. destruct (j <? fo) eqn:B2.
        { now replace (j <? fo + W) with true by lia. }
        { now replace (j <? fo + W) with false by lia. }
  - intros o (k & Hk & Hge & Hor & Lo & Ho). split; [exact Lo|]. intros j Hjr. rewrite Ho by lia.
    now replace (j <? k * W) with true by lia.
Qed.

Lemma reduce_vec_sample W comp junk u v out n acc : 1 <= W -> W <= lenZ junk ->
  okP (gConvolutionReduceVec zero add sub mul W comp junk u v out n acc) (fun out' => lenZ out' = lenZ out /\
    forall k, 0 <= k < lenZ out -> elt out' k =
      if lenZ v <? lenZ u then rv_sample W comp v u (n + block_start W k) (n + k) (start acc out k)
      else rv_sample W comp u v (n + block_start W k) (n + k) (start acc out k)).
Proof.
  intros HW Hj. unfold gConvolutionReduceVec. cbn [gConvolutionReduceVec_].
  destruct (lenZ v <? lenZ u) eqn:E.
  - replace (lenZ u <? lenZ v) with false by lia. apply reduce_vec_body_sample; lia.
  - apply reduce_vec_body_sample; lia.
Qed.

Lemma reduce_vec_value W comp junk u v out n acc : 1 <= W -> W <= lenZ junk ->
  okP (gConvolutionReduceVec zero add sub mul W comp junk u v out n acc) (fun out' => lenZ out' = lenZ out /\
    forall k, 0 <= k < lenZ out -> if lenZ v <? lenZ u then rv_value W comp v u (n + k) (start acc out k) (elt out' k)
                                  else rv_value W comp u v (n + k) (start acc out k) (elt out' k)).
Proof.
  intros HW Hj. eapply okP_imp; [now apply reduce_vec_sample|]. intros o [Lo Ho]. split; [exact Lo|]. intros k Hk. rewrite Ho by exact Hk.
  assert (n + block_start W k <= n + k < n + block_start W k + W) by (unfold block_start; pose proof (Z.div_mod k W ltac:(lia)); pose proof (Z.mod_pos_bound k W ltac:(lia)); lia).
  destruct (lenZ v <? lenZ u) eqn:E; apply rv_sample_value; lia.
Qed.
End Law_free.
