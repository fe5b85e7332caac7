(** C14 (overlap-add), C15 (sizes), C19 (streaming FIR). *)
From Coq Require Import Reals Lra.
From Verif Require Import Base BaseFacts IntervalModel KernelModel KernelProofs ConvModel ConvProofs PropsConv Complex
  FftModel FftProofs OlaModel OlaProofs FirModel FirProofs.
From Coq Require Import ZifyBool ZifyNat.
Ltac Zify.zify_post_hook ::= Z.div_mod_to_equations.
Open Scope Z_scope.

(** ** Specification vocabulary.
    A signal whose element type is real has only samples without imaginary part. *)
Definition typed (is_complex : bool) (x : list C) : Prop :=
  is_complex = false -> forall s, In s x -> im s = 0%R.
Lemma typed_isreal c x : typed c x -> c = false -> isreal x.
Proof.
  intros T E j Hj. apply (T E). pose proof (nthZ_at0 (K := Cring) x j Hj) as N.
  unfold nthZ in N. destruct (j <? 0); [discriminate|]. exact (nth_error_In _ _ N).
Qed.
(** a chunk size is admissible for a shorter signal of the given length: chosen by the library
    (the argument 0; lengths up to 2^50) or at least twice that length minus one *)
Definition chunk_ok (chunk short : Z) : Prop := chunk = 0 /\ short <= 2 ^ 50 \/ 2 * short - 1 <= chunk.

(** *** C14 *)
(** written (or added) over the caller's array [out], any window within the full convolution;
    [iters]: rounds of Newton's method in the choice of the size, any number *)
Theorem C14_window_into : forall iters cu cv (out u v : list C) offset chunk clear,
  u <> [] -> v <> [] -> lenZ u < 2 ^ 63 -> lenZ v < 2 ^ 63 -> typed cu u -> typed cv v ->
  0 <= offset -> offset + lenZ out <= lenZ u + lenZ v - 1 ->
  chunk_ok chunk (Z.min (lenZ u) (lenZ v)) ->
  okP (OverlapAddInto iters cu cv out u v offset chunk clear)
      (wrote_window (K := Cring) u v out offset (negb clear)).
Proof.
  intros iters cu cv out u v offset chunk clear Hu Hv Bu Bv Tu Tv Ho Hw Hc.
  eapply okP_imp; [apply ola_into_spec; try assumption; now apply typed_isreal|apply ww].
Qed.
Print Assumptions C14_window_into.

(** the function returning a signal gives exactly what Convolution gives *)
Theorem C14_same_as_convolution : forall iters cu cv (u v : list C) offset len chunk W1 W2 vec junk,
  u <> [] -> v <> [] -> lenZ u < 2 ^ 63 -> lenZ v < 2 ^ 63 -> typed cu u -> typed cv v ->
  0 <= offset -> 0 <= len -> offset + len <= lenZ u + lenZ v - 1 ->
  chunk_ok chunk (Z.min (lenZ u) (lenZ v)) ->
  1 <= W1 -> 1 <= W2 -> W2 <= lenZ junk ->
  OverlapAddAt iters cu cv u v offset len chunk = ConvolutionAt (K := Cring) W1 W2 vec junk u v offset len /\
  OverlapAddAt iters cu cv u v offset len chunk = Ok (tab len (fun k => conv_at (K := Cring) u v (offset + k))).
Proof.
  intros iters cu cv u v offset len chunk W1 W2 vec junk Hu Hv Bu Bv Tu Tv Ho Hl Hw Hc H1 H2 H3.
  assert (E : OverlapAddAt iters cu cv u v offset len chunk = Ok (tab len (fun k => conv (K := Cring) u v (offset + k)))).
  { unfold OverlapAddAt. apply okP_eq. eapply okP_imp.
    - apply ola_into_spec; try assumption; try (now apply typed_isreal). rewrite lenZ_zerosC; lia.
    - cbn beta. intros r [L A]. cbn [car Cring] in L. rewrite lenZ_zerosC in L by lia. cbn [negb] in A.
      apply atC_ext; [rewrite lenZ_tab; lia|]. intros k Hk. rewrite atC_tab by lia. rewrite A by (cbn [car Cring]; rewrite lenZ_zerosC; lia).
      unfold zerosC. rewrite (at0_repeat (K := Cring)). change (radd (c := Cring)) with Cadd. change (r0 (c := Cring)) with C0. cring. }
  split.
  - rewrite E. symmetry. apply (conv_at_spec (K := Cring)); try assumption. cbn [car Cring].
    unfold ConvolutionLength. replace ((lenZ u =? 0) || (lenZ v =? 0)) with false; [lia|].
    assert (lenZ u <> 0) by (intros E0; apply lenZ_0_nil in E0; contradiction).
    assert (lenZ v <> 0) by (intros E0; apply lenZ_0_nil in E0; contradiction). lia.
  - rewrite E. f_equal. apply tab_ext. intros k Hk. symmetry. apply (conv_at_conv Cring).
Qed.
Print Assumptions C14_same_as_convolution.

Theorem C14_modes : forall iters cu cv (u v : list C) m chunk W1 W2 vec junk,
  u <> [] -> v <> [] -> lenZ u < 2 ^ 63 -> lenZ v < 2 ^ 63 -> typed cu u -> typed cv v ->
  chunk_ok chunk (Z.min (lenZ u) (lenZ v)) ->
  1 <= W1 -> 1 <= W2 -> W2 <= lenZ junk ->
  OverlapAdd iters cu cv u v m chunk = Convolution (K := Cring) W1 W2 vec junk u v m.
Proof.
  intros iters cu cv u v m chunk W1 W2 vec junk Hu Hv Bu Bv Tu Tv Hc H1 H2 H3.
  assert (0 < lenZ u) by (pose proof (lenZ_nonneg u); assert (lenZ u <> 0) by (intros E0; apply lenZ_0_nil in E0; contradiction); lia).
  assert (0 < lenZ v) by (pose proof (lenZ_nonneg v); assert (lenZ v <> 0) by (intros E0; apply lenZ_0_nil in E0; contradiction); lia).
  unfold OverlapAdd, Convolution, gConvolution, size_sub. cbn [car Cring]. rewrite !Z.mod_small by lia.
  apply C14_same_as_convolution; try assumption.
  - destruct m; lia.
  - unfold ConvolutionLength. replace ((lenZ u =? 0) || (lenZ v =? 0)) with false by lia. destruct m; lia.
  - unfold ConvolutionLength. replace ((lenZ u =? 0) || (lenZ v =? 0)) with false by lia. destruct m; lia.
Qed.
Print Assumptions C14_modes.

Example C14_nontrivial : exists (u v : list C), u <> [] /\ v <> [] /\ typed false u /\ typed true v /\
  chunk_ok 4 (Z.min (lenZ u) (lenZ v)) /\ chunk_ok 0 (Z.min (lenZ u) (lenZ v)).
Proof.
  exists [C1; C0; C1; C1], [Ci; C1]. split; [discriminate|]. split; [discriminate|].
  split; [intros _ s Hs; cbn in Hs; destruct Hs as [<-|[<-|[<-|[<-|[]]]]]; reflexivity|].
  split; [intros E; discriminate|]. unfold chunk_ok. cbn. lia.
Qed.

(** *** C15 *)
Theorem C15_next_power_of_two : forall n, 1 <= n < 2 ^ 63 ->
  okP (NextPowerOfTwo n) (fun p => (exists e, 0 <= e /\ p = 2 ^ e) /\ n <= p /\
       forall e, 0 <= e -> n <= 2 ^ e -> p <= 2 ^ e).
Proof.
  intros n Hn. eapply okP_imp; [apply next_pow2_spec; exact Hn|]. cbn beta. intros p (e & He & -> & H1 & H2).
  split; [exists e; auto|]. split; [exact H1|]. intros f Hf Hn2.
  destruct (Z_le_gt_dec e f) as [|G]; [now apply Z.pow_le_mono_r; lia|].
  destruct H2 as [->|H2]; [lia|]. assert (2 ^ f <= 2 ^ (e - 1)) by (apply Z.pow_le_mono_r; lia). lia.
Qed.
Print Assumptions C15_next_power_of_two.
(** 0 is special: the result is 0, which is not a power of two *)
Theorem C15_next_power_of_two_zero : NextPowerOfTwo 0 = Ok 0.
Proof. reflexivity. Qed.
Print Assumptions C15_next_power_of_two_zero.
(** the size chosen for overlap-add is admissible, and is a power of two or no larger than the
    full convolution; [iters]: rounds of Newton's method *)
Theorem C15_practical_size_admissible : forall iters signal filter, 1 <= filter <= signal -> filter <= 2 ^ 50 ->
  okP (OptimalPracticalSize iters signal filter) (fun n => 2 * filter - 1 <= n /\
      (n <= signal + filter - 1 \/ exists e, 0 <= e /\ n = 2 ^ e)).
Proof. exact practical_size_spec. Qed.
Print Assumptions C15_practical_size_admissible.
(** the theoretical optimum, after any number of rounds of Newton's method (exact reals) *)
Theorem C15_theoretical_size_bounds : forall iters F, (1 <= F <= 2 ^ 50)%R ->
  (2 * F <= OptimalTheoreticalSize iters F <= 2 ^ 57)%R.
Proof. exact theoretical_bounds. Qed.
Print Assumptions C15_theoretical_size_bounds.
Example C15_nontrivial : NextPowerOfTwo 37 = Ok 64 /\ NextPowerOfTwo 64 = Ok 64. Proof. split; reflexivity. Qed.

(** *** C19 *)
Section StreamSpec.
Context {K : CRing}.
(** output sample k of the causal filter with taps [h], given everything that was fed before
    ([past], zeros before that) and the current block *)
Definition causal (h past block : list K) (k : Z) : K :=
  sumZ 0 (lenZ h) (fun t => rmul (at0 h t) (at0 (past ++ block) (lenZ past + k - t))).
(** the state after [past] was fed, from zero: the last |h|-1 samples *)
Definition state_after (h past : list K) : list K :=
  tab (lenZ h - 1) (fun i => at0 past (lenZ past - (lenZ h - 1) + i)).
Lemma causal_conv h past block k : causal h past block k = conv (past ++ block) h (lenZ past + k).
Proof. symmetry. rewrite conv_comm. reflexivity. Qed.
Lemma conv_ext_tail (l m h : list K) j jm : lenZ h - 1 <= j -> (forall t, 0 <= t < lenZ h -> at0 l (j - t) = at0 m (jm - t)) ->
  conv l h j = conv m h jm.
Proof.
  intros Hj H. rewrite (conv_comm l), (conv_comm m). unfold conv. apply sumZ_ext. intros t Ht. now rewrite H.
Qed.
Lemma lenZ_state_after h past : 1 <= lenZ h -> lenZ (state_after h past) = lenZ h - 1.
Proof. intros H. unfold state_after. rewrite lenZ_tab. lia. Qed.
Lemma at0_state_app h past sig i : 1 <= lenZ h -> 0 <= i ->
  at0 (state_after h past ++ sig) i = at0 (past ++ sig) (lenZ past - (lenZ h - 1) + i).
Proof.
  intros Hh Hi. rewrite !at0_app. rewrite lenZ_state_after by exact Hh. pose proof (lenZ_nonneg past).
  destruct (Z.ltb_spec i (lenZ h - 1)).
  - unfold state_after. rewrite at0_tab by lia. now replace (lenZ past - (lenZ h - 1) + i <? lenZ past) with true by lia.
  - replace (lenZ past - (lenZ h - 1) + i <? lenZ past) with false by lia. f_equal. lia.
Qed.
Lemma state_after_app h past sig : 1 <= lenZ h ->
  skipn (Z.to_nat (lenZ sig)) (state_after h past ++ sig) = state_after h (past ++ sig).
Proof.
  intros Hh. pose proof (lenZ_nonneg sig).
  apply at0_ext.
  - rewrite lenZ_skipn, lenZ_app, !lenZ_state_after by exact Hh. lia.
  - intros i Hi. rewrite lenZ_skipn, lenZ_app, lenZ_state_after in Hi by exact Hh.
    rewrite at0_skipn by lia. rewrite at0_state_app by lia. unfold state_after. rewrite at0_tab by lia.
    rewrite lenZ_app. f_equal. lia.
Qed.
Lemma fir_ok_causal h past sig r : 1 <= lenZ h -> fir_ok sig h (state_after h past) r ->
  fst r = tab (lenZ sig) (causal h past sig) /\ snd r = state_after h (past ++ sig).
Proof.
  intros Hh [E1 E2]. split.
  - rewrite E1. apply tab_ext. intros k Hk. rewrite causal_conv. apply conv_ext_tail.
    + rewrite lenZ_state_after; lia.
    + intros t Ht. rewrite lenZ_state_after by exact Hh. rewrite at0_state_app by lia. f_equal. lia.
  - rewrite E2. now apply state_after_app.
Qed.
End StreamSpec.

(** one call: whatever was fed before *)
Theorem C19_one_call : forall (K : CRing) W1 W2 vec (junk out signal taps past : list K),
  1 <= W1 -> 1 <= W2 -> W2 <= lenZ junk -> 1 <= lenZ taps < 2 ^ 64 -> lenZ out = lenZ signal ->
  FilterConvState W1 W2 vec junk out signal taps (state_after taps past) =
  Ok (tab (lenZ signal) (causal taps past signal), state_after taps (past ++ signal)).
Proof.
  intros K W1 W2 vec junk out signal taps past H1 H2 H3 H4 H5.
  apply okP_eq. eapply okP_imp; [apply filter_conv_spec; try assumption; apply lenZ_state_after; lia|].
  cbn beta. intros [o s] H. apply fir_ok_causal in H; [|lia]. destruct H as [E1 E2]. cbn in E1, E2. now subst.
Qed.
Print Assumptions C19_one_call.

(** any partition into blocks (empty blocks included), starting with any state: the outputs
    joined together, and the final state, are those of one call on the joined blocks *)
Theorem C19_blocks : forall (K : CRing) W1 W2 vec (junk taps state : list K) (blocks : list (list K)),
  1 <= W1 -> 1 <= W2 -> W2 <= lenZ junk -> 1 <= lenZ taps < 2 ^ 64 -> lenZ state = lenZ taps - 1 ->
  exists outs final,
    run_blocks (fun b s => FilterConvStateNew W1 W2 vec junk b taps s) blocks state = Ok (outs, final) /\
    FilterConvStateNew W1 W2 vec junk (concat blocks) taps state = Ok (concat outs, final) /\
    map (@lenZ K) outs = map (@lenZ K) blocks.
Proof.
  intros K W1 W2 vec junk taps state blocks H1 H2 H3 H4 H5.
  assert (Hs : block_step_ok taps (fun _ => True) (fun _ => True) (fun b s => FilterConvStateNew W1 W2 vec junk b taps s)).
  { intros b s _ _ Ls. unfold FilterConvStateNew. eapply okP_imp; [apply filter_conv_spec; try assumption; rewrite lenZ_repeat; reflexivity|].
    cbn beta. auto. }
  destruct (run_blocks_spec taps _ _ _ blocks state ltac:(lia) Hs (proj2 (Forall_forall _ _) (fun _ _ => I)) I H5) as ([outs final] & E & A1 & A2 & A3).
  exists outs, final. split; [exact E|]. cbn [fst snd] in *. split; [|exact A2].
  apply okP_eq. unfold FilterConvStateNew. eapply okP_imp; [apply filter_conv_spec; try assumption; rewrite lenZ_repeat; reflexivity|].
  cbn beta. intros [o s] [F1 F2]. cbn [fst snd] in *. now rewrite F1, F2, A1, A3.
Qed.
Print Assumptions C19_blocks.

(** from a zero state the joined output is the beginning of the full convolution *)
Theorem C19_prefix_of_convolution : forall (K : CRing) W1 W2 vec (junk taps : list K) (blocks : list (list K)),
  1 <= W1 -> 1 <= W2 -> W2 <= lenZ junk -> 1 <= lenZ taps < 2 ^ 64 ->
  okP (run_blocks (fun b s => FilterConvStateNew W1 W2 vec junk b taps s) blocks (repeat r0 (Z.to_nat (lenZ taps - 1))))
      (fun r => concat (fst r) = tab (lenZ (concat blocks)) (conv_at (concat blocks) taps) /\
                snd r = state_after taps (concat blocks)).
Proof.
  intros K W1 W2 vec junk taps blocks H1 H2 H3 H4.
  assert (E0 : repeat r0 (Z.to_nat (lenZ taps - 1)) = state_after taps []).
  { apply at0_ext; [rewrite lenZ_repeat, lenZ_state_after; lia|]. intros i Hi. rewrite lenZ_repeat in Hi. rewrite at0_repeat.
    unfold state_after. rewrite at0_tab by lia. symmetry. apply at0_nil. }
  rewrite E0.
  destruct (C19_blocks K W1 W2 vec junk taps (state_after taps []) blocks H1 H2 H3 H4 ltac:(apply lenZ_state_after; lia)) as (outs & final & E1 & E2 & _).
  exists (outs, final). split; [exact E1|]. unfold FilterConvStateNew in E2. rewrite C19_one_call in E2; try assumption; [|rewrite lenZ_repeat; reflexivity].
  injection E2 as E3 E4. cbn [fst snd]. split; [|symmetry; exact E4]. rewrite <- E3. apply tab_ext. intros k Hk.
  rewrite causal_conv, conv_at_conv. cbn [app]. reflexivity.
Qed.
Print Assumptions C19_prefix_of_convolution.

(** overlap-add: the same result for at least two taps and a nonempty block.  [admissible chunk]
    for both internal convolutions (state with taps, block with taps) *)
Theorem C19_overlap_add_agrees : forall iters cs cf (signal taps state : list C) chunk W1 W2 vec junk,
  1 <= W1 -> 1 <= W2 -> W2 <= lenZ junk ->
  2 <= lenZ taps < 2 ^ 63 -> signal <> [] -> lenZ signal < 2 ^ 63 -> lenZ state = lenZ taps - 1 ->
  typed cs signal -> typed cs state -> typed cf taps ->
  (chunk = 0 /\ lenZ taps <= 2 ^ 50 \/ 2 * Z.max (lenZ taps - 1) (Z.min (lenZ signal) (lenZ taps)) - 1 <= chunk) ->
  FilterOlaStateNew iters cs cf signal taps state chunk = FilterConvStateNew (K := Cring) W1 W2 vec junk signal taps state.
Proof.
  intros iters cs cf signal taps state chunk W1 W2 vec junk H1 H2 H3 HF Hne Hs HS T1 T2 T3 Hc.
  pose proof (lenZ_nonneg signal).
  destruct (filter_conv_spec (K := Cring) W1 W2 vec junk (repeat r0 (length signal)) signal taps state) as ([o s] & E & F1 & F2);
    try assumption; try (cbn [car Cring]; lia); [rewrite lenZ_repeat; reflexivity|].
  unfold FilterConvStateNew. etransitivity; [|symmetry; exact E].
  apply okP_eq. unfold FilterOlaStateNew. eapply okP_imp.
  - apply filter_ola_spec; try assumption.
    + apply lenZ_zerosC. lia.
    + intros Ec. split; eapply typed_isreal; eauto.
    + intros Ec. eapply typed_isreal; eauto.
  - cbn beta. intros [o' s'] [G1 G2]. cbn [fst snd] in *. now rewrite F1, F2, G1, G2.
Qed.
Print Assumptions C19_overlap_add_agrees.

(** stateless overlap-add filtering equals stateless convolution filtering *)
Theorem C19_stateless_agree : forall iters cs cf (signal taps : list C) m chunk W1 W2 vec junk,
  1 <= W1 -> 1 <= W2 -> W2 <= lenZ junk -> signal <> [] -> taps <> [] -> lenZ signal < 2 ^ 63 -> lenZ taps < 2 ^ 63 ->
  typed cs signal -> typed cf taps -> chunk_ok chunk (Z.min (lenZ signal) (lenZ taps)) ->
  exists y, FilterOlaMode iters cs cf signal taps m chunk = Ok y /\
            FilterConvMode (K := Cring) W1 W2 vec junk signal taps m = Ok y /\
            Convolution (K := Cring) W1 W2 vec junk signal taps m = Ok y.
Proof.
  intros iters cs cf u v m chunk W1 W2 vec junk H1 H2 H3 Hu Hv Bu Bv Tu Tv Hc.
  assert (0 < lenZ u) by (pose proof (lenZ_nonneg u); assert (lenZ u <> 0) by (intros E0; apply lenZ_0_nil in E0; contradiction); lia).
  assert (0 < lenZ v) by (pose proof (lenZ_nonneg v); assert (lenZ v <> 0) by (intros E0; apply lenZ_0_nil in E0; contradiction); lia).
  set (off := match m with CONV_CENTRAL => Z.min (lenZ u - 1) (lenZ v - 1) | CONV_FULL => 0 end).
  set (n := ConvolutionLength (lenZ u) (lenZ v) m).
  assert (Hn : 0 <= n /\ 0 <= off /\ off + n <= lenZ u + lenZ v - 1).
  { unfold n, off, ConvolutionLength. replace ((lenZ u =? 0) || (lenZ v =? 0)) with false by lia. destruct m; lia. }
  assert (Eoff : match m with CONV_CENTRAL => Z.min (size_sub (lenZ u) 1) (size_sub (lenZ v) 1) | CONV_FULL => 0 end = off).
  { unfold off, size_sub. rewrite !Z.mod_small by lia. destruct m; reflexivity. }
  assert (FL : ConvolutionLength (lenZ u) (lenZ v) CONV_FULL = lenZ u + lenZ v - 1).
  { unfold ConvolutionLength. replace ((lenZ u =? 0) || (lenZ v =? 0)) with false by lia. lia. }
  exists (tab n (fun k => conv (K := Cring) u v (off + k))).
  assert (Lz : lenZ (zerosC n) = n) by (apply lenZ_zerosC; lia).
  assert (D : forall r, conv_result (K := Cring) u v (zerosC n) off false r -> r = tab n (fun k => conv (K := Cring) u v (off + k))).
  { intros r [L A]. cbn [car Cring] in *. apply atC_ext; [rewrite lenZ_tab; lia|]. intros k Hk. rewrite atC_tab by lia. rewrite A by lia.
    change (radd (c := Cring)) with Cadd. change (r0 (c := Cring)) with C0. cring. }
  split; [|split].
  - apply okP_eq. unfold FilterOlaMode, OverlapAddIntoMode. fold n. rewrite Eoff. apply okP_assert; [lia|].
    eapply okP_imp; [apply ola_into_spec; try assumption; try lia; now apply typed_isreal|]. exact D.
  - apply okP_eq. unfold FilterConvMode, ConvolutionIntoMode, gConvolutionIntoMode. cbn [car Cring]. fold n. rewrite Eoff. change (repeat r0 (Z.to_nat n)) with (zerosC n).
    apply okP_assert; [lia|].
    eapply okP_imp; [apply conv_into_spec; try assumption; cbn [car Cring]; lia|]. exact D.
  - unfold Convolution, gConvolution. cbn [car Cring]. rewrite Eoff. fold n. apply (conv_at_spec (K := Cring)); try assumption; cbn [car Cring]; lia.
Qed.
Print Assumptions C19_stateless_agree.

(** limits of the overlap-add variant: with a single tap (so an empty state) or an empty block it
    runs into its own assertion, whatever the chunk size below the size_t maximum *)
Lemma practical_bound iters s n : OptimalPracticalSize iters s 0 = Ok n -> n <= 2 ^ 63.
Proof.
  unfold OptimalPracticalSize, ConvolutionLength. rewrite orb_true_r. unfold assert_.
  destruct (0 <=? _) eqn:E0; [|discriminate]. unfold NextPowerOfTwo, assert_.
  set (t := Int_part _) in *. destruct (Z.ltb_spec t (2 ^ 63)) as [Ht|]; [|discriminate].
  destruct (Z.eqb_spec t 0) as [Et|Et].
  - cbn. intros H. injection H as <-. lia.
  - destruct (next_pow2_loop_spec 63 1 t 0) as (q & Eq & e & He & -> & Hq & Hm); [reflexivity|lia|lia|change (0 + Z.of_nat 63) with 63; lia|now left|].
    rewrite Eq. cbn [bind].
    assert (2 ^ e <= 2 ^ 63).
    { apply Z.pow_le_mono_r; [lia|]. destruct Hm as [->|Hm]; [lia|]. destruct (Z_le_gt_dec e 63); [assumption|].
      assert (2 ^ 63 <= 2 ^ (e - 1)) by (apply Z.pow_le_mono_r; lia). lia. }
    destruct (_ <? _); intros H1; injection H1 as <-; lia.
Qed.
Lemma ola_empty_ub iters cu cv out (u : list C) offset chunk clear :
  0 <= chunk < 2 ^ 64 - 1 -> OverlapAddOrdered iters cu cv out u [] offset chunk clear = UB \/
  exists e, OverlapAddOrdered iters cu cv out u [] offset chunk clear = Throw e.
Proof.
  intros Hc. unfold OverlapAddOrdered. change (lenZ (@nil C)) with 0.
  assert (G : forall n, n < 2 ^ 64 - 1 -> forall k : outcome (list C), assert_ (size_sub (2 * 0) 1 <=? n) k = UB).
  { intros n Hn k. replace (size_sub (2 * 0) 1) with (2 ^ 64 - 1) by reflexivity. unfold assert_.
    now rewrite (proj2 (Z.leb_gt _ _)) by lia. }
  destruct (Z.eqb_spec chunk 0).
  - destruct (OptimalPracticalSize iters (lenZ u) 0) as [n|x|] eqn:E; cbn [bind].
    + left. apply G. apply practical_bound in E. lia.
    + right. eauto.
    + now left.
  - cbn [bind]. left. apply G. lia.
Qed.
Theorem C19_overlap_add_single_tap_refuted : forall iters cs cf (out signal : list C) tap chunk,
  0 <= chunk < 2 ^ 64 - 1 -> 0 < lenZ signal ->
  forall r, FilterOlaState iters cs cf out signal [tap] [] chunk <> Ok r.
Proof.
  intros iters cs cf out signal tap chunk Hc Hs r. unfold FilterOlaState. change (lenZ [tap]) with 1. change (lenZ (@nil C)) with 0.
  replace (size_sub 1 1) with 0 by reflexivity. cbn [Z.eqb assert_].
  destruct (lenZ out =? lenZ signal) eqn:E; [|discriminate]. cbn [assert_]. unfold on_window.
  pose proof (lenZ_nonneg out). rewrite Z.min_r by (rewrite lenZ_zerosC; lia).
  destruct (slice_ok (zerosC (lenZ out)) 0 0) as (w & Ew & _); [lia|lia|rewrite lenZ_zerosC; lia|].
  cbn [car Cring]. rewrite Ew. cbn [bind].
  unfold OverlapAddInto at 1. change (lenZ [tap]) with 1. change (lenZ (@nil C)) with 0. cbn [Z.ltb Z.compare].
  destruct (ola_empty_ub iters cf cs w [tap] (1 - 1) chunk false Hc) as [->|[e ->]]; discriminate.
Qed.
Print Assumptions C19_overlap_add_single_tap_refuted.
Theorem C19_overlap_add_empty_block_refuted : forall iters cs cf (taps state : list C) chunk,
  0 <= chunk < 2 ^ 64 - 1 -> taps <> [] ->
  forall r, FilterOlaState iters cs cf [] [] taps state chunk <> Ok r.
Proof.
  intros iters cs cf taps state chunk Hc Ht r. unfold FilterOlaState.
  assert (0 < lenZ taps) by (pose proof (lenZ_nonneg taps); assert (lenZ taps <> 0) by (intros E0; apply lenZ_0_nil in E0; contradiction); lia).
  destruct (lenZ state =? _); [|discriminate]. cbn [assert_]. change (lenZ (@nil C)) with 0. cbn [Z.eqb assert_].
  destruct (on_window _ _ _ _) as [o|e|]; cbn [bind]; [|discriminate|discriminate].
  unfold OverlapAddInto. change (lenZ (@nil C)) with 0. rewrite (proj2 (Z.ltb_lt 0 (lenZ taps))) by lia.
  destruct (ola_empty_ub iters cf cs o taps 0 chunk false Hc) as [->|[e ->]]; discriminate.
Qed.
Print Assumptions C19_overlap_add_empty_block_refuted.

Example C19_nontrivial :
  run_blocks (fun b s => FilterConvStateNew (K := Zring) 2 2 true [0; 0] b [1; 2; 3] s) [[1]; []; [2; 4]; [-1]] [0; 0]
  = Ok ([[1]; []; [4; 11]; [13]], [4; -1]).
Proof. vm_compute. reflexivity. Qed.
