(** Proofs about OlaModel. *)
From Coq Require Import Reals Lra.
From Verif Require Import Base BaseFacts IntervalModel KernelProofs ConvModel ConvProofs Complex Dft FftModel FftProofs OlaModel.
From Coq Require Import ZifyBool ZifyNat.
Ltac Zify.zify_post_hook ::= Z.div_mod_to_equations.
Open Scope Z_scope.
Notation convC := (conv (K := Cring)).

Definition isreal (x : list C) : Prop := forall j, 0 <= j < lenZ x -> im (atC x j) = 0%R.
Lemma isreal_all x j : isreal x -> im (atC x j) = 0%R.
Proof.
  intros H. destruct (Z_lt_ge_dec j 0); [rewrite at0_out by lia; reflexivity|].
  destruct (Z_lt_ge_dec j (lenZ x)); [apply H; lia|rewrite at0_out; [reflexivity|cbn [car Cring]; lia]].
Qed.
Lemma lenZ_toR x : lenZ (toR x) = lenZ x. Proof. apply lenZ_map. Qed.
Lemma lenZ_toC x : lenZ (toC x) = lenZ x. Proof. apply lenZ_map. Qed.
Lemma atR_toR x j : atR (toR x) j = re (atC x j).
Proof. unfold at0, toR. rewrite nthZ_map. cbn [car Cring Rring]. destruct (nthZ x j); reflexivity. Qed.
Lemma atC_toC x j : atC (toC x) j = RtoC (atR x j).
Proof. unfold at0, toC. rewrite nthZ_map. cbn [car Cring Rring]. destruct (nthZ x j); reflexivity. Qed.
Lemma emb_toR x j : isreal x -> emb (toR x) j = atC x j.
Proof. intros H. unfold emb. rewrite atR_toR. apply C_ext; cbn [re im RtoC]; [reflexivity|]. symmetry. now apply isreal_all. Qed.
Lemma atC_out (x : list C) j : ~ (0 <= j < lenZ x) -> atC x j = C0.
Proof. exact (at0_out (K := Cring) x j). Qed.

Lemma padded_spec n x : lenZ x <= n -> exists p, padded n x = Ok p /\ lenZ p = n /\ forall j, atC p j = atC x j.
Proof.
  intros H. pose proof (lenZ_nonneg x). unfold padded.
  destruct (wrs_ok (zerosC n) 0 x) as (p & E & L & N); [lia|rewrite lenZ_zerosC; lia|].
  rewrite lenZ_zerosC in L by lia. exists p. split; [exact E|]. split; [exact L|]. intros j.
  destruct (Z_lt_ge_dec j 0); [rewrite !atC_out by lia; reflexivity|].
  destruct (Z_lt_ge_dec j n); [|rewrite !atC_out by lia; reflexivity].
  unfold at0. rewrite N by (rewrite lenZ_zerosC; lia). cbn [car Cring].
  destruct (Z_lt_ge_dec j (lenZ x)).
  - replace ((0 <=? j) && (j <? 0 + lenZ x)) with true by lia. now rewrite Z.sub_0_r.
  - replace ((0 <=? j) && (j <? 0 + lenZ x)) with false by lia. unfold zerosC. rewrite nthZ_repeat by lia.
    rewrite (proj2 (nthZ_none x j)) by lia. reflexivity.
Qed.
Lemma padded_real n x p : padded n x = Ok p -> lenZ x <= n -> isreal x -> isreal p.
Proof.
  intros E H R j Hj. destruct (padded_spec n x H) as (p' & E' & _ & N). rewrite E in E'. injection E' as <-.
  rewrite N. now apply isreal_all.
Qed.

Lemma fft_filter_full s f x : s || f = true -> (f = false -> isreal x) ->
  FftFilter s f x = Ok (tab (lenZ x) (DFT (lenZ x) (atC x))).
Proof.
  intros Hsf Hr. pose proof (lenZ_nonneg x).
  destruct s, f; try discriminate; cbn [FftFilter]; try apply fft_complex_spec'.
  unfold FftFull. rewrite fft_full_spec; rewrite ?lenZ_toR; [|apply lenZ_zerosC; lia].
  f_equal. apply tab_ext. intros k Hk. apply DFT_ext. intros j Hj. apply emb_toR. now apply Hr.
Qed.
Lemma fft_filter_half x : isreal x -> 0 < lenZ x ->
  FftFilter false false x = Ok (tab (lenZ x / 2 + 1) (DFT (lenZ x) (atC x))).
Proof.
  intros Hr Hl. cbn [FftFilter]. unfold FftHalf.
  rewrite fft_half_spec; rewrite ?lenZ_toR; [|lia|apply lenZ_zerosC; lia].
  f_equal. apply tab_ext. intros k Hk. apply DFT_ext. intros j Hj. now apply emb_toR.
Qed.

(** one chunk: the product of the spectra transforms back to the linear convolution *)
Lemma circ_conv N p v pp pv j : 0 < lenZ v -> lenZ p <= lenZ v -> 2 * lenZ v - 1 <= N ->
  (forall i, atC pp i = atC p i) -> (forall i, atC pv i = atC v i) -> 0 <= j < N ->
  circ Cfield N (atC pp) (atC pv) j = convC p v j.
Proof.
  intros Hv Hp HN E1 E2 Hj. pose proof (lenZ_nonneg p).
  rewrite (circ_linear Cfield N (wroot N) ltac:(lia) (w_add' N ltac:(lia)) (w_per' N ltac:(lia)) (w_neq' N ltac:(lia))
             (atC pp) (atC pv) (lenZ p) (lenZ v)); try lia.
  - unfold conv. apply sumZ_ext. intros i Hi. now rewrite E1, E2.
  - intros i Hi. rewrite E1. now apply atC_out.
  - intros i Hi. rewrite E2. now apply atC_out.
Qed.
Lemma circ_real n f g j : 0 < n -> (forall i, Cconj (f i) = f i) -> (forall i, Cconj (g i) = g i) ->
  Cconj (circ Cfield n f g j) = circ Cfield n f g j.
Proof.
  intros Hn Hf Hg. unfold circ. rewrite conj_sumZ. apply sumZ_ext. intros i Hi.
  change (rmul (c := fring Cfield)) with Cmul. now rewrite Cconj_mul, Hf, Hg.
Qed.
Lemma isreal_conj x i : isreal x -> Cconj (atC x i) = atC x i.
Proof. intros H. apply real_iff_conj. now apply isreal_all. Qed.

Lemma ola_chunk cu cv N p v pp pv : 0 < lenZ v -> lenZ p <= lenZ v -> 2 * lenZ v - 1 <= N ->
  (cu = false -> isreal p) -> (cv = false -> isreal v) ->
  padded N p = Ok pp -> padded N v = Ok pv ->
  exists F G r, FftFilter cu cv pv = Ok F /\ FftChunk cu cv pp = Ok G /\ lenZ G = lenZ F /\
    IfftChunk cu cv (map2 Cmul G F) N = Ok r /\ lenZ r = N /\ forall j, 0 <= j < N -> atC r j = convC p v j.
Proof.
  intros Hv Hp HN Rp Rv Epp Epv. pose proof (lenZ_nonneg p).
  destruct (padded_spec N p) as (pp' & E1 & L1 & A1); [lia|]. rewrite Epp in E1. injection E1 as <-.
  destruct (padded_spec N v) as (pv' & E2 & L2 & A2); [lia|]. rewrite Epv in E2. injection E2 as <-.
  assert (Rpp : cu = false -> isreal pp) by (intros E; apply (padded_real N p); auto; lia).
  assert (Rpv : cv = false -> isreal pv) by (intros E; apply (padded_real N v); auto; lia).
  unfold FftChunk.
  destruct (cu || cv) eqn:Ecc.
  - rewrite (fft_filter_full cu cv pv) by assumption. rewrite (fft_filter_full cv cu pp) by (try rewrite orb_comm; assumption).
    rewrite L1, L2. do 3 eexists. split; [reflexivity|]. split; [reflexivity|]. split; [now rewrite !lenZ_tab|].
    assert (E : IfftChunk cu cv (map2 Cmul (tab N (DFT N (atC pp))) (tab N (DFT N (atC pv)))) N =
                IfftComplex (map2 Cmul (tab N (DFT N (atC pp))) (tab N (DFT N (atC pv))))).
    { destruct cu, cv; try reflexivity. discriminate. }
    rewrite E, map2_tab, ifft_complex_spec'. split; [reflexivity|]. rewrite lenZ_tab, lenZ_tab. split; [lia|].
    intros j Hj. rewrite Z.max_r by lia. rewrite atC_tab by lia.
    rewrite (IDFT_ext _ _ (fun k => Cmul (DFT N (atC pp) k) (DFT N (atC pv) k))) by (intros; now rewrite atC_tab).
    rewrite IDFT_mul by lia. now apply circ_conv.
  - apply orb_false_elim in Ecc as [-> ->]. specialize (Rpp eq_refl). specialize (Rpv eq_refl).
    rewrite !fft_filter_half by (assumption || lia). rewrite L1, L2.
    do 3 eexists. split; [reflexivity|]. split; [reflexivity|]. split; [now rewrite !lenZ_tab|].
    rewrite map2_tab. cbn [IfftChunk]. unfold IfftHalf. rewrite lenZ_tab.
    set (m := if N mod 2 =? 0 then _ else _). assert (Em : m = N).
    { subst m. destruct (Z.eqb_spec (N mod 2) 0); lia. }
    rewrite Em. unfold assert_. rewrite (proj2 (Z.leb_le 0 N)) by lia.
    assert (Lz : lenZ (zerosR N) = N) by (apply lenZ_zerosR; lia).
    rewrite ifft_real_spec by (rewrite Lz, lenZ_tab; lia). rewrite Lz. cbn [bind]. split; [reflexivity|].
    rewrite lenZ_toC, lenZ_tab. split; [lia|]. intros j Hj. rewrite atC_toC, atR_tab by lia.
    set (cc := circ Cfield N (atC pp) (atC pv)).
    assert (Rc : forall i, Cconj (cc i) = cc i).
    { intros i. apply circ_real; [lia| |]; intros; now apply isreal_conj. }
    rewrite (IDFT_ext N _ (DFT N cc)).
    + rewrite IDFT_DFT by lia. rewrite <- circ_conv with (N := N) (pp := pp) (pv := pv) by assumption. fold cc.
      apply C_ext; cbn [re im RtoC]; [reflexivity|]. symmetry. apply real_iff_conj. apply Rc.
    + intros k Hk. rewrite <- (DFT_real_herm N ltac:(lia) cc k) by (try lia; auto).
      assert (EE : forall i, 0 <= i <= N / 2 -> atC (tab (N / 2 + 1) (fun i => Cmul (DFT N (atC pp) i) (DFT N (atC pv) i))) i = DFT N cc i).
      { intros i Hi. rewrite atC_tab by lia. subst cc. rewrite DFT_circ by lia. reflexivity. }
      unfold herm. destruct (Z.eqb_spec k 0); [rewrite EE by lia; reflexivity|].
      destruct (Z.eqb_spec (2 * k) N); [rewrite EE by lia; reflexivity|].
      destruct (Z.ltb_spec (2 * k) N); rewrite EE by lia; reflexivity.
Qed.

Lemma add_window_spec out o chunk c n : 0 <= o -> 0 <= n -> o + n <= lenZ out -> 0 <= c -> c + n <= lenZ chunk ->
  okP (add_window out o chunk c n) (fun out' => lenZ out' = lenZ out /\
    forall k, 0 <= k < lenZ out -> atC out' k = if (o <=? k) && (k <? o + n) then Cadd (atC out k) (atC chunk (c + (k - o))) else atC out k).
Proof.
  intros H1 H2 H3 H4 H5. unfold add_window. apply okP_assert; [lia|].
  eapply okP_imp.
  { apply (for1_inv' (fun i (o' : list C) => lenZ o' = lenZ out /\
      forall k, 0 <= k < lenZ out -> atC o' k = if (o <=? k) && (k <? o + i) then Cadd (atC out k) (atC chunk (c + (k - o))) else atC out k)).
    - split; [reflexivity|]. intros k Hk. now replace ((o <=? k) && (k <? o + 0)) with false by lia.
    - intros i o' Hi [L A]. rewrite rd_atC by lia. cbn [bind]. rewrite rd_atC by lia. cbn [bind]. rewrite wr_ok by lia.
      apply okP_ret. split; [rewrite lenZ_updZ; lia|]. intros k Hk. rewrite atC_updZ by lia.
      destruct (Z.eqb_spec k (o + i)) as [->|].
      + rewrite A by lia. replace ((o <=? o + i) && (o + i <? o + i)) with false by lia.
        replace ((o <=? o + i) && (o + i <? o + (i + 1))) with true by lia. do 2 f_equal. lia.
      + rewrite A by lia. replace ((o <=? k) && (k <? o + (i + 1))) with ((o <=? k) && (k <? o + i)) by lia. reflexivity. }
  cbn beta. intros o' [L A]. split; [exact L|]. intros k Hk. rewrite A by lia. rewrite Z.max_r by lia. reflexivity.
Qed.

(** ** the loop *)
Section Loop.
Variables (cu cv : bool) (u v pv F : list C) (N offset len : Z).
Hypothesis Hv : 0 < lenZ v.
Hypothesis Huv : lenZ v <= lenZ u.
Hypothesis HN : 2 * lenZ v - 1 <= N.
Hypothesis Hoff : 0 <= offset.
Hypothesis Ru : cu = false -> isreal u.
Hypothesis Rv : cv = false -> isreal v.
Hypothesis Epv : padded N v = Ok pv.
Hypothesis EF : FftFilter cu cv pv = Ok F.

(** contribution of u[a..b) to full sample t *)
Definition part (a b t : Z) : C := sumC a b (fun i => Cmul (atC u i) (atC v (t - i))).

Lemma round_spec f out : 0 <= f -> lenZ out = len ->
  IsDisjoint (mkI f (f + N)) (mkI offset (offset + len)) = false ->
  okP (ola_round cu cv u F (lenZ v) N offset (mkI offset (offset + len)) (mkI 0 (lenZ u)) (mkI f (f + lenZ v)) (mkI f (f + N)) out)
    (fun out' => lenZ out' = len /\ forall k, 0 <= k < len ->
       atC out' k = Cadd (atC out k) (part f (f + lenZ v) (offset + k))).
Proof.
  intros Hf Hl Hd. unfold ola_round. cbn [first last].
  unfold IsDisjoint in Hd. cbn [first last] in Hd.
  set (uValid := Intersection (mkI f (f + lenZ v)) (mkI 0 (lenZ u))).
  assert (HP : exists p, slice u (first uValid) (size uValid) = Ok p /\ lenZ p <= lenZ v /\
                 forall i, 0 <= i < lenZ v -> atC p i = atC u (f + i)).
  { subst uValid. unfold Intersection, size. cbn [first last].
    destruct (Z.ltb_spec (Z.max f 0) (Z.min (f + lenZ v) (lenZ u))); cbn [first last].
    - destruct (slice_ok u (Z.max f 0) (Z.min (f + lenZ v) (lenZ u) - Z.max f 0)) as (p & E & L & P); [lia|lia|lia|].
      exists p. split; [exact E|]. split; [lia|]. intros i Hi.
      destruct (Z_lt_ge_dec i (lenZ p)).
      + unfold at0. cbn [car Cring]. rewrite P by lia. replace (Z.max f 0 + i) with (f + i) by lia. reflexivity.
      + rewrite !atC_out by lia. reflexivity.
    - exists []. split; [unfold slice; replace ((0 <=? 0) && (0 <=? 0 - 0) && (0 + (0 - 0) <=? lenZ u)) with true by (pose proof (lenZ_nonneg u); lia); reflexivity|].
      split; [change (lenZ []) with 0; lia|]. intros i Hi. rewrite !atC_out by (change (lenZ (@nil C)) with 0; lia). reflexivity. }
  destruct HP as (p & Ep & Lp & Ap). rewrite Ep. cbn [bind].
  destruct (padded_spec N p) as (pp & Epp & Lpp & App); [lia|]. rewrite Epp. cbn [bind].
  assert (Rp : cu = false -> isreal p).
  { intros E j Hj. rewrite Ap by lia. apply isreal_all. auto. }
  destruct (ola_chunk cu cv N p v pp pv Hv Lp HN Rp Rv Epp Epv) as (F' & G & r & E1 & E2 & E3 & E4 & E5 & E6).
  rewrite EF in E1. injection E1 as <-. rewrite E2. cbn [bind].
  apply okP_assert; [lia|]. rewrite E4. cbn [bind].
  assert (EI : Intersection (mkI f (f + N)) (mkI offset (offset + len)) = mkI (Z.max f offset) (Z.min (f + N) (offset + len))).
  { unfold Intersection. cbn [first last]. destruct (Z.ltb_spec (Z.max f offset) (Z.min (f + N) (offset + len))); [reflexivity|lia]. }
  rewrite EI. unfold shift_sub, size. cbn [first last].
  eapply okP_imp; [apply add_window_spec; lia|]. cbn beta. intros out' [L' A']. split; [lia|].
  intros k Hk. rewrite A' by lia.
  assert (EC : forall j, convC p v j = part f (f + lenZ v) (f + j)).
  { intros j. rewrite (conv_range p v j 0 (lenZ v)) by (cbn [car Cring]; lia). unfold part.
    rewrite (sumZ_shift' f (f + lenZ v) f). replace (f - f) with 0 by lia. replace (f + lenZ v - f) with (lenZ v) by lia.
    apply sumZ_ext. intros i Hi. rewrite Ap by lia. replace (i + f) with (f + i) by lia. replace (f + j - (f + i)) with (j - i) by lia. reflexivity. }
  destruct ((Z.max f offset - offset <=? k) && _) eqn:Ek.
  - rewrite E6 by lia. rewrite EC. do 2 f_equal. lia.
  - assert (Z0 : part f (f + lenZ v) (offset + k) = C0).
    { replace (offset + k) with (f + (offset + k - f)) by lia. rewrite <- EC. apply conv_outside. cbn [car Cring]. lia. }
    rewrite Z0. cring.
Qed.

Lemma loop_spec fuel f out out0 f0 :
  0 <= f0 <= f -> lenZ out = len -> (len = 0 \/ offset < f + N) -> (offset + len - f <= Z.of_nat fuel * lenZ v) ->
  (forall k, 0 <= k < len -> atC out k = Cadd (out0 k) (part f0 f (offset + k))) ->
  okP (ola_loop fuel cu cv u F (lenZ v) N offset (mkI offset (offset + len)) (mkI 0 (lenZ u)) (mkI f (f + lenZ v)) (mkI f (f + N)) out)
    (fun out' => lenZ out' = len /\ exists f', f <= f' /\ (len = 0 \/ offset + len <= f') /\ forall k, 0 <= k < len -> atC out' k = Cadd (out0 k) (part f0 f' (offset + k))).
Proof.
  revert f out. induction fuel as [|fuel IH]; intros f out Hf Hl Hg Hfuel Ho; pose proof (lenZ_nonneg out) as Hlen0; cbn [ola_loop];
    destruct (IsDisjoint (mkI f (f + N)) (mkI offset (offset + len))) eqn:D.
  - apply okP_ret. split; [exact Hl|]. exists f. split; [lia|]. split; [|exact Ho]. unfold IsDisjoint in D. cbn [first last] in D. lia.
  - exfalso. unfold IsDisjoint in D. cbn [first last] in D. lia.
  - apply okP_ret. split; [exact Hl|]. exists f. split; [lia|]. split; [|exact Ho]. unfold IsDisjoint in D. cbn [first last] in D. lia.
  - eapply okP_bind; [apply round_spec; [lia|exact Hl|exact D]|]. cbn beta. intros out1 [L1 A1].
    unfold shift_add. cbn [first last].
    replace (f + lenZ v + lenZ v) with ((f + lenZ v) + lenZ v) by lia.
    replace (f + N + lenZ v) with ((f + lenZ v) + N) by lia.
    eapply okP_imp; [apply IH|].
    + lia.
    + exact L1.
    + lia.
    + lia.
    + intros k Hk. rewrite A1, Ho by lia. unfold part at 3. rewrite (sumZ_split f0 f (f + lenZ v)) by lia. fold (part f0 f (offset + k)) (part f (f + lenZ v) (offset + k)).
      change (radd (c := Cring)) with Cadd. cring.
    + cbn beta. intros out' (L' & f' & Hf' & Hd & A'). split; [exact L'|]. exists f'. split; [lia|]. split; [exact Hd|exact A'].
Qed.
End Loop.

Lemma ola_ordered_spec iters cu cv out u v offset chunk clear N :
  0 < lenZ v -> lenZ v <= lenZ u -> 0 <= offset -> 2 * lenZ v < 2 ^ 64 ->
  offset + lenZ out <= lenZ u + lenZ v - 1 ->
  (if chunk =? 0 then OptimalPracticalSize iters (lenZ u) (lenZ v) else Ok chunk) = Ok N ->
  2 * lenZ v - 1 <= N ->
  (cu = false -> isreal u) -> (cv = false -> isreal v) ->
  okP (OverlapAddOrdered iters cu cv out u v offset chunk clear) (conv_result (K := Cring) u v out offset (negb clear)).
Proof.
  intros Hv Huv Hoff Hb Hw HNe HN Ru Rv. unfold OverlapAddOrdered. rewrite HNe. cbn [bind].
  unfold size_sub. rewrite Z.mod_small by lia. apply okP_assert; [lia|].
  assert (L : ConvolutionLength (lenZ u) (lenZ v) CONV_FULL = lenZ u + lenZ v - 1).
  { unfold ConvolutionLength. replace ((lenZ u =? 0) || (lenZ v =? 0)) with false by lia. lia. }
  rewrite L. apply okP_assert; [lia|].
  pose proof (lenZ_nonneg out) as Hlo.
  set (out1 := if clear then zerosC (lenZ out) else out).
  assert (L1 : lenZ out1 = lenZ out) by (subst out1; destruct clear; [now apply lenZ_zerosC|reflexivity]).
  assert (A1 : forall k, atC out1 k = if negb clear then atC out k else C0).
  { intros k. subst out1. destruct clear; [|reflexivity]. cbn [negb]. destruct (Z_lt_ge_dec k 0); [apply atC_out; lia|].
    destruct (Z_lt_ge_dec k (lenZ out)); [|apply atC_out; rewrite lenZ_zerosC; lia].
    unfold at0, zerosC. rewrite nthZ_repeat by lia. reflexivity. }
  destruct (padded_spec N v) as (pv & Epv & Lpv & Apv); [lia|]. rewrite Epv. cbn [bind].
  destruct (ola_chunk cu cv N [] v (zerosC N) pv) as (F & _ & _ & EF & _); try assumption.
  { change (lenZ []) with 0. lia. }
  { intros _ j Hj. change (lenZ []) with 0 in Hj. lia. }
  { unfold padded, wrs. rewrite lenZ_zerosC by lia. change (lenZ (@nil C)) with 0.
    replace ((0 <=? 0) && (0 + 0 <=? N)) with true by lia. reflexivity. }
  rewrite EF. cbn [bind]. rewrite L1.
  set (f0 := if 0 <? lenZ out then Z.max 0 (offset + 1 - lenZ v) else
             first (Intersection (mkI 0 (lenZ u)) (EncompassingUnion (mkI offset (offset + lenZ out)) (shift_sub (shift_add (mkI offset (offset + lenZ out)) 1) (lenZ v))))).
  assert (Ef : first (Intersection (mkI 0 (lenZ u)) (EncompassingUnion (mkI offset (offset + lenZ out)) (shift_sub (shift_add (mkI offset (offset + lenZ out)) 1) (lenZ v)))) = f0).
  { subst f0. destruct (Z.ltb_spec 0 (lenZ out)); [|reflexivity].
    unfold Intersection, EncompassingUnion, shift_sub, shift_add. cbn [first last].
    replace (Z.max 0 (Z.min offset (offset + 1 - lenZ v)) <? Z.min (lenZ u) (Z.max (offset + lenZ out) (offset + lenZ out + 1 - lenZ v))) with true by lia.
    cbn [first]. lia. }
  rewrite Ef.
  assert (Hf0 : 0 <= f0).
  { subst f0. destruct (0 <? lenZ out); [lia|]. unfold Intersection, EncompassingUnion, shift_sub, shift_add. cbn [first last].
    destruct (_ <? _); cbn [first]; lia. }
  assert (Hg0 : lenZ out = 0 \/ offset < f0 + N).
  { subst f0. destruct (Z.ltb_spec 0 (lenZ out)); lia. }
  eapply okP_imp.
  { apply (loop_spec cu cv u v pv F N offset (lenZ out) Hv HN Ru Rv Epv EF _ f0 out1 (atC out1) f0); try lia.
    - exact L1.
    - rewrite Z2Nat.id by lia. nia.
    - intros k Hk. unfold part. rewrite sumZ_empty by lia. change (r0 (c := Cring)) with C0. cring. }
  cbn beta. intros out' (L' & f' & Hf' & Hd & A'). split; [exact L'|]. intros k Hk. cbn [car Cring] in Hk.
  rewrite A' by exact Hk. rewrite A1. change (radd (c := Cring)) with Cadd. change (r0 (c := Cring)) with C0. f_equal.
  destruct Hd as [Hd|Hd]; [lia|].
  unfold part. symmetry. rewrite (conv_range u v (offset + k) 0 f') by (cbn [car Cring]; lia).
  rewrite (sumZ_split 0 f0 f') by lia. rewrite (sumZ_zero 0 f0).
  - change (radd (c := Cring)) with Cadd. change (r0 (c := Cring)) with C0. cring.
  - intros i Hi. rewrite (atC_out v). { change (rmul (c := Cring)) with Cmul. change (r0 (c := Cring)) with C0. cring. }
    subst f0. destruct (Z.ltb_spec 0 (lenZ out)); lia.
Qed.

(** ** sizes *)
Lemma next_pow2_loop_spec fuel p n k : p = 2 ^ k -> 0 <= k -> 1 <= n -> n <= 2 ^ (k + Z.of_nat fuel) ->
  (k = 0 \/ 2 ^ (k - 1) < n) ->
  okP (next_pow2_loop fuel p n) (fun q => exists e, 0 <= e /\ q = 2 ^ e /\ n <= q /\ (e = 0 \/ 2 ^ (e - 1) < n)).
Proof.
  revert p k. induction fuel as [|fuel IH]; intros p k Hp Hk Hn Hb Hm; cbn [next_pow2_loop]; destruct (Z.ltb_spec p n).
  - exfalso. replace (k + Z.of_nat 0) with k in Hb by lia. lia.
  - apply okP_ret. exists k. auto.
  - apply (IH (2 * p) (k + 1)).
    + rewrite Z.pow_add_r by lia. lia.
    + lia.
    + exact Hn.
    + replace (k + 1 + Z.of_nat fuel) with (k + Z.of_nat (S fuel)) by lia. exact Hb.
    + right. replace (k + 1 - 1) with k by lia. lia.
  - apply okP_ret. exists k. auto.
Qed.
Lemma next_pow2_spec n : 1 <= n < 2 ^ 63 ->
  okP (NextPowerOfTwo n) (fun q => exists e, 0 <= e /\ q = 2 ^ e /\ n <= q /\ (e = 0 \/ 2 ^ (e - 1) < n)).
Proof.
  intros Hn. unfold NextPowerOfTwo. apply okP_assert; [lia|]. rewrite (proj2 (Z.eqb_neq n 0)) by lia.
  apply (next_pow2_loop_spec 63 1 n 0); [reflexivity|lia|lia| |now left].
  change (0 + Z.of_nat 63) with 63. lia.
Qed.

Section Newton.
Local Open Scope R_scope.
Variable F : R.
Hypothesis HF : 1 <= F.
Let g x := CostDX x F kFft kAdd kMul.
Let g' x := CostD2X2 x F kFft.
Let step x := x - g x / g' x.
Lemma g_eq x : g x = 12 * (F * (4 / 3) + F * ln x - x).
Proof. unfold g, CostDX, kFft, kAdd, kMul. field. Qed.
Lemma g'_eq x : 0 < x -> g' x = 12 * (F / x - 1).
Proof. intros H. unfold g', CostD2X2, kFft. field. lra. Qed.
Lemma ln_le_tangent x y : 0 < x -> 0 < y -> ln y <= ln x + (y - x) / x.
Proof.
  intros Hx Hy. assert (E : ln y = ln x + ln (y / x)).
  { rewrite <- ln_mult; [f_equal; field; lra|lra|]. apply Rdiv_lt_0_compat; lra. }
  rewrite E. apply Rplus_le_compat_l. replace ((y - x) / x) with (y / x - 1) by (field; lra).
  assert (0 < y / x) by (apply Rdiv_lt_0_compat; lra).
  pose proof (exp_ineq1_le (ln (y / x))) as H0. rewrite exp_ln in H0 by lra. lra.
Qed.
Lemma exp_small : exp (1 / 24) <= 24 / 23.
Proof.
  pose proof (exp_ineq1_le (- (1 / 24))) as H. rewrite exp_Ropp in H. pose proof (exp_pos (1 / 24)) as P.
  apply Rmult_le_reg_r with (/ exp (1 / 24) * (23 / 24)).
  - apply Rmult_lt_0_compat; [now apply Rinv_0_lt_compat|lra].
  - replace (exp (1 / 24) * (/ exp (1 / 24) * (23 / 24))) with (23 / 24) by (field; lra).
    replace (24 / 23 * (/ exp (1 / 24) * (23 / 24))) with (/ exp (1 / 24)) by (field; lra). lra.
Qed.
Lemma ln2_lb : 2 / 3 <= ln 2.
Proof.
  destruct (Rle_lt_dec (2 / 3) (ln 2)) as [|H]; [assumption|]. exfalso. apply exp_increasing in H. rewrite exp_ln in H by lra.
  assert (E : exp (2 / 3) = (exp (1 / 24)) ^ 16).
  { rewrite <- (Rpower_pow 16) by apply exp_pos. unfold Rpower. rewrite ln_exp. f_equal. cbn [INR]. lra. }
  assert (exp (1 / 24) ^ 16 <= (24 / 23) ^ 16).
  { apply pow_incr. split; [left; apply exp_pos|apply exp_small]. }
  assert ((24 / 23) ^ 16 < 2) by lra. lra.
Qed.
Lemma g_2F : 0 <= g (2 * F).
Proof.
  rewrite g_eq. assert (ln 2 <= ln (2 * F)).
  { destruct (Req_dec F 1) as [->|]; [rewrite Rmult_1_r; lra|]. left. apply ln_increasing; lra. }
  pose proof ln2_lb. nra.
Qed.
(** the tangent of the concave g lies above g, which is nonnegative at 2F: its zero is at 2F or later *)
Lemma step_lb x : F < x -> 2 * F <= step x.
Proof.
  intros Hx. pose proof g_2F as G. rewrite g_eq in G.
  pose proof (ln_le_tangent x (2 * F) ltac:(lra) ltac:(lra)) as T.
  assert (T2 : F * ln (2 * F) <= F * (ln x + (2 * F - x) / x)) by (apply Rmult_le_compat_l; lra).
  unfold step. rewrite g_eq, g'_eq by lra.
  assert (Hd : 0 < 1 - F / x).
  { apply Rmult_lt_reg_r with x; [lra|]. unfold Rdiv. rewrite Rmult_minus_distr_r, Rmult_assoc, Rinv_l by lra. lra. }
  replace (x - 12 * (F * (4 / 3) + F * ln x - x) / (12 * (F / x - 1)))
    with (x + (F * (4 / 3) + F * ln x - x) / (1 - F / x)) by (field; split; [lra|split; lra]).
  apply Rmult_le_reg_r with (1 - F / x); [exact Hd|].
  rewrite Rmult_plus_distr_r. unfold Rdiv at 3. rewrite (Rmult_assoc _ (/ (1 - F / x))), Rinv_l, Rmult_1_r by lra.
  assert (E : F * ((2 * F - x) / x) = (2 * F - x) * (F / x)) by (field; lra). 
  replace (F * (ln x + (2 * F - x) / x)) with (F * ln x + (2 * F - x) * (F / x)) in T2 by (rewrite <- E; ring).
  nra.
Qed.
Lemma step_ub x B : 2 * F <= x -> x <= B -> ln B <= 57 -> step x <= 2 * F * 58.
Proof.
  intros Hx HB Hln. assert (Hl : ln x <= 57).
  { destruct (Req_dec x B) as [->|]; [exact Hln|]. left. apply Rlt_le_trans with (ln B); [apply ln_increasing; lra|exact Hln]. }
  unfold step. rewrite g_eq, g'_eq by lra.
  assert (Hd : 1 / 2 <= 1 - F / x).
  { apply Rmult_le_reg_r with x; [lra|]. unfold Rdiv. rewrite Rmult_minus_distr_r, (Rmult_assoc F), Rinv_l by lra. lra. }
  replace (x - 12 * (F * (4 / 3) + F * ln x - x) / (12 * (F / x - 1)))
    with (F * (1 / 3 + ln x) / (1 - F / x)) by (field; split; [lra|split; lra]).
  assert (Hl0 : 0 <= ln x) by (rewrite <- ln_1; left; apply ln_increasing; lra).
  apply Rmult_le_reg_r with (1 - F / x); [lra|].
  unfold Rdiv at 1. rewrite Rmult_assoc, Rinv_l, Rmult_1_r by lra. nra.
Qed.
Lemma newton_bounds iters x B : F < x -> (2 * F <= x) -> x <= B -> ln B <= 57 -> 2 * F * 58 <= B ->
  2 * F <= NewtonRaphson iters g g' x <= B.
Proof.
  revert x. induction iters as [|n IH]; intros x H1 H2 H3 H4 H5; cbn [NewtonRaphson]; [lra|].
  change (x - g x / g' x) with (step x).
  pose proof (step_lb x H1). pose proof (step_ub x B H2 H3 H4).
  apply IH; lra.
Qed.
End Newton.

Lemma theoretical_bounds iters F : (1 <= F <= 2 ^ 50)%R -> (2 * F <= OptimalTheoreticalSize iters F <= 2 ^ 57)%R.
Proof.
  intros [H1 H2]. unfold OptimalTheoreticalSize. apply (newton_bounds F H1); try lra.
  assert (E : (2 ^ 57 = Rpower 2 (INR 57))%R) by (rewrite Rpower_pow; [reflexivity|lra]). rewrite E.
  unfold Rpower. rewrite ln_exp.
  assert (L2 : (ln 2 <= 1)%R).
  { pose proof (exp_ineq1_le (ln 2)) as H0. rewrite exp_ln in H0 by lra. lra. }
  assert (INR 57 = 57%R) by (rewrite INR_IZR_INZ; reflexivity). nra.
Qed.

Lemma practical_size_spec iters s f : 1 <= f <= s -> f <= 2 ^ 50 ->
  okP (OptimalPracticalSize iters s f) (fun n => 2 * f - 1 <= n /\ (n <= s + f - 1 \/ exists e, 0 <= e /\ n = 2 ^ e)).
Proof.
  intros Hf Hb. unfold OptimalPracticalSize.
  assert (L : ConvolutionLength s f CONV_FULL = s + f - 1).
  { unfold ConvolutionLength. replace ((s =? 0) || (f =? 0)) with false by lia. lia. }
  rewrite L.
  assert (Hr : (1 <= IZR f <= 2 ^ 50)%R).
  { split; [apply (IZR_le 1); lia|]. rewrite (pow_IZR 2 50). apply IZR_le. exact Hb. }
  pose proof (theoretical_bounds iters (IZR f) Hr) as [B1 B2].
  set (x := OptimalTheoreticalSize iters (IZR f)) in *.
  pose proof (base_Int_part x) as [I1 I2].
  assert (T1 : 2 * f <= Int_part x).
  { assert (2 * f < Int_part x + 1); [|lia]. apply lt_IZR. rewrite plus_IZR, mult_IZR. lra. }
  assert (T2 : Int_part x <= 2 ^ 57).
  { apply le_IZR. apply Rle_trans with x; [exact I1|]. rewrite (pow_IZR 2 57) in B2. exact B2. }
  apply okP_assert; [lia|].
  eapply okP_bind; [apply next_pow2_spec; lia|]. cbn beta. intros q (e & He & -> & Hq & _).
  destruct (_ <? _); apply okP_ret; (split; [lia|]).
  - right. exists e. auto.
  - left. lia.
Qed.

Lemma ola_into_spec iters cu cv out u v offset chunk clear :
  u <> [] -> v <> [] -> 0 <= offset -> lenZ u < 2 ^ 63 -> lenZ v < 2 ^ 63 ->
  offset + lenZ out <= lenZ u + lenZ v - 1 ->
  let short := Z.min (lenZ u) (lenZ v) in
  (chunk = 0 /\ short <= 2 ^ 50 \/ 2 * short - 1 <= chunk) ->
  (cu = false -> isreal u) -> (cv = false -> isreal v) ->
  okP (OverlapAddInto iters cu cv out u v offset chunk clear) (conv_result (K := Cring) u v out offset (negb clear)).
Proof.
  intros Hu Hv Hoff Bu Bv Hw short Hc Ru Rv.
  assert (0 < lenZ u) by (destruct u; [congruence|rewrite lenZ_cons; pose proof (lenZ_nonneg u); lia]).
  assert (0 < lenZ v) by (destruct v; [congruence|rewrite lenZ_cons; pose proof (lenZ_nonneg v); lia]).
  unfold OverlapAddInto.
  assert (G : forall cu cv (u v : list C), 0 < lenZ v -> lenZ v <= lenZ u -> lenZ v < 2 ^ 63 -> offset + lenZ out <= lenZ u + lenZ v - 1 ->
    (chunk = 0 /\ lenZ v <= 2 ^ 50 \/ 2 * lenZ v - 1 <= chunk) ->
    (cu = false -> isreal u) -> (cv = false -> isreal v) ->
    okP (OverlapAddOrdered iters cu cv out u v offset chunk clear) (conv_result (K := Cring) u v out offset (negb clear))).
  { intros cu' cv' u' v' P1 P2 P3 P4 P5 P6 P7.
    assert (HN : exists N, (if chunk =? 0 then OptimalPracticalSize iters (lenZ u') (lenZ v') else Ok chunk) = Ok N /\ 2 * lenZ v' - 1 <= N).
    { destruct (Z.eqb_spec chunk 0) as [E|E].
      - destruct (practical_size_spec iters (lenZ u') (lenZ v')) as (N & EN & HN & _); [lia|lia|]. exists N. auto.
      - exists chunk. split; [reflexivity|]. lia. }
    destruct HN as (N & EN & HN). eapply ola_ordered_spec; eauto; lia. }
  destruct (Z.ltb_spec (lenZ u) (lenZ v)).
  - eapply okP_imp; [apply G; try assumption; lia|]. intros o Ho. now apply conv_result_swap.
  - apply G; try assumption; lia.
Qed.
