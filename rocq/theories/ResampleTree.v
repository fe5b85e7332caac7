(** What interpolation and resampling compute when the arithmetic of the samples obeys no law: which samples and
    which taps meet in the dot product behind every output sample. *)
From Verif Require Import Base BaseFacts IntervalModel RationalModel RationalProofs KernelModel KernelProofs ConvModel ConvProofs FirModel PolyphaseModel PolyphaseProofs ResampleModel ResampleProofs ConvTree.
From Coq Require Import ZifyBool ZifyNat.
Ltac Zify.zify_post_hook ::= Z.div_mod_to_equations.
Open Scope Z_scope.

Section Generic.
Context {K : Type} (zero : K).
Notation elt := (elt zero).

(** the view [v] holds the taps [taps] (already scaled) in [P] phases *)
Definition holds (v : pview K) (taps : list K) (P : Z) : Prop :=
  vcount v = P /\ lenZ (vbuffer v) = lenZ taps /\
  forall p k, 0 <= p < P -> 0 <= k < psize (lenZ taps) P p -> nthZ (vbuffer v) (poff (lenZ taps) P p + (psize (lenZ taps) P p - 1 - k)) = nthZ taps (p + k * P).

Lemma scale_window_gen W vec op (out : list K) o s c : 1 <= W -> 0 <= o -> 0 <= s -> o + s <= lenZ out ->
  exists out', on_window out o s (fun w => sig_scalar_inplace W vec op w c) = Ok out' /\ lenZ out' = lenZ out /\
    (forall j, nthZ out' j = if (o <=? j) && (j <? o + s) then option_map (fun x => op x c) (nthZ out j) else nthZ out j).
Proof.
  intros HW H1 H2 H3. unfold on_window. destruct (slice_ok out o s H1 H2 H3) as (v & -> & L & N). cbn [bind]. rewrite sig_scalar_inplace_ok by exact HW. cbn [bind].
  destruct (wrs_ok out o (map (fun x => op x c) v)) as (l' & -> & L' & N'); [lia|rewrite lenZ_map; lia|]. exists l'. split; [reflexivity|]. split; [exact L'|].
  intros j. rewrite N', lenZ_map, L. destruct ((o <=? j) && (j <? o + s)) eqn:E; [|reflexivity].
  rewrite nthZ_map, N by lia. now replace (o + (j - o)) with j by lia.
Qed.
Lemma decompose_gen mul ofsize W vec (out h : list K) P : 1 <= W -> lenZ out = lenZ h -> 0 < P ->
  okP (gPolyphaseDecomposeInto mul ofsize W vec out h P) (fun v => holds v (map (fun t => mul t (ofsize P)) h) P).
Proof.
  intros HW L HP. unfold gPolyphaseDecomposeInto. apply okP_assert; [lia|]. set (n := lenZ h) in *. assert (Hn : 0 <= n) by apply lenZ_nonneg. unfold holds. rewrite lenZ_map. fold n. set (sc := option_map (fun t => mul t (ofsize P))).
  eapply okP_bind with (P := fun o => lenZ o = n /\ forall p k, 0 <= p < P -> 0 <= k < psize n P p -> nthZ o (poff n P p + (psize n P p - 1 - k)) = sc (nthZ h (p + k * P))).
  - eapply okP_imp; [apply (for1_inv (fun i o => lenZ o = n /\ forall p k, 0 <= p < i -> 0 <= k < psize n P p -> nthZ o (poff n P p + (psize n P p - 1 - k)) = sc (nthZ h (p + k * P)))); [|lia|]|].
    + split; [exact L|]. intros; lia.
    + intros i o Hi [Lo Ho]. rewrite Lo. rewrite loc_ok by lia. cbn [bind]. pose proof (psize_nonneg n P i Hn HP) as S0. destruct (poff_bounds n P i Hn HP Hi) as [B1 B2]. set (off := poff n P i) in *. set (s := psize n P i) in *.
      eapply okP_bind with (P := fun o' => lenZ o' = n /\ forall j, nthZ o' j = if (off <=? j) && (j <? off + s) then nthZ h (i + (off + s - 1 - j) * P) else nthZ o j).
      { eapply okP_imp; [apply (for1_inv (fun c o' => lenZ o' = n /\ forall j, nthZ o' j = if (off + (s - c) <=? j) && (j <? off + s) then nthZ h (i + (off + s - 1 - j) * P) else nthZ o j)); [|lia|]|].
        - split; [exact Lo|]. intros j. now replace ((off + (s - 0) <=? j) && (j <? off + s)) with false by lia.
        - intros c o' Hc [Lo' Ho']. assert (Hb : i + c * P < n) by (apply (psize_spec n P i c); lia). destruct (rd_ok h (i + c * P)) as (a & -> & Ha); [fold n; nia|]. cbn [bind]. rewrite wr_ok by lia. apply okP_ret. split; [rewrite lenZ_updZ; lia|].
          intros j. rewrite nthZ_updZ by lia. rewrite Ho'. destruct (j =? off + (s - 1 - c)) eqn:E.
          + replace ((off + (s - (c + 1)) <=? j) && (j <? off + s)) with true by lia. rewrite <- Ha. f_equal. f_equal. f_equal. lia.
          + now replace ((off + (s - (c + 1)) <=? j) && (j <? off + s)) with ((off + (s - c) <=? j) && (j <? off + s)) by lia.
        - intros o' [Lo' Ho']. split; [exact Lo'|]. intros j. rewrite Ho'. now replace (off + (s - s)) with off by lia. }
      intros o' [Lo' Ho']. destruct (scale_window_gen W vec mul o' off s (ofsize P) HW) as (o'' & -> & L'' & N''); [lia|lia|lia|]. apply okP_ret. split; [lia|].
      intros p k Hp Hk. rewrite N''. assert (p = i \/ p < i) as [->|Hlt] by lia.
      * fold off s. fold s in Hk. replace ((off <=? off + (s - 1 - k)) && (off + (s - 1 - k) <? off + s)) with true by lia. rewrite Ho'.
        replace ((off <=? off + (s - 1 - k)) && (off + (s - 1 - k) <? off + s)) with true by lia. unfold sc. do 3 f_equal. f_equal. lia.
      * pose proof (poff_mono n P (p + 1) i Hn HP ltac:(lia)) as M. rewrite poff_S in M. fold off in M.
        replace ((off <=? poff n P p + (psize n P p - 1 - k)) && (poff n P p + (psize n P p - 1 - k) <? off + s)) with false by lia. rewrite Ho'.
        replace ((off <=? poff n P p + (psize n P p - 1 - k)) && (poff n P p + (psize n P p - 1 - k) <? off + s)) with false by lia. now apply Ho; [lia|].
    + intros o Ho. exact Ho.
  - intros o [Lo Ho]. apply okP_ret. split; [reflexivity|]. split; [exact Lo|]. intros p k Hp Hk. cbn [vbuffer]. rewrite Ho by assumption. now rewrite nthZ_map.
Qed.
Lemma phase_gen v taps P p : holds v taps P -> 0 < P -> 0 <= p < P ->
  exists ph, view_at v p = Ok ph /\ lenZ ph = psize (lenZ taps) P p /\ forall k, 0 <= k < psize (lenZ taps) P p -> nthZ ph (psize (lenZ taps) P p - 1 - k) = nthZ taps (p + k * P).
Proof.
  intros (E1 & E2 & E3) HP Hp. unfold view_at. rewrite E1, E2. rewrite loc_ok by lia. cbn [bind]. pose proof (lenZ_nonneg taps) as Hn. pose proof (psize_nonneg (lenZ taps) P p Hn HP). destruct (poff_bounds (lenZ taps) P p Hn HP Hp) as [B1 B2].
  destruct (slice_ok (vbuffer v) (poff (lenZ taps) P p) (psize (lenZ taps) P p)) as (ph & -> & Lp & Np); [lia|lia|lia|]. exists ph. split; [reflexivity|]. split; [exact Lp|].
  intros k Hk. rewrite Np by lia. now apply E3.
Qed.

(** the samples and the taps behind output index m: samples lo, ..., hi - 1 *)
Definition lo_of (L P m : Z) : Z := Z.max 0 (m / P + 1 - psize L P (m mod P)).
Definition hi_of (N P m : Z) : Z := Z.min N (m / P + 1).
Definition xs_of (x : list K) (L P m : Z) : list K := tab (hi_of (lenZ x) P m - lo_of L P m) (fun i => elt x (lo_of L P m + i)).
Definition ts_of (taps : list K) (N P m : Z) : list K := tab (hi_of N P m - lo_of (lenZ taps) P m) (fun i => elt taps (m - (lo_of (lenZ taps) P m + i) * P)).

Lemma elt_skipn0 (l : list K) n i : 0 <= n -> 0 <= i -> elt (skipn (Z.to_nat n) l) i = elt l (n + i).
Proof. intros H1 H2. unfold ConvTree.elt. rewrite nthZ_skipn by lia. now rewrite Z2Nat.id by lia. Qed.
Lemma elt_firstn0 (l : list K) n i : i < n -> elt (firstn (Z.to_nat n) l) i = elt l i.
Proof. intros H. unfold ConvTree.elt. rewrite nthZ_firstn by lia. reflexivity. Qed.
(** dropping consumed samples, or not having received later ones, does not change what meets *)
Lemma window_drop (x taps : list K) P fi m : 0 < P -> 0 < lenZ taps -> 0 <= fi <= lenZ x -> (fi = 0 \/ fi * P + lenZ taps - 1 <= m) -> 0 <= m ->
  xs_of (skipn (Z.to_nat fi) x) (lenZ taps) P (m - P * fi) = xs_of x (lenZ taps) P m /\ ts_of taps (lenZ (skipn (Z.to_nat fi) x)) P (m - P * fi) = ts_of taps (lenZ x) P m /\
  meets (lenZ (skipn (Z.to_nat fi) x)) (lenZ taps) P (m - P * fi) = meets (lenZ x) (lenZ taps) P m.
Proof.
  intros HP HL Hf Hm Hm0. unfold xs_of, ts_of, meets, lo_of, hi_of. rewrite lenZ_skipn. replace (Z.max 0 (lenZ x - Z.of_nat (Z.to_nat fi))) with (lenZ x - fi) by lia.
  destruct (divmod m P HP) as [E B]. assert (Ed : (m - P * fi) / P = m / P - fi) by (symmetry; apply (Z.div_unique _ _ _ (m mod P)); lia). assert (Er : (m - P * fi) mod P = m mod P) by (symmetry; apply (Z.mod_unique _ _ (m / P - fi)); lia). rewrite Ed, Er.
  set (q := m / P) in *. set (p := m mod P) in *. pose proof (psize_nonneg (lenZ taps) P p ltac:(lia) HP) as S0. assert (S1 : 0 < psize (lenZ taps) P p -> p + (psize (lenZ taps) P p - 1) * P < lenZ taps).
  { intros H0. apply (psize_spec (lenZ taps) P p (psize (lenZ taps) P p - 1) ltac:(lia) HP B ltac:(lia)). lia. } set (s := psize (lenZ taps) P p) in *.
  assert (H : fi = 0 \/ fi <= q + 1 - s).
  { destruct Hm as [H|H]; [now left|right]. assert (s = 0 \/ 0 < s) as [H0|H0] by lia; [nia|]. specialize (S1 H0). nia. }
  assert (EL : Z.max 0 (q - fi + 1 - s) = Z.max 0 (q + 1 - s) - fi) by (destruct H; lia). rewrite EL.
  replace (Z.min (lenZ x - fi) (q - fi + 1) - (Z.max 0 (q + 1 - s) - fi)) with (Z.min (lenZ x) (q + 1) - Z.max 0 (q + 1 - s)) by lia.
  split; [|split].
  - apply tab_ext. intros i Hi. rewrite elt_skipn0 by lia. f_equal. lia.
  - apply tab_ext. intros i Hi. f_equal. ring.
  - lia.
Qed.
Lemma window_prefix (x taps : list K) P n m : 0 < P -> 0 <= n <= lenZ x -> 0 <= m < n * P ->
  xs_of (firstn (Z.to_nat n) x) (lenZ taps) P m = xs_of x (lenZ taps) P m /\ ts_of taps (lenZ (firstn (Z.to_nat n) x)) P m = ts_of taps (lenZ x) P m /\
  meets (lenZ (firstn (Z.to_nat n) x)) (lenZ taps) P m = meets (lenZ x) (lenZ taps) P m.
Proof.
  intros HP Hn Hm. unfold xs_of, ts_of, meets, lo_of, hi_of. rewrite lenZ_firstn. replace (Z.min (Z.of_nat (Z.to_nat n)) (lenZ x)) with n by lia.
  destruct (divmod m P HP) as [E B]. assert (Hq : m / P + 1 <= n) by nia. replace (Z.min n (m / P + 1)) with (Z.min (lenZ x) (m / P + 1)) by lia. split; [|split; reflexivity].
  apply tab_ext. intros i Hi. apply elt_firstn0. lia.
Qed.

Variable dot : list K -> list K -> outcome K.
Lemma views (x taps ph : list K) P m a b c : 0 < P -> 0 <= m -> a = lo_of (lenZ taps) P m -> b = hi_of (lenZ x) P m -> a <= b -> lenZ ph = psize (lenZ taps) P (m mod P) ->
  (forall k, 0 <= k < psize (lenZ taps) P (m mod P) -> nthZ ph (psize (lenZ taps) P (m mod P) - 1 - k) = nthZ taps (m mod P + k * P)) -> c = a - (m / P + 1 - psize (lenZ taps) P (m mod P)) ->
  slice x a (b - a) = Ok (xs_of x (lenZ taps) P m) /\ slice ph c (b - a) = Ok (ts_of taps (lenZ x) P m).
Proof.
  intros HP Hm Ea Eb Hab Lp Np Ec. pose proof (lenZ_nonneg x) as Lx. pose proof (lenZ_nonneg taps) as Lt. destruct (divmod m P HP) as [Em Bm]. pose proof (psize_nonneg (lenZ taps) P (m mod P) Lt HP) as S0.
  assert (Hq : 0 <= m / P) by (apply Z.div_pos; lia). unfold xs_of, ts_of. rewrite <- Ea, <- Eb. unfold lo_of in Ea. unfold hi_of in Eb. set (s := psize (lenZ taps) P (m mod P)) in *. set (q := m / P) in *.
  assert (Hs : c + (b - a) <= lenZ ph) by lia.
  split.
  - destruct (slice_ok x a (b - a)) as (xv & -> & Lxv & Nxv); [lia|lia|lia|]. f_equal. apply list_eq_tab; [lia|]. intros k Hk. rewrite Nxv by lia. apply nthZ_elt. lia.
  - destruct (slice_ok ph c (b - a)) as (pv & -> & Lpv & Npv); [lia|lia|lia|]. f_equal. apply list_eq_tab; [lia|]. intros k Hk. rewrite Npv by lia.
    replace (c + k) with (s - 1 - (q - a - k)) by lia. rewrite Np by lia. assert (B : m mod P + (q - a - k) * P < lenZ taps) by (apply (psize_spec (lenZ taps) P (m mod P) (q - a - k) Lt HP Bm ltac:(lia)); fold s; lia).
    replace (m mod P + (q - a - k) * P) with (m - (a + k) * P) in * by nia. apply nthZ_elt. split; [|exact B]. nia.
Qed.
Lemma xs_len x taps P m : lenZ (xs_of x (lenZ taps) P m) = lenZ (ts_of taps (lenZ x) P m).
Proof. unfold xs_of, ts_of. now rewrite !lenZ_tab. Qed.

Lemma sample_gen (x taps : list K) v P p i ph : holds v taps P -> 0 < P -> 0 <= p < P -> 0 <= i -> i * P + p <= lenZ x * P + lenZ taps - 1 -> view_at v p = Ok ph ->
  gDotProductSample dot x ph i = dot (xs_of x (lenZ taps) P (i * P + p)) (ts_of taps (lenZ x) P (i * P + p)).
Proof.
  intros D HP Hp Hi Hm E. destruct (phase_gen v taps P p D HP Hp) as (ph' & E' & Lp & Np). rewrite E in E'. injection E' as <-. pose proof (lenZ_nonneg taps) as Lh. pose proof (lenZ_nonneg x) as Lx.
  pose proof (psize_nonneg (lenZ taps) P p Lh HP) as S0. unfold gDotProductSample. rewrite Lp. set (m := i * P + p) in *.
  assert (Em : m / P = i) by (symmetry; apply (Z.div_unique m P i p); [lia|unfold m; ring]). assert (Ep : m mod P = p) by (symmetry; apply (Z.mod_unique m P i p); [lia|unfold m; ring]).
  assert (Hc : 0 <= Z.min (lenZ x) (i + 1) - Z.max 0 (i - psize (lenZ taps) P p + 1)).
  { destruct (Z_lt_ge_dec i (lenZ x)); [lia|]. pose proof (psize_spec (lenZ taps) P p (i - lenZ x) Lh HP Hp ltac:(lia)) as S1. assert (i - lenZ x < psize (lenZ taps) P p); [apply S1; unfold m in Hm; nia|lia]. }
  set (s := psize (lenZ taps) P p) in *. set (a := Z.max 0 (i - s + 1)) in *. set (b := Z.min (lenZ x) (i + 1)) in *. unfold assert_. replace (0 <=? b - a) with true by lia.
  destruct (views x taps ph P m a b (a - (i - s + 1))) as [-> V2]; [exact HP|unfold m; nia|unfold lo_of; rewrite Em, Ep; unfold a, s; f_equal; lia|unfold hi_of; rewrite Em; reflexivity|lia|now rewrite Ep|now rewrite Ep|rewrite Em, Ep; fold s; lia|].
  cbn [bind]. now rewrite V2.
Qed.

Lemma interpolate_gen (out x taps : list K) v P off : holds v taps P -> 0 < P -> 0 <= off -> off + lenZ out <= ConvolutionLength (lenZ x * P) (lenZ taps) CONV_FULL ->
  (forall j, 0 <= j < lenZ out -> meets (lenZ x) (lenZ taps) P (off + j) = true -> exists y, dot (xs_of x (lenZ taps) P (off + j)) (ts_of taps (lenZ x) P (off + j)) = Ok y) ->
  okP (gInterpolateInto dot out x v off) (fun r => lenZ (fst r) = lenZ out /\
    (forall j, 0 <= j < lenZ out -> if meets (lenZ x) (lenZ taps) P (off + j) then exists y, nthZ (fst r) j = Some y /\ dot (xs_of x (lenZ taps) P (off + j)) (ts_of taps (lenZ x) P (off + j)) = Ok y else nthZ (fst r) j = nthZ out j) /\
    FindInterpolSuspensionPoint (off + lenZ out) (lenZ taps) P = Ok (snd r)).
Proof.
  intros D HP Hoff Hmax Hdot. destruct D as (D1 & D2 & D3). assert (D : holds v taps P) by (repeat split; assumption). unfold gInterpolateInto, size_per_phase, size_original, num_phases. rewrite D1, D2. replace (P =? 0) with false by lia. cbn [bind].
  apply okP_assert; [unfold InterpolLength; lia|]. pose proof (lenZ_nonneg out) as Lo0. pose proof (lenZ_nonneg x) as Lx0. pose proof (lenZ_nonneg taps) as Lh0. set (LPS := (lenZ taps + P - 1) / P).
  assert (Hps : forall p, 0 <= p < P -> psize (lenZ taps) P p <= LPS).
  { intros p Hp. unfold LPS. pose proof (Z.div_mod (lenZ taps + P - 1) P ltac:(lia)) as E. pose proof (Z.mod_pos_bound (lenZ taps + P - 1) P HP). destruct (divmod (lenZ taps) P HP) as [E2 B2]. unfold psize. destruct (p <? lenZ taps mod P) eqn:Ep; nia. }
  eapply okP_bind.
  - apply (for1_inv (fun i o => lenZ o = lenZ out /\ forall j, 0 <= j < lenZ out -> if (j <? i - off) && meets (lenZ x) (lenZ taps) P (off + j) then exists y, nthZ o j = Some y /\ dot (xs_of x (lenZ taps) P (off + j)) (ts_of taps (lenZ x) P (off + j)) = Ok y else nthZ o j = nthZ out j)); [|lia|].
    + split; [reflexivity|]. intros j Hj. now replace (j <? off - off) with false by lia.
    + intros m o Hm [Lo Ho]. replace (1 - lenZ taps + m + lenZ taps - 1) with m by lia. rewrite Z.quot_div_nonneg, Z.rem_mod_nonneg by lia. destruct (divmod m P HP) as [Em Bm].
      destruct (phase_gen v taps P (m mod P) D HP Bm) as (ph & -> & Lp & Np). cbn [bind]. rewrite Lp. specialize (Hps (m mod P) Bm). pose proof (psize_nonneg (lenZ taps) P (m mod P) Lh0 HP) as S0. pose proof (views x taps ph P m) as V. set (s := psize (lenZ taps) P (m mod P)) in *. set (q := m / P) in *.
      assert (Hq : 0 <= q) by (apply Z.div_pos; lia). cbn [last]. replace (q - LPS + 1 + LPS) with (q + 1) by lia.
      assert (EI : Intersection (mkI 0 (lenZ x)) (Intersection (mkI (q - LPS + 1) (q + 1)) (mkI (q + 1 - s) (q + 1))) = if Z.max 0 (q + 1 - s) <? Z.min (lenZ x) (q + 1) then mkI (Z.max 0 (q + 1 - s)) (Z.min (lenZ x) (q + 1)) else mkI 0 0).
      { unfold Intersection. cbn [first last]. replace (Z.max (q - LPS + 1) (q + 1 - s)) with (q + 1 - s) by lia. rewrite Z.min_id. destruct (q + 1 - s <? q + 1) eqn:E1; cbn [first last]; [reflexivity|].
        replace (Z.max 0 (q + 1 - s) <? Z.min (lenZ x) (q + 1)) with false by lia. now replace (Z.max 0 0 <? Z.min (lenZ x) 0) with false by lia. }
      rewrite EI. assert (EM : meets (lenZ x) (lenZ taps) P m = (Z.max 0 (q + 1 - s) <? Z.min (lenZ x) (q + 1))) by reflexivity. destruct (Z.max 0 (q + 1 - s) <? Z.min (lenZ x) (q + 1)) eqn:EB.
      * unfold size, shift_sub. cbn [first last]. set (a := Z.max 0 (q + 1 - s)) in *. set (b := Z.min (lenZ x) (q + 1)) in *. replace (0 <? b - a) with true by lia.
        replace (b - (q - LPS + 1) - (a - (q - LPS + 1))) with (b - a) by lia.
        destruct (V a b (a - (q - LPS + 1) - LPS + s)) as [-> V2]; [exact HP|lia|reflexivity|reflexivity|lia|exact Lp|exact Np|lia|]. cbn [bind]. rewrite V2. cbn [bind].
        destruct (Hdot (m - off) ltac:(lia)) as [y Ey]; [now replace (off + (m - off)) with m by lia|]. replace (off + (m - off)) with m in Ey by lia. rewrite Ey. cbn [bind].
        rewrite wr_ok by lia. apply okP_ret. split; [rewrite lenZ_updZ; lia|].
        intros j Hj. rewrite nthZ_updZ by lia. destruct (j =? m - off) eqn:Ej.
        -- replace (j <? m + 1 - off) with true by lia. replace (off + j) with m by lia. rewrite EM. cbn [andb]. exists y. auto.
        -- specialize (Ho j Hj). now replace (j <? m + 1 - off) with (j <? m - off) by lia.
      * unfold size. cbn [first last]. cbn [Z.ltb Z.sub Z.compare]. change (0 <? 0 - 0) with false. cbv iota. apply okP_ret. split; [exact Lo|]. intros j Hj. specialize (Ho j Hj). destruct (j =? m - off) eqn:Ej.
        -- replace (off + j) with m in * by lia. rewrite EM in *. now destruct (j <? m - off), (j <? m + 1 - off).
        -- now replace (j <? m + 1 - off) with (j <? m - off) by lia.
  - intros o [Lo Ho]. cbn beta. assert (F : exists sp, FindInterpolSuspensionPoint (off + lenZ out) (lenZ taps) P = Ok sp).
    { unfold FindInterpolSuspensionPoint. destruct (_ <? 0); [eexists; reflexivity|]. replace (P =? 0) with false by lia. eexists; reflexivity. }
    destruct F as [sp F]. rewrite F. cbn [bind]. apply okP_ret. cbn [fst snd]. split; [exact Lo|]. split; [|reflexivity]. intros j Hj. specialize (Ho j Hj). now replace (j <? off + lenZ out - off) with true in Ho by lia.
Qed.
End Generic.

(** ** Resampling *)
Section Weights.
Variable M : Z.
Lemma index_weights q P s1 s2 : InputIndex2Sample M q P = Ok (s1, s2) -> 0 <= num q -> 0 < P -> weight s1 + weight s2 <= den q /\ Z.gcd (weight s2) (weight s1 + weight s2) = 1.
Proof.
  unfold InputIndex2Sample. intros H Hn HP. destruct (frac M q) as [f| |] eqn:Ef; [|discriminate|discriminate]. cbn [bind] in H. apply frac_ok in Ef as [Hd Cf]; [|exact Hn].
  destruct (mul_int M f P) as [a| |] eqn:Ea; [|discriminate|discriminate]. cbn [bind] in H. replace (P =? 0) with false in H by lia.
  destruct (floor M a) as [p| |] eqn:Ep; [|discriminate|discriminate]. cbn [bind] in H. destruct (frac M a) as [t| |] eqn:Et; [|discriminate|discriminate]. cbn [bind] in H. unfold getden in H.
  destruct (0 <? den t) eqn:Edt; cbn [assert_ bind] in H; [|discriminate]. destruct (csub M (den t) (num t)) as [w| |] eqn:Ew; [|discriminate|discriminate]. apply csub_ok in Ew. cbn [bind] in H.
  destruct (floor M q) as [i| |] eqn:Ei; [|discriminate|discriminate]. cbn [bind] in H. injection H as <- <-. cbn [weight].
  pose proof (Z.mod_pos_bound (num q) (den q) Hd). destruct (cross_le f _ _ Cf Hd) as (_ & F1 & F2 & F3). specialize (F2 ltac:(lia)). apply mul_int_ok in Ea as (_ & [Ca Xa]). destruct (cross_le a (num f * P) (den f) (conj Ca Xa) ltac:(lia)) as (_ & A1 & A2 & _). specialize (A2 ltac:(nia)).
  apply frac_ok in Et as [_ Ct]; [|exact A2]. destruct (cross_le t _ _ Ct ltac:(lia)) as (_ & T1 & _). subst w. replace (den t - num t + num t) with (den t) by lia. split; [lia|]. exact (proj2 (proj1 Ct)).
Qed.
End Weights.

(** two runs of a loop whose states are related *)
Lemma for1_sim {S1 S2} (R : S1 -> S2 -> Prop) lo hi body1 body2 (s1 s1' : S1) (s2 : S2) :
  (forall i a b a', lo <= i < hi -> R a b -> body1 i a = Ok a' -> exists b', body2 i b = Ok b' /\ R a' b') -> R s1 s2 -> for_ lo hi 1 body1 s1 = Ok s1' ->
  exists s2', for_ lo hi 1 body2 s2 = Ok s2' /\ R s1' s2'.
Proof.
  unfold for_, trips. rewrite Z.div_1_r. replace (hi - lo + 1 - 1) with (hi - lo) by lia. remember (Z.to_nat (hi - lo)) as n eqn:En. revert lo s1 s2 En. induction n as [|n IH]; intros lo s1 s2 En H HR; cbn [loop].
  - intros E. injection E as <-. eauto.
  - destruct (body1 lo s1) as [t| |] eqn:Eb; [|discriminate|discriminate]. cbn [bind]. destruct (H lo s1 s2 t ltac:(lia) HR Eb) as (t2 & -> & HR2). cbn [bind]. apply IH; [lia| |exact HR2]. intros i a b a' Hi. apply H. lia.
Qed.
Lemma slice_same {A B} (l : list A) (m : list B) i n v : lenZ l = lenZ m -> slice l i n = Ok v -> exists w, slice m i n = Ok w /\ lenZ w = lenZ v.
Proof.
  intros L H. assert (G : 0 <= i /\ 0 <= n /\ i + n <= lenZ l) by (unfold slice in H; destruct ((0 <=? i) && (0 <=? n) && (i + n <=? lenZ l)) eqn:E; [lia|discriminate]).
  destruct (slice_ok m i n) as (w & E & Lw & _); [lia|lia|lia|]. destruct (slice_ok l i n) as (v' & E' & Lv & _); [lia|lia|lia|]. rewrite H in E'. injection E' as <-. exists w. split; [exact E|]. lia.
Qed.

Section Sim.
(** the control flow does not depend on the samples: if resampling any samples of these sizes works, it works for all *)
Context {F1 F2 : Type} (add1 mul1 div1 : F1 -> F1 -> F1) (of1 : Z -> F1) (dot1 : list F1 -> list F1 -> outcome F1)
  (add2 mul2 div2 : F2 -> F2 -> F2) (of2 : Z -> F2) (dot2 : list F2 -> list F2 -> outcome F2).
Hypothesis total2 : forall a b, lenZ a = lenZ b -> exists y, dot2 a b = Ok y.
Lemma view_sim (v1 : pview F1) (v2 : pview F2) i ph : lenZ (vbuffer v1) = lenZ (vbuffer v2) -> vcount v1 = vcount v2 -> view_at v1 i = Ok ph -> exists ph2, view_at v2 i = Ok ph2 /\ lenZ ph2 = lenZ ph.
Proof.
  intros L C. unfold view_at. rewrite <- L, <- C. destruct (subsignal_location _ _ _) as [[o s]| |]; [|discriminate|discriminate]. cbn [bind]. now apply slice_same.
Qed.
Lemma sample_sim (x1 : list F1) (x2 : list F2) p1 p2 i y : lenZ x1 = lenZ x2 -> lenZ p2 = lenZ p1 -> gDotProductSample dot1 x1 p1 i = Ok y -> exists y2, gDotProductSample dot2 x2 p2 i = Ok y2.
Proof.
  intros L Lp. unfold gDotProductSample. rewrite L, Lp. destruct (0 <=? _); [|discriminate]. cbn [assert_].
  set (a := Z.max 0 (i - lenZ p1 + 1)). set (c := Z.min (lenZ x2) (i + 1) - a). set (o := a - (i - lenZ p1 + 1)).
  destruct (slice x1 a c) as [w1| |] eqn:E1; [|discriminate|discriminate]. cbn [bind]. destruct (slice p1 o c) as [w2| |] eqn:E2; [|discriminate|discriminate]. cbn [bind]. intros _.
  destruct (slice_same x1 x2 _ _ _ L E1) as (w1' & -> & L1). destruct (slice_same p1 p2 _ _ _ (eq_sym Lp) E2) as (w2' & -> & L2). cbn [bind]. apply total2. rewrite L1, L2.
  assert (G : forall {A} (l v : list A) i n, slice l i n = Ok v -> lenZ v = n).
  { clear. intros A l v i n H. assert (G : 0 <= i /\ 0 <= n /\ i + n <= lenZ l) by (unfold slice in H; destruct ((0 <=? i) && (0 <=? n) && (i + n <=? lenZ l)) eqn:E; [lia|discriminate]). destruct (slice_ok l i n) as (v' & E & L & _); [lia|lia|lia|]. rewrite H in E. injection E as <-. exact L. }
  now rewrite (G _ _ _ _ _ E1), (G _ _ _ _ _ E2).
Qed.
Lemma resample_sim M (out1 x1 : list F1) v1 (out2 x2 : list F2) v2 r s o1 sp : lenZ out1 = lenZ out2 -> lenZ x1 = lenZ x2 -> lenZ (vbuffer v1) = lenZ (vbuffer v2) -> vcount v1 = vcount v2 ->
  gResampleInto M add1 mul1 div1 of1 dot1 out1 x1 v1 r s = Ok (o1, sp) -> exists o2, gResampleInto M add2 mul2 div2 of2 dot2 out2 x2 v2 r s = Ok (o2, sp).
Proof.
  intros Lo Lx Lv Cv. unfold gResampleInto, num_phases, size_original. rewrite <- Lo, <- Lx, <- Lv, <- Cv.
  destruct (rge M r (of_int 0)) as [[]| |]; cbn [bind assert_]; try discriminate. destruct (rge M s (of_int 0)) as [[]| |]; cbn [bind assert_]; try discriminate.
  destruct (0 <? vcount v1); cbn [assert_]; try discriminate. destruct (ResampleLength M _ _ _ _ _) as [mx| |]; cbn [bind]; try discriminate. destruct (add_int M s (lenZ out1)) as [e| |]; cbn [bind]; try discriminate. destruct (rle M e mx) as [[]| |]; cbn [bind assert_]; try discriminate.
  intros H. match type of H with bind (for_ 0 (lenZ out1) 1 ?body _) _ = _ => destruct (for_ 0 (lenZ out1) 1 body (out1, s)) as [[o' ix]| |] eqn:Ef; [|discriminate|discriminate]; cbn [bind] in H end.
  assert (G : exists st2, for_ 0 (lenZ out1) 1 (fun i '(out, outputIndex) => do d <- getden r; do index <- ChangeSampleRate M d (num r) outputIndex; do (firstSampleLoc, secondSampleLoc) <- InputIndex2Sample M index (vcount v1);
       do phase1 <- view_at v2 (phaseIndex firstSampleLoc); do firstSampleVal <- gDotProductSample dot2 x2 phase1 (inputIndex firstSampleLoc);
       do phase2 <- view_at v2 (phaseIndex secondSampleLoc); do secondSampleVal <- gDotProductSample dot2 x2 phase2 (inputIndex secondSampleLoc);
       do out <- wr out i (div2 (add2 (mul2 firstSampleVal (of2 (weight firstSampleLoc))) (mul2 secondSampleVal (of2 (weight secondSampleLoc)))) (add2 (of2 (weight firstSampleLoc)) (of2 (weight secondSampleLoc))));
       do outputIndex <- add_int M outputIndex 1; Ok (out, outputIndex)) (out2, s) = Ok st2 /\ lenZ (fst st2) = lenZ (fst (o', ix)) /\ snd st2 = snd (o', ix)).
  { revert Ef. apply (for1_sim (fun (a : list F1 * rat) (b : list F2 * rat) => lenZ (fst b) = lenZ (fst a) /\ snd b = snd a)); [|cbn; auto].
    intros i [o q] [p q2] [o3 q3] Hi [L E] Eb. cbn [fst snd] in *. subst q2. destruct (getden r) as [d| |]; cbn [bind] in *; try discriminate. destruct (ChangeSampleRate M d (num r) q) as [ix'| |]; cbn [bind] in *; try discriminate.
    destruct (InputIndex2Sample M ix' (vcount v1)) as [[s1 s2]| |]; cbn [bind] in *; try discriminate.
    destruct (view_at v1 (phaseIndex s1)) as [p1| |] eqn:E1; cbn [bind] in Eb; try discriminate. destruct (view_sim v1 v2 _ _ Lv Cv E1) as (p1' & -> & L1). cbn [bind].
    destruct (gDotProductSample dot1 x1 p1 (inputIndex s1)) as [y1| |] eqn:E2; cbn [bind] in Eb; try discriminate. destruct (sample_sim x1 x2 p1 p1' _ _ Lx L1 E2) as [y1' ->]. cbn [bind].
    destruct (view_at v1 (phaseIndex s2)) as [p2| |] eqn:E3; cbn [bind] in Eb; try discriminate. destruct (view_sim v1 v2 _ _ Lv Cv E3) as (p2' & -> & L2). cbn [bind].
    destruct (gDotProductSample dot1 x1 p2 (inputIndex s2)) as [y2| |] eqn:E4; cbn [bind] in Eb; try discriminate. destruct (sample_sim x1 x2 p2 p2' _ _ Lx L2 E4) as [y2' ->]. cbn [bind].
    unfold wr in *. rewrite L. destruct ((0 <=? i) && (i <? lenZ o)) eqn:Ei; cbn [bind] in *; [|discriminate]. destruct (add_int M q 1) as [q'| |]; cbn [bind] in *; try discriminate. injection Eb as <- <-.
    eexists. split; [reflexivity|]. cbn [fst snd]. split; [|reflexivity]. rewrite !lenZ_updZ by lia. exact L. }
  destruct G as ([o2 ix2] & -> & L2 & E2). cbn [bind fst snd] in *. subst ix2. destruct (FindResampleSuspensionPoint M ix _ _ r) as [sp'| |]; cbn [bind] in *; try discriminate. injection H as _ <-. eauto.
Qed.
End Sim.

Section Resample.
Context {F : Type} (zero : F) (fadd fmul fdivide : F -> F -> F) (ofsize : Z -> F) (dot : list F -> list F -> outcome F).
Variable M : Z.
(** output sample i lies between the interpolated samples m and m + 1, with m = floor (pos / dn): they are dot products,
    blended with two integer weights in the ratio of the distances *)
Definition blended (x taps : list F) (P n d : Z) (y : F) : Prop := exists w1 w2 y1 y2, 0 < w1 /\ 0 <= w2 /\ w1 + w2 <= d /\ Z.gcd w2 (w1 + w2) = 1 /\ w2 * d = (n mod d) * (w1 + w2) /\
  0 <= n / d /\ n / d + 1 <= lenZ x * P + lenZ taps - 1 /\
  dot (xs_of zero x (lenZ taps) P (n / d)) (ts_of zero taps (lenZ x) P (n / d)) = Ok y1 /\ dot (xs_of zero x (lenZ taps) P (n / d + 1)) (ts_of zero taps (lenZ x) P (n / d + 1)) = Ok y2 /\
  y = fdivide (fadd (fmul y1 (ofsize w1)) (fmul y2 (ofsize w2))) (fadd (ofsize w1) (ofsize w2)).
(** the output depends on the position only, not on how its numerator and denominator are written, and not on consumed or future samples *)
Lemma coprime_ratio a b c d : 0 <= a -> 0 < b -> 0 <= c -> 0 < d -> Z.gcd a b = 1 -> Z.gcd c d = 1 -> a * d = c * b -> a = c /\ b = d.
Proof.
  intros Ha Hb Hc Hd G1 G2 E. assert (D1 : (b | d)) by (apply (Z.gauss b a d); [exists c; lia|now rewrite Z.gcd_comm]). assert (D2 : (d | b)) by (apply (Z.gauss d c b); [exists a; lia|now rewrite Z.gcd_comm]).
  assert (b = d) by (apply Z.divide_antisym_nonneg; lia || assumption). subst d. split; [|reflexivity]. nia.
Qed.
Lemma blended_unique (x x' taps : list F) P n d n' d' y y' : blended x taps P n d y -> blended x' taps P n' d' y' -> 0 < d -> 0 < d' -> (n mod d) * d' = (n' mod d') * d ->
  (forall k, k = 0 \/ k = 1 -> xs_of zero x (lenZ taps) P (n / d + k) = xs_of zero x' (lenZ taps) P (n' / d' + k) /\ ts_of zero taps (lenZ x) P (n / d + k) = ts_of zero taps (lenZ x') P (n' / d' + k)) -> y = y'.
Proof.
  intros (w1 & w2 & y1 & y2 & A1 & A2 & A3 & A4 & A5 & A6 & A7 & A8 & A9 & ->) (v1 & v2 & z1 & z2 & B1 & B2 & B3 & B4 & B5 & B6 & B7 & B8 & B9 & ->) Hd Hd' E W.
  destruct (W 0 (or_introl eq_refl)) as [W1 W2]. destruct (W 1 (or_intror eq_refl)) as [W3 W4]. rewrite !Z.add_0_r in *. rewrite W1, W2, B8 in A8. rewrite W3, W4, B9 in A9. injection A8 as ->. injection A9 as ->.
  destruct (coprime_ratio w2 (w1 + w2) v2 (v1 + v2)) as [-> E2]; try lia; try assumption.
  { apply (Z.mul_cancel_r _ _ (d * d')); [apply Z.neq_mul_0; lia|]. transitivity (w2 * d * (v1 + v2) * d'); [ring|]. rewrite A5. transitivity (n mod d * d' * (w1 + w2) * (v1 + v2)); [ring|]. rewrite E. transitivity (n' mod d' * (v1 + v2) * ((w1 + w2) * d)); [ring|]. rewrite <- B5. ring. }
  replace v1 with w1 by lia. reflexivity.
Qed.
Lemma resample_part_gen (out x taps : list F) v P r s o sp : holds v taps P -> canonical r -> canonical s -> gResampleInto M fadd fmul fdivide ofsize dot out x v r s = Ok (o, sp) ->
  0 < P /\ 0 < num r /\ 0 <= num s /\ (num s + lenZ out * den s) * (num r * P) <= ConvolutionLength (P * lenZ x) (lenZ taps) CONV_FULL * den r * den s /\
  lenZ o = lenZ out /\ (forall i, 0 <= i < lenZ out -> exists y, nthZ o i = Some y /\ blended x taps P ((num s + i * den s) * num r * P) (den s * den r) y) /\
  exists e, cross e (num s + lenZ out * den s) (den s) /\ FindResampleSuspensionPoint M e (lenZ taps) P r = Ok sp.
Proof.
  intros D Cr Cs H. pose proof D as (D1 & D2 & D3). unfold gResampleInto, num_phases, size_original in H. rewrite D1, D2 in H.
  destruct (rge M r (of_int 0)) as [g1| |] eqn:E1; [|discriminate|discriminate]. cbn [bind] in H. destruct g1; [|discriminate]. cbn [assert_] in H. destruct (rge M s (of_int 0)) as [g2| |] eqn:E2; [|discriminate|discriminate]. cbn [bind] in H. destruct g2; [|discriminate]. cbn [assert_] in H.
  destruct (0 <? P) eqn:EP; [|discriminate]. cbn [assert_] in H. assert (HP : 0 < P) by lia. apply rge_ok in E1 as (Rd & _ & E1). apply rge_ok in E2 as (Sd & _ & E2). cbn [of_int num den] in E1, E2. assert (Hr0 : 0 <= num r) by lia. assert (Hs0 : 0 <= num s) by lia.
  destruct (ResampleLength M (lenZ x) (lenZ taps) P r CONV_FULL) as [mx| |] eqn:Em; [|discriminate|discriminate]. cbn [bind] in H. apply length_ok in Em as [Hr Cm]; try assumption. set (full := ConvolutionLength (P * lenZ x) (lenZ taps) CONV_FULL) in *.
  destruct (add_int M s (lenZ out)) as [e| |] eqn:Ee; [|discriminate|discriminate]. cbn [bind] in H. apply add_int_ok in Ee. destruct (rle M e mx) as [g3| |] eqn:E3; [|discriminate|discriminate]. cbn [bind] in H. destruct g3; [|discriminate]. cbn [assert_] in H. apply rle_ok in E3 as (_ & _ & E3).
  assert (B : (num s + lenZ out * den s) * (num r * P) <= full * den r * den s) by (apply (cross_cmp e mx _ _ _ _ Ee Cm Sd ltac:(nia)); lia).
  split; [exact HP|]. split; [exact Hr|]. split; [exact Hs0|]. split; [exact B|].
  match type of H with bind (for_ 0 (lenZ out) 1 ?body _) _ = _ => destruct (for_ 0 (lenZ out) 1 body (out, s)) as [[o' ix]| |] eqn:Ef; [|discriminate|discriminate]; cbn [bind] in H end.
  destruct (FindResampleSuspensionPoint M ix (lenZ taps) P r) as [sp'| |] eqn:Esp; [|discriminate|discriminate]. cbn [bind] in H. injection H as -> ->. pose proof (lenZ_nonneg out) as Lo.
  apply (for1_part (fun i (st : list F * rat) => lenZ (fst st) = lenZ out /\ cross (snd st) (num s + i * den s) (den s) /\ forall j, 0 <= j < i -> exists y, nthZ (fst st) j = Some y /\ blended x taps P ((num s + j * den s) * num r * P) (den s * den r) y)) in Ef; [|exact Lo| |]; cbn [fst snd] in *.
  2: {split; [reflexivity|]. split; [split; [exact Cs|ring]|]. intros; lia. }
  2: { clear Esp. intros i [ou q] [ou' q'] Hi (I1 & I2 & I3) Eb. assert (Hni : 0 <= num s + i * den s) by nia. assert (Hdd : 0 < den s * den r) by nia. cbn [fst snd] in *. rewrite (getden_fit r Rd) in Eb. cbn [bind] in Eb.
    destruct (cross_le q _ _ I2 Sd) as (_ & Q1 & Q2 & _). specialize (Q2 ltac:(nia)). destruct (ChangeSampleRate M (den r) (num r) q) as [u| |] eqn:Eu; [|discriminate|discriminate]. cbn [bind] in Eb. apply change_ok in Eu as [_ Cu].
    assert (Cu' : cross u ((num s + i * den s) * num r) (den s * den r)). { destruct I2 as [_ X]. apply (cross_trans _ _ _ _ _ Cu ltac:(nia)). transitivity (num q * den s * num r * den r); [ring|]. rewrite X. ring. }
    destruct (cross_le u _ _ Cu' ltac:(nia)) as (_ & U1 & U2 & _). specialize (U2 ltac:(nia)).
    destruct (InputIndex2Sample M u P) as [[s1 s2]| |] eqn:Ei; [|discriminate|discriminate]. cbn [bind] in Eb. pose proof (index_weights M u P s1 s2 Ei U2 HP) as [KW KG]. apply index_ok in Ei as (_ & K1 & K2 & K3 & K4 & K5 & K6 & K7 & K8 & K9); [|exact U2|exact HP].
    assert (X : num u * P * (den s * den r) = (num s + i * den s) * num r * P * den u). { destruct Cu' as [_ X]. transitivity (num u * (den s * den r) * P); [ring|]. rewrite X. ring. }
    pose proof (div_cross _ _ _ _ X ltac:(lia) ltac:(lia)) as EX. pose proof (mod_cross _ _ _ _ X ltac:(lia) ltac:(lia)) as MX.
    assert (Hm0 : 0 <= (num s + i * den s) * num r * P / (den s * den r)) by (apply Z.div_pos; [repeat apply Z.mul_nonneg_nonneg; lia|lia]).
    assert (Hm : num u * P / den u + 1 <= lenZ x * P + lenZ taps - 1).
    { rewrite EX. assert (Hlt : (num s + i * den s) * num r * P < full * (den s * den r)).
      { apply Z.lt_le_trans with ((num s + lenZ out * den s) * (num r * P)); [|lia]. rewrite <- Z.mul_assoc. apply Z.mul_lt_mono_pos_r; [apply Z.mul_pos_pos; lia|apply Z.add_lt_mono_l, Z.mul_lt_mono_pos_r; lia]. }
      assert (Hq : (num s + i * den s) * num r * P / (den s * den r) < full) by (apply Z.div_lt_upper_bound; [lia|lia]).
      unfold full, ConvolutionLength in Hq. rewrite (Z.mul_comm (lenZ x) P). destruct ((P * lenZ x =? 0) || (lenZ taps =? 0)); lia. }
    destruct (view_at v (phaseIndex s1)) as [p1| |] eqn:Ev1; [|discriminate|discriminate]. cbn [bind] in Eb. rewrite (sample_gen zero dot x taps v P _ _ p1 D HP K2 K1 ltac:(lia) Ev1) in Eb. rewrite K3, EX in Eb.
    destruct (dot (xs_of zero x (lenZ taps) P ((num s + i * den s) * num r * P / (den s * den r))) _) as [y1| |] eqn:Ey1; [|discriminate|discriminate]. cbn [bind] in Eb.
    destruct (view_at v (phaseIndex s2)) as [p2| |] eqn:Ev2; [|discriminate|discriminate]. cbn [bind] in Eb. rewrite (sample_gen zero dot x taps v P _ _ p2 D HP K5 K4 ltac:(lia) Ev2) in Eb. rewrite K6, EX in Eb.
    destruct (dot (xs_of zero x (lenZ taps) P ((num s + i * den s) * num r * P / (den s * den r) + 1)) _) as [y2| |] eqn:Ey2; [|discriminate|discriminate]. cbn [bind] in Eb.
    rewrite wr_ok in Eb by lia. cbn [bind] in Eb. destruct (add_int M q 1) as [q1| |] eqn:Eq1; [|discriminate|discriminate]. cbn [bind] in Eb. injection Eb as <- <-. apply add_int_ok in Eq1.
    split; [rewrite lenZ_updZ; lia|]. split.
    + destruct I2 as [_ Xq]. apply (cross_trans _ _ _ _ _ Eq1 ltac:(lia)). transitivity (num q * den s + den q * den s); [ring|]. rewrite Xq. ring.
    + intros j Hj. rewrite nthZ_updZ by lia. destruct (j =? i) eqn:Ej; [|apply I3; lia]. replace j with i by lia. eexists. split; [reflexivity|]. exists (weight s1), (weight s2), y1, y2.
      split; [exact K7|]. split; [exact K8|]. split; [lia|]. split; [exact KG|]. split; [|rewrite EX in Hm; auto]. apply (Z.mul_cancel_r _ _ (den u)); [lia|]. transitivity (weight s2 * den u * (den s * den r)); [ring|]. rewrite K9. transitivity ((num u * P) mod den u * (den s * den r) * (weight s1 + weight s2)); [ring|]. rewrite MX. ring. }
  destruct Ef as (G1 & G2 & G3).
  split; [exact G1|]. split; [exact G3|]. exists ix; split; [exact G2|exact Esp].
Qed.
End Resample.
