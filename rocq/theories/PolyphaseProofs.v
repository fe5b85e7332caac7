(** Proofs about the polyphase decomposition, Decimate, Expand, Interpolate. *)
From Verif Require Import Base BaseFacts IntervalModel KernelModel KernelProofs ConvModel ConvProofs FirModel PolyphaseModel.
From Coq Require Import ZifyBool ZifyNat.
Ltac Zify.zify_post_hook ::= Z.div_mod_to_equations.
Open Scope Z_scope.

(** ** sizes and offsets of the phases *)
Definition psize (n P p : Z) : Z := n / P + (if p <? n mod P then 1 else 0).
Definition poff (n P p : Z) : Z := n / P * p + Z.min (n mod P) p.
Lemma divmod n P : 0 < P -> n = P * (n / P) + n mod P /\ 0 <= n mod P < P.
Proof. intros H. split; [apply Z.div_mod; lia|apply Z.mod_pos_bound; lia]. Qed.
Lemma psize_nonneg n P p : 0 <= n -> 0 < P -> 0 <= psize n P p.
Proof. intros H1 H2. pose proof (Z.div_pos n P ltac:(lia) ltac:(lia)). unfold psize. destruct (p <? n mod P); lia. Qed.
Lemma poff_0 n P : 0 < P -> poff n P 0 = 0.
Proof. intros H. destruct (divmod n P H). unfold poff. nia. Qed.
Lemma poff_S n P p : poff n P (p + 1) = poff n P p + psize n P p.
Proof. unfold poff, psize. destruct (p <? n mod P) eqn:E; nia. Qed.
Lemma poff_P n P : 0 < P -> poff n P P = n.
Proof. intros H. destruct (divmod n P H). unfold poff. nia. Qed.
Lemma poff_mono n P p q : 0 <= n -> 0 < P -> p <= q -> poff n P p <= poff n P q.
Proof. intros H1 H2 H3. pose proof (Z.div_pos n P ltac:(lia) ltac:(lia)). unfold poff. nia. Qed.
Lemma poff_bounds n P p : 0 <= n -> 0 < P -> 0 <= p < P -> 0 <= poff n P p /\ poff n P p + psize n P p <= n.
Proof.
  intros H1 H2 H3. split; [rewrite <- (poff_0 n P H2); apply poff_mono; lia|]. rewrite <- poff_S. rewrite <- (poff_P n P H2) at 2. apply poff_mono; lia.
Qed.
(** phase p holds exactly the taps p + kP inside the filter *)
Lemma psize_spec n P p k : 0 <= n -> 0 < P -> 0 <= p < P -> 0 <= k -> (k < psize n P p <-> p + k * P < n).
Proof.
  intros H1 H2 H3 H4. destruct (divmod n P H2) as [E B]. unfold psize. set (q := n / P) in *. set (r := n mod P) in *. destruct (p <? r) eqn:Er; split; intros; nia.
Qed.

Section Proofs.
Context {K : CRing}.
Add Ring KRpp : (rth K).
Variables (W : Z) (vec : bool).
Hypothesis HW : 1 <= W.

Lemma Ok_eq {A} (m : outcome A) P : okP m P -> exists a, m = Ok a /\ P a. Proof. exact (fun H => H). Qed.
Lemma slice_at0 (l : list K) i n : 0 <= i -> 0 <= n -> i + n <= lenZ l ->
  exists v, slice l i n = Ok v /\ lenZ v = n /\ (forall k, 0 <= k < n -> at0 v k = at0 l (i + k)).
Proof.
  intros H1 H2 H3. destruct (slice_ok l i n H1 H2 H3) as (v & E & L & N). exists v. split; [exact E|]. split; [exact L|]. intros k Hk. unfold at0. now rewrite N.
Qed.
Lemma scale_window (out : list K) o s c : 0 <= o -> 0 <= s -> o + s <= lenZ out ->
  exists out', on_window out o s (fun w => sig_scalar_inplace W vec rmul w c) = Ok out' /\ lenZ out' = lenZ out /\
    (forall j, at0 out' j = if (o <=? j) && (j <? o + s) then rmul (at0 out j) c else at0 out j).
Proof.
  intros H1 H2 H3. unfold on_window. destruct (slice_ok out o s H1 H2 H3) as (v & -> & L & N). cbn [bind]. rewrite sig_scalar_inplace_ok by exact HW. cbn [bind].
  destruct (wrs_ok out o (map (fun x => rmul x c) v)) as (l' & -> & L' & N'); [lia|rewrite lenZ_map; lia|]. exists l'. split; [reflexivity|]. split; [exact L'|].
  intros j. unfold at0. rewrite N', lenZ_map, L. destruct ((o <=? j) && (j <? o + s)) eqn:E; [|reflexivity].
  rewrite nthZ_map, N by lia. replace (o + (j - o)) with j by lia. destruct (nthZ_in out j ltac:(lia)) as [a ->]. reflexivity.
Qed.
Lemma loc_ok n P p : p < P -> subsignal_location n P p = Ok (poff n P p, psize n P p).
Proof. intros H. unfold subsignal_location, assert_. now replace (p <? P) with true by lia. Qed.

(** what a polyphase view of filter [h] holds *)
Definition decomposed (v : pview K) (h : list K) (P : Z) : Prop :=
  vcount v = P /\ lenZ (vbuffer v) = lenZ h /\
  forall p k, 0 <= p < P -> 0 <= k < psize (lenZ h) P p ->
    at0 (vbuffer v) (poff (lenZ h) P p + (psize (lenZ h) P p - 1 - k)) = rmul (at0 h (p + k * P)) (ofnat P).

Lemma decompose_ok (out h : list K) P : lenZ out = lenZ h -> 0 < P -> okP (PolyphaseDecomposeInto W vec out h P) (fun v => decomposed v h P).
Proof.
  intros L HP. unfold PolyphaseDecomposeInto, gPolyphaseDecomposeInto. apply okP_assert; [lia|]. set (n := lenZ h) in *. assert (Hn : 0 <= n) by apply lenZ_nonneg.
  eapply okP_bind with (P := fun o => lenZ o = n /\ forall p k, 0 <= p < P -> 0 <= k < psize n P p -> at0 o (poff n P p + (psize n P p - 1 - k)) = rmul (at0 h (p + k * P)) (ofnat P)).
  - eapply okP_imp; [apply (for1_inv (fun i o => lenZ o = n /\ forall p k, 0 <= p < i -> 0 <= k < psize n P p -> at0 o (poff n P p + (psize n P p - 1 - k)) = rmul (at0 h (p + k * P)) (ofnat P))); [|lia|]|].
    + split; [exact L|]. intros; lia.
    + intros i o Hi [Lo Ho]. rewrite Lo. rewrite loc_ok by lia. cbn [bind]. pose proof (psize_nonneg n P i Hn HP) as S0. destruct (poff_bounds n P i Hn HP Hi) as [B1 B2]. set (off := poff n P i) in *. set (s := psize n P i) in *.
      eapply okP_bind with (P := fun o' => lenZ o' = n /\ forall j, at0 o' j = if (off <=? j) && (j <? off + s) then at0 h (i + (off + s - 1 - j) * P) else at0 o j).
      { eapply okP_imp; [apply (for1_inv (fun c o' => lenZ o' = n /\ forall j, at0 o' j = if (off + (s - c) <=? j) && (j <? off + s) then at0 h (i + (off + s - 1 - j) * P) else at0 o j)); [|lia|]|].
        - split; [exact Lo|]. intros j. now replace ((off + (s - 0) <=? j) && (j <? off + s)) with false by lia.
        - intros c o' Hc [Lo' Ho']. assert (Hb : i + c * P < n) by (apply (psize_spec n P i c); lia). rewrite rd_at0 by (fold n; nia). cbn [bind]. rewrite wr_ok by lia. apply okP_ret. split; [rewrite lenZ_updZ; lia|].
          intros j. rewrite at0_updZ by lia. rewrite Ho'. destruct (j =? off + (s - 1 - c)) eqn:E.
          + replace ((off + (s - (c + 1)) <=? j) && (j <? off + s)) with true by lia. f_equal. f_equal. f_equal. lia.
          + now replace ((off + (s - (c + 1)) <=? j) && (j <? off + s)) with ((off + (s - c) <=? j) && (j <? off + s)) by lia.
        - intros o' [Lo' Ho']. split; [exact Lo'|]. intros j. rewrite Ho'. now replace (off + (s - s)) with off by lia. }
      intros o' [Lo' Ho']. destruct (scale_window o' off s (ofnat P)) as (o'' & -> & L'' & N''); [lia|lia|lia|]. apply okP_ret. split; [lia|].
      intros p k Hp Hk. rewrite N''. assert (p = i \/ p < i) as [->|Hlt] by lia.
      * fold off s. fold s in Hk. replace ((off <=? off + (s - 1 - k)) && (off + (s - 1 - k) <? off + s)) with true by lia. rewrite Ho'.
        replace ((off <=? off + (s - 1 - k)) && (off + (s - 1 - k) <? off + s)) with true by lia. do 3 f_equal. f_equal. lia.
      * pose proof (poff_mono n P (p + 1) i Hn HP ltac:(lia)) as M. rewrite poff_S in M. fold off in M.
        replace ((off <=? poff n P p + (psize n P p - 1 - k)) && (poff n P p + (psize n P p - 1 - k) <? off + s)) with false by lia. rewrite Ho'.
        replace ((off <=? poff n P p + (psize n P p - 1 - k)) && (poff n P p + (psize n P p - 1 - k) <? off + s)) with false by lia. now apply Ho; [lia|].
    + intros o Ho. exact Ho.
  - intros o [Lo Ho]. apply okP_ret. split; [reflexivity|]. split; [exact Lo|]. exact Ho.
Qed.
Lemma phase_ok v h P p : decomposed v h P -> 0 < P -> 0 <= p < P ->
  exists ph, view_at v p = Ok ph /\ lenZ ph = psize (lenZ h) P p /\ forall k, 0 <= k < psize (lenZ h) P p -> at0 ph (psize (lenZ h) P p - 1 - k) = rmul (at0 h (p + k * P)) (ofnat P).
Proof.
  intros (E1 & E2 & E3) HP Hp. unfold view_at. rewrite E1, E2. rewrite loc_ok by lia. cbn [bind]. pose proof (lenZ_nonneg h) as Hn. pose proof (psize_nonneg (lenZ h) P p Hn HP). destruct (poff_bounds (lenZ h) P p Hn HP Hp) as [B1 B2].
  destruct (slice_at0 (vbuffer v) (poff (lenZ h) P p) (psize (lenZ h) P p)) as (ph & -> & Lp & Np); [lia|lia|lia|]. exists ph. split; [reflexivity|]. split; [exact Lp|].
  intros k Hk. rewrite Np by lia. now apply E3.
Qed.
Lemma dot_ok (a b : list K) : lenZ a = lenZ b -> DotProduct W vec a b = Ok (sumZ 0 (lenZ a) (fun i => rmul (at0 a i) (at0 b i))).
Proof.
  intros L. unfold DotProduct, assert_. replace (lenZ a =? lenZ b) with true by lia.
  rewrite (InnerProduct_spec (Plain radd) radd W vec).
  - rewrite fold_left_radd. f_equal. rewrite suml_sumZ, lenZ_map2. replace (Z.min (lenZ a) (lenZ b)) with (lenZ a) by lia. transitivity (sumZ 0 (lenZ a) (at0 (map2 rmul a b))); [ring|].
    apply sumZ_ext. intros i Hi. apply at0_in. apply nthZ_map2; apply nthZ_at0; lia.
  - left. constructor; intros; ring.
  - exact HW.
  - lia.
Qed.
(** ** Decimate, Expand *)
Lemma decimate_bound n r : 0 <= n -> 0 < r -> let m := (n + r - 1) / r in 0 <= m /\ forall i, 0 <= i -> (i < m <-> i * r < n).
Proof. intros H1 H2 m. pose proof (Z.div_mod (n + r - 1) r ltac:(lia)) as E. pose proof (Z.mod_pos_bound (n + r - 1) r H2). fold m in E. split; [unfold m; apply Z.div_pos; lia|]. intros i Hi. split; intros; nia. Qed.
Lemma decimate_into (out x : list K) r : 0 < r -> lenZ out = (lenZ x + r - 1) / r -> DecimateInto out x r = Ok (tab ((lenZ x + r - 1) / r) (fun i => at0 x (i * r))).
Proof.
  intros H L. pose proof (lenZ_nonneg x) as Hn. destruct (decimate_bound (lenZ x) r Hn H) as [M0 Mb]. apply okP_eq. unfold DecimateInto. replace (r =? 0) with false by lia. apply okP_assert; [lia|]. set (m := (lenZ x + r - 1) / r) in *.
  eapply okP_bind; [apply (for1_inv (fun i st => snd st = i * r /\ lenZ (fst st) = m /\ forall j, 0 <= j < i -> at0 (fst st) j = at0 x (j * r))); [split; [reflexivity|split; [exact L|intros; lia]]|lia|]|].
  - intros i [o w] Hi (E & Lo & Ho). cbn [fst snd] in *. subst w. rewrite rd_at0 by (split; [nia|apply Mb; lia]). cbn [bind]. rewrite wr_ok by lia. cbn [bind]. apply okP_ret. cbn [fst snd].
    split; [ring|]. split; [rewrite lenZ_updZ; lia|]. intros j Hj. rewrite at0_updZ by lia. destruct (j =? i) eqn:Ej; [f_equal; lia|apply Ho; lia].
  - intros [o w] (_ & Lo & Ho). apply okP_ret. cbn [fst] in *. rewrite L in Ho. apply at0_ext; [rewrite lenZ_tab; lia|]. intros j Hj. rewrite at0_tab by lia. apply Ho. lia.
Qed.
Lemma decimate_ok (x : list K) r : 0 < r -> Decimate x r = Ok (tab ((lenZ x + r - 1) / r) (fun i => at0 x (i * r))).
Proof.
  intros H. pose proof (lenZ_nonneg x) as Hn. destruct (decimate_bound (lenZ x) r Hn H) as [M0 _]. unfold Decimate. replace (r =? 0) with false by lia. apply decimate_into; [exact H|]. rewrite lenZ_repeat. lia.
Qed.
Definition expanded (x : list K) (r : Z) : list K := tab (lenZ x * r) (fun i => if i mod r =? 0 then at0 x (i / r) else r0).
Lemma expand_into (out x : list K) r : 0 < r -> lenZ out = lenZ x * r -> ExpandInto out x r = Ok (expanded x r).
Proof.
  intros H L. pose proof (lenZ_nonneg x) as Hn. apply okP_eq. unfold ExpandInto. apply okP_assert; [lia|]. set (n := lenZ x) in *. set (E := fun i => if i mod r =? 0 then at0 x (i / r) else r0).
  assert (Em : forall i c, 0 < c < r -> E (i * r + c) = r0). { intros i c Hc. unfold E. rewrite Z.add_comm, Z_mod_plus_full, Z.mod_small by lia. now replace (c =? 0) with false by lia. }
  assert (E0 : forall i, E (i * r) = at0 x i). { intros i. unfold E. rewrite Z_mod_mult. cbn [Z.eqb]. now rewrite Z_div_mult by lia. }
  eapply okP_bind; [apply (for1_inv (fun i st => snd st = i * r /\ lenZ (fst st) = n * r /\ forall j, 0 <= j < i * r -> at0 (fst st) j = E j)); [split; [reflexivity|split; [exact L|intros; lia]]|lia|]|].
  - intros i [o w] Hi (Ew & Lo & Ho). cbn [fst snd] in *. subst w. rewrite rd_at0 by (fold n; lia). cbn [bind]. rewrite wr_ok by nia. cbn [bind].
    eapply okP_imp; [apply (for1_inv (fun c st => snd st = i * r + c /\ lenZ (fst st) = n * r /\ forall j, 0 <= j < i * r + c -> at0 (fst st) j = E j)); [|lia|]|].
    + cbn [fst snd]. split; [lia|]. split; [rewrite lenZ_updZ; nia|]. intros j Hj. rewrite at0_updZ by nia. destruct (j =? i * r) eqn:Ej; [replace j with (i * r) by lia; now rewrite E0|apply Ho; lia].
    + intros c [o' w] Hc (Ew & Lo' & Ho'). cbn [fst snd] in *. subst w. rewrite wr_ok by nia. cbn [bind]. apply okP_ret. cbn [fst snd]. split; [lia|]. split; [rewrite lenZ_updZ; nia|].
      intros j Hj. rewrite at0_updZ by nia. destruct (j =? i * r + c) eqn:Ej; [replace j with (i * r + c) by lia; rewrite Em by lia; reflexivity|apply Ho'; lia].
    + intros [o' w] (Ew & Lo' & Ho'). cbn [fst snd] in *. split; [lia|]. split; [exact Lo'|]. intros j Hj. apply Ho'. lia.
  - intros [o w] (_ & Lo & Ho). apply okP_ret. cbn [fst] in *. unfold expanded. fold n. apply at0_ext; [rewrite lenZ_tab; nia|]. intros j Hj. rewrite at0_tab by nia. apply Ho. nia.
Qed.
Lemma expand_ok (x : list K) r : 0 < r -> Expand x r = Ok (expanded x r).
Proof. intros H. unfold Expand. apply expand_into; [exact H|]. rewrite lenZ_repeat. pose proof (lenZ_nonneg x). nia. Qed.
Lemma expanded_len (x : list K) r : 0 < r -> lenZ (expanded x r) = lenZ x * r.
Proof. intros H. unfold expanded. rewrite lenZ_tab. pose proof (lenZ_nonneg x). nia. Qed.

(** ** the interpolated signal: convolution of the expanded input with the filter times P *)
Definition interp (x h : list K) (P m : Z) : K := sumZ 0 (lenZ x) (fun n => rmul (at0 x n) (rmul (at0 h (m - n * P)) (ofnat P))).
Lemma sum_stride n r (f : Z -> K) : 0 <= n -> 0 < r -> sumZ 0 (n * r) (fun i => if i mod r =? 0 then f (i / r) else r0) = sumZ 0 n f.
Proof.
  intros Hn Hr. pattern n. apply natlike_ind; [reflexivity| |exact Hn]. intros m Hm IH. unfold Z.succ. rewrite sumZ_last by lia. rewrite (sumZ_split 0 (m * r) ((m + 1) * r)) by nia. rewrite IH. f_equal.
  rewrite sumZ_first by nia. rewrite Z_mod_mult. cbn [Z.eqb]. rewrite Z_div_mult by lia. rewrite sumZ_zero; [ring|]. intros i Hi.
  assert (Em : i mod r = i - m * r). { replace i with ((i - m * r) + m * r) at 1 by ring. rewrite Z_mod_plus_full. apply Z.mod_small. nia. } now replace (i mod r =? 0) with false by lia.
Qed.
Lemma interp_conv (x h : list K) P m : 0 < P -> interp x h P m = rmul (conv (expanded x P) h m) (ofnat P).
Proof.
  intros HP. unfold conv. rewrite expanded_len by exact HP. rewrite <- sumZ_scale_r. unfold interp. rewrite <- (sum_stride (lenZ x) P) by (try lia; apply lenZ_nonneg). apply sumZ_ext. intros i Hi.
  unfold expanded. rewrite at0_tab by lia. destruct (i mod P =? 0) eqn:E; [|ring]. replace (i / P * P) with i by (pose proof (Z.div_mod i P ltac:(lia)); lia). ring.
Qed.
(** the taps that can contribute *)
Lemma interp_window (x h : list K) P m lo hi : 0 < P -> 0 <= m ->
  (forall j, 0 <= j < lenZ x -> m / P + 1 - psize (lenZ h) P (m mod P) <= j < m / P + 1 -> lo <= j < hi) -> 0 <= lo -> hi <= lenZ x ->
  interp x h P m = sumZ lo hi (fun n => rmul (at0 x n) (rmul (at0 h (m - n * P)) (ofnat P))).
Proof.
  intros HP Hm Hin Hlo Hhi. unfold interp. apply sumZ_restrict; [|intros; lia]. intros i Hi Hni. destruct (divmod m P HP) as [E B]. assert (0 <= m / P) by (apply Z.div_pos; lia).
  assert (Ho : ~ (0 <= m - i * P < lenZ h)); [|rewrite (at0_out h) by exact Ho; ring]. intros Hb. apply Hni. apply Hin; [exact Hi|].
  assert (i < m / P + 1) by nia. pose proof (psize_spec (lenZ h) P (m mod P) (m / P - i) (lenZ_nonneg h) HP B ltac:(lia)) as S. assert (m / P - i < psize (lenZ h) P (m mod P)); [apply S; nia|lia].
Qed.
(** the sum over the intersection that the code forms; its count is [cnt] *)
Lemma inter_nonempty (a b c d : Z) : let f := Z.max a c in let e := Z.min b d in
  Intersection (mkI a b) (mkI c d) = if f <? e then mkI f e else mkI 0 0.
Proof. reflexivity. Qed.
(** is there a tap of phase m mod P and a sample of x that meet at output index m *)
Definition meets (n l P m : Z) : bool := Z.max 0 (m / P + 1 - psize l P (m mod P)) <? Z.min n (m / P + 1).
Lemma interp_empty (x h : list K) P m : 0 < P -> 0 <= m -> meets (lenZ x) (lenZ h) P m = false -> interp x h P m = r0.
Proof.
  intros HP Hm E. unfold meets in E. rewrite (interp_window x h P m 0 0 HP Hm); [apply sumZ_empty; lia| |lia|apply lenZ_nonneg]. intros j H1 H2. lia.
Qed.
Lemma interpolate_into (out x : list K) v h P off : decomposed v h P -> 0 < P -> 0 <= off -> off + lenZ out <= ConvolutionLength (lenZ x * P) (lenZ h) CONV_FULL ->
  okP (InterpolateInto W vec out x v off) (fun r => lenZ (fst r) = lenZ out /\
    (forall j, 0 <= j < lenZ out -> at0 (fst r) j = if meets (lenZ x) (lenZ h) P (off + j) then interp x h P (off + j) else at0 out j) /\
    FindInterpolSuspensionPoint (off + lenZ out) (lenZ h) P = Ok (snd r)).
Proof.
  intros D HP Hoff Hmax. destruct D as (D1 & D2 & D3). assert (D : decomposed v h P) by (repeat split; assumption). unfold InterpolateInto, gInterpolateInto, size_per_phase, size_original, num_phases. rewrite D1, D2. replace (P =? 0) with false by lia. cbn [bind].
  apply okP_assert; [unfold InterpolLength; lia|]. pose proof (lenZ_nonneg out) as Lo0. pose proof (lenZ_nonneg x) as Lx0. pose proof (lenZ_nonneg h) as Lh0. set (LPS := (lenZ h + P - 1) / P).
  assert (Hps : forall p, 0 <= p < P -> psize (lenZ h) P p <= LPS).
  { intros p Hp. unfold LPS. pose proof (Z.div_mod (lenZ h + P - 1) P ltac:(lia)) as E. pose proof (Z.mod_pos_bound (lenZ h + P - 1) P HP). destruct (divmod (lenZ h) P HP) as [E2 B2]. unfold psize. destruct (p <? lenZ h mod P) eqn:Ep; nia. }
  eapply okP_bind.
  - apply (for1_inv (fun i o => lenZ o = lenZ out /\ forall j, 0 <= j < lenZ out -> at0 o j = if j <? i - off then (if meets (lenZ x) (lenZ h) P (off + j) then interp x h P (off + j) else at0 out j) else at0 out j)); [|lia|].
    + split; [reflexivity|]. intros j Hj. now replace (j <? off - off) with false by lia.
    + intros m o Hm [Lo Ho]. replace (1 - lenZ h + m + lenZ h - 1) with m by lia. rewrite Z.quot_div_nonneg, Z.rem_mod_nonneg by lia. destruct (divmod m P HP) as [Em Bm].
      destruct (phase_ok v h P (m mod P) D HP Bm) as (ph & -> & Lp & Np). cbn [bind]. rewrite Lp. specialize (Hps (m mod P) Bm). pose proof (psize_nonneg (lenZ h) P (m mod P) Lh0 HP) as S0. set (s := psize (lenZ h) P (m mod P)) in *. set (q := m / P) in *.
      assert (Hq : 0 <= q) by (apply Z.div_pos; lia). cbn [last]. replace (q - LPS + 1 + LPS) with (q + 1) by lia.
      assert (EI : Intersection (mkI 0 (lenZ x)) (Intersection (mkI (q - LPS + 1) (q + 1)) (mkI (q + 1 - s) (q + 1))) = if Z.max 0 (q + 1 - s) <? Z.min (lenZ x) (q + 1) then mkI (Z.max 0 (q + 1 - s)) (Z.min (lenZ x) (q + 1)) else mkI 0 0).
      { unfold Intersection. cbn [first last]. replace (Z.max (q - LPS + 1) (q + 1 - s)) with (q + 1 - s) by lia. rewrite Z.min_id. destruct (q + 1 - s <? q + 1) eqn:E1; cbn [first last]; [reflexivity|].
        replace (Z.max 0 (q + 1 - s) <? Z.min (lenZ x) (q + 1)) with false by lia. now replace (Z.max 0 0 <? Z.min (lenZ x) 0) with false by lia. }
      rewrite EI. assert (EM : meets (lenZ x) (lenZ h) P m = (Z.max 0 (q + 1 - s) <? Z.min (lenZ x) (q + 1))) by reflexivity. destruct (Z.max 0 (q + 1 - s) <? Z.min (lenZ x) (q + 1)) eqn:EB.
      * unfold size, shift_sub. cbn [first last]. set (a := Z.max 0 (q + 1 - s)) in *. set (b := Z.min (lenZ x) (q + 1)) in *. replace (0 <? b - a) with true by lia.
        destruct (slice_at0 x a (b - a)) as (xv & -> & Lxv & Nxv); [lia|lia|lia|]. cbn [bind].
        destruct (slice_at0 ph (a - (q - LPS + 1) - LPS + s) (b - (q - LPS + 1) - (a - (q - LPS + 1)))) as (pv & -> & Lpv & Npv); [lia|lia|lia|]. cbn [bind].
        rewrite dot_ok by lia. cbn [bind]. rewrite wr_ok by lia. apply okP_ret. split; [rewrite lenZ_updZ; lia|].
        intros j Hj. rewrite at0_updZ by lia. destruct (j =? m - off) eqn:Ej.
        -- replace (j <? m + 1 - off) with true by lia. replace (off + j) with m by lia. rewrite EM. rewrite (interp_window x h P m a b HP ltac:(lia)); [|intros j0 J1 J2; change (psize (lenZ h) P (m mod P)) with s in J2; change (m / P) with q in J2; lia|lia|lia].
           rewrite Lxv. replace (sumZ a b (fun n => rmul (at0 x n) (rmul (at0 h (m - n * P)) (ofnat P)))) with (sumZ (0 + a) (b - a + a) (fun n => rmul (at0 x n) (rmul (at0 h (m - n * P)) (ofnat P)))) by (f_equal; lia).
           rewrite sumZ_shift. apply sumZ_ext. intros i Hi. rewrite Nxv by lia. rewrite Npv by lia. rewrite (Z.add_comm i a). f_equal.
           replace (a - (q - LPS + 1) - LPS + s + i) with (s - 1 - (q - a - i)) by lia. rewrite Np by lia. do 2 f_equal. nia.
        -- rewrite Ho by exact Hj. now replace (j <? m + 1 - off) with (j <? m - off) by lia.
      * unfold size. cbn [first last]. cbn [Z.ltb Z.sub Z.compare]. change (0 <? 0 - 0) with false. cbv iota. apply okP_ret. split; [exact Lo|]. intros j Hj. rewrite Ho by exact Hj. destruct (j =? m - off) eqn:Ej.
        -- replace (off + j) with m by lia. rewrite EM. now destruct (j <? m - off), (j <? m + 1 - off).
        -- now replace (j <? m + 1 - off) with (j <? m - off) by lia.
  - intros o [Lo Ho]. cbn beta. assert (F : exists sp, FindInterpolSuspensionPoint (off + lenZ out) (lenZ h) P = Ok sp).
    { unfold FindInterpolSuspensionPoint. destruct (_ <? 0); [eexists; reflexivity|]. replace (P =? 0) with false by lia. eexists; reflexivity. }
    destruct F as [sp F]. rewrite F. cbn [bind]. apply okP_ret. cbn [fst snd]. split; [exact Lo|]. split; [|reflexivity]. intros j Hj. rewrite Ho by exact Hj. now replace (j <? off + lenZ out - off) with true by lia.
Qed.
Lemma interpolate_ok (x : list K) v h P off len : decomposed v h P -> 0 < P -> 0 <= off -> 0 <= len -> off + len <= ConvolutionLength (lenZ x * P) (lenZ h) CONV_FULL ->
  Interpolate W vec x v off len = Ok (tab len (fun j => interp x h P (off + j))).
Proof.
  intros D HP H1 H2 H3. unfold Interpolate. destruct (interpolate_into (repeat r0 (Z.to_nat len)) x v h P off D HP H1) as ([o sp] & E & L & V & _); [rewrite lenZ_repeat; lia|].
  rewrite E. cbn [bind fst] in *. rewrite lenZ_repeat in *. f_equal. apply at0_ext; [rewrite lenZ_tab; lia|]. intros j Hj. rewrite at0_tab by lia. rewrite V by lia. destruct (meets _ _ _ _) eqn:M; [reflexivity|].
  rewrite interp_empty by (assumption || lia). unfold at0. rewrite nthZ_repeat by lia. reflexivity.
Qed.
(** ** suspending *)
Lemma suspension_ok next l P : 0 < P -> 1 <= l -> 0 <= next -> exists fi st, FindInterpolSuspensionPoint next l P = Ok (fi, st) /\ 0 <= fi /\ st = next - P * fi /\ 0 <= st /\ (fi = 0 \/ fi * P + l - 1 <= next) /\ (fi * P <= Z.max 0 (next - (l - 1))).
Proof.
  intros HP Hl Hn. unfold FindInterpolSuspensionPoint. destruct (next - (l - 1) <? 0) eqn:E.
  - exists 0, next. repeat split; lia.
  - replace (P =? 0) with false by lia. set (f := (next - (l - 1)) / P). pose proof (Z.div_mod (next - (l - 1)) P ltac:(lia)) as D. pose proof (Z.mod_pos_bound (next - (l - 1)) P HP) as B. fold f in D.
    assert (0 <= f) by (apply Z.div_pos; lia). eexists f, _. split; [reflexivity|]. repeat split; try lia; nia.
Qed.
(** dropping consumed input does not change later output *)
Lemma interp_drop (x h : list K) P fi m : 0 < P -> 0 <= fi <= lenZ x -> (fi = 0 \/ fi * P + lenZ h - 1 <= m) -> interp (skipn (Z.to_nat fi) x) h P (m - P * fi) = interp x h P m.
Proof.
  intros HP Hf Hm. unfold interp. rewrite lenZ_skipn. rewrite (sumZ_split 0 fi (lenZ x)) by lia. rewrite (sumZ_zero 0 fi).
  - replace (sumZ fi (lenZ x) (fun n => rmul (at0 x n) (rmul (at0 h (m - n * P)) (ofnat P)))) with (sumZ (0 + fi) (lenZ x - fi + fi) (fun n => rmul (at0 x n) (rmul (at0 h (m - n * P)) (ofnat P)))) by (f_equal; lia).
    rewrite sumZ_shift. replace (Z.max 0 (lenZ x - Z.of_nat (Z.to_nat fi))) with (lenZ x - fi) by lia. transitivity (sumZ 0 (lenZ x - fi) (fun i => rmul (at0 x (i + fi)) (rmul (at0 h (m - (i + fi) * P)) (ofnat P)))); [|ring].
    apply sumZ_ext. intros i Hi. rewrite at0_skipn by lia. replace (Z.of_nat (Z.to_nat fi) + i) with (i + fi) by lia. do 3 f_equal. ring.
  - intros i Hi. destruct Hm as [->|Hm]; [lia|]. rewrite (at0_out h) by nia. ring.
Qed.
(** only inputs up to m / P matter for output m *)
Lemma interp_prefix (x h : list K) P n m : 0 < P -> 0 <= n <= lenZ x -> m < n * P -> interp (firstn (Z.to_nat n) x) h P m = interp x h P m.
Proof.
  intros HP Hn Hm. unfold interp. rewrite lenZ_firstn. rewrite (sumZ_split 0 n (lenZ x)) by lia. rewrite (sumZ_zero n). 2:{ intros i Hi. rewrite (at0_out h) by nia. ring. }
  replace (Z.min (Z.of_nat (Z.to_nat n)) (lenZ x)) with n by lia. transitivity (sumZ 0 n (fun i => rmul (at0 x i) (rmul (at0 h (m - i * P)) (ofnat P)))); [|ring].
  apply sumZ_ext. intros i Hi. rewrite at0_firstn by lia. reflexivity.
Qed.
End Proofs.
