(** C31, C32, C33, C36: polyphase filters, interpolation, decimation and expansion. *)
From Coq Require Import Permutation.
From Verif Require Import Base BaseFacts IntervalModel KernelModel KernelProofs ConvModel ConvProofs FirModel PropsConv PolyphaseModel PolyphaseProofs.
From Coq Require Import ZifyBool ZifyNat.
Ltac Zify.zify_post_hook ::= Z.div_mod_to_equations.
Open Scope Z_scope.

(** ** Specification *)
(** how many of p, p+P, p+2P, ... are below n *)
Definition stride_count (n P p : Z) : Z := Z.max 0 ((n - p + P - 1) / P).
(** taps p, p+P, p+2P, ... of the filter times P, last one first *)
Definition phase_taps {K : CRing} (h : list K) (P p : Z) : list K :=
  rev (tab (stride_count (lenZ h) P p) (fun k => rmul (at0 h (p + k * P)) (ofnat P))).
(** the signal with P - 1 zeros after each sample *)
Definition zero_stuffed {K : CRing} (x : list K) (P : Z) : list K := flat_map (fun a => a :: repeat r0 (Z.to_nat (P - 1))) x.

(** ** Bridges *)
Lemma stride_count_eq n P p : 0 <= n -> 0 < P -> 0 <= p < P -> stride_count n P p = psize n P p.
Proof.
  intros H1 H2 H3. unfold stride_count, psize. destruct (divmod n P H2) as [E B]. pose proof (Z.div_mod (n - p + P - 1) P ltac:(lia)) as E2. pose proof (Z.mod_pos_bound (n - p + P - 1) P H2). destruct (p <? n mod P) eqn:Ep; nia.
Qed.
Lemma map_add_seq b k : map (Nat.add b) (seq 0 k) = seq b k.
Proof. revert b. induction k as [|k IH]; intros b; [reflexivity|]. rewrite !seq_S, map_app, IH. reflexivity. Qed.
Section Bridge.
Context {K : CRing}.
Add Ring KRb : (rth K).
Lemma zero_stuffed_eq (x : list K) P : 0 < P -> zero_stuffed x P = expanded x P.
Proof.
  intros HP. assert (L : lenZ (zero_stuffed x P) = lenZ x * P).
  { unfold zero_stuffed. induction x as [|a x IH]; [reflexivity|]. cbn [flat_map]. rewrite lenZ_app, IH, !lenZ_cons, lenZ_repeat. lia. }
  apply at0_ext; [rewrite expanded_len by exact HP; exact L|]. rewrite L. clear L. unfold expanded. intros i Hi. rewrite at0_tab by exact Hi. revert i Hi. induction x as [|a x IH]; [intros i Hi; unfold lenZ in Hi; cbn in Hi; lia|].
  intros i Hi. rewrite lenZ_cons in Hi. change (zero_stuffed (a :: x) P) with ((a :: repeat r0 (Z.to_nat (P - 1))) ++ zero_stuffed x P). rewrite at0_app. rewrite lenZ_cons, lenZ_repeat. replace (Z.of_nat (Z.to_nat (P - 1)) + 1) with P by lia. pose proof (lenZ_nonneg x).
  destruct (i <? P) eqn:E.
  - rewrite Z.mod_small, Z.div_small by lia. rewrite at0_cons by lia. destruct (i =? 0) eqn:E0; [reflexivity|]. unfold at0. rewrite nthZ_repeat by lia. reflexivity.
  - rewrite IH by nia. assert (Ei : i = (i - P) + 1 * P) by ring. assert (Em : i mod P = (i - P) mod P) by (rewrite Ei at 1; apply Z_mod_plus_full). assert (Ed : i / P = (i - P) / P + 1) by (rewrite Ei at 1; apply Z_div_plus_full; lia). rewrite Em, Ed. clear Ei Em Ed. rewrite (at0_cons a x) by (pose proof (Z.div_pos (i - P) P); lia). replace ((i - P) / P + 1 =? 0) with false by (pose proof (Z.div_pos (i - P) P); lia).
    now replace ((i - P) / P + 1 - 1) with ((i - P) / P) by ring.
Qed.
Lemma phase_list v (h : list K) P p : decomposed v h P -> 0 < P -> 0 <= p < P -> view_at v p = Ok (phase_taps h P p).
Proof.
  intros D HP Hp. destruct (phase_ok v h P p D HP Hp) as (ph & -> & Lp & Np). f_equal. unfold phase_taps. pose proof (psize_nonneg (lenZ h) P p (lenZ_nonneg h) HP). rewrite stride_count_eq by (apply lenZ_nonneg || assumption).
  apply at0_ext; [rewrite lenZ_rev, lenZ_tab; lia|]. intros i Hi. rewrite at0_rev, lenZ_tab. rewrite at0_tab by lia. replace (Z.max 0 (psize (lenZ h) P p) - 1 - i) with (psize (lenZ h) P p - 1 - i) by lia. rewrite <- Np by lia. f_equal. lia.
Qed.
(** phases fill the buffer *)
Lemma buffer_concat v (h : list K) P : decomposed v h P -> 0 < P -> vbuffer v = concat (tab P (phase_taps h P)).
Proof.
  intros D HP. destruct D as (D1 & D2 & D3). assert (D : decomposed v h P) by (repeat split; assumption). pose proof (lenZ_nonneg h) as Hn.
  assert (Q : forall i, 0 <= i -> i <= P -> firstn (Z.to_nat (poff (lenZ h) P i)) (vbuffer v) = concat (tab i (phase_taps h P))).
  { intros i Hi. assert (Hi0 := Hi). revert Hi. pattern i. apply natlike_ind; [|clear i Hi0; intros i Hi IH Hi1 HiP|exact Hi0].
    - intros _ _. rewrite poff_0 by exact HP. reflexivity.
    - unfold Z.succ in *. rewrite poff_S. pose proof (phase_list v h P i D HP ltac:(lia)) as V. destruct (poff_bounds (lenZ h) P i Hn HP ltac:(lia)) as [B1 B2]. pose proof (psize_nonneg (lenZ h) P i Hn HP).
      unfold view_at in V. rewrite D1, D2, loc_ok in V by lia. cbn [bind] in V. unfold slice in V. replace ((0 <=? poff (lenZ h) P i) && (0 <=? psize (lenZ h) P i) && (poff (lenZ h) P i + psize (lenZ h) P i <=? lenZ (vbuffer v))) with true in V by lia.
      injection V as V. assert (T : tab (i + 1) (phase_taps h P) = tab i (phase_taps h P) ++ [phase_taps h P i]). { unfold tab. replace (Z.to_nat (i + 1)) with (Z.to_nat i + 1)%nat by lia. rewrite seq_app, map_app. cbn [map seq]. do 3 f_equal. lia. } rewrite T. clear T. rewrite concat_app. cbn [concat]. rewrite app_nil_r. rewrite <- IH by lia. rewrite <- V.
      rewrite <- (firstn_skipn (Z.to_nat (poff (lenZ h) P i)) (vbuffer v)) at 1. rewrite firstn_app. rewrite firstn_all2 by (rewrite firstn_length; lia). f_equal. f_equal.
      rewrite firstn_length. unfold lenZ in *. lia. }
  specialize (Q P ltac:(lia) ltac:(lia)). rewrite poff_P in Q by exact HP. rewrite <- Q. rewrite firstn_all2; [reflexivity|]. unfold lenZ in *. lia.
Qed.
(** every tap exactly once *)
Lemma concat_perm (A : Type) (f g : Z -> list A) n : (forall i, 0 <= i < n -> Permutation (f i) (g i)) -> Permutation (concat (tab n f)) (concat (tab n g)).
Proof.
  intros H. unfold tab. assert (G : forall l, (forall i, In i l -> 0 <= Z.of_nat i < n) -> Permutation (concat (map (fun i => f (Z.of_nat i)) l)) (concat (map (fun i => g (Z.of_nat i)) l))).
  { induction l as [|a l IH]; intros Hl; [constructor|]. cbn [map concat]. apply Permutation_app; [apply H, Hl; now left|apply IH; intros; apply Hl; now right]. }
  apply G. intros i Hi. apply in_seq in Hi. lia.
Qed.
Lemma concat_bump (A : Type) (f g : Z -> list A) n p a : 0 <= p < n -> (forall i, 0 <= i < n -> i <> p -> g i = f i) -> g p = f p ++ [a] -> Permutation (concat (tab n g)) (concat (tab n f) ++ [a]).
Proof.
  intros Hp H1 H2. assert (Sp : forall F : Z -> list A, tab n F = tab p F ++ F p :: tab (n - p - 1) (fun i => F (p + 1 + i))).
  { intros F. unfold tab. replace (Z.to_nat n) with (Z.to_nat p + (1 + Z.to_nat (n - p - 1)))%nat by lia. rewrite seq_app, map_app. f_equal. cbn [Nat.add seq map]. f_equal; [f_equal; lia|].
    rewrite <- (map_add_seq (S (Z.to_nat p))), map_map. apply map_ext. intros i. f_equal. lia. }
  rewrite (Sp f), (Sp g). rewrite H2. rewrite (tab_ext p g f) by (intros; apply H1; lia). rewrite (tab_ext (n - p - 1) (fun i => g (p + 1 + i)) (fun i => f (p + 1 + i))) by (intros; apply H1; lia).
  rewrite !concat_app. cbn [concat]. rewrite <- !app_assoc. apply Permutation_app_head. apply Permutation_app_head. apply Permutation_app_comm.
Qed.
Lemma psize_succ n P p : 0 <= n -> 0 < P -> 0 <= p < P -> psize (n + 1) P p = psize n P p + (if p =? n mod P then 1 else 0).
Proof.
  intros H1 H2 H3. destruct (divmod n P H2) as [E B]. pose proof (Z.div_pos n P ltac:(lia) ltac:(lia)) as Q.
  assert (n mod P = P - 1 \/ n mod P < P - 1) as [C|C] by lia.
  - assert (E1 : (n + 1) / P = n / P + 1) by (symmetry; apply (Z.div_unique (n + 1) P (n / P + 1) 0); lia). assert (E2 : (n + 1) mod P = 0) by (symmetry; apply (Z.mod_unique (n + 1) P (n / P + 1) 0); lia).
    unfold psize. rewrite E1, E2. destruct (p <? 0) eqn:X1, (p <? n mod P) eqn:X2, (p =? n mod P) eqn:X3; lia.
  - assert (E1 : (n + 1) / P = n / P) by (symmetry; apply (Z.div_unique (n + 1) P (n / P) (n mod P + 1)); lia). assert (E2 : (n + 1) mod P = n mod P + 1) by (symmetry; apply (Z.mod_unique (n + 1) P (n / P) (n mod P + 1)); lia).
    unfold psize. rewrite E1, E2. destruct (p <? n mod P + 1) eqn:X1, (p <? n mod P) eqn:X2, (p =? n mod P) eqn:X3; lia.
Qed.
Lemma tab_snoc' {A} n (f : Z -> A) : 0 <= n -> tab (n + 1) f = tab n f ++ [f n].
Proof. intros H. unfold tab. replace (Z.to_nat (n + 1)) with (Z.to_nat n + 1)%nat by lia. rewrite seq_app, map_app. cbn [map seq]. do 3 f_equal. lia. Qed.
Lemma strides_perm (A : Type) (f : Z -> A) n P : 0 <= n -> 0 < P -> Permutation (concat (tab P (fun p => tab (psize n P p) (fun k => f (p + k * P))))) (tab n f).
Proof.
  intros Hn HP. assert (Hn0 := Hn). revert Hn0. pattern n. apply natlike_ind; [|clear n Hn; intros n Hn IH _|exact Hn].
  - intros _. assert (Z0 : forall p, psize 0 P p = 0 \/ p < 0) by (intros p; unfold psize; rewrite Zdiv_0_l, Zmod_0_l; destruct (p <? 0) eqn:X; lia).
    rewrite (tab_ext P _ (fun _ => [])). 2:{ intros i Hi. destruct (Z0 i) as [->|]; [reflexivity|lia]. } unfold tab. cbn [Z.to_nat seq map]. generalize (seq 0 (Z.to_nat P)) as l. induction l as [|a l IHl]; [constructor|exact IHl].
  - specialize (IH Hn). unfold Z.succ. rewrite tab_snoc' by exact Hn. rewrite <- IH. destruct (divmod n P HP) as [E B].
    assert (Ed : psize n P (n mod P) = n / P) by (unfold psize; replace (n mod P <? n mod P) with false by lia; lia).
    apply (concat_bump A _ _ P (n mod P)); [exact B| |].
    + intros i Hi Hne. rewrite psize_succ by lia. replace (i =? n mod P) with false by lia. now rewrite Z.add_0_r.
    + rewrite psize_succ by lia. replace (n mod P =? n mod P) with true by lia. rewrite tab_snoc' by (apply psize_nonneg; lia). do 3 f_equal. rewrite Ed. lia.
Qed.
End Bridge.

(** ** C31 *)
Theorem C31_phases (K : CRing) W vec (h : list K) P : 1 <= W -> 0 < P -> exists v, PolyphaseDecompose W vec h P = Ok v /\ num_phases v = P /\ size_original v = lenZ h /\
  (forall p, 0 <= p < P -> view_at v p = Ok (phase_taps h P p)) /\
  vbuffer v = concat (tab P (phase_taps h P)) /\ Permutation (vbuffer v) (map (fun t => rmul t (ofnat P)) h) /\
  size_per_phase v = Ok (stride_count (lenZ h) P 0).
Proof.
  intros HW HP. unfold PolyphaseDecompose. destruct (decompose_ok W vec HW (repeat r0 (length h)) h P) as (v & E & D); [rewrite lenZ_repeat; reflexivity|exact HP|].
  exists v. split; [exact E|]. pose proof D as (D1 & D2 & D3). split; [exact D1|]. split; [exact D2|]. split; [intros p Hp; now apply phase_list|]. pose proof (buffer_concat v h P D HP) as Bc. split; [exact Bc|]. split.
  - rewrite Bc. assert (Pm : Permutation (concat (tab P (phase_taps h P))) (concat (tab P (fun p => tab (psize (lenZ h) P p) (fun k => (fun i => rmul (at0 h i) (ofnat P)) (p + k * P)))))).
    { apply concat_perm. intros p Hp. unfold phase_taps. rewrite stride_count_eq by (try lia; apply lenZ_nonneg). symmetry. apply Permutation_rev. }
    eapply perm_trans; [exact Pm|]. eapply perm_trans; [apply (strides_perm _ (fun i => rmul (at0 h i) (ofnat P))); [apply lenZ_nonneg|exact HP]|].
    replace (map (fun t => rmul t (ofnat P)) h) with (tab (lenZ h) (fun i => rmul (at0 h i) (ofnat P))); [apply Permutation_refl|]. rewrite <- (map_tab (fun t => rmul t (ofnat P))). now rewrite <- tab_at0.
  - unfold size_per_phase. rewrite D1, D2. replace (P =? 0) with false by lia. unfold stride_count. pose proof (lenZ_nonneg h). f_equal. rewrite Z.max_r; [f_equal; lia|apply Z.div_pos; lia].
Qed.
Print Assumptions C31_phases.
(** the caller's buffer: any content, overwritten completely *)
Theorem C31_into (K : CRing) W vec (out h : list K) P : 1 <= W -> 0 < P -> lenZ out = lenZ h -> PolyphaseDecomposeInto W vec out h P = PolyphaseDecompose W vec h P.
Proof.
  intros HW HP L. unfold PolyphaseDecompose. destruct (decompose_ok W vec HW out h P L HP) as (v & -> & D). destruct (decompose_ok W vec HW (repeat r0 (length h)) h P ltac:(now rewrite lenZ_repeat) HP) as (v' & -> & D').
  f_equal. pose proof (buffer_concat v h P D HP) as B. pose proof (buffer_concat v' h P D' HP) as B'. destruct D as (C & _), D' as (C' & _). destruct v as [b c], v' as [b' c']. cbn [vbuffer vcount] in *. congruence.
Qed.
Print Assumptions C31_into.
Example C31_nontrivial : exists v : pview Zring, PolyphaseDecompose 4 true ([1; 2; 3; 4; 5; 6; 7] : list Zring) 3 = Ok v /\ vbuffer v = [21; 12; 3; 15; 6; 18; 9].
Proof. eexists. split; [vm_compute; reflexivity|reflexivity]. Qed.

(** normalisation: every phase is divided by its sum *)
Section Norm.
Context {F : CField}.
Add Field FF : (fth F).
Lemma on_window_ok (out : list F) o s c W vec : 1 <= W -> 0 <= o -> 0 <= s -> o + s <= lenZ out -> exists out', on_window out o s (fun w => sig_scalar_inplace W vec rmul w c) = Ok out' /\ lenZ out' = lenZ out /\
    (forall j, at0 out' j = if (o <=? j) && (j <? o + s) then rmul (at0 out j) c else at0 out j).
Proof. intros. now apply scale_window. Qed.
Lemma sum_ok W vec (l : list F) : 1 <= W -> Sum W vec l = Ok (suml l).
Proof. intros HW. unfold Sum. rewrite (Reduce_spec (Plain radd) radd W vec); [|left; constructor; intros; ring|exact HW]. reflexivity. Qed.
Lemma view_slice (v : pview F) p : 0 < vcount v -> 0 <= p < vcount v -> exists ph, view_at v p = Ok ph /\ lenZ ph = psize (lenZ (vbuffer v)) (vcount v) p /\ (forall k, 0 <= k < lenZ ph -> at0 ph k = at0 (vbuffer v) (poff (lenZ (vbuffer v)) (vcount v) p + k)).
Proof.
  intros HP Hp. unfold view_at. rewrite loc_ok by lia. cbn [bind]. pose proof (lenZ_nonneg (vbuffer v)) as Hn. destruct (poff_bounds _ _ p Hn HP Hp) as [B1 B2]. pose proof (psize_nonneg _ _ p Hn HP).
  destruct (slice_at0 (vbuffer v) (poff (lenZ (vbuffer v)) (vcount v) p) (psize (lenZ (vbuffer v)) (vcount v) p)) as (ph & -> & L & N); [lia|lia|lia|]. exists ph. split; [reflexivity|]. split; [exact L|]. intros k Hk. apply N. lia.
Qed.
(** the phase [ph] divided by its sum *)
Definition normalized (ph : list F) : list F := map (fun t => rmul t (fdiv r1 (suml ph))) ph.
Lemma normalize_ok W vec (v : pview F) : 1 <= W -> 0 < vcount v -> exists v', PolyphaseNormalize W vec v = Ok v' /\ vcount v' = vcount v /\ lenZ (vbuffer v') = lenZ (vbuffer v) /\
  forall p, 0 <= p < vcount v -> exists ph, view_at v p = Ok ph /\ view_at v' p = Ok (normalized ph).
Proof.
  intros HW HP. unfold PolyphaseNormalize. set (P := vcount v) in *. pose proof (lenZ_nonneg (vbuffer v)) as Hn. set (n := lenZ (vbuffer v)) in *.
  destruct (for1_inv (fun i (b : list F) => lenZ b = n /\ forall p, 0 <= p < P -> exists ph, view_at v p = Ok ph /\ view_at (mkView b P) p = Ok (if p <? i then normalized ph else ph)) 0 P
    (fun i buf => do phase <- view_at (mkView buf P) i; do s <- Sum W vec phase; do (offset, size) <- subsignal_location (lenZ buf) P i; on_window buf offset size (fun w => sig_scalar_inplace W vec rmul w (fdiv r1 s))) (vbuffer v)) as (b & Eb & Lb & Hb).
  - split; [reflexivity|]. intros p Hp. destruct (view_slice v p HP Hp) as (ph & E & _). exists ph. split; [exact E|]. replace (p <? 0) with false by lia. rewrite <- E. destruct v; reflexivity.
  - lia.
  - intros i b Hi [Lb Hb]. destruct (Hb i Hi) as (ph & E1 & E2). rewrite E2. replace (i <? i) with false in * by lia. cbn [bind]. rewrite sum_ok by exact HW. cbn [bind]. rewrite Lb, loc_ok by lia. cbn [bind].
    destruct (poff_bounds n P i Hn HP Hi) as [B1 B2]. pose proof (psize_nonneg n P i Hn HP) as S0. destruct (on_window_ok b (poff n P i) (psize n P i) (fdiv r1 (suml ph)) W vec HW) as (b' & -> & Lb' & Nb'); [lia|lia|lia|].
    apply okP_ret. split; [lia|]. intros p Hp. destruct (Hb p Hp) as (php & F1 & F2). exists php. split; [exact F1|].
    destruct (view_slice (mkView b P) p HP Hp) as (q & G1 & G2 & G3). destruct (view_slice (mkView b' P) p HP Hp) as (q' & G1' & G2' & G3'). cbn [vbuffer vcount] in *. rewrite Lb', Lb in *. rewrite F2 in G1. injection G1 as G1. rewrite G1'. f_equal.
    assert (p = i \/ p < i \/ i < p) as [->|[Hlt|Hgt]] by lia.
    + assert (php = ph) by congruence. subst php. replace (i <? i + 1) with true by lia. replace (i <? i) with false in G1 by lia. subst q. unfold normalized. apply at0_ext; [rewrite lenZ_map; lia|]. intros k Hk. rewrite G3' by lia. rewrite Nb'.
      replace ((poff n P i <=? poff n P i + k) && (poff n P i + k <? poff n P i + psize n P i)) with true by lia. rewrite <- G3 by lia. unfold at0 at 2. rewrite nthZ_map. rewrite nthZ_at0 by lia. reflexivity.
    + replace (p <? i) with true in G1 by lia. replace (p <? i + 1) with true by lia. rewrite G1. apply at0_ext; [lia|]. intros k Hk. rewrite G3', G3 by lia. rewrite Nb'. pose proof (poff_mono n P (p + 1) i Hn HP ltac:(lia)) as M. rewrite poff_S in M.
      now replace ((poff n P i <=? poff n P p + k) && (poff n P p + k <? poff n P i + psize n P i)) with false by lia.
    + replace (p <? i) with false in G1 by lia. replace (p <? i + 1) with false by lia. rewrite G1. apply at0_ext; [lia|]. intros k Hk. rewrite G3', G3 by lia. rewrite Nb'. pose proof (poff_mono n P (i + 1) p Hn HP ltac:(lia)) as M. rewrite poff_S in M.
      now replace ((poff n P i <=? poff n P p + k) && (poff n P p + k <? poff n P i + psize n P i)) with false by lia.
  - rewrite Eb. cbn [bind]. exists (mkView b P). split; [reflexivity|]. split; [reflexivity|]. split; [exact Lb|]. intros p Hp. destruct (Hb p Hp) as (ph & E1 & E2). exists ph. split; [exact E1|]. now replace (p <? P) with true in E2 by lia.
Qed.
Lemma normalized_sum (ph : list F) : suml ph <> r0 -> suml (normalized ph) = r1.
Proof.
  intros H. unfold normalized. assert (G : forall c l, suml (map (fun t : F => rmul t c) l) = rmul (suml l) c).
  { intros c l. induction l as [|a l IH]; [cbn [map]; rewrite suml_nil; ring|]. cbn [map]. rewrite !suml_cons, IH. ring. }
  rewrite G. field. exact H.
Qed.
End Norm.
Theorem C31_normalize (F : CField) W vec (v : pview F) : 1 <= W -> 0 < num_phases v -> exists v', PolyphaseNormalize W vec v = Ok v' /\ num_phases v' = num_phases v /\ size_original v' = size_original v /\
  forall p, 0 <= p < num_phases v -> exists ph ph', view_at v p = Ok ph /\ view_at v' p = Ok ph' /\ lenZ ph' = lenZ ph /\
    (forall k, 0 <= k < lenZ ph -> at0 ph' k = rmul (at0 ph k) (fdiv r1 (suml ph))) /\ (suml ph <> r0 -> suml ph' = r1).
Proof.
  intros HW HP. destruct (normalize_ok W vec v HW HP) as (v' & E & C & L & V). exists v'. split; [exact E|]. split; [exact C|]. split; [exact L|]. intros p Hp. destruct (V p Hp) as (ph & E1 & E2). exists ph, (normalized ph).
  split; [exact E1|]. split; [exact E2|]. split; [unfold normalized; now rewrite lenZ_map|]. split; [|apply normalized_sum]. intros k Hk. unfold normalized. unfold at0 at 1. rewrite nthZ_map, nthZ_at0 by exact Hk. reflexivity.
Qed.
Print Assumptions C31_normalize.

(** ** C32: interpolation = zero stuffing, then convolution with the filter times P *)
Lemma interp_spec (K : CRing) (x h : list K) P m : 0 < P -> interp x h P m = rmul (conv_at (zero_stuffed x P) h m) (ofnat P).
Proof. intros HP. rewrite interp_conv by exact HP. rewrite conv_at_conv, zero_stuffed_eq by exact HP. reflexivity. Qed.
Lemma full_length (n l P : Z) : 0 < n -> 0 < l -> 0 < P -> ConvolutionLength (n * P) l CONV_FULL = n * P + l - 1.
Proof. intros. unfold ConvolutionLength. replace ((n * P =? 0) || (l =? 0)) with false by nia. lia. Qed.
Lemma decompose_view (K : CRing) W vec (h : list K) P v : 1 <= W -> 0 < P -> PolyphaseDecompose W vec h P = Ok v -> decomposed v h P.
Proof.
  intros HW HP E. unfold PolyphaseDecompose in E. destruct (decompose_ok W vec HW (repeat r0 (length h)) h P) as (v' & E' & D); [rewrite lenZ_repeat; reflexivity|exact HP|]. congruence.
Qed.
Theorem C32_interpolate (K : CRing) W vec (x h : list K) P v off len : 1 <= W -> 0 < P -> PolyphaseDecompose W vec h P = Ok v -> 0 < lenZ x -> 0 < lenZ h -> 0 <= off -> 0 <= len ->
  (off + len <= lenZ x * P + lenZ h - 1 -> Interpolate W vec x v off len = Ok (tab len (fun j => rmul (conv_at (zero_stuffed x P) h (off + j)) (ofnat P)))) /\
  (lenZ x * P + lenZ h - 1 < off + len -> Interpolate W vec x v off len = UB).
Proof.
  intros HW HP E Hx Hh Ho Hl. pose proof (decompose_view K W vec h P v HW HP E) as D. split; intros Hm.
  - rewrite (interpolate_ok W vec HW x v h P off len D HP Ho Hl) by (rewrite full_length; lia). f_equal. apply tab_ext. intros i Hi. now apply interp_spec.
  - destruct D as (D1 & D2 & _). unfold Interpolate, InterpolateInto, gInterpolateInto, size_per_phase, size_original, num_phases, InterpolLength. rewrite D1, D2. replace (P =? 0) with false by lia. cbn [bind]. rewrite full_length by lia. rewrite lenZ_repeat. unfold assert_.
    now replace (off + Z.of_nat (Z.to_nat len) <=? lenZ x * P + lenZ h - 1) with false by lia.
Qed.
Print Assumptions C32_interpolate.
(** into a buffer of the caller: a sample is left as it was only where the exact result is zero *)
Theorem C32_in_place_partial (K : CRing) W vec (out x h : list K) P v off : 1 <= W -> 0 < P -> PolyphaseDecompose W vec h P = Ok v -> 0 < lenZ x -> 0 < lenZ h -> 0 <= off -> off + lenZ out <= lenZ x * P + lenZ h - 1 ->
  exists out' sp, InterpolateInto W vec out x v off = Ok (out', sp) /\ lenZ out' = lenZ out /\
  (forall j, 0 <= j < lenZ out -> let ideal := rmul (conv_at (zero_stuffed x P) h (off + j)) (ofnat P) in
     at0 out' j = ideal \/ (ideal = r0 /\ at0 out' j = at0 out j)) /\
  (P <= lenZ h -> off + lenZ out <= lenZ x * P + lenZ h - P -> out' = tab (lenZ out) (fun j => rmul (conv_at (zero_stuffed x P) h (off + j)) (ofnat P))).
Proof.
  intros HW HP E Hx Hh Ho Hm. pose proof (decompose_view K W vec h P v HW HP E) as D. destruct (interpolate_into W vec HW out x v h P off D HP Ho) as ([o sp] & E1 & L & V & _); [rewrite full_length; lia|]. cbn [fst] in *.
  exists o, sp. split; [exact E1|]. split; [exact L|]. split.
  - intros j Hj. cbv zeta. rewrite <- interp_spec by exact HP. rewrite (V j Hj). destruct (meets _ _ _ _) eqn:M; [now left|]. right. split; [|reflexivity]. apply interp_empty; [exact HP|lia|exact M].
  - intros H1 H2. pose proof (lenZ_nonneg out) as Hn0. apply at0_ext; [rewrite lenZ_tab; lia|]. intros j Hj. rewrite at0_tab by lia. rewrite <- interp_spec by exact HP. rewrite V by lia. replace (meets (lenZ x) (lenZ h) P (off + j)) with true; [reflexivity|].
    symmetry. unfold meets. set (m := off + j) in *. destruct (divmod m P HP) as [Em Bm]. assert (0 <= m / P) by (apply Z.div_pos; lia). pose proof (psize_spec (lenZ h) P (m mod P) 0 (lenZ_nonneg h) HP Bm ltac:(lia)) as S0. assert (0 < psize (lenZ h) P (m mod P)) by (apply S0; lia).
    assert (m / P + 1 - psize (lenZ h) P (m mod P) < lenZ x); [|lia]. destruct (Z_lt_ge_dec (m / P) (lenZ x)); [lia|].
    pose proof (psize_spec (lenZ h) P (m mod P) (m / P - lenZ x + 1) (lenZ_nonneg h) HP Bm ltac:(lia)) as S1. assert (m / P - lenZ x + 1 < psize (lenZ h) P (m mod P)); [apply S1; nia|lia].
Qed.
Print Assumptions C32_in_place_partial.
(** the full claim for buffers of the caller fails: a stale sample survives *)
Theorem C32_in_place_refuted : exists (v : pview Zring) out' sp, PolyphaseDecompose 4 true ([1; 1] : list Zring) 2 = Ok v /\
  InterpolateInto 4 true ([7; 7; 7] : list Zring) [5] v 0 = Ok (out', sp) /\ out' = [10; 10; 7] /\
  rmul (conv_at (zero_stuffed ([5] : list Zring) 2) [1; 1] 2) (ofnat 2) = 0.
Proof. do 3 eexists. split; [vm_compute; reflexivity|]. split; [vm_compute; reflexivity|]. split; vm_compute; reflexivity. Qed.
Print Assumptions C32_in_place_refuted.
Example C32_nontrivial : exists v : pview Zring, PolyphaseDecompose 4 true ([1; 2; 3; 4; 5] : list Zring) 2 = Ok v /\ Interpolate 4 true ([1; 10; 100] : list Zring) v 2 6 = Ok [26; 48; 270; 480; 700; 800].
Proof. eexists. split; [vm_compute; reflexivity|vm_compute; reflexivity]. Qed.

(** ** C33: suspending *)
(** a user interpolating in calls of the given lengths, each on the input that is still needed *)
Fixpoint in_calls {K : CRing} W vec (x : list K) (v : pview K) (start : Z) (lens : list Z) : outcome (list K) :=
  match lens with
  | [] => Ok []
  | len :: lens =>
    do (out, sp) <- InterpolateInto W vec (repeat r0 (Z.to_nat len)) x v start;
    do rest <- in_calls W vec (skipn (Z.to_nat (fst sp)) x) v (snd sp) lens;
    Ok (out ++ rest)
  end.
Definition total (lens : list Z) : Z := fold_right Z.add 0 lens.
Lemma total_nonneg lens : (forall l, In l lens -> 0 < l) -> 0 <= total lens.
Proof. induction lens as [|a l IH]; intros H; [reflexivity|]. cbn [total fold_right]. pose proof (H a (or_introl eq_refl)). pose proof (IH (fun z Hz => H z (or_intror Hz))). unfold total in *. lia. Qed.
Lemma in_calls_ok (K : CRing) W vec (h : list K) P v lens : 1 <= W -> 0 < P -> decomposed v h P -> 0 < lenZ h -> (forall l, In l lens -> 0 < l) ->
  forall x start, 0 < lenZ x -> 0 <= start -> start + total lens <= lenZ x * P + lenZ h - 1 -> in_calls W vec x v start lens = Ok (tab (total lens) (fun j => interp x h P (start + j))).
Proof.
  intros HW HP D Hh. induction lens as [|l lens IH]; intros Hp x start Hx Hs Hm; [reflexivity|]. pose proof (Hp l (or_introl eq_refl)) as Hl. pose proof (total_nonneg lens (fun z Hz => Hp z (or_intror Hz))) as T0.
  cbn [in_calls]. change (total (l :: lens)) with (l + total lens) in *.
  destruct (interpolate_into W vec HW (repeat r0 (Z.to_nat l)) x v h P start D HP Hs) as ([o sp] & E & L & V & S); [rewrite full_length, lenZ_repeat; lia|]. rewrite E. cbn [bind fst snd] in *. rewrite lenZ_repeat in *.
  replace (Z.of_nat (Z.to_nat l)) with l in * by lia. destruct (suspension_ok (start + l) (lenZ h) P HP ltac:(lia) ltac:(lia)) as (fi & st & Es & F1 & F2 & F3 & F4 & F5). rewrite Es in S. injection S as <-. cbn [fst snd].
  assert (Eo : o = tab l (fun j => interp x h P (start + j))).
  { apply at0_ext; [rewrite lenZ_tab; lia|]. intros j Hj. rewrite at0_tab by lia. rewrite V by lia. destruct (meets _ _ _ _) eqn:M; [reflexivity|]. rewrite interp_empty by (assumption || lia). unfold at0. rewrite nthZ_repeat by lia. reflexivity. }
  destruct lens as [|l2 lens].
  - cbn [in_calls bind total fold_right]. rewrite app_nil_r, Z.add_0_r. now rewrite Eo.
  - pose proof (Hp l2 (or_intror (or_introl eq_refl))) as Hl2. pose proof (total_nonneg lens (fun z Hz => Hp z (or_intror (or_intror Hz)))) as T1. change (total (l2 :: lens)) with (l2 + total lens) in *.
    assert (Hf : fi < lenZ x) by nia. rewrite IH.
    + cbn [bind]. f_equal. rewrite Eo. apply list_eq_tab; [rewrite lenZ_app, !lenZ_tab; change (total (l2 :: lens)) with (l2 + total lens); lia|]. intros j Hj. change (total (l2 :: lens)) with (l2 + total lens).
      destruct (Z_lt_ge_dec j l); [rewrite nthZ_app1 by (rewrite lenZ_tab; lia); now rewrite nthZ_tab by lia|]. rewrite nthZ_app2 by (rewrite lenZ_tab; lia). rewrite lenZ_tab. rewrite nthZ_tab by lia. f_equal. subst st.
      rewrite <- (interp_drop x h P fi (start + j)) by (first [lia|destruct F4; [left; assumption|right; lia]]). f_equal. lia.
    + intros z Hz. apply Hp. now right.
    + rewrite lenZ_skipn. lia.
    + lia.
    + rewrite lenZ_skipn. change (total (l2 :: lens)) with (l2 + total lens). subst st. nia.
Qed.
Theorem C33_resume (K : CRing) W vec (x h : list K) P v start lens : 1 <= W -> 0 < P -> PolyphaseDecompose W vec h P = Ok v -> 0 < lenZ x -> 0 < lenZ h -> 0 <= start ->
  (forall l, In l lens -> 0 < l) -> start + total lens <= lenZ x * P + lenZ h - 1 ->
  in_calls W vec x v start lens = Interpolate W vec x v start (total lens) /\ exists y, in_calls W vec x v start lens = Ok y.
Proof.
  intros HW HP E Hx Hh Hs Hp Hm. pose proof (decompose_view K W vec h P v HW HP E) as D. rewrite (in_calls_ok K W vec h P v lens HW HP D Hh Hp x start Hx Hs Hm).
  rewrite (interpolate_ok W vec HW x v h P start (total lens) D HP Hs (total_nonneg lens Hp)) by (rewrite full_length; lia). split; [reflexivity|]. eexists. reflexivity.
Qed.
Print Assumptions C33_resume.
(** streaming: the first call sees only the input received so far, the second the input from the reported sample on, including samples received later *)
Theorem C33_streaming (K : CRing) W vec (x h : list K) P v len1 len2 received : 1 <= W -> 0 < P -> PolyphaseDecompose W vec h P = Ok v -> 0 < lenZ h ->
  0 < received <= lenZ x -> 0 <= len1 <= received * P -> 0 < len2 -> len1 + len2 <= lenZ x * P + lenZ h - 1 ->
  exists out1 first start, InterpolateInto W vec (repeat r0 (Z.to_nat len1)) (firstn (Z.to_nat received) x) v 0 = Ok (out1, (first, start)) /\ 0 <= first <= received /\
    exists out2, Interpolate W vec (skipn (Z.to_nat first) x) v start len2 = Ok out2 /\ Interpolate W vec x v 0 (len1 + len2) = Ok (out1 ++ out2).
Proof.
  intros HW HP E Hh Hr H1 H2 Hm. pose proof (decompose_view K W vec h P v HW HP E) as D.
  assert (Lr : lenZ (firstn (Z.to_nat received) x) = received) by (rewrite lenZ_firstn; lia).
  destruct (interpolate_into W vec HW (repeat r0 (Z.to_nat len1)) (firstn (Z.to_nat received) x) v h P 0 D HP ltac:(lia)) as ([o sp] & E1 & L & V & S); [rewrite Lr, full_length, lenZ_repeat; lia|]. cbn [fst snd] in *. rewrite lenZ_repeat in *.
  replace (Z.of_nat (Z.to_nat len1)) with len1 in * by lia. destruct (suspension_ok (0 + len1) (lenZ h) P HP ltac:(lia) ltac:(lia)) as (fi & st & Es & F1 & F2 & F3 & F4 & F5). rewrite Es in S. injection S as <-.
  exists o, fi, st. split; [exact E1|]. assert (Hf : 0 <= fi <= received) by nia. split; [exact Hf|]. assert (Hfx : fi < lenZ x) by nia.
  eexists. split; [apply (interpolate_ok W vec HW _ v h P st len2 D HP ltac:(lia) ltac:(lia)); rewrite full_length; rewrite ?lenZ_skipn; nia|].
  rewrite (interpolate_ok W vec HW x v h P 0 (len1 + len2) D HP ltac:(lia) ltac:(lia)) by (rewrite full_length; lia). f_equal. symmetry. apply list_eq_tab; [rewrite lenZ_app, lenZ_tab; lia|].
  intros j Hj. destruct (Z_lt_ge_dec j len1).
  - rewrite nthZ_app1 by lia. rewrite nthZ_at0 by lia. f_equal. rewrite V by lia. rewrite Lr. rewrite <- (interp_prefix x h P received (0 + j)) by (lia || nia).
    destruct (meets _ _ _ _) eqn:M; [reflexivity|]. rewrite interp_empty by (assumption || lia || (rewrite Lr; exact M)). unfold at0. rewrite nthZ_repeat by lia. reflexivity.
  - rewrite nthZ_app2 by lia. rewrite nthZ_tab by lia. f_equal. subst st. rewrite <- (interp_drop x h P fi (0 + j)) by (first [lia|destruct F4; [left; assumption|right; lia]]). f_equal. lia.
Qed.
Print Assumptions C33_streaming.
Example C33_nontrivial : exists v : pview Zring, PolyphaseDecompose 4 true ([1; 2; 3; 4; 5] : list Zring) 2 = Ok v /\
  in_calls 4 true ([1; 10; 100; 7; 9] : list Zring) v 0 [3; 4; 5; 2] = Interpolate 4 true ([1; 10; 100; 7; 9] : list Zring) v 0 14 /\
  FindInterpolSuspensionPoint 7 5 2 = Ok (1, 5).
Proof. eexists. split; [vm_compute; reflexivity|]. split; vm_compute; reflexivity. Qed.

(** ** C36: Decimate, Expand *)
Theorem C36_decimate (K : CRing) (x : list K) r : 0 < r -> exists y, Decimate x r = Ok y /\ lenZ y = stride_count (lenZ x) r 0 /\ forall i, 0 <= i < lenZ y -> nthZ y i = nthZ x (i * r) /\ i * r < lenZ x.
Proof.
  intros H. pose proof (lenZ_nonneg x) as Hn. destruct (decimate_bound (lenZ x) r Hn H) as [M0 Mb]. rewrite decimate_ok by exact H. eexists. split; [reflexivity|]. rewrite lenZ_tab. unfold stride_count. rewrite Z.sub_0_r. split; [reflexivity|].
  intros i Hi. assert (i * r < lenZ x) by (apply Mb; lia). split; [|assumption]. rewrite nthZ_tab by lia. symmetry. apply nthZ_at0. nia.
Qed.
Print Assumptions C36_decimate.
Theorem C36_expand (K : CRing) (x : list K) r : 0 < r -> Expand x r = Ok (zero_stuffed x r).
Proof. intros H. rewrite expand_ok by exact H. now rewrite zero_stuffed_eq. Qed.
Print Assumptions C36_expand.
Theorem C36_into (K : CRing) (out x : list K) r : 0 < r ->
  (lenZ out = stride_count (lenZ x) r 0 -> DecimateInto out x r = Decimate x r) /\ (lenZ out = lenZ x * r -> ExpandInto out x r = Expand x r).
Proof.
  intros H. unfold stride_count. pose proof (lenZ_nonneg x) as Hn. destruct (decimate_bound (lenZ x) r Hn H) as [M0 _]. split; intros L.
  - rewrite decimate_ok by exact H. apply decimate_into; [exact H|]. rewrite L, Z.sub_0_r. lia.
  - rewrite expand_ok by exact H. now apply expand_into.
Qed.
Print Assumptions C36_into.
Theorem C36_inverse (K : CRing) (x y : list K) r : 0 < r -> Expand x r = Ok y -> Decimate y r = Ok x.
Proof.
  intros H E. rewrite expand_ok in E by exact H. injection E as <-. rewrite decimate_ok by exact H. rewrite expanded_len by exact H. f_equal. pose proof (lenZ_nonneg x) as Hn.
  assert (Eq : (lenZ x * r + r - 1) / r = lenZ x) by (symmetry; apply (Z.div_unique _ _ _ (r - 1)); [lia|ring]). rewrite Eq. symmetry. apply list_eq_tab; [lia|]. intros i Hi. unfold expanded. rewrite at0_tab by nia.
  rewrite Z_mod_mult, Z_div_mult by lia. cbn [Z.eqb]. apply nthZ_at0. lia.
Qed.
Print Assumptions C36_inverse.
Theorem C36_rate_zero (K : CRing) (x : list K) : Decimate x 0 = UB /\ (0 < lenZ x -> Expand x 0 = UB).
Proof.
  split; [reflexivity|]. intros H. unfold Expand. rewrite Z.mul_0_r. cbn [Z.to_nat repeat]. unfold ExpandInto, assert_. rewrite Z.mul_0_r. change (lenZ (@nil K) =? 0) with true. cbn iota.
  destruct x as [|a x]; [unfold lenZ in H; cbn in H; lia|]. unfold for_, trips. rewrite Z.div_1_r. destruct (Z.to_nat (lenZ (a :: x) - 0 + 1 - 1)) as [|n] eqn:En; [lia|]. reflexivity.
Qed.
Print Assumptions C36_rate_zero.
Example C36_nontrivial : Expand ([5; 6; 7] : list Zring) 3 = Ok [5; 0; 0; 6; 0; 0; 7; 0; 0] /\ Decimate ([0; 1; 2; 3; 4; 5; 6] : list Zring) 3 = Ok [0; 3; 6].
Proof. split; vm_compute; reflexivity. Qed.
