(** Proofs about FirBandModel. *)
From Coq Require Import ZArith List Bool Lia Reals.
From Verif Require Import Base BaseFacts Complex KernelModel KernelProofs ConvModel ConvProofs FirModel PolyphaseModel PolyphaseProofs FirBandModel.
From Coq Require Import ZifyBool ZifyNat.
Import ListNotations.
Ltac Zify.zify_post_hook ::= Z.div_mod_to_equations.
Open Scope Z_scope.

Section Ring.
Context {K : CRing}.
Add Ring KRfb : (rth K).
Variables (W : Z) (vec : bool).
Hypothesis HW : 1 <= W.
(** the taps of the source, before anything is written *)
Definition src_val (out : list K) (filter : option (list K)) (i : Z) : K := match filter with None => at0 out i | Some f => at0 f i end.
Definition alt (i : Z) : K := if Z.even i then r1 else ropp r1.
Lemma alt_S i : rmul (alt i) (ropp r1) = alt (i + 1).
Proof. unfold alt. rewrite Z.add_1_r, Z.even_succ, <- Z.negb_even. destruct (Z.even i); cbn [negb]; ring. Qed.

Lemma mirror_ok (out : list K) filter : lenZ out = src_size out filter -> MirrorResponse out filter = Ok (tab (lenZ out) (fun i => rmul (alt i) (src_val out filter i))).
Proof.
  intros H. unfold MirrorResponse. rewrite H, Z.eqb_refl. cbn [assert_]. pose proof (lenZ_nonneg out) as Hn. apply okP_eq. eapply okP_bind.
  - apply (for1_inv (fun i st => lenZ (fst st) = lenZ out /\ snd st = alt i /\ forall j, at0 (fst st) j = if (0 <=? j) && (j <? i) then rmul (alt j) (src_val out filter j) else at0 out j)).
    + cbn [fst snd]. split; [reflexivity|]. split; [reflexivity|]. intros j. destruct (_ && _) eqn:E; [lia|reflexivity].
    + lia.
    + intros i [o sg] Hi (L & Es & N). cbn [fst snd] in L, N, Es. subst sg.
      assert (E : src_at o filter i = Ok (src_val out filter i)). { destruct filter as [f|]; cbn [src_at src_val src_size] in *; [apply rd_at0; lia|]. rewrite rd_at0 by lia. rewrite N. now replace ((0 <=? i) && (i <? i)) with false by lia. }
      rewrite E. cbn [bind]. rewrite wr_ok by lia. cbn [bind]. apply okP_ret. cbn [fst snd]. split; [rewrite lenZ_updZ; lia|]. split; [apply alt_S|]. intros j. rewrite at0_updZ by lia. rewrite N. destruct (Z.eqb_spec j i); [subst; now replace ((0 <=? i) && (i <? i + 1)) with true by lia|]. now replace ((0 <=? j) && (j <? i + 1)) with ((0 <=? j) && (j <? i)) by lia.
  - intros [o sg] (L & _ & N). apply okP_ret. cbn [fst] in L, N. rewrite <- H. apply at0_ext; [rewrite lenZ_tab; lia|]. intros j Hj. rewrite N, at0_tab by lia. now replace ((0 <=? j) && (j <? src_size out filter)) with true by lia.
Qed.
Lemma complementary_ok (out : list K) filter : lenZ out = src_size out filter -> lenZ out mod 2 = 1 ->
  ComplementaryResponse W vec out filter = Ok (tab (lenZ out) (fun i => rsub (if i =? lenZ out / 2 then r1 else r0) (src_val out filter i))).
Proof.
  intros H Ho. unfold ComplementaryResponse. rewrite <- H. replace (lenZ out mod 2 =? 1) with true by (symmetry; apply Z.eqb_eq; exact Ho). cbn [assert_]. pose proof (lenZ_nonneg out) as Hn.
  assert (E : match filter with None => sig_scalar_inplace W vec rmul out (ropp r1) | Some f => sig_scalar_into W vec rmul out f (ropp r1) end = Ok (tab (lenZ out) (fun i => rmul (src_val out filter i) (ropp r1)))).
  { destruct filter as [f|]; cbn [src_size src_val] in *; [rewrite sig_scalar_into_ok by assumption|rewrite sig_scalar_inplace_ok by assumption]; f_equal; [rewrite H; rewrite (tab_at0 f) at 1|rewrite (tab_at0 out) at 1]; now rewrite map_tab. }
  rewrite E. cbn [bind]. rewrite lenZ_tab, Z.max_r by lia. rewrite rd_at0 by (rewrite lenZ_tab; lia). cbn [bind]. rewrite wr_ok by (rewrite lenZ_tab; lia). f_equal.
  apply at0_ext; [rewrite lenZ_updZ; rewrite !lenZ_tab; lia|]. intros j Hj. rewrite lenZ_updZ in Hj by (rewrite lenZ_tab; lia). rewrite lenZ_tab in Hj. rewrite at0_updZ by (rewrite lenZ_tab; lia). rewrite !at0_tab by lia. destruct (Z.eqb_spec j (lenZ out / 2)); [subst|]; ring.
Qed.

(** the Hilbert kernel, periodic *)
Definition kv (z : Z) : K := if z mod 4 =? 0 then radd r1 r1 else if z mod 4 =? 2 then ropp (radd r1 r1) else r0.
Lemma kv_32 z m : kv (z + 32 * m) = kv z.
Proof. unfold kv. replace ((z + 32 * m) mod 4) with (z mod 4); [reflexivity|]. replace (z + 32 * m) with (z + (8 * m) * 4) by ring. now rewrite Z.mod_add by lia. Qed.
Lemma kernel_at i : 0 <= i < 32 -> at0 (kernel : list K) i = kv i.
Proof. intros H. unfold kernel. rewrite at0_tab by exact H. reflexivity. Qed.
Lemma kernel_len : lenZ (kernel : list K) = 32. Proof. reflexivity. Qed.
Lemma map2_at0 (a b : list K) i : lenZ a = lenZ b -> 0 <= i < lenZ a -> at0 (map2 rmul a b) i = rmul (at0 a i) (at0 b i).
Proof. intros H Hi. apply at0_in. apply nthZ_map2; apply nthZ_at0; lia. Qed.
Lemma mul_window_ok (out : list K) hb po count koff : 0 <= po -> 0 <= count -> po + count <= lenZ out -> po + count <= src_size out hb -> 0 <= koff -> koff + count <= 32 ->
  exists out', mul_window W vec out hb po count koff count = Ok out' /\ lenZ out' = lenZ out /\ forall j, at0 out' j = if (po <=? j) && (j <? po + count) then rmul (src_val out hb j) (kv (koff + (j - po))) else at0 out j.
Proof.
  intros H1 H2 H3 H4 H5 H6. unfold mul_window, on_window. destruct (slice_at0 out po count H1 H2 H3) as (w & -> & Lw & Nw). cbn [bind]. destruct (slice_at0 (kernel : list K) koff count H5 H2 ltac:(rewrite kernel_len; lia)) as (k & -> & Lk & Nk). cbn [bind].
  assert (E : exists r, match hb with None => sig_sig_inplace W vec rmul w k | Some h => do h0 <- slice h po count; sig_sig_into W vec rmul w h0 k end = Ok r /\ lenZ r = count /\ forall i, 0 <= i < count -> at0 r i = rmul (src_val out hb (po + i)) (kv (koff + i))).
  { destruct hb as [h|]; cbn [src_size src_val] in *.
    - destruct (slice_at0 h po count H1 H2 H4) as (h' & -> & Lh & Nh). cbn [bind]. rewrite sig_sig_into_ok by (try assumption; lia). eexists. split; [reflexivity|]. split; [rewrite lenZ_map2; lia|]. intros i Hi. rewrite map2_at0 by lia. rewrite Nh, Nk, kernel_at by lia. reflexivity.
    - rewrite sig_sig_inplace_ok by (try assumption; lia). eexists. split; [reflexivity|]. split; [rewrite lenZ_map2; lia|]. intros i Hi. rewrite map2_at0 by lia. rewrite Nw, Nk, kernel_at by lia. reflexivity. }
  destruct E as (r & -> & Lr & Nr). cbn [bind]. destruct (wrs_ok out po r) as (o & -> & Lo & No); [lia|lia|]. exists o. split; [reflexivity|]. split; [exact Lo|]. intros j. unfold at0 at 1. rewrite No, Lr. destruct (_ && _) eqn:E; [|reflexivity].
  rewrite nthZ_at0 by lia. rewrite Nr by lia. f_equal. f_equal. lia.
Qed.
Lemma hilbert_odd_ok (out : list K) hb : lenZ out = src_size out hb -> lenZ out mod 2 = 1 ->
  HalfbandToHilbertOdd W vec out hb = Ok (tab (lenZ out) (fun i => rmul (src_val out hb i) (kv (i - lenZ out / 2 + 15)))).
Proof.
  intros H Ho. unfold HalfbandToHilbertOdd. rewrite <- H. replace (lenZ out mod 2 =? 1) with true by (symmetry; apply Z.eqb_eq; exact Ho). rewrite Z.eqb_refl. cbn [assert_]. pose proof (lenZ_nonneg out) as Hn. set (n := lenZ out) in *.
  change maxSizeSingleStep with 31. change kernelCenter with 15. change kernelSize with 32. destruct (n <=? 31) eqn:E.
  - destruct (mul_window_ok out hb 0 n (15 - n / 2)) as (o & -> & L & N); [lia|lia|lia|lia|lia|lia|]. f_equal. apply at0_ext; [rewrite lenZ_tab; lia|]. intros j Hj. rewrite N, at0_tab by lia. replace ((0 <=? j) && (j <? 0 + n)) with true by lia. f_equal. f_equal. lia.
  - set (t0 := (n / 2 - 15) mod 32). assert (B0 : 0 <= t0 < 32) by (apply Z.mod_pos_bound; lia). assert (T0 : t0 = n / 2 - 15 + 32 * (- ((n / 2 - 15) / 32))) by (unfold t0; rewrite Z.mod_eq by lia; lia). set (q := - ((n / 2 - 15) / 32)) in *. assert (Bt : t0 <= n / 2 - 15) by (clearbody q t0; lia).
    replace (32 - (32 - t0)) with t0 by lia. destruct (mul_window_ok out hb 0 t0 (32 - t0)) as (o & -> & L & N); [lia|lia|fold n; lia|lia|lia|lia|]. cbn [bind]. apply okP_eq. eapply okP_bind.
    + apply (for_inv (fun k st => lenZ (fst st) = n /\ snd st = t0 + k * 32 /\ snd st <= n /\ forall j, at0 (fst st) j = if (0 <=? j) && (j <? snd st) then rmul (src_val out hb j) (kv (j - n / 2 + 15)) else at0 out j)).
      * lia.
      * cbn [fst snd]. split; [exact L|]. split; [lia|]. split; [lia|]. intros j. rewrite N. change (0 + t0) with t0. destruct (_ && _) eqn:Ej; [|reflexivity]. f_equal. rewrite <- (kv_32 _ (q - 1)). f_equal. lia.
      * intros k [o1 t] Hk Hlt (L1 & Et & Ht & N1). cbn [fst snd] in *. destruct (mul_window_ok o1 hb t 32 0) as (o2 & -> & L2 & N2); [lia|lia|lia|destruct hb; cbn [src_size] in *; lia|lia|lia|]. cbn [bind]. apply okP_ret. cbn [fst snd]. split; [lia|]. split; [lia|]. split; [lia|].
        intros j. rewrite N2. destruct ((t <=? j) && (j <? t + 32)) eqn:Ej.
        -- replace ((0 <=? j) && (j <? t + 32)) with true by lia. assert (Es : src_val o1 hb j = src_val out hb j) by (destruct hb; cbn [src_val]; [reflexivity|rewrite N1; now replace ((0 <=? j) && (j <? t)) with false by lia]). rewrite Es. f_equal. rewrite <- (kv_32 _ (q + k)). f_equal. lia.
        -- rewrite N1. now replace ((0 <=? j) && (j <? t + 32)) with ((0 <=? j) && (j <? t)) by lia.
    + intros [o1 t] (k & Hk & Hge & Hlast & L1 & Et & Ht & N1). cbn [fst snd] in *. destruct (mul_window_ok o1 hb t (n - t) 0) as (o2 & -> & L2 & N2); [lia|lia|lia|destruct hb; cbn [src_size] in *; lia|lia|lia|]. apply okP_ret. apply at0_ext; [rewrite lenZ_tab; lia|]. intros j Hj. rewrite N2, at0_tab by lia.
      destruct ((t <=? j) && (j <? t + (n - t))) eqn:Ej.
      * assert (Es : src_val o1 hb j = src_val out hb j) by (destruct hb; cbn [src_val]; [reflexivity|rewrite N1; now replace ((0 <=? j) && (j <? t)) with false by lia]). rewrite Es. f_equal. rewrite <- (kv_32 _ (q + k)). f_equal. lia.
      * rewrite N1. now replace ((0 <=? j) && (j <? t)) with true by lia.
Qed.

Lemma mul_scratch_ok (scratch hb : list K) tap count koff : lenZ scratch = 32 -> 0 <= tap -> 0 <= count <= 32 -> tap + count <= lenZ hb -> 0 <= koff -> koff + count <= 32 ->
  exists s', mul_scratch W vec scratch hb tap count koff count = Ok s' /\ lenZ s' = 32 /\ forall j, 0 <= j < count -> at0 s' j = rmul (at0 hb (tap + j)) (kv (koff + j)).
Proof.
  intros Hs H1 H2 H3 H5 H6. unfold mul_scratch, on_window. destruct (slice_at0 scratch 0 count) as (w & -> & Lw & Nw); [lia|lia|lia|]. cbn [bind]. destruct (slice_at0 (kernel : list K) koff count) as (k & -> & Lk & Nk); [lia|lia|rewrite kernel_len; lia|]. cbn [bind].
  destruct (slice_at0 hb tap count) as (h' & -> & Lh & Nh); [lia|lia|lia|]. cbn [bind]. rewrite sig_sig_into_ok by (try assumption; lia). cbn [bind].
  destruct (wrs_ok scratch 0 (map2 rmul h' k)) as (o & -> & Lo & No); [lia|rewrite lenZ_map2; lia|]. exists o. split; [reflexivity|]. split; [lia|]. intros j Hj. unfold at0 at 1. rewrite No, lenZ_map2, Lh, Lk, Z.min_id. replace ((0 <=? j) && (j <? 0 + count)) with true by lia.
  rewrite nthZ_at0 by (rewrite lenZ_map2; lia). rewrite map2_at0 by lia. rewrite Z.sub_0_r, Nh, Nk, kernel_at by lia. reflexivity.
Qed.
Lemma decimate_chunk_ok (out s : list K) o n count : 0 <= o -> 0 <= count <= lenZ s -> n = (count + 1) / 2 -> o + n <= lenZ out ->
  exists out', decimate_chunk out s o n count = Ok out' /\ lenZ out' = lenZ out /\ forall j, at0 out' j = if (o <=? j) && (j <? o + n) then at0 s (2 * (j - o)) else at0 out j.
Proof.
  intros H1 H2 H3 H4. unfold decimate_chunk, on_window. destruct (slice_at0 out o n) as (w & -> & Lw & Nw); [lia|lia|lia|]. cbn [bind]. destruct (slice_at0 s 0 count) as (x & -> & Lx & Nx); [lia|lia|lia|]. cbn [bind].
  rewrite decimate_into by lia. cbn [bind]. rewrite Lx. replace ((count + 2 - 1) / 2) with n by (subst n; f_equal; lia). destruct (wrs_ok out o (tab n (fun i => at0 x (i * 2)))) as (r & -> & Lr & Nr); [lia|rewrite lenZ_tab; lia|]. exists r. split; [reflexivity|]. split; [lia|].
  intros j. unfold at0 at 1. rewrite Nr, lenZ_tab. replace (Z.max 0 n) with n by lia. destruct (_ && _) eqn:E; [|reflexivity]. rewrite nthZ_tab by lia. rewrite Nx by lia. f_equal. lia.
Qed.
Lemma hilbert_even_ok (scratch out hb : list K) : lenZ scratch = 32 -> lenZ out mod 2 = 0 -> lenZ hb = lenZ out * 2 - 1 ->
  HalfbandToHilbertEven W vec scratch out hb = Ok (tab (lenZ out) (fun i => rmul (at0 hb (2 * i)) (kv (2 * i - lenZ hb / 2 + 15)))).
Proof.
  intros Hs Ho H. unfold HalfbandToHilbertEven. rewrite Ho, H, !Z.eqb_refl. cbn [assert_]. pose proof (lenZ_nonneg hb) as Hn. set (n := lenZ hb) in *. set (m := lenZ out) in *. rewrite <- H. change maxSizeSingleStep with 31. change kernelCenter with 15. change kernelSize with 32. destruct (n <=? 31) eqn:E.
  - destruct (mul_scratch_ok scratch hb 0 n (15 - n / 2)) as (s1 & -> & L1 & N1); [lia|lia|lia|fold n; lia|lia|lia|]. cbn [bind]. destruct (slice_at0 s1 0 n) as (x & -> & Lx & Nx); [lia|lia|lia|]. cbn [bind]. rewrite decimate_into by lia. rewrite Lx. replace ((n + 2 - 1) / 2) with m by lia. f_equal. apply tab_ext. intros i Hi. rewrite Nx, N1 by lia. f_equal; [f_equal; lia|f_equal; lia].
  - set (t0 := (n / 2 - 15) mod 32). assert (B0 : 0 <= t0 < 32) by (apply Z.mod_pos_bound; lia). assert (T0 : t0 = n / 2 - 15 + 32 * (- ((n / 2 - 15) / 32))) by (unfold t0; rewrite Z.mod_eq by lia; lia). set (q := - ((n / 2 - 15) / 32)) in *. assert (Bt : t0 <= n / 2 - 15) by (clearbody q t0; lia).
    assert (Ev : exists u, t0 = 2 * u). { assert (Hm : m = 2 * (m / 2)) by (clear - Ho; lia). assert (n / 2 = m - 1) by (clear - H; lia). exists (m / 2 - 8 + 16 * q). lia. } destruct Ev as [u Hu].
    replace (32 - (32 - t0)) with t0 by lia. destruct (mul_scratch_ok scratch hb 0 t0 (32 - t0)) as (s1 & -> & L1 & N1); [lia|lia|lia|fold n; lia|lia|lia|]. cbn [bind]. replace ((t0 + 1) / 2) with u by (clear - Hu; lia).
    destruct (decimate_chunk_ok out s1 0 u t0) as (o1 & -> & Lo1 & No1); [lia|lia|clear - Hu; lia|fold m; clear - Hu Bt H Hn; lia|]. cbn [bind]. apply okP_eq. eapply okP_bind.
    + apply (for_inv (fun k st => lenZ (fst (fst st)) = m /\ lenZ (snd (fst st)) = 32 /\ snd st = t0 + k * 32 /\ snd st <= n /\ forall j, at0 (fst (fst st)) j = if (0 <=? j) && (2 * j <? snd st) then rmul (at0 hb (2 * j)) (kv (2 * j - n / 2 + 15)) else at0 out j)).
      * lia.
      * cbn [fst snd]. split; [exact Lo1|]. split; [exact L1|]. split; [lia|]. split; [lia|]. intros j. rewrite No1. replace ((0 <=? j) && (j <? 0 + u)) with ((0 <=? j) && (2 * j <? t0)) by (clear - Hu; lia). destruct (_ && _) eqn:Ej; [|reflexivity]. rewrite N1 by lia. f_equal; [f_equal; lia|]. rewrite <- (kv_32 _ (q - 1)). f_equal. lia.
      * intros k [[o2 s2] t] Hk Hlt (L2 & Ls & Et & Ht & N2). cbn [fst snd] in *. destruct (mul_scratch_ok s2 hb t 32 0) as (s3 & -> & L3 & N3); [lia|lia|lia|fold n; lia|lia|lia|]. cbn [bind]. replace ((t + 1) / 2) with (u + k * 16) by (clear - Et Hu; lia). change ((32 + 1) / 2) with 16.
        destruct (decimate_chunk_ok o2 s3 (u + k * 16) 16 32) as (o3 & -> & L4 & N4); [lia|lia|reflexivity|lia|]. cbn [bind]. apply okP_ret. cbn [fst snd]. split; [lia|]. split; [lia|]. split; [lia|]. split; [lia|].
        intros j. rewrite N4. destruct ((u + k * 16 <=? j) && (j <? u + k * 16 + 16)) eqn:Ej.
        -- replace ((0 <=? j) && (2 * j <? t + 32)) with true by lia. rewrite N3 by lia. f_equal; [f_equal; lia|]. rewrite <- (kv_32 _ (q + k)). f_equal. lia.
        -- rewrite N2. now replace ((0 <=? j) && (2 * j <? t + 32)) with ((0 <=? j) && (2 * j <? t)) by lia.
    + intros [[o2 s2] t] (k & Hk & Hge & Hlast & L2 & Ls & Et & Ht & N2). cbn [fst snd] in *. destruct (mul_scratch_ok s2 hb t (n - t) 0) as (s3 & -> & L3 & N3); [lia|lia|lia|fold n; lia|lia|lia|]. cbn [bind]. replace ((t + 1) / 2) with (u + k * 16) by (clear - Et Hu; lia).
      destruct (decimate_chunk_ok o2 s3 (u + k * 16) ((n - t + 1) / 2) (n - t)) as (o3 & -> & L4 & N4); [lia|lia|reflexivity|clear - Et Hu H L2 Ht; lia|]. apply okP_ret. apply at0_ext; [rewrite lenZ_tab; lia|]. intros j Hj. rewrite N4, at0_tab by lia.
      destruct ((u + k * 16 <=? j) && (j <? u + k * 16 + (n - t + 1) / 2)) eqn:Ej.
      * rewrite N3 by lia. f_equal; [f_equal; lia|]. rewrite <- (kv_32 _ (q + k)). f_equal. lia.
      * rewrite N2. replace ((0 <=? j) && (2 * j <? t)) with true by (clear - Ej Hj L4 L2 Et Hu H; lia). reflexivity.
Qed.
End Ring.

(** ShiftResponse *)
Lemma shift_ok W vec (out : list R) filter f : 1 <= W -> lenZ out = src_size (K := Rring) out filter ->
  let n := lenZ out in
  ShiftResponse W vec out filter f = Ok (tab n (fun j =>
    Rmult (if (n mod 2 =? 1) && (j =? n / 2) then at0 (K := Rring) out j else Rmult (cos ((IZR (Z.min j (n - 1 - j)) - IZR (n / 2)) * (PI * f))) (src_val (K := Rring) out filter j)) 2)).
Proof.
  intros HW H n. unfold ShiftResponse. rewrite <- H, Z.eqb_refl. cbn [assert_]. pose proof (lenZ_nonneg out) as Hn. fold n in Hn |- *. set (c := fun j => cos ((IZR (Z.min j (n - 1 - j)) - IZR (n / 2)) * (PI * f))). apply okP_eq. eapply okP_bind.
  - apply (for1_inv (fun i o => lenZ o = n /\ forall j, 0 <= j < n -> at0 (K := Rring) o j = if (j <? i) || (n - i <=? j) then Rmult (c j) (src_val (K := Rring) out filter j) else at0 (K := Rring) out j)).
    + split; [reflexivity|]. intros j Hj. now replace ((j <? 0) || (n - 0 <=? j)) with false by lia.
    + lia.
    + intros i o Hi [L N]. assert (Er : forall o' k, lenZ o' = n -> 0 <= k < n -> (forall j, j = k -> at0 (K := Rring) o' j = at0 (K := Rring) out j) -> src_at (K := Rring) o' filter k = Ok (src_val (K := Rring) out filter k)).
      { intros o' k L' Hk N'. destruct filter as [g|]; cbn [src_at src_val src_size] in *; [apply (rd_at0 (K := Rring)); fold n in H; lia|]. rewrite (rd_at0 (K := Rring)) by lia. now rewrite N'. }
      rewrite Er; [|exact L|lia|intros j ->; rewrite N by lia; now replace ((i <? i) || (n - i <=? i)) with false by lia]. cbn [bind]. rewrite wr_ok by lia. cbn [bind].
      rewrite Er; [|rewrite lenZ_updZ; lia|lia|intros j ->; rewrite (at0_updZ (K := Rring)) by lia; replace (n - i - 1 =? i) with false by lia; rewrite N by lia; now replace ((n - i - 1 <? i) || (n - i <=? n - i - 1)) with false by lia]. cbn [bind].
      rewrite wr_ok by (rewrite lenZ_updZ; lia). apply okP_ret. split; [rewrite !lenZ_updZ by (try rewrite lenZ_updZ; lia); lia|]. intros j Hj. rewrite !(at0_updZ (K := Rring)) by (try rewrite lenZ_updZ; lia).
      destruct (Z.eqb_spec j (n - i - 1)); [subst j; replace ((n - i - 1 <? i + 1) || (n - (i + 1) <=? n - i - 1)) with true by lia; unfold c; do 5 f_equal; lia|].
      destruct (Z.eqb_spec j i); [subst j; replace ((i <? i + 1) || (n - (i + 1) <=? i)) with true by lia; unfold c; do 5 f_equal; lia|]. rewrite N by lia. now replace ((j <? i + 1) || (n - (i + 1) <=? j)) with ((j <? i) || (n - i <=? j)) by lia.
  - intros o [L N]. rewrite sig_scalar_inplace_ok by exact HW. apply okP_ret. rewrite (tab_at0 (K := Rring) o), map_tab, L. apply tab_ext. intros j Hj. rewrite N by lia.
    destruct ((n mod 2 =? 1) && (j =? n / 2)) eqn:E; [now replace ((j <? n / 2) || (n - n / 2 <=? j)) with false by lia|now replace ((j <? n / 2) || (n - n / 2 <=? j)) with true by lia].
Qed.
