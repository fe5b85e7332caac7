(** C84: normalised polyphase filters in floating point. *)
From Coq Require Import Reals Lra Lia List ZArith Psatz.
From Flocq Require Import Core Relative BinarySingleNaN.
From Verif Require Import Base BaseFacts Complex KernelModel KernelProofs ConvModel FirModel PolyphaseModel PolyphaseProofs ResampleTree StatModel FloatSpec ReduceTree FloatSum FloatIeee FloatStat IirFloat OverflowProofs PropsFloat PropsResampleFloat NormalizeModel.
From Coq Require Import ZifyBool ZifyNat.
Import ListNotations.
Local Open Scope Z_scope.

(** over any arithmetic: every phase is multiplied by the reciprocal of its own sum, no other sample changes *)
Lemma view_part {T} (v : pview T) p : 0 < vcount v -> 0 <= p < vcount v -> exists ph, view_at v p = Ok ph /\ lenZ ph = psize (lenZ (vbuffer v)) (vcount v) p /\
  (forall k, 0 <= k < lenZ ph -> nthZ ph k = nthZ (vbuffer v) (poff (lenZ (vbuffer v)) (vcount v) p + k)).
Proof.
  intros HP Hp. unfold view_at. rewrite loc_ok by lia. cbn [bind]. pose proof (lenZ_nonneg (vbuffer v)) as Hn. destruct (poff_bounds _ _ p Hn HP Hp) as [B1 B2]. pose proof (psize_nonneg _ _ p Hn HP).
  destruct (slice_ok (vbuffer v) (poff (lenZ (vbuffer v)) (vcount v) p) (psize (lenZ (vbuffer v)) (vcount v) p)) as (ph & -> & L & N); [lia|lia|lia|]. exists ph. split; [reflexivity|]. split; [exact L|]. intros k Hk. apply N. lia.
Qed.
Theorem C84_any_arithmetic : forall T (mul : T -> T -> T) sum recip W vec (v : pview T),
  1 <= W -> 0 < num_phases v -> (forall l, exists s, sum l = Ok s) ->
  exists v', gPolyphaseNormalize mul sum recip W vec v = Ok v' /\ num_phases v' = num_phases v /\ size_original v' = size_original v /\
    forall p, 0 <= p < num_phases v -> exists ph s, view_at v p = Ok ph /\ sum ph = Ok s /\ view_at v' p = Ok (map (fun t => mul t (recip s)) ph).
Proof.
  intros T mul sum recip W vec v HW HP Hs. unfold num_phases, size_original in *. unfold gPolyphaseNormalize. set (P := vcount v) in *. pose proof (lenZ_nonneg (vbuffer v)) as Hn. set (n := lenZ (vbuffer v)) in *.
  destruct (for1_inv (fun i (b : list T) => lenZ b = n /\ forall p, 0 <= p < P -> exists ph s, view_at v p = Ok ph /\ sum ph = Ok s /\ view_at (mkView b P) p = Ok (if p <? i then map (fun t => mul t (recip s)) ph else ph)) 0 P
    (fun i buf => do phase <- view_at (mkView buf P) i; do s <- sum phase; do (offset, size) <- subsignal_location (lenZ buf) P i; on_window buf offset size (fun w => sig_scalar_inplace W vec mul w (recip s))) (vbuffer v)) as (b & Eb & Lb & Hb).
  - split; [reflexivity|]. intros p Hp. destruct (view_part v p HP Hp) as (ph & E & _). destruct (Hs ph) as [s Es]. exists ph, s. split; [exact E|]. split; [exact Es|]. replace (p <? 0) with false by lia. rewrite <- E. destruct v; reflexivity.
  - lia.
  - intros i b Hi [Lb Hb]. destruct (Hb i Hi) as (ph & s & E1 & Es & E2). rewrite E2. replace (i <? i) with false in * by lia. cbn [bind]. rewrite Es. cbn [bind]. rewrite Lb, loc_ok by lia. cbn [bind].
    destruct (poff_bounds n P i Hn HP Hi) as [B1 B2]. pose proof (psize_nonneg n P i Hn HP) as S0. destruct (scale_window_gen W vec mul b (poff n P i) (psize n P i) (recip s) HW) as (b' & -> & Lb' & Nb'); [lia|lia|lia|].
    apply okP_ret. split; [lia|]. intros p Hp. destruct (Hb p Hp) as (php & sp & F1 & Fs & F2). exists php, sp. split; [exact F1|]. split; [exact Fs|].
    destruct (view_part (mkView b P) p HP Hp) as (q & G1 & G2 & G3). destruct (view_part (mkView b' P) p HP Hp) as (q' & G1' & G2' & G3'). cbn [vbuffer vcount] in *. rewrite Lb', Lb in *. rewrite F2 in G1. injection G1 as G1. rewrite G1'. f_equal.
    assert (p = i \/ p < i \/ i < p) as [->|[Hlt|Hgt]] by lia.
    + assert (php = ph) by congruence. subst php. assert (sp = s) by congruence. subst sp. replace (i <? i + 1) with true by lia. replace (i <? i) with false in G1 by lia. subst q. apply nthZ_ext; [rewrite lenZ_map; lia|]. intros k Hk. rewrite G3' by lia. rewrite Nb'.
      replace ((poff n P i <=? poff n P i + k) && (poff n P i + k <? poff n P i + psize n P i)) with true by lia. rewrite <- G3 by lia. now rewrite nthZ_map.
    + replace (p <? i) with true in G1 by lia. replace (p <? i + 1) with true by lia. rewrite G1. apply nthZ_ext; [lia|]. intros k Hk. rewrite G3', G3 by lia. rewrite Nb'. pose proof (poff_mono n P (p + 1) i Hn HP ltac:(lia)) as M. rewrite poff_S in M.
      now replace ((poff n P i <=? poff n P p + k) && (poff n P p + k <? poff n P i + psize n P i)) with false by lia.
    + replace (p <? i) with false in G1 by lia. replace (p <? i + 1) with false by lia. rewrite G1. apply nthZ_ext; [lia|]. intros k Hk. rewrite G3', G3 by lia. rewrite Nb'. pose proof (poff_mono n P (i + 1) p Hn HP ltac:(lia)) as M. rewrite poff_S in M.
      now replace ((poff n P i <=? poff n P p + k) && (poff n P p + k <? poff n P i + psize n P i)) with false by lia.
  - rewrite Eb. cbn [bind]. exists (mkView b P). split; [reflexivity|]. split; [reflexivity|]. split; [exact Lb|]. intros p Hp. destruct (Hb p Hp) as (ph & s & E1 & Es & E2). exists ph, s. split; [exact E1|]. split; [exact Es|]. now replace (p <? P) with true in E2 by lia.
Qed.
Print Assumptions C84_any_arithmetic.
(** the exact arithmetic of C31 is an instance *)
Theorem C84_exact_instance : forall (F : CField) W vec (v : pview F),
  gPolyphaseNormalize rmul (Sum W vec) (fun s => fdiv r1 s) W vec v = PolyphaseNormalize W vec v.
Proof. reflexivity. Qed.
Print Assumptions C84_exact_instance.

Local Open Scope R_scope.
Section Ieee.
Variables prec emax : Z.
Context (Hprec : Prec_gt_0 prec) (Hmax : Prec_lt_emax prec emax).
Notation float := (binary_float prec emax).
(** rounding to nearest: relative error 2^-prec; products below the normal range also lose half the smallest number *)
Notation u := (bpow radix2 (- prec)).
Notation eta := (bpow radix2 (3 - emax - prec)).
Notation overflow := (bpow radix2 emax).
Notation exact_sum := (exact_sum prec emax).
Notation abs_sum := (abs_sum prec emax).
Notation fin x := (is_finite x = true).
(** PolyphaseNormalize on floating-point numbers; the lanes of a batch and the rest are summed in the orders [batch] and [tail] *)
Definition fSum batch tail W vec (l : list float) : outcome float := gSum (B754_zero false) (Bplus mode_NE) batch tail W vec l.
Definition fNormalize batch tail W vec (v : pview float) : outcome (pview float) :=
  gPolyphaseNormalize (Bmult mode_NE) (fSum batch tail W vec) (fun s => Bdiv mode_NE Bone s) W vec v.
(** the phase can be normalised: it is finite, its sum is not lost to cancellation among its taps, and no sum, reciprocal or
    product is anywhere near overflow *)
Definition normalizable (g : R) (ph : list float) : Prop :=
  all_finite prec emax ph /\ exact_sum ph <> 0 /\ 2 * g * abs_sum ph <= Rabs (exact_sum ph) /\
  8 * abs_sum ph <= overflow /\ (1 + g) * abs_sum ph < overflow /\ 3 / Rabs (exact_sum ph) + eta < overflow /\ 5 * (abs_sum ph / Rabs (exact_sum ph)) + eta < overflow.

Lemma u_half : 0 < u <= 1 / 2.
Proof.
  split; [apply bpow_gt_0|]. unfold Prec_gt_0 in Hprec. replace (1 / 2) with (bpow radix2 (-1)) by (cbn; lra). apply bpow_le. lia.
Qed.
Lemma abs_in l x : In x l -> Rabs (B2R x) <= abs_sum l.
Proof.
  induction l as [|a l IH]; [easy|]. unfold PropsFloat.abs_sum in *. cbn [map fold_right]. intros [<-|H].
  - assert (0 <= fold_right Rplus 0 (map (fun x => Rabs (B2R x)) l)); [|lra]. clear. induction l; cbn; [lra|]. pose proof (Rabs_pos (B2R a)). lra.
  - apply IH in H. pose proof (Rabs_pos (B2R a)). lra.
Qed.
Lemma abs_ge l : Rabs (exact_sum l) <= abs_sum l.
Proof.
  unfold PropsFloat.abs_sum, PropsFloat.exact_sum. induction l as [|a l IH]; cbn [map fold_right]; [rewrite Rabs_R0; lra|].
  eapply Rle_trans; [apply Rabs_triang|]. lra.
Qed.
(** the reciprocal of the computed sum *)
Lemma recip_ok g (ph : list float) s : 0 <= g -> normalizable g ph -> fin s -> Rabs (B2R s - exact_sum ph) <= g * abs_sum ph ->
  let r := Bdiv mode_NE Bone s in fin r /\ Rabs (B2R r - / exact_sum ph) <= / Rabs (exact_sum ph) * (2 * g * (abs_sum ph / Rabs (exact_sum ph)) + 2 * u) /\ Rabs (B2R r) <= 3 / Rabs (exact_sum ph).
Proof.
  intros Hg (Hf & HS & Hc & Ho & Ho2 & Hr & Hp) Fs Es r. set (S := exact_sum ph) in *. set (A := abs_sum ph) in *. pose proof u_half as Hu.
  assert (PS : 0 < Rabs S) by now apply Rabs_pos_lt. pose proof (abs_ge ph) as AS. fold S A in AS.
  assert (Ls : Rabs S / 2 <= Rabs (B2R s)). { pose proof (Rabs_triang_inv S (S - B2R s)) as T. replace (S - (S - B2R s)) with (B2R s) in T by ring. rewrite (Rabs_minus_sym (B2R s) S) in Es. lra. }
  assert (Us : Rabs (B2R s) <= 2 * A). { pose proof (Rabs_triang S (B2R s - S)) as T. replace (S + (B2R s - S)) with (B2R s) in T by ring. lra. }
  assert (Ns : B2R s <> 0) by (intros E; rewrite E, Rabs_R0 in Ls; lra).
  assert (Fr : fin r).
  { apply (inv_up prec emax Hprec Hmax); [exact Ns|]. fold u. change (tiny prec emax) with eta. change (ur prec) with u.
    assert ((1 + u) / Rabs (B2R s) <= 3 / Rabs S).
    { apply Rle_trans with ((3/2) / (Rabs S / 2)); [|right; field; lra]. unfold Rdiv at 1. apply Rmult_le_compat; [lra|left; apply Rinv_0_lt_compat; lra|lra|apply Rinv_le_contravar; lra]. }
    pose proof (bpow_gt_0 radix2 (3 - emax - prec)). lra. }
  destruct (inverse_ok prec emax Hprec Hmax s Fs Ns) as (d & Hd & Ed); [|exact Fr|].
  { apply Rle_trans with (2 * A); [exact Us|]. replace (emax - 2)%Z with (-2 + emax)%Z by ring. rewrite bpow_plus. change (bpow radix2 (-2)) with (/ 4). lra. }
  change (ur prec) with u in Hd. fold r in Ed.
  assert (Rs : Rabs (/ B2R s) <= 2 / Rabs S).
  { rewrite Rabs_inv. apply Rle_trans with (/ (Rabs S / 2)); [apply Rinv_le_contravar; lra|right; field; lra]. }
  split; [exact Fr|]. rewrite Ed. split.
  - replace (/ B2R s * (1 + d) - / S) with (/ S * ((S - B2R s) * / B2R s + d * (S * / B2R s))) by (field; split; assumption).
    rewrite Rabs_mult, Rabs_inv. apply Rmult_le_compat_l; [left; now apply Rinv_0_lt_compat|].
    eapply Rle_trans; [apply Rabs_triang|]. apply Rplus_le_compat.
    + rewrite Rabs_mult. rewrite Rabs_minus_sym. replace (2 * g * (A / Rabs S)) with (g * A * (2 / Rabs S)) by (field; lra).
      apply Rmult_le_compat; try apply Rabs_pos; assumption.
    + rewrite !Rabs_mult. assert (Rabs S * Rabs (/ B2R s) <= 2). { apply Rle_trans with (Rabs S * (2 / Rabs S)); [apply Rmult_le_compat_l; lra|right; field; lra]. }
      pose proof (Rabs_pos d). pose proof (Rmult_le_pos _ _ (Rabs_pos S) (Rabs_pos (/ B2R s))). nra.
  - rewrite Rabs_mult. replace (3 / Rabs S) with (2 / Rabs S * (3 / 2)) by (field; lra). apply Rmult_le_compat; try apply Rabs_pos; [exact Rs|].
    eapply Rle_trans; [apply Rabs_triang|]. rewrite Rabs_R1. lra.
Qed.
(** one tap *)
Lemma tap_ok g (ph : list float) r t : normalizable g ph -> In t ph -> fin r -> Rabs (B2R r) <= 3 / Rabs (exact_sum ph) ->
  fin (Bmult mode_NE t r) /\ Rabs (B2R (Bmult mode_NE t r) - B2R t * B2R r) <= 3 * u * (Rabs (B2R t) / Rabs (exact_sum ph)) + eta / 2.
Proof.
  intros (Hf & HS & Hc & Ho & Ho2 & Hr & Hp) Ht Fr Br. pose proof u_half as Hu. set (S := exact_sum ph) in *. set (A := abs_sum ph) in *.
  assert (PS : 0 < Rabs S) by now apply Rabs_pos_lt. pose proof (abs_in ph t Ht) as Bt. fold A in Bt. pose proof (bpow_gt_0 radix2 (3 - emax - prec)) as He.
  assert (Pt : Rabs (B2R t * B2R r) <= 3 * (Rabs (B2R t) / Rabs S)). { rewrite Rabs_mult. replace (3 * (Rabs (B2R t) / Rabs S)) with (Rabs (B2R t) * (3 / Rabs S)) by (field; lra). apply Rmult_le_compat_l; [apply Rabs_pos|exact Br]. }
  assert (Pa : Rabs (B2R t) / Rabs S <= A / Rabs S) by (apply Rmult_le_compat_r; [left; now apply Rinv_0_lt_compat|exact Bt]).
  assert (P0 : 0 <= Rabs (B2R t) / Rabs S) by (apply Rmult_le_pos; [apply Rabs_pos|left; now apply Rinv_0_lt_compat]).
  destruct (fmul_err prec emax Hprec Hmax t r (Hf t Ht) Fr) as [F E].
  { change (ur prec) with u. change (tiny prec emax) with eta. unfold huge. pose proof (Rabs_pos (B2R t * B2R r)). assert ((1 + u) * Rabs (B2R t * B2R r) <= 3 / 2 * (3 * (Rabs (B2R t) / Rabs S))) by (apply Rmult_le_compat; lra). lra. }
  split; [exact F|]. change (ur prec) with u in E. change (tiny prec emax) with eta in E. eapply Rle_trans; [exact E|].
  apply Rplus_le_compat_r. replace (3 * u * (Rabs (B2R t) / Rabs S)) with (u * (3 * (Rabs (B2R t) / Rabs S))) by ring. apply Rmult_le_compat_l; [lra|exact Pt].
Qed.
Lemma sum_scaled S r (ph : list float) c : (forall t, In t ph -> Rabs (B2R (Bmult mode_NE t r) - B2R t * B2R r) <= c * (Rabs (B2R t) / Rabs S) + eta / 2) ->
  Rabs (exact_sum (map (fun t => Bmult mode_NE t r) ph) - exact_sum ph * B2R r) <= c * (abs_sum ph / Rabs S) + INR (length ph) * (eta / 2).
Proof.
  unfold PropsFloat.exact_sum, PropsFloat.abs_sum. induction ph as [|t l IH]; intros H.
  - cbn. rewrite Rmult_0_l, Rminus_0_r, Rabs_R0. unfold Rdiv. lra.
  - cbn [map fold_right length]. rewrite S_INR. specialize (IH (fun t Ht => H t (or_intror Ht))). pose proof (H t (or_introl eq_refl)) as Ht.
    match goal with |- Rabs (?a + ?b - (?p + ?q) * ?k) <= _ => replace (a + b - (p + q) * k) with ((a - p * k) + (b - q * k)) by ring end.
    eapply Rle_trans; [apply Rabs_triang|]. unfold Rdiv in *. lra.
Qed.
(** ** C84.  [g] bounds the relative error of summing that many samples in any order *)
Theorem C84_normalized_phases : forall batch tail W vec (v : pview float),
  some_order (Bplus mode_NE) batch -> some_order (Bplus mode_NE) tail -> (1 <= W)%Z -> (0 < num_phases v)%Z ->
  exists v', fNormalize batch tail W vec v = Ok v' /\ num_phases v' = num_phases v /\ size_original v' = size_original v /\
  forall p, (0 <= p < num_phases v)%Z -> exists ph ph', view_at v p = Ok ph /\ view_at v' p = Ok ph' /\ lenZ ph' = lenZ ph /\
    let g := (1 + u) ^ depth_bound W vec (lenZ ph) - 1 in let S := exact_sum ph in let cond := abs_sum ph / Rabs S in
    (normalizable g ph ->
     all_finite prec emax ph' /\
     Rabs (exact_sum ph' - 1) <= 2 * g * cond + 2 * u + 3 * u * cond + IZR (lenZ ph) * (eta / 2) /\
     forall k t t', nthZ ph k = Some t -> nthZ ph' k = Some t' -> Rabs (B2R t' - B2R t / S) <= Rabs (B2R t / S) * (2 * g * cond + 5 * u) + eta / 2).
Proof.
  intros batch tail W vec v Hb Ht HW HP.
  assert (Hs : forall l, exists s, fSum batch tail W vec l = Ok s).
  { intros l. destruct (C62_reduce_combines_each_once float (Bplus mode_NE) (Plain (Bplus mode_NE)) batch tail W vec l (B754_zero false) (or_introl eq_refl) Hb Ht HW) as (s & E & _). exists s. exact E. }
  destruct (C84_any_arithmetic float (Bmult mode_NE) (fSum batch tail W vec) (fun s => Bdiv mode_NE Bone s) W vec v HW HP Hs) as (v' & E & N1 & N2 & H).
  exists v'. split; [exact E|]. split; [exact N1|]. split; [exact N2|]. intros p Hp. destruct (H p Hp) as (ph & s & E1 & E2 & E3). set (r := Bdiv mode_NE Bone s) in *.
  exists ph, (map (fun t => Bmult mode_NE t r) ph). split; [exact E1|]. split; [exact E3|]. split; [apply lenZ_map|]. cbv zeta. intros Hn. pose proof Hn as (Hf & HS & Hc & Ho & Ho2 & Hr & Hpp).
  pose proof u_half as Hu. set (g := (1 + u) ^ depth_bound W vec (lenZ ph) - 1) in *.
  assert (Hg : 0 <= g). { unfold g. pose proof (pow_R1_Rle (1 + u) (depth_bound W vec (lenZ ph)) ltac:(lra)). lra. }
  assert (Z0 : exact_sum (B754_zero false :: ph) = exact_sum ph) by (unfold PropsFloat.exact_sum; cbn; lra).
  assert (Z1 : abs_sum (B754_zero false :: ph) = abs_sum ph) by (unfold PropsFloat.abs_sum; cbn; rewrite Rabs_R0; lra).
  destruct (C62_sum_error prec emax Hprec Hmax (Plain (Bplus mode_NE)) batch tail W vec ph (B754_zero false) (or_introl eq_refl) Hb Ht HW) as (s' & F1 & F2 & F3).
  { intros x [<-|Hx]; [reflexivity|now apply Hf]. }
  { rewrite Z1. replace ((1 + u) ^ depth_bound W vec (lenZ ph)) with (1 + g) by (unfold g; ring). exact Ho2. }
  rewrite Z0, Z1 in F3. fold g in F3. assert (s' = s) by (unfold fSum, gSum in E2; congruence). subst s'.
  destruct (recip_ok g ph s Hg Hn F2 F3) as (Fr & Er & Br). fold r in Fr, Er, Br.
  assert (PS : 0 < Rabs (exact_sum ph)) by now apply Rabs_pos_lt.
  set (S := exact_sum ph) in *. set (A := abs_sum ph) in *.
  assert (T : forall t, In t ph -> fin (Bmult mode_NE t r) /\ Rabs (B2R (Bmult mode_NE t r) - B2R t * B2R r) <= 3 * u * (Rabs (B2R t) / Rabs S) + eta / 2) by (intros t Hi; now apply (tap_ok g ph r t Hn Hi Fr)).
  split; [|split].
  - intros y Hy. apply in_map_iff in Hy as (t & <- & Hi). now apply T.
  - pose proof (sum_scaled S r ph (3 * u) (fun t Hi => proj2 (T t Hi))) as Q. fold S A in Q.
    assert (Q2 : Rabs (S * B2R r - 1) <= 2 * g * (A / Rabs S) + 2 * u).
    { replace (S * B2R r - 1) with (S * (B2R r - / S)) by (field; exact HS). rewrite Rabs_mult.
      apply Rle_trans with (Rabs S * (/ Rabs S * (2 * g * (A / Rabs S) + 2 * u))); [apply Rmult_le_compat_l; [apply Rabs_pos|exact Er]|right; field; lra]. }
    match goal with |- Rabs (?y - 1) <= _ => replace (y - 1) with ((y - S * B2R r) + (S * B2R r - 1)) by ring end.
    eapply Rle_trans; [apply Rabs_triang|]. unfold lenZ. rewrite <- INR_IZR_INZ. lra.
  - intros k t t' N N'. rewrite nthZ_map, N in N'. cbn [option_map] in N'. injection N' as <-.
    assert (Hi : In t ph). { unfold nthZ in N. destruct (k <? 0)%Z; [discriminate|]. now apply nth_error_In in N. }
    destruct (T t Hi) as [_ Q]. unfold Rdiv at 2. rewrite Rabs_mult, Rabs_inv.
    replace (B2R (Bmult mode_NE t r) - B2R t / S) with ((B2R (Bmult mode_NE t r) - B2R t * B2R r) + B2R t * (B2R r - / S)) by (unfold Rdiv; ring).
    eapply Rle_trans; [apply Rabs_triang|]. rewrite (Rabs_mult (B2R t)).
    pose proof (Rmult_le_compat_l _ _ _ (Rabs_pos (B2R t)) Er) as Q3. unfold Rdiv in *. lra.
Qed.
End Ieee.
Print Assumptions C84_normalized_phases.
(** two phases with negative taps, sums 3 and 2: both can be normalised, the results are finite, and 1/3 is really rounded *)
#[local] Existing Instance p24.
#[local] Existing Instance e128.
Definition ex_view : pview (binary_float 24 128) := mkView [b32 3 0; b32 (-1) 0; b32 1 0; b32 1 0; b32 1 0] 2.
Lemma ex_three : B2R (b32 3 0) = 3.
Proof. rewrite <- SF2R_B2SF. replace (B2SF (b32 3 0)) with (SpecFloat.S754_finite false 12582912 (-22)) by (vm_compute; reflexivity). unfold SF2R, F2R. cbn. lra. Qed.
Lemma ex_m1 : B2R (b32 (-1) 0) = -1.
Proof. rewrite <- SF2R_B2SF. replace (B2SF (b32 (-1) 0)) with (SpecFloat.S754_finite true 8388608 (-23)) by (vm_compute; reflexivity). unfold SF2R, F2R. cbn. lra. Qed.
Example C84_nontrivial :
  view_at ex_view 0 = Ok [b32 3 0; b32 (-1) 0; b32 1 0] /\ view_at ex_view 1 = Ok [b32 1 0; b32 1 0] /\
  (match fNormalize 24 128 p24 e128 (fold_left (Bplus mode_NE)) (fold_left (Bplus mode_NE)) 4 true ex_view with
   | Ok v => map B2SF (vbuffer v) = map B2SF [b32 1 0; b32 (-11184811) (-25); b32 11184811 (-25); b32 1 (-1); b32 1 (-1)] | _ => False end) /\
  (forall g, 0 <= g <= 1 / 100 -> normalizable 24 128 g [b32 3 0; b32 (-1) 0; b32 1 0]) /\
  0 <= (1 + bpow radix2 (-24)) ^ depth_bound 4 true 3 - 1 <= 1 / 100.
Proof.
  split; [reflexivity|]. split; [reflexivity|]. split; [vm_compute; reflexivity|]. split.
  - intros g Hg. assert (S : exact_sum 24 128 [b32 3 0; b32 (-1) 0; b32 1 0] = 3) by (unfold exact_sum; cbn [map fold_right]; rewrite ex_three, ex_m1, b32_one; lra).
    assert (A : abs_sum 24 128 [b32 3 0; b32 (-1) 0; b32 1 0] = 5).
    { unfold abs_sum; cbn [map fold_right]; rewrite ex_three, ex_m1, b32_one. rewrite (Rabs_left (-1)) by lra. rewrite !Rabs_pos_eq by lra. lra. }
    unfold normalizable. rewrite S, A. rewrite (Rabs_pos_eq 3) by lra.
    assert (H1 : 100 <= bpow radix2 128). { apply Rle_trans with (bpow radix2 7); [cbn; lra|apply bpow_le; lia]. }
    assert (H2 : bpow radix2 (3 - 128 - 24) <= 1). { change 1 with (bpow radix2 0). apply bpow_le. lia. }
    repeat split; try lra. intros x [<-|[<-|[<-|[]]]]; reflexivity.
  - replace (depth_bound 4 true 3) with 11%nat by (vm_compute; reflexivity). cbn. lra.
Qed.
