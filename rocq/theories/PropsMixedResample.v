(** C82: interpolation and resampling of a signal through polyphase filters of another element type. *)
From Coq Require Import Reals Lra List QArith Qround.
From Verif Require Import Base BaseFacts IntervalModel RationalModel RationalProofs KernelModel ConvModel ConvProofs PropsConv FirModel PolyphaseModel PolyphaseProofs PropsPolyphase ResampleModel ResampleProofs PropsResample Complex FunctionModel MixedConvProofs MixedResampleModel MixedResampleProofs.
From Coq Require Import ZifyBool ZifyNat.
Ltac Zify.zify_post_hook ::= Z.div_mod_to_equations.
Open Scope Z_scope.

(** ** Specification.  Samples of type [A] are read as numbers of the ring [K] of the results by [eA], taps (numbers of a ring
    [KB]) by [eB], which respects 0, 1, sums and products (a real number read as a complex one; a complex number read as its
    conjugate); a product of a sample and a tap is the product of what they are read as. *)
Definition reads {A : Type} {KB K : CRing} (eA : A -> K) (eB : KB -> K) (mulconj : A -> KB -> K) : Prop :=
  eB r0 = r0 /\ eB r1 = r1 /\ (forall a b, eB (radd a b) = radd (eB a) (eB b)) /\ (forall a b, eB (rmul a b) = rmul (eB a) (eB b)) /\
  (forall a b, mulconj a b = rmul (eA a) (eB b)).

Lemma reads_ofnat {A} {KB K : CRing} (eA : A -> K) (eB : KB -> K) mulconj : reads eA eB mulconj -> forall n, eB (ofnat n) = ofnat n.
Proof. intros (H0 & H1 & Ha & _) n. unfold ofnat. generalize (Z.to_nat n) as k. induction k; cbn [sumf]; [exact H0|]. now rewrite Ha, IHk, H1. Qed.
Lemma reads_view {A} {KB K : CRing} (eA : A -> K) (eB : KB -> K) mulconj W vec h P v : reads eA eB mulconj -> 1 <= W ->
  PolyphaseDecompose W vec h P = Ok v -> PolyphaseDecompose W vec (map eB h) P = Ok (view_map eB v).
Proof. intros H HW E. rewrite (decompose_sim eB ltac:(apply H) (reads_ofnat eA eB mulconj H) W vec h P HW), E. reflexivity. Qed.

(** ** Interpolation *)
(** every sample is the sample of the zero-stuffed input convolved with P times the filter, in the numbers of the results;
    requests beyond the end are rejected *)
Theorem C82_interpolate : forall (A : Type) (KB K : CRing) (eA : A -> K) (eB : KB -> K) mulconj W vec (x : list A) (h : list KB) P v off len,
  reads eA eB mulconj -> 1 <= W -> 0 < P -> PolyphaseDecompose W vec h P = Ok v -> 0 < lenZ x -> 0 < lenZ h -> 0 <= off -> 0 <= len ->
  (off + len <= lenZ x * P + lenZ h - 1 ->
   mInterpolate mulconj W vec x v off len = Ok (tab len (fun j => rmul (conv_at (zero_stuffed (map eA x) P) (map eB h) (off + j)) (ofnat P)))) /\
  (lenZ x * P + lenZ h - 1 < off + len -> mInterpolate mulconj W vec x v off len = UB).
Proof.
  intros A KB K eA eB mulconj W vec x h P v off len R HW HP E Hx Hh Ho Hl.
  rewrite <- (minterp_sim eA eB mulconj ltac:(apply R)).
  pose proof (C32_interpolate K W vec (map eA x) (map eB h) P (view_map eB v) off len HW HP (reads_view _ _ _ _ _ _ _ _ R HW E)) as G.
  rewrite !lenZ_map' in G. now apply G.
Qed.
Print Assumptions C82_interpolate.
(** interpolating a signal in pieces: each call gets the samples received so far and still needed *)
Theorem C82_interpolate_streaming : forall (A : Type) (KB K : CRing) (eA : A -> K) (eB : KB -> K) mulconj W vec (x : list A) (h : list KB) P v len1 len2 received,
  reads eA eB mulconj -> 1 <= W -> 0 < P -> PolyphaseDecompose W vec h P = Ok v -> 0 < lenZ h ->
  0 < received <= lenZ x -> 0 <= len1 <= received * P -> 0 < len2 -> len1 + len2 <= lenZ x * P + lenZ h - 1 ->
  exists out1 first start, mInterpolateInto mulconj W vec (repeat r0 (Z.to_nat len1)) (firstn (Z.to_nat received) x) v 0 = Ok (out1, (first, start)) /\ 0 <= first <= received /\
    exists out2, mInterpolate mulconj W vec (skipn (Z.to_nat first) x) v start len2 = Ok out2 /\ mInterpolate mulconj W vec x v 0 (len1 + len2) = Ok (out1 ++ out2).
Proof.
  intros A KB K eA eB mulconj W vec x h P v len1 len2 rc R HW HP E Hh Hr H1 H2 H3.
  pose proof (C33_streaming K W vec (map eA x) (map eB h) P (view_map eB v) len1 len2 rc HW HP (reads_view _ _ _ _ _ _ _ _ R HW E)) as G.
  rewrite !lenZ_map' in G. destruct (G Hh Hr H1 H2 H3) as (o1 & f & s & E1 & B & o2 & E2 & E3). clear G.
  rewrite firstn_map, (minterp_into_sim eA eB mulconj ltac:(apply R)) in E1. rewrite skipn_map, (minterp_sim eA eB mulconj ltac:(apply R)) in E2. rewrite (minterp_sim eA eB mulconj ltac:(apply R)) in E3.
  exists o1, f, s. split; [exact E1|]. split; [exact B|]. exists o2. now split.
Qed.
Print Assumptions C82_interpolate_streaming.

(** ** Resampling *)
Theorem C82_resample : forall (A : Type) (KB : CRing) (F : CField) (eA : A -> F) (eB : KB -> F) mulconj M W vec (out : list F) (x : list A) (h : list KB) P v rate start out' sp,
  reads eA eB mulconj -> char_zero F -> 1 <= W -> 0 < P -> PolyphaseDecompose W vec h P = Ok v -> canonical rate -> canonical start ->
  mResampleInto M mulconj W vec out x v rate start = Ok (out', sp) ->
  out' = tab (lenZ out) (fun i => between (interpolated (map eA x) (map eB h) P) (position (val rate) (val start) P i)) /\
  (0 < val rate)%Q /\ (0 <= val start)%Q /\ (position (val rate) (val start) P (lenZ out) <= inject_Z (full_len (lenZ x) (lenZ h) P))%Q.
Proof.
  intros A KB F eA eB mulconj M W vec out x h P v rate start out' sp R Hc HW HP E Cr Cs H.
  rewrite <- (mresample_into_sim eA eB mulconj ltac:(apply R)) in H.
  pose proof (C34_samples F M W vec out (map eA x) (map eB h) P (view_map eB v) rate start out' sp Hc HW HP (reads_view _ _ _ _ _ _ _ _ R HW E) Cr Cs H) as G.
  now rewrite !lenZ_map' in G.
Qed.
Print Assumptions C82_resample.
(** it returns whenever the samples exist and the sizes are moderate *)
Theorem C82_resample_defined : forall (A : Type) (KB : CRing) (F : CField) (eA : A -> F) (eB : KB -> F) mulconj M W vec (out : list F) (x : list A) (h : list KB) P v rate start,
  reads eA eB mulconj -> char_zero F -> 1 <= W -> 0 < P -> PolyphaseDecompose W vec h P = Ok v -> canonical rate -> canonical start -> 0 < lenZ x -> 0 < lenZ h ->
  (0 < val rate)%Q -> (0 <= val start)%Q -> (position (val rate) (val start) P (lenZ out) <= inject_Z (full_len (lenZ x) (lenZ h) P))%Q ->
  (lenZ x * P + 2 * lenZ h) * den rate * den start <= M -> den start * den rate * (P * P) * num rate <= M -> (P + lenZ h) * P * (den start * den rate) * den rate <= M ->
  exists out' sp, mResampleInto M mulconj W vec out x v rate start = Ok (out', sp).
Proof.
  intros A KB F eA eB mulconj M W vec out x h P v rate start R Hc HW HP E Cr Cs Hx Hh Hr Hs Hm B1 B2 B3.
  pose proof (C34_defined F M W vec out (map eA x) (map eB h) P (view_map eB v) rate start Hc HW HP (reads_view _ _ _ _ _ _ _ _ R HW E) Cr Cs) as G.
  rewrite !lenZ_map' in G. destruct (G Hx Hh Hr Hs Hm B1 B2 B3) as [sp G']. rewrite (mresample_into_sim eA eB mulconj ltac:(apply R)) in G'.
  eexists _, sp. exact G'.
Qed.
Print Assumptions C82_resample_defined.
Theorem C82_resample_full : forall (A : Type) (KB : CRing) (F : CField) (eA : A -> F) (eB : KB -> F) mulconj M W vec (x : list A) (h : list KB) P v rate y,
  reads eA eB mulconj -> char_zero F -> 1 <= W -> 0 < P -> PolyphaseDecompose W vec h P = Ok v -> canonical rate ->
  mResampleFull M mulconj W vec x v rate = Ok y -> (0 < val rate)%Q /\
  exists len, (len * val rate * inject_Z P == inject_Z (full_len (lenZ x) (lenZ h) P))%Q /\
    y = tab (Qfloor len) (fun i => between (interpolated (map eA x) (map eB h) P) (position (val rate) 0 P i)).
Proof.
  intros A KB F eA eB mulconj M W vec x h P v rate y R Hc HW HP E Cr H. rewrite <- (mresample_full_sim eA eB mulconj ltac:(apply R)) in H.
  pose proof (C34_full F M W vec (map eA x) (map eB h) P (view_map eB v) rate y Hc HW HP (reads_view _ _ _ _ _ _ _ _ R HW E) Cr H) as G.
  now rewrite !lenZ_map' in G.
Qed.
Print Assumptions C82_resample_full.
Theorem C82_resample_central : forall (A : Type) (KB : CRing) (F : CField) (eA : A -> F) (eB : KB -> F) mulconj M W vec (x : list A) (h : list KB) P v rate y,
  reads eA eB mulconj -> char_zero F -> 1 <= W -> 0 < P -> PolyphaseDecompose W vec h P = Ok v -> canonical rate -> 0 < lenZ x -> 0 < lenZ h ->
  mResampleCentral M mulconj W vec x v rate = Ok y -> (0 < val rate)%Q /\
  exists len start, (len * val rate * inject_Z P == inject_Z (central_len (lenZ x * P) (lenZ h)))%Q /\ (position (val rate) start P 0 == inject_Z (Z.min (lenZ h) (lenZ x * P) - 1))%Q /\
    y = tab (Qfloor len) (fun i => between (interpolated (map eA x) (map eB h) P) (position (val rate) start P i)).
Proof.
  intros A KB F eA eB mulconj M W vec x h P v rate y R Hc HW HP E Cr Hx Hh H. rewrite <- (mresample_central_sim eA eB mulconj ltac:(apply R)) in H.
  pose proof (C34_central F M W vec (map eA x) (map eB h) P (view_map eB v) rate y Hc HW HP (reads_view _ _ _ _ _ _ _ _ R HW E) Cr) as G.
  rewrite !lenZ_map' in G. now apply G.
Qed.
Print Assumptions C82_resample_central.

(** resampling a signal in calls, each on the input from the reported sample on *)
Fixpoint mresample_calls {A B : Type} {F : CField} M (mulconj : A -> B -> F) W vec (x : list A) (v : pview B) (rate start : rat) (lens : list Z) : outcome (list F) :=
  match lens with
  | [] => Ok []
  | len :: lens =>
    do (out, sp) <- mResampleInto M mulconj W vec (repeat r0 (Z.to_nat len)) x v rate start;
    do rest <- mresample_calls M mulconj W vec (skipn (Z.to_nat (fst sp)) x) v rate (snd sp) lens;
    Ok (out ++ rest)
  end.
Lemma mcalls_sim {A : Type} {KB : CRing} {F : CField} (eA : A -> F) (eB : KB -> F) mulconj M W vec v rate lens : reads eA eB mulconj ->
  forall x start, resample_calls M W vec (map eA x) (view_map eB v) rate start lens = mresample_calls M mulconj W vec x v rate start lens.
Proof.
  intros R. induction lens as [|l ls IH]; intros x start; [reflexivity|]. cbn [resample_calls mresample_calls].
  rewrite (mresample_into_sim eA eB mulconj ltac:(apply R)). apply bind_ext. intros [o sp]. rewrite skipn_map, IH. reflexivity.
Qed.
(** the calls together produce the samples of one call; they all return if the samples exist and the sizes are moderate *)
Theorem C82_resample_resume : forall (A : Type) (KB : CRing) (F : CField) (eA : A -> F) (eB : KB -> F) mulconj M W vec (x : list A) (h : list KB) P v rate start lens,
  reads eA eB mulconj -> char_zero F -> 1 <= W -> 0 < P -> PolyphaseDecompose W vec h P = Ok v -> canonical rate -> canonical start -> 0 < lenZ x -> 0 < lenZ h ->
  (0 < val rate)%Q -> (0 <= val start)%Q -> (forall l, In l lens -> 0 < l) -> (position (val rate) (val start) P (total lens) <= inject_Z (full_len (lenZ x) (lenZ h) P))%Q ->
  (lenZ x * P + 2 * lenZ h) * den rate * (den start * num rate) <= M -> den start * num rate * den rate * (P * P) * num rate <= M -> (P + lenZ h) * P * (den start * num rate * den rate) * den rate <= M ->
  exists y, mresample_calls M mulconj W vec x v rate start lens = Ok y /\ mResample M mulconj W vec x v rate start (total lens) = Ok y /\
    y = tab (total lens) (fun i => between (interpolated (map eA x) (map eB h) P) (position (val rate) (val start) P i)).
Proof.
  intros A KB F eA eB mulconj M W vec x h P v rate start lens R Hc HW HP E Cr Cs Hx Hh Hr Hs Hl Hm B1 B2 B3.
  pose proof (reads_view _ _ _ _ _ _ _ _ R HW E) as E'.
  pose proof (C35_resume F M W vec (map eA x) (map eB h) P (view_map eB v) rate start lens Hc HW HP E' Cr Cs) as G.
  rewrite !lenZ_map' in G. destruct (G Hx Hh Hr Hs Hl Hm B1 B2 B3) as (y & G1 & G2). exists y.
  assert (Y : y = tab (total lens) (fun i => between (interpolated (map eA x) (map eB h) P) (position (val rate) (val start) P i))).
  { apply (C35_samples F M W vec (map eA x) (map eB h) P (view_map eB v) rate start lens y Hc HW HP E' Cr Cs); [now rewrite lenZ_map'|intros l Hi; apply Hl in Hi; lia|exact G1]. }
  rewrite (mcalls_sim eA eB mulconj _ _ _ _ _ _ R) in G1. rewrite (mresample_sim eA eB mulconj ltac:(apply R)) in G2. now repeat split.
Qed.
Print Assumptions C82_resample_resume.

(** ** The element types of the library *)
Lemma C_char_zero : char_zero Cfield.
Proof.
  intros n Hn. assert (E : forall k, sumf (K := Cring) k (fun _ => C1) = RtoC (INR k)).
  { induction k; cbn [sumf]; [reflexivity|]. rewrite IHk, S_INR. unfold RtoC. change (@radd Cring) with Cadd. unfold Cadd. cbn. f_equal; ring. }
  unfold ofnat. change (@r1 Cfield) with C1. change (@sumf Cfield) with (@sumf Cring). rewrite E. intros H.
  assert (H' : re (RtoC (INR (Z.to_nat n))) = re C0) by now rewrite H. cbn in H'. apply (not_0_INR (Z.to_nat n)); [lia|exact H'].
Qed.
(** DotProduct.hpp multiplies by the conjugate of the second operand if it is complex; C++ multiplies a complex and a real number part by part *)
Definition product_CR (z : C) (t : R) : C := mkC (re z * t) (im z * t).
Definition product_RC (s : R) (w : C) : C := let c := Cconj w in mkC (s * re c) (s * im c).
Definition product_CC (z w : C) : C := Cmul z (Cconj w).
Lemma reads_complex_real : reads (KB := Rring) (K := Cring) (fun z : C => z) (fun t : R => RtoC t) product_CR.
Proof. repeat split; intros; unfold product_CR, RtoC, r0, r1, radd, rmul; cbn; unfold Cadd, Cmul; cbn; unfold C0, C1, RtoC; f_equal; ring. Qed.
Lemma reads_real_complex : reads (KB := Cring) (K := Cring) (fun s : R => RtoC s) Cconj product_RC.
Proof. repeat split; intros; unfold product_RC, product_CC, RtoC, r0, r1, radd, rmul; cbn; unfold Cadd, Cmul, Cconj; cbn; unfold C0, C1, RtoC; f_equal; ring. Qed.
Lemma reads_complex_complex : reads (KB := Cring) (K := Cring) (fun z : C => z) Cconj product_CC.
Proof. repeat split; intros; unfold product_RC, product_CC, RtoC, r0, r1, radd, rmul; cbn; unfold Cadd, Cmul, Cconj; cbn; unfold C0, C1, RtoC; f_equal; ring. Qed.

Lemma at0_map' {K K' : CRing} (f : K -> K') (l : list K) i : f r0 = r0 -> at0 (map f l) i = f (at0 l i).
Proof. intros H. unfold at0, nthZ. destruct (i <? 0); [now rewrite H|]. rewrite nth_error_map. now destruct (nth_error l (Z.to_nat i)). Qed.
Lemma part_conv (p : C -> R) (u : list C) (v : list R) k : p = re \/ p = im ->
  p (conv_at (K := Cring) u (map (fun t : R => RtoC t) v) k) = conv_at (K := Rring) (map p u) v k.
Proof.
  intros Hp. rewrite !conv_at_conv. unfold conv. change (lenZ (A := Cring)) with (lenZ (A := C)). change (lenZ (A := Rring)) with (lenZ (A := R)). rewrite !lenZ_map'.
  assert (PS : forall lo hi (f : Z -> C), p (sumZ (K := Cring) lo hi f) = sumZ (K := Rring) lo hi (fun k => p (f k))).
  { intros lo hi f. destruct Hp as [-> | ->]; [apply re_sumZ|apply im_sumZ]. }
  rewrite PS. apply sumZ_ext. intros i _.
  change (map (fun x : R => RtoC x) v) with (map (RtoC : Rring -> Cring) v). rewrite (at0_map' (RtoC : Rring -> Cring)) by reflexivity.
  change (map p u) with (map (p : Cring -> Rring) u). rewrite (at0_map' (p : Cring -> Rring)) by (destruct Hp as [-> | ->]; reflexivity).
  change (@rmul Rring) with Rmult. change (@rmul Cring) with Cmul. unfold Cmul, RtoC. match goal with |- ?l = ?r => change (@eq R l r) end. destruct Hp as [-> | ->]; cbn [re im]; ring.
Qed.
Lemma stuffed_map {K K' : CRing} (f : K -> K') (x : list K) P : f r0 = r0 -> map f (zero_stuffed x P) = zero_stuffed (map f x) P.
Proof. intros H. unfold zero_stuffed. induction x as [|a x IH]; [reflexivity|]. cbn [flat_map map]. rewrite map_app, IH. cbn [map]. now rewrite repeat_map, H. Qed.
(** a complex signal through real filters: the real and the imaginary part are interpolated separately *)
Theorem C82_real_taps_act_on_both_parts : forall W vec (x : list C) (h : list R) P (v : pview R) off len,
  1 <= W -> 0 < P -> PolyphaseDecompose (K := Rring) W vec h P = Ok v -> 0 < lenZ x -> 0 < lenZ h -> 0 <= off -> 0 <= len -> off + len <= lenZ x * P + lenZ h - 1 ->
  exists y, mInterpolate (K := Cring) product_CR W vec x v off len = Ok y /\
    Interpolate (K := Rring) W vec (map re x) v off len = Ok (map re y) /\ Interpolate (K := Rring) W vec (map im x) v off len = Ok (map im y).
Proof.
  intros W vec x h P v off len HW HP E Hx Hh Ho Hl Hm.
  destruct (C82_interpolate C Rring Cring _ _ _ W vec x h P v off len reads_complex_real HW HP E Hx Hh Ho Hl) as [G _].
  specialize (G Hm). eexists. split; [exact G|].
  assert (Q : forall p : C -> R, (p = re \/ p = im) -> Interpolate (K := Rring) W vec (map p x) v off len =
    Ok (map p (tab len (fun j => rmul (conv_at (K := Cring) (zero_stuffed (K := Cring) (map (fun z => z) x) P) (map (fun t : R => RtoC t) h) (off + j)) (ofnat (K := Cring) P))))).
  { intros p Hp. destruct (C32_interpolate Rring W vec (map p x) h P v off len HW HP E) as [G' _]; try assumption; [change (lenZ (A := Rring)) with (lenZ (A := R)); now rewrite lenZ_map'|].
    change (lenZ (A := Rring)) with (lenZ (A := R)) in G'. rewrite lenZ_map' in G'. rewrite (G' Hm). f_equal. unfold tab. rewrite map_map. apply map_ext. intros j.
    rewrite <- (reads_ofnat _ _ _ reads_complex_real P). rewrite map_id.
    assert (M : forall z t, p (Cmul z (RtoC t)) = (p z * t)%R). { intros z t. unfold Cmul, RtoC. destruct Hp as [-> | ->]; cbn [re im]; ring. }
    change (@rmul Cring) with Cmul. change (@rmul Rring) with Rmult. cbv beta. rewrite M. f_equal. rewrite part_conv by exact Hp. f_equal.
    symmetry. apply (stuffed_map (K := Cring) (K' := Rring) p). destruct Hp as [-> | ->]; reflexivity. }
  split; apply Q; auto.
Qed.
Print Assumptions C82_real_taps_act_on_both_parts.
(** complex taps act conjugated: DotProduct conjugates its second operand.  The interpolation theorem of C32 read with the
    filter itself is false for them *)
Theorem C82_complex_taps_refuted : exists (x : list R) (h : list C) (v : pview C) (y : list C),
  PolyphaseDecompose (K := Cring) 1 false h 1 = Ok v /\ mInterpolate (K := Cring) product_RC 1 false x v 0 1 = Ok y /\
  y <> tab 1 (fun j => rmul (conv_at (K := Cring) (zero_stuffed (K := Cring) (map (fun s : R => RtoC s) x) 1) h j) (ofnat (K := Cring) 1)) /\
  y = tab 1 (fun j => rmul (conv_at (K := Cring) (zero_stuffed (K := Cring) (map (fun s : R => RtoC s) x) 1) (map Cconj h) j) (ofnat (K := Cring) 1)).
Proof.
  destruct (C31_phases Cring 1 false [mkC 0 1] 1 ltac:(lia) ltac:(lia)) as (v & E & _).
  destruct (C82_interpolate R Cring Cring _ _ _ 1 false [1%R] [mkC 0 1] 1 v 0 1 reads_real_complex ltac:(lia) ltac:(lia) E) as [G _]; try (unfold lenZ; cbn [length]; lia).
  exists [1%R], [mkC 0 1], v. eexists. split; [exact E|]. split; [apply G; unfold lenZ; cbn [length]; lia|]. split; [|reflexivity].
  intros H. apply (f_equal (hd C0)) in H. apply (f_equal im) in H. revert H. unfold tab, ofnat. change (Z.to_nat 1) with 1%nat. change (Z.to_nat (1 - 1)) with 0%nat. cbn [map seq hd sumf zero_stuffed flat_map app repeat]. change (Z.to_nat (1 - 1)) with 0%nat. cbn [repeat app].
  rewrite !conv_at_conv. unfold conv, sumZ. cbn. cbv [Pos.to_nat Pos.iter_op Nat.add]. cbn. unfold at0, nthZ. cbn. lra.
Qed.
Print Assumptions C82_complex_taps_refuted.
(** the theorems' hypotheses are met: a complex signal, two samples of it, and a real filter of two taps in one phase each *)
Example C82_nontrivial : exists v : pview R, PolyphaseDecompose (K := Rring) 4 true [1; 2]%R 2 = Ok v /\
  exists y, mInterpolate (K := Cring) product_CR 4 true [mkC 1 2; mkC 3 (-1)] v 0 4 = Ok y /\
    y = [mkC 2 4; mkC 4 8; mkC 6 (-2); mkC 12 (-4)].
Proof.
  destruct (C31_phases Rring 4 true [1; 2]%R 2 ltac:(lia) ltac:(lia)) as (v & E & _).
  destruct (C82_interpolate C Rring Cring _ _ _ 4 true [mkC 1 2; mkC 3 (-1)] [1; 2]%R 2 v 0 4 reads_complex_real ltac:(lia) ltac:(lia) E) as [G _]; try (unfold lenZ; cbn [length]; lia).
  exists v. split; [exact E|]. eexists. split; [apply G; unfold lenZ; cbn [length]; lia|].
  unfold tab, ofnat. change (Z.to_nat 4) with 4%nat. change (Z.to_nat 2) with 2%nat. cbn [map seq hd sumf zero_stuffed flat_map app]. change (Z.to_nat (2 - 1)) with 1%nat. cbn [repeat app].
  do 3 (f_equal; [rewrite conv_at_conv; unfold conv, sumZ; cbn; cbv [Pos.to_nat Pos.iter_op Nat.add]; cbn; unfold at0, nthZ; cbn; cbv [Pos.to_nat Pos.iter_op Nat.add]; cbn; unfold Cmul, Cadd, C0, C1, RtoC; cbn; f_equal; lra|]). f_equal. rewrite conv_at_conv; unfold conv, sumZ; cbn; cbv [Pos.to_nat Pos.iter_op Nat.add]; cbn; unfold at0, nthZ; cbn; cbv [Pos.to_nat Pos.iter_op Nat.add]; cbn; unfold Cmul, Cadd, C0, C1, RtoC; cbn; f_equal; lra.
Qed.
