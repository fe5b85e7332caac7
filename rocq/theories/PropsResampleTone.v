(** C79: a signal made of sinusoids keeps its shape when it is interpolated or resampled. *)
From Coq Require Import ZArith List Bool Lia Reals Lra QArith Qreals Qround Psatz.
From Verif Require Import Base BaseFacts RationalModel RationalProofs Complex FunctionProofs KernelModel KernelProofs ConvModel ConvProofs PropsConv FirModel FftModel FftProofs PolyphaseModel PolyphaseProofs PropsPolyphase ResampleModel ResampleProofs ResampleTotal PropsResample FirBandModel PropsFirBand LsqFacts PropsFunction PropsFirSine ResampleTone.
From Coq Require Import ZifyBool ZifyNat.
Import ListNotations.
Open Scope Z_scope.
#[local] Notation sumR := (sumZ (K := Rring)).
Local Ltac req := match goal with |- ?l = ?r => change (@eq R l r) end.

(** ** Specification *)
(** a sinusoid a cos (w t + phi); frequencies in radians per input sample *)
Record sinusoid := Sin { amp : R; freq : R; shift : R }.
(** a function of continuous time: a finite sum of sinusoids; and the sum of their amplitudes *)
Fixpoint wave (ts : list sinusoid) (t : R) : R := match ts with [] => 0%R | s :: ts => (amp s * cos (freq s * t + shift s) + wave ts t)%R end.
Fixpoint amplitudes (ts : list sinusoid) : R := match ts with [] => 0%R | s :: ts => (Rabs (amp s) + amplitudes ts)%R end.
(** the signal holds the values of the wave at the times 0, 1, 2, ... *)
Definition samples_of (ts : list sinusoid) (x : list R) : Prop := forall n, 0 <= n < lenZ x -> atR x n = wave ts (IZR n).
(** interpolation with P phases works at P times the input rate: a sinusoid of frequency w has w / P there, and its images w / P + 2 pi l / P.
    The filter passes the sinusoids to within eps (its gain at frequency v is the real factor left after its delay) and lets at most dl of each image through *)
Definition image (s : sinusoid) (P l : Z) : R := ((freq s + 2 * PI * IZR l) / IZR P)%R.
Definition passes (h : list R) (P : Z) (eps dl : R) (s : sinusoid) : Prop :=
  (Rabs (real_gain h (freq s / IZR P) - 1) <= eps)%R /\ forall l, 1 <= l < P -> (Cabs (response_at h (image s P l)) <= dl)%R.
(** what the filter does to the wave, at worst *)
Definition filter_error (ts : list sinusoid) (P : Z) (eps dl : R) : R := (amplitudes ts * (eps + IZR (P - 1) * dl))%R.
(** what is lost on the straight line between two interpolated samples *)
Fixpoint chord_error (ts : list sinusoid) (P : Z) : R := match ts with [] => 0%R | s :: ts => (Rabs (amp s) * (freq s / IZR P * (freq s / IZR P) / 8) + chord_error ts P)%R end.

(** ** Bridges *)
Lemma amplitudes_pos ts : (0 <= amplitudes ts)%R.
Proof. induction ts as [|s ts IH]; cbn [amplitudes]; [lra|]. pose proof (Rabs_pos (amp s)). lra. Qed.
Lemma chord_pos ts P : (0 <= chord_error ts P)%R.
Proof. induction ts as [|s ts IH]; cbn [chord_error]; [lra|]. pose proof (Rabs_pos (amp s)). assert (0 <= freq s / IZR P * (freq s / IZR P))%R by apply Rle_0_sqr. assert (0 <= Rabs (amp s) * (freq s / IZR P * (freq s / IZR P) / 8))%R by (apply Rmult_le_pos; lra). lra. Qed.
Lemma stuff_wave s ts P n : stuff (wave (s :: ts)) P n = (stuff (fun t => amp s * cos (freq s * t + shift s))%R P n + stuff (wave ts) P n)%R.
Proof. unfold stuff. cbn [wave]. destruct (_ =? 0); ring. Qed.
Lemma wave_filtered h ts P m eps dl : 0 < P -> symmetric (K := Rring) h -> (forall s, In s ts -> passes h P eps dl s) ->
  (Rabs (filt h (stuff (wave ts) P) m - wave ts ((IZR m - group_delay h) / IZR P)) <= filter_error ts P eps dl)%R.
Proof.
  intros HP Sy. unfold filter_error. induction ts as [|s ts IH]; intros H.
  - cbn [amplitudes wave]. rewrite (filt_ext h (stuff (wave []) P) (fun _ => 0%R)), filt_zero by (intros k _; unfold stuff; cbn [wave]; destruct (_ =? 0); ring). rewrite Rminus_0_r, Rabs_R0. lra.
  - rewrite (filt_ext h _ (fun n => stuff (fun t => amp s * cos (freq s * t + shift s))%R P n + stuff (wave ts) P n)%R) by (intros k _; apply stuff_wave). rewrite filt_add. cbn [wave amplitudes].
    specialize (IH (fun s' Hs => H s' (or_intror Hs))). destruct (H s (or_introl eq_refl)) as [H1 H2]. pose proof (filt_passband h (amp s) (freq s) (shift s) P m eps dl HP Sy H1 H2) as B.
    set (p := filt h (stuff (fun t => amp s * cos (freq s * t + shift s))%R P) m) in *. set (q := filt h (stuff (wave ts) P) m) in *. set (t := ((IZR m - group_delay h) / IZR P)%R) in *.
    replace (p + q - (amp s * cos (freq s * t + shift s) + wave ts t))%R with ((p - amp s * cos (freq s * t + shift s)) + (q - wave ts t))%R by ring. eapply Rle_trans; [apply Rabs_triang|]. lra.
Qed.
Lemma wave_chord ts P t0 lam : 0 < P -> (0 <= lam <= 1)%R -> (Rabs ((1 - lam) * wave ts t0 + lam * wave ts (t0 + 1 / IZR P) - wave ts (t0 + lam / IZR P)) <= chord_error ts P)%R.
Proof.
  intros HP Hl. assert (P0 : (IZR P <> 0)%R) by (apply (IZR_neq P 0); lia). induction ts as [|s ts IH]; cbn [wave chord_error]; [replace ((1 - lam) * 0 + lam * 0 - 0)%R with 0%R by ring; rewrite Rabs_R0; lra|].
  pose proof (chord_cos (freq s * t0 + shift s) (freq s / IZR P) lam Hl) as B. replace (freq s * t0 + shift s + freq s / IZR P)%R with (freq s * (t0 + 1 / IZR P) + shift s)%R in B by (field; exact P0).
  replace (freq s * t0 + shift s + lam * (freq s / IZR P))%R with (freq s * (t0 + lam / IZR P) + shift s)%R in B by (field; exact P0).
  set (c0 := cos (freq s * t0 + shift s)) in *. set (c1 := cos (freq s * (t0 + 1 / IZR P) + shift s)) in *. set (c := cos (freq s * (t0 + lam / IZR P) + shift s)) in *.
  replace ((1 - lam) * (amp s * c0 + wave ts t0) + lam * (amp s * c1 + wave ts (t0 + 1 / IZR P)) - (amp s * c + wave ts (t0 + lam / IZR P)))%R with
    (amp s * ((1 - lam) * c0 + lam * c1 - c) + ((1 - lam) * wave ts t0 + lam * wave ts (t0 + 1 / IZR P) - wave ts (t0 + lam / IZR P)))%R by ring.
  eapply Rle_trans; [apply Rabs_triang|]. rewrite Rabs_mult. pose proof (Rmult_le_compat_l _ _ _ (Rabs_pos (amp s)) B). lra.
Qed.
Lemma ofQ_R q : (0 <= q)%Q -> ofQ (F := Complex.Rfield) q = Q2R q.
Proof.
  intros H. apply Qle_num in H. unfold ofQ, Q2R. change (@ofnat Complex.Rfield) with (@ofnat Rring). rewrite !ofnat_IZR by lia. reflexivity.
Qed.
Lemma Q2R_inject n : Q2R (inject_Z n) = IZR n.
Proof. unfold Q2R, inject_Z. cbn. field. Qed.
Lemma position_R rate start P i : Q2R (position rate start P i) = ((Q2R start + IZR i) * Q2R rate * IZR P)%R.
Proof. unfold position. rewrite !Q2R_mult, Q2R_plus, !Q2R_inject. reflexivity. Qed.
(** the straight line at a position whose neighbours are known to be close to the wave *)
Lemma wave_between (sig : Z -> R) ts P d pos E : 0 < P -> (0 <= pos)%Q -> (0 <= E)%R -> let m := Qfloor pos in
  (Rabs (sig m - wave ts ((IZR m - d) / IZR P)) <= E)%R -> (~ (pos == inject_Z m)%Q -> (Rabs (sig (m + 1)%Z - wave ts ((IZR (m + 1) - d) / IZR P)) <= E)%R) ->
  (Rabs (between (F := Complex.Rfield) sig pos - wave ts ((Q2R pos - d) / IZR P)) <= E + chord_error ts P)%R.
Proof.
  intros HP Hpos HE m H1 H2. assert (P0 : (IZR P <> 0)%R) by (apply (IZR_neq P 0); lia). unfold between. fold m. pose proof (frac_bounds pos) as F0. fold m in F0. rewrite ofQ_R by exact F0.
  assert (El : Q2R (pos - inject_Z m) = (Q2R pos - IZR m)%R) by (rewrite Q2R_minus, Q2R_inject; reflexivity). set (lam := Q2R (pos - inject_Z m)) in *. cbn [radd rmul rsub r1 Complex.Rfield Rring fring].
  change (Rabs ((1 - lam) * sig m + lam * sig (m + 1)%Z - wave ts ((Q2R pos - d) / IZR P)) <= E + chord_error ts P)%R.
  assert (Hl : (0 <= lam <= 1)%R).
  { pose proof (Qfloor_le pos) as A. pose proof (Qlt_floor pos) as B. fold m in A, B. apply Qle_Rle in A. apply Qlt_Rlt in B. rewrite Q2R_inject in A, B. rewrite plus_IZR in B. lra. }
  pose proof (wave_chord ts P ((IZR m - d) / IZR P) lam HP Hl) as B.
  replace ((IZR m - d) / IZR P + 1 / IZR P)%R with ((IZR (m + 1) - d) / IZR P)%R in B by (rewrite plus_IZR; field; exact P0).
  replace ((IZR m - d) / IZR P + lam / IZR P)%R with ((Q2R pos - d) / IZR P)%R in B by (rewrite El; field; exact P0).
  set (w0 := wave ts ((IZR m - d) / IZR P)) in *. set (w1 := wave ts ((IZR (m + 1) - d) / IZR P)) in *. set (w := wave ts ((Q2R pos - d) / IZR P)) in *.
  assert (N : (Rabs ((1 - lam) * (sig m - w0) + lam * (sig (m + 1)%Z - w1)) <= E)%R).
  { destruct (Qeq_dec pos (inject_Z m)) as [Q|Q].
    - assert (lam = 0)%R by (apply Qeq_eqR in Q; rewrite Q2R_inject in Q; lra). replace lam with 0%R. replace ((1 - 0) * (sig m - w0) + 0 * (sig (m + 1)%Z - w1))%R with (sig m - w0)%R by ring. exact H1.
    - specialize (H2 Q). eapply Rle_trans; [apply Rabs_triang|]. rewrite !Rabs_mult, (Rabs_pos_eq lam), (Rabs_pos_eq (1 - lam)) by lra. nra. }
  replace ((1 - lam) * sig m + lam * sig (m + 1)%Z - w)%R with (((1 - lam) * (sig m - w0) + lam * (sig (m + 1)%Z - w1)) + ((1 - lam) * w0 + lam * w1 - w))%R by ring.
  eapply Rle_trans; [apply Rabs_triang|]. lra.
Qed.

(** ** Theorems *)
(** the exact spectrum of an interpolated sinusoid: the sinusoid itself and its P - 1 images, each with the amplitude and phase of the filter's
    response at its frequency; from where the filter is filled to the last input sample *)
Theorem C79_images W vec (x h : list R) P v off len s y A Ph : 1 <= W -> 0 < P -> PolyphaseDecompose (K := Rring) W vec h P = Ok v -> 0 < lenZ x -> 0 < lenZ h -> 0 <= off -> 0 <= len ->
  Interpolate (K := Rring) W vec x v off len = Ok y -> samples_of [s] x -> (forall l, 0 <= l < P -> polar_of (response_at h (image s P l)) (A l) (Ph l)) ->
  forall j, 0 <= j < len -> lenZ h - 1 <= off + j < lenZ x * P -> atR y j = sumR 0 P (fun l => amp s * A l * cos (image s P l * IZR (off + j) + shift s + Ph l))%R.
Proof.
  intros HW HP E Hx Hh Ho Hl Hy T Hpol j Hj Hm. destruct (C32_interpolate Rring W vec x h P v off len HW HP E Hx Hh Ho Hl) as [I1 I2].
  destruct (Z_le_gt_dec (off + len) (lenZ x * P + lenZ h - 1)) as [Hb|Hb]; [|change (lenZ (A := Rring)) with (lenZ (A := R)) in I2; rewrite I2 in Hy by lia; discriminate].
  rewrite I1 in Hy by exact Hb. injection Hy as <-. rewrite at0_tab by lia. change (interpolated (F := Complex.Rfield) x h P (off + j) = sumR 0 P (fun l => amp s * A l * cos (image s P l * IZR (off + j) + shift s + Ph l))%R).
  rewrite (interpolated_filt (fun t => amp s * cos (freq s * t + shift s))%R x h P (off + j) HP) by (try exact Hm; intros n Hn; rewrite (T n Hn); cbn [wave]; req; ring).
  rewrite filt_images by exact HP. apply sumZ_ext. intros l Hl'. fold (image s P l). apply line_polar. now apply Hpol.
Qed.
Print Assumptions C79_images.
(** interpolation with a symmetric filter: the wave itself, read P times as densely and delayed by half the filter, to within the filter's ripple and images *)
Theorem C79_interpolation W vec (x h : list R) P v off len ts y eps dl : 1 <= W -> 0 < P -> PolyphaseDecompose (K := Rring) W vec h P = Ok v -> 0 < lenZ x -> 0 < lenZ h -> 0 <= off -> 0 <= len ->
  Interpolate (K := Rring) W vec x v off len = Ok y -> samples_of ts x -> symmetric (K := Rring) h -> (forall s, In s ts -> passes h P eps dl s) ->
  forall j, 0 <= j < len -> lenZ h - 1 <= off + j < lenZ x * P -> (Rabs (atR y j - wave ts ((IZR (off + j) - group_delay h) / IZR P)) <= filter_error ts P eps dl)%R.
Proof.
  intros HW HP E Hx Hh Ho Hl Hy T Sy Hp j Hj Hm. destruct (C32_interpolate Rring W vec x h P v off len HW HP E Hx Hh Ho Hl) as [I1 I2].
  destruct (Z_le_gt_dec (off + len) (lenZ x * P + lenZ h - 1)) as [Hb|Hb]; [|change (lenZ (A := Rring)) with (lenZ (A := R)) in I2; rewrite I2 in Hy by lia; discriminate].
  rewrite I1 in Hy by exact Hb. injection Hy as <-. rewrite at0_tab by lia. change (Rabs (interpolated (F := Complex.Rfield) x h P (off + j) - wave ts ((IZR (off + j) - group_delay h) / IZR P)) <= filter_error ts P eps dl)%R.
  rewrite (interpolated_filt (wave ts) x h P (off + j) HP T Hm). now apply wave_filtered.
Qed.
Print Assumptions C79_interpolation.
Lemma eps_pos h P eps dl s : 0 < P -> passes h P eps dl s -> (0 <= eps + IZR (P - 1) * dl)%R.
Proof.
  intros HP [H1 H2]. pose proof (Rabs_pos (real_gain h (freq s / IZR P) - 1)). destruct (Z.eq_dec P 1) as [-> |N]; [change (IZR (1 - 1)) with 0%R; lra|].
  pose proof (H2 1 ltac:(lia)) as B. pose proof (Cabs_pos (response_at h (image s P 1))). assert (0 <= IZR (P - 1))%R by (apply (IZR_le 0); lia). assert (0 <= dl)%R by lra. nra.
Qed.
Lemma filter_error_pos h ts P eps dl : 0 < P -> (forall s, In s ts -> passes h P eps dl s) -> (0 <= filter_error ts P eps dl)%R.
Proof.
  intros HP H. unfold filter_error. destruct ts as [|s ts]; [cbn; lra|]. apply Rmult_le_pos; [apply amplitudes_pos|]. apply (eps_pos h P eps dl s HP). apply H. now left.
Qed.
(** resampling: output sample i is the wave at the time (start + i) rate, delayed by half the filter *)
Theorem C79_resampling M W vec (out x h : list R) P v rate start out' sp ts eps dl : 1 <= W -> 0 < P -> PolyphaseDecompose (K := Rring) W vec h P = Ok v -> canonical rate -> canonical start ->
  ResampleInto (F := Complex.Rfield) M W vec out x v rate start = Ok (out', sp) -> 0 < lenZ h -> samples_of ts x -> symmetric (K := Rring) h -> (forall s, In s ts -> passes h P eps dl s) ->
  lenZ out' = lenZ out /\ forall i, 0 <= i < lenZ out -> (inject_Z (lenZ h - 1) <= position (val rate) (val start) P i <= inject_Z (lenZ x * P - 1))%Q ->
    (Rabs (atR out' i - wave ts ((Q2R (val start) + IZR i) * Q2R (val rate) - group_delay h / IZR P)) <= filter_error ts P eps dl + chord_error ts P)%R.
Proof.
  intros HW HP E Cr Cs Hres Hh T Sy Hp. destruct (C34_samples Complex.Rfield M W vec out x h P v rate start out' sp Rchar_zero HW HP E Cr Cs Hres) as (-> & _). split; [rewrite lenZ_tab; apply Z.max_r, lenZ_nonneg|].
  intros i Hi [P1 P2]. rewrite (at0_tab (K := Rring)) by exact Hi. set (pos := position (val rate) (val start) P i) in *. assert (P0 : (IZR P <> 0)%R) by (apply (IZR_neq P 0); lia).
  assert (Hpos : (0 <= pos)%Q) by (eapply Qle_trans; [|exact P1]; unfold Qle, inject_Z; cbn; lia).
  replace ((Q2R (val start) + IZR i) * Q2R (val rate) - group_delay h / IZR P)%R with ((Q2R pos - group_delay h) / IZR P)%R by (unfold pos; rewrite position_R; field; exact P0).
  assert (F1 : lenZ h - 1 <= Qfloor pos) by (rewrite <- (Qfloor_Z (lenZ h - 1)); now apply Qfloor_resp_le). assert (F2 : Qfloor pos <= lenZ x * P - 1) by (rewrite <- (Qfloor_Z (lenZ x * P - 1)); now apply Qfloor_resp_le).
  assert (Ok1 : forall m, lenZ h - 1 <= m < lenZ x * P -> (Rabs (interpolated (F := Complex.Rfield) x h P m - wave ts ((IZR m - group_delay h) / IZR P)) <= filter_error ts P eps dl)%R).
  { intros m Hm. rewrite (interpolated_filt (wave ts) x h P m HP T Hm). now apply wave_filtered. }
  apply (wave_between (interpolated (F := Complex.Rfield) x h P) ts P (group_delay h) pos); [exact HP|exact Hpos|now apply (filter_error_pos h)|apply Ok1; lia|].
  intros N. apply Ok1. split; [lia|]. assert (Qfloor pos <> lenZ x * P - 1); [|lia]. intros Q. apply N. rewrite Q. apply Qle_antisym; [exact P2|]. rewrite <- Q. apply Qfloor_le.
Qed.
Print Assumptions C79_resampling.
(** started at the delay that ResampleDelay reports, output sample i is the wave at the time i rate: the delay of the filter is undone *)
Theorem C79_delay_undone M M' W vec (out x h : list R) P v rate start out' sp ts eps dl : 1 <= W -> 0 < P -> PolyphaseDecompose (K := Rring) W vec h P = Ok v -> canonical rate -> (0 < val rate)%Q ->
  ResampleDelay M' (lenZ h) P rate = Ok start ->
  ResampleInto (F := Complex.Rfield) M W vec out x v rate start = Ok (out', sp) -> 0 < lenZ h -> samples_of ts x -> symmetric (K := Rring) h -> (forall s, In s ts -> passes h P eps dl s) ->
  forall i, 0 <= i < lenZ out -> (IZR (lenZ h - 1) / 2 <= IZR i * Q2R (val rate) * IZR P <= IZR (lenZ x * P - 1) - IZR (lenZ h - 1) / 2)%R ->
    (Rabs (atR out' i - wave ts (IZR i * Q2R (val rate))) <= filter_error ts P eps dl + chord_error ts P)%R.
Proof.
  intros HW HP E Cr Hr Hd Hres Hh T Sy Hp i Hi Hb. destruct (C34_delay M' (lenZ h) P rate start Cr Hr Hd) as [Cs Ed]. apply Qeq_eqR in Ed. rewrite Q2R_mult, position_R, !Q2R_inject in Ed.
  assert (P0 : (IZR P <> 0)%R) by (apply (IZR_neq P 0); lia). destruct (C79_resampling M W vec out x h P v rate start out' sp ts eps dl HW HP E Cr Cs Hres Hh T Sy Hp) as [_ B]. specialize (B i Hi).
  assert (Ep : Q2R (position (val rate) (val start) P i) = (IZR i * Q2R (val rate) * IZR P + IZR (lenZ h - 1) / 2)%R) by (rewrite position_R; lra).
  specialize (B ltac:(split; apply Rle_Qle; rewrite Q2R_inject, Ep; lra)).
  replace (IZR i * Q2R (val rate))%R with ((Q2R (val start) + IZR i) * Q2R (val rate) - group_delay h / IZR P)%R; [exact B|]. unfold group_delay. apply (Rmult_eq_reg_r (IZR P)); [|exact P0]. field_simplify; [lra|exact P0].
Qed.
Print Assumptions C79_delay_undone.
(** central mode: only samples where the filter is filled; the first one is the wave half a filter after the start *)
Theorem C79_central M W vec (x h : list R) P v rate y ts eps dl : 1 <= W -> 0 < P -> PolyphaseDecompose (K := Rring) W vec h P = Ok v -> canonical rate -> 0 < lenZ h <= lenZ x * P -> (1 <= val rate * inject_Z P)%Q ->
  ResampleCentral (F := Complex.Rfield) M W vec x v rate = Ok y -> samples_of ts x -> symmetric (K := Rring) h -> (forall s, In s ts -> passes h P eps dl s) ->
  forall i, 0 <= i < lenZ y -> (Rabs (atR y i - wave ts (IZR i * Q2R (val rate) + group_delay h / IZR P)) <= filter_error ts P eps dl + chord_error ts P)%R.
Proof.
  intros HW HP E Cr Hh Hrp Hy T Sy Hp i Hi. destruct (C34_central Complex.Rfield M W vec x h P v rate y Rchar_zero HW HP E Cr ltac:(change (0 < lenZ x); nia) ltac:(change (0 < lenZ h); lia) Hy) as (Hr & len & start & L1 & L2 & ->).
  change (lenZ (A := Complex.Rfield)) with (lenZ (A := R)) in *. rewrite Z.min_l in L2 by lia. assert (P0 : (0 < IZR P)%R) by (apply IZR_lt; lia). rewrite lenZ_tab in Hi.
  unfold central_len in L1. apply Qeq_eqR in L1. apply Qeq_eqR in L2. rewrite !Q2R_mult, !Q2R_inject in L1. rewrite position_R, Q2R_inject in L2. change (IZR 0) with 0%R in L2. apply Qle_Rle in Hrp. rewrite Q2R_mult, Q2R_inject in Hrp. apply Qlt_Rlt in Hr.
  replace (Q2R 0) with 0%R in Hr by (unfold Q2R; cbn; field). replace (Q2R 1) with 1%R in Hrp by (unfold Q2R; cbn; field).
  assert (Hlen : (IZR i + 1 <= Q2R len)%R). { rewrite <- plus_IZR. rewrite <- Q2R_inject. apply Qle_Rle. eapply Qle_trans; [|apply Qfloor_le]. rewrite <- Zle_Qle. lia. }
  rewrite (at0_tab (K := Rring)) by lia. set (pos := position (val rate) start P i).
  assert (Ep : Q2R pos = (IZR (lenZ h - 1) + IZR i * Q2R (val rate) * IZR P)%R) by (unfold pos; rewrite position_R; lra).
  assert (I0 : (0 <= IZR i)%R) by (apply (IZR_le 0); lia). assert (Hc : (IZR i * Q2R (val rate) * IZR P <= IZR (lenZ x * P - lenZ h))%R).
  { replace (IZR (lenZ x * P - lenZ h)) with (IZR (lenZ x * P - lenZ h + 1) - 1)%R by (rewrite plus_IZR; lra). set (c := (Q2R (val rate) * IZR P)%R) in *. assert (L1' : (Q2R len * c = IZR (lenZ x * P - lenZ h + 1))%R).
    { unfold c. rewrite <- Rmult_assoc, L1. f_equal. lia. }
    rewrite <- L1'. pose proof (Rmult_le_compat_r c _ _ ltac:(lra) Hlen). rewrite Rmult_assoc. fold c. lra. }
  assert (Rp : (0 <= IZR i * Q2R (val rate) * IZR P)%R) by (apply Rmult_le_pos; [apply Rmult_le_pos|]; lra).
  assert (P1 : (inject_Z (lenZ h - 1) <= pos)%Q) by (apply Rle_Qle; rewrite Q2R_inject, Ep; lra).
  assert (P2 : (pos <= inject_Z (lenZ x * P - 1))%Q) by (apply Rle_Qle; rewrite Q2R_inject, Ep; rewrite !minus_IZR in *; lra).
  assert (Hpos : (0 <= pos)%Q) by (eapply Qle_trans; [|exact P1]; unfold Qle, inject_Z; cbn; lia).
  replace (IZR i * Q2R (val rate) + group_delay h / IZR P)%R with ((Q2R pos - group_delay h) / IZR P)%R by (rewrite Ep; unfold group_delay; field; lra).
  assert (F1 : lenZ h - 1 <= Qfloor pos) by (rewrite <- (Qfloor_Z (lenZ h - 1)); now apply Qfloor_resp_le). assert (F2 : Qfloor pos <= lenZ x * P - 1) by (rewrite <- (Qfloor_Z (lenZ x * P - 1)); now apply Qfloor_resp_le).
  assert (Ok1 : forall m, lenZ h - 1 <= m < lenZ x * P -> (Rabs (interpolated (F := Complex.Rfield) x h P m - wave ts ((IZR m - group_delay h) / IZR P)) <= filter_error ts P eps dl)%R).
  { intros m Hm. rewrite (interpolated_filt (wave ts) x h P m HP T Hm). now apply wave_filtered. }
  apply (wave_between (interpolated (F := Complex.Rfield) x h P) ts P (group_delay h) pos); [exact HP|exact Hpos|now apply (filter_error_pos h)|apply Ok1; lia|].
  intros N. apply Ok1. split; [lia|]. assert (Qfloor pos <> lenZ x * P - 1); [|lia]. intros Q. apply N. rewrite Q. apply Qle_antisym; [exact P2|]. rewrite <- Q. apply Qfloor_le.
Qed.
Print Assumptions C79_central.

(** ** A nontrivial case: a filter of three taps, two phases, and a wave of two sinusoids; rate 2/3 *)
Definition triangle : list R := [/ 4; / 2; / 4]%R.
Definition duo : list sinusoid := [Sin 1 (/ 10) 0; Sin (/ 2) (/ 5) 1].
Definition duo_samples : list R := tab 10 (fun n => wave duo (IZR n)).
Lemma triangle_response w : response_at triangle w = Cmul (RtoC ((1 + cos w) / 2)) (cis (- w)).
Proof.
  assert (E2 : cos (w * 2) = (2 * (cos w * cos w) - 1)%R) by (replace (w * 2)%R with (2 * w)%R by ring; rewrite cos_2a_cos; ring). assert (E3 : sin (w * 2) = (2 * sin w * cos w)%R) by (replace (w * 2)%R with (2 * w)%R by ring; apply sin_2a).
  apply C_ext; rewrite ?response_re, ?response_im; change (lenZ triangle) with 3; rewrite (sumZ_first (K := Rring)) by lia; rewrite (sumZ_first (K := Rring)) by lia; rewrite (sumZ_first (K := Rring)) by lia; rewrite (sumZ_empty (K := Rring)) by lia;
    change (atR triangle 0) with (/ 4)%R; change (atR triangle (0 + 1)) with (/ 2)%R; change (atR triangle (0 + 1 + 1)) with (/ 4)%R; cbn [Z.add Pos.add radd r0 Rring]; rewrite ?Rmult_0_r, ?Rmult_1_r, ?E2, ?E3, ?cos_0, ?sin_0; cbn [re im cis Cmul RtoC]; rewrite ?cos_neg, ?sin_neg; req; field.
Qed.
Lemma triangle_abs w : Cabs (response_at triangle w) = ((1 + cos w) / 2)%R.
Proof.
  rewrite triangle_response. unfold Cabs. rewrite Cnorm2_mul, cis_norm, Rmult_1_r. unfold Cnorm2, RtoC. cbn [re im]. replace ((1 + cos w) / 2 * ((1 + cos w) / 2) + 0 * 0)%R with (Rsqr ((1 + cos w) / 2)) by (unfold Rsqr; ring).
  rewrite sqrt_Rsqr; [reflexivity|]. pose proof (COS_bound w). lra.
Qed.
Lemma triangle_gain w : real_gain triangle w = ((1 + cos w) / 2)%R.
Proof.
  unfold real_gain, group_delay. change (lenZ triangle) with 3. rewrite (sumZ_first (K := Rring)) by lia; rewrite (sumZ_first (K := Rring)) by lia; rewrite (sumZ_first (K := Rring)) by lia; rewrite (sumZ_empty (K := Rring)) by lia.
  change (atR triangle 0) with (/ 4)%R; change (atR triangle (0 + 1)) with (/ 2)%R; change (atR triangle (0 + 1 + 1)) with (/ 4)%R. cbn [Z.add Pos.add radd r0 Rring]. change (IZR (3 - 1)) with 2%R.
  replace (w * (0 - 2 / 2))%R with (- w)%R by field. replace (w * (1 - 2 / 2))%R with 0%R by field. replace (w * (2 - 2 / 2))%R with w by field. rewrite cos_neg, cos_0. req. field.
Qed.
Lemma cos_low v : (0 <= v)%R -> (1 - v * v / 2 <= cos v)%R.
Proof.
  intros Hv. replace (cos v) with (cos (2 * (v / 2))) by (f_equal; field). rewrite cos_2a_sin. pose proof (sin_lipschitz 0 (v / 2) ltac:(lra)) as B. rewrite sin_0 in B. assert (sin (v / 2) * sin (v / 2) <= v / 2 * (v / 2))%R by nra. lra.
Qed.
Lemma duo_passes s : In s duo -> passes triangle 2 (/ 400) (/ 400) s.
Proof.
  intros Hs. assert (Hf : (0 <= freq s / 2 <= / 10)%R) by (destruct Hs as [<- |[<- |[]]]; cbn [freq]; lra). split.
  - rewrite triangle_gain. pose proof (cos_low (freq s / 2) ltac:(lra)). pose proof (COS_bound (freq s / 2)). assert (freq s / 2 * (freq s / 2) <= / 100)%R by nra. apply Rabs_le. lra.
  - intros l Hl. replace l with 1 by lia. rewrite triangle_abs. unfold image. replace ((freq s + 2 * PI * 1) / 2)%R with (freq s / 2 + PI)%R by field. rewrite neg_cos. pose proof (cos_low (freq s / 2) ltac:(lra)). assert (freq s / 2 * (freq s / 2) <= / 100)%R by nra. lra.
Qed.
Lemma triangle_symmetric : symmetric (K := Rring) triangle.
Proof. intros k Hk. change (lenZ triangle) with 3 in *. assert (k = 0 \/ k = 1 \/ k = 2) as [-> |[-> | ->]] by lia; reflexivity. Qed.
Lemma duo_sampled : samples_of duo duo_samples.
Proof. intros n Hn. unfold duo_samples in *. rewrite lenZ_tab in Hn. now rewrite atR_tab by lia. Qed.
Definition M63 : Z := 9223372036854775807.
Example C79_nontrivial : exists v out' sp, PolyphaseDecompose (K := Rring) 4 true triangle 2 = Ok v /\ ResampleDelay M63 3 2 (mkRat 2 3) = Ok (mkRat 3 4) /\
  ResampleInto (F := Complex.Rfield) M63 4 true (repeat 0%R 6) duo_samples v (mkRat 2 3) (mkRat 3 4) = Ok (out', sp) /\
  (forall i, 1 <= i < 6 -> (Rabs (atR out' i - (cos (IZR i / 15) + cos (2 * IZR i / 15 + 1) / 2)) <= 17 / 1600)%R).
Proof.
  destruct (decompose_ok (K := Rring) 4 true ltac:(lia) (repeat 0%R 3) triangle 2) as (v & Ev & _); [reflexivity|lia|]. exists v.
  assert (Lx : lenZ duo_samples = 10) by (unfold duo_samples; now rewrite lenZ_tab).
  assert (Lo : lenZ (repeat 0%R 6) = 6) by reflexivity. assert (Lh : lenZ triangle = 3) by reflexivity.
  assert (D : exists sp, ResampleInto (F := Complex.Rfield) M63 4 true (repeat 0%R 6) duo_samples v (mkRat 2 3) (mkRat 3 4) = Ok (tab (lenZ (repeat 0%R 6)) (fun i => between (F := Complex.Rfield) (interpolated (F := Complex.Rfield) duo_samples triangle 2) (position (val (mkRat 2 3)) (val (mkRat 3 4)) 2 i)), sp)).
  { apply (C34_defined Complex.Rfield M63 4 true (repeat 0%R 6) duo_samples triangle 2 v (mkRat 2 3) (mkRat 3 4) Rchar_zero); try exact Ev; try lia; change (lenZ (A := Complex.Rfield)) with (lenZ (A := R)); rewrite ?Lx, ?Lo, ?Lh; try (split; reflexivity); try reflexivity; vm_compute; discriminate. }
  destruct D as (sp & Es).
  eexists _, sp. split; [exact Ev|]. split; [vm_compute; reflexivity|]. split; [exact Es|]. intros i Hi.
  pose proof (C79_delay_undone M63 M63 4 true (repeat 0%R 6) duo_samples triangle 2 v (mkRat 2 3) (mkRat 3 4) _ sp duo (/ 400) (/ 400) ltac:(lia) ltac:(lia) Ev ltac:(split; reflexivity) ltac:(reflexivity) ltac:(rewrite Lh; vm_compute; reflexivity) Es ltac:(rewrite Lh; reflexivity) duo_sampled triangle_symmetric duo_passes i ltac:(rewrite Lo; lia)) as B.
  assert (Er : Q2R (val (mkRat 2 3)) = (2 / 3)%R) by (unfold Q2R, val; cbn; field). rewrite Er, Lx in B. change (lenZ triangle - 1) with 2 in B. change (10 * 2 - 1) with 19 in B.
  assert (I1 : (1 <= IZR i <= 5)%R) by (split; apply IZR_le; lia). specialize (B ltac:(lra)). unfold filter_error in B. cbn [amplitudes chord_error duo amp freq wave shift] in B. change (IZR (2 - 1)) with 1%R in B.
  rewrite (Rabs_pos_eq 1), (Rabs_pos_eq (/ 2)) in B by lra. replace (/ 10 * (IZR i * (2 / 3)) + 0)%R with (IZR i / 15)%R in B by field. replace (/ 5 * (IZR i * (2 / 3)) + 1)%R with (2 * IZR i / 15 + 1)%R in B by field.
  match type of B with (Rabs (?a - ?b) <= _)%R => replace (cos (IZR i / 15) + cos (2 * IZR i / 15 + 1) / 2)%R with b by field end. lra.
Qed.
