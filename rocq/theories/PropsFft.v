(** C16, C17, C18, C47: Fourier transforms, shifts, bins. *)
From Coq Require Import Reals Lra.
From Verif Require Import Base BaseFacts KernelProofs ConvProofs Complex Dft FftModel FftProofs.
From Coq Require Import ZifyBool ZifyNat.
Ltac Zify.zify_post_hook ::= Z.div_mod_to_equations.
Open Scope Z_scope.

(** ** Specification.  Bin k of the spectrum of x: the sum of x_j (cos t - i sin t), t = 2 pi j k / n *)
Definition spec_bin (x : list C) (k : Z) : C :=
  sumC 0 (lenZ x) (fun j =>
    let t := (2 * PI * IZR (j * k) / IZR (lenZ x))%R in
    Cmul (atC x j) (mkC (cos t) (- sin t))).
(** a real signal seen as a complex one *)
Definition complexify (x : list R) : list C := map RtoC x.

Lemma spec_bin_DFT x k : spec_bin x k = DFT (lenZ x) (atC x) k.
Proof.
  unfold spec_bin. rewrite DFT_unf. apply sumZ_ext. intros j Hj. f_equal. unfold wroot. rewrite cis_neg. reflexivity.
Qed.
Lemma atC_complexify x j : atC (complexify x) j = emb x j.
Proof. unfold at0, complexify, emb, at0. rewrite nthZ_map. cbn [car Cring Rring]. destruct (nthZ x j); reflexivity. Qed.
Lemma lenZ_complexify x : lenZ (complexify x) = lenZ x. Proof. apply lenZ_map. Qed.
Lemma spec_bin_real x k : spec_bin (complexify x) k = DFT (lenZ x) (emb x) k.
Proof.
  rewrite spec_bin_DFT, lenZ_complexify. unfold DFT, dft. apply sumZ_ext. intros j Hj. now rewrite atC_complexify.
Qed.

(** *** C16 *)
(** the complex transform, into a fresh signal or a caller's array of the right size *)
Theorem C16_complex_forward : forall x : list C,
  FftComplex x = Ok (tab (lenZ x) (spec_bin x)) /\
  forall out, lenZ out = lenZ x -> FftComplexInto out x = Ok (tab (lenZ x) (spec_bin x)).
Proof.
  intros x. split; [rewrite fft_complex_spec'|intros out H; rewrite fft_complex_spec by exact H];
  (f_equal; apply tab_ext; intros; symmetry; apply spec_bin_DFT).
Qed.
Print Assumptions C16_complex_forward.

Theorem C16_complex_roundtrip : forall x : list C,
  (do X <- FftComplex x; IfftComplex X) = Ok x /\ (do y <- IfftComplex x; FftComplex y) = Ok x.
Proof.
  intros x. pose proof (lenZ_nonneg x).
  assert (L : forall F, lenZ (tab (lenZ x) F : list C) = lenZ x) by (intros; rewrite lenZ_tab; lia).
  split; [rewrite fft_complex_spec'|rewrite ifft_complex_spec']; cbn [bind];
    [rewrite ifft_complex_spec'|rewrite fft_complex_spec']; rewrite L; f_equal; symmetry;
    (apply atC_ext; [rewrite lenZ_tab; lia|]); intros i Hi; rewrite atC_tab by lia; symmetry.
  - rewrite (IDFT_ext _ _ (DFT (lenZ x) (atC x))) by (intros; now rewrite atC_tab). apply IDFT_DFT; lia.
  - rewrite (DFT_ext _ _ (IDFT (lenZ x) (atC x))) by (intros; now rewrite atC_tab). apply DFT_IDFT; lia.
Qed.
Print Assumptions C16_complex_roundtrip.

(** real signals: both spectrum forms hold the right bins and lead back to the signal;
    for the half form the caller passes the parity of the length *)
Theorem C16_real_forward : forall x : list R, 0 < lenZ x ->
  FftHalf x = Ok (tab (lenZ x / 2 + 1) (spec_bin (complexify x))) /\
  FftFull x = Ok (tab (lenZ x) (spec_bin (complexify x))).
Proof.
  intros x Hx. split.
  - unfold FftHalf. rewrite fft_half_spec by (try apply lenZ_zerosC; lia). f_equal. apply tab_ext. intros. symmetry. apply spec_bin_real.
  - unfold FftFull. rewrite fft_full_spec by (apply lenZ_zerosC; lia). f_equal. apply tab_ext. intros. symmetry. apply spec_bin_real.
Qed.
Print Assumptions C16_real_forward.

Lemma ifft_of_bins (x : list R) m (out : list R) : 0 < lenZ x -> lenZ out = lenZ x -> (m = lenZ x / 2 + 1 \/ m = lenZ x) ->
  IfftRealInto out (tab m (DFT (lenZ x) (emb x))) = Ok x.
Proof.
  intros Hx Ho Hm.
  rewrite ifft_real_spec by (rewrite lenZ_tab; lia). rewrite Ho. f_equal.
  apply atR_ext; [rewrite lenZ_tab; lia|]. intros i Hi. rewrite lenZ_tab in Hi. rewrite atR_tab by lia.
  rewrite (IDFT_ext _ _ (DFT (lenZ x) (emb x))).
  - rewrite IDFT_DFT by lia. reflexivity.
  - intros k Hk. rewrite <- DFT_real_herm by (try lia; intros; apply emb_real).
    unfold herm. destruct (Z.eqb_spec k 0); [rewrite atC_tab by lia; reflexivity|].
    destruct (Z.eqb_spec (2 * k) (lenZ x)); [rewrite atC_tab by lia; reflexivity|].
    destruct (Z.ltb_spec (2 * k) (lenZ x)); rewrite atC_tab by lia; reflexivity.
Qed.
Theorem C16_real_roundtrip : forall x : list R, 0 < lenZ x ->
  (do X <- FftHalf x; IfftHalf X (Z.even (lenZ x))) = Ok x /\
  (do X <- FftFull x; IfftFull X) = Ok x.
Proof.
  intros x Hx. split.
  - unfold FftHalf. rewrite fft_half_spec by (try apply lenZ_zerosC; lia). cbn [bind]. unfold IfftHalf.
    rewrite lenZ_tab.
    set (n := if Z.even (lenZ x) then _ else _).
    assert (En : n = lenZ x).
    { subst n. rewrite Zeven_mod. destruct (Zeq_bool _ _) eqn:E; [apply Zeq_bool_eq in E|apply Zeq_bool_neq in E]; lia. }
    rewrite En. unfold assert_. rewrite (proj2 (Z.leb_le 0 (lenZ x))) by lia.
    apply ifft_of_bins; [exact Hx|apply lenZ_zerosR; lia|now left].
  - unfold FftFull. rewrite fft_full_spec by (apply lenZ_zerosC; lia). cbn [bind]. unfold IfftFull.
    apply ifft_of_bins; [exact Hx|rewrite lenZ_zerosR; rewrite lenZ_tab; lia|now right].
Qed.
Print Assumptions C16_real_roundtrip.

(** the other order: a half spectrum whose bin 0 (and, for even lengths, bin n/2) is real is
    recovered from the real signal it describes *)
Theorem C16_half_spectrum_roundtrip : forall (X : list C) (even : bool),
  (if even then 2 <= lenZ X else 1 <= lenZ X) ->
  im (atC X 0) = 0%R -> (even = true -> im (atC X (lenZ X - 1)) = 0%R) ->
  (do x <- IfftHalf X even; FftHalf x) = Ok X.
Proof.
  intros X even HL H0 Hm. unfold IfftHalf.
  set (n := if even then lenZ X * 2 - 2 else lenZ X * 2 - 1).
  assert (Hn : 0 < n /\ lenZ X = n / 2 + 1) by (subst n; destruct even; lia).
  destruct Hn as [Hn HX]. unfold assert_. rewrite (proj2 (Z.leb_le 0 n)) by lia.
  assert (Lz : lenZ (zerosR n) = n) by (apply lenZ_zerosR; lia).
  rewrite ifft_real_spec by (rewrite Lz; now left). rewrite Lz. cbn [bind].
  set (x := tab n _). assert (Lx : lenZ x = n) by (subst x; rewrite lenZ_tab; lia).
  unfold FftHalf. rewrite fft_half_spec by (try apply lenZ_zerosC; lia). f_equal. rewrite Lx.
  symmetry. apply atC_ext; [rewrite lenZ_tab; lia|]. intros k Hk. rewrite atC_tab by lia.
  rewrite (DFT_ext n _ (IDFT n (herm n (atC X)))).
  2:{ intros j Hj. unfold emb. subst x. rewrite atR_tab by lia. apply C_ext; cbn [re im RtoC]; [reflexivity|].
      symmetry. now apply IDFT_herm_real. }
  destruct (Z.eq_dec n 1) as [E1|E1].
  - rewrite DFT_IDFT by lia. assert (k = 0) as -> by lia. unfold herm. cbn [Z.eqb]. apply C_ext; cbn [re im RtoC]; [reflexivity|exact H0].
  - rewrite DFT_IDFT by lia. unfold herm.
    destruct (Z.eqb_spec k 0) as [->|]; [apply C_ext; cbn [re im RtoC]; [reflexivity|exact H0]|].
    destruct (Z.eqb_spec (2 * k) n) as [E2|E2].
    + apply C_ext; cbn [re im RtoC]; [reflexivity|]. destruct even; [|subst n; lia].
      replace k with (lenZ X - 1) by lia. now apply Hm.
    + destruct (Z.ltb_spec (2 * k) n); [reflexivity|]. exfalso. subst n. destruct even; lia.
Qed.
Print Assumptions C16_half_spectrum_roundtrip.

(** additive and homogeneous *)
Theorem C16_linear : forall (a b : C) (x y : list C), lenZ x = lenZ y ->
  exists X Y, FftComplex x = Ok X /\ FftComplex y = Ok Y /\
  FftComplex (tab (lenZ x) (fun j => Cadd (Cmul a (atC x j)) (Cmul b (atC y j)))) =
  Ok (tab (lenZ x) (fun k => Cadd (Cmul a (atC X k)) (Cmul b (atC Y k)))).
Proof.
  intros a b x y H. rewrite !fft_complex_spec'. do 2 eexists. split; [reflexivity|]. split; [reflexivity|].
  pose proof (lenZ_nonneg x). rewrite lenZ_tab, Z.max_r by lia. f_equal. apply tab_ext. intros k Hk.
  rewrite !atC_tab by lia. rewrite <- H.
  rewrite (DFT_ext (lenZ x) _ (fun j => Cadd (Cmul a (atC x j)) (Cmul b (atC y j)))) by (intros; now rewrite atC_tab).
  exact (dft_linear Cfield (lenZ x) (wroot (lenZ x)) a b (atC x) (atC y) k).
Qed.
Print Assumptions C16_linear.

(** energy: sum |X_k|^2 = n sum |x_j|^2 *)
Theorem C16_parseval : forall (x X : list C), FftComplex x = Ok X ->
  sumZ (K := Rring) 0 (lenZ X) (fun k => Cnorm2 (atC X k)) =
  (IZR (lenZ x) * sumZ (K := Rring) 0 (lenZ x) (fun j => Cnorm2 (atC x j)))%R.
Proof.
  intros x X. rewrite fft_complex_spec'. intros E. injection E as <-. pose proof (lenZ_nonneg x) as Hx.
  rewrite lenZ_tab, Z.max_r by lia.
  destruct (Z.eq_dec (lenZ x) 0) as [E0|E0].
  { rewrite E0. rewrite !sumZ_empty by lia. cbn. ring. }
  set (n := lenZ x) in *. assert (Hn : 0 < n) by lia.
  assert (G : sumC 0 n (fun k => Cmul (DFT n (atC x) k) (Cconj (DFT n (atC x) k))) =
              Cmul (RtoC (IZR n)) (sumC 0 n (fun j => Cmul (atC x j) (Cconj (atC x j))))).
  { transitivity (sumC 0 n (fun k => sumC 0 n (fun j => Cmul (atC x j) (Cmul (wroot n (j * k)) (Cconj (DFT n (atC x) k)))))).
    { apply sumZ_ext. intros k Hk. rewrite DFT_unf at 1. etransitivity; [symmetry; apply (sumZ_scale_r (K := Cring))|].
      apply sumZ_ext. intros j Hj. cring. }
    rewrite sumZ_swap. etransitivity; [|apply (sumZ_scale (K := Cring))]. apply sumZ_ext. intros j Hj.
    etransitivity; [apply (sumZ_scale (K := Cring))|].
    transitivity (Cmul (atC x j) (Cconj (Cmul (RtoC (IZR n)) (IDFT n (DFT n (atC x)) j)))).
    - apply (f_equal (Cmul (atC x j))). rewrite IDFT_unf by exact Hn.
      transitivity (Cconj (sumC 0 n (fun k => Cmul (DFT n (atC x) k) (wroot n (- (j * k)))))).
      + rewrite conj_sumZ. apply sumZ_ext. intros k Hk. rewrite Cconj_mul, wroot_neg, Cconj_conj. cring.
      + f_equal. assert (IZR n <> 0%R) by (apply not_0_IZR; lia).
        apply C_ext; cbn; field; assumption.
    - rewrite IDFT_DFT by lia. rewrite Cconj_mul, Cconj_R. cring. }
  apply (f_equal re) in G. rewrite re_sumZ in G.
  rewrite (sumZ_ext 0 n _ (fun k => Cnorm2 (DFT n (atC x) k))) in G by (intros; rewrite Cmul_conj; reflexivity).
  rewrite (sumZ_ext 0 n (fun k => Cnorm2 (atC (tab n (DFT n (atC x))) k)) (fun k => Cnorm2 (DFT n (atC x) k))).
  2:{ intros k Hk. now rewrite atC_tab. }
  etransitivity; [exact G|]. cbn [re Cmul RtoC im]. rewrite re_sumZ, Rmult_0_l, Rminus_0_r. f_equal.
  apply sumZ_ext. intros j Hj. rewrite Cmul_conj. reflexivity.
Qed.
Print Assumptions C16_parseval.

(** the inverse transform of the product of two spectra is the circular convolution *)
Theorem C16_circular_convolution : forall x y : list C, lenZ x = lenZ y ->
  exists X Y, FftComplex x = Ok X /\ FftComplex y = Ok Y /\
  IfftComplex (map2 Cmul X Y) =
  Ok (tab (lenZ x) (fun j => sumC 0 (lenZ x) (fun i => Cmul (atC x i) (atC y ((j - i) mod lenZ x))))).
Proof.
  intros x y H. rewrite !fft_complex_spec'. do 2 eexists. split; [reflexivity|]. split; [reflexivity|].
  rewrite <- H, map2_tab, ifft_complex_spec'. pose proof (lenZ_nonneg x). rewrite lenZ_tab, Z.max_r by lia.
  apply (f_equal (@Ok (list C))). apply tab_ext. intros j Hj.
  rewrite (IDFT_ext _ _ (fun k => Cmul (DFT (lenZ x) (atC x) k) (DFT (lenZ x) (atC y) k))) by (intros; now rewrite atC_tab).
  rewrite IDFT_mul by lia. reflexivity.
Qed.
Print Assumptions C16_circular_convolution.

Example C16_nontrivial :
  (do X <- FftHalf [1; -2; 5]%R; IfftHalf X (Z.even (lenZ [1; -2; 5]%R))) = Ok [1; -2; 5]%R /\
  (do X <- FftComplex [Ci; C1; C0]; IfftComplex X) = Ok [Ci; C1; C0].
Proof. split; [apply C16_real_roundtrip; reflexivity|apply C16_complex_roundtrip]. Qed.

(** *** C17 *)
Theorem C17_half_full : forall x : list R, 0 < lenZ x ->
  exists H F, FftHalf x = Ok H /\ FftFull x = Ok F /\
  lenZ H = lenZ x / 2 + 1 /\ lenZ F = lenZ x /\
  (forall k, 0 <= k < lenZ x / 2 + 1 -> k < lenZ x -> atC F k = atC H k) /\
  (forall k, 0 < k < lenZ x -> atC F (lenZ x - k) = Cconj (atC F k)) /\
  im (atC F 0) = 0%R.
Proof.
  intros x Hx. unfold FftHalf, FftFull.
  rewrite fft_half_spec by (try apply lenZ_zerosC; lia). rewrite fft_full_spec by (apply lenZ_zerosC; lia).
  do 2 eexists. split; [reflexivity|]. split; [reflexivity|]. rewrite !lenZ_tab.
  split; [lia|]. split; [lia|]. split; [|split].
  - intros k Hk Hk2. now rewrite !atC_tab by lia.
  - intros k Hk. rewrite !atC_tab by lia. symmetry. apply DFT_real_conj; [lia|intros; apply emb_real].
  - rewrite atC_tab by lia. rewrite <- DFT_real_herm by (try lia; intros; apply emb_real). reflexivity.
Qed.
Print Assumptions C17_half_full.
(** writing the full spectrum into the caller's array overwrites every bin *)
Theorem C17_full_overwrites : forall (x : list R) (out out' : list C),
  lenZ out = lenZ x -> lenZ out' = lenZ x -> FftRealInto out x = FftRealInto out' x.
Proof. intros x o o' H1 H2. now rewrite !fft_full_spec. Qed.
Print Assumptions C17_full_overwrites.
(** the real inverse reads only the lower half: the bins above n/2 of a full spectrum do not matter *)
Theorem C17_inverse_reads_lower_half : forall (out : list R) (F G : list C),
  lenZ F = lenZ out -> lenZ G = lenZ out -> (forall k, 0 <= k <= lenZ out / 2 -> atC F k = atC G k) ->
  IfftRealInto out F = IfftRealInto out G /\ exists x, IfftRealInto out F = Ok x /\ lenZ x = lenZ out.
Proof.
  intros out F G HF HG HE. rewrite !ifft_real_spec by now right. pose proof (lenZ_nonneg out). split.
  - f_equal. apply tab_ext. intros j Hj. f_equal. apply IDFT_ext. intros k Hk. unfold herm.
    destruct (Z.eqb_spec k 0); [rewrite HE by lia; reflexivity|].
    destruct (Z.eqb_spec (2 * k) (lenZ out)); [rewrite HE by lia; reflexivity|].
    destruct (Z.ltb_spec (2 * k) (lenZ out)); rewrite HE by lia; reflexivity.
  - eexists. split; [reflexivity|]. rewrite lenZ_tab. lia.
Qed.
Print Assumptions C17_inverse_reads_lower_half.
Example C17_nontrivial : 0 < lenZ [1; -2; 5; 7]%R. Proof. reflexivity. Qed.

(** *** C18 *)
(** the samples of [l] in cyclic order, starting so that sample 0 lands at index n/2 *)
Definition is_shifted {A} (l m : list A) : Prop :=
  lenZ m = lenZ l /\ forall i, 0 <= i < lenZ l -> nthZ m ((i + lenZ l / 2) mod lenZ l) = nthZ l i.

Lemma fftshift_rot {A} (out : list A) inp : (forall i, inp = Some i -> lenZ i = lenZ out) ->
  FftShiftInto out inp = Ok (rotl (match inp with Some i => i | None => out end) ((1 + lenZ out) / 2)).
Proof. intros H. pose proof (lenZ_nonneg out). apply basic_shift_spec; [exact H|lia]. Qed.
Lemma ifftshift_rot {A} (out : list A) inp : (forall i, inp = Some i -> lenZ i = lenZ out) ->
  IfftShiftInto out inp = Ok (rotl (match inp with Some i => i | None => out end) (lenZ out / 2)).
Proof. intros H. pose proof (lenZ_nonneg out). apply basic_shift_spec; [exact H|lia]. Qed.
Lemma rotl_shifted {A} (l : list A) : is_shifted l (rotl l ((1 + lenZ l) / 2)).
Proof.
  pose proof (lenZ_nonneg l). unfold rotl. split; [apply lenZ_rotate; lia|]. intros i Hi.
  rewrite rotate_nth; [|lia|apply Z.mod_pos_bound; lia]. f_equal.
  rewrite Zplus_mod_idemp_l. replace (i + lenZ l / 2 + (1 + lenZ l) / 2) with (i + 1 * lenZ l) by lia.
  rewrite Z_mod_plus_full. apply Z.mod_small. lia.
Qed.
Lemma rotl_inv {A} (l : list A) a b : 0 <= a -> 0 <= b -> a + b = lenZ l -> rotl (rotl l a) b = l.
Proof.
  intros Ha Hb Hab. unfold rotl. apply list_ext.
  - rewrite !lenZ_rotate; [reflexivity|lia|rewrite lenZ_rotate; lia].
  - intros i Hi. rewrite !lenZ_rotate in Hi by (rewrite ?lenZ_rotate; lia).
    rewrite rotate_nth; [|rewrite lenZ_rotate; lia|rewrite lenZ_rotate; lia].
    rewrite lenZ_rotate by lia. rewrite rotate_nth; [|lia|apply Z.mod_pos_bound; lia]. f_equal.
    rewrite Zplus_mod_idemp_l. replace (i + b + a) with (i + 1 * lenZ l) by lia. rewrite Z_mod_plus_full. apply Z.mod_small. lia.
Qed.
Lemma repeat_len {A} (d : A) (l : list A) : lenZ (repeat d (length l)) = lenZ l.
Proof. rewrite lenZ_repeat. reflexivity. Qed.

(** out of place (fresh result or caller's array) and in place *)
Theorem C18_shift : forall (A : Type) (d : A) (x : list A), exists y,
  FftShift d x = Ok y /\ FftShiftInto x None = Ok y /\
  (forall out, lenZ out = lenZ x -> FftShiftInto out (Some x) = Ok y) /\
  is_shifted x y.
Proof.
  intros A d x. exists (rotl x ((1 + lenZ x) / 2)). split; [|split; [|split]].
  - unfold FftShift. rewrite fftshift_rot by (intros i E; injection E as <-; rewrite !repeat_len; reflexivity). now rewrite repeat_len.
  - rewrite fftshift_rot by discriminate. reflexivity.
  - intros out H. rewrite fftshift_rot by (intros i E; injection E as <-; congruence). now rewrite H.
  - apply rotl_shifted.
Qed.
Print Assumptions C18_shift.
Theorem C18_inverse : forall (A : Type) (d : A) (x : list A),
  (do y <- FftShift d x; IfftShift d y) = Ok x /\ (do y <- IfftShift d x; FftShift d y) = Ok x /\
  (do y <- FftShiftInto x None; IfftShiftInto y None) = Ok x /\
  (do y <- IfftShiftInto x None; FftShiftInto y None) = Ok x.
Proof.
  intros A d x. unfold FftShift, IfftShift. pose proof (lenZ_nonneg x).
  assert (L : forall s, 0 <= s <= lenZ x -> lenZ (rotl x s) = lenZ x) by (intros; now apply lenZ_rotate).
  split; [|split; [|split]].
  - rewrite fftshift_rot by (intros i E; injection E as <-; rewrite !repeat_len; reflexivity). cbn [bind].
    rewrite ifftshift_rot by (intros i E; injection E as <-; rewrite !repeat_len; reflexivity).
    rewrite !repeat_len. f_equal. rewrite L by lia. apply rotl_inv; lia.
  - rewrite ifftshift_rot by (intros i E; injection E as <-; rewrite !repeat_len; reflexivity). cbn [bind].
    rewrite fftshift_rot by (intros i E; injection E as <-; rewrite !repeat_len; reflexivity).
    rewrite !repeat_len. f_equal. rewrite L by lia. apply rotl_inv; lia.
  - rewrite fftshift_rot by discriminate. cbn [bind]. rewrite ifftshift_rot by discriminate. f_equal. rewrite L by lia. apply rotl_inv; lia.
  - rewrite ifftshift_rot by discriminate. cbn [bind]. rewrite fftshift_rot by discriminate. f_equal. rewrite L by lia. apply rotl_inv; lia.
Qed.
Print Assumptions C18_inverse.
Example C18_nontrivial : FftShift 0 [0; 1; 2; 3; 4] = Ok [3; 4; 0; 1; 2] /\ FftShiftInto [0; 1; 2; 3] None = Ok [2; 3; 0; 1].
Proof. split; reflexivity. Qed.

(** *** C47 *)
(** the frequency of a bin maps back to the bin, and every frequency to the nearest bin *)
Theorem C47_bin_roundtrip : forall bin numBins rate, 0 <= bin -> 0 < numBins -> 0 < rate ->
  FourierFrequency2Bin (FourierBin2Frequency bin numBins rate) numBins rate = bin.
Proof.
  intros b n r Hb Hn Hr. unfold FourierFrequency2Bin, FourierBin2Frequency.
  assert (IZR n <> 0%R) by (apply not_0_IZR; lia). assert (IZR r <> 0%R) by (apply not_0_IZR; lia).
  replace (IZR b / IZR n * IZR r / IZR r * IZR n + 1 / 2)%R with (IZR b + 1 / 2)%R by (field; tauto).
  unfold Int_part. rewrite <- (tech_up (IZR b + 1 / 2) (b + 1)).
  - lia.
  - rewrite plus_IZR. lra.
  - rewrite plus_IZR. lra.
Qed.
Print Assumptions C47_bin_roundtrip.
Theorem C47_nearest_bin : forall f numBins rate, (0 <= f)%R -> 0 < numBins -> 0 < rate ->
  let b := FourierFrequency2Bin f numBins rate in
  (Rabs (f - FourierBin2Frequency b numBins rate) <= IZR rate / (2 * IZR numBins))%R.
Proof.
  intros f n r Hf Hn Hr b. unfold b, FourierFrequency2Bin, FourierBin2Frequency.
  assert (Hn' : (0 < IZR n)%R) by (apply IZR_lt; lia). assert (Hr' : (0 < IZR r)%R) by (apply IZR_lt; lia).
  set (x := (f / IZR r * IZR n + 1 / 2)%R).
  pose proof (base_Int_part x) as [H1 H2]. set (k := IZR (Int_part x)) in *.
  assert (Ef : f = ((x - 1 / 2) * IZR r / IZR n)%R) by (subst x; field; lra).
  assert (Hd : (Rabs (x - 1 / 2 - k) <= 1 / 2)%R) by (apply Rabs_le; lra).
  rewrite Ef. replace ((x - 1 / 2) * IZR r / IZR n - k / IZR n * IZR r)%R with ((x - 1 / 2 - k) * (IZR r / IZR n))%R by (field; lra).
  assert (Hq : (0 < IZR r / IZR n)%R) by (apply Rdiv_lt_0_compat; lra).
  rewrite Rabs_mult, (Rabs_right (IZR r / IZR n)) by lra.
  replace (IZR r / (2 * IZR n))%R with (1 / 2 * (IZR r / IZR n))%R by (field; lra).
  apply Rmult_le_compat_r; lra.
Qed.
Print Assumptions C47_nearest_bin.
Example C47_nontrivial : FourierFrequency2Bin (FourierBin2Frequency 3 16 48000) 16 48000 = 3.
Proof. apply C47_bin_roundtrip; lia. Qed.
