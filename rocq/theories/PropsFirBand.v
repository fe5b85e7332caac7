(** C37, C38: band transforms of FIR filters and Hilbert transformers. *)
From Coq Require Import ZArith List Bool Lia Reals Lra.
From Verif Require Import Base BaseFacts Complex KernelModel FirModel PolyphaseModel PolyphaseProofs FirBandModel FirBandProofs.
From Coq Require Import ZifyBool ZifyNat.
Import ListNotations.
Ltac Zify.zify_post_hook ::= Z.div_mod_to_equations.
Open Scope Z_scope.

(** ** Specification *)
Notation atR := (at0 (K := Rring)).
Ltac asL := change (car Rring) with R in *.
(** frequency response of the taps h, at w radians per sample; [centred] moves the time origin to the middle tap *)
Definition response (h : list R) (w : R) : C := sumZ (K := Cring) 0 (lenZ h) (fun k => Cmul (RtoC (atR h k)) (cis (- (IZR k * w)))).
Definition centred (h : list R) (w : R) : C := sumZ (K := Cring) 0 (lenZ h) (fun k => Cmul (RtoC (atR h k)) (cis (- (IZR (k - lenZ h / 2) * w)))).
Definition odd_length {A} (h : list A) : Prop := lenZ h mod 2 = 1.
(** linear phase filters *)
Definition symmetric {K : CRing} (h : list K) : Prop := forall k, 0 <= k < lenZ h -> at0 h k = at0 h (lenZ h - 1 - k).
Definition antisymmetric {K : CRing} (h : list K) : Prop := forall k, 0 <= k < lenZ h -> at0 h k = ropp (at0 h (lenZ h - 1 - k)).
Lemma centred_response h w : response h w = Cmul (cis (- (IZR (lenZ h / 2) * w))) (centred h w).
Proof.
  unfold response, centred. rewrite <- (sumZ_scale (K := Cring)). apply sumZ_ext. intros k _. change (@rmul Cring) with Cmul. rewrite minus_IZR. replace (- (IZR k * w))%R with (- (IZR (lenZ h / 2) * w) + - ((IZR k - IZR (lenZ h / 2)) * w))%R by ring. rewrite cis_add. unfold Cmul, RtoC; cbn [re im]; f_equal; ring.
Qed.

(** ** C37: mirroring *)
Section Taps.
Context {K : CRing}.
Add Ring KR1 : (rth K).
Lemma mirror_taps (h : list K) k : 0 <= k < lenZ h -> at0 (tab (lenZ h) (fun i => rmul (alt i) (at0 h i))) k = if Z.even k then at0 h k else ropp (at0 h k).
Proof. intros Hi. rewrite at0_tab by exact Hi. unfold alt. destruct (Z.even k); ring. Qed.
Lemma mirror_twice (h : list K) : tab (lenZ h) (fun i => rmul (alt i) (at0 (tab (lenZ h) (fun i => rmul (alt i) (at0 h i))) i)) = h.
Proof. transitivity (tab (lenZ h) (at0 h)); [|symmetry; apply tab_at0]. apply tab_ext. intros i Hi. rewrite mirror_taps by exact Hi. unfold alt. destruct (Z.even i); ring. Qed.
Lemma compl_taps (h : list K) k c : radd (rsub (if k =? c then r1 else r0) (at0 h k)) (at0 h k) = if k =? c then r1 else r0.
Proof. destruct (k =? c); ring. Qed.
Lemma compl_twice (h : list K) c : tab (lenZ h) (fun i => rsub (if i =? c then r1 else r0) (at0 (tab (lenZ h) (fun i => rsub (if i =? c then r1 else r0) (at0 h i))) i)) = h.
Proof. transitivity (tab (lenZ h) (at0 h)); [|symmetry; apply tab_at0]. apply tab_ext. intros i Hi. rewrite at0_tab by exact Hi. ring. Qed.
End Taps.
(** tap k is multiplied by (-1)^k, in place or not; twice is the identity *)
Theorem C37_mirror (K : CRing) (out h : list K) : lenZ out = lenZ h ->
  exists y, MirrorResponse out (Some h) = Ok y /\ MirrorResponse h None = Ok y /\ lenZ y = lenZ h /\
    (forall k, 0 <= k < lenZ h -> at0 y k = if Z.even k then at0 h k else ropp (at0 h k)) /\ MirrorResponse y None = Ok h.
Proof.
  intros H. exists (tab (lenZ h) (fun i => rmul (alt i) (at0 h i))). pose proof (lenZ_nonneg h) as Hn.
  split; [rewrite mirror_ok by exact H; now rewrite H|]. split; [rewrite mirror_ok by reflexivity; reflexivity|]. split; [rewrite lenZ_tab; lia|]. split; [apply mirror_taps|].
  rewrite mirror_ok by reflexivity. rewrite lenZ_tab, Z.max_r by lia. cbn [src_val]. now rewrite mirror_twice.
Qed.
Print Assumptions C37_mirror.
Lemma cis_kpi k : cis (IZR k * PI) = RtoC (if Z.even k then 1 else -1).
Proof.
  assert (P2 : forall m, cis (IZR (2 * m) * PI) = C1) by (intros m; rewrite mult_IZR; replace (2 * IZR m * PI)%R with (2 * PI * IZR m)%R by ring; apply cis_period).
  destruct (Z.even k) eqn:E.
  - apply Z.even_spec in E as [m ->]. rewrite P2. reflexivity.
  - rewrite <- Z.negb_odd in E. apply negb_false_iff, Z.odd_spec in E as [m ->]. rewrite plus_IZR, Rmult_plus_distr_r, cis_add, P2. rewrite Rmult_1_l. unfold cis. rewrite cos_PI, sin_PI. unfold Cmul, RtoC, C1; cbn [re im]; f_equal; ring.
Qed.
(** the frequency response is mirrored: what happens at w happens at w - pi *)
Theorem C37_mirror_response (h y : list R) (w : R) : MirrorResponse (K := Rring) h None = Ok y -> response y w = response h (w - PI).
Proof.
  intros H. destruct (C37_mirror Rring h h eq_refl) as (y' & _ & E & L & N & _). rewrite E in H. injection H as ->. asL. unfold response. rewrite (L : @lenZ R y = @lenZ R h). apply sumZ_ext. intros k Hk.
  replace (- (IZR k * (w - PI)))%R with (- (IZR k * w) + IZR k * PI)%R by ring. rewrite cis_add, cis_kpi. rewrite (N k Hk). change (@ropp Rring) with Ropp. destruct (Z.even k); unfold Cmul, RtoC; cbn [re im]; f_equal; ring.
Qed.
Print Assumptions C37_mirror_response.

(** ** C37: complement *)
Theorem C37_complementary (K : CRing) W vec (out h : list K) : 1 <= W -> lenZ out = lenZ h -> odd_length h ->
  exists y, ComplementaryResponse W vec out (Some h) = Ok y /\ ComplementaryResponse W vec h None = Ok y /\ lenZ y = lenZ h /\
    (forall k, 0 <= k < lenZ h -> radd (at0 y k) (at0 h k) = if k =? lenZ h / 2 then r1 else r0) /\ ComplementaryResponse W vec y None = Ok h.
Proof.
  intros HW H Ho. unfold odd_length in Ho. pose proof (lenZ_nonneg h) as Hn. exists (tab (lenZ h) (fun i => rsub (if i =? lenZ h / 2 then r1 else r0) (at0 h i))).
  split; [rewrite complementary_ok; [now rewrite H|exact HW|exact H|now rewrite H]|]. split; [rewrite complementary_ok; [reflexivity|exact HW|reflexivity|exact Ho]|]. split; [rewrite lenZ_tab; lia|]. split.
  - intros k Hk. rewrite at0_tab by exact Hk. apply compl_taps.
  - rewrite complementary_ok; [|exact HW|reflexivity|rewrite lenZ_tab, Z.max_r by lia; exact Ho]. rewrite lenZ_tab, Z.max_r by lia. cbn [src_val]. now rewrite compl_twice.
Qed.
Print Assumptions C37_complementary.
(** passbands become stopbands: the centred responses sum to one at every frequency *)
Theorem C37_complementary_response W vec (h y : list R) (w : R) : 1 <= W -> odd_length h -> ComplementaryResponse (K := Rring) W vec h None = Ok y -> Cadd (centred y w) (centred h w) = C1.
Proof.
  intros HW Ho H. destruct (C37_complementary Rring W vec h h HW eq_refl Ho) as (y' & _ & E & L & N & _). rewrite E in H. injection H as ->. asL. unfold centred. rewrite (L : @lenZ R y = @lenZ R h). unfold odd_length in Ho. pose proof (lenZ_nonneg h) as Hn. change Cadd with (@radd Cring). rewrite <- (sumZ_add (K := Cring)).
  rewrite (sumZ_single (K := Cring) 0 (lenZ h) (lenZ h / 2)); [|lia|].
  - rewrite Z.sub_diag. replace (- (IZR 0 * w))%R with 0%R by ring. rewrite cis_0. specialize (N (lenZ h / 2) ltac:(lia)). rewrite Z.eqb_refl in N. change (@radd Rring) with Rplus in N. change (@r1 Rring) with 1%R in N. change (@radd Cring) with Cadd. unfold Cadd, Cmul, RtoC, C1; cbn [re im]; f_equal; lra.
  - intros k Hk Hne. specialize (N k Hk). replace (k =? lenZ h / 2) with false in N by lia. change (@radd Rring) with Rplus in N. change (@r0 Rring) with 0%R in N. change (@radd Cring) with Cadd. change (@r0 Cring) with C0. replace (atR y k) with (- atR h k)%R by lra. unfold Cadd, Cmul, RtoC, C0; cbn [re im]; f_equal; ring.
Qed.
Print Assumptions C37_complementary_response.

(** ** C37: shifting *)
(** in place, odd length: every tap is multiplied by 2 cos(pi f (k - centre)) *)
Theorem C37_shift_in_place W vec (h : list R) (f : R) : 1 <= W -> odd_length h -> exists y, ShiftResponse W vec h None f = Ok y /\ lenZ y = lenZ h /\
  (forall k, 0 <= k < lenZ h -> k <> lenZ h / 2 -> atR y k = (2 * cos (IZR (k - lenZ h / 2) * (PI * f)) * atR h k)%R) /\ atR y (lenZ h / 2) = (2 * atR h (lenZ h / 2))%R.
Proof.
  intros HW Ho. unfold odd_length in Ho. pose proof (lenZ_nonneg h) as Hn. eexists. split; [apply shift_ok; [exact HW|reflexivity]|]. split; [rewrite lenZ_tab; lia|]. split.
  - intros k Hk Hc. rewrite (at0_tab (K := Rring)) by exact Hk. replace (k =? lenZ h / 2) with false by lia. rewrite andb_false_r. cbn [src_val]. rewrite (minus_IZR k).
    assert (Ec : cos ((IZR (Z.min k (lenZ h - 1 - k)) - IZR (lenZ h / 2)) * (PI * f)) = cos ((IZR k - IZR (lenZ h / 2)) * (PI * f))).
    { destruct (Z_le_gt_dec k (lenZ h - 1 - k)); [now rewrite Z.min_l by lia|]. rewrite Z.min_r by lia. rewrite <- (cos_neg ((IZR k - _) * _)). f_equal. replace (lenZ h - 1 - k) with (2 * (lenZ h / 2) - k) by lia. rewrite minus_IZR, mult_IZR. ring. }
    rewrite Ec. asL. ring.
  - rewrite (at0_tab (K := Rring)) by lia. rewrite Z.eqb_refl. replace (lenZ h mod 2 =? 1) with true by lia. cbn [andb]. asL. ring.
Qed.
Print Assumptions C37_shift_in_place.
(** so the response is moved up and down by f (of the Nyquist frequency) *)
Theorem C37_shift_response W vec (h y : list R) (f w : R) : 1 <= W -> odd_length h -> ShiftResponse W vec h None f = Ok y -> centred y w = Cadd (centred h (w - PI * f)) (centred h (w + PI * f)).
Proof.
  intros HW Ho H. destruct (C37_shift_in_place W vec h f HW Ho) as (y' & E & L & N & Nc). rewrite E in H. injection H as ->. asL. unfold centred. rewrite (L : @lenZ R y = @lenZ R h). change Cadd with (@radd Cring). rewrite <- (sumZ_add (K := Cring)). apply sumZ_ext. intros k Hk. change (@radd Cring) with Cadd.
  set (d := IZR (k - lenZ h / 2)). replace (- (d * (w - PI * f)))%R with (- (d * w) + d * (PI * f))%R by ring. replace (- (d * (w + PI * f)))%R with (- (d * w) + - (d * (PI * f)))%R by ring. rewrite !cis_add. rewrite !cis_neg.
  assert (Ey : atR y k = (2 * cos (d * (PI * f)) * atR h k)%R). { destruct (Z.eq_dec k (lenZ h / 2)) as [->|Hne]; [|now apply N]. asL. unfold d. rewrite Z.sub_diag. replace (IZR 0 * (PI * f))%R with 0%R by ring. rewrite cos_0. transitivity (2 * atR h (lenZ h / 2))%R; [exact Nc|]. rewrite Rmult_1_r. reflexivity. }
  rewrite Ey. clearbody d. generalize (atR h k : R). intros a. change (car Rring) with R in a. unfold Cadd, Cmul, Cconj, RtoC, cis; cbn [re im]; f_equal; ring.
Qed.
Print Assumptions C37_shift_response.
(** even length: also symmetric, but the cosine is counted from half a sample beyond the centre on either side *)
Theorem C37_shift_even W vec (out h : list R) (f : R) : 1 <= W -> lenZ h mod 2 = 0 -> lenZ out = lenZ h -> exists y, ShiftResponse W vec out (Some h) f = Ok y /\ ShiftResponse W vec h None f = Ok y /\ lenZ y = lenZ h /\
  (forall k, 0 <= k < lenZ h -> atR y k = (2 * cos ((Rabs (IZR k - (IZR (lenZ h) - 1) / 2) + 1 / 2) * (PI * f)) * atR h k)%R).
Proof.
  intros HW He Hl. pose proof (lenZ_nonneg h) as Hn. eexists. split; [apply shift_ok; [exact HW|exact Hl]|]. split; [|split].
  - rewrite shift_ok; [|exact HW|reflexivity]. f_equal. rewrite Hl. apply tab_ext. intros j Hj. replace (lenZ h mod 2 =? 1) with false by lia. reflexivity.
  - rewrite lenZ_tab. lia.
  - intros k Hk. rewrite (at0_tab (K := Rring)) by lia. rewrite Hl. replace (lenZ h mod 2 =? 1) with false by lia. cbn [andb src_val].
    assert (Eh : IZR (lenZ h) = (2 * IZR (lenZ h / 2))%R) by (rewrite <- mult_IZR; f_equal; lia).
    assert (Ec : cos ((IZR (Z.min k (lenZ h - 1 - k)) - IZR (lenZ h / 2)) * (PI * f)) = cos ((Rabs (IZR k - (IZR (lenZ h) - 1) / 2) + 1 / 2) * (PI * f))).
    { rewrite <- cos_neg. f_equal. rewrite Ropp_mult_distr_l. f_equal. rewrite Eh. destruct (Z_lt_le_dec k (lenZ h / 2)) as [Hlt|Hge].
      - rewrite Z.min_l by lia. assert (IZR k <= IZR (lenZ h / 2) - 1)%R by (rewrite <- minus_IZR; apply IZR_le; lia). rewrite Rabs_left1 by lra. field.
      - rewrite Z.min_r by lia. assert (IZR (lenZ h / 2) <= IZR k)%R by (apply IZR_le; lia). rewrite Rabs_right by lra. rewrite !minus_IZR. rewrite Eh. field. }
    rewrite Ec. asL. ring.
Qed.
Print Assumptions C37_shift_even.
(** into another array, odd length: the middle tap is never computed, it is twice whatever the output array held there; so two output arrays give different filters *)
Theorem C37_shift_out_of_place_refuted W vec (h : list R) (f : R) : 1 <= W -> odd_length h -> forall old : R, exists out y, lenZ out = lenZ h /\ ShiftResponse W vec out (Some h) f = Ok y /\ atR y (lenZ h / 2) = (2 * old)%R.
Proof.
  intros HW Ho old. unfold odd_length in Ho. pose proof (lenZ_nonneg h) as Hn. set (out := tab (lenZ h) (fun _ => old)). assert (L : lenZ out = lenZ h) by (unfold out; rewrite lenZ_tab; lia). exists out. eexists. split; [exact L|]. split; [apply shift_ok; [exact HW|exact L]|].
  rewrite (at0_tab (K := Rring)) by lia. rewrite L, Z.eqb_refl. replace (lenZ h mod 2 =? 1) with true by lia. cbn [andb]. unfold out. rewrite (at0_tab (K := Rring)) by lia. asL. ring.
Qed.
Print Assumptions C37_shift_out_of_place_refuted.
(** nothing else can go wrong: the operations fail exactly on a size mismatch (even length for the complement) *)
Theorem C37_rejects (K : CRing) W vec (out h : list K) : 1 <= W -> (lenZ out <> lenZ h -> MirrorResponse out (Some h) = UB) /\ (lenZ h mod 2 = 0 -> ComplementaryResponse W vec out (Some h) = UB) /\
  (lenZ h mod 2 = 1 -> lenZ out <> lenZ h -> ComplementaryResponse W vec out (Some h) = Throw InvalidArgument).
Proof.
  intros HW. unfold MirrorResponse, ComplementaryResponse, src_size. split; [intros H; now replace (lenZ out =? lenZ h) with false by lia|]. split; intros H; [now replace (lenZ h mod 2 =? 1) with false by lia|]. intros Hl. replace (lenZ h mod 2 =? 1) with true by lia. cbn [assert_].
  unfold sig_scalar_into, CheckSizes2. now replace (lenZ out =? lenZ h) with false by lia.
Qed.
Print Assumptions C37_rejects.
Example C37_nontrivial : MirrorResponse ([0; 0; 0; 0; 0] : list Zring) (Some [1; 2; 3; 4; 5]) = Ok [1; -2; 3; -4; 5] /\ ComplementaryResponse 4 true ([9; 9; 9; 9; 9] : list Zring) (Some [1; 2; 3; 2; 1]) = Ok [-1; -2; -2; -2; -1] /\ odd_length ([1; 2; 3; 2; 1] : list Zring).
Proof. split; [vm_compute; reflexivity|]. split; vm_compute; reflexivity. Qed.

(** ** C38 *)
(** 2 sin (pi d / 2) for integers d *)
Definition hilbert_factor {K : CRing} (d : Z) : K := if d mod 4 =? 1 then radd r1 r1 else if d mod 4 =? 3 then ropp (radd r1 r1) else r0.
Lemma kv_factor {K : CRing} d : kv (d + 15) = (hilbert_factor d : K).
Proof. unfold kv, hilbert_factor. replace ((d + 15) mod 4 =? 0) with (d mod 4 =? 1) by lia. replace ((d + 15) mod 4 =? 2) with (d mod 4 =? 3) by lia. reflexivity. Qed.
Lemma hilbert_factor_sin d : hilbert_factor (K := Rring) d = (2 * sin (IZR d * (PI / 2)))%R.
Proof.
  unfold hilbert_factor. rewrite (Z_div_mod_eq_full d 4) at 3. assert (B : 0 <= d mod 4 < 4) by (apply Z.mod_pos_bound; lia). set (q := d / 4). set (r := d mod 4) in *. rewrite plus_IZR, mult_IZR.
  replace ((4 * IZR q + IZR r) * (PI / 2))%R with (IZR r * (PI / 2) + 2 * PI * IZR q)%R by field.
  assert (E : sin (IZR r * (PI / 2) + 2 * PI * IZR q) = sin (IZR r * (PI / 2))). { pose proof (cis_add (IZR r * (PI / 2)) (2 * PI * IZR q)) as A. rewrite cis_period in A. apply (f_equal im) in A. cbn [cis im Cmul re C1] in A. rewrite A. ring. }
  rewrite E. change (@radd Rring) with Rplus. change (@ropp Rring) with Ropp. change (@r1 Rring) with 1%R. change (@r0 Rring) with 0%R. assert (r = 0 \/ r = 1 \/ r = 2 \/ r = 3) as [->|[->|[->| ->]]] by lia; cbn [Z.eqb Pos.eqb]; asL.
  - rewrite Rmult_0_l, sin_0. ring.
  - rewrite Rmult_1_l, sin_PI2. ring.
  - replace (2 * (PI / 2))%R with PI by field. rewrite sin_PI. ring.
  - replace (3 * (PI / 2))%R with (3 * PI / 2)%R by field. replace (3 * PI / 2)%R with (3 * (PI / 2))%R by field. replace (3 * (PI / 2))%R with (PI / 2 + PI)%R by field. rewrite neg_sin, sin_PI2. ring.
Qed.
(** odd length: tapwise formula for every length, through the short and the blocked path, in place or not *)
Theorem C38_odd (K : CRing) W vec (out h : list K) : 1 <= W -> odd_length h -> lenZ out = lenZ h -> exists y, HalfbandToHilbertOdd W vec out (Some h) = Ok y /\ HalfbandToHilbertOdd W vec h None = Ok y /\
  y = tab (lenZ h) (fun k => rmul (at0 h k) (hilbert_factor (k - lenZ h / 2))).
Proof.
  intros HW Ho Hl. unfold odd_length in Ho. eexists. split; [rewrite hilbert_odd_ok; [|exact HW|exact Hl|now rewrite Hl]; reflexivity|]. split.
  - rewrite hilbert_odd_ok; [|exact HW|reflexivity|exact Ho]. now rewrite Hl.
  - rewrite Hl. apply tab_ext. intros k Hk. now rewrite kv_factor.
Qed.
Print Assumptions C38_odd.
(** even length: every second tap of the odd transformer of the halfband filter *)
Theorem C38_even (K : CRing) W vec (scratch out h : list K) : 1 <= W -> lenZ scratch = 32 -> lenZ out mod 2 = 0 -> lenZ h = 2 * lenZ out - 1 -> exists y, HalfbandToHilbertOdd W vec h None = Ok y /\
  HalfbandToHilbertEven W vec scratch out h = Ok (tab (lenZ out) (fun k => at0 y (2 * k))) /\ HalfbandToHilbertEven W vec scratch out h = Decimate y 2.
Proof.
  intros HW Hs He Hl. pose proof (lenZ_nonneg h) as Hn. assert (Ho : odd_length h) by (unfold odd_length; lia). destruct (C38_odd K W vec h h HW Ho eq_refl) as (y & _ & E & Ey). exists y. split; [exact E|].
  assert (A : HalfbandToHilbertEven W vec scratch out h = Ok (tab (lenZ out) (fun k => at0 y (2 * k)))).
  { rewrite hilbert_even_ok by (try assumption; lia). f_equal. apply tab_ext. intros k Hk. rewrite Ey, at0_tab by lia. now rewrite kv_factor. }
  split; [exact A|]. rewrite A, decimate_ok by lia. f_equal. rewrite Ey, lenZ_tab. replace ((Z.max 0 (lenZ h) + 2 - 1) / 2) with (lenZ out) by lia. apply tab_ext. intros k Hk. f_equal. lia.
Qed.
Print Assumptions C38_even.
Section Anti.
Context {K : CRing}.
Add Ring KR2 : (rth K).
Lemma factor_odd d : hilbert_factor (- d) = ropp (hilbert_factor d : K).
Proof. unfold hilbert_factor. replace ((- d) mod 4 =? 1) with (d mod 4 =? 3) by lia. replace ((- d) mod 4 =? 3) with (d mod 4 =? 1) by lia. destruct (d mod 4 =? 3) eqn:E1, (d mod 4 =? 1) eqn:E2; try ring; lia. Qed.
Lemma anti_mul (a f : K) : rmul a (ropp f) = ropp (rmul a f). Proof. ring. Qed.
Lemma factor_0 : hilbert_factor 0 = (r0 : K). Proof. reflexivity. Qed.
Lemma mul_0 (a : K) : rmul a r0 = r0. Proof. ring. Qed.
End Anti.
(** both are antisymmetric if the halfband filter is symmetric; the odd one is zero at the centre and at even distances from it *)
Theorem C38_antisymmetric (K : CRing) W vec (scratch out h y : list K) : 1 <= W -> lenZ scratch = 32 -> odd_length h -> symmetric h ->
  (HalfbandToHilbertOdd W vec h None = Ok y \/ lenZ out mod 2 = 0 /\ HalfbandToHilbertEven W vec scratch out h = Ok y) -> antisymmetric y.
Proof.
  intros HW Hs Ho Hsym H. pose proof Ho as Ho'. unfold odd_length in Ho'. pose proof (lenZ_nonneg h) as Hn. destruct (C38_odd K W vec h h HW Ho eq_refl) as (z & _ & E & Ez).
  assert (A : forall k, 0 <= k < lenZ h -> at0 z k = ropp (at0 z (lenZ h - 1 - k))). { intros k Hk. rewrite Ez, !at0_tab by lia. rewrite (Hsym k Hk). rewrite <- anti_mul, <- factor_odd. f_equal. f_equal. lia. }
  destruct H as [H|[He H]].
  - rewrite E in H. injection H as <-. intros k Hk. assert (Lz : lenZ z = lenZ h) by (rewrite Ez, lenZ_tab; lia). rewrite Lz in *. now apply A.
  - assert (Hl : lenZ h = 2 * lenZ out - 1). { unfold HalfbandToHilbertEven in H. destruct (lenZ out mod 2 =? 0); [|discriminate]. destruct (lenZ out * 2 - 1 =? lenZ h) eqn:E1; [lia|discriminate]. }
    destruct (C38_even K W vec scratch out h HW Hs He Hl) as (z' & E' & E'' & _). rewrite E in E'. injection E' as <-. rewrite H in E''. assert (Ey : y = tab (lenZ out) (fun k => at0 z (2 * k))) by congruence. rewrite Ey. intros k Hk. rewrite lenZ_tab in Hk |- *. rewrite !at0_tab by lia. rewrite A by (rewrite Hl; lia). do 2 f_equal. lia.
Qed.
Print Assumptions C38_antisymmetric.
(** what it does: with A the centred response of the halfband filter, the response is -i (A(w - pi/2) - A(w + pi/2)) *)
Theorem C38_response W vec (h y : list R) (w : R) : 1 <= W -> odd_length h -> HalfbandToHilbertOdd (K := Rring) W vec h None = Ok y ->
  centred y w = Cmul (mkC 0 (-1)) (Csub (centred h (w - PI / 2)) (centred h (w + PI / 2))).
Proof.
  intros HW Ho H. destruct (C38_odd Rring W vec h h HW Ho eq_refl) as (z & _ & E & Ez). rewrite E in H. injection H as ->. asL. pose proof (lenZ_nonneg h) as Hn. unfold centred. assert (L : lenZ y = lenZ h) by (rewrite Ez; asL; rewrite lenZ_tab; asL; lia). rewrite L. change Csub with (@rsub Cring). rewrite <- (sumZ_sub (K := Cring)). change Cmul with (@rmul Cring) at 2. rewrite <- (sumZ_scale (K := Cring)). apply sumZ_ext. intros k Hk. change (@rsub Cring) with Csub. change (@rmul Cring) with Cmul.
  rewrite Ez, (at0_tab (K := Rring)) by lia. rewrite hilbert_factor_sin. change (@rmul Rring) with Rmult. set (d := IZR (k - lenZ h / 2)). replace (- (d * (w - PI / 2)))%R with (- (d * w) + d * (PI / 2))%R by ring. replace (- (d * (w + PI / 2)))%R with (- (d * w) + - (d * (PI / 2)))%R by ring. rewrite !cis_add, !cis_neg. unfold Csub, Cmul, Cconj, RtoC, cis; cbn [re im]; f_equal; ring.
Qed.
Print Assumptions C38_response.
(* 67 taps: the blocked path with a leading partial block, one full block and a trailing partial block *)
Example C38_nontrivial : let h := tab 67 (fun k => 100 + k) : list Zring in odd_length h /\ exists y z, HalfbandToHilbertOdd 4 true h None = Ok y /\ nth 32 y 0 = -264 /\ nth 33 y 0 = 0 /\ nth 34 y 0 = 268 /\ nth 66 y 0 = 332 /\
  HalfbandToHilbertEven 4 true (repeat 7 32 : list Zring) (repeat 5 34) h = Ok z /\ nth 16 z 0 = -264 /\ nth 17 z 0 = 268.
Proof. split; [vm_compute; reflexivity|]. eexists _, _. split; [vm_compute; reflexivity|]. repeat (split; [vm_compute; reflexivity|]). vm_compute; reflexivity. Qed.
