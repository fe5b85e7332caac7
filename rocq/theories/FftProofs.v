(** Proofs about FftModel. *)
From Coq Require Import Reals Lra.
From Verif Require Import Base BaseFacts KernelProofs ConvProofs Complex Dft FftModel.
From Coq Require Import ZifyBool ZifyNat.
Ltac Zify.zify_post_hook ::= Z.div_mod_to_equations.
Open Scope Z_scope.

Notation sumC := (sumZ (K := Cring)).
Notation atC := (at0 (K := Cring)).
Notation atR := (at0 (K := Rring)).
Lemma rd_atC (l : list C) i : 0 <= i < lenZ l -> rd l i = Ok (atC l i).
Proof. exact (rd_at0 (K := Cring) l i). Qed.
Lemma atC_updZ (l : list C) i v j : 0 <= i < lenZ l -> atC (updZ l i v) j = if j =? i then v else atC l j.
Proof. exact (at0_updZ (K := Cring) l i v j). Qed.
Lemma atC_ext (l m : list C) : lenZ l = lenZ m -> (forall i, 0 <= i < lenZ l -> atC l i = atC m i) -> l = m.
Proof. exact (at0_ext (K := Cring) l m). Qed.
Lemma atC_tab n F i : 0 <= i < n -> atC (tab n F) i = F i.
Proof. exact (at0_tab (K := Cring) n F i). Qed.
Lemma rd_atR (l : list R) i : 0 <= i < lenZ l -> rd l i = Ok (atR l i).
Proof. exact (rd_at0 (K := Rring) l i). Qed.
Lemma atR_updZ (l : list R) i v j : 0 <= i < lenZ l -> atR (updZ l i v) j = if j =? i then v else atR l j.
Proof. exact (at0_updZ (K := Rring) l i v j). Qed.
Lemma atR_ext (l m : list R) : lenZ l = lenZ m -> (forall i, 0 <= i < lenZ l -> atR l i = atR m i) -> l = m.
Proof. exact (at0_ext (K := Rring) l m). Qed.
Lemma atR_tab n F i : 0 <= i < n -> atR (tab n F) i = F i.
Proof. exact (at0_tab (K := Rring) n F i). Qed.
(** the transforms on functions *)
Definition DFT (n : Z) (f : Z -> C) (k : Z) : C := dft Cfield n (wroot n) f k.
Definition IDFT (n : Z) (F : Z -> C) (j : Z) : C := idft Cfield n (wroot n) F j.

Lemma nK_C n : 0 < n -> nK Cfield n = RtoC (IZR n).
Proof. intros Hn. unfold nK. etransitivity; [apply sumZ_const_C; lia|]. now rewrite Z.sub_0_r. Qed.
Lemma RtoC_neq0 x : (x <> 0)%R -> RtoC x <> C0.
Proof. intros H E. apply H. now injection E. Qed.
Lemma nK_neq0 n : 0 < n -> nK Cfield n <> r0.
Proof. intros Hn. rewrite nK_C by exact Hn. apply RtoC_neq0. apply not_0_IZR. lia. Qed.

Section N.
Variable n : Z.
Hypothesis Hn : 0 < n.
Lemma w_add' a b : wroot n (a + b) = rmul (c := Cring) (wroot n a) (wroot n b).
Proof. now apply wroot_add. Qed.
Lemma w_per' q : wroot n (n * q) = r1 (c := Cring).
Proof. now apply wroot_mult. Qed.
Lemma w_neq' m : ~ (n | m) -> wroot n m <> r1 (c := Cring).
Proof. now apply wroot_neq. Qed.

Lemma DFT_unf f k : DFT n f k = sumC 0 n (fun j => Cmul (f j) (wroot n (j * k))).
Proof. reflexivity. Qed.
Lemma IDFT_unf F j : IDFT n F j = Cmul (RtoC (1 / IZR n)) (sumC 0 n (fun k => Cmul (F k) (wroot n (- (j * k))))).
Proof.
  unfold IDFT, idft. rewrite nK_C by exact Hn. change (fdiv (c := Cfield)) with Cdiv. unfold Cdiv.
  replace (RtoC (1 / IZR n)) with (Cinv (RtoC (IZR n))).
  - cring.
  - assert (IZR n <> 0%R) by (apply not_0_IZR; lia).
    unfold Cinv, Cnorm2. apply C_ext; cbn; field; [|lra]. assumption.
Qed.
Lemma IDFT_DFT f j : 0 <= j < n -> IDFT n (DFT n f) j = f j.
Proof. intros Hj. apply (idft_dft Cfield n (wroot n) Hn w_add' w_per' w_neq' (nK_neq0 n Hn)). exact Hj. Qed.
Lemma DFT_IDFT F k : 0 <= k < n -> DFT n (IDFT n F) k = F k.
Proof. intros Hk. apply (dft_idft Cfield n (wroot n) Hn w_add' w_per' w_neq' (nK_neq0 n Hn)). exact Hk. Qed.
Lemma DFT_circ f g k : DFT n (circ Cfield n f g) k = Cmul (DFT n f k) (DFT n g k).
Proof. apply (dft_circ Cfield n (wroot n) Hn w_add' w_per' w_neq'). Qed.
Lemma IDFT_mul f g j : 0 <= j < n -> IDFT n (fun k => Cmul (DFT n f k) (DFT n g k)) j = circ Cfield n f g j.
Proof. intros Hj. apply (idft_mul_is_circ Cfield n (wroot n) Hn w_add' w_per' w_neq' (nK_neq0 n Hn)). exact Hj. Qed.
Lemma DFT_ext f g k : (forall j, 0 <= j < n -> f j = g j) -> DFT n f k = DFT n g k.
Proof. intros H. exact (dft_ext Cfield n (wroot n) f g k H). Qed.
Lemma IDFT_ext f g k : (forall j, 0 <= j < n -> f j = g j) -> IDFT n f k = IDFT n g k.
Proof. intros H. exact (idft_ext Cfield n (wroot n) f g k H). Qed.
Lemma wroot_shift m q : wroot n (m + n * q) = wroot n m.
Proof. rewrite wroot_add, wroot_mult by exact Hn. cring. Qed.

(** conjugate symmetry *)
Lemma DFT_real_conj f k : (forall j, 0 <= j < n -> Cconj (f j) = f j) -> Cconj (DFT n f k) = DFT n f (n - k).
Proof.
  intros Hf. rewrite !DFT_unf, conj_sumZ. apply sumZ_ext. intros j Hj.
  rewrite Cconj_mul, Hf by exact Hj. f_equal. rewrite <- wroot_neg.
  rewrite <- (wroot_shift (- (j * k)) j). f_equal. lia.
Qed.

(** Hermitian extension of the first n/2+1 bins, as c2r understands them *)
Definition herm (H : Z -> C) (k : Z) : C :=
  if k =? 0 then RtoC (re (H 0))
  else if 2 * k =? n then RtoC (re (H k))
  else if 2 * k <? n then H k else Cconj (H (n - k)).
Lemma herm_conj H k : 0 < k < n -> herm H (n - k) = Cconj (herm H k).
Proof.
  intros Hk. unfold herm. rewrite (proj2 (Z.eqb_neq (n - k) 0)) by lia. rewrite (proj2 (Z.eqb_neq k 0)) by lia.
  destruct (Z.eqb_spec (2 * k) n) as [E|E].
  - rewrite (proj2 (Z.eqb_eq (2 * (n - k)) n)) by lia. replace (n - k) with k by lia. now rewrite Cconj_R.
  - rewrite (proj2 (Z.eqb_neq (2 * (n - k)) n)) by lia.
    destruct (Z.ltb_spec (2 * k) n).
    + rewrite (proj2 (Z.ltb_ge (2 * (n - k)) n)) by lia. f_equal. f_equal. lia.
    + rewrite (proj2 (Z.ltb_lt (2 * (n - k)) n)) by lia. now rewrite Cconj_conj.
Qed.
Lemma herm_conj0 H : herm H 0 = Cconj (herm H 0).
Proof. unfold herm. cbn. now rewrite Cconj_R. Qed.
Lemma herm_mid_im j : 2 * (n / 2) = n -> im (wroot n (- (j * (n / 2)))) = 0%R.
Proof.
  intros E. apply real_iff_conj. rewrite <- wroot_neg. rewrite <- (wroot_shift _ (-j)). f_equal.
  replace (n * - j) with (- (j * (2 * (n / 2)))) by (rewrite E; lia). lia.
Qed.
Lemma herm_sum_re H j :
  re (sumC 0 n (fun k => Cmul (herm H k) (wroot n (- (j * k))))) =
  (re (H 0%Z) + sumZ (K := Rring) 1 ((n + 1) / 2) (fun k => 2 * re (Cmul (H k) (wroot n (- (j * k)))))
   + (if Z.even n then re (Cmul (H (n / 2)%Z) (wroot n (- (j * (n / 2))))) else 0))%R.
Proof.
  rewrite re_sumZ. rewrite (sumZ_first 0 n) by lia.
  change (0 + 1)%Z with 1.
  rewrite (sumZ_split 1 ((n + 1) / 2) n) by lia.
  rewrite (sumZ_split ((n + 1) / 2) (n / 2 + 1) n) by lia.
  assert (E0 : re (Cmul (herm H 0) (wroot n (- (j * 0)))) = re (H 0)).
  { replace (- (j * 0)) with (n * 0) by lia. rewrite wroot_mult by exact Hn. unfold herm. cbn. ring. }
  assert (Elow : forall k, 1 <= k < (n + 1) / 2 -> herm H k = H k).
  { intros k Hk. unfold herm. rewrite (proj2 (Z.eqb_neq k 0)), (proj2 (Z.eqb_neq (2 * k) n)), (proj2 (Z.ltb_lt (2 * k) n)) by lia. reflexivity. }
  assert (Ehi : sumZ (K := Rring) (n / 2 + 1) n (fun i => re (Cmul (herm H i) (wroot n (- (j * i))))) =
                sumZ (K := Rring) 1 ((n + 1) / 2) (fun k => re (Cmul (H k) (wroot n (- (j * k)))))).
  { rewrite (sumZ_reflect (n / 2 + 1) n n).
    replace (n - n + 1) with 1 by lia. replace (n - (n / 2 + 1) + 1) with ((n + 1) / 2) by lia.
    apply sumZ_ext. intros k Hk. rewrite herm_conj by lia. rewrite Elow by lia.
    replace (- (j * (n - k))) with (- (- (j * k)) + n * - j) by lia.
    rewrite wroot_shift, wroot_neg, <- Cconj_mul. reflexivity. }
  rewrite Ehi, E0.
  assert (Emid : sumZ (K := Rring) ((n + 1) / 2) (n / 2 + 1) (fun i => re (Cmul (herm H i) (wroot n (- (j * i))))) =
     if Z.even n then re (Cmul (H (n / 2)) (wroot n (- (j * (n / 2))))) else 0%R).
  { rewrite Zeven_mod. destruct (Zeq_bool (n mod 2) 0) eqn:Ev.
    - apply Zeq_bool_eq in Ev. replace ((n + 1) / 2) with (n / 2) by lia. rewrite sumZ_one.
      unfold herm. rewrite (proj2 (Z.eqb_neq (n / 2) 0)), (proj2 (Z.eqb_eq (2 * (n / 2)) n)) by lia.
      cbn [re Cmul RtoC]. rewrite herm_mid_im by lia. cbn. ring.
    - apply Zeq_bool_neq in Ev. apply sumZ_empty. lia. }
  rewrite Emid. rewrite (sumZ_ext 1 ((n + 1) / 2) _ (fun k => re (Cmul (H k) (wroot n (- (j * k)))))) at 1.
  2:{ intros k Hk. now rewrite Elow. }
  rewrite sumZ_scale. cbn [radd rmul Rring].
  change (fun i : Z => re (Cmul (H i) (wroot n (- (j * i))))) with (fun k : Z => re (Cmul (H k) (wroot n (- (j * k))))).
  set (S := sumZ 1 ((n + 1) / 2) _). cbn in S |- *. ring.
Qed.
Lemma herm_sum_im H j : im (sumC 0 n (fun k => Cmul (herm H k) (wroot n (- (j * k))))) = 0%R.
Proof.
  apply real_iff_conj. rewrite conj_sumZ.
  rewrite (sumZ_first 0 n) by lia. rewrite (sumZ_first 0 n (fun k => Cmul (herm H k) _)) by lia. f_equal.
  - rewrite Cconj_mul, <- herm_conj0. f_equal. replace (- (j * 0)) with (n * 0) by lia. rewrite wroot_mult by exact Hn. cring.
  - rewrite (sumZ_reflect (0 + 1) n n). replace (n - n + 1) with (0 + 1) by lia. replace (n - (0 + 1) + 1) with n by lia.
    apply sumZ_ext. intros k Hk. rewrite Cconj_mul, herm_conj, Cconj_conj by lia. f_equal.
    rewrite <- wroot_neg. replace (- - (j * (n - k))) with (- (j * k) + n * j) by lia. apply wroot_shift.
Qed.
Lemma c2r_spec X : pocket_c2r n X (1 / IZR n) = tab n (fun j => re (IDFT n (herm (atC X)) j)).
Proof.
  unfold pocket_c2r. apply tab_ext. intros j Hj. rewrite IDFT_unf. cbn [re Cmul RtoC im].
  rewrite herm_sum_re. rewrite Rmult_0_l, Rminus_0_r. reflexivity.
Qed.
Lemma IDFT_herm_real H j : im (IDFT n (herm H) j) = 0%R.
Proof. rewrite IDFT_unf. cbn [im Cmul RtoC re]. rewrite herm_sum_im. ring. Qed.
(** the spectrum of a real signal is Hermitian *)
Lemma DFT_real_herm f k : (forall j, 0 <= j < n -> Cconj (f j) = f j) -> 0 <= k < n ->
  herm (DFT n f) k = DFT n f k.
Proof.
  intros Hf Hk. unfold herm.
  destruct (Z.eqb_spec k 0) as [->|].
  { apply C_ext; cbn [re im RtoC]; [reflexivity|]. symmetry. apply real_iff_conj.
    rewrite DFT_real_conj by exact Hf. rewrite !DFT_unf. apply sumZ_ext. intros j Hj. f_equal.
    rewrite <- (wroot_shift (j * 0) j). f_equal. lia. }
  destruct (Z.eqb_spec (2 * k) n).
  { apply C_ext; cbn [re im RtoC]; [reflexivity|]. symmetry. apply real_iff_conj.
    rewrite DFT_real_conj by exact Hf. f_equal. lia. }
  destruct (Z.ltb_spec (2 * k) n); [reflexivity|].
  rewrite DFT_real_conj by exact Hf. f_equal. lia.
Qed.
End N.

(** ** the modelled functions *)
Lemma wrs_all {A} (l vs : list A) : lenZ l = lenZ vs -> wrs l 0 vs = Ok vs.
Proof.
  intros H. unfold wrs. replace ((0 <=? 0) && (0 + lenZ vs <=? lenZ l)) with true by lia. f_equal.
  cbn [Z.to_nat firstn app]. rewrite skipn_all2 by (unfold lenZ in *; lia). apply app_nil_r.
Qed.
Lemma lenZ_zerosC n : 0 <= n -> lenZ (zerosC n) = n.
Proof. intros H. unfold zerosC. rewrite lenZ_repeat. lia. Qed.
Lemma lenZ_zerosR n : 0 <= n -> lenZ (zerosR n) = n.
Proof. intros H. unfold zerosR. rewrite lenZ_repeat. lia. Qed.
Lemma lenZ_0_nil {A} (l : list A) : lenZ l = 0 -> l = nil.
Proof. destruct l; [reflexivity|]. rewrite lenZ_cons. pose proof (lenZ_nonneg l). lia. Qed.

Lemma fft_complex_spec (out x : list C) : lenZ out = lenZ x ->
  FftComplexInto out x = Ok (tab (lenZ x) (DFT (lenZ x) (atC x))).
Proof.
  intros H. unfold FftComplexInto, assert_. rewrite (proj2 (Z.eqb_eq _ _) H).
  destruct (Z.eqb_spec (lenZ x) 0) as [E|E].
  - rewrite E in H |- *. apply lenZ_0_nil in H. now subst.
  - pose proof (lenZ_nonneg x). apply wrs_all. unfold pocket_c2c_forward. rewrite lenZ_tab. lia.
Qed.
Lemma fft_complex_spec' x : FftComplex x = Ok (tab (lenZ x) (DFT (lenZ x) (atC x))).
Proof. apply fft_complex_spec. apply lenZ_zerosC, lenZ_nonneg. Qed.
Lemma ifft_complex_spec (out x : list C) : lenZ out = lenZ x ->
  IfftComplexInto out x = Ok (tab (lenZ x) (IDFT (lenZ x) (atC x))).
Proof.
  intros H. unfold IfftComplexInto, assert_. rewrite (proj2 (Z.eqb_eq _ _) H).
  destruct (Z.eqb_spec (lenZ x) 0) as [E|E].
  - rewrite E in H |- *. apply lenZ_0_nil in H. now subst.
  - pose proof (lenZ_nonneg x). rewrite H. rewrite wrs_all.
    + f_equal. unfold pocket_c2c_backward. apply tab_ext. intros j Hj. rewrite IDFT_unf by lia. reflexivity.
    + unfold pocket_c2c_backward. rewrite lenZ_tab. lia.
Qed.
Lemma ifft_complex_spec' x : IfftComplex x = Ok (tab (lenZ x) (IDFT (lenZ x) (atC x))).
Proof. apply ifft_complex_spec. apply lenZ_zerosC, lenZ_nonneg. Qed.

Definition emb (x : list R) (j : Z) : C := RtoC (atR x j).
Lemma emb_real x j : Cconj (emb x j) = emb x j.
Proof. apply Cconj_R. Qed.

Lemma fft_half_spec out (x : list R) : 0 < lenZ x -> lenZ out = lenZ x / 2 + 1 ->
  FftRealInto out x = Ok (tab (lenZ x / 2 + 1) (DFT (lenZ x) (emb x))).
Proof.
  intros Hx Ho. unfold FftRealInto, assert_. rewrite Ho, Z.eqb_refl. cbn [orb].
  rewrite (proj2 (Z.eqb_neq (lenZ x) 0)) by lia.
  assert (L : lenZ (pocket_r2c (lenZ x) x) = lenZ x / 2 + 1) by (unfold pocket_r2c; rewrite lenZ_tab; lia).
  rewrite wrs_all by congruence. cbn [bind].
  replace ((lenZ (pocket_r2c (lenZ x) x) =? lenZ x) && (2 <? lenZ x)) with false by lia.
  reflexivity.
Qed.
Lemma fft_full_spec out (x : list R) : lenZ out = lenZ x ->
  FftRealInto out x = Ok (tab (lenZ x) (DFT (lenZ x) (emb x))).
Proof.
  intros Ho. unfold FftRealInto, assert_. rewrite Ho, Z.eqb_refl, orb_true_r.
  pose proof (lenZ_nonneg x) as Hx.
  destruct (Z.eqb_spec (lenZ x) 0) as [E|E].
  { rewrite E in *. apply lenZ_0_nil in Ho. subst out. reflexivity. }
  set (n := lenZ x) in *.
  assert (L : lenZ (pocket_r2c n x) = n / 2 + 1) by (unfold pocket_r2c; rewrite lenZ_tab; lia).
  destruct (Z_le_gt_dec n 2) as [H2|H2].
  { rewrite wrs_all by lia. cbn [bind]. replace ((lenZ (pocket_r2c n x) =? n) && (2 <? n)) with false by lia.
    f_equal. unfold pocket_r2c. replace (n / 2 + 1) with n by lia. reflexivity. }
  destruct (wrs_ok out 0 (pocket_r2c n x)) as (o1 & E1 & L1 & N1); [lia|lia|].
  rewrite E1. cbn [bind]. replace ((lenZ o1 =? n) && (2 <? n)) with true by lia.
  assert (P1 : forall k, 0 <= k <= n / 2 -> atC o1 k = DFT n (emb x) k).
  { intros k Hk. unfold at0. rewrite N1 by lia. replace ((0 <=? k) && (k <? 0 + lenZ (pocket_r2c n x))) with true by lia.
    rewrite Z.sub_0_r. unfold pocket_r2c. rewrite nthZ_tab by lia. reflexivity. }
  apply okP_eq. unfold reverse_copy.
  eapply okP_bind.
  { apply (for1_inv' (fun i (o : list C) => lenZ o = n /\
       (forall k, 0 <= k <= n / 2 -> atC o k = DFT n (emb x) k) /\
       (forall k, 0 <= k < i -> atC o (n / 2 + 1 + k) = Cconj (DFT n (emb x) (n / 2 + 1 + k))))).
    - split; [lia|]. split; [exact P1|]. intros k Hk. lia.
    - intros i o Hi (Lo & A1 & A2).
      rewrite rd_atC by lia. cbn [bind]. rewrite wr_ok by lia.
      apply okP_ret. split; [rewrite lenZ_updZ; lia|]. split.
      + intros k Hk. rewrite atC_updZ by lia. rewrite (proj2 (Z.eqb_neq k _)) by lia. now apply A1.
      + intros k Hk. rewrite atC_updZ by lia.
        destruct (Z.eqb_spec (n / 2 + 1 + k) (n / 2 + 1 + i)) as [Ek|Ek].
        * rewrite A1 by lia. rewrite DFT_real_conj by (try lia; intros; apply emb_real). f_equal. lia.
        * apply A2. lia. }
  cbn beta. intros o2 (Lo & A1 & A2).
  unfold conj_range. rewrite Lo.
  eapply okP_imp.
  { apply (for1_inv' (fun i (o : list C) => lenZ o = n /\
       (forall k, 0 <= k < i -> atC o k = DFT n (emb x) k) /\
       (forall k, i <= k < n -> atC o k = Cconj (DFT n (emb x) k)))).
    - split; [exact Lo|]. split.
      + intros k Hk. apply A1. lia.
      + intros k Hk. replace k with (n / 2 + 1 + (k - (n / 2 + 1))) by lia. apply A2. lia.
    - intros i o Hi (Lo' & B1 & B2).
      rewrite rd_atC by lia. cbn [bind]. rewrite wr_ok by lia.
      apply okP_ret. split; [rewrite lenZ_updZ; lia|]. split; intros k Hk; rewrite atC_updZ by lia.
      + destruct (Z.eqb_spec k i) as [->|]; [|apply B1; lia]. rewrite B2 by lia. apply Cconj_conj.
      + rewrite (proj2 (Z.eqb_neq k i)) by lia. apply B2. lia. }
  cbn beta. intros o (Lo' & B1 & _).
  apply atC_ext; [rewrite lenZ_tab; lia|]. intros k Hk. rewrite atC_tab by lia. apply B1. lia.
Qed.
Lemma ifft_real_spec (out : list R) (X : list C) :
  lenZ X = lenZ out / 2 + 1 \/ lenZ X = lenZ out ->
  IfftRealInto out X = Ok (tab (lenZ out) (fun j => re (IDFT (lenZ out) (herm (lenZ out) (atC X)) j))).
Proof.
  intros HX. unfold IfftRealInto, assert_.
  replace ((lenZ X =? lenZ out / 2 + 1) || (lenZ X =? lenZ out)) with true by lia.
  pose proof (lenZ_nonneg out).
  destruct (Z.eqb_spec (lenZ out) 0) as [E|E].
  { rewrite E. apply lenZ_0_nil in E. now subst. }
  destruct (slice_ok X 0 (lenZ out / 2 + 1)) as (y & Ey & _); [lia|lia|lia|].
  rewrite Ey. cbn [bind]. rewrite c2r_spec by lia. apply wrs_all. rewrite lenZ_tab. lia.
Qed.

(** ** rotation *)
Lemma rotate_nth {A} (l : list A) mid i : 0 <= mid <= lenZ l -> 0 <= i < lenZ l ->
  nthZ (skipn (Z.to_nat mid) l ++ firstn (Z.to_nat mid) l) i = nthZ l ((i + mid) mod lenZ l).
Proof.
  intros Hm Hi.
  destruct (Z_lt_ge_dec i (lenZ l - mid)).
  - rewrite nthZ_app1 by (rewrite lenZ_skipn; lia). rewrite nthZ_skipn by lia. f_equal.
    rewrite Z.mod_small by lia. lia.
  - rewrite nthZ_app2 by (rewrite lenZ_skipn; lia). rewrite lenZ_skipn. rewrite nthZ_firstn by lia. f_equal.
    replace (i + mid) with (i + mid - lenZ l + 1 * lenZ l) by lia. rewrite Z_mod_plus_full.
    rewrite Z.mod_small by lia. lia.
Qed.
Lemma lenZ_rotate {A} (l : list A) mid : 0 <= mid <= lenZ l ->
  lenZ (skipn (Z.to_nat mid) l ++ firstn (Z.to_nat mid) l) = lenZ l.
Proof. intros H. rewrite lenZ_app, lenZ_skipn, lenZ_firstn. lia. Qed.
Lemma rotate_copy_spec {A} (out inp : list A) mid : lenZ out = lenZ inp -> 0 <= mid <= lenZ inp ->
  std_rotate_copy out inp mid = Ok (skipn (Z.to_nat mid) inp ++ firstn (Z.to_nat mid) inp).
Proof.
  intros Ho Hm. unfold std_rotate_copy, slice.
  replace ((0 <=? mid) && (0 <=? lenZ inp - mid) && (mid + (lenZ inp - mid) <=? lenZ inp)) with true by lia.
  cbn [bind]. replace ((0 <=? 0) && (0 <=? mid) && (0 + mid <=? lenZ inp)) with true by lia. cbn [bind].
  assert (E1 : firstn (Z.to_nat (lenZ inp - mid)) (skipn (Z.to_nat mid) inp) = skipn (Z.to_nat mid) inp).
  { apply firstn_all2. rewrite skipn_length. unfold lenZ in *. lia. }
  rewrite E1. change (Z.to_nat 0) with O. cbn [skipn].
  set (a := skipn (Z.to_nat mid) inp). set (b := firstn (Z.to_nat mid) inp).
  assert (La : lenZ a = lenZ inp - mid) by (subst a; rewrite lenZ_skipn; lia).
  assert (Lb : lenZ b = mid) by (subst b; rewrite lenZ_firstn; lia).
  destruct (wrs_ok out 0 a) as (o1 & F1 & L1 & N1); [lia|lia|]. rewrite F1. cbn [bind].
  destruct (wrs_ok o1 (lenZ a) b) as (o2 & F2 & L2 & N2); [lia|lia|]. rewrite F2. f_equal.
  apply list_ext; [rewrite lenZ_app; lia|]. intros i Hi. rewrite N2 by lia.
  destruct (Z_lt_ge_dec i (lenZ a)).
  - replace ((lenZ a <=? i) && (i <? lenZ a + lenZ b)) with false by lia. rewrite N1 by lia.
    replace ((0 <=? i) && (i <? 0 + lenZ a)) with true by lia. rewrite nthZ_app1 by lia. f_equal. lia.
  - replace ((lenZ a <=? i) && (i <? lenZ a + lenZ b)) with true by lia. rewrite nthZ_app2 by lia. reflexivity.
Qed.
Definition rotl {A} (l : list A) (mid : Z) := skipn (Z.to_nat mid) l ++ firstn (Z.to_nat mid) l.
Lemma basic_shift_spec {A} (out : list A) inp s :
  (forall i, inp = Some i -> lenZ i = lenZ out) -> 0 <= s <= lenZ out ->
  BasicShift out inp s = Ok (rotl (match inp with Some i => i | None => out end) s).
Proof.
  intros Hi Hs. destruct inp as [i|]; cbn [BasicShift].
  - rewrite (Hi i eq_refl). rewrite Z.eqb_refl. cbn [assert_]. apply rotate_copy_spec; [now rewrite (Hi i)|rewrite (Hi i eq_refl); lia].
  - unfold std_rotate. replace ((0 <=? s) && (s <=? lenZ out)) with true by lia. reflexivity.
Qed.
