(** C53: least squares FIR designs. *)
From Coq Require Import ZArith List Bool Lia Reals Lra.
From Verif Require Import Base BaseFacts Complex KernelModel KernelProofs ConvProofs FirModel FftModel FftProofs PolyphaseModel PolyphaseProofs PropsPolyphase FirBandModel FirBandProofs PropsFirBand WindowModel WindowProofs PropsWindow FirDesignModel FirDesignProofs PropsFirDesign LsqFacts.
From Coq Require Import ZifyBool ZifyNat.
Import ListNotations.
Open Scope Z_scope.
Ltac rr := match goal with |- ?l = ?r => change (@eq R l r) end.

(** ** Specification *)
(** row i of a matrix; squared distance of A x from b *)
Definition row_at (A : list (list R)) (i : Z) : list R := match nthZ A i with Some r => r | None => [] end.
Definition residual2 (A : list (list R)) (b x : list R) : R :=
  sumR 0 (lenZ A) (fun i => Rsqr (sumR 0 (lenZ x) (fun j => atR x j * atR (row_at A i) j) - atR b i))%R.
(** a solver in the least squares sense for all systems with n unknowns: some minimiser of the residual *)
Definition least_squares_solver (solve : list (list R) -> list R -> list R) : Prop :=
  forall n A b, 0 <= n -> A <> [] -> (forall i, 0 <= i < lenZ A -> lenZ (row_at A i) = n) -> lenZ b = lenZ A ->
    lenZ (solve A b) = n /\ forall x, lenZ x = n -> (residual2 A b (solve A b) <= residual2 A b x)%R.
(** squared distance of a complex number from a real one *)
Definition dist2 (z : C) (r : R) : R := (Rsqr (re z - r) + Rsqr (im z))%R.
(** the error of a filter: weighted squared distances of its centred response from the wanted one on g equidistant
    frequencies from 0 to the Nyquist frequency *)
Definition grid_freq (g i : Z) : R := (IZR i / IZR (g - 1))%R.
Definition design_error (g : Z) (wanted weight : R -> R) (h : list R) : R :=
  sumR 0 g (fun i => Rsqr (weight (grid_freq g i)) * dist2 (centred h (PI * grid_freq g i)) (wanted (grid_freq g i)))%R.
(** the number of frequencies used: 4 (n + 1) / 2 by default *)
Definition effective_grid (n grid : Z) : Z := if grid =? 0 then 4 * ((n + 1) / 2) else Z.min ((n + 1) / 2) grid.

(** such solvers exist *)
Theorem C53_solver_exists : exists solve, least_squares_solver solve.
Proof.
  exists (fun A b => let n := lenZ (row_at A 0) in tab n (proj1_sig (normal_equations (lenZ A) (fun j i => atR (row_at A i) j) (Z.to_nat n) (lenZ_nonneg A) (atR b)))).
  intros n A b Hn HA Hr Hb. assert (H0 : 0 < lenZ A) by (destruct A; [contradiction|rewrite lenZ_cons; pose proof (lenZ_nonneg A); lia]). cbv zeta. rewrite (Hr 0) by lia.
  destruct (normal_equations _ _ (Z.to_nat n) _ (atR b)) as [x Hx]. cbn [proj1_sig]. rewrite Z2Nat.id in Hx by lia. split; [rewrite lenZ_tab; lia|]. intros x' Lx.
  pose proof (normal_minimises (lenZ A) (fun j i => atR (row_at A i) j) n x (atR b) ltac:(lia) Hx (atR x')) as M. unfold residual2. rewrite lenZ_tab, Z.max_r, Lx by lia. unfold comb in M.
  eapply Rle_trans; [|exact M]. right. apply sumR_ext. intros i Hi. do 2 f_equal. apply sumR_ext. intros j Hj. now rewrite (at0_tab (K := Rring)) by exact Hj.
Qed.
Print Assumptions C53_solver_exists.

(** ** The linear system *)
Definition entry (fl g : Z) (weight : R -> R) (i j : Z) : R := (weight (grid_freq g i) * (if j =? 0 then 1 else 2 * cos (IZR j * (PI * grid_freq g i))))%R.
Definition sysA fl g weight : list (list R) := tab g (fun i => tab fl (entry fl g weight i)).
Definition sysb g (wanted weight : R -> R) : list R := tab g (fun i => weight (grid_freq g i) * wanted (grid_freq g i))%R.
Lemma kernel_system solve out wanted weight grid : odd_length out -> let n := lenZ out in let g := effective_grid n grid in g <> 1 ->
  KernelLeastSquares solve out wanted weight grid =
  for_ 0 (n / 2 + 1) 1 (fun i coefficients => do h <- rd (solve (sysA (n / 2 + 1) g weight) (sysb g wanted weight)) (n / 2 + 1 - i - 1); do coefficients <- wr coefficients i h;
    do h <- rd (solve (sysA (n / 2 + 1) g weight) (sysb g wanted weight)) i; wr coefficients (i + (n / 2 + 1) - 1) h) out.
Proof.
  intros Ho n g Hg. pose proof (lenZ_nonneg out) as Hn. destruct (half_lt _ Ho Hn) as [E H0]. fold n in E, H0. assert (E1 : (n + 1) / 2 = n / 2 + 1) by (rewrite E at 1; replace (2 * (n / 2) + 1 + 1) with ((n / 2 + 1) * 2) by lia; now rewrite Z.div_mul).
  unfold KernelLeastSquares. fold n. change (if grid =? 0 then 4 * ((n + 1) / 2) else Z.min ((n + 1) / 2) grid) with g. unfold CoefficientMatrix, WeightMatrix, ResponseVector. replace (g =? 1) with false by lia. cbn [bind]. rewrite E1.
  assert (EA : map2 (fun w row => map (Rmult w) row) (tab g (fun i => weight (IZR i / IZR (g - 1))%R)) (map (fun c => tab (n / 2 + 1) (fun j => if j =? 0 then 1 else 2 * cos (c * atR (tab (n / 2 + 1) IZR) j))%R) (tab g (fun i => IZR i * (1 / IZR (g - 1) * PI))%R)) = sysA (n / 2 + 1) g weight).
  { rewrite map_tab, map2_tab. unfold sysA. apply tab_ext. intros i Hi. rewrite map_tab. apply tab_ext. intros j Hj. unfold entry, grid_freq. f_equal. destruct (j =? 0); [reflexivity|]. do 2 f_equal. rewrite (at0_tab (K := Rring)) by exact Hj. unfold Rdiv. ring. }
  assert (Eb : map2 Rmult (tab g (fun i => weight (IZR i / IZR (g - 1))%R)) (tab g (fun i => wanted (IZR i * (1 / IZR (g - 1)))%R)) = sysb g wanted weight).
  { rewrite map2_tab. unfold sysb, grid_freq. apply tab_ext. intros i Hi. do 2 f_equal. unfold Rdiv. ring. }
  rewrite EA, Eb. reflexivity.
Qed.
Definition unfolded (n : Z) (half : list R) : list R := tab n (fun k => atR half (Z.abs (k - n / 2))).
Lemma kernel_loop out half : odd_length out -> let n := lenZ out in lenZ half = n / 2 + 1 ->
  for_ 0 (n / 2 + 1) 1 (fun i coefficients => do h <- rd half (n / 2 + 1 - i - 1); do coefficients <- wr coefficients i h; do h <- rd half i; wr coefficients (i + (n / 2 + 1) - 1) h) out = Ok (unfolded n half).
Proof.
  intros Ho n Lh. pose proof (lenZ_nonneg out) as Hn. destruct (half_lt _ Ho Hn) as [E H0]. fold n in E, H0. set (m := n / 2) in *. apply okP_eq. eapply okP_imp.
  - apply (for1_inv (fun i (o : list R) => lenZ o = n /\ forall j, 0 <= j < n -> j < i \/ m <= j < m + i -> atR o j = atR half (Z.abs (j - m)))).
    + split; [reflexivity|]. intros j Hj Hc. lia.
    + lia.
    + intros i o Hi [Lo N]. rewrite (rd_at0 (K := Rring)) by (asL; lia). cbn [bind]. rewrite (wr_ok (A := R)) by lia. cbn [bind]. assert (L1 : lenZ (updZ o i (atR half (m + 1 - i - 1))) = n) by (rewrite lenZ_updZ by lia; exact Lo).
      rewrite (rd_at0 (K := Rring)) by (asL; lia). cbn [bind]. rewrite (wr_ok (A := R)) by (asL; lia). apply okP_ret. split; [rewrite lenZ_updZ by (asL; lia); exact L1|].
      intros j Hj Hc. rewrite (at0_updZ (K := Rring)) by (asL; lia). rewrite !(at0_updZ (K := Rring)) by (asL; lia).
      destruct (Z.eqb_spec j (i + (m + 1) - 1)) as [->|E1]; [f_equal; lia|]. destruct (Z.eqb_spec j i) as [->|E2]; [f_equal; lia|]. apply N; lia.
  - intros o [Lo N]. unfold unfolded. transitivity (tab n (atR o)); [rewrite <- Lo; exact (tab_at0 (K := Rring) o)|]. apply tab_ext. intros k Hk. apply N; lia.
Qed.
(** the real part of a centred response, folded about the middle *)
Definition folded (h : list R) (j : Z) : R := if j =? 0 then atR h (lenZ h / 2) else ((atR h (lenZ h / 2 + j) + atR h (lenZ h / 2 - j)) / 2)%R.
Lemma re_centred_sum h w : re (centred h w) = sumR 0 (lenZ h) (fun k => atR h k * cos (IZR (k - lenZ h / 2) * w))%R.
Proof. unfold centred. rewrite re_sumZ. apply sumR_ext. intros k _. unfold Cmul, RtoC, cis. cbn [re im]. rewrite cos_neg. rr; ring. Qed.
Lemma im_centred_sum h w : im (centred h w) = sumR 0 (lenZ h) (fun k => - (atR h k * sin (IZR (k - lenZ h / 2) * w)))%R.
Proof. unfold centred. rewrite im_sumZ. apply sumR_ext. intros k _. unfold Cmul, RtoC, cis. cbn [re im]. rewrite sin_neg. rr; ring. Qed.
Lemma re_centred_folded h w : odd_length h -> re (centred h w) = sumR 0 (lenZ h / 2 + 1) (fun j => folded h j * (if j =? 0 then 1 else 2 * cos (IZR j * w)))%R.
Proof.
  intros Ho. pose proof (lenZ_nonneg h) as Hn. destruct (half_lt _ Ho Hn) as [E H0]. rewrite re_centred_sum. set (n := lenZ h) in *. set (m := n / 2) in *.
  rewrite (sumZ_split (K := Rring) 0 m n) by lia. rewrite (sumZ_first (K := Rring) m n) by lia. rewrite (sumZ_first (K := Rring) 0 (m + 1)) by lia.
  rewrite (sumZ_reflect (K := Rring) 0 m m). replace (m - m + 1) with (0 + 1) by lia. replace (m - 0 + 1) with (m + 1) by lia.
  rewrite (sumZ_shift' (K := Rring) (m + 1) n m). replace (m + 1 - m) with (0 + 1) by lia. replace (n - m) with (m + 1) by lia.
  rewrite (sumR_ext (0 + 1) (m + 1) (fun i => folded h i * (if i =? 0 then 1 else 2 * cos (IZR i * w)))%R (fun i => atR h (m - i) * cos (IZR (m - i - m) * w) + atR h (i + m) * cos (IZR (i + m - m) * w))%R).
  - rewrite sumR_add. rewrite Z.sub_diag. unfold folded. fold n m. rewrite Z.eqb_refl. replace (IZR 0 * w)%R with 0%R by ring. rewrite cos_0. change (@radd Rring) with Rplus. set (s1 := sumZ _ _ _). set (s2 := sumZ _ _ _). asL. change (s1 + (atR h m * 1 + s2) = atR h m * 1 + (s1 + s2))%R. ring.
  - intros i Hi. unfold folded. fold n m. replace (i =? 0) with false by lia. replace (m - i - m) with (- i) by lia. replace (i + m - m) with i by lia. replace (i + m) with (m + i) by lia. rewrite opp_IZR. replace (- IZR i * w)%R with (- (IZR i * w))%R by ring. rewrite cos_neg. asL. field.
Qed.
Lemma im_centred_sym h w : odd_length h -> symmetric (K := Rring) h -> im (centred h w) = 0%R.
Proof.
  intros Ho Sy. pose proof (lenZ_nonneg h) as Hn. destruct (half_lt _ Ho Hn) as [E H0]. rewrite im_centred_sum. set (n := lenZ h) in *. set (F := fun k => (- (atR h k * sin (IZR (k - n / 2) * w)))%R).
  assert (A : sumR 0 n F = (- sumR 0 n F)%R).
  { rewrite (sumZ_reflect (K := Rring) 0 n (n - 1) F) at 1. replace (n - 1 - n + 1) with 0 by lia. replace (n - 1 - 0 + 1) with n by lia. transitivity (sumR 0 n (fun k => (-1) * F k)%R); [|rewrite sumR_scale; rr; ring]. apply sumR_ext. intros k Hk. unfold F. unfold symmetric in Sy. asL. fold n in Sy. rewrite (Sy k Hk). replace (n - 1 - k - n / 2) with (- (k - n / 2)) by lia. rewrite opp_IZR. replace (- IZR (k - n / 2) * w)%R with (- (IZR (k - n / 2) * w))%R by ring. rewrite sin_neg. asL. ring. }
  assert (B : forall v : R, v = (- v)%R -> v = 0%R) by (intros; lra). exact (B _ A).
Qed.
Lemma row_sysA fl g weight i : 0 <= i < g -> row_at (sysA fl g weight) i = tab fl (entry fl g weight i).
Proof. intros Hi. unfold row_at, sysA. now rewrite nthZ_tab by exact Hi. Qed.

(** ** The design minimises the error *)
Theorem C53_optimal solve out wanted weight grid : least_squares_solver solve -> odd_length out -> let g := effective_grid (lenZ out) grid in 2 <= g ->
  exists y, DesignArbitraryLS solve out wanted weight grid = Ok y /\ lenZ y = lenZ out /\ symmetric (K := Rring) y /\
    forall h, lenZ h = lenZ out -> (design_error g wanted weight y <= design_error g wanted weight h)%R.
Proof.
  intros Hsol Ho g Hg. pose proof (lenZ_nonneg out) as Hn. destruct (half_lt _ Ho Hn) as [E H0]. set (n := lenZ out) in *. set (m := n / 2) in *.
  destruct (Hsol (m + 1) (sysA (m + 1) g weight) (sysb g wanted weight)) as [Ls Hmin].
  { lia. } { unfold sysA, tab. replace (Z.to_nat g) with (S (Z.to_nat (g - 1))) by lia. discriminate. } { intros i Hi. unfold sysA in Hi. rewrite lenZ_tab in Hi. rewrite row_sysA by lia. rewrite lenZ_tab. lia. } { unfold sysA, sysb. rewrite !lenZ_tab. reflexivity. }
  set (half := solve (sysA (m + 1) g weight) (sysb g wanted weight)) in *. exists (unfolded n half).
  split. { unfold DesignArbitraryLS. rewrite kernel_system; [|exact Ho|fold n g; lia]. fold n g m half. apply (kernel_loop out half Ho). exact Ls. }
  assert (Ly : lenZ (unfolded n half) = n) by (unfold unfolded; rewrite lenZ_tab; lia). split; [exact Ly|].
  assert (Sy : symmetric (K := Rring) (unfolded n half)).
  { intros k Hk. asL. rewrite Ly in *. unfold unfolded. rewrite !(at0_tab (K := Rring)) by lia. f_equal. fold m. lia. }
  split; [exact Sy|]. assert (Oy : odd_length (unfolded n half)) by (unfold odd_length; rewrite Ly; exact Ho).
  (* the error of any filter is at least the residual of its folded taps *)
  assert (R : forall (h : list R), lenZ h = n -> forall i, 0 <= i < g -> (weight (grid_freq g i) * (re (centred h (PI * grid_freq g i)) - wanted (grid_freq g i)) =
      sumR 0 (m + 1) (fun j => atR (tab (m + 1) (folded h)) j * atR (row_at (sysA (m + 1) g weight) i) j) - atR (sysb g wanted weight) i)%R).
  { intros h Lh i Hi. rewrite row_sysA by exact Hi. unfold sysb. rewrite (at0_tab (K := Rring)) by exact Hi. rewrite re_centred_folded by (unfold odd_length; rewrite Lh; exact Ho). rewrite Lh. fold m. rewrite Rmult_minus_distr_l. f_equal. rewrite <- sumR_scale. apply sumR_ext. intros j Hj. rewrite !(at0_tab (K := Rring)) by exact Hj. unfold entry. rr. ring. }
  assert (Fy : tab (m + 1) (folded (unfolded n half)) = half).
  { transitivity (tab (m + 1) (atR half)); [|rewrite <- Ls; symmetry; exact (tab_at0 (K := Rring) half)]. apply tab_ext. intros j Hj. unfold folded. rewrite Ly. fold m. unfold unfolded. destruct (Z.eqb_spec j 0) as [->|Ne].
    - rewrite (at0_tab (K := Rring)) by lia. f_equal. fold m. lia.
    - rewrite !(at0_tab (K := Rring)) by lia. fold m. replace (Z.abs (m + j - m)) with j by lia. replace (Z.abs (m - j - m)) with j by lia. asL. field. }
  intros h Lh. specialize (Hmin (tab (m + 1) (folded h)) ltac:(rewrite lenZ_tab; lia)). unfold residual2 in Hmin. unfold sysA in Hmin at 1 3. rewrite !lenZ_tab, !Z.max_r, Ls in Hmin by lia.
  unfold design_error. eapply Rle_trans; [eapply Rle_trans; [|exact Hmin]|].
  - right. apply sumR_ext. intros i Hi. unfold dist2. rewrite im_centred_sym by assumption. transitivity (Rsqr (weight (grid_freq g i) * (re (centred (unfolded n half) (PI * grid_freq g i)) - wanted (grid_freq g i)))); [unfold Rsqr; rr; ring|]. rewrite (R (unfolded n half) Ly i Hi), Fy. reflexivity.
  - apply sumR_le; [lia|]. intros i Hi. rewrite <- (R h Lh i Hi). unfold dist2. rewrite Rsqr_mult. apply Rmult_le_compat_l; [apply Rle_0_sqr|]. pose proof (Rle_0_sqr (im (centred h (PI * grid_freq g i)))). lra.
Qed.
Print Assumptions C53_optimal.

(** ** The responses of the band designs *)
(** [smooth_step f p s lo hi]: f falls (s = true) or rises smoothly between lo and hi, on the frequencies where p holds *)
Definition falls_between (p : R -> Prop) (f : R -> R) (lo hi : R) : Prop :=
  (forall x, p x -> x <= lo -> f x = 1)%R /\ (forall x, p x -> hi <= x -> f x = 0)%R /\ (forall x, p x -> 0 <= f x <= 1)%R /\ (forall x y, p x -> p y -> x <= y -> f y <= f x)%R /\ (p ((lo + hi) / 2) -> f ((lo + hi) / 2) = 1 / 2)%R.
Definition rises_between (p : R -> Prop) (f : R -> R) (lo hi : R) : Prop := falls_between p (fun x => 1 - f x)%R lo hi.
Lemma clamp_bound x : (0 <= Rmin (Rmax x 0) 1 <= 1)%R.
Proof. unfold Rmin, Rmax. destruct (Rle_dec x 0), (Rle_dec _ 1); lra. Qed.
Lemma smooth_mono x y : (x <= y)%R -> (Smoothstep x <= Smoothstep y)%R.
Proof.
  intros H. unfold Smoothstep. pose proof (clamp_bound x). pose proof (clamp_bound y). assert (M : (Rmin (Rmax x 0) 1 <= Rmin (Rmax y 0) 1)%R) by (unfold Rmin, Rmax; destruct (Rle_dec x 0), (Rle_dec y 0); repeat destruct (Rle_dec _ 1); lra).
  set (a := Rmin (Rmax x 0) 1) in *. set (b := Rmin (Rmax y 0) 1) in *. assert (Q : (0 <= 3 * (a + b) - 2 * (a * a + a * b + b * b))%R) by nra.
  assert (0 <= (b - a) * (3 * (a + b) - 2 * (a * a + a * b + b * b)))%R by (apply Rmult_le_pos; lra). lra.
Qed.
Lemma smooth_low x : (x <= 0)%R -> Smoothstep x = 0%R.
Proof. intros H. unfold Smoothstep. replace (Rmin (Rmax x 0) 1) with 0%R; [ring|]. unfold Rmin, Rmax. destruct (Rle_dec x 0); [|lra]. destruct (Rle_dec 0 1); lra. Qed.
Lemma smooth_high x : (1 <= x)%R -> Smoothstep x = 1%R.
Proof. intros H. unfold Smoothstep. replace (Rmin (Rmax x 0) 1) with 1%R; [ring|]. unfold Rmin, Rmax. destruct (Rle_dec x 0); [lra|]. destruct (Rle_dec x 1); lra. Qed.
Lemma smooth_range x : (0 <= Smoothstep x <= 1)%R.
Proof.
  unfold Smoothstep. pose proof (clamp_bound x). set (a := Rmin (Rmax x 0) 1) in *. split.
  - assert (0 <= a * a * (3 - 2 * a))%R by (apply Rmult_le_pos; nra). lra.
  - assert (0 <= (1 - a) * (1 - a) * (1 + 2 * a))%R by (apply Rmult_le_pos; nra). lra.
Qed.
Lemma smooth_half : Smoothstep (1 / 2) = (1 / 2)%R.
Proof. unfold Smoothstep. replace (Rmin (Rmax (1 / 2) 0) 1) with (1 / 2)%R; [field|]. unfold Rmin, Rmax. destruct (Rle_dec (1 / 2) 0); [lra|]. destruct (Rle_dec (1 / 2) 1); lra. Qed.
Lemma lerp_le lo hi x y : (lo < hi)%R -> (x <= y)%R -> (LerpParam x lo hi <= LerpParam y lo hi)%R.
Proof. intros H1 H2. unfold LerpParam, Rdiv. apply Rmult_le_compat_r; [left; apply Rinv_0_lt_compat; lra|lra]. Qed.
Lemma lerp_lo lo hi : (lo < hi)%R -> LerpParam lo lo hi = 0%R. Proof. intros. unfold LerpParam. field. lra. Qed.
Lemma lerp_hi lo hi : (lo < hi)%R -> LerpParam hi lo hi = 1%R. Proof. intros. unfold LerpParam. field. lra. Qed.
Lemma lerp_flip x lo hi : (lo < hi)%R -> LerpParam x hi lo = (1 - LerpParam x lo hi)%R. Proof. intros. unfold LerpParam. field. lra. Qed.
Lemma smooth_flip x : Smoothstep (1 - x) = (1 - Smoothstep x)%R.
Proof. unfold Smoothstep. replace (Rmin (Rmax (1 - x) 0) 1) with (1 - Rmin (Rmax x 0) 1)%R; [ring|]. unfold Rmin, Rmax. destruct (Rle_dec x 0), (Rle_dec (1 - x) 0); repeat destruct (Rle_dec _ 1); lra. Qed.
Lemma rise_lerp p lo hi : (lo < hi)%R -> rises_between p (fun f => Smoothstep (LerpParam f lo hi)) lo hi.
Proof.
  intros H. unfold rises_between, falls_between. repeat split.
  - intros x _ Hx. rewrite smooth_low; [lra|]. rewrite <- (lerp_lo lo hi H). now apply lerp_le.
  - intros x _ Hx. rewrite smooth_high; [lra|]. rewrite <- (lerp_hi lo hi H). now apply lerp_le.
  - pose proof (smooth_range (LerpParam x lo hi)). lra.
  - pose proof (smooth_range (LerpParam x lo hi)). lra.
  - intros x y _ _ Hxy. pose proof (smooth_mono _ _ (lerp_le lo hi x y H Hxy)). lra.
  - intros _. replace (LerpParam ((lo + hi) / 2) lo hi) with (1 / 2)%R by (unfold LerpParam; field; lra). rewrite smooth_half. lra.
Qed.
Lemma falls_ext (p : R -> Prop) (f g : R -> R) lo hi : (forall x, p x -> f x = g x) -> falls_between p f lo hi -> falls_between p g lo hi.
Proof.
  intros H (A & B & D & E & F). unfold falls_between. split; [intros x Hp Hx; rewrite <- H by exact Hp; auto|]. split; [intros x Hp Hx; rewrite <- H by exact Hp; auto|]. split; [intros x Hp; rewrite <- H by exact Hp; auto|]. split; [intros x y Hx Hy Hxy; rewrite <- !H by assumption; auto|]. intros Hp. rewrite <- H by exact Hp. auto.
Qed.
Lemma fall_lerp p lo hi : (lo < hi)%R -> falls_between p (fun f => Smoothstep (LerpParam f hi lo)) lo hi.
Proof. intros H. apply (falls_ext p (fun f => 1 - Smoothstep (LerpParam f lo hi))%R); [|now apply rise_lerp]. intros x _. rewrite (lerp_flip x lo hi H), smooth_flip. reflexivity. Qed.
(** a design that minimises the error for the response [wanted] and the weights [weight] *)
Definition optimal_design (n g : Z) (wanted weight : R -> R) (res : outcome (list R)) : Prop :=
  exists y, res = Ok y /\ lenZ y = n /\ symmetric (K := Rring) y /\ forall h, lenZ h = n -> (design_error g wanted weight y <= design_error g wanted weight h)%R.
Definition anywhere (_ : R) : Prop := True.
Definition split_weights (d : split_ls) (weight : R -> R) : Prop :=
  (forall f, f <= cutoffBegin d -> weight f = weightLow d)%R /\ (forall f, cutoffBegin d < f -> f <= cutoffEnd d -> weight f = weightTransition d)%R /\ (forall f, cutoffBegin d <= cutoffEnd d -> cutoffEnd d < f -> weight f = weightHigh d)%R.
Lemma split_weights_ok d : split_weights d (fun f => LeastSquaresSplitWeight f d).
Proof. unfold split_weights, LeastSquaresSplitWeight. repeat split; intros; repeat destruct (Rle_dec _ _); try reflexivity; lra. Qed.
Definition band_weights (d : band_ls) (weight : R -> R) : Prop :=
  (forall f, f <= lowerBegin d -> weight f = bweightLow d)%R /\ (forall f, lowerBegin d < f -> f <= lowerEnd d -> weight f = weightTransition1 d)%R /\ (forall f, lowerEnd d < f -> f <= upperBegin d -> weight f = weightMid d)%R /\
  (forall f, upperBegin d < f -> f <= upperEnd d -> weight f = weightTransition2 d)%R /\ (forall f, upperEnd d < f -> weight f = bweightHigh d)%R.
Lemma band_weights_ok d : (lowerBegin d <= lowerEnd d)%R -> (lowerEnd d <= upperBegin d)%R -> (upperBegin d <= upperEnd d)%R -> band_weights d (fun f => LeastSquaresBandWeight f d).
Proof. intros. unfold band_weights, LeastSquaresBandWeight. repeat split; intros; repeat destruct (Rle_dec _ _); try reflexivity; lra. Qed.
(** the lowpass and highpass fall and rise between the two cutoff frequencies *)
Theorem C53_lowpass_highpass solve out d : least_squares_solver solve -> odd_length out -> 2 <= effective_grid (lenZ out) (grid d) -> (cutoffBegin d < cutoffEnd d)%R ->
  exists lp hp weight, falls_between anywhere lp (cutoffBegin d) (cutoffEnd d) /\ rises_between anywhere hp (cutoffBegin d) (cutoffEnd d) /\ split_weights d weight /\
    optimal_design (lenZ out) (effective_grid (lenZ out) (grid d)) lp weight (DesignLowpassLS solve out d) /\
    optimal_design (lenZ out) (effective_grid (lenZ out) (grid d)) hp weight (DesignHighpassLS solve out d).
Proof.
  intros Hs Ho Hg Hc. exists (lowpass_response d), (highpass_response d), (fun f => LeastSquaresSplitWeight f d). split; [now apply fall_lerp|]. split; [now apply rise_lerp|]. split; [apply split_weights_ok|].
  split; now apply C53_optimal.
Qed.
Print Assumptions C53_lowpass_highpass.
(** the bandpass rises at the lower and falls at the upper band edge; the bandstop the other way round.  The halves meet in
    the middle of the band *)
Definition below (m x : R) : Prop := (x < m)%R.
Definition above (m x : R) : Prop := (m <= x)%R.
Theorem C53_bandpass_bandstop solve out d : least_squares_solver solve -> odd_length out -> 2 <= effective_grid (lenZ out) (bgrid d) -> (lowerBegin d < lowerEnd d)%R -> (lowerEnd d <= upperBegin d)%R -> (upperBegin d < upperEnd d)%R ->
  let mid := ((lowerEnd d + upperBegin d) / 2)%R in
  exists bp bs weight,
    rises_between (below mid) bp (lowerBegin d) (lowerEnd d) /\ falls_between (above mid) bp (upperBegin d) (upperEnd d) /\
    falls_between (below mid) bs (lowerBegin d) (lowerEnd d) /\ rises_between (above mid) bs (upperBegin d) (upperEnd d) /\ band_weights d weight /\
    optimal_design (lenZ out) (effective_grid (lenZ out) (bgrid d)) bp weight (DesignBandpassLS solve out d) /\
    optimal_design (lenZ out) (effective_grid (lenZ out) (bgrid d)) bs weight (DesignBandstopLS solve out d).
Proof.
  intros Hs Ho Hg H1 H2 H3 mid. exists (bandpass_response d), (bandstop_response d), (fun f => LeastSquaresBandWeight f d).
  split; [|split; [|split; [|split; [|split; [|split]]]]].
  - eapply falls_ext; [|exact (rise_lerp (below mid) _ _ H1)]. intros x Hx. unfold bandpass_response. fold mid. unfold below in Hx. destruct (Rlt_dec x mid); [reflexivity|contradiction].
  - eapply falls_ext; [|exact (fall_lerp (above mid) _ _ H3)]. intros x Hx. unfold bandpass_response. fold mid. unfold above in Hx. destruct (Rlt_dec x mid); [lra|reflexivity].
  - eapply falls_ext; [|exact (fall_lerp (below mid) _ _ H1)]. intros x Hx. unfold bandstop_response. fold mid. unfold below in Hx. destruct (Rlt_dec x mid); [reflexivity|contradiction].
  - eapply falls_ext; [|exact (rise_lerp (above mid) _ _ H3)]. intros x Hx. unfold bandstop_response. fold mid. unfold above in Hx. destruct (Rlt_dec x mid); [lra|reflexivity].
  - apply band_weights_ok; lra.
  - now apply C53_optimal.
  - now apply C53_optimal.
Qed.
Print Assumptions C53_bandpass_bandstop.

(** ** Limits *)
(** by default there are 4 (n + 1) / 2 frequencies.  A requested grid is cut to (n + 1) / 2, so it is never finer than
    the default; a grid of one point divides by zero *)
Theorem C53_grid_refuted solve out wanted weight grid : odd_length out -> 0 <= grid ->
  effective_grid (lenZ out) grid <= effective_grid (lenZ out) 0 /\ effective_grid (lenZ out) 0 = 2 * (lenZ out + 1) /\
  (1 <= grid -> 2 * effective_grid (lenZ out) grid <= lenZ out + 1) /\
  (grid = 1 \/ grid <> 0 /\ lenZ out = 1 -> DesignArbitraryLS solve out wanted weight grid = UB).
Proof.
  intros Ho Hg. pose proof (lenZ_nonneg out) as Hn. destruct (half_lt _ Ho Hn) as [E H0]. set (n := lenZ out) in *. assert (E1 : (n + 1) / 2 = n / 2 + 1) by (rewrite E at 1; replace (2 * (n / 2) + 1 + 1) with ((n / 2 + 1) * 2) by lia; now rewrite Z.div_mul).
  unfold effective_grid. change (0 =? 0) with true. rewrite E1. split; [destruct (Z.eqb_spec grid 0); lia|]. split; [lia|]. split; [intros H; replace (grid =? 0) with false by lia; lia|].
  intros H. unfold DesignArbitraryLS, KernelLeastSquares. fold n. rewrite E1. assert (Eg : (if grid =? 0 then 4 * (n / 2 + 1) else Z.min (n / 2 + 1) grid) = 1) by (destruct (Z.eqb_spec grid 0); lia). rewrite Eg. reflexivity.
Qed.
Print Assumptions C53_grid_refuted.
(** even lengths: the last coefficient is not written, it keeps whatever was in the output *)
Theorem C53_even_refuted solve out wanted weight grid y : lenZ out mod 2 = 0 -> 2 <= lenZ out -> DesignArbitraryLS solve out wanted weight grid = Ok y -> lenZ y = lenZ out /\ atR y (lenZ out - 1) = atR out (lenZ out - 1).
Proof.
  intros He Hn. set (n := lenZ out) in *. assert (E1 : (n + 1) / 2 = n / 2 /\ n = 2 * (n / 2)). { pose proof (Z.div_mod n 2 ltac:(lia)). assert (En : n = n / 2 * 2) by lia. split; [|lia]. rewrite En at 1. rewrite Z.div_add_l by lia. change (1 / 2) with 0. lia. } destruct E1 as [E1 E2].
  unfold DesignArbitraryLS, KernelLeastSquares. fold n. rewrite E1. unfold CoefficientMatrix, WeightMatrix, ResponseVector. destruct (_ =? 1); [discriminate|]. cbn [bind]. set (half := solve _ _).
  intros H. assert (P : forall s, for_ 0 (n / 2) 1 (fun i (coefficients : list R) => do h <- rd half (n / 2 - i - 1); do coefficients <- wr coefficients i h; do h <- rd half i; wr coefficients (i + n / 2 - 1) h) out = Ok s -> lenZ s = n /\ atR s (n - 1) = atR out (n - 1)).
  { clear H. assert (G : forall k i (o s : list R), 0 <= i -> i + Z.of_nat k <= n / 2 -> lenZ o = n -> loop k i 1 (fun i (coefficients : list R) => do h <- rd half (n / 2 - i - 1); do coefficients <- wr coefficients i h; do h <- rd half i; wr coefficients (i + n / 2 - 1) h) o = Ok s -> lenZ s = n /\ atR s (n - 1) = atR o (n - 1)).
    { induction k as [|k IH]; intros i o s Hi Hk Lo; cbn [loop].
      - intros [= <-]. split; [exact Lo|reflexivity].
      - destruct (rd half (n / 2 - i - 1)) as [a| |]; [|discriminate|discriminate]. cbn [bind]. rewrite (wr_ok (A := R)) by lia. cbn [bind]. destruct (rd half i) as [b| |]; [|discriminate|discriminate]. cbn [bind]. rewrite (wr_ok (A := R)) by (rewrite lenZ_updZ by lia; lia). cbn [bind]. intros H. apply IH in H; [|lia|lia|rewrite !lenZ_updZ by (try rewrite lenZ_updZ by lia; lia); exact Lo]. destruct H as [Ls Ns]. split; [exact Ls|]. rewrite Ns. rewrite (at0_updZ (K := Rring)) by (asL; rewrite lenZ_updZ by lia; lia). rewrite (at0_updZ (K := Rring)) by (asL; lia). replace (n - 1 =? i + n / 2 - 1) with false by lia. replace (n - 1 =? i) with false by lia. reflexivity. }
    intros s Hs. unfold for_, trips in Hs. replace (n / 2 - 0 + 1 - 1) with (n / 2) in Hs by lia. rewrite Z.div_1_r in Hs. apply G in Hs; [exact Hs|lia|lia|reflexivity]. }
  exact (P y H).
Qed.
Print Assumptions C53_even_refuted.
(** least squares Hilbert transformers: a transition wider than half the spectrum is refused - also the descriptor's default width 1 *)
Theorem C53_hilbert_default_refuted solve W vec scratch out width weight grid : (1 / 2 < width)%R -> DesignHilbertLS solve W vec scratch out width weight grid = Throw DomainError.
Proof. intros H. unfold DesignHilbertLS, check_normalized. rewrite out_range by lra. reflexivity. Qed.
Print Assumptions C53_hilbert_default_refuted.
Theorem C53_hilbert solve W vec scratch out width weight gridN : 1 <= W -> lenZ scratch = 32 -> 1 <= lenZ out -> least_squares_solver solve -> (0 < width <= 1 / 2)%R ->
  exists y, DesignHilbertLS solve W vec scratch out width weight gridN = Ok y /\ lenZ y = lenZ out /\ antisymmetric (K := Rring) y.
Proof.
  intros HW Hs Hn Hsol Hw. unfold DesignHilbertLS, check_normalized. rewrite !in_range by lra. destruct (Rle_dec _ _) as [_|N]; [|lra]. set (d := Build_split_ls _ _ _ _ _ _).
  assert (D : forall o, odd_length o -> exists h, DesignLowpassLS solve o d = Ok h /\ lenZ h = lenZ o /\ symmetric (K := Rring) h).
  { intros o Oo. pose proof (lenZ_nonneg o) as H1. destruct (half_lt _ Oo H1) as [E1 E2]. assert (Hg : 2 <= effective_grid (lenZ o) (grid d)).
    { unfold effective_grid. cbn [grid d]. change (0 =? 0) with true. pose proof (Z.div_le_mono 2 (lenZ o + 1) 2). change (2 / 2) with 1 in *. lia. }
    destruct (C53_optimal solve o (lowpass_response d) (fun f => LeastSquaresSplitWeight f d) (grid d) Hsol Oo Hg) as (h & E & L & Sy & _). exists h. now repeat split. }
  unfold FirFilterHilbert. destruct (Z.eqb_spec (lenZ out mod 2) 0) as [Ev|Ev].
  - replace (lenZ out =? 0) with false by lia. destruct (D (zerosR (lenZ out * 2 - 1))) as (h & E & L & Sy).
    { unfold odd_length, zerosR. rewrite lenZ_repeat, Z2Nat.id by lia. replace (lenZ out * 2 - 1) with (1 + (lenZ out - 1) * 2) by lia. rewrite Z.mod_add by lia. reflexivity. }
    rewrite E. cbn [bind]. assert (Lh : lenZ h = 2 * lenZ out - 1) by (rewrite L; unfold zerosR; rewrite lenZ_repeat; lia). destruct (C38_even Rring W vec scratch out h HW Hs Ev Lh) as (z & Ez & E2 & _). asL. eexists. split; [exact E2|]. split; [rewrite lenZ_tab; lia|].
    eapply (C38_antisymmetric Rring W vec scratch out h); [exact HW|exact Hs| |exact Sy|right; split; [exact Ev|exact E2]]. unfold odd_length. asL. rewrite Lh. replace (2 * lenZ out - 1) with (1 + (lenZ out - 1) * 2) by lia. rewrite Z.mod_add by lia. reflexivity.
  - assert (Oo : odd_length out) by (unfold odd_length; pose proof (Z.mod_pos_bound (lenZ out) 2); lia). destruct (D out Oo) as (h & E & L & Sy). rewrite E. cbn [bind]. assert (Oh : odd_length h) by (unfold odd_length in *; now rewrite L).
    destruct (C38_odd Rring W vec h h HW Oh eq_refl) as (y & _ & Ey & Ny). asL. exists y. split; [exact Ey|]. split; [rewrite Ny; asL; rewrite lenZ_tab; asL; lia|]. eapply (C38_antisymmetric Rring W vec scratch out h); [exact HW|exact Hs|exact Oh|exact Sy|now left].
Qed.
Print Assumptions C53_hilbert.

Example C53_nontrivial : exists solve y, least_squares_solver solve /\ DesignLowpassLS solve [7; 7; 7; 7; 7]%R {| cutoffBegin := 4 / 10; cutoffEnd := 5 / 10; weightLow := 1; weightTransition := 0; weightHigh := 2; grid := 0 |} = Ok y /\ lenZ y = 5 /\ effective_grid 5 0 = 12.
Proof.
  destruct C53_solver_exists as [solve Hs]. exists solve. set (d := Build_split_ls _ _ _ _ _ _).
  destruct (C53_lowpass_highpass solve [7; 7; 7; 7; 7]%R d Hs eq_refl ltac:(cbn; lia) ltac:(cbn; lra)) as (lp & hp & wt & _ & _ & _ & (y & E & L & _) & _). exists y. split; [exact Hs|]. split; [exact E|]. split; [exact L|reflexivity].
Qed.
