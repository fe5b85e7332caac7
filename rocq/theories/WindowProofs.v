(** Closed forms of the generators and windows of WindowModel: each sample as a function of its index. *)
From Coq Require Import ZArith List Bool Lia Reals Lra.
From Verif Require Import Base BaseFacts Complex KernelModel KernelProofs ConvProofs FftModel PolyphaseModel PolyphaseProofs PropsPolyphase WindowModel.
From Coq Require Import ZifyBool ZifyNat.
Import ListNotations.
Open Scope Z_scope.

Notation atR := (at0 (K := Rring)).
Section Ops.
Variables (W : Z) (vec : bool).
Hypothesis HW : 1 <= W.
Lemma mul_tab c n f : mul_by W vec c (tab n f) = Ok (tab n (fun i => f i * c)%R).
Proof. unfold mul_by. rewrite sig_scalar_inplace_ok by exact HW. now rewrite map_tab. Qed.
Lemma add_tab c n f : add_to W vec c (tab n f) = Ok (tab n (fun i => f i + c)%R).
Proof. unfold add_to. rewrite sig_scalar_inplace_ok by exact HW. now rewrite map_tab. Qed.
Lemma sub_tab c n f : sub_from W vec c (tab n f) = Ok (tab n (fun i => f i - c)%R).
Proof. unfold sub_from. rewrite sig_scalar_inplace_ok by exact HW. now rewrite map_tab. Qed.
Lemma unary_tab g n f : unary_inplace W vec g (tab n f) = Ok (tab n (fun i => g (f i))).
Proof. unfold unary_inplace. rewrite T1_full; [now rewrite map_tab|exact HW|reflexivity|cbn [src_ok]; lia|reflexivity]. Qed.
(** a loop that overwrites sample i with a function of i and of its old value *)
Lemma fill_ok (out : list R) (g : Z -> R -> R) :
  for_ 0 (lenZ out) 1 (fun i out => do k <- rd out i; wr out i (g i k)) out = Ok (tab (lenZ out) (fun i => g i (atR out i))).
Proof.
  apply okP_eq. eapply okP_imp.
  - apply (for1_inv (fun i (o : list R) => lenZ o = lenZ out /\ forall j, 0 <= j < lenZ out -> atR o j = if j <? i then g j (atR out j) else atR out j)).
    + split; [reflexivity|]. intros j Hj. destruct (j <? 0) eqn:E; [lia|reflexivity].
    + apply lenZ_nonneg.
    + intros i o Hi [L N]. rewrite (rd_at0 (K := Rring)) by (change (@lenZ R o) with (lenZ o); change (car Rring) with R; lia). cbn [bind].
      rewrite (wr_ok (A := R)) by lia. apply okP_ret. split; [rewrite lenZ_updZ by lia; exact L|]. intros j Hj. rewrite (at0_updZ (K := Rring)) by (change (car Rring) with R; lia).
      destruct (Z.eqb_spec j i) as [->|E].
      * rewrite N by lia. destruct (i <? i) eqn:E1; [lia|]. destruct (i <? i + 1) eqn:E2; [reflexivity|lia].
      * rewrite N by lia. destruct (j <? i) eqn:E1, (j <? i + 1) eqn:E2; try lia; reflexivity.
  - intros o [L N]. rewrite (tab_at0 (K := Rring) o). change (car Rring) with R. rewrite L. apply tab_ext. intros i Hi. rewrite N by exact Hi. destruct (i <? lenZ out) eqn:E; [reflexivity|lia].
Qed.
Lemma for_each_tab g n f : for_each g (tab n f) = Ok (tab n (fun i => g (f i))).
Proof.
  unfold for_each. rewrite (fill_ok (tab n f) (fun _ => g)). f_equal. rewrite lenZ_tab.
  transitivity (tab n (fun i : Z => g (atR (tab n f) i))).
  - unfold tab. f_equal. f_equal. lia.
  - apply tab_ext. intros i Hi. now rewrite (at0_tab (K := Rring)).
Qed.
Lemma fill_index (out : list R) (g : Z -> R) : for_ 0 (lenZ out) 1 (fun i out => wr out i (g i)) out = Ok (tab (lenZ out) g).
Proof.
  apply okP_eq. eapply okP_imp.
  - apply (for1_inv (fun i (o : list R) => lenZ o = lenZ out /\ forall j, 0 <= j < i -> atR o j = g j)).
    + split; [reflexivity|]. intros j Hj. lia.
    + apply lenZ_nonneg.
    + intros i o Hi [L N].
      rewrite (wr_ok (A := R)) by lia. apply okP_ret. split; [rewrite lenZ_updZ by lia; exact L|]. intros j Hj. rewrite (at0_updZ (K := Rring)) by (change (car Rring) with R; lia).
      destruct (Z.eqb_spec j i) as [->|E]; [reflexivity|]. apply N; lia.
  - intros o [L N]. rewrite (tab_at0 (K := Rring) o). change (car Rring) with R. rewrite L. apply tab_ext. intros i Hi. now apply N.
Qed.
(** sample i of LinSpace over n samples *)
Definition lin (n : Z) (s e : R) (incl : bool) (i : Z) : R := (IZR i * ((e - s) / IZR (Z.max 1 (n - (if incl then 1 else 0)))) + s)%R.
Lemma LinSpace_ok out s e incl : LinSpace W vec out s e incl = Ok (tab (lenZ out) (lin (lenZ out) s e incl)).
Proof. unfold LinSpace. rewrite (fill_index out IZR). cbn [bind]. rewrite mul_tab. cbn [bind]. rewrite add_tab. reflexivity. Qed.
Lemma LogSpace_ok out s e b incl : LogSpace W vec out s e b incl = Ok (tab (lenZ out) (fun i => exp (lin (lenZ out) s e incl i * ln b))).
Proof. unfold LogSpace. rewrite LinSpace_ok. cbn [bind]. rewrite mul_tab. cbn [bind]. now rewrite unary_tab. Qed.
(** every window: sample i *)
Lemma Hamming_ok out : HammingWindow W vec out = Ok (tab (lenZ out) (fun i => cos (lin (lenZ out) 0 (2 * PI) true i) * - (46 / 100) + 54 / 100)%R).
Proof. unfold HammingWindow. rewrite LinSpace_ok. cbn [bind]. rewrite unary_tab. cbn [bind]. rewrite mul_tab. cbn [bind]. now rewrite add_tab. Qed.
Definition flat_top (t : R) : R := (21557895 / 100000000 + - (41663158 / 100000000) * cos t + 277263158 / 1000000000 * cos (2 * t)
                     + - (83578947 / 1000000000) * cos (3 * t) + 6947368 / 1000000000 * cos (4 * t))%R.
Lemma lin_01 n i : n <> 1 -> 0 <= i < n -> (2 * PI / (IZR n - 1) * lin n 0 (IZR n - 1) true i = lin n 0 (2 * PI) true i)%R.
Proof. intros Hn Hi. unfold lin. rewrite Z.max_r by lia. rewrite minus_IZR. assert (IZR n - 1 <> 0)%R by (rewrite <- minus_IZR; apply not_0_IZR; lia). field. assumption. Qed.
Lemma FlatTop_ok out : lenZ out <> 1 -> FlatTopWindow W vec out = Ok (tab (lenZ out) (fun i => flat_top (lin (lenZ out) 0 (2 * PI) true i))).
Proof.
  intros Hn. unfold FlatTopWindow. destruct (Z.eqb_spec (lenZ out) 1); [lia|]. rewrite LinSpace_ok. cbn [bind]. rewrite for_each_tab. f_equal. apply tab_ext. intros i Hi.
  pose proof (lin_01 (lenZ out) i Hn Hi) as E. set (L := lin (lenZ out) 0 (IZR (lenZ out) - 1) true i) in *. unfold flat_top. rewrite <- E.
  replace (4 * PI / (IZR (lenZ out) - 1) * L)%R with (2 * (2 * PI / (IZR (lenZ out) - 1) * L))%R by (unfold Rdiv; ring).
  replace (6 * PI / (IZR (lenZ out) - 1) * L)%R with (3 * (2 * PI / (IZR (lenZ out) - 1) * L))%R by (unfold Rdiv; ring).
  replace (8 * PI / (IZR (lenZ out) - 1) * L)%R with (4 * (2 * PI / (IZR (lenZ out) - 1) * L))%R by (unfold Rdiv; ring). reflexivity.
Qed.
Lemma Rectangular_ok out : RectangularWindow out = Ok (tab (lenZ out) (fun _ => 1%R)).
Proof. unfold RectangularWindow, for_each. exact (fill_ok out (fun _ _ => 1%R)). Qed.
Lemma Triangular_ok out : TriangularWindow W vec out = Ok (tab (lenZ out) (fun i => Rabs (lin (lenZ out) 0 2 true i - 1) * -1 + 1)%R).
Proof. unfold TriangularWindow. rewrite LinSpace_ok. cbn [bind]. rewrite sub_tab. cbn [bind]. rewrite unary_tab. cbn [bind]. rewrite mul_tab. cbn [bind]. now rewrite add_tab. Qed.
Lemma Blackman_ok out : BlackmanWindow W vec out = Ok (tab (lenZ out) (fun i => let t := lin (lenZ out) 0 (2 * PI) true i in 42 / 100 - 5 / 10 * cos t + 8 / 100 * cos (2 * t))%R).
Proof. unfold BlackmanWindow. rewrite LinSpace_ok. cbn [bind]. now rewrite for_each_tab. Qed.
Lemma BlackmanHarris_ok out : BlackmanHarrisWindow W vec out = Ok (tab (lenZ out) (fun i => let t := lin (lenZ out) 0 (2 * PI) true i in
  35875 / 100000 - 48829 / 100000 * cos t + 14128 / 100000 * cos (2 * t) + - (1168 / 100000) * cos (3 * t))%R).
Proof. unfold BlackmanHarrisWindow. rewrite LinSpace_ok. cbn [bind]. now rewrite for_each_tab. Qed.
Lemma Gaussian_ok out sigma : (sigma <> 0)%R -> lenZ out <> 1 -> GaussianWindow W vec out sigma = Ok (tab (lenZ out) (fun i => let M := ((IZR (lenZ out) - 1) / 2)%R in let x := (lin (lenZ out) (- M) M true i * (1 / (sigma * M)))%R in exp (x * x * - (5 / 10)))%R).
Proof.
  intros Hs Hn. unfold GaussianWindow. rewrite LinSpace_ok. cbn [bind]. destruct (Req_EM_T _ 0) as [E|_].
  - exfalso. assert (IZR (lenZ out) - 1 <> 0)%R by (rewrite <- minus_IZR; apply not_0_IZR; lia). apply Rmult_integral in E as [E|E]; [auto|lra].
  - rewrite mul_tab. cbn [bind]. rewrite sig_self_inplace_ok by exact HW. cbn [bind].
    rewrite map2_tab, mul_tab. cbn [bind]. now rewrite unary_tab.
Qed.
Lemma Kaiser_ok b out alpha : KaiserWindow W vec b out alpha = Ok (tab (lenZ out) (fun i => let k := lin (lenZ out) (-1) 1 true i in b (PI * alpha * sqrt (Rmax 0 (1 - k * k))) / b (PI * alpha))%R).
Proof. unfold KaiserWindow. rewrite LinSpace_ok. cbn [bind]. now rewrite for_each_tab. Qed.
Lemma Lanczos_ok out : LanczosWindow W vec out = Ok (tab (lenZ out) (fun i => let k := lin (lenZ out) (- PI) PI true i in if Req_EM_T k 0 then 1 else sin k / k)%R).
Proof. unfold LanczosWindow. rewrite LinSpace_ok. cbn [bind]. now rewrite for_each_tab. Qed.
Lemma GenericWave_ok out sr f ph g : sr <> 0 -> GenericWave out sr f ph g = Ok (tab (lenZ out) (fun i => g (2 * PI * (IZR i / IZR sr) * f + ph)%R)).
Proof. intros Hs. unfold GenericWave. destruct (Z.eqb_spec sr 0); [lia|]. exact (fill_index out (fun i => g (2 * PI * (IZR i / IZR sr) * f + ph)%R)). Qed.
Lemma GenericChirp_ok out sr f0 f1 ph g : sr <> 0 -> GenericChirp out sr f0 f1 ph g = Ok (tab (lenZ out) (fun i => let t := (IZR i / IZR sr)%R in
  g (2 * PI * (t * f0 + t * t / 2 * (f1 - f0) / (IZR (lenZ out) / IZR sr)) + ph)%R)).
Proof. intros Hs. unfold GenericChirp. destruct (Z.eqb_spec sr 0); [lia|]. exact (fill_index out (fun i => let t := (IZR i / IZR sr)%R in g (2 * PI * (t * f0 + t * t / 2 * (f1 - f0) / (IZR (lenZ out) / IZR sr)) + ph)%R)). Qed.
End Ops.
