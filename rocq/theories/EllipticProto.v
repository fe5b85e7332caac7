(** The elliptic prototype filter (used by C61). *)
From Coq Require Import Reals Lra Lia ZArith List Bool Psatz.
From Coquelicot Require Import Rcomplements Rbar Hierarchy Continuity Derive RInt RInt_gen RInt_analysis AutoDerive ElemFct.
From Verif Require Import Base BaseFacts Complex ConvModel ConvProofs IirProofs PolyModel PolyProofs SysModel SysProofs PropsPoly PropsSys RootModel RootProofs ZmapProofs DesignProofs ButterProofs IirModel SolverModel PropsSolver PropsDesign ChebyModel ChebyProofs EllipticModel EllipticSpec EllipticAM EllipticRF EllipticInv EllipticJacobi.
From Coq Require Import ZifyBool ZifyNat.
Ltac Zify.zify_post_hook ::= Z.div_mod_to_equations.
Open Scope R_scope.

(** ** Loops that fill an array, one element per pass *)
Lemma loop_ext {S} n : forall i step (f g : Z -> S -> outcome S) s, (forall j s, f j s = g j s) -> loop n i step f s = loop n i step g s.
Proof. induction n as [|n IH]; intros i step f g s E; [reflexivity|]. cbn [loop]. rewrite E. destruct (g i s); [|reflexivity|reflexivity]. cbn [bind]. now apply IH. Qed.
Lemma for_ext_all {S} lo hi step (f g : Z -> S -> outcome S) s : (forall j s, f j s = g j s) -> for_ lo hi step f s = for_ lo hi step g s.
Proof. intros E. unfold for_. now apply loop_ext. Qed.
Lemma fill_loop_inv {A} (f : Z -> outcome A) n : forall i (l r : list A), (0 <= i)%Z -> (i + Z.of_nat n <= lenZ l)%Z -> loop n i 1 (fun i cs => do v <- f i; wr cs i v) l = Ok r ->
  lenZ r = lenZ l /\ (forall j, (0 <= j < i)%Z -> nthZ r j = nthZ l j) /\ forall j, (i <= j < i + Z.of_nat n)%Z -> exists v, f j = Ok v /\ nthZ r j = Some v.
Proof.
  induction n as [|n IH]; intros i l r Hi Hl E; cbn [loop] in E.
  - injection E as <-. repeat split; intros; lia.
  - destruct (f i) as [v| |] eqn:F; [|discriminate|discriminate]. cbn [bind] in E. rewrite wr_ok in E by lia. cbn [bind] in E. apply IH in E; [|lia|rewrite lenZ_updZ by lia; lia]. destruct E as (L & B & C). rewrite lenZ_updZ in L by lia. split; [exact L|]. split.
    + intros j Hj. rewrite B by lia. rewrite nthZ_updZ by lia. destruct (Z.eqb_spec j i); [lia|reflexivity].
    + intros j Hj. destruct (Z.eq_dec j i) as [->|N]; [|apply C; lia]. exists v. split; [exact F|]. rewrite B by lia. rewrite nthZ_updZ by lia. now rewrite Z.eqb_refl.
Qed.
Lemma fill_inv {A} (f : Z -> outcome A) h (l r : list A) : lenZ l = h -> for_ 0 h 1 (fun i cs => do v <- f i; wr cs i v) l = Ok r ->
  lenZ r = h /\ forall j, (0 <= j < h)%Z -> exists v, f j = Ok v /\ nthZ r j = Some v.
Proof.
  intros L E. unfold for_ in E. pose proof (lenZ_nonneg l). assert (T : Z.of_nat (trips 0 h 1) = h) by (unfold trips; rewrite Z.div_1_r; lia). apply fill_loop_inv in E; [|lia|lia]. destruct E as (L' & _ & C). split; [lia|]. intros j Hj. apply C. lia.
Qed.
Lemma fill_ok {A} (f : Z -> outcome A) h (l : list A) : lenZ l = h -> (forall j, (0 <= j < h)%Z -> exists v, f j = Ok v) -> exists r, for_ 0 h 1 (fun i cs => do v <- f i; wr cs i v) l = Ok r.
Proof.
  intros L F. pose proof (lenZ_nonneg l). destruct (for1_inv (fun _ (cs : list A) => lenZ cs = h) 0 h (fun i cs => do v <- f i; wr cs i v) l) as (r & E & _); [exact L|lia| |exists r; exact E].
  intros i s Hi Ls. destruct (F i Hi) as [v E]. rewrite E. cbn [bind]. rewrite wr_ok by lia. eexists. split; [reflexivity|]. now rewrite lenZ_updZ by lia.
Qed.
Lemma In_nthZ {A} (l : list A) a : In a l -> exists j, (0 <= j < lenZ l)%Z /\ nthZ l j = Some a.
Proof. intros H. apply In_nth_error in H as [n E]. exists (Z.of_nat n). unfold nthZ, lenZ. assert (n < length l)%nat by (apply nth_error_Some; congruence). destruct (Z.ltb_spec (Z.of_nat n) 0); [lia|]. rewrite Nat2Z.id. split; [lia|exact E]. Qed.

(** ** What Elliptic returns *)
Section Proto.
Variables (eps : R) (fuel : nat) (factors : list R) (tmax : R) (limit : nat).
Definition pole_arg (p : elliptic_parameters) (order index : Z) (v0 : R) : C := mkC (eK p * IZR (size_sub (2 * index + 1) (order mod 2)) / IZR order) v0.
Definition zero_of (p : elliptic_parameters) (order index : Z) : outcome C :=
  do sn <- EllipticSN eps fuel factors (IZR (2 * index + 1 + order mod 2) * eK p / IZR order) (ek p); do r <- fdiv_ 1 (ek p * sn); Ok (mkC 0 r).
Definition real_pole_of (p : elliptic_parameters) (order : Z) (v0 : R) (index : Z) : outcome R :=
  do sn <- EllipticSN_C eps fuel factors (pole_arg p order index v0) (ek p);
  let croot := Cmul Ci sn in assert_ (if Rlt_dec (Rabs (im croot)) (1 / 1000 * Rabs (re croot)) then true else false) (Ok (re croot)).
Definition pole_of (p : elliptic_parameters) (order : Z) (v0 : R) (index : Z) : outcome C :=
  do sn <- EllipticSN_C eps fuel factors (pole_arg p order index v0) (ek p); Ok (Cmul Ci sn).
Definition depth (p : elliptic_parameters) (order : Z) : outcome R :=
  do y <- fdiv_ 1 (eepsilon p); do v <- EllipticArcSN_imag eps fuel y (ek1 p); do a <- finite v; Ok (a * (eK p / IZR order / eK1 p)).
Definition system_of (order : Z) (pr : R) (zs : list C) (rs : list R) (cs : list C) : outcome zpk :=
  do g <- fdiv_ (fp_eval (K := Rring) (fun r => r) (mk_fp rs cs) 0) (fp_eval (K := Rring) (fun r => r) (mk_fp [] zs) 0);
  Ok (mkZpk (g * (if (order mod 2 =? 0)%Z then 1 - pr else 1)) (mk_fp [] zs) (mk_fp rs cs)).
Definition elliptic_body (order : Z) (pr : R) (p : elliptic_parameters) : outcome zpk :=
  do zs <- for_ 0 (order / 2) 1 (fun i cs => do v <- zero_of p order i; wr cs i v) (repeat C0 (Z.to_nat (order / 2)));
  do v0 <- depth p order;
  do rs <- for_ 0 (order mod 2) 1 (fun i cs => do v <- real_pole_of p order v0 i; wr cs i v) (repeat (-1) (Z.to_nat (order mod 2)));
  do cs <- for_ 0 (order / 2) 1 (fun i cs => do v <- pole_of p order v0 (order mod 2 + i); wr cs i v) (repeat C0 (Z.to_nat (order / 2)));
  system_of order pr zs rs cs.
Lemma elliptic_eq order pr sr : (0 < order)%Z -> Elliptic eps fuel factors tmax limit order pr sr = (do p <- EllipticOrderRipples eps fuel tmax limit order pr sr; elliptic_body order pr p).
Proof.
  intros H. unfold Elliptic, elliptic_body. destruct (EllipticOrderRipples eps fuel tmax limit order pr sr) as [p| |]; [|reflexivity|reflexivity]. cbn [bind].
  destruct (resize_spec empty_fp 0 (order / 2) 0 C0 fp_wf_empty ltac:(lia) ltac:(lia) ltac:(now right)) as (z & Ez & Wz & Z1 & Z2 & Z3 & Z4). destruct (resize_spec empty_fp (order mod 2) (order / 2) (-1) C0 fp_wf_empty ltac:(lia) ltac:(lia) ltac:(now right)) as (q & Eq & Wq & Q1 & Q2 & Q3 & Q4).
  rewrite Ez, Eq. cbn [bind]. rewrite Z2, Q1, Q2, Z3, Z4, Q3, Q4. change (real_roots empty_fp) with (@nil R). change (complex_pairs empty_fp) with (@nil C). rewrite !vresize_nil. cbn [Z.to_nat repeat].
  rewrite (for_ext_all 0 (order / 2) 1 _ (fun i cs => do v <- zero_of p order i; wr cs i v)). 2:{ intros j s. unfold zero_of. destruct (EllipticSN _ _ _ _ _); [|reflexivity|reflexivity]. cbn [bind]. destruct (fdiv_ _ _); reflexivity. }
  destruct (for_ 0 (order / 2) 1 _ _) as [zs| |]; [|reflexivity|reflexivity]. cbn [bind]. unfold depth. destruct (fdiv_ 1 (eepsilon p)); [|reflexivity|reflexivity]. cbn [bind]. destruct (EllipticArcSN_imag _ _ _ _); [|reflexivity|reflexivity]. cbn [bind]. destruct (finite _) as [a1| |]; [|reflexivity|reflexivity]. cbn [bind]. set (v0 := a1 * _).
  rewrite (for_ext_all 0 (order mod 2) 1 _ (fun i cs => do v <- real_pole_of p order v0 i; wr cs i v)). 2:{ intros j s. unfold real_pole_of, pole_arg. destruct (EllipticSN_C _ _ _ _ _); [|reflexivity|reflexivity]. cbn [bind]. unfold assert_. destruct (if Rlt_dec _ _ then true else false); reflexivity. }
  destruct (for_ 0 (order mod 2) 1 _ _) as [rs| |]; [|reflexivity|reflexivity]. cbn [bind].
  rewrite (for_ext_all 0 (order / 2) 1 _ (fun i cs => do v <- pole_of p order v0 (order mod 2 + i); wr cs i v)). 2:{ intros j s. unfold pole_of, pole_arg. destruct (EllipticSN_C _ _ _ _ _); reflexivity. }
  destruct (for_ 0 (order / 2) 1 _ _) as [cs| |]; reflexivity.
Qed.

(** ** Parameters *)
Definition ripple_factor (pr : R) : R := sqrt (1 / (1 - pr) ^ 2 - 1).
Definition selectivity (pr sr : R) : R := ripple_factor pr / sqrt (1 / sr ^ 2 - 1).
Lemma ripple_factor_pos pr : 0 < pr < 1 -> 0 < ripple_factor pr /\ sqrt ((2 * pr - pr * pr) / (1 - 2 * pr + pr * pr)) = ripple_factor pr.
Proof.
  intros H. unfold ripple_factor. assert (P : 0 < (1 - pr) * (1 - pr)) by nra. assert (E : 1 / (1 - pr) ^ 2 - 1 = (2 * pr - pr * pr) / (1 - 2 * pr + pr * pr)). { field. split; nra. } rewrite E. split; [|reflexivity]. apply sqrt_lt_R0. apply Rdiv_lt_0_compat; nra.
Qed.
Lemma stop_factor pr sr : 0 < pr -> 0 < sr -> sr < 1 - pr -> ripple_factor pr < sqrt (1 / sr ^ 2 - 1) /\ 0 <= 1 / (sr * sr) - 1 /\ sqrt (1 / (sr * sr) - 1) = sqrt (1 / sr ^ 2 - 1).
Proof.
  intros P S L. assert (E : sr ^ 2 = sr * sr) by ring. rewrite E. assert (A : 0 < sr * sr) by nra. assert (I : 1 / (1 - pr) ^ 2 < 1 / (sr * sr)). { unfold Rdiv. rewrite !Rmult_1_l. apply Rinv_lt_contravar; [|nra]. apply Rmult_lt_0_compat; [exact A|]. apply pow_lt. lra. }
  assert (I1 : 1 <= 1 / (1 - pr) ^ 2). { unfold Rdiv. rewrite Rmult_1_l. rewrite <- Rinv_1 at 1. apply Rinv_le_contravar; [apply pow_lt; lra|nra]. } split; [|split; [lra|reflexivity]]. unfold ripple_factor. apply sqrt_lt_1_alt. lra.
Qed.
Lemma selectivity_bounds pr sr : 0 < pr -> 0 < sr -> sr < 1 - pr -> 0 < selectivity pr sr < 1.
Proof.
  intros P S L. destruct (ripple_factor_pos pr ltac:(lra)) as [E _]. destruct (stop_factor pr sr P S L) as (H & _). unfold selectivity. split; [apply Rdiv_lt_0_compat; lra|]. apply Rlt_div_l; lra.
Qed.
Definition params_ok (pr sr : R) (p : elliptic_parameters) : Prop :=
  eepsilon p = ripple_factor pr /\ ek1 p = selectivity pr sr /\ 0 < ek p < 1 /\ Rabs (eK p - legendre_K (ek p)) <= eps / 4 * legendre_K (ek p) /\ Rabs (eK1 p - legendre_K (ek1 p)) <= eps / 4 * legendre_K (ek1 p).
Lemma K_any k v : 0 < eps <= / 2 ^ 22 -> 0 < k < 1 -> EllipticK eps fuel k = Ok v -> exists a, v = Fin a /\ Rabs (a - legendre_K k) <= eps / 4 * legendre_K k.
Proof.
  intros He Hk E. destruct (K_main eps k He ltac:(lra)) as (_ & N & a & F & B). rewrite (Rabs_pos_eq k) in B by lra. exists a. split; [|exact B]. unfold EllipticK in *. apply (carlson_mono eps fuel (max N fuel)) in E; [|lia]. rewrite F in E by lia. congruence.
Qed.
Lemma bisect_01 f : 0 < Bisect tmax limit f 0 1 0 < 1.
Proof. pose proof (C45_inside tmax limit f 0 1 0 ltac:(lra)) as H. unfold strictly_between in H. rewrite Rmin_left, Rmax_right in H by lra. exact H. Qed.
Lemma params_inv order pr sr p : 0 < eps <= / 2 ^ 22 -> 0 < pr -> 0 < sr -> sr < 1 - pr -> EllipticOrderRipples eps fuel tmax limit order pr sr = Ok p -> params_ok pr sr p.
Proof.
  intros He P S L E. destruct (ripple_factor_pos pr ltac:(lra)) as [R0 R1]. destruct (stop_factor pr sr P S L) as (H1 & H2 & H3). pose proof (selectivity_bounds pr sr P S L) as SB. unfold EllipticOrderRipples in E.
  assert (Q : 0 < 1 - 2 * pr + pr * pr) by nra. unfold fdiv_ at 1 in E. destruct (Req_EM_T (1 - 2 * pr + pr * pr) 0); [lra|]. cbn [bind] in E.
  unfold sqrt_ at 1 in E. destruct (Rle_dec 0 ((2 * pr - pr * pr) / (1 - 2 * pr + pr * pr))) as [q|]; [|discriminate]. cbn [bind] in E. rewrite R1 in E. unfold fdiv_ at 1 in E. destruct (Req_EM_T (sr * sr) 0); [discriminate|]. cbn [bind] in E.
  unfold sqrt_ at 1 in E. destruct (Rle_dec 0 (1 / (sr * sr) - 1)); [|discriminate]. cbn [bind] in E. rewrite H3 in E. unfold fdiv_ at 1 in E. destruct (Req_EM_T (sqrt (1 / sr ^ 2 - 1)) 0); [discriminate|]. cbn [bind] in E. fold (selectivity pr sr) in E.
  destruct (sqrt_ (1 - _ * _)) as [k1p| |]; [|discriminate|discriminate]. cbn [bind] in E. destruct (EllipticK eps fuel (selectivity pr sr)) as [v1| |] eqn:E1; [|discriminate|discriminate]. cbn [bind] in E. apply K_any in E1; [|exact He|exact SB]. destruct E1 as (a1 & -> & B1). cbn [finite bind] in E.
  destruct (EllipticK eps fuel k1p) as [v2| |]; [|discriminate|discriminate]. cbn [bind] in E. destruct (finite v2) as [a2| |]; [|discriminate|discriminate]. cbn [bind] in E. destruct (fdiv_ (IZR order * a1) a2) as [kr| |]; [|discriminate|discriminate]. cbn [bind] in E.
  set (k := Bisect _ _ _ _ _ _) in E. assert (K01 : 0 < k < 1) by apply bisect_01. destruct (EllipticK eps fuel k) as [v3| |] eqn:E3; [|discriminate|discriminate]. cbn [bind] in E. apply K_any in E3; [|exact He|exact K01]. destruct E3 as (a3 & -> & B3). cbn [finite bind] in E. injection E as <-. unfold params_ok. cbn. repeat split; try lra; assumption.
Qed.

(** ** Amplitudes in the first quarter period *)
Lemma quarter k x phi : 0 < k < 1 -> 0 <= x -> eps <= 1 / 4 -> Rabs (legendre_F k phi - x) <= 2 * eps * Rabs x -> x * (1 + 2 * eps) < legendre_K k -> 0 <= phi < PI / 2 /\ (0 < x -> 0 < phi) /\ (x = 0 -> phi = 0).
Proof.
  intros Hk Hx He B L. rewrite (Rabs_pos_eq x Hx) in B. apply Rabs_le_between in B. assert (U : phi < PI / 2). { destruct (Rlt_dec phi (PI / 2)) as [|N]; [assumption|]. exfalso. unfold legendre_K in L. destruct (Req_dec phi (PI / 2)) as [->|N']; [nra|]. pose proof (legendre_mono k (PI / 2) phi ltac:(lra) ltac:(lra)). nra. }
  assert (Lo : 0 <= phi). { destruct (Rle_dec 0 phi) as [|N]; [assumption|]. exfalso. pose proof (legendre_mono k phi 0 ltac:(lra) ltac:(lra)) as M. rewrite legendre_F_0 in M. nra. }
  repeat split; try assumption.
  - intros X. destruct (Req_dec phi 0) as [->|]; [|lra]. exfalso. rewrite legendre_F_0 in B. nra.
  - intros ->. destruct (Req_dec phi 0) as [|]; [assumption|]. exfalso. pose proof (legendre_pos k phi ltac:(lra) ltac:(lra)). lra.
Qed.
Definition compl (k : R) : R := sqrt (1 - k * k).
Lemma compl_bounds k : 0 < k < 1 -> 0 < compl k < 1 /\ compl k * compl k = 1 - k * k.
Proof.
  intros H. unfold compl. assert (S : sqrt (1 - k * k) * sqrt (1 - k * k) = 1 - k * k) by (apply sqrt_sqrt; nra). assert (P : 0 < sqrt (1 - k * k)) by (apply sqrt_lt_R0; nra). repeat split; [exact P| |exact S]. nra.
Qed.
(** sn at a point of the open fundamental rectangle *)
Lemma snC_sign x k sn : / 2 ^ 127 <= eps <= / 2 ^ 22 -> lenZ factors = 32%Z -> 0 < k < 1 -> modulus_ok eps k -> modulus_ok eps (compl k) -> 0 <= re x -> re x * (1 + 2 * eps) < legendre_K k -> 0 < im x -> im x * (1 + 2 * eps) < legendre_K (compl k) ->
  EllipticSN_C eps fuel factors x k = Ok sn -> 0 < im sn /\ 0 <= re sn /\ (re x = 0 -> re sn = 0).
Proof.
  intros He L Hk M M' X0 X1 Y0 Y1 E. destruct (compl_bounds k Hk) as [Hc C2]. assert (P22 : / 2 ^ 22 <= 1 / 1000000) by (cbn [pow]; lra). unfold EllipticSN_C, EllipticSNCNDN_C in E.
  destruct (EllipticSNCNDN eps fuel factors (re x) k) as [[[s c] d]| |] eqn:E1; [|discriminate|discriminate]. cbn [bind] in E. assert (Ek : sqrt_ (1 - k * k) = Ok (compl k)) by (unfold sqrt_; destruct (Rle_dec 0 (1 - k * k)); [reflexivity|nra]). rewrite Ek in E. cbn [bind] in E.
  destruct (EllipticSNCNDN eps fuel factors (im x) (compl k)) as [[[s' c'] d']| |] eqn:E2; [|discriminate|discriminate]. cbn [bind] in E.
  apply sncndn_any in E1; [|exact He|rewrite Rabs_pos_eq by lra; exact M|exact L]. apply sncndn_any in E2; [|exact He|rewrite Rabs_pos_eq by lra; exact M'|exact L]. destruct E1 as (p & -> & -> & -> & B & _). destruct E2 as (q & -> & -> & -> & B' & _). rewrite (Rabs_pos_eq k) in B by lra. rewrite (Rabs_pos_eq (compl k)) in B' by lra.
  destruct (quarter k (re x) p Hk X0 ltac:(lra) B X1) as (P1 & _ & P3). destruct (quarter (compl k) (im x) q Hc ltac:(lra) ltac:(lra) B' Y1) as (Q1 & Q2 & _). specialize (Q2 Y0).
  assert (S0 : 0 <= sin p) by (apply sin_ge_0; lra). assert (C0 : 0 < cos p) by (apply cos_gt_0; lra). assert (S0' : 0 < sin q) by (apply sin_gt_0; lra). assert (C0' : 0 < cos q) by (apply cos_gt_0; lra).
  assert (D0 : 0 < sqrt (1 - k * k * sin p * sin p)). { apply sqrt_lt_R0. pose proof (sin2_cos2 p) as T. unfold Rsqr in T. assert (k * k < 1) by nra. assert (0 <= sin p * sin p <= 1) by nra. nra. }
  pose proof (sqrt_pos (1 - compl k * compl k * sin q * sin q)) as D0'. set (d := sqrt (1 - k * k * sin p * sin p)) in *. set (d' := sqrt (1 - compl k * compl k * sin q * sin q)) in *.
  unfold cdiv_ in E. assert (Dp : 0 < cos q * cos q + k * k * sin q * sin q * sin p * sin p). { assert (0 < cos q * cos q) by nra. assert (0 <= (k * sin q * sin p) * (k * sin q * sin p)) by exact (Rle_0_sqr _). nra. } set (DD := cos q * cos q + k * k * sin q * sin q * sin p * sin p) in *.
  destruct (Req_EM_T DD 0) as [Z|_]; [lra|]. cbn [bind] in E. injection E as <-. unfold CdivR. cbn [re im]. repeat split.
  - apply Rdiv_lt_0_compat; [|exact Dp]. repeat apply Rmult_lt_0_compat; assumption.
  - apply Rmult_le_pos; [apply Rmult_le_pos; assumption|left; now apply Rinv_0_lt_compat].
  - intros X. rewrite (P3 X), sin_0. unfold Rdiv. ring.
Qed.

(** ** Conditions under which the numerical error does not matter *)
Definition mild (order : Z) (p : elliptic_parameters) : Prop :=
  modulus_ok eps (ek p) /\ modulus_ok eps (compl (ek p)) /\ 3 * IZR order * eps < 1 /\
  legendre_F (compl (ek1 p)) (atan (1 / eepsilon p)) * (legendre_K (ek p) / (IZR order * legendre_K (ek1 p))) * (1 + 4 * eps) < legendre_K (compl (ek p)).
Lemma real_index order j : (0 < order < 2 ^ 64)%Z -> (0 <= j < order mod 2)%Z -> size_sub (2 * j + 1) (order mod 2) = 0%Z.
Proof. intros H J. assert (j = 0%Z) by lia. assert (order mod 2 = 1)%Z by lia. rewrite H1. subst j. reflexivity. Qed.
Lemma pair_index order j : (0 < order < 2 ^ 64)%Z -> (0 <= j < order / 2)%Z -> size_sub (2 * (order mod 2 + j) + 1) (order mod 2) = (2 * j + 1 + order mod 2)%Z /\ (1 <= 2 * j + 1 + order mod 2 <= order - 1)%Z.
Proof. intros H J. unfold size_sub. rewrite Z.mod_small by lia. lia. Qed.
Lemma K_pos k : 0 < k < 1 -> 0 < legendre_K k.
Proof. intros H. pose proof PI_RGT_0. pose proof (legendre_pos k (PI / 2) ltac:(lra) ltac:(lra)). unfold legendre_K. lra. Qed.
Lemma arg_bounds order p pr sr i : 0 < eps <= / 2 ^ 22 -> (0 < order)%Z -> (0 <= i <= order - 1)%Z -> params_ok pr sr p -> 3 * IZR order * eps < 1 ->
  0 <= eK p * IZR i / IZR order /\ eK p * IZR i / IZR order * (1 + 2 * eps) < legendre_K (ek p) /\ ((0 < i)%Z -> 0 < eK p * IZR i / IZR order).
Proof.
  intros He Ho Hi (_ & _ & Hk & B & _) M. assert (P22 : / 2 ^ 22 <= 1 / 1000000) by (cbn [pow]; lra). pose proof (K_pos _ Hk) as Kp. set (K := legendre_K (ek p)) in *. apply Rabs_le_between in B. assert (N0 : 0 < IZR order) by (apply IZR_lt; lia). assert (I0 : 0 <= IZR i) by (apply IZR_le; lia). assert (I1 : IZR i <= IZR order - 1) by (rewrite <- minus_IZR; apply IZR_le; lia). set (n := IZR order) in *. set (x := IZR i) in *.
  assert (E0 : 0 < eK p) by nra. assert (R0 : 0 <= x / n) by (apply Rmult_le_pos; [lra|left; now apply Rinv_0_lt_compat]). assert (RN : x / n * n = x) by (field; lra). replace (eK p * x / n) with (eK p * (x / n)) by (unfold Rdiv; ring). set (r := x / n) in *.
  split; [nra|]. split.
  - assert (U : eK p * (1 + 2 * eps) <= K * (1 + 3 * eps)) by nra. assert (V : r * (1 + 3 * eps) < 1). { assert (r * n <= n - 1) by lra. assert (r <= 1) by nra. assert (r * (3 * eps) * n < 1) by nra. nra. }
    replace (eK p * r * (1 + 2 * eps)) with (r * (eK p * (1 + 2 * eps))) by ring. apply Rle_lt_trans with (r * (K * (1 + 3 * eps))); [now apply Rmult_le_compat_l|]. replace (r * (K * (1 + 3 * eps))) with (r * (1 + 3 * eps) * K) by ring. nra.
  - intros I. assert (0 < x) by (apply IZR_lt; lia). apply Rmult_lt_0_compat; [exact E0|]. unfold r. now apply Rdiv_lt_0_compat.
Qed.
Lemma depth_bounds order p pr sr v0 : 0 < eps <= / 2 ^ 22 -> (0 < order)%Z -> 0 < pr -> 0 < sr -> sr < 1 - pr -> params_ok pr sr p -> mild order p -> depth p order = Ok v0 -> 0 < v0 /\ v0 * (1 + 2 * eps) < legendre_K (compl (ek p)).
Proof.
  intros He Ho Hp Hs HL (E1 & E2 & Hk & B & B1) (_ & _ & _ & M) E. assert (P22 : / 2 ^ 22 <= 1 / 1000000) by (cbn [pow]; lra). destruct (ripple_factor_pos pr ltac:(lra)) as [Re _]. pose proof (selectivity_bounds pr sr Hp Hs HL) as Hk1. rewrite <- E1 in Re. rewrite <- E2 in Hk1. pose proof (K_pos _ Hk) as K0. pose proof (K_pos _ Hk1) as K10. destruct (compl_bounds _ Hk1) as [Hc C2].
  unfold depth in E. unfold fdiv_ in E. destruct (Req_EM_T (eepsilon p) 0) as [|_]; [lra|]. cbn [bind] in E. assert (Y0 : 0 < 1 / eepsilon p) by (apply Rdiv_lt_0_compat; lra). destruct (EllipticArcSN_imag eps fuel (1 / eepsilon p) (ek1 p)) as [v| |] eqn:A; [|discriminate|discriminate]. cbn [bind] in E. destruct (finite v) as [a| |] eqn:Fv; [|discriminate|discriminate]. cbn [bind] in E. injection E as <-.
  destruct v as [a'|]; [|discriminate]. cbn in Fv. injection Fv as ->. destruct (arcsn_imag_main eps (ek1 p) (compl (ek1 p)) (1 / eepsilon p) He ltac:(rewrite Rabs_pos_eq by lra; lra) ltac:(lra) C2 Y0) as (N & w & F & W).
  assert (a = w). { unfold EllipticArcSN_imag in A, F. destruct (CarlsonRF eps fuel (1 + 1 / eepsilon p * (1 / eepsilon p)) (1 + ek1 p * ek1 p * (1 / eepsilon p) * (1 / eepsilon p)) 1) as [u| |] eqn:Q; [|discriminate|discriminate]. specialize (F (max N fuel) ltac:(lia)). rewrite (carlson_mono eps fuel (max N fuel) _ _ _ u ltac:(lia) Q) in F. cbn [bind] in A, F. congruence. } subst w.
  assert (T0 : 0 < atan (1 / eepsilon p)) by (rewrite <- atan_0; now apply atan_increasing). set (f := legendre_F (compl (ek1 p)) (atan (1 / eepsilon p))) in *. assert (F0 : 0 < f) by (pose proof (legendre_pos (compl (ek1 p)) _ ltac:(lra) T0); unfold f; lra).
  unfold within in W. rewrite (Rabs_pos_eq f) in W by lra. apply Rabs_le_between in W. apply Rabs_le_between in B. apply Rabs_le_between in B1. set (K := legendre_K (ek p)) in *. set (K1 := legendre_K (ek1 p)) in *. assert (N0 : 0 < IZR order) by (apply IZR_lt; lia). set (n := IZR order) in *.
  assert (a0 : 0 < a) by nra. assert (k0 : 0 < eK p) by nra. assert (k10 : 0 < eK1 p) by nra. replace (a * (eK p / n / eK1 p)) with (a * eK p / (n * eK1 p)) by (field; lra). assert (Dn : 0 < n * eK1 p) by nra. split; [apply Rdiv_lt_0_compat; [nra|exact Dn]|].
  apply Rle_lt_trans with (2 := M). replace (f * (K / (n * K1)) * (1 + 4 * eps)) with (f * K * (1 + 4 * eps) / (n * K1)) by (field; lra). replace (a * eK p / (n * eK1 p) * (1 + 2 * eps)) with (a * eK p * (1 + 2 * eps) / (n * eK1 p)) by (field; lra).
  apply Rle_div_l; [exact Dn|]. replace (f * K * (1 + 4 * eps) / (n * K1) * (n * eK1 p)) with (f * K * (1 + 4 * eps) * (eK1 p / K1)) by (field; lra). assert (Q1 : 1 - eps / 4 <= eK1 p / K1) by (apply Rle_div_r; lra).
  assert (FK : 0 < f * K) by nra. apply Rle_trans with (f * K * ((1 + eps / 4) * (1 + eps / 4) * (1 + 2 * eps))).
  - assert (a * eK p <= f * K * ((1 + eps / 4) * (1 + eps / 4))). { replace (f * K * ((1 + eps / 4) * (1 + eps / 4))) with ((f * (1 + eps / 4)) * (K * (1 + eps / 4))) by ring. apply Rmult_le_compat; lra. } nra.
  - apply Rle_trans with (f * K * (1 + 4 * eps) * (1 - eps / 4)); [|apply Rmult_le_compat_l; [nra|exact Q1]]. rewrite !Rmult_assoc. rewrite <- (Rmult_assoc f K). rewrite <- (Rmult_assoc f K). apply Rmult_le_compat_l; [lra|]. nra.
Qed.

(** ** The system *)
Lemma len_repeat {A} (a : A) n : (0 <= n)%Z -> lenZ (repeat a (Z.to_nat n)) = n.
Proof. intros H. unfold lenZ. rewrite repeat_length. lia. Qed.
Lemma body_inv order pr p sys : (0 < order)%Z -> elliptic_body order pr p = Ok sys -> exists zs rs cs v0 g,
  depth p order = Ok v0 /\ sys = mkZpk (g * (if (order mod 2 =? 0)%Z then 1 - pr else 1)) (mk_fp [] zs) (mk_fp rs cs) /\ fp_eval (K := Rring) (fun r => r) (mk_fp [] zs) 0 <> 0 /\ g = fp_eval (K := Rring) (fun r => r) (mk_fp rs cs) 0 / fp_eval (K := Rring) (fun r => r) (mk_fp [] zs) 0 /\
  lenZ zs = (order / 2)%Z /\ lenZ rs = (order mod 2)%Z /\ lenZ cs = (order / 2)%Z /\
  (forall z, In z zs -> exists j, (0 <= j < order / 2)%Z /\ zero_of p order j = Ok z) /\ (forall r, In r rs -> exists j, (0 <= j < order mod 2)%Z /\ real_pole_of p order v0 j = Ok r) /\
  (forall c, In c cs -> exists j, (0 <= j < order / 2)%Z /\ pole_of p order v0 (order mod 2 + j) = Ok c).
Proof.
  intros Ho E. unfold elliptic_body in E. destruct (for_ 0 (order / 2) 1 (fun i cs => do v <- zero_of p order i; wr cs i v) _) as [zs| |] eqn:Ez; [|discriminate|discriminate]. cbn [bind] in E. destruct (depth p order) as [v0| |] eqn:Ed; [|discriminate|discriminate]. cbn [bind] in E.
  destruct (for_ 0 (order mod 2) 1 (fun i cs => do v <- real_pole_of p order v0 i; wr cs i v) _) as [rs| |] eqn:Er; [|discriminate|discriminate]. cbn [bind] in E. destruct (for_ 0 (order / 2) 1 (fun i cs => do v <- pole_of p order v0 (order mod 2 + i); wr cs i v) _) as [cs| |] eqn:Ec; [|discriminate|discriminate]. cbn [bind] in E. unfold system_of in E. unfold fdiv_ in E. destruct (Req_EM_T _ 0) as [|N]; [discriminate|]. cbn [bind] in E. injection E as <-.
  apply fill_inv in Ez; [|apply len_repeat; lia]. apply fill_inv in Er; [|apply len_repeat; lia]. apply fill_inv in Ec; [|apply len_repeat; lia]. destruct Ez as [Lz Fz], Er as [Lr Fr], Ec as [Lc Fc].
  exists zs, rs, cs, v0. eexists. split; [reflexivity|]. split; [reflexivity|]. split; [exact N|]. split; [reflexivity|]. split; [exact Lz|]. split; [exact Lr|]. split; [exact Lc|].
  split; [|split]; intros x Hx; apply In_nthZ in Hx as (j & Hj & Ej); exists j; (split; [lia|]).
  - destruct (Fz j ltac:(lia)) as (v & Ev & Nv). congruence.
  - destruct (Fr j ltac:(lia)) as (v & Ev & Nv). congruence.
  - destruct (Fc j ltac:(lia)) as (v & Ev & Nv). congruence.
Qed.
Lemma roots_count rs cs : Z.of_nat (length (all_roots (mk_fp rs cs))) = (lenZ rs + 2 * lenZ cs)%Z.
Proof. unfold all_roots. rewrite mk_fp_real, mk_fp_pairs, !app_length, !map_length. unfold lenZ. lia. Qed.
Lemma zero_of_inv p order j z : 0 < ek p < 1 -> zero_of p order j = Ok z -> re z = 0 /\ 1 / ek p <= Rabs (im z).
Proof.
  intros Hk E. unfold zero_of, EllipticSN in E. destruct (EllipticSNCNDN _ _ _ _ _) as [[[s c] d]| |] eqn:S; [|discriminate|discriminate]. cbn [bind] in E. unfold fdiv_ in E. destruct (Req_EM_T (ek p * s) 0) as [|N]; [discriminate|]. cbn [bind] in E. injection E as <-. cbn [re im]. split; [reflexivity|].
  apply sncndn_inv in S. destruct S as (S & _). destruct (Rlt_dec 1 (Rabs (ek p))) as [L|_]; [rewrite Rabs_pos_eq in L by lra; lra|]. assert (S1 : Rabs s <= 1) by (apply Rabs_le; nra). assert (S0 : 0 < Rabs s) by (apply Rabs_pos_lt; intros ->; apply N; ring). rewrite Rabs_div by exact N. rewrite Rabs_mult, (Rabs_pos_eq 1), (Rabs_pos_eq (ek p)) by lra. unfold Rdiv. rewrite !Rmult_1_l. apply Rinv_le_contravar; nra.
Qed.
Lemma params_k order pr sr p : EllipticOrderRipples eps fuel tmax limit order pr sr = Ok p -> 0 < ek p < 1.
Proof.
  intros E. unfold EllipticOrderRipples in E. repeat match type of E with context [bind ?m _] => let x := fresh "x" in destruct m as [x| |]; [|discriminate|discriminate]; cbn [bind] in E end. injection E as <-. cbn. apply bisect_01.
Qed.
Lemma elliptic_structure order pr sr sys : (0 < order)%Z -> Elliptic eps fuel factors tmax limit order pr sr = Ok sys ->
  well_formed sys /\ Z.of_nat (length (all_roots (poles sys))) = order /\ Z.of_nat (length (all_roots (zeros sys))) = (2 * (order / 2))%Z /\
  (forall z, In z (all_roots (zeros sys)) -> re z = 0 /\ 1 < Rabs (im z)) /\ (~ is_pole sys C0 -> transfer_at sys C0 = RtoC (if (order mod 2 =? 0)%Z then 1 - pr else 1)) /\ num_roots (poles sys) = order /\ num_roots (zeros sys) = (2 * (order / 2))%Z.
Proof.
  intros Ho E. rewrite elliptic_eq in E by exact Ho. destruct (EllipticOrderRipples eps fuel tmax limit order pr sr) as [p| |] eqn:Ep; [|discriminate|discriminate]. cbn [bind] in E. apply params_k in Ep. apply body_inv in E; [|exact Ho]. destruct E as (zs & rs & cs & v0 & g & _ & -> & NZ & Eg & Lz & Lr & Lc & Fz & _ & _).
  assert (W : well_formed (mkZpk (g * (if (order mod 2 =? 0)%Z then 1 - pr else 1)) (mk_fp [] zs) (mk_fp rs cs))) by (split; apply mk_fp_wf). split; [exact W|]. cbn [poles zeros]. rewrite !roots_count. cbn [lenZ length]. split; [lia|]. split; [change (lenZ []) with 0%Z; lia|]. split; [|split].
  - assert (G : forall z, In z zs -> re z = 0 /\ 1 < Rabs (im z)). { intros z Hz. apply Fz in Hz as (j & Hj & Ej). apply zero_of_inv in Ej; [|exact Ep]. destruct Ej as [Z1 Z2]. split; [exact Z1|]. eapply Rlt_le_trans; [|exact Z2]. apply Rlt_div_r; lra. }
    intros z Hz. unfold all_roots in Hz. rewrite mk_fp_real, mk_fp_pairs in Hz. cbn [map app] in Hz. apply in_app_or in Hz as [Hz|Hz]; [now apply G|]. apply in_map_iff in Hz as (c & <- & Hc). apply G in Hc. unfold Cconj. cbn [re im]. now rewrite Rabs_Ropp.
  - unfold is_pole, transfer_at. cbn [gain zeros poles]. change C0 with (RtoC 0). rewrite <- !C24_factored_eval_real. intros NP. set (P := fp_eval (K := Rring) (fun r => r) (mk_fp rs cs) 0) in *. set (Z := fp_eval (K := Rring) (fun r => r) (mk_fp [] zs) 0) in *.
    assert (P0 : P <> 0) by (intros Q; apply NP; rewrite Q; reflexivity). rewrite Eg. set (e := if (order mod 2 =? 0)%Z then 1 - pr else 1). rewrite <- RtoC_mul. rewrite <- RtoC_div by exact P0. f_equal. field. split; assumption.
  - destruct W as [W1 W2]. cbn [zeros poles] in W1, W2. rewrite <- (roots_len _ W1), <- (roots_len _ W2), !roots_count. change (lenZ []) with 0%Z. lia.
Qed.
Lemma elliptic_stable order pr sr p sys : / 2 ^ 127 <= eps <= / 2 ^ 22 -> lenZ factors = 32%Z -> (0 < order < 2 ^ 64)%Z -> 0 < pr -> 0 < sr -> sr < 1 - pr -> EllipticOrderRipples eps fuel tmax limit order pr sr = Ok p -> mild order p -> Elliptic eps fuel factors tmax limit order pr sr = Ok sys ->
  forall q, In q (all_roots (poles sys)) -> re q < 0.
Proof.
  intros He L Ho P S H Ep M E. assert (E0 : 0 < eps <= / 2 ^ 22) by (split; [eapply Rlt_le_trans; [|apply He]; apply Rinv_0_lt_compat, pow_lt; lra|apply He]). rewrite elliptic_eq in E by lia. rewrite Ep in E. cbn [bind] in E. pose proof (params_inv order pr sr p E0 P S H Ep) as PO. apply body_inv in E; [|lia]. destruct E as (zs & rs & cs & v0 & g & Ed & -> & _ & _ & Lz & Lr & Lc & _ & Fr & Fc). pose proof M as (M1 & M2 & M3 & _).
  destruct (depth_bounds order p pr sr v0 E0 ltac:(lia) P S H PO M Ed) as [V0 V1]. pose proof PO as (_ & _ & Hk & _).
  assert (G : forall idx sn, (0 <= size_sub (2 * idx + 1) (order mod 2) <= order - 1)%Z -> EllipticSN_C eps fuel factors (pole_arg p order idx v0) (ek p) = Ok sn -> 0 < im sn). { intros idx sn Hi Es. unfold pole_arg in Es. destruct (arg_bounds order p pr sr _ E0 ltac:(lia) Hi PO M3) as (A1 & A2 & _). apply snC_sign in Es; try assumption. apply Es. }
  assert (Gr : forall r, In r rs -> r < 0). { intros r Hr. apply Fr in Hr as (j & Hj & Ej). unfold real_pole_of in Ej. destruct (EllipticSN_C _ _ _ _ _) as [sn| |] eqn:Es; [|discriminate|discriminate]. cbn [bind] in Ej. unfold assert_ in Ej. destruct (if Rlt_dec _ _ then true else false); [|discriminate]. injection Ej as <-. apply G in Es; [|rewrite real_index by lia; lia]. cbn. lra. }
  assert (Gc : forall c, In c cs -> re c < 0). { intros c Hc. apply Fc in Hc as (j & Hj & Ej). unfold pole_of in Ej. destruct (EllipticSN_C _ _ _ _ _) as [sn| |] eqn:Es; [|discriminate|discriminate]. cbn [bind] in Ej. injection Ej as <-. destruct (pair_index order j Ho Hj) as [I1 I2]. apply G in Es; [|rewrite I1; lia]. cbn. lra. }
  intros q Hq. cbn [poles] in Hq. unfold all_roots in Hq. rewrite mk_fp_real, mk_fp_pairs in Hq. apply in_app_or in Hq as [Hq|Hq]; [apply in_map_iff in Hq as (r & <- & Hr); cbn; now apply Gr|]. apply in_app_or in Hq as [Hq|Hq]; [now apply Gc|]. apply in_map_iff in Hq as (c & <- & Hc). cbn. now apply Gc.
Qed.
End Proto.

(** ** Enough iterations *)
Lemma fill_total {A} (d : A) (f : nat -> Z -> outcome A) h (l : list A) : lenZ l = h -> (forall j, (0 <= j < h)%Z -> exists N v, forall fuel, (N <= fuel)%nat -> f fuel j = Ok v) ->
  exists N r, forall fuel, (N <= fuel)%nat -> for_ 0 h 1 (fun i cs => do v <- f fuel i; wr cs i v) l = Ok r.
Proof.
  intros L H. pose proof (lenZ_nonneg l) as Hh. assert (U : exists N, forall j, (0 <= j < h)%Z -> exists v, forall fuel, (N <= fuel)%nat -> f fuel j = Ok v).
  { assert (G : forall n, (Z.of_nat n <= h)%Z -> exists N, forall j, (0 <= j < Z.of_nat n)%Z -> exists v, forall fuel, (N <= fuel)%nat -> f fuel j = Ok v).
    { induction n as [|n IH]; intros Hn; [exists O; intros; lia|]. destruct IH as [N1 F1]; [lia|]. destruct (H (Z.of_nat n)) as (N2 & v & F2); [lia|]. exists (max N1 N2). intros j Hj. destruct (Z.eq_dec j (Z.of_nat n)) as [->|Nj]; [exists v; intros fuel Hf; apply F2; lia|]. destruct (F1 j ltac:(lia)) as [w F]. exists w. intros fuel Hf. apply F. lia. }
    destruct (G (Z.to_nat h) ltac:(lia)) as [N F]. exists N. intros j Hj. apply F. lia. }
  destruct U as [N F]. exists N, (tab h (fun j => match f N j with Ok v => v | _ => d end)). intros fuel Hf. destruct (fill_ok (f fuel) h l L) as [r E]. { intros j Hj. destruct (F j Hj) as [v Fv]. exists v. now apply Fv. }
  rewrite E. f_equal. apply fill_inv in E; [|exact L]. destruct E as [Lr Fr]. apply list_eq_tab; [lia|]. intros j Hj. destruct (Fr j Hj) as (v & Ev & ->). destruct (F j Hj) as [w Fw]. rewrite (Fw fuel Hf) in Ev. injection Ev as <-. now rewrite (Fw N (le_n N)).
Qed.
Lemma bisect_stable (f : nat -> R -> R) tol : (forall x, 0 <= x < 1 -> exists N, forall n, (N <= n)%nat -> f n x = f N x) ->
  forall limit a b c err, 0 <= a < 1 -> 0 <= c < 1 -> 0 <= b <= 1 -> exists N, forall n, (N <= n)%nat -> bisect_loop limit (f n) tol a b c err = bisect_loop limit (f N) tol a b c err.
Proof.
  intros H. induction limit as [|limit IH]; intros a b c err Ha Hc Hb; [exists O; reflexivity|]. destruct (H a Ha) as [Na Fa]. destruct (H c Hc) as [Nc Fc].
  assert (G : exists N, (Na <= N)%nat /\ (Nc <= N)%nat /\ forall n, (N <= n)%nat -> let '(a', b') := if Rle_dec (f Na a * f Nc c) 0 then (a, c) else (c, b) in bisect_loop limit (f n) tol a' b' ((a' + b') / 2) (Rabs (b' - a')) = bisect_loop limit (f N) tol a' b' ((a' + b') / 2) (Rabs (b' - a'))).
  { destruct (Rle_dec (f Na a * f Nc c) 0) as [Hs|Hs].
    - destruct (IH a c ((a + c) / 2) (Rabs (c - a)) Ha ltac:(lra) ltac:(lra)) as [N F]. exists (max N (max Na Nc)). split; [lia|]. split; [lia|]. intros n Hn. rewrite (F n) by lia. rewrite (F (max N (max Na Nc))) by lia. reflexivity.
    - destruct (IH c b ((c + b) / 2) (Rabs (b - c)) Hc ltac:(lra) ltac:(lra)) as [N F]. exists (max N (max Na Nc)). split; [lia|]. split; [lia|]. intros n Hn. rewrite (F n) by lia. rewrite (F (max N (max Na Nc))) by lia. reflexivity. }
  destruct G as (N & HNa & HNc & G). exists N. intros n Hn. cbn [bisect_loop]. cbv zeta. rewrite (Fa n), (Fc n), (Fa N), (Fc N) by lia. specialize (G n Hn). destruct (if Rle_dec (f Na a * f Nc c) 0 then (a, c) else (c, b)) as [a' b']. destruct (Rlt_dec tol _); [|reflexivity]. destruct (Rlt_dec _ err); [exact G|reflexivity].
Qed.
Section Total.
Variables (eps : R) (factors : list R) (tmax : R) (limit : nat).
Lemma K_total k : 0 < eps <= / 2 ^ 22 -> 0 <= k < 1 -> exists N a, (forall fuel, (N <= fuel)%nat -> EllipticK eps fuel k = Ok (Fin a)) /\ Rabs (a - legendre_K k) <= eps / 4 * legendre_K k.
Proof. intros He Hk. destruct (K_main eps k He ltac:(lra)) as (_ & N & a & F & B). rewrite (Rabs_pos_eq k) in B by lra. exists N, a. now split. Qed.
Lemma K_one fuel k : k * k = 1 -> EllipticK eps fuel k = Ok Inf.
Proof. intros E. unfold EllipticK. rewrite E, Rminus_eq_0. unfold CarlsonRF, is_zero. destruct (Req_EM_T 0 0); [|lra]. now destruct (Req_EM_T 1 0). Qed.
Lemma quotient_stable k : 0 < eps <= / 2 ^ 22 -> 0 <= k < 1 -> exists N, forall n, (N <= n)%nat -> K_quotient eps n k = K_quotient eps N k.
Proof.
  intros He Hk. destruct (K_total k He Hk) as (N & a & F & _). destruct (Req_dec k 0) as [->|K0].
  - exists N. intros n Hn. unfold K_quotient. rewrite !F by lia. rewrite !(K_one _ (sqrt _)); [reflexivity|..]; rewrite sqrt_sqrt; lra.
  - destruct (compl_bounds k ltac:(lra)) as [C _]. destruct (K_total (compl k) He ltac:(lra)) as (N' & a' & F' & _). exists (max N N'). intros n Hn. unfold K_quotient. fold (compl k). rewrite !F, !F' by lia. reflexivity.
Qed.
Lemma params_total order pr sr : 0 < eps <= / 2 ^ 22 -> (0 < order)%Z -> 0 < pr -> 0 < sr -> sr < 1 - pr -> exists N p, forall fuel, (N <= fuel)%nat -> EllipticOrderRipples eps fuel tmax limit order pr sr = Ok p.
Proof.
  intros He Ho P S L. assert (P22 : / 2 ^ 22 <= 1 / 1000000) by (cbn [pow]; lra). destruct (ripple_factor_pos pr ltac:(lra)) as [R0 R1]. destruct (stop_factor pr sr P S L) as (H1 & H2 & H3). pose proof (selectivity_bounds pr sr P S L) as SB. destruct (compl_bounds _ SB) as [CB _].
  destruct (K_total (selectivity pr sr) He ltac:(lra)) as (N1 & a1 & F1 & B1). destruct (K_total (compl (selectivity pr sr)) He ltac:(lra)) as (N2 & a2 & F2 & B2). pose proof (K_pos _ SB) as K1. pose proof (K_pos _ CB) as K2. assert (A2 : a2 <> 0) by (apply Rabs_le_between in B2; nra).
  destruct (bisect_stable (fun n k => K_quotient eps n k - IZR order * a1 / a2) 0) with (limit := limit) (a := 0) (b := 1) (c := (0 + 1) / 2) (err := tmax) as [N3 F3]; [|lra|lra|lra|].
  { intros x Hx. destruct (quotient_stable x He Hx) as [N F]. exists N. intros n Hn. now rewrite (F n Hn). }
  set (k := Bisect tmax limit (fun k => K_quotient eps N3 k - IZR order * a1 / a2) 0 1 0). assert (K01 : 0 < k < 1) by apply bisect_01. destruct (K_total k He ltac:(lra)) as (N4 & a4 & F4 & _).
  exists (max (max N1 N2) (max N3 N4)), {| ek := k; eK := a4; ek1 := selectivity pr sr; eK1 := a1; eepsilon := ripple_factor pr |}. intros fuel Hf. unfold EllipticOrderRipples.
  assert (Q : 0 < 1 - 2 * pr + pr * pr) by nra. unfold fdiv_ at 1. destruct (Req_EM_T (1 - 2 * pr + pr * pr) 0); [lra|]. cbn [bind]. unfold sqrt_ at 1. destruct (Rle_dec 0 ((2 * pr - pr * pr) / (1 - 2 * pr + pr * pr))) as [q|Nq]; [|exfalso; apply Nq; apply Rmult_le_pos; [nra|left; now apply Rinv_0_lt_compat]]. cbn [bind]. rewrite R1.
  unfold fdiv_ at 1. destruct (Req_EM_T (sr * sr) 0); [nra|]. cbn [bind]. unfold sqrt_ at 1. destruct (Rle_dec 0 (1 / (sr * sr) - 1)); [|lra]. cbn [bind]. rewrite H3. unfold fdiv_ at 1. destruct (Req_EM_T (sqrt (1 / sr ^ 2 - 1)) 0); [lra|]. cbn [bind]. fold (selectivity pr sr).
  unfold sqrt_ at 1. destruct (Rle_dec 0 (1 - selectivity pr sr * selectivity pr sr)); [|nra]. cbn [bind]. fold (compl (selectivity pr sr)). rewrite F1 by lia. cbn [bind finite]. rewrite F2 by lia. cbn [bind finite]. unfold fdiv_. destruct (Req_EM_T a2 0); [tauto|]. cbn [bind]. 
  assert (Ek : Bisect tmax limit (fun k => K_quotient eps fuel k - IZR order * a1 / a2) 0 1 0 = k) by (unfold k, Bisect; apply F3; lia). rewrite Ek. rewrite F4 by lia. reflexivity.
Qed.
Lemma snC_total x k : / 2 ^ 127 <= eps <= / 2 ^ 22 -> lenZ factors = 32%Z -> 0 < k < 1 -> modulus_ok eps k -> modulus_ok eps (compl k) -> im x * (1 + 2 * eps) < legendre_K (compl k) -> 0 <= im x ->
  exists N sn, forall fuel, (N <= fuel)%nat -> EllipticSN_C eps fuel factors x k = Ok sn.
Proof.
  intros He L Hk M M' Y1 Y0. destruct (compl_bounds k Hk) as [Hc C2]. assert (P22 : / 2 ^ 22 <= 1 / 1000000) by (cbn [pow]; lra). destruct (sncndn_main eps factors (re x) k He) as (N & s & c & p & F & _); [rewrite Rabs_pos_eq by lra; exact M|exact L|]. destruct (sncndn_main eps factors (im x) (compl k) He) as (N' & s' & c' & q & F' & S' & C' & B' & _); [rewrite Rabs_pos_eq by lra; exact M'|exact L|]. rewrite (Rabs_pos_eq (compl k)) in B' by lra.
  destruct (quarter eps (compl k) (im x) q Hc Y0 ltac:(lra) B' Y1) as (Q1 & _). assert (C0 : 0 < c') by (rewrite C'; apply cos_gt_0; lra).
  assert (Dp : 0 < c' * c' + k * k * s' * s' * s * s). { assert (0 < c' * c') by nra. assert (0 <= (k * s' * s) * (k * s' * s)) by exact (Rle_0_sqr _). nra. }
  exists (max N N'). eexists. intros fuel Hf. unfold EllipticSN_C, EllipticSNCNDN_C. rewrite F by lia. cbn [bind]. unfold sqrt_ at 1. destruct (Rle_dec 0 (1 - k * k)) as [|NK]; [|exfalso; apply NK; clear - Hk; nra]. cbn [bind]. fold (compl k). rewrite F' by lia. cbn [bind]. unfold cdiv_. destruct (Req_EM_T _ 0) as [ZD|]; [exfalso; clear - Dp ZD; lra|]. cbn [bind]. reflexivity.
Qed.
Lemma body_total order pr sr p : / 2 ^ 127 <= eps <= / 2 ^ 22 -> lenZ factors = 32%Z -> (0 < order < 2 ^ 64)%Z -> 0 < pr -> 0 < sr -> sr < 1 - pr -> params_ok eps pr sr p -> mild eps order p -> exists N sys, forall fuel, (N <= fuel)%nat -> elliptic_body eps fuel factors order pr p = Ok sys.
Proof.
  intros He L Ho Hp Hs HL PO M. assert (E0 : 0 < eps <= / 2 ^ 22) by (split; [eapply Rlt_le_trans; [|apply He]; apply Rinv_0_lt_compat, pow_lt; lra|apply He]). assert (P22 : / 2 ^ 22 <= 1 / 1000000) by (cbn [pow]; lra). pose proof PO as (E1 & E2 & Hk & _). pose proof M as (M1 & M2 & M3 & _). pose proof (selectivity_bounds pr sr Hp Hs HL) as Hk1. rewrite <- E2 in Hk1. destruct (compl_bounds _ Hk1) as [Hc1 Cc1]. destruct (ripple_factor_pos pr ltac:(lra)) as [Re _]. rewrite <- E1 in Re.
  assert (Y0 : 0 < 1 / eepsilon p) by (apply Rdiv_lt_0_compat; lra). destruct (arcsn_imag_main eps (ek1 p) (compl (ek1 p)) (1 / eepsilon p) E0 ltac:(rewrite Rabs_pos_eq by lra; lra) ltac:(lra) Cc1 Y0) as (Nd & a & Fd & _).
  set (v0 := a * (eK p / IZR order / eK1 p)). assert (Ed : forall fuel, (Nd <= fuel)%nat -> depth eps fuel p order = Ok v0). { intros fuel Hf. unfold depth, fdiv_. destruct (Req_EM_T (eepsilon p) 0) as [|_]; [lra|]. cbn [bind]. rewrite Fd by exact Hf. reflexivity. }
  destruct (depth_bounds eps Nd order p pr sr v0 E0 ltac:(lia) Hp Hs HL PO M (Ed Nd (le_n Nd))) as [V0 V1].
  destruct (fill_total C0 (fun fuel i => zero_of eps fuel factors p order i) (order / 2) (repeat C0 (Z.to_nat (order / 2)))) as (N1 & zs & F1); [apply len_repeat; lia| |].
  { intros j Hj. set (i := (2 * j + 1 + order mod 2)%Z). destruct (arg_bounds eps order p pr sr i E0 ltac:(lia) ltac:(unfold i; lia) PO M3) as (A1 & A2 & A3). specialize (A3 ltac:(unfold i; lia)). destruct (sncndn_main eps factors (IZR i * eK p / IZR order) (ek p) He) as (N & s & c & q & F & S & _ & B & _); [rewrite Rabs_pos_eq by lra; exact M1|exact L|]. rewrite (Rabs_pos_eq (ek p)) in B by lra. rewrite (Rmult_comm (IZR i)) in B.
    destruct (quarter eps _ _ q Hk A1 ltac:(lra) B A2) as (Q1 & Q2 & _). specialize (Q2 A3). assert (S0 : 0 < s) by (rewrite S; apply sin_gt_0; lra). exists N. eexists. intros fuel Hf. unfold zero_of, EllipticSN. fold i. rewrite F by exact Hf. cbn [bind]. unfold fdiv_. destruct (Req_EM_T (ek p * s) 0) as [ZD|]; [exfalso; clear - ZD S0 Hk; nra|]. cbn [bind]. reflexivity. }
  assert (SN : forall i, (0 <= i <= order - 1)%Z -> exists N sn, (forall fuel, (N <= fuel)%nat -> EllipticSN_C eps fuel factors (mkC (eK p * IZR i / IZR order) v0) (ek p) = Ok sn) /\ 0 < im sn /\ ((i = 0)%Z -> re sn = 0)).
  { intros i Hi. destruct (arg_bounds eps order p pr sr i E0 ltac:(lia) Hi PO M3) as (A1 & A2 & _). destruct (snC_total (mkC (eK p * IZR i / IZR order) v0) (ek p)) as (N & sn & F); try assumption; [cbn; lra|]. exists N, sn. split; [exact F|]. pose proof (F N (le_n N)) as Es. apply snC_sign in Es; try assumption. destruct Es as (S1 & _ & S3). split; [exact S1|]. intros ->. apply S3. cbn [re]. unfold Rdiv. ring. }
  destruct (fill_total 0 (fun fuel i => real_pole_of eps fuel factors p order v0 i) (order mod 2) (repeat (-1) (Z.to_nat (order mod 2)))) as (N2 & rs & F2); [apply len_repeat; lia| |].
  { intros j Hj. destruct (SN 0%Z ltac:(lia)) as (N & sn & F & S1 & S3). specialize (S3 eq_refl). exists N, (re (Cmul Ci sn)). intros fuel Hf. unfold real_pole_of, pole_arg. rewrite real_index by lia. rewrite F by exact Hf. cbn [bind]. unfold assert_. assert (I : Rabs (im (Cmul Ci sn)) < 1 / 1000 * Rabs (re (Cmul Ci sn))). { cbn. rewrite S3. replace (0 * im sn + 1 * 0) with 0 by ring. rewrite Rabs_R0. assert (0 < Rabs (0 * 0 - 1 * im sn)) by (apply Rabs_pos_lt; lra). lra. } destruct (Rlt_dec _ _); [reflexivity|tauto]. }
  destruct (fill_total C0 (fun fuel i => pole_of eps fuel factors p order v0 (order mod 2 + i)) (order / 2) (repeat C0 (Z.to_nat (order / 2)))) as (N3 & cs & F3); [apply len_repeat; lia| |].
  { intros j Hj. destruct (pair_index order j Ho Hj) as [I1 I2]. destruct (SN (2 * j + 1 + order mod 2)%Z ltac:(lia)) as (N & sn & F & _). exists N, (Cmul Ci sn). intros fuel Hf. unfold pole_of, pole_arg. rewrite I1, F by exact Hf. reflexivity. }
  assert (NZ : fp_eval (K := Rring) (fun r => r) (mk_fp [] zs) 0 <> 0).
  { intros Z. apply (f_equal RtoC) in Z. rewrite C24_factored_eval_real, <- pnode_vanishing in Z. unfold pnode in Z. apply prodC_zero in Z as (c & Hc & Ec). pose proof (F1 N1 (le_n N1)) as E. apply fill_inv in E; [|apply len_repeat; lia]. destruct E as [Lz Fz].
    assert (G : forall z, In z zs -> z <> RtoC 0). { intros z Hz. apply In_nthZ in Hz as (j & Hj & Ej). destruct (Fz j ltac:(lia)) as (v & Ev & Nv). rewrite Ej in Nv. injection Nv as <-. apply zero_of_inv in Ev; [|exact Hk]. intros ->. destruct Ev as [_ Ev]. cbn in Ev. rewrite Rabs_R0 in Ev. assert (0 < 1 / ek p) by (apply Rdiv_lt_0_compat; lra). lra. }
    assert (Ec' : c = RtoC 0) by (transitivity (Csub (RtoC 0) (Csub (RtoC 0) c)); [ring|rewrite Ec; ring]). subst c. unfold all_roots in Hc. rewrite mk_fp_real, mk_fp_pairs in Hc. cbn [map app] in Hc. apply in_app_or in Hc as [Hc|Hc]; [now apply (G _ Hc)|]. apply in_map_iff in Hc as (c & Ec' & Hc). apply (G _ Hc). rewrite <- (Cconj_conj c), Ec'. unfold Cconj, RtoC. cbn. now rewrite Ropp_0. }
  exists (max (max Nd N1) (max N2 N3)). eexists. intros fuel Hf. unfold elliptic_body. rewrite F1 by lia. cbn [bind]. rewrite Ed by lia. cbn [bind]. rewrite F2 by lia. cbn [bind]. rewrite F3 by lia. cbn [bind]. unfold system_of, fdiv_. destruct (Req_EM_T _ 0); [tauto|]. cbn [bind]. reflexivity.
Qed.
End Total.
