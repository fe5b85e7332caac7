(** C61: the elliptic (Cauer) design method. *)
From Coq Require Import Reals Lra Lia ZArith List Bool Psatz Permutation.
From Coquelicot Require Import Rcomplements Rbar Hierarchy RInt RInt_gen.
From Verif Require Import Base BaseFacts Complex KernelProofs ConvModel ConvProofs IirModel IirProofs PolyModel PolyProofs SysModel SysProofs PropsPoly PropsSys RootModel RootProofs ZmapProofs DesignProofs ButterProofs BandProofs PropsDesign SolverModel PropsSolver ChebyModel ChebyProofs PropsCheby EllipticModel EllipticSpec EllipticAM EllipticRF EllipticInv EllipticJacobi PropsElliptic EllipticProto EllipticDegree JacobiReal JacobiComplex EllipticRational EllipticTransform EllipticResponse UniformLimit EllipticLimit EllipticLocate EllipticRipple.
From Coq Require Import ZifyBool ZifyNat.
Ltac Zify.zify_post_hook ::= Z.div_mod_to_equations.
Open Scope R_scope.

(** ** Specification *)
(** legal ripples: the passband may fall to 1 - passband, the stopband rise to stopband *)
Definition legal_ripples (passband stopband : R) : Prop := 0 < passband /\ 0 < stopband /\ stopband < 1 - passband.
(** the gain at frequency zero *)
Definition dc_gain (order : Z) (passband : R) : R := if (order mod 2 =? 0)%Z then 1 - passband else 1.
(** K(k) / K'(k), the quotient of the complete elliptic integrals *)
Definition K_ratio (k : R) : R := legendre_K k / legendre_K (sqrt (1 - k * k)).
(** the discrimination factor: ratio of the ripple factors of the two bands *)
Definition discrimination (passband stopband : R) : R := sqrt (1 / (1 - passband) ^ 2 - 1) / sqrt (1 / stopband ^ 2 - 1).
(** number of zeros of the prototype; the others are at infinity *)
Definition finite_zeros (order : Z) : Z := (2 * (order / 2))%Z.
(** the squared magnitude the prototype approaches far beyond the edge *)
Definition power_far (order : Z) (proto : zpk) : R := if (order mod 2 =? 0)%Z then gain proto ^ 2 else 0.
(** what the prototype has to be *)
Definition cauer_prototype (order : Z) (passband : R) (s : zpk) : Prop :=
  well_formed s /\ pole_count s = order /\ zero_count s = finite_zeros order /\ stable_continuous s /\
  (forall z, In z (all_roots (zeros s)) -> re z = 0 /\ 1 < Rabs (im z)) /\ transfer_at s C0 = RtoC (dc_gain order passband).
(** tolerances for which a statement holds: every unit roundoff below eps0, every bisection of at least L steps *)
Definition when_fine (P : R -> R -> nat -> Prop) : Prop :=
  exists eps0 L, 0 < eps0 <= / 2 ^ 22 /\ forall eps tmax limit, / 2 ^ 127 <= eps <= eps0 -> 1 <= tmax -> (L <= limit)%nat -> P eps tmax limit.

(** a solution of the degree equation: the passband ends at 1, the stopband starts at 1 / k *)
Definition solves_degree (order : Z) (passband stopband k : R) : Prop := 0 < k < 1 /\ K_ratio k = IZR order * K_ratio (discrimination passband stopband).
(** a squared magnitude that may be used in the passband and in the stopband, up to an error *)
Definition in_pass (passband error y : R) : Prop := (1 - passband) ^ 2 - error <= y <= 1 + error.
Definition in_stop (stopband error y : R) : Prop := 0 <= y <= stopband ^ 2 + error.
(** the prototype stays within the ripples *)
Definition equiripple (passband stopband k error : R) (power : R -> R) (far : R) : Prop :=
  (forall x, -1 <= x <= 1 -> in_pass passband error (power x)) /\ (forall x, 1 <= k * Rabs x -> in_stop stopband error (power x)) /\ (forall x, power x <= 1 + error) /\ in_stop stopband error far.

(** ** Evenness *)
Lemma roots_conj (p : fp) : Permutation (map Cconj (all_roots p)) (all_roots p).
Proof.
  unfold all_roots. rewrite !map_app, !map_map. rewrite (map_ext (fun x => Cconj (RtoC x)) RtoC) by apply Cconj_R. apply Permutation_app_head. rewrite (map_ext (fun x => Cconj (Cconj x)) (fun x => x)) by apply Cconj_conj. rewrite map_id. apply Permutation_app_comm.
Qed.
Lemma vanish_conj p z : vanishing_product (all_roots p) (Cconj z) = Cconj (vanishing_product (all_roots p) z).
Proof.
  rewrite <- !pnode_vanishing. rewrite <- (pnode_perm _ _ (Cconj z) (roots_conj p)). unfold pnode. rewrite Cconj_prod. generalize (all_roots p). intros r. induction r as [|a l IH]; [reflexivity|]. cbn [map]. unfold prodK in *. cbn [fold_right rmul Cring] in *. rewrite Cconj_sub. f_equal. exact IH.
Qed.
Lemma transfer_conj s z : transfer_at s (Cconj z) = Cconj (transfer_at s z).
Proof. unfold transfer_at, Cdiv. rewrite !vanish_conj, !Cconj_mul, Cconj_inv, Cconj_R. reflexivity. Qed.
Lemma power_even s w : power_continuous s (- w) = power_continuous s w.
Proof. unfold power_continuous. rewrite !Cabs_sq. rewrite <- (Cnorm2_conj (transfer_at s (mkC 0 w))), <- transfer_conj. reflexivity. Qed.

(** ** C61 *)
Lemma tiny : 0 < / 2 ^ 127. Proof. apply Rinv_0_lt_compat, pow_lt. lra. Qed.
(** whatever the precision: a prototype that is returned has the right numbers of poles and zeros, its zeros are on the imaginary axis beyond the passband edge, and its gain at frequency zero is right *)
Theorem C61_structure : forall eps fuel factors tmax limit order passband stopband s, (0 < order)%Z -> Elliptic eps fuel factors tmax limit order passband stopband = Ok s ->
  well_formed s /\ pole_count s = order /\ zero_count s = finite_zeros order /\ (forall z, In z (all_roots (zeros s)) -> re z = 0 /\ 1 < Rabs (im z)).
Proof. intros eps fuel factors tmax limit order pr sr s Ho E. destruct (elliptic_structure _ _ _ _ _ _ _ _ _ Ho E) as (W & P & Z & Im & _). exact (conj W (conj P (conj Z Im))). Qed.
Theorem C61_dc_gain : forall eps fuel factors tmax limit order passband stopband s, (0 < order)%Z -> Elliptic eps fuel factors tmax limit order passband stopband = Ok s -> ~ is_pole s C0 -> transfer_at s C0 = RtoC (dc_gain order passband).
Proof. intros eps fuel factors tmax limit order pr sr s Ho E. destruct (elliptic_structure _ _ _ _ _ _ _ _ _ Ho E) as (_ & _ & _ & _ & D & _). exact D. Qed.
(** the selectivity factor solves the degree equation up to the resolution of the bisection and the rounding of the integrals *)
Theorem C61_degree_equation : forall eps tmax limit order passband stopband, eps_rf eps -> 1 <= tmax -> (0 < order)%Z -> legal_ripples passband stopband ->
  exists N p a b, (forall fuel, (N <= fuel)%nat -> EllipticOrderRipples eps fuel tmax limit order passband stopband = Ok p) /\
    a < ek p < b /\ 0 <= a /\ b <= 1 /\ b - a = / 2 ^ limit /\
    (0 < a -> K_ratio a <= IZR order * K_ratio (discrimination passband stopband) * (1 + 3 * eps)) /\
    (b < 1 -> IZR order * K_ratio (discrimination passband stopband) * (1 - 3 * eps) <= K_ratio b).
Proof.
  intros eps tmax limit order pr sr He Ht Ho (P & S & L). destruct (degree_bracket eps tmax limit order pr sr He Ht Ho P S L) as (N & p & a & b & F & Ek & Ha & Hb & W & Fa & Fb). exists N, p, a, b. split; [exact F|]. split; [lra|]. split; [lra|]. split; [lra|]. split; [lra|]. split; intros H; [destruct Fa as [Fa|Fa]|destruct Fb as [Fb|Fb]]; [exfalso; lra|exact Fa|exfalso; lra|exact Fb].
Qed.
(** the exact solution exists and is unique *)
Theorem C61_degree_equation_solvable : forall order passband stopband, (0 < order)%Z -> legal_ripples passband stopband -> exists! k, 0 < k < 1 /\ K_ratio k = IZR order * K_ratio (discrimination passband stopband).
Proof.
  intros order pr sr Ho (P & S & L). pose proof (selectivity_bounds pr sr P S L) as SB. destruct (Kq_onto (degree order pr sr)) as (k & Hk & E); [unfold degree; apply Rmult_lt_0_compat; [apply IZR_lt; lia|now apply Kq_pos]|]. exists k. split; [split; [exact Hk|exact E]|]. intros m [Hm Em]. assert (Q : Kq k = Kq m) by (transitivity (degree order pr sr); [exact E|symmetry; exact Em]).
  destruct (Rtotal_order k m) as [H|[H|H]]; [|exact H|]; exfalso; [pose proof (Kq_incr k m)|pose proof (Kq_incr m k)]; lra.
Qed.
(** in the limit of infinite precision the selectivity factor is that solution *)
Theorem C61_degree_equation_limit : forall order passband stopband, (0 < order)%Z -> legal_ripples passband stopband ->
  forall k, 0 < k < 1 -> K_ratio k = IZR order * K_ratio (discrimination passband stopband) -> forall d, 0 < d ->
  exists eps0 L, 0 < eps0 <= / 2 ^ 22 /\ forall eps tmax limit, 0 < eps <= eps0 -> 1 <= tmax -> (L <= limit)%nat ->
  exists N p, (forall fuel, (N <= fuel)%nat -> EllipticOrderRipples eps fuel tmax limit order passband stopband = Ok p) /\ Rabs (ek p - k) < d.
Proof.
  intros order pr sr Ho (P & S & L) k Hk Ek d Hd. pose proof (selectivity_bounds pr sr P S L) as SB. set (Q := IZR order * K_ratio (discrimination pr sr)) in *. assert (Q0 : 0 < Q) by (rewrite <- Ek; exact (Kq_pos k Hk)).
  set (dd := Rmin (d / 2) (Rmin (k / 2) ((1 - k) / 2))). assert (D0 : 0 < dd) by (unfold dd; repeat apply Rmin_glb_lt; lra). assert (D1 : dd <= d / 2) by apply Rmin_l. assert (D2 : dd <= k / 2) by (eapply Rle_trans; [apply Rmin_r|apply Rmin_l]). assert (D3 : dd <= (1 - k) / 2) by (eapply Rle_trans; [apply Rmin_r|apply Rmin_r]).
  pose proof (Kq_incr (k - dd) k ltac:(lra) ltac:(lra)) as Lo. pose proof (Kq_incr k (k + dd) ltac:(lra) ltac:(lra)) as Hi. change (Kq k) with (K_ratio k) in Lo, Hi. rewrite Ek in Lo, Hi. set (lo := Kq (k - dd)) in *. set (hi := Kq (k + dd)) in *.
  destruct (half_small (Rmin (d / 2) (Rmin (k - dd) (1 - k - dd)))) as [M HM]; [repeat apply Rmin_glb_lt; lra|].
  set (e := Rmin ((hi - Q) / (4 * Q)) ((Q - lo) / (4 * Q))). assert (E0 : 0 < e) by (apply Rmin_glb_lt; apply Rdiv_lt_0_compat; lra). assert (P22 : 0 < / 2 ^ 22) by (cbn [pow]; lra).
  exists (Rmin (/ 2 ^ 22) e), M. split; [split; [apply Rmin_glb_lt; lra|apply Rmin_l]|]. intros eps tmax limit He Ht Hl. assert (E1 : eps <= / 2 ^ 22) by (eapply Rle_trans; [apply He|apply Rmin_l]). assert (E2 : eps <= e) by (eapply Rle_trans; [apply He|apply Rmin_r]). assert (E3 : eps * (4 * Q) <= hi - Q) by (apply Rle_div_r; [lra|]; eapply Rle_trans; [exact E2|apply Rmin_l]). assert (E4 : eps * (4 * Q) <= Q - lo) by (apply Rle_div_r; [lra|]; eapply Rle_trans; [exact E2|apply Rmin_r]).
  destruct (degree_bracket eps tmax limit order pr sr ltac:(lra) Ht Ho P S L) as (N & p & a & b & F & Eb & Ha & Hb & W & Fa & Fb). exists N, p. split; [exact F|]. change (degree order pr sr) with Q in Fa, Fb. specialize (HM limit Hl). assert (M1 : 1 / 2 ^ limit < d / 2) by (eapply Rlt_le_trans; [exact HM|apply Rmin_l]). assert (M2 : 1 / 2 ^ limit < k - dd) by (eapply Rlt_le_trans; [exact HM|]; eapply Rle_trans; [apply Rmin_r|apply Rmin_l]). assert (M3 : 1 / 2 ^ limit < 1 - k - dd) by (eapply Rlt_le_trans; [exact HM|]; eapply Rle_trans; [apply Rmin_r|apply Rmin_r]).
  assert (A : a < k + dd). { destruct Fa as [->|Fa]; [lra|]. destruct (Req_dec a 0) as [->|Na]; [lra|]. apply Kq_lt_inv; [lra|lra|]. fold hi. apply Rle_lt_trans with (1 := Fa). nra. }
  assert (B : k - dd < b). { destruct Fb as [->|Fb]; [lra|]. destruct (Req_dec b 1) as [->|Nb]; [lra|]. apply Kq_lt_inv; [lra|lra|]. fold lo. apply Rlt_le_trans with (2 := Fb). nra. }
  rewrite Eb. apply Rabs_def1; lra.
Qed.
Lemma proto_fine order pr sr : (0 < order < 2 ^ 64)%Z -> legal_ripples pr sr -> when_fine (fun eps tmax limit => forall factors, lenZ factors = 32%Z ->
  exists N s, (forall fuel, (N <= fuel)%nat -> Elliptic eps fuel factors tmax limit order pr sr = Ok s) /\ cauer_prototype order pr s).
Proof.
  intros Ho (P & S & L). destruct (fine order pr sr ltac:(lia) P S L) as (eps0 & M & H0 & H). exists eps0, M. split; [exact H0|]. intros eps tmax limit He Ht Hl factors Hf. pose proof tiny. destruct (H eps tmax limit ltac:(lra) Ht Hl) as (N1 & p & F & Mi). destruct (body_total eps factors order pr sr p ltac:(lra) Hf Ho P S L) as (N2 & s & B); [|exact Mi|].
  { apply (params_inv eps N1 tmax limit order pr sr p); try assumption; [lra|]. apply F. lia. }
  assert (E : forall fuel, (max N1 N2 <= fuel)%nat -> Elliptic eps fuel factors tmax limit order pr sr = Ok s) by (intros fuel Hfu; rewrite elliptic_eq by lia; rewrite F by lia; cbn [bind]; apply B; lia).
  exists (max N1 N2), s. split; [exact E|]. specialize (E (max N1 N2) (le_n _)). destruct (elliptic_structure _ _ _ _ _ _ _ _ _ (proj1 Ho) E) as (W & Pc & Zc & Im & D & _).
  assert (St : stable_continuous s) by (exact (elliptic_stable eps (max N1 N2) factors tmax limit order pr sr p s ltac:(lra) Hf Ho P S L (F (max N1 N2) (Nat.le_max_l N1 N2)) Mi E)).
  split; [exact W|]. split; [exact Pc|]. split; [exact Zc|]. split; [exact St|]. split; [exact Im|]. apply D. intros Q. unfold is_pole in Q. rewrite <- pnode_vanishing in Q. exact (left_not_pole _ 0 St Q).
Qed.

(** with enough precision the prototype exists, whatever the array the amplitude works in held before, and is stable *)
Theorem C61_prototype : forall order passband stopband, (0 < order < 2 ^ 64)%Z -> legal_ripples passband stopband -> when_fine (fun eps tmax limit => forall factors, lenZ factors = 32%Z ->
  exists N s, (forall fuel, (N <= fuel)%nat -> Elliptic eps fuel factors tmax limit order passband stopband = Ok s) /\ cauer_prototype order passband s).
Proof. exact proto_fine. Qed.

Lemma power_ge0 s x : 0 <= power_continuous s x. Proof. unfold power_continuous. exact (pow2_ge_0 _). Qed.
Lemma far_ge0 order s : 0 <= power_far order s. Proof. unfold power_far. destruct (order mod 2 =? 0)%Z; [exact (pow2_ge_0 _)|lra]. Qed.
Lemma dc_square order pr : pr < 1 -> 0 < pr -> dc_gain order pr * dc_gain order pr = dc2 (ripple_factor pr * ripple_factor pr) (oo order).
Proof.
  intros H H0. unfold dc_gain, dc2, oo. destruct (Z.eqb_spec (order mod 2) 0) as [E|E].
  - rewrite E. cbn [Z.to_nat Nat.eqb]. rewrite (floor_pass pr ((1 - pr) / 2) (1 / 2)); [reflexivity|lra|lra].
  - assert (E1 : (order mod 2 = 1)%Z) by lia. rewrite E1. change (Nat.eqb (Z.to_nat 1) 0) with false. cbv iota. ring.
Qed.
Lemma ripple_fine order pr sr k dl : (0 < order < 2 ^ 64)%Z -> legal_ripples pr sr -> solves_degree order pr sr k -> 0 < dl -> when_fine (fun eps tmax limit => forall factors, lenZ factors = 32%Z ->
  exists N s, (forall fuel, (N <= fuel)%nat -> Elliptic eps fuel factors tmax limit order pr sr = Ok s) /\ cauer_prototype order pr s /\ equiripple pr sr k dl (power_continuous s) (power_far order s)).
Proof.
  intros Ho Hr (Hk & Ek) Hd. destruct (drawn_limit order pr sr k (proj1 Ho) Hr Hk Ek dl Hd) as (eta & H0 & Near). destruct (C61_degree_equation_limit order pr sr (proj1 Ho) Hr k Hk Ek eta H0) as (e1 & L1 & B1 & Lim). destruct (proto_fine order pr sr Ho Hr) as (e2 & L2 & B2 & Pro). pose proof Hr as (P & S & L). destruct (fine order pr sr ltac:(lia) P S L) as (e3 & L3 & B3 & Mil).
  exists (Rmin (eta / 2) (Rmin e1 (Rmin e2 e3))), (max L1 (max L2 L3)). assert (Q1 : Rmin (eta / 2) (Rmin e1 (Rmin e2 e3)) <= eta / 2) by apply Rmin_l. assert (Q2 : Rmin (eta / 2) (Rmin e1 (Rmin e2 e3)) <= e1) by (eapply Rle_trans; [apply Rmin_r|apply Rmin_l]). assert (Q3 : Rmin (eta / 2) (Rmin e1 (Rmin e2 e3)) <= e2) by (eapply Rle_trans; [apply Rmin_r|]; eapply Rle_trans; [apply Rmin_r|apply Rmin_l]). assert (Q4 : Rmin (eta / 2) (Rmin e1 (Rmin e2 e3)) <= e3) by (eapply Rle_trans; [apply Rmin_r|]; eapply Rle_trans; [apply Rmin_r|apply Rmin_r]).
  assert (Q0 : 0 < Rmin (eta / 2) (Rmin e1 (Rmin e2 e3))) by (repeat apply Rmin_glb_lt; lra). set (e0 := Rmin (eta / 2) (Rmin e1 (Rmin e2 e3))) in *. split; [lra|]. intros eps tmax limit He Ht Hl factors Hf. pose proof tiny as T0.
  destruct (Lim eps tmax limit ltac:(lra) Ht ltac:(lia)) as (N1 & p & F1 & Kp). destruct (Mil eps tmax limit ltac:(lra) Ht ltac:(lia)) as (N3 & p' & F3 & Mi). assert (p' = p). { specialize (F1 (max N1 N3) ltac:(lia)). specialize (F3 (max N1 N3) ltac:(lia)). congruence. } subst p'. destruct (Pro eps tmax limit ltac:(lra) Ht ltac:(lia) factors Hf) as (N2 & s & F2 & Cp). exists N2, s. split; [exact F2|]. split; [exact Cp|].
  assert (PO : params_ok eps pr sr p) by (apply (params_inv eps N1 tmax limit order pr sr p ltac:(lra) P S L); apply F1; lia). destruct Mi as ((_ & M1) & (_ & M2) & _). assert (Hek : 0 < ek p < 1) by apply PO.
  assert (EB : elliptic_body eps (max N1 N2) factors order pr p = Ok s). { specialize (F2 (max N1 N2) ltac:(lia)). rewrite elliptic_eq in F2 by lia. rewrite F1 in F2 by lia. exact F2. }
  pose proof (proj1 (compl_bounds _ Hek)) as Hce. destruct M1 as [M1|M1]; [lra|]. destruct M2 as [M2|M2]; [lra|]. apply (system_loc eps (max N1 N2) factors ltac:(lra) Hf order pr sr p Ho Hr PO M1 M2) in EB. destruct EB as (xz & xp & yp & yr & g & EB). cbv zeta in EB. destruct EB as (Es & Lz & Lr). destruct PO as (E1 & E2 & _). rewrite E1, E2 in Lz, Lr. fold (hh order) in Es, Lz. fold (oo order) in Es, Lr.
  set (x := Build_draw eps (ek p) xz xp yp yr). assert (Nx : near order pr sr k eta x). { split; [cbn; lra|]. split; [exact Kp|]. split; [intros j Hj; exact (proj2 (Lz j Hj))|exact Lr]. }
  specialize (Near x Nx). destruct Cp as (W & Pc & Zc & St & Im & D). rewrite Es in St, D. assert (StR : forall j, (j < oo order)%nat -> - im (snC (ek p) 0 (yr j)) <> 0). { intros j Hj Q. specialize (St (RtoC (- im (snC (ek p) 0 (yr j))))). cbn [poles] in St. cbn [RtoC re] in St. rewrite Q in St. apply (Rlt_irrefl 0). apply St. unfold all_roots. rewrite mk_fp_real. apply in_or_app. left. apply in_map_iff. exists (- im (snC (ek p) 0 (yr j))). split; [now rewrite Q|]. apply in_map_iff. exists j. split; [reflexivity|apply in_seq; lia]. }
  assert (StC : forall j, (j < hh order)%nat -> re (Cmul Ci (snC (ek p) (xp j) (yp j))) <> 0). { intros j Hj Q. specialize (St (Cmul Ci (snC (ek p) (xp j) (yp j)))). rewrite Q in St. apply (Rlt_irrefl 0). apply St. cbn [poles]. unfold all_roots. rewrite mk_fp_pairs. apply in_or_app. right. apply in_or_app. left. apply in_map_iff. exists j. split; [reflexivity|apply in_seq; lia]. }
  assert (Zi : forall j, (j < hh order)%nat -> re (mkC 0 (1 / (ek p * sn (ek p) (xz j)))) = 0 /\ im (mkC 0 (1 / (ek p * sn (ek p) (xz j)))) <> 0). { intros j Hj. destruct (Lz j Hj) as [Nz _]. split; [reflexivity|]. cbn [im]. unfold Rdiv. rewrite Rmult_1_l. now apply Rinv_neq_0_compat. }
  assert (PW : forall w, Rabs (power_continuous s w - response k (nn order) (ripple_factor pr * ripple_factor pr) w) < dl).
  { intros w. specialize (Near w). match type of Near with Rabs (?a - _) < _ => replace (power_continuous s w) with a; [exact Near|] end. rewrite Es. rewrite (power_form (hh order) (oo order) g _ _ _ _ w Zi StR StC D). unfold drawn. cbn [d_k d_xz d_xp d_yp d_yr x]. rewrite <- dc_square by lra. f_equal; [f_equal|].
    - apply iprod_ext. intros j Hj. f_equal. ring.
    - apply iprod_ext. intros j Hj. apply in_seq in Hj. destruct (Lz j ltac:(lia)) as [Nz _]. f_equal.
      + cbn [im]. field. split; intros Q; apply Nz; rewrite Q; ring.
      + rewrite Cnorm2_mul. unfold Cnorm2. cbn. ring.
      + cbn. ring. }
  assert (Stop : forall x0, 1 <= k * Rabs x0 -> power_continuous s x0 <= sr ^ 2 + dl). { intros v Hv. specialize (PW v). assert (Hv2 : 1 <= k * k * (v * v)). { replace (k * k * (v * v)) with ((k * Rabs v) * (k * Rabs v)); [nra|]. assert (Rabs v * Rabs v = v * v) by (rewrite <- Rabs_mult; apply Rabs_pos_eq; exact (Rle_0_sqr v)). nra. } pose proof (ideal_stop order pr sr k (proj1 Ho) Hr Hk Ek v Hv2). apply Rabs_def2 in PW. cbn [pow]. lra. }
  split; [|split; [|split]].
  - intros v Hv. specialize (PW v). pose proof (ideal_pass order pr sr k Hr Hk v Hv). apply Rabs_def2 in PW. unfold in_pass. cbn [pow]. lra.
  - intros v Hv. split; [apply power_ge0|now apply Stop].
  - intros v. specialize (PW v). pose proof (ideal_le1 order pr sr k (proj1 Ho) Hr Hk Ek v). apply Rabs_def2 in PW. lra.
  - split; [apply far_ge0|]. unfold power_far. destruct (Z.eqb_spec (order mod 2) 0) as [E|E]; [|pose proof (pow2_ge_0 sr); lra]. assert (O0 : oo order = 0%nat) by (unfold oo; rewrite E; reflexivity). rewrite O0 in Es. change (map (fun j => - im (snC (ek p) 0 (yr j))) (seq 0 0)) with (@nil R) in Es.
    replace (gain s ^ 2) with (g * g) by (rewrite Es; cbn; ring). apply (far_bound (hh order) g _ _ (sr ^ 2 + dl) (/ k) (fun j Hj => proj1 (Zi j Hj)) StC). rewrite <- Es. intros v Hv. apply Stop. assert (K0 : 0 < / k) by (apply Rinv_0_lt_compat; lra). rewrite Rabs_pos_eq by lra. apply (Rmult_le_reg_l (/ k)); [exact K0|]. rewrite <- Rmult_assoc, Rinv_l, Rmult_1_r, Rmult_1_l by lra. exact Hv.
Qed.
(** the full statement about the prototype: with enough precision its squared magnitude stays in the two ripple bands, up to any given error, at every frequency *)
Theorem C61_equiripple : forall order passband stopband k error, (0 < order < 2 ^ 64)%Z -> legal_ripples passband stopband -> solves_degree order passband stopband k -> 0 < error -> when_fine (fun eps tmax limit => forall factors, lenZ factors = 32%Z ->
  exists N s, (forall fuel, (N <= fuel)%nat -> Elliptic eps fuel factors tmax limit order passband stopband = Ok s) /\ cauer_prototype order passband s /\ equiripple passband stopband k error (power_continuous s) (power_far order s)).
Proof. exact ripple_fine. Qed.

Lemma hb_ell order pr s : (0 < order)%Z -> cauer_prototype order pr s -> exists hb, DiscretizePrototype s = Ok hb /\ halfband hb order (power_continuous s) (power_far order s).
Proof.
  intros Ho (W & Pc & Zc & St & Im & D). destruct (counts s W) as [Cz Cp]. unfold finite_zeros in Zc.
  destruct (proto_general s order (power_continuous s)) as (hb & E & H); [exact Ho|exact W|lia|lia|exact St|intros z Hz; apply Im in Hz; lra| |].
  - intros w. unfold power_continuous. now rewrite Cabs_sq.
  - exists hb. split; [exact E|]. replace (power_far order s) with (limit_power s); [exact H|]. unfold limit_power, power_far. destruct (Z.eqb_spec (order mod 2) 0) as [Q|Q]; [replace (_ =? _)%Z with true by lia|replace (_ =? _)%Z with false by lia]; reflexivity.
Qed.
Lemma power_dc order pr s : cauer_prototype order pr s -> power_continuous s 0 = dc_gain order pr ^ 2.
Proof. intros (_ & _ & _ & _ & _ & D). unfold power_continuous. change (mkC 0 0) with C0. rewrite D, Cabs_sq. unfold Cnorm2. cbn. ring. Qed.
(** what the four design methods return: the prototype seen through the frequency variable x(w), hence passband, stopband and everything between *)
Definition same_filter (s : zpk) (order : Z) : Prop := well_formed s /\ pole_count s = order /\ zero_count s = order /\ stable s.
Lemma far_1 pr sr er far : legal_ripples pr sr -> in_stop sr er far -> 0 <= far <= 1 + er.
Proof. intros (P & S & L) [H1 H2]. split; [exact H1|]. assert (sr ^ 2 <= 1) by (cbn; nra). lra. Qed.
Theorem C61_lowpass : forall order cutoff passband stopband k error, (0 < order < 2 ^ 64)%Z -> 0 < cutoff < 1 -> legal_ripples passband stopband -> solves_degree order passband stopband k -> 0 < error -> when_fine (fun eps tmax limit => forall factors, lenZ factors = 32%Z ->
  exists N proto s, cauer_prototype order passband proto /\ (forall fuel, (N <= fuel)%nat -> DesignEllipticLowpass eps fuel factors tmax limit order cutoff passband stopband = Ok s) /\ same_filter s order /\
    (forall w, - PI < w < PI -> power_at s w = power_continuous proto (low_variable cutoff w)) /\ power_at s 0 = dc_gain order passband ^ 2 /\ power_at s PI = power_far order proto /\
    (forall w, 0 <= w <= cutoff * PI -> in_pass passband error (power_at s w)) /\ (forall w, 0 <= w < PI -> 1 <= k * low_variable cutoff w -> in_stop stopband error (power_at s w)) /\ in_stop stopband error (power_at s PI) /\ (forall w, cutoff * PI < w <= PI -> 0 <= power_at s w <= 1 + error)).
Proof.
  intros order c pr sr k er Ho Hc Hr Hk Her. destruct (ripple_fine order pr sr k er Ho Hr Hk Her) as (eps0 & L & H0 & H). exists eps0, L. split; [exact H0|]. intros eps tmax limit He Ht Hl factors Hf. destruct (H eps tmax limit He Ht Hl factors Hf) as (N & proto & E & Cp & Rp & Rs & R1 & Rf). destruct (hb_ell order pr proto (proj1 Ho) Cp) as (hb & Eh & Hb).
  destruct (gen_low hb order (power_continuous proto) (power_far order proto) (in_pass pr er) (fun y => 0 <= y <= 1 + er) (proj2 Ho) Hb (power_even proto) Rp (fun x _ => conj (power_ge0 proto x) (R1 x)) (far_1 pr sr er _ Hr Rf) c Hc) as (s & Es & W & Pc & Zc & St & V & V0 & Vp & V1 & Ps & Qs).
  exists N, proto, s. split; [exact Cp|]. split; [intros fuel Hfu; unfold DesignEllipticLowpass, PrototypeElliptic; rewrite (E fuel Hfu); cbn [bind]; rewrite Eh; cbn [bind]; exact Es|]. split; [exact (conj W (conj Pc (conj Zc St)))|]. split; [exact V|]. split; [rewrite V0; exact (power_dc _ _ _ Cp)|]. split; [exact Vp|]. split; [exact Ps|]. split; [|split; [rewrite Vp; exact Rf|exact Qs]].
  intros w Hw Hx. rewrite V by (pose proof PI_RGT_0; lra). apply Rs. pose proof (Rle_abs (low_variable c w)) as A. destruct Hk as [Hk _]. nra.
Qed.
Theorem C61_highpass : forall order cutoff passband stopband k error, (0 < order < 2 ^ 64)%Z -> 0 < cutoff < 1 -> cutoff <> 1 / 2 -> legal_ripples passband stopband -> solves_degree order passband stopband k -> 0 < error -> when_fine (fun eps tmax limit => forall factors, lenZ factors = 32%Z ->
  exists N proto s, cauer_prototype order passband proto /\ (forall fuel, (N <= fuel)%nat -> DesignEllipticHighpass eps fuel factors tmax limit order cutoff passband stopband = Ok s) /\ same_filter s order /\
    (forall w, 0 < w < PI -> power_at s w = power_continuous proto (high_variable cutoff w)) /\ power_at s 0 = power_far order proto /\ power_at s PI = dc_gain order passband ^ 2 /\
    (forall w, cutoff * PI <= w <= PI -> in_pass passband error (power_at s w)) /\ (forall w, 0 < w < PI -> 1 <= k * high_variable cutoff w -> in_stop stopband error (power_at s w)) /\ in_stop stopband error (power_at s 0) /\ (forall w, 0 <= w < cutoff * PI -> 0 <= power_at s w <= 1 + error)).
Proof.
  intros order c pr sr k er Ho Hc Hn Hr Hk Her. destruct (ripple_fine order pr sr k er Ho Hr Hk Her) as (eps0 & L & H0 & H). exists eps0, L. split; [exact H0|]. intros eps tmax limit He Ht Hl factors Hf. destruct (H eps tmax limit He Ht Hl factors Hf) as (N & proto & E & Cp & Rp & Rs & R1 & Rf). destruct (hb_ell order pr proto (proj1 Ho) Cp) as (hb & Eh & Hb).
  destruct (gen_high hb order (power_continuous proto) (power_far order proto) (in_pass pr er) (fun y => 0 <= y <= 1 + er) (proj2 Ho) Hb (power_even proto) Rp (fun x _ => conj (power_ge0 proto x) (R1 x)) (far_1 pr sr er _ Hr Rf) c Hc Hn) as (s & Es & W & Pc & Zc & St & V & V0 & Vp & V1 & Ps & Qs).
  exists N, proto, s. split; [exact Cp|]. split; [intros fuel Hfu; unfold DesignEllipticHighpass, PrototypeElliptic; rewrite (E fuel Hfu); cbn [bind]; rewrite Eh; cbn [bind]; exact Es|]. split; [exact (conj W (conj Pc (conj Zc St)))|]. split; [exact V|]. split; [exact V0|]. split; [rewrite Vp; exact (power_dc _ _ _ Cp)|]. split; [exact Ps|]. split; [|split; [rewrite V0; exact Rf|exact Qs]].
  intros w Hw Hx. rewrite V by exact Hw. apply Rs. pose proof (Rle_abs (high_variable c w)) as A. destruct Hk as [Hk _]. nra.
Qed.
Theorem C61_bandpass : forall order lower upper passband stopband k error, (0 < order < 2 ^ 64)%Z -> (order mod 2 = 0)%Z -> 0 < lower -> lower < upper -> upper < 1 -> upper - lower <> 1 / 2 -> legal_ripples passband stopband -> solves_degree (order / 2) passband stopband k -> 0 < error -> when_fine (fun eps tmax limit => forall factors, lenZ factors = 32%Z ->
  exists N proto s, cauer_prototype (order / 2) passband proto /\ (forall fuel, (N <= fuel)%nat -> DesignEllipticBandpass eps fuel factors tmax limit order lower upper passband stopband = Ok s) /\ same_filter s order /\
    (forall w, 0 < w < PI -> power_at s w = power_continuous proto (band_variable lower upper w)) /\ power_at s 0 = power_far (order / 2) proto /\ power_at s PI = power_far (order / 2) proto /\
    (forall w, lower * PI <= w <= upper * PI -> in_pass passband error (power_at s w)) /\ (forall w, 0 < w < PI -> 1 <= k * Rabs (band_variable lower upper w) -> in_stop stopband error (power_at s w)) /\ in_stop stopband error (power_at s 0) /\ in_stop stopband error (power_at s PI) /\
    (forall w, 0 <= w < lower * PI \/ upper * PI < w <= PI -> 0 <= power_at s w <= 1 + error)).
Proof.
  intros order lo hi pr sr k er Ho He2 H1 H2 H3 H4 Hr Hk Her. assert (Ho2 : (0 < order / 2 < 2 ^ 64)%Z) by lia. destruct (ripple_fine (order / 2) pr sr k er Ho2 Hr Hk Her) as (eps0 & L & H0 & H). exists eps0, L. split; [exact H0|]. intros eps tmax limit He Ht Hl factors Hf. destruct (H eps tmax limit He Ht Hl factors Hf) as (N & proto & E & Cp & Rp & Rs & R1 & Rf). destruct (hb_ell (order / 2) pr proto (proj1 Ho2) Cp) as (hb & Eh & Hb).
  destruct (gen_bandpass hb (order / 2) (power_continuous proto) (power_far (order / 2) proto) (in_pass pr er) (fun y => 0 <= y <= 1 + er) (proj2 Ho2) Hb (power_even proto) Rp (fun x _ => conj (power_ge0 proto x) (R1 x)) (far_1 pr sr er _ Hr Rf) lo hi H1 H2 H3 H4) as (s & Es & W & Pc & Zc & St & V & V0 & Vp & V1 & V2 & Ps & Qs).
  exists N, proto, s. split; [exact Cp|]. split; [intros fuel Hfu; unfold DesignEllipticBandpass, PrototypeElliptic, assert_; replace (order mod 2 =? 0)%Z with true by lia; rewrite (E fuel Hfu); cbn [bind]; rewrite Eh; cbn [bind]; exact Es|]. replace order with (2 * (order / 2))%Z at 1 by lia. split; [exact (conj W (conj Pc (conj Zc St)))|]. split; [exact V|]. split; [exact V0|]. split; [exact Vp|]. split; [exact Ps|]. split; [|split; [rewrite V0; exact Rf|split; [rewrite Vp; exact Rf|exact Qs]]].
  intros w Hw Hx. rewrite V by exact Hw. now apply Rs.
Qed.
Theorem C61_bandstop : forall order lower upper passband stopband k error, (0 < order < 2 ^ 64)%Z -> (order mod 2 = 0)%Z -> 0 < lower -> lower < upper -> upper < 1 -> legal_ripples passband stopband -> solves_degree (order / 2) passband stopband k -> 0 < error -> when_fine (fun eps tmax limit => forall factors, lenZ factors = 32%Z ->
  exists N proto s, cauer_prototype (order / 2) passband proto /\ (forall fuel, (N <= fuel)%nat -> DesignEllipticBandstop eps fuel factors tmax limit order lower upper passband stopband = Ok s) /\ same_filter s order /\
    (forall w, 0 < w < PI -> band_variable lower upper w <> 0 -> power_at s w = power_continuous proto (1 / band_variable lower upper w)) /\ (forall w, 0 < w < PI -> band_variable lower upper w = 0 -> power_at s w = power_far (order / 2) proto) /\
    power_at s 0 = dc_gain (order / 2) passband ^ 2 /\ power_at s PI = dc_gain (order / 2) passband ^ 2 /\
    (forall w, 0 <= w <= lower * PI \/ upper * PI <= w <= PI -> in_pass passband error (power_at s w)) /\ (forall w, 0 < w < PI -> Rabs (band_variable lower upper w) <= k -> in_stop stopband error (power_at s w)) /\
    (forall w, lower * PI < w < upper * PI -> 0 <= power_at s w <= 1 + error)).
Proof.
  intros order lo hi pr sr k er Ho He2 H1 H2 H3 Hr Hk Her. assert (Ho2 : (0 < order / 2 < 2 ^ 64)%Z) by lia. destruct (ripple_fine (order / 2) pr sr k er Ho2 Hr Hk Her) as (eps0 & L & H0 & H). exists eps0, L. split; [exact H0|]. intros eps tmax limit He Ht Hl factors Hf. destruct (H eps tmax limit He Ht Hl factors Hf) as (N & proto & E & Cp & Rp & Rs & R1 & Rf). destruct (hb_ell (order / 2) pr proto (proj1 Ho2) Cp) as (hb & Eh & Hb).
  destruct (gen_bandstop hb (order / 2) (power_continuous proto) (power_far (order / 2) proto) (in_pass pr er) (fun y => 0 <= y <= 1 + er) (proj2 Ho2) Hb (power_even proto) Rp (fun x _ => conj (power_ge0 proto x) (R1 x)) (far_1 pr sr er _ Hr Rf) lo hi H1 H2 H3) as (s & Es & W & Pc & Zc & St & V & Vz & V0 & Vp & V1 & V2 & Ps & Qs).
  exists N, proto, s. split; [exact Cp|]. split; [intros fuel Hfu; unfold DesignEllipticBandstop, PrototypeElliptic, assert_; replace (order mod 2 =? 0)%Z with true by lia; rewrite (E fuel Hfu); cbn [bind]; rewrite Eh; cbn [bind]; exact Es|]. replace order with (2 * (order / 2))%Z at 1 by lia. split; [exact (conj W (conj Pc (conj Zc St)))|]. split; [exact V|]. split; [exact Vz|]. split; [rewrite V0; exact (power_dc _ _ _ Cp)|]. split; [rewrite Vp; exact (power_dc _ _ _ Cp)|]. split; [exact Ps|]. split; [|exact Qs].
  intros w Hw Hx. destruct (Req_dec (band_variable lo hi w) 0) as [Z|Z]; [rewrite (Vz w Hw Z); exact Rf|]. rewrite (V w Hw Z). apply Rs. destruct Hk as [Hk _]. pose proof (Rabs_pos_lt _ Z) as A. unfold Rdiv. rewrite Rmult_1_l, Rabs_inv. apply (Rmult_le_reg_r (Rabs (band_variable lo hi w))); [exact A|]. rewrite Rmult_assoc, Rinv_l by lra. lra.
Qed.
(** where the poles and zeros are, for every precision: the textbook places, zeros at i / (k sn(x)) and poles at i sn(x + i y) with x = (2 j + 1 + order mod 2) K / order, every argument moved by at most four roundoffs. Here sn is sin of the amplitude, the inverse of Legendre's integral, and snC its extension by the addition theorem *)
Theorem C61_location : forall eps fuel factors tmax limit order passband stopband p s, 0 < eps <= / 2 ^ 22 -> lenZ factors = 32%Z -> (0 < order < 2 ^ 64)%Z -> legal_ripples passband stopband ->
  EllipticOrderRipples eps fuel tmax limit order passband stopband = Ok p -> ek p <= 1 - eps / 2 -> sqrt (1 - ek p * ek p) <= 1 - eps / 2 -> Elliptic eps fuel factors tmax limit order passband stopband = Ok s ->
  let k := ek p in let kl := discrimination passband stopband in
  let x j := IZR (2 * Z.of_nat j + 1 + order mod 2) * legendre_K k / IZR order in
  let y := legendre_F (sqrt (1 - kl * kl)) (atan (1 / sqrt (1 / (1 - passband) ^ 2 - 1))) * (legendre_K k / (IZR order * legendre_K kl)) in
  exists xz xp yp yr : nat -> R,
    real_roots (zeros s) = [] /\ complex_pairs (zeros s) = map (fun j => mkC 0 (1 / (k * sn k (xz j)))) (seq 0 (Z.to_nat (order / 2))) /\
    real_roots (poles s) = map (fun j => - im (snC k 0 (yr j))) (seq 0 (Z.to_nat (order mod 2))) /\ complex_pairs (poles s) = map (fun j => Cmul (mkC 0 1) (snC k (xp j) (yp j))) (seq 0 (Z.to_nat (order / 2))) /\
    (forall j, (j < Z.to_nat (order / 2))%nat -> Rabs (xz j - x j) <= 3 * eps * x j /\ Rabs (xp j - x j) <= 3 * eps * x j /\ Rabs (yp j - y) <= 4 * eps * y) /\
    (forall j, (j < Z.to_nat (order mod 2))%nat -> Rabs (yr j - y) <= 4 * eps * y).
Proof.
  intros eps fuel factors tmax limit order pr sr p s He Hf Ho Hr Ep M1 M2 E k kl x y. pose proof Hr as (P & S & L). pose proof (params_inv eps fuel tmax limit order pr sr p He P S L Ep) as PO. rewrite elliptic_eq in E by lia. rewrite Ep in E. cbn [bind] in E. apply (system_loc eps fuel factors He Hf order pr sr p Ho Hr PO M1 M2) in E. destruct E as (xz & xp & yp & yr & g & E). cbv zeta in E. destruct E as (Es & Lz & Lr). destruct PO as (E1 & E2 & _). rewrite E1, E2 in Lz, Lr.
  exists xz, xp, yp, yr. rewrite Es. cbn [zeros poles]. rewrite !mk_fp_real, !mk_fp_pairs. split; [reflexivity|]. split; [reflexivity|]. split; [reflexivity|]. split; [reflexivity|]. split; [intros j Hj; exact (proj2 (Lz j Hj))|exact Lr].
Qed.
(** the same with an explicit condition on the precision instead of "small enough": both moduli representable, an error of 3 eps per step of the order harmless, and the poles' common ordinate inside the period rectangle *)
Definition well_conditioned (eps : R) (order : Z) (p : elliptic_parameters) : Prop :=
  let kp k := sqrt (1 - k * k) in
  modulus_ok eps (ek p) /\ modulus_ok eps (kp (ek p)) /\ 3 * IZR order * eps < 1 /\
  legendre_F (kp (ek1 p)) (atan (1 / eepsilon p)) * (legendre_K (ek p) / (IZR order * legendre_K (ek1 p))) * (1 + 4 * eps) < legendre_K (kp (ek p)).
Theorem C61_prototype_explicit : forall eps factors tmax limit order passband stopband, eps_jacobi eps -> lenZ factors = 32%Z -> (0 < order < 2 ^ 64)%Z -> legal_ripples passband stopband -> exists N p, (forall fuel, (N <= fuel)%nat -> EllipticOrderRipples eps fuel tmax limit order passband stopband = Ok p) /\
  (well_conditioned eps order p -> exists M s, (forall fuel, (M <= fuel)%nat -> Elliptic eps fuel factors tmax limit order passband stopband = Ok s) /\ cauer_prototype order passband s).
Proof.
  intros eps factors tmax limit order pr sr He Hf Ho (P & S & L). pose proof (eps_jacobi_rf eps He) as He'. destruct (params_total eps tmax limit order pr sr He' (proj1 Ho) P S L) as (N1 & p & F). exists N1, p. split; [exact F|]. intros Mi. destruct (body_total eps factors order pr sr p He Hf Ho P S L) as (N2 & s & B); [|exact Mi|].
  { apply (params_inv eps N1 tmax limit order pr sr p); try assumption. apply F. lia. }
  assert (E : forall fuel, (max N1 N2 <= fuel)%nat -> Elliptic eps fuel factors tmax limit order pr sr = Ok s) by (intros fuel Hfu; rewrite elliptic_eq by lia; rewrite F by lia; cbn [bind]; apply B; lia).
  exists (max N1 N2), s. split; [exact E|]. specialize (E (max N1 N2) (le_n _)). destruct (elliptic_structure _ _ _ _ _ _ _ _ _ (proj1 Ho) E) as (W & Pc & Zc & Im & D & _).
  assert (St : stable_continuous s) by (exact (elliptic_stable eps (max N1 N2) factors tmax limit order pr sr p s He Hf Ho P S L (F (max N1 N2) (Nat.le_max_l N1 N2)) Mi E)).
  split; [exact W|]. split; [exact Pc|]. split; [exact Zc|]. split; [exact St|]. split; [exact Im|]. apply D. intros Q. unfold is_pole in Q. rewrite <- pnode_vanishing in Q. exact (left_not_pole _ 0 St Q).
Qed.
Lemma F_le k phi M : 0 <= k < 1 -> 0 < phi -> (forall t, 0 < t < phi -> / sqrt (1 - k * k * (sin t * sin t)) <= M) -> legendre_F k phi <= phi * M.
Proof.
  intros Hk Hp H. destruct (legendre_diff 0 k phi ltac:(lra) Hk Hp) as (c & Hc & E). rewrite legendre_0 in E. replace (1 - 0 * 0 * (sin c * sin c)) with 1 in E by ring. rewrite sqrt_1, Rinv_1 in E. specialize (H c Hc). nra.
Qed.
Lemma F_ge k phi : 0 < k < 1 -> 0 < phi < PI -> phi <= legendre_F k phi.
Proof. intros Hk Hp. rewrite <- (legendre_0 phi) at 1. left. apply legendre_strict; lra. Qed.
(** single precision, a third order filter with ripples of a tenth in both bands, and the crudest bisection *)
Example C61_nontrivial : exists N s, (forall fuel, (N <= fuel)%nat -> Elliptic (/ 2 ^ 23) fuel (repeat 7 32) 1 0 3 (1 / 10) (1 / 10) = Ok s) /\ cauer_prototype 3 (1 / 10) s.
Proof.
  assert (Hr : legal_ripples (1 / 10) (1 / 10)) by (unfold legal_ripples; lra). destruct float_eps as (_ & He' & He). destruct (C61_prototype_explicit (/ 2 ^ 23) (repeat 7 32) 1 0 3 (1 / 10) (1 / 10) He eq_refl ltac:(lia) Hr) as (N & p & F & G). apply G. clear G.
  destruct Hr as (P & S & L). destruct (params_inv (/ 2 ^ 23) N 1 0 3 (1 / 10) (1 / 10) p He' P S L (F N (le_n N))) as (Pe & Ps & _). destruct (degree_bracket (/ 2 ^ 23) 1 0 3 (1 / 10) (1 / 10) He' ltac:(lra) ltac:(lia) P S L) as (N' & p' & a & b & F' & Ek & Ha & Hb & W & _). assert (p' = p) as -> by (specialize (F (max N N') ltac:(lia)); specialize (F' (max N N') ltac:(lia)); congruence).
  cbn [pow] in W. assert (Ek2 : ek p = 1 / 2) by lra. assert (E23 : 0 < / 2 ^ 23 <= 1 / 1000000) by (cbn [pow]; lra). set (e := / 2 ^ 23) in *. clearbody e. pose proof (selectivity_bounds (1 / 10) (1 / 10) P S L) as SB. set (s := selectivity (1 / 10) (1 / 10)) in *. destruct (compl_bounds s SB) as [CB Cs]. pose proof PI_RGT_0 as Pi.
  unfold well_conditioned. cbv zeta. rewrite Ek2, Pe, Ps. change (sqrt (1 - s * s)) with (compl s). assert (H34 : sqrt (1 - 1 / 2 * (1 / 2)) = compl (1 / 2)) by reflexivity. rewrite H34. destruct (compl_bounds (1 / 2) ltac:(lra)) as [C2 C2s]. assert (C2l : compl (1 / 2) <= 9 / 10) by nra.
  split; [split; [lra|right; lra]|]. split; [split; [lra|right; lra]|]. split; [lra|].
  set (er := ripple_factor (1 / 10)). assert (er2 : er * er = 19 / 81). { unfold er, ripple_factor. rewrite sqrt_sqrt; [field|]. lra. } assert (er0 : 0 < er) by (destruct (ripple_factor_pos (1 / 10) ltac:(lra)); assumption). set (th := atan (1 / er)). assert (T1 : th < PI / 2) by apply atan_bound. assert (T0 : 0 < th) by (unfold th; rewrite <- atan_0; apply atan_increasing; apply Rdiv_lt_0_compat; lra).
  assert (Fb : legendre_F (compl s) th <= th * (23 / 10)). { apply F_le; [lra|exact T0|]. intros t Ht. assert (S1 : sin t * sin t <= sin th * sin th). { pose proof (sin_incr_0 0 t). assert (0 < sin t) by (apply sin_gt_0; lra). assert (sin t < sin th) by (apply sin_increasing_1; lra). nra. } assert (S2 : sin th * sin th = 81 / 100). { unfold th. rewrite sin_atan. assert (Sq : 0 < 1 + (1 / er)²) by (pose proof (Rle_0_sqr (1 / er)); lra). pose proof (sqrt_lt_R0 _ Sq) as Sq'. replace (1 / er / sqrt (1 + (1 / er)²) * (1 / er / sqrt (1 + (1 / er)²))) with ((1 / (er * er)) / (sqrt (1 + (1 / er)²) * sqrt (1 + (1 / er)²))) by (field; lra). rewrite sqrt_sqrt by lra. replace ((1 / er)²) with (1 / (er * er)) by (unfold Rsqr; field; lra). rewrite er2. field. }
    assert (Q : 19 / 100 <= 1 - compl s * compl s * (sin t * sin t)) by (pose proof (sin2_range t); nra). assert (Q2 : 10 / 23 <= sqrt (1 - compl s * compl s * (sin t * sin t))) by (apply Rsqr_incr_0; [rewrite Rsqr_sqrt by lra; unfold Rsqr; lra|lra|apply sqrt_pos]). replace (23 / 10) with (/ (10 / 23)) by field. apply Rinv_le_contravar; [lra|exact Q2]. }
  assert (Kh : legendre_K (1 / 2) <= PI / 2 * (1155 / 1000)). { apply F_le; [lra|lra|]. intros t Ht. pose proof (sin2_range t). assert (Q2 : 1000 / 1155 <= sqrt (1 - 1 / 2 * (1 / 2) * (sin t * sin t))) by (apply Rsqr_incr_0; [rewrite Rsqr_sqrt by lra; unfold Rsqr; lra|lra|apply sqrt_pos]). replace (1155 / 1000) with (/ (1000 / 1155)) by field. apply Rinv_le_contravar; [lra|exact Q2]. }
  assert (K1 : PI / 2 <= legendre_K s) by (apply F_ge; lra). assert (Kc : PI / 2 <= legendre_K (compl (1 / 2))) by (apply F_ge; lra). pose proof (K_pos (1 / 2) ltac:(lra)) as K0. assert (F0 : 0 < legendre_F (compl s) th) by (pose proof (F_ge (compl s) th CB ltac:(lra)); lra).
  apply Rlt_le_trans with (2 := Kc). assert (R : legendre_K (1 / 2) / (3 * legendre_K s) <= 385 / 1000) by (apply Rle_div_l; lra). assert (R0 : 0 < legendre_K (1 / 2) / (3 * legendre_K s)) by (apply Rdiv_lt_0_compat; lra). set (r := legendre_K (1 / 2) / (3 * legendre_K s)) in *. set (f := legendre_F (compl s) th) in *.
  assert (A : f * r <= PI / 2 * (886 / 1000)) by (clear - Fb R R0 F0 T1 T0; clearbody f r th; nra). assert (B : 0 < f * r) by (now apply Rmult_lt_0_compat). clear - A B E23 Pi. nra.
Qed.
(** the ripple theorems have an instance: the degree equation of order 3 and of order 4 has a solution *)
Example C61_equiripple_nontrivial : forall order, (order = 3 \/ order = 4)%Z -> exists k, solves_degree order (1 / 10) (1 / 10) k /\ when_fine (fun eps tmax limit => forall factors, lenZ factors = 32%Z ->
  exists N s, (forall fuel, (N <= fuel)%nat -> Elliptic eps fuel factors tmax limit order (1 / 10) (1 / 10) = Ok s) /\ cauer_prototype order (1 / 10) s /\ equiripple (1 / 10) (1 / 10) k (1 / 1000) (power_continuous s) (power_far order s)).
Proof.
  intros order Ho. assert (Hr : legal_ripples (1 / 10) (1 / 10)) by (unfold legal_ripples; lra). destruct (C61_degree_equation_solvable order (1 / 10) (1 / 10) ltac:(lia) Hr) as (k & Hk & _). exists k. split; [exact Hk|]. apply C61_equiripple; [lia|exact Hr|exact Hk|lra].
Qed.
Print Assumptions C61_degree_equation_limit.
Print Assumptions C61_prototype.
Print Assumptions C61_equiripple.
Print Assumptions C61_lowpass.
Print Assumptions C61_highpass.
Print Assumptions C61_bandpass.
Print Assumptions C61_bandstop.
Print Assumptions C61_nontrivial.
Print Assumptions C61_location.
Print Assumptions C61_equiripple_nontrivial.
