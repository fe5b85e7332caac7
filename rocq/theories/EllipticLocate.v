(** Where the computed poles and zeros are: the elliptic functions of slightly moved arguments (used by C61). *)
From Coq Require Import Reals Lra Lia ZArith List Bool Psatz.
From Coquelicot Require Import Rcomplements.
From Verif Require Import Base BaseFacts Complex ConvModel ConvProofs IirProofs PolyModel PolyProofs SysModel SysProofs PropsPoly PropsSys RootModel RootProofs ZmapProofs DesignProofs ButterProofs IirModel SolverModel PropsSolver PropsDesign ChebyModel ChebyProofs EllipticModel EllipticSpec EllipticAM EllipticRF EllipticInv EllipticJacobi EllipticProto EllipticDegree JacobiReal JacobiComplex EllipticRational UniformLimit.
From Coq Require Import ZifyBool ZifyNat.
Ltac Zify.zify_post_hook ::= Z.div_mod_to_equations.
Import ListNotations.
Open Scope R_scope.

(** ** Lists filled by index *)
Lemma finite_choice {A} (a : A) (P : nat -> A -> Prop) n : (forall j, (j < n)%nat -> exists v, P j v) -> exists f, forall j, (j < n)%nat -> P j (f j).
Proof.
  induction n as [|n IH]; intros H; [exists (fun _ => a); intros; lia|]. destruct IH as [f Hf]; [intros j Hj; apply H; lia|]. destruct (H n ltac:(lia)) as [v Hv]. exists (fun j => if Nat.eqb j n then v else f j). intros j Hj. destruct (Nat.eqb_spec j n) as [->|N]; [exact Hv|apply Hf; lia].
Qed.
Lemma nth_error_ext' {A} (l m : list A) : (forall i, nth_error l i = nth_error m i) -> l = m.
Proof. revert m. induction l as [|a l IH]; intros [|b m] H; [reflexivity|specialize (H O); discriminate|specialize (H O); discriminate|]. pose proof (H O) as E. cbn in E. injection E as ->. f_equal. apply IH. intros i. exact (H (S i)). Qed.
Lemma list_of_nth {A} (l : list A) (f : nat -> A) n : lenZ l = Z.of_nat n -> (forall j, (j < n)%nat -> nthZ l (Z.of_nat j) = Some (f j)) -> l = map f (seq 0 n).
Proof.
  intros L H. apply nth_error_ext'. intros i. destruct (Nat.lt_ge_cases i n) as [G|G].
  - specialize (H i G). unfold nthZ in H. destruct (Z.ltb_spec (Z.of_nat i) 0); [lia|]. rewrite Nat2Z.id in H. rewrite H. symmetry. rewrite nth_error_map. replace (nth_error (seq 0 n) i) with (Some i); [reflexivity|]. symmetry. rewrite nth_error_nth' with (d := 0%nat) by (rewrite seq_length; exact G). rewrite seq_nth by exact G. reflexivity.
  - transitivity (@None A); [|symmetry]; apply nth_error_None; [unfold lenZ in L; lia|rewrite map_length, seq_length; lia].
Qed.

Section Locate.
Variables (eps : R) (fuel : nat) (factors : list R).
Hypothesis He : 0 < eps <= / 2 ^ 22.
Hypothesis Lf : lenZ factors = 32%Z.
Lemma eps_small : eps <= 1 / 1000000. Proof. assert (P22 : / 2 ^ 22 <= 1 / 1000000) by (cbn [pow]; lra). lra. Qed.
(** the system, index by index *)
Lemma body_loc order pr p sys : (0 < order)%Z -> elliptic_body eps fuel factors order pr p = Ok sys -> exists zf rf cf v0 g,
  let h := Z.to_nat (order / 2) in let o := Z.to_nat (order mod 2) in
  depth eps fuel p order = Ok v0 /\ sys = mkZpk g (mk_fp [] (map zf (seq 0 h))) (mk_fp (map rf (seq 0 o)) (map cf (seq 0 h))) /\
  (forall j, (j < h)%nat -> zero_of eps fuel factors p order (Z.of_nat j) = Ok (zf j)) /\ (forall j, (j < o)%nat -> real_pole_of eps fuel factors p order v0 (Z.of_nat j) = Ok (rf j)) /\
  (forall j, (j < h)%nat -> pole_of eps fuel factors p order v0 (order mod 2 + Z.of_nat j) = Ok (cf j)).
Proof.
  intros Ho E. unfold elliptic_body in E. destruct (for_ 0 (order / 2) 1 (fun i cs => do v <- zero_of eps fuel factors p order i; wr cs i v) _) as [zs| |] eqn:Ez; [|discriminate|discriminate]. cbn [bind] in E. destruct (depth eps fuel p order) as [v0| |] eqn:Ed; [|discriminate|discriminate]. cbn [bind] in E.
  destruct (for_ 0 (order mod 2) 1 (fun i cs => do v <- real_pole_of eps fuel factors p order v0 i; wr cs i v) _) as [rs| |] eqn:Er; [|discriminate|discriminate]. cbn [bind] in E. destruct (for_ 0 (order / 2) 1 (fun i cs => do v <- pole_of eps fuel factors p order v0 (order mod 2 + i); wr cs i v) _) as [cs| |] eqn:Ec; [|discriminate|discriminate]. cbn [bind] in E. unfold system_of in E. unfold fdiv_ in E. destruct (Req_EM_T _ 0) as [|N]; [discriminate|]. cbn [bind] in E. injection E as <-.
  apply fill_inv in Ez; [|apply len_repeat; lia]. apply fill_inv in Er; [|apply len_repeat; lia]. apply fill_inv in Ec; [|apply len_repeat; lia]. destruct Ez as [Lz Fz], Er as [Lr Fr], Ec as [Lc Fc].
  assert (X : forall A (a : A) (f : Z -> outcome A) (l : list A) (n : Z), (0 <= n)%Z -> lenZ l = n -> (forall j, (0 <= j < n)%Z -> exists v, f j = Ok v /\ nthZ l j = Some v) -> exists g, l = map g (seq 0 (Z.to_nat n)) /\ forall j, (j < Z.to_nat n)%nat -> f (Z.of_nat j) = Ok (g j)).
  { intros A a f l n Hn Hl Hf. destruct (finite_choice a (fun j v => f (Z.of_nat j) = Ok v /\ nthZ l (Z.of_nat j) = Some v) (Z.to_nat n)) as [g Hg]; [intros j Hj; apply Hf; lia|]. exists g. split; [apply list_of_nth; [lia|intros j Hj; apply Hg; exact Hj]|intros j Hj; apply Hg; exact Hj]. }
  destruct (X _ C0 _ zs (order / 2)%Z ltac:(lia) Lz Fz) as (zf & -> & Hz). destruct (X _ 0 _ rs (order mod 2)%Z ltac:(lia) Lr Fr) as (rf & -> & Hr). destruct (X _ C0 _ cs (order / 2)%Z ltac:(lia) Lc Fc) as (cf & -> & Hc).
  exists zf, rf, cf, v0. eexists. cbv zeta. split; [reflexivity|]. split; [reflexivity|]. split; [exact Hz|]. split; [exact Hr|exact Hc].
Qed.
(** the real elliptic sine *)
Lemma sn_loc x k v : 0 < k <= 1 - eps / 2 -> EllipticSN eps fuel factors x k = Ok v -> exists x', v = sn k x' /\ Rabs (x' - x) <= 2 * eps * Rabs x.
Proof.
  intros Hk E. unfold EllipticSN in E. destruct (EllipticSNCNDN eps fuel factors x k) as [[[s c] d]| |] eqn:S; [|discriminate|discriminate]. cbn [bind] in E. injection E as <-. destruct (sncndn_ok eps fuel factors x k s c d He Hk Lf S) as (phi & -> & _ & _ & B). exists (legendre_F k phi). split; [|exact B]. unfold sn. rewrite am_F by lra. reflexivity.
Qed.
Lemma snC_loc x k v : 0 < k <= 1 - eps / 2 -> compl k <= 1 - eps / 2 -> EllipticSN_C eps fuel factors x k = Ok v -> exists x' y', v = snC k x' y' /\ Rabs (x' - re x) <= 2 * eps * Rabs (re x) /\ Rabs (y' - im x) <= 2 * eps * Rabs (im x).
Proof.
  intros Hk Hk' E. assert (H01 : 0 < k < 1) by lra. destruct (compl_bounds k H01) as [Hc _]. unfold EllipticSN_C, EllipticSNCNDN_C in E.
  destruct (EllipticSNCNDN eps fuel factors (re x) k) as [[[s c] d]| |] eqn:E1; [|discriminate|discriminate]. cbn [bind] in E. assert (Ek : sqrt_ (1 - k * k) = Ok (compl k)) by (unfold sqrt_; destruct (Rle_dec 0 (1 - k * k)); [reflexivity|nra]). rewrite Ek in E. cbn [bind] in E.
  destruct (EllipticSNCNDN eps fuel factors (im x) (compl k)) as [[[s' c'] d']| |] eqn:E2; [|discriminate|discriminate]. cbn [bind] in E.
  apply sncndn_ok in E1; [|exact He|exact Hk|exact Lf]. apply sncndn_ok in E2; [|exact He|lra|exact Lf]. destruct E1 as (p & -> & -> & -> & B). destruct E2 as (q & -> & -> & -> & B'). exists (legendre_F k p), (legendre_F (compl k) q). split; [|split; assumption].
  unfold cdiv_ in E. set (D := cos q * cos q + k * k * sin q * sin q * sin p * sin p) in E. destruct (Req_EM_T D 0) as [|ND]; [discriminate|]. cbn [bind] in E. injection E as <-. unfold snC, qd, dn, cn, sn. change (kq k) with (compl k). rewrite !am_F by lra. replace (cos q * cos q + k * k * (sin q * sin q) * (sin p * sin p)) with D by (unfold D; ring).
  replace (1 - compl k * compl k * (sin q * sin q)) with (1 - compl k * compl k * sin q * sin q) by ring. replace (1 - k * k * (sin p * sin p)) with (1 - k * k * sin p * sin p) by ring. apply C_ext; cbn; unfold Rdiv; f_equal; ring.
Qed.
(** the exact arguments *)
Definition abscissa (order i : Z) (k : R) : R := IZR i * legendre_K k / IZR order.
Definition ordinate (order : Z) (k k1 er : R) : R := legendre_F (compl k1) (atan (1 / er)) * (legendre_K k / (IZR order * legendre_K k1)).
Lemma arg_loc order p pr sr i : (0 < order)%Z -> (0 <= i)%Z -> params_ok eps pr sr p -> 0 <= abscissa order i (ek p) /\ Rabs (eK p * IZR i / IZR order - abscissa order i (ek p)) <= eps / 4 * abscissa order i (ek p).
Proof.
  intros Ho Hi (_ & _ & Hk & B & _). pose proof (K_pos _ Hk) as Kp. assert (N0 : 0 < IZR order) by (apply IZR_lt; lia). assert (I0 : 0 <= IZR i) by (apply IZR_le; lia). unfold abscissa. set (K := legendre_K (ek p)) in *. assert (R0 : 0 <= IZR i / IZR order) by (apply Rle_mult_inv_pos; lra). set (r := IZR i / IZR order) in *.
  replace (IZR i * K / IZR order) with (r * K) by (unfold r; field; lra). replace (eK p * IZR i / IZR order) with (r * eK p) by (unfold r; field; lra). split; [apply Rmult_le_pos; lra|]. replace (r * eK p - r * K) with (r * (eK p - K)) by ring. rewrite Rabs_mult, (Rabs_pos_eq r) by exact R0. replace (eps / 4 * (r * K)) with (r * (eps / 4 * K)) by ring. apply Rmult_le_compat_l; assumption.
Qed.
Lemma twice x a b c : 0 <= x -> Rabs (a - x) <= c * x -> 0 <= c <= 1 -> Rabs (b - a) <= 2 * eps * Rabs a -> Rabs (b - x) <= (c + 2 * eps * (1 + c)) * x.
Proof.
  intros Hx A Hc B. pose proof (Rabs_triang (b - a) (a - x)) as T. replace (b - a + (a - x)) with (b - x) in T by ring. assert (Ra : Rabs a <= (1 + c) * x). { pose proof (Rabs_triang (a - x) x) as T2. replace (a - x + x) with a in T2 by ring. rewrite (Rabs_pos_eq x Hx) in T2. lra. } assert (2 * eps * Rabs a <= 2 * eps * ((1 + c) * x)) by (apply Rmult_le_compat_l; lra). lra.
Qed.
Lemma depth_loc order p pr sr v0 : (0 < order)%Z -> 0 < pr -> 0 < sr -> sr < 1 - pr -> params_ok eps pr sr p -> depth eps fuel p order = Ok v0 ->
  0 < ordinate order (ek p) (ek1 p) (eepsilon p) /\ Rabs (v0 - ordinate order (ek p) (ek1 p) (eepsilon p)) <= eps * ordinate order (ek p) (ek1 p) (eepsilon p).
Proof.
  intros Ho Hp Hs HL (E1 & E2 & Hk & B & B1) E. pose proof eps_small as P22. destruct (ripple_factor_pos pr ltac:(lra)) as [Re _]. pose proof (selectivity_bounds pr sr Hp Hs HL) as Hk1. rewrite <- E1 in Re. rewrite <- E2 in Hk1. pose proof (K_pos _ Hk) as K0. pose proof (K_pos _ Hk1) as K10. destruct (compl_bounds _ Hk1) as [Hc C2].
  unfold depth in E. unfold fdiv_ in E. destruct (Req_EM_T (eepsilon p) 0) as [|_]; [lra|]. cbn [bind] in E. assert (Y0 : 0 < 1 / eepsilon p) by (apply Rdiv_lt_0_compat; lra). destruct (EllipticArcSN_imag eps fuel (1 / eepsilon p) (ek1 p)) as [v| |] eqn:A; [|discriminate|discriminate]. cbn [bind] in E. destruct (finite v) as [a| |] eqn:Fv; [|discriminate|discriminate]. cbn [bind] in E. injection E as <-.
  destruct v as [a'|]; [|discriminate]. cbn in Fv. injection Fv as ->. destruct (arcsn_imag_main eps (ek1 p) (compl (ek1 p)) (1 / eepsilon p) He ltac:(rewrite Rabs_pos_eq by lra; lra) ltac:(lra) C2 Y0) as (N & w & F & W).
  assert (a = w). { unfold EllipticArcSN_imag in A, F. destruct (CarlsonRF eps fuel (1 + 1 / eepsilon p * (1 / eepsilon p)) (1 + ek1 p * ek1 p * (1 / eepsilon p) * (1 / eepsilon p)) 1) as [u| |] eqn:Q; [|discriminate|discriminate]. specialize (F (max N fuel) ltac:(lia)). rewrite (carlson_mono eps fuel (max N fuel) _ _ _ u ltac:(lia) Q) in F. cbn [bind] in A, F. congruence. } subst w.
  assert (T0 : 0 < atan (1 / eepsilon p)) by (rewrite <- atan_0; now apply atan_increasing). unfold ordinate. set (f := legendre_F (compl (ek1 p)) (atan (1 / eepsilon p))) in *. assert (F0 : 0 < f) by (pose proof (legendre_pos (compl (ek1 p)) _ ltac:(lra) T0); unfold f; lra).
  unfold within in W. rewrite (Rabs_pos_eq f) in W by lra. apply Rabs_le_between in W. apply Rabs_le_between in B. apply Rabs_le_between in B1. set (K := legendre_K (ek p)) in *. set (K1 := legendre_K (ek1 p)) in *. assert (N0 : 0 < IZR order) by (apply IZR_lt; lia). set (n := IZR order) in *.
  assert (a0 : 0 < a) by nra. assert (k0 : 0 < eK p) by nra. assert (k10 : 0 < eK1 p) by nra. assert (FK : 0 < f * K) by nra. assert (Dn : 0 < n * K1) by nra. split; [apply Rmult_lt_0_compat; [lra|now apply Rdiv_lt_0_compat]|].
  set (t := f * (K / (n * K1))). assert (t0 : 0 < t) by (unfold t; apply Rmult_lt_0_compat; [lra|now apply Rdiv_lt_0_compat]). set (r := (a * eK p * K1) / (f * K * eK1 p)). assert (Er : a * (eK p / n / eK1 p) = t * r) by (unfold t, r; field; repeat split; lra). rewrite Er. clear Er.
  assert (Dr : 0 < f * K * eK1 p) by nra. assert (aK : f * K * ((1 - eps / 4) * (1 - eps / 4)) <= a * eK p <= f * K * ((1 + eps / 4) * (1 + eps / 4))). { split; [replace (f * K * ((1 - eps / 4) * (1 - eps / 4))) with ((f * (1 - eps / 4)) * (K * (1 - eps / 4))) by ring|replace (f * K * ((1 + eps / 4) * (1 + eps / 4))) with ((f * (1 + eps / 4)) * (K * (1 + eps / 4))) by ring]; apply Rmult_le_compat; nra. }
  assert (U : r <= 1 + eps). { unfold r. apply Rle_div_l; [exact Dr|]. apply Rle_trans with (f * K * ((1 + eps / 4) * (1 + eps / 4)) * K1); [apply Rmult_le_compat_r; lra|]. apply Rle_trans with ((1 + eps) * (f * K * (K1 * (1 - eps / 4)))); [|apply Rmult_le_compat_l; [lra|]; apply Rmult_le_compat_l; lra]. assert (Q : (1 + eps / 4) * (1 + eps / 4) <= (1 + eps) * (1 - eps / 4)) by nra. assert (P : 0 < f * K * K1) by (now apply Rmult_lt_0_compat). replace (f * K * ((1 + eps / 4) * (1 + eps / 4)) * K1) with (f * K * K1 * ((1 + eps / 4) * (1 + eps / 4))) by ring. replace ((1 + eps) * (f * K * (K1 * (1 - eps / 4)))) with (f * K * K1 * ((1 + eps) * (1 - eps / 4))) by ring. apply Rmult_le_compat_l; lra. }
  assert (V : 1 - eps <= r). { unfold r. apply Rle_div_r; [exact Dr|]. apply Rle_trans with (f * K * ((1 - eps / 4) * (1 - eps / 4)) * K1); [|apply Rmult_le_compat_r; lra]. apply Rle_trans with ((1 - eps) * (f * K * (K1 * (1 + eps / 4)))); [apply Rmult_le_compat_l; [lra|]; apply Rmult_le_compat_l; lra|]. assert (Q : (1 - eps) * (1 + eps / 4) <= (1 - eps / 4) * (1 - eps / 4)) by nra. assert (P : 0 < f * K * K1) by (now apply Rmult_lt_0_compat). replace (f * K * ((1 - eps / 4) * (1 - eps / 4)) * K1) with (f * K * K1 * ((1 - eps / 4) * (1 - eps / 4))) by ring. replace ((1 - eps) * (f * K * (K1 * (1 + eps / 4)))) with (f * K * K1 * ((1 - eps) * (1 + eps / 4))) by ring. apply Rmult_le_compat_l; lra. }
  replace (t * r - t) with (t * (r - 1)) by ring. rewrite Rabs_mult, (Rabs_pos_eq t), (Rmult_comm eps) by lra. apply Rmult_le_compat_l; [lra|]. apply Rabs_le. lra.
Qed.
Section Params.
Variables (order : Z) (pr sr : R) (p : elliptic_parameters).
Hypothesis Ho : (0 < order < 2 ^ 64)%Z.
Hypothesis Hr : 0 < pr /\ 0 < sr /\ sr < 1 - pr.
Hypothesis PO : params_ok eps pr sr p.
Hypothesis M1 : ek p <= 1 - eps / 2.
Hypothesis M2 : compl (ek p) <= 1 - eps / 2.
Notation k := (ek p).
Notation yy := (ordinate order (ek p) (ek1 p) (eepsilon p)).
Lemma Hek : 0 < k <= 1 - eps / 2. Proof. destruct PO as (_ & _ & Hk & _). lra. Qed.
Lemma zero_loc j z : (0 <= j)%Z -> zero_of eps fuel factors p order j = Ok z -> exists x, k * sn k x <> 0 /\ z = mkC 0 (1 / (k * sn k x)) /\ Rabs (x - abscissa order (2 * j + 1 + order mod 2) k) <= 3 * eps * abscissa order (2 * j + 1 + order mod 2) k.
Proof.
  intros Hj E. pose proof eps_small as P22. unfold zero_of in E. destruct (EllipticSN eps fuel factors _ _) as [v| |] eqn:S; [|discriminate|discriminate]. cbn [bind] in E. apply sn_loc in S; [|exact Hek]. destruct S as (x & -> & B). unfold fdiv_ in E. destruct (Req_EM_T (k * sn k x) 0) as [|N]; [discriminate|]. cbn [bind] in E. injection E as <-. exists x. split; [exact N|]. split; [reflexivity|].
  replace (IZR (2 * j + 1 + order mod 2) * eK p / IZR order) with (eK p * IZR (2 * j + 1 + order mod 2) / IZR order) in B by (unfold Rdiv; ring). destruct (arg_loc order p pr sr (2 * j + 1 + order mod 2) ltac:(lia) ltac:(lia) PO) as [A0 A1]. eapply Rle_trans; [apply (twice _ _ _ _ A0 A1 ltac:(lra) B)|]. apply Rmult_le_compat_r; [exact A0|]. nra.
Qed.
Lemma cpole_loc idx i v0 v : size_sub (2 * idx + 1) (order mod 2) = i -> (0 <= i)%Z -> depth eps fuel p order = Ok v0 -> EllipticSN_C eps fuel factors (pole_arg p order idx v0) k = Ok v ->
  exists x y, v = snC k x y /\ Rabs (x - abscissa order i k) <= 3 * eps * abscissa order i k /\ Rabs (y - yy) <= 4 * eps * yy.
Proof.
  intros Ei Hi Ed E. pose proof eps_small as P22. destruct Hr as (R1 & R2 & R3). apply snC_loc in E; [|exact Hek|exact M2]. destruct E as (x & y & -> & Bx & By). unfold pole_arg in Bx, By. cbn [re im] in Bx, By. rewrite Ei in Bx. exists x, y. split; [reflexivity|].
  destruct (arg_loc order p pr sr i ltac:(lia) Hi PO) as [A0 A1]. destruct (depth_loc order p pr sr v0 ltac:(lia) R1 R2 R3 PO Ed) as [D0 D1]. split; [eapply Rle_trans; [apply (twice _ _ _ _ A0 A1 ltac:(lra) Bx)|]; apply Rmult_le_compat_r; [exact A0|nra]|]. eapply Rle_trans; [apply (twice _ _ _ _ (Rlt_le _ _ D0) D1 ltac:(lra) By)|]. apply Rmult_le_compat_r; [lra|nra].
Qed.
(** every pole and zero of the computed system *)
Lemma system_loc sys : elliptic_body eps fuel factors order pr p = Ok sys -> exists xz xp yp yr g,
  let h := Z.to_nat (order / 2) in let o := Z.to_nat (order mod 2) in
  sys = mkZpk g (mk_fp [] (map (fun j => mkC 0 (1 / (k * sn k (xz j)))) (seq 0 h))) (mk_fp (map (fun j => - im (snC k 0 (yr j))) (seq 0 o)) (map (fun j => Cmul Ci (snC k (xp j) (yp j))) (seq 0 h))) /\
  (forall j, (j < h)%nat -> k * sn k (xz j) <> 0 /\ let x := abscissa order (2 * Z.of_nat j + 1 + order mod 2) k in Rabs (xz j - x) <= 3 * eps * x /\ Rabs (xp j - x) <= 3 * eps * x /\ Rabs (yp j - yy) <= 4 * eps * yy) /\
  (forall j, (j < o)%nat -> Rabs (yr j - yy) <= 4 * eps * yy).
Proof.
  intros E. apply body_loc in E; [|lia]. destruct E as (zf & rf & cf & v0 & g & E). cbv zeta in E. destruct E as (Ed & Es & Fz & Fr & Fc). set (h := Z.to_nat (order / 2)) in *. set (o := Z.to_nat (order mod 2)) in *.
  destruct (finite_choice 0 (fun j x => k * sn k x <> 0 /\ zf j = mkC 0 (1 / (k * sn k x)) /\ Rabs (x - abscissa order (2 * Z.of_nat j + 1 + order mod 2) k) <= 3 * eps * abscissa order (2 * Z.of_nat j + 1 + order mod 2) k) h) as [xz Hxz]; [intros j Hj; apply zero_loc; [lia|now apply Fz]|].
  destruct (finite_choice (0, 0) (fun j xy => cf j = Cmul Ci (snC k (fst xy) (snd xy)) /\ Rabs (fst xy - abscissa order (2 * Z.of_nat j + 1 + order mod 2) k) <= 3 * eps * abscissa order (2 * Z.of_nat j + 1 + order mod 2) k /\ Rabs (snd xy - yy) <= 4 * eps * yy) h) as [xy Hxy].
  { intros j Hj. specialize (Fc j Hj). unfold pole_of in Fc. destruct (EllipticSN_C eps fuel factors _ _) as [v| |] eqn:S; [|discriminate|discriminate]. cbn [bind] in Fc. injection Fc as Fc. destruct (pair_index order (Z.of_nat j) Ho ltac:(lia)) as [I1 I2]. destruct (cpole_loc _ _ v0 v I1 ltac:(lia) Ed S) as (x & y & -> & Bx & By). exists (x, y). cbn [fst snd]. split; [now rewrite <- Fc|]. now split. }
  destruct (finite_choice 0 (fun j y => rf j = - im (snC k 0 y) /\ Rabs (y - yy) <= 4 * eps * yy) o) as [yr Hyr].
  { intros j Hj. specialize (Fr j Hj). unfold real_pole_of in Fr. destruct (EllipticSN_C eps fuel factors _ _) as [v| |] eqn:S; [|discriminate|discriminate]. cbn [bind] in Fr. unfold assert_ in Fr. destruct (if Rlt_dec _ _ then true else false); [|discriminate]. injection Fr as Fr. destruct (cpole_loc _ 0%Z v0 v (real_index order (Z.of_nat j) Ho ltac:(lia)) ltac:(lia) Ed S) as (x & y & -> & Bx & By). exists y. split; [|exact By]. replace (abscissa order 0 k) with 0 in Bx by (unfold abscissa, Rdiv; ring). rewrite Rmult_0_r, Rminus_0_r in Bx. assert (x = 0) as -> by (pose proof (Rabs_pos x); apply Rabs_eq_0; lra). rewrite <- Fr. cbn. ring. }
  exists xz, (fun j => fst (xy j)), (fun j => snd (xy j)), yr, g. cbv zeta. split; [|split].
  - rewrite Es. f_equal; f_equal; apply map_ext_in; intros j Hj; apply in_seq in Hj; [apply Hxz; lia|apply Hyr; lia|apply Hxy; lia].
  - intros j Hj. destruct (Hxz j Hj) as (A & _ & B). destruct (Hxy j Hj) as (_ & D & E). now repeat split.
  - intros j Hj. now apply Hyr.
Qed.
End Params.
End Locate.
