(** C27-C30, C50: root transforms, discretisation, the Butterworth design method. *)
From Coq Require Import Reals Lra Psatz Permutation.
From Verif Require Import Base BaseFacts Complex KernelProofs ConvModel ConvProofs IirModel IirProofs PolyModel PolyProofs SysModel SysProofs PropsPoly PropsSys RootModel RootProofs ZmapProofs DesignProofs ButterProofs BandProofs.
From Coq Require Import ZifyBool ZifyNat.
Ltac Zify.zify_post_hook ::= Z.div_mod_to_equations.
Open Scope Z_scope.

(** ** Specification *)
(** [transfer_at], [is_pole], [well_formed] and [all_roots] are those of PropsSys and PropsPoly. *)
Definition zero_count (s : zpk) : Z := Z.of_nat (length (all_roots (zeros s))).
Definition pole_count (s : zpk) : Z := Z.of_nat (length (all_roots (poles s))).
(** no more zeros than poles; the counts fit in size_t *)
Definition proper (s : zpk) : Prop := well_formed s /\ zero_count s <= pole_count s < 2 ^ 64.
(** the substitutions z |-> s (a1 z + a0) / (a1 + a0 z) and z |-> s (a2 z^2 + a1 z + a0) / (a2 + a1 z + a0 z^2) *)
Definition num1 (s a0 a1 : R) (z : C) : C := Cmul (RtoC s) (Cadd (Cmul (RtoC a1) z) (RtoC a0)).
Definition den1 (a0 a1 : R) (z : C) : C := Cadd (RtoC a1) (Cmul (RtoC a0) z).
Definition num2 (s a0 a1 a2 : R) (z : C) : C := Cmul (RtoC s) (Cadd (Cadd (Cmul (Cmul (RtoC a2) z) z) (Cmul (RtoC a1) z)) (RtoC a0)).
Definition den2 (a0 a1 a2 : R) (z : C) : C := Cadd (Cadd (RtoC a2) (Cmul (RtoC a1) z)) (Cmul (Cmul (RtoC a0) z) z).
(** the value [q] = s aN / a0 that the substitution takes at infinity is not among the roots *)
Definition avoids (s a0 aN : R) (roots : list C) : Prop := forall p, In p roots -> Cmul (RtoC a0) p <> RtoC (aN * s).
(** all poles strictly inside the unit circle *)
Definition stable (s : zpk) : Prop := forall p, In p (all_roots (poles s)) -> (Cabs p < 1)%R.
(** all poles in the open left half plane *)
Definition stable_continuous (s : zpk) : Prop := forall p, In p (all_roots (poles s)) -> (re p < 0)%R.
(** squared magnitude of the frequency response at w radians per sample *)
Definition power_at (s : zpk) (w : R) : R := ((Cabs (transfer_at s (cis w))) ^ 2)%R.
(** the same for a continuous system *)
Definition power_continuous (s : zpk) (w : R) : R := ((Cabs (transfer_at s (mkC 0 w))) ^ 2)%R.

(** ** Bridges *)
Lemma counts s : well_formed s -> zero_count s = num_roots (zeros s) /\ pole_count s = num_roots (poles s).
Proof. intros [Wz Wp]. split; now apply roots_len. Qed.
Lemma avoids_c1 s a0 aN l p : avoids s a0 aN l -> In p l -> c1 s a0 aN p <> C0.
Proof. intros H Hp E. apply (H p Hp). unfold c1 in E. transitivity (Csub (RtoC (aN * s)) (Csub (RtoC (aN * s)) (Cmul p (RtoC a0)))); [ring|]. rewrite E. ring. Qed.
Lemma Cabs_lt1 p : (Cabs p < 1)%R <-> unit_disc p.
Proof.
  unfold unit_disc, Cabs. pose proof (Cnorm2_ge0 p) as G. split; intros H.
  - pose proof (sqrt_pos (Cnorm2 p)). pose proof (sqrt_sqrt _ G). nra.
  - apply Rsqr_incrst_0; [|apply sqrt_pos|lra]. rewrite Rsqr_sqrt by exact G. unfold Rsqr. lra.
Qed.
Lemma stable_bridge s : stable s <-> stable_poles s.
Proof. unfold stable, stable_poles. split; intros H p Hp; apply Cabs_lt1; now apply H. Qed.
Lemma Cabs_sq c : ((Cabs c) ^ 2)%R = Cnorm2 c.
Proof. unfold Cabs. rewrite <- Rsqr_pow2. apply Rsqr_sqrt, Cnorm2_ge0. Qed.

(** ** C27: mapping the z variable *)
Theorem C27_first_order sys s a0 a1 : proper sys -> (a0 <> 0%R \/ zero_count sys = pole_count sys) ->
  avoids s a0 a1 (all_roots (zeros sys)) -> avoids s a0 a1 (all_roots (poles sys)) ->
  exists sys', MapZDomain1 sys s a0 a1 = Ok sys' /\ well_formed sys' /\ pole_count sys' = pole_count sys /\ zero_count sys' = pole_count sys /\
    forall z, den1 a0 a1 z <> C0 -> let z' := Cdiv (num1 s a0 a1 z) (den1 a0 a1 z) in
      ~ is_pole sys z' -> ~ is_pole sys' z /\ transfer_at sys' z = transfer_at sys z'.
Proof.
  intros [W Hn] Ha Hz Hp. destruct (counts sys W) as [Ez Ep]. rewrite Ez, Ep in *.
  destruct (mz1_spec sys s a0 a1 W Hn Ha) as (sys' & E & W' & Lz & Lp & V & _).
  { intros p [H|H]; [exact (avoids_c1 _ _ _ _ _ Hz H)|exact (avoids_c1 _ _ _ _ _ Hp H)]. }
  exists sys'. destruct (counts sys' W') as [Ez' Ep']. rewrite Ez', Ep'. split; [exact E|]. split; [exact W'|]. split; [exact Lp|]. split; [exact Lz|exact V].
Qed.
Print Assumptions C27_first_order.
Theorem C27_second_order sys s a0 a1 a2 : proper sys -> (a0 <> 0%R \/ zero_count sys = pole_count sys) ->
  avoids s a0 a2 (all_roots (zeros sys)) -> avoids s a0 a2 (all_roots (poles sys)) ->
  exists sys', MapZDomain2 sys s a0 a1 a2 = Ok sys' /\ well_formed sys' /\ pole_count sys' = 2 * pole_count sys /\ zero_count sys' = 2 * pole_count sys /\
    forall z, den2 a0 a1 a2 z <> C0 -> let z' := Cdiv (num2 s a0 a1 a2 z) (den2 a0 a1 a2 z) in
      ~ is_pole sys z' -> ~ is_pole sys' z /\ transfer_at sys' z = transfer_at sys z'.
Proof.
  intros [W Hn] Ha Hz Hp. destruct (counts sys W) as [Ez Ep]. rewrite Ez, Ep in *.
  destruct (mz2_spec sys s a0 a1 a2 W Hn Ha) as (sys' & E & W' & Lz & Lp & V & _).
  { intros p [H|H]; [exact (avoids_c1 _ _ _ _ _ Hz H)|exact (avoids_c1 _ _ _ _ _ Hp H)]. }
  exists sys'. destruct (counts sys' W') as [Ez' Ep']. rewrite Ez', Ep'. split; [exact E|]. split; [exact W'|]. split; [exact Lp|]. split; [exact Lz|exact V].
Qed.
Print Assumptions C27_second_order.
(** a system with one zero and one complex pair of poles *)
Definition sample_sys : zpk := mkZpk 3 (mk_fp [(1/2)%R] []) (mk_fp [] [mkC (1/4) (1/4)]).
Example C27_nontrivial : proper sample_sys /\ avoids 1 (1/3) 1 (all_roots (zeros sample_sys)) /\ avoids 1 (1/3) 1 (all_roots (poles sample_sys)) /\
  den1 (1/3) 1 (cis 1) <> C0.
Proof.
  split; [split; [split; apply mk_fp_wf|change (1 <= 2 < 2 ^ 64); lia]|]. split; [|split].
  - intros p Hp. cbn in Hp. destruct Hp as [<-|[]]. intros E. injection E. intros. cbn in *. lra.
  - intros p Hp. cbn in Hp. destruct Hp as [<-|[<-|[]]]; intros E; injection E; intros; cbn in *; lra.
  - intros E. apply (f_equal re) in E. unfold den1, cis in E. cbn in E. pose proof (COS_bound 1). lra.
Qed.

(** ** C28: bilinear discretisation *)
Theorem C28_bilinear sys sampleRate prewarp : let k := bilinear_k sampleRate prewarp in well_formed sys ->
  (forall p, In p (all_roots (zeros sys)) \/ In p (all_roots (poles sys)) -> p <> RtoC k) ->
  exists sys', BilinearTransform sys sampleRate prewarp = Ok sys' /\ well_formed sys' /\
    zero_count sys' = Z.of_nat (system_order sys) /\ pole_count sys' = Z.of_nat (system_order sys) /\
    forall z, z <> RtoC (-1) -> let s := Cmul (RtoC k) (Cdiv (Csub z C1) (Cadd z C1)) in
      ~ is_pole sys s -> ~ is_pole sys' z /\ transfer_at sys' z = transfer_at sys s.
Proof.
  intros k W Hk. destruct (bilinear_spec sys sampleRate prewarp W Hk) as (sys' & E & W' & Lz & Lp & V & _).
  assert (Eo : zpk_order sys = Z.of_nat (system_order sys)) by (destruct (counts sys W) as [Ez Ep]; unfold zpk_order, system_order, zero_count, pole_count in *; lia).
  destruct (counts sys' W') as [Ez' Ep']. exists sys'. split; [exact E|]. split; [exact W'|]. split; [lia|]. split; [lia|].
  intros z Hz s Hs. assert (Es : s = Cdiv (Nb k z) (Db z)).
  { unfold s, Nb, Db. field. intros X. apply Hz. transitivity (Csub (Cadd z C1) C1); [ring|]. assert (X2 : Cadd z C1 = C0) by exact X. rewrite X2. cring. }
  rewrite Es in *. now apply V.
Qed.
Print Assumptions C28_bilinear.
(** the constant: 2 fs, or with prewarping the value at which the chosen frequency is kept: k tan(w / (2 fs)) = w *)
Theorem C28_constant sampleRate : bilinear_k sampleRate None = (2 * sampleRate)%R /\
  (forall w, (0 < sampleRate)%R -> (0 < w < PI * sampleRate)%R -> let k := bilinear_k sampleRate (Some w) in (0 < k)%R /\ (k * tan (w / sampleRate / 2) = w)%R).
Proof.
  split; [reflexivity|]. intros w Hf Hw k. unfold k, bilinear_k. assert (A : (0 < w / sampleRate / 2 < PI / 2)%R).
  { split; [apply Rdiv_lt_0_compat; [apply Rdiv_lt_0_compat|]; lra|]. apply (Rmult_lt_reg_r (2 * sampleRate)); [lra|]. replace (w / sampleRate / 2 * (2 * sampleRate))%R with w by (field; lra). lra. }
  pose proof (tan_gt_0 _ (proj1 A) (proj2 A)). split; [apply Rdiv_lt_0_compat; lra|]. field. lra.
Qed.
Print Assumptions C28_constant.
(** with prewarping the discrete system at the chosen frequency has exactly the continuous system's response *)
Corollary C28_prewarp sys sampleRate w : well_formed sys -> (0 < sampleRate)%R -> (0 < w < PI * sampleRate)%R ->
  (forall p, In p (all_roots (zeros sys)) \/ In p (all_roots (poles sys)) -> p <> RtoC (bilinear_k sampleRate (Some w))) -> ~ is_pole sys (mkC 0 w) ->
  exists sys', BilinearTransform sys sampleRate (Some w) = Ok sys' /\ transfer_at sys' (cis (w / sampleRate)) = transfer_at sys (mkC 0 w).
Proof.
  intros W Hf Hw Hk Hp. destruct (C28_bilinear sys sampleRate (Some w) W Hk) as (sys' & E & _ & _ & _ & V). exists sys'. split; [exact E|].
  destruct (C28_constant sampleRate) as [_ Kc]. destruct (Kc w Hf Hw) as [_ Kt]. set (k := bilinear_k sampleRate (Some w)) in *. set (t := (w / sampleRate)%R) in *.
  assert (Ht : (0 < t / 2 < PI / 2)%R).
  { unfold t. split; [apply Rdiv_lt_0_compat; [apply Rdiv_lt_0_compat|]; lra|]. apply (Rmult_lt_reg_r (2 * sampleRate)); [lra|]. replace (w / sampleRate / 2 * (2 * sampleRate))%R with w by (field; lra). lra. }
  assert (Hc : (0 < cos (t / 2))%R) by (apply cos_gt_0; lra). destruct (circle_half t) as [C1' C2'].
  assert (Cn : Cadd (cis t) C1 <> C0). { rewrite C2'. intros X. apply Cmul_0_eq in X as [X|X]; [revert X; apply cis_neq0|]. injection X as X. lra. }
  assert (Es : Cmul (RtoC k) (Cdiv (Csub (cis t) C1) (Cadd (cis t) C1)) = mkC 0 w).
  { rewrite C1', C2'. rewrite <- Kt. unfold tan.
    transitivity (Cmul (RtoC k) (Cdiv (mkC 0 (2 * sin (t / 2))) (RtoC (2 * cos (t / 2))))).
    - f_equal. field. split; [intros X; injection X as X; lra|apply cis_neq0].
    - replace (mkC 0 (2 * sin (t / 2))) with (Cmul (mkC 0 (sin (t / 2) / cos (t / 2))) (RtoC (2 * cos (t / 2)))).
      + transitivity (Cmul (RtoC k) (mkC 0 (sin (t / 2) / cos (t / 2)))); [field; intros X; injection X as X; lra|]. cring.
      + unfold Cmul, RtoC. cbn [re im]. f_equal; field; lra. }
  destruct (V (cis t)) as [_ V2].
  - intros X. apply Cn. rewrite X. cring.
  - rewrite Es. exact Hp.
  - rewrite V2. cbn zeta. now rewrite Es.
Qed.
Print Assumptions C28_prewarp.
Example C28_nontrivial : well_formed (butter_sys 3) /\ (0 < 1 < PI * 1)%R /\ ~ is_pole (butter_sys 3) (mkC 0 1) /\
  (forall p, In p (all_roots (zeros (butter_sys 3))) \/ In p (all_roots (poles (butter_sys 3))) -> p <> RtoC (bilinear_k 1 (Some 1%R))).
Proof.
  split; [apply butter_wf; lia|]. split; [pose proof PI2_3_2; lra|]. split.
  - unfold is_pole. rewrite <- pnode_vanishing. apply C_neq0. cbn [poles butter_sys]. rewrite butter_mag by lia. change (2 * Z.to_nat 3)%nat with 6%nat. lra.
  - intros p [[]|Hp] E. apply bpole_left in Hp; [|lia]. rewrite E in Hp. cbn in Hp.
    destruct (C28_constant 1) as [_ Q]. destruct (Q 1%R ltac:(lra) ltac:(pose proof PI2_3_2; lra)) as [Q1 _]. unfold bilinear_k in Q1. lra.
Qed.

(** ** C29: stability *)
Theorem C29_bilinear sys sampleRate prewarp : let k := bilinear_k sampleRate prewarp in (0 < k)%R -> proper sys -> stable_continuous sys ->
  (forall p, In p (all_roots (zeros sys)) -> p <> RtoC k) ->
  exists sys', BilinearTransform sys sampleRate prewarp = Ok sys' /\ stable sys' /\ pole_count sys' = pole_count sys.
Proof.
  intros k Hk [W Hn] St Hz. destruct (counts sys W) as [Ez Ep].
  destruct (bilinear_spec sys sampleRate prewarp W) as (sys' & E & W' & Lz & Lp & _ & P & _).
  { intros p [Hp|Hp]; [now apply Hz|]. intros X. specialize (St p Hp). rewrite X in St. cbn in St. fold k in St. lra. }
  fold k in P, E. destruct (counts sys' W') as [Ez' Ep']. exists sys'. split; [exact E|]. assert (Eo : zpk_order sys = num_roots (poles sys)) by (unfold zpk_order; lia). split; [|lia].
  apply stable_bridge. intros z Hp. specialize (P z). rewrite Eo, Z.sub_diag in P. cbn [Z.to_nat cpow] in P.
  assert (P' : Cmul (prodC (cb k) (all_roots (poles sys))) (pnode (all_roots (poles sys')) z) = prodC (fun p => Csub (Nb k z) (Cmul p (Db z))) (all_roots (poles sys))) by (rewrite P; ring).
  destruct (new_pole _ _ _ _ _ z P' Hp) as (p & Hq & Q). apply (stable_bilinear k p z); [exact Hk|now apply St|exact Q].
Qed.
Print Assumptions C29_bilinear.
(** any sample rate, with or without prewarping at a frequency below Nyquist *)
Theorem C29_positive_constant sampleRate prewarp : (0 < sampleRate)%R -> (forall w, prewarp = Some w -> (0 < w < PI * sampleRate)%R) -> (0 < bilinear_k sampleRate prewarp)%R.
Proof.
  intros H Hw. destruct prewarp as [w|]; [|cbn; lra]. exact (proj1 (proj2 (C28_constant sampleRate) w H (Hw w eq_refl))).
Qed.
Print Assumptions C29_positive_constant.
Lemma disc_avoids s a0 aN sys : (s * s = 1)%R -> (a0 * a0 < aN * aN)%R -> stable_poles sys -> forall p, In p (all_roots (poles sys)) -> c1 s a0 aN p <> C0.
Proof. intros Hs Ha St p Hp. apply c1_disc; [exact Hs|exact Ha|]. specialize (St p Hp). unfold unit_disc, closed_disc in *. lra. Qed.
Theorem C29_lowpass sys cutoff : proper sys -> stable sys -> (0 < cutoff < 1)%R -> (cutoff <> (1 / 2)%R \/ zero_count sys = pole_count sys) ->
  avoids 1 (lp_a0 (cutoff * PI)) 1 (all_roots (zeros sys)) ->
  exists sys', Halfband2Lowpass sys cutoff = Ok sys' /\ stable sys' /\ pole_count sys' = pole_count sys.
Proof.
  intros [W Hn] St Ht Ha Av. destruct (counts sys W) as [Ez Ep]. apply stable_bridge in St. pose proof PI_RGT_0. assert (Hw : (0 < cutoff * PI < PI)%R) by nra.
  destruct (lp_coef _ Hw) as (A & B & E). unfold Halfband2Lowpass. rewrite divides_ok by exact A. set (a0 := lp_a0 (cutoff * PI)) in *.
  destruct (mz1_spec sys 1 a0 1 W) as (sys' & E' & W' & Lz & Lp & _ & P); [lia| | |].
  - destruct Ha as [Ha|Ha]; [left|right; lia]. unfold a0, lp_a0. intros X.
    assert (cos (cutoff * PI) = 0)%R by (apply (Rmult_eq_reg_r (- / (1 + sin (cutoff * PI)))); [unfold Rdiv in X; lra|apply Ropp_neq_0_compat, Rinv_neq_0_compat; exact A]).
    apply Ha. destruct (Rtotal_order cutoff (1/2)) as [L|[L|L]]; [|exact L|]; exfalso.
    + assert (0 < cos (cutoff * PI))%R by (apply cos_gt_0; nra). lra.
    + assert (cos (cutoff * PI) < 0)%R by (apply cos_lt_0; nra). lra.
  - intros p [Hp|Hp]; [exact (avoids_c1 _ _ _ _ _ Av Hp)|]. revert p Hp. apply disc_avoids; [lra|lra|exact St].
  - exists sys'. destruct (counts sys' W') as [_ Ep']. split; [exact E'|]. split; [|lia]. apply stable_bridge. apply (stable_map1 sys sys' 1 a0 1); [lra|lra|exact St|exact P].
Qed.
Print Assumptions C29_lowpass.
Theorem C29_highpass sys cutoff : proper sys -> stable sys -> (0 < cutoff < 1)%R -> cutoff <> (1 / 2)%R ->
  avoids (-1) 1 (hp_a1 (cutoff * PI)) (all_roots (zeros sys)) ->
  exists sys', Halfband2Highpass sys cutoff = Ok sys' /\ stable sys' /\ pole_count sys' = pole_count sys.
Proof.
  intros [W Hn] St Ht Hne Av. destruct (counts sys W) as [Ez Ep]. apply stable_bridge in St. pose proof PI_RGT_0. assert (Hw : (0 < cutoff * PI < PI)%R) by nra.
  assert (Hw2 : (cutoff * PI <> PI / 2)%R) by (intros X; apply Hne; apply (Rmult_eq_reg_r PI); lra).
  destruct (hp_coef _ Hw Hw2) as (A & B & E). unfold Halfband2Highpass. rewrite divides_ok by exact A. set (a1 := hp_a1 (cutoff * PI)) in *.
  replace (- (1))%R with (-1)%R by lra.
  destruct (mz1_spec sys (-1) 1 a1 W) as (sys' & E' & W' & Lz & Lp & _ & P); [lia|left; lra| |].
  - intros p [Hp|Hp]; [exact (avoids_c1 _ _ _ _ _ Av Hp)|]. revert p Hp. apply disc_avoids; [lra|lra|exact St].
  - exists sys'. destruct (counts sys' W') as [_ Ep']. split; [exact E'|]. split; [|lia]. apply stable_bridge. apply (stable_map1 sys sys' (-1) 1 a1); [lra|lra|exact St|exact P].
Qed.
Print Assumptions C29_highpass.
Lemma bp_ineq w1 w2 : (0 < w1 -> w1 < w2 -> w2 < PI -> w2 - w1 <> PI / 2 -> 1 * 1 < bp_a2 w1 w2 * bp_a2 w1 w2 /\ bp_a1 w1 w2 * bp_a1 w1 w2 < (bp_a2 w1 w2 + 1) * (bp_a2 w1 w2 + 1))%R.
Proof.
  intros K1 K2 K3 K4. destruct (bp_coef w1 w2 K1 K2 K3 K4) as (A1 & A2 & A3 & A4 & A5). destruct (band_angles w1 w2 K1 K2 K3) as (Sd & Cd & Cg & _).
  set (d := ((w2 - w1) / 2)%R) in *. set (g := ((w1 + w2) / 2)%R) in *. set (a2 := bp_a2 w1 w2) in *. set (a1 := bp_a1 w1 w2) in *.
  assert (E2 : (a2 * (cos d - sin d) = cos d + sin d)%R) by (rewrite A4; field; exact A3). assert (E1 : (a1 * (cos d - sin d) = - (2 * cos g))%R) by (rewrite A5; field; exact A3).
  assert (Q : (0 < (cos d - sin d) * (cos d - sin d))%R) by nra. split.
  - apply (Rmult_lt_reg_r _ _ _ Q). replace (a2 * a2 * ((cos d - sin d) * (cos d - sin d)))%R with ((a2 * (cos d - sin d)) * (a2 * (cos d - sin d)))%R by ring. rewrite E2. nra.
  - apply (Rmult_lt_reg_r _ _ _ Q). replace (a1 * a1 * ((cos d - sin d) * (cos d - sin d)))%R with ((a1 * (cos d - sin d)) * (a1 * (cos d - sin d)))%R by ring.
    replace ((a2 + 1) * (a2 + 1) * ((cos d - sin d) * (cos d - sin d)))%R with ((a2 * (cos d - sin d) + (cos d - sin d)) * (a2 * (cos d - sin d) + (cos d - sin d)))%R by ring. rewrite E1, E2. nra.
Qed.
Lemma bs_ineq w1 w2 : (0 < w1 -> w1 < w2 -> w2 < PI -> bs_a0 w1 w2 * bs_a0 w1 w2 < 1 * 1 /\ bs_a1 w1 w2 * bs_a1 w1 w2 < (1 + bs_a0 w1 w2) * (1 + bs_a0 w1 w2))%R.
Proof.
  intros K1 K2 K3. destruct (bs_coef w1 w2 K1 K2 K3) as (A1 & A2 & A3 & A4 & A5). destruct (band_angles w1 w2 K1 K2 K3) as (Sd & Cd & Cg & _).
  set (d := ((w2 - w1) / 2)%R) in *. set (g := ((w1 + w2) / 2)%R) in *. set (a0 := bs_a0 w1 w2) in *. set (a1 := bs_a1 w1 w2) in *.
  assert (E2 : (a0 * (cos d + sin d) = cos d - sin d)%R) by (rewrite A4; field; lra). assert (E1 : (a1 * (cos d + sin d) = - (2 * cos g))%R) by (rewrite A5; field; lra).
  assert (Q : (0 < (cos d + sin d) * (cos d + sin d))%R) by nra. split.
  - apply (Rmult_lt_reg_r _ _ _ Q). replace (a0 * a0 * ((cos d + sin d) * (cos d + sin d)))%R with ((a0 * (cos d + sin d)) * (a0 * (cos d + sin d)))%R by ring. rewrite E2. nra.
  - apply (Rmult_lt_reg_r _ _ _ Q). replace (a1 * a1 * ((cos d + sin d) * (cos d + sin d)))%R with ((a1 * (cos d + sin d)) * (a1 * (cos d + sin d)))%R by ring.
    replace ((1 + a0) * (1 + a0) * ((cos d + sin d) * (cos d + sin d)))%R with ((a0 * (cos d + sin d) + (cos d + sin d)) * (a0 * (cos d + sin d) + (cos d + sin d)))%R by ring. rewrite E1, E2. nra.
Qed.
Theorem C29_bandpass sys lo hi : proper sys -> stable sys -> (0 < lo)%R -> (lo < hi)%R -> (hi < 1)%R -> (hi - lo <> 1 / 2)%R ->
  avoids (-1) 1 (bp_a2 (lo * PI) (hi * PI)) (all_roots (zeros sys)) ->
  exists sys', Halfband2Bandpass sys lo hi = Ok sys' /\ stable sys' /\ pole_count sys' = 2 * pole_count sys.
Proof.
  intros [W Hn] St H1 H2 H3 Hne Av. destruct (counts sys W) as [Ez Ep]. apply stable_bridge in St. pose proof PI_RGT_0.
  assert (K1 : (0 < lo * PI)%R) by nra. assert (K2 : (lo * PI < hi * PI)%R) by nra. assert (K3 : (hi * PI < PI)%R) by nra.
  assert (K4 : (hi * PI - lo * PI <> PI / 2)%R) by (intros X; apply Hne; apply (Rmult_eq_reg_r PI); lra).
  destruct (bp_coef _ _ K1 K2 K3 K4) as (A1 & A2 & _). destruct (bp_ineq _ _ K1 K2 K3 K4) as [I1 I2]. unfold Halfband2Bandpass. rewrite !divides_ok by assumption.
  replace (- (1))%R with (-1)%R by lra. set (a2 := bp_a2 (lo * PI) (hi * PI)) in *. set (a1 := bp_a1 (lo * PI) (hi * PI)) in *.
  destruct (mz2_spec sys (-1) 1 a1 a2 W) as (sys' & E' & W' & Lz & Lp & _ & P); [lia|left; lra| |].
  - intros p [Hp|Hp]; [exact (avoids_c1 _ _ _ _ _ Av Hp)|]. revert p Hp. apply disc_avoids; [lra|exact I1|exact St].
  - exists sys'. destruct (counts sys' W') as [_ Ep']. split; [exact E'|]. split; [|lia]. apply stable_bridge. apply (stable_map2 sys sys' (-1) 1 a1 a2); [lra|exact I1|exact I2|exact St|exact P].
Qed.
Print Assumptions C29_bandpass.
Theorem C29_bandstop sys lo hi : proper sys -> stable sys -> (0 < lo)%R -> (lo < hi)%R -> (hi < 1)%R -> (bs_a0 (lo * PI) (hi * PI) <> 0%R \/ zero_count sys = pole_count sys) ->
  avoids 1 (bs_a0 (lo * PI) (hi * PI)) 1 (all_roots (zeros sys)) ->
  exists sys', Halfband2Bandstop sys lo hi = Ok sys' /\ stable sys' /\ pole_count sys' = 2 * pole_count sys.
Proof.
  intros [W Hn] St H1 H2 H3 Hne Av. destruct (counts sys W) as [Ez Ep]. apply stable_bridge in St. pose proof PI_RGT_0.
  assert (K1 : (0 < lo * PI)%R) by nra. assert (K2 : (lo * PI < hi * PI)%R) by nra. assert (K3 : (hi * PI < PI)%R) by nra.
  destruct (bs_coef _ _ K1 K2 K3) as (A1 & A2 & _). destruct (bs_ineq _ _ K1 K2 K3) as [I1 I2]. unfold Halfband2Bandstop. rewrite !divides_ok by assumption.
  set (a0 := bs_a0 (lo * PI) (hi * PI)) in *. set (a1 := bs_a1 (lo * PI) (hi * PI)) in *.
  destruct (mz2_spec sys 1 a0 a1 1 W) as (sys' & E' & W' & Lz & Lp & _ & P); [lia|destruct Hne as [Hne|Hne]; [now left|right; lia]| |].
  - intros p [Hp|Hp]; [exact (avoids_c1 _ _ _ _ _ Av Hp)|]. revert p Hp. apply disc_avoids; [lra|exact I1|exact St].
  - exists sys'. destruct (counts sys' W') as [_ Ep']. split; [exact E'|]. split; [|lia]. apply stable_bridge. apply (stable_map2 sys sys' 1 a0 a1 1); [lra|exact I1|exact I2|exact St|exact P].
Qed.
Print Assumptions C29_bandstop.
Example C29_nontrivial : proper sample_sys /\ stable sample_sys /\ stable_continuous (butter_sys 2) /\ avoids (-1) 1 (bp_a2 (1/4 * PI) (1/2 * PI)) (all_roots (zeros sample_sys)).
Proof.
  split; [exact (proj1 C27_nontrivial)|]. split; [|split].
  - apply stable_bridge. intros p Hp. change (In p [mkC (1 / 4) (1 / 4); Cconj (mkC (1 / 4) (1 / 4))]) in Hp. unfold unit_disc, Cnorm2. destruct Hp as [<-|[<-|[]]]; unfold Cconj; cbn [re im]; lra.
  - intros p Hp. now apply (bpole_left 2).
  - pose proof PI_RGT_0. destruct (bp_ineq (1/4 * PI) (1/2 * PI)) as [I _]; try lra. intros p Hp. change (In p [RtoC (1 / 2)]) in Hp. destruct Hp as [<-|[]]. intros E. apply (f_equal re) in E. unfold Cmul, RtoC in E. cbn [re im] in E. nra.
Qed.

(** ** C30: the Butterworth prototype *)
Theorem C30_butterworth order : 0 < order -> exists sys, Butterworth order = Ok sys /\ well_formed sys /\ all_roots (zeros sys) = [] /\ pole_count sys = order /\
  (forall p, In p (all_roots (poles sys)) -> Cabs p = 1%R /\ (re p < 0)%R /\ In (Cconj p) (all_roots (poles sys))) /\
  transfer_at sys C0 = C1 /\
  (forall w, ~ is_pole sys (mkC 0 w) /\ power_continuous sys w = (1 / (1 + w ^ (2 * Z.to_nat order)))%R).
Proof.
  intros H. exists (butter_sys order). split; [exact (butter_ok order ltac:(lia))|]. pose proof (butter_wf order ltac:(lia)) as W. split; [exact W|]. split; [reflexivity|].
  split; [rewrite (proj2 (counts _ W)); exact (proj1 (butter_order order ltac:(lia)))|]. split.
  - intros p Hp. cbn [poles butter_sys] in *. split; [|split].
    + unfold Cabs. rewrite (bpole_norm order p H Hp). apply sqrt_1.
    + exact (bpole_left order p H Hp).
    + apply (Permutation_in _ (all_roots_conj (butter_poles order))). now apply in_map.
  - split; [rewrite butter_transfer, butter_dc by lia; unfold Cdiv; field; intros X; injection X as X; lra|]. intros w.
    assert (P0 : (0 <= w ^ (2 * Z.to_nat order))%R) by (rewrite pow_mult; apply pow_le, pow2_ge_0).
    assert (N0 : pnode (all_roots (butter_poles order)) (mkC 0 w) <> C0) by (apply C_neq0; rewrite butter_mag by exact H; lra).
    split; [unfold is_pole; rewrite <- pnode_vanishing; exact N0|]. unfold power_continuous. rewrite Cabs_sq, butter_transfer.
    assert (M : (Cnorm2 (Cdiv C1 (pnode (all_roots (butter_poles order)) (mkC 0 w))) * Cnorm2 (pnode (all_roots (butter_poles order)) (mkC 0 w)) = 1)%R).
    { rewrite <- Cnorm2_mul. transitivity (Cnorm2 C1); [f_equal; field; exact N0|unfold Cnorm2; cbn; ring]. }
    rewrite (butter_mag order w H) in M. apply (Rmult_eq_reg_r (1 + w ^ (2 * Z.to_nat order))); [|lra]. rewrite M. field. lra.
Qed.
Print Assumptions C30_butterworth.
Example C30_nontrivial : 0 < 5. Proof. lia. Qed.

(** ** C50: the Butterworth design method, end to end *)
Theorem C50_lowpass order cutoff : 0 < order < 2 ^ 64 -> (0 < cutoff < 1)%R -> exists sys, DesignButterworthLowpass order cutoff = Ok sys /\
  well_formed sys /\ pole_count sys = order /\ zero_count sys = order /\ stable sys /\
  (forall w, (-PI < w < PI)%R -> power_at sys w = (1 / (1 + (tan (w / 2) / tan (cutoff * PI / 2)) ^ (2 * Z.to_nat order)))%R) /\
  power_at sys 0 = 1%R /\ power_at sys (cutoff * PI) = (1 / 2)%R /\ power_at sys PI = 0%R.
Proof.
  intros Ho Ht. destruct (butter_halfband order Ho) as (hb & Eh & Hb). unfold DesignButterworthLowpass. rewrite Eh. cbn [bind].
  destruct (band_lowpass hb order _ _ cutoff ltac:(lia) Hb Ht) as (sys & Es & (W & Lz & Lp & St) & V & I). exists sys. destruct (counts sys W) as [Ez Ep].
  split; [exact Es|]. split; [exact W|]. split; [lia|]. split; [lia|]. split; [now apply stable_bridge|]. unfold power_at. pose proof PI_RGT_0 as Pi.
  assert (Main : forall w, (-PI < w < PI)%R -> (Cabs (transfer_at sys (cis w)) ^ 2 = 1 / (1 + (tan (w / 2) / tan (cutoff * PI / 2)) ^ (2 * Z.to_nat order)))%R).
  { intros w Hw. rewrite Cabs_sq. apply V. assert (0 < cos (w / 2))%R by (apply cos_gt_0; lra). lra. }
  assert (Tc : (0 < tan (cutoff * PI / 2))%R) by (apply tan_gt_0; nra).
  split; [exact Main|]. split; [|split].
  - rewrite Main by lra. replace (0 / 2)%R with 0%R by lra. rewrite tan_0. replace (0 / tan (cutoff * PI / 2))%R with 0%R by (field; lra). rewrite pow_i by lia. lra.
  - rewrite Main by nra. replace (tan (cutoff * PI / 2) / tan (cutoff * PI / 2))%R with 1%R by (field; lra). rewrite pow1. lra.
  - rewrite Cabs_sq. apply I. apply cos_PI2.
Qed.
Print Assumptions C50_lowpass.
Theorem C50_highpass order cutoff : 0 < order < 2 ^ 64 -> (0 < cutoff < 1)%R -> cutoff <> (1 / 2)%R -> exists sys, DesignButterworthHighpass order cutoff = Ok sys /\
  well_formed sys /\ pole_count sys = order /\ zero_count sys = order /\ stable sys /\
  (forall w, (0 < w < PI)%R -> power_at sys w = (1 / (1 + (tan (cutoff * PI / 2) / tan (w / 2)) ^ (2 * Z.to_nat order)))%R) /\
  power_at sys 0 = 0%R /\ power_at sys (cutoff * PI) = (1 / 2)%R /\ power_at sys PI = 1%R.
Proof.
  intros Ho Ht Hne. destruct (butter_halfband order Ho) as (hb & Eh & Hb). unfold DesignButterworthHighpass. rewrite Eh. cbn [bind].
  destruct (band_highpass hb order _ _ cutoff ltac:(lia) Hb Ht Hne) as (sys & Es & (W & Lz & Lp & St) & V & I). exists sys. destruct (counts sys W) as [Ez Ep].
  split; [exact Es|]. split; [exact W|]. split; [lia|]. split; [lia|]. split; [now apply stable_bridge|]. unfold power_at. pose proof PI_RGT_0 as Pi.
  assert (Main : forall w, (0 < w < PI)%R -> (Cabs (transfer_at sys (cis w)) ^ 2 = 1 / (1 + (tan (cutoff * PI / 2) / tan (w / 2)) ^ (2 * Z.to_nat order)))%R).
  { intros w Hw. assert (0 < sin (w / 2))%R by (apply sin_gt_0; lra). assert (0 < cos (w / 2))%R by (apply cos_gt_0; lra). rewrite Cabs_sq. rewrite V by lra.
    rewrite even_sign. do 3 f_equal. unfold tan at 3. field. split; lra. }
  assert (Tc : (0 < tan (cutoff * PI / 2))%R) by (apply tan_gt_0; nra).
  split; [exact Main|]. split; [|split].
  - rewrite Cabs_sq. apply I. replace (0 / 2)%R with 0%R by lra. apply sin_0.
  - rewrite Main by nra. replace (tan (cutoff * PI / 2) / tan (cutoff * PI / 2))%R with 1%R by (field; lra). rewrite pow1. lra.
  - rewrite Cabs_sq. rewrite V by (rewrite sin_PI2; lra). rewrite cos_PI2, sin_PI2. replace (- (tan (cutoff * PI / 2) * (0 / 1)))%R with 0%R by lra. rewrite pow_i by lia. lra.
Qed.
Print Assumptions C50_highpass.
(** The design at exactly half the Nyquist frequency divides by zero. *)
Theorem C50_highpass_half_refuted order : 0 < order < 2 ^ 64 -> DesignButterworthHighpass order (1 / 2) = UB.
Proof.
  intros Ho. destruct (butter_halfband order Ho) as (hb & Eh & _). unfold DesignButterworthHighpass. rewrite Eh. cbn [bind]. unfold Halfband2Highpass, divides_by.
  destruct (Req_EM_T _ _) as [|n]; [reflexivity|]. exfalso. apply n. replace (1 / 2 * PI)%R with (PI / 2)%R by lra. rewrite sin_PI2. lra.
Qed.
Print Assumptions C50_highpass_half_refuted.

(** band edges lo < hi (as fractions of Nyquist); centre and half width *)
Definition half_width (lo hi : R) : R := ((hi * PI - lo * PI) / 2)%R.
Definition centre (lo hi : R) : R := ((lo * PI + hi * PI) / 2)%R.
(** the bandpass frequency variable: 0 at the centre of the band (on the warped scale), +-1 at its edges *)
Definition band_variable (lo hi w : R) : R := ((cos (half_width lo hi) * cos w - cos (centre lo hi)) / (sin (half_width lo hi) * sin w))%R.
Lemma band_edges lo hi : (0 < lo)%R -> (lo < hi)%R -> (hi < 1)%R -> let d := half_width lo hi in let g := centre lo hi in
  (0 < sin d /\ 0 < cos d /\ 0 < sin (lo * PI) /\ 0 < sin (hi * PI) /\ cos d * cos (lo * PI) - cos g = sin d * sin (lo * PI) /\ cos d * cos (hi * PI) - cos g = - (sin d * sin (hi * PI)))%R.
Proof.
  intros H1 H2 H3 d g. pose proof PI_RGT_0. assert (El : (lo * PI = g - d)%R) by (unfold g, d, centre, half_width; field). assert (Eh : (hi * PI = g + d)%R) by (unfold g, d, centre, half_width; field).
  split; [apply sin_gt_0; unfold d, half_width; nra|]. split; [apply cos_gt_0; unfold d, half_width; nra|]. split; [apply sin_gt_0; nra|]. split; [apply sin_gt_0; nra|].
  split.
  - replace g with (lo * PI + d)%R by lra. rewrite cos_plus. ring.
  - replace g with (hi * PI - d)%R by lra. rewrite cos_minus. ring.
Qed.
Lemma pm_one k : ((-1) ^ (2 * k) = 1)%R. Proof. rewrite pow_mult. replace ((-1) ^ 2)%R with 1%R by ring. apply pow1. Qed.
Lemma half_range n : 0 < n -> n mod 2 = 0 -> n < 2 ^ 64 -> 0 < n / 2 < 2 ^ 64. Proof. lia. Qed.
Theorem C50_bandpass order lo hi : 0 < order < 2 ^ 64 -> order mod 2 = 0 -> (0 < lo)%R -> (lo < hi)%R -> (hi < 1)%R -> (hi - lo <> 1 / 2)%R ->
  exists sys, DesignButterworthBandpass order lo hi = Ok sys /\
  well_formed sys /\ pole_count sys = order /\ zero_count sys = order /\ stable sys /\
  (forall w, (0 < w < PI)%R -> power_at sys w = (1 / (1 + (band_variable lo hi w) ^ (2 * Z.to_nat (order / 2))))%R) /\
  power_at sys 0 = 0%R /\ power_at sys (lo * PI) = (1 / 2)%R /\ power_at sys (hi * PI) = (1 / 2)%R /\ power_at sys PI = 0%R /\
  (forall w, (0 < w < PI)%R -> (cos (half_width lo hi) * cos w = cos (centre lo hi))%R -> power_at sys w = 1%R).
Proof.
  intros Ho Hev H1 H2 H3 H4. pose proof (half_range order ltac:(lia) Hev ltac:(lia)) as Ho2. destruct (butter_halfband (order / 2) Ho2) as (hb & Eh & Hb).
  unfold DesignButterworthBandpass, assert_. rewrite Hev. cbn [Z.eqb]. rewrite Eh. cbn [bind].
  destruct (band_bandpass hb (order / 2) _ _ lo hi ltac:(lia) Hb H1 H2 H3 H4) as (sys & Es & (W & Lz & Lp & St) & V & I). exists sys. destruct (counts sys W) as [Ez Ep].
  split; [exact Es|]. split; [exact W|]. split; [lia|]. split; [lia|]. split; [now apply stable_bridge|]. unfold power_at. pose proof PI_RGT_0 as Pi.
  assert (Main : forall w, (0 < w < PI)%R -> (Cabs (transfer_at sys (cis w)) ^ 2 = 1 / (1 + (band_variable lo hi w) ^ (2 * Z.to_nat (order / 2))))%R).
  { intros w Hw. assert (0 < sin w)%R by (apply sin_gt_0; lra). rewrite Cabs_sq. rewrite V by lra. rewrite even_sign. reflexivity. }
  destruct (band_edges lo hi H1 H2 H3) as (Sd & Cd & Sl & Sh & El & Eh2).
  split; [exact Main|]. split; [|split; [|split; [|split]]].
  - rewrite Cabs_sq. apply I, sin_0.
  - rewrite Main by nra. unfold band_variable. rewrite El. replace (sin (half_width lo hi) * sin (lo * PI) / (sin (half_width lo hi) * sin (lo * PI)))%R with 1%R by (field; lra). rewrite pow1. lra.
  - rewrite Main by nra. unfold band_variable. rewrite Eh2. replace (- (sin (half_width lo hi) * sin (hi * PI)) / (sin (half_width lo hi) * sin (hi * PI)))%R with (-1)%R by (field; lra). rewrite pm_one. lra.
  - rewrite Cabs_sq. apply I, sin_PI.
  - intros w Hw Hc. rewrite Main by exact Hw. unfold band_variable. rewrite Hc. assert (0 < sin w)%R by (apply sin_gt_0; lra).
    replace ((cos (centre lo hi) - cos (centre lo hi)) / (sin (half_width lo hi) * sin w))%R with 0%R by (field; lra). rewrite pow_i by lia. lra.
Qed.
Print Assumptions C50_bandpass.
Theorem C50_bandpass_half_refuted order lo : 0 < order < 2 ^ 64 -> order mod 2 = 0 -> DesignButterworthBandpass order lo (lo + 1 / 2) = UB.
Proof.
  intros Ho Hev. pose proof (half_range order ltac:(lia) Hev ltac:(lia)) as Ho2. destruct (butter_halfband (order / 2) Ho2) as (hb & Eh & _).
  unfold DesignButterworthBandpass, assert_. rewrite Hev. cbn [Z.eqb]. rewrite Eh. cbn [bind]. unfold Halfband2Bandpass, divides_by.
  destruct (Req_EM_T _ _) as [|n]; [reflexivity|]. exfalso. apply n. replace ((lo * PI - (lo + 1 / 2) * PI) / 2)%R with (- (PI / 4))%R by lra. rewrite tan_neg, tan_PI4. lra.
Qed.
Print Assumptions C50_bandpass_half_refuted.
Theorem C50_bandstop order lo hi : 0 < order < 2 ^ 64 -> order mod 2 = 0 -> (0 < lo)%R -> (lo < hi)%R -> (hi < 1)%R ->
  exists sys, DesignButterworthBandstop order lo hi = Ok sys /\
  well_formed sys /\ pole_count sys = order /\ zero_count sys = order /\ stable sys /\
  (forall w, (0 < w < PI)%R -> (cos (half_width lo hi) * cos w <> cos (centre lo hi))%R -> power_at sys w = (1 / (1 + (1 / band_variable lo hi w) ^ (2 * Z.to_nat (order / 2))))%R) /\
  (forall w, (cos (half_width lo hi) * cos w = cos (centre lo hi))%R -> power_at sys w = 0%R) /\
  power_at sys 0 = 1%R /\ power_at sys (lo * PI) = (1 / 2)%R /\ power_at sys (hi * PI) = (1 / 2)%R /\ power_at sys PI = 1%R.
Proof.
  intros Ho Hev H1 H2 H3. pose proof (half_range order ltac:(lia) Hev ltac:(lia)) as Ho2. destruct (butter_halfband (order / 2) Ho2) as (hb & Eh & Hb).
  unfold DesignButterworthBandstop, assert_. rewrite Hev. cbn [Z.eqb]. rewrite Eh. cbn [bind].
  destruct (band_bandstop hb (order / 2) _ _ lo hi ltac:(lia) Hb H1 H2 H3) as (sys & Es & (W & Lz & Lp & St) & V & I). exists sys. destruct (counts sys W) as [Ez Ep].
  split; [exact Es|]. split; [exact W|]. split; [lia|]. split; [lia|]. split; [now apply stable_bridge|]. unfold power_at. pose proof PI_RGT_0 as Pi.
  destruct (band_edges lo hi H1 H2 H3) as (Sd & Cd & Sl & Sh & El & Eh2). fold (half_width lo hi) in V, I. fold (centre lo hi) in V, I.
  assert (Main : forall w, (0 < w < PI)%R -> (cos (half_width lo hi) * cos w <> cos (centre lo hi))%R -> (Cabs (transfer_at sys (cis w)) ^ 2 = 1 / (1 + (1 / band_variable lo hi w) ^ (2 * Z.to_nat (order / 2))))%R).
  { intros w Hw Hc. assert (0 < sin w)%R by (apply sin_gt_0; lra). rewrite Cabs_sq. rewrite V by lra. do 3 f_equal. unfold band_variable. field. split; lra. }
  assert (Cg : (cos (centre lo hi) * cos (centre lo hi) < cos (half_width lo hi) * cos (half_width lo hi))%R).
  { destruct (band_angles (lo * PI) (hi * PI)) as (_ & _ & Cg & _); [nra|nra|nra|exact Cg]. }
  split; [exact Main|]. split; [intros w Hc; rewrite Cabs_sq; apply I; lra|]. split; [|split; [|split]].
  - rewrite Cabs_sq. rewrite V by (rewrite cos_0; nra). rewrite sin_0. replace (sin (half_width lo hi) * 0 / (cos (half_width lo hi) * cos 0 - cos (centre lo hi)))%R with 0%R by (rewrite cos_0; field; nra). rewrite pow_i by lia. lra.
  - rewrite Main by nra. unfold band_variable. rewrite El. replace (1 / (sin (half_width lo hi) * sin (lo * PI) / (sin (half_width lo hi) * sin (lo * PI))))%R with 1%R by (field; lra). rewrite pow1. lra.
  - rewrite Main by nra. unfold band_variable. rewrite Eh2. replace (1 / (- (sin (half_width lo hi) * sin (hi * PI)) / (sin (half_width lo hi) * sin (hi * PI))))%R with (-1)%R by (field; lra). rewrite pm_one. lra.
  - rewrite Cabs_sq. rewrite V by (rewrite cos_PI; nra). rewrite sin_PI. replace (sin (half_width lo hi) * 0 / (cos (half_width lo hi) * cos PI - cos (centre lo hi)))%R with 0%R by (rewrite cos_PI; field; nra). rewrite pow_i by lia. lra.
Qed.
Print Assumptions C50_bandstop.
Example C50_nontrivial : 0 < 6 < 2 ^ 64 /\ 6 mod 2 = 0 /\ (0 < 3/10)%R /\ (3/10 < 6/10)%R /\ (6/10 < 1)%R /\ (6/10 - 3/10 <> 1/2)%R.
Proof. repeat split; lra || lia. Qed.
