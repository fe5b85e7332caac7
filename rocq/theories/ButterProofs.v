(** The Butterworth prototype and the band transforms. *)
From Coq Require Import Reals Lra Psatz Permutation.
From Verif Require Import Base BaseFacts Complex KernelProofs ConvModel ConvProofs IirModel IirProofs PolyModel PolyProofs SysModel SysProofs PropsPoly PropsSys RootModel RootProofs ZmapProofs DesignProofs.
From Coq Require Import ZifyBool ZifyNat.
Ltac Zify.zify_post_hook ::= Z.div_mod_to_equations.
Open Scope Z_scope.

Lemma perm_tab_rev {A} n (F : Z -> A) : 0 <= n -> Permutation (tab n (fun i => F (n - 1 - i))) (tab n F).
Proof.
  intros H. revert F. pattern n. apply natlike_ind; [reflexivity| |exact H]. clear n H. intros n Hn IH F. unfold Z.succ.
  rewrite (tab_snoc n F Hn). replace (n + 1) with (1 + n) at 1 by lia. rewrite tab_app by lia. rewrite tab_1. cbn [app].
  replace (n + 1 - 1 - 0) with n by lia. eapply Permutation_trans; [|apply Permutation_cons_append]. apply perm_skip.
  assert (E : tab n (fun i => F (n + 1 - 1 - (1 + i))) = tab n (fun i => F (n - 1 - i))) by (apply tab_ext; intros i Hi; f_equal; lia).
  rewrite E. apply IH.
Qed.
Definition bpole (n i : Z) : C := cis (PI * (1 / 2 + IZR i / IZR n + 1 / 2 / IZR n)).
Lemma vresize_empty_real n v : 0 <= n -> vresize (real_roots empty_fp) n v = repeat v (Z.to_nat n).
Proof. intros. apply vresize_nil. Qed.
Lemma butter_ok n : 0 <= n -> Butterworth n = Ok (mkZpk 1 empty_fp (mk_fp (repeat (-1)%R (Z.to_nat (n mod 2))) (tab (n / 2) (bpole n)))).
Proof.
  intros H. unfold Butterworth.
  destruct (resize_spec empty_fp (n mod 2) (n / 2) (-1) C0 fp_wf_empty ltac:(lia) ltac:(lia) ltac:(now right)) as (q & E & W & Q1 & Q2 & Q3 & Q4).
  rewrite E. cbn [bind]. rewrite Q2, Q3, vresize_empty_real by lia.
  assert (G : okP (for_ 0 (n / 2) 1 (fun index cs => wr cs index (cis (PI * (1 / 2 + IZR index / IZR n + 1 / 2 / IZR n)))) (complex_pairs q))
     (fun cs => cs = tab (n / 2) (fun i => if i <? n / 2 then bpole n i else C0))).
  { apply (for1_inv (fun j (cs : list C) => cs = tab (n / 2) (fun i => if i <? j then bpole n i else C0))); [|lia|].
    - apply list_eq_tab; [rewrite lenZ_complex_pairs by exact W; lia|]. intros i Hi. rewrite Q4. unfold vresize. change (complex_pairs empty_fp) with (@nil C).
      rewrite firstn_nil. cbn [app]. change (lenZ (@nil C)) with 0. replace (i <? 0) with false by lia. unfold nthZ. replace (i <? 0) with false by lia.
      rewrite nth_error_repeat by lia. reflexivity.
    - intros i cs Hi ->. unfold wr. rewrite lenZ_tab. replace ((0 <=? i) && (i <? Z.max 0 (n / 2))) with true by lia.
      eexists. split; [reflexivity|]. rewrite updZ_tab by lia. apply tab_ext. intros k Hk. destruct (k =? i) eqn:E1.
      + replace k with i by lia. replace (i <? i + 1) with true by lia. reflexivity.
      + destruct (k <? i) eqn:E2; [replace (k <? i + 1) with true by lia|replace (k <? i + 1) with false by lia]; reflexivity. }
  destruct G as (cs & Ec & ->). rewrite Ec. cbn [bind]. do 3 f_equal. apply tab_ext. intros i Hi. now replace (i <? n / 2) with true by lia.
Qed.
Lemma bpole_conj n i : 0 < n -> bpole n (n - 1 - i) = Cconj (bpole n i).
Proof.
  intros H. assert (IZR n <> 0)%R by (apply not_0_IZR; lia). unfold bpole. rewrite <- cis_neg.
  replace (PI * (1 / 2 + IZR (n - 1 - i) / IZR n + 1 / 2 / IZR n))%R with (2 * PI + - (PI * (1 / 2 + IZR i / IZR n + 1 / 2 / IZR n)))%R by (rewrite !minus_IZR; field; assumption).
  rewrite cis_add, cis_2PI. cring.
Qed.
Lemma bpole_mid n : 0 < n -> n mod 2 = 1 -> bpole n (n / 2) = RtoC (-1).
Proof.
  intros H E. assert (IZR n <> 0)%R by (apply not_0_IZR; lia). unfold bpole. rewrite <- cis_PI. f_equal.
  assert (Q : IZR n = (2 * IZR (n / 2) + 1)%R) by (rewrite <- mult_IZR, <- plus_IZR; f_equal; lia). field_simplify_eq; [|assumption]. rewrite Q. ring.
Qed.
Definition butter_poles (n : Z) : fp := mk_fp (repeat (-1)%R (Z.to_nat (n mod 2))) (tab (n / 2) (bpole n)).
Lemma butter_roots n : 0 < n -> Permutation (all_roots (butter_poles n)) (tab n (bpole n)).
Proof.
  intros H. unfold all_roots, butter_poles. rewrite mk_fp_real, mk_fp_pairs, map_tab. set (h := n / 2). set (r := n mod 2).
  assert (Er : map RtoC (repeat (-1)%R (Z.to_nat r)) = tab r (fun i => bpole n (h + i))).
  { assert (r = 0 \/ r = 1) as [E|E] by (unfold r; lia); rewrite E; [reflexivity|]. rewrite tab_1. change (map RtoC (repeat (-1)%R (Z.to_nat 1))) with [RtoC (-1)]. f_equal. replace (h + 0) with (n / 2) by (unfold h; lia). symmetry. apply bpole_mid; [lia|exact E]. }
  rewrite Er. assert (En : tab n (bpole n) = tab (h + (r + h)) (bpole n)) by (f_equal; unfold h, r; lia). rewrite En. clear En.
  rewrite tab_app by (unfold h, r; lia). rewrite (tab_app r h) by (unfold h, r; lia).
  rewrite app_assoc. rewrite (Permutation_app_comm (tab r _) (tab h _)). rewrite <- app_assoc. apply Permutation_app_head, Permutation_app_head.
  assert (El : tab h (fun i => Cconj (bpole n i)) = tab h (fun i => (fun j => bpole n (h + (r + j))) (h - 1 - i))).
  { apply tab_ext. intros i Hi. rewrite <- bpole_conj by lia. f_equal. unfold h, r. lia. }
  rewrite El. exact (perm_tab_rev h (fun j => bpole n (h + (r + j))) ltac:(unfold h; lia)).
Qed.
Lemma all_roots_conj p : Permutation (map Cconj (all_roots p)) (all_roots p).
Proof.
  unfold all_roots. rewrite !map_app, !map_map. apply Permutation_app.
  - erewrite map_ext; [reflexivity|]. intros; apply Cconj_R.
  - assert (E : map (fun x => Cconj (Cconj x)) (complex_pairs p) = complex_pairs p) by (rewrite <- (map_id (complex_pairs p)) at 2; apply map_ext, Cconj_conj).
    rewrite E. apply Permutation_app_comm.
Qed.
Lemma cnorm_prod {A} (f : A -> C) l : RtoC (Cnorm2 (prodC f l)) = Cmul (prodC f l) (prodC (fun a => Cconj (f a)) l).
Proof. rewrite <- Cconj_prod. symmetry. apply Cmul_conj. Qed.
(** |prod (jw - p)|^2 = w^(2n) + 1 *)
Lemma butter_mag n w : 0 < n -> Cnorm2 (pnode (all_roots (butter_poles n)) (mkC 0 w)) = (1 + w ^ (2 * Z.to_nat n))%R.
Proof.
  intros H. assert (H' : (IZR n <> 0)%R) by (apply not_0_IZR; lia).
  assert (E : RtoC (Cnorm2 (pnode (all_roots (butter_poles n)) (mkC 0 w))) = RtoC (1 + w ^ (2 * Z.to_nat n))%R); [|now injection E].
  unfold pnode at 1. rewrite cnorm_prod.
  assert (E1 : prodC (fun a => Cconj (Csub (mkC 0 w) a)) (all_roots (butter_poles n)) = prodC (fun a => Csub (mkC 0 (- w)) a) (all_roots (butter_poles n))).
  { rewrite <- (prodK_perm (K := Cring) _ _ _ (all_roots_conj (butter_poles n))), (prodK_map (K := Cring)). apply (prodK_ext (K := Cring)). intros a _. rewrite Cconj_sub, Cconj_conj. f_equal ; try cring. }
  rewrite E1, <- prodC_mul.
  rewrite (prodK_perm (K := Cring) _ _ _ (butter_roots n H)).
  assert (E2 : prodC (fun a => Cmul (Csub (mkC 0 w) a) (Csub (mkC 0 (- w)) a)) (tab n (bpole n)) = pnode (tab n (neg_root n)) (RtoC (w * w)%R)).
  { unfold pnode. replace (tab n (neg_root n)) with (map (fun i => neg_root n i) (tab n (fun i => i))) by (rewrite map_tab; reflexivity).
    replace (tab n (bpole n)) with (map (fun i => bpole n i) (tab n (fun i => i))) by (rewrite map_tab; reflexivity). rewrite !(prodK_map (K := Cring)).
    apply (prodK_ext (K := Cring)). intros i _.
    assert (S : Cmul (bpole n i) (bpole n i) = Copp (neg_root n i)).
    { unfold bpole, neg_root. rewrite <- cis_add.
      replace (PI * (1 / 2 + IZR i / IZR n + 1 / 2 / IZR n) + PI * (1 / 2 + IZR i / IZR n + 1 / 2 / IZR n))%R with (PI + PI * IZR (2 * i + 1) / IZR n)%R by (rewrite plus_IZR, mult_IZR; field; exact H').
      rewrite cis_add, cis_PI. cring. }
    transitivity (Cadd (RtoC (w * w)%R) (Cmul (bpole n i) (bpole n i))); [cring|]. rewrite S. asC. ring. }
  rewrite E2, neg_roots by exact H. rewrite RtoC_add. rewrite pow_mult.
  assert (CP : forall k, cpow (RtoC (w * w)) k = RtoC ((w ^ 2) ^ k)).
  { induction k as [|k IH]; [reflexivity|]. cbn [cpow pow]. rewrite IH. cring. }
  rewrite CP. change (RtoC 1) with C1. ring.
Qed.
Lemma bpole_left n p : 0 < n -> In p (all_roots (butter_poles n)) -> (re p < 0)%R.
Proof.
  intros H Hp. assert (H' : (0 < IZR n)%R) by now apply IZR_lt. apply (Permutation_in _ (butter_roots n H)) in Hp. apply In_tab in Hp as (i & Hi & ->).
  unfold bpole, cis. cbn [re]. pose proof PI_RGT_0.
  assert (A : (0 < IZR i / IZR n + 1 / 2 / IZR n < 1)%R).
  { replace (IZR i / IZR n + 1 / 2 / IZR n)%R with ((IZR i + 1 / 2) / IZR n)%R by (field; lra).
    assert (0 <= IZR i)%R by (apply IZR_le; lia). assert (IZR i + 1 <= IZR n)%R by (rewrite <- plus_IZR; apply IZR_le; lia). split.
    - apply Rdiv_lt_0_compat; lra.
    - apply (Rmult_lt_reg_r (IZR n)); [lra|]. unfold Rdiv at 1. rewrite Rmult_assoc, Rinv_l, Rmult_1_r, Rmult_1_l by lra. lra. }
  apply cos_lt_0; nra.
Qed.
Lemma bpole_norm n p : 0 < n -> In p (all_roots (butter_poles n)) -> Cnorm2 p = 1%R.
Proof. intros H Hp. apply (Permutation_in _ (butter_roots n H)) in Hp. apply In_tab in Hp as (i & Hi & ->). apply cis_norm. Qed.
Lemma butter_dc n : 0 <= n -> pnode (all_roots (butter_poles n)) C0 = C1.
Proof.
  intros H. unfold pnode. unfold all_roots, butter_poles. rewrite mk_fp_real, mk_fp_pairs.
  rewrite !(prodK_app (K := Cring)), !(prodK_map (K := Cring)). cbn [rmul Cring]. rewrite <- prodC_mul.
  assert (E : prodC (fun a => Cmul (Csub C0 a) (Csub C0 (Cconj a))) (tab (n / 2) (bpole n)) = C1).
  { transitivity (prodC (fun _ => C1) (tab (n / 2) (bpole n))).
    - apply (prodK_ext (K := Cring)). intros a Ha. apply In_tab in Ha as (i & Hi & ->). transitivity (Cmul (bpole n i) (Cconj (bpole n i))); [asC; ring|]. rewrite Cmul_conj. unfold bpole. rewrite cis_norm. reflexivity.
    - induction (tab (n / 2) (bpole n)) as [|a l IH]; [reflexivity|]. cbn [prodK fold_right] in *. unfold prodK in IH. rewrite IH. cbn [rmul Cring]. asC. ring. }
  rewrite E. assert (n mod 2 = 0 \/ n mod 2 = 1) as [M|M] by lia; rewrite M; [cbn; cring|]. change (repeat (-1)%R (Z.to_nat 1)) with [(-1)%R]. cbn [prodK fold_right map]. unfold prodK. cbn [fold_right rmul r1 Cring]. cring.
Qed.
