(** Proofs about root transforms. *)
From Coq Require Import Reals Lra Psatz Permutation.
From Verif Require Import Base BaseFacts Complex ConvModel ConvProofs IirModel IirProofs PolyModel PolyProofs SysModel SysProofs PropsPoly PropsSys RootModel.
From Coq Require Import ZifyBool ZifyNat.
Ltac Zify.zify_post_hook ::= Z.div_mod_to_equations.
Open Scope Z_scope.

Ltac asC := match goal with |- @eq _ ?a ?b => change (@eq C a b) end.
Notation prodC := (prodK (K := Cring)).
Definition reals (l : list C) : list R := map re (filter is_real l).
Definition poss (l : list C) : list C := filter is_pos l.
(** views partly written: [pr], [pc] are in place, [nr], [nc] cells are left *)
Definition filled (st : (list R * Z) * (list C * Z)) (pr : list R) (pc : list C) (nr nc : Z) : Prop :=
  exists sr sc, st = ((pr ++ sr, lenZ pr), (pc ++ sc, lenZ pc)) /\ lenZ sr = nr /\ lenZ sc = nc.
Lemma push_filled {A} (pr sr : list A) v : 0 < lenZ sr -> exists sr', push (pr ++ sr, lenZ pr) v = Ok (((pr ++ [v]) ++ sr', lenZ (pr ++ [v]))) /\ lenZ sr' = lenZ sr - 1.
Proof.
  destruct sr as [|w sr]; [cbn; lia|]. intros _. exists sr. unfold push. cbn [fst snd]. rewrite wr_midA. cbn [bind]. rewrite <- app_assoc, lenZ_app, !lenZ_cons. change (lenZ (@nil A)) with 0. split; [reflexivity|lia].
Qed.
Lemma is_real_spec t : is_real t = Reqb (im t) 0. Proof. reflexivity. Qed.
Lemma is_pos_spec t : is_pos t = Rltb 0 (im t). Proof. reflexivity. Qed.
Lemma pos_not_real t : is_pos t = true -> is_real t = false.
Proof. unfold is_pos, is_real, Rltb, Reqb. destruct (Rlt_dec 0 (im t)), (Req_EM_T (im t) 0); intros; try discriminate; auto; lra. Qed.
Lemma sort_out_filled st pr pc nr nc t : filled st pr pc nr nc -> lenZ (reals [t]) <= nr -> lenZ (poss [t]) <= nc ->
  okP (sort_out st t) (fun st' => filled st' (pr ++ reals [t]) (pc ++ poss [t]) (nr - lenZ (reals [t])) (nc - lenZ (poss [t]))).
Proof.
  intros (sr & sc & -> & L1 & L2) Hr Hc. unfold sort_out, reals, poss in *. rewrite <- is_real_spec, <- is_pos_spec. cbn [filter map fst snd] in *.
  destruct (is_pos t) eqn:P.
  - rewrite (pos_not_real t P) in *. cbn [map] in *. change (lenZ [t]) with 1 in *. change (lenZ (@nil R)) with 0 in *.
    destruct (push_filled pc sc t ltac:(lia)) as (sc' & E & L). rewrite E. cbn [bind]. eexists. split; [reflexivity|].
    exists sr, sc'. rewrite app_nil_r. split; [reflexivity|]. split; lia.
  - destruct (is_real t); cbn [map] in *.
    + change (lenZ [re t]) with 1 in *. change (lenZ (@nil C)) with 0 in *.
      destruct (push_filled pr sr (re t) ltac:(lia)) as (sr' & E & L). rewrite E. cbn [bind]. eexists. split; [reflexivity|].
      exists sr', sc. rewrite app_nil_r. split; [reflexivity|]. split; lia.
    + change (lenZ (@nil R)) with 0 in *. change (lenZ (@nil C)) with 0 in *. eexists. split; [reflexivity|].
      exists sr, sc. rewrite !app_nil_r. split; [reflexivity|]. split; lia.
Qed.
Lemma reals_app a b : reals (a ++ b) = reals a ++ reals b.
Proof. unfold reals. now rewrite filter_app, map_app. Qed.
Lemma poss_app a b : poss (a ++ b) = poss a ++ poss b.
Proof. unfold poss. apply filter_app. Qed.
Lemma sort_all l : forall st pr pc nr nc, filled st pr pc nr nc -> lenZ (reals l) <= nr -> lenZ (poss l) <= nc ->
  okP (foldM (fun t st => sort_out st t) l st) (fun st' => filled st' (pr ++ reals l) (pc ++ poss l) (nr - lenZ (reals l)) (nc - lenZ (poss l))).
Proof.
  induction l as [|t l IH]; intros st pr pc nr nc F Hr Hc.
  - cbn [foldM]. eexists. split; [reflexivity|]. cbn. rewrite !app_nil_r. change (lenZ (@nil R)) with 0. change (lenZ (@nil C)) with 0.
    destruct F as (sr & sc & ? & ? & ?). exists sr, sc. repeat split; auto; lia.
  - change (t :: l) with ([t] ++ l) in *. rewrite reals_app, poss_app in *. rewrite !lenZ_app in *. pose proof (lenZ_nonneg (reals l)). pose proof (lenZ_nonneg (poss l)).
    cbn [app foldM]. destruct (sort_out_filled st pr pc nr nc t F ltac:(lia) ltac:(lia)) as (st' & E & F'). rewrite E. cbn [bind].
    destruct (IH _ _ _ _ _ F' ltac:(lia) ltac:(lia)) as (st'' & E' & F''). exists st''. split; [exact E'|].
    rewrite !app_assoc. replace (nr - (lenZ (reals [t]) + lenZ (reals l))) with (nr - lenZ (reals [t]) - lenZ (reals l)) by lia.
    replace (nc - (lenZ (poss [t]) + lenZ (poss l))) with (nc - lenZ (poss [t]) - lenZ (poss l)) by lia. exact F''.
Qed.
Lemma push_all_filled st pr pc nr nc vs : filled st pr pc nr nc -> lenZ vs <= nc ->
  okP (do cs <- push_all vs (snd st); Ok (fst st, cs)) (fun st' => filled st' pr (pc ++ vs) nr (nc - lenZ vs)).
Proof.
  intros (sr & sc & -> & L1 & L2) Hc. cbn [fst snd].
  assert (G : forall vs pc (sc : list C), lenZ vs <= lenZ sc -> exists sc', push_all vs (pc ++ sc, lenZ pc) = Ok ((pc ++ vs) ++ sc', lenZ (pc ++ vs)) /\ lenZ sc' = lenZ sc - lenZ vs).
  { clear. induction vs as [|v vs IH]; intros pc sc H.
    - exists sc. rewrite app_nil_r. change (lenZ (@nil C)) with 0. split; [reflexivity|lia].
    - rewrite lenZ_cons in *. pose proof (lenZ_nonneg vs). cbn [push_all]. destruct (push_filled pc sc v ltac:(lia)) as (sc' & E & L). rewrite E. cbn [bind].
      destruct (IH (pc ++ [v]) sc' ltac:(lia)) as (sc'' & E' & L'). exists sc''. rewrite <- (app_assoc pc [v] vs) in E'. split; [exact E'|lia]. }
  destruct (G vs pc sc ltac:(lia)) as (sc' & E & L). rewrite E. cbn [bind]. eexists. split; [reflexivity|]. exists sr, sc'. repeat split; auto; lia.
Qed.

Lemma lenZ_flat_map_add {A B} (f : A -> list B) a l : lenZ (flat_map f (a :: l)) = lenZ (f a) + lenZ (flat_map f l).
Proof. cbn [flat_map]. apply lenZ_app. Qed.

Lemma count_fold l a b : fold_left (fun acc root => (fst acc + (if Reqb (im root) 0 then 1 else 0), snd acc + (if Rltb 0 (im root) then 1 else 0))) l (a, b)
  = (a + lenZ (reals l), b + lenZ (poss l)).
Proof.
  revert a b. induction l as [|t l IH]; intros a b; [cbn; f_equal; change (lenZ (@nil R)) with 0; lia|].
  cbn [fold_left fst snd]. rewrite IH. change (t :: l) with ([t] ++ l). rewrite reals_app, poss_app, !lenZ_app.
  unfold reals at 2, poss at 2. cbn [filter]. rewrite is_real_spec, is_pos_spec. destruct (Reqb (im t) 0), (Rltb 0 (im t)); cbn [map]; f_equal; unfold lenZ; cbn [length]; lia.
Qed.
Lemma CountRoots_ok l : conj_closed l -> CountRoots l = Ok (lenZ (reals l), lenZ (poss l)).
Proof. intros H. unfold CountRoots. apply pairs_spec in H. rewrite H. cbn [negb]. rewrite count_fold. reflexivity. Qed.

Section TR.
Context (funcR : R -> list C) (funcC : C -> list C) (pads : list C).
Definition tr_reals (rr : list R) (n : Z) : list R := flat_map (fun r => reals (funcR r)) rr ++ concat (repeat (reals pads) (Z.to_nat n)).
Definition tr_pairs (rr : list R) (cp : list C) (n : Z) : list C :=
  flat_map (fun r => poss (funcR r)) rr ++ flat_map funcC cp ++ concat (repeat (poss pads) (Z.to_nat n)).

Lemma fold_real rr : forall st pr pc nr nc, filled st pr pc nr nc ->
  Forall (fun r => lenZ (funcR r) = lenZ pads) rr ->
  lenZ (flat_map (fun r => reals (funcR r)) rr) <= nr -> lenZ (flat_map (fun r => poss (funcR r)) rr) <= nc ->
  okP (foldM (fun root st => assert_ (lenZ (funcR root) =? lenZ pads) (foldM (fun t st => sort_out st t) (funcR root) st)) rr st)
    (fun st' => filled st' (pr ++ flat_map (fun r => reals (funcR r)) rr) (pc ++ flat_map (fun r => poss (funcR r)) rr)
       (nr - lenZ (flat_map (fun r => reals (funcR r)) rr)) (nc - lenZ (flat_map (fun r => poss (funcR r)) rr))).
Proof.
  induction rr as [|r rr IH]; intros st pr pc nr nc F L Hr Hc.
  - cbn [foldM flat_map]. eexists. split; [reflexivity|]. rewrite !app_nil_r. change (lenZ (@nil R)) with 0. change (lenZ (@nil C)) with 0. rewrite !Z.sub_0_r. exact F.
  - inversion L as [|? ? L1 L2]; subst. rewrite !lenZ_flat_map_add in *.
    pose proof (lenZ_nonneg (flat_map (fun r => reals (funcR r)) rr)). pose proof (lenZ_nonneg (flat_map (fun r => poss (funcR r)) rr)).
    cbn [foldM]. rewrite L1, Z.eqb_refl. cbn [assert_].
    destruct (sort_all (funcR r) st pr pc nr nc F ltac:(lia) ltac:(lia)) as (st' & E & F'). rewrite E. cbn [bind].
    destruct (IH _ _ _ _ _ F' L2 ltac:(lia) ltac:(lia)) as (st'' & E' & F''). exists st''. split; [exact E'|].
    cbn [flat_map]. rewrite !app_assoc. rewrite !Z.sub_add_distr. exact F''.
Qed.
Lemma fold_cplx cp : forall st pr pc nr nc, filled st pr pc nr nc ->
  Forall (fun r => lenZ (funcC r) = lenZ pads) cp -> lenZ (flat_map funcC cp) <= nc ->
  okP (foldM (fun root st => assert_ (lenZ (funcC root) =? lenZ pads) (do cs <- push_all (funcC root) (snd st); Ok (fst st, cs))) cp st)
    (fun st' => filled st' pr (pc ++ flat_map funcC cp) nr (nc - lenZ (flat_map funcC cp))).
Proof.
  induction cp as [|r rr IH]; intros st pr pc nr nc F L Hc.
  - cbn [foldM flat_map]. eexists. split; [reflexivity|]. rewrite !app_nil_r. change (lenZ (@nil C)) with 0. rewrite !Z.sub_0_r. exact F.
  - inversion L as [|? ? L1 L2]; subst. rewrite !lenZ_flat_map_add in *. pose proof (lenZ_nonneg (flat_map funcC rr)).
    cbn [foldM]. rewrite L1, Z.eqb_refl. cbn [assert_].
    destruct (push_all_filled st pr pc nr nc (funcC r) F ltac:(lia)) as (st' & E & F'). rewrite E. cbn [bind].
    destruct (IH _ _ _ _ _ F' L2 ltac:(lia)) as (st'' & E' & F''). exists st''. split; [exact E'|].
    cbn [flat_map]. rewrite !app_assoc. rewrite !Z.sub_add_distr. rewrite L1 in F''. exact F''.
Qed.
Lemma lenZ_concat_repeat {A} (l : list A) n : lenZ (concat (repeat l n)) = Z.of_nat n * lenZ l.
Proof. induction n as [|n IH]; [reflexivity|]. cbn [repeat concat]. rewrite lenZ_app, IH. lia. Qed.
Lemma concat_repeat_snoc {A} (l : list A) n : concat (repeat l (S n)) = concat (repeat l n) ++ l.
Proof. induction n as [|n IH]; [cbn; now rewrite app_nil_r|]. change (concat (repeat l (S (S n)))) with (l ++ concat (repeat l (S n))). rewrite IH at 1. rewrite app_assoc. reflexivity. Qed.
Lemma pad_loop n st pr pc nr nc : 0 <= n -> filled st pr pc nr nc -> n * lenZ (reals pads) <= nr -> n * lenZ (poss pads) <= nc ->
  okP (for_ 0 n 1 (fun _ st => foldM (fun t st => sort_out st t) pads st) st)
    (fun st' => filled st' (pr ++ concat (repeat (reals pads) (Z.to_nat n))) (pc ++ concat (repeat (poss pads) (Z.to_nat n)))
       (nr - n * lenZ (reals pads)) (nc - n * lenZ (poss pads))).
Proof.
  intros Hn F Hr Hc. pose proof (lenZ_nonneg (reals pads)). pose proof (lenZ_nonneg (poss pads)).
  apply (for1_inv (fun i st => filled st (pr ++ concat (repeat (reals pads) (Z.to_nat i))) (pc ++ concat (repeat (poss pads) (Z.to_nat i)))
       (nr - i * lenZ (reals pads)) (nc - i * lenZ (poss pads)))); [|exact Hn|].
  - cbn. rewrite !app_nil_r, !Z.sub_0_r. exact F.
  - intros i s Hi F'. destruct (sort_all pads _ _ _ _ _ F') as (st'' & E' & F''); [nia|nia|].
    exists st''. split; [exact E'|]. replace (Z.to_nat (i + 1)) with (S (Z.to_nat i)) by lia. rewrite !concat_repeat_snoc, !app_assoc.
    replace (nr - (i + 1) * lenZ (reals pads)) with (nr - i * lenZ (reals pads) - lenZ (reals pads)) by lia.
    replace (nc - (i + 1) * lenZ (poss pads)) with (nc - i * lenZ (poss pads) - lenZ (poss pads)) by lia. exact F''.
Qed.
Lemma CountTransformed_ok rr : Forall (fun r => conj_closed (funcR r)) rr ->
  CountTransformedRoots rr funcR = Ok (lenZ (flat_map (fun r => reals (funcR r)) rr), lenZ (flat_map (fun r => poss (funcR r)) rr)).
Proof.
  unfold CountTransformedRoots. assert (G : forall rr a b, Forall (fun r => conj_closed (funcR r)) rr ->
    foldM (fun root acc => do c <- CountRoots (funcR root); Ok (fst acc + fst c, snd acc + snd c)) rr (a, b)
    = Ok (a + lenZ (flat_map (fun r => reals (funcR r)) rr), b + lenZ (flat_map (fun r => poss (funcR r)) rr))).
  { clear rr. induction rr as [|r rr IH]; intros a b H.
    - cbn. change (lenZ (@nil R)) with 0. change (lenZ (@nil C)) with 0. do 2 f_equal; lia.
    - inversion H; subst. cbn [foldM]. rewrite CountRoots_ok by assumption. cbn [bind fst snd]. rewrite IH by assumption. rewrite !lenZ_flat_map_add. do 2 f_equal; lia. }
  intros H. now rewrite G.
Qed.
Lemma lenZ_flat_const {A B} (f : A -> list B) l n : Forall (fun a => lenZ (f a) = n) l -> lenZ (flat_map f l) = n * lenZ l.
Proof. induction 1 as [|a l H _ IH]; [cbn; unfold lenZ; cbn; lia|]. rewrite lenZ_flat_map_add, IH, H, lenZ_cons. lia. Qed.
Lemma empty_fp_wf : fp_wf empty_fp. Proof. unfold fp_wf, empty_fp. cbn. unfold lenZ. cbn. lia. Qed.

Theorem TransformRoots_ok poly numRoots : fp_wf poly -> conj_closed pads ->
  Forall (fun r => conj_closed (funcR r) /\ lenZ (funcR r) = lenZ pads) (real_roots poly) ->
  Forall (fun c => lenZ (funcC c) = lenZ pads) (complex_pairs poly) ->
  (numRoots = 0 \/ num_roots poly <= numRoots) ->
  let n := (if numRoots =? 0 then num_roots poly else numRoots) - num_roots poly in
  TransformRoots poly funcR funcC numRoots pads = Ok (mk_fp (tr_reals (real_roots poly) n) (tr_pairs (real_roots poly) (complex_pairs poly) n)).
Proof.
  intros W Hp HR HC Hn n. unfold TransformRoots.
  assert (HR1 : Forall (fun r => conj_closed (funcR r)) (real_roots poly)) by (eapply Forall_impl; [|exact HR]; cbn; tauto).
  assert (HR2 : Forall (fun r => lenZ (funcR r) = lenZ pads) (real_roots poly)) by (eapply Forall_impl; [|exact HR]; cbn; tauto).
  rewrite (CountTransformed_ok _ HR1). cbn [bind]. rewrite (CountRoots_ok _ Hp). cbn [bind fst snd].
  replace ((numRoots =? 0) || (num_roots poly <=? numRoots)) with true by lia. cbn [assert_]. fold n.
  assert (N0 : 0 <= n) by (unfold n; destruct (numRoots =? 0) eqn:E; lia).
  set (lr := lenZ (flat_map (fun r => reals (funcR r)) (real_roots poly))). set (lc := lenZ (flat_map (fun r => poss (funcR r)) (real_roots poly))).
  assert (0 <= lr) by apply lenZ_nonneg. assert (0 <= lc) by apply lenZ_nonneg.
  pose proof (lenZ_nonneg (reals pads)). pose proof (lenZ_nonneg (poss pads)). pose proof (lenZ_nonneg pads). pose proof W as (? & ? & ?).
  destruct (resize_spec empty_fp (lr + n * lenZ (reals pads)) (lc + lenZ pads * npairs poly + n * lenZ (poss pads)) 0%R C0 empty_fp_wf ltac:(nia) ltac:(nia) ltac:(now right))
    as (q & Eq & Wq & Q1 & Q2 & _ & _). rewrite Eq. cbn [bind].
  assert (F0 : filled ((real_roots q, 0), (complex_pairs q, 0)) [] [] (nreal q) (npairs q)).
  { exists (real_roots q), (complex_pairs q). split; [reflexivity|]. split; [now apply lenZ_real_roots|now apply lenZ_complex_pairs]. }
  rewrite Q1, Q2 in F0.
  destruct (fold_real (real_roots poly) _ _ _ _ _ F0 HR2) as (s1 & E1 & F1); [fold lr; nia|fold lc; nia|]. rewrite E1. cbn [bind]. cbn [app] in F1. fold lr lc in F1.
  pose proof (lenZ_flat_const funcC _ _ HC) as LC. rewrite (lenZ_complex_pairs poly W) in LC.
  destruct (fold_cplx (complex_pairs poly) _ _ _ _ _ F1 HC) as (s2 & E2 & F2); [lia|]. rewrite E2. cbn [bind]. rewrite LC in F2.
  destruct (pad_loop n s2 _ _ _ _ N0 F2) as (s3 & E3 & F3); [lia|lia|]. rewrite E3. cbn [bind].
  destruct F3 as (sr & sc & -> & L1 & L2). cbn [fst snd]. unfold tr_reals, tr_pairs.
  assert (sr = []) by (destruct sr; [reflexivity|rewrite lenZ_cons in L1; pose proof (lenZ_nonneg sr); lia]).
  assert (sc = []) by (destruct sc; [reflexivity|rewrite lenZ_cons in L2; pose proof (lenZ_nonneg sc); lia]). subst sr sc.
  rewrite !app_nil_r, app_assoc. reflexivity.
Qed.

(** *** the value of the transformed polynomial *)
Fixpoint cpow (z : C) (n : nat) : C := match n with O => C1 | S n => Cmul z (cpow z n) end.
Definition pnode (l : list C) (z : C) : C := prodC (fun t => Csub z t) l.
Lemma pnode_conj_closed l z : conj_closed l -> Cmul (prodC (fun r => Csub z (RtoC r)) (reals l)) (prodC (fun c => Cmul (Csub z c) (Csub z (Cconj c))) (poss l)) = pnode l z.
Proof.
  intros H. unfold pnode. rewrite <- (ctor_value l H z). rewrite (fp_eval_prod (K := Cring) RtoC emb_RtoC), mk_fp_real, mk_fp_pairs. fold (reals l). fold (poss l).
  cbn [rmul Cring]. f_equal. apply (prodK_ext (K := Cring)). intros c _. symmetry. apply quad_conj.
Qed.
Lemma prodC_flat {A B} (f : B -> C) (g : A -> list B) l : prodC f (flat_map g l) = prodC (fun a => prodC f (g a)) l.
Proof. induction l as [|a l IH]; [reflexivity|]. cbn [flat_map]. rewrite (prodK_app (K := Cring)), IH. reflexivity. Qed.
Lemma prodC_concat_repeat {B} (f : B -> C) l n : prodC f (concat (repeat l n)) = cpow (prodC f l) n.
Proof. induction n as [|n IH]; [reflexivity|]. cbn [repeat concat cpow]. now rewrite (prodK_app (K := Cring)), IH. Qed.
Lemma cpow_mul a b n : cpow (Cmul a b) n = Cmul (cpow a n) (cpow b n).
Proof. pose proof C_ring_theory as RT. induction n as [|n IH]; cbn [cpow]; [symmetry; apply (Rmul_1_l RT)|]. rewrite IH. cring. Qed.
Lemma prodC_mul {A} (f g : A -> C) l : prodC (fun a => Cmul (f a) (g a)) l = Cmul (prodC f l) (prodC g l).
Proof. exact (prodK_mul (K := Cring) f g l). Qed.
Lemma tr_value rr cp n z : conj_closed pads -> Forall (fun r => conj_closed (funcR r)) rr ->
  pnode (all_roots (mk_fp (tr_reals rr n) (tr_pairs rr cp n))) z =
  Cmul (Cmul (prodC (fun r => pnode (funcR r) z) rr) (prodC (fun c => Cmul (pnode (funcC c) z) (pnode (map Cconj (funcC c)) z)) cp))
       (cpow (pnode pads z) (Z.to_nat n)).
Proof.
  intros Hp HR. unfold all_roots. rewrite mk_fp_real, mk_fp_pairs. unfold pnode at 1. rewrite !(prodK_app (K := Cring)), !(prodK_map (K := Cring)).
  cbn [rmul Cring]. unfold tr_reals, tr_pairs. rewrite !(prodK_app (K := Cring)). cbn [rmul Cring]. rewrite !prodC_flat, !prodC_concat_repeat.
  rewrite <- (pnode_conj_closed pads z Hp), cpow_mul. rewrite (prodC_mul (fun c => Csub z c) (fun c => Csub z (Cconj c)) (poss pads)), cpow_mul.
  assert (E : prodC (fun r => pnode (funcR r) z) rr = Cmul (prodC (fun r => prodC (fun t => Csub z (RtoC t)) (reals (funcR r))) rr)
     (Cmul (prodC (fun r => prodC (fun t => Csub z t) (poss (funcR r))) rr) (prodC (fun r => prodC (fun t => Csub z (Cconj t)) (poss (funcR r))) rr))).
  { rewrite <- !prodC_mul. apply (prodK_ext (K := Cring)). intros r Hr. rewrite Forall_forall in HR. rewrite <- (pnode_conj_closed _ z (HR r Hr)). now rewrite prodC_mul. }
  rewrite E. rewrite (prodC_mul (fun c => pnode (funcC c) z)). unfold pnode.
  assert (E2 : prodC (fun a => prodC (fun t => Csub z t) (map Cconj (funcC a))) cp = prodC (fun a => prodC (fun a0 => Csub z (Cconj a0)) (funcC a)) cp).
  { apply (prodK_ext (K := Cring)). intros c _. apply (prodK_map (K := Cring)). }
  rewrite E2. cring.
Qed.
End TR.

Lemma conj_len l : conj_closed l -> lenZ (reals l) + 2 * lenZ (poss l) = lenZ l.
Proof.
  intros H. pose proof (Permutation_length (split3 l)) as P3. rewrite !app_length in P3. pose proof (Permutation_length (neg_perm l H)) as PN. rewrite map_length in PN.
  unfold reals, poss. rewrite lenZ_map. unfold lenZ. lia.
Qed.
Lemma Cconj_prod {A} (f : A -> C) l : Cconj (prodC f l) = prodC (fun a => Cconj (f a)) l.
Proof. induction l as [|a l IH]; [apply Cconj_1|]. cbn [prodK fold_right] in *. unfold prodK in IH. rewrite <- IH. apply Cconj_mul. Qed.
Lemma prodC_neq0 {A} (f : A -> C) l : (forall a, In a l -> f a <> C0) -> prodC f l <> C0.
Proof.
  induction l as [|a l IH]; intros H; [cbn; intros E; injection E; lra|]. cbn [prodK fold_right]. intros E. apply Cmul_0_eq in E as [E|E]; [revert E; apply H; now left|].
  revert E. apply IH. intros; apply H; now right.
Qed.
Lemma prodC_neq0_inv {A} (f : A -> C) l a : prodC f l <> C0 -> In a l -> f a <> C0.
Proof. intros H Hi. exact (prod_nonzero (K := Cfield) f l a H Hi). Qed.
Lemma C1_neq0 : C1 <> C0. Proof. intros E; injection E; lra. Qed.
Lemma Cmul_neq0 a b : a <> C0 -> b <> C0 -> Cmul a b <> C0.
Proof. intros A B E. apply Cmul_0_eq in E as [E|E]; auto. Qed.
Lemma cpow_neq0 a n : a <> C0 -> cpow a n <> C0.
Proof. intros H. induction n as [|n IH]; cbn [cpow]; [apply C1_neq0|]. now apply Cmul_neq0. Qed.
Lemma Cmul_cancel a x y : a <> C0 -> Cmul a x = Cmul a y -> x = y.
Proof. intros H E. transitivity (Cdiv (Cmul a x) a); [field; exact H|]. rewrite E. field. exact H. Qed.
Lemma cpow_add a m n : cpow a (m + n) = Cmul (cpow a m) (cpow a n).
Proof. induction m as [|m IH]; cbn [plus cpow]; [ring|]. rewrite IH. ring. Qed.
Lemma prodC_scale_root (f : C -> C) (d : C) l : prodC (fun p => Cmul d (f p)) l = Cmul (cpow d (length l)) (prodC f l).
Proof. rewrite prodC_mul. f_equal. induction l as [|a l IH]; [reflexivity|]. cbn [length cpow prodK fold_right] in *. unfold prodK in IH. now rewrite IH. Qed.
Lemma pnode_vanishing l z : pnode l z = vanishing_product l z.
Proof. symmetry. apply vanishing_prodK. Qed.
Lemma In_all_real p r : In r (real_roots p) -> In (RtoC r) (all_roots p).
Proof. intros H. unfold all_roots. apply in_or_app. left. now apply in_map. Qed.
Lemma In_all_pair p c : In c (complex_pairs p) -> In c (all_roots p).
Proof. intros H. unfold all_roots. apply in_or_app. right. apply in_or_app. now left. Qed.

Section Map.
Context (N D c : C -> C) (funcR : R -> list C) (funcC : C -> list C) (pads : list C).
Hypothesis Nconj : forall z, N (Cconj z) = Cconj (N z).
Hypothesis Dconj : forall z, D (Cconj z) = Cconj (D z).
Hypothesis cconj : forall p, c (Cconj p) = Cconj (c p).
Hypothesis HC : forall p, c p <> C0 -> forall z, Cmul (c p) (pnode (funcC p) z) = Csub (N z) (Cmul p (D z)).
Hypothesis HR : forall r, c (RtoC r) <> C0 -> forall z, Cmul (c (RtoC r)) (pnode (funcR r) z) = Csub (N z) (Cmul (RtoC r) (D z)).
Hypothesis cR : forall r, conj_closed (funcR r).
Hypothesis cP : conj_closed pads.
Hypothesis lR : forall r, lenZ (funcR r) = lenZ pads.
Hypothesis lC : forall p, lenZ (funcC p) = lenZ pads.
Lemma image_conj p : c p <> C0 -> forall z, Cmul (c (Cconj p)) (pnode (map Cconj (funcC p)) z) = Csub (N z) (Cmul (Cconj p) (D z)).
Proof.
  intros H z. rewrite cconj. transitivity (Csub (N (Cconj (Cconj z))) (Cmul (Cconj p) (D (Cconj (Cconj z))))); [|now rewrite Cconj_conj].
  rewrite Nconj, Dconj. rewrite <- Cconj_mul, <- Cconj_sub, <- (HC p H). rewrite Cconj_mul. f_equal.
  unfold pnode. rewrite Cconj_prod, (prodK_map (K := Cring)). apply (prodK_ext (K := Cring)). intros t _. now rewrite Cconj_sub, Cconj_conj.
Qed.
Lemma map_roots poly numRoots : fp_wf poly -> (forall p, In p (all_roots poly) -> c p <> C0) -> numRoots = 0 \/ num_roots poly <= numRoots ->
  let n := (if numRoots =? 0 then num_roots poly else numRoots) - num_roots poly in
  exists q, TransformRoots poly funcR funcC numRoots pads = Ok q /\ fp_wf q /\ num_roots q = lenZ pads * (num_roots poly + n) /\
  forall z, Cmul (prodC c (all_roots poly)) (pnode (all_roots q) z) =
            Cmul (prodC (fun p => Csub (N z) (Cmul p (D z))) (all_roots poly)) (cpow (pnode pads z) (Z.to_nat n)).
Proof.
  intros W Hc Hn n. eexists. split.
  { apply TransformRoots_ok; auto.
    - apply Forall_forall. auto.
    - apply Forall_forall. auto. }
  fold n. assert (N0 : 0 <= n) by (unfold n; destruct (numRoots =? 0) eqn:E; lia).
  split; [apply mk_fp_wf|]. split.
  - unfold mk_fp, num_roots at 1. cbn [nreal npairs]. unfold tr_reals, tr_pairs. rewrite !lenZ_app, !lenZ_concat_repeat.
    rewrite (lenZ_flat_const funcC (complex_pairs poly) (lenZ pads)) by (apply Forall_forall; auto). rewrite (lenZ_complex_pairs poly W).
    assert (E : lenZ (flat_map (fun r => reals (funcR r)) (real_roots poly)) + 2 * lenZ (flat_map (fun r => poss (funcR r)) (real_roots poly)) = lenZ pads * nreal poly).
    { rewrite <- (lenZ_real_roots poly W). induction (real_roots poly) as [|r l IH]; [cbn; unfold lenZ; cbn; lia|]. rewrite !lenZ_flat_map_add, lenZ_cons.
      pose proof (conj_len (funcR r) (cR r)). rewrite (lR r) in *. lia. }
    pose proof (conj_len pads cP). rewrite Z2Nat.id by lia. unfold num_roots. nia.
  - intros z. rewrite tr_value; [|exact cP|apply Forall_forall; auto].
    unfold all_roots. rewrite !(prodK_app (K := Cring)), !(prodK_map (K := Cring)). cbn [rmul Cring].
    assert (ER : Cmul (prodC (fun r => c (RtoC r)) (real_roots poly)) (prodC (fun r => pnode (funcR r) z) (real_roots poly)) =
       prodC (fun r => Csub (N z) (Cmul (RtoC r) (D z))) (real_roots poly)).
    { rewrite <- prodC_mul. apply (prodK_ext (K := Cring)). intros r Hr. apply HR. apply Hc. now apply In_all_real. }
    assert (EC : Cmul (Cmul (prodC c (complex_pairs poly)) (prodC (fun p => c (Cconj p)) (complex_pairs poly))) (prodC (fun p => Cmul (pnode (funcC p) z) (pnode (map Cconj (funcC p)) z)) (complex_pairs poly)) =
       Cmul (prodC (fun p => Csub (N z) (Cmul p (D z))) (complex_pairs poly)) (prodC (fun p => Csub (N z) (Cmul (Cconj p) (D z))) (complex_pairs poly))).
    { rewrite <- !prodC_mul. apply (prodK_ext (K := Cring)). intros p Hp. assert (P0 : c p <> C0) by (apply Hc; now apply In_all_pair).
      rewrite <- (HC p P0), <- (image_conj p P0). asC. ring. }
    rewrite <- ER, <- EC. ring.
Qed.
End Map.

(** *** the gain *)
Lemma RtoC_mul a b : RtoC (a * b) = Cmul (RtoC a) (RtoC b). Proof. cring. Qed.
Lemma RtoC_neq0 a : a <> 0%R -> RtoC a <> C0. Proof. intros H E. injection E. exact H. Qed.
Lemma fold_left_RtoC {A} (f : A -> R) l : RtoC (fold_left (fun acc a => (acc * f a)%R) l 1%R) = prodC (fun a => RtoC (f a)) l.
Proof.
  assert (G : forall l a0, RtoC (fold_left (fun acc a => (acc * f a)%R) l a0) = Cmul (RtoC a0) (prodC (fun a => RtoC (f a)) l)).
  { clear l. induction l as [|a l IH]; intros a0; cbn [fold_left]; [cbn; cring|]. rewrite IH, RtoC_mul. cbn [prodK fold_right]. unfold prodK. cbn [rmul Cring]. ring. }
  rewrite G. change (RtoC 1) with C1. ring.
Qed.
Lemma TransformGain_prod (c : C -> C) (rg : R -> R) (cg : C -> R) poly :
  (forall r, RtoC (rg r) = c (RtoC r)) -> (forall p, RtoC (cg p) = Cmul (c p) (c (Cconj p))) ->
  RtoC (TransformGain poly rg cg) = prodC c (all_roots poly).
Proof.
  intros H1 H2. unfold TransformGain. rewrite RtoC_mul, !fold_left_RtoC. unfold all_roots. rewrite !(prodK_app (K := Cring)), !(prodK_map (K := Cring)). cbn [rmul Cring].
  f_equal; [apply (prodK_ext (K := Cring)); intros; apply H1|]. rewrite <- prodC_mul. apply (prodK_ext (K := Cring)). intros; apply H2.
Qed.
(** *** the system *)
Lemma sys_map (g g' al Nz Dz pad : C) (zs ps zs' ps' : list C) (c : C -> C) (kz kp : nat) z :
  Cmul (prodC c zs) (pnode zs' z) = Cmul (prodC (fun p => Csub Nz (Cmul p Dz)) zs) (cpow pad kz) ->
  Cmul (prodC c ps) (pnode ps' z) = Cmul (prodC (fun p => Csub Nz (Cmul p Dz)) ps) (cpow pad kp) ->
  Cmul (cpow al kz) (cpow pad kz) = cpow Dz kz -> Cmul (cpow al kp) (cpow pad kp) = cpow Dz kp ->
  (length zs + kz = length ps + kp)%nat -> Dz <> C0 -> prodC c ps <> C0 ->
  Cmul g' (Cmul (prodC c ps) (cpow al kp)) = Cmul g (Cmul (prodC c zs) (cpow al kz)) ->
  pnode ps (Cdiv Nz Dz) <> C0 ->
  pnode ps' z <> C0 /\
  Cdiv (Cmul g' (pnode zs' z)) (pnode ps' z) = Cdiv (Cmul g (pnode zs (Cdiv Nz Dz))) (pnode ps (Cdiv Nz Dz)).
Proof.
  intros Ez Ep Az Ap L D0 C0' G B0. set (M := Cdiv Nz Dz) in *.
  assert (Q : forall l, prodC (fun p => Csub Nz (Cmul p Dz)) l = Cmul (cpow Dz (length l)) (pnode l M)).
  { intros l. unfold pnode. rewrite <- prodC_scale_root. apply (prodK_ext (K := Cring)). intros p _. unfold M. asC. field. exact D0. }
  rewrite Q in Ez, Ep.
  assert (Dk : forall k, cpow Dz k <> C0) by (intros; now apply cpow_neq0).
  assert (A1 : cpow al kp <> C0) by (intros E; rewrite E in Ap; apply (Dk kp); rewrite <- Ap; ring).
  assert (A2 : cpow pad kp <> C0) by (intros E; rewrite E in Ap; apply (Dk kp); rewrite <- Ap; ring).
  assert (P0 : pnode ps' z <> C0).
  { intros E. rewrite E in Ep. assert (Cmul (Cmul (cpow Dz (length ps)) (pnode ps M)) (cpow pad kp) <> C0) by (repeat apply Cmul_neq0; auto).
    apply H. rewrite <- Ep. ring. }
  split; [exact P0|].
  assert (K : Cmul (Cmul g' (pnode zs' z)) (pnode ps M) = Cmul (Cmul g (pnode zs M)) (pnode ps' z)).
  { apply (Cmul_cancel (Cmul (prodC c ps) (cpow al kp))); [now apply Cmul_neq0|].
    transitivity (Cmul (Cmul (Cmul g' (Cmul (prodC c ps) (cpow al kp))) (pnode zs' z)) (pnode ps M)); [ring|]. rewrite G.
    transitivity (Cmul (Cmul (Cmul g (cpow al kz)) (Cmul (prodC c zs) (pnode zs' z))) (pnode ps M)); [ring|]. rewrite Ez.
    transitivity (Cmul (Cmul (Cmul g (pnode zs M)) (pnode ps M)) (Cmul (cpow Dz (length zs)) (Cmul (cpow al kz) (cpow pad kz)))); [ring|]. rewrite Az, <- cpow_add, L, cpow_add, <- Ap.
    transitivity (Cmul (Cmul (Cmul g (pnode zs M)) (cpow al kp)) (Cmul (Cmul (cpow Dz (length ps)) (pnode ps M)) (cpow pad kp))); [ring|]. rewrite <- Ep. ring. }
  transitivity (Cdiv (Cmul (Cmul g' (pnode zs' z)) (pnode ps M)) (Cmul (pnode ps' z) (pnode ps M))); [field; auto|]. rewrite K. field. auto.
Qed.
