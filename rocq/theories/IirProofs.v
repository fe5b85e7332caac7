(** Proofs about IirModel. *)
From Verif Require FirModel.
From Verif Require Import Base BaseFacts IntervalModel KernelModel KernelProofs ConvModel ConvProofs IirModel.
From Coq Require Import ZifyBool ZifyNat.
Ltac Zify.zify_post_hook ::= Z.div_mod_to_equations.
Open Scope Z_scope.

(** *** state shifting *)
Lemma shift_in_spec {K} (s : list K) v : 0 < lenZ s -> shift_in s v = Ok (skipn 1 (s ++ [v])).
Proof.
  intros H. unfold shift_in. replace (lenZ s =? 0) with false by lia. cbn [negb assert_].
  apply okP_eq. eapply okP_bind.
  { apply (for1_inv' (fun j t => lenZ t = lenZ s /\ (forall i, 0 <= i < j -> nthZ t i = nthZ s (i + 1)) /\ (forall i, j <= i < lenZ s -> nthZ t i = nthZ s i))).
    - split; [reflexivity|]. split; [intros; lia|reflexivity].
    - intros j t Hj (L & A & B). unfold rd at 1. rewrite (B (j + 1)) by lia.
      destruct (nthZ s (j + 1)) as [x|] eqn:Ex; [|apply nthZ_none in Ex; lia].
      cbn [bind]. rewrite wr_ok by lia. apply okP_ret.
      split; [rewrite lenZ_updZ; lia|]. split; intros i Hi; rewrite nthZ_updZ by lia; destruct (Z.eqb_spec i j) as [->|]; try lia.
      + now rewrite Ex.
      + apply A. lia.
      + apply B. lia. }
  cbn beta. intros t (L & A & _). rewrite wr_ok by lia. apply okP_ret. apply list_ext.
  - rewrite lenZ_updZ by lia. rewrite lenZ_skipn, lenZ_app. change (lenZ [v]) with 1. lia.
  - rewrite lenZ_updZ by lia. intros i Hi. rewrite nthZ_updZ by lia. rewrite nthZ_skipn by lia.
    destruct (Z.eqb_spec i (lenZ t - 1)).
    + rewrite nthZ_app2 by lia. replace (Z.of_nat 1 + i - lenZ s) with 0 by lia. reflexivity.
    + rewrite nthZ_app1 by lia. rewrite A by lia. f_equal. lia.
Qed.

Section Feeds.
Context {K : Type}.

(** *** feeding a sequence *)
Fixpoint feeds {S} (step : K -> S -> outcome (K * S)) (xs : list K) (st : S) : outcome (list K * S) :=
  match xs with
  | [] => Ok ([], st)
  | v :: xs => do (w, st) <- step v st; do (ys, st) <- feeds step xs st; Ok (w :: ys, st)
  end.

Lemma rd_mid (pre suf : list K) v : rd (pre ++ v :: suf) (lenZ pre) = Ok v.
Proof. unfold rd. rewrite nthZ_app2 by lia. now rewrite Z.sub_diag. Qed.
Lemma wr_mid (pre suf : list K) v w : wr (pre ++ v :: suf) (lenZ pre) w = Ok (pre ++ w :: suf).
Proof.
  pose proof (lenZ_nonneg pre). pose proof (lenZ_nonneg suf).
  rewrite wr_ok by (rewrite lenZ_app, lenZ_cons; lia). f_equal. apply list_ext.
  { rewrite lenZ_updZ by (rewrite lenZ_app, lenZ_cons; lia). now rewrite !lenZ_app, !lenZ_cons. }
  intros i _. rewrite nthZ_updZ by (rewrite lenZ_app, lenZ_cons; lia).
  destruct (Z.eqb_spec i (lenZ pre)) as [->|].
  - rewrite nthZ_app2 by lia. now rewrite Z.sub_diag.
  - destruct (Z_lt_ge_dec i (lenZ pre)); [now rewrite !nthZ_app1 by lia|].
    rewrite !nthZ_app2 by lia. rewrite !nthZ_consS by lia. reflexivity.
Qed.

Lemma trips1 n : 0 <= n -> trips 0 n 1 = Z.to_nat n.
Proof. intros. unfold trips. f_equal. rewrite Z.div_1_r. lia. Qed.

Lemma feed_loop_feeds {S} (step : K -> S -> outcome (K * S)) (out signal : list K) (st : S) :
  lenZ out = lenZ signal -> feed_loop step out signal st = feeds step signal st.
Proof.
  intros H. unfold feed_loop, for_. rewrite trips1 by apply lenZ_nonneg.
  replace (Z.to_nat (lenZ signal)) with (length signal) by (unfold lenZ; lia).
  set (body := fun (i : Z) (q : list K * S) => _).
  assert (G : forall suf pre opre osuf (q : S), pre ++ suf = signal -> lenZ opre = lenZ pre -> lenZ osuf = lenZ suf ->
            loop (length suf) (lenZ pre) 1 body (opre ++ osuf, q) = do (ys, q) <- feeds step suf q; Ok (opre ++ ys, q)).
  { induction suf as [|v suf IH]; intros pre opre osuf q E L1 L2.
    - cbn. destruct osuf; [reflexivity|]. rewrite lenZ_cons, lenZ_nil in L2. pose proof (lenZ_nonneg osuf). lia.
    - destruct osuf as [|o osuf]; [rewrite lenZ_cons, lenZ_nil in L2; pose proof (lenZ_nonneg suf); lia|].
      rewrite !lenZ_cons in L2. cbn [length loop feeds]. unfold body at 1.
      rewrite <- E, rd_mid. cbn [bind]. destruct (step v q) as [[w q']|e|]; cbn [bind]; [|reflexivity|reflexivity].
      rewrite <- L1, wr_mid. cbn [bind]. rewrite L1.
      replace (lenZ pre + 1) with (lenZ (pre ++ [v])) by now rewrite lenZ_app.
      replace (opre ++ w :: osuf) with ((opre ++ [w]) ++ osuf) by now rewrite <- app_assoc.
      rewrite IH.
      + destruct (feeds step suf q') as [[ys q'']|e|]; cbn [bind]; [|reflexivity|reflexivity]. now rewrite <- app_assoc.
      + now rewrite <- app_assoc.
      + rewrite !lenZ_app. cbn. lia.
      + lia. }
  specialize (G signal [] [] out st eq_refl eq_refl H). cbn [app] in G. change (lenZ (@nil K)) with 0 in G.
  rewrite G. destruct (feeds step signal st) as [[ys q]|e|]; reflexivity.
Qed.

Lemma feed_loop_inplace_feeds {S} (step : K -> S -> outcome (K * S)) (buf : list K) (st : S) :
  feed_loop_inplace step buf st = feeds step buf st.
Proof.
  unfold feed_loop_inplace, for_. rewrite trips1 by apply lenZ_nonneg.
  replace (Z.to_nat (lenZ buf)) with (length buf) by (unfold lenZ; lia).
  set (body := fun (i : Z) (q : list K * S) => _).
  assert (G : forall suf pre (q : S),
            loop (length suf) (lenZ pre) 1 body (pre ++ suf, q) = do (ys, q) <- feeds step suf q; Ok (pre ++ ys, q)).
  { induction suf as [|v suf IH]; intros pre q.
    - reflexivity.
    - cbn [length loop feeds]. unfold body at 1.
      rewrite rd_mid. cbn [bind]. destruct (step v q) as [[w q']|e|]; cbn [bind]; [|reflexivity|reflexivity].
      rewrite wr_mid. cbn [bind].
      replace (lenZ pre + 1) with (lenZ (pre ++ [w])) by now rewrite lenZ_app.
      replace (pre ++ w :: suf) with ((pre ++ [w]) ++ suf) by now rewrite <- app_assoc.
      rewrite IH. destruct (feeds step suf q') as [[ys q'']|e|]; cbn [bind]; [|reflexivity|reflexivity]. now rewrite <- app_assoc. }
  specialize (G buf [] st). cbn [app] in G. change (lenZ (@nil K)) with 0 in G.
  rewrite G. destruct (feeds step buf st) as [[ys q]|e|]; reflexivity.
Qed.

Lemma feeds_app {S} (step : K -> S -> outcome (K * S)) (a b : list K) (st : S) :
  feeds step (a ++ b) st = do (ya, st) <- feeds step a st; do (yb, st) <- feeds step b st; Ok (ya ++ yb, st).
Proof.
  revert st. induction a as [|v a IH]; intros st; cbn [app feeds bind].
  - destruct (feeds step b st) as [[yb q]|e|]; reflexivity.
  - destruct (step v st) as [[w q]|e|]; cbn [bind]; [|reflexivity|reflexivity].
    rewrite IH. destruct (feeds step a q) as [[ya q']|e|]; cbn [bind]; [|reflexivity|reflexivity].
    destruct (feeds step b q') as [[yb q'']|e|]; cbn [bind]; reflexivity.
Qed.

Lemma feeds_len {S} (step : K -> S -> outcome (K * S)) (a : list K) (st : S) ys st' :
  feeds step a st = Ok (ys, st') -> lenZ ys = lenZ a.
Proof.
  revert st ys. induction a as [|v a IH]; intros st ys H; cbn [feeds] in H.
  - injection H as <- <-. reflexivity.
  - destruct (step v st) as [[w q]|e|]; cbn [bind] in H; try discriminate.
    destruct (feeds step a q) as [[ya q']|e|] eqn:E; cbn [bind] in H; try discriminate.
    injection H as <- <-. rewrite !lenZ_cons. now rewrite (IH _ _ E).
Qed.

Lemma giir_filter_feeds {S} (zero : K) pre (step : K -> S -> outcome (K * S)) signal st :
  gIirFilter zero pre step signal st = assert_ pre (feeds step signal st).
Proof.
  unfold gIirFilter, IirFilterInto. rewrite feed_loop_feeds by apply lenZ_repeat.
  rewrite lenZ_repeat. unfold lenZ. now rewrite Z.eqb_refl.
Qed.

Lemma shift_in_len (s : list K) v s' : shift_in s v = Ok s' -> lenZ s' = lenZ s.
Proof.
  intros H. destruct (Z.eq_dec (lenZ s) 0) as [E|E].
  - unfold shift_in in H. rewrite E in H. discriminate.
  - pose proof (lenZ_nonneg s). rewrite shift_in_spec in H by lia. assert (E' : s' = skipn 1 (s ++ [v])) by congruence. rewrite E'. rewrite lenZ_skipn, lenZ_app. change (lenZ [v]) with 1. lia.
Qed.
Ltac bind_inv H := match type of H with bind ?m _ = Ok _ => destruct m eqn:?; cbn [bind] in H; try discriminate H end.
Lemma assert_inv {A} b (m : outcome A) a : assert_ b m = Ok a -> b = true /\ m = Ok a.
Proof. destruct b; cbn; [auto|discriminate]. Qed.
Lemma gdf1_step_len zero one sub mul div madd (sys : tf K) v s w s' : gdf1_step zero one sub mul div madd sys v s = Ok (w, s') -> lenZ (rec1 s') = lenZ (rec1 s) /\ lenZ (fw1 s') = lenZ (fw1 s).
Proof.
  unfold gdf1_step. intros H. bind_inv H. apply assert_inv in H as [_ H]. apply assert_inv in H as [_ H].
  do 4 bind_inv H. destruct (0 <? lenZ (rec1 s)).
  - bind_inv H. injection H as <- <-. cbn [rec1 fw1]. split; eapply shift_in_len; eassumption.
  - cbn [bind] in H. injection H as <- <-. cbn [rec1 fw1]. split; [reflexivity|]. eapply shift_in_len; eassumption.
Qed.
Lemma gdf2_step_len zero one sub mul div madd (sys : tf K) v (s : list K) w s' : gdf2_step zero one sub mul div madd sys v s = Ok (w, s') -> lenZ s' = lenZ s.
Proof.
  unfold gdf2_step. intros H. bind_inv H. apply assert_inv in H as [_ H]. apply assert_inv in H as [_ H].
  do 4 bind_inv H. injection H as <- <-. eapply shift_in_len; eassumption.
Qed.
Lemma feeds_preserves {S} (step : K -> S -> outcome (K * S)) (P : S -> Prop) xs : forall s ys s',
  (forall v s w s', P s -> step v s = Ok (w, s') -> P s') -> P s -> feeds step xs s = Ok (ys, s') -> P s'.
Proof.
  induction xs as [|v xs IH]; intros s ys s' Hs HP H; cbn [feeds] in H.
  - injection H as <- <-. exact HP.
  - destruct (step v s) as [[w q]|e|] eqn:E; cbn [bind] in H; try discriminate.
    destruct (feeds step xs q) as [[zs q']|e|] eqn:E2; cbn [bind] in H; try discriminate. injection H as <- <-.
    eapply IH; [exact Hs| |exact E2]. eapply Hs; eassumption.
Qed.

(** block by block *)
Lemma blocks_generic {S} (zero : K) (pre : S -> bool) (step : K -> S -> outcome (K * S)) (blocks : list (list K)) : forall (s : S) y s',
  (forall v s w s', pre s = true -> step v s = Ok (w, s') -> pre s' = true) ->
  gIirFilter zero (pre s) step (concat blocks) s = Ok (y, s') ->
  okP (FirModel.run_blocks (fun b s => gIirFilter zero (pre s) step b s) blocks s) (fun r => concat (fst r) = y /\ map (@lenZ K) (fst r) = map (@lenZ K) blocks /\ snd r = s').
Proof.
  induction blocks as [|b bs IH]; intros s y s' Hp H.
  - cbn [FirModel.run_blocks]. apply okP_ret. rewrite giir_filter_feeds in H. cbn in H. apply assert_inv in H as [_ H]. injection H as <- <-. auto.
  - cbn [concat] in H. rewrite giir_filter_feeds in H. apply assert_inv in H as [P H]. rewrite feeds_app in H.
    destruct (feeds step b s) as [[ya q]|e|] eqn:E; cbn [bind] in H; try discriminate.
    destruct (feeds step (concat bs) q) as [[yb q']|e|] eqn:E2; cbn [bind] in H; try discriminate. injection H as <- <-.
    cbn [FirModel.run_blocks]. rewrite giir_filter_feeds, P, E. cbn [assert_ bind].
    assert (Pq : pre q = true) by (eapply (feeds_preserves step (fun s => pre s = true)); eassumption).
    eapply okP_bind.
    { apply (IH q yb q' Hp). rewrite giir_filter_feeds, Pq, E2. reflexivity. }
    cbn beta. intros [ys q2] (C & Lb & Eq). cbn [fst snd] in *. subst q2. apply okP_ret. cbn [fst snd concat map].
    split; [now rewrite C|]. split; [|reflexivity]. f_equal; [eapply feeds_len; exact E|exact Lb].
Qed.
(** a prefix of the input determines the prefix of the output *)
Lemma causal_generic {S} (zero : K) pre (step : K -> S -> outcome (K * S)) (a b : list K) (s : S) y s' :
  gIirFilter zero pre step (a ++ b) s = Ok (y, s') -> exists ya sa, gIirFilter zero pre step a s = Ok (ya, sa) /\ ya = firstn (length a) y.
Proof.
  rewrite !giir_filter_feeds. intros H. apply assert_inv in H as [-> H]. rewrite feeds_app in H. cbn [assert_].
  destruct (feeds step a s) as [[ya q]|e|] eqn:E; cbn [bind] in H; try discriminate.
  destruct (feeds step b q) as [[yb q']|e|] eqn:E2; cbn [bind] in H; try discriminate. injection H as <- <-.
  exists ya, q. split; [reflexivity|]. apply feeds_len in E. assert (length ya = length a) by (unfold lenZ in E; lia).
  rewrite firstn_app, firstn_all2 by lia. replace (length a - length ya)%nat with O by lia. now rewrite app_nil_r.
Qed.
End Feeds.
Ltac bind_inv H := match type of H with bind ?m _ = Ok _ => destruct m eqn:?; cbn [bind] in H; try discriminate H end.

Section Iir.
Context {K : CField}.
Add Ring KR : (rth K).
Add Field KF : (fth K).
Implicit Types (x y l num den : list K) (sys : tf K).

(** *** state shifting and inner products *)
Lemma inner_spec (a : list K) oa (b : list K) ob n : 0 <= n -> 0 <= oa -> 0 <= ob -> oa + n <= lenZ a -> ob + n <= lenZ b ->
  inner a oa b ob n = Ok (sumZ 0 n (fun i => rmul (at0 a (oa + i)) (at0 b (ob + i)))).
Proof.
  intros. unfold inner. apply okP_eq.
  eapply okP_imp.
  { apply (for1_inv' (fun j acc => acc = sumZ 0 (Z.max 0 j) (fun i => rmul (at0 a (oa + i)) (at0 b (ob + i))))).
    - now rewrite sumZ_empty by lia.
    - intros j acc Hj ->. rewrite !rd_at0 by lia. cbn [bind]. apply okP_ret.
      replace (Z.max 0 (j + 1)) with (Z.max 0 j + 1) by lia. rewrite sumZ_last by lia. now replace (Z.max 0 j) with j by lia. }
  cbn beta. intros acc ->. f_equal. lia.
Qed.

Definition iir_filter_feeds {S} pre (step : K -> S -> outcome (K * S)) signal st :
  IirFilter pre step signal st = assert_ pre (feeds step signal st) := giir_filter_feeds r0 pre step signal st.
Definition df1_step_len sys v s w s' : df1_step sys v s = Ok (w, s') -> lenZ (rec1 s') = lenZ (rec1 s) /\ lenZ (fw1 s') = lenZ (fw1 s) :=
  gdf1_step_len r0 r1 rsub rmul fdiv macc sys v s w s'.
Definition df2_step_len sys v (s : list K) w s' : df2_step sys v s = Ok (w, s') -> lenZ s' = lenZ s :=
  gdf2_step_len r0 r1 rsub rmul fdiv macc sys v s w s'.

(** *** difference equations *)
(** [lin c f n] = c_last f(n) + c_(last-1) f(n-1) + ... *)
Definition lin (c : list K) (f : Z -> K) (n : Z) : K :=
  sumZ 0 (lenZ c) (fun k => rmul (at0 c (lenZ c - 1 - k)) (f (n - k))).
Definition deq (num den x y : list K) (n : Z) : Prop := lin den (at0 y) n = lin num (at0 x) n.

Lemma lin_ext c f g n : (forall m, m <= n -> f m = g m) -> lin c f n = lin c g n.
Proof. intros H. unfold lin. apply sumZ_ext. intros k Hk. now rewrite H by lia. Qed.
Lemma lin_zero c f n : (forall m, m <= n -> f m = r0) -> lin c f n = r0.
Proof. intros H. unfold lin. apply sumZ_zero. intros k Hk. rewrite H by lia. ring. Qed.
(** the newest term apart *)
Lemma lin_head c f n : 0 < lenZ c -> lin c f n = radd (rmul (at0 c (lenZ c - 1)) (f n)) (sumZ 1 (lenZ c) (fun k => rmul (at0 c (lenZ c - 1 - k)) (f (n - k)))).
Proof. intros H. unfold lin. rewrite sumZ_first by lia. now rewrite !Z.sub_0_r. Qed.
Lemma deq_neg num den x y n : n < 0 -> deq num den x y n.
Proof. intros H. unfold deq. rewrite !lin_zero; [reflexivity| |]; intros; apply at0_out; lia. Qed.

(** the equation determines the output *)
Lemma deq_unique num den x y y' :
  0 < lenZ den -> at0 den (lenZ den - 1) <> r0 -> lenZ y = lenZ x -> lenZ y' = lenZ x ->
  (forall n, 0 <= n < lenZ x -> deq num den x y n) -> (forall n, 0 <= n < lenZ x -> deq num den x y' n) -> y = y'.
Proof.
  intros Hd Hl L L' H H'. apply at0_ext; [lia|]. rewrite L.
  assert (G : forall n, 0 <= n -> forall m, m < n -> m < lenZ x -> at0 y m = at0 y' m).
  { apply (natlike_ind (fun n => forall m, m < n -> m < lenZ x -> at0 y m = at0 y' m)).
    - intros m Hm _. rewrite !at0_out by lia. reflexivity.
    - intros n Hn IH m Hm Hx. destruct (Z_lt_ge_dec m n); [apply IH; lia|]. assert (m = n) by lia. subst m.
      specialize (H n ltac:(lia)). specialize (H' n ltac:(lia)). unfold deq in H, H'.
      rewrite <- H' in H. rewrite !lin_head in H by lia.
      assert (E : sumZ 1 (lenZ den) (fun k => rmul (at0 den (lenZ den - 1 - k)) (at0 y (n - k))) = sumZ 1 (lenZ den) (fun k => rmul (at0 den (lenZ den - 1 - k)) (at0 y' (n - k)))).
      { apply sumZ_ext. intros k Hk. now rewrite IH by lia. }
      rewrite E in H.
      assert (H2 : rmul (at0 den (lenZ den - 1)) (at0 y n) = rmul (at0 den (lenZ den - 1)) (at0 y' n)).
      { transitivity (rsub (radd (rmul (at0 den (lenZ den - 1)) (at0 y n)) (sumZ 1 (lenZ den) (fun k => rmul (at0 den (lenZ den - 1 - k)) (at0 y' (n - k)))))
          (sumZ 1 (lenZ den) (fun k => rmul (at0 den (lenZ den - 1 - k)) (at0 y' (n - k))))); [ring|]. rewrite H. ring. }
      transitivity (rmul (finv (at0 den (lenZ den - 1))) (rmul (at0 den (lenZ den - 1)) (at0 y n))); [field; exact Hl|].
      rewrite H2. field. exact Hl. }
  intros i Hi. apply (G (i + 1)); lia.
Qed.

Lemma at0_app_l (l m : list K) i : i < lenZ l -> at0 (l ++ m) i = at0 l i.
Proof. intros. rewrite at0_app. now replace (i <? lenZ l) with true by lia. Qed.
Lemma deq_app num den x y x' y' n : lenZ y = lenZ x -> n < lenZ x ->
  deq num den (x ++ x') (y ++ y') n <-> deq num den x y n.
Proof.
  intros L H. unfold deq. rewrite (lin_ext den _ (at0 y)), (lin_ext num _ (at0 x)); [reflexivity| |]; intros; apply at0_app_l; lia.
Qed.

(** *** direct form I *)
(** the state remembers the history [hx], [hy] *)
Definition df1_hist (s : df1 K) (ord : Z) (hx hy : list K) : Prop :=
  lenZ (rec1 s) = ord /\ lenZ (fw1 s) = ord + 1 /\ lenZ hy = lenZ hx /\
  (forall i, 0 <= i < ord -> at0 (rec1 s) i = at0 hy (lenZ hy - ord + i)) /\
  (forall i, 0 <= i < ord + 1 -> at0 (fw1 s) i = at0 hx (lenZ hx - (ord + 1) + i)).
Definition sys_ok sys (ord : Z) : Prop :=
  0 < lenZ (denominator sys) <= ord + 1 /\ lenZ (numerator sys) <= ord + 1 /\ ord + 1 < 2 ^ 64 /\
  at0 (denominator sys) (lenZ (denominator sys) - 1) <> r0.

Lemma skipn1_hist (s : list K) v h w : lenZ h >= 0 -> 0 < lenZ s -> (forall i, 0 <= i < lenZ s -> at0 s i = at0 h (lenZ h - lenZ s + i)) -> w = v ->
  forall i, 0 <= i < lenZ s -> at0 (skipn 1 (s ++ [v])) i = at0 (h ++ [w]) (lenZ (h ++ [w]) - lenZ s + i).
Proof.
  intros Hh Hs H -> i Hi. rewrite at0_skipn by lia. rewrite !at0_app, lenZ_app. change (lenZ [v]) with 1.
  destruct (Z.ltb_spec (Z.of_nat 1 + i) (lenZ s)).
  - replace (lenZ h + 1 - lenZ s + i <? lenZ h) with true by lia. rewrite H by lia. f_equal. lia.
  - replace (lenZ h + 1 - lenZ s + i <? lenZ h) with false by lia. f_equal. lia.
Qed.

Lemma df1_step_spec sys ord v s hx hy :
  sys_ok sys ord -> df1_hist s ord hx hy ->
  okP (df1_step sys v s) (fun r => df1_hist (snd r) ord (hx ++ [v]) (hy ++ [fst r]) /\
     deq (numerator sys) (denominator sys) (hx ++ [v]) (hy ++ [fst r]) (lenZ hx)).
Proof.
  intros (Hd & Hn & Ho & Hl) (L1 & L2 & L3 & A1 & A2). unfold df1_step, gdf1_step, size_sub.
  set (den := denominator sys) in *. set (num := numerator sys) in *.
  pose proof (lenZ_nonneg num). pose proof (lenZ_nonneg hx).
  rewrite (Z.mod_small (lenZ den - 1)) by lia.
  destruct (slice_ok den 0 (lenZ den - 1)) as (rs & Ers & Lrs & Ars); try lia. rewrite Ers. cbn [bind].
  rewrite L1, L2, Lrs. rewrite !Z.mod_small by lia.
  apply okP_assert; [lia|]. apply okP_assert; [lia|].
  rewrite rd_at0 by lia. cbn [bind]. rewrite shift_in_spec by lia. cbn [bind].
  set (fw := skipn 1 (fw1 s ++ [v])).
  assert (Lfw : lenZ fw = ord + 1) by (unfold fw; rewrite lenZ_skipn, lenZ_app, L2; cbn; lia).
  assert (Afw : forall i, 0 <= i < ord + 1 -> at0 fw i = at0 (hx ++ [v]) (lenZ (hx ++ [v]) - (ord + 1) + i)).
  { intros i Hi. unfold fw. rewrite <- L2. apply skipn1_hist; try lia; [|reflexivity]. intros j Hj. rewrite L2. apply A2. lia. }
  rewrite Lfw. rewrite inner_spec by lia. cbn [bind]. rewrite inner_spec by lia. cbn [bind].
  set (fwSum := sumZ _ _ _). set (recSum := sumZ _ _ _).
  set (out := rmul _ _).
  assert (Lx : lenZ (hx ++ [v]) = lenZ hx + 1) by now rewrite lenZ_app.
  assert (EF : fwSum = lin num (at0 (hx ++ [v])) (lenZ hx)).
  { unfold fwSum, lin. replace (ord + 1 - (ord + 1 - lenZ num)) with (lenZ num) by lia.
    rewrite (sumZ_reflect 0 (lenZ num) (lenZ num - 1)).
    replace (lenZ num - 1 - lenZ num + 1) with 0 by lia. replace (lenZ num - 1 - 0 + 1) with (lenZ num) by lia.
    apply sumZ_ext. intros k Hk.
    rewrite Afw by lia. rewrite Lx.
    replace (lenZ hx + 1 - (ord + 1) + (ord + 1 - lenZ num + (lenZ num - 1 - k))) with (lenZ hx - k) by lia.
    rewrite ?Z.add_0_l. ring. }
  assert (ER : recSum = sumZ 1 (lenZ den) (fun k => rmul (at0 den (lenZ den - 1 - k)) (at0 (hy ++ [out]) (lenZ hx - k)))).
  { unfold recSum. rewrite (sumZ_reflect 1 (lenZ den) (lenZ den - 1)).
    replace (ord - (ord - (lenZ den - 1))) with (lenZ den - 1) by lia.
    replace (lenZ den - 1 - lenZ den + 1) with 0 by lia. replace (lenZ den - 1 - 1 + 1) with (lenZ den - 1) by lia.
    apply sumZ_ext. intros k Hk. rewrite A1 by lia. unfold at0 at 2. rewrite Ars by lia.
    rewrite Z.add_0_l. fold (at0 den (0 + k)).
    replace (lenZ den - 1 - (lenZ den - 1 - k)) with k by lia.
    rewrite at0_app_l by lia.
    replace (lenZ hy - ord + (ord - (lenZ den - 1) + k)) with (lenZ hx - (lenZ den - 1 - k)) by lia. rewrite !Z.add_0_l. ring. }
  assert (EQ : deq num den (hx ++ [v]) (hy ++ [out]) (lenZ hx)).
  { unfold deq. rewrite lin_head by lia. rewrite <- ER, <- EF.
    rewrite <- L3, at0_app. replace (lenZ hy <? lenZ hy) with false by lia. rewrite Z.sub_diag.
    change (at0 [out] 0) with out. unfold out. field. exact Hl. }
  destruct (Z.ltb_spec 0 ord).
  - rewrite shift_in_spec by lia. cbn [bind]. apply okP_ret. cbn [fst snd].
    split; [|exact EQ]. repeat split; cbn [rec1 fw1].
    + rewrite lenZ_skipn, lenZ_app, L1. cbn. lia.
    + exact Lfw.
    + rewrite !lenZ_app. cbn. lia.
    + intros i Hi. rewrite <- L1. apply skipn1_hist; try lia; [|reflexivity]. rewrite L1. exact A1.
    + exact Afw.
  - cbn [bind]. apply okP_ret. cbn [fst snd]. split; [|exact EQ]. repeat split; cbn [rec1 fw1]; try assumption; try lia.
    rewrite !lenZ_app. cbn. lia.
Qed.

Lemma df1_feeds_spec sys ord xs s hx hy :
  sys_ok sys ord -> df1_hist s ord hx hy ->
  okP (feeds (df1_step sys) xs s) (fun r => lenZ (fst r) = lenZ xs /\ df1_hist (snd r) ord (hx ++ xs) (hy ++ fst r) /\
     forall n, lenZ hx <= n < lenZ hx + lenZ xs -> deq (numerator sys) (denominator sys) (hx ++ xs) (hy ++ fst r) n).
Proof.
  intros Hs. revert s hx hy. induction xs as [|v xs IH]; intros s hx hy Hh; cbn [feeds].
  - apply okP_ret. cbn [fst snd]. rewrite !app_nil_r. split; [reflexivity|]. split; [assumption|]. rewrite lenZ_nil. intros; lia.
  - assert (L3 := proj1 (proj2 (proj2 Hh))).
    eapply okP_bind; [apply df1_step_spec; eassumption|]. cbn beta. intros [w s1] [H1 E1]. cbn [fst snd] in *.
    eapply okP_bind; [apply (IH s1 _ _ H1)|]. cbn beta. intros [ys s2] (L & H2 & E2). cbn [fst snd] in *.
    apply okP_ret. cbn [fst snd]. rewrite <- !app_assoc in H2, E2. cbn [app] in H2, E2.
    split; [rewrite !lenZ_cons; lia|]. split; [exact H2|]. rewrite lenZ_cons. intros n Hn.
    destruct (Z.eq_dec n (lenZ hx)) as [->|].
    + replace (hx ++ v :: xs) with ((hx ++ [v]) ++ xs) by now rewrite <- app_assoc.
      replace (hy ++ w :: ys) with ((hy ++ [w]) ++ ys) by now rewrite <- app_assoc.
      apply deq_app; [rewrite !lenZ_app; cbn; lia|rewrite lenZ_app; cbn; lia|exact E1].
    + apply E2. rewrite lenZ_app. cbn. lia.
Qed.

Lemma vresize_nil {A} n (v : A) : vresize [] n v = repeat v (Z.to_nat n).
Proof. unfold vresize. rewrite firstn_nil, lenZ_nil, Z.sub_0_r. reflexivity. Qed.
Lemma at0_repeat0 n k : at0 (repeat (r0 : K) n) k = r0.
Proof.
  destruct (Z_lt_ge_dec k 0); [apply at0_out; lia|].
  destruct (Z_lt_ge_dec k (Z.of_nat n)); [|apply at0_out; rewrite lenZ_repeat; lia].
  unfold at0. now rewrite nthZ_repeat by lia.
Qed.
Lemma df1_new_hist ord : 0 <= ord -> df1_hist (df1_new ord) ord [] [].
Proof.
  intros H. unfold df1_new, df1_set_order, gdf1_new, gdf1_set_order. cbn [rec1 fw1]. rewrite !vresize_nil.
  repeat split; cbn [rec1 fw1].
  - rewrite lenZ_repeat. lia.
  - rewrite lenZ_repeat. lia.
  - intros i Hi. now rewrite at0_repeat0, at0_nil.
  - intros i Hi. now rewrite at0_repeat0, at0_nil.
Qed.
(** a history determines the state *)
Lemma df1_hist_unique s s' ord hx hy : df1_hist s ord hx hy -> df1_hist s' ord hx hy -> s = s'.
Proof.
  destruct s as [r f], s' as [r' f']. intros (L1 & L2 & _ & A1 & A2) (L1' & L2' & _ & A1' & A2'). cbn [rec1 fw1] in *.
  f_equal; (apply at0_ext; [lia|]); intros i Hi; [rewrite A1, A1' by lia|rewrite A2, A2' by lia]; reflexivity.
Qed.
Lemma df1_hist_zeros s ord : lenZ (rec1 s) = ord -> lenZ (fw1 s) = ord + 1 ->
  (forall i, at0 (rec1 s) i = r0) -> (forall i, at0 (fw1 s) i = r0) -> df1_hist s ord [] [].
Proof. intros L1 L2 A1 A2. repeat split; try assumption; intros; rewrite at0_nil; auto. Qed.
Lemma at0_mapz l i : at0 (map (fun _ => r0) l) i = (r0 : K).
Proof. unfold at0. rewrite nthZ_map. destruct (nthZ l i); reflexivity. Qed.

(** *** direct form II *)
Definition df2_hist (s : list K) (ord : Z) (hw : list K) : Prop :=
  lenZ s = ord + 1 /\ (forall i, 0 <= i < ord + 1 -> at0 s i = at0 hw (lenZ hw - (ord + 1) + i)).

(** what direct form II computes: the recursion uses the unnormalised lower coefficients *)
Definition norm_den (den : list K) : list K := updZ den (lenZ den - 1) r1.
Definition norm_num (num den : list K) : list K := map (fun b => rmul b (fdiv r1 (at0 den (lenZ den - 1)))) num.

Lemma df2_step_spec sys ord v (s : list K) hw :
  sys_ok sys ord -> df2_hist s ord hw ->
  okP (df2_step sys v s) (fun r => exists w,
     df2_hist (snd r) ord (hw ++ [w]) /\
     lin (norm_den (denominator sys)) (at0 (hw ++ [w])) (lenZ hw) = rmul v (fdiv r1 (at0 (denominator sys) (lenZ (denominator sys) - 1))) /\
     fst r = lin (numerator sys) (at0 (hw ++ [w])) (lenZ hw)).
Proof.
  intros (Hd & Hn & Ho & Hl) (L2 & A2). unfold df2_step, gdf2_step, size_sub.
  set (den := denominator sys) in *. set (num := numerator sys) in *.
  pose proof (lenZ_nonneg num). pose proof (lenZ_nonneg hw).
  rewrite (Z.mod_small (lenZ den - 1)) by lia.
  destruct (slice_ok den 0 (lenZ den - 1)) as (rs & Ers & Lrs & Ars); try lia. rewrite Ers. cbn [bind].
  rewrite L2, Lrs. rewrite !Z.mod_small by lia.
  apply okP_assert; [lia|]. apply okP_assert; [lia|].
  rewrite rd_at0 by lia. cbn [bind]. rewrite inner_spec by lia. cbn [bind].
  set (recSum := sumZ _ _ _). set (w := rsub _ _). rewrite shift_in_spec by lia. cbn [bind].
  set (fw := skipn 1 (s ++ [w])).
  assert (Lfw : lenZ fw = ord + 1) by (unfold fw; rewrite lenZ_skipn, lenZ_app, L2; cbn; lia).
  assert (Afw : forall i, 0 <= i < ord + 1 -> at0 fw i = at0 (hw ++ [w]) (lenZ (hw ++ [w]) - (ord + 1) + i)).
  { intros i Hi. unfold fw. rewrite <- L2. apply skipn1_hist; try lia; [|reflexivity]. intros j Hj. rewrite L2. apply A2. lia. }
  rewrite inner_spec by lia. cbn [bind]. apply okP_ret. cbn [fst snd]. exists w.
  assert (Lx : lenZ (hw ++ [w]) = lenZ hw + 1) by now rewrite lenZ_app.
  split; [|split].
  - split; assumption.
  - assert (Ln : lenZ (norm_den den) = lenZ den) by (unfold norm_den; apply lenZ_updZ; lia).
    rewrite lin_head by lia. rewrite Ln.
    assert (ER : recSum = sumZ 1 (lenZ den) (fun k => rmul (at0 (norm_den den) (lenZ den - 1 - k)) (at0 (hw ++ [w]) (lenZ hw - k)))).
    { unfold recSum. rewrite (sumZ_reflect 1 (lenZ den) (lenZ den - 1)).
      replace (lenZ den - 1 - lenZ den + 1) with 0 by lia. replace (lenZ den - 1 - 1 + 1) with (lenZ den - 1) by lia.
      apply sumZ_ext. intros k Hk. rewrite A2 by lia. unfold at0 at 1. rewrite !Z.add_0_l, Ars by lia. rewrite Z.add_0_l.
      fold (at0 den k). unfold norm_den. rewrite at0_updZ by lia.
      replace (lenZ den - 1 - (lenZ den - 1 - k)) with k by lia.
      replace (k =? lenZ den - 1) with false by lia.
      rewrite at0_app_l by lia.
      now replace (lenZ hw - (ord + 1) + (ord + 1 - (lenZ den - 1) + k)) with (lenZ hw - (lenZ den - 1 - k)) by lia. }
    rewrite <- ER. unfold norm_den. rewrite at0_updZ by lia. rewrite Z.eqb_refl. rewrite at0_app.
    replace (lenZ hw <? lenZ hw) with false by lia. rewrite Z.sub_diag. change (at0 [w] 0) with w. unfold w. ring.
  - unfold lin. rewrite (sumZ_reflect 0 (lenZ num) (lenZ num - 1)).
    replace (lenZ num - 1 - lenZ num + 1) with 0 by lia. replace (lenZ num - 1 - 0 + 1) with (lenZ num) by lia.
    apply sumZ_ext. intros k Hk.
    rewrite Afw by lia. rewrite Lx.
    replace (lenZ hw + 1 - (ord + 1) + (ord + 1 - lenZ num + (lenZ num - 1 - k))) with (lenZ hw - k) by lia.
    rewrite ?Z.add_0_l. reflexivity.
Qed.

Lemma df2_feeds_spec sys ord xs (s : list K) hw :
  sys_ok sys ord -> df2_hist s ord hw ->
  okP (feeds (df2_step sys) xs s) (fun r => lenZ (fst r) = lenZ xs /\ exists w,
     lenZ w = lenZ xs /\ df2_hist (snd r) ord (hw ++ w) /\
     forall n, 0 <= n < lenZ xs ->
        lin (norm_den (denominator sys)) (at0 (hw ++ w)) (lenZ hw + n) = rmul (at0 xs n) (fdiv r1 (at0 (denominator sys) (lenZ (denominator sys) - 1))) /\
        at0 (fst r) n = lin (numerator sys) (at0 (hw ++ w)) (lenZ hw + n)).
Proof.
  intros Hs. revert s hw. induction xs as [|v xs IH]; intros s hw Hh; cbn [feeds].
  - apply okP_ret. cbn [fst snd]. split; [reflexivity|]. exists []. rewrite app_nil_r, lenZ_nil. split; [reflexivity|]. split; [assumption|]. intros; lia.
  - eapply okP_bind; [apply df2_step_spec; eassumption|]. cbn beta. intros [o s1] (w0 & H1 & E1 & F1). cbn [fst snd] in *.
    eapply okP_bind; [apply (IH s1 _ H1)|]. cbn beta. intros [ys s2] (L & w & Lw & H2 & E2). cbn [fst snd] in *.
    apply okP_ret. cbn [fst snd]. rewrite <- !app_assoc in H2, E2. cbn [app] in H2, E2.
    split; [rewrite !lenZ_cons; lia|]. exists (w0 :: w). split; [rewrite !lenZ_cons; lia|]. split; [exact H2|]. rewrite lenZ_cons. intros n Hn.
    rewrite !at0_cons by lia. destruct (Z.eqb_spec n 0) as [->|].
    + rewrite Z.add_0_r. rewrite <- E1, F1. split; [|symmetry]; apply lin_ext; intros m Hm;
        (replace (hw ++ w0 :: w) with ((hw ++ [w0]) ++ w) by (now rewrite <- app_assoc)); apply at0_app_l; rewrite lenZ_app; cbn; lia.
    + destruct (E2 (n - 1) ltac:(lia)) as [P Q]. rewrite lenZ_app in P, Q. change (lenZ [w0]) with 1 in P, Q.
      replace (lenZ hw + 1 + (n - 1)) with (lenZ hw + n) in P, Q by lia. split; assumption.
Qed.
Lemma df2_new_hist ord : 0 <= ord -> df2_hist (df2_new ord) ord [].
Proof.
  intros H. unfold df2_new, df2_set_order, gdf2_new, gdf2_set_order. rewrite !vresize_nil. split.
  - rewrite lenZ_repeat. lia.
  - intros i Hi. now rewrite at0_repeat0, at0_nil.
Qed.

(** composition of linear filters *)
Definition convl (a b : list K) : list K :=
  if (lenZ a =? 0) || (lenZ b =? 0) then [] else tab (lenZ a + lenZ b - 1) (conv a b).

Lemma lin_lin_swap a b f n : lin a (lin b f) n = lin b (lin a f) n.
Proof.
  unfold lin.
  transitivity (sumZ 0 (lenZ a) (fun k => sumZ 0 (lenZ b) (fun j => rmul (at0 a (lenZ a - 1 - k)) (rmul (at0 b (lenZ b - 1 - j)) (f (n - k - j)))))).
  { apply sumZ_ext. intros k Hk. now rewrite <- sumZ_scale. }
  rewrite sumZ_swap. apply sumZ_ext. intros j Hj. rewrite <- sumZ_scale. apply sumZ_ext. intros k Hk.
  replace (n - k - j) with (n - j - k) by lia. ring.
Qed.

Lemma lin_scale c a f n : lin (map (fun b => rmul b c) a) f n = rmul c (lin a f n).
Proof.
  unfold lin. rewrite lenZ_map, <- sumZ_scale. apply sumZ_ext. intros k Hk.
  unfold at0 at 1. rewrite nthZ_map. rewrite (nthZ_at0 a) by lia. cbn [option_map]. ring.
Qed.

Lemma df2_new_deq sys ord xs :
  0 <= ord -> sys_ok sys ord ->
  okP (feeds (df2_step sys) xs (df2_new ord)) (fun r => lenZ (fst r) = lenZ xs /\
     forall n, 0 <= n < lenZ xs -> deq (norm_num (numerator sys) (denominator sys)) (norm_den (denominator sys)) xs (fst r) n).
Proof.
  intros Ho Hs. eapply okP_imp; [apply df2_feeds_spec; [exact Hs|apply df2_new_hist; exact Ho]|].
  cbn beta. intros [y s'] (L & w & Lw & _ & E). cbn [fst] in *. split; [exact L|]. intros n Hn. cbn [app] in E.
  change (lenZ (@nil K)) with 0 in E.
  unfold deq. unfold norm_num. rewrite lin_scale.
  set (c := fdiv r1 _) in *.
  transitivity (lin (norm_den (denominator sys)) (lin (numerator sys) (at0 w)) n).
  { apply lin_ext. intros m Hm. destruct (Z_lt_ge_dec m 0).
    - rewrite at0_out by lia. symmetry. apply lin_zero. intros; apply at0_out; lia.
    - destruct (E m ltac:(lia)) as [_ ->]. now rewrite Z.add_0_l. }
  rewrite lin_lin_swap.
  transitivity (lin (numerator sys) (fun m => rmul c (at0 xs m)) n).
  { apply lin_ext. intros m Hm. destruct (Z_lt_ge_dec m 0).
    - rewrite (at0_out xs) by lia. transitivity (r0 : K); [|ring]. apply lin_zero. intros; apply at0_out; lia.
    - destruct (E m ltac:(lia)) as [P _]. rewrite Z.add_0_l in P. rewrite P. ring. }
  unfold lin. rewrite <- sumZ_scale. apply sumZ_ext. intros k Hk. ring.
Qed.


(** *** cascaded form *)
Definition shift3 (c : arr3 K) (v : K) : arr3 K := let '(c0, c1, c2) := c in (c1, c2, v).
Definition bq_out (b : biquad K) (cur next : arr3 K) : K :=
  let '(b0, b1, b2) := bnum b in let '(a0, a1) := bden b in
  let '(d0, d1, d2) := cur in let '(n0, n1, n2) := next in
  rsub (radd (radd (rmul d0 b0) (rmul d1 b1)) (rmul d2 b2)) (radd (rmul n1 a0) (rmul n2 a1)).
Fixpoint casc_idle (v : K) (s : list (arr3 K)) : list (arr3 K) :=
  match s with [] => [] | c :: s => shift3 c v :: casc_idle v s end.
Fixpoint casc (sys : list (biquad K)) (v : K) (s : list (arr3 K)) : K * list (arr3 K) :=
  match sys, s with
  | b :: sys, c :: ((n :: _) as s') =>
      let cur := shift3 c v in
      let (o, s'') := casc sys (bq_out b cur n) s' in (o, cur :: s'')
  | _, _ => (v, casc_idle v s)
  end.

Lemma rd_midA {A} (pre suf : list A) v : rd (pre ++ v :: suf) (lenZ pre) = Ok v.
Proof. unfold rd. rewrite nthZ_app2 by lia. now rewrite Z.sub_diag. Qed.
Lemma wr_midA {A} (pre suf : list A) v w : wr (pre ++ v :: suf) (lenZ pre) w = Ok (pre ++ w :: suf).
Proof.
  pose proof (lenZ_nonneg pre). pose proof (lenZ_nonneg suf).
  rewrite wr_ok by (rewrite lenZ_app, lenZ_cons; lia). f_equal. apply list_ext.
  { rewrite lenZ_updZ by (rewrite lenZ_app, lenZ_cons; lia). now rewrite !lenZ_app, !lenZ_cons. }
  intros i _. rewrite nthZ_updZ by (rewrite lenZ_app, lenZ_cons; lia).
  destruct (Z.eqb_spec i (lenZ pre)) as [->|].
  - rewrite nthZ_app2 by lia. now rewrite Z.sub_diag.
  - destruct (Z_lt_ge_dec i (lenZ pre)); [now rewrite !nthZ_app1 by lia|].
    rewrite !nthZ_app2 by lia. rewrite !nthZ_consS by lia. reflexivity.
Qed.

Lemma cf_step_casc (sys : list (biquad K)) v s : lenZ sys + 1 <= lenZ s -> cf_step sys v s = Ok (casc sys v s).
Proof.
  intros H. unfold cf_step, gcf_step. replace (lenZ sys + 1 <=? lenZ s) with true by lia. cbn [assert_].
  unfold for_. rewrite trips1 by apply lenZ_nonneg.
  replace (Z.to_nat (lenZ s)) with (length s) by (unfold lenZ; lia).
  match goal with |- loop _ _ _ ?bd _ = _ => set (body := bd) end.
  assert (G0 : forall suf pre v, lenZ sys <= lenZ pre ->
            loop (length suf) (lenZ pre) 1 body (v, pre ++ suf) = Ok (v, pre ++ casc_idle v suf)).
  { induction suf as [|[[c0 c1] c2] suf IH]; intros pre w Hp; [reflexivity|].
    cbn [length loop]. unfold body at 1. rewrite rd_midA. cbn [bind]. rewrite wr_midA. cbn [bind].
    replace (lenZ pre <? lenZ sys) with false by lia. cbn [bind].
    replace (lenZ pre + 1) with (lenZ (pre ++ [(c1, c2, w)])) by now rewrite lenZ_app.
    change (pre ++ (c1, c2, w) :: suf) with (pre ++ [(c1, c2, w)] ++ suf). rewrite app_assoc.
    rewrite IH by (rewrite lenZ_app; cbn; lia). now rewrite <- app_assoc. }
  assert (G : forall suf pre ssuf spre v, spre ++ ssuf = sys -> lenZ spre = lenZ pre -> lenZ ssuf + 1 <= lenZ suf ->
            loop (length suf) (lenZ pre) 1 body (v, pre ++ suf) = Ok (fst (casc ssuf v suf), pre ++ snd (casc ssuf v suf))).
  { induction suf as [|[[c0 c1] c2] suf IH]; intros pre ssuf spre w E L1 L2.
    - rewrite lenZ_nil in L2. pose proof (lenZ_nonneg ssuf). lia.
    - destruct ssuf as [|b ssuf].
      + rewrite app_nil_r in E. subst spre. rewrite G0 by lia. reflexivity.
      + destruct suf as [|n suf]; [rewrite !lenZ_cons, lenZ_nil in L2; pose proof (lenZ_nonneg ssuf); lia|].
        assert (Lb : lenZ pre < lenZ sys) by (rewrite <- E, lenZ_app, lenZ_cons; pose proof (lenZ_nonneg ssuf); lia).
        change (length ((c0, c1, c2) :: n :: suf)) with (S (length (n :: suf))). cbn [loop]. unfold body at 1. rewrite rd_midA. cbn [bind].
        rewrite wr_midA. cbn [bind]. replace (lenZ pre <? lenZ sys) with true by lia.
        replace (pre ++ (c1, c2, w) :: n :: suf) with ((pre ++ [(c1, c2, w)]) ++ n :: suf) by now rewrite <- app_assoc.
        replace (lenZ pre + 1) with (lenZ (pre ++ [(c1, c2, w)])) by now rewrite lenZ_app.
        rewrite rd_midA. cbn [bind]. rewrite <- E, <- L1, rd_midA. cbn [bind].
        cbn [casc]. destruct b as [[[b0 b1] b2] [a0 a1] no do_]. destruct n as [[n0 n1] n2]. cbn [bnum bden bind].
        rewrite (IH (pre ++ [(c1, c2, w)]) ssuf (spre ++ [mkBq (b0, b1, b2) (a0, a1) no do_])).
        * cbn [shift3]. unfold bq_out, macc. cbn [bnum bden].
          match goal with |- context [casc ssuf ?o ?t] => destruct (casc ssuf o t) as [o' s''] eqn:Ec end.
          cbn [fst snd]. now rewrite <- app_assoc.
        * now rewrite <- app_assoc.
        * rewrite !lenZ_app. cbn. lia.
        * rewrite lenZ_cons. rewrite !lenZ_cons in L2. lia. }
  specialize (G s [] sys [] v eq_refl eq_refl H). cbn [app] in G. rewrite lenZ_nil in G.
  etransitivity; [exact G|]. now destruct (casc sys v s).
Qed.

Definition bq_num (b : biquad K) : list K := let '(b0, b1, b2) := bnum b in [b0; b1; b2].
Definition bq_den (b : biquad K) : list K := let '(a0, a1) := bden b in [a0; a1; r1].
Definition h3 (c : arr3 K) (h : list K) : Prop :=
  let '(c0, c1, c2) := c in c0 = at0 h (lenZ h - 3) /\ c1 = at0 h (lenZ h - 2) /\ c2 = at0 h (lenZ h - 1).
Fixpoint chain_hist (sys : list (biquad K)) (s : list (arr3 K)) (hx hy : list K) : Prop :=
  match sys, s with
  | [], c :: s => hy = hx /\ Forall (fun c => h3 c hx) (c :: s)
  | b :: sys, c :: s => h3 c hx /\ exists hm, lenZ hm = lenZ hx /\ (forall n, 0 <= n < lenZ hx -> deq (bq_num b) (bq_den b) hx hm n) /\ chain_hist sys s hm hy
  | _, [] => False
  end.
Lemma h3_shift c h v : h3 c h -> h3 (shift3 c v) (h ++ [v]).
Proof.
  destruct c as [[c0 c1] c2]. intros (-> & -> & ->). cbn [shift3 h3].
  rewrite lenZ_app. change (lenZ [v]) with 1. rewrite !at0_app.
  replace (lenZ h + 1 - 3 <? lenZ h) with true by lia. replace (lenZ h + 1 - 2 <? lenZ h) with true by lia.
  replace (lenZ h + 1 - 1 <? lenZ h) with false by lia. repeat split; try (f_equal; lia).
  replace (lenZ h + 1 - 1 - lenZ h) with 0 by lia. reflexivity.
Qed.
Lemma chain_len (sys : list (biquad K)) : forall s hx hy, chain_hist sys s hx hy -> lenZ hy = lenZ hx.
Proof.
  induction sys as [|b sys IH]; intros [|c s] hx hy H; cbn in H; try contradiction.
  - now destruct H as [-> _].
  - destruct H as (_ & hm & L & _ & H). apply IH in H. lia.
Qed.
Lemma sum3 (f : Z -> K) : sumZ 0 3 f = radd (radd (f 0) (f 1)) (f 2).
Proof. rewrite (sumZ_first 0), (sumZ_first (0 + 1)), (sumZ_first (0 + 1 + 1)), sumZ_empty by lia. change (0 + 1 + 1) with 2. change (0 + 1) with 1. ring. Qed.

Lemma bq_step b c next hx hm v :
  h3 c hx -> h3 next hm -> lenZ hm = lenZ hx ->
  deq (bq_num b) (bq_den b) (hx ++ [v]) (hm ++ [bq_out b (shift3 c v) next]) (lenZ hx).
Proof.
  intros Hc Hn L. unfold deq, lin, bq_num, bq_den, bq_out. destruct b as [[[b0 b1] b2] [a0 a1] no do_]. cbn [bnum bden].
  destruct c as [[c0 c1] c2], next as [[n0 n1] n2]. destruct Hc as (-> & -> & ->), Hn as (-> & -> & ->). cbn [shift3].
  change (lenZ [b0; b1; b2]) with 3. change (lenZ [a0; a1; r1]) with 3. rewrite !sum3.
  change (3 - 1 - 0) with 2. change (3 - 1 - 1) with 1. change (3 - 1 - 2) with 0.
  change (at0 [b0; b1; b2] 0) with b0. change (at0 [b0; b1; b2] 1) with b1. change (at0 [b0; b1; b2] 2) with b2.
  change (at0 [a0; a1; r1] 0) with a0. change (at0 [a0; a1; r1] 1) with a1. change (at0 [a0; a1; r1] 2) with (r1 : K).
  rewrite !at0_app. rewrite !L.
  replace (lenZ hx - 0 <? lenZ hx) with false by lia. replace (lenZ hx - 1 <? lenZ hx) with true by lia. replace (lenZ hx - 2 <? lenZ hx) with true by lia.
  replace (lenZ hx - 0 - lenZ hx) with 0 by lia.
  repeat match goal with |- context [at0 [?o] 0] => change (at0 [o] 0) with o end. ring.
Qed.

Lemma chain_head (sys : list (biquad K)) s hx hy : chain_hist sys s hx hy -> exists c s', s = c :: s' /\ h3 c hx.
Proof.
  destruct sys, s as [|c s]; cbn; try contradiction; intros H; exists c, s; (split; [reflexivity|]).
  - destruct H as [_ H]. now inversion H.
  - apply H.
Qed.

Lemma casc_spec (sys : list (biquad K)) : forall s hx hy v, chain_hist sys s hx hy ->
  chain_hist sys (snd (casc sys v s)) (hx ++ [v]) (hy ++ [fst (casc sys v s)]).
Proof.
  induction sys as [|b sys IH]; intros s hx hy v H.
  - destruct s as [|c s]; cbn in H; [contradiction|]. destruct H as [-> H]. cbn [casc fst snd casc_idle chain_hist].
    split; [reflexivity|]. inversion H as [|? ? Hc Hs]; subst. constructor; [now apply h3_shift|].
    clear H Hc. induction s as [|c' s IHs]; cbn [casc_idle]; [constructor|]. inversion Hs; subst. constructor; [now apply h3_shift|auto].
  - destruct s as [|c s]; cbn in H; [contradiction|]. destruct H as (Hc & hm & L & E & H).
    destruct (chain_head _ _ _ _ H) as (n & s' & -> & Hn).
    specialize (IH (n :: s') hm hy (bq_out b (shift3 c v) n) H). cbn [casc].
    destruct (casc sys (bq_out b (shift3 c v) n) (n :: s')) as [o s''] eqn:Ec. cbn [fst snd] in *. cbn [chain_hist].
    split; [now apply h3_shift|]. exists (hm ++ [bq_out b (shift3 c v) n]). split; [rewrite !lenZ_app; cbn; lia|]. split; [|exact IH].
    rewrite lenZ_app. change (lenZ [v]) with 1. intros k Hk. destruct (Z.eq_dec k (lenZ hx)) as [->|].
    + now apply bq_step.
    + apply deq_app; [lia|lia|]. apply E. lia.
Qed.

Lemma casc_len (sys : list (biquad K)) : forall s v, lenZ (snd (casc sys v s)) = lenZ s.
Proof.
  assert (G : forall s v, lenZ (casc_idle v s) = lenZ s).
  { induction s as [|c s IH]; intros v; cbn [casc_idle]; [reflexivity|]. now rewrite !lenZ_cons, IH. }
  induction sys as [|b sys IH]; intros s v; [apply G|]. destruct s as [|c [|n s]]; cbn [casc]; [reflexivity|apply (G [c])|].
  specialize (IH (n :: s) (bq_out b (shift3 c v) n)). destruct (casc _ _ _) as [o s'']. cbn [snd] in *. rewrite lenZ_cons, IH. now rewrite !lenZ_cons.
Qed.

Lemma cf_feeds_spec (sys : list (biquad K)) xs : forall s hx hy, lenZ sys + 1 <= lenZ s -> chain_hist sys s hx hy ->
  okP (feeds (cf_step sys) xs s) (fun r => lenZ (fst r) = lenZ xs /\ lenZ (snd r) = lenZ s /\ chain_hist sys (snd r) (hx ++ xs) (hy ++ fst r)).
Proof.
  induction xs as [|v xs IH]; intros s hx hy Ls H; cbn [feeds].
  - apply okP_ret. cbn [fst snd]. rewrite !app_nil_r. auto.
  - rewrite cf_step_casc by assumption. cbn [bind]. destruct (casc sys v s) as [o s'] eqn:Ec.
    pose proof (casc_spec sys s hx hy v H) as H1. pose proof (casc_len sys s v) as L1. rewrite Ec in H1, L1. cbn [fst snd] in H1, L1.
    eapply okP_bind; [apply (IH s' _ _ ltac:(lia) H1)|]. cbn beta. intros [ys s2] (L & L2 & H2). cbn [fst snd] in *.
    apply okP_ret. cbn [fst snd]. rewrite <- !app_assoc in H2. split; [rewrite !lenZ_cons; lia|]. split; [lia|exact H2].
Qed.

Lemma chain_zero (sys : list (biquad K)) : forall s, lenZ sys + 1 <= lenZ s -> Forall (fun c => c = zero3) s -> chain_hist sys s [] [].
Proof.
  induction sys as [|b sys IH]; intros [|c s] L F.
  - exfalso. revert L. cbn. lia.
  - cbn [chain_hist]. split; [reflexivity|]. eapply Forall_impl; [|exact F]. cbn. intros ? ->. cbn. auto.
  - rewrite lenZ_cons in L. change (lenZ (@nil (arr3 K))) with 0 in L. pose proof (lenZ_nonneg sys). lia.
  - rewrite !lenZ_cons in L. inversion F; subst. cbn [chain_hist]. split; [cbn; auto|]. exists []. split; [reflexivity|].
    split; [intros n Hn; change (lenZ (@nil K)) with 0 in Hn; lia|]. apply IH; [lia|assumption].
Qed.
Lemma cf_new_zero ord : 0 <= ord -> lenZ (cf_new ord : list (arr3 K)) = 1 + (ord + 1) / 2 /\ Forall (fun c => c = zero3) (cf_new ord : list (arr3 K)).
Proof.
  intros H. unfold cf_new, cf_set_order, gcf_new, gcf_set_order. rewrite vresize_nil. split; [rewrite lenZ_repeat; lia|].
  apply Forall_forall. intros c Hc. now apply repeat_spec in Hc.
Qed.

(** *** a chain is one filter with the product of the polynomials *)
Lemma lenZ_convl a b : 0 < lenZ a -> 0 < lenZ b -> lenZ (convl a b) = lenZ a + lenZ b - 1.
Proof. intros. unfold convl. replace ((lenZ a =? 0) || (lenZ b =? 0)) with false by lia. rewrite lenZ_tab. lia. Qed.
Lemma lin_convl a b f n : 0 < lenZ a -> 0 < lenZ b -> lin (convl a b) f n = lin a (lin b f) n.
Proof.
  intros Ha Hb. pose proof (lenZ_convl a b Ha Hb) as Lc. unfold lin. rewrite Lc.
  transitivity (sumZ 0 (lenZ a + lenZ b - 1) (fun k => sumZ 0 (lenZ a) (fun i => rmul (rmul (at0 a (lenZ a - 1 - i)) (at0 b (lenZ b - 1 - (k - i)))) (f (n - k))))).
  { apply sumZ_ext. intros k Hk. rewrite sumZ_scale_r. f_equal.
    unfold convl. replace ((lenZ a =? 0) || (lenZ b =? 0)) with false by lia. rewrite at0_tab by lia.
    unfold conv. rewrite (sumZ_reflect 0 (lenZ a) (lenZ a - 1)).
    replace (lenZ a - 1 - lenZ a + 1) with 0 by lia. replace (lenZ a - 1 - 0 + 1) with (lenZ a) by lia.
    apply sumZ_ext. intros i Hi. f_equal. f_equal. lia. }
  rewrite sumZ_swap. apply sumZ_ext. intros i Hi. rewrite <- sumZ_scale.
  rewrite (sumZ_restrict 0 (lenZ a + lenZ b - 1) i (i + lenZ b)).
  - rewrite (sumZ_shift' i (i + lenZ b) i). replace (i - i) with 0 by lia. replace (i + lenZ b - i) with (lenZ b) by lia.
    apply sumZ_ext. intros j Hj. replace (j + i - i) with j by lia. replace (n - (j + i)) with (n - i - j) by lia. ring.
  - intros k Hk Hout. rewrite (at0_out b) by lia. ring.
  - intros k Hk Hout. lia.
Qed.
Lemma deq_chain n1 d1 n2 d2 x y z :
  0 < lenZ n1 -> 0 < lenZ d1 -> 0 < lenZ n2 -> 0 < lenZ d2 -> lenZ y = lenZ x -> lenZ z = lenZ x ->
  (forall n, 0 <= n < lenZ x -> deq n1 d1 x y n) -> (forall n, 0 <= n < lenZ x -> deq n2 d2 y z n) ->
  forall n, 0 <= n < lenZ x -> deq (convl n1 n2) (convl d1 d2) x z n.
Proof.
  intros Hn1 Hd1 Hn2 Hd2 Ly Lz H1 H2 n Hn. unfold deq. rewrite !lin_convl by assumption.
  transitivity (lin d1 (lin n2 (at0 y)) n).
  { apply lin_ext. intros m Hm. destruct (Z_lt_ge_dec m 0); [now apply deq_neg|]. apply H2. lia. }
  rewrite lin_lin_swap.
  transitivity (lin n2 (lin n1 (at0 x)) n).
  { apply lin_ext. intros m Hm. destruct (Z_lt_ge_dec m 0); [now apply deq_neg|]. apply H1. lia. }
  apply lin_lin_swap.
Qed.
(** linearity of the equation *)
Lemma lin_comb c (f g : Z -> K) a b n : lin c (fun m => radd (rmul a (f m)) (rmul b (g m))) n = radd (rmul a (lin c f n)) (rmul b (lin c g n)).
Proof. unfold lin. rewrite <- !sumZ_scale, <- sumZ_add. apply sumZ_ext. intros. ring. Qed.

(** *** generic consequences of obeying a difference equation *)
Definition leads (den : list K) : Prop := 0 < lenZ den /\ at0 den (lenZ den - 1) <> r0.
Definition obeys (num den x y : list K) : Prop := lenZ y = lenZ x /\ forall n, 0 <= n < lenZ x -> deq num den x y n.
Lemma obeys_unique num den x y y' : leads den -> obeys num den x y -> obeys num den x y' -> y = y'.
Proof. intros [H1 H2] [L H] [L' H']. eapply deq_unique; eassumption. Qed.
Definition comb (a b : K) (x y : list K) : list K := map2 (fun u v => radd (rmul a u) (rmul b v)) x y.
Lemma at0_comb a b x y n : lenZ y = lenZ x -> at0 (comb a b x y) n = radd (rmul a (at0 x n)) (rmul b (at0 y n)).
Proof.
  intros L. unfold comb. destruct (Z_lt_ge_dec n 0) as [Hn|Hn].
  { rewrite !at0_out; [ring|lia|lia|lia]. }
  destruct (Z_lt_ge_dec n (lenZ x)) as [Hx|Hx].
  - unfold at0 at 1. now rewrite (nthZ_map2 _ _ _ _ (at0 x n) (at0 y n)) by (apply nthZ_at0; lia).
  - rewrite !at0_out; [ring|lia|lia|]. rewrite lenZ_map2. lia.
Qed.
Lemma lenZ_comb a b x y : lenZ y = lenZ x -> lenZ (comb a b x y) = lenZ x.
Proof. intros. unfold comb. rewrite lenZ_map2. lia. Qed.
Lemma obeys_comb num den a b x y x' y' : lenZ x' = lenZ x -> obeys num den x y -> obeys num den x' y' ->
  obeys num den (comb a b x x') (comb a b y y').
Proof.
  intros Lx [L H] [L' H']. split; [rewrite !lenZ_comb; lia|]. rewrite lenZ_comb by lia. intros n Hn. unfold deq.
  rewrite (lin_ext den _ (fun m => radd (rmul a (at0 y m)) (rmul b (at0 y' m)))) by (intros; apply at0_comb; lia).
  rewrite (lin_ext num _ (fun m => radd (rmul a (at0 x m)) (rmul b (at0 x' m)))) by (intros; apply at0_comb; lia).
  rewrite !lin_comb. rewrite (H n Hn), (H' n ltac:(lia)). reflexivity.
Qed.
Definition delayed (d : Z) (x : list K) : list K := repeat r0 (Z.to_nat d) ++ x.
Lemma at0_delayed d x n : 0 <= d -> at0 (delayed d x) n = at0 x (n - d).
Proof.
  intros Hd. unfold delayed. rewrite at0_app, lenZ_repeat. destruct (Z.ltb_spec n (Z.of_nat (Z.to_nat d))).
  - rewrite at0_repeat0. symmetry. apply at0_out. lia.
  - f_equal. lia.
Qed.
Lemma obeys_delayed num den d x y : 0 <= d -> obeys num den x y -> obeys num den (delayed d x) (delayed d y).
Proof.
  intros Hd [L H]. split; [unfold delayed; rewrite !lenZ_app; lia|]. unfold delayed at 1. rewrite lenZ_app, lenZ_repeat. intros n Hn.
  unfold deq. unfold lin at 1 2.
  assert (G : forall c l, sumZ 0 (lenZ c) (fun k => rmul (at0 c (lenZ c - 1 - k)) (at0 (delayed d l) (n - k))) = lin c (at0 l) (n - d)).
  { intros c l. unfold lin. apply sumZ_ext. intros k Hk. rewrite at0_delayed by lia. do 2 f_equal. lia. }
  rewrite !G. destruct (Z_lt_ge_dec (n - d) 0); [now apply deq_neg|]. apply H. lia.
Qed.

(** product polynomials of a cascade *)
Fixpoint prod_num (sys : list (biquad K)) : list K := match sys with [] => [r1] | b :: sys => convl (bq_num b) (prod_num sys) end.
Fixpoint prod_den (sys : list (biquad K)) : list K := match sys with [] => [r1] | b :: sys => convl (bq_den b) (prod_den sys) end.
Lemma len_bq_num (b : biquad K) : lenZ (bq_num b) = 3.
Proof. unfold bq_num. now destruct (bnum b) as [[? ?] ?]. Qed.
Lemma len_bq_den (b : biquad K) : lenZ (bq_den b) = 3.
Proof. unfold bq_den. now destruct (bden b). Qed.
Lemma len_prod (sys : list (biquad K)) : lenZ (prod_num sys) = 2 * lenZ sys + 1 /\ lenZ (prod_den sys) = 2 * lenZ sys + 1.
Proof.
  induction sys as [|b sys [IH1 IH2]]; [split; reflexivity|]. pose proof (lenZ_nonneg sys). cbn [prod_num prod_den].
  rewrite !lenZ_convl; rewrite ?len_bq_num, ?len_bq_den, ?lenZ_cons; lia.
Qed.
Lemma one_neq0 : (r1 : K) <> r0.
Proof. exact (F_1_neq_0 (fth K)). Qed.
Lemma lead_prod (sys : list (biquad K)) : at0 (prod_den sys) (lenZ (prod_den sys) - 1) = r1.
Proof.
  induction sys as [|b sys IH]; [reflexivity|]. cbn [prod_den]. pose proof (proj2 (len_prod sys)) as L. pose proof (lenZ_nonneg sys).
  pose proof (len_bq_den b) as Lb. rewrite lenZ_convl by lia. unfold convl.
  replace ((lenZ (bq_den b) =? 0) || (lenZ (prod_den sys) =? 0)) with false by lia.
  rewrite at0_tab by lia. unfold conv. rewrite (sumZ_single _ _ (lenZ (bq_den b) - 1)).
  - replace (lenZ (bq_den b) + lenZ (prod_den sys) - 1 - 1 - (lenZ (bq_den b) - 1)) with (lenZ (prod_den sys) - 1) by lia.
    rewrite IH, Lb. unfold bq_den. destruct (bden b) as [a0 a1]. change (at0 [a0; a1; r1] (3 - 1)) with (r1 : K). ring.
  - lia.
  - intros i Hi Hne. rewrite (at0_out (prod_den sys)) by lia. ring.
Qed.
Lemma leads_prod (sys : list (biquad K)) : leads (prod_den sys).
Proof. split; [rewrite (proj2 (len_prod sys)); pose proof (lenZ_nonneg sys); lia|]. rewrite lead_prod. apply one_neq0. Qed.

(** the sections in turn *)
Fixpoint chain (sys : list (biquad K)) (x y : list K) : Prop :=
  match sys with [] => y = x | b :: sys => exists m, obeys (bq_num b) (bq_den b) x m /\ chain sys m y end.
Lemma chain_hist_chain (sys : list (biquad K)) : forall s x y, chain_hist sys s x y -> chain sys x y.
Proof.
  induction sys as [|b sys IH]; intros [|c s] x y H; cbn in H; try contradiction.
  - apply H.
  - destruct H as (_ & hm & L & E & H). exists hm. split; [split; assumption|]. eapply IH. exact H.
Qed.
Lemma obeys_one x : obeys [r1] [r1] x x.
Proof. split; [reflexivity|]. intros n Hn. unfold deq. reflexivity. Qed.
Lemma chain_obeys (sys : list (biquad K)) : forall x y, chain sys x y -> obeys (prod_num sys) (prod_den sys) x y.
Proof.
  induction sys as [|b sys IH]; intros x y H.
  - cbn in H. subst. apply obeys_one.
  - destruct H as (m & [Lm Em] & H). apply IH in H. destruct H as [Ly Ey]. cbn [prod_num prod_den]. split; [lia|].
    pose proof (len_prod sys) as [L1 L2]. pose proof (lenZ_nonneg sys).
    apply (deq_chain _ _ _ _ x m y); rewrite ?len_bq_num, ?len_bq_den; try lia; [exact Em|]. rewrite <- Lm. exact Ey.
Qed.

(** one call each, from a fresh state *)
Lemma df1_fresh sys ord x : 0 <= ord -> sys_ok sys ord ->
  okP (Filter_df1 sys x (df1_new ord)) (fun r => obeys (numerator sys) (denominator sys) x (fst r)).
Proof.
  intros Ho Hs. unfold Filter_df1. rewrite iir_filter_feeds.
  pose proof (df1_new_hist ord Ho) as Hh.
  apply okP_assert.
  { destruct Hh as (L1 & L2 & _). destruct Hs as (H1 & H2 & _). unfold df1_pre, df1_order, tf_order, poly_order.
    pose proof (lenZ_nonneg (numerator sys)).
    destruct (lenZ (numerator sys) =? 0) eqn:E1, (lenZ (denominator sys) =? 0) eqn:E2; lia. }
  eapply okP_imp; [apply df1_feeds_spec; eassumption|]. cbn beta. intros [y s'] (L & _ & E). cbn [fst app] in *. split; [exact L|].
  change (lenZ (@nil K)) with 0 in E. intros n Hn. apply E. lia.
Qed.
Lemma leads_norm sys : leads (denominator sys) -> leads (norm_den (denominator sys)).
Proof. intros [H1 H2]. unfold norm_den. split; [rewrite lenZ_updZ; lia|]. rewrite lenZ_updZ, at0_updZ by lia. rewrite Z.eqb_refl. apply one_neq0. Qed.
Lemma df2_fresh sys ord x : 0 <= ord -> sys_ok sys ord ->
  okP (Filter_df2 sys x (df2_new ord)) (fun r => obeys (norm_num (numerator sys) (denominator sys)) (norm_den (denominator sys)) x (fst r)).
Proof.
  intros Ho Hs. unfold Filter_df2. rewrite iir_filter_feeds.
  pose proof (df2_new_hist ord Ho) as (L2 & _).
  apply okP_assert.
  { destruct Hs as (H1 & H2 & _). unfold df2_pre, df2_order, tf_order, poly_order.
    pose proof (lenZ_nonneg (numerator sys)).
    destruct (lenZ (numerator sys) =? 0) eqn:E1, (lenZ (denominator sys) =? 0) eqn:E2, (lenZ (df2_new ord) =? 0) eqn:E3; lia. }
  eapply okP_imp; [apply df2_new_deq; eassumption|]. cbn beta. intros [y s'] (L & E). cbn [fst] in *. now split.
Qed.
Lemma cf_fresh (sys : list (biquad K)) ord x : 0 <= ord -> lenZ sys + 1 <= 1 + (ord + 1) / 2 ->
  okP (Filter_cf sys x (cf_new ord)) (fun r => lenZ (fst r) = lenZ x /\ chain sys x (fst r)).
Proof.
  intros Ho Hs. unfold Filter_cf. rewrite iir_filter_feeds. cbn [assert_].
  destruct (cf_new_zero ord Ho) as [L F].
  eapply okP_imp; [apply (cf_feeds_spec sys x (cf_new ord) [] []); [lia|apply chain_zero; [lia|exact F]]|].
  cbn beta. intros [y s'] (Ly & _ & H). cbn [fst app snd] in *. split; [exact Ly|]. eapply chain_hist_chain. exact H.
Qed.
Lemma norm_monic num den : 0 < lenZ den -> at0 den (lenZ den - 1) = r1 -> norm_den den = den /\ norm_num num den = num.
Proof.
  intros H1 H2. split.
  - unfold norm_den. apply at0_ext; [apply lenZ_updZ; lia|]. rewrite lenZ_updZ by lia. intros i Hi. rewrite at0_updZ by lia.
    destruct (Z.eqb_spec i (lenZ den - 1)) as [->|]; [now rewrite H2|reflexivity].
  - unfold norm_num. rewrite H2. rewrite <- (map_id num) at 2. apply map_ext. intros b. field. apply one_neq0.
Qed.

(** *** sizes never change *)
End Iir.
