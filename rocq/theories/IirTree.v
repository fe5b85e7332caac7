(** What the IIR realizations compute when nothing is known about the arithmetic: the recursion of
    each, with the operations in the order in which they are performed. *)
From Verif Require Import Base BaseFacts IntervalModel KernelModel KernelProofs ConvModel ConvProofs ConvTree IirModel IirProofs.
From Coq Require Import ZifyBool ZifyNat.
Ltac Zify.zify_post_hook ::= Z.div_mod_to_equations.
Open Scope Z_scope.

(** sum of products, from the left *)
Definition sop {K} (zero : K) (madd : K -> K -> K -> K) (ps : list (K * K)) : K :=
  fold_left (fun acc p => madd acc (fst p) (snd p)) ps zero.
(** the newest samples of [f] up to [n], each with its coefficient: the last coefficient meets sample [n] *)
Definition newest {K} (zero : K) (c f : list K) (n : Z) : list (K * K) :=
  tab (lenZ c) (fun i => (elt zero f (n - (lenZ c - 1) + i), elt zero c i)).
Definition flip_pair {K} (p : K * K) : K * K := (snd p, fst p).
(** all coefficients but the leading one, and the leading one *)
Definition lower {K} (c : list K) : list K := firstn (Z.to_nat (lenZ c - 1)) c.
Definition leading {K} (zero : K) (c : list K) : K := elt zero c (lenZ c - 1).
(** the newest [m] samples of [h] are in the array [s] *)
Definition holds {K} (zero : K) (s h : list K) : Prop := forall i, 0 <= i < lenZ s -> elt zero s i = elt zero h (lenZ h - lenZ s + i).

Section Facts.
Context {K : Type} (zero : K).
Implicit Types (a b s h c f : list K).
Lemma elt_app a b i : elt zero (a ++ b) i = if i <? lenZ a then elt zero a i else elt zero b (i - lenZ a).
Proof.
  unfold elt. destruct (Z.ltb_spec i (lenZ a)).
  - destruct (Z_lt_ge_dec i 0).
    + rewrite (proj2 (nthZ_none (a ++ b) i)), (proj2 (nthZ_none a i)) by lia. reflexivity.
    + now rewrite nthZ_app1 by lia.
  - now rewrite nthZ_app2 by lia.
Qed.
Lemma elt_app_l a b i : i < lenZ a -> elt zero (a ++ b) i = elt zero a i.
Proof. intros H. rewrite elt_app. now replace (i <? lenZ a) with true by lia. Qed.
Lemma lower_len c : lenZ (lower c) = Z.max 0 (lenZ c - 1).
Proof. unfold lower. rewrite lenZ_firstn. pose proof (lenZ_nonneg c). lia. Qed.
Lemma slice_lower c : 0 < lenZ c -> slice c 0 (lenZ c - 1) = Ok (lower c).
Proof.
  intros H. unfold slice. replace ((0 <=? 0) && (0 <=? lenZ c - 1) && (0 + (lenZ c - 1) <=? lenZ c)) with true by lia. reflexivity.
Qed.
Lemma holds_shift s h v : 0 < lenZ s -> holds zero s h -> holds zero (skipn 1 (s ++ [v])) (h ++ [v]).
Proof.
  intros Hs H i. rewrite lenZ_skipn, !lenZ_app. change (lenZ [v]) with 1. intros Hi. pose proof (lenZ_nonneg h).
  unfold elt at 1. rewrite nthZ_skipn by lia. fold (elt zero (s ++ [v]) (Z.of_nat 1 + i)). rewrite !elt_app.
  destruct (Z.ltb_spec (Z.of_nat 1 + i) (lenZ s)).
  - replace (lenZ h + 1 - Z.max 0 (lenZ s + 1 - Z.of_nat 1) + i <? lenZ h) with true by lia. rewrite H by lia. f_equal. lia.
  - replace (lenZ h + 1 - Z.max 0 (lenZ s + 1 - Z.of_nat 1) + i <? lenZ h) with false by lia. f_equal. lia.
Qed.
Lemma ginner_sop madd a oa b ob n : 0 <= n -> 0 <= oa -> 0 <= ob -> oa + n <= lenZ a -> ob + n <= lenZ b ->
  ginner zero madd a oa b ob n = Ok (sop zero madd (tab n (fun i => (elt zero a (oa + i), elt zero b (ob + i))))).
Proof.
  intros. unfold ginner. apply okP_eq. eapply okP_imp.
  { apply (for1_inv' (fun j acc => acc = sop zero madd (tab (Z.max 0 j) (fun i => (elt zero a (oa + i), elt zero b (ob + i)))))).
    - now rewrite tab_0 by lia.
    - intros j acc Hj ->. rewrite (rd_elt zero a), (rd_elt zero b) by lia. cbn [bind]. apply okP_ret.
      replace (Z.max 0 (j + 1)) with (Z.max 0 j + 1) by lia. rewrite tab_snoc by lia. unfold sop. rewrite fold_left_app. cbn [fold_left fst snd].
      replace (Z.max 0 j) with j by lia. reflexivity. }
  cbn beta. intros acc ->. rewrite !Z.max_r by lia. reflexivity.
Qed.
Lemma newest_ext c f g n : (forall i, i <= n -> elt zero f i = elt zero g i) -> newest zero c f n = newest zero c g n.
Proof. intros H. unfold newest. apply tab_ext. intros i Hi. rewrite H by lia. reflexivity. Qed.
(** an array that holds the history, with the view of its end *)
Lemma window_newest s h c : holds zero s h -> lenZ c <= lenZ s ->
  tab (lenZ c) (fun i => (elt zero s (lenZ s - lenZ c + i), elt zero c (0 + i))) = newest zero c h (lenZ h - 1).
Proof.
  intros H Hc. unfold newest. apply tab_ext. intros i Hi. rewrite H by lia.
  replace (lenZ h - lenZ s + (lenZ s - lenZ c + i)) with (lenZ h - 1 - (lenZ c - 1) + i) by lia. rewrite Z.add_0_l. reflexivity.
Qed.
Lemma window_newest' s h c : holds zero s h -> lenZ c <= lenZ s ->
  tab (lenZ c) (fun i => (elt zero c (0 + i), elt zero s (lenZ s - lenZ c + i))) = map flip_pair (newest zero c h (lenZ h - 1)).
Proof.
  intros H Hc. rewrite <- (window_newest s h c H Hc). unfold tab. rewrite map_map. apply map_ext. reflexivity.
Qed.
Lemma holds_zeros n h : h = [] -> holds zero (repeat zero n) h.
Proof. intros -> i Hi. rewrite elt_repeat. symmetry. apply elt_out. left. cbn. rewrite lenZ_repeat in *. lia. Qed.
End Facts.

Section Runs.
Context {K : Type} (zero one : K) (sub mul div : K -> K -> K) (madd : K -> K -> K -> K).
Notation sop := (sop zero madd).
Notation newest := (newest zero).
Notation elt := (elt zero).
Notation gdf1_step := (gdf1_step zero one sub mul div madd).
Notation gdf2_step := (gdf2_step zero one sub mul div madd).
(** the system fits the realization *)
Definition fits (sys : tf K) (ord : Z) : Prop :=
  0 < lenZ (denominator sys) <= ord + 1 /\ lenZ (numerator sys) <= ord + 1 /\ ord + 1 < 2 ^ 64.

(** *** direct form I *)
Definition df1_rule (sys : tf K) (x y : list K) (n : Z) : Prop :=
  elt y n = mul (sub (sop (newest (numerator sys) x n)) (sop (newest (lower (denominator sys)) y (n - 1)))) (div one (leading zero (denominator sys))).
Definition df1_has (s : df1 K) (ord : Z) (hx hy : list K) : Prop :=
  lenZ (rec1 s) = ord /\ lenZ (fw1 s) = ord + 1 /\ lenZ hy = lenZ hx /\ holds zero (rec1 s) hy /\ holds zero (fw1 s) hx.

Lemma df1_step_rule sys ord v s hx hy : fits sys ord -> df1_has s ord hx hy ->
  okP (gdf1_step sys v s) (fun r => df1_has (snd r) ord (hx ++ [v]) (hy ++ [fst r]) /\ df1_rule sys (hx ++ [v]) (hy ++ [fst r]) (lenZ hx)).
Proof.
  intros (Hd & Hn & Ho) (L1 & L2 & L3 & A1 & A2). unfold gdf1_step, size_sub, df1_rule.
  set (den := denominator sys) in *. set (num := numerator sys) in *.
  pose proof (lenZ_nonneg num). pose proof (lenZ_nonneg hx). pose proof (lower_len den).
  rewrite (Z.mod_small (lenZ den - 1)) by lia. rewrite slice_lower by lia. cbn [bind].
  rewrite L1, L2. rewrite !Z.mod_small by lia.
  apply okP_assert; [lia|]. apply okP_assert; [lia|].
  rewrite (rd_elt zero) by lia. cbn [bind]. fold (leading zero den). rewrite shift_in_spec by lia. cbn [bind].
  set (fw := skipn 1 (fw1 s ++ [v])).
  assert (Lfw : lenZ fw = ord + 1) by (unfold fw; rewrite lenZ_skipn, lenZ_app, L2; cbn; lia).
  assert (Afw : holds zero fw (hx ++ [v])) by (apply holds_shift; [lia|exact A2]).
  rewrite Lfw. rewrite ginner_sop by lia. cbn [bind]. rewrite ginner_sop by lia. cbn [bind].
  assert (E1 : tab (ord + 1 - (ord + 1 - lenZ num)) (fun i => (elt fw (ord + 1 - lenZ num + i), elt num (0 + i))) = newest num (hx ++ [v]) (lenZ hx)).
  { pose proof (window_newest zero fw (hx ++ [v]) num Afw ltac:(lia)) as W. rewrite Lfw in W. rewrite lenZ_app in W. change (lenZ [v]) with 1 in W.
    replace (ord + 1 - (ord + 1 - lenZ num)) with (lenZ num) by lia. rewrite W. f_equal. lia. }
  rewrite E1.
  set (rs := sop (tab (ord - _) _)). set (out := mul _ _).
  assert (E2 : rs = sop (newest (lower den) (hy ++ [out]) (lenZ hx - 1))).
  { unfold rs. f_equal. rewrite <- L1 at 1 2. pose proof (window_newest zero (rec1 s) hy (lower den) A1 ltac:(lia)) as W. rewrite L1 in W |- *.
    replace (ord - (ord - lenZ (lower den))) with (lenZ (lower den)) by lia. rewrite W, L3. apply newest_ext.
    intros i Hi. symmetry. apply elt_app_l. lia. }
  assert (EQ : elt (hy ++ [out]) (lenZ hx) = mul (sub (sop (newest num (hx ++ [v]) (lenZ hx))) (sop (newest (lower den) (hy ++ [out]) (lenZ hx - 1)))) (div one (leading zero den))).
  { rewrite <- E2. rewrite elt_app. replace (lenZ hx <? lenZ hy) with false by lia. replace (lenZ hx - lenZ hy) with 0 by lia. reflexivity. }
  destruct (Z.ltb_spec 0 ord).
  - rewrite shift_in_spec by lia. cbn [bind]. apply okP_ret. cbn [fst snd]. split; [|exact EQ]. repeat split; cbn [rec1 fw1].
    + rewrite lenZ_skipn, lenZ_app, L1. cbn. lia.
    + exact Lfw.
    + rewrite !lenZ_app. cbn. lia.
    + apply holds_shift; [lia|exact A1].
    + exact Afw.
  - cbn [bind]. apply okP_ret. cbn [fst snd]. split; [|exact EQ]. repeat split; cbn [rec1 fw1]; try assumption; try lia.
    + rewrite !lenZ_app. cbn. lia.
    + intros i Hi. lia.
Qed.
Lemma df1_rule_app sys x y a b n : lenZ y = lenZ x -> n < lenZ x -> df1_rule sys x y n -> df1_rule sys (x ++ a) (y ++ b) n.
Proof.
  intros L Hn H. unfold df1_rule in *. rewrite elt_app_l by lia. rewrite H.
  rewrite (newest_ext zero (numerator sys) (x ++ a) x n), (newest_ext zero (lower (denominator sys)) (y ++ b) y (n - 1)); [reflexivity| |];
    intros i Hi; apply elt_app_l; lia.
Qed.
Lemma df1_run sys ord xs : forall s hx hy, fits sys ord -> df1_has s ord hx hy ->
  okP (feeds (gdf1_step sys) xs s) (fun r => lenZ (fst r) = lenZ xs /\ df1_has (snd r) ord (hx ++ xs) (hy ++ fst r) /\
    forall n, lenZ hx <= n < lenZ hx + lenZ xs -> df1_rule sys (hx ++ xs) (hy ++ fst r) n).
Proof.
  induction xs as [|v xs IH]; intros s hx hy Hs Hh; cbn [feeds].
  - apply okP_ret. cbn [fst snd]. rewrite !app_nil_r. split; [reflexivity|]. split; [assumption|]. rewrite lenZ_nil. intros; lia.
  - assert (L3 := proj1 (proj2 (proj2 Hh))).
    eapply okP_bind; [apply df1_step_rule; eassumption|]. cbn beta. intros [w s1] [H1 E1]. cbn [fst snd] in *.
    eapply okP_bind; [apply (IH s1 _ _ Hs H1)|]. cbn beta. intros [ys s2] (L & H2 & E2). cbn [fst snd] in *.
    apply okP_ret. cbn [fst snd]. rewrite <- !app_assoc in H2, E2. cbn [app] in H2, E2.
    split; [rewrite !lenZ_cons; lia|]. split; [exact H2|]. rewrite lenZ_cons. intros n Hn.
    destruct (Z.eq_dec n (lenZ hx)) as [->|].
    + replace (hx ++ v :: xs) with ((hx ++ [v]) ++ xs) by now rewrite <- app_assoc.
      replace (hy ++ w :: ys) with ((hy ++ [w]) ++ ys) by now rewrite <- app_assoc.
      apply df1_rule_app; [rewrite !lenZ_app; cbn; lia|rewrite lenZ_app; cbn; lia|exact E1].
    + apply E2. rewrite lenZ_app. cbn. lia.
Qed.
Lemma df1_new_has ord : 0 <= ord -> df1_has (gdf1_new zero ord) ord [] [].
Proof.
  clear one sub mul div madd. intros H. unfold gdf1_new, gdf1_set_order. cbn [rec1 fw1]. rewrite !vresize_nil. repeat split; cbn [rec1 fw1]; rewrite ?lenZ_repeat; try lia; now apply holds_zeros.
Qed.

(** *** direct form II *)
Definition df2_rule (sys : tf K) (x w y : list K) (n : Z) : Prop :=
  elt w n = sub (mul (elt x n) (div one (leading zero (denominator sys)))) (sop (map flip_pair (newest (lower (denominator sys)) w (n - 1)))) /\
  elt y n = sop (map flip_pair (newest (numerator sys) w n)).
Definition df2_has (s : list K) (ord : Z) (hw : list K) : Prop := lenZ s = ord + 1 /\ holds zero s hw.
Lemma df2_step_rule sys ord v s hw hx hy : fits sys ord -> df2_has s ord hw -> lenZ hx = lenZ hw -> lenZ hy = lenZ hw ->
  okP (gdf2_step sys v s) (fun r => exists w, df2_has (snd r) ord (hw ++ [w]) /\ df2_rule sys (hx ++ [v]) (hw ++ [w]) (hy ++ [fst r]) (lenZ hw)).
Proof.
  intros (Hd & Hn & Ho) (L2 & A2) Lx Ly. unfold gdf2_step, size_sub, df2_rule.
  set (den := denominator sys) in *. set (num := numerator sys) in *.
  pose proof (lenZ_nonneg num). pose proof (lenZ_nonneg hw). pose proof (lower_len den).
  rewrite (Z.mod_small (lenZ den - 1)) by lia. rewrite slice_lower by lia. cbn [bind].
  rewrite L2. rewrite !Z.mod_small by lia.
  apply okP_assert; [lia|]. apply okP_assert; [lia|].
  rewrite (rd_elt zero) by lia. cbn [bind]. fold (leading zero den). rewrite ginner_sop by lia. cbn [bind].
  set (rs := sop _). set (w := sub _ _). rewrite shift_in_spec by lia. cbn [bind].
  set (fw := skipn 1 (s ++ [w])).
  assert (Lfw : lenZ fw = ord + 1) by (unfold fw; rewrite lenZ_skipn, lenZ_app, L2; cbn; lia).
  assert (Afw : holds zero fw (hw ++ [w])) by (apply holds_shift; [lia|exact A2]).
  rewrite ginner_sop by lia. cbn [bind]. apply okP_ret. cbn [fst snd]. exists w. split; [split; assumption|].
  assert (E2 : rs = sop (map flip_pair (newest (lower den) (hw ++ [w]) (lenZ hw - 1)))).
  { unfold rs. f_equal. pose proof (window_newest' zero s hw (lower den) A2 ltac:(lia)) as W. rewrite L2 in W. rewrite W. f_equal. apply newest_ext.
    intros i Hi. symmetry. apply elt_app_l. lia. }
  split.
  - rewrite <- E2. rewrite !elt_app. replace (lenZ hw <? lenZ hw) with false by lia. replace (lenZ hw <? lenZ hx) with false by lia.
    replace (lenZ hw - lenZ hx) with 0 by lia. rewrite Z.sub_diag. reflexivity.
  - pose proof (window_newest' zero fw (hw ++ [w]) num Afw ltac:(lia)) as W. rewrite Lfw in W. rewrite lenZ_app in W. change (lenZ [w]) with 1 in W.
    replace (lenZ hw + 1 - 1) with (lenZ hw) in W by lia. rewrite <- W.
    rewrite elt_app. replace (lenZ hw <? lenZ hy) with false by lia. replace (lenZ hw - lenZ hy) with 0 by lia. reflexivity.
Qed.
Lemma df2_rule_app sys x w y a b c n : lenZ x = lenZ w -> lenZ y = lenZ w -> n < lenZ w -> df2_rule sys x w y n -> df2_rule sys (x ++ a) (w ++ b) (y ++ c) n.
Proof.
  intros Lx Ly Hn [H1 H2]. unfold df2_rule. rewrite !elt_app_l by lia. rewrite H1, H2.
  rewrite (newest_ext zero (numerator sys) (w ++ b) w n), (newest_ext zero (lower (denominator sys)) (w ++ b) w (n - 1)); [split; reflexivity| |];
    intros i Hi; apply elt_app_l; lia.
Qed.
Lemma df2_run sys ord xs : forall s hx hw hy, fits sys ord -> df2_has s ord hw -> lenZ hx = lenZ hw -> lenZ hy = lenZ hw ->
  okP (feeds (gdf2_step sys) xs s) (fun r => lenZ (fst r) = lenZ xs /\ exists ws, lenZ ws = lenZ xs /\ df2_has (snd r) ord (hw ++ ws) /\
    forall n, lenZ hw <= n < lenZ hw + lenZ xs -> df2_rule sys (hx ++ xs) (hw ++ ws) (hy ++ fst r) n).
Proof.
  induction xs as [|v xs IH]; intros s hx hw hy Hs Hh Lx Ly; cbn [feeds].
  - apply okP_ret. cbn [fst snd]. split; [reflexivity|]. exists []. rewrite !app_nil_r. split; [reflexivity|]. split; [assumption|]. rewrite lenZ_nil. intros; lia.
  - eapply okP_bind; [apply (df2_step_rule sys ord v s hw hx hy); eassumption|]. cbn beta. intros [o s1] (w & H1 & E1). cbn [fst snd] in *.
    eapply okP_bind; [apply (IH s1 (hx ++ [v]) (hw ++ [w]) (hy ++ [o]) Hs H1); rewrite !lenZ_app; cbn; lia|]. cbn beta. intros [ys s2] (L & ws & Lw & H2 & E2). cbn [fst snd] in *.
    apply okP_ret. cbn [fst snd]. rewrite <- !app_assoc in H2. rewrite <- (app_assoc hx), <- (app_assoc hw), <- (app_assoc hy) in E2. cbn [app] in H2, E2.
    split; [rewrite !lenZ_cons; lia|]. exists (w :: ws). split; [rewrite !lenZ_cons; lia|]. split; [exact H2|]. rewrite lenZ_cons. intros n Hn.
    destruct (Z.eq_dec n (lenZ hw)) as [->|].
    + replace (hx ++ v :: xs) with ((hx ++ [v]) ++ xs) by now rewrite <- app_assoc.
      replace (hw ++ w :: ws) with ((hw ++ [w]) ++ ws) by now rewrite <- app_assoc.
      replace (hy ++ o :: ys) with ((hy ++ [o]) ++ ys) by now rewrite <- app_assoc.
      apply df2_rule_app; [rewrite !lenZ_app; cbn; lia|rewrite !lenZ_app; cbn; lia|rewrite lenZ_app; cbn; lia|exact E1].
    + apply E2. rewrite lenZ_app. cbn. lia.
Qed.
Lemma df2_new_has ord : 0 <= ord -> df2_has (gdf2_new zero ord) ord [].
Proof. clear one sub mul div madd. intros H. unfold gdf2_new, gdf2_set_order. rewrite !vresize_nil. split; [rewrite lenZ_repeat; lia|now apply holds_zeros]. Qed.
End Runs.

(** *** cascaded form *)
Section Cascade.
Context {K : Type} (zero : K) (sub mul : K -> K -> K) (madd : K -> K -> K -> K).
Notation elt := (elt zero).
Definition gshift3 (c : arr3 K) (v : K) : arr3 K := let '(c0, c1, c2) := c in (c1, c2, v).
Definition gbq_out (b : biquad K) (cur next : arr3 K) : K :=
  let '(b0, b1, b2) := bnum b in let '(a0, a1) := bden b in
  let '(d0, d1, d2) := cur in let '(n0, n1, n2) := next in
  sub (madd (madd (mul d0 b0) d1 b1) d2 b2) (madd (mul n1 a0) n2 a1).
Fixpoint gcasc_idle (v : K) (s : list (arr3 K)) : list (arr3 K) :=
  match s with [] => [] | c :: s => gshift3 c v :: gcasc_idle v s end.
Fixpoint gcasc (sys : list (biquad K)) (v : K) (s : list (arr3 K)) : K * list (arr3 K) :=
  match sys, s with
  | b :: sys, c :: ((n :: _) as s') =>
      let cur := gshift3 c v in
      let (o, s'') := gcasc sys (gbq_out b cur n) s' in (o, cur :: s'')
  | _, _ => (v, gcasc_idle v s)
  end.
Lemma gcf_step_casc (sys : list (biquad K)) v s : lenZ sys + 1 <= lenZ s -> gcf_step sub mul madd sys v s = Ok (gcasc sys v s).
Proof.
  intros H. unfold gcf_step. replace (lenZ sys + 1 <=? lenZ s) with true by lia. cbn [assert_].
  unfold for_. rewrite trips1 by apply lenZ_nonneg.
  replace (Z.to_nat (lenZ s)) with (length s) by (unfold lenZ; lia).
  match goal with |- loop _ _ _ ?bd _ = _ => set (body := bd) end.
  assert (G0 : forall suf pre v, lenZ sys <= lenZ pre ->
            loop (length suf) (lenZ pre) 1 body (v, pre ++ suf) = Ok (v, pre ++ gcasc_idle v suf)).
  { induction suf as [|[[c0 c1] c2] suf IH]; intros pre w Hp; [reflexivity|].
    cbn [length loop]. unfold body at 1. rewrite rd_midA. cbn [bind]. rewrite wr_midA. cbn [bind].
    replace (lenZ pre <? lenZ sys) with false by lia. cbn [bind].
    replace (lenZ pre + 1) with (lenZ (pre ++ [(c1, c2, w)])) by now rewrite lenZ_app.
    change (pre ++ (c1, c2, w) :: suf) with (pre ++ [(c1, c2, w)] ++ suf). rewrite app_assoc.
    rewrite IH by (rewrite lenZ_app; cbn; lia). now rewrite <- app_assoc. }
  assert (G : forall suf pre ssuf spre v, spre ++ ssuf = sys -> lenZ spre = lenZ pre -> lenZ ssuf + 1 <= lenZ suf ->
            loop (length suf) (lenZ pre) 1 body (v, pre ++ suf) = Ok (fst (gcasc ssuf v suf), pre ++ snd (gcasc ssuf v suf))).
  { induction suf as [|[[c0 c1] c2] suf IH]; intros pre ssuf spre w E L1 L2.
    - rewrite lenZ_nil in L2. pose proof (lenZ_nonneg ssuf). lia.
    - destruct ssuf as [|b ssuf].
      + rewrite app_nil_r in E. subst spre. rewrite G0 by lia. reflexivity.
      + destruct suf as [|n suf]; [rewrite !lenZ_cons, lenZ_nil in L2; pose proof (lenZ_nonneg ssuf); lia|].
        assert (Lb : lenZ pre < lenZ sys) by (rewrite <- E, lenZ_app, lenZ_cons; pose proof (lenZ_nonneg ssuf); lia).
        change (length ((c0, c1, c2) :: n :: suf)) with (S (length (n :: suf))). cbn [loop]. unfold body at 1. rewrite rd_midA. cbn [bind].
        rewrite wr_midA. cbn [bind]. replace (lenZ pre <? lenZ sys) with true by lia.
        replace (pre ++ (c1, c2, w) :: n :: suf) with ((pre ++ [(c1, c2, w)]) ++ n :: suf) by now rewrite <- app_assoc.
        replace (lenZ pre + 1) with (lenZ (pre ++ [(c1, c2, w)])) by now rewrite lenZ_app.
        rewrite rd_midA. cbn [bind]. rewrite <- E, <- L1, rd_midA. cbn [bind].
        cbn [gcasc]. destruct b as [[[b0 b1] b2] [a0 a1] no do_]. destruct n as [[n0 n1] n2]. cbn [bnum bden bind].
        rewrite (IH (pre ++ [(c1, c2, w)]) ssuf (spre ++ [mkBq (b0, b1, b2) (a0, a1) no do_])).
        * cbn [gshift3]. unfold gbq_out. cbn [bnum bden].
          match goal with |- context [gcasc ssuf ?o ?t] => destruct (gcasc ssuf o t) as [o' s''] eqn:Ec end.
          cbn [fst snd]. now rewrite <- app_assoc.
        * now rewrite <- app_assoc.
        * rewrite !lenZ_app. cbn. lia.
        * rewrite !lenZ_cons in *. lia. }
  specialize (G s [] sys [] v eq_refl eq_refl H). cbn [app] in G. rewrite lenZ_nil in G.
  etransitivity; [exact G|]. now destruct (gcasc sys v s).
Qed.

(** one section: the last three samples that came in, the last two that went out *)
Definition section_rule (b : biquad K) (x y : list K) (n : Z) : Prop :=
  let '(b0, b1, b2) := bnum b in let '(a0, a1) := bden b in
  elt y n = sub (madd (madd (mul (elt x (n - 2)) b0) (elt x (n - 1)) b1) (elt x n) b2) (madd (mul (elt y (n - 2)) a0) (elt y (n - 1)) a1).
Fixpoint cascade_rule (sys : list (biquad K)) (x y : list K) : Prop :=
  match sys with
  | [] => y = x
  | b :: sys => exists m, lenZ m = lenZ x /\ (forall n, 0 <= n < lenZ x -> section_rule b x m n) /\ cascade_rule sys m y
  end.
Definition has3 (c : arr3 K) (h : list K) : Prop := c = (elt h (lenZ h - 3), elt h (lenZ h - 2), elt h (lenZ h - 1)).
Fixpoint casc_has (sys : list (biquad K)) (s : list (arr3 K)) (hx hy : list K) : Prop :=
  match s with
  | [] => False
  | c :: s => has3 c hx /\
      match sys with
      | [] => hy = hx
      | b :: sys => exists m, lenZ m = lenZ hx /\ (forall n, 0 <= n < lenZ hx -> section_rule b hx m n) /\ casc_has sys s m hy
      end
  end.
Lemma casc_has_rule sys : forall s hx hy, casc_has sys s hx hy -> cascade_rule sys hx hy.
Proof.
  induction sys as [|b sys IH]; intros [|c s] hx hy H; cbn [casc_has cascade_rule] in *; try contradiction.
  - apply H.
  - destruct H as (_ & m & L & R & H). exists m. split; [exact L|]. split; [exact R|]. eapply IH, H.
Qed.
Lemma casc_has_head sys c s hx hy : casc_has sys (c :: s) hx hy -> has3 c hx.
Proof. intros H. destruct sys; exact (proj1 H). Qed.
Lemma has3_shift c h v : has3 c h -> has3 (gshift3 c v) (h ++ [v]).
Proof.
  intros ->. unfold has3. rewrite lenZ_app. change (lenZ [v]) with 1. cbn [gshift3].
  rewrite !elt_app. replace (lenZ h + 1 - 3 <? lenZ h) with true by lia. replace (lenZ h + 1 - 2 <? lenZ h) with true by lia.
  replace (lenZ h + 1 - 1 <? lenZ h) with false by lia.
  replace (lenZ h + 1 - 3) with (lenZ h - 2) by lia. replace (lenZ h + 1 - 2) with (lenZ h - 1) by lia. replace (lenZ h + 1 - 1 - lenZ h) with 0 by lia. reflexivity.
Qed.
Lemma section_rule_app b x y u v n : lenZ y = lenZ x -> n < lenZ x -> section_rule b x y n -> section_rule b (x ++ u) (y ++ v) n.
Proof.
  intros L Hn. unfold section_rule. destruct (bnum b) as [[b0 b1] b2], (bden b) as [a0 a1]. intros H. rewrite !elt_app_l by lia. exact H.
Qed.
Lemma gcasc_has sys : forall s hx hy v, casc_has sys s hx hy -> casc_has sys (snd (gcasc sys v s)) (hx ++ [v]) (hy ++ [fst (gcasc sys v s)]) /\ lenZ (snd (gcasc sys v s)) = lenZ s.
Proof.
  assert (Li : forall s v, lenZ (gcasc_idle v s) = lenZ s) by (induction s as [|c s IHs]; intros v; cbn [gcasc_idle]; [reflexivity|now rewrite !lenZ_cons, IHs]).
  induction sys as [|b sys IH]; intros [|c s] hx hy v H; try contradiction.
  - cbn [gcasc fst snd]. split; [|apply Li]. cbn [gcasc_idle casc_has] in *. destruct H as [H3 ->]. split; [now apply has3_shift|reflexivity].
  - destruct H as (H3 & m & L & R & H). destruct s as [|d s]; [destruct sys; contradiction|].
    cbn [gcasc]. pose proof (casc_has_head _ _ _ _ _ H) as D3. pose proof (has3_shift _ _ v H3) as C3.
    set (o := gbq_out b (gshift3 c v) d). specialize (IH (d :: s) m hy o H).
    destruct (gcasc sys o (d :: s)) as [o' s''] eqn:Ec. cbn [fst snd] in *. destruct IH as [IH IL]. split; [|rewrite !lenZ_cons in *; lia].
    cbn [casc_has]. split; [exact C3|]. exists (m ++ [o]). split; [rewrite !lenZ_app; cbn; lia|]. split; [|exact IH].
    rewrite lenZ_app. change (lenZ [v]) with 1. intros n Hn. destruct (Z.eq_dec n (lenZ hx)) as [->|]; [|apply section_rule_app; [lia|lia|apply R; lia]].
    unfold section_rule. destruct (bnum b) as [[b0 b1] b2] eqn:Eb, (bden b) as [a0 a1] eqn:Ea.
    rewrite elt_app. replace (lenZ hx <? lenZ m) with false by lia. replace (lenZ hx - lenZ m) with 0 by lia. change (elt [o] 0) with o.
    unfold o at 1, gbq_out. rewrite Eb, Ea. unfold has3 in *. rewrite C3, D3. rewrite lenZ_app. change (lenZ [v]) with 1.
    rewrite !(elt_app_l zero m) by lia. rewrite L.
    replace (lenZ hx + 1 - 3) with (lenZ hx - 2) by lia. replace (lenZ hx + 1 - 2) with (lenZ hx - 1) by lia. replace (lenZ hx + 1 - 1) with (lenZ hx) by lia. reflexivity.
Qed.
Lemma casc_run sys xs : forall s hx hy, casc_has sys s hx hy -> lenZ sys + 1 <= lenZ s ->
  okP (feeds (gcf_step sub mul madd sys) xs s) (fun r => lenZ (fst r) = lenZ xs /\ cascade_rule sys (hx ++ xs) (hy ++ fst r) /\ casc_has sys (snd r) (hx ++ xs) (hy ++ fst r)).
Proof.
  induction xs as [|v xs IH]; intros s hx hy H L; cbn [feeds].
  - apply okP_ret. cbn [fst snd]. rewrite !app_nil_r. split; [reflexivity|]. split; [eapply casc_has_rule, H|exact H].
  - rewrite gcf_step_casc by exact L. cbn [bind]. pose proof (gcasc_has sys s hx hy v H) as [H1 L1]. destruct (gcasc sys v s) as [o s1]. cbn [fst snd] in *.
    eapply okP_bind; [apply (IH s1 _ _ H1); lia|]. cbn beta. intros [ys s2] (Ly & R & H2). cbn [fst snd] in *. apply okP_ret. cbn [fst snd].
    rewrite <- !app_assoc in R, H2. cbn [app] in R, H2. split; [rewrite !lenZ_cons; lia|]. split; assumption.
Qed.
Lemma casc_new_has sys : forall n, lenZ sys < Z.of_nat n -> casc_has sys (repeat (gzero3 zero) n) [] [].
Proof.
  induction sys as [|b sys IH]; intros [|n] H; cbn [repeat casc_has].
  - cbn in H. lia.
  - split; reflexivity.
  - pose proof (lenZ_nonneg (b :: sys)). lia.
  - split; [reflexivity|]. exists []. split; [reflexivity|]. split; [cbn; intros; lia|]. apply IH. rewrite lenZ_cons in H. lia.
Qed.
End Cascade.
