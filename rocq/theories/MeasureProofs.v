(** Facts about the band extraction of MeasureModel.v. *)
From Coq Require Import ZArith List Bool Lia Reals Lra.
From Verif Require Import Base BaseFacts SolverModel PropsSolver MeasureModel MeasureSpec.
From Coq Require Import ZifyBool ZifyNat.
Import ListNotations.
Open Scope Z_scope.

Lemma gtb_true x y : gtb x y = true <-> (y < x)%R. Proof. unfold gtb. destruct (Rlt_dec y x); split; (discriminate || tauto || (intros; lra)). Qed.
Lemma gtb_false x y : gtb x y = false <-> (x <= y)%R. Proof. unfold gtb. destruct (Rlt_dec y x); split; try discriminate; intros; (lra || reflexivity). Qed.
Lemma ltb_true x y : ltb x y = true <-> (x < y)%R. Proof. unfold ltb. destruct (Rlt_dec x y); split; (discriminate || tauto || (intros; lra)). Qed.
Lemma ltb_false x y : ltb x y = false <-> (y <= x)%R. Proof. unfold ltb. destruct (Rlt_dec x y); split; try discriminate; intros; (lra || reflexivity). Qed.
Lemma find_if_range {A} p (l : list A) : 0 <= find_if p l <= lenZ l.
Proof. induction l as [|x l IH]; [cbn; lia|]. cbn [find_if]. rewrite lenZ_cons. destruct (p x); lia. Qed.
Lemma find_if_weaker {A} (p q : A -> bool) l : (forall x, p x = true -> q x = true) -> find_if q l <= find_if p l.
Proof. intros H. induction l as [|x l IH]; [reflexivity|]. cbn [find_if]. pose proof (find_if_range p l). destruct (p x) eqn:E; [rewrite (H x E); lia|]. destruct (q x); lia. Qed.

Lemma schmitt_run lower upper (p : bool) xs : (lower <= upper)%R -> let conc := fun bin => negb (Bool.eqb (gtb bin (if p then lower else upper)) p) in
  let c := find_if conc xs in schmitt lower upper p xs = repeat p (Z.to_nat c) ++ schmitt lower upper p (skipn (Z.to_nat c) xs) /\
  (forall y tl, skipn (Z.to_nat c) xs = y :: tl -> schmitt lower upper p (y :: tl) = schmitt lower upper (negb p) (y :: tl) /\ gtb y (if p then lower else upper) = negb p).
Proof.
  intros Hn conc. induction xs as [|x xs [IH1 IH2]]; [split; [reflexivity|discriminate]|]. cbn [find_if]. destruct (conc x) eqn:E.
  - split; [reflexivity|]. intros y tl [= <- <-]. unfold conc in E. destruct p; cbn [negb] in *.
    + destruct (gtb x lower) eqn:G; [discriminate|]. cbn [schmitt]. rewrite G. apply gtb_false in G. replace (gtb x upper) with false by (symmetry; apply gtb_false; lra). now split.
    + destruct (gtb x upper) eqn:G; [|discriminate]. cbn [schmitt]. rewrite G. now split.
  - pose proof (find_if_range conc xs). replace (Z.to_nat (1 + find_if conc xs)) with (S (Z.to_nat (find_if conc xs))) by lia. cbn [repeat skipn app]. split; [|exact IH2].
    unfold conc in E. assert (S : (if gtb x upper then true else if gtb x lower then p else false) = p).
    { destruct p; cbn [negb] in E; [destruct (gtb x lower) eqn:G|destruct (gtb x upper) eqn:G]; try discriminate E; [|now destruct (gtb x lower)]. now destruct (gtb x upper). }
    cbn [schmitt]. rewrite S. now rewrite <- IH1.
Qed.
Lemma runs_repeat b c l : (1 <= c)%nat -> (forall a tl, l = a :: tl -> a = negb b) -> runs (repeat b c ++ l) = b :: runs l.
Proof.
  intros Hc Hl. induction c as [|c IH]; [lia|]. destruct c as [|c].
  - cbn [repeat app]. destruct l as [|a tl]; [reflexivity|]. specialize (Hl a tl eq_refl). subst a. cbn [runs]. now destruct b.
  - cbn [repeat app] in *. change (runs (b :: b :: repeat b c ++ l)) with (if Bool.eqb b b then runs (b :: repeat b c ++ l) else b :: runs (b :: repeat b c ++ l)). rewrite Bool.eqb_reflx. apply IH. lia.
Qed.
Lemma changes_repeat b c l i : (1 <= c)%nat -> (forall a tl, l = a :: tl -> a = negb b) -> changes i (repeat b c ++ l) = match l with [] => [] | _ => (i + Z.of_nat c) :: changes (i + Z.of_nat c) l end.
Proof.
  intros Hc Hl. revert i. induction c as [|c IH]; intros i; [lia|]. destruct c as [|c].
  - cbn [repeat app]. destruct l as [|a tl]; [reflexivity|]. specialize (Hl a tl eq_refl). subst a. cbn [changes]. now destruct b.
  - cbn [repeat app] in *. change (changes i (b :: b :: repeat b c ++ l)) with (if Bool.eqb b b then changes (i + 1) (b :: repeat b c ++ l) else (i + 1) :: changes (i + 1) (b :: repeat b c ++ l)). rewrite Bool.eqb_reflx. rewrite IH by lia. replace (i + 1 + Z.of_nat (S c)) with (i + Z.of_nat (S (S c))) by lia. reflexivity.
Qed.
Lemma skip_skip {A} (l : list A) a b : skipn (a + b) l = skipn b (skipn a l).
Proof. revert l. induction a as [|a IH]; intros l; [reflexivity|]. destruct l; cbn [Nat.add skipn]; [now rewrite skipn_nil|apply IH]. Qed.
Lemma rd_skipn {A} (l : list A) i : 0 <= i < lenZ l -> exists x tl, rd l i = Ok x /\ skipn (Z.to_nat i) l = x :: tl.
Proof.
  intros Hi. unfold rd, nthZ. replace (i <? 0) with false by lia. unfold lenZ in Hi. destruct (nth_error l (Z.to_nat i)) as [x|] eqn:E; [|apply nth_error_None in E; lia].
  exists x. apply nth_error_split in E. destruct E as (l1 & l2 & El & En). exists l2. split; [reflexivity|]. subst l. rewrite <- En, skipn_app, skipn_all, Nat.sub_diag. reflexivity.
Qed.
Lemma schmitt_head lower upper (p : bool) y tl : (gtb y (if p then lower else upper) = p) -> (lower <= upper)%R -> exists r, schmitt lower upper p (y :: tl) = p :: r.
Proof.
  intros G Hn. cbn [schmitt]. destruct p; [rewrite G; destruct (gtb y upper)|rewrite G; destruct (gtb y lower)]; eauto.
Qed.
Lemma bands_loop_spec spectrum thr noise : (0 <= noise)%R -> forall fuel it index, 0 <= it < lenZ spectrum -> (Z.of_nat fuel >= lenZ spectrum - it) -> let ys := skipn (Z.to_nat it) spectrum in
  let out p := schmitt (thr - noise) (thr + noise) p ys in
  exists y tl bands, ys = y :: tl /\ bands_loop fuel spectrum thr noise it index = Ok ({| first := index; pass := gtb y thr |} :: bands) /\
    gtb y thr :: map pass bands = runs (out (gtb y thr)) /\
    interleaved (if gtb y (if gtb y thr then thr + noise else thr - noise)%R then gtb y thr else negb (gtb y thr)) it (map first bands) (changes it (out (gtb y thr))) /\
    Forall (fun f : Z => 0 <= f < lenZ spectrum) (changes it (out (gtb y thr))) /\
    ((forall x, In x ys -> (x <= thr - noise \/ thr + noise < x)%R) -> map first bands = changes it (out (gtb y thr))).
Proof.
  intros Hn. induction fuel as [|fuel IH]; intros it index Hit Hf ys out; [lia|].
  destruct (rd_skipn spectrum it Hit) as (y & tl & E1 & E2). exists y, tl. fold ys in E2. cbn [bands_loop]. rewrite E1. cbn [bind]. set (p := gtb y thr).
  set (lower := (thr - noise)%R) in *. set (upper := (thr + noise)%R) in *. assert (Hlu : (lower <= upper)%R) by (unfold lower, upper; lra).
  set (trig := fun bin => negb (Bool.eqb (gtb bin (if p then upper else lower)) p)). set (conc := fun bin => negb (Bool.eqb (gtb bin (if p then lower else upper)) p)). fold ys.
  destruct (schmitt_run lower upper p ys Hlu) as [R1 R2]. fold conc in R1, R2. set (c := find_if conc ys) in *. set (t := find_if trig ys).
  assert (Ly : lenZ ys = lenZ spectrum - it) by (unfold ys, lenZ in *; rewrite skipn_length; lia).
  pose proof (find_if_range conc ys) as Rc. fold c in Rc. pose proof (find_if_range trig ys) as Rt. fold t in Rt.
  assert (Htc : t <= c). { unfold t, c. apply find_if_weaker. intros x. unfold trig, conc. destruct p; intros H; [destruct (gtb x lower) eqn:G; [discriminate|]; apply gtb_false in G; replace (gtb x upper) with false by (symmetry; apply gtb_false; lra); reflexivity|].
    destruct (gtb x upper) eqn:G; [|discriminate]. apply gtb_true in G. replace (gtb x lower) with true by (symmetry; apply gtb_true; lra). reflexivity. }
  assert (Hy : gtb y (if p then lower else upper) = p). { unfold p. destruct (gtb y thr) eqn:G; [apply gtb_true in G; apply gtb_true; unfold lower; lra|apply gtb_false in G; apply gtb_false; unfold upper; lra]. }
  assert (Hc1 : 1 <= c). { unfold c. rewrite E2. cbn [find_if]. unfold conc at 1. rewrite Hy, Bool.eqb_reflx. cbn [negb]. pose proof (find_if_range conc tl). lia. }
  assert (Ht0 : (if gtb y (if p then upper else lower) then p else negb p) = true -> 1 <= t).
  { intros G. unfold t. rewrite E2. cbn [find_if]. unfold trig at 1. assert (gtb y (if p then upper else lower) = p) as -> by (destruct (gtb y (if p then upper else lower)) eqn:GG, p; cbn in G; congruence). rewrite Bool.eqb_reflx. cbn [negb]. pose proof (find_if_range trig tl). lia. }
  assert (Clean : (forall x, In x ys -> (x <= lower \/ upper < x)%R) -> t = c).
  { intros Cl. unfold t, c. clear - Cl Hlu. induction ys as [|x ys IH]; [reflexivity|]. cbn [find_if]. rewrite IH by (intros z Hz; apply Cl; now right). assert (trig x = conc x) as ->; [|reflexivity].
    unfold trig, conc. destruct (Cl x (or_introl eq_refl)) as [G|G].
    - replace (gtb x (if p then upper else lower)) with false by (symmetry; apply gtb_false; destruct p; lra). replace (gtb x (if p then lower else upper)) with false by (symmetry; apply gtb_false; destruct p; lra). reflexivity.
    - replace (gtb x (if p then upper else lower)) with true by (symmetry; apply gtb_true; destruct p; lra). replace (gtb x (if p then lower else upper)) with true by (symmetry; apply gtb_true; destruct p; lra). reflexivity. }
  destruct (Z.eqb_spec (it + c) (lenZ spectrum)) as [Ec|Ec].
  - exists []. split; [exact E2|]. split; [reflexivity|]. assert (O : out p = repeat p (Z.to_nat c) ++ []). { unfold out. rewrite R1. f_equal. rewrite skipn_all2 by (clear - Ly Ec; unfold lenZ in *; lia). reflexivity. }
    rewrite O, runs_repeat by (try lia; discriminate). rewrite changes_repeat by (try lia; discriminate). cbn [map runs]. repeat split; [constructor].
  - destruct (IH (it + c) ((it + c + (it + t)) / 2)) as (y' & tl' & bands & F1 & F2 & F3 & F4 & F6 & F5); [lia|lia|].
    replace (Z.to_nat (it + c)) with (Z.to_nat it + Z.to_nat c)%nat in * by lia. 
    assert (SK : skipn (Z.to_nat it + Z.to_nat c) spectrum = skipn (Z.to_nat c) ys) by (apply skip_skip). rewrite SK in *.
    destruct (R2 y' tl' F1) as [R3 R4]. assert (P' : gtb y' thr = negb p).
    { destruct p; cbn [negb] in *; [apply gtb_false in R4; apply gtb_false; unfold lower in R4; lra|apply gtb_true in R4; apply gtb_true; unfold upper in R4; lra]. }
    rewrite P' in *. rewrite F2. cbn [bind]. exists ({| first := (it + c + (it + t)) / 2; pass := negb p |} :: bands). split; [exact E2|]. split; [reflexivity|].
    assert (O : out p = repeat p (Z.to_nat c) ++ schmitt lower upper (negb p) (y' :: tl')). { unfold out. rewrite R1, F1, R3. reflexivity. }
    rewrite F1 in F3, F4, F5, F6. 
    assert (Hd : exists r, schmitt lower upper (negb p) (y' :: tl') = negb p :: r). { apply schmitt_head; [|exact Hlu]. destruct p; cbn [negb] in *; [apply gtb_false in R4; apply gtb_false; lra|apply gtb_true in R4; apply gtb_true; lra]. }
    destruct Hd as [r Hd]. rewrite O. rewrite runs_repeat by (try lia; intros a tl0; rewrite Hd; congruence). rewrite changes_repeat by (try lia; intros a tl0; rewrite Hd; congruence).
    rewrite Hd. rewrite Hd in F3, F4, F5, F6. replace (Z.of_nat (Z.to_nat c)) with c by lia. cbn [map pass first]. split; [now rewrite F3|].
    assert (M : it + t <= (it + c + (it + t)) / 2 <= it + c) by (pose proof (Z.div_mod (it + c + (it + t)) 2); lia).
    replace (if gtb y' (if negb p then upper else lower) then negb p else negb (negb p)) with true in F4.
    2:{ destruct p; cbn [negb] in *; [apply gtb_false in R4; replace (gtb y' lower) with false by (symmetry; apply gtb_false; lra)|apply gtb_true in R4; replace (gtb y' upper) with true by (symmetry; apply gtb_true; lra)]; reflexivity. }
    cbn [interleaved]. repeat split.
    + destruct (if gtb y (if p then upper else lower) then p else negb p) eqn:G; [specialize (Ht0 eq_refl)|]; lia.
    + lia.
    + exact F4.
    + constructor; [lia|exact F6].
    + intros Cl. rewrite F5.
      * f_equal. rewrite (Clean Cl) in *. pose proof (Z.div_mod (it + c + (it + c)) 2). lia.
      * intros x Hx. apply Cl. rewrite <- (firstn_skipn (Z.to_nat c) ys), F1. apply in_or_app. now right.
Qed.

(** ** Extremes *)
Record order (cmp : R -> R -> bool) : Prop := { tri : forall a b, cmp a b = false -> cmp b a = false -> a = b; trn : forall a b c, cmp a b = false -> cmp b c = false -> cmp a c = false; asy : forall a b, cmp a b = true -> cmp b a = false }.
Lemma ltb_order : order ltb.
Proof. split; intros *; rewrite ?ltb_false, ?ltb_true; intros; lra. Qed.
Lemma gtb_order : order gtb.
Proof. split; intros *; rewrite ?gtb_false, ?gtb_true; intros; lra. Qed.
Lemma fold_extreme cmp (O : order cmp) w : forall x, let e := fold_left (fun e v => if cmp e v then v else e) w x in cmp e x = false /\ (forall v, In v w -> cmp e v = false) /\ (e = x \/ In e w).
Proof.
  assert (Rf : forall a, cmp a a = false) by (intros a; destruct (cmp a a) eqn:E; [|reflexivity]; pose proof (asy _ O _ _ E); congruence).
  induction w as [|v w IH]; intros x; [repeat split; [apply Rf|intros v []|now left]|]. cbn [fold_left]. destruct (cmp x v) eqn:E.
  - destruct (IH v) as (H1 & H2 & H3). split; [exact (trn _ O _ _ _ H1 (asy _ O _ _ E))|]. split; [intros u [<-|Hu]; [exact H1|now apply H2]|]. destruct H3 as [->|H3]; right; [now left|now right].
  - destruct (IH x) as (H1 & H2 & H3). split; [exact H1|]. split; [intros u [<-|Hu]; [exact (trn _ O _ _ _ H1 E)|now apply H2]|]. destruct H3 as [->|H3]; [now left|right; now right].
Qed.
Lemma sample_cons x l i : 1 <= i -> sample (x :: l) i = sample l (i - 1).
Proof. intros Hi. unfold sample. replace (Z.to_nat i) with (S (Z.to_nat (i - 1))) by lia. reflexivity. Qed.
Lemma peak_cons cmp x l i : 3 <= i -> peak cmp (x :: l) i <-> peak cmp l (i - 1).
Proof.
  intros Hi. unfold peak. rewrite lenZ_cons. split; intros (H1 & H2 & H3); (split; [lia|]; split; [lia|]); intros j Hj.
  - specialize (H3 (j + 1) ltac:(lia)). rewrite !sample_cons in H3 by lia. replace (j + 1 - 1) with j in H3 by lia. exact H3.
  - rewrite !sample_cons by lia. apply H3. lia.
Qed.
Lemma FFE_spec cmp (O : order cmp) l : let r := FindFirstExtremum kernelSize cmp l in
  0 <= r <= lenZ l /\ (r = lenZ l \/ peak cmp l r) /\ (forall i, i < r -> ~ peak cmp l i).
Proof.
  induction l as [|x tl (IH1 & IH2 & IH3)]; [cbn; split; [lia|]; split; [now left|intros i Hi (H & _); lia]|].
  set (r' := FindFirstExtremum kernelSize cmp tl) in *.
  assert (Next : ~ peak cmp (x :: tl) 2 -> let r := 1 + r' in 0 <= r <= lenZ (x :: tl) /\ (r = lenZ (x :: tl) \/ peak cmp (x :: tl) r) /\ (forall i, i < r -> ~ peak cmp (x :: tl) i)).
  { intros N r. subst r. rewrite lenZ_cons. split; [lia|]. split.
    - destruct IH2 as [E|P]; [left; lia|right]. assert (3 <= 1 + r') by (destruct P; lia). apply peak_cons; [lia|]. replace (1 + r' - 1) with r' by lia. exact P.
    - intros i Hi P. destruct (Z_lt_le_dec i 3) as [L|L]; [assert (i = 2) by (destruct P; lia); subst; contradiction|]. apply peak_cons in P; [|lia]. apply (IH3 (i - 1)); [lia|exact P]. }
  destruct tl as [|a [|b [|c [|d tl]]]].
  1,2: apply Next; intros (_ & H & _); unfold lenZ in H; cbn [length] in H; lia.
  { change (FindFirstExtremum kernelSize cmp [x; a; b]) with (if eqbR (fold_left (fun e v => if cmp e v then v else e) [x; a; b] x) b && false then 2 else 1 + r'). rewrite andb_false_r. apply Next; intros (_ & H & _); unfold lenZ in H; cbn [length] in H; lia. }
  { change (FindFirstExtremum kernelSize cmp [x; a; b; c]) with (if eqbR (fold_left (fun e v => if cmp e v then v else e) [x; a; b; c] x) b && false then 2 else 1 + r'). rewrite andb_false_r. apply Next; intros (_ & H & _); unfold lenZ in H; cbn [length] in H; lia. }
  set (l := x :: a :: b :: c :: d :: tl) in *. change (FindFirstExtremum kernelSize cmp l) with
    (if eqbR (fold_left (fun e v => if cmp e v then v else e) [x; a; b; c; d] x) b && true then 2 else 1 + r'). set (e := fold_left _ _ _).
  destruct (fold_extreme cmp O [x; a; b; c; d] x) as (_ & E2 & E3). fold e in E2, E3. assert (E3' : In e [x; a; b; c; d]) by (destruct E3 as [->|]; [now left|assumption]).
  assert (Pk : peak cmp l 2 <-> e = b).
  { split.
    - intros (_ & _ & H). apply (tri _ O); [apply E2; cbn; tauto|]. pose proof (H 0 ltac:(lia)) as H0. pose proof (H 1 ltac:(lia)) as H1'. pose proof (H 2 ltac:(lia)) as H2. pose proof (H 3 ltac:(lia)) as H3. pose proof (H 4 ltac:(lia)) as H4.
      change (sample l 0) with x in H0. change (sample l 1) with a in H1'. change (sample l 2) with b in *. change (sample l 3) with c in H3. change (sample l 4) with d in H4.
      destruct E3' as [<-|[<-|[<-|[<-|[<-|[]]]]]]; assumption.
    - intros ->. split; [lia|]. split; [unfold l; rewrite !lenZ_cons; pose proof (lenZ_nonneg tl); lia|]. intros j Hj. change (sample l 2) with b. apply E2. assert (J : j = 0 \/ j = 1 \/ j = 2 \/ j = 3 \/ j = 4) by lia.
      repeat (destruct J as [J|J]; [subst j; cbn; tauto|]); subst j; cbn; tauto. }
  rewrite andb_true_r. unfold eqbR. destruct (Req_EM_T e b) as [Eb|Eb].
  - apply Pk in Eb. split; [destruct Eb as (_ & H & _); lia|]. split; [now right|]. intros i Hi (H & _). lia.
  - apply Next. rewrite Pk. exact Eb.
Qed.
(** the largest deviation from the target over all peaks (in both directions) *)
Lemma sample_skipn l k i : 0 <= k -> 0 <= i -> sample (skipn (Z.to_nat k) l) i = sample l (k + i).
Proof.
  intros Hk Hi. unfold sample. replace (Z.to_nat (k + i)) with (Z.to_nat k + Z.to_nat i)%nat by lia. generalize (Z.to_nat k) (Z.to_nat i). clear. intros a b. revert l. induction a as [|a IH]; intros l; [reflexivity|]. destruct l as [|x l]; [destruct b; reflexivity|exact (IH l)].
Qed.
Lemma peak_skipn cmp l k i : 0 <= k <= lenZ l -> peak cmp (skipn (Z.to_nat k) l) i <-> peak cmp l (k + i) /\ 2 <= i.
Proof.
  intros Hk. unfold peak. assert (L : lenZ (skipn (Z.to_nat k) l) = lenZ l - k) by (unfold lenZ in *; rewrite skipn_length; lia). rewrite L. split.
  - intros (H1 & H2 & H3). split; [|exact H1]. split; [lia|]. split; [lia|]. intros j Hj. specialize (H3 (j - k) ltac:(lia)). rewrite !sample_skipn in H3 by lia. replace (k + (j - k)) with j in H3 by lia. exact H3.
  - intros ((H1 & H2 & H3) & H4). split; [lia|]. split; [lia|]. intros j Hj. rewrite !sample_skipn by lia. apply H3. lia.
Qed.
Lemma rd_sample (l : list R) i : 0 <= i < lenZ l -> rd l i = Ok (sample l i).
Proof. intros Hi. unfold rd, nthZ, sample. replace (i <? 0) with false by lia. unfold lenZ in Hi. now rewrite (nth_error_nth' l 0%R) by lia. Qed.
Lemma ripple_loop_spec cmp (O : order cmp) target l : forall fuel it m, 0 <= it <= lenZ l -> lenZ l - it <= Z.of_nat fuel -> (forall i, peak cmp l i -> i <= it + 1 -> (Rabs (target - sample l i) <= m)%R) ->
  exists m', ripple_loop fuel cmp target l it m = Ok m' /\ (m <= m')%R /\ (forall i, peak cmp l i -> (Rabs (target - sample l i) <= m')%R) /\ (m' = m \/ exists i, peak cmp l i /\ m' = Rabs (target - sample l i)).
Proof.
  induction fuel as [|fuel IH]; intros it m Hit Hf Hm.
  - cbn [ripple_loop]. replace (it =? lenZ l) with true by lia. exists m. split; [reflexivity|]. split; [lra|]. split; [|now left]. intros i P. apply Hm; [exact P|]. destruct P; lia.
  - cbn [ripple_loop]. destruct (Z.eqb_spec it (lenZ l)) as [E|E]; [exists m; split; [reflexivity|]; split; [lra|]; split; [|now left]; intros i P; apply Hm; [exact P|destruct P; lia]|].
    destruct (FFE_spec cmp O (skipn (Z.to_nat it) l)) as (F1 & F2 & F3). set (r := FindFirstExtremum _ _ _) in *. assert (L : lenZ (skipn (Z.to_nat it) l) = lenZ l - it) by (unfold lenZ in *; rewrite skipn_length; lia). rewrite L in *.
    assert (None_before : forall i, peak cmp l i -> it + 1 < i < it + r -> False) by (intros i P Hi; apply (F3 (i - it)); [lia|]; apply peak_skipn; [lia|]; replace (it + (i - it)) with i by lia; split; [exact P|lia]).
    destruct (Z.eqb_spec (it + r) (lenZ l)) as [E'|E'].
    + exists m. split; [reflexivity|]. split; [lra|]. split; [|now left]. intros i P. destruct (Z_le_gt_dec i (it + 1)); [now apply Hm|]. exfalso. apply (None_before i P). destruct P; lia.
    + destruct F2 as [F2|F2]; [lia|]. apply peak_skipn in F2; [|lia]. destruct F2 as [P Hr]. rewrite rd_sample by lia. cbn [bind].
      destruct (IH (it + r) (Rmax m (Rabs (target - sample l (it + r))))) as (m' & R1 & R2 & R3 & R4); [lia|lia| |].
      { intros i Pi Hi. destruct (Z_le_gt_dec i (it + 1)); [eapply Rle_trans; [now apply Hm|apply Rmax_l]|]. destruct (Z_lt_le_dec i (it + r)); [exfalso; apply (None_before i Pi); lia|].
        assert (V : sample l i = sample l (it + r)). { destruct P as (_ & _ & P3). destruct Pi as (_ & _ & Pi3). apply (tri _ O); [apply Pi3; lia|apply P3; lia]. } rewrite V. apply Rmax_r. }
      exists m'. split; [exact R1|]. pose proof (Rmax_l m (Rabs (target - sample l (it + r)))). split; [lra|]. split; [exact R3|]. destruct R4 as [R4|R4]; [|now right]. unfold Rmax in R4. destruct (Rle_dec _ _); [right; exists (it + r); now split|now left].
Qed.
Lemma ripple_spec l passBand : exists o, MeasureBandRipple l passBand = Ok o /\ peaks_deviation (if passBand then 1 else 0)%R l (value_or o 0).
Proof.
  unfold MeasureBandRipple. set (target := (if passBand then 1 else 0)%R).
  destruct (ripple_loop_spec ltb ltb_order target l (length l) 0 (-1)%R) as (m & A1 & A2 & A3 & A4); [pose proof (lenZ_nonneg l); lia|unfold lenZ; lia|intros i (H & _) Hi; lia|]. rewrite A1. cbn [bind].
  destruct (ripple_loop_spec gtb gtb_order target l (length l) 0 m) as (m' & B1 & B2 & B3 & B4); [pose proof (lenZ_nonneg l); lia|unfold lenZ; lia|intros i (H & _) Hi; lia|]. rewrite B1. cbn [bind]. eexists. split; [reflexivity|].
  unfold peaks_deviation. destruct (gtb m' 0) eqn:G; cbn [value_or].
  - apply gtb_true in G. split; [lra|]. split; [intros i [P|P]; [specialize (A3 i P); lra|exact (B3 i P)]|]. right. destruct B4 as [->|(i & P & E)]; [|exists i; split; [now right|exact E]]. destruct A4 as [->|(i & P & E)]; [lra|]. exists i. split; [now left|exact E].
  - apply gtb_false in G. split; [lra|]. split; [intros i [P|P]; [specialize (A3 i P)|specialize (B3 i P)]; lra|now left].
Qed.

(** ** Edges *)
Definition scan (cmp : R -> R -> bool) := fun (s : Z * R * Z) v => let '(best, bv, i) := s in if cmp bv v then (i, v, i + 1) else (best, bv, i + 1).
Lemma scan_range cmp l : forall best bv i, 0 <= best < i -> best <= fst (fst (fold_left (scan cmp) l (best, bv, i))) < i + lenZ l.
Proof.
  induction l as [|v l IH]; intros best bv i Hb; [cbn [fold_left fst]; change (lenZ (@nil R)) with 0; lia|]. cbn [fold_left scan]. rewrite lenZ_cons. destruct (cmp bv v).
  - specialize (IH i v (i + 1) ltac:(lia)). lia.
  - specialize (IH best bv (i + 1) ltac:(lia)). lia.
Qed.
Lemma scan_later cmp l v : forall best bv i, 0 <= best < i -> In v l -> cmp bv v = true -> i <= fst (fst (fold_left (scan cmp) l (best, bv, i))).
Proof.
  induction l as [|u l IH]; intros best bv i Hb Hv Hc; [destruct Hv|]. cbn [fold_left scan]. destruct (cmp bv u) eqn:E.
  - pose proof (scan_range cmp l i u (i + 1) ltac:(lia)). lia.
  - destruct Hv as [->|Hv]; [congruence|]. specialize (IH best bv (i + 1) ltac:(lia) Hv Hc). lia.
Qed.
Lemma max_element_range cmp l : 0 <= max_element cmp l <= lenZ l /\ (l <> [] -> max_element cmp l < lenZ l) /\ ((exists v, In v l /\ cmp (sample l 0) v = true) -> order cmp -> 1 <= max_element cmp l).
Proof.
  destruct l as [|x l]; [split; [cbn; lia|split; [contradiction|intros (v & [] & _)]]|]. change (max_element cmp (x :: l)) with (fst (fst (fold_left (scan cmp) l (0, x, 1)))). pose proof (scan_range cmp l 0 x 1 ltac:(lia)). rewrite lenZ_cons. split; [lia|]. split; [lia|].
  intros (v & [->|Hv] & Hc) O; change (sample (_ :: l) 0) with v in Hc || change (sample (x :: l) 0) with x in Hc; [pose proof (asy _ O _ _ Hc); congruence|]. now apply (scan_later cmp l v).
Qed.
Section Fit.
Variables (erf : R -> R) (tmax : R) (limit : nat).
Lemma fit_between bandv (pass left : bool) thr : exists k : Z, (k = if left then max_element (if pass then ltb else gtb) bandv else lenZ bandv - max_element (if pass then ltb else gtb) bandv) /\ 0 <= k <= lenZ bandv /\
  (0 <= FitBand erf tmax limit bandv pass left thr)%R /\ (FitBand erf tmax limit bandv pass left thr <= Rmax (1 / 2) (66 / 100 * IZR k))%R.
Proof.
  exists (if left then max_element (if pass then ltb else gtb) bandv else lenZ bandv - max_element (if pass then ltb else gtb) bandv). set (k := if left then _ else _). split; [reflexivity|].
  assert (Hk : 0 <= k <= lenZ bandv) by (unfold k; destruct (max_element_range (if pass then ltb else gtb) bandv) as (H & _); destruct left; lia). split; [exact Hk|].
  unfold FitBand. rewrite negb_involutive. replace (if left then IZR _ else _) with (IZR k) by (unfold k; now destruct left, pass). set (f := fun p : R => _).
  assert (Hk' : (0 <= IZR k)%R) by (apply IZR_le; lia).
  assert (B : between (1 / 2) (66 / 100 * IZR k) (Bisect tmax limit f (1 / 2) (66 / 100 * IZR k) 0)).
  { destruct (Req_EM_T (1 / 2) (66 / 100 * IZR k)) as [E|E].
    - exfalso. assert (E' : (IZR 50 = IZR 66 * IZR k)%R) by lra. rewrite <- mult_IZR in E'. apply eq_IZR in E'. lia.
    - pose proof (C45_inside tmax limit f _ _ 0 E) as H. unfold between, strictly_between in *. lra. }
  destruct B as [B1 B2]. split; [|exact B2]. eapply Rle_trans; [|exact B1]. apply Rmin_glb; lra.
Qed.
Lemma fit_edges bandv findLeft findRight passBand thr : let '(l, r) := FindBandEdgesFit erf tmax limit bandv findLeft findRight passBand thr in
  (findLeft = true <-> l <> None) /\ (findRight = true <-> r <> None) /\ (forall x, l = Some x -> (0 <= x <= IZR (lenZ bandv))%R) /\ (forall x, r = Some x -> (0 <= x <= IZR (lenZ bandv))%R).
Proof.
  unfold FindBandEdgesFit. pose proof (IZR_le _ _ (lenZ_nonneg bandv)) as Hn. split; [destruct findLeft; split; congruence|]. split; [destruct findRight; split; congruence|].
  destruct (fit_between bandv passBand true thr) as (k & _ & _ & F & _). destruct (fit_between bandv passBand false thr) as (k' & _ & _ & F' & _).
  split; [destruct findLeft; [|discriminate]|destruct findRight; [|discriminate]]; intros x [= <-]; split; [apply Rmin_glb; lra|apply Rmin_l|apply Rmax_l|apply Rmax_lub; lra].
Qed.
Lemma ripple_edges bandv findLeft findRight passBand : let '(l, r) := FindBandEdgesRipple bandv findLeft findRight passBand in
  (findLeft = false -> l = None) /\ (findRight = false -> r = None) /\ (forall x, l = Some x -> (0 <= x <= IZR (lenZ bandv))%R) /\ (forall x, r = Some x -> (0 <= x <= IZR (lenZ bandv))%R).
Proof.
  unfold FindBandEdgesRipple. set (cmp := if passBand then ltb else gtb). assert (O : order cmp) by (unfold cmp; destruct passBand; [apply ltb_order|apply gtb_order]).
  destruct (FFE_spec cmp O bandv) as (F1 & _). destruct (FFE_spec cmp O (rev bandv)) as (F2 & _). replace (lenZ (rev bandv)) with (lenZ bandv) in F2 by (unfold lenZ; now rewrite rev_length).
  split; [now intros ->|]. split; [now intros ->|]. split; [destruct findLeft; [|discriminate]|destruct findRight; [|discriminate]]; cbv zeta; match goal with |- context [?a =? ?b] => destruct (Z.eqb_spec a b) end; try discriminate; intros x [= <-]; split; apply IZR_le; lia.
Qed.
Lemma min_optional l r : (forall P : R -> Prop, (forall x, l = Some x -> P x) -> (forall x, r = Some x -> P x) -> forall x, MinOptional l r = Some x -> P x) /\ (l = None -> MinOptional l r = r) /\ (r = None -> MinOptional l r = l) /\ (forall x, l = Some x -> exists y, MinOptional l r = Some y /\ (y <= x)%R).
Proof.
  unfold MinOptional, MaxOptional_cmp. destruct l as [a|], r as [b|]; (split; [intros P H1 H2 x H; try destruct (ltb a b); auto|]); (split; [congruence|]); (split; [congruence|]); intros x E; inversion E; subst.
  - destruct (ltb x b) eqn:L; [exists x; split; [reflexivity|lra]|exists b; split; [reflexivity|now apply ltb_false in L]].
  - exists x. split; [reflexivity|lra].
Qed.
Lemma max_optional l r : (forall P : R -> Prop, (forall x, l = Some x -> P x) -> (forall x, r = Some x -> P x) -> forall x, MaxOptional l r = Some x -> P x) /\ (l = None -> MaxOptional l r = r) /\ (r = None -> MaxOptional l r = l) /\ (forall x, l = Some x -> exists y, MaxOptional l r = Some y /\ (x <= y)%R).
Proof.
  unfold MaxOptional, MaxOptional_cmp. destruct l as [a|], r as [b|]; (split; [intros P H1 H2 x H; try destruct (Rle_dec b a); auto|]); (split; [congruence|]); (split; [congruence|]); intros x E; inversion E; subst.
  - destruct (Rle_dec b x) eqn:L; [exists x; split; [reflexivity|lra]|exists b; split; [reflexivity|lra]].
  - exists x. split; [reflexivity|lra].
Qed.
(** what is reported for the band [f, l) of a spectrum with n samples: edges within the band, in order unless its first
    sample is the extreme one; the deviation of the peaks *)
Definition band_report (spectrum : list R) (f l : Z) (passBand findLeft findRight : bool) (p : band_parameters) : Prop :=
  let n := IZR (lenZ spectrum) in
  (IZR f / n <= lowerEdge p <= IZR l / n)%R /\ (IZR f / n <= upperEdge p <= IZR l / n)%R /\
  (findLeft = false -> lowerEdge p = (IZR f / n)%R) /\ (findRight = false -> upperEdge p = (IZR l / n)%R) /\
  ((exists v, In v (samples spectrum f l) /\ (if passBand then sample (samples spectrum f l) 0 < v else v < sample (samples spectrum f l) 0)%R) -> (lowerEdge p <= upperEdge p)%R) /\
  peaks_deviation (if passBand then 1 else 0)%R (samples spectrum f l) (ripple p).
Lemma parametrize_spec spectrum thr (b : band) l findLeft findRight : 0 < lenZ spectrum -> 0 <= first b <= l -> l <= lenZ spectrum ->
  exists p, parametrize erf tmax limit spectrum thr b l findLeft findRight = Ok p /\ band_report spectrum (first b) l (pass b) findLeft findRight p.
Proof.
  intros Hn Hf Hl. unfold parametrize, view, assert_. replace (_ && _ && _) with true by lia. cbn [bind]. fold (samples spectrum (first b) l). set (v := samples spectrum (first b) l).
  assert (Lv : lenZ v = l - first b) by (unfold v, samples, lenZ in *; rewrite firstn_length, skipn_length; lia).
  pose proof (fit_edges v findLeft findRight (pass b) thr) as FE. pose proof (ripple_edges v findLeft findRight (pass b)) as RE. unfold FindBandEdgesFit in *.
  destruct (FindBandEdgesRipple v findLeft findRight (pass b)) as [rl rr]. set (fl := if findLeft then _ else None) in *. set (fr := if findRight then _ else None) in *.
  destruct FE as (FE1 & FE2 & FE3 & FE4). destruct RE as (RE1 & RE2 & RE3 & RE4). destruct (ripple_spec v (pass b)) as (o & Eo & Ho). rewrite Eo. cbn [bind]. eexists. split; [reflexivity|].
  destruct (min_optional fl rl) as (M1 & M2 & M3 & M4). destruct (max_optional fr rr) as (X1 & X2 & X3 & X4). set (el := MinOptional fl rl) in *. set (er := MaxOptional fr rr) in *.
  rewrite Lv in *. assert (Hd : (0 <= IZR (l - first b))%R) by (apply IZR_le; lia). assert (Ed : IZR l = (IZR (first b) + IZR (l - first b))%R) by (rewrite <- plus_IZR; f_equal; lia).
  assert (N : (0 < / IZR (lenZ spectrum))%R) by (apply Rinv_0_lt_compat, IZR_lt; exact Hn).
  assert (Hel : (0 <= value_or el 0 <= IZR (l - first b))%R) by (destruct el as [x|]; cbn [value_or]; [exact (M1 (fun x => (0 <= x <= IZR (l - first b))%R) FE3 RE3 x eq_refl)|lra]).
  assert (Her : (0 <= value_or er (IZR (l - first b)) <= IZR (l - first b))%R) by (destruct er as [x|]; cbn [value_or]; [exact (X1 (fun x => (0 <= x <= IZR (l - first b))%R) FE4 RE4 x eq_refl)|lra]).
  unfold band_report, Rdiv. cbn [lowerEdge upperEdge ripple]. fold v. rewrite Ed.
  split; [split; apply Rmult_le_compat_r; lra|]. split; [split; apply Rmult_le_compat_r; lra|].
  split; [intros E; rewrite M2 by (unfold fl; now rewrite E); rewrite RE1 by exact E; cbn [value_or]; f_equal; lra|].
  split; [intros E; rewrite X2 by (unfold fr; now rewrite E); rewrite RE2 by exact E; cbn [value_or]; reflexivity|].
  split; [|exact Ho]. intros (w & Hw & Cw). apply Rmult_le_compat_r; [lra|]. apply Rplus_le_compat_l.
  set (cmp := if pass b then ltb else gtb). assert (O : order cmp) by (unfold cmp; destruct (pass b); [apply ltb_order|apply gtb_order]).
  destruct (max_element_range cmp v) as (ME1 & ME2 & ME3). assert (ME4 : 1 <= max_element cmp v) by (apply ME3; [|exact O]; exists w; split; [exact Hw|]; unfold cmp; destruct (pass b); [now apply ltb_true|now apply gtb_true]).
  assert (Hv : v <> []) by (intros E; rewrite E in Hw; destruct Hw). specialize (ME2 Hv). rewrite Lv in *.
  assert (BL : (value_or el 0 <= IZR (max_element cmp v))%R).
  { destruct findLeft; [|rewrite M2 by reflexivity; rewrite RE1 by reflexivity; cbn [value_or]; apply IZR_le; lia].
    destruct (M4 _ eq_refl) as (y & Ey & Hy). rewrite Ey. cbn [value_or]. eapply Rle_trans; [exact Hy|]. eapply Rle_trans; [apply Rmin_r|]. destruct (fit_between v (pass b) true thr) as (k & Ek & _ & _ & Bk). fold cmp in Ek. subst k.
    assert (1 <= IZR (max_element cmp v))%R by (apply IZR_le; lia). rewrite Rmax_right in Bk by lra. lra. }
  assert (BR : (IZR (max_element cmp v) <= value_or er (IZR (l - first b)))%R).
  { destruct findRight; [|rewrite X2 by reflexivity; rewrite RE2 by reflexivity; cbn [value_or]; apply IZR_le; lia].
    destruct (X4 _ eq_refl) as (y & Ey & Hy). rewrite Ey. cbn [value_or]. eapply Rle_trans; [|exact Hy]. eapply Rle_trans; [|apply Rmax_r]. destruct (fit_between v (pass b) false thr) as (k & Ek & _ & _ & Bk). fold cmp in Ek. rewrite Lv in Ek. subst k.
    assert (1 <= IZR (l - first b - max_element cmp v))%R by (apply IZR_le; lia). rewrite Rmax_right in Bk by lra. rewrite ?Lv. rewrite (minus_IZR (l - first b)) in *. lra. }
  lra.
Qed.
(** the ends of consecutive bands *)
Fixpoint reports (spectrum : list R) (first_band : bool) (bands : list band) (ps : list band_parameters) : Prop :=
  match bands, ps with
  | [], [] => True
  | b :: next, p :: ps =>
    let last := match next with n :: _ => first n | [] => lenZ spectrum end in
    first b <= last /\ band_report spectrum (first b) last (pass b) (negb first_band) (match next with [] => false | _ => true end) p /\ reports spectrum false next ps
  | _, _ => False
  end.
Fixpoint nondecreasing (hi : Z) (l : list band) : Prop :=
  match l with [] => True | b :: tl => 0 <= first b <= (match tl with n :: _ => first n | [] => hi end) /\ first b <= hi /\ nondecreasing hi tl end.
Lemma parametrize_all spectrum thr bands : 0 < lenZ spectrum -> forall fb, nondecreasing (lenZ spectrum) bands -> exists ps, parametrize_loop erf tmax limit spectrum thr bands fb = Ok ps /\ reports spectrum fb bands ps.
Proof.
  intros Hn. induction bands as [|b next IH]; intros fb Hs; [exists []; now split|]. destruct Hs as (H1 & H2 & H3). cbn [parametrize_loop].
  destruct (parametrize_spec spectrum thr b (match next with n :: _ => first n | [] => lenZ spectrum end) (negb fb) (match next with [] => false | _ => true end) Hn) as (p & Ep & Rp); [lia|destruct next as [|n next]; [lia|destruct H3; lia]|].
  rewrite Ep. cbn [bind]. destruct (IH false H3) as (ps & Eps & Rps). rewrite Eps. cbn [bind]. exists (p :: ps). split; [reflexivity|]. cbn [reports]. split; [lia|]. split; [exact Rp|exact Rps].
Qed.
End Fit.
Lemma interleaved_sorted hi : forall bands strict prev f, interleaved strict prev (map first bands) f -> 0 <= prev -> Forall (fun y : Z => 0 <= y < hi) f -> nondecreasing hi bands /\ (forall b, In b bands -> prev <= first b < hi).
Proof.
  induction bands as [|b bands IH]; intros strict prev f Hi Hp Hf; [split; [exact I|intros b []]|]. destruct f as [|y f]; [destruct Hi|]. cbn [map interleaved] in Hi. destruct Hi as (H1 & H2 & H3). inversion Hf as [|? ? Hy Hf']; subst.
  assert (H1' : prev <= first b) by (destruct strict; lia). destruct (IH true y f H3 ltac:(lia) Hf') as [N B]. split.
  - cbn [nondecreasing]. split; [|split; [lia|exact N]]. destruct bands as [|b' bands]; [lia|]. specialize (B b' (or_introl eq_refl)). lia.
  - intros c [<-|Hc]; [lia|]. specialize (B c Hc). lia.
Qed.
