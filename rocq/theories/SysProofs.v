(** Proofs about SysModel. *)
From Coq Require Import Reals Lra Permutation Sorted.
From Verif Require Import Base BaseFacts Complex KernelProofs ConvProofs IirModel IirProofs PolyModel PolyProofs SysModel.
From Coq Require Import ZifyBool ZifyNat.
Ltac Zify.zify_post_hook ::= Z.div_mod_to_equations.
Open Scope Z_scope.

Notation lenZ0 T := (lenZ (@nil T)).
Definition pp (ab : R * R) : spoly := pair_poly (fst ab) (snd ab).
Definition single (r : R) : spoly := (1, (0%R, (- r)%R, 1%R)).
Definition flatp (ab : list (R * R)) : list R := flat_map (fun p => [fst p; snd p]) ab.
Lemma flatp_app a b : flatp (a ++ b) = flatp a ++ flatp b.
Proof. unfold flatp. apply flat_map_app. Qed.
Lemma flatp_len ab : length (flatp ab) = (2 * length ab)%nat.
Proof. unfold flatp. induction ab; cbn [flat_map app length]; lia. Qed.

Lemma pair_loop_spec : forall fuel mid pre suf polys, (length mid <= 2 * fuel + 1)%nat ->
  exists pre' mid' suf' ab, pair_loop fuel (pre ++ mid ++ suf) (lenZ pre) (lenZ pre + lenZ mid) polys = Ok (lenZ pre', lenZ pre' + lenZ mid', polys ++ map pp ab) /\
    pre ++ mid ++ suf = pre' ++ mid' ++ suf' /\ (length mid' <= 1)%nat /\ Permutation (flatp ab ++ mid') mid.
Proof.
  induction fuel as [|fuel IH]; intros mid pre suf polys H; cbn [pair_loop].
  - exists pre, mid, suf, []. replace (lenZ pre + lenZ mid - lenZ pre <=? 1) with true by (unfold lenZ; lia).
    cbn [map flatp flat_map app]. rewrite app_nil_r. repeat split; auto; lia.
  - destruct (Z.leb_spec (lenZ pre + lenZ mid - lenZ pre) 1) as [Hs|Hs].
    { exists pre, mid, suf, []. cbn [map flatp flat_map app]. rewrite app_nil_r. repeat split; auto. unfold lenZ in Hs. lia. }
    destruct mid as [|a mid]; [change (lenZ0 R) with 0 in Hs; lia|].
    destruct (exists_last (l := mid)) as (m & b & ->).
    { intros ->. rewrite lenZ_cons in Hs. change (lenZ0 R) with 0 in Hs. lia. }
    assert (E1 : pre ++ (a :: m ++ [b]) ++ suf = pre ++ a :: (m ++ b :: suf)) by (cbn [app]; now rewrite <- app_assoc).
    assert (E2 : pre ++ (a :: m ++ [b]) ++ suf = (pre ++ a :: m) ++ b :: suf) by (cbn [app]; rewrite <- !app_assoc; reflexivity).
    assert (E3 : pre ++ (a :: m ++ [b]) ++ suf = (pre ++ [a]) ++ m ++ (b :: suf)) by (cbn [app]; rewrite <- !app_assoc; reflexivity).
    assert (L : lenZ (a :: m ++ [b]) = lenZ m + 2) by (rewrite lenZ_cons, lenZ_app, lenZ_cons; change (lenZ0 R) with 0; lia).
    assert (R1 : rd (pre ++ (a :: m ++ [b]) ++ suf) (lenZ pre) = Ok a) by (rewrite E1; apply rd_midA).
    assert (LL : lenZ pre + lenZ (a :: m ++ [b]) - 1 = lenZ (pre ++ a :: m)) by (rewrite lenZ_app, L, lenZ_cons; lia).
    assert (R2 : rd (pre ++ (a :: m ++ [b]) ++ suf) (lenZ (pre ++ a :: m)) = Ok b) by (rewrite E2; apply rd_midA).
    rewrite R1. cbn [bind]. rewrite LL, R2. cbn [bind]. rewrite E3.
    assert (Lp : lenZ (pre ++ [a]) = lenZ pre + 1) by (rewrite lenZ_app, lenZ_cons; change (lenZ0 R) with 0; lia).
    replace (lenZ pre + 1) with (lenZ (pre ++ [a])) by lia.
    replace (lenZ (pre ++ a :: m)) with (lenZ (pre ++ [a]) + lenZ m) by (rewrite Lp, lenZ_app, lenZ_cons; lia).
    destruct (IH m (pre ++ [a]) (b :: suf) (polys ++ [pair_poly a b])) as (pre' & mid' & suf' & ab & G1 & G2 & G3 & G4).
    { cbn [length] in H. rewrite app_length in H. cbn [length] in H. lia. }
    exists pre', mid', suf', ((a, b) :: ab). rewrite G1. split; [|split; [exact G2|split; [exact G3|]]].
    + rewrite <- app_assoc. reflexivity.
    + cbn [flatp flat_map fst snd app]. change (flat_map (fun p => [fst p; snd p]) ab) with (flatp ab).
      constructor. rewrite Permutation_app_comm. cbn [app]. rewrite <- Permutation_cons_append. constructor. exact G4 || (rewrite Permutation_app_comm; exact G4).
Qed.
Lemma leading_range l : 0 <= leading_negative l <= lenZ l.
Proof. induction l as [|r l IH]; cbn [leading_negative]; [reflexivity || (cbn; lia)|]. rewrite lenZ_cons. destruct (Rltb r 0); lia. Qed.

Lemma real_polys_spec sortR roots : okP (RealRootPolynomials sortR roots) (fun qs => exists ab tl,
  qs = map pp ab ++ map single tl /\ (length tl <= 1)%nat /\ Permutation (flatp ab ++ tl) (sortR roots)).
Proof.
  unfold RealRootPolynomials. set (asc := sortR roots). pose proof (leading_range asc) as Hp. set (k := leading_negative asc) in *.
  set (n := firstn (Z.to_nat k) asc). set (p := skipn (Z.to_nat k) asc).
  assert (E : asc = n ++ p) by (symmetry; apply firstn_skipn).
  assert (Ln : lenZ n = k) by (unfold n; rewrite lenZ_firstn; lia).
  assert (La : lenZ asc = lenZ n + lenZ p) by (rewrite E at 1; apply lenZ_app).
  destruct (pair_loop_spec (length asc) n [] p []) as (pre1 & m1 & suf1 & ab1 & G1 & G2 & G3 & G4); [unfold lenZ in *; lia|].
  cbn [app] in G1, G2. rewrite <- E in G1, G2. change (lenZ0 R) with 0 in G1. rewrite Z.add_0_l, Ln in G1. rewrite G1. cbn [bind].
  destruct (pair_loop_spec (length asc) p n [] (map pp ab1)) as (pre2 & m2 & suf2 & ab2 & H1 & H2 & H3 & H4); [unfold lenZ in *; lia|].
  rewrite app_nil_r in H1, H2. rewrite <- E in H1, H2. rewrite <- La, Ln in H1. rewrite H1. cbn [bind].
  assert (P : Permutation ((flatp ab1 ++ m1) ++ (flatp ab2 ++ m2)) asc) by (rewrite E; now apply Permutation_app).
  assert (P' : Permutation (flatp (ab1 ++ ab2) ++ (m1 ++ m2)) asc).
  { rewrite <- P, flatp_app, <- !app_assoc. apply Permutation_app_head. rewrite !app_assoc. apply Permutation_app_tail. apply Permutation_app_comm. }
  assert (Rd : forall (l pre suf : list R) r, l = pre ++ [r] ++ suf -> rd l (lenZ pre) = Ok r) by (intros l pre suf r ->; apply rd_midA).
  destruct m1 as [|r1 [|? ?]]; [| |cbn in G3; lia]; (destruct m2 as [|r2 [|? ?]]; [| |cbn in H3; lia]); cbn [app] in P';
    rewrite ?lenZ_cons; change (lenZ0 R) with 0; rewrite ?Z.add_0_l, ?Z.add_0_r; rewrite ?Z.ltb_irrefl; cbn [andb];
    repeat match goal with |- context [?a <? ?a + 1] => replace (a <? a + 1) with true by lia end; cbn [andb].
  - apply okP_ret. exists (ab1 ++ ab2), []. cbn [map]. rewrite map_app, app_nil_r. repeat split; [|exact P']. cbn; lia.
  - rewrite (Rd _ _ _ _ H2). cbn [bind]. apply okP_ret. exists (ab1 ++ ab2), [r2]. rewrite map_app. repeat split; [|exact P']. cbn; lia.
  - rewrite (Rd _ _ _ _ G2). cbn [bind]. apply okP_ret. exists (ab1 ++ ab2), [r1]. rewrite map_app. repeat split; [|exact P']. cbn; lia.
  - rewrite (Rd _ _ _ _ H2). cbn [bind]. rewrite (Rd _ _ _ _ G2). cbn [bind]. apply okP_ret.
    exists (ab1 ++ ab2 ++ [(r2, r1)]), []. cbn [map]. rewrite !map_app, app_nil_r. split; [now rewrite <- app_assoc|]. split; [cbn; lia|].
    rewrite app_nil_r. rewrite <- P', !flatp_app, <- !app_assoc. do 2 apply Permutation_app_head. cbn. constructor.
Qed.

(** *** values of the small polynomials and sections *)
Definition dflt : spoly := (0, (0, 0, 1)%R).
Definition getp (l : list spoly) (i : Z) : spoly := match nthZ l i with Some q => q | None => dflt end.
Definition sec (z p : spoly) : biquad Rfield := mkBq (K := Rfield) (snd z) (fst (fst (snd p)), snd (fst (snd p))) (fst z) (fst p).
Lemma updZ_tab {A} n (F : Z -> A) j v : 0 <= j < n -> updZ (tab n F) j v = tab n (fun i => if i =? j then v else F i).
Proof.
  intros H. apply list_eq_tab.
  - rewrite lenZ_updZ by (rewrite lenZ_tab; lia). apply lenZ_tab.
  - intros i Hi. rewrite nthZ_updZ by (rewrite lenZ_tab; lia). destruct (i =? j); [reflexivity|]. apply nthZ_tab. lia.
Qed.
Lemma rd_tab {A} n (F : Z -> A) i : 0 <= i < n -> rd (tab n F) i = Ok (F i).
Proof. intros H. unfold rd. now rewrite nthZ_tab. Qed.
Lemma rd_getp l i : 0 <= i < lenZ l -> rd l i = Ok (getp l i).
Proof. intros H. destruct (nthZ_in l i H) as [q E]. unfold rd, getp. now rewrite E. Qed.
Lemma getp_out l i : lenZ l <= i -> getp l i = dflt.
Proof. intros H. unfold getp. destruct (nthZ l i) eqn:E; [|reflexivity]. apply nthZ_some in E. lia. Qed.

Lemma getp_pad (l : list spoly) n : lenZ l <= n -> l ++ repeat dflt (Z.to_nat (n - lenZ l)) = tab n (getp l).
Proof.
  intros H. pose proof (lenZ_nonneg l). apply list_eq_tab; [rewrite lenZ_app, lenZ_repeat; lia|]. intros i Hi. destruct (Z_lt_ge_dec i (lenZ l)).
  - rewrite nthZ_app1 by lia. unfold getp. destruct (nthZ_in l i ltac:(lia)) as [q ->]. reflexivity.
  - rewrite nthZ_app2 by lia. rewrite getp_out by lia. apply nthZ_repeat. lia.
Qed.

Fixpoint osum (l : list spoly) : Z := match l with [] => 0 | q :: l => fst q + osum l end.
Lemma osum_app l m : osum (l ++ m) = osum l + osum m.
Proof. induction l as [|q l IH]; cbn [app osum]; lia. Qed.
Lemma sum_dflt k : osum (repeat dflt k) = 0.
Proof. induction k as [|k IH]; [reflexivity|]. cbn [repeat osum]. rewrite IH. reflexivity. Qed.
Definition gained (g : R) (b : biquad Rfield) : biquad Rfield :=
  let '(n0, n1, n2) := bnum b in mkBq (K := Rfield) (n0 * g, n1 * g, n2 * g)%R (bden b) (numOrder b) (denOrder b).

Lemma cascade_struct sortR sortP s : exists abz tlz abp tlp,
  (length tlz <= 1)%nat /\ (length tlp <= 1)%nat /\
  Permutation (flatp abz ++ tlz) (sortR (real_roots (zeros s))) /\ Permutation (flatp abp ++ tlp) (sortR (real_roots (poles s))) /\
  let zp := sortP ((map pp abz ++ map single tlz) ++ ComplexPairPolynomials (complex_pairs (zeros s))) in
  let pq := sortP ((map pp abp ++ map single tlp) ++ ComplexPairPolynomials (complex_pairs (poles s))) in
  let n := Z.max (lenZ zp) (lenZ pq) in
  let F i := sec (getp zp i) (getp pq i) in
  cascade_of_zpk sortR sortP s = Ok (if n =? 0 then [] else tab (n - 1) F ++ [gained (gain s) (F (n - 1))]).
Proof.
  destruct (real_polys_spec sortR (real_roots (zeros s))) as (qz & Ez & abz & tlz & Hz & Lz & Pz).
  destruct (real_polys_spec sortR (real_roots (poles s))) as (qp & Ep & abp & tlp & Hp & Lp & Pp).
  exists abz, tlz, abp, tlp. do 4 (split; [assumption|]). cbn zeta. unfold cascade_of_zpk. rewrite Ez, Ep. cbn [bind]. subst qz qp.
  set (zp := sortP (_ ++ ComplexPairPolynomials (complex_pairs (zeros s)))). set (pq := sortP _).
  set (n := Z.max (lenZ zp) (lenZ pq)). pose proof (lenZ_nonneg zp). pose proof (lenZ_nonneg pq).
  set (F := fun i => sec (getp zp i) (getp pq i)).
  apply okP_eq.
  eapply (okP_bind _ _ (fun ss => ss = tab n (fun i => sec (getp zp i) dflt))).
  { eapply okP_imp.
    - apply (for1_inv' (fun j ss => ss = tab n (fun i => sec (if i <? j then getp zp i else dflt) dflt))).
      + apply list_eq_tab; [rewrite lenZ_repeat; lia|]. intros i Hi. replace (i <? 0) with false by lia. now rewrite nthZ_repeat by lia.
      + intros j ss Hj ->. rewrite rd_getp by lia. cbn [bind]. rewrite rd_tab by lia. cbn [bind].
        rewrite wr_ok by (rewrite lenZ_tab; lia). apply okP_ret. rewrite updZ_tab by lia. apply tab_ext. intros i Hi.
        destruct (Z.eqb_spec i j) as [->|].
        * replace (j <? j + 1) with true by lia. reflexivity.
        * replace (i <? j + 1) with (i <? j) by lia. reflexivity.
    - cbn beta. intros ss ->. apply tab_ext. intros i Hi. destruct (Z.ltb_spec i (Z.max 0 (lenZ zp))); [reflexivity|]. now rewrite getp_out by lia. }
  cbn beta. intros ss ->.
  eapply (okP_bind _ _ (fun ss => ss = tab n F)).
  { eapply okP_imp.
    - apply (for1_inv' (fun j ss => ss = tab n (fun i => sec (getp zp i) (if i <? j then getp pq i else dflt)))).
      + apply tab_ext. intros i Hi. now replace (i <? 0) with false by lia.
      + intros j ss Hj ->. rewrite rd_getp by lia. cbn [bind]. rewrite rd_tab by lia. cbn [bind].
        rewrite wr_ok by (rewrite lenZ_tab; lia). apply okP_ret. rewrite updZ_tab by lia. apply tab_ext. intros i Hi.
        destruct (Z.eqb_spec i j) as [->|].
        * replace (j <? j + 1) with true by lia. reflexivity.
        * replace (i <? j + 1) with (i <? j) by lia. reflexivity.
    - cbn beta. intros ss ->. apply tab_ext. intros i Hi. unfold F. destruct (Z.ltb_spec i (Z.max 0 (lenZ pq))); [reflexivity|]. now rewrite (getp_out pq i) by lia. }
  cbn beta. intros ss ->. rewrite lenZ_tab. rewrite (Z.max_r 0 n) by lia. destruct (Z.eqb_spec n 0) as [E|Hn].
  - apply okP_ret. now rewrite tab_0 by lia.
  - rewrite rd_tab by lia. cbn [bind]. destruct (bnum (F (n - 1))) as [[n0 n1] n2] eqn:En.
    assert (ET : tab n F = tab (n - 1) F ++ [F (n - 1)]) by (rewrite <- tab_snoc by lia; f_equal; lia).
    rewrite ET. match goal with |- okP (wr _ _ ?v) _ => pose proof (wr_midA (tab (n - 1) F) [] (F (n - 1)) v) as EW end.
    rewrite lenZ_tab, Z.max_r in EW by lia. rewrite EW. apply okP_ret. change (sec (getp zp (n - 1)) (getp pq (n - 1))) with (F (n - 1)). unfold gained. rewrite En. reflexivity.
Qed.

Section Val.
Context {K : CField} (emb : R -> K) (He : is_emb emb).
Add Field KF : (fth K).
Definition X (x : K) (o : Z) : K := if o =? 0 then emb 0%R else if o =? 1 then emb 1%R else if o =? 2 then x else rmul x x.
Definition nval (x : K) (b : biquad Rfield) : K :=
  let '(n0, n1, n2) := bnum b in radd (radd (emb n0) (rmul (X x (numOrder b)) (emb n1))) (rmul (X x (1 + numOrder b)) (emb n2)).
Definition dval (x : K) (b : biquad Rfield) : K :=
  let '(d0, d1) := bden b in radd (radd (emb d0) (rmul (X x (denOrder b)) (emb d1))) (X x (1 + denOrder b)).
Lemma rd_xs x o : 0 <= o <= 3 -> rd [emb 0%R; emb 1%R; x; rmul x x] o = Ok (X x o).
Proof. intros H. assert (E : o = 0 \/ o = 1 \/ o = 2 \/ o = 3) by lia. destruct E as [->|[->|[->| ->]]]; reflexivity. Qed.
Definition ord_ok (b : biquad Rfield) : Prop := 0 <= numOrder b <= 2 /\ 0 <= denOrder b <= 2.
Lemma eval_section_ok b x : ord_ok b -> eval_section emb b x = Ok (fdiv (nval x b) (dval x b)).
Proof.
  intros [H1 H2]. unfold eval_section, nval, dval. destruct (bnum b) as [[n0 n1] n2], (bden b) as [d0 d1].
  rewrite !rd_xs by lia. reflexivity.
Qed.
Lemma cascade_eval_ok ss x : Forall ord_ok ss -> cascade_eval emb ss x = Ok (prodK (K := K) (fun b => fdiv (nval x b) (dval x b)) ss).
Proof.
  unfold cascade_eval. intros H. assert (G : forall acc : K, foldM (fun b acc => do y <- eval_section emb b x; Ok (rmul acc y)) ss acc = Ok (rmul acc (prodK (K := K) (fun b => fdiv (nval x b) (dval x b)) ss))).
  { induction H as [|b ss Hb _ IH]; intros acc; cbn [foldM].
    - f_equal. cbn. ring.
    - rewrite eval_section_ok by exact Hb. cbn [bind]. rewrite IH. f_equal. cbn. unfold prodK. ring. }
  rewrite G. f_equal. ring.
Qed.
(** value of a small polynomial *)
Definition sval (x : K) (q : spoly) : K :=
  let '(n0, n1, n2) := snd q in radd (radd (emb n0) (rmul (X x (fst q)) (emb n1))) (rmul (X x (1 + fst q)) (emb n2)).
Lemma nval_sec x z p : nval x (sec z p) = sval x z.
Proof. unfold nval, sval, sec. cbn [bnum numOrder]. destruct (snd z) as [[? ?] ?]. reflexivity. Qed.
Definition monic_q (q : spoly) : Prop := 0 <= fst q <= 2 /\ snd (snd q) = 1%R.
Lemma dval_sec x z p : monic_q p -> dval x (sec z p) = sval x p.
Proof.
  intros [_ H]. unfold dval, sval, sec. cbn [bden denOrder]. destruct p as [o [[p0 p1] p2]]. cbn [fst snd] in *. subst p2. rewrite (emb1 _ He). ring.
Qed.
Lemma sval_dflt x : sval x dflt = r1.
Proof. unfold sval, dflt. cbn [snd fst]. unfold X. cbn. rewrite !(emb0 _ He), !(emb1 _ He). ring. Qed.
Lemma sval_pp x ab : sval x (pp ab) = rmul (lin_factor emb x (fst ab)) (lin_factor emb x (snd ab)).
Proof.
  unfold sval, pp, pair_poly, lin_factor. cbn [snd fst]. unfold X. cbn. replace (- fst ab - snd ab)%R with (- fst ab + - snd ab)%R by lra.
  rewrite (embadd _ He), !(embopp _ He), (embmul _ He), (emb1 _ He). ring.
Qed.
Lemma sval_single x r : sval x (single r) = lin_factor emb x r.
Proof. unfold sval, single, lin_factor. cbn [snd fst]. unfold X. cbn. rewrite (embopp _ He), (emb1 _ He), (emb0 _ He). ring. Qed.
Lemma sval_complex x c : sval x (2, ((Cabs c * Cabs c)%R, (-2 * re c)%R, 1%R)) = quad_factor emb x c.
Proof.
  unfold sval, quad_factor. cbn [snd fst]. unfold X. cbn. unfold Cabs. rewrite sqrt_sqrt by apply Cnorm2_ge0.
  change (Cnorm2 c) with (re c * re c + im c * im c)%R. rewrite (emb1 _ He). ring.
Qed.
Lemma prod_flatp x ab : prodK (K := K) (sval x) (map pp ab) = prodK (K := K) (lin_factor emb x) (flatp ab).
Proof.
  rewrite prodK_map. unfold flatp, prodK. induction ab as [|p ab IH]; cbn [fold_right flat_map app]; [reflexivity|]. rewrite sval_pp, IH. ring.
Qed.
Lemma prod_polys x ab tl cs : prodK (K := K) (sval x) ((map pp ab ++ map single tl) ++ ComplexPairPolynomials cs) =
  rmul (prodK (K := K) (lin_factor emb x) (flatp ab ++ tl)) (prodK (K := K) (quad_factor emb x) cs).
Proof.
  rewrite !prodK_app, prod_flatp. unfold ComplexPairPolynomials. rewrite !prodK_map. f_equal; [f_equal|].
  - apply prodK_ext. intros r _. apply sval_single.
  - apply prodK_ext. intros c _. apply sval_complex.
Qed.
Lemma prod_getp x l n : lenZ l <= n -> prodK (K := K) (fun i => sval x (getp l i)) (tab n (fun i => i)) = prodK (K := K) (sval x) l.
Proof.
  intros H. pose proof (lenZ_nonneg l). rewrite <- (prodK_map (K := K) (sval x) (getp l)), map_tab.
  replace (tab n (fun i => getp l i)) with (l ++ repeat dflt (Z.to_nat (n - lenZ l))).
  - rewrite prodK_app. replace (prodK (K := K) (sval x) (repeat dflt (Z.to_nat (n - lenZ l)))) with (@r1 K); [ring|].
    induction (Z.to_nat (n - lenZ l)) as [|k IH]; [reflexivity|]. cbn [repeat prodK fold_right]. unfold prodK in IH. rewrite <- IH, sval_dflt. ring.
  - apply list_eq_tab; [rewrite lenZ_app, lenZ_repeat; lia|]. intros i Hi. destruct (Z_lt_ge_dec i (lenZ l)).
    + rewrite nthZ_app1 by lia. unfold getp. destruct (nthZ_in l i ltac:(lia)) as [q ->]. reflexivity.
    + rewrite nthZ_app2 by lia. rewrite getp_out by lia. apply nthZ_repeat. lia.
Qed.
Lemma nval_gained x g b : nval x (gained g b) = rmul (emb g) (nval x b).
Proof. unfold nval, gained. destruct (bnum b) as [[n0 n1] n2] eqn:E. cbn [bnum numOrder]. rewrite !(embmul _ He). ring. Qed.
Lemma dval_gained x g b : dval x (gained g b) = dval x b.
Proof. unfold dval, gained. destruct (bnum b) as [[n0 n1] n2] eqn:E. reflexivity. Qed.
Lemma prod_div {A} (f g : A -> K) l : (forall a, In a l -> g a <> r0) ->
  prodK (K := K) (fun a => fdiv (f a) (g a)) l = fdiv (prodK (K := K) f l) (prodK (K := K) g l) /\ prodK (K := K) g l <> r0.
Proof.
  intros H. induction l as [|a l IH].
  - cbn. split; [field; apply one_neq0|apply one_neq0].
  - destruct IH as [IH1 IH2]; [intros; apply H; now right|]. assert (Ha : g a <> r0) by (apply H; now left).
    unfold prodK in *. cbn [fold_right]. split.
    + rewrite IH1. field. split; assumption.
    + intros E. apply IH2. exact (field_integral K _ _ E Ha).
Qed.
Lemma prod_nonzero {A} (g : A -> K) l a : prodK (K := K) g l <> r0 -> In a l -> g a <> r0.
Proof.
  unfold prodK. induction l as [|b l IH]; [contradiction|]. cbn [fold_right In]. intros H [->|Hi] E; apply H.
  - rewrite E. ring.
  - exfalso. apply IH; [|exact Hi|exact E]. intros E'. apply H. rewrite E'. ring.
Qed.
End Val.

Definition perm_fun {A} (f : list A -> list A) : Prop := forall l, Permutation (f l) l.
Definition polys_ok (qs : list spoly) : Prop := Forall monic_q qs.
Lemma polys_monic ab tl cs : polys_ok ((map pp ab ++ map single tl) ++ ComplexPairPolynomials cs).
Proof.
  unfold polys_ok, ComplexPairPolynomials. rewrite !Forall_app, !Forall_map. repeat split; apply Forall_forall; intros a _; split; cbn; lia || reflexivity.
Qed.
Lemma getp_monic l i : polys_ok l -> monic_q (getp l i).
Proof.
  intros H. unfold getp. destruct (nthZ l i) eqn:E; [|split; cbn; lia || reflexivity].
  unfold polys_ok in H. rewrite Forall_forall in H. apply H. unfold nthZ in E. destruct (i <? 0); [discriminate|]. eapply nth_error_In; eassumption.
Qed.
Lemma In_tab {A} n (F : Z -> A) a : In a (tab n F) -> exists i, 0 <= i < n /\ a = F i.
Proof.
  intros H. apply In_nth_error in H. destruct H as [k H]. exists (Z.of_nat k).
  assert (Hk : Z.of_nat k < n). { pose proof (nth_error_Some (tab n F) k) as E. rewrite H in E. pose proof (lenZ_tab n F) as L. unfold lenZ in L.
    assert (k < length (tab n F))%nat by (apply E; discriminate). lia. }
  split; [lia|]. pose proof (nthZ_tab n F (Z.of_nat k) ltac:(lia)) as E. unfold nthZ in E. replace (Z.of_nat k <? 0) with false in E by lia. rewrite Nat2Z.id in E. congruence.
Qed.

Section Value.
Context (sortR : list R -> list R) (sortP : list spoly -> list spoly) (HR : perm_fun sortR) (HP : perm_fun sortP).
Definition half_up (n : Z) : Z := (n + 1) / 2.

(** the unused low coefficients are zero *)
Definition low_zero (o : Z) (c0 c1 : R) : Prop := o = 2 \/ (o = 1 /\ c0 = 0%R) \/ (o = 0 /\ c0 = 0%R /\ c1 = 0%R).
Definition poly_shape (q : spoly) : Prop := low_zero (fst q) (fst (fst (snd q))) (snd (fst (snd q))).
Definition sec_shape (b : biquad Rfield) : Prop :=
  low_zero (numOrder b) (fst (fst (bnum b))) (snd (fst (bnum b))) /\ low_zero (denOrder b) (fst (bden b)) (snd (bden b)).
Lemma polys_shape ab tl cs : Forall poly_shape ((map pp ab ++ map single tl) ++ ComplexPairPolynomials cs).
Proof.
  unfold ComplexPairPolynomials. rewrite !Forall_app, !Forall_map. repeat split; apply Forall_forall; intros a _; unfold poly_shape, low_zero; cbn; auto.
Qed.
Lemma getp_shape l i : Forall poly_shape l -> poly_shape (getp l i).
Proof.
  intros H. unfold getp. destruct (nthZ l i) eqn:E; [|unfold poly_shape, low_zero, dflt; cbn; auto].
  rewrite Forall_forall in H. apply H. unfold nthZ in E. destruct (i <? 0); [discriminate|]. eapply nth_error_In; eassumption.
Qed.
Lemma cascade_spec s : fp_wf (zeros s) -> fp_wf (poles s) -> exists ss, cascade_of_zpk sortR sortP s = Ok ss /\
  lenZ ss = Z.max (half_up (num_roots (zeros s))) (half_up (num_roots (poles s))) /\
  fold_left (fun acc b => acc + numOrder b) ss 0 = num_roots (zeros s) /\
  fold_left (fun acc b => acc + denOrder b) ss 0 = num_roots (poles s) /\
  Forall ord_ok ss /\ Forall sec_shape ss /\
  (0 < zpk_order s -> forall (K : CField) (emb : R -> K), is_emb emb -> forall x,
     prodK (K := K) (nval emb x) ss = rmul (emb (gain s)) (fp_eval emb (zeros s) x) /\ prodK (K := K) (dval emb x) ss = fp_eval emb (poles s) x) /\
  (zpk_order s = 0 -> ss = []).
Proof.
  intros Wz Wp. destruct (cascade_struct sortR sortP s) as (abz & tlz & abp & tlp & Lz & Lp & Pz & Pp & E). cbn zeta in E.
  set (zp0 := (map pp abz ++ map single tlz) ++ ComplexPairPolynomials (complex_pairs (zeros s))) in *.
  set (pq0 := (map pp abp ++ map single tlp) ++ ComplexPairPolynomials (complex_pairs (poles s))) in *.
  set (zp := sortP zp0) in *. set (pq := sortP pq0) in *. set (n := Z.max (lenZ zp) (lenZ pq)) in *.
  pose proof (lenZ_nonneg zp) as Nz. pose proof (lenZ_nonneg pq) as Np.
  assert (Mz : polys_ok zp). { unfold polys_ok. eapply Permutation_Forall; [apply Permutation_sym, HP|]. apply polys_monic. }
  assert (Mp : polys_ok pq). { unfold polys_ok. eapply Permutation_Forall; [apply Permutation_sym, HP|]. apply polys_monic. }
  assert (Len : forall ab tl p0, (length tl <= 1)%nat -> fp_wf p0 -> Permutation (flatp ab ++ tl) (sortR (real_roots p0)) ->
     lenZ ((map pp ab ++ map single tl) ++ ComplexPairPolynomials (complex_pairs p0)) = half_up (num_roots p0)).
  { intros ab tl p0 Hl W P. pose proof (Permutation_length P) as L. rewrite (Permutation_length (HR _)) in L. rewrite app_length, flatp_len in L.
    pose proof (lenZ_real_roots p0 W) as L1. pose proof (lenZ_complex_pairs p0 W) as L2.
    unfold ComplexPairPolynomials, half_up, num_roots. rewrite !lenZ_app, !lenZ_map. unfold lenZ in *. lia. }
  assert (LZ : lenZ zp = half_up (num_roots (zeros s))). { unfold zp, lenZ. rewrite (Permutation_length (HP zp0)). apply (Len abz tlz); assumption. }
  assert (LP : lenZ pq = half_up (num_roots (poles s))). { unfold pq, lenZ. rewrite (Permutation_length (HP pq0)). apply (Len abp tlp); assumption. }
  assert (OrdSum : forall ab tl p0, fp_wf p0 -> Permutation (flatp ab ++ tl) (sortR (real_roots p0)) ->
     osum ((map pp ab ++ map single tl) ++ ComplexPairPolynomials (complex_pairs p0)) = num_roots p0).
  { intros ab tl p0 W P. pose proof (Permutation_length P) as L. rewrite (Permutation_length (HR _)) in L. rewrite app_length, flatp_len in L.
    pose proof (lenZ_real_roots p0 W) as L1. pose proof (lenZ_complex_pairs p0 W) as L2. unfold num_roots. rewrite <- L1, <- L2. unfold lenZ.
    rewrite <- L. generalize (complex_pairs p0). clear. intros cs. rewrite !osum_app.
    assert (G : forall (A : Type) (l : list A) (f : A -> spoly) c, (forall a, fst (f a) = c) -> osum (map f l) = c * Z.of_nat (length l)).
    { intros A l f c Hf. induction l as [|a l IH]; cbn [map osum length]; [lia|]. rewrite IH, Hf. lia. }
    rewrite (G _ ab pp 2), (G _ tl single 1) by reflexivity. unfold ComplexPairPolynomials. rewrite (G _ cs _ 2) by reflexivity. lia. }
  assert (PermSum : forall l m : list spoly, Permutation l m -> osum l = osum m).
  { induction 1; cbn [osum]; lia. }
  set (F := fun i => sec (getp zp i) (getp pq i)) in *.
  set (ss := if n =? 0 then [] else tab (n - 1) F ++ [gained (gain s) (F (n - 1))]).
  assert (Fold : forall (o : biquad Rfield -> Z) (l : list (biquad Rfield)) z, fold_left (fun acc b => acc + o b) l z = z + fold_right (fun b acc => o b + acc) 0 l).
  { intros o l. induction l as [|b l IH]; intros z; cbn [fold_left fold_right]; [lia|]. rewrite IH. lia. }
  assert (GetSum : forall l : list spoly, lenZ l <= n -> osum l = osum (tab n (getp l))).
  { intros l Hl. pose proof (lenZ_nonneg l). replace (tab n (getp l)) with (l ++ repeat dflt (Z.to_nat (n - lenZ l))).
    - rewrite osum_app, sum_dflt. lia.
    - now apply getp_pad. }
  assert (SumSs : forall (o : biquad Rfield -> Z) (l : list spoly), lenZ l <= n -> (forall i, o (F i) = fst (getp l i)) -> (forall g b, o (gained g b) = o b) ->
     fold_left (fun acc b => acc + o b) ss 0 = osum l).
  { intros o l Hl Ho Hg. rewrite Fold, (GetSum l Hl). unfold ss. destruct (Z.eqb_spec n 0) as [E0|Hn]; [now rewrite (tab_0 n) by lia|].
    rewrite Z.add_0_l. replace (tab n (getp l)) with (tab (n - 1) (getp l) ++ [getp l (n - 1)]) by (rewrite <- tab_snoc by lia; f_equal; lia).
    rewrite fold_right_app, osum_app. cbn [fold_right osum]. rewrite Hg, Ho. unfold tab.
    generalize (fst (getp l (n - 1)) + 0). intros z. induction (seq 0 (Z.to_nat (n - 1))) as [|k r IH]; cbn [map fold_right osum]; [lia|]. rewrite IH, Ho. lia. }
  assert (Sz : Forall poly_shape zp). { eapply Permutation_Forall; [apply Permutation_sym, HP|]. apply polys_shape. }
  assert (Sp : Forall poly_shape pq). { eapply Permutation_Forall; [apply Permutation_sym, HP|]. apply polys_shape. }
  exists ss. split; [exact E|]. split; [|split; [|split; [|split; [|split; [|split]]]]].
  - unfold ss. rewrite <- LZ, <- LP. fold n. destruct (Z.eqb_spec n 0) as [E0|Hn]; [rewrite E0; reflexivity|].
    rewrite lenZ_app, lenZ_tab, lenZ_cons. change (lenZ0 (biquad Rfield)) with 0. lia.
  - rewrite (SumSs numOrder zp); [|lia|reflexivity|].
    + rewrite (PermSum zp zp0 (HP zp0)). now apply OrdSum.
    + intros g b. unfold gained. now destruct (bnum b) as [[? ?] ?].
  - rewrite (SumSs denOrder pq); [|lia|reflexivity|].
    + rewrite (PermSum pq pq0 (HP pq0)). now apply OrdSum.
    + intros g b. unfold gained. now destruct (bnum b) as [[? ?] ?].
  - assert (OF : forall i, ord_ok (F i)). { intros i. destruct (getp_monic zp i Mz) as [A _], (getp_monic pq i Mp) as [B _]. split; cbn; assumption. }
    unfold ss. destruct (n =? 0); [constructor|]. rewrite Forall_app. split.
    + apply Forall_forall. intros b Hb. apply In_tab in Hb. destruct Hb as (i & _ & ->). apply OF.
    + constructor; [|constructor]. destruct (OF (n - 1)). unfold gained. destruct (bnum (F (n - 1))) as [[? ?] ?]. split; assumption.
  - assert (OF : forall i, sec_shape (F i)).
    { intros i. pose proof (getp_shape zp i Sz). pose proof (getp_shape pq i Sp). split; cbn; assumption. }
    unfold ss. destruct (n =? 0); [constructor|]. rewrite Forall_app. split.
    + apply Forall_forall. intros b Hb. apply In_tab in Hb. destruct Hb as (i & _ & ->). apply OF.
    + constructor; [|constructor]. destruct (OF (n - 1)) as [A B]. unfold gained. unfold low_zero in A. destruct (bnum (F (n - 1))) as [[n0 n1] n2]. cbn [fst snd] in A.
      split; [|assumption]. cbn [bnum numOrder fst snd]. unfold low_zero. destruct A as [A|[[A ->]|[A [-> ->]]]]; [left; exact A|right; left|right; right]; repeat split; try exact A; ring.
  - intros Hord K emb He x.
    assert (Hn : n <> 0) by (unfold zpk_order, half_up in *; lia).
    assert (PZ : prodK (K := K) (sval emb x) zp = fp_eval emb (zeros s) x).
    { rewrite (prodK_perm (K := K) _ _ _ (HP zp0)). unfold zp0. rewrite (prod_polys emb He), (fp_eval_prod emb He).
      f_equal. apply (prodK_perm (K := K)). rewrite Pz. apply HR. }
    assert (PP : prodK (K := K) (sval emb x) pq = fp_eval emb (poles s) x).
    { rewrite (prodK_perm (K := K) _ _ _ (HP pq0)). unfold pq0. rewrite (prod_polys emb He), (fp_eval_prod emb He).
      f_equal. apply (prodK_perm (K := K)). rewrite Pp. apply HR. }
    rewrite <- (prod_getp emb He x pq n) in PP by lia. rewrite <- (prod_getp emb He x zp n) in PZ by lia.
    assert (TS : tab n (fun i => i) = tab (n - 1) (fun i : Z => i) ++ [n - 1]).
    { pose proof (tab_snoc (n - 1) (fun i : Z => i) ltac:(lia)) as T. replace (n - 1 + 1) with n in T by lia. exact T. }
    rewrite TS in PZ, PP. rewrite (prodK_app (K := K)) in PZ, PP. cbn [prodK fold_right] in PZ, PP.
    unfold ss. replace (n =? 0) with false by lia. rewrite !(prodK_app (K := K)). cbn [prodK fold_right].
    rewrite (nval_gained emb He), (dval_gained emb). unfold F at 2 4. rewrite nval_sec, (dval_sec emb He) by (apply getp_monic, Mp).
    replace (tab (n - 1) F) with (map F (tab (n - 1) (fun i => i))) by apply map_tab.
    change (fold_right (fun (a : biquad Rfield) acc => rmul (nval emb x a) acc) r1) with (prodK (K := K) (nval emb x)).
    change (fold_right (fun (a : biquad Rfield) acc => rmul (dval emb x a) acc) r1) with (prodK (K := K) (dval emb x)).
    rewrite !(prodK_map (K := K)).
    rewrite (prodK_ext (K := K) (fun i => nval emb x (F i)) (fun i => sval emb x (getp zp i))) by (intros; apply nval_sec).
    rewrite (prodK_ext (K := K) (fun i => dval emb x (F i)) (fun i => sval emb x (getp pq i))) by (intros; apply (dval_sec emb He), getp_monic, Mp).
    split; [rewrite <- PZ|exact PP]. unfold prodK. pose proof (rth K) as RT.
    rewrite !(Rmul_assoc RT). do 2 f_equal. apply (Rmul_comm RT).
  - intros H0. unfold ss. replace (n =? 0) with true; [reflexivity|]. assert (n = 0); [|lia]. destruct Wz as (?&?&?), Wp as (?&?&?).
    unfold zpk_order, half_up, num_roots in *. lia.
Qed.

Lemma cascade_value s ss : cascade_of_zpk sortR sortP s = Ok ss -> fp_wf (zeros s) -> fp_wf (poles s) -> 0 < zpk_order s ->
  forall (K : CField) (emb : R -> K), is_emb emb -> forall x, fp_eval emb (poles s) x <> r0 -> cascade_eval emb ss x = Ok (zpk_eval emb s x).
Proof.
  intros E Wz Wp Ho K emb He x Hx. destruct (cascade_spec s Wz Wp) as (ss' & E' & _ & _ & _ & OF & _ & V & _). assert (ss' = ss) by congruence. subst ss'.
  destruct (V Ho K emb He x) as [V1 V2]. rewrite (cascade_eval_ok emb ss x OF). f_equal.
  destruct (prod_div (nval emb x) (dval emb x) ss) as [D _].
  - intros b Hb. apply (prod_nonzero _ ss b); [|exact Hb]. rewrite V2. exact Hx.
  - rewrite D, V1, V2. reflexivity.
Qed.
Lemma tf_spec s : fp_wf (zeros s) -> fp_wf (poles s) -> exists t, tf_of_zpk s = Ok t /\
  lenZ (numerator t) = num_roots (zeros s) + 1 /\ lenZ (denominator t) = num_roots (poles s) + 1 /\
  at0 (K := Rring) (denominator t) (num_roots (poles s)) = 1%R /\
  forall (K : CField) (emb : R -> K), is_emb emb -> forall x, tf_eval emb t x = zpk_eval emb s x.
Proof.
  intros Wz Wp. destruct (expand_spec _ Wz) as (cz & Ez & (M1 & M2 & M3) & Vz). destruct (expand_spec _ Wp) as (cp & Ep & (N1 & N2 & N3) & Vp).
  unfold tf_of_zpk. rewrite Ez, Ep. cbn [bind]. eexists. split; [reflexivity|]. cbn [numerator denominator]. split; [rewrite lenZ_map; exact M1|].
  split; [exact N1|]. split; [exact N2|]. intros K emb He x. unfold tf_eval, zpk_eval. cbn [numerator denominator].
  rewrite !(poly_eval_pval (K := K)). rewrite (Vp K emb He). f_equal. rewrite <- (Vz K emb He).
  unfold pval. rewrite lenZ_map. rewrite <- sumZ_scale. apply sumZ_ext. intros i Hi.
  replace (at0 (K := Rring) (map (fun c => (c * gain s)%R) cz) i) with (at0 (K := Rring) cz i * gain s)%R.
  - rewrite (embmul _ He). pose proof (rth K) as RT. rewrite (Rmul_comm RT (emb (at0 (K := Rring) cz i))). symmetry. apply (Rmul_assoc RT).
  - destruct (nthZ_in cz i Hi) as [c Hc]. unfold at0. change (car Rring) with R. rewrite Hc, nthZ_map, Hc. reflexivity.
Qed.
End Value.

(** *** polynomials over a ring as coefficient lists *)
Section KVal.
Context {K : CField}.
Add Ring KRv : (rth K).
Definition kval (c : list K) (x : K) : K := sumZ 0 (lenZ c) (fun i => rmul (at0 c i) (rpow x (Z.to_nat i))).
Lemma kval_cons c cs x : kval (c :: cs) x = radd c (rmul x (kval cs x)).
Proof.
  unfold kval. rewrite lenZ_cons. pose proof (lenZ_nonneg cs). rewrite (sumZ_first 0 (lenZ cs + 1)) by lia.
  change (at0 (c :: cs) 0) with c. cbn [Z.to_nat rpow].
  rewrite (sumZ_shift' (0 + 1) (lenZ cs + 1) 1). replace (0 + 1 - 1) with 0 by lia. replace (lenZ cs + 1 - 1) with (lenZ cs) by lia.
  rewrite <- sumZ_scale.
  rewrite (sumZ_ext 0 (lenZ cs) (fun i => rmul (at0 (c :: cs) (i + 1)) _) (fun i => rmul x (rmul (at0 cs i) (rpow x (Z.to_nat i))))).
  { ring. }
  intros i Hi. rewrite at0_cons by lia. replace (i + 1 =? 0) with false by lia. replace (i + 1 - 1) with i by lia.
  replace (Z.to_nat (i + 1)) with (S (Z.to_nat i)) by lia. cbn [rpow]. ring.
Qed.
Lemma rpow_add (x : K) m n : rpow x (m + n) = rmul (rpow x m) (rpow x n).
Proof. induction m as [|m IH]; cbn [Nat.add rpow]; [ring|]. rewrite IH. ring. Qed.
Lemma kval_convl a b x : 0 < lenZ a -> 0 < lenZ b -> kval (convl a b) x = rmul (kval a x) (kval b x).
Proof.
  intros Ha Hb. unfold kval. rewrite lenZ_convl by assumption.
  transitivity (sumZ 0 (lenZ a + lenZ b - 1) (fun k => sumZ 0 (lenZ a) (fun i => rmul (rmul (at0 a i) (at0 b (k - i))) (rpow x (Z.to_nat k))))).
  { apply sumZ_ext. intros k Hk. rewrite sumZ_scale_r. f_equal. unfold convl. replace ((lenZ a =? 0) || (lenZ b =? 0)) with false by lia.
    rewrite at0_tab by lia. reflexivity. }
  rewrite sumZ_swap. rewrite <- sumZ_scale_r. apply sumZ_ext. intros i Hi. rewrite <- sumZ_scale.
  rewrite (sumZ_restrict 0 (lenZ a + lenZ b - 1) i (i + lenZ b)).
  - rewrite (sumZ_shift' i (i + lenZ b) i). replace (i - i) with 0 by lia. replace (i + lenZ b - i) with (lenZ b) by lia.
    apply sumZ_ext. intros j Hj. replace (j + i - i) with j by lia. replace (Z.to_nat (j + i)) with (Z.to_nat i + Z.to_nat j)%nat by lia.
    rewrite rpow_add. ring.
  - intros k Hk Hout. rewrite (at0_out b) by lia. ring.
  - intros k Hk Hout. lia.
Qed.
Lemma kval_pad (c : list K) k x : kval (repeat r0 k ++ c) x = rmul (rpow x k) (kval c x).
Proof.
  unfold kval. pose proof (lenZ_nonneg c). rewrite lenZ_app, lenZ_repeat.
  rewrite (sumZ_split 0 (Z.of_nat k) (Z.of_nat k + lenZ c)) by lia.
  rewrite (sumZ_zero 0 (Z.of_nat k)).
  2:{ intros i Hi. rewrite at0_app, lenZ_repeat. replace (i <? Z.of_nat k) with true by lia. rewrite at0_repeat0. ring. }
  rewrite (sumZ_shift' (Z.of_nat k) (Z.of_nat k + lenZ c) (Z.of_nat k)). replace (Z.of_nat k - Z.of_nat k) with 0 by lia.
  replace (Z.of_nat k + lenZ c - Z.of_nat k) with (lenZ c) by lia. rewrite <- sumZ_scale.
  match goal with |- radd _ ?s = _ => transitivity s; [ring|] end. apply sumZ_ext.
  intros i Hi. rewrite at0_app, lenZ_repeat. replace (i + Z.of_nat k <? Z.of_nat k) with false by lia. replace (i + Z.of_nat k - Z.of_nat k) with i by lia.
  replace (Z.to_nat (i + Z.of_nat k)) with (k + Z.to_nat i)%nat by lia. rewrite rpow_add. ring.
Qed.
Lemma lin_pad (c : list K) k f n : lin (repeat r0 k ++ c) f n = lin c f n.
Proof.
  unfold lin. pose proof (lenZ_nonneg c). rewrite lenZ_app, lenZ_repeat.
  rewrite (sumZ_split 0 (lenZ c) (Z.of_nat k + lenZ c)) by lia. rewrite (sumZ_zero (lenZ c)).
  - match goal with |- radd ?s _ = _ => transitivity s; [ring|] end. apply sumZ_ext. intros i Hi. rewrite at0_app, lenZ_repeat.
    replace (Z.of_nat k + lenZ c - 1 - i <? Z.of_nat k) with false by lia. do 2 f_equal. lia.
  - intros i Hi. rewrite at0_app, lenZ_repeat. replace (Z.of_nat k + lenZ c - 1 - i <? Z.of_nat k) with true by lia. rewrite at0_repeat0. ring.
Qed.
Lemma obeys_pad (num den : list K) j k x y : obeys (repeat r0 j ++ num) (repeat r0 k ++ den) x y -> obeys num den x y.
Proof. intros [L H]. split; [exact L|]. intros n Hn. specialize (H n Hn). unfold deq in *. now rewrite !lin_pad in H. Qed.
End KVal.

(** a real polynomial that vanishes at every nonzero point has only zero coefficients *)
Ltac asR := match goal with |- @eq _ ?a ?b => change (@eq R a b) end.
Notation kvalR := (kval (K := Rfield)).
Lemma kvalR_cons c cs x : (kvalR (c :: cs) x = c + x * kvalR cs x)%R.
Proof.
  exact (kval_cons (K := Rfield) c cs x).
Qed.
Lemma kvalR_bound cs : exists M, (0 <= M)%R /\ forall x, (Rabs x <= 1)%R -> (Rabs (kvalR cs x) <= M)%R.
Proof.
  induction cs as [|c cs (M & M0 & IH)].
  - exists 0%R. split; [lra|]. intros x _. change (kvalR [] x) with 0%R. rewrite Rabs_R0. lra.
  - exists (Rabs c + M)%R. split; [pose proof (Rabs_pos c); lra|]. intros x Hx. rewrite kvalR_cons. eapply Rle_trans; [apply Rabs_triang|].
    rewrite Rabs_mult. specialize (IH x Hx). pose proof (Rabs_pos x). pose proof (Rabs_pos (kvalR cs x)). nra.
Qed.
Lemma vanishing_coefs cs : (forall x : R, x <> 0%R -> kvalR cs x = 0%R) -> Forall (fun c => c = 0%R) cs.
Proof.
  induction cs as [|c cs IH]; intros H; [constructor|].
  assert (C0 : c = 0%R).
  { destruct (Req_dec c 0) as [E|Hc]; [exact E|exfalso].
    destruct (kvalR_bound cs) as (M & M0 & HM). pose proof (Rabs_pos_lt c Hc) as Pc.
    set (x := Rmin 1 (Rabs c / (2 * (M + 1)))%R).
    assert (D : (0 < Rabs c / (2 * (M + 1)))%R) by (apply Rdiv_lt_0_compat; lra).
    assert (Px : (0 < x)%R) by (unfold x; apply Rmin_glb_lt; lra).
    assert (X1 : (x <= 1)%R) by apply Rmin_l. assert (X2 : (x <= Rabs c / (2 * (M + 1)))%R) by apply Rmin_r.
    specialize (H x ltac:(lra)). rewrite kvalR_cons in H. specialize (HM x ltac:(rewrite Rabs_right; lra)).
    assert (E : (Rabs c = x * Rabs (kvalR cs x))%R).
    { replace c with (- (x * kvalR cs x))%R by lra. rewrite Rabs_Ropp, Rabs_mult, (Rabs_right x) by lra. reflexivity. }
    assert (X3 : (x * (2 * (M + 1)) <= Rabs c)%R).
    { apply (Rmult_le_compat_r (2 * (M + 1))) in X2; [|lra]. unfold Rdiv in X2. rewrite Rmult_assoc, Rinv_l, Rmult_1_r in X2 by lra. exact X2. }
    pose proof (Rabs_pos (kvalR cs x)). nra. }
  constructor; [exact C0|]. apply IH. intros x Hx. specialize (H x Hx). rewrite kvalR_cons, C0, Rplus_0_l in H.
  destruct (Rmult_integral _ _ H); [contradiction|assumption].
Qed.
Lemma kvalR_sub (a b : list R) x : lenZ a = lenZ b -> kvalR (map2 Rminus a b) x = (kvalR a x - kvalR b x)%R.
Proof.
  revert b. induction a as [|u a IH]; intros [|v b] L; rewrite ?lenZ_cons in L; change (lenZ0 R) with 0 in L;
    [change (0 = 0 - 0)%R; lra|pose proof (lenZ_nonneg b); lia|pose proof (lenZ_nonneg a); lia|].
  change (map2 Rminus (u :: a) (v :: b)) with ((u - v)%R :: map2 Rminus a b). rewrite !kvalR_cons. rewrite (IH b) by lia. asR. ring.
Qed.
Lemma same_values_same_coefs (a b : list R) : lenZ a = lenZ b -> (forall x : R, x <> 0%R -> kvalR a x = kvalR b x) -> a = b.
Proof.
  intros L H. assert (Z0 : Forall (fun c => c = 0%R) (map2 Rminus a b)).
  { apply vanishing_coefs. intros x Hx. rewrite kvalR_sub by exact L. rewrite H by exact Hx. lra. }
  clear H. revert b L Z0. induction a as [|u a IH]; intros [|v b] L Z0; rewrite ?lenZ_cons in L; change (lenZ0 R) with 0 in L;
    [reflexivity|pose proof (lenZ_nonneg b); lia|pose proof (lenZ_nonneg a); lia|].
  change (map2 Rminus (u :: a) (v :: b)) with ((u - v)%R :: map2 Rminus a b) in Z0. inversion Z0; subst. f_equal; [lra|]. apply IH; [lia|assumption].
Qed.

(** *** the product polynomials of a converted cascade *)
Lemma kval_num b x : sec_shape b -> ord_ok b -> x <> 0%R ->
  kvalR (bq_num (K := Rfield) b) x = (x ^ Z.to_nat (2 - numOrder b) * nval (K := Rfield) (fun r => r) x b)%R.
Proof.
  intros [S _] _ _. unfold bq_num, nval. destruct (bnum b) as [[n0 n1] n2]. rewrite !kvalR_cons. change (kvalR [] x) with 0%R. cbn [fst snd] in S.
  unfold low_zero in S. destruct S as [->|[[-> ->]|[-> [-> ->]]]]; unfold X; cbn; change (Pos.to_nat 2) with 2%nat; change (Pos.to_nat 1) with 1%nat; asR; ring.
Qed.
Lemma kval_den b x : sec_shape b -> ord_ok b -> x <> 0%R ->
  kvalR (bq_den (K := Rfield) b) x = (x ^ Z.to_nat (2 - denOrder b) * dval (K := Rfield) (fun r => r) x b)%R.
Proof.
  intros [_ S] _ _. unfold bq_den, dval. destruct (bden b) as [n0 n1]. rewrite !kvalR_cons. change (kvalR [] x) with 0%R. cbn [fst snd] in S.
  unfold low_zero in S. destruct S as [->|[[-> ->]|[-> [-> ->]]]]; unfold X; cbn; change (Pos.to_nat 2) with 2%nat; change (Pos.to_nat 1) with 1%nat; asR; ring.
Qed.
Lemma fold_add (o : biquad Rfield -> Z) l z : fold_left (fun acc b => acc + o b) l z = z + fold_left (fun acc b => acc + o b) l 0.
Proof. revert z. induction l as [|b l IH]; intros z; cbn [fold_left]; [lia|]. rewrite (IH (z + o b)), (IH (0 + o b)). lia. Qed.
Lemma ordsum_range ss : Forall ord_ok ss -> 0 <= fold_left (fun acc b => acc + numOrder b) ss 0 <= 2 * lenZ ss /\ 0 <= fold_left (fun acc b => acc + denOrder b) ss 0 <= 2 * lenZ ss.
Proof.
  induction 1 as [|b ss [A B] _ IH]; [cbn; lia|]. cbn [fold_left]. rewrite (fold_add numOrder), (fold_add denOrder), lenZ_cons. lia.
Qed.
Lemma kval_prods ss x : Forall sec_shape ss -> Forall ord_ok ss -> x <> 0%R ->
  (kvalR (prod_num ss) x = x ^ Z.to_nat (2 * lenZ ss - fold_left (fun acc b => acc + numOrder b)%Z ss 0%Z)%Z * prodK (K := Rfield) (nval (K := Rfield) (fun r => r) x) ss)%R /\
  (kvalR (prod_den ss) x = x ^ Z.to_nat (2 * lenZ ss - fold_left (fun acc b => acc + denOrder b)%Z ss 0%Z)%Z * prodK (K := Rfield) (dval (K := Rfield) (fun r => r) x) ss)%R.
Proof.
  intros S O Hx. induction S as [|b ss Sb S IH].
  - cbn [prod_num prod_den fold_left]. rewrite !kvalR_cons. change (kvalR [] x) with 0%R. cbn. split; asR; ring.
  - inversion O as [|? ? Ob O']; subst. destruct (IH O') as [E1 E2]. pose proof (len_prod ss) as [L1 L2]. pose proof (lenZ_nonneg ss). pose proof (ordsum_range ss O') as [R1 R2].
    cbn [prod_num prod_den fold_left]. rewrite !(kval_convl (K := Rfield)) by (rewrite ?len_bq_num, ?len_bq_den; lia). rewrite E1, E2, kval_num, kval_den by assumption. unfold ord_ok in Ob.
    rewrite (fold_add numOrder ss (0 + numOrder b)), (fold_add denOrder ss (0 + denOrder b)), lenZ_cons.
    set (sn := fold_left (fun acc b => acc + numOrder b)%Z ss 0%Z) in *. set (sd := fold_left (fun acc b => acc + denOrder b)%Z ss 0%Z) in *. set (ln := lenZ ss) in *. set (nb := numOrder b) in *. set (db := denOrder b) in *. destruct Ob as [Ob1 Ob2]. cbn [prodK fold_right]. cbn [rmul Rfield fring Rring].
    split.
    + replace (Z.to_nat (2 * (ln + 1) - (0 + nb + sn))) with
        (Z.to_nat (2 - nb) + Z.to_nat (2 * ln - sn)%Z)%nat by lia.
      rewrite pow_add. unfold prodK. cbn [rmul Rfield fring Rring]. asR. ring.
    + replace (Z.to_nat (2 * (ln + 1) - (0 + db + sd))) with
        (Z.to_nat (2 - db) + Z.to_nat (2 * ln - sd)%Z)%nat by lia.
      rewrite pow_add. unfold prodK. cbn [rmul Rfield fring Rring]. asR. ring.
Qed.
Lemma rpowR (x : R) n : rpow (K := Rring) x n = (x ^ n)%R.
Proof. induction n as [|n IH]; [reflexivity|]. cbn [rpow pow]. now rewrite IH. Qed.

Lemma cascade_polys sortR sortP s ss t : perm_fun sortR -> perm_fun sortP -> fp_wf (zeros s) -> fp_wf (poles s) -> 0 < zpk_order s ->
  cascade_of_zpk sortR sortP s = Ok ss -> tf_of_zpk s = Ok t ->
  exists j k, prod_num ss = repeat 0%R j ++ numerator t /\ prod_den ss = repeat 0%R k ++ denominator t.
Proof.
  intros HR HP Wz Wp Ho Es Et.
  destruct (cascade_spec sortR sortP HR HP s Wz Wp) as (ss' & E & L & N1 & N2 & OF & SF & V & _). assert (ss' = ss) by congruence. subst ss'.
  destruct (tf_spec s Wz Wp) as (t' & E' & T1 & T2 & _ & _). assert (t' = t) by congruence. subst t'.
  pose proof (ordsum_range ss OF) as [R1 R2]. rewrite N1 in R1. rewrite N2 in R2. pose proof (len_prod ss) as [L1 L2].
  unfold tf_of_zpk in Et. destruct (expand_spec _ Wz) as (cz & Ez & _ & Vz). destruct (expand_spec _ Wp) as (cp & Ep & _ & Vp).
  rewrite Ez, Ep in Et. cbn [bind] in Et. injection Et as Et. 
  exists (Z.to_nat (2 * lenZ ss - num_roots (zeros s))), (Z.to_nat (2 * lenZ ss - num_roots (poles s))).
  split; (apply same_values_same_coefs; [change (car Rfield) with R in *; rewrite lenZ_app, lenZ_repeat; lia|]); intros x Hx;
    destruct (V Ho Rfield (fun r => r) emb_id x) as [V1 V2]; destruct (kval_prods ss x SF OF Hx) as [K1 K2].
  - rewrite K1, N1, V1. pose proof (kval_pad (K := Rfield) (numerator t) (Z.to_nat (2 * lenZ ss - num_roots (zeros s))) x) as KP. refine (eq_trans _ (eq_sym KP)).
    change (rpow (K := Rfield) x) with (rpow (K := Rring) x). rewrite rpowR. cbn [rmul Rfield fring Rring]. f_equal. rewrite <- (Vz Rring (fun r => r) emb_id).
    rewrite <- Et. cbn [numerator]. unfold kval, pval. rewrite lenZ_map.
    change (Rmult (gain s)) with (rmul (c := Rring) (gain s)). rewrite <- (sumZ_scale (K := Rring)). apply sumZ_ext. intros i Hi.
    destruct (nthZ_in cz i Hi) as [c Hc]. unfold at0. change (car Rring) with R in *. change (car Rfield) with R in *. rewrite nthZ_map, Hc. cbn [option_map]. cbn [rmul Rring Rfield fring]. ring.
  - rewrite K2, N2, V2. pose proof (kval_pad (K := Rfield) (denominator t) (Z.to_nat (2 * lenZ ss - num_roots (poles s))) x) as KP. refine (eq_trans _ (eq_sym KP)).
    change (rpow (K := Rfield) x) with (rpow (K := Rring) x). rewrite rpowR. cbn [rmul Rfield fring Rring]. f_equal. rewrite <- (Vp Rring (fun r => r) emb_id).
    rewrite <- Et. reflexivity.
Qed.
