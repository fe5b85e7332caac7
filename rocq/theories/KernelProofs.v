From Verif Require Import Base BaseFacts KernelModel.
From Coq Require Import ZifyBool ZifyNat Permutation.
Ltac Zify.zify_post_hook ::= Z.div_mod_to_equations.

Lemma div_mul_bounds c W : 1 <= W -> 0 <= c ->
  0 <= c / W /\ 0 <= (c / W) * W <= c /\ c < (c / W) * W + W.
Proof.
  intros HW Hc. pose proof (Z.div_pos c W Hc ltac:(lia)) as H1.
  pose proof (Z.mul_div_le c W ltac:(lia)) as H2.
  pose proof (Z.mul_succ_div_gt c W ltac:(lia)) as H3.
  rewrite (Z.mul_comm (c / W) W). unfold Z.succ in H3.
  generalize dependent (c / W). intros q; intros. nia.
Qed.

Lemma strided_end k W q : 1 <= W -> 0 <= q -> 0 <= k -> q * W <= 0 + k * W ->
  (k = 0 \/ 0 + (k - 1) * W < q * W) -> k * W = q * W.
Proof.
  intros HW Hq Hk Hge Hor. f_equal.
  assert (q <= k) by nia. destruct Hor as [->|Hor]; [lia|]. assert (k - 1 < q) by nia. lia.
Qed.

(** * Transform *)
Section TransformP.
Context {A : Type}.
Implicit Types (out : list A) (s : src A).

(** the operand element number [i], in the memory before the operation *)
Definition src_nth out s (i : Z) : option A :=
  match s with Self o => nthZ out (o + i) | Other l o => nthZ l (o + i) end.
(** the operand lies inside its array; if it is in the output array it is either exactly
    the output range or disjoint from it *)
Definition src_ok out s (po count : Z) : Prop :=
  match s with
  | Self o => 0 <= o /\ o + count <= lenZ out /\ (o = po \/ o + count <= po \/ po + count <= o)
  | Other l o => 0 <= o /\ o + count <= lenZ l
  end.
Definition lift2 {B C D} (f : B -> C -> D) (x : option B) (y : option C) : option D :=
  match x, y with Some a, Some b => Some (f a b) | _, _ => None end.

Definition written out po k (g : Z -> option A) out' : Prop :=
  lenZ out' = lenZ out /\
  forall j, nthZ out' j = if (po <=? j) && (j <? po + k) then g (j - po) else nthZ out j.

Lemma src_unchanged out s po count k g out' i :
  src_ok out s po count -> written out po k g out' -> 0 <= k <= i -> i < count ->
  src_nth out' s i = src_nth out s i.
Proof.
  intros Hs [_ Hw] Hk Hi. destruct s as [o|l o]; cbn [src_ok src_nth] in *; [|reflexivity].
  rewrite Hw. destruct ((po <=? o + i) && (o + i <? po + k)) eqn:E; [lia|reflexivity].
Qed.
Lemma src_rd_spec out0 out s po count k g i :
  src_ok out0 s po count -> written out0 po k g out -> 0 <= k <= i -> i < count ->
  exists a, src_rd out s i = Ok a /\ src_nth out0 s i = Some a.
Proof.
  intros Hs Hw Hk Hi. rewrite <- (src_unchanged out0 s po count k g out i Hs Hw Hk Hi).
  destruct s as [o|l o]; cbn [src_ok src_nth src_rd] in *.
  - destruct Hw as [Hl _]. destruct (rd_ok out (o + i) ltac:(lia)) as (a & E1 & E2); eauto.
  - destruct (rd_ok l (o + i) ltac:(lia)) as (a & E1 & E2); eauto.
Qed.
Lemma src_load_spec out0 out s po count k g i W :
  src_ok out0 s po count -> written out0 po k g out -> 0 <= k <= i -> 0 <= W -> i + W <= count ->
  exists v, src_load out s i W = Ok v /\ lenZ v = W /\
    forall j, 0 <= j < W -> nthZ v j = src_nth out0 s (i + j).
Proof.
  intros Hs Hw Hk HW Hi.
  assert (E : exists v, src_load out s i W = Ok v /\ lenZ v = W /\
    forall j, 0 <= j < W -> nthZ v j = src_nth out s (i + j)).
  { destruct s as [o|l o]; cbn [src_ok src_nth src_load] in *.
    - destruct Hw as [Hl _].
      destruct (slice_ok out (o + i) W ltac:(lia) ltac:(lia) ltac:(lia)) as (v & E & L & N).
      exists v; repeat split; auto. intros j Hj. rewrite N by lia. f_equal; lia.
    - destruct (slice_ok l (o + i) W ltac:(lia) ltac:(lia) ltac:(lia)) as (v & E & L & N).
      exists v; repeat split; auto. intros j Hj. rewrite N by lia. f_equal; lia. }
  destruct E as (v & E & L & N). exists v; repeat split; auto.
  intros j Hj. rewrite N by lia.
  apply (src_unchanged out0 s po count k g out (i + j) Hs Hw); lia.
Qed.

Lemma written_wr out0 out po k g v :
  0 <= po -> 0 <= k -> po + k < lenZ out0 -> written out0 po k g out -> g k = Some v ->
  okP (wr out (po + k) v) (written out0 po (k + 1) g).
Proof.
  intros Hpo Hk Hl [Hw1 Hw2] Hg. apply okP_wr; [lia|]. split; [rewrite lenZ_updZ; lia|].
  intros j. rewrite nthZ_updZ by lia. destruct (Z.eqb_spec j (po + k)) as [->|].
  - replace ((po <=? po + k) && (po + k <? po + (k + 1))) with true by lia.
    rewrite <- Hg. f_equal. lia.
  - rewrite Hw2. destruct ((po <=? j) && (j <? po + k)) eqn:E1;
      destruct ((po <=? j) && (j <? po + (k + 1))) eqn:E2; try reflexivity; lia.
Qed.
Lemma written_wrs out0 out po k g vs :
  0 <= po -> 0 <= k -> po + k + lenZ vs <= lenZ out0 -> written out0 po k g out ->
  (forall j, 0 <= j < lenZ vs -> nthZ vs j = g (k + j)) ->
  okP (wrs out (po + k) vs) (written out0 po (k + lenZ vs) g).
Proof.
  intros Hpo Hk Hl [Hw1 Hw2] Hg. pose proof (lenZ_nonneg vs) as Hvs. apply okP_wrs; [lia|lia|]. intros out' L N. split; [lia|].
  intros j. rewrite N, Hw2.
  destruct ((po + k <=? j) && (j <? po + k + lenZ vs)) eqn:E1;
  destruct ((po <=? j) && (j <? po + k)) eqn:E3;
  destruct ((po <=? j) && (j <? po + (k + lenZ vs))) eqn:E2; try reflexivity; try lia.
  all: rewrite Hg by lia; f_equal; lia.
Qed.

Lemma Transform2With_spec W vec out s1 s2 po count fv fs :
  1 <= W -> 0 <= count -> 0 <= po -> po + count <= lenZ out ->
  src_ok out s1 po count -> src_ok out s2 po count ->
  okP (Transform2With W vec out s1 s2 po count fv fs)
      (written out po count (fun i => lift2 (if i <? (if vec then (count / W) * W else 0) then fv else fs) (src_nth out s1 i) (src_nth out s2 i))).
Proof.
  intros HW Hc Hpo Hl H1 H2. unfold Transform2With.
  set (g := fun i => lift2 (if i <? (if vec then (count / W) * W else 0) then fv else fs) (src_nth out s1 i) (src_nth out s2 i)).
  set (vl := if vec then (count / W) * W else 0).
  assert (Hvl : 0 <= vl <= count).
  { subst vl. destruct vec; [|lia]. pose proof (div_mul_bounds count W HW Hc). lia. }
  eapply okP_bind with (P := written out po vl g).
  - destruct vec.
    + eapply okP_imp.
      * apply (for_inv (fun k => written out po (k * W) g)); [lia| |].
        { split; [reflexivity|]. intros j.
          now replace ((po <=? j) && (j <? po + 0 * W)) with false by lia. }
        intros k o Hk Hlt Hw. replace (0 + k * W) with (k * W) in * by lia.
        assert (Hkw : k * W + W <= count).
        { subst vl. pose proof (div_mul_bounds count W HW Hc) as (D1 & D2 & D3).
          generalize dependent (count / W). intros q; intros. assert (k < q) by nia. nia. }
        assert (0 <= k * W) by nia.
        destruct (src_load_spec out o s1 po count (k * W) g (k * W) W H1 Hw ltac:(lia) ltac:(lia) Hkw) as (v1 & E1 & L1 & N1).
        destruct (src_load_spec out o s2 po count (k * W) g (k * W) W H2 Hw ltac:(lia) ltac:(lia) Hkw) as (v2 & E2 & L2 & N2).
        rewrite E1. cbn [bind]. rewrite E2. cbn [bind].
        assert (Lm : lenZ (map2 fv v1 v2) = W) by (rewrite lenZ_map2; lia).
        replace ((k + 1) * W) with (k * W + lenZ (map2 fv v1 v2)) by lia.
        apply written_wrs; try assumption; try lia.
        intros j Hj. subst g. cbv beta.
        destruct (nthZ_in v1 j ltac:(lia)) as (a & Ha). destruct (nthZ_in v2 j ltac:(lia)) as (b & Hb).
        rewrite (nthZ_map2 _ _ _ _ _ _ Ha Hb). rewrite <- N1, <- N2 by lia. rewrite Ha, Hb. subst vl. cbv iota in *.
        replace (k * W + j <? count / W * W) with true; [reflexivity|]. rewrite Lm in Hj. clear - Hlt Hk Hj HW. symmetry. apply Z.ltb_lt.
        assert (k < count / W) by nia. assert ((k + 1) * W <= count / W * W) by (apply Z.mul_le_mono_nonneg_r; lia). lia.
      * intros o (k & Hk & Hge & Hor & Hw). replace vl with (k * W); [exact Hw|].
        subst vl. pose proof (div_mul_bounds count W HW Hc) as (D1 & D2 & D3).
        apply (strided_end k W (count / W)); assumption.
    + apply okP_ret. split; [reflexivity|]. intros j. subst vl.
      now replace ((po <=? j) && (j <? po + 0)) with false by lia.
  - intros o Hw.
    apply (for1_inv (fun k => written out po k g)); [exact Hw|lia|].
    intros i o' Hi Hw'.
    destruct (src_rd_spec out o' s1 po count i g i H1 Hw' ltac:(lia) ltac:(lia)) as (a & E1 & N1).
    destruct (src_rd_spec out o' s2 po count i g i H2 Hw' ltac:(lia) ltac:(lia)) as (b & E2 & N2).
    rewrite E1. cbn [bind]. rewrite E2. cbn [bind].
    apply written_wr; try assumption; try lia. subst g. cbv beta. rewrite N1, N2. cbn [lift2].
    replace (i <? _) with false; [reflexivity|]. fold vl. lia.
Qed.

Lemma Transform2_spec W vec out s1 s2 po count f :
  1 <= W -> 0 <= count -> 0 <= po -> po + count <= lenZ out ->
  src_ok out s1 po count -> src_ok out s2 po count ->
  okP (Transform2 W vec out s1 s2 po count f)
      (written out po count (fun i => lift2 f (src_nth out s1 i) (src_nth out s2 i))).
Proof.
  intros. eapply okP_imp; [apply Transform2With_spec; assumption|].
  intros o [L N]. split; [exact L|]. intros j. rewrite N. cbv beta. now destruct (j - po <? _).
Qed.

Lemma Transform1_spec W vec out s1 po count f :
  1 <= W -> 0 <= count -> 0 <= po -> po + count <= lenZ out ->
  src_ok out s1 po count ->
  okP (Transform1 W vec out s1 po count f)
      (written out po count (fun i => option_map f (src_nth out s1 i))).
Proof.
  intros HW Hc Hpo Hl H1. unfold Transform1.
  set (g := fun i => option_map f (src_nth out s1 i)).
  set (vl := if vec then (count / W) * W else 0).
  assert (Hvl : 0 <= vl <= count).
  { subst vl. destruct vec; [|lia]. pose proof (div_mul_bounds count W HW Hc). lia. }
  eapply okP_bind with (P := written out po vl g).
  - destruct vec.
    + eapply okP_imp.
      * apply (for_inv (fun k => written out po (k * W) g)); [lia| |].
        { split; [reflexivity|]. intros j.
          now replace ((po <=? j) && (j <? po + 0 * W)) with false by lia. }
        intros k o Hk Hlt Hw. replace (0 + k * W) with (k * W) in * by lia.
        assert (Hkw : k * W + W <= count).
        { subst vl. pose proof (div_mul_bounds count W HW Hc) as (D1 & D2 & D3).
          generalize dependent (count / W). intros q; intros. assert (k < q) by nia. nia. }
        assert (0 <= k * W) by nia.
        destruct (src_load_spec out o s1 po count (k * W) g (k * W) W H1 Hw ltac:(lia) ltac:(lia) Hkw) as (v1 & E1 & L1 & N1).
        rewrite E1. cbn [bind].
        assert (Lm : lenZ (map f v1) = W) by (rewrite lenZ_map; lia).
        replace ((k + 1) * W) with (k * W + lenZ (map f v1)) by lia.
        apply written_wrs; try assumption; try lia.
        intros j Hj. subst g. cbv beta. rewrite nthZ_map, N1 by lia. reflexivity.
      * intros o (k & Hk & Hge & Hor & Hw). replace vl with (k * W); [exact Hw|].
        subst vl. pose proof (div_mul_bounds count W HW Hc) as (D1 & D2 & D3).
        apply (strided_end k W (count / W)); assumption.
    + apply okP_ret. split; [reflexivity|]. intros j. subst vl.
      now replace ((po <=? j) && (j <? po + 0)) with false by lia.
  - intros o Hw.
    apply (for1_inv (fun k => written out po k g)); [exact Hw|lia|].
    intros i o' Hi Hw'.
    destruct (src_rd_spec out o' s1 po count i g i H1 Hw' ltac:(lia) ltac:(lia)) as (a & E1 & N1).
    rewrite E1. cbn [bind].
    apply written_wr; try assumption; try lia. subst g. cbv beta. now rewrite N1.
Qed.

(** ** Signal arithmetic *)
Lemma written_map2 (r a b : list A) f r' :
  lenZ r = lenZ a -> lenZ a = lenZ b ->
  written r 0 (lenZ a) (fun i => lift2 f (nthZ a i) (nthZ b i)) r' -> r' = map2 f a b.
Proof.
  intros Hra Hab [L N]. apply list_ext; [rewrite lenZ_map2; lia|]. intros i Hi.
  rewrite N. replace ((0 <=? i) && (i <? 0 + lenZ a)) with true by lia.
  rewrite Z.sub_0_r. destruct (nthZ_in a i ltac:(lia)) as (x & Hx). destruct (nthZ_in b i ltac:(lia)) as (y & Hy).
  rewrite (nthZ_map2 _ _ _ _ _ _ Hx Hy). now rewrite Hx, Hy.
Qed.
Lemma written_map (r a : list A) f r' :
  lenZ r = lenZ a ->
  written r 0 (lenZ a) (fun i => option_map f (nthZ a i)) r' -> r' = map f a.
Proof.
  intros Hra [L N]. apply list_ext; [rewrite lenZ_map; lia|]. intros i Hi.
  rewrite N. replace ((0 <=? i) && (i <? 0 + lenZ a)) with true by lia.
  rewrite Z.sub_0_r. now rewrite nthZ_map.
Qed.

Lemma T2_full W vec r s1 s2 a b f : 1 <= W -> lenZ r = lenZ a -> lenZ a = lenZ b ->
  src_ok r s1 0 (lenZ a) -> src_ok r s2 0 (lenZ a) ->
  (forall i, src_nth r s1 i = nthZ a i) -> (forall i, src_nth r s2 i = nthZ b i) ->
  Transform2 W vec r s1 s2 0 (lenZ a) f = Ok (map2 f a b).
Proof.
  intros HW Hra Hab H1 H2 N1 N2. apply okP_eq. eapply okP_imp.
  - apply Transform2_spec; try assumption; try lia. apply lenZ_nonneg.
  - intros r' Hw. apply (written_map2 r a b f r' Hra Hab).
    destruct Hw as [L N]. split; [exact L|]. intros j. rewrite N. now rewrite N1, N2.
Qed.
Lemma T1_full W vec r s1 a f : 1 <= W -> lenZ r = lenZ a ->
  src_ok r s1 0 (lenZ a) -> (forall i, src_nth r s1 i = nthZ a i) ->
  Transform1 W vec r s1 0 (lenZ a) f = Ok (map f a).
Proof.
  intros HW Hra H1 N1. apply okP_eq. eapply okP_imp.
  - apply Transform1_spec; try assumption; try lia. apply lenZ_nonneg.
  - intros r' Hw. apply (written_map r a f r' Hra).
    destruct Hw as [L N]. split; [exact L|]. intros j. rewrite N. now rewrite N1.
Qed.

Section Arith.
Variables (W : Z) (vec : bool) (op : A -> A -> A).
Hypothesis HW : 1 <= W.

Lemma cs3_ok r : CheckSizes3 r r r = Ok tt.
Proof. unfold CheckSizes3. rewrite Z.eqb_refl. reflexivity. Qed.
Lemma cs2_ok r : CheckSizes2 r r = Ok tt.
Proof. unfold CheckSizes2. rewrite Z.eqb_refl. reflexivity. Qed.

Lemma sig_sig_into_ok r a b : lenZ r = lenZ a -> lenZ a = lenZ b ->
  sig_sig_into W vec op r a b = Ok (map2 op a b).
Proof.
  intros H1 H2. unfold sig_sig_into. rewrite H1, <- H2, cs3_ok. cbn [bind].
  apply T2_full; auto; cbn [src_ok]; lia.
Qed.
Lemma sig_sig_into_throw r a b : ~ (lenZ r = lenZ a /\ lenZ r = lenZ b) ->
  sig_sig_into W vec op r a b = Throw InvalidArgument.
Proof.
  intros H. unfold sig_sig_into, CheckSizes3.
  now replace (negb (lenZ r =? lenZ a) || negb (lenZ r =? lenZ b)) with true by lia.
Qed.
Lemma sig_scalar_into_ok r a b : lenZ r = lenZ a -> sig_scalar_into W vec op r a b = Ok (map (fun x => op x b) a).
Proof.
  intros H1. unfold sig_scalar_into. rewrite H1, cs2_ok. cbn [bind]. apply T1_full; auto. cbn [src_ok]; lia.
Qed.
Lemma sig_scalar_into_throw r a b : lenZ r <> lenZ a -> sig_scalar_into W vec op r a b = Throw InvalidArgument.
Proof. intros H. unfold sig_scalar_into, CheckSizes2. now replace (negb (lenZ r =? lenZ a)) with true by lia. Qed.
Lemma scalar_sig_into_ok r a b : lenZ r = lenZ b -> scalar_sig_into W vec op r a b = Ok (map (fun x => op a x) b).
Proof.
  intros H1. unfold scalar_sig_into. rewrite H1, cs2_ok. cbn [bind]. apply T1_full; auto. cbn [src_ok]; lia.
Qed.
Lemma scalar_sig_into_throw r a b : lenZ r <> lenZ b -> scalar_sig_into W vec op r a b = Throw InvalidArgument.
Proof. intros H. unfold scalar_sig_into, CheckSizes2. now replace (negb (lenZ r =? lenZ b)) with true by lia. Qed.
Lemma sig_sig_inplace_ok a b : lenZ a = lenZ b -> sig_sig_inplace W vec op a b = Ok (map2 op a b).
Proof.
  intros H. unfold sig_sig_inplace. rewrite <- H, cs3_ok. cbn [bind].
  apply T2_full; auto; cbn [src_ok]; lia.
Qed.
Lemma sig_sig_inplace_throw a b : lenZ a <> lenZ b -> sig_sig_inplace W vec op a b = Throw InvalidArgument.
Proof.
  intros H. unfold sig_sig_inplace, CheckSizes3.
  now replace (negb (lenZ a =? lenZ a) || negb (lenZ a =? lenZ b)) with true by lia.
Qed.
Lemma sig_sig_inplace2_ok a b : lenZ a = lenZ b -> sig_sig_inplace2 W vec op a b = Ok (map2 op a b).
Proof.
  intros H. unfold sig_sig_inplace2. rewrite <- H, cs3_ok. cbn [bind].
  apply T2_full; auto; cbn [src_ok]; lia.
Qed.
Lemma sig_self_inplace_ok a : sig_self_inplace W vec op a = Ok (map2 op a a).
Proof.
  unfold sig_self_inplace. rewrite cs3_ok. cbn [bind]. apply T2_full; auto; cbn [src_ok]; lia.
Qed.
Lemma sig_scalar_inplace_ok a b : sig_scalar_inplace W vec op a b = Ok (map (fun x => op x b) a).
Proof.
  unfold sig_scalar_inplace. rewrite cs2_ok. cbn [bind]. apply T1_full; auto. cbn [src_ok]; lia.
Qed.
Lemma fresh_len (d : A) (a : list A) : lenZ (repeat d (length a)) = lenZ a.
Proof. rewrite lenZ_repeat. reflexivity. Qed.
Lemma sig_op_sig_ok d a b : lenZ a = lenZ b -> sig_op_sig W vec op d a b = Ok (map2 op a b).
Proof. intros H. apply sig_sig_into_ok; [apply fresh_len|exact H]. Qed.
Lemma sig_op_sig_throw d a b : lenZ a <> lenZ b -> sig_op_sig W vec op d a b = Throw InvalidArgument.
Proof. intros H. apply sig_sig_into_throw. rewrite fresh_len. lia. Qed.
Lemma sig_op_scalar_ok d a b : sig_op_scalar W vec op d a b = Ok (map (fun x => op x b) a).
Proof. apply sig_scalar_into_ok, fresh_len. Qed.
Lemma scalar_op_sig_ok d a b : scalar_op_sig W vec op d a b = Ok (map (fun x => op a x) b).
Proof. apply scalar_sig_into_ok, fresh_len. Qed.
End Arith.
End TransformP.

(** * Reduce *)
Lemma tab_app {A} m n (v : Z -> A) : 0 <= m -> 0 <= n ->
  tab (m + n) v = tab m v ++ tab n (fun i => v (m + i)).
Proof.
  intros Hm Hn. symmetry. apply list_eq_tab.
  - rewrite lenZ_app, !lenZ_tab. lia.
  - intros i Hi. destruct (Z_lt_le_dec i m).
    + rewrite nthZ_app1 by (rewrite lenZ_tab; lia). now rewrite nthZ_tab by lia.
    + rewrite nthZ_app2 by (rewrite lenZ_tab; lia). rewrite lenZ_tab, nthZ_tab by lia.
      do 2 f_equal. lia.
Qed.
Lemma tab_1 {A} (v : Z -> A) : tab 1 v = [v 0].
Proof. reflexivity. Qed.
Lemma tab_snoc {A} n (v : Z -> A) : 0 <= n -> tab (n + 1) v = tab n v ++ [v n].
Proof. intros H. rewrite tab_app by lia. rewrite tab_1. do 3 f_equal. lia. Qed.
Lemma tab_0 {A} n (v : Z -> A) : n <= 0 -> tab n v = [].
Proof. intros H. unfold tab. now replace (Z.to_nat n) with O by lia. Qed.

Lemma bits_of_count c : 0 <= c ->
  c = Z.b2z (Z.odd c) + 2 * Z.b2z (Z.testbit c 1) + 4 * Z.b2z (Z.testbit c 2) + 8 * (c / 8).
Proof.
  intros H. rewrite <- Z.bit0_odd. rewrite !Z.testbit_spec' by lia.
  change (2 ^ 0) with 1. change (2 ^ 1) with 2. change (2 ^ 2) with 4.
  rewrite Z.div_1_r. lia.
Qed.

Lemma until_eq_spec {S} (I : Z -> S -> Prop) n first last step fuel body (s : S) :
  0 <= n <= Z.of_nat fuel -> step <> 0 -> last = first + n * step ->
  I 0 s ->
  (forall k s, 0 <= k < n -> I k s -> okP (body (first + k * step) s) (I (k + 1))) ->
  okP (until_eq fuel first last step body s) (I n).
Proof.
  revert n first s I. induction fuel as [|fuel IH]; intros n first s I Hn Hst Hl H0 Hs.
  - assert (n = 0) by lia. subst n. cbn [until_eq].
    replace (first =? last) with true by lia. apply okP_ret. exact H0.
  - cbn [until_eq]. destruct (Z.eqb_spec first last) as [He|Hne].
    + assert (n = 0) by nia. subst n. apply okP_ret. exact H0.
    + assert (1 <= n) by (destruct (Z.eq_dec n 0); [subst; lia|lia]).
      eapply okP_bind.
      * specialize (Hs 0 s ltac:(lia) H0). replace (first + 0 * step) with first in Hs by lia. exact Hs.
      * intros s' Hs'. replace n with ((n - 1) + 1) by lia.
        apply (IH (n - 1) (first + step) s' (fun k => I (k + 1))); try lia; [exact Hs'|].
        intros k s2 Hk HI. replace (first + step + k * step) with (first + (k + 1) * step) by lia.
        apply Hs; [lia|exact HI].
Qed.

Section ExplicitP.
Context {V : Type}.
Variables (op : V -> V -> V) (op3 : V -> V -> V -> V * V) (carry0 : V).
Variable Good : V -> Prop.
Hypothesis assoc : forall a b c, op a (op b c) = op (op a b) c.
Hypothesis good_op : forall a b, Good a -> Good b -> Good (op a b).
Hypothesis op3_ok : forall a b, Good a -> Good b -> op3 carry0 a b = (carry0, op a b).

Lemma Explicit_spec (ld : Z -> outcome V) (v : Z -> V) stride first last count init :
  1 <= stride -> 0 <= count -> last = first + count * stride ->
  (forall k, 0 <= k < count -> ld (first + k * stride) = Ok (v k) /\ Good (v k)) ->
  Good init ->
  Explicit op op3 carry0 ld stride first last init = Ok (fold_left op (tab count v) init).
Proof.
  intros Hst Hc Hl Hld Hi. unfold Explicit.
  replace ((last - first) / stride) with count
    by (subst last; replace (first + count * stride - first) with (count * stride) by ring;
        symmetry; apply Z.div_mul; lia).
  pose proof (bits_of_count count Hc) as Hb.
  set (b0 := Z.odd count) in *. set (b1 := Z.testbit count 1) in *. set (b2 := Z.testbit count 2) in *.
  set (q := count / 8) in *. assert (Hq : 0 <= q) by (subst q; apply Z.div_pos; lia).
  assert (R0 : forall b : bool, 0 <= Z.b2z b <= 1) by (intros []; cbn; lia).
  pose proof (R0 b0) as Rb0. pose proof (R0 b1) as Rb1. pose proof (R0 b2) as Rb2.
  (* invariant: acc is the fold of the first c values, the pointer is past them *)
  assert (G : forall c, 0 <= c <= count -> Good (fold_left op (tab c v) init)).
  { intros c Hcc. assert (H0c : 0 <= c) by lia. revert Hcc. pattern c. apply natlike_ind; [intros _; exact Hi| |exact H0c].
    intros x Hx IH Hle. unfold Z.succ. rewrite tab_snoc by lia. rewrite fold_left_app. cbn [fold_left].
    apply good_op; [apply IH; lia|]. apply Hld; lia. }
  assert (STEP : forall c, 0 <= c -> fold_left op (tab (c + 1) v) init = op (fold_left op (tab c v) init) (v c)).
  { intros c Hcc. rewrite tab_snoc by lia. now rewrite fold_left_app. }
  assert (LD : forall p j c, 0 <= c -> p = first + c * stride -> c + j < count -> 0 <= j ->
             ld (p + j * stride) = Ok (v (c + j)) /\ Good (v (c + j))).
  { intros p j c H0 -> H1 H2. replace (first + c * stride + j * stride) with (first + (c + j) * stride) by ring.
    apply Hld; lia. }
  assert (LD0 : forall p c, 0 <= c -> p = first + c * stride -> c < count -> ld p = Ok (v c) /\ Good (v c)).
  { intros p c H0 -> H1. apply Hld; lia. }
  (* singlet *)
  match goal with |- bind ?m _ = _ =>
    assert (S1 : m = Ok (fold_left op (tab (Z.b2z b0) v) init, first + Z.b2z b0 * stride)) end.
  { destruct b0; cbn [Z.b2z] in *.
    - destruct (LD0 first 0 ltac:(lia) ltac:(lia) ltac:(lia)) as [E _]. rewrite E. reflexivity.
    - cbn. do 2 f_equal. lia. }
  rewrite S1. cbn [bind]. clear S1. set (c1 := Z.b2z b0) in *.
  match goal with |- bind ?m _ = _ =>
    assert (S2 : m = Ok (fold_left op (tab (c1 + 2 * Z.b2z b1) v) init, first + (c1 + 2 * Z.b2z b1) * stride)) end.
  { destruct b1; cbn [Z.b2z] in *.
    - destruct (LD0 (first + c1 * stride) c1 ltac:(lia) eq_refl ltac:(lia)) as [E0 _].
      destruct (LD (first + c1 * stride) 1 c1 ltac:(lia) eq_refl ltac:(lia) ltac:(lia)) as [E1 _].
      rewrite E0. cbn [bind]. rewrite E1. cbn [bind]. f_equal. f_equal; [|lia].
      replace (c1 + 2 * 1) with (c1 + 1 + 1) by lia. rewrite !STEP by lia. now rewrite assoc.
    - do 2 f_equal; [|lia]. do 2 f_equal. lia. }
  rewrite S2. cbn [bind]. clear S2. set (c2 := c1 + 2 * Z.b2z b1) in *.
  match goal with |- bind ?m _ = _ =>
    assert (S3 : m = Ok (fold_left op (tab (c2 + 4 * Z.b2z b2) v) init, first + (c2 + 4 * Z.b2z b2) * stride)) end.
  { destruct b2; cbn [Z.b2z] in *.
    - destruct (LD0 (first + c2 * stride) c2 ltac:(lia) eq_refl ltac:(lia)) as [E0 _].
      destruct (LD (first + c2 * stride) 1 c2 ltac:(lia) eq_refl ltac:(lia) ltac:(lia)) as [E1 _].
      destruct (LD (first + c2 * stride) 2 c2 ltac:(lia) eq_refl ltac:(lia) ltac:(lia)) as [E2 _].
      destruct (LD (first + c2 * stride) 3 c2 ltac:(lia) eq_refl ltac:(lia) ltac:(lia)) as [E3 _].
      rewrite E0. cbn [bind]. rewrite E1. cbn [bind]. rewrite E2. cbn [bind]. rewrite E3. cbn [bind].
      f_equal. f_equal; [|lia].
      replace (c2 + 4 * 1) with (c2 + 1 + 1 + 1 + 1) by lia. rewrite !STEP by lia.
      replace (c2 + 1 + 1) with (c2 + 2) by lia. replace (c2 + 2 + 1) with (c2 + 3) by lia. now rewrite !assoc.
    - do 2 f_equal; [|lia]. do 2 f_equal. lia. }
  rewrite S3. cbn [bind]. clear S3. set (c3 := c2 + 4 * Z.b2z b2) in *.
  assert (Hc3 : 0 <= c3 /\ count = c3 + 8 * q) by lia. destruct Hc3 as [Hc3 Hcq].
  set (body := fun (first : Z) (st : V * V) => _).
  assert (L : okP (until_eq (Z.to_nat (last - (first + c3 * stride))) (first + c3 * stride) last (8 * stride) body
                     (carry0, fold_left op (tab c3 v) init))
                  (fun st => st = (carry0, fold_left op (tab count v) init))).
  { eapply okP_imp.
    - apply (until_eq_spec (fun k st => st = (carry0, fold_left op (tab (c3 + 8 * k) v) init)) q); try nia.
      + do 4 f_equal. lia.
      + intros k st Hk ->. subst body. cbv beta iota.
        set (c := c3 + 8 * k) in *. assert (Hcc : 0 <= c /\ c + 8 <= count) by lia.
        replace (first + c3 * stride + k * (8 * stride)) with (first + c * stride) by (subst c; ring).
        destruct (LD0 (first + c * stride) c ltac:(lia) eq_refl ltac:(lia)) as [E0 G0].
        destruct (LD (first + c * stride) 1 c ltac:(lia) eq_refl ltac:(lia) ltac:(lia)) as [E1 G1].
        destruct (LD (first + c * stride) 2 c ltac:(lia) eq_refl ltac:(lia) ltac:(lia)) as [E2 G2].
        destruct (LD (first + c * stride) 3 c ltac:(lia) eq_refl ltac:(lia) ltac:(lia)) as [E3 G3].
        destruct (LD (first + c * stride) 4 c ltac:(lia) eq_refl ltac:(lia) ltac:(lia)) as [E4 G4].
        destruct (LD (first + c * stride) 5 c ltac:(lia) eq_refl ltac:(lia) ltac:(lia)) as [E5 G5].
        destruct (LD (first + c * stride) 6 c ltac:(lia) eq_refl ltac:(lia) ltac:(lia)) as [E6 G6].
        destruct (LD (first + c * stride) 7 c ltac:(lia) eq_refl ltac:(lia) ltac:(lia)) as [E7 G7].
        rewrite E0; cbn [bind]; rewrite E1; cbn [bind]; rewrite E2; cbn [bind]; rewrite E3; cbn [bind];
        rewrite E4; cbn [bind]; rewrite E5; cbn [bind]; rewrite E6; cbn [bind]; rewrite E7; cbn [bind].
        apply okP_ret. rewrite op3_ok; [|apply G; lia|repeat apply good_op; assumption].
        f_equal. replace (c3 + 8 * (k + 1)) with (c + 1 + 1 + 1 + 1 + 1 + 1 + 1 + 1) by (subst c; lia).
        rewrite !STEP by lia.
        replace (c + 1 + 1) with (c + 2) by lia. replace (c + 2 + 1) with (c + 3) by lia.
        replace (c + 3 + 1) with (c + 4) by lia. replace (c + 4 + 1) with (c + 5) by lia.
        replace (c + 5 + 1) with (c + 6) by lia. replace (c + 6 + 1) with (c + 7) by lia.
        now rewrite !assoc.
    - intros st ->. do 4 f_equal. lia. }
  apply okP_eq in L. rewrite L. reflexivity.
Qed.
End ExplicitP.

(** ** lanes *)
Section Lanes.
Context {K : Type} (op : K -> K -> K).
Hypothesis assoc : forall a b c, op a (op b c) = op (op a b) c.
Hypothesis comm : forall a b, op a b = op b a.

Lemma map2_assoc a b c : map2 op a (map2 op b c) = map2 op (map2 op a b) c.
Proof.
  unfold map2. revert b c; induction a as [|x a IH]; intros [|y b] [|z c]; try reflexivity.
  cbn. rewrite assoc. f_equal. apply IH.
Qed.
Lemma map2_cons {A B C} (f : A -> B -> C) x l y m : map2 f (x :: l) (y :: m) = f x y :: map2 f l m.
Proof. reflexivity. Qed.
Lemma fold_op_swap l a b : fold_left op l (op a b) = op (fold_left op l a) b.
Proof.
  revert a; induction l as [|x l IH]; intros a; [reflexivity|]. cbn [fold_left].
  rewrite <- IH. f_equal. rewrite <- !assoc. f_equal. apply comm.
Qed.
Lemma fold_left_perm l m a : Permutation l m -> fold_left op l a = fold_left op m a.
Proof.
  intros H; revert a; induction H as [|x l m H IH|x y l|l m n H1 IH1 H2 IH2]; intros a; cbn [fold_left].
  - reflexivity.
  - apply IH.
  - f_equal. rewrite <- !assoc. f_equal. apply comm.
  - now rewrite IH1.
Qed.
Lemma fold_map2 v r i : length v = length r -> fold_left op (map2 op v r) i = fold_left op (v ++ r) i.
Proof.
  revert r i; induction v as [|x v IH]; intros [|y r] i H; try discriminate; [reflexivity|].
  rewrite map2_cons. cbn [fold_left app]. rewrite IH by (simpl in H; lia).
  rewrite (fold_left_perm (v ++ y :: r) (y :: v ++ r)) by (symmetry; apply Permutation_middle).
  cbn [fold_left]. now rewrite assoc.
Qed.
Lemma fold_rows (rows : list (list K)) v i W :
  length v = W -> (forall r, In r rows -> length r = W) ->
  fold_left op (fold_left (map2 op) rows v) i = fold_left op (v ++ concat rows) i /\
  length (fold_left (map2 op) rows v) = W.
Proof.
  revert v; induction rows as [|r rows IH]; intros v Hv Hr; cbn [fold_left concat].
  - rewrite app_nil_r. auto.
  - assert (Hlr : length r = W) by (apply Hr; left; reflexivity).
    assert (Hl : length (map2 op v r) = W).
    { unfold map2. rewrite map_length, combine_length. lia. }
    destruct (IH (map2 op v r) Hl) as [E L]; [intros; apply Hr; right; assumption|].
    split; [|exact L]. rewrite E. rewrite fold_left_app, fold_map2 by lia.
    rewrite <- fold_left_app, <- app_assoc. reflexivity.
Qed.
Lemma ReduceBatchPlus_fold b i : ReduceBatchPlus op b i = fold_left op b i.
Proof.
  destruct b as [|x xs]; [reflexivity|]. cbn [ReduceBatchPlus fold_left].
  rewrite (comm i x), fold_op_swap. apply comm.
Qed.
End Lanes.

(** the rows (batches) of a value function, concatenated, are the values *)
Lemma concat_rows {K} (x : Z -> K) W n : 0 <= W -> 0 <= n ->
  concat (tab n (fun k => tab W (fun j => x (k * W + j)))) = tab (n * W) x.
Proof.
  intros HW Hn. pattern n. apply natlike_ind; [reflexivity| |exact Hn].
  intros k Hk IH. unfold Z.succ. rewrite tab_snoc by lia.
  rewrite concat_app, IH. cbn [concat]. rewrite app_nil_r.
  replace ((k + 1) * W) with (k * W + W) by ring. rewrite tab_app by nia. reflexivity.
Qed.

(** carry arithmetic: in a ring the compensation stays zero *)
Section Kahan.
Variable K : CRing.
Add Ring Kr : (rth K).
Lemma kahan_scalar (a b : K) : kahan radd rsub r0 a b = (r0, radd a b).
Proof. unfold kahan. f_equal; ring. Qed.
Lemma map2_sub_zero (a : list K) : map2 rsub a (repeat r0 (length a)) = a.
Proof.
  induction a as [|x a IH]; [reflexivity|]. cbn [length repeat]. rewrite map2_cons, IH. f_equal. ring.
Qed.
Lemma map2_sub_self (a b : list K) : length a = length b ->
  map2 rsub (map2 rsub (map2 radd a b) a) b = repeat r0 (length a).
Proof.
  revert b; induction a as [|x a IH]; intros [|y b] H; try discriminate; [reflexivity|].
  rewrite !map2_cons. cbn [length repeat]. f_equal; [ring|]. apply IH. simpl in H; lia.
Qed.
Lemma kahan_batch W (a b : list K) : length a = W -> length b = W ->
  kahan (map2 radd) (map2 rsub) (repeat r0 W) a b = (repeat r0 W, map2 radd a b).
Proof.
  intros Ha Hb. unfold kahan.
  replace (map2 rsub b (repeat r0 W)) with b by (subst W; symmetry; rewrite <- Hb; apply map2_sub_zero).
  f_equal. subst W. apply map2_sub_self. lia.
Qed.
End Kahan.

(** ** the top-level reductions *)
(** The operators the theorem covers: any associative commutative operator, plain or with the
    std::plus batch reduction, and compensated addition of a commutative ring. *)
Inductive redop_ok {K : Type} : redop K -> (K -> K -> K) -> Prop :=
| RO_plain op : (forall a b c, op a (op b c) = op (op a b) c) -> (forall a b, op a b = op b a) ->
    redop_ok (Plain op) op
| RO_plus op : (forall a b c, op a (op b c) = op (op a b) c) -> (forall a b, op a b = op b a) ->
    redop_ok (Plus op) op.
Definition comp_sum (K : CRing) : redop K := Comp radd rsub r0.

Lemma explicit_scalar_plain {K} (r : redop K) op ld x count init :
  redop_ok r op -> 0 <= count -> (forall k, 0 <= k < count -> ld k = Ok (x k)) ->
  explicit_scalar r ld 0 count init = Ok (fold_left op (tab count x) init).
Proof.
  intros [o A C|o A C] Hc Hld; cbn [explicit_scalar];
  (apply (Explicit_spec o (nocarry o) init (fun _ => True)) with (count := count);
   [exact A|auto|reflexivity|lia|lia|lia| |exact I];
   intros k Hk; replace (0 + k * 1) with k by lia; auto).
Qed.
Lemma explicit_batch_plain {K} (r : redop K) op W ld x first last count init :
  redop_ok r op -> 1 <= W -> 0 <= count -> last = first + count * W ->
  (forall k, 0 <= k < count -> ld (first + k * W) = Ok (x k)) ->
  explicit_batch W r ld first last init = Ok (fold_left (map2 op) (tab count x) init).
Proof.
  intros [o A C|o A C] HW Hc Hl Hld; cbn [explicit_batch];
  (apply (Explicit_spec (map2 o) (nocarry (map2 o)) init (fun _ => True)) with (count := count);
   [intros; now apply map2_assoc|auto|reflexivity|lia|lia|exact Hl| |exact I];
   intros k Hk; auto).
Qed.
Lemma explicit_scalar_comp (K : CRing) ld (x : Z -> K) count init :
  0 <= count -> (forall k, 0 <= k < count -> ld k = Ok (x k)) ->
  explicit_scalar (comp_sum K) ld 0 count init = Ok (fold_left radd (tab count x) init).
Proof.
  intros Hc Hld. cbn [explicit_scalar comp_sum].
  apply (Explicit_spec radd (kahan radd rsub) r0 (fun _ => True)) with (count := count);
   [apply (Radd_assoc (rth K))|auto| |lia|lia|lia| |exact I].
  - intros; apply kahan_scalar.
  - intros k Hk; replace (0 + k * 1) with k by lia; auto.
Qed.
Lemma explicit_batch_comp (K : CRing) W ld (x : Z -> list K) first last count init :
  1 <= W -> 0 <= count -> last = first + count * W ->
  (forall k, 0 <= k < count -> ld (first + k * W) = Ok (x k) /\ length (x k) = Z.to_nat W) ->
  length init = Z.to_nat W ->
  explicit_batch W (comp_sum K) ld first last init = Ok (fold_left (map2 radd) (tab count x) init).
Proof.
  intros HW Hc Hl Hld Hi. cbn [explicit_batch comp_sum].
  apply (Explicit_spec (map2 radd) (kahan (map2 radd) (map2 rsub)) (repeat r0 (Z.to_nat W))
          (fun v => length v = Z.to_nat W)) with (count := count);
   [intros; apply map2_assoc; apply (Radd_assoc (rth K))| | |lia|lia|exact Hl|exact Hld|exact Hi].
  - intros a b Ha Hb. unfold map2. rewrite map_length, combine_length. lia.
  - intros a b Ha Hb. apply kahan_batch; assumption.
Qed.

Lemma fetch_spec {V} (ld : Z -> outcome V) (x : Z -> V) p count : p <= count ->
  (forall k, p <= k < count -> ld k = Ok (x k)) ->
  fetch_ ld p count = Ok (tab (count - p) (fun j => x (p + j))).
Proof.
  intros Hp Hld. unfold fetch_. apply okP_eq.
  apply (for1_inv (fun k vs => vs = tab (k - p) (fun j => x (p + j)))); [|lia|].
  - now replace (p - p) with 0 by lia.
  - intros i vs Hi ->. rewrite Hld by lia. cbn [bind]. apply okP_ret.
    replace (i + 1 - p) with (i - p + 1) by lia. rewrite tab_snoc by lia. do 3 f_equal. lia.
Qed.

(** the common shape: scalar value function x, batches are consecutive values *)
Lemma reduce_top_spec {K} (r : redop K) op W vec lds ldv (x : Z -> K) count init :
  (redop_ok r op \/ exists (R : CRing) (e : car R = K), r = eq_rect (car R) redop (comp_sum R) K e /\
                      op = eq_rect (car R) (fun K => K -> K -> K) radd K e) ->
  1 <= W -> 0 <= count ->
  (forall k, 0 <= k < count -> lds k = Ok (x k)) ->
  (forall k, 0 <= k -> k + W <= count -> ldv k = Ok (tab W (fun j => x (k + j)))) ->
  reduce_top_with (batch_of r) (fold_left (op_of r)) W vec r lds ldv count init = Ok (fold_left op (tab count x) init).
Proof.
  intros Hr HW Hc Hs Hv.
  assert (Hassoc : (forall a b c, op a (op b c) = op (op a b) c) /\ (forall a b, op a b = op b a)).
  { destruct Hr as [[o A C|o A C]|(R & e & -> & ->)]; [auto|auto|]. subst K. cbn.
    split; [apply (Radd_assoc (rth R))|apply (Radd_comm (rth R))]. }
  destruct Hassoc as [Ha Hcm].
  assert (Hop : op_of r = op).
  { destruct Hr as [[o A C|o A C]|(R & e & -> & ->)]; try reflexivity. subst K. reflexivity. }
  assert (Hbatch : forall b i, batch_of r b i = fold_left op b i).
  { intros b i. destruct Hr as [[o A C|o A C]|(R & e & -> & ->)].
    - reflexivity.
    - apply ReduceBatchPlus_fold; assumption.
    - subst K. cbn in *. apply (ReduceBatchPlus_fold radd Ha Hcm). }
  unfold reduce_top_with. destruct vec.
  2:{ destruct Hr as [Hr|(R & e & -> & ->)].
      - now apply explicit_scalar_plain.
      - subst K. cbn. now apply explicit_scalar_comp. }
  set (vc := count / W).
  assert (Hvc : 0 <= vc /\ vc * W <= count)
    by (subst vc; pose proof (div_mul_bounds count W HW Hc); lia).
  assert (P : (if negb (vc =? 0) then
         do vinit <- ldv 0;
         do vres <- explicit_batch W r ldv W (vc * W) vinit;
         Ok (batch_of r vres init, vc * W)
       else Ok (init, 0)) = Ok (fold_left op (tab (vc * W) x) init, vc * W)).
  { destruct (Z.eqb_spec vc 0) as [->|Hne]; cbn [negb]; [reflexivity|].
    rewrite (Hv 0) by nia. cbn [bind].
    set (row := fun k => tab W (fun j => x ((k + 1) * W + j))).
    assert (Hrow : forall k, 0 <= k < vc - 1 -> ldv (W + k * W) = Ok (row k)).
    { intros k Hk. rewrite Hv by nia. f_equal. apply tab_ext. intros j Hj. f_equal. ring. }
    set (v0 := tab W (fun j => x (0 + j))).
    assert (Hv0 : length v0 = Z.to_nat W) by (unfold v0, tab; rewrite map_length, seq_length; reflexivity).
    assert (Hlr : forall k, length (row k) = Z.to_nat W) by (intros k; unfold row, tab; rewrite map_length, seq_length; reflexivity).
    assert (E : explicit_batch W r ldv W (vc * W) v0 = Ok (fold_left (map2 op) (tab (vc - 1) row) v0)).
    { destruct Hr as [Hr|(R & e & -> & ->)].
      - apply explicit_batch_plain with (count := vc - 1); try assumption; try lia.
      - subst K. cbn. apply explicit_batch_comp; try lia. intros k Hk. split; [auto|apply Hlr]. }
    rewrite E. cbn [bind]. rewrite Hbatch.
    destruct (fold_rows op Ha Hcm (tab (vc - 1) row) v0 init (Z.to_nat W) Hv0) as [F _].
    { intros r0 Hin. unfold tab in Hin at 1. apply in_map_iff in Hin as (k & <- & _). apply Hlr. }
    rewrite F. do 2 f_equal. f_equal.
    assert (Hcat : concat (tab (vc - 1) row) = tab ((vc - 1) * W) (fun i => x (W + i))).
    { rewrite <- (concat_rows (fun i => x (W + i)) W (vc - 1)) by lia. f_equal.
      apply tab_ext. intros k Hk. unfold row. apply tab_ext. intros j Hj. f_equal. ring. }
    rewrite Hcat. replace (vc * W) with (W + (vc - 1) * W) by ring. rewrite tab_app by nia.
    f_equal. }
  rewrite P. cbn [bind]. rewrite (fetch_spec lds x) by (auto with zarith; intros; apply Hs; lia).
  cbn [bind]. rewrite Hop, <- fold_left_app, <- tab_app by lia. do 3 f_equal. lia.
Qed.

Section Tops.
Context {T1 T2 K : Type}.
Variables (r : redop K) (op : K -> K -> K) (W : Z) (vec : bool).
Hypothesis Hr : redop_ok r op \/ exists (R : CRing) (e : car R = K), r = eq_rect (car R) redop (comp_sum R) K e /\
                      op = eq_rect (car R) (fun K => K -> K -> K) radd K e.
Hypothesis HW : 1 <= W.

Lemma nth_fun {A} (l : list A) : l <> [] -> exists d, forall i, 0 <= i < lenZ l ->
  nthZ l i = Some (match nthZ l i with Some a => a | None => d end).
Proof.
  destruct l as [|d l]; [contradiction|]. intros _. exists d. intros i Hi.
  destruct (nthZ_in _ i Hi) as [a ->]. reflexivity.
Qed.
Lemma slice_tab {A} (l : list A) (d : A) k : 0 <= k -> k + W <= lenZ l ->
  slice l k W = Ok (tab W (fun j => match nthZ l (k + j) with Some a => a | None => d end)).
Proof.
  intros Hk Hl. destruct (slice_ok l k W Hk ltac:(lia) Hl) as (v & E & L & N). rewrite E. f_equal.
  apply list_eq_tab; [lia|]. intros i Hi. rewrite N by lia.
  destruct (nthZ_in l (k + i) ltac:(lia)) as [a ->]. reflexivity.
Qed.
Lemma Reduce_spec l init : Reduce W vec r l init = Ok (fold_left op l init).
Proof.
  destruct l as [|d l0] eqn:El.
  - unfold Reduce, ReduceWith. rewrite (reduce_top_spec r op W vec _ _ (fun _ => init)); [reflexivity|exact Hr|exact HW|reflexivity| |].
    all: unfold lenZ; cbn [length]; intros; lia.
  - rewrite <- El. transitivity (Ok (fold_left op (tab (lenZ l) (fun i => match nthZ l i with Some a => a | None => d end)) init)); [|now rewrite <- tab_nthZ]. unfold Reduce, ReduceWith.
    apply (reduce_top_spec r op W vec); [exact Hr|exact HW|apply lenZ_nonneg| |].
    + intros k Hk. unfold rd. destruct (nthZ_in l k Hk) as [a ->]. reflexivity.
    + intros k Hk Hl. now apply slice_tab.
Qed.
Lemma TransformReduce_spec (f : T1 -> K) l init :
  TransformReduce W vec r f l init = Ok (fold_left op (map f l) init).
Proof.
  destruct l as [|d l0] eqn:El.
  - unfold TransformReduce, TransformReduceWith. rewrite (reduce_top_spec r op W vec _ _ (fun _ => init)); [reflexivity|exact Hr|exact HW|reflexivity| |].
    all: unfold lenZ; cbn [length]; intros; lia.
  - rewrite <- El. transitivity (Ok (fold_left op (map f (tab (lenZ l) (fun i => match nthZ l i with Some a => a | None => d end))) init)); [|now rewrite <- tab_nthZ]. rewrite map_tab. unfold TransformReduce, TransformReduceWith.
    apply (reduce_top_spec r op W vec); [exact Hr|exact HW|apply lenZ_nonneg| |].
    + intros k Hk. unfold rd. destruct (nthZ_in l k Hk) as [a ->]. reflexivity.
    + intros k Hk Hl. rewrite (slice_tab l d k Hk Hl). cbn [bind]. now rewrite map_tab.
Qed.
Lemma InnerProduct_spec (prod : T1 -> T2 -> K) a b init : lenZ a <= lenZ b ->
  InnerProduct W vec r prod a b init = Ok (fold_left op (map2 prod a b) init).
Proof.
  intros Hab. destruct a as [|d a0] eqn:Ea.
  - unfold InnerProduct, InnerProductWith. rewrite (reduce_top_spec r op W vec _ _ (fun _ => init)); [reflexivity|exact Hr|exact HW|reflexivity| |].
    all: unfold lenZ; cbn [length]; intros; lia.
  - destruct b as [|e b0] eqn:Eb; [rewrite lenZ_nil, lenZ_cons in Hab; pose proof (lenZ_nonneg a0); lia|].
    rewrite <- Ea, <- Eb in *. clear Ea Eb.
    assert (Hm : map2 prod a b = tab (lenZ a) (fun i => prod (match nthZ a i with Some x => x | None => d end)
                                                          (match nthZ b i with Some x => x | None => e end))).
    { apply list_eq_tab; [rewrite lenZ_map2; pose proof (lenZ_nonneg a); lia|]. intros i Hi.
      destruct (nthZ_in a i ltac:(lia)) as [x Hx]. destruct (nthZ_in b i ltac:(lia)) as [y Hy].
      rewrite (nthZ_map2 _ _ _ _ _ _ Hx Hy). now rewrite Hx, Hy. }
    rewrite Hm. unfold InnerProduct, InnerProductWith.
    apply (reduce_top_spec r op W vec); [exact Hr|exact HW|apply lenZ_nonneg| |].
    + intros k Hk. unfold rd. destruct (nthZ_in a k Hk) as [x ->]. destruct (nthZ_in b k ltac:(lia)) as [y ->]. reflexivity.
    + intros k Hk Hl. rewrite (slice_tab a d k Hk Hl). cbn [bind]. rewrite (slice_tab b e k Hk ltac:(lia)). cbn [bind].
      f_equal. apply list_eq_tab; [rewrite lenZ_map2, !lenZ_tab; lia|]. intros i Hi.
      apply nthZ_map2; now rewrite nthZ_tab by lia.
Qed.
End Tops.

(** specialisations *)
Lemma redop_comp (K : CRing) : exists (R : CRing) (e : car R = K),
  comp_sum K = eq_rect (car R) redop (comp_sum R) K e /\ @radd K = eq_rect (car R) (fun K => K -> K -> K) radd K e.
Proof. exists K, eq_refl. split; reflexivity. Qed.
