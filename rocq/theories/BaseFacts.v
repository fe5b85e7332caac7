(** Lemmas about the vocabulary of Base.v. *)
From Verif Require Export Base.
From Coq Require Import ZifyBool ZifyNat ZifyN.
Ltac Zify.zify_post_hook ::= Z.div_mod_to_equations.
Open Scope Z_scope.

(** ** okP: a small program logic *)
Lemma okP_ret {A} (a : A) (P : A -> Prop) : P a -> okP (Ok a) P.
Proof. intros H; exists a; split; [reflexivity|exact H]. Qed.

Lemma okP_bind {A B} (m : outcome A) (f : A -> outcome B) P Q :
  okP m P -> (forall a, P a -> okP (f a) Q) -> okP (bind m f) Q.
Proof. intros [a [-> Ha]] H; simpl; exact (H a Ha). Qed.

Lemma okP_imp {A} (m : outcome A) (P Q : A -> Prop) :
  okP m P -> (forall a, P a -> Q a) -> okP m Q.
Proof. intros [a [-> Ha]] H; exists a; split; auto. Qed.

Lemma okP_assert {A} b (k : outcome A) P : b = true -> okP k P -> okP (assert_ b k) P.
Proof. intros ->; exact (fun H => H). Qed.

Lemma okP_eq {A} (m : outcome A) a : okP m (fun x => x = a) <-> m = Ok a.
Proof. split; [intros [x [-> ->]]; reflexivity | intros ->; exists a; auto]. Qed.

Lemma bind_ok {A B} (a : A) (f : A -> outcome B) : bind (Ok a) f = f a.
Proof. reflexivity. Qed.

Lemma bind_assoc {A B C} (m : outcome A) (f : A -> outcome B) (g : B -> outcome C) :
  bind (bind m f) g = bind m (fun a => bind (f a) g).
Proof. destruct m; reflexivity. Qed.

Lemma loop_inv {S} (I : Z -> S -> Prop) (n : nat) (i step : Z) body (s : S) :
  I 0 s ->
  (forall k s, 0 <= k < Z.of_nat n -> I k s -> okP (body (i + k * step) s) (I (k + 1))) ->
  okP (loop n i step body s) (I (Z.of_nat n)).
Proof.
  revert i s I; induction n as [|n IH]; intros i s I H0 Hs.
  - exists s; auto.
  - cbn [loop].
    assert (H1 : okP (body i s) (I 1)).
    { specialize (Hs 0 s ltac:(lia) H0). replace (i + 0 * step) with i in Hs by lia. exact Hs. }
    eapply okP_bind; [exact H1|]. intros s' Hs'.
    specialize (IH (i + step) s' (fun k => I (k + 1)) Hs').
    replace (Z.of_nat (Datatypes.S n)) with (Z.of_nat n + 1) by lia.
    apply IH. intros k s2 Hk HI.
    specialize (Hs (k + 1) s2 ltac:(lia) HI).
    replace (i + step + k * step) with (i + (k + 1) * step) by lia. exact Hs.
Qed.

Lemma for1_inv {S} (I : Z -> S -> Prop) (lo hi : Z) body (s : S) :
  I lo s -> lo <= hi ->
  (forall i s, lo <= i < hi -> I i s -> okP (body i s) (I (i + 1))) ->
  okP (for_ lo hi 1 body s) (I hi).
Proof.
  intros H0 Hle Hs. unfold for_.
  assert (Hn : Z.of_nat (trips lo hi 1) = hi - lo)
    by (unfold trips; rewrite Z.div_1_r; lia).
  pose proof (loop_inv (fun k => I (lo + k)) (trips lo hi 1) lo 1 body s) as L.
  rewrite Hn in L. replace (lo + (hi - lo)) with hi in L by lia.
  apply L.
  - replace (lo + 0) with lo by lia; exact H0.
  - intros k s' Hk HI. replace (lo + k * 1) with (lo + k) by lia.
    replace (lo + (k + 1)) with (lo + k + 1) by lia. apply Hs; [lia|exact HI].
Qed.

(** strided loop: the invariant is indexed by the number of finished iterations *)
Lemma for_inv {S} (I : Z -> S -> Prop) (lo hi step : Z) body (s : S) :
  0 < step -> I 0 s ->
  (forall k s, 0 <= k -> lo + k * step < hi -> I k s -> okP (body (lo + k * step) s) (I (k + 1))) ->
  okP (for_ lo hi step body s) (fun s => exists k, 0 <= k /\ hi <= lo + k * step /\
                                          (k = 0 \/ lo + (k - 1) * step < hi) /\ I k s).
Proof.
  intros Hst H0 Hs. unfold for_.
  eapply okP_imp.
  - apply (loop_inv I); [exact H0|].
    intros k s' Hk HI. apply Hs; [lia| |exact HI].
    unfold trips in Hk.
    assert (k < (hi - lo + step - 1) / step) by lia.
    assert (k * step <= hi - lo - 1); [|lia].
    pose proof (Z.mul_div_le (hi - lo + step - 1) step Hst). nia.
  - intros a HI. exists (Z.of_nat (trips lo hi step)). split; [lia|].
    pose proof (Z.mul_succ_div_gt (hi - lo + step - 1) step Hst) as G1.
    pose proof (Z.mul_div_le (hi - lo + step - 1) step Hst) as G2.
    unfold trips in *. split; [|split; [|exact HI]].
    + destruct (Z_le_gt_dec 0 ((hi - lo + step - 1) / step)); [rewrite Z2Nat.id by lia; nia|].
      replace (Z.of_nat (Z.to_nat _)) with 0 by lia. nia.
    + destruct (Z_le_gt_dec ((hi - lo + step - 1) / step) 0); [left; lia|right].
      rewrite Z2Nat.id by lia. nia.
Qed.

(** ** arrays *)
Lemma lenZ_nonneg {A} (l : list A) : 0 <= lenZ l.
Proof. unfold lenZ; lia. Qed.
Global Hint Resolve lenZ_nonneg : core.

Lemma lenZ_nil {A} : lenZ (@nil A) = 0. Proof. reflexivity. Qed.
Lemma lenZ_cons {A} (a : A) l : lenZ (a :: l) = lenZ l + 1.
Proof. unfold lenZ; simpl length; lia. Qed.
Lemma lenZ_app {A} (l1 l2 : list A) : lenZ (l1 ++ l2) = lenZ l1 + lenZ l2.
Proof. unfold lenZ; rewrite app_length; lia. Qed.
Lemma lenZ_rev {A} (l : list A) : lenZ (rev l) = lenZ l.
Proof. unfold lenZ; rewrite rev_length; lia. Qed.
Lemma lenZ_map {A B} (f : A -> B) l : lenZ (map f l) = lenZ l.
Proof. unfold lenZ; rewrite map_length; lia. Qed.
Lemma lenZ_tab {A} n (f : Z -> A) : lenZ (tab n f) = Z.max 0 n.
Proof. unfold lenZ, tab; rewrite map_length, seq_length; lia. Qed.
Lemma lenZ_repeat {A} (a : A) n : lenZ (repeat a n) = Z.of_nat n.
Proof. unfold lenZ; rewrite repeat_length; reflexivity. Qed.
Lemma lenZ_firstn {A} n (l : list A) : lenZ (firstn n l) = Z.min (Z.of_nat n) (lenZ l).
Proof. unfold lenZ; rewrite firstn_length; lia. Qed.
Lemma lenZ_skipn {A} n (l : list A) : lenZ (skipn n l) = Z.max 0 (lenZ l - Z.of_nat n).
Proof. unfold lenZ; rewrite skipn_length; lia. Qed.
Lemma lenZ_combine {A B} (l : list A) (m : list B) : lenZ (combine l m) = Z.min (lenZ l) (lenZ m).
Proof. unfold lenZ; rewrite combine_length; lia. Qed.

Lemma nth_error_None_iff {A} (l : list A) n : nth_error l n = None <-> (length l <= n)%nat.
Proof. apply nth_error_None. Qed.

Lemma nthZ_some {A} (l : list A) i a : nthZ l i = Some a -> 0 <= i < lenZ l.
Proof.
  unfold nthZ, lenZ. destruct (Z.ltb_spec i 0) as [|Hi]; [discriminate|]. intros H.
  assert (nth_error l (Z.to_nat i) <> None) by congruence.
  apply nth_error_Some in H0. lia.
Qed.
Lemma nthZ_in {A} (l : list A) i : 0 <= i < lenZ l -> exists a, nthZ l i = Some a.
Proof.
  unfold nthZ, lenZ; intros H. destruct (Z.ltb_spec i 0); [lia|].
  destruct (nth_error l (Z.to_nat i)) as [a|] eqn:E; [eauto|].
  apply nth_error_None in E. lia.
Qed.
Lemma nthZ_none {A} (l : list A) i : nthZ l i = None <-> ~ (0 <= i < lenZ l).
Proof.
  split.
  - intros H C. destruct (nthZ_in l i C) as [a Ha]. congruence.
  - intros H. destruct (nthZ l i) as [a|] eqn:E; [|reflexivity].
    apply nthZ_some in E. contradiction.
Qed.

Lemma nthZ_nth_error {A} (l : list A) (i : nat) : nthZ l (Z.of_nat i) = nth_error l i.
Proof. unfold nthZ. destruct (Z.ltb_spec (Z.of_nat i) 0); [lia|]. now rewrite Nat2Z.id. Qed.

Lemma list_ext {A} (l m : list A) :
  lenZ l = lenZ m -> (forall i, 0 <= i < lenZ l -> nthZ l i = nthZ m i) -> l = m.
Proof.
  intros Hl H.
  assert (Hn : length l = length m) by (unfold lenZ in Hl; lia).
  assert (Hi : forall i, (i < length l)%nat -> nth_error l i = nth_error m i).
  { intros i Hi. rewrite <- !nthZ_nth_error. apply H. unfold lenZ; lia. }
  clear H Hl. revert m Hn Hi. induction l as [|a l IH]; intros [|b m] Hn Hi; try discriminate; [reflexivity|].
  f_equal.
  - specialize (Hi 0%nat ltac:(simpl; lia)). simpl in Hi. congruence.
  - apply IH; [simpl in Hn; lia|]. intros i Hlt.
    exact (Hi (S i) ltac:(simpl; lia)).
Qed.

Lemma nthZ_tab {A} n (f : Z -> A) i : 0 <= i < n -> nthZ (tab n f) i = Some (f i).
Proof.
  intros H. unfold nthZ, tab. destruct (Z.ltb_spec i 0); [lia|].
  rewrite nth_error_map.
  rewrite (nth_error_nth' _ 0%nat) by (rewrite seq_length; lia).
  rewrite seq_nth by lia. simpl. f_equal. f_equal. lia.
Qed.
Lemma nthZ_app1 {A} (l m : list A) i : i < lenZ l -> nthZ (l ++ m) i = nthZ l i.
Proof.
  unfold nthZ, lenZ; intros H. destruct (Z.ltb_spec i 0); [reflexivity|].
  apply nth_error_app1. lia.
Qed.
Lemma nthZ_app2 {A} (l m : list A) i : lenZ l <= i -> nthZ (l ++ m) i = nthZ m (i - lenZ l).
Proof.
  unfold nthZ, lenZ; intros H. destruct (Z.ltb_spec i 0); [lia|].
  destruct (Z.ltb_spec (i - Z.of_nat (length l)) 0); [lia|].
  rewrite nth_error_app2 by lia. f_equal. lia.
Qed.
Lemma nthZ_map {A B} (f : A -> B) l i : nthZ (map f l) i = option_map f (nthZ l i).
Proof. unfold nthZ. destruct (i <? 0); [reflexivity|]. apply nth_error_map. Qed.
Lemma nth_error_rev {A} (l : list A) n :
  (n < length l)%nat -> nth_error (rev l) n = nth_error l (length l - S n).
Proof.
  intros H. destruct l as [|d l0] eqn:El; [simpl in H; lia|]. rewrite <- El in *.
  rewrite (nth_error_nth' _ d) by (rewrite rev_length; lia).
  rewrite (nth_error_nth' _ d) by lia. f_equal. apply rev_nth; lia.
Qed.
Lemma nthZ_rev {A} (l : list A) i : 0 <= i < lenZ l -> nthZ (rev l) i = nthZ l (lenZ l - 1 - i).
Proof.
  unfold nthZ, lenZ; intros H. destruct (Z.ltb_spec i 0); [lia|].
  destruct (Z.ltb_spec (Z.of_nat (length l) - 1 - i) 0); [lia|].
  rewrite nth_error_rev by lia. f_equal. lia.
Qed.
Lemma nth_error_firstn {A} (l : list A) n i : (i < n)%nat -> nth_error (firstn n l) i = nth_error l i.
Proof.
  revert l i; induction n as [|n IH]; intros [|a l] i H; try lia; [destruct i; reflexivity|].
  destruct i; [reflexivity|]. simpl. apply IH; lia.
Qed.
Lemma nth_error_skipn {A} (l : list A) n i : nth_error (skipn n l) i = nth_error l (n + i).
Proof.
  revert l; induction n as [|n IH]; intros [|a l]; try reflexivity; [destruct i; reflexivity|].
  simpl. apply IH.
Qed.
Lemma nthZ_firstn {A} (l : list A) n i : i < Z.of_nat n -> nthZ (firstn n l) i = nthZ l i.
Proof. unfold nthZ; intros H. destruct (Z.ltb_spec i 0); [reflexivity|]. apply nth_error_firstn; lia. Qed.
Lemma nthZ_skipn {A} (l : list A) n i : 0 <= i -> nthZ (skipn n l) i = nthZ l (Z.of_nat n + i).
Proof.
  unfold nthZ; intros H. destruct (Z.ltb_spec i 0); [lia|].
  destruct (Z.ltb_spec (Z.of_nat n + i) 0); [lia|]. rewrite nth_error_skipn. f_equal; lia.
Qed.
Lemma nthZ_repeat {A} (a : A) n i : 0 <= i < Z.of_nat n -> nthZ (repeat a n) i = Some a.
Proof.
  unfold nthZ; intros H. destruct (Z.ltb_spec i 0); [lia|].
  rewrite (nth_error_nth' _ a) by (rewrite repeat_length; lia). now rewrite nth_repeat.
Qed.
Lemma nthZ_cons0 {A} (a : A) l : nthZ (a :: l) 0 = Some a. Proof. reflexivity. Qed.
Lemma nthZ_consS {A} (a : A) l i : 0 < i -> nthZ (a :: l) i = nthZ l (i - 1).
Proof.
  unfold nthZ; intros H. destruct (Z.ltb_spec i 0); [lia|]. destruct (Z.ltb_spec (i - 1) 0); [lia|].
  replace (Z.to_nat i) with (S (Z.to_nat (i - 1))) by lia. reflexivity.
Qed.
Lemma nthZ_combine {A B} (l : list A) (m : list B) i a b :
  nthZ l i = Some a -> nthZ m i = Some b -> nthZ (combine l m) i = Some (a, b).
Proof.
  unfold nthZ. destruct (i <? 0); [discriminate|]. generalize (Z.to_nat i) as n.
  revert m; induction l as [|x l IH]; intros m n; [destruct n; discriminate|].
  destruct m as [|y m]; [destruct n; discriminate|].
  destruct n; simpl; [congruence|apply IH].
Qed.

Lemma rd_ok {A} (l : list A) i : 0 <= i < lenZ l -> exists a, rd l i = Ok a /\ nthZ l i = Some a.
Proof. intros H. destruct (nthZ_in l i H) as [a Ha]. exists a. unfold rd. rewrite Ha. auto. Qed.
Lemma okP_rd {A} (l : list A) i (P : A -> Prop) :
  0 <= i < lenZ l -> (forall a, nthZ l i = Some a -> P a) -> okP (rd l i) P.
Proof. intros H HP. destruct (rd_ok l i H) as [a [E Ha]]. exists a; auto. Qed.

Lemma lenZ_updZ {A} (l : list A) i v : 0 <= i < lenZ l -> lenZ (updZ l i v) = lenZ l.
Proof.
  intros H. unfold updZ. rewrite lenZ_app, lenZ_cons, lenZ_firstn, lenZ_skipn. lia.
Qed.
Lemma nthZ_updZ {A} (l : list A) i v j : 0 <= i < lenZ l ->
  nthZ (updZ l i v) j = if j =? i then Some v else nthZ l j.
Proof.
  intros H. unfold updZ.
  assert (Hf : lenZ (firstn (Z.to_nat i) l) = i) by (rewrite lenZ_firstn; lia).
  destruct (Z.eqb_spec j i) as [->|Hne].
  - rewrite nthZ_app2 by lia. rewrite Hf, Z.sub_diag. reflexivity.
  - destruct (Z_lt_le_dec j i) as [Hlt|Hge].
    + rewrite nthZ_app1 by lia. apply nthZ_firstn; lia.
    + rewrite nthZ_app2 by lia. rewrite Hf, nthZ_consS by lia.
      rewrite nthZ_skipn by lia. f_equal. lia.
Qed.
Lemma okP_wr {A} (l : list A) i v (P : list A -> Prop) :
  0 <= i < lenZ l -> P (updZ l i v) -> okP (wr l i v) P.
Proof.
  intros H HP. unfold wr.
  replace ((0 <=? i) && (i <? lenZ l)) with true by (symmetry; lia).
  exists (updZ l i v); auto.
Qed.
Lemma wr_ok {A} (l : list A) i v : 0 <= i < lenZ l -> wr l i v = Ok (updZ l i v).
Proof.
  intros H. unfold wr. now replace ((0 <=? i) && (i <? lenZ l)) with true by (symmetry; lia).
Qed.

Lemma tab_nthZ {A} (d : A) (l : list A) :
  l = tab (lenZ l) (fun i => match nthZ l i with Some a => a | None => d end).
Proof.
  apply list_ext; [rewrite lenZ_tab; unfold lenZ; lia|].
  intros i Hi. rewrite nthZ_tab by lia. destruct (nthZ_in l i Hi) as [a Ha]. now rewrite Ha.
Qed.
Lemma list_eq_tab {A} (l : list A) n f :
  lenZ l = Z.max 0 n -> (forall i, 0 <= i < n -> nthZ l i = Some (f i)) -> l = tab n f.
Proof.
  intros H1 H2. apply list_ext; [rewrite lenZ_tab; exact H1|].
  intros i Hi. rewrite nthZ_tab by lia. apply H2; lia.
Qed.
Lemma tab_ext {A} n (f g : Z -> A) : (forall i, 0 <= i < n -> f i = g i) -> tab n f = tab n g.
Proof.
  intros H. apply list_eq_tab; [apply lenZ_tab|]. intros i Hi.
  rewrite nthZ_tab by lia. f_equal. auto.
Qed.
Lemma map_tab {A B} (g : A -> B) n f : map g (tab n f) = tab n (fun i => g (f i)).
Proof. unfold tab. now rewrite map_map. Qed.

(** ** Sums *)
Section Sums.
Context {K : CRing}.
Add Ring Kring : (rth K).
Local Open Scope ring_scope'.
Implicit Types f g : nat -> K.

Lemma sumf_ext n f g : (forall i, (i < n)%nat -> f i = g i) -> sumf n f = sumf n g.
Proof.
  induction n as [|n IH]; intros H; [reflexivity|]. simpl.
  rewrite IH by (intros; apply H; lia). now rewrite H by lia.
Qed.
Lemma sumf_zero n f : (forall i, (i < n)%nat -> f i = 0) -> sumf n f = 0.
Proof.
  induction n as [|n IH]; intros H; [reflexivity|]. simpl.
  rewrite IH by (intros; apply H; lia). rewrite H by lia. ring.
Qed.
Lemma sumf_add n f g : sumf n (fun i => f i + g i) = sumf n f + sumf n g.
Proof. induction n as [|n IH]; simpl; [ring|]. rewrite IH. ring. Qed.
Lemma sumf_sub n f g : sumf n (fun i => f i - g i) = sumf n f - sumf n g.
Proof. induction n as [|n IH]; simpl; [ring|]. rewrite IH. ring. Qed.
Lemma sumf_scale n c f : sumf n (fun i => c * f i) = c * sumf n f.
Proof. induction n as [|n IH]; simpl; [ring|]. rewrite IH. ring. Qed.
Lemma sumf_scale_r n c f : sumf n (fun i => f i * c) = sumf n f * c.
Proof. induction n as [|n IH]; simpl; [ring|]. rewrite IH. ring. Qed.
Lemma sumf_split n m f : sumf (n + m) f = sumf n f + sumf m (fun i => f (n + i)%nat).
Proof.
  induction m as [|m IH]; [rewrite Nat.add_0_r; simpl; ring|].
  rewrite Nat.add_succ_r. simpl. rewrite IH. ring.
Qed.
Lemma sumf_first n f : sumf (S n) f = f 0%nat + sumf n (fun i => f (S i)).
Proof. change (S n) with (1 + n)%nat. rewrite sumf_split. simpl. ring. Qed.
Lemma sumf_swap n m (h : nat -> nat -> K) :
  sumf n (fun i => sumf m (fun j => h i j)) = sumf m (fun j => sumf n (fun i => h i j)).
Proof.
  induction n as [|n IH]; simpl.
  - symmetry. now apply sumf_zero.
  - rewrite IH, <- sumf_add. reflexivity.
Qed.
Lemma sumf_rev n f : sumf n f = sumf n (fun i => f (n - 1 - i)%nat).
Proof.
  induction n as [|n IH]; [reflexivity|].
  rewrite (sumf_first n (fun i => f (S n - 1 - i)%nat)). cbn [sumf]. rewrite IH.
  replace (S n - 1 - 0)%nat with n by lia.
  rewrite (sumf_ext n (fun i => f (S n - 1 - S i)%nat) (fun i => f (n - 1 - i)%nat))
    by (intros; f_equal; lia). ring.
Qed.
Lemma sumf_single n k f : (k < n)%nat -> (forall i, (i < n)%nat -> i <> k -> f i = 0) -> sumf n f = f k.
Proof.
  intros Hk H. replace n with (k + S (n - k - 1))%nat by lia.
  rewrite sumf_split, sumf_zero by (intros; apply H; lia).
  rewrite sumf_first, Nat.add_0_r.
  rewrite (sumf_zero (n - k - 1)) by (intros; apply H; lia). ring.
Qed.

Implicit Types F G : Z -> K.
Lemma sumZ_empty lo hi F : (hi <= lo)%Z -> sumZ lo hi F = 0.
Proof. intros H. unfold sumZ. now replace (Z.to_nat (hi - lo)) with O by lia. Qed.
Lemma sumZ_ext lo hi F G : (forall i, (lo <= i < hi)%Z -> F i = G i) -> sumZ lo hi F = sumZ lo hi G.
Proof. intros H. apply sumf_ext. intros i Hi. apply H. lia. Qed.
Lemma sumZ_zero lo hi F : (forall i, (lo <= i < hi)%Z -> F i = 0) -> sumZ lo hi F = 0.
Proof. intros H. apply sumf_zero. intros i Hi. apply H. lia. Qed.
Lemma sumZ_split lo mid hi F : (lo <= mid <= hi)%Z -> sumZ lo hi F = sumZ lo mid F + sumZ mid hi F.
Proof.
  intros H. unfold sumZ.
  replace (Z.to_nat (hi - lo)) with (Z.to_nat (mid - lo) + Z.to_nat (hi - mid))%nat by lia.
  rewrite sumf_split. f_equal. apply sumf_ext. intros i Hi. f_equal. lia.
Qed.
Lemma sumZ_last lo hi F : (lo <= hi)%Z -> sumZ lo (hi + 1) F = sumZ lo hi F + F hi.
Proof.
  intros H. rewrite (sumZ_split lo hi (hi + 1)) by lia. f_equal.
  unfold sumZ. replace (Z.to_nat (hi + 1 - hi)) with 1%nat by lia. simpl.
  replace (hi + 0)%Z with hi by lia. ring.
Qed.
Lemma sumZ_one lo F : sumZ lo (lo + 1) F = F lo.
Proof. rewrite sumZ_last by lia. rewrite sumZ_empty by lia. ring. Qed.
Lemma sumZ_first lo hi F : (lo < hi)%Z -> sumZ lo hi F = F lo + sumZ (lo + 1) hi F.
Proof. intros H. rewrite (sumZ_split lo (lo + 1) hi) by lia. now rewrite sumZ_one. Qed.
Lemma sumZ_add lo hi F G : sumZ lo hi (fun i => F i + G i) = sumZ lo hi F + sumZ lo hi G.
Proof. apply sumf_add. Qed.
Lemma sumZ_sub lo hi F G : sumZ lo hi (fun i => F i - G i) = sumZ lo hi F - sumZ lo hi G.
Proof. apply sumf_sub. Qed.
Lemma sumZ_scale lo hi c F : sumZ lo hi (fun i => c * F i) = c * sumZ lo hi F.
Proof. apply sumf_scale. Qed.
Lemma sumZ_scale_r lo hi c F : sumZ lo hi (fun i => F i * c) = sumZ lo hi F * c.
Proof. unfold sumZ. apply (sumf_scale_r _ c (fun i => F (lo + Z.of_nat i)%Z)). Qed.
Lemma sumZ_shift lo hi d F : sumZ (lo + d) (hi + d) F = sumZ lo hi (fun i => F (i + d)%Z).
Proof.
  unfold sumZ. replace (hi + d - (lo + d))%Z with (hi - lo)%Z by lia.
  apply sumf_ext. intros i Hi. f_equal. lia.
Qed.
Lemma sumZ_shift' lo hi d F : sumZ lo hi F = sumZ (lo - d) (hi - d) (fun i => F (i + d)%Z).
Proof. rewrite <- sumZ_shift. f_equal; lia. Qed.
(** reflection i -> c - i *)
Lemma sumZ_reflect lo hi c F : sumZ lo hi F = sumZ (c - hi + 1) (c - lo + 1) (fun i => F (c - i)%Z).
Proof.
  unfold sumZ. replace (c - lo + 1 - (c - hi + 1))%Z with (hi - lo)%Z by lia.
  rewrite sumf_rev. apply sumf_ext. intros i Hi. f_equal. lia.
Qed.
Lemma sumZ_swap a b c d (h : Z -> Z -> K) :
  sumZ a b (fun i => sumZ c d (fun j => h i j)) = sumZ c d (fun j => sumZ a b (fun i => h i j)).
Proof. unfold sumZ. apply sumf_swap. Qed.
Lemma sumZ_single lo hi k F : (lo <= k < hi)%Z -> (forall i, (lo <= i < hi)%Z -> i <> k -> F i = 0) ->
  sumZ lo hi F = F k.
Proof.
  intros Hk H. rewrite (sumZ_split lo k hi) by lia. rewrite sumZ_zero by (intros; apply H; lia).
  rewrite sumZ_first by lia. rewrite (sumZ_zero (k + 1)) by (intros; apply H; lia). ring.
Qed.
(** restrict a sum to where the summand can be nonzero *)
Lemma sumZ_restrict lo hi lo' hi' F :
  (forall i, (lo <= i < hi)%Z -> ~ (lo' <= i < hi')%Z -> F i = 0) ->
  (forall i, (lo' <= i < hi')%Z -> ~ (lo <= i < hi)%Z -> F i = 0) ->
  sumZ lo hi F = sumZ lo' hi' F.
Proof.
  intros H1 H2.
  set (a := Z.min lo lo'). set (b := Z.max (Z.max lo' lo) (Z.max hi hi')).
  assert (E : forall x y, (a <= x)%Z -> (y <= b)%Z -> (x <= b)%Z ->
     sumZ a b (fun i => if (x <=? i)%Z && (i <? y)%Z then F i else 0) = sumZ x y F).
  { intros x y Hx Hy Hxb. destruct (Z_le_gt_dec y x).
    - rewrite (sumZ_empty x y) by lia. apply sumZ_zero. intros i Hi.
      now replace ((x <=? i)%Z && (i <? y)%Z) with false by lia.
    - rewrite (sumZ_split a x b) by lia. rewrite (sumZ_split x y b) by lia.
      rewrite sumZ_zero.
      2:{ intros i Hi. now replace ((x <=? i)%Z && (i <? y)%Z) with false by lia. }
      rewrite (sumZ_zero y b).
      2:{ intros i Hi. now replace ((x <=? i)%Z && (i <? y)%Z) with false by lia. }
      rewrite (sumZ_ext x y _ F).
      2:{ intros i Hi. now replace ((x <=? i)%Z && (i <? y)%Z) with true by lia. }
      ring. }
  rewrite <- (E lo hi) by lia. rewrite <- (E lo' hi') by lia.
  apply sumZ_ext. intros i Hi.
  destruct ((lo <=? i)%Z && (i <? hi)%Z) eqn:E1; destruct ((lo' <=? i)%Z && (i <? hi')%Z) eqn:E2;
    try reflexivity; [apply H1; lia | symmetry; apply H2; lia].
Qed.

Lemma at0_in (l : list K) i a : nthZ l i = Some a -> at0 l i = a.
Proof. unfold at0. now intros ->. Qed.
Lemma at0_out (l : list K) i : ~ (0 <= i < lenZ l)%Z -> at0 l i = 0.
Proof. intros H. unfold at0. apply nthZ_none in H. now rewrite H. Qed.
Lemma nthZ_at0 (l : list K) i : (0 <= i < lenZ l)%Z -> nthZ l i = Some (at0 l i).
Proof. intros H. unfold at0. destruct (nthZ_in l i H) as [a ->]. reflexivity. Qed.
Lemma rd_at0 (l : list K) i : (0 <= i < lenZ l)%Z -> rd l i = Ok (at0 l i).
Proof. intros H. unfold rd. now rewrite (nthZ_at0 l i H). Qed.
Lemma at0_tab n F i : (0 <= i < n)%Z -> at0 (tab n F) i = F i.
Proof. intros H. unfold at0. now rewrite nthZ_tab. Qed.
Lemma at0_tab_gen n F i : at0 (tab n F) i = if (0 <=? i)%Z && (i <? n)%Z then F i else 0.
Proof.
  destruct ((0 <=? i)%Z && (i <? n)%Z) eqn:E; [apply at0_tab; lia|].
  apply at0_out. rewrite lenZ_tab. lia.
Qed.
Lemma at0_app (l m : list K) i :
  at0 (l ++ m) i = if (i <? lenZ l)%Z then at0 l i else at0 m (i - lenZ l).
Proof.
  unfold at0. destruct (Z.ltb_spec i (lenZ l)); [now rewrite nthZ_app1 | now rewrite nthZ_app2].
Qed.
Lemma at0_updZ (l : list K) i v j : (0 <= i < lenZ l)%Z -> at0 (updZ l i v) j = if (j =? i)%Z then v else at0 l j.
Proof. intros H. unfold at0. rewrite nthZ_updZ by exact H. destruct (j =? i)%Z; reflexivity. Qed.
Lemma at0_ext (l m : list K) : lenZ l = lenZ m -> (forall i, (0 <= i < lenZ l)%Z -> at0 l i = at0 m i) -> l = m.
Proof.
  intros H1 H2. apply list_ext; [exact H1|]. intros i Hi.
  rewrite !nthZ_at0 by lia. f_equal; auto.
Qed.
Lemma at0_rev (l : list K) i : at0 (rev l) i = at0 l (lenZ l - 1 - i).
Proof.
  destruct (Z_lt_ge_dec i 0); [rewrite !at0_out; [reflexivity|lia|rewrite lenZ_rev; lia]|].
  destruct (Z_lt_ge_dec i (lenZ l)).
  - unfold at0. rewrite nthZ_rev by lia. reflexivity.
  - rewrite !at0_out; [reflexivity|lia|rewrite lenZ_rev; lia].
Qed.
Lemma at0_nil i : at0 (@nil K) i = 0.
Proof. apply at0_out. change (lenZ (@nil K)) with 0%Z. lia. Qed.
Lemma at0_cons (a : K) l i : (0 <= i)%Z -> at0 (a :: l) i = if (i =? 0)%Z then a else at0 l (i - 1).
Proof.
  intros H. unfold at0. destruct (Z.eqb_spec i 0) as [->|]; [reflexivity|].
  now rewrite nthZ_consS by lia.
Qed.
Lemma at0_skipn (l : list K) n i : (0 <= i)%Z -> at0 (skipn n l) i = at0 l (Z.of_nat n + i).
Proof. intros H. unfold at0. now rewrite nthZ_skipn. Qed.
Lemma at0_firstn (l : list K) n i : (i < Z.of_nat n)%Z -> at0 (firstn n l) i = at0 l i.
Proof. intros H. unfold at0. now rewrite nthZ_firstn. Qed.
Lemma tab_at0 (l : list K) : l = tab (lenZ l) (at0 l).
Proof. apply list_eq_tab; [pose proof (lenZ_nonneg l); lia|]. intros. now apply nthZ_at0. Qed.

Lemma rpow_add (x : K) n m : rpow x (n + m) = rpow x n * rpow x m.
Proof. induction n as [|n IH]; simpl; [ring|]. rewrite IH. ring. Qed.
Lemma rpow_one n : rpow (1 : K) n = 1.
Proof. induction n as [|n IH]; simpl; [reflexivity|]. rewrite IH. ring. Qed.
Lemma rpow_mul_base (x y : K) n : rpow (x * y) n = rpow x n * rpow y n.
Proof. induction n as [|n IH]; simpl; [ring|]. rewrite IH. ring. Qed.
Lemma rpow_mul (x : K) n m : rpow x (n * m) = rpow (rpow x n) m.
Proof.
  induction m as [|m IH]; [rewrite Nat.mul_0_r; reflexivity|].
  rewrite Nat.mul_succ_r, Nat.add_comm, rpow_add, IH. reflexivity.
Qed.
Lemma rpow_S_r (x : K) n : rpow x (S n) = rpow x n * x.
Proof. simpl. ring. Qed.

Lemma fold_left_radd (l : list K) a : fold_left radd l a = a + suml l.
Proof.
  unfold suml. revert a; induction l as [|x l IH]; intros a; cbn [fold_left]; [ring|].
  rewrite IH. symmetry. rewrite IH. ring.
Qed.
Lemma suml_cons (a : K) l : suml (a :: l) = a + suml l.
Proof. unfold suml at 1. cbn [fold_left]. rewrite fold_left_radd. ring. Qed.
Lemma suml_nil : suml (@nil K) = 0.
Proof. reflexivity. Qed.
Lemma suml_app (l m : list K) : suml (l ++ m) = suml l + suml m.
Proof.
  induction l as [|a l IH]; cbn [app]; [rewrite suml_nil; ring|].
  rewrite !suml_cons, IH. ring.
Qed.
Lemma suml_sumZ (l : list K) : suml l = sumZ 0 (lenZ l) (at0 l).
Proof.
  induction l as [|a l IH]; [reflexivity|].
  rewrite suml_cons, IH, lenZ_cons. pose proof (lenZ_nonneg l).
  rewrite (sumZ_first 0%Z (lenZ l + 1)) by lia. rewrite at0_cons by lia. change (0 =? 0)%Z with true. cbv iota. f_equal.
  rewrite (sumZ_shift' (0 + 1) (lenZ l + 1) 1). replace (0 + 1 - 1)%Z with 0%Z by lia.
  replace (lenZ l + 1 - 1)%Z with (lenZ l) by lia. apply sumZ_ext. intros i Hi.
  rewrite at0_cons by lia. destruct (Z.eqb_spec (i + 1) 0); [lia|]. f_equal; lia.
Qed.
End Sums.

(** ** blocks *)
Lemma lenZ_map2 {A B C} (f : A -> B -> C) l m : lenZ (map2 f l m) = Z.min (lenZ l) (lenZ m).
Proof. unfold map2. rewrite lenZ_map, lenZ_combine. reflexivity. Qed.
Lemma nthZ_map2 {A B C} (f : A -> B -> C) l m i a b :
  nthZ l i = Some a -> nthZ m i = Some b -> nthZ (map2 f l m) i = Some (f a b).
Proof. intros H1 H2. unfold map2. rewrite nthZ_map, (nthZ_combine _ _ _ _ _ H1 H2). reflexivity. Qed.

Lemma slice_ok {A} (l : list A) i n : 0 <= i -> 0 <= n -> i + n <= lenZ l ->
  exists v, slice l i n = Ok v /\ lenZ v = n /\ (forall k, 0 <= k < n -> nthZ v k = nthZ l (i + k)).
Proof.
  intros Hi Hn Hl. unfold slice.
  replace ((0 <=? i) && (0 <=? n) && (i + n <=? lenZ l)) with true by (symmetry; lia).
  eexists; split; [reflexivity|]. split.
  - rewrite lenZ_firstn, lenZ_skipn. lia.
  - intros k Hk. rewrite nthZ_firstn by lia. rewrite nthZ_skipn by lia. f_equal. lia.
Qed.
Lemma okP_slice {A} (l : list A) i n (P : list A -> Prop) : 0 <= i -> 0 <= n -> i + n <= lenZ l ->
  (forall v, lenZ v = n -> (forall k, 0 <= k < n -> nthZ v k = nthZ l (i + k)) -> P v) ->
  okP (slice l i n) P.
Proof.
  intros H1 H2 H3 HP. destruct (slice_ok l i n H1 H2 H3) as (v & E & L & N). exists v; auto.
Qed.
Lemma wrs_ok {A} (l : list A) i vs : 0 <= i -> i + lenZ vs <= lenZ l ->
  exists l', wrs l i vs = Ok l' /\ lenZ l' = lenZ l /\
    (forall k, nthZ l' k = if (i <=? k) && (k <? i + lenZ vs) then nthZ vs (k - i) else nthZ l k).
Proof.
  intros Hi Hl. unfold wrs. pose proof (lenZ_nonneg vs).
  replace ((0 <=? i) && (i + lenZ vs <=? lenZ l)) with true by (symmetry; lia).
  eexists; split; [reflexivity|].
  assert (Hf : lenZ (firstn (Z.to_nat i) l) = i) by (rewrite lenZ_firstn; lia).
  split.
  - rewrite !lenZ_app, Hf, lenZ_skipn. lia.
  - intros k. destruct (Z_lt_le_dec k i).
    + rewrite nthZ_app1 by lia. rewrite nthZ_firstn by lia.
      now replace ((i <=? k) && (k <? i + lenZ vs)) with false by (symmetry; lia).
    + rewrite nthZ_app2 by lia. rewrite Hf.
      destruct (Z_lt_le_dec k (i + lenZ vs)).
      * rewrite nthZ_app1 by lia.
        now replace ((i <=? k) && (k <? i + lenZ vs)) with true by (symmetry; lia).
      * rewrite nthZ_app2 by lia. rewrite nthZ_skipn by lia.
        replace ((i <=? k) && (k <? i + lenZ vs)) with false by (symmetry; lia). f_equal. lia.
Qed.
Lemma okP_wrs {A} (l : list A) i vs (P : list A -> Prop) : 0 <= i -> i + lenZ vs <= lenZ l ->
  (forall l', lenZ l' = lenZ l ->
    (forall k, nthZ l' k = if (i <=? k) && (k <? i + lenZ vs) then nthZ vs (k - i) else nthZ l k) -> P l') ->
  okP (wrs l i vs) P.
Proof.
  intros H1 H2 HP. destruct (wrs_ok l i vs H1 H2) as (v & E & L & N). exists v; auto.
Qed.
