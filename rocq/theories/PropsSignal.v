(** Property theorems C06 (signal container), C07 (views). *)
From Verif Require Import Base BaseFacts SignalModel.
From Coq Require Import ZifyBool ZifyNat.
Ltac Zify.zify_post_hook ::= Z.div_mod_to_equations.

Section S.
Context {A : Type}.
Implicit Types s t : list A.

Lemma firstn_len s : firstn (Z.to_nat (lenZ s)) s = s.
Proof. unfold lenZ. rewrite Nat2Z.id. apply firstn_all. Qed.
Lemma skipn_len s : skipn (Z.to_nat (lenZ s)) s = [].
Proof. unfold lenZ. rewrite Nat2Z.id. apply skipn_all. Qed.
Lemma append_eq s t : append s t = Ok (s ++ t).
Proof.
  unfold append, vec_insert. pose proof (lenZ_nonneg s).
  replace ((0 <=? lenZ s) && (lenZ s <=? lenZ s)) with true by lia.
  rewrite firstn_len, skipn_len. now rewrite app_nil_r.
Qed.
Lemma prepend_eq s t : prepend s t = Ok (t ++ s).
Proof.
  unfold prepend, vec_insert. pose proof (lenZ_nonneg s).
  replace ((0 <=? 0) && (0 <=? lenZ s)) with true by lia. reflexivity.
Qed.
Lemma vec_insert_spec s pos t : 0 <= pos <= lenZ s ->
  okP (vec_insert s pos t) (fun r => lenZ r = lenZ s + lenZ t /\
    forall i, nthZ r i = if i <? pos then nthZ s i else if i <? pos + lenZ t then nthZ t (i - pos) else nthZ s (i - lenZ t)).
Proof.
  intros H. unfold vec_insert. replace ((0 <=? pos) && (pos <=? lenZ s)) with true by lia. apply okP_ret.
  assert (L1 : lenZ (firstn (Z.to_nat pos) s) = pos) by (rewrite lenZ_firstn; lia).
  split.
  - rewrite !lenZ_app, L1, lenZ_skipn. lia.
  - intros i. pose proof (lenZ_nonneg t). destruct (i <? pos) eqn:E1.
    + rewrite nthZ_app1 by lia. apply nthZ_firstn. lia.
    + rewrite nthZ_app2 by lia. rewrite L1. destruct (i <? pos + lenZ t) eqn:E2.
      * apply nthZ_app1. lia.
      * rewrite nthZ_app2 by lia. rewrite nthZ_skipn by lia. f_equal. lia.
Qed.
Lemma vec_erase_spec s a b : 0 <= a <= b -> b <= lenZ s ->
  okP (vec_erase s a b) (fun r => lenZ r = lenZ s - (b - a) /\
    forall i, nthZ r i = if i <? a then nthZ s i else nthZ s (i + (b - a))).
Proof.
  intros H1 H2. unfold vec_erase. replace ((0 <=? a) && (a <=? b) && (b <=? lenZ s)) with true by lia. apply okP_ret.
  assert (L1 : lenZ (firstn (Z.to_nat a) s) = a) by (rewrite lenZ_firstn; lia).
  split.
  - rewrite lenZ_app, L1, lenZ_skipn. lia.
  - intros i. destruct (i <? a) eqn:E1.
    + rewrite nthZ_app1 by lia. apply nthZ_firstn. lia.
    + rewrite nthZ_app2 by lia. rewrite L1, nthZ_skipn by lia. f_equal. lia.
Qed.
Lemma extract_front_eq s n : 0 <= n <= lenZ s ->
  extract_front s n = Ok (firstn (Z.to_nat n) s, skipn (Z.to_nat n) s).
Proof.
  intros H. unfold extract_front, vec_copy, slice, erase, vec_erase.
  replace (n <=? lenZ s) with true by lia. cbn [assert_].
  replace ((0 <=? 0) && (0 <=? n) && (0 + n <=? lenZ s)) with true by lia. cbn [bind].
  replace ((0 <=? 0) && (0 <=? 0 + n) && (0 + n <=? lenZ s)) with true by lia. reflexivity.
Qed.
Lemma extract_back_eq s n : 0 <= n <= lenZ s ->
  extract_back s n = Ok (skipn (Z.to_nat (lenZ s - n)) s, firstn (Z.to_nat (lenZ s - n)) s).
Proof.
  intros H. unfold extract_back, vec_copy, slice, erase, vec_erase.
  replace (n <=? lenZ s) with true by lia. cbn [assert_].
  replace ((0 <=? 0 - n + lenZ s) && (0 <=? n) && (0 - n + lenZ s + n <=? lenZ s)) with true by lia. cbn [bind].
  replace ((0 <=? lenZ s - n) && (lenZ s - n <=? lenZ s) && (lenZ s <=? lenZ s)) with true by lia. cbn [bind].
  rewrite skipn_len, app_nil_r. do 2 f_equal. replace (0 - n + lenZ s) with (lenZ s - n) by lia.
  rewrite firstn_all2; [reflexivity|]. rewrite skipn_length. unfold lenZ in *. lia.
Qed.
End S.

(* C06 *)
Theorem C06_append_prepend_push : forall A (s t : list A) a,
  append s t = Ok (s ++ t) /\ prepend s t = Ok (t ++ s) /\ push_back s a = s ++ [a] /\ clear s = [].
Proof. intros. repeat split; [apply append_eq|apply prepend_eq]. Qed.
Print Assumptions C06_append_prepend_push.

Theorem C06_insert : forall A (s t : list A) pos, 0 <= pos <= lenZ s ->
  okP (insert s pos t) (fun r => lenZ r = lenZ s + lenZ t /\ forall i, nthZ r i =
    if i <? pos then nthZ s i else if i <? pos + lenZ t then nthZ t (i - pos) else nthZ s (i - lenZ t)).
Proof. intros. now apply vec_insert_spec. Qed.
Print Assumptions C06_insert.

Theorem C06_erase : forall A (s : list A) a b, 0 <= a <= b -> b <= lenZ s ->
  okP (erase s a b) (fun r => lenZ r = lenZ s - (b - a) /\
    forall i, nthZ r i = if i <? a then nthZ s i else nthZ s (i + (b - a))) /\
  (a < lenZ s -> erase1 s a = erase s a (a + 1)).
Proof.
  intros. split; [now apply vec_erase_spec|]. intros. unfold erase1. now replace (a <? lenZ s) with true by lia.
Qed.
Print Assumptions C06_erase.

Theorem C06_resize : forall A (s : list A) count value, 0 <= count ->
  lenZ (resize s count value) = count /\
  forall i, 0 <= i < count -> nthZ (resize s count value) i = if i <? lenZ s then nthZ s i else Some value.
Proof.
  intros A s count value H. unfold resize, vec_resize. pose proof (lenZ_nonneg s). split.
  - rewrite lenZ_app, lenZ_firstn, lenZ_repeat. lia.
  - intros i Hi. destruct (i <? lenZ s) eqn:E.
    + rewrite nthZ_app1 by (rewrite lenZ_firstn; lia). apply nthZ_firstn. lia.
    + rewrite nthZ_app2 by (rewrite lenZ_firstn; lia). apply nthZ_repeat. rewrite lenZ_firstn. lia.
Qed.
Print Assumptions C06_resize.

(** extraction splits the signal: nothing is lost, reordered or duplicated, and putting the part
    back restores the signal *)
Theorem C06_extract_front : forall A (s : list A) n, 0 <= n <= lenZ s ->
  okP (extract_front s n) (fun pr => let (part, rest) := pr in
    lenZ part = n /\ s = part ++ rest /\ prepend rest part = Ok s).
Proof.
  intros A s n H. rewrite extract_front_eq by exact H. apply okP_ret. rewrite prepend_eq.
  rewrite firstn_skipn. repeat split. rewrite lenZ_firstn. lia.
Qed.
Print Assumptions C06_extract_front.
Theorem C06_extract_back : forall A (s : list A) n, 0 <= n <= lenZ s ->
  okP (extract_back s n) (fun pr => let (part, rest) := pr in
    lenZ part = n /\ s = rest ++ part /\ append rest part = Ok s).
Proof.
  intros A s n H. rewrite extract_back_eq by exact H. apply okP_ret. rewrite append_eq.
  rewrite firstn_skipn. repeat split. rewrite lenZ_skipn. lia.
Qed.
Print Assumptions C06_extract_back.
Theorem C06_erase_undoes_insert : forall A (s t : list A) pos, 0 <= pos <= lenZ s ->
  (do r <- insert s pos t; erase r pos (pos + lenZ t)) = Ok s.
Proof.
  intros A s t pos H. destruct (vec_insert_spec s pos t H) as (r & E & L & N). unfold insert. rewrite E. cbn [bind].
  pose proof (lenZ_nonneg t).
  destruct (vec_erase_spec r pos (pos + lenZ t) ltac:(lia) ltac:(lia)) as (q & E' & L' & N').
  unfold erase. rewrite E'. f_equal. apply list_ext; [lia|]. intros i Hi. rewrite N'.
  replace (pos + lenZ t - pos) with (lenZ t) by lia.
  destruct (i <? pos) eqn:B.
  - rewrite N. now rewrite B.
  - rewrite N. replace (i + lenZ t <? pos) with false by lia. replace (i + lenZ t <? pos + lenZ t) with false by lia.
    f_equal. lia.
Qed.
Print Assumptions C06_erase_undoes_insert.

(** A signal used as a FIFO: for every history of appends and extract_fronts (of no more than is
    there), what came out followed by what is left is what went in *)
Inductive fifo_op (A : Type) := Push (x : list A) | Pop (n : Z).
Arguments Push {A}. Arguments Pop {A}.
Fixpoint fifo_run {A} (ops : list (fifo_op A)) (buf out : list A) : outcome (list A * list A) :=
  match ops with
  | [] => Ok (buf, out)
  | Push x :: ops => do buf <- append buf x; fifo_run ops buf out
  | Pop n :: ops => do (part, rest) <- extract_front buf n; fifo_run ops rest (out ++ part)
  end.
Fixpoint pushed {A} (ops : list (fifo_op A)) : list A :=
  match ops with [] => [] | Push x :: ops => x ++ pushed ops | Pop _ :: ops => pushed ops end.
Fixpoint fifo_fits {A} (ops : list (fifo_op A)) (size : Z) : Prop :=
  match ops with [] => True | Push x :: ops => fifo_fits ops (size + lenZ x)
  | Pop n :: ops => 0 <= n <= size /\ fifo_fits ops (size - n) end.
Theorem C06_fifo_history : forall A (ops : list (fifo_op A)) buf out, fifo_fits ops (lenZ buf) ->
  okP (fifo_run ops buf out) (fun r => let (buf', out') := r in out' ++ buf' = out ++ buf ++ pushed ops).
Proof.
  intros A ops. induction ops as [|[x|n] ops IH]; intros buf out Hf; cbn [fifo_run pushed fifo_fits] in *.
  - apply okP_ret. now rewrite app_nil_r.
  - rewrite append_eq. cbn [bind]. eapply okP_imp; [apply IH; now rewrite lenZ_app|].
    intros [b o] ->. now rewrite !app_assoc.
  - destruct Hf as [Hn Hf]. rewrite extract_front_eq by exact Hn. cbn [bind].
    eapply okP_imp; [apply IH; rewrite lenZ_skipn; replace (Z.max 0 (lenZ buf - Z.of_nat (Z.to_nat n))) with (lenZ buf - n) by lia; exact Hf|].
    intros [b o] ->. rewrite <- app_assoc. f_equal. rewrite app_assoc. now rewrite firstn_skipn.
Qed.
Print Assumptions C06_fifo_history.

Example C06_nontrivial :
  insert [1;2;3] 1 [8;9] = Ok [1;8;9;2;3] /\ extract_back [1;2;3;4] 3 = Ok ([2;3;4], [1]) /\
  extract_front [1;2] 3 = UB /\
  fifo_run [Push [1;2;3]; Pop 2; Push [4]; Pop 1] [] [] = Ok ([4], [1;2;3]) /\
  fifo_fits [Push [1;2;3]; Pop 2; Push [4]; Pop 1] 0.
Proof. repeat split; try reflexivity; cbn; lia. Qed.

(* C07 *)
(** ** Specification: view [v] shows the samples [lo .. lo+n-1] of the array [mem] *)
Definition shows {A} (mem : list A) (v : view) (lo n : Z) : Prop :=
  view_size v = Ok n /\ 0 <= n /\ (view_empty v = true <-> n = 0) /\
  (forall i, 0 <= i < n -> 0 <= lo + i < lenZ mem) /\
  forall i, 0 <= i < n -> m_first v = Some lo /\ m_last v = Some (lo + n).

Lemma shows_get {A} (mem : list A) v lo n i : shows mem v lo n -> 0 <= i < n -> view_get mem v i = rd mem (lo + i).
Proof. intros (_ & _ & _ & _ & H) Hi. destruct (H i Hi) as [E _]. unfold view_get. rewrite E. reflexivity. Qed.

Definition rep (v : view) (lo n : Z) : Prop :=
  (n = 0 /\ v = mkView None None) \/ (0 < n /\ v = mkView (Some lo) (Some (lo + n))).
Lemma rep_shows {A} (mem : list A) v lo n : 0 <= lo -> lo + n <= lenZ mem -> rep v lo n -> shows mem v lo n.
Proof.
  intros Hl Hb [[-> ->]|[Hn ->]]; unfold shows, view_size, view_empty; cbn [m_first m_last pdiff].
  - split; [reflexivity|]. split; [lia|]. split; [tauto|]. split; intros; lia.
  - split; [f_equal; lia|]. split; [lia|]. split; [split; lia|]. split; [intros; lia|]. intros; split; reflexivity.
Qed.
Lemma shows_rep_cases {A} (mem : list A) v lo n : shows mem v lo n ->
  (0 < n /\ v = mkView (Some lo) (Some (lo + n))) \/ (n = 0 /\ (exists i, v = mkView (Some i) (Some i)) \/ n = 0 /\ v = mkView None None).
Proof.
  intros (Hs & Hn & He & Hb & H). destruct (Z.eq_dec n 0) as [->|].
  - right. destruct v as [[f|] [l|]]; unfold view_size, view_empty in *; cbn in *; try discriminate.
    + left. split; [reflexivity|]. exists f. assert (f =? l = true) by (apply He; reflexivity). f_equal. f_equal. lia.
    + right. auto.
  - left. destruct (H 0 ltac:(lia)) as [E1 E2]. destruct v as [f l]. cbn in *. subst. split; [lia|reflexivity].
Qed.
Lemma view_range_rep lo n p : 0 <= n -> (forall q, p = Some q -> q = lo) -> (p = None -> n = 0) ->
  okP (do l <- padd p n; view_range p l) (fun v => rep v lo n).
Proof.
  intros Hn Hp Hnone. destruct p as [q|].
  - rewrite (Hp q eq_refl). cbn [padd bind]. unfold view_range. cbn [pdiff bind].
    replace (lo + n - lo) with n by lia. destruct (Z.eqb_spec n 0) as [->|].
    + cbn [padd]. apply okP_ret. left. auto.
    + cbn [padd bind]. apply okP_ret. right. split; [lia|]. reflexivity.
  - rewrite (Hnone eq_refl). cbn. apply okP_ret. left; auto.
Qed.

Theorem C07_view_of_signal : forall A (mem : list A), okP (AsView mem) (fun v => shows mem v 0 (lenZ mem)).
Proof.
  intros A mem. eapply okP_imp.
  - apply (view_range_rep 0 (lenZ mem) (Some 0)); [apply lenZ_nonneg|congruence|discriminate].
  - intros v Hv. apply rep_shows; [lia|lia|exact Hv].
Qed.
Print Assumptions C07_view_of_signal.

(** sub-views: offsets add up, so any nesting is covered by composing these *)
Theorem C07_first : forall A (mem : list A) v lo n k, shows mem v lo n -> 0 <= k <= n ->
  okP (view_take v k) (fun w => shows mem w lo k).
Proof.
  intros A mem v lo n k H Hk. pose proof H as (Hs & Hn & _ & Hb & _). unfold view_take. rewrite Hs. cbn [bind].
  apply okP_assert; [lia|].
  destruct (Z.eq_dec k 0) as [->|].
  - destruct (shows_rep_cases _ _ _ _ H) as [[_ ->]|[[_ [i ->]]|[_ ->]]]; cbn [m_first m_last padd bind].
    + unfold view_range; cbn [pdiff bind]. replace (lo + 0 - lo) with 0 by lia. cbn. apply okP_ret.
      unfold shows; cbn. repeat split; auto; try lia; intros; lia.
    + unfold view_range; cbn [pdiff bind]. replace (i + 0 - i) with 0 by lia. cbn. apply okP_ret.
      unfold shows; cbn. repeat split; auto; try lia; intros; lia.
    + cbn. apply okP_ret. unfold shows; cbn. repeat split; auto; try lia; intros; lia.
  - destruct (shows_rep_cases _ _ _ _ H) as [[_ ->]|[[? _]|[? _]]]; [|lia|lia]. cbn [m_first m_last].
    eapply okP_imp; [apply (view_range_rep lo k (Some lo)); [lia|congruence|discriminate]|].
    intros w Hw. pose proof (Hb 0 ltac:(lia)). pose proof (Hb (n - 1) ltac:(lia)). apply rep_shows; [lia|lia|exact Hw].
Qed.
Print Assumptions C07_first.

Lemma empty_shows {A} (mem : list A) lo : shows mem (mkView None None) lo 0.
Proof. unfold shows; cbn. repeat split; auto; try lia; intros; lia. Qed.
Lemma range_shows {A} (mem : list A) lo a b : 0 <= lo -> a <= b -> b <= lenZ mem -> (a < b -> lo = a) ->
  0 <= a -> okP (view_range (Some a) (Some b)) (fun w => shows mem w lo (b - a)).
Proof.
  intros Hlo H1 H2 H3 H4. unfold view_range. cbn [pdiff bind]. destruct (Z.eqb_spec (b - a) 0) as [E|E].
  - rewrite E. cbn. apply okP_ret. apply empty_shows.
  - cbn [padd bind]. apply okP_ret. rewrite H3 by lia. apply rep_shows; [lia|lia|]. right. split; [lia|]. reflexivity.
Qed.

Theorem C07_last : forall A (mem : list A) v lo n k, shows mem v lo n -> 0 <= k <= n ->
  okP (view_takelast v k) (fun w => shows mem w (lo + n - k) k).
Proof.
  intros A mem v lo n k H Hk. pose proof H as (Hs & Hn & _ & Hb & _). unfold view_takelast. rewrite Hs. cbn [bind].
  apply okP_assert; [lia|].
  destruct (shows_rep_cases _ _ _ _ H) as [[Hp ->]|[[-> [i ->]]|[-> ->]]]; cbn [m_first m_last padd bind].
  - pose proof (Hb 0 ltac:(lia)). pose proof (Hb (n - 1) ltac:(lia)).
    eapply okP_imp; [apply (range_shows mem (lo + n - k)); lia|]. intros w Hw.
    replace (lo + n - (lo + n + - k)) with k in Hw by lia. exact Hw.
  - replace k with 0 by lia. unfold view_range; cbn [pdiff bind]. replace (i - (i + - 0)) with 0 by lia. cbn. apply okP_ret. apply empty_shows.
  - replace k with 0 by lia. cbn. apply okP_ret. apply empty_shows.
Qed.
Print Assumptions C07_last.

Theorem C07_subsignal : forall A (mem : list A) v lo n off cnt, shows mem v lo n ->
  0 <= off -> 0 <= cnt -> off + cnt <= n ->
  okP (view_sub v off cnt) (fun w => shows mem w (lo + off) cnt) /\
  okP (view_sub1 v off) (fun w => shows mem w (lo + off) (n - off)).
Proof.
  intros A mem v lo n off cnt H Ho Hc Hoc. pose proof H as (Hs & Hn & _ & Hb & _).
  unfold view_sub, view_sub1. rewrite Hs. cbn [bind].
  destruct (shows_rep_cases _ _ _ _ H) as [[Hp ->]|[[-> [i ->]]|[-> ->]]]; cbn [m_first m_last padd bind].
  - pose proof (Hb 0 ltac:(lia)). pose proof (Hb (n - 1) ltac:(lia)). split.
    + apply okP_assert; [lia|]. apply okP_assert; [lia|].
      eapply okP_imp; [apply (range_shows mem (lo + off)); lia|]. intros w Hw.
      replace (lo + off + cnt - (lo + off)) with cnt in Hw by lia. exact Hw.
    + apply okP_assert; [lia|]. eapply okP_imp; [apply (range_shows mem (lo + off)); lia|]. intros w Hw.
      replace (lo + n - (lo + off)) with (n - off) in Hw by lia. exact Hw.
  - replace off with 0 by lia. replace cnt with 0 by lia. unfold view_range; cbn [pdiff bind].
    replace (i + 0 + 0 - (i + 0)) with 0 by lia. replace (i - (i + 0)) with 0 by lia.
    split; cbn; apply okP_ret; apply empty_shows.
  - replace off with 0 by lia. replace cnt with 0 by lia. split; cbn; apply okP_ret; apply empty_shows.
Qed.
Print Assumptions C07_subsignal.

(** reading and writing through a view: exactly sample lo+i, which lies inside the array *)
Theorem C07_access : forall A (mem : list A) v lo n i a, shows mem v lo n -> 0 <= i < n ->
  (exists x, view_get mem v i = Ok x /\ nthZ mem (lo + i) = Some x) /\
  okP (view_set mem v i a) (fun mem' => lenZ mem' = lenZ mem /\
     forall j, nthZ mem' j = if j =? lo + i then Some a else nthZ mem j).
Proof.
  intros A mem v lo n i a H Hi. pose proof H as (_ & _ & _ & Hb & Hp). destruct (Hp i Hi) as [E _].
  unfold view_get, view_set. rewrite E. cbn [padd bind pread pwrite]. specialize (Hb i Hi). split.
  - destruct (rd_ok mem (lo + i) Hb) as (x & E1 & E2). eauto.
  - rewrite wr_ok by lia. apply okP_ret. split; [apply lenZ_updZ; lia|]. intros j. now rewrite nthZ_updZ by lia.
Qed.
Print Assumptions C07_access.
Theorem C07_front_back : forall A (mem : list A) v lo n, shows mem v lo n -> 0 < n ->
  view_front mem v = view_get mem v 0 /\ view_back mem v = view_get mem v (n - 1).
Proof.
  intros A mem v lo n H Hn. pose proof H as (_ & _ & _ & Hb & Hp). destruct (Hp 0 ltac:(lia)) as [E E2].
  unfold view_front, view_back, view_get. rewrite E, E2. cbn [padd bind pread]. split; f_equal; lia.
Qed.
Print Assumptions C07_front_back.

Example C07_nontrivial : (do v <- AsView [10;11;12;13;14];
    do w <- view_sub v 1 3; do x <- view_takelast w 2; view_get [10;11;12;13;14] x 0) = Ok 12 /\
  (do v <- AsView [10;11]; view_sub v 1 2) = UB.
Proof. split; reflexivity. Qed.
