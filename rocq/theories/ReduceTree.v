(** The bracketing performed by the reductions, for operators without any law. *)
From Verif Require Import Base BaseFacts KernelModel KernelProofs FloatSpec.
From Coq Require Import ZArith List Lia Arith.
Import ListNotations.
Local Open Scope Z_scope.

Section Tree.
Context {K : Type} (op : K -> K -> K).
Lemma comb_op' d1 d2 D a b la lb l : combined op d1 a la -> combined op d2 b lb ->
  (d1 < D)%nat -> (d2 < D)%nat -> Permutation (la ++ lb) l -> combined op D (op a b) l.
Proof.
  intros Ha Hb H1 H2 HP. eapply comb_weaken; [eapply comb_perm; [apply comb_op; eassumption|exact HP]|lia].
Qed.
Lemma combined_nonempty d v l : combined op d v l -> l <> [].
Proof.
  induction 1 as [| | d v l l' H IH P |]; try discriminate; auto.
  - destruct la; [congruence|discriminate].
  - intros ->. apply IH. now apply Permutation_nil, Permutation_sym.
Qed.
(** every tree can be flattened: depth at most (number of leaves - 1) *)
Lemma combined_depth d v l : combined op d v l -> combined op (length l - 1) v l.
Proof.
  induction 1 as [x|d1 d2 a b la lb Ha IHa Hb IHb|d v l l' H IH P|d d' v l H IH Hd]; auto.
  - constructor.
  - pose proof (combined_nonempty _ _ _ Ha). pose proof (combined_nonempty _ _ _ Hb).
    eapply comb_op'; [exact IHa|exact IHb| | |reflexivity];
    destruct la, lb; try congruence; rewrite app_length; cbn [length]; lia.
  - rewrite <- (Permutation_length P). now apply comb_perm with l.
Qed.
(** substitution: leaves that are themselves combinations *)
Lemma Forall2_perm_l {A B} (P : A -> B -> Prop) l l' m : Permutation l l' -> Forall2 P l m ->
  exists m', Permutation m m' /\ Forall2 P l' m'.
Proof.
  intros HP; revert m; induction HP as [|x l l' HP IH|x y l|l l' l'' HP1 IH1 HP2 IH2]; intros m H.
  - inversion H; subst. exists []; auto.
  - inversion H; subst. destruct (IH _ ltac:(eassumption)) as (m' & Hm & HF).
    eexists; split; [apply perm_skip; exact Hm|now constructor].
  - inversion H as [|? b ? m1 Hx Hr]; subst. inversion Hr as [|? b2 ? m2 Hy Hr2]; subst.
    eexists; split; [apply perm_swap|repeat constructor; assumption].
  - destruct (IH1 _ H) as (m1 & P1 & F1). destruct (IH2 _ F1) as (m2 & P2 & F2).
    exists m2; split; [now transitivity m1|assumption].
Qed.
Lemma concat_perm {A} (l m : list (list A)) : Permutation l m -> Permutation (concat l) (concat m).
Proof.
  induction 1; cbn [concat]; auto.
  - now apply Permutation_app_head.
  - rewrite !app_assoc. apply Permutation_app_tail, Permutation_app_comm.
  - etransitivity; eassumption.
Qed.
Lemma combined_subst d v l : combined op d v l -> forall d' Ls, Forall2 (combined op d') l Ls ->
  combined op (d + d') v (concat Ls).
Proof.
  induction 1 as [x|d1 d2 a b la lb Ha IHa Hb IHb|d v l l' H IH P|d d1 v l H IH Hd]; intros d' Ls HF.
  - inversion HF as [|? L ? m Hx Hr]; subst. inversion Hr; subst. cbn [concat]. rewrite app_nil_r. exact Hx.
  - apply Forall2_app_inv_l in HF as (La & Lb & FA & FB & ->). rewrite concat_app.
    eapply comb_op'; [apply IHa; exact FA|apply IHb; exact FB| | |reflexivity]; lia.
  - destruct (Forall2_perm_l _ _ _ _ (Permutation_sym P) HF) as (m' & Pm & F').
    eapply comb_perm; [apply IH; exact F'|]. apply concat_perm. now symmetry.
  - eapply comb_weaken; [apply IH; exact HF|lia].
Qed.
End Tree.

(** ** the shape of the unrolled loop *)
Section Shape.
Context {V : Type} (op : V -> V -> V).
Definition pre_acc (v : Z -> V) (count : Z) (init : V) : V :=
  let c1 := Z.b2z (Z.odd count) in
  let c2 := c1 + 2 * Z.b2z (Z.testbit count 1) in
  let a1 := if Z.odd count then op init (v 0) else init in
  let a2 := if Z.testbit count 1 then op a1 (op (v c1) (v (c1 + 1))) else a1 in
  if Z.testbit count 2 then op a2 (op (op (v c2) (v (c2 + 1))) (op (v (c2 + 2)) (v (c2 + 3)))) else a2.
Definition block (v : Z -> V) (c : Z) : V :=
  op (op (op (v c) (v (c + 1))) (op (v (c + 2)) (v (c + 3))))
     (op (op (v (c + 4)) (v (c + 5))) (op (v (c + 6)) (v (c + 7)))).
Definition pre_len (count : Z) := Z.b2z (Z.odd count) + 2 * Z.b2z (Z.testbit count 1) + 4 * Z.b2z (Z.testbit count 2).

Lemma Explicit_shape (op3 : V -> V -> V -> V * V) carry0 (ld : Z -> outcome V) (v : Z -> V) stride first last count init :
  1 <= stride -> 0 <= count -> last = first + count * stride ->
  (forall k, 0 <= k < count -> ld (first + k * stride) = Ok (v k)) ->
  Explicit op op3 carry0 ld stride first last init =
  Ok (snd (fold_left (fun st b => op3 (fst st) (snd st) b)
       (tab (count / 8) (fun k => block v (pre_len count + 8 * k))) (carry0, pre_acc v count init))).
Proof.
  intros Hst Hc Hl Hld. unfold Explicit.
  replace ((last - first) / stride) with count
    by (subst last; replace (first + count * stride - first) with (count * stride) by ring;
        symmetry; apply Z.div_mul; lia).
  pose proof (bits_of_count count Hc) as Hb. unfold pre_acc, pre_len.
  set (b0 := Z.odd count) in *. set (b1 := Z.testbit count 1) in *. set (b2 := Z.testbit count 2) in *.
  set (q := count / 8) in *. assert (Hq : 0 <= q) by (subst q; apply Z.div_pos; lia).
  assert (R0 : forall b : bool, 0 <= Z.b2z b <= 1) by (intros []; cbn; lia).
  pose proof (R0 b0) as Rb0. pose proof (R0 b1) as Rb1. pose proof (R0 b2) as Rb2.
  assert (LD : forall p j c, 0 <= c -> p = first + c * stride -> c + j < count -> 0 <= j ->
             ld (p + j * stride) = Ok (v (c + j))).
  { intros p j c H0 -> H1 H2. replace (first + c * stride + j * stride) with (first + (c + j) * stride) by ring.
    apply Hld; lia. }
  assert (LD0 : forall p c, 0 <= c -> p = first + c * stride -> c < count -> ld p = Ok (v c)).
  { intros p c H0 -> H1. apply Hld; lia. }
  match goal with |- bind ?m _ = _ =>
    assert (S1 : m = Ok (if b0 then op init (v 0) else init, first + Z.b2z b0 * stride)) end.
  { destruct b0; cbn [Z.b2z] in *.
    - rewrite (LD0 first 0) by lia. reflexivity.
    - cbn. do 2 f_equal. lia. }
  rewrite S1. cbn [bind]. clear S1. set (c1 := Z.b2z b0) in *. set (a1 := if b0 then _ else _).
  match goal with |- bind ?m _ = _ =>
    assert (S2 : m = Ok (if b1 then op a1 (op (v c1) (v (c1 + 1))) else a1, first + (c1 + 2 * Z.b2z b1) * stride)) end.
  { destruct b1; cbn [Z.b2z] in *.
    - rewrite (LD0 (first + c1 * stride) c1) by lia. cbn [bind].
      rewrite (LD (first + c1 * stride) 1 c1) by lia. cbn [bind]. f_equal. f_equal. lia.
    - do 2 f_equal. lia. }
  rewrite S2. cbn [bind]. clear S2. set (c2 := c1 + 2 * Z.b2z b1) in *. set (a2 := if b1 then _ else _).
  match goal with |- bind ?m _ = _ =>
    assert (S3 : m = Ok (if b2 then op a2 (op (op (v c2) (v (c2 + 1))) (op (v (c2 + 2)) (v (c2 + 3)))) else a2,
                         first + (c2 + 4 * Z.b2z b2) * stride)) end.
  { destruct b2; cbn [Z.b2z] in *.
    - rewrite (LD0 (first + c2 * stride) c2) by lia. cbn [bind].
      rewrite (LD (first + c2 * stride) 1 c2) by lia. cbn [bind].
      rewrite (LD (first + c2 * stride) 2 c2) by lia. cbn [bind].
      rewrite (LD (first + c2 * stride) 3 c2) by lia. cbn [bind]. f_equal. f_equal. lia.
    - do 2 f_equal. lia. }
  rewrite S3. cbn [bind]. clear S3. set (c3 := c2 + 4 * Z.b2z b2) in *. set (a3 := if b2 then _ else _).
  assert (Hc3 : 0 <= c3 /\ count = c3 + 8 * q) by lia. destruct Hc3 as [Hc3 Hcq].
  set (body := fun (first : Z) (st : V * V) => _).
  set (stp := fun (st : V * V) b => op3 (fst st) (snd st) b).
  set (bl := fun k => block v (c3 + 8 * k)).
  assert (L : okP (until_eq (Z.to_nat (last - (first + c3 * stride))) (first + c3 * stride) last (8 * stride) body
                     (carry0, a3))
                  (fun st => st = fold_left stp (tab q bl) (carry0, a3))).
  { apply (until_eq_spec (fun k st => st = fold_left stp (tab k bl) (carry0, a3)) q); try nia; [reflexivity|].
    intros k st Hk ->. subst body. cbv beta. destruct (fold_left stp (tab k bl) (carry0, a3)) as [cy acc] eqn:Est.
    set (c := c3 + 8 * k) in *. assert (Hcc : 0 <= c /\ c + 8 <= count) by lia.
    replace (first + c3 * stride + k * (8 * stride)) with (first + c * stride) by (subst c; ring).
    rewrite (LD0 (first + c * stride) c) by lia; cbn [bind].
    rewrite (LD (first + c * stride) 1 c) by lia; cbn [bind].
    rewrite (LD (first + c * stride) 2 c) by lia; cbn [bind].
    rewrite (LD (first + c * stride) 3 c) by lia; cbn [bind].
    rewrite (LD (first + c * stride) 4 c) by lia; cbn [bind].
    rewrite (LD (first + c * stride) 5 c) by lia; cbn [bind].
    rewrite (LD (first + c * stride) 6 c) by lia; cbn [bind].
    rewrite (LD (first + c * stride) 7 c) by lia; cbn [bind].
    apply okP_ret. rewrite tab_snoc by lia. rewrite fold_left_app, Est. reflexivity. }
  apply okP_eq in L. rewrite L. cbn [bind]. destruct (fold_left stp (tab q bl) (carry0, a3)) as [cy acc]. reflexivity.
Qed.

(** what the pieces combine *)
Lemma tab_plus n m (f : Z -> V) : 0 <= n -> 0 <= m -> tab (n + m) f = tab n f ++ tab m (fun j => f (n + j)).
Proof using. clear. intros. now rewrite tab_app by lia. Qed.
Lemma tab1 (f : Z -> V) : tab 1 f = [f 0]. Proof. reflexivity. Qed.
Lemma comb2 a b : combined op 1 (op a b) [a; b].
Proof. apply (comb_op op 0 0 a b [a] [b]); constructor. Qed.
Lemma comb4 a b c d : combined op 2 (op (op a b) (op c d)) [a; b; c; d].
Proof. apply (comb_op op 1 1 _ _ [a; b] [c; d]); apply comb2. Qed.
Lemma comb_block (v : Z -> V) c : combined op 3 (block v c) (tab 8 (fun j => v (c + j))).
Proof.
  change (tab 8 (fun j => v (c + j))) with
    ([v (c + 0); v (c + 1); v (c + 2); v (c + 3)] ++ [v (c + 4); v (c + 5); v (c + 6); v (c + 7)]).
  replace (c + 0) with c by lia. apply (comb_op op 2 2); apply comb4.
Qed.
Lemma comb_pre (v : Z -> V) count init : combined op 3 (pre_acc v count init) (init :: tab (pre_len count) v).
Proof.
  unfold pre_acc, pre_len. set (c1 := Z.b2z (Z.odd count)). set (c2 := c1 + 2 * Z.b2z (Z.testbit count 1)).
  assert (Hc1 : 0 <= c1) by (subst c1; destruct (Z.odd count); cbn; lia).
  assert (Hc2 : 0 <= c2) by (subst c2; destruct (Z.testbit count 1); cbn; lia).
  set (a1 := if Z.odd count then _ else _).
  assert (H1 : combined op 1 a1 (init :: tab c1 v)).
  { subst a1 c1. destruct (Z.odd count); cbn [Z.b2z].
    - apply comb2.
    - apply comb_weaken with 0%nat; [constructor|lia]. }
  clearbody c1 a1. set (a2 := if Z.testbit count 1 then _ else _).
  assert (H2 : combined op 2 a2 (init :: tab c2 v)).
  { subst a2 c2. destruct (Z.testbit count 1); cbn [Z.b2z].
    - eapply comb_op'; [exact H1|apply comb2|lia|lia|].
      change (2 * 1) with 2. rewrite tab_plus by lia. cbn [app]. change (tab 2 ?f) with [f 0; f 1]. cbv beta.
      now replace (c1 + 0) with c1 by lia.
    - replace (c1 + 2 * 0) with c1 by lia. apply comb_weaken with 1%nat; [exact H1|lia]. }
  clearbody c2 a2. destruct (Z.testbit count 2); cbn [Z.b2z].
  - eapply comb_op'; [exact H2|apply comb4|lia|lia|].
    change (4 * 1) with 4. rewrite tab_plus by lia. cbn [app]. change (tab 4 ?f) with [f 0; f 1; f 2; f 3]. cbv beta.
    now replace (c2 + 0) with c2 by lia.
  - replace (c2 + 4 * 0) with c2 by lia. apply comb_weaken with 2%nat; [exact H2|lia].
Qed.
Lemma pre_len_blocks count : 0 <= count -> 0 <= pre_len count /\ count = pre_len count + 8 * (count / 8).
Proof.
  clear. intros Hc. pose proof (bits_of_count count Hc). unfold pre_len.
  destruct (Z.odd count), (Z.testbit count 1), (Z.testbit count 2); cbn [Z.b2z] in *; lia.
Qed.
Lemma concat_blocks (v : Z -> V) count : 0 <= count ->
  tab (pre_len count) v ++ concat (tab (count / 8) (fun k => tab 8 (fun j => v (pre_len count + 8 * k + j)))) = tab count v.
Proof.
  clear. intros Hc. destruct (pre_len_blocks count Hc) as [H0 H1].
  assert (Hq : 0 <= count / 8) by (apply Z.div_pos; lia).
  transitivity (tab (pre_len count + 8 * (count / 8)) v); [|f_equal; lia]. rewrite tab_plus by lia. f_equal.
  replace (8 * (count / 8)) with ((count / 8) * 8) by lia.
  rewrite <- concat_rows by lia. f_equal. apply tab_ext. intros k Hk. apply tab_ext. intros j Hj. f_equal. lia.
Qed.

(** plain operator: the whole loop is one combination *)
Lemma Explicit_tree carry0 (ld : Z -> outcome V) (v : Z -> V) stride first last count init :
  1 <= stride -> 0 <= count -> last = first + count * stride ->
  (forall k, 0 <= k < count -> ld (first + k * stride) = Ok (v k)) ->
  okP (Explicit op (nocarry op) carry0 ld stride first last init)
      (fun r => combined op (3 + Z.to_nat (count / 8)) r (init :: tab count v)).
Proof.
  intros Hst Hc Hl Hld. rewrite (Explicit_shape _ _ _ v _ _ _ count) by assumption. apply okP_ret.
  rewrite <- (concat_blocks v count Hc).
  assert (Hq : 0 <= count / 8) by (apply Z.div_pos; lia). set (q := count / 8) in *. clearbody q.
  set (n := pre_len count). pattern q. apply natlike_ind; [| |exact Hq].
  - cbn [tab Z.to_nat seq map fold_left snd concat]. rewrite app_nil_r. cbn [Nat.add]. apply comb_pre.
  - intros k Hk IH. unfold Z.succ. rewrite !tab_snoc by lia. rewrite fold_left_app. cbn [fold_left].
    rewrite concat_app. cbn [concat]. rewrite app_nil_r. set (st := fold_left _ _ _) in *.
    unfold nocarry at 1. cbn [snd]. rewrite app_assoc.
    eapply comb_op'; [exact IH|apply comb_block|lia|lia|]. cbn [app]. reflexivity.
Qed.
End Shape.

(** ** lanes *)
Section LaneTree.
Context {K : Type} (op : K -> K -> K) (dflt : K) (W : nat).
Notation lane j r := (nth j r dflt).
Lemma length_map2 (f : K -> K -> K) a b : length a = W -> length b = W -> length (map2 f a b) = W.
Proof using. clear. intros Ha Hb. unfold map2. rewrite map_length, combine_length. lia. Qed.
Lemma lane_map2 (f : K -> K -> K) a b j : length a = W -> length b = W -> (j < W)%nat ->
  lane j (map2 f a b) = f (lane j a) (lane j b).
Proof.
  clear op. intros Ha Hb Hj. unfold map2.
  rewrite (nth_indep _ dflt (f dflt dflt)) by (rewrite map_length, combine_length; lia).
  change (f dflt dflt) with ((fun p => f (fst p) (snd p)) (dflt, dflt)).
  rewrite map_nth, combine_nth by lia. reflexivity.
Qed.
Lemma combined_lane d v rows : combined (map2 op) d v rows -> (forall r, In r rows -> length r = W) ->
  length v = W /\ forall j, (j < W)%nat -> combined op d (lane j v) (map (fun r => lane j r) rows).
Proof.
  induction 1 as [x|d1 d2 a b la lb Ha IHa Hb IHb|d v l l' H IH P|d d1 v l H IH Hd]; intros HW.
  - split; [apply HW; left; reflexivity|]. intros j Hj. constructor.
  - destruct IHa as [La Ca]; [intros; apply HW, in_or_app; auto|].
    destruct IHb as [Lb Cb]; [intros; apply HW, in_or_app; auto|].
    split; [now apply length_map2|]. intros j Hj. rewrite lane_map2, map_app by assumption.
    apply comb_op; auto.
  - destruct IH as [L C]; [intros r Hr; apply HW; eapply Permutation_in; eassumption|].
    split; [exact L|]. intros j Hj. eapply comb_perm; [apply C; exact Hj|]. now apply Permutation_map.
  - destruct (IH HW) as [L C]. split; [exact L|]. intros j Hj. eapply comb_weaken; [apply C; exact Hj|exact Hd].
Qed.
Lemma concat_cons_perm {A B} (f : A -> B) (g : A -> list B) s :
  Permutation (concat (map (fun j => f j :: g j) s)) (map f s ++ concat (map g s)).
Proof.
  induction s as [|x s IH]; cbn [map concat]; [reflexivity|]. cbn [app]. apply perm_skip.
  rewrite IH, !app_assoc. apply Permutation_app_tail, Permutation_app_comm.
Qed.
Lemma lanes_all (r : list K) : length r = W -> map (fun j => lane j r) (seq 0 W) = r.
Proof.
  intros <-. induction r as [|x r IH]; [reflexivity|]. cbn [length seq map nth]. f_equal.
  rewrite <- seq_shift, map_map. exact IH.
Qed.
Lemma transpose_perm rows : (forall r, In r rows -> length r = W) ->
  Permutation (concat (map (fun j => map (fun r => lane j r) rows) (seq 0 W))) (concat rows).
Proof.
  induction rows as [|r rows IH]; intros HW.
  - cbn [map concat]. clear. induction (seq 0 W) as [|x s IH]; [reflexivity|exact IH].
  - cbn [map concat]. rewrite (concat_cons_perm (fun j => lane j r) (fun j => map (fun r => lane j r) rows)).
    rewrite lanes_all by (apply HW; left; reflexivity). apply Permutation_app_head, IH.
    intros; apply HW; right; assumption.
Qed.
(** a batch whose lanes are combinations, reduced further *)
Lemma batch_tree d v rows D res init :
  combined (map2 op) d v rows -> (forall r, In r rows -> length r = W) ->
  combined op D res (init :: v) -> combined op (D + d) res (init :: concat rows).
Proof.
  intros Hv HW Hres. destruct (combined_lane d v rows Hv HW) as [Lv Cv].
  eapply comb_perm.
  - apply (combined_subst op D res _ Hres d ([init] :: map (fun j => map (fun r => lane j r) rows) (seq 0 W))).
    constructor; [apply comb_weaken with 0%nat; [constructor|lia]|].
    rewrite <- (lanes_all v Lv). clear -Cv.
    assert (G : forall s, (forall j, In j s -> (j < W)%nat) ->
      Forall2 (combined op d) (map (fun j => lane j v) s) (map (fun j => map (fun r => lane j r) rows) s)).
    { induction s as [|x s IH]; intros H; cbn [map]; constructor; [apply Cv, H; left; reflexivity|].
      apply IH; intros; apply H; right; assumption. }
    apply G. intros j Hj. apply in_seq in Hj. lia.
  - cbn [concat app]. apply perm_skip. now apply transpose_perm.
Qed.
End LaneTree.

(** ** the top-level reductions *)
Definition plain_redop {K} (r : redop K) (op : K -> K -> K) : Prop := r = Plain op \/ r = Plus op.
(** the number of applications of the operator an element goes through, at most *)
Definition reduce_depth (W : Z) (vec : bool) (n : Z) : nat :=
  if vec then 3 + Z.to_nat ((n / W) / 8) + 2 * Z.to_nat W else 3 + Z.to_nat (n / 8).

Lemma reduce_top_tree {K} (op : K -> K -> K) (batch tail : list K -> K -> K) (r : redop K) W vec lds ldv (x : Z -> K) count init :
  plain_redop r op -> some_order op batch -> some_order op tail ->
  1 <= W -> 0 <= count ->
  (forall k, 0 <= k < count -> lds k = Ok (x k)) ->
  (forall k, 0 <= k -> k + W <= count -> ldv k = Ok (tab W (fun j => x (k + j)))) ->
  okP (reduce_top_with batch tail W vec r lds ldv count init)
      (fun v => combined op (reduce_depth W vec count) v (init :: tab count x)).
Proof.
  intros Hr Hbt Htl HW Hc Hs Hv. unfold reduce_top_with, reduce_depth. destruct vec.
  2:{ unfold explicit_scalar. destruct Hr as [-> | ->];
      (apply (Explicit_tree op); [lia|lia|lia|]; intros k Hk; replace (0 + k * 1) with k by lia; auto). }
  set (vc := count / W).
  pose proof (div_mul_bounds count W HW Hc) as Hdm. fold vc in Hdm.
  assert (Hvc : 0 <= vc) by (subst vc; apply Z.div_pos; lia).
  assert (P : okP (if negb (vc =? 0) then
         do vinit <- ldv 0;
         do vres <- explicit_batch W r ldv W (vc * W) vinit;
         Ok (batch vres init, vc * W)
       else Ok (init, 0)) (fun st => snd st = vc * W /\
         combined op (3 + Z.to_nat (vc / 8) + Z.to_nat W) (fst st) (init :: tab (vc * W) x))).
  { destruct (Z.eqb_spec vc 0) as [->|Hne]; cbn [negb].
    - apply okP_ret. cbn [fst snd]. split; [lia|]. change (0 * W) with 0. cbn [tab Z.to_nat seq map].
      eapply comb_weaken; [constructor|lia].
    - rewrite (Hv 0) by nia. cbn [bind].
      set (row := fun k => tab W (fun j => x ((k + 1) * W + j))).
      assert (Hrow : forall k, 0 <= k < vc - 1 -> ldv (W + k * W) = Ok (row k)).
      { intros k Hk. rewrite Hv by nia. f_equal. apply tab_ext. intros j Hj. f_equal. ring. }
      set (v0 := tab W (fun j => x (0 + j))).
      assert (Hv0 : length v0 = Z.to_nat W) by (unfold v0, tab; rewrite map_length, seq_length; reflexivity).
      assert (Hlr : forall k, length (row k) = Z.to_nat W) by (intros k; unfold row, tab; rewrite map_length, seq_length; reflexivity).
      assert (E : okP (explicit_batch W r ldv W (vc * W) v0)
        (fun v => combined (map2 op) (3 + Z.to_nat ((vc - 1) / 8)) v (v0 :: tab (vc - 1) row))).
      { unfold explicit_batch. destruct Hr as [-> | ->]; (apply (Explicit_tree (map2 op)); [lia|lia|lia|exact Hrow]). }
      eapply okP_bind; [exact E|]. intros vres Hvres. apply okP_ret. cbn [fst snd]. split; [reflexivity|].
      assert (HWs : forall rw, In rw (v0 :: tab (vc - 1) row) -> length rw = Z.to_nat W).
      { intros rw [<-|Hin]; [exact Hv0|]. unfold tab in Hin at 1. apply in_map_iff in Hin as (k & <- & _). apply Hlr. }
      destruct (combined_lane op init (Z.to_nat W) _ _ _ Hvres HWs) as [Lv _].
      pose proof (batch_tree op init (Z.to_nat W) _ _ _ _ _ _ Hvres HWs (Hbt vres init)) as HT.
      eapply comb_perm; [eapply comb_weaken; [exact HT|]|].
      + rewrite Lv. assert (Z.to_nat ((vc - 1) / 8) <= Z.to_nat (vc / 8))%nat; [|lia].
        apply Z2Nat.inj_le; [apply Z.div_pos; lia|apply Z.div_pos; lia|apply Z.div_le_mono; lia].
      + apply perm_skip. cbn [concat].
        assert (Hcat : concat (tab (vc - 1) row) = tab ((vc - 1) * W) (fun i => x (W + i))).
        { rewrite <- (concat_rows (fun i => x (W + i)) W (vc - 1)) by lia. f_equal.
          apply tab_ext. intros k Hk. unfold row. apply tab_ext. intros j Hj. f_equal. ring. }
        rewrite Hcat. replace (vc * W) with (W + (vc - 1) * W) by ring. rewrite tab_app by nia. reflexivity. }
  eapply okP_bind; [exact P|]. intros [a p] [Hp Ha]. cbn [fst snd] in *. subst p.
  rewrite (fetch_spec lds x) by (auto with zarith; intros; apply Hs; nia). cbn [bind]. apply okP_ret.
  set (rest := tab (count - vc * W) _).
  pose proof (Htl rest a) as HT.
  assert (HF : Forall2 (combined op (3 + Z.to_nat (vc / 8) + Z.to_nat W)) (a :: rest)
                 ((init :: tab (vc * W) x) :: map (fun y => [y]) rest)).
  { constructor; [exact Ha|]. clear. induction rest as [|y l IH]; cbn [map]; constructor; [|exact IH].
    eapply comb_weaken; [constructor|lia]. }
  pose proof (combined_subst op _ _ _ HT _ _ HF) as HS.
  eapply comb_perm; [eapply comb_weaken; [exact HS|]|].
  - assert (length rest <= Z.to_nat W)%nat; [|lia].
    unfold rest, tab. rewrite map_length, seq_length. apply Z2Nat.inj_le; lia.
  - cbn [concat app]. apply perm_skip.
    assert (Hc1 : concat (map (fun y => [y]) rest) = rest).
    { clear. induction rest as [|y l IH]; [reflexivity|]. cbn [map concat app]. now f_equal. }
    rewrite Hc1. unfold rest. rewrite <- tab_app by nia. replace (vc * W + (count - vc * W)) with count by ring. reflexivity.
Qed.

Section TopsTree.
Context {T1 T2 K : Type}.
Variables (op : K -> K -> K) (batch tail : list K -> K -> K) (r : redop K) (W : Z) (vec : bool).
Hypothesis Hr : plain_redop r op.
Hypothesis Hb : some_order op batch.
Hypothesis Ht : some_order op tail.
Hypothesis HW : 1 <= W.

Lemma Reduce_tree l init : okP (ReduceWith batch tail W vec r l init)
  (fun v => combined op (reduce_depth W vec (lenZ l)) v (init :: l)).
Proof.
  unfold ReduceWith. destruct l as [|d l0] eqn:El.
  - eapply okP_imp; [apply (reduce_top_tree op batch tail r W vec _ _ (fun _ => init)); [exact Hr|exact Hb|exact Ht|exact HW|apply lenZ_nonneg|intros k Hk; unfold lenZ in Hk; cbn [length Z.of_nat] in Hk; exfalso; lia|intros k Hk Hl; unfold lenZ in Hl; cbn [length Z.of_nat] in Hl; exfalso; lia]|].
    intros v Hv. exact Hv.
  - rewrite <- El in *. eapply okP_imp.
    + apply (reduce_top_tree op batch tail r W vec _ _ (fun i => match nthZ l i with Some a => a | None => d end)); [exact Hr|exact Hb|exact Ht|exact HW|apply lenZ_nonneg| |].
      * intros k Hk. unfold rd. destruct (nthZ_in l k Hk) as [a ->]. reflexivity.
      * intros k Hk Hl. now apply slice_tab.
    + intros v Hv. rewrite <- tab_nthZ in Hv. exact Hv.
Qed.
Lemma TransformReduce_tree (f : T1 -> K) l init : okP (TransformReduceWith batch tail W vec r f l init)
  (fun v => combined op (reduce_depth W vec (lenZ l)) v (init :: map f l)).
Proof.
  unfold TransformReduceWith. destruct l as [|d l0] eqn:El.
  - eapply okP_imp; [apply (reduce_top_tree op batch tail r W vec _ _ (fun _ => init)); [exact Hr|exact Hb|exact Ht|exact HW|apply lenZ_nonneg|intros k Hk; unfold lenZ in Hk; cbn [length Z.of_nat] in Hk; exfalso; lia|intros k Hk Hl; unfold lenZ in Hl; cbn [length Z.of_nat] in Hl; exfalso; lia]|].
    intros v Hv. exact Hv.
  - rewrite <- El in *. eapply okP_imp.
    + apply (reduce_top_tree op batch tail r W vec _ _ (fun i => f (match nthZ l i with Some a => a | None => d end))); [exact Hr|exact Hb|exact Ht|exact HW|apply lenZ_nonneg| |].
      * intros k Hk. unfold rd. destruct (nthZ_in l k Hk) as [a ->]. reflexivity.
      * intros k Hk Hl. rewrite (slice_tab W HW l d k Hk Hl). cbn [bind]. now rewrite map_tab.
    + intros v Hv. rewrite <- map_tab, <- tab_nthZ in Hv. exact Hv.
Qed.
Lemma InnerProduct_tree (prod : T1 -> T2 -> K) a b init : lenZ a <= lenZ b ->
  okP (InnerProductWith batch tail W vec r prod a b init)
  (fun v => combined op (reduce_depth W vec (lenZ a)) v (init :: map2 prod a b)).
Proof.
  intros Hab. unfold InnerProductWith. destruct a as [|d a0] eqn:Ea.
  - eapply okP_imp; [apply (reduce_top_tree op batch tail r W vec _ _ (fun _ => init)); [exact Hr|exact Hb|exact Ht|exact HW|apply lenZ_nonneg|intros k Hk; unfold lenZ in Hk; cbn [length Z.of_nat] in Hk; exfalso; lia|intros k Hk Hl; unfold lenZ in Hl; cbn [length Z.of_nat] in Hl; exfalso; lia]|].
    intros v Hv. exact Hv.
  - destruct b as [|e b0] eqn:Eb; [rewrite lenZ_nil, lenZ_cons in Hab; pose proof (lenZ_nonneg a0); lia|].
    rewrite <- Ea, <- Eb in *. clear Ea Eb.
    assert (Hm : map2 prod a b = tab (lenZ a) (fun i => prod (match nthZ a i with Some x => x | None => d end)
                                                          (match nthZ b i with Some x => x | None => e end))).
    { apply list_eq_tab; [rewrite lenZ_map2; pose proof (lenZ_nonneg a); lia|]. intros i Hi.
      destruct (nthZ_in a i ltac:(lia)) as [x Hx]. destruct (nthZ_in b i ltac:(lia)) as [y Hy].
      rewrite (nthZ_map2 _ _ _ _ _ _ Hx Hy). now rewrite Hx, Hy. }
    rewrite Hm.
    apply (reduce_top_tree op batch tail r W vec); [exact Hr|exact Hb|exact Ht|exact HW|apply lenZ_nonneg| |].
    + intros k Hk. unfold rd. destruct (nthZ_in a k Hk) as [x ->]. destruct (nthZ_in b k ltac:(lia)) as [y ->]. reflexivity.
    + intros k Hk Hl. rewrite (slice_tab W HW a d k Hk Hl). cbn [bind]. rewrite (slice_tab W HW b e k Hk ltac:(lia)). cbn [bind].
      f_equal. apply list_eq_tab; [rewrite lenZ_map2, !lenZ_tab; lia|]. intros i Hi.
      apply nthZ_map2; now rewrite nthZ_tab by lia.
Qed.
End TopsTree.

(** the left-to-right algorithms of the exact model are instances *)
Lemma fold_left_some_order {K} (op : K -> K -> K) : some_order op (fold_left op).
Proof.
  intros l. induction l as [|x l IH] using rev_ind; intros init; [constructor|].
  rewrite fold_left_app, app_length. cbn [fold_left length]. rewrite app_comm_cons.
  eapply comb_op'; [apply IH|apply comb_one|lia|lia|reflexivity].
Qed.
Lemma ReduceBatchPlus_some_order {K} (op : K -> K -> K) : some_order op (ReduceBatchPlus op).
Proof.
  intros [|x l] init; [constructor|]. cbn [ReduceBatchPlus length].
  eapply comb_op'; [apply comb_one|apply fold_left_some_order|lia|lia|reflexivity].
Qed.
