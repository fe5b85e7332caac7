(** Rounding-error analysis of the convolution kernels, over an abstract floating-point type
    (see FloatSum.v). *)
From Verif Require Import Base BaseFacts Complex KernelModel KernelProofs ConvModel ConvProofs FloatSpec ReduceTree FloatSum ConvTree.
From Coq Require Import Reals Lra Lia List ZArith Arith Psatz.
Import ListNotations.
Local Open Scope R_scope.

Section ConvErr.
Context {V : Type} (val : V -> R) (fin : V -> Prop) (add sub mul : V -> V -> V) (zero : V) (u M e : R).
Hypothesis Hu : 0 <= u <= 1 / 1000.
Hypothesis He : 0 <= e.
Hypothesis Hadd : forall a b, fin a -> fin b -> (1 + u) * Rabs (val a + val b) < M ->
  fin (add a b) /\ Rabs (val (add a b) - (val a + val b)) <= u * Rabs (val a + val b).
Hypothesis Hsub : forall a b, fin a -> fin b -> (1 + u) * Rabs (val a - val b) < M ->
  fin (sub a b) /\ Rabs (val (sub a b) - (val a - val b)) <= u * Rabs (val a - val b).
Hypothesis Hmul : forall a b, fin a -> fin b -> (1 + u) * Rabs (val a * val b) + e < M ->
  fin (mul a b) /\ Rabs (val (mul a b) - val a * val b) <= u * Rabs (val a * val b) + e.
Hypothesis Hz : fin zero /\ val zero = 0.
Notation approx := (approx val fin).
Notation vabs := (vabs val).
Notation vsum := (vsum val).

(** exact sum of products, and of their absolute values *)
Definition psum (ps : list (V * V)) : R := sumR (map (fun p => val (fst p) * val (snd p)) ps).
Definition pabs (ps : list (V * V)) : R := sumR (map (fun p => Rabs (val (fst p) * val (snd p))) ps).
Definition pfin (ps : list (V * V)) : Prop := forall p, In p ps -> fin (fst p) /\ fin (snd p).
Lemma pabs_nonneg ps : 0 <= pabs ps.
Proof. apply sumR_nonneg. intros x Hx. apply in_map_iff in Hx as (y & <- & _). apply Rabs_pos. Qed.
Lemma psum_le ps : Rabs (psum ps) <= pabs ps.
Proof.
  unfold psum, pabs. induction ps as [|p ps IH]; cbn [map]; [unfold sumR; cbn; rewrite Rabs_R0; lra|].
  rewrite !sumR_cons. eapply Rle_trans; [apply Rabs_triang|]. lra.
Qed.
Lemma psum_snoc ps a b : psum (ps ++ [(a, b)]) = psum ps + val a * val b.
Proof. unfold psum. rewrite map_app, sumR_app. cbn. lra. Qed.
Lemma pabs_snoc ps a b : pabs (ps ++ [(a, b)]) = pabs ps + Rabs (val a * val b).
Proof. unfold pabs. rewrite map_app, sumR_app. cbn. lra. Qed.

(** ** chains of multiply-accumulate *)
Definition good_step (step : V -> V -> V -> V -> Prop) : Prop := forall t a b r, step t a b r ->
  fin t -> fin a -> fin b -> (1 + u) * (Rabs (val t) + (1 + u) * Rabs (val a * val b) + e) < M ->
  fin r /\ Rabs (val r - (val t + val a * val b)) <= u * Rabs (val t) + (2 * u + u * u) * Rabs (val a * val b) + (1 + u) * e.

Lemma chain_err step s ps r : good_step step -> chain step s ps r -> fin s -> pfin ps ->
  let n := length ps in
  (1 + u) ^ (n + 1) * (Rabs (val s) + pabs ps) + INR n * (1 + u) ^ (n + 1) * e < M ->
  fin r /\ Rabs (val r - (val s + psum ps)) <= ((1 + u) ^ (n + 1) - 1) * (Rabs (val s) + pabs ps) + INR n * (1 + u) ^ (n + 1) * e.
Proof.
  intros Hg C Fs. cbn zeta. induction C as [|l t a b r C IH St]; intros Fp HM.
  - split; [exact Fs|]. unfold psum, pabs, sumR. cbn. replace (val s - (val s + 0)) with 0 by ring. rewrite Rabs_R0.
    pose proof (Rabs_pos (val s)). nra.
  - rewrite psum_snoc, pabs_snoc, app_length in *. cbn [length] in *.
    replace (length l + 1 + 1)%nat with (S (length l + 1)) in * by lia. rewrite plus_INR in *. change (INR 1) with 1 in *.
    cbn [pow] in *. set (q := (1 + u) ^ (length l + 1)) in *.
    assert (Hq : 1 <= q) by (apply (pow1u_ge1 u (proj1 Hu))).
    set (x := Rabs (val a * val b)) in *. assert (Hx : 0 <= x) by apply Rabs_pos.
    set (A := Rabs (val s) + pabs l) in *. assert (HA : 0 <= A) by (unfold A; pose proof (Rabs_pos (val s)); pose proof (pabs_nonneg l); lra).
    replace (Rabs (val s) + (pabs l + x)) with (A + x) in * by (unfold A; ring).
    set (n := INR (length l)) in *. assert (Hn : 0 <= n) by apply pos_INR.
    assert (Hne : 0 <= n * q * e) by (apply Rmult_le_pos; [apply Rmult_le_pos|]; lra).
    assert (Hqe : e <= q * e) by (rewrite <- (Rmult_1_l e) at 1; apply Rmult_le_compat_r; lra).
    assert (Hqx : x <= q * x) by (rewrite <- (Rmult_1_l x) at 1; apply Rmult_le_compat_r; lra).
    assert (HqA : A <= q * A) by (rewrite <- (Rmult_1_l A) at 1; apply Rmult_le_compat_r; lra).
    assert (HM' : (1 + u) * (q * A + q * x + n * q * e + q * e) < M) by lra.
    assert (Pos : 0 <= q * A + q * x + n * q * e + q * e) by lra.
    assert (Hone : q * A + q * x + n * q * e + q * e <= (1 + u) * (q * A + q * x + n * q * e + q * e)) by nra.
    destruct IH as [Ft Et]; [intros p Hp; apply Fp, in_or_app; now left|lra|].
    assert (Fab : fin a /\ fin b) by (apply (Fp (a, b)), in_or_app; right; left; reflexivity).
    set (E := Rabs (val t - (val s + psum l))) in *.
    assert (Ht : Rabs (val t) <= A + E).
    { replace (val t) with ((val t - (val s + psum l)) + (val s + psum l)) by ring.
      eapply Rle_trans; [apply Rabs_triang|]. fold E. pose proof (Rabs_triang (val s) (psum l)). pose proof (psum_le l). unfold A. lra. }
    destruct (Hg t a b r St Ft (proj1 Fab) (proj2 Fab)) as [Fr Er].
    { fold x. eapply Rle_lt_trans; [|exact HM']. apply Rmult_le_compat_l; [lra|]. assert ((1 + u) * x <= q * x); [|lra].
      apply Rmult_le_compat_r; [lra|]. unfold q. rewrite <- (pow_1 (1 + u)) at 1. apply (pow1u_mono u (proj1 Hu)). lia. }
    split; [exact Fr|]. fold x in Er.
    replace (val r - (val s + (psum l + val a * val b))) with ((val r - (val t + val a * val b)) + (val t - (val s + psum l))) by ring.
    eapply Rle_trans; [apply Rabs_triang|]. fold E.
    assert (HE0 : 0 <= E) by apply Rabs_pos.
    assert (H1 : u * Rabs (val t) <= u * (A + E)) by (apply Rmult_le_compat_l; lra).
    assert (H2 : (1 + u) * E <= (1 + u) * ((q - 1) * A + n * q * e)) by (apply Rmult_le_compat_l; lra).
    assert (Hqu : (1 + u) <= q) by (unfold q; rewrite <- (pow_1 (1 + u)) at 1; apply (pow1u_mono u (proj1 Hu)); lia).
    assert (H3 : (1 + u) * (1 + u) * x <= (1 + u) * q * x) by (apply Rmult_le_compat_r; [lra|apply Rmult_le_compat_l; lra]).
    assert (H4 : (1 + u) * e <= (1 + u) * (q * e)) by (apply Rmult_le_compat_l; lra).
    lra.
Qed.

(** steps that really occur *)
Lemma mac_good : good_step (mac_step add mul).
Proof.
  intros t a b r -> Ft Fa Fb HM. set (x := Rabs (val a * val b)) in *. assert (Hx : 0 <= x) by apply Rabs_pos.
  pose proof (Rabs_pos (val t)) as Ht. assert (0 <= u * x) by (apply Rmult_le_pos; lra).
  assert (HM1 : (1 + u) * x + e < M) by nra.
  destruct (Hmul a b Fa Fb HM1) as [Fm Em]. fold x in Em.
  assert (Hm : Rabs (val (mul a b)) <= (1 + u) * x + e).
  { replace (val (mul a b)) with ((val (mul a b) - val a * val b) + val a * val b) by ring. eapply Rle_trans; [apply Rabs_triang|]. fold x. lra. }
  assert (Hs : Rabs (val t + val (mul a b)) <= Rabs (val t) + (1 + u) * x + e) by (eapply Rle_trans; [apply Rabs_triang|lra]).
  destruct (Hadd t (mul a b) Ft Fm) as [Fr Er].
  { eapply Rle_lt_trans; [|exact HM]. apply Rmult_le_compat_l; lra. }
  split; [exact Fr|].
  replace (val (add t (mul a b)) - (val t + val a * val b)) with
    ((val (add t (mul a b)) - (val t + val (mul a b))) + (val (mul a b) - val a * val b)) by ring.
  eapply Rle_trans; [apply Rabs_triang|].
  assert (u * Rabs (val t + val (mul a b)) <= u * (Rabs (val t) + (1 + u) * x + e)) by (apply Rmult_le_compat_l; lra). lra.
Qed.
Definition good_fma (fma : V -> V -> V -> V) : Prop := good_step (fun t a b r => r = fma b a t).
Lemma fma_step_good fmaV fmaS : good_fma fmaV -> good_fma fmaS -> good_step (fma_step fmaV fmaS).
Proof. intros H1 H2 t a b r [-> | ->]; [now apply H1|now apply H2]. Qed.
Lemma unfused_good : good_fma (fun a b c => add (mul a b) c).
Proof.
  intros t a b r -> Ft Fa Fb HM. rewrite (Rmult_comm (val a)) in *. set (x := Rabs (val b * val a)) in *. assert (Hx : 0 <= x) by apply Rabs_pos.
  pose proof (Rabs_pos (val t)) as Ht. assert (0 <= u * x) by (apply Rmult_le_pos; lra).
  assert (HM1 : (1 + u) * x + e < M) by nra.
  destruct (Hmul b a Fb Fa HM1) as [Fm Em]. fold x in Em.
  assert (Hm : Rabs (val (mul b a)) <= (1 + u) * x + e).
  { replace (val (mul b a)) with ((val (mul b a) - val b * val a) + val b * val a) by ring. eapply Rle_trans; [apply Rabs_triang|]. fold x. lra. }
  assert (Hs : Rabs (val (mul b a) + val t) <= Rabs (val t) + (1 + u) * x + e) by (eapply Rle_trans; [apply Rabs_triang|lra]).
  destruct (Hadd (mul b a) t Fm Ft) as [Fr Er].
  { eapply Rle_lt_trans; [|exact HM]. apply Rmult_le_compat_l; lra. }
  split; [exact Fr|].
  replace (val (add (mul b a) t) - (val t + val b * val a)) with
    ((val (add (mul b a) t) - (val (mul b a) + val t)) + (val (mul b a) - val b * val a)) by ring.
  eapply Rle_trans; [apply Rabs_triang|].
  assert (u * Rabs (val (mul b a) + val t) <= u * (Rabs (val t) + (1 + u) * x + e)) by (apply Rmult_le_compat_l; lra). lra.
Qed.
Lemma fused_good fma : (forall a b c, fin a -> fin b -> fin c -> (1 + u) * Rabs (val a * val b + val c) + e < M ->
    fin (fma a b c) /\ Rabs (val (fma a b c) - (val a * val b + val c)) <= u * Rabs (val a * val b + val c) + e) -> good_fma fma.
Proof.
  intros H t a b r -> Ft Fa Fb HM. rewrite (Rmult_comm (val a)) in *. set (x := Rabs (val b * val a)) in *. assert (Hx : 0 <= x) by apply Rabs_pos.
  pose proof (Rabs_pos (val t)) as Ht. assert (0 <= u * x) by (apply Rmult_le_pos; lra).
  assert (0 <= u * Rabs (val t)) by (apply Rmult_le_pos; lra). assert (0 <= u * e) by (apply Rmult_le_pos; lra).
  assert (0 <= u * (u * x)) by (apply Rmult_le_pos; lra).
  assert (Hs : Rabs (val b * val a + val t) <= x + Rabs (val t)) by (apply Rabs_triang).
  assert (H1s : (1 + u) * Rabs (val b * val a + val t) <= (1 + u) * (x + Rabs (val t))) by (apply Rmult_le_compat_l; lra).
  destruct (H b a t Fb Fa Ft) as [Fr Er]; [lra|]. split; [exact Fr|].
  replace (val t + val b * val a) with (val b * val a + val t) by ring.
  assert (u * Rabs (val b * val a + val t) <= u * (x + Rabs (val t))) by (apply Rmult_le_compat_l; lra). lra.
Qed.

(** ** products *)
Notation mulp := (fun p : V * V => mul (fst p) (snd p)).
Lemma products_err ps : pfin ps -> (1 + u) * pabs ps + INR (length ps) * e < M ->
  (forall x, In x (map mulp ps) -> fin x) /\ vabs (map mulp ps) <= (1 + u) * pabs ps + INR (length ps) * e /\
  Rabs (vsum (map mulp ps) - psum ps) <= u * pabs ps + INR (length ps) * e.
Proof.
  induction ps as [|[a b] ps IH]; intros Fp HM.
  - unfold FloatSum.vabs, FloatSum.vsum, psum, pabs, sumR. cbn. repeat split; [tauto| |]; rewrite ?Rminus_0_r, ?Rabs_R0; lra.
  - cbn [map length] in *. rewrite S_INR in *. cbn [fst snd].
    change (pabs ((a, b) :: ps)) with (Rabs (val a * val b) + pabs ps) in *. change (psum ((a, b) :: ps)) with (val a * val b + psum ps).
    change (vabs (mul a b :: map mulp ps)) with (Rabs (val (mul a b)) + vabs (map mulp ps)).
    change (vsum (mul a b :: map mulp ps)) with (val (mul a b) + vsum (map mulp ps)).
    set (x := Rabs (val a * val b)) in *. assert (Hx : 0 <= x) by apply Rabs_pos. pose proof (pabs_nonneg ps) as HP.
    pose proof (pos_INR (length ps)) as Hn. assert (0 <= INR (length ps) * e) by (apply Rmult_le_pos; lra).
    assert (0 <= u * x) by (apply Rmult_le_pos; lra). assert (0 <= u * pabs ps) by (apply Rmult_le_pos; lra).
    destruct IH as (F & A & E); [intros p Hp; apply Fp; now right|lra|].
    destruct (Fp (a, b) (or_introl eq_refl)) as [Fa Fb]. cbn [fst snd] in Fa, Fb.
    destruct (Hmul a b Fa Fb) as [Fm Em]; [fold x; lra|]. fold x in Em.
    repeat split.
    + intros y [<-|Hy]; auto.
    + assert (Hm : Rabs (val (mul a b)) <= Rabs (val (mul a b) - val a * val b) + x).
      { replace (val (mul a b)) with ((val (mul a b) - val a * val b) + val a * val b) at 1 by ring. apply Rabs_triang. }
      lra.
    + replace (val (mul a b) + vsum (map mulp ps) - (val a * val b + psum ps)) with
        ((val (mul a b) - val a * val b) + (vsum (map mulp ps) - psum ps)) by ring.
      eapply Rle_trans; [apply Rabs_triang|]. lra.
Qed.

(** ** the compensated loop, blocks of four *)
Notation kfac := (kfac u).
Lemma comb_pre4 (t : Z -> V) count init : combined add 2 (pre4 add t count init) (init :: tab (pre4_len count) t).
Proof.
  unfold pre4, pre4_len. set (c1 := Z.b2z (Z.odd count)).
  assert (Hc1 : (0 <= c1)%Z) by (subst c1; destruct (Z.odd count); cbn; lia).
  set (a1 := if Z.odd count then _ else _).
  assert (H1 : combined add 1 a1 (init :: tab c1 t)).
  { subst a1 c1. destruct (Z.odd count); cbn [Z.b2z].
    - apply comb2.
    - apply comb_weaken with 0%nat; [constructor|lia]. }
  clearbody c1 a1. destruct (Z.testbit count 1); cbn [Z.b2z].
  - eapply comb_op'; [exact H1|apply comb2|lia|lia|].
    change (2 * 1)%Z with 2%Z. rewrite tab_plus by lia. cbn [app]. change (tab 2 ?f) with [f 0%Z; f 1%Z]. cbv beta.
    now replace (c1 + 0)%Z with c1 by lia.
  - replace (c1 + 2 * 0)%Z with c1 by lia. apply comb_weaken with 1%nat; [exact H1|lia].
Qed.
Lemma comb_block4 (t : Z -> V) c : combined add 2 (block4 add t c) (tab 4 (fun j => t (c + j)%Z)).
Proof.
  change (tab 4 (fun j => t (c + j)%Z)) with [t (c + 0)%Z; t (c + 1)%Z; t (c + 2)%Z; t (c + 3)%Z].
  replace (c + 0)%Z with c by lia. apply comb4.
Qed.
Lemma concat_blocks4 (t : Z -> V) count : (0 <= count)%Z ->
  tab (pre4_len count) t ++ concat (tab (count / 4) (fun k => tab 4 (fun j => t (pre4_len count + 4 * k + j)%Z))) = tab count t.
Proof.
  intros Hc. pose proof (bits_of_count2 count Hc) as Hb. fold (pre4_len count) in Hb.
  assert (H0 : (0 <= pre4_len count)%Z) by (unfold pre4_len; destruct (Z.odd count), (Z.testbit count 1); cbn; lia).
  assert (Hq : (0 <= count / 4)%Z) by (apply Z.div_pos; lia).
  transitivity (tab (pre4_len count + 4 * (count / 4))%Z t); [|f_equal; lia]. rewrite tab_plus by lia. f_equal.
  replace (4 * (count / 4))%Z with ((count / 4) * 4)%Z by lia.
  rewrite <- concat_rows by lia. f_equal. apply tab_ext. intros k Hk. apply tab_ext. intros j Hj. f_equal. lia.
Qed.

Lemma loop_approx g L0 init (t : Z -> V) count : 1 <= g -> (0 <= count)%Z -> approx g init L0 ->
  (forall k, (0 <= k < count)%Z -> fin (t k)) ->
  3 * (g * (1 + u) ^ 2 * vabs (L0 ++ tab count t)) < M -> IZR (count / 4) * u <= 1 ->
  approx (g * (1 + u) ^ 2 * kfac (Z.to_nat (count / 4))) (loop_sum zero add sub true t count init) (L0 ++ tab count t).
Proof.
  intros Hg Hc Hi Ft HM Hm. unfold loop_sum, loop_state, op3.
  assert (Hq : (0 <= count / 4)%Z) by (apply Z.div_pos; lia).
  assert (El : forall (f : Z -> V), length (tab (count / 4) f) = Z.to_nat (count / 4)) by (intros f; unfold tab; now rewrite map_length, seq_length).
  pose proof (concat_blocks4 t count Hc) as Hcat.
  set (bs := tab (count / 4) (fun k => block4 add t (pre4_len count + 4 * k)%Z)).
  set (Lb := tab (count / 4) (fun k => tab 4 (fun j => t (pre4_len count + 4 * k + j)%Z))) in *.
  assert (Hall : L0 ++ tab count t = concat ((L0 ++ tab (pre4_len count) t) :: Lb)) by (cbn [concat]; now rewrite <- app_assoc, Hcat).
  assert (Fall : forall x, In x (tab count t) -> fin x).
  { intros x Hx. unfold tab in Hx. apply in_map_iff in Hx as (k & <- & Hk). apply in_seq in Hk. apply Ft. lia. }
  pose proof (pow1u_ge1 u (proj1 Hu) 2) as G2. set (p2 := (1 + u) ^ 2) in *.
  assert (Hgp : 1 <= g * p2) by nra.
  set (A := vabs (L0 ++ tab count t)) in *. assert (HA : 0 <= A) by apply vabs_nonneg.
  assert (HgA : 0 <= g * p2 * A) by (apply Rmult_le_pos; lra).
  assert (Hp2 : p2 <= g * p2) by nra.
  assert (HpA : p2 * A <= g * p2 * A) by (apply Rmult_le_compat_r; lra).
  rewrite Hall. replace (Z.to_nat (count / 4)) with (length bs) by apply El.
  apply (kahan_approx val fin add u M (proj1 Hu) Hadd sub Hsub (proj2 Hu) zero Hz);
    [exact Hgp| |rewrite <- Hall; fold A; exact HM|unfold bs; rewrite El, INR_IZR_INZ, Z2Nat.id by lia; exact Hm].
  constructor.
  - pose proof (combined_approx val fin add u M (proj1 Hu) Hadd 2 _ _ (comb_pre4 t count init) g (L0 :: map (fun y => [y]) (tab (pre4_len count) t)) Hg) as CA.
    cbn [concat] in CA. rewrite concat_singletons in CA. fold p2 in CA. apply CA.
    + constructor; [exact Hi|].
      assert (Fp : forall x, In x (tab (pre4_len count) t) -> fin x).
      { intros x Hx. apply Fall. rewrite <- Hcat. apply in_or_app. now left. }
      clear - Fp Hg. induction (tab (pre4_len count) t) as [|x l IH]; cbn [map]; constructor.
      * eapply approx_weaken; [apply approx_one, Fp; left; reflexivity|lra].
      * apply IH. intros; apply Fp; now right.
    + apply Rle_lt_trans with (g * p2 * A); [apply Rmult_le_compat_l; [lra|]|lra].
      unfold A. rewrite Hall. cbn [concat]. rewrite !vabs_app. pose proof (vabs_nonneg val (concat Lb)). lra.
  - assert (G : forall n, (0 <= n <= count / 4)%Z -> Forall2 (approx (g * p2))
       (tab n (fun k => block4 add t (pre4_len count + 4 * k)%Z)) (tab n (fun k => tab 4 (fun j => t (pre4_len count + 4 * k + j)%Z)))).
    { intros n Hn. destruct Hn as [Hn0 Hn1]. revert Hn1. pattern n. apply natlike_ind; [constructor| |exact Hn0].
      intros k Hk IH Hk1. unfold Z.succ. rewrite !tab_snoc by lia. apply Forall2_app; [apply IH; lia|]. constructor; [|constructor].
      assert (HIn : In (tab 4 (fun j => t (pre4_len count + 4 * k + j)%Z)) Lb).
      { unfold Lb, tab at 2. apply in_map_iff. exists (Z.to_nat k). split; [now rewrite Z2Nat.id by lia|]. apply in_seq. lia. }
      eapply approx_weaken; [|exact Hp2].
      apply (combined_sum val fin add u M (proj1 Hu) Hadd); [apply comb_block4| |].
      - intros x Hx. apply Fall. rewrite <- Hcat. apply in_or_app. right. apply in_concat. eauto.
      - fold p2. apply Rle_lt_trans with (p2 * A); [apply Rmult_le_compat_l; [lra|]|lra].
        unfold A. rewrite Hall. cbn [concat]. rewrite vabs_app. pose proof (vabs_nonneg val L0). pose proof (vabs_nonneg val (tab (pre4_len count) t)).
        apply in_split in HIn as (L1 & L2 & ->). rewrite concat_app. cbn [concat]. rewrite !vabs_app.
        pose proof (vabs_nonneg val (concat L1)). pose proof (vabs_nonneg val (concat L2)). lra. }
    apply (G (count / 4)%Z). lia.
Qed.

Lemma three_approx (t : Z -> V) m0 m1 m2 m3 init N : (m0 <= m1 <= m2)%Z -> (m2 <= m3)%Z -> (m3 - m0 <= N)%Z -> fin init ->
  (forall m, (m0 <= m < m3)%Z -> fin (t m)) ->
  let G := ((1 + u) ^ 2 * kfac (Z.to_nat (N / 4))) ^ 3 in
  3 * (G * vabs (init :: tab (m3 - m0) (fun k => t (m0 + k)%Z))) < M -> IZR (N / 4) * u <= 1 ->
  approx G (three_sums zero add sub true t m0 m1 m2 m3 init) (init :: tab (m3 - m0) (fun k => t (m0 + k)%Z)).
Proof.
  intros Hm1 Hm2 HN Fi Ft G HM Hm. unfold three_sums.
  set (p2 := (1 + u) ^ 2). pose proof (pow1u_ge1 u (proj1 Hu) 2) as G2. fold p2 in G2.
  set (kf := kfac (Z.to_nat (N / 4))). assert (Hkf : 1 <= kf) by (apply kfac_ge1; lra).
  assert (KM : forall c, (0 <= c <= N)%Z -> 1 <= kfac (Z.to_nat (c / 4)) <= kf /\ IZR (c / 4) * u <= 1).
  { intros c Hc. assert ((0 <= c / 4 <= N / 4)%Z) by (split; [apply Z.div_pos|apply Z.div_le_mono]; lia).
    split; [split; [apply kfac_ge1; lra|apply kfac_mono; [exact Hu|lia]]|].
    eapply Rle_trans; [|exact Hm]. apply Rmult_le_compat_r; [lra|]. apply IZR_le. lia. }
  set (g := p2 * kf). assert (Hg : 1 <= g) by (unfold g; nra). assert (HG : G = g * g * g) by (unfold G, g, kf, p2; ring).
  set (L0 := [init]). set (L1 := tab (m1 - m0) (fun k => t (m0 + k)%Z)). set (L2 := tab (m2 - m1) (fun k => t (m1 + k)%Z)).
  set (L3 := tab (m3 - m2) (fun k => t (m2 + k)%Z)).
  assert (EL : init :: tab (m3 - m0) (fun k => t (m0 + k)%Z) = ((L0 ++ L1) ++ L2) ++ L3).
  { unfold L0, L1, L2, L3. cbn [app]. f_equal. replace (m3 - m0)%Z with ((m1 - m0) + ((m2 - m1) + (m3 - m2)))%Z by lia.
    rewrite !tab_plus by lia. rewrite app_assoc. f_equal; [f_equal|]; apply tab_ext; intros i Hi; f_equal; lia. }
  rewrite EL in *. rewrite HG in *. clearbody G. clear EL.
  assert (A1 : vabs (L0 ++ L1) <= vabs ((L0 ++ L1) ++ L2)) by (rewrite (vabs_app val (L0 ++ L1)); pose proof (vabs_nonneg val L2); lra).
  assert (A2 : vabs ((L0 ++ L1) ++ L2) <= vabs (((L0 ++ L1) ++ L2) ++ L3)) by (rewrite (vabs_app val ((L0 ++ L1) ++ L2)); pose proof (vabs_nonneg val L3); lra).
  pose proof (vabs_nonneg val (L0 ++ L1)) as A0. set (A := vabs (((L0 ++ L1) ++ L2) ++ L3)) in *.
  assert (Hg1 : g <= g * g) by nra. assert (Hg2 : g * g <= g * g * g) by nra.
  assert (Hp2 : p2 <= g) by (unfold g; nra).
  assert (Step : forall gi gA L I count (tt : Z -> V), 1 <= gi -> gi * g <= gA -> (0 <= count <= N)%Z -> approx gi I L ->
     (forall k, (0 <= k < count)%Z -> fin (tt k)) -> vabs (L ++ tab count tt) <= A -> 3 * (gA * A) < M ->
     approx gA (loop_sum zero add sub true tt count I) (L ++ tab count tt)).
  { intros gi gA L I count tt Hgi HgA Hc Ha Hf HAA HMM. destruct (KM count Hc) as [[K1 K2] K3].
    assert (gi * p2 <= gi * g) by (apply Rmult_le_compat_l; lra). pose proof (vabs_nonneg val (L ++ tab count tt)).
    assert (0 <= gi * p2) by (apply Rmult_le_pos; lra).
    eapply approx_weaken; [apply (loop_approx gi); try assumption; try lia|].
    - fold p2. eapply Rle_lt_trans; [|exact HMM]. apply Rmult_le_compat_l; [lra|].
      apply Rmult_le_compat; lra.
    - fold p2. eapply Rle_trans; [|exact HgA]. unfold g. rewrite Rmult_assoc. apply Rmult_le_compat_l; [lra|].
      apply Rmult_le_compat_l; lra. }
  assert (HgA : 0 <= g * A) by (apply Rmult_le_pos; lra).
  assert (HggA : g * A <= g * g * A) by (apply Rmult_le_compat_r; lra).
  assert (HgggA : g * g * A <= g * g * g * A) by (apply Rmult_le_compat_r; lra).
  assert (S1 : approx g (loop_sum zero add sub true (fun k => t (m0 + k)%Z) (m1 - m0) init) (L0 ++ L1)).
  { apply (Step 1); [lra|lra|lia|apply approx_one; exact Fi|intros k Hk; apply Ft; lia|fold L1; lra|lra]. }
  assert (S2 : approx (g * g) (loop_sum zero add sub true (fun k => t (m1 + k)%Z) (m2 - m1)
     (loop_sum zero add sub true (fun k => t (m0 + k)%Z) (m1 - m0) init)) ((L0 ++ L1) ++ L2)).
  { apply (Step g); [lra|lra|lia|exact S1|intros k Hk; apply Ft; lia|fold L2; lra|lra]. }
  apply (Step (g * g)); [lra|lra|lia|exact S2|intros k Hk; apply Ft; lia|fold L3; fold A; lra|lra].
Qed.

(** from rounded products to exact ones *)
Lemma to_exact G init ps x n : 1 <= G -> INR (length ps) <= n -> fin init -> pfin ps ->
  3 * (G * (1 + u) * (Rabs (val init) + pabs ps) + G * (n * e)) < M ->
  ((forall y, In y (map mulp ps) -> fin y) -> 3 * (G * vabs (init :: map mulp ps)) < M -> approx G x (init :: map mulp ps)) ->
  fin x /\ Rabs (val x - (val init + psum ps)) <= (G * (1 + u) - 1) * (Rabs (val init) + pabs ps) + G * (n * e).
Proof.
  intros HG Hn Fi Fp HM H. pose proof (pabs_nonneg ps) as HP. pose proof (Rabs_pos (val init)) as HI. pose proof (pos_INR (length ps)) as Hl.
  set (P := pabs ps) in *. set (I := Rabs (val init)) in *. set (E := n * e) in *.
  assert (HE : INR (length ps) * e <= E) by (apply Rmult_le_compat_r; lra). assert (HE1 : 0 <= INR (length ps) * e) by (apply Rmult_le_pos; lra).
  assert (HuP : 0 <= u * P) by (apply Rmult_le_pos; lra). assert (HuI : 0 <= u * I) by (apply Rmult_le_pos; lra).
  set (T := (1 + u) * (I + P) + E). assert (HT : 0 <= T) by (unfold T; lra).
  assert (EM : G * (1 + u) * (I + P) + G * E = G * T) by (unfold T; ring). rewrite EM in HM.
  assert (HGT : T <= G * T) by nra.
  destruct (products_err ps Fp) as (F & A & Er); [fold P; unfold T in *; lra|]. fold P in A, Er.
  change (vabs (init :: map mulp ps)) with (I + vabs (map mulp ps)) in H.
  assert (HA : I + vabs (map mulp ps) <= T) by (unfold T; lra).
  assert (HGA : G * (I + vabs (map mulp ps)) <= G * T) by (apply Rmult_le_compat_l; lra).
  destruct H as [Fx Ex]; [exact F|lra|]. split; [exact Fx|].
  change (vabs (init :: map mulp ps)) with (I + vabs (map mulp ps)) in Ex. change (vsum (init :: map mulp ps)) with (val init + vsum (map mulp ps)) in Ex.
  replace (val x - (val init + psum ps)) with ((val x - (val init + vsum (map mulp ps))) + (vsum (map mulp ps) - psum ps)) by ring.
  eapply Rle_trans; [apply Rabs_triang|].
  assert ((G - 1) * (I + vabs (map mulp ps)) <= (G - 1) * T) by (apply Rmult_le_compat_l; lra). unfold T in *. lra.
Qed.

(** ** the sums of products are samples of the exact convolution *)
Notation elt := (elt zero).
Notation pairs := (pairs zero).
Definition rconv (a b : list V) (J : Z) : R := conv (K := Rring) (map val a) (map val b) J.
Definition aconv (a b : list V) (J : Z) : R := conv (K := Rring) (map (fun x => Rabs (val x)) a) (map (fun x => Rabs (val x)) b) J.
Lemma at0_map_val (f : V -> R) a i : f zero = 0 -> at0 (K := Rring) (map f a) i = f (elt a i).
Proof. intros H. unfold at0, ConvTree.elt. rewrite nthZ_map. destruct (nthZ a i); cbn; auto. Qed.
Lemma pairs_conv (f : V -> R) (h : V * V -> R) a b J lo hi : f zero = 0 -> (forall x y, h (x, y) = f x * f y) -> covers a b J lo hi ->
  sumR (map h (pairs a b J lo hi)) = conv (K := Rring) (map f a) (map f b) J.
Proof.
  intros Hf Hh ((H0 & H1) & H2 & H3). unfold conv. rewrite lenZ_map.
  rewrite (sumZ_restrict (K := Rring) 0 (lenZ a) lo hi).
  - transitivity (sumZ (K := Rring) lo hi (fun i => f (elt a i) * f (elt b (J - i)%Z))).
    + assert (G : forall n, (0 <= n)%Z -> sumR (map h (pairs a b J lo (lo + n))) = sumZ (K := Rring) lo (lo + n) (fun i => f (elt a i) * f (elt b (J - i)%Z))).
      { intros n Hn. pattern n. apply natlike_ind; [| |exact Hn].
        - rewrite Z.add_0_r, pairs_empty by apply Z.le_refl. rewrite sumZ_empty by apply Z.le_refl. reflexivity.
        - intros k Hk IH. unfold Z.succ. rewrite Z.add_assoc. rewrite pairs_snoc by lia. rewrite sumZ_last by lia.
          rewrite map_app, sumR_app, IH. cbn [map]. rewrite sumR_cons, Hh. unfold sumR. cbn. lra. }
      replace hi with (lo + (hi - lo))%Z by lia. apply G. lia.
    + apply sumZ_ext. intros i Hi. now rewrite !at0_map_val by exact Hf.
  - intros i Hi Hn. rewrite !at0_map_val by exact Hf. rewrite (elt_out zero b).
    + rewrite Hf. apply Rmult_0_r.
    + unfold overlap_lo, overlap_hi in H3. pose proof (lenZ_nonneg b). lia.
  - intros i Hi Hn. lia.
Qed.
Lemma psum_conv a b J lo hi : covers a b J lo hi -> psum (pairs a b J lo hi) = rconv a b J.
Proof. intros H. apply pairs_conv; [apply Hz|reflexivity|exact H]. Qed.
Lemma pabs_conv a b J lo hi : covers a b J lo hi -> pabs (pairs a b J lo hi) = aconv a b J.
Proof.
  intros H. apply (pairs_conv (fun x => Rabs (val x))); [rewrite (proj2 Hz); apply Rabs_R0|intros x y; apply Rabs_mult|exact H].
Qed.
Lemma rconv_comm a b J : rconv a b J = rconv b a J. Proof. apply conv_comm. Qed.
Lemma aconv_comm a b J : aconv a b J = aconv b a J. Proof. apply conv_comm. Qed.

Definition vfin (a : list V) : Prop := forall x, In x a -> fin x.
Lemma elt_fin a i : vfin a -> fin (elt a i).
Proof.
  intros H. unfold ConvTree.elt. destruct (nthZ a i) eqn:E; [|apply Hz]. apply H.
  pose proof (nthZ_some a i v E). replace i with (Z.of_nat (Z.to_nat i)) in E by lia. rewrite nthZ_nth_error in E. now apply nth_error_In in E.
Qed.
Lemma pairs_fin a b J lo hi : vfin a -> vfin b -> pfin (pairs a b J lo hi).
Proof.
  intros Ha Hb p Hp. unfold ConvTree.pairs, tab in Hp. apply in_map_iff in Hp as (k & <- & _). cbn [fst snd]. split; now apply elt_fin.
Qed.
Lemma pairs_length a b J lo hi : length (pairs a b J lo hi) = Z.to_nat (hi - lo).
Proof. unfold ConvTree.pairs, tab. now rewrite map_length, seq_length. Qed.

(** ** samples *)
Lemma rv_err W a b J init x N : rv_value zero add sub mul W true a b J init x -> vfin a -> vfin b -> fin init ->
  (lenZ a <= N)%Z -> IZR (N / 4) * u <= 1 ->
  let G := ((1 + u) ^ 2 * kfac (Z.to_nat (N / 4))) ^ 3 in
  3 * (G * (1 + u) * (Rabs (val init) + aconv a b J) + G * (IZR N * e)) < M ->
  fin x /\ Rabs (val x - (val init + rconv a b J)) <= (G * (1 + u) - 1) * (Rabs (val init) + aconv a b J) + G * (IZR N * e).
Proof.
  intros (m0 & m1 & m2 & m3 & H1 & H2 & Hc & Hw & ->) Fa Fb Fi HN Hm G HM. pose proof (lenZ_nonneg a) as Hla.
  rewrite <- (psum_conv a b J m0 m3 Hc). rewrite <- (pabs_conv a b J m0 m3 Hc) in *.
  assert (HG : 1 <= G).
  { unfold G. apply pow_R1_Rle. pose proof (pow1u_ge1 u (proj1 Hu) 2). pose proof (kfac_ge1 u (proj1 Hu) (Z.to_nat (N / 4))). nra. }
  assert (Hd : (m3 - m0 <= N)%Z) by (unfold covers in Hc; lia).
  apply to_exact; try assumption.
  - rewrite pairs_length, INR_IZR_INZ. apply IZR_le. lia.
  - now apply pairs_fin.
  - intros Ff HMM. replace (map mulp (pairs a b J m0 m3)) with (tab (m3 - m0) (fun k => mul (elt a (m0 + k)) (elt b (J - (m0 + k))))) in *
      by (unfold ConvTree.pairs; now rewrite map_tab).
    apply (three_approx (fun m => mul (elt a m) (elt b (J - m)))); try assumption.
    intros m Hm'. apply Ff. unfold tab. apply in_map_iff. exists (Z.to_nat (m - m0)). split; [|apply in_seq; lia].
    replace (m0 + Z.of_nat (Z.to_nat (m - m0)))%Z with m by lia. reflexivity.
Qed.

(** growing exponent and number of products *)
Lemma chain_sample step a b J lo hi init x N : good_step step -> covers a b J lo hi -> chain step init (pairs a b J lo hi) x ->
  vfin a -> vfin b -> fin init -> (hi - lo <= Z.of_nat N)%Z ->
  let G := (1 + u) ^ (N + 1) in
  G * (Rabs (val init) + aconv a b J) + G * (INR N * e) < M ->
  fin x /\ Rabs (val x - (val init + rconv a b J)) <= (G - 1) * (Rabs (val init) + aconv a b J) + G * (INR N * e).
Proof.
  intros Hs Hc C Fa Fb Fi HN G HM. pose proof (lenZ_nonneg a) as Hla.
  rewrite <- (psum_conv a b J lo hi Hc). rewrite <- (pabs_conv a b J lo hi Hc) in *.
  assert (Hl : (length (pairs a b J lo hi) <= N)%nat) by (rewrite pairs_length; unfold covers in Hc; lia).
  set (n := length (pairs a b J lo hi)) in *.
  assert (Hp : (1 + u) ^ (n + 1) <= G) by (apply (pow1u_mono u (proj1 Hu)); lia).
  pose proof (pow1u_ge1 u (proj1 Hu) (n + 1)) as Hp1. apply le_INR in Hl. pose proof (pos_INR n) as Hn.
  assert (HA : 0 <= Rabs (val init) + pabs (pairs a b J lo hi)) by (pose proof (Rabs_pos (val init)); pose proof (pabs_nonneg (pairs a b J lo hi)); lra).
  set (A := Rabs (val init) + pabs (pairs a b J lo hi)) in *. set (q := (1 + u) ^ (n + 1)) in *.
  assert (B1 : q * A <= G * A) by (apply Rmult_le_compat_r; lra).
  assert (B2 : INR n * q * e <= G * (INR N * e)).
  { replace (INR n * q * e) with (q * (INR n * e)) by ring. apply Rmult_le_compat; [lra|apply Rmult_le_pos; lra|lra|apply Rmult_le_compat_r; lra]. }
  destruct (chain_err step init (pairs a b J lo hi) x Hs C Fi (pairs_fin a b J lo hi Fa Fb)) as [Fx Ex].
  - fold n. fold q. fold A. lra.
  - split; [exact Fx|]. eapply Rle_trans; [exact Ex|]. fold n. fold q. fold A. lra.
Qed.
Lemma products_cover (a b : list V) J : exists lo hi, covers a b J lo hi /\ (hi - lo <= Z.min (lenZ a) (lenZ b))%Z /\ products zero a b J = pairs a b J lo hi.
Proof.
  unfold products. pose proof (lenZ_nonneg a). pose proof (lenZ_nonneg b).
  destruct (Z_lt_ge_dec (overlap_lo a b J) (overlap_hi a b J)).
  - exists (overlap_lo a b J), (overlap_hi a b J). split; [|split; [|reflexivity]]; unfold covers, overlap_lo, overlap_hi in *; lia.
  - exists 0%Z, 0%Z. split; [unfold covers; lia|split; [lia|]]. now rewrite !pairs_empty by lia.
Qed.
End ConvErr.
