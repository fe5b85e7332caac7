(** C67: maximum and minimum of floating-point signals, infinities included. *)
From Verif Require Import Base BaseFacts Complex KernelModel StatModel FloatSpec ReduceTree PropsFloat.
From Coq Require Import Reals Lra Lia List ZArith Arith Psatz.
From Flocq Require Import Core BinarySingleNaN.
Import ListNotations.
Local Open Scope R_scope.

(** ** Any type with a preorder: whatever the order of the comparisons, a greatest element comes out *)
Theorem C67_any_preorder : forall K (P : K -> Prop) (le : K -> K -> Prop) (choose : K -> K -> K) batch tail W vec (l : list K),
  (forall a, P a -> le a a) -> (forall a b c, P a -> P b -> P c -> le a b -> le b c -> le a c) ->
  (forall a b, P a -> P b -> (choose a b = a \/ choose a b = b) /\ le a (choose a b) /\ le b (choose a b)) ->
  some_order choose batch -> some_order choose tail -> (1 <= W)%Z -> l <> [] -> (forall x, In x l -> P x) ->
  exists m, gExtreme batch tail W vec choose l = Ok m /\ In m l /\ forall x, In x l -> le x m.
Proof.
  intros K P le choose batch tail W vec l Hr Ht Hc Hb Hta HW Hl HP.
  destruct l as [|a t]; [congruence|]. unfold gExtreme, assert_.
  replace (lenZ (a :: t) =? 0)%Z with false by (rewrite lenZ_cons; pose proof (lenZ_nonneg t); lia). cbn [negb].
  change (rd (a :: t) 0) with (Ok a). cbn [bind].
  destruct (C62_reduce_combines_each_once K choose (Plain choose) batch tail W vec (a :: t) a (or_introl eq_refl) Hb Hta HW) as (v & E & C).
  exists v. split; [exact E|].
  assert (G : forall d v l, combined choose d v l -> (forall x, In x l -> P x) -> In v l /\ P v /\ forall x, In x l -> le x v).
  { clear - Hr Ht Hc. induction 1 as [x|d1 d2 x y lx ly C1 I1 C2 I2|d v l l' C I Pm|d d' v l C I Hd]; intros HP.
    - assert (P x) by (apply HP; now left). repeat split; [now left|assumption|]. intros z [<-|[]]. now apply Hr.
    - destruct I1 as (A1 & A2 & A3); [intros z Hz; apply HP, in_or_app; now left|].
      destruct I2 as (B1 & B2 & B3); [intros z Hz; apply HP, in_or_app; now right|].
      destruct (Hc x y A2 B2) as (O & L1 & L2).
      assert (Pc : P (choose x y)) by (destruct O as [-> | ->]; assumption).
      repeat split; [|exact Pc|].
      + destruct O as [-> | ->]; apply in_or_app; [now left|now right].
      + intros z Hz. assert (P z) by now apply HP. apply in_app_or in Hz as [Hz|Hz]; [apply (Ht z x)|apply (Ht z y)]; auto.
    - destruct I as (A1 & A2 & A3).
      + intros z Hz. apply HP. now apply (Permutation_in _ Pm).
      + repeat split; [now apply (Permutation_in _ Pm)|exact A2|]. intros z Hz. apply A3. apply (Permutation_in _ (Permutation_sym Pm)), Hz.
    - exact (I HP). }
  destruct (G _ _ _ C) as (A1 & _ & A3).
  - intros x [<-|Hx]; apply HP; [now left|exact Hx].
  - split; [destruct A1 as [<-|A1]; [now left|exact A1]|]. intros x Hx. apply A3. now right.
Qed.
Print Assumptions C67_any_preorder.

Section Ieee.
Variables prec emax : Z.
Context (Hprec : Prec_gt_0 prec) (Hmax : Prec_lt_emax prec emax).
Notation float := (binary_float prec emax).
(** std::max(a, b) is (a < b) ? b : a and std::min(a, b) is (b < a) ? b : a *)
Definition std_max (a b : float) : float := if Bltb a b then b else a.
Definition std_min (a b : float) : float := if Bltb b a then b else a.
Definition not_nan (x : float) : Prop := is_nan x = false.

(** the extended real line, with the infinities at the (unattainable) overflow threshold *)
Definition key (x : float) : R :=
  match x with B754_infinity s => if s then - bpow radix2 emax else bpow radix2 emax | _ => B2R x end.
Lemma key_finite x : is_finite x = true -> key x = B2R x.
Proof. now destruct x. Qed.
Lemma finite_key x : is_finite x = true -> Rabs (key x) < bpow radix2 emax.
Proof. intros F. rewrite key_finite by exact F. apply abs_B2R_lt_emax. Qed.
Lemma lt_key a b : not_nan a -> not_nan b -> Bltb a b = Rlt_bool (key a) (key b).
Proof.
  intros Na Nb. destruct (is_finite a) eqn:Fa; destruct (is_finite b) eqn:Fb.
  - rewrite Bltb_correct by assumption. now rewrite !key_finite.
  - pose proof (finite_key a Fa) as K. apply Rabs_lt_inv in K. destruct b as [s|s| |s m e H]; try discriminate. cbn [key]. destruct s.
    + rewrite Rlt_bool_false by lra. destruct a as [s|s| |s m e H]; try discriminate; reflexivity.
    + rewrite Rlt_bool_true by lra. destruct a as [s|s| |s m e H]; try discriminate; reflexivity.
  - pose proof (finite_key b Fb) as K. apply Rabs_lt_inv in K. destruct a as [s|s| |s m e H]; try discriminate. cbn [key]. destruct s.
    + rewrite Rlt_bool_true by lra. destruct b as [s|s| |s m e H]; try discriminate; reflexivity.
    + rewrite Rlt_bool_false by lra. destruct b as [s|s| |s m e H]; try discriminate; reflexivity.
  - pose proof (bpow_gt_0 radix2 emax). destruct a as [s|s| |s m e H1]; try discriminate. destruct b as [s'|s'| |s' m' e' H2]; try discriminate.
    destruct s, s'; cbn [key]; (first [rewrite Rlt_bool_true by lra | rewrite Rlt_bool_false by lra]); reflexivity.
Qed.
Lemma le_key a b : not_nan a -> not_nan b -> key a <= key b -> Bleb a b = true.
Proof.
  intros Na Nb H. pose proof (lt_key b a Nb Na) as L. rewrite Rlt_bool_false in L by exact H.
  destruct (is_finite a && is_finite b)%bool eqn:F.
  - apply andb_prop in F as [Fa Fb]. rewrite Bleb_correct by assumption. apply Rle_bool_true. now rewrite <- !key_finite.
  - destruct a as [s|s| |s m e H1]; try discriminate Na; destruct b as [s'|s'| |s' m' e' H2]; try discriminate Nb; try discriminate F; destruct s, s'; try reflexivity; discriminate L.
Qed.

Theorem C67_max : forall batch tail W vec (l : list float),
  some_order std_max batch -> some_order std_max tail -> (1 <= W)%Z -> l <> [] -> (forall x, In x l -> not_nan x) ->
  exists m, gExtreme batch tail W vec std_max l = Ok m /\ In m l /\ forall x, In x l -> Bleb x m = true.
Proof.
  intros batch tail W vec l Hb Ht HW Hl HP.
  destruct (C67_any_preorder float not_nan (fun a b => key a <= key b) std_max batch tail W vec l) as (m & E & I & L); try assumption.
  - intros. lra.
  - intros. lra.
  - intros a b Ha Hb'. unfold std_max. rewrite lt_key by assumption. destruct (Rlt_bool_spec (key a) (key b)); (split; [auto|split; lra]).
  - exists m. split; [exact E|]. split; [exact I|]. intros x Hx. apply le_key; auto.
Qed.
Theorem C67_min : forall batch tail W vec (l : list float),
  some_order std_min batch -> some_order std_min tail -> (1 <= W)%Z -> l <> [] -> (forall x, In x l -> not_nan x) ->
  exists m, gExtreme batch tail W vec std_min l = Ok m /\ In m l /\ forall x, In x l -> Bleb m x = true.
Proof.
  intros batch tail W vec l Hb Ht HW Hl HP.
  destruct (C67_any_preorder float not_nan (fun a b => key b <= key a) std_min batch tail W vec l) as (m & E & I & L); try assumption.
  - intros. lra.
  - intros. lra.
  - intros a b Ha Hb'. unfold std_min. rewrite lt_key by assumption. destruct (Rlt_bool_spec (key b) (key a)); (split; [auto|split; lra]).
  - exists m. split; [exact E|]. split; [exact I|]. intros x Hx. apply le_key; auto.
Qed.
End Ieee.
Print Assumptions C67_max.
Print Assumptions C67_min.

(** ** With a NaN the result depends on the position of the samples *)
#[local] Existing Instance p24.
#[local] Existing Instance e128.
Notation max32 := (std_max 24 128).
Notation Max32 := (gExtreme (fold_left max32) (fold_left max32) 4 false max32).
Theorem C67_max_of_nan_refuted : exists (l m : list (binary_float 24 128)) x y,
  Permutation l m /\ Max32 l = Ok x /\ Max32 m = Ok y /\ is_nan x = true /\ B2R y = 1 /\
  some_order max32 (fold_left max32).
Proof.
  exists [B754_nan; b32 1 0], [b32 1 0; B754_nan], B754_nan, (b32 1 0).
  split; [apply perm_swap|]. split; [reflexivity|]. split; [reflexivity|]. split; [reflexivity|]. split; [exact b32_one|apply fold_left_some_order].
Qed.
Print Assumptions C67_max_of_nan_refuted.
Example C67_nontrivial :
  (forall x, In x [b32 (-5) 0; B754_infinity true; b32 3 0; b32 (-7) 2] -> not_nan 24 128 x) /\
  (match Max32 [b32 (-5) 0; B754_infinity true; b32 3 0; b32 (-7) 2] with Ok v => B2SF v = B2SF (b32 3 0) | _ => False end).
Proof.
  split; [|vm_compute; reflexivity].
  intros x Hx. cbn [In] in Hx. repeat (destruct Hx as [<-|Hx]; [vm_compute; reflexivity|]). contradiction.
Qed.
