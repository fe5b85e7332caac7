(** C81: convolution and streaming FIR filters of signals with different element types. *)
From Coq Require Import Reals Lra List.
From Verif Require Import Base BaseFacts IntervalModel KernelModel ConvModel ConvProofs PropsConv Complex FftModel OlaModel FirModel FirProofs PropsOla MixedConvModel MixedConvProofs.
From Coq Require Import ZifyBool ZifyNat.
Ltac Zify.zify_post_hook ::= Z.div_mod_to_equations.
Open Scope Z_scope.

(** ** Specification.  The element types [A], [B] of the operands and [O] of the output are all read as numbers of one
    commutative ring [K] (real numbers as complex ones, for example); zeros are read as zero, the operations the kernels
    perform on elements as the ring's. *)
Definition read_as {K : CRing} {A B O : Type} (eA : A -> K) (eB : B -> K) (eO : O -> K)
    (zA : A) (zB : B) (zO : O) (add sub : O -> O -> O) (mul : A -> B -> O) : Prop :=
  eA zA = r0 /\ eB zB = r0 /\ eO zO = r0 /\
  (forall x y, eO (add x y) = radd (eO x) (eO y)) /\ (forall x y, eO (sub x y) = rsub (eO x) (eO y)) /\
  (forall a b, eO (mul a b) = rmul (eA a) (eB b)).
(** the window [n, n + |out|) of the convolution of the values, written over (or added to) [out] *)
Definition wrote_values {K : CRing} {A B O : Type} (eA : A -> K) (eB : B -> K) (eO : O -> K) (u : list A) (v : list B) (out : list O) (n : Z) (accumulate : bool) (out' : list O) : Prop :=
  wrote_window (map eA u) (map eB v) (map eO out) n accumulate (map eO out').

Lemma okP_omap {A B} (g : A -> B) m P : okP (omap g m) P -> okP m (fun x => P (g x)).
Proof. intros (y & E & HP). destruct m; cbn in E; try discriminate. injection E as <-. now exists a. Qed.
Lemma omap_UB {A B} (g : A -> B) m : omap g m = UB -> m = UB.
Proof. destruct m; [discriminate|discriminate|reflexivity]. Qed.

(** ** C81 *)
(** the three kernels that are used with mixed types, wherever the window lies, whatever the vector width; no access leaves an array *)
Theorem C81_kernels : forall (K : CRing) (A B O : Type) (eA : A -> K) (eB : B -> K) (eO : O -> K) zA zB zO add sub mul W vec comp junk u v out n acc,
  read_as eA eB eO zA zB zO add sub mul -> 1 <= W -> W <= lenZ junk ->
  okP (mConvolutionNaive zO add mul u v out n acc) (wrote_values eA eB eO u v out n acc) /\
  okP (mConvolutionSlide_ zO add 1 mul W vec u v out n acc) (wrote_values eA eB eO u v out n acc) /\
  okP (mConvolutionReduceVec_ zO add sub 1 mul zA zB W comp junk u v out n acc) (wrote_values eA eB eO u v out n acc).
Proof.
  intros K A B O eA eB eO zA zB zO add sub mul W vec comp junk u v out n acc (HA & HB & HO & Ha & Hs & Hm) HW Hj. repeat split; apply (okP_omap (map eO) _ (wrote_window (map eA u) (map eB v) (map eO out) n acc)).
  - rewrite <- (naive_sim eO zO add HO Ha eA eB mul Hm). apply C11_naive.
  - rewrite <- (slide_sim_ eO zO add HO Ha 1 eA eB mul Hm). apply (C11_slide K W vec _ _ _ n acc HW).
  - rewrite <- (reduce_vec_sim_ eO zO add sub HO Ha Hs 1 eA eB mul zA zB HA HB Hm). apply (C11_reduce_vec K W comp); [exact HW|]. rewrite lenZ_map'. exact Hj.
Qed.
Print Assumptions C81_kernels.
(** Convolution over an output array: any window inside the full convolution, others are rejected *)
Theorem C81_window_into : forall (K : CRing) (A B O : Type) (eA : A -> K) (eB : B -> K) (eO : O -> K) zA zB zO add sub mul W1 W2 vec junk u v out offset (clear : bool),
  read_as eA eB eO zA zB zO add sub mul -> 1 <= W1 -> 1 <= W2 -> W2 <= lenZ junk -> u <> [] -> v <> [] -> 0 <= offset ->
  (offset + lenZ out <= lenZ u + lenZ v - 1 ->
   okP (mConvolutionInto zO add sub mul zA zB W1 W2 vec junk out u v offset clear) (wrote_values eA eB eO u v out offset (negb clear))) /\
  (lenZ u + lenZ v - 1 < offset + lenZ out -> mConvolutionInto zO add sub mul zA zB W1 W2 vec junk out u v offset clear = UB).
Proof.
  intros K A B O eA eB eO zA zB zO add sub mul W1 W2 vec junk u v out offset clear (HA & HB & HO & Ha & Hs & Hm) H1 H2 H3 Hu Hv Ho.
  assert (Hu' : map eA u <> []) by (destruct u; [congruence|discriminate]). assert (Hv' : map eB v <> []) by (destruct v; [congruence|discriminate]).
  pose proof (C13_window_into K W1 W2 vec (map eO junk) (map eO out) (map eA u) (map eB v) offset clear H1 H2 ltac:(rewrite lenZ_map'; exact H3) Hu' Hv' Ho) as [G1 G2].
  rewrite !lenZ_map' in G1, G2. pose proof (into_sim eO zO add sub HO Ha Hs eA eB mul zA zB HA HB Hm W1 W2 vec junk out u v offset clear) as S.
  split; intros H.
  - apply (okP_omap (map eO) _ (wrote_window (map eA u) (map eB v) (map eO out) offset (negb clear))). rewrite <- S. now apply G1.
  - apply (omap_UB (map eO)). rewrite <- S. now apply G2.
Qed.
Print Assumptions C81_window_into.
(** Convolution returning a signal: the value of every sample, and the length *)
Theorem C81_full : forall (K : CRing) (A B O : Type) (eA : A -> K) (eB : B -> K) (eO : O -> K) zA zB zO add sub mul W1 W2 vec junk u v,
  read_as eA eB eO zA zB zO add sub mul -> 1 <= W1 -> 1 <= W2 -> W2 <= lenZ junk -> u <> [] -> v <> [] ->
  okP (mConvolution zO add sub mul zA zB W1 W2 vec junk u v CONV_FULL)
      (fun r => map eO r = tab (lenZ u + lenZ v - 1) (conv_at (map eA u) (map eB v))).
Proof.
  intros K A B O eA eB eO zA zB zO add sub mul W1 W2 vec junk u v (HA & HB & HO & Ha & Hs & Hm) H1 H2 H3 Hu Hv.
  apply (okP_omap (map eO) _ (fun r => r = _)). rewrite <- (conv_sim eO zO add sub HO Ha Hs eA eB mul zA zB HA HB Hm).
  eapply okP_imp; [apply C13_full; [exact H1|exact H2|now rewrite lenZ_map'|destruct u; [congruence|discriminate]|destruct v; [congruence|discriminate]]|].
  cbn beta. intros r [L H]. rewrite !lenZ_map' in L. apply at0_ext; [rewrite lenZ_tab; pose proof (lenZ_nonneg r); lia|].
  intros i Hi. rewrite H by lia. rewrite at0_tab by lia. reflexivity.
Qed.
Print Assumptions C81_full.
(** ... exactly the samples in which every tap of the shorter signal meets one of the longer *)
Theorem C81_central : forall (K : CRing) (A B O : Type) (eA : A -> K) (eB : B -> K) (eO : O -> K) zA zB zO add sub mul W1 W2 vec junk u v,
  read_as eA eB eO zA zB zO add sub mul -> 1 <= W1 -> 1 <= W2 -> W2 <= lenZ junk -> u <> [] -> v <> [] -> lenZ u < 2 ^ 64 -> lenZ v < 2 ^ 64 ->
  okP (mConvolution zO add sub mul zA zB W1 W2 vec junk u v CONV_CENTRAL)
      (fun r => map eO r = tab (Z.max (lenZ u) (lenZ v) - Z.min (lenZ u) (lenZ v) + 1) (fun k => conv_at (map eA u) (map eB v) (Z.min (lenZ u) (lenZ v) - 1 + k))).
Proof.
  intros K A B O eA eB eO zA zB zO add sub mul W1 W2 vec junk u v (HA & HB & HO & Ha & Hs & Hm) H1 H2 H3 Hu Hv B1 B2.
  apply (okP_omap (map eO) _ (fun r => r = _)). rewrite <- (conv_sim eO zO add sub HO Ha Hs eA eB mul zA zB HA HB Hm).
  eapply okP_imp; [apply C13_central; [exact H1|exact H2|now rewrite lenZ_map'|destruct u; [congruence|discriminate]|destruct v; [congruence|discriminate]|now rewrite lenZ_map'|now rewrite lenZ_map']|].
  cbn beta zeta. intros r (L & H & _). rewrite !lenZ_map' in *. apply at0_ext; [rewrite lenZ_tab; pose proof (lenZ_nonneg r); lia|].
  intros i Hi. rewrite H by lia. rewrite at0_tab by lia. reflexivity.
Qed.
Print Assumptions C81_central.

(** streaming through a FIR filter of another element type, in any blocks, from rest: joined, the prefix of the convolution
    of the values; the state keeps the signal's element type and holds its last samples *)
Lemma run_blocks_sim {K : CRing} {A O : Type} (eA : A -> K) (eO : O -> K) (step : list A -> list A -> outcome (list O * list A)) step' :
  (forall b s, step' (map eA b) (map eA s) = omap (pair_map (map eO) (map eA)) (step b s)) ->
  forall (blocks : list (list A)) s, run_blocks step' (map (map eA) blocks) (map eA s) = omap (pair_map (map (map eO)) (map eA)) (mrun_blocks step blocks s).
Proof.
  intros H. induction blocks as [|b bs IH]; intros s; [reflexivity|]. cbn [map run_blocks mrun_blocks]. rewrite H. apply omap_bind. intros [y s1]. cbn [pair_map fst snd].
  rewrite IH. apply omap_bind. intros [ys s2]. reflexivity.
Qed.
Theorem C81_streaming : forall (K : CRing) (A B O : Type) (eA : A -> K) (eB : B -> K) (eO : O -> K) zA zB zO add sub mul W1 W2 vec junk (taps : list B) (blocks : list (list A)),
  read_as eA eB eO zA zB zO add sub mul -> 1 <= W1 -> 1 <= W2 -> W2 <= lenZ junk -> 1 <= lenZ taps < 2 ^ 64 ->
  okP (mrun_blocks (fun b s => mFilterConvStateNew zO add sub mul zA zB W1 W2 vec junk b taps s) blocks (repeat zA (Z.to_nat (lenZ taps - 1))))
      (fun r => map eO (concat (fst r)) = tab (lenZ (concat blocks)) (conv_at (map eA (concat blocks)) (map eB taps)) /\
                map eA (snd r) = tab (lenZ taps - 1) (fun i => at0 (map eA (concat blocks)) (lenZ (concat blocks) - (lenZ taps - 1) + i))).
Proof.
  intros K A B O eA eB eO zA zB zO add sub mul W1 W2 vec junk taps blocks (HA & HB & HO & Ha & Hs & Hm) H1 H2 H3 H4.
  pose proof (C19_prefix_of_convolution K W1 W2 vec (map eO junk) (map eB taps) (map (map eA) blocks) H1 H2 ltac:(now rewrite lenZ_map') ltac:(now rewrite lenZ_map')) as G.
  rewrite lenZ_map' in G. replace (repeat r0 (Z.to_nat (lenZ taps - 1))) with (map eA (repeat zA (Z.to_nat (lenZ taps - 1)))) in G by now rewrite repeat_map, HA.
  rewrite (run_blocks_sim eA eO (fun b s => mFilterConvStateNew zO add sub mul zA zB W1 W2 vec junk b taps s)) in G
    by (intros; apply (filter_sim eO zO add sub HO Ha Hs eA eB mul zA zB HA HB Hm)).
  rewrite <- concat_map in G.
  apply (okP_omap (pair_map (map (map eO)) (map eA)) _ (fun r => concat (fst r) = tab (lenZ (map eA (concat blocks))) (conv_at (map eA (concat blocks)) (map eB taps)) /\ snd r = state_after (map eB taps) (map eA (concat blocks)))) in G.
  eapply okP_imp; [exact G|]. cbn beta. intros [outs st] [E1 E2]. cbn [pair_map fst snd] in *. rewrite <- concat_map, lenZ_map' in E1. split; [exact E1|].
  rewrite E2. unfold state_after. now rewrite !lenZ_map'.
Qed.
Print Assumptions C81_streaming.

Lemma at0_map {K K' : CRing} (f : K -> K') (l : list K) i : f r0 = r0 -> at0 (map f l) i = f (at0 l i).
Proof. intros H. unfold at0, nthZ. destruct (i <? 0); [now rewrite H|]. rewrite nth_error_map. now destruct (nth_error l (Z.to_nat i)). Qed.
(** *** the case of the library: a real signal and a complex one.  C++ multiplies the parts of the complex number by the real one *)
Definition real_times_complex (x : R) (z : C) : C := mkC (x * re z) (x * im z).
Definition complex_times_real (z : C) (x : R) : C := mkC (re z * x) (im z * x).
Lemma read_real_complex : read_as (K := Cring) (fun x : R => RtoC x) (fun z : C => z) (fun z : C => z) 0%R (RtoC 0) (RtoC 0) Cadd Csub real_times_complex.
Proof. repeat split. intros x z. unfold real_times_complex. destruct z as [a b]. cbn. unfold Cmul, RtoC. cbn. f_equal; ring. Qed.
Lemma read_complex_real : read_as (K := Cring) (fun z : C => z) (fun x : R => RtoC x) (fun z : C => z) (RtoC 0) 0%R (RtoC 0) Cadd Csub complex_times_real.
Proof. repeat split. intros z x. unfold complex_times_real. destruct z as [a b]. cbn. unfold Cmul, RtoC. cbn. f_equal; ring. Qed.
(** a real filter acts on the real and imaginary parts of a complex signal separately *)
Theorem C81_real_taps_act_on_both_parts : forall W1 W2 vec (junk : list C) (junk' : list R) (u : list C) (v : list R),
  1 <= W1 -> 1 <= W2 -> W2 <= lenZ junk -> W2 <= lenZ junk' -> u <> [] -> v <> [] ->
  okP (mConvolution (RtoC 0) Cadd Csub complex_times_real (RtoC 0) 0%R W1 W2 vec junk u v CONV_FULL)
      (fun r => Convolution (K := Rring) W1 W2 vec junk' (map re u) v CONV_FULL = Ok (map re r) /\
                Convolution (K := Rring) W1 W2 vec junk' (map im u) v CONV_FULL = Ok (map im r)).
Proof.
  intros W1 W2 vec junk junk' u v H1 H2 H3 H4 Hu Hv.
  pose proof (C81_full Cring C R C _ _ _ _ _ _ _ _ _ W1 W2 vec junk u v read_complex_real H1 H2 H3 Hu Hv) as (r & E & HE).
  exists r. split; [exact E|]. rewrite map_id in HE.
  assert (G : forall p : C -> R, (p = re \/ p = im) -> Convolution (K := Rring) W1 W2 vec junk' (map p u) v CONV_FULL = Ok (map p r)).
  { intros p Hp. destruct (C13_full Rring W1 W2 vec junk' (map p u) v H1 H2 H4 ltac:(destruct u; [congruence|discriminate]) Hv) as (q & Eq & Lq & Hq).
    rewrite Eq. f_equal. rewrite HE. change (lenZ (A := Rring)) with (lenZ (A := R)) in *. rewrite lenZ_map' in Lq.
    apply (at0_ext (K := Rring)).
    { change (lenZ (A := Rring)) with (lenZ (A := R)). rewrite lenZ_map', lenZ_tab. assert (0 < lenZ u) by (destruct u; [congruence|rewrite lenZ_cons; pose proof (lenZ_nonneg u); lia]).
      assert (0 < lenZ v) by (destruct v; [congruence|rewrite lenZ_cons; pose proof (lenZ_nonneg v); lia]). pose proof (lenZ_nonneg q). lia. }
    intros i Hi. change (lenZ (A := Rring)) with (lenZ (A := R)) in Hi. rewrite Hq by exact Hi.
    unfold tab. rewrite map_map. change (map (fun k => p (conv_at (K := Cring) (map (fun z => z) u) (map (fun x => RtoC x) v) (Z.of_nat k))) (seq 0 (Z.to_nat (lenZ u + lenZ v - 1))))
      with (tab (lenZ u + lenZ v - 1) (fun k => p (conv_at (K := Cring) (map (fun z => z) u) (map (fun x => RtoC x) v) k))).
    rewrite (at0_tab (K := Rring)) by lia. rewrite !conv_at_conv. unfold conv.
    change (lenZ (A := Cring)) with (lenZ (A := C)). change (lenZ (A := Rring)) with (lenZ (A := R)). rewrite !lenZ_map'.
    assert (PS : forall lo hi (f : Z -> C), p (sumZ (K := Cring) lo hi f) = sumZ (K := Rring) lo hi (fun k => p (f k))).
    { intros lo hi f. destruct Hp as [-> | ->]; [apply re_sumZ|apply im_sumZ]. }
    rewrite PS. apply sumZ_ext. intros k Hk. rewrite map_id.
    change (map (fun x : R => RtoC x) v) with (map (RtoC : Rring -> Cring) v). rewrite (at0_map (RtoC : Rring -> Cring)) by reflexivity.
    change (map p u) with (map (p : Cring -> Rring) u). rewrite (at0_map (p : Cring -> Rring)) by (destruct Hp as [-> | ->]; reflexivity).
    change (@rmul Rring) with Rmult. change (@rmul Cring) with Cmul. unfold Cmul, RtoC. match goal with |- ?l = ?r => change (@eq R l r) end. destruct Hp as [-> | ->]; cbn [re im]; ring. }
  split; apply G; auto.
Qed.
Print Assumptions C81_real_taps_act_on_both_parts.
(** the operands may be given in either order *)
Theorem C81_operands_commute : forall (K : CRing) (A B O : Type) (eA : A -> K) (eB : B -> K) (eO : O -> K) zA zB zO add sub mul mul' W1 W2 vec junk u v m,
  read_as eA eB eO zA zB zO add sub mul -> read_as eB eA eO zB zA zO add sub mul' ->
  1 <= W1 -> 1 <= W2 -> W2 <= lenZ junk -> u <> [] -> v <> [] -> lenZ u < 2 ^ 64 -> lenZ v < 2 ^ 64 ->
  omap (map eO) (mConvolution zO add sub mul zA zB W1 W2 vec junk u v m) = omap (map eO) (mConvolution zO add sub mul' zB zA W1 W2 vec junk v u m).
Proof.
  intros K A B O eA eB eO zA zB zO add sub mul mul' W1 W2 vec junk u v m (HA & HB & HO & Ha & Hs & Hm) (_ & _ & _ & _ & _ & Hm') H1 H2 H3 Hu Hv B1 B2.
  rewrite <- (conv_sim eO zO add sub HO Ha Hs eA eB mul zA zB HA HB Hm), <- (conv_sim eO zO add sub HO Ha Hs eB eA mul' zB zA HB HA Hm').
  apply C13_commutative; try assumption; try (now rewrite lenZ_map'); [destruct u|destruct v]; congruence || discriminate.
Qed.
Print Assumptions C81_operands_commute.

(** a complex signal of 40 samples and 2 real taps, at one element and at 4 elements a batch *)
Example C81_nontrivial : let u := repeat (mkC 1 2) 40 in let v := [3%R; 4%R] in
  read_as (K := Cring) (fun z : C => z) (fun x : R => RtoC x) (fun z : C => z) (RtoC 0) 0%R (RtoC 0) Cadd Csub complex_times_real /\
  u <> [] /\ v <> [] /\ lenZ u < 2 ^ 64 /\ 4 <= lenZ (repeat (RtoC 0) 4) /\ 1 <= lenZ v < 2 ^ 64 /\
  exists r, mConvolution (RtoC 0) Cadd Csub complex_times_real (RtoC 0) 0%R 4 4 true (repeat (RtoC 0) 4) u v CONV_FULL = Ok r /\ lenZ r = 41.
Proof.
  cbv zeta. split; [exact read_complex_real|]. split; [discriminate|]. split; [discriminate|]. do 3 (split; [cbn; lia|]).
  destruct (C81_full Cring C R C _ _ _ _ _ _ _ _ _ 4 4 true (repeat (RtoC 0) 4) (repeat (mkC 1 2) 40) [3%R; 4%R] read_complex_real ltac:(lia) ltac:(lia) ltac:(cbn; lia) ltac:(discriminate) ltac:(discriminate)) as (r & E & H).
  exists r. split; [exact E|]. apply (f_equal (@lenZ _)) in H. change (lenZ (A := Cring)) with (lenZ (A := C)) in H. rewrite lenZ_map', lenZ_tab in H. rewrite H. cbn. lia.
Qed.
