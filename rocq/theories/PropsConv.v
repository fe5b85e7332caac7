(** Property theorems C11, C12 (convolution kernels), C13 (convolution API). *)
From Verif Require Import Base BaseFacts KernelModel ConvModel ConvProofs.
From Coq Require Import ZifyBool ZifyNat.

(** ** Specification.  [conv_at u v j] is the sum of u[i]*v[k] over all index pairs with i + k = j. *)
Definition conv_at {K : CRing} (u v : list K) (j : Z) : K :=
  sumZ 0 (lenZ u) (fun i => sumZ 0 (lenZ v) (fun k => if i + k =? j then rmul (at0 u i) (at0 v k) else r0)).
Lemma conv_at_conv (K : CRing) (u v : list K) j : conv_at u v j = conv u v j.
Proof.
  unfold conv_at, conv. apply sumZ_ext. intros i Hi.
  destruct (Z_lt_ge_dec (j - i) 0) as [H|H]; [|destruct (Z_lt_ge_dec (j - i) (lenZ v)) as [H'|H']].
  1,3: rewrite (at0_out v) by lia;
       replace (rmul (at0 u i) r0) with (@r0 K) by (rewrite (Rmul_comm (rth K)); symmetry; apply (ARmul_0_l (Rth_ARth (Eqsth K) (Eq_ext radd rmul ropp) (rth K))));
       apply sumZ_zero; intros k Hk; now replace (i + k =? j) with false by lia.
  rewrite (sumZ_single 0 (lenZ v) (j - i)); [|lia|].
  - now replace (i + (j - i) =? j) with true by lia.
  - intros k Hk Hn. now replace (i + k =? j) with false by lia.
Qed.

(** a kernel wrote the window [n, n + |out|) of the convolution over (or added it to) [out] *)
Definition wrote_window {K : CRing} (u v out : list K) (n : Z) (accumulate : bool) (out' : list K) : Prop :=
  lenZ out' = lenZ out /\
  forall k, 0 <= k < lenZ out ->
    at0 out' k = radd (if accumulate then at0 out k else r0) (conv_at u v (n + k)).
Lemma ww (K : CRing) (u v out : list K) n acc o : conv_result u v out n acc o -> wrote_window u v out n acc o.
Proof. intros [L H]. split; [exact L|]. intros k Hk. rewrite conv_at_conv. auto. Qed.

(* C11, C12: [okP] also says the run performs no access outside an array (each load and store
   of the model is checked and would give UB). All windows are covered, also ones that start
   before or end after the full convolution. *)
Theorem C11_naive : forall (K : CRing) (u v out : list K) n acc,
  okP (ConvolutionNaive u v out n acc) (wrote_window u v out n acc).
Proof. intros. eapply okP_imp; [apply naive_spec|apply ww]. Qed.
Print Assumptions C11_naive.
Theorem C11_slide : forall (K : CRing) W vec (u v out : list K) n acc, 1 <= W ->
  okP (ConvolutionSlide W vec u v out n acc) (wrote_window u v out n acc).
Proof. intros. eapply okP_imp; [now apply slide_spec|apply ww]. Qed.
Print Assumptions C11_slide.
Theorem C11_reduce : forall (K : CRing) (u v out : list K) n,
  okP (ConvolutionReduce u v out n false) (wrote_window u v out n false).
Proof. intros. eapply okP_imp; [apply reduce_spec|apply ww]. Qed.
Print Assumptions C11_reduce.
(** whatever the uninitialised lanes [junk] of a partial load contain *)
Theorem C11_reduce_vec : forall (K : CRing) W comp (junk u v out : list K) n acc, 1 <= W -> W <= lenZ junk ->
  okP (ConvolutionReduceVec W comp junk u v out n acc) (wrote_window u v out n acc).
Proof. intros. eapply okP_imp; [now apply reduce_vec_spec|apply ww]. Qed.
Print Assumptions C11_reduce_vec.

Theorem C12_no_kernel_leaves_its_arrays : forall (K : CRing) W vec comp (junk u v out : list K) n acc,
  1 <= W -> W <= lenZ junk ->
  ConvolutionNaive u v out n acc <> UB /\ ConvolutionSlide W vec u v out n acc <> UB /\
  ConvolutionReduce u v out n false <> UB /\ ConvolutionReduceVec W comp junk u v out n acc <> UB.
Proof.
  intros. repeat split; intros E.
  - destruct (naive_spec u v out n acc) as (o & E' & _). congruence.
  - destruct (slide_spec W vec u v out n acc) as (o & E' & _); congruence.
  - destruct (reduce_spec u v out n) as (o & E' & _). congruence.
  - destruct (reduce_vec_spec W comp junk u v out n acc) as (o & E' & _); congruence.
Qed.
Print Assumptions C12_no_kernel_leaves_its_arrays.

Example C11_nontrivial :
  let u := map Z.of_nat (seq 1 7) in let v := map Z.of_nat (seq 3 11) in
  ConvolutionReduceVec (K := Zring) 4 true [0;0;0;0] u v (repeat 0 17) 0 false
  = ConvolutionNaive (K := Zring) u v (repeat 0 17) 0 false
  /\ ConvolutionNaive (K := Zring) [1;2;3] [10;20] [100;100;100] 1 true = Ok [140;170;160].
Proof. vm_compute. split; reflexivity. Qed.
(** the checks are real: reading the padding one element further would leave it *)
Example C12_nontrivial : grl_term (K := Z) Z.mul 4 [1] 0 [1;2;3;4;5] 2 = UB /\
  grl_term (K := Z) Z.mul 4 [1] 0 [1;2;3;4;5] 1 = Ok [2;3;4;5].
Proof. split; reflexivity. Qed.

(* C13 *)
(** the API computes any window of the full convolution, whichever kernel it picks ... *)
Theorem C13_window : forall (K : CRing) W1 W2 vec (junk u v : list K) offset len,
  1 <= W1 -> 1 <= W2 -> W2 <= lenZ junk -> u <> [] -> v <> [] ->
  0 <= offset -> 0 <= len -> offset + len <= lenZ u + lenZ v - 1 ->
  okP (ConvolutionAt W1 W2 vec junk u v offset len)
      (fun r => lenZ r = len /\ forall k, 0 <= k < len -> at0 r k = conv_at u v (offset + k)).
Proof.
  intros K W1 W2 vec junk u v offset len H1 H2 H3 Hu Hv Ho Hl Hf.
  assert (0 < lenZ u) by (destruct u; [congruence|rewrite lenZ_cons; pose proof (lenZ_nonneg u); lia]).
  assert (0 < lenZ v) by (destruct v; [congruence|rewrite lenZ_cons; pose proof (lenZ_nonneg v); lia]).
  rewrite conv_at_spec; try assumption.
  - apply okP_ret. split; [rewrite lenZ_tab; lia|]. intros k Hk. rewrite at0_tab by lia. symmetry. apply conv_at_conv.
  - unfold ConvolutionLength. replace ((lenZ u =? 0) || (lenZ v =? 0)) with false by lia. lia.
Qed.
Print Assumptions C13_window.

(** ... into an existing signal, cleared first or added to, and with every other window rejected *)
Theorem C13_window_into : forall (K : CRing) W1 W2 vec (junk out u v : list K) offset (clear : bool),
  1 <= W1 -> 1 <= W2 -> W2 <= lenZ junk -> u <> [] -> v <> [] -> 0 <= offset ->
  (offset + lenZ out <= lenZ u + lenZ v - 1 ->
   okP (ConvolutionInto W1 W2 vec junk out u v offset clear) (wrote_window u v out offset (negb clear))) /\
  (lenZ u + lenZ v - 1 < offset + lenZ out -> ConvolutionInto W1 W2 vec junk out u v offset clear = UB).
Proof.
  intros K W1 W2 vec junk out u v offset clear H1 H2 H3 Hu Hv Ho.
  assert (0 < lenZ u) by (destruct u; [congruence|rewrite lenZ_cons; pose proof (lenZ_nonneg u); lia]).
  assert (0 < lenZ v) by (destruct v; [congruence|rewrite lenZ_cons; pose proof (lenZ_nonneg v); lia]).
  assert (L : ConvolutionLength (lenZ u) (lenZ v) CONV_FULL = lenZ u + lenZ v - 1).
  { unfold ConvolutionLength. replace ((lenZ u =? 0) || (lenZ v =? 0)) with false by lia. lia. }
  split; intros H4.
  - eapply okP_imp; [apply conv_into_spec; lia|apply ww].
  - unfold ConvolutionInto, gConvolutionInto. rewrite L. now replace (offset + lenZ out <=? lenZ u + lenZ v - 1) with false by lia.
Qed.
Print Assumptions C13_window_into.

Theorem C13_full : forall (K : CRing) W1 W2 vec (junk u v : list K),
  1 <= W1 -> 1 <= W2 -> W2 <= lenZ junk -> u <> [] -> v <> [] ->
  okP (Convolution W1 W2 vec junk u v CONV_FULL)
      (fun r => lenZ r = lenZ u + lenZ v - 1 /\ forall k, 0 <= k < lenZ r -> at0 r k = conv_at u v k).
Proof.
  intros K W1 W2 vec junk u v H1 H2 H3 Hu Hv.
  assert (0 < lenZ u) by (destruct u; [congruence|rewrite lenZ_cons; pose proof (lenZ_nonneg u); lia]).
  assert (0 < lenZ v) by (destruct v; [congruence|rewrite lenZ_cons; pose proof (lenZ_nonneg v); lia]).
  assert (L : ConvolutionLength (lenZ u) (lenZ v) CONV_FULL = lenZ u + lenZ v - 1).
  { unfold ConvolutionLength. replace ((lenZ u =? 0) || (lenZ v =? 0)) with false by lia. lia. }
  unfold Convolution, gConvolution. fold_conv. rewrite L.
  eapply okP_imp; [apply C13_window; try assumption; lia|].
  intros r [Lr Hr]. split; [exact Lr|]. intros k Hk. rewrite Hr by lia. f_equal; lia.
Qed.
Print Assumptions C13_full.

(** central: |long|-|short|+1 samples; sample k is full sample short-1+k; these are exactly the
    samples in which every tap of the shorter signal meets a sample of the longer one.
    (sizes below 2^64, as in every execution) *)
Theorem C13_central : forall (K : CRing) W1 W2 vec (junk u v : list K),
  1 <= W1 -> 1 <= W2 -> W2 <= lenZ junk -> u <> [] -> v <> [] -> lenZ u < 2 ^ 64 -> lenZ v < 2 ^ 64 ->
  let short := Z.min (lenZ u) (lenZ v) in let long := Z.max (lenZ u) (lenZ v) in
  okP (Convolution W1 W2 vec junk u v CONV_CENTRAL)
      (fun r => lenZ r = long - short + 1 /\
                (forall k, 0 <= k < lenZ r -> at0 r k = conv_at u v (short - 1 + k)) /\
                (forall k, 0 <= k < lenZ r <-> (forall i, 0 <= i < short -> 0 <= short - 1 + k - i < long))).
Proof.
  intros K W1 W2 vec junk u v H1 H2 H3 Hu Hv Bu Bv short long.
  assert (0 < lenZ u) by (destruct u; [congruence|rewrite lenZ_cons; pose proof (lenZ_nonneg u); lia]).
  assert (0 < lenZ v) by (destruct v; [congruence|rewrite lenZ_cons; pose proof (lenZ_nonneg v); lia]).
  assert (L : ConvolutionLength (lenZ u) (lenZ v) CONV_CENTRAL = long - short + 1).
  { unfold ConvolutionLength. now replace ((lenZ u =? 0) || (lenZ v =? 0)) with false by lia. }
  unfold Convolution, gConvolution. fold_conv. rewrite L. unfold size_sub. rewrite !Z.mod_small by lia.
  replace (Z.min (lenZ u - 1) (lenZ v - 1)) with (short - 1) by lia.
  eapply okP_imp; [apply C13_window; try assumption; lia|].
  intros r [Lr Hr]. split; [exact Lr|]. split.
  - intros k Hk. rewrite Hr by lia. reflexivity.
  - intros k. rewrite Lr. split; [intros; lia|]. intros Hi.
    pose proof (Hi 0 ltac:(lia)). pose proof (Hi (short - 1) ltac:(lia)). lia.
Qed.
Print Assumptions C13_central.

(** Convolution with an empty signal: full gives an empty result; central on two empty
    signals runs into a failed assertion (the offset wraps around) *)
Theorem C13_empty_full : forall (K : CRing) W1 W2 vec (junk v : list K),
  1 <= W1 -> 1 <= W2 -> W2 <= lenZ junk ->
  Convolution W1 W2 vec junk [] v CONV_FULL = Ok [] /\ Convolution W1 W2 vec junk v [] CONV_FULL = Ok [].
Proof.
  intros. unfold Convolution, gConvolution. fold_conv. change (lenZ (@nil K)) with 0.
  assert (E1 : ConvolutionLength 0 (lenZ v) CONV_FULL = 0) by reflexivity.
  assert (E2 : ConvolutionLength (lenZ v) 0 CONV_FULL = 0) by (unfold ConvolutionLength; now rewrite orb_true_r).
  rewrite E1, E2. rewrite !conv_at_spec; try assumption; try (change (lenZ (@nil K)) with 0; rewrite ?E1, ?E2; lia).
  split; reflexivity.
Qed.
Print Assumptions C13_empty_full.

Theorem C13_commutative : forall (K : CRing) W1 W2 vec (junk u v : list K) m,
  1 <= W1 -> 1 <= W2 -> W2 <= lenZ junk -> u <> [] -> v <> [] -> lenZ u < 2 ^ 64 -> lenZ v < 2 ^ 64 ->
  Convolution W1 W2 vec junk u v m = Convolution W1 W2 vec junk v u m.
Proof.
  intros K W1 W2 vec junk u v m H1 H2 H3 Hu Hv Bu Bv.
  assert (0 < lenZ u) by (destruct u; [congruence|rewrite lenZ_cons; pose proof (lenZ_nonneg u); lia]).
  assert (0 < lenZ v) by (destruct v; [congruence|rewrite lenZ_cons; pose proof (lenZ_nonneg v); lia]).
  unfold Convolution, gConvolution. fold_conv.
  assert (E : ConvolutionLength (lenZ u) (lenZ v) m = ConvolutionLength (lenZ v) (lenZ u) m).
  { unfold ConvolutionLength. rewrite orb_comm, Z.max_comm, Z.min_comm. reflexivity. }
  unfold size_sub. rewrite !Z.mod_small by lia. rewrite E, (Z.min_comm (lenZ v - 1)).
  assert (G : forall off, 0 <= off -> 0 <= ConvolutionLength (lenZ v) (lenZ u) m ->
     off + ConvolutionLength (lenZ v) (lenZ u) m <= lenZ u + lenZ v - 1 ->
     ConvolutionAt W1 W2 vec junk u v off (ConvolutionLength (lenZ v) (lenZ u) m)
     = ConvolutionAt W1 W2 vec junk v u off (ConvolutionLength (lenZ v) (lenZ u) m)).
  { intros off Ho Hn Hb.
    rewrite !conv_at_spec; try assumption.
    - f_equal. apply tab_ext. intros; apply conv_comm.
    - unfold ConvolutionLength at 2. replace ((lenZ v =? 0) || (lenZ u =? 0)) with false by lia. lia.
    - unfold ConvolutionLength at 2. replace ((lenZ u =? 0) || (lenZ v =? 0)) with false by lia. lia. }
  unfold ConvolutionLength in G |- *. replace ((lenZ v =? 0) || (lenZ u =? 0)) with false in * by lia.
  destruct m; apply G; lia.
Qed.
Print Assumptions C13_commutative.

(** linearity in the first operand (in the second by commutativity) *)
Section Lin.
Context {K : CRing}.
Add Ring KringL : (rth K).
Lemma conv_at_linear (a b : K) (u u' v : list K) j : lenZ u = lenZ u' ->
  conv_at (map2 (fun x y => radd (rmul a x) (rmul b y)) u u') v j
  = radd (rmul a (conv_at u v j)) (rmul b (conv_at u' v j)).
Proof.
  intros H. rewrite !conv_at_conv. unfold conv. rewrite lenZ_map2, <- H, Z.min_id.
  rewrite <- !sumZ_scale, <- sumZ_add. apply sumZ_ext. intros i Hi.
  rewrite (at0_in (map2 _ u u') i (radd (rmul a (at0 u i)) (rmul b (at0 u' i)))).
  - ring.
  - apply (nthZ_map2 (fun x y => radd (rmul a x) (rmul b y))); apply nthZ_at0; lia.
Qed.
End Lin.
Theorem C13_linear : forall (K : CRing) (a b : K) (u u' v : list K) j, lenZ u = lenZ u' ->
  conv_at (map2 (fun x y => radd (rmul a x) (rmul b y)) u u') v j
  = radd (rmul a (conv_at u v j)) (rmul b (conv_at u' v j)) /\
  conv_at v (map2 (fun x y => radd (rmul a x) (rmul b y)) u u') j
  = radd (rmul a (conv_at v u j)) (rmul b (conv_at v u' j)).
Proof.
  intros. split; [now apply conv_at_linear|].
  rewrite !conv_at_conv, !(conv_comm v). rewrite <- !conv_at_conv. now apply conv_at_linear.
Qed.
Print Assumptions C13_linear.

(** the same for the function: Convolution(a u + b u', v) = a Convolution(u, v) + b Convolution(u', v) *)
Theorem C13_full_linear : forall (K : CRing) W1 W2 vec (junk u u' v : list K) (a b : K),
  1 <= W1 -> 1 <= W2 -> W2 <= lenZ junk -> lenZ u = lenZ u' ->
  exists r r', Convolution W1 W2 vec junk u v CONV_FULL = Ok r /\ Convolution W1 W2 vec junk u' v CONV_FULL = Ok r' /\
  Convolution W1 W2 vec junk (map2 (fun x y => radd (rmul a x) (rmul b y)) u u') v CONV_FULL
  = Ok (map2 (fun x y => radd (rmul a x) (rmul b y)) r r').
Proof.
  intros K W1 W2 vec junk u u' v a b H1 H2 H3 Hl. unfold Convolution, gConvolution. fold_conv.
  assert (L : lenZ (map2 (fun x y => radd (rmul a x) (rmul b y)) u u') = lenZ u) by (rewrite lenZ_map2; lia).
  rewrite L, <- Hl. set (n := ConvolutionLength (lenZ u) (lenZ v) CONV_FULL).
  assert (Hn : 0 <= n).
  { subst n. unfold ConvolutionLength. pose proof (lenZ_nonneg u). pose proof (lenZ_nonneg v).
    destruct ((lenZ u =? 0) || (lenZ v =? 0)) eqn:E; lia. }
  rewrite !conv_at_spec; try assumption; rewrite ?L, <- ?Hl; fold n; try lia.
  eexists; eexists; split; [reflexivity|]. split; [reflexivity|]. f_equal.
  rewrite map2_tab. apply tab_ext. intros k Hk. rewrite <- !conv_at_conv. now apply conv_at_linear.
Qed.
Print Assumptions C13_full_linear.

Example C13_nontrivial :
  Convolution (K := Zring) 4 4 true [7;7;7;7] [1;2;3;4;5] [1;10] CONV_CENTRAL = Ok [12;23;34;45] /\
  Convolution (K := Zring) 4 4 true [7;7;7;7] [1;2;3;4;5] [1;10] CONV_FULL = Ok [1;12;23;34;45;50] /\
  Convolution (K := Zring) 4 4 true [7;7;7;7] [] [] CONV_CENTRAL = UB.
Proof. vm_compute. repeat split; reflexivity. Qed.
