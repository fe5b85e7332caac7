(** Property theorems C08 (signal arithmetic), C09 (reductions), C10 (compensated sum). *)
From Verif Require Import Base BaseFacts KernelModel KernelProofs.
From Coq Require Import ZifyBool ZifyNat.

(** ** specification *)
(** [r] is the elementwise combination of [a] and [b] *)
Definition elementwise2 {A} (op : A -> A -> A) (a b r : list A) : Prop :=
  lenZ r = lenZ a /\ lenZ r = lenZ b /\
  forall i x y, nthZ a i = Some x -> nthZ b i = Some y -> nthZ r i = Some (op x y).
Definition elementwise1 {A} (f : A -> A) (a r : list A) : Prop :=
  lenZ r = lenZ a /\ forall i x, nthZ a i = Some x -> nthZ r i = Some (f x).

Lemma ew2 {A} (op : A -> A -> A) a b : lenZ a = lenZ b -> elementwise2 op a b (map2 op a b).
Proof.
  intros H. repeat split; [rewrite lenZ_map2; lia|rewrite lenZ_map2; lia|].
  intros. now apply nthZ_map2.
Qed.
Lemma ew1 {A} (f : A -> A) a : elementwise1 f a (map f a).
Proof. split; [apply lenZ_map|]. intros i x H. rewrite nthZ_map, H. reflexivity. Qed.

(* C08 *)
Theorem C08_signal_op_signal : forall A W vec (op : A -> A -> A) d a b, 1 <= W -> lenZ a = lenZ b ->
  okP (sig_op_sig W vec op d a b) (elementwise2 op a b).
Proof. intros. rewrite sig_op_sig_ok by assumption. apply okP_ret, ew2; assumption. Qed.
Print Assumptions C08_signal_op_signal.

Theorem C08_signal_op_scalar : forall A W vec (op : A -> A -> A) d a b, 1 <= W ->
  okP (sig_op_scalar W vec op d a b) (elementwise1 (fun x => op x b) a).
Proof. intros. rewrite sig_op_scalar_ok by assumption. apply okP_ret, ew1. Qed.
Print Assumptions C08_signal_op_scalar.

Theorem C08_scalar_op_signal : forall A W vec (op : A -> A -> A) d a b, 1 <= W ->
  okP (scalar_op_sig W vec op d a b) (elementwise1 (fun x => op a x) b).
Proof. intros. rewrite scalar_op_sig_ok by assumption. apply okP_ret, ew1. Qed.
Print Assumptions C08_scalar_op_signal.

(** three-argument forms, output separate from the inputs *)
Theorem C08_into : forall A W vec (op : A -> A -> A) (r a b : list A) (s : A), 1 <= W ->
  (lenZ r = lenZ a -> lenZ a = lenZ b -> okP (sig_sig_into W vec op r a b) (elementwise2 op a b)) /\
  (lenZ r = lenZ a -> okP (sig_scalar_into W vec op r a s) (elementwise1 (fun x => op x s) a)) /\
  (lenZ r = lenZ a -> okP (scalar_sig_into W vec op r s a) (elementwise1 (fun x => op s x) a)).
Proof.
  intros. repeat split; intros.
  - rewrite sig_sig_into_ok by assumption. apply okP_ret, ew2; assumption.
  - rewrite sig_scalar_into_ok by assumption. apply okP_ret, ew1.
  - rewrite scalar_sig_into_ok by assumption. apply okP_ret, ew1.
Qed.
Print Assumptions C08_into.

(** in-place forms: the output is the first operand, the second, both *)
Theorem C08_in_place : forall A W vec (op : A -> A -> A) (a b : list A) (s : A), 1 <= W ->
  (lenZ a = lenZ b -> okP (sig_sig_inplace W vec op a b) (elementwise2 op a b)) /\
  (lenZ a = lenZ b -> okP (sig_sig_inplace2 W vec op a b) (elementwise2 op a b)) /\
  okP (sig_self_inplace W vec op a) (elementwise2 op a a) /\
  okP (sig_scalar_inplace W vec op a s) (elementwise1 (fun x => op x s) a).
Proof.
  intros. repeat split; intros.
  - rewrite sig_sig_inplace_ok by assumption. apply okP_ret, ew2; assumption.
  - rewrite sig_sig_inplace2_ok by assumption. apply okP_ret, ew2; assumption.
  - rewrite sig_self_inplace_ok by assumption. apply okP_ret, ew2; reflexivity.
  - rewrite sig_scalar_inplace_ok by assumption. apply okP_ret, ew1.
Qed.
Print Assumptions C08_in_place.

Theorem C08_size_mismatch_throws : forall A W vec (op : A -> A -> A) d (r a b : list A) (s : A), 1 <= W ->
  (lenZ a <> lenZ b -> sig_op_sig W vec op d a b = Throw InvalidArgument) /\
  (lenZ a <> lenZ b -> sig_sig_inplace W vec op a b = Throw InvalidArgument) /\
  (~ (lenZ r = lenZ a /\ lenZ r = lenZ b) -> sig_sig_into W vec op r a b = Throw InvalidArgument) /\
  (lenZ r <> lenZ a -> sig_scalar_into W vec op r a s = Throw InvalidArgument) /\
  (lenZ r <> lenZ a -> scalar_sig_into W vec op r s a = Throw InvalidArgument).
Proof.
  intros. repeat split; intros.
  - apply sig_op_sig_throw; assumption.
  - apply sig_sig_inplace_throw; assumption.
  - apply sig_sig_into_throw; assumption.
  - apply sig_scalar_into_throw; assumption.
  - apply scalar_sig_into_throw; assumption.
Qed.
Print Assumptions C08_size_mismatch_throws.

Example C08_nontrivial : sig_op_sig 4 true Z.sub 0 [9;8;7;6;5;4] [1;2;3;4;5;6] = Ok [8;6;4;2;0;-2]
  /\ sig_sig_inplace 2 true Z.mul [1;2;3] [4;5;6] = Ok [4;10;18].
Proof. split; vm_compute; reflexivity. Qed.

(* C09: for every associative, commutative operation, every SIMD width, vectorised or not *)
Theorem C09_reduce_is_left_fold : forall K W vec (r : redop K) op l init, 1 <= W -> redop_ok r op ->
  Reduce W vec r l init = Ok (fold_left op l init).
Proof. intros. apply Reduce_spec; auto. Qed.
Print Assumptions C09_reduce_is_left_fold.

Theorem C09_transform_reduce_is_left_fold : forall T K W vec (r : redop K) op (f : T -> K) l init,
  1 <= W -> redop_ok r op ->
  TransformReduce W vec r f l init = Ok (fold_left op (map f l) init).
Proof. intros. apply (@TransformReduce_spec T K); auto. Qed.
Print Assumptions C09_transform_reduce_is_left_fold.

(** the second range must be at least as long as the first (std::inner_product's contract) *)
Theorem C09_inner_product_is_left_fold : forall T1 T2 K W vec (r : redop K) op (prod : T1 -> T2 -> K) a b init,
  1 <= W -> redop_ok r op -> lenZ a <= lenZ b ->
  InnerProduct W vec r prod a b init =
  Ok (fold_left op (map (fun p => prod (fst p) (snd p)) (combine a b)) init).
Proof. intros. apply (@InnerProduct_spec T1 T2 K); auto. Qed.
Print Assumptions C09_inner_product_is_left_fold.

(** "reads nothing outside the range": a shorter second range is detected as undefined
    behaviour by the model, so the Ok above is not vacuous *)
Example C09_nontrivial :
  Reduce 4 true (Plus Z.add) (map Z.of_nat (seq 1 45)) 100 = Ok 1135 /\
  Reduce 3 true (Plain Z.max) [3;9;2;7;1;8;4] 5 = Ok 9 /\
  InnerProduct 2 true (Plus Z.add) Z.mul [1;2;3] [4;5] 0 = UB /\
  redop_ok (Plain Z.max) Z.max.
Proof.
  repeat split; try (vm_compute; reflexivity).
  constructor; [intros; apply Z.max_assoc|apply Z.max_comm].
Qed.

(* C10 *)
Theorem C10_compensated_reduce_is_sum : forall (K : CRing) W vec (l : list K) init, 1 <= W ->
  Reduce W vec (comp_sum K) l init = Ok (radd init (suml l)).
Proof.
  intros. rewrite (Reduce_spec _ radd W vec (or_intror (redop_comp K)) ltac:(assumption)).
  now rewrite fold_left_radd.
Qed.
Print Assumptions C10_compensated_reduce_is_sum.

Theorem C10_compensated_inner_product_is_sum : forall (K : CRing) W vec (a b : list K) init, 1 <= W -> lenZ a <= lenZ b ->
  InnerProduct W vec (comp_sum K) rmul a b init =
  Ok (radd init (sumZ 0 (lenZ a) (fun i => rmul (at0 a i) (at0 b i)))).
Proof.
  intros. rewrite (InnerProduct_spec _ radd W vec (or_intror (redop_comp K)) ltac:(assumption) rmul a b init) by assumption.
  rewrite fold_left_radd. do 2 f_equal. rewrite suml_sumZ.
  rewrite lenZ_map2. replace (Z.min (lenZ a) (lenZ b)) with (lenZ a) by lia.
  apply sumZ_ext. intros i Hi. apply at0_in. apply nthZ_map2; apply nthZ_at0; lia.
Qed.
Print Assumptions C10_compensated_inner_product_is_sum.

Theorem C10_compensated_transform_reduce_is_sum : forall T (K : CRing) W vec (f : T -> K) l init, 1 <= W ->
  TransformReduce W vec (comp_sum K) f l init = Ok (radd init (suml (map f l))).
Proof.
  intros. rewrite (TransformReduce_spec _ radd W vec (or_intror (redop_comp K)) ltac:(assumption) f l init).
  now rewrite fold_left_radd.
Qed.
Print Assumptions C10_compensated_transform_reduce_is_sum.

(** the compensation term stays zero through any sequence of additions *)
Fixpoint kahan_run {K : CRing} (st : K * K) (l : list K) : K * K :=
  match l with [] => st | x :: xs => kahan_run (kahan radd rsub (fst st) (snd st) x) xs end.
Theorem C10_compensation_stays_zero : forall (K : CRing) (l : list K) (s : K),
  kahan_run (r0, s) l = (r0, radd s (suml l)).
Proof.
  intros K l. induction l as [|x l IH]; intros s; cbn [kahan_run fst snd].
  - rewrite suml_nil. f_equal. rewrite (Radd_comm (rth K)). symmetry. apply (Radd_0_l (rth K)).
  - rewrite kahan_scalar. rewrite IH. rewrite suml_cons. f_equal. symmetry. apply (Radd_assoc (rth K)).
Qed.
Print Assumptions C10_compensation_stays_zero.

Example C10_nontrivial : Reduce 4 true (comp_sum Zring) (map Z.of_nat (seq 1 45)) 7 = Ok 1042.
Proof. vm_compute. reflexivity. Qed.
