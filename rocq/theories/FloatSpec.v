(** Specification vocabulary for what the reductions do when the operator obeys no law
    (floating-point addition is neither associative nor exact). *)
From Verif Require Import Base.
From Coq Require Import List Arith.
From Coq Require Export Permutation.
Import ListNotations.

(** [combined op d v l]: the value [v] was obtained by combining the elements of [l], every one
    of them used exactly once, with [op], in some order and with some bracketing; no element
    passed through more than [d] applications of [op]. *)
Inductive combined {K : Type} (op : K -> K -> K) : nat -> K -> list K -> Prop :=
| comb_one x : combined op 0 x [x]
| comb_op d1 d2 a b la lb : combined op d1 a la -> combined op d2 b lb ->
    combined op (S (Nat.max d1 d2)) (op a b) (la ++ lb)
| comb_perm d v l l' : combined op d v l -> Permutation l l' -> combined op d v l'
| comb_weaken d d' v l : combined op d v l -> (d <= d')%nat -> combined op d' v l.

(** What the C++ standard promises of std::reduce (GENERALIZED_SUM over init and the elements),
    and what xsimd::reduce_add does: the elements are combined in an unspecified order with
    unspecified bracketing. *)
Definition some_order {K : Type} (op : K -> K -> K) (red : list K -> K -> K) : Prop :=
  forall l init, combined op (length l) (red l init) (init :: l).
