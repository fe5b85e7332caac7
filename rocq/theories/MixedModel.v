(** Model of Kernels/Numeric.hpp Transform and Primitives/SignalArithmetic.hpp for operands and results of
    different element types (e.g. a complex signal times a real one).  The element operation [f] includes the
    conversions C++ performs; a batch operation does the same to every lane. *)
From Verif Require Import Base KernelModel.
Open Scope Z_scope.

(** An operand of a transformation whose output has elements of type [C]: the output itself, or another array. *)
Inductive operand (C : Type) : Type -> Type :=
| InOut : operand C C
| Array {A : Type} (l : list A) : operand C A.
Arguments InOut {C}. Arguments Array {C A} l.
Definition op_array {C A} (out : list C) (s : operand C A) : list A :=
  match s in operand _ A return list A with InOut => out | Array l => l end.

(* Numeric.hpp 129-158 *)
Definition Transform2Mixed {A B C} (W : Z) (vec : bool) (out : list C) (s1 : operand C A) (s2 : operand C B) (count : Z) (f : A -> B -> C)
  : outcome (list C) :=
  let vectorLast := if vec then (count / W) * W else 0 in
  do out <- (if vec
             then for_ 0 vectorLast W (fun i out =>
                    do v1 <- slice (op_array out s1) i W;
                    do v2 <- slice (op_array out s2) i W;
                    wrs out i (map2 f v1 v2)) out
             else Ok out);
  for_ vectorLast count 1 (fun i out =>
    do x <- rd (op_array out s1) i;
    do y <- rd (op_array out s2) i;
    wr out i (f x y)) out.
(* Numeric.hpp 101-127 *)
Definition Transform1Mixed {A C} (W : Z) (vec : bool) (out : list C) (s : operand C A) (count : Z) (f : A -> C) : outcome (list C) :=
  let vectorLast := if vec then (count / W) * W else 0 in
  do out <- (if vec
             then for_ 0 vectorLast W (fun i out => do v <- slice (op_array out s) i W; wrs out i (map f v)) out
             else Ok out);
  for_ vectorLast count 1 (fun i out => do x <- rd (op_array out s) i; wr out i (f x)) out.

(* SignalArithmetic.hpp 38-43, 60-65, 82-87, 104-109, 254-280: op(r, a, b), where a or b may be r *)
Definition mixed_sig_sig {A B C} W vec (op : A -> B -> C) (r : list C) (a : operand C A) (b : operand C B) : outcome (list C) :=
  do _ <- CheckSizes3 (lenZ r) (lenZ (op_array r a)) (lenZ (op_array r b));
  Transform2Mixed W vec r a b (lenZ (op_array r a)) op.
(* SignalArithmetic.hpp 52-57, 74-79, 96-101, 118-123, 287-313: op(r, a, scalar), where a may be r *)
Definition mixed_sig_scalar {A B C} W vec (op : A -> B -> C) (r : list C) (a : operand C A) (b : B) : outcome (list C) :=
  do _ <- CheckSizes2 (lenZ r) (lenZ (op_array r a));
  Transform1Mixed W vec r a (lenZ (op_array r a)) (fun x => op x b).
(* SignalArithmetic.hpp 45-50, 67-72, 89-94, 111-116: op(r, scalar, b) *)
Definition mixed_scalar_sig {A B C} W vec (op : A -> B -> C) (r : list C) (a : A) (b : operand C B) : outcome (list C) :=
  do _ <- CheckSizes2 (lenZ r) (lenZ (op_array r b));
  Transform1Mixed W vec r b (lenZ (op_array r b)) (fun x => op a x).
(* SignalArithmetic.hpp 135-247: the binary operators; [d] is the value-initialised element of the result *)
Definition mixed_op {A B C} W vec (op : A -> B -> C) (d : C) (a : list A) (b : list B) : outcome (list C) :=
  mixed_sig_sig W vec op (repeat d (length a)) (Array a) (Array b).
Definition mixed_op_scalar {A B C} W vec (op : A -> B -> C) (d : C) (a : list A) (b : B) : outcome (list C) :=
  mixed_sig_scalar W vec op (repeat d (length a)) (Array a) b.
Definition mixed_scalar_op {A B C} W vec (op : A -> B -> C) (d : C) (a : A) (b : list B) : outcome (list C) :=
  mixed_scalar_sig W vec op (repeat d (length b)) a (Array b).
(* SignalArithmetic.hpp 254-313: a op= b, a op= scalar *)
Definition mixed_assign {A B} W vec (op : A -> B -> A) (a : list A) (b : list B) : outcome (list A) :=
  mixed_sig_sig W vec op a InOut (Array b).
Definition mixed_assign_scalar {A B} W vec (op : A -> B -> A) (a : list A) (b : B) : outcome (list A) :=
  mixed_sig_scalar W vec op a InOut b.
