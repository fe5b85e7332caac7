(** Model of include/dspbb/Kernels/Numeric.hpp, Functors.hpp, and of
    Primitives/SignalArithmetic.hpp on top of it.

    Arrays are lists, pointers are indices into them; every load and store is checked.
    A SIMD batch of width [W] is a list of [W] lanes and operations act lanewise.
    Simplifications: all element types are one type [A]; taking the address of the first
    element of an empty range (Numeric.hpp 107, 136, 239, ...) is treated as harmless. *)
From Verif Require Import Base.

Section Transform.
Context {A : Type}.

(** Where an operand lives: inside the output array itself, or in another array. *)
Inductive src := Self (off : Z) | Other (arr : list A) (off : Z).
Definition src_rd (out : list A) (s : src) (i : Z) : outcome A :=
  match s with Self o => rd out (o + i) | Other l o => rd l (o + i) end.
Definition src_load (out : list A) (s : src) (i W : Z) : outcome (list A) :=
  match s with Self o => slice out (o + i) W | Other l o => slice l (o + i) W end.

(* Numeric.hpp 101-127: unary Transform. [vec]: is_transform_vectorized_1 *)
Definition Transform1 (W : Z) (vec : bool) (out : list A) (s : src) (po count : Z) (f : A -> A)
  : outcome (list A) :=
  let vectorLast := if vec then (count / W) * W else 0 in
  do out <- (if vec
             then for_ 0 vectorLast W (fun i out =>
                    do v <- src_load out s i W;
                    wrs out (po + i) (map f v)) out
             else Ok out);
  for_ vectorLast count 1 (fun i out =>
    do x <- src_rd out s i;
    wr out (po + i) (f x)) out.

(* Numeric.hpp 129-158: binary Transform. [vec]: is_transform_vectorized_2.  [fv] is what the
   function object does to a lane of a batch, [fs] what it does to single elements (they differ
   only in the rounding, e.g. a fused multiply-add in one of them). *)
Definition Transform2With (W : Z) (vec : bool) (out : list A) (s1 s2 : src) (po count : Z) (fv fs : A -> A -> A)
  : outcome (list A) :=
  let vectorLast := if vec then (count / W) * W else 0 in
  do out <- (if vec
             then for_ 0 vectorLast W (fun i out =>
                    do v1 <- src_load out s1 i W;
                    do v2 <- src_load out s2 i W;
                    wrs out (po + i) (map2 fv v1 v2)) out
             else Ok out);
  for_ vectorLast count 1 (fun i out =>
    do x <- src_rd out s1 i;
    do y <- src_rd out s2 i;
    wr out (po + i) (fs x y)) out.
Definition Transform2 (W : Z) (vec : bool) (out : list A) (s1 s2 : src) (po count : Z) (f : A -> A -> A)
  : outcome (list A) := Transform2With W vec out s1 s2 po count f f.

(** ** Signal arithmetic *)
(* SignalArithmetic.hpp 17-24 (release behaviour: the asserts of 19-20 precede the throw
   of the same condition; modelled is the throw) *)
Definition CheckSizes3 (r a b : Z) : outcome unit :=
  if negb (r =? a) || negb (r =? b) then Throw InvalidArgument else Ok tt.
(* SignalArithmetic.hpp 26-32 *)
Definition CheckSizes2 (r a : Z) : outcome unit :=
  if negb (r =? a) then Throw InvalidArgument else Ok tt.

(* SignalArithmetic.hpp 38-43, 60-65, 82-87, 104-109: Multiply/Divide/Add/Subtract(r, a, b),
   with r a separate signal. [op] is std::multiplies / divides / plus / minus. *)
Definition sig_sig_into (W : Z) (vec : bool) (op : A -> A -> A) (r a b : list A) : outcome (list A) :=
  do _ <- CheckSizes3 (lenZ r) (lenZ a) (lenZ b);
  Transform2 W vec r (Other a 0) (Other b 0) 0 (lenZ a) op.
(* SignalArithmetic.hpp 52-57, 74-79, 96-101, 118-123: signal op scalar *)
Definition sig_scalar_into (W : Z) (vec : bool) (op : A -> A -> A) (r a : list A) (b : A) : outcome (list A) :=
  do _ <- CheckSizes2 (lenZ r) (lenZ a);
  Transform1 W vec r (Other a 0) 0 (lenZ a) (fun x => op x b).
(* SignalArithmetic.hpp 45-50, 67-72, 89-94, 111-116: scalar op signal *)
Definition scalar_sig_into (W : Z) (vec : bool) (op : A -> A -> A) (r : list A) (a : A) (b : list A) : outcome (list A) :=
  do _ <- CheckSizes2 (lenZ r) (lenZ b);
  Transform1 W vec r (Other b 0) 0 (lenZ b) (fun x => op a x).
(* SignalArithmetic.hpp 254-280: a op= b, i.e. op(a, a, b): the output is the first operand *)
Definition sig_sig_inplace (W : Z) (vec : bool) (op : A -> A -> A) (a b : list A) : outcome (list A) :=
  do _ <- CheckSizes3 (lenZ a) (lenZ a) (lenZ b);
  Transform2 W vec a (Self 0) (Other b 0) 0 (lenZ a) op.
(* op(a, b, a) and op(a, a, a): the output is the second operand, or both *)
Definition sig_sig_inplace2 (W : Z) (vec : bool) (op : A -> A -> A) (a b : list A) : outcome (list A) :=
  do _ <- CheckSizes3 (lenZ b) (lenZ a) (lenZ b);
  Transform2 W vec b (Other a 0) (Self 0) 0 (lenZ a) op.
Definition sig_self_inplace (W : Z) (vec : bool) (op : A -> A -> A) (a : list A) : outcome (list A) :=
  do _ <- CheckSizes3 (lenZ a) (lenZ a) (lenZ a);
  Transform2 W vec a (Self 0) (Self 0) 0 (lenZ a) op.
(* SignalArithmetic.hpp 287-313: a op= scalar *)
Definition sig_scalar_inplace (W : Z) (vec : bool) (op : A -> A -> A) (a : list A) (b : A) : outcome (list A) :=
  do _ <- CheckSizes2 (lenZ a) (lenZ a);
  Transform1 W vec a (Self 0) 0 (lenZ a) (fun x => op x b).
(* SignalArithmetic.hpp 135-247: the binary operators make a fresh signal of the size of the
   signal operand (the first one if there are two); [d] is the value-initialised element *)
Definition sig_op_sig W vec op (d : A) (a b : list A) :=
  sig_sig_into W vec op (repeat d (length a)) a b.
Definition sig_op_scalar W vec op (d : A) (a : list A) (b : A) :=
  sig_scalar_into W vec op (repeat d (length a)) a b.
Definition scalar_op_sig W vec op (d : A) (a : A) (b : list A) :=
  scalar_sig_into W vec op (repeat d (length b)) a b.
End Transform.
Arguments src A : clear implicits.

Section Reduce.
(** [V]: the accumulator type, a scalar or a batch. *)
Context {V : Type}.

(* Functors.hpp 31-65: the ternary (carry) form of plus_compensated *)
Definition kahan (add sub : V -> V -> V) (carry sum item : V) : V * V :=
  let y := sub item carry in
  let t := add sum y in
  (sub (sub t sum) y, t).
(* Numeric.hpp 224-229: a plain operator ignores the carry *)
Definition nocarry (op : V -> V -> V) (carry sum item : V) : V * V := (carry, op sum item).

(* for (; first != last; first += step) with explicit fuel; running out of fuel (or
   stepping past the end) is an endless loop, counted as UB *)
Fixpoint until_eq {S} (fuel : nat) (first last step : Z) (body : Z -> S -> outcome S) (s : S) : outcome S :=
  if first =? last then Ok s else
  match fuel with
  | O => UB
  | Datatypes.S f => do s' <- body first s; until_eq f (first + step) last step body s'
  end.

(* Numeric.hpp 183-232 (ReduceExplicit), 263-312 (TransformReduceExplicit),
   342-396 (InnerProductExplicit): the three functions have the same body except for how a
   value is fetched at position [p]; [ld p] fetches it (load / load and transform /
   load two and multiply). [op3] is the combination in the main loop with the carry. *)
Definition Explicit (op : V -> V -> V) (op3 : V -> V -> V -> V * V) (carry0 : V)
    (ld : Z -> outcome V) (stride first last : Z) (init : V) : outcome V :=
  let count := (last - first) / stride in
  let singlet := Z.odd count in
  let doublet := Z.testbit count 1 in
  let quadruplet := Z.testbit count 2 in
  do (acc, first) <-
    (if singlet then
       do v0 <- ld first;
       Ok (op init v0, first + 1 * stride)
     else Ok (init, first));
  do (acc, first) <-
    (if doublet then
       do v0 <- ld first;
       do v1 <- ld (first + 1 * stride);
       Ok (op acc (op v0 v1), first + 2 * stride)
     else Ok (acc, first));
  do (acc, first) <-
    (if quadruplet then
       do v0 <- ld first;
       do v1 <- ld (first + 1 * stride);
       do v2 <- ld (first + 2 * stride);
       do v3 <- ld (first + 3 * stride);
       Ok (op acc (op (op v0 v1) (op v2 v3)), first + 4 * stride)
     else Ok (acc, first));
  do (_, acc) <-
    until_eq (Z.to_nat (last - first)) first last (8 * stride) (fun first (st : V * V) =>
      let (carry, acc) := st in
      do v0 <- ld first;
      do v1 <- ld (first + 1 * stride);
      do v2 <- ld (first + 2 * stride);
      do v3 <- ld (first + 3 * stride);
      do v4 <- ld (first + 4 * stride);
      do v5 <- ld (first + 5 * stride);
      do v6 <- ld (first + 6 * stride);
      do v7 <- ld (first + 7 * stride);
      Ok (op3 carry acc (op (op (op v0 v1) (op v2 v3)) (op (op v4 v5) (op v6 v7))))) (carry0, acc);
  Ok acc.
End Reduce.

Section ReduceTop.
Context {K : Type}.
(* Numeric.hpp 165-171: ReduceBatch, generic: std::reduce over the lanes starting from init
   (std::reduce may use any order; modelled as left to right) *)
Definition ReduceBatch (op : K -> K -> K) (batch : list K) (init : K) : K := fold_left op batch init.
(* Numeric.hpp 173-181: ReduceBatch for plus and plus_compensated: init + reduce_add(batch) *)
Definition ReduceBatchPlus (op : K -> K -> K) (batch : list K) (init : K) : K :=
  match batch with [] => init | x :: xs => op init (fold_left op xs x) end.

(** Which operator is used: a plain one, std::plus (own ReduceBatch), or compensated plus. *)
Inductive redop :=
| Plain (op : K -> K -> K)
| Plus (op : K -> K -> K)
| Comp (add sub : K -> K -> K) (zero : K).
Definition op_of (r : redop) : K -> K -> K :=
  match r with Plain op | Plus op => op | Comp add _ _ => add end.
Definition batch_of (r : redop) : list K -> K -> K :=
  match r with Plain op => ReduceBatch op | Plus op => ReduceBatchPlus op | Comp add _ _ => ReduceBatchPlus add end.

(* scalar and batch instances of Explicit *)
Definition explicit_scalar (r : redop) (ld : Z -> outcome K) (first last : Z) (init : K) : outcome K :=
  match r with
  | Plain op | Plus op => Explicit op (nocarry op) init ld 1 first last init
  | Comp add sub zero => Explicit add (kahan add sub) zero ld 1 first last init
  end.
Definition explicit_batch (W : Z) (r : redop) (ld : Z -> outcome (list K)) (first last : Z) (init : list K)
  : outcome (list K) :=
  match r with
  | Plain op | Plus op => Explicit (map2 op) (nocarry (map2 op)) init ld W first last init
  | Comp add sub zero => Explicit (map2 add) (kahan (map2 add) (map2 sub)) (repeat zero (Z.to_nat W)) ld W first last init
  end.

(* the values the pointer passes on its way from [p] to [count], fetched one by one *)
Definition fetch_ {V} (ld : Z -> outcome V) (p count : Z) : outcome (list V) :=
  for_ p count 1 (fun i vs => do x <- ld i; Ok (vs ++ [x])) [].

(* Numeric.hpp 234-256 (Reduce), 314-335 (TransformReduce), 398-425 (InnerProduct):
   again one body up to the way values are fetched: [lds i] fetches the scalar value at
   position i, [ldv i] the batch at i..i+W-1; the vectorised path takes the first batch as
   start value, combines the lanes of the result with init ([batch], ReduceBatch) and
   finishes the tail with the std:: algorithm ([tail]: std::reduce / transform_reduce /
   inner_product over the remaining values). *)
Definition reduce_top_with (batch tail : list K -> K -> K) (W : Z) (vec : bool) (r : redop)
    (lds : Z -> outcome K) (ldv : Z -> outcome (list K)) (count : Z) (init : K) : outcome K :=
  if vec then
    let vectorCount := count / W in
    do (init, p) <-
      (if negb (vectorCount =? 0) then
         do vinit <- ldv 0;
         do vres <- explicit_batch W r ldv W (vectorCount * W) vinit;
         Ok (batch vres init, vectorCount * W)
       else Ok (init, 0));
    do rest <- fetch_ lds p count;
    Ok (tail rest init)
  else explicit_scalar r lds 0 count init.
End ReduceTop.
Arguments redop K : clear implicits.

(* Numeric.hpp 234-256 *)
Definition ReduceWith {K} (batch tail : list K -> K -> K) (W : Z) (vec : bool) (r : redop K) (l : list K) (init : K) : outcome K :=
  reduce_top_with batch tail W vec r (fun i => rd l i) (fun i => slice l i W) (lenZ l) init.
(* Numeric.hpp 314-335 *)
Definition TransformReduceWith {T K} (batch tail : list K -> K -> K) (W : Z) (vec : bool) (r : redop K)
    (f : T -> K) (l : list T) (init : K) : outcome K :=
  reduce_top_with batch tail W vec r (fun i => do x <- rd l i; Ok (f x))
    (fun i => do v <- slice l i W; Ok (map f v)) (lenZ l) init.
(* Numeric.hpp 398-425 *)
Definition InnerProductWith {T1 T2 K} (batch tail : list K -> K -> K) (W : Z) (vec : bool) (r : redop K)
    (prod : T1 -> T2 -> K) (a : list T1) (b : list T2) (init : K) : outcome K :=
  reduce_top_with batch tail W vec r (fun i => do x <- rd a i; do y <- rd b i; Ok (prod x y))
    (fun i => do v <- slice a i W; do w <- slice b i W; Ok (map2 prod v w)) (lenZ a) init.
(* the same, everything left to right *)
Definition Reduce {K} (W : Z) (vec : bool) (r : redop K) :=
  ReduceWith (batch_of r) (fold_left (op_of r)) W vec r.
Definition TransformReduce {T K} (W : Z) (vec : bool) (r : redop K) (f : T -> K) (l : list T) (init : K) : outcome K :=
  TransformReduceWith (batch_of r) (fold_left (op_of r)) W vec r f l init.
Definition InnerProduct {T1 T2 K} (W : Z) (vec : bool) (r : redop K) (prod : T1 -> T2 -> K)
    (a : list T1) (b : list T2) (init : K) : outcome K :=
  InnerProductWith (batch_of r) (fold_left (op_of r)) W vec r prod a b init.
