(** LinSpace and LogSpace of include/dspbb/Generators/Spaces.hpp over any arithmetic (WindowModel has them in exact
    arithmetic).  Nothing is assumed about the operations: [of_size] is R(i), the others are the operators and std::log,
    std::exp of R.
    Simplifications: those of WindowModel (real element types; the wrappers returning a new signal only allocate it). *)
From Verif Require Import Base KernelModel.
Open Scope Z_scope.
Section G.
Context {T : Type} (of_size : Z -> T) (add sub mul div : T -> T -> T) (log exp : T -> T).
(* Spaces.hpp 13-28 *)
Definition gLinSpace (W : Z) (vec : bool) (output : list T) (start end_ : T) (inclusive : bool) : outcome (list T) :=
  let count := lenZ output in
  do output <- for_ 0 count 1 (fun i output => wr output i (of_size i)) output;
  let scale := div (sub end_ start) (of_size (Z.max 1 (count - (if inclusive then 1 else 0)))) in
  do output <- sig_scalar_inplace W vec mul output scale;
  sig_scalar_inplace W vec add output start.
(* Spaces.hpp 37-46 *)
Definition gLogSpace (W : Z) (vec : bool) (output : list T) (start end_ base : T) (inclusive : bool) : outcome (list T) :=
  do output <- gLinSpace W vec output start end_ inclusive;
  do output <- sig_scalar_inplace W vec mul output (log base);
  Transform1 W vec output (Self 0) 0 (lenZ output) exp.
End G.
