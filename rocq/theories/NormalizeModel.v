(** PolyphaseNormalize of include/dspbb/Filtering/Polyphase.hpp over any arithmetic (PolyphaseModel has it in exact arithmetic).
    Nothing is assumed about the operations: [mul] multiplies samples, [sum] is Statistics.hpp's Sum (StatModel.gSum),
    [recip] s is T(1) / s.
    Simplifications: those of PolyphaseModel. *)
From Verif Require Import Base KernelModel FirModel PolyphaseModel.
Open Scope Z_scope.
Section G.
Context {T : Type} (mul : T -> T -> T) (sum : list T -> outcome T) (recip : T -> T).
(* Polyphase.hpp 90-95 *)
Definition gPolyphaseNormalize (W : Z) (vec : bool) (v : pview T) : outcome (pview T) :=
  do buf <- for_ 0 (vcount v) 1 (fun i buf =>
      do phase <- view_at (mkView buf (vcount v)) i;
      do s <- sum phase;
      do (offset, size) <- subsignal_location (lenZ buf) (vcount v) i;
      on_window buf offset size (fun w => sig_scalar_inplace W vec mul w (recip s))) (vbuffer v);
  Ok (mkView buf (vcount v)).
End G.
