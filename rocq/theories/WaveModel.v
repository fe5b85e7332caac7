(** include/dspbb/Generators/Waveforms.hpp over any arithmetic (WindowModel has it in exact arithmetic).  D is double,
    T the element type; nothing is assumed about the operations.
    Simplification: real element types (for complex ones R(T(x)) adds a zero imaginary part); the wrappers returning a new
    signal only allocate it. *)
From Verif Require Import Base KernelModel.
Open Scope Z_scope.
Section G.
Context {D T : Type} (of_size : Z -> D) (dadd dsub dmul ddiv : D -> D -> D) (dabs dmodf : D -> D) (dlt dle : D -> D -> bool).
(** 1.0, 2.0, pi_v<double>, numeric_limits<double>::denorm_min(); the integers 0 and 1 as doubles *)
Variables (d0 d1 d2 pi denorm : D).
(** T(x) of a double, and the operators of T *)
Variables (cast : D -> T) (mul sub : T -> T -> T).

(* Waveforms.hpp 16-28 *)
Definition gPhase (sampleRate : Z) (frequency phase : D) (idx : Z) : D :=
  let time := ddiv (of_size idx) (of_size sampleRate) in
  dadd (dmul (dmul (dmul d2 pi) time) frequency) phase.
Definition gGenericWave (output : list T) (sampleRate : Z) (frequency phase : D) (waveFunc : D -> D) : outcome (list T) :=
  for_ 0 (lenZ output) 1 (fun idx output => wr output idx (cast (waveFunc (gPhase sampleRate frequency phase idx)))) output.
(* Waveforms.hpp 30-44 *)
Definition gChirpPhase (n sampleRate : Z) (startFrequency endFrequency phase : D) (idx : Z) : D :=
  let length := ddiv (of_size n) (of_size sampleRate) in
  let time := ddiv (of_size idx) (of_size sampleRate) in
  dadd (dmul (dmul d2 pi) (dadd (dmul time startFrequency) (ddiv (dmul (ddiv (dmul time time) d2) (dsub endFrequency startFrequency)) length))) phase.
Definition gGenericChirp (output : list T) (sampleRate : Z) (startFrequency endFrequency phase : D) (waveFunc : D -> D) : outcome (list T) :=
  for_ 0 (lenZ output) 1 (fun idx output =>
    wr output idx (cast (waveFunc (gChirpPhase (lenZ output) sampleRate startFrequency endFrequency phase idx)))) output.
(* Waveforms.hpp 46-54 *)
Definition gSawtooth (phase tilt : D) : D :=
  let pi2 := dmul d2 pi in
  let unitPhase := dmodf (ddiv phase pi2) in
  let length := if dlt tilt unitPhase then dsub d1 tilt else dadd tilt denorm in
  let distance := dabs (dsub unitPhase tilt) in
  let value := dsub d1 (ddiv distance length) in
  dsub (dmul d2 value) d1.
(* Waveforms.hpp 56-61 *)
Definition gPwm (phase fill : D) : D :=
  let pi2 := dmul d2 pi in
  let unitPhase := dmodf (ddiv phase pi2) in
  if dlt unitPhase fill || dle d1 fill then d1 else d0.
(* Waveforms.hpp 112-113, 171-172 *)
Definition gSquare (W : Z) (vec : bool) (output : list T) : outcome (list T) :=
  do output <- sig_scalar_inplace W vec mul output (cast d2);
  sig_scalar_inplace W vec sub output (cast d1).
End G.
