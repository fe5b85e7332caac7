(** Model of include/dspbb/Filtering/FIR/BandTransforms.hpp.
    Signals are lists; the source operand is [None] when it is the very object that is written
    (fir::X(out, out)), [Some l] when it is another array.  W, vec: vector width and use of the
    vectorised kernel in Multiply (KernelModel). Sample arithmetic is exact. *)
From Coq Require Import Reals.
From Verif Require Import Base Complex KernelModel FirModel PolyphaseModel.
Open Scope Z_scope.

Section Band.
Context {K : CRing}.
(** filter[i] and filter.size() for a source that may be the output itself *)
Definition src_at (out : list K) (filter : option (list K)) (i : Z) : outcome K :=
  match filter with None => rd out i | Some f => rd f i end.
Definition src_size (out : list K) (filter : option (list K)) : Z :=
  match filter with None => lenZ out | Some f => lenZ f end.

(* BandTransforms.hpp 14-23 *)
Definition MirrorResponse (mirrored : list K) (filter : option (list K)) : outcome (list K) :=
  assert_ (lenZ mirrored =? src_size mirrored filter)
  (do (out, _) <- for_ 0 (src_size mirrored filter) 1 (fun i st => let '(out, sign) := st in
       do x <- src_at out filter i;
       do out <- wr out i (rmul sign x);
       Ok (out, rmul sign (ropp r1))) (mirrored, r1);
   Ok out).

(* BandTransforms.hpp 25-32; Multiply(complementary, filter, T(-1)) is signal times scalar *)
Definition ComplementaryResponse (W : Z) (vec : bool) (complementary : list K) (filter : option (list K)) : outcome (list K) :=
  assert_ (src_size complementary filter mod 2 =? 1)
  (do out <- match filter with
             | None => sig_scalar_inplace W vec rmul complementary (ropp r1)
             | Some f => sig_scalar_into W vec rmul complementary f (ropp r1)
             end;
   do x <- rd out (lenZ out / 2);
   wr out (lenZ out / 2) (radd x r1)).

(* BandTransforms.hpp 51-61: impl::kernel *)
Definition kernelSize : Z := 32.
Definition kernel : list K :=
  let two := radd r1 r1 in tab kernelSize (fun i => if i mod 4 =? 0 then two else if i mod 4 =? 2 then ropp two else r0).
Definition kernelCenter : Z := kernelSize / 2 - 1.
Definition maxSizeSingleStep : Z := kernelSize - 1.

(** Multiply(view{out.data() + po, count}, view{halfband.data() + po, count}, kernel.subsignal(koff, kcount)) *)
Definition mul_window (W : Z) (vec : bool) (out : list K) (halfband : option (list K)) (po count koff kcount : Z) : outcome (list K) :=
  on_window out po count (fun w =>
    do k <- slice kernel koff kcount;
    match halfband with
    | None => sig_sig_inplace W vec rmul w k
    | Some h => do h <- slice h po count; sig_sig_into W vec rmul w h k
    end).
(* BandTransforms.hpp 64-101 *)
Definition HalfbandToHilbertOdd (W : Z) (vec : bool) (out : list K) (halfband : option (list K)) : outcome (list K) :=
  let filterSize := src_size out halfband in
  assert_ (filterSize mod 2 =? 1)
  (assert_ (lenZ out =? filterSize)
  (if filterSize <=? maxSizeSingleStep then
     let offset := kernelCenter - filterSize / 2 in
     mul_window W vec out halfband 0 filterSize offset filterSize
   else
     let tap := (filterSize / 2 - kernelCenter) mod kernelSize in
     do out <- mul_window W vec out halfband 0 tap (kernelSize - tap) (kernelSize - (kernelSize - tap));
     do (out, tap) <- for_ tap (filterSize - kernelSize) kernelSize (fun _ st => let '(out, tap) := st in
         do out <- mul_window W vec out halfband tap kernelSize 0 kernelSize;
         Ok (out, tap + kernelSize)) (out, tap);
     let lastChunkSize := filterSize - tap in
     mul_window W vec out halfband tap lastChunkSize 0 lastChunkSize)).

(** Multiply(scratch.subsignal(0, count), view{halfband.data() + tap, count}, kernel.subsignal(koff, kcount)) *)
Definition mul_scratch (W : Z) (vec : bool) (scratch halfband : list K) (tap count koff kcount : Z) : outcome (list K) :=
  on_window scratch 0 count (fun w =>
    do k <- slice kernel koff kcount;
    do h <- slice halfband tap count;
    sig_sig_into W vec rmul w h k).
(** Decimate(view{out.begin() + o, n}, scratch.subsignal(0, count), 2) *)
Definition decimate_chunk (out scratch : list K) (o n count : Z) : outcome (list K) :=
  on_window out o n (fun w => do s <- slice scratch 0 count; DecimateInto w s 2).
(* BandTransforms.hpp 103-147; [scratch]: the uninitialised scratchStorage, of size kernelSize *)
Definition HalfbandToHilbertEven (W : Z) (vec : bool) (scratch : list K) (out halfband : list K) : outcome (list K) :=
  assert_ (lenZ out mod 2 =? 0)
  (assert_ (lenZ out * 2 - 1 =? lenZ halfband)
  (let filterSize := lenZ halfband in
   if filterSize <=? maxSizeSingleStep then
     let offset := kernelCenter - filterSize / 2 in
     do scratch <- mul_scratch W vec scratch halfband 0 filterSize offset filterSize;
     do s <- slice scratch 0 filterSize;
     DecimateInto out s 2
   else
     let tap := (filterSize / 2 - kernelCenter) mod kernelSize in
     do scratch <- mul_scratch W vec scratch halfband 0 tap (kernelSize - tap) (kernelSize - (kernelSize - tap));
     do out <- decimate_chunk out scratch 0 ((tap + 1) / 2) tap;
     do (out, scratch, tap) <- for_ tap (filterSize - kernelSize) kernelSize (fun _ st => let '(out, scratch, tap) := st in
         do scratch <- mul_scratch W vec scratch halfband tap kernelSize 0 kernelSize;
         do out <- decimate_chunk out scratch ((tap + 1) / 2) ((kernelSize + 1) / 2) kernelSize;
         Ok (out, scratch, tap + kernelSize)) (out, scratch, tap);
     let lastChunkSize := filterSize - tap in
     do scratch <- mul_scratch W vec scratch halfband tap lastChunkSize 0 lastChunkSize;
     decimate_chunk out scratch ((tap + 1) / 2) ((lastChunkSize + 1) / 2) lastChunkSize)).
End Band.

(* BandTransforms.hpp 34-48, for real taps *)
Definition ShiftResponse (W : Z) (vec : bool) (moved : list R) (filter : option (list R)) (normalizedFrequency : R) : outcome (list R) :=
  let size := src_size (K := Rring) moved filter in
  assert_ (lenZ moved =? size)
  (let offset := size / 2 in
   let scale := (PI * normalizedFrequency)%R in
   do out <- for_ 0 (size / 2) 1 (fun i out =>
       let x := ((IZR i - IZR offset) * scale)%R in
       let c := cos x in
       do a <- src_at (K := Rring) out filter i;
       do out <- wr out i (c * a)%R;
       do b <- src_at (K := Rring) out filter (size - i - 1);
       wr out (size - i - 1) (c * b)%R) moved;
   sig_scalar_inplace W vec Rmult out 2%R).
