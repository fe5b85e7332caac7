(** Model of include/dspbb/Primitives/Signal.hpp (BasicSignal) and SignalView.hpp
    (BasicSignalView).  A BasicSignal is its std::vector of samples; std::vector's insert and
    erase are modelled by their contract, positions outside the vector being UB.
    Not modelled: capacity, iterator invalidation, element conversion; inserting a signal into
    itself (undefined behaviour for std::vector::insert). *)
From Verif Require Import Base.

Section Sig.
Context {A : Type}.
Implicit Types s t : list A.

(** std::vector::insert(begin + where, xs...) and erase(begin + first, begin + last) *)
Definition vec_insert s (pos : Z) (xs : list A) : outcome (list A) :=
  if (0 <=? pos) && (pos <=? lenZ s)
  then Ok (firstn (Z.to_nat pos) s ++ xs ++ skipn (Z.to_nat pos) s) else UB.
Definition vec_erase s (first last : Z) : outcome (list A) :=
  if (0 <=? first) && (first <=? last) && (last <=? lenZ s)
  then Ok (firstn (Z.to_nat first) s ++ skipn (Z.to_nat last) s) else UB.
(** std::vector::resize(count, value) *)
Definition vec_resize s (count : Z) (value : A) : list A :=
  firstn (Z.to_nat count) s ++ repeat value (Z.to_nat (count - lenZ s)).
(** std::vector(data, data + count), [data] pointing at index [off] of an array *)
Definition vec_copy (mem : list A) (off count : Z) : outcome (list A) := slice mem off count.

(* Signal.hpp 168-176 *)
Definition resize s (count : Z) (value : A) : list A := vec_resize s count value.
(* Signal.hpp 178-181 *)
Definition clear (s : list A) : list A := [].
(* Signal.hpp 183-186 *)
Definition append s t : outcome (list A) := vec_insert s (lenZ s) t.
(* Signal.hpp 188-191 *)
Definition prepend s t : outcome (list A) := vec_insert s 0 t.
(* Signal.hpp 193-196 *)
Definition push_back s (a : A) : list A := s ++ [a].
(* Signal.hpp 214-228 *)
Definition insert s (pos : Z) t : outcome (list A) := vec_insert s pos t.
(* Signal.hpp 230-233 *)
Definition erase1 s (pos : Z) : outcome (list A) :=
  if pos <? lenZ s then vec_erase s pos (pos + 1) else UB.
(* Signal.hpp 235-238 *)
Definition erase s (first last : Z) : outcome (list A) := vec_erase s first last.
(* Signal.hpp 198-204: returns the part and the remaining signal *)
Definition extract_front s (count : Z) : outcome (list A * list A) :=
  assert_ (count <=? lenZ s)
  (do part <- vec_copy s 0 count;
   do rest <- erase s 0 (0 + count);
   Ok (part, rest)).
(* Signal.hpp 206-212 *)
Definition extract_back s (count : Z) : outcome (list A * list A) :=
  assert_ (count <=? lenZ s)
  (do part <- vec_copy s (0 - count + lenZ s) count;
   do rest <- erase s (lenZ s - count) (lenZ s);
   Ok (part, rest)).
End Sig.

(** ** Views: two pointers into one array [mem]; [None] is the null pointer *)
Definition ptr := option Z.
(** pointer + integer: adding zero to null is allowed, anything else on null is UB *)
Definition padd (p : ptr) (d : Z) : outcome ptr :=
  match p with Some i => Ok (Some (i + d)) | None => if d =? 0 then Ok None else UB end.
(** pointer difference: two null pointers differ by 0 *)
Definition pdiff (p q : ptr) : outcome Z :=
  match p, q with Some i, Some j => Ok (i - j) | None, None => Ok 0 | _, _ => UB end.
Record view := mkView { m_first : ptr; m_last : ptr }.

(* SignalView.hpp 84-89: from a pair of pointers, null when empty *)
Definition view_range (first last : ptr) : outcome view :=
  do d <- pdiff last first;
  let f := if d =? 0 then None else first in
  do l <- padd f d;
  Ok (mkView f l).
(* SignalView.hpp 91-96 *)
Definition view_count (first : ptr) (size : Z) : outcome view :=
  let f := if size =? 0 then None else first in
  do l <- padd f size;
  Ok (mkView f l).
(* SignalView.hpp 67-82, 146-174: a view of a whole signal *)
Definition AsView {A} (mem : list A) : outcome view := view_range (Some 0) (Some (lenZ mem)).
(* SignalView.hpp 112 *)
Definition view_size (v : view) : outcome Z := pdiff (m_last v) (m_first v).
(* SignalView.hpp 118 *)
Definition view_empty (v : view) : bool :=
  match m_first v, m_last v with Some i, Some j => i =? j | None, None => true | _, _ => false end.
(** dereference *)
Definition pread {A} (mem : list A) (p : ptr) : outcome A :=
  match p with Some i => rd mem i | None => UB end.
Definition pwrite {A} (mem : list A) (p : ptr) (a : A) : outcome (list A) :=
  match p with Some i => wr mem i a | None => UB end.
(* SignalView.hpp 106: operator[], used for reading and for writing *)
Definition view_get {A} (mem : list A) (v : view) (i : Z) : outcome A :=
  do p <- padd (m_first v) i; pread mem p.
Definition view_set {A} (mem : list A) (v : view) (i : Z) (a : A) : outcome (list A) :=
  do p <- padd (m_first v) i; pwrite mem p a.
(* SignalView.hpp 100, 103 *)
Definition view_front {A} (mem : list A) (v : view) : outcome A := pread mem (m_first v).
Definition view_back {A} (mem : list A) (v : view) : outcome A :=
  do p <- padd (m_last v) (-1); pread mem p.
(* SignalView.hpp 120-124 *)
Definition view_take (v : view) (n : Z) : outcome view :=
  do s <- view_size v;
  assert_ (n <=? s)
  (do l <- padd (m_first v) n; view_range (m_first v) l).
(* SignalView.hpp 126-130 *)
Definition view_takelast (v : view) (n : Z) : outcome view :=
  do s <- view_size v;
  assert_ (n <=? s)
  (do f <- padd (m_last v) (- n); view_range f (m_last v)).
(* SignalView.hpp 132-136 *)
Definition view_sub1 (v : view) (offset : Z) : outcome view :=
  do s <- view_size v;
  assert_ (offset <=? s)
  (do f <- padd (m_first v) offset; view_range f (m_last v)).
(* SignalView.hpp 138-143 *)
Definition view_sub (v : view) (offset count : Z) : outcome view :=
  do s <- view_size v;
  assert_ (offset <=? s)
  (assert_ (offset + count <=? s)
   (do f <- padd (m_first v) offset;
    do l <- padd f count;
    view_range f l)).
