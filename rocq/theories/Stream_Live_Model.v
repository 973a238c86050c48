(** Model of stream sources over memory that is shared: stream/source.go and
    stream/conv.go again, with the slice in the heap, where callbacks can change
    its elements.  (In Stream_Model the elements are a fixed list.)  The world
    is the heap with whatever else there is, [V]. *)
From Verif Require Import Base Exn GoSlice Iter_Model Stream_Model XSlice_Model.
Local Open Scope exn_scope.
Local Open Scope string_scope.
Local Open Scope list_scope.
Local Open Scope Z_scope.

Section Live.
  Context {V T : Type}.

  (** Running a computation on the heap alone. *)
  Definition onHeap {A} (m : X (heap T) A) : X (heap T * V) A := fun '(h, v) =>
    let '(r, h') := m h in (r, (h', v)).

  (** source.go:10-13 sliceSource: the header [a] and the index i; 15-23 Next,
      25-37 SkipNext.  conv.go:3-9 OfSlice, Of. *)
  Definition liveSlice (a : slice) : source Z (heap T * V) T := {|
    sNext := fun '(i, hv) =>
      if i =? len a then (Ok None, (i, hv)) else
      let '(r, hv') := onHeap (index a i) hv in
      (match r with Ok x => Ok (Some x) | Panic p => Panic p | Diverge => Diverge end, (i + 1, hv'));
    sSkip := fun n '(i, hv) =>
      if n <? 0 then (Panic "sliceSource.SkipNext: negative value", (i, hv)) else
      if wrapInt (i + n) >=? len a then (Ok (len a - i), (len a, hv))
      else (Ok n, (wrapInt (i + n), hv)) |}.

  (** source.go:124-163 iteratorSource, with the heap its iterators read in the
      world and not kept by the source. *)
  Definition liveIterators {It} (o : Iter_Model.ops (heap T) It T) (random : bool) (last : It) : source It (heap T * V) T :=
    let shared {A} (m : X ((It * heap T) * V) A) : X (It * (heap T * V)) A := fun '(cur, (h, v)) =>
      let '(r, ((cur', h'), v')) := m ((cur, h), v) in (r, (cur', (h', v'))) in
    {| sNext := shared (sNext (iteratorSource o random last));
       sSkip := fun n => shared (sSkip (iteratorSource o random last) n) |}.
End Live.

(** slice.go:37-39 Append as a method value [b.Append], for a variable [b] that
    is part of the world. *)
Definition appendTo {W T} (zero : T) (growth : Z -> Z -> Z) (v : T) : X (heap T * (slice * W)) unit := fun '(h, (b, w)) =>
  let '(r, (h', b')) := Append_ zero growth v (h, b) in (r, (h', (b', w))).
