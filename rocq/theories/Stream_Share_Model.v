(** Several streams over one source: stream.New called more than once with the
    same Source, for example with one *Stream, which is a Source itself. *)
From Verif Require Import Base Arr Exn Stream_Model Stream_Spec.
Local Open Scope exn_scope.
Local Open Scope list_scope.
Local Open Scope Z_scope.

(** A call of Next, or of Map, Filter, Skip, Limit or Peek. *)
Inductive use (W T : Type) : Type := UNext (fuel : nat) | UBuild (c : build W T).
Arguments UNext {W T}. Arguments UBuild {W T}.

(** stream.go:67-103 Next, 112-151 the builder methods; the latter give no
    element. *)
Definition use1 {S W T} (src : source S W T) (u : use W T) : X (stream W T * (S * W)) (option T) :=
  match u with
  | UNext fuel => Next_ src fuel
  | UBuild c => call src c ;; xret None
  end.

(** stream.go:59-63 New: a Stream has its own ops and only refers to its source,
    so the state is that of every stream and one state of the source.  All
    streams may be taken to be there from the start, because New changes
    nothing. *)
Definition sharedUse {S W T} (src : source S W T) (u : nat * use W T)
  : X ((nat -> stream W T) * (S * W)) (option T) := fun '(ss, zw) =>
  let '(r, (s', zw')) := use1 src (snd u) (ss (fst u), zw) in
  (r, (fun j => if Nat.eqb j (fst u) then s' else ss j, zw')).

(** stream.New(src).Limit(n).Slice(), again and again (stream.go:59-63, 139-146,
    236-242). *)
Definition page {S W T} (src : source S W T) (fuel : nat) (n : Z) : X (S * W) (list T) := fun zw =>
  let '(r, (_, zw')) := (Limit n ;; Slice src fuel) (New, zw) in (r, zw').
Fixpoint pages {S W T} (src : source S W T) (fuel : nat) (n : Z) (k : nat) : X (S * W) (list (list T)) :=
  match k with
  | O => xret []
  | Datatypes.S k => p <- page src fuel n ;; ps <- pages src fuel n k ;; xret (p :: ps)
  end.

(** A Stream as a Source, in New(base): stream.go:67-103 Next, 105-108 SkipNext. *)
Definition streamSource {S W T} (src : source S W T) (fuel : nat) : source (stream W T * S) W T :=
  let assoc {A} (m : X (stream W T * (S * W)) A) : X ((stream W T * S) * W) A := fun '((s, z), w) =>
    let '(r, (s', (z', w'))) := m (s, (z, w)) in (r, ((s', z'), w')) in
  {| sNext := assoc (Next_ src fuel); sSkip := fun n => assoc (SkipNext src n) |}.
