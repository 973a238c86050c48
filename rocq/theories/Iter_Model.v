(** Model of ds/iter: the iterator interfaces, reverse iterators, ranges and
    inserters. *)
From Verif Require Import Base Exn.
Local Open Scope exn_scope.
Local Open Scope string_scope.
Local Open Scope list_scope.
Local Open Scope Z_scope.

(** iterator.go:3-39.  The methods of an iterator type [It] over elements [T],
    as computations on a state [St] (memory and whatever else the program has).
    One record stands for all six interfaces; a type that does not have a
    method gets [noMethod] for it, which no program can call.  Ints are
    unbounded (Int_Iter_Model has 64-bit ints). *)
Record ops (St It T : Type) : Type := {
  Next : It -> X St It;
  Get : It -> X St T;
  Equal : It -> It -> X St bool;
  Prev : It -> X St It;                 (* ConstBidirIterator, BidirIterator *)
  Add : It -> Z -> X St It;             (* ConstRandomIterator, RandomIterator *)
  Pos : It -> X St Z;
  Set_ : It -> T -> X St unit }.        (* the mutable ones *)
Arguments Next {St It T}. Arguments Get {St It T}. Arguments Equal {St It T}.
Arguments Prev {St It T}. Arguments Add {St It T}. Arguments Pos {St It T}.
Arguments Set_ {St It T}.

Definition noMethod {St A} : X St A := xpanic "no such method".

Section Reverse.
  Context {St It T : Type} (o : ops St It T).

  (** The struct around the underlying iterator i: reverse.go:6-8, 36-38, 69-71,
      110-112.  Base returns i (14-16, 44-46, 77-79, 118-120). *)
  Record rev_it : Type := Rev { Base : It }.

  (** reverse.go:3-32 ConstReverseIterator. *)
  Definition ConstReverse : ops St rev_it T := {|
    Next := fun c => i <- Prev o (Base c) ;; xret (Rev i);
    Prev := fun c => i <- Next o (Base c) ;; xret (Rev i);
    Get := fun c => i <- Prev o (Base c) ;; Get o i;
    Equal := fun c other => Equal o (Base c) (Base other);
    Add := fun _ _ => noMethod; Pos := fun _ => noMethod; Set_ := fun _ _ => noMethod |}.

  (** reverse.go:34-66 ReverseIterator. *)
  Definition Reverse : ops St rev_it T := {|
    Next := fun c => i <- Prev o (Base c) ;; xret (Rev i);
    Prev := fun c => i <- Next o (Base c) ;; xret (Rev i);
    Get := fun c => i <- Prev o (Base c) ;; Get o i;
    Set_ := fun c value => i <- Prev o (Base c) ;; Set_ o i value;
    Equal := fun c other => Equal o (Base c) (Base other);
    Add := fun _ _ => noMethod; Pos := fun _ => noMethod |}.

  (** reverse.go:68-105 ConstReverseRandomIterator. *)
  Definition ConstReverseRandom : ops St rev_it T := {|
    Next := fun c => i <- Prev o (Base c) ;; xret (Rev i);
    Prev := fun c => i <- Next o (Base c) ;; xret (Rev i);
    Add := fun c offset => i <- Add o (Base c) (- offset) ;; xret (Rev i);
    Pos := fun c => p <- Pos o (Base c) ;; xret (- p);
    Get := fun c => i <- Prev o (Base c) ;; Get o i;
    Equal := fun c other => Equal o (Base c) (Base other);
    Set_ := fun _ _ => noMethod |}.

  (** reverse.go:107-149 ReverseRandomIterator. *)
  Definition ReverseRandom : ops St rev_it T := {|
    Next := fun c => i <- Prev o (Base c) ;; xret (Rev i);
    Prev := fun c => i <- Next o (Base c) ;; xret (Rev i);
    Add := fun c offset => i <- Add o (Base c) (- offset) ;; xret (Rev i);
    Pos := fun c => p <- Pos o (Base c) ;; xret (- p);
    Get := fun c => i <- Prev o (Base c) ;; Get o i;
    Set_ := fun c value => i <- Prev o (Base c) ;; Set_ o i value;
    Equal := fun c other => Equal o (Base c) (Base other) |}.

  (** funcs.go:3-6 Distance. *)
  Definition Distance (a b : It) : X St Z :=
    _ <- Equal o a b ;;
    pb <- Pos o b ;;
    pa <- Pos o a ;;
    xret (pb - pa).

  (** range.go:3-10 Range, MakeRange. *)
  Definition range : Type := (It * It)%type.

  (** range.go:16-18 SubRange. *)
  Definition SubRange (r : range) (first last : Z) : X St range :=
    b <- Add o (fst r) first ;;
    e <- Add o (fst r) last ;;
    xret (b, e).

  (** range.go:20-22 RangeDistance. *)
  Definition RangeDistance (r : range) : X St Z :=
    e <- Pos o (snd r) ;;
    b <- Pos o (fst r) ;;
    xret (e - b).
End Reverse.
Arguments rev_it : clear implicits.
Arguments range : clear implicits.
Arguments Rev {It}.
Arguments Base {It}.

(** range.go:12-14 ReverseRandomRange. *)
Definition ReverseRandomRange {It} (r : range It) : range (rev_it It) :=
  (Rev (fst r), Rev (snd r)).

(** dummy.go: DummyIterator. *)
Definition Dummy {St T : Type} (zero : T) : ops St unit T := {|
  Next := fun it => xret it; Get := fun _ => xret zero; Equal := fun _ _ => xret true;
  Prev := fun it => xret it; Add := fun it _ => xret it; Pos := fun _ => xret 0;
  Set_ := fun _ _ => xret tt |}.

Section Inserter.
  Context {St T : Type} (zero : T).

  (** inserter.go:8-37 AppendIterator; [append_] is the container's Append, and
      comparing containers ([it.a == other.a]) is [same]. *)
  Definition AppendIterator {C} (append_ : C -> T -> X St unit) (same : C -> C -> bool) : ops St C T := {|
    Next := fun it => xret it; Get := fun _ => xret zero;
    Equal := fun it other => xret (same it other);
    Set_ := append_;
    Prev := fun _ => noMethod; Add := fun _ _ => noMethod; Pos := fun _ => noMethod |}.

  (** inserter.go:39-67 PrependIterator: the same with Prepend. *)
  Definition PrependIterator {C} (prepend : C -> T -> X St unit) (same : C -> C -> bool) : ops St C T := {|
    Next := fun it => xret it; Get := fun _ => xret zero;
    Equal := fun it other => xret (same it other);
    Set_ := prepend;
    Prev := fun _ => noMethod; Add := fun _ _ => noMethod; Pos := fun _ => noMethod |}.
End Inserter.

(** inserter.go:69-99 InsertIterator.  The iterator is a pointer; what it points
    to (position [p]; the container is fixed, so that two of them are Equal) is
    part of the state. *)
Section InsertIterator.
  Context {St It T : Type} (zero : T) (o : ops St It T).
  (** The container's Insert(pos, value). *)
  Context (insert : It -> T -> X St It).

  (** Runs [m] beside the iterator's memory cell. *)
  Definition onSt {A} (m : X St A) : X (St * It) A := fun '(s, p) =>
    let '(r, s') := m s in (r, (s', p)).

  Definition InsertIterator : ops (St * It) unit T := {|
    Next := fun it => xret it; Get := fun _ => xret zero;
    Equal := fun _ _ => xret true;
    Set_ := fun _ value =>
      sp <- xget ;;
      i <- onSt (insert (snd sp) value) ;;
      n <- onSt (Next o i) ;;
      sp' <- xget ;;
      xput (fst sp', n);
    Prev := fun _ => noMethod; Add := fun _ _ => noMethod; Pos := fun _ => noMethod |}.
End InsertIterator.
