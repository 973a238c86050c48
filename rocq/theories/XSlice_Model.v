(** Model of ds/xslice: ops.go, slice.go, iterator.go. *)
From Verif Require Import Base Exn GoSlice Iter_Model.
Local Open Scope exn_scope.
Local Open Scope string_scope.
Local Open Scope list_scope.
Local Open Scope Z_scope.

(** iterator.go:13-18 Iterator. *)
Record iterator : Type := mkIt { pos : Z; sl : slice }.

Section XSlice.
  Context {T : Type} (zero : T) (growth : Z -> Z -> Z).

  (** ops.go:8-17 UnorderedDelete. *)
  Definition UnorderedDelete (s : slice) (i : Z) : X (heap T) slice :=
    if (i <? 0) || (len s <=? i) then xpanic "delete out of bound" else
    let last := len s - 1 in
    (if i <? last then
       a <- index s last ;;
       b <- index s i ;;
       assign s i a ;;
       assign s last b
     else xret tt) ;;
    reslice s 0 last.

  (** ops.go:19-27 Delete. *)
  Definition Delete (s : slice) (i : Z) : X (heap T) slice :=
    if (i <? 0) || (len s <=? i) then xpanic "delete out of bound" else
    (if i <? len s - 1 then
       d <- reslice s i (len s) ;;
       c <- reslice s (i + 1) (len s) ;;
       copy d c
     else xret tt) ;;
    reslice s 0 (len s - 1).

  (** ops.go:29-34 DeleteLast. *)
  Definition DeleteLast (s : slice) : X (heap T) slice :=
    if len s =? 0 then xpanic "delete from empty slice" else reslice s 0 (len s - 1).

  (** ops.go:36-48 Insert. *)
  Definition Insert (s : slice) (i : Z) (value : T) : X (heap T) slice :=
    if (i <? 0) || (len s <? i) then xpanic "insert out of bound" else
    if i <? len s then
      s <- append zero growth s [value] ;;
      d <- reslice s (i + 1) (len s) ;;
      c <- reslice s i (len s - 1) ;;
      copy d c ;;
      assign s i value ;;
      xret s
    else append zero growth s [value].

  (** ops.go:50-54 ReferenceEqual: the data pointers. *)
  Definition ReferenceEqual (a b : slice) : bool := (arr a =? arr b)%nat && (off a =? off b).

  (** slice.go:10-12 New, 14-16 NewLen, 18-20 NewLenCap. *)
  Definition New : slice := nilSlice.
  Definition NewLen (len : Z) : X (heap T) slice := makeSlice zero len.
  Definition NewLenCap (len cap : Z) : X (heap T) slice := makeSlice zero cap.

  (** slice.go:22-28 Of, OfSlice. *)
  Definition OfSlice (values : slice) : slice := values.

  (** slice.go:30-35 Copy. *)
  Definition Copy (values : slice) : X (heap T) slice :=
    if len values =? 0 then xret nilSlice else
    vs <- rd (arr values) (off values) (len values) ;;
    append zero growth nilSlice vs.

  (** Methods with a pointer receiver: the slice variable is part of the state. *)
  Definition onVar {A} (m : X (heap T) A) : X (heap T * slice) A := fun '(h, s) =>
    let '(r, h') := m h in (r, (h', s)).
  Definition modify (f : slice -> X (heap T) slice) : X (heap T * slice) unit :=
    hs <- xget ;;
    s' <- onVar (f (snd hs)) ;;
    hs' <- xget ;;
    xput (fst hs', s').

  (** slice.go:37-39 Append, 41-43 AppendMany (the arguments are a slice of
      their own), 45-59 Delete, DeleteLast, UnorderedDelete, InsertAt. *)
  Definition Append_ (value : T) : X (heap T * slice) unit := modify (fun s => append zero growth s [value]).
  Definition AppendMany_ (values : list T) : X (heap T * slice) unit := modify (fun s => append zero growth s values).
  Definition Delete_ (i : Z) : X (heap T * slice) unit := modify (fun s => Delete s i).
  Definition DeleteLast_ : X (heap T * slice) unit := modify DeleteLast.
  Definition UnorderedDelete_ (i : Z) : X (heap T * slice) unit := modify (fun s => UnorderedDelete s i).
  Definition InsertAt_ (i : Z) (value : T) : X (heap T * slice) unit := modify (fun s => Insert s i value).

  (** slice.go:162-166 checkIterator. *)
  Definition checkIterator (it : iterator) : X (heap T * slice) unit :=
    hs <- xget ;;
    if negb (ReferenceEqual (snd hs) (sl it)) then xpanic "iterator does not belongs to this slice" else xret tt.

  (** slice.go:61-65 Insert; 110-112 uncheckedIteratorAt. *)
  Definition Insert_ (it : iterator) (value : T) : X (heap T * slice) iterator :=
    checkIterator it ;;
    modify (fun s => Insert s (pos it) value) ;;
    hs <- xget ;;
    xret (mkIt (pos it) (snd hs)).

  (** slice.go:67-101 Len, Cap, Empty, Sub, Slice, At, Set, First, Last. *)
  Definition Len (s : slice) : Z := len s.
  Definition Cap (s : slice) : Z := cap s.
  Definition Empty (s : slice) : bool := len s =? 0.
  Definition Sub (s : slice) (start end_ : Z) : X (heap T) slice := reslice s start end_.
  Definition At (s : slice) (i : Z) : X (heap T) T := index s i.
  Definition SetAt (s : slice) (i : Z) (x : T) : X (heap T) unit := assign s i x.
  Definition First (s : slice) : X (heap T) T := index s 0.
  Definition Last (s : slice) : X (heap T) T := index s (len s - 1).

  (** slice.go:103-108 IteratorAt, 114-120 Begin, End. *)
  Definition IteratorAt (s : slice) (p : Z) : X (heap T) iterator :=
    if (p <? 0) || (len s <? p) then xpanic "out of bound" else xret (mkIt p s).
  Definition Begin (s : slice) : X (heap T) iterator := IteratorAt s 0.
  Definition End (s : slice) : X (heap T) iterator := IteratorAt s (len s).

  (** iterator.go:24-30 Get, Set; 32-67 Next, Prev, Add by Inc, Dec, Advance;
      69-78 Pos, Equal.  (Ref, 20-22, is the address of what Get reads.) *)
  Definition sliceOps : ops (heap T) iterator T := {|
    Get := fun it => index (sl it) (pos it);
    Set_ := fun it v => assign (sl it) (pos it) v;
    Next := fun it => if pos it >=? len (sl it) then xpanic "increment out of bound" else xret (mkIt (pos it + 1) (sl it));
    Prev := fun it => if pos it <=? 0 then xpanic "decrement out of bound" else xret (mkIt (pos it - 1) (sl it));
    Add := fun it offset =>
      let k := pos it + offset in
      if (k <? 0) || (len (sl it) <? k) then xpanic "offset out of bound" else xret (mkIt k (sl it));
    Pos := fun it => xret (pos it);
    Equal := fun it other =>
      if negb (ReferenceEqual (sl it) (sl other)) then xpanic "compare iterator of different slices"
      else xret (pos other =? pos it) |}.

  (** slice.go:122-128 RBegin, REnd. *)
  Definition RBegin (s : slice) : X (heap T) (rev_it iterator) := e <- End s ;; xret (Rev e).
  Definition REnd (s : slice) : X (heap T) (rev_it iterator) := b <- Begin s ;; xret (Rev b).

  (** slice.go:130-144 Range, SubRange, ReverseRange, ReverseSubRange. *)
  Definition Range (s : slice) : X (heap T) (range iterator) :=
    b <- Begin s ;; e <- End s ;; xret (b, e).
  Definition SubRange_ (s : slice) (first last : Z) : X (heap T) (range iterator) :=
    b <- IteratorAt s first ;; e <- IteratorAt s last ;; xret (b, e).
  Definition ReverseRange (s : slice) : X (heap T) (range (rev_it iterator)) :=
    b <- RBegin s ;; e <- REnd s ;; xret (b, e).
  Definition ReverseSubRange (s : slice) (first last : Z) : X (heap T) (range (rev_it iterator)) :=
    rb <- RBegin s ;;
    b <- Add (ReverseRandom sliceOps) rb first ;;
    rb <- RBegin s ;;
    e <- Add (ReverseRandom sliceOps) rb last ;;
    xret (b, e).

  (** slice.go:146-156 Reversed; the loop runs over i = n - k. *)
  Fixpoint reversedLoop (k : nat) (s r : slice) (last : Z) (i : Z) : X (heap T) unit :=
    match k with
    | O => xret tt
    | S k =>
        v <- index s i ;;
        assign r (last - i) v ;;
        reversedLoop k s r last (i + 1)
    end.
  Definition Reversed (s : slice) : X (heap T) slice :=
    if len s =? 0 then xret nilSlice else
    r <- makeSlice zero (len s) ;;
    let last := len s - 1 in
    reversedLoop (Z.to_nat (len s)) s r last 0 ;;
    xret r.
End XSlice.
