(** The ring of ds/xring/ring.go with Go's int: 64 bits, wrapping around.
    XRing_Model is the same code over unbounded integers.

    Simplifications: make refuses (panics) exactly when the length is negative
    or the bytes exceed what the address space allows; a program that really
    runs out of memory is killed and not modelled; append always finds memory. *)
From Verif Require Import Base Exn XRing_Spec XRing_Model.
From Verif Require Stream_Model.
Local Open Scope exn_scope.
Local Open Scope string_scope.
Local Open Scope list_scope.
Local Open Scope Z_scope.

(** The result of an int operation. *)
Notation w := Stream_Model.wrapInt.

Section IntRing.
  (** [esz]: the size of an element in bytes.  [A]: the bytes an allocation may
      have (malloc.go's maxAlloc, 2^48 on amd64). *)
  Context {T : Type} (zero : T) (esz A : Z).

  (** make([]T, n). *)
  Definition makeW (n : Z) : outcome (list T) :=
    if (n <? 0) || (A <? n * esz) then Panic "makeslice: len out of range"
    else Ok (makeSlice zero n).

  (** ring.go:13-19 NewLen. *)
  Definition NewLenW (n : Z) : outcome (ring T) :=
    match makeW n with
    | Ok b => Ok (mkRing b 0 n 0)
    | Panic msg => Panic msg
    | Diverge => Diverge
    end.

  (** Slice expression l[i:j], checked. *)
  Definition subW (l : list T) (i j : Z) : outcome (list T) :=
    if (0 <=? i) && (i <=? j) && (j <=? zlen l) then Ok (sub l i j)
    else Panic "slice bounds out of range".

  (** ring.go:161-166: the appends of ToSlice. *)
  Definition toSliceIntoW (r : ring T) (t : target) : outcome target :=
    if w (st r + len r) <=? zlen (buf r) then
      match subW (buf r) (st r) (w (st r + len r)) with
      | Ok xs => Ok (goAppend t xs)
      | Panic msg => Panic msg
      | Diverge => Diverge
      end
    else
      match subW (buf r) (st r) (zlen (buf r)),
            subW (buf r) 0 (w (w (st r + len r) - zlen (buf r))) with
      | Ok xs, Ok ys => Ok (goAppend (goAppend t xs) ys)
      | Ok _, Panic msg | Panic msg, _ => Panic msg
      | _, _ => Diverge
      end.

  (** ring.go:152-168 ToSlice. *)
  Definition ToSliceW (s : option (list T)) : X (ring T) (option (list T)) := fun r =>
    if len r =? 0 then (Ok None, r) else
    match (match s with None => makeW (len r) | Some a => Ok a end) with
    | Ok a =>
        match toSliceIntoW r (mkTarget a true []) with
        | Ok t => (Ok (Some (res t)), r)
        | Panic msg => (Panic msg, r)
        | Diverge => (Diverge, r)
        end
    | Panic msg => (Panic msg, r)
    | Diverge => (Diverge, r)
    end.

  (** ring.go:60-61,71-72: make, and ToSlice into it. *)
  Definition refillW (r : ring T) (newCap : Z) : outcome (list T) :=
    match makeW newCap with
    | Ok nb =>
        if len r =? 0 then Ok nb else
        match toSliceIntoW r (mkTarget nb true []) with
        | Ok t => Ok (arr t)
        | Panic msg => Panic msg
        | Diverge => Diverge
        end
    | Panic msg => Panic msg
    | Diverge => Diverge
    end.

  (** ring.go:60-63,71-74: the ring moves to a new buffer, or panics before. *)
  Definition moveW (newCap : Z) : X (ring T) unit := fun r =>
    match refillW r newCap with
    | Ok b => (Ok tt, mkRing b 0 (len r) (moved r + len r))
    | Panic msg => (Panic msg, r)
    | Diverge => (Diverge, r)
    end.

  (** ring.go:51-59: growth rule; the division truncates. *)
  Definition grownCapW (oldCap : Z) : Z :=
    if oldCap =? 0 then 4
    else if oldCap <? 1024 then w (oldCap * 2)
    else Z.quot (w (oldCap * 5)) 4.

  (** ring.go:48-65 checkGrowth. *)
  Definition checkGrowthW : X (ring T) unit :=
    r <- xget ;;
    if len r =? zlen (buf r) then moveW (grownCapW (zlen (buf r))) else xret tt.

  (** ring.go:67-76 checkShrink. *)
  Definition checkShrinkW : X (ring T) unit :=
    r <- xget ;;
    if (zlen (buf r) >? 1024) && (Z.quot (zlen (buf r)) 8 >? len r)
    then moveW (Z.quot (zlen (buf r)) 8) else xret tt.

  (** ring.go:91-99 Append. *)
  Definition AppendW (value : T) : X (ring T) unit :=
    checkGrowthW ;;
    r <- xget ;;
    let i := w (st r + len r) in
    let i := if i >=? zlen (buf r) then w (i - zlen (buf r)) else i in
    setBuf i value ;;
    setStLen (st r) (w (len r + 1)).

  (** ring.go:101-110 Prepend. *)
  Definition PrependW (value : T) : X (ring T) unit :=
    checkGrowthW ;;
    r <- xget ;;
    let i := w (st r - 1) in
    let i := if i <? 0 then w (i + zlen (buf r)) else i in
    setBuf i value ;;
    setStLen i (w (len r + 1)).

  (** ring.go:112-124 DeleteLast. *)
  Definition DeleteLastW : X (ring T) unit :=
    r0 <- xget ;;
    if len r0 =? 0 then xpanic "delete from empty queue" else
    checkShrinkW ;;
    r <- xget ;;
    let i := w (w (st r + len r) - 1) in
    let i := if i >=? zlen (buf r) then w (i - zlen (buf r)) else i in
    setBuf i zero ;;
    setStLen (st r) (w (len r - 1)).

  (** ring.go:126-138 DeleteFirst. *)
  Definition DeleteFirstW : X (ring T) unit :=
    r0 <- xget ;;
    if len r0 =? 0 then xpanic "delete from empty queue" else
    checkShrinkW ;;
    r <- xget ;;
    setBuf (st r) zero ;;
    setStLen (if w (st r + 1) =? zlen (buf r) then 0 else w (st r + 1)) (w (len r - 1)).

  (** ring.go:170-179 AtRef. *)
  Definition AtRefW (i : Z) : X (ring T) Z :=
    r <- xget ;;
    if (i <? 0) || (len r <=? i) then xpanic "index out of bound" else
    let i := w (i + st r) in
    xret (if i >=? zlen (buf r) then w (i - zlen (buf r)) else i).

  (** ring.go:181-187 At, Set. *)
  Definition AtW (i : Z) : X (ring T) T := p <- AtRefW i ;; getBuf p.
  Definition SetW (i : Z) (value : T) : X (ring T) unit := p <- AtRefW i ;; setBuf p value.

  (** ring.go:196-205 Last. *)
  Definition LastW : X (ring T) T :=
    r <- xget ;;
    if len r =? 0 then xpanic "get from empty queue" else
    let i := w (w (st r + len r) - 1) in
    getBuf (if i >=? zlen (buf r) then w (i - zlen (buf r)) else i).

  (** ring.go:82-89 Pop. *)
  Definition PopW : X (ring T) T :=
    r <- xget ;;
    if Empty r then xpanic "pop from empty queu" else
    v <- First ;; DeleteFirstW ;; xret v.

  (** One API call on a ring variable. *)
  Definition ringStepW (o : ringOp T) : X (ring T) (ringRes T) :=
    match o with
    | OAppend v => retUnit (AppendW v)
    | OPush v => retUnit (AppendW v)
    | OPrepend v => retUnit (PrependW v)
    | OPop => retVal PopW
    | ODeleteFirst => retUnit DeleteFirstW
    | ODeleteLast => retUnit DeleteLastW
    | OFirst => retVal First
    | OLast => retVal LastW
    | OAt i => retVal (AtW i)
    | OSet i v => retUnit (SetW i v)
    | OLen => r <- xget ;; xret (RInt (Len r))
    | OEmpty => r <- xget ;; xret (RBool (Empty r))
    | OToSlice s => l <- ToSliceW s ;; xret (RSlice l)
    end.
End IntRing.
