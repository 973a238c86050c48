(** Model of ds/xring/ring.go.
    Simplifications: ints are unbounded (Int_Ring_Model is the same code with
    64-bit ints); the buffer is owned by the ring (XRing_Heap_Model is the
    same code with a buffer in shared memory); one goroutine. *)
From Verif Require Import Base Exn XRing_Spec.
Local Open Scope exn_scope.
Local Open Scope string_scope.
Local Open Scope list_scope.
Local Open Scope Z_scope.

(** ring.go:3-7 Ring.  [moved] is a ghost counter, not in the code: how many
    elements reallocations have copied so far. *)
Record ring (T : Type) : Type := mkRing {
  buf : list T; st : Z; len : Z; moved : Z }.
Arguments mkRing {T}. Arguments buf {T}. Arguments st {T}.
Arguments len {T}. Arguments moved {T}.

Section XRing.
  Context {T : Type} (zero : T).

  (** make([]T, n), n >= 0. *)
  Definition makeSlice (n : Z) : list T := repeat zero (Z.to_nat n).

  (** ring.go:9-11 New. *)
  Definition New : ring T := mkRing [] 0 0 0.

  (** ring.go:13-19 NewLen (make panics on a negative length). *)
  Definition NewLen (n : Z) : outcome (ring T) :=
    if n <? 0 then Panic "makeslice: len out of range"
    else Ok (mkRing (makeSlice n) 0 n 0).

  (** ring.go:21-27 NewLenCap: the slice has length [n]; its extra capacity is
      never used by the ring. *)
  Definition NewLenCap (n cap : Z) : outcome (ring T) :=
    if n <? 0 then Panic "makeslice: len out of range"
    else if cap <? n then Panic "makeslice: cap out of range"
    else Ok (mkRing (makeSlice n) 0 n 0).

  (** ring.go:33-39 OfSlice. *)
  Definition OfSlice (values : list T) : ring T := mkRing values 0 (zlen values) 0.

  (** ring.go:29-31 Of. *)
  Definition Of (values : list T) : ring T := OfSlice values.

  (** ring.go:41-46 Copy. *)
  Definition Copy (values : list T) : ring T :=
    if zlen values =? 0 then New else OfSlice ([] ++ values).

  (** A slice being appended to: [arr] is the array of the original slice,
      [inplace] whether the result still lives in it, [res] the result. *)
  Record target : Type := mkTarget { arr : list T; inplace : bool; res : list T }.

  (** append(s, xs...): writes into the array while the capacity allows,
      otherwise the result moves to a fresh array. *)
  Definition goAppend (t : target) (xs : list T) : target :=
    let n := zlen (res t) in
    if inplace t && (n + zlen xs <=? zlen (arr t)) then
      mkTarget (firstn (Z.to_nat n) (arr t) ++ xs ++ skipn (Z.to_nat (n + zlen xs)) (arr t))
               true (res t ++ xs)
    else mkTarget (arr t) false (res t ++ xs).

  (** Slice expression l[i:j]. *)
  Definition sub (l : list T) (i j : Z) : list T :=
    firstn (Z.to_nat (j - i)) (skipn (Z.to_nat i) l).

  (** ring.go:161-166: the appends of ToSlice. *)
  Definition toSliceInto (r : ring T) (t : target) : target :=
    if st r + len r <=? zlen (buf r) then
      goAppend t (sub (buf r) (st r) (st r + len r))
    else
      goAppend (goAppend t (sub (buf r) (st r) (zlen (buf r))))
               (sub (buf r) 0 (st r + len r - zlen (buf r))).

  (** ring.go:152-168 ToSlice: the returned slice ([None] is nil); [s] is
      nil or the array (up to its capacity) of the given slice. *)
  Definition ToSlice (r : ring T) (s : option (list T)) : option (list T) :=
    if len r =? 0 then None
    else Some (res (toSliceInto r
      (mkTarget (match s with None => makeSlice (len r) | Some a => a end) true []))).

  (** ring.go:60-61,71-72: the new buffer after r.ToSlice(newBuf). *)
  Definition refill (r : ring T) (newCap : Z) : list T :=
    if len r =? 0 then makeSlice newCap
    else arr (toSliceInto r (mkTarget (makeSlice newCap) true [])).

  (** ring.go:51-59: growth rule. *)
  Definition grownCap (oldCap : Z) : Z :=
    if oldCap =? 0 then 4
    else if oldCap <? 1024 then oldCap * 2
    else oldCap * 5 / 4.

  (** ring.go:48-65 checkGrowth. *)
  Definition checkGrowth (r : ring T) : ring T :=
    let oldCap := zlen (buf r) in
    if len r =? oldCap then
      mkRing (refill r (grownCap oldCap)) 0 (len r) (moved r + len r)
    else r.

  (** ring.go:67-76 checkShrink. *)
  Definition checkShrink (r : ring T) : ring T :=
    let oldCap := zlen (buf r) in
    if (oldCap >? 1024) && (oldCap / 8 >? len r) then
      mkRing (refill r (oldCap / 8)) 0 (len r) (moved r + len r)
    else r.

  (** r.buf[i] = v. *)
  Definition setBuf (i : Z) (v : T) : X (ring T) unit :=
    r <- xget ;;
    match zset (buf r) i v with
    | Some b => xput (mkRing b (st r) (len r) (moved r))
    | None => xpanic idx_msg
    end.

  (** r.buf[i]. *)
  Definition getBuf (i : Z) : X (ring T) T :=
    r <- xget ;;
    match zget (buf r) i with Some v => xret v | None => xpanic idx_msg end.

  (** r.st, r.len updates. *)
  Definition setStLen (s n : Z) : X (ring T) unit :=
    r <- xget ;; xput (mkRing (buf r) s n (moved r)).

  (** ring.go:91-99 Append. *)
  Definition Append (value : T) : X (ring T) unit :=
    r0 <- xget ;; xput (checkGrowth r0) ;; r <- xget ;;
    let i := st r + len r in
    let i := if i >=? zlen (buf r) then i - zlen (buf r) else i in
    setBuf i value ;;
    setStLen (st r) (len r + 1).

  (** ring.go:78-80 Push. *)
  Definition Push (value : T) : X (ring T) unit := Append value.

  (** ring.go:101-110 Prepend. *)
  Definition Prepend (value : T) : X (ring T) unit :=
    r0 <- xget ;; xput (checkGrowth r0) ;; r <- xget ;;
    let i := st r - 1 in
    let i := if i <? 0 then i + zlen (buf r) else i in
    setBuf i value ;;
    setStLen i (len r + 1).

  (** ring.go:112-124 DeleteLast. *)
  Definition DeleteLast : X (ring T) unit :=
    r0 <- xget ;;
    if len r0 =? 0 then xpanic "delete from empty queue" else
    xput (checkShrink r0) ;; r <- xget ;;
    let i := st r + len r - 1 in
    let i := if i >=? zlen (buf r) then i - zlen (buf r) else i in
    setBuf i zero ;;
    setStLen (st r) (len r - 1).

  (** ring.go:126-138 DeleteFirst. *)
  Definition DeleteFirst : X (ring T) unit :=
    r0 <- xget ;;
    if len r0 =? 0 then xpanic "delete from empty queue" else
    xput (checkShrink r0) ;; r <- xget ;;
    setBuf (st r) zero ;;
    setStLen (if st r + 1 =? zlen (buf r) then 0 else st r + 1) (len r - 1).

  (** ring.go:140-150 Len, Cap, Empty. *)
  Definition Len (r : ring T) : Z := len r.
  Definition Cap (r : ring T) : Z := zlen (buf r).
  Definition Empty (r : ring T) : bool := len r =? 0.

  (** ring.go:170-179 AtRef: a pointer is a buffer index. *)
  Definition AtRef (i : Z) : X (ring T) Z :=
    r <- xget ;;
    if (i <? 0) || (len r <=? i) then xpanic "index out of bound" else
    let i := i + st r in
    xret (if i >=? zlen (buf r) then i - zlen (buf r) else i).

  (** ring.go:181-183 At. *)
  Definition At (i : Z) : X (ring T) T := p <- AtRef i ;; getBuf p.

  (** ring.go:185-187 Set. *)
  Definition Set_ (i : Z) (value : T) : X (ring T) unit := p <- AtRef i ;; setBuf p value.

  (** ring.go:189-194 First. *)
  Definition First : X (ring T) T :=
    r <- xget ;;
    if len r =? 0 then xpanic "get from empty queue" else getBuf (st r).

  (** ring.go:196-205 Last. *)
  Definition Last : X (ring T) T :=
    r <- xget ;;
    if len r =? 0 then xpanic "get from empty queue" else
    let i := st r + len r - 1 in
    getBuf (if i >=? zlen (buf r) then i - zlen (buf r) else i).

  (** ring.go:82-89 Pop. *)
  Definition Pop : X (ring T) T :=
    r <- xget ;;
    if Empty r then xpanic "pop from empty queu" else
    v <- First ;; DeleteFirst ;; xret v.

  (** Returning nothing, resp. a value, to the caller of the API. *)
  Definition retUnit (m : X (ring T) unit) : X (ring T) (ringRes T) := m ;; xret RUnit.
  Definition retVal (m : X (ring T) T) : X (ring T) (ringRes T) := v <- m ;; xret (RVal v).

  (** One API call on a ring variable. *)
  Definition ringStep (o : ringOp T) : X (ring T) (ringRes T) :=
    match o with
    | OAppend v => retUnit (Append v)
    | OPush v => retUnit (Push v)
    | OPrepend v => retUnit (Prepend v)
    | OPop => retVal Pop
    | ODeleteFirst => retUnit DeleteFirst
    | ODeleteLast => retUnit DeleteLast
    | OFirst => retVal First
    | OLast => retVal Last
    | OAt i => retVal (At i)
    | OSet i v => retUnit (Set_ i v)
    | OLen => r <- xget ;; xret (RInt (Len r))
    | OEmpty => r <- xget ;; xret (RBool (Empty r))
    | OToSlice s => r <- xget ;; xret (RSlice (ToSlice r s))
    end.
End XRing.
