(** Model of ds/xring/ring.go in memory: the buffer is a Go slice, whose array
    other slices may share (OfSlice keeps the slice it is given, ToSlice writes
    into the slice it is given).  XRing_Model is the same code on a buffer that
    nobody else holds.  Simplifications: ints are unbounded; one goroutine. *)
From Verif Require Import Base Exn GoSlice XRing_Heap_Spec.
Local Open Scope exn_scope.
Local Open Scope string_scope.
Local Open Scope list_scope.
Local Open Scope Z_scope.

(** ring.go:3-7 Ring. *)
Record ringVar : Type := mkRingVar { rbuf : slice; rst : Z; rlen : Z }.

(** The memory and one ring variable in it. *)
Record world (T : Type) : Type := mkWorld { hp : heap T; rg : ringVar }.
Arguments mkWorld {T}. Arguments hp {T}. Arguments rg {T}.

Section XRingHeap.
  Context {T : Type} (zero : T) (growth : Z -> Z -> Z).

  (** Something done to the memory; what is done to the fields of r. *)
  Definition mem {A} (m : X (heap T) A) : X (world T) A := fun w =>
    let '(x, h) := m (hp w) in (x, mkWorld h (rg w)).
  Definition setRing (r : ringVar) : X (world T) unit := fun w => (Ok tt, mkWorld (hp w) r).
  Definition theRing : X (world T) ringVar := w <- xget ;; xret (rg w).

  (** s == nil. *)
  Definition isNil (s : slice) : bool := (arr s =? 0)%nat.

  (** make([]T, n, c). *)
  Definition makeLenCap (n c : Z) : X (heap T) slice :=
    if n <? 0 then xpanic "makeslice: len out of range"
    else if c <? n then xpanic "makeslice: cap out of range"
    else s <- makeSlice zero c ;; reslice s 0 n.

  (** The elements that s... passes to append. *)
  Definition spread (s : slice) : X (heap T) (list T) := rd (arr s) (off s) (len s).

  (** ring.go:9-11 New. *)
  Definition RNew : ringVar := mkRingVar nilSlice 0 0.

  (** ring.go:13-19 NewLen. *)
  Definition RNewLen (n : Z) : X (heap T) ringVar :=
    b <- makeSlice zero n ;; xret (mkRingVar b 0 n).

  (** ring.go:21-27 NewLenCap. *)
  Definition RNewLenCap (n c : Z) : X (heap T) ringVar :=
    b <- makeLenCap n c ;; xret (mkRingVar b 0 n).

  (** ring.go:33-39 OfSlice. *)
  Definition ROfSlice (values : slice) : ringVar := mkRingVar values 0 (len values).

  (** ring.go:29-31 Of; Of(s...) passes s itself. *)
  Definition ROf (values : slice) : ringVar := ROfSlice values.

  (** ring.go:41-46 Copy. *)
  Definition RCopy (values : slice) : X (heap T) ringVar :=
    if len values =? 0 then xret RNew else
    vs <- spread values ;;
    s <- append zero growth nilSlice vs ;;
    xret (ROfSlice s).

  (** ring.go:152-168 ToSlice (value receiver). *)
  Definition RToSlice (r : ringVar) (s : slice) : X (heap T) slice :=
    if rlen r =? 0 then xret nilSlice else
    s <- (if isNil s then makeLenCap 0 (rlen r) else reslice s 0 0) ;;
    if rst r + rlen r <=? len (rbuf r) then
      p <- reslice (rbuf r) (rst r) (rst r + rlen r) ;;
      vs <- spread p ;;
      append zero growth s vs
    else
      p <- reslice (rbuf r) (rst r) (len (rbuf r)) ;;
      vs <- spread p ;;
      s <- append zero growth s vs ;;
      p <- reslice (rbuf r) 0 (rst r + rlen r - len (rbuf r)) ;;
      vs <- spread p ;;
      append zero growth s vs.

  (** ring.go:60-63, 71-74: reallocation. *)
  Definition realloc (newCap : Z) : X (world T) unit :=
    newBuf <- mem (makeSlice zero newCap) ;;
    r <- theRing ;;
    mem (RToSlice r newBuf) ;;
    setRing (mkRingVar newBuf 0 (rlen r)).

  (** ring.go:48-65 checkGrowth. *)
  Definition rcheckGrowth : X (world T) unit :=
    r <- theRing ;;
    let oldCap := len (rbuf r) in
    if rlen r =? oldCap then
      realloc (if oldCap =? 0 then 4
               else if oldCap <? 1024 then oldCap * 2
               else oldCap * 5 / 4)
    else xret tt.

  (** ring.go:67-76 checkShrink. *)
  Definition rcheckShrink : X (world T) unit :=
    r <- theRing ;;
    let oldCap := len (rbuf r) in
    if (oldCap >? 1024) && (oldCap / 8 >? rlen r) then realloc (oldCap / 8)
    else xret tt.

  (** ring.go:91-99 Append. *)
  Definition RAppend (value : T) : X (world T) unit :=
    rcheckGrowth ;;
    r <- theRing ;;
    let i := rst r + rlen r in
    let i := if i >=? len (rbuf r) then i - len (rbuf r) else i in
    mem (assign (rbuf r) i value) ;;
    setRing (mkRingVar (rbuf r) (rst r) (rlen r + 1)).

  (** ring.go:78-80 Push. *)
  Definition RPush (value : T) : X (world T) unit := RAppend value.

  (** ring.go:101-110 Prepend. *)
  Definition RPrepend (value : T) : X (world T) unit :=
    rcheckGrowth ;;
    r <- theRing ;;
    let i := rst r - 1 in
    let i := if i <? 0 then i + len (rbuf r) else i in
    mem (assign (rbuf r) i value) ;;
    setRing (mkRingVar (rbuf r) i (rlen r + 1)).

  (** ring.go:112-124 DeleteLast. *)
  Definition RDeleteLast : X (world T) unit :=
    r <- theRing ;;
    if rlen r =? 0 then xpanic "delete from empty queue" else
    rcheckShrink ;;
    r <- theRing ;;
    let i := rst r + rlen r - 1 in
    let i := if i >=? len (rbuf r) then i - len (rbuf r) else i in
    mem (assign (rbuf r) i zero) ;;
    setRing (mkRingVar (rbuf r) (rst r) (rlen r - 1)).

  (** ring.go:126-138 DeleteFirst. *)
  Definition RDeleteFirst : X (world T) unit :=
    r <- theRing ;;
    if rlen r =? 0 then xpanic "delete from empty queue" else
    rcheckShrink ;;
    r <- theRing ;;
    mem (assign (rbuf r) (rst r) zero) ;;
    setRing (mkRingVar (rbuf r)
      (if rst r + 1 =? len (rbuf r) then 0 else rst r + 1) (rlen r - 1)).

  (** ring.go:140-150 Len, Cap, Empty. *)
  Definition RLen (r : ringVar) : Z := rlen r.
  Definition RCap (r : ringVar) : Z := len (rbuf r).
  Definition REmpty (r : ringVar) : bool := rlen r =? 0.

  (** ring.go:170-179 AtRef: a pointer is an array and an index; &buf[i] panics
      like buf[i]. *)
  Definition RAtRef (r : ringVar) (i : Z) : X (heap T) (nat * Z) :=
    if (i <? 0) || (rlen r <=? i) then xpanic "index out of bound" else
    let i := i + rst r in
    let i := if i >=? len (rbuf r) then i - len (rbuf r) else i in
    if (0 <=? i) && (i <? len (rbuf r)) then xret (arr (rbuf r), off (rbuf r) + i)
    else xpanic idx_msg.

  (** ring.go:181-187 At, Set. *)
  Definition RAt (r : ringVar) (i : Z) : X (heap T) T :=
    '(a, j) <- RAtRef r i ;; ld a j.
  Definition RSet (r : ringVar) (i : Z) (value : T) : X (heap T) unit :=
    '(a, j) <- RAtRef r i ;; st a j value.

  (** ring.go:189-194 First. *)
  Definition RFirst (r : ringVar) : X (heap T) T :=
    if rlen r =? 0 then xpanic "get from empty queue" else index (rbuf r) (rst r).

  (** ring.go:196-205 Last. *)
  Definition RLast (r : ringVar) : X (heap T) T :=
    if rlen r =? 0 then xpanic "get from empty queue" else
    let i := rst r + rlen r - 1 in
    index (rbuf r) (if i >=? len (rbuf r) then i - len (rbuf r) else i).

  (** ring.go:82-89 Pop. *)
  Definition RPop : X (world T) T :=
    r <- theRing ;;
    if REmpty r then xpanic "pop from empty queu" else
    v <- mem (RFirst r) ;; RDeleteFirst ;; xret v.

  (** One API call on the ring variable, or one step of other code. *)
  Definition ringEvent (e : event T) : X (world T) (answer T) :=
    r <- theRing ;;
    match e with
    | EAppend v => RAppend v ;; xret AUnit
    | EPush v => RPush v ;; xret AUnit
    | EPrepend v => RPrepend v ;; xret AUnit
    | EPop => v <- RPop ;; xret (AVal v)
    | EDeleteFirst => RDeleteFirst ;; xret AUnit
    | EDeleteLast => RDeleteLast ;; xret AUnit
    | EFirst => v <- mem (RFirst r) ;; xret (AVal v)
    | ELast => v <- mem (RLast r) ;; xret (AVal v)
    | EAt i => v <- mem (RAt r i) ;; xret (AVal v)
    | ESet i v => mem (RSet r i v) ;; xret AUnit
    | EAtRef i => '(a, j) <- mem (RAtRef r i) ;; xret (APtr a j)
    | ELen => xret (AInt (RLen r))
    | EEmpty => xret (ABool (REmpty r))
    | EToSlice s => s <- mem (RToSlice r s) ;; xret (ASlice s)
    | EPoke a i v => mem (st a i v) ;; xret AUnit
    | EAlloc l => mem (alloc l) ;; xret AUnit
    end.

  (** A ring made in memory [h], and the list it stands for. *)
  Inductive made (h : heap T) : world T -> list T -> Prop :=
  | m_new : made h (mkWorld h RNew) []
  | m_newlen n r h' : RNewLen n h = (Ok r, h') -> made h (mkWorld h' r) (repeat zero (Z.to_nat n))
  | m_newlencap n c r h' : RNewLenCap n c h = (Ok r, h') -> made h (mkWorld h' r) (repeat zero (Z.to_nat n))
  | m_of s : valid h s -> made h (mkWorld h (ROf s)) (elems h s)
  | m_ofslice s : valid h s -> made h (mkWorld h (ROfSlice s)) (elems h s)
  | m_copy s r h' : valid h s -> RCopy s h = (Ok r, h') -> made h (mkWorld h' r) (elems h s).

  (** Events one after another, panics recovered; [l] is the list the deque
      holds.  Other code stays out of the ring's memory. *)
  Inductive history : world T -> list T -> list (event T) -> world T -> list T -> Prop :=
  | h_nil w l : history w l [] w l
  | h_cons w l e x w1 es w2 l2 : allowed (hp w) (rbuf (rg w)) e -> ringEvent e w = (x, w1) ->
      history w1 (listAfter e l) es w2 l2 -> history w l (e :: es) w2 l2.
End XRingHeap.
