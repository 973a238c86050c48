(** Package xsort with Go's int: 64 bits, wrapping around.

    XSort_Model computes with unbounded integers.  Here every index that the
    code computes is computed as Go does it ([+!], [-!], [*!] wrap around; the
    uints of breakPatterns are computed modulo 2^64).  Everything else is as in
    XSort_Model, including the reads, writes and comparator calls, which are the
    same definitions.  The fuel of loops is no part of the program and is not wrapped. *)
From Verif Require Import Base Callback XSort_Model.
From Verif Require Stream_Model.
Local Open Scope cb_scope.
Local Open Scope Z_scope.

Notation wrapInt := Stream_Model.wrapInt.
Notation "x +! y" := (wrapInt (x + y)) (at level 50, left associativity).
Notation "x -! y" := (wrapInt (x - y)) (at level 50, left associativity).
Notation "x *! y" := (wrapInt (x * y)) (at level 40, left associativity).
(** The same for uint. *)
Definition wrapUint (x : Z) : Z := x mod 2 ^ 64.
Notation "x -u y" := (wrapUint (x - y)) (at level 50, left associativity).

Section IntSort.
  Context {E S : Type}.
  Variable lt ge : comparatorW E S.

  (** sort.go:28-31 nextPowerOfTwo: [1 << bits.Len(uint(length))] in uint. *)
  Definition nextPowerOfTwoI (length : Z) : Z := wrapUint (Z.shiftl 1 (bitsLen (wrapUint length))).

  (** [int(uint(i+j) >> 1)]. *)
  Definition halfI (i j : Z) : Z := wrapInt (Z.shiftr (wrapUint (i +! j)) 1).

  (** sort_any.go:11-13, inner loop of insertionSort. *)
  Fixpoint insertionInnerI (fuel : nat) (a j : Z) : CM (@st E S) unit :=
    match fuel with
    | O => cdiverge
    | Datatypes.S fuel' =>
        c <- andM (j >? a) (ltAt lt j (j -! 1)) ;;
        if c then swap j (j -! 1) ;; insertionInnerI fuel' a (j -! 1)
        else cret tt
    end.

  (** sort_any.go:10-14, outer loop of insertionSort. *)
  Fixpoint insertionOuterI (fuel : nat) (a b i : Z) : CM (@st E S) unit :=
    match fuel with
    | O => cdiverge
    | Datatypes.S fuel' =>
        if i <? b then
          insertionInnerI (Z.to_nat (i - a) + 1) a i ;;
          insertionOuterI fuel' a b (i +! 1)
        else cret tt
    end.

  (** sort_any.go:9-15 insertionSortLessFunc. *)
  Definition insertionSortI (a b : Z) : CM (@st E S) unit :=
    insertionOuterI (Z.to_nat (b - a) + 1) a b (a +! 1).

  (** sort_any.go:21-34, loop of siftDown. *)
  Fixpoint siftDownLoopI (fuel : nat) (root hi first : Z) : CM (@st E S) unit :=
    match fuel with
    | O => cdiverge
    | Datatypes.S fuel' =>
        let child := 2 *! root +! 1 in
        if child >=? hi then cret tt
        else
          c <- andM (child +! 1 <? hi) (ltAt lt (first +! child) (first +! child +! 1)) ;;
          let child := if c then child +! 1 else child in
          g <- geAt ge (first +! root) (first +! child) ;;
          if g then cret tt
          else
            swap (first +! root) (first +! child) ;;
            siftDownLoopI fuel' child hi first
    end.

  (** sort_any.go:19-35 siftDownLessFunc. *)
  Definition siftDownI (lo hi first : Z) : CM (@st E S) unit :=
    siftDownLoopI (Z.to_nat (hi - lo) + 1) lo hi first.

  (** sort_any.go:41-43, heap construction loop. *)
  Fixpoint heapBuildI (fuel : nat) (i hi first : Z) : CM (@st E S) unit :=
    match fuel with
    | O => cdiverge
    | Datatypes.S fuel' =>
        if i >=? 0 then siftDownI i hi first ;; heapBuildI fuel' (i -! 1) hi first
        else cret tt
    end.

  (** sort_any.go:45-48, pop loop. *)
  Fixpoint heapPopI (fuel : nat) (i lo first : Z) : CM (@st E S) unit :=
    match fuel with
    | O => cdiverge
    | Datatypes.S fuel' =>
        if i >=? 0 then
          swap first (first +! i) ;; siftDownI lo i first ;;
          heapPopI fuel' (i -! 1) lo first
        else cret tt
    end.

  (** sort_any.go:36-49 heapSortLessFunc. *)
  Definition heapSortI (a b : Z) : CM (@st E S) unit :=
    let first := a in
    let lo := 0 in
    let hi := b -! a in
    heapBuildI (Z.to_nat hi + 2) (Z.quot (hi -! 1) 2) hi first ;;
    heapPopI (Z.to_nat hi + 2) (hi -! 1) lo first.

  (** sort_any.go:124-126 / 138-140: advance i. *)
  Fixpoint advII (fuel : nat) (i j a : Z) : CM (@st E S) Z :=
    match fuel with
    | O => cdiverge
    | Datatypes.S fuel' =>
        c <- andM (i <=? j) (ltAt lt i a) ;;
        if c then advII fuel' (i +! 1) j a else cret i
    end.

  (** sort_any.go:127-129 / 141-143: retreat j. *)
  Fixpoint advJI (fuel : nat) (i j a : Z) : CM (@st E S) Z :=
    match fuel with
    | O => cdiverge
    | Datatypes.S fuel' =>
        c <- andM (i <=? j) (geAt ge j a) ;;
        if c then advJI fuel' i (j -! 1) a else cret j
    end.

  (** sort_any.go:137-150: main partition loop; returns the final j. *)
  Fixpoint partitionLoopI (fuel : nat) (i j a : Z) : CM (@st E S) Z :=
    match fuel with
    | O => cdiverge
    | Datatypes.S fuel' =>
        i <- advII (scanFuel i j) i j a ;;
        j <- advJI (scanFuel i j) i j a ;;
        if i >? j then cret j
        else swap i j ;; partitionLoopI fuel' (i +! 1) (j -! 1) a
    end.

  (** sort_any.go:121-153 partitionLessFunc. *)
  Definition partitionI (a b pivot : Z) : CM (@st E S) (Z * bool) :=
    swap a pivot ;;
    let i := a +! 1 in
    let j := b -! 1 in
    i <- advII (scanFuel i j) i j a ;;
    j <- advJI (scanFuel i j) i j a ;;
    if i >? j then
      swap j a ;; cret (j, true)
    else
      swap i j ;;
      j <- partitionLoopI (scanFuel i j) (i +! 1) (j -! 1) a ;;
      swap j a ;; cret (j, false).

  (** sort_any.go:161-163. *)
  Fixpoint eqAdvII (fuel : nat) (i j a : Z) : CM (@st E S) Z :=
    match fuel with
    | O => cdiverge
    | Datatypes.S fuel' =>
        c <- andM (i <=? j) (geAt ge a i) ;;
        if c then eqAdvII fuel' (i +! 1) j a else cret i
    end.

  (** sort_any.go:164-166. *)
  Fixpoint eqAdvJI (fuel : nat) (i j a : Z) : CM (@st E S) Z :=
    match fuel with
    | O => cdiverge
    | Datatypes.S fuel' =>
        c <- andM (i <=? j) (ltAt lt a j) ;;
        if c then eqAdvJI fuel' i (j -! 1) a else cret j
    end.

  (** sort_any.go:160-173. *)
  Fixpoint partitionEqualLoopI (fuel : nat) (i j a : Z) : CM (@st E S) Z :=
    match fuel with
    | O => cdiverge
    | Datatypes.S fuel' =>
        i <- eqAdvII (scanFuel i j) i j a ;;
        j <- eqAdvJI (scanFuel i j) i j a ;;
        if i >? j then cret i
        else swap i j ;; partitionEqualLoopI fuel' (i +! 1) (j -! 1) a
    end.

  (** sort_any.go:157-175 partitionEqualLessFunc. *)
  Definition partitionEqualI (a b pivot : Z) : CM (@st E S) Z :=
    swap a pivot ;;
    partitionEqualLoopI (scanFuel (a + 1) (b - 1)) (a +! 1) (b -! 1) a.

  (** sort_any.go:185-187. *)
  Fixpoint pisAdvanceI (fuel : nat) (i b : Z) : CM (@st E S) Z :=
    match fuel with
    | O => cdiverge
    | Datatypes.S fuel' =>
        c <- andM (i <? b) (geAt ge i (i -! 1)) ;;
        if c then pisAdvanceI fuel' (i +! 1) b else cret i
    end.

  (** sort_any.go:197-202: shift the smaller one to the left (note: the
      loop runs down to index 1, not to a+1). *)
  Fixpoint pisShiftLeftI (fuel : nat) (j : Z) : CM (@st E S) unit :=
    match fuel with
    | O => cdiverge
    | Datatypes.S fuel' =>
        if j >=? 1 then
          g <- geAt ge j (j -! 1) ;;
          if g then cret tt
          else swap j (j -! 1) ;; pisShiftLeftI fuel' (j -! 1)
        else cret tt
    end.

  (** sort_any.go:206-211: shift the greater one to the right. *)
  Fixpoint pisShiftRightI (fuel : nat) (j b : Z) : CM (@st E S) unit :=
    match fuel with
    | O => cdiverge
    | Datatypes.S fuel' =>
        if j <? b then
          g <- geAt ge j (j -! 1) ;;
          if g then cret tt
          else swap j (j -! 1) ;; pisShiftRightI fuel' (j +! 1) b
        else cret tt
    end.

  (** sort_any.go:184-214: [steps] is maxSteps - j. *)
  Fixpoint pisLoopI (steps : nat) (i a b : Z) : CM (@st E S) bool :=
    match steps with
    | O => cret false
    | Datatypes.S steps' =>
        i <- pisAdvanceI (Z.to_nat (b - i) + 1) i b ;;
        if i =? b then cret true
        else if b -! a <? 50 then cret false
        else
          swap i (i -! 1) ;;
          (if i -! a >=? 2 then pisShiftLeftI (Z.to_nat i + 1) (i -! 1) else cret tt) ;;
          (if b -! i >=? 2 then pisShiftRightI (Z.to_nat (b - i) + 1) (i +! 1) b else cret tt) ;;
          pisLoopI steps' i a b
    end.

  (** sort_any.go:178-215 partialInsertionSortLessFunc (maxSteps = 5,
      shortestShifting = 50). *)
  Definition partialInsertionSortI (a b : Z) : CM (@st E S) bool :=
    pisLoopI 5 (a +! 1) a b.

  (** sort_any.go:224-230: three iterations, idx = from .. to. *)
  Fixpoint breakLoopI (fuel : nat) (idx last random modulus length a : Z) : CM (@st E S) unit :=
    match fuel with
    | O => cdiverge
    | Datatypes.S fuel' =>
        if idx <=? last then
          let random := xorshiftNext random in
          let other := wrapInt (Z.land random (modulus -u 1)) in
          let other := if other >=? length then other -! length else other in
          swap idx (a +! other) ;;
          breakLoopI fuel' (idx +! 1) last random modulus length a
        else cret tt
    end.

  (** sort_any.go:219-232 breakPatternsLessFunc. *)
  Definition breakPatternsI (a b : Z) : CM (@st E S) unit :=
    let length := b -! a in
    if length >=? 8 then
      breakLoopI 4 (a +! Z.quot length 4 *! 2 -! 1) (a +! Z.quot length 4 *! 2 +! 1)
        length (nextPowerOfTwoI length) length a
    else cret tt.

  (** sort_any.go:272-278 order2LessFunc; the *swaps pointer is threaded. *)
  Definition order2I (a b swaps : Z) : CM (@st E S) (Z * Z * Z) :=
    c <- ltAt lt b a ;;
    cret (if c then (b, a, swaps +! 1) else (a, b, swaps)).

  (** sort_any.go:281-286 medianLessFunc. *)
  Definition medianI (a b c swaps : Z) : CM (@st E S) (Z * Z) :=
    '(a, b, swaps) <- order2I a b swaps ;;
    '(b, c, swaps) <- order2I b c swaps ;;
    '(a, b, swaps) <- order2I a b swaps ;;
    cret (b, swaps).

  (** sort_any.go:289-291 medianAdjacentLessFunc. *)
  Definition medianAdjacentI (a swaps : Z) : CM (@st E S) (Z * Z) :=
    medianI (a -! 1) a (a +! 1) swaps.

  (** sort_any.go:239-269 choosePivotLessFunc (shortestNinther = 50, maxSwaps = 12). *)
  Definition choosePivotI (a b : Z) : CM (@st E S) (Z * sortedHint) :=
    let l := b -! a in
    let i := a +! Z.quot l 4 *! 1 in
    let j := a +! Z.quot l 4 *! 2 in
    let k := a +! Z.quot l 4 *! 3 in
    '(j, swaps) <-
      (if l >=? 8 then
         '(i, j, k, swaps) <-
           (if l >=? 50 then
              '(i, swaps) <- medianAdjacentI i 0 ;;
              '(j, swaps) <- medianAdjacentI j swaps ;;
              '(k, swaps) <- medianAdjacentI k swaps ;;
              cret (i, j, k, swaps)
            else cret (i, j, k, 0)) ;;
         medianI i j k swaps
       else cret (j, 0)) ;;
    cret (j, if swaps =? 0 then increasingHint
            else if swaps =? 12 then decreasingHint
            else unknownHint).

  (** sort_any.go:295-299. *)
  Fixpoint reverseLoopI (fuel : nat) (i j : Z) : CM (@st E S) unit :=
    match fuel with
    | O => cdiverge
    | Datatypes.S fuel' =>
        if i <? j then swap i j ;; reverseLoopI fuel' (i +! 1) (j -! 1) else cret tt
    end.

  (** sort_any.go:292-300 reverseRangeLessFunc. *)
  Definition reverseRangeI (a b : Z) : CM (@st E S) unit :=
    reverseLoopI (Z.to_nat (b - a) + 1) a (b -! 1).

  (** sort_any.go:63-114: the for-loop of pdqsort.  [self] is the recursive
      call (one stack frame deeper). *)
  Fixpoint pdqLoopI (self : Z -> Z -> Z -> CM (@st E S) unit) (fuel : nat)
      (a b limit : Z) (wasBalanced wasPartitioned : bool) : CM (@st E S) unit :=
    match fuel with
    | O => cdiverge
    | Datatypes.S fuel' =>
        let length := b -! a in
        if length <=? 12 then insertionSortI a b
        else if limit =? 0 then heapSortI a b
        else
          (if negb wasBalanced then breakPatternsI a b else cret tt) ;;
          let limit := if negb wasBalanced then limit -! 1 else limit in
          '(pivot, hint) <- choosePivotI a b ;;
          '(pivot, hint) <-
            (match hint with
             | decreasingHint =>
                 reverseRangeI a b ;; cret (b -! 1 -! (pivot -! a), increasingHint)
             | _ => cret (pivot, hint)
             end) ;;
          done <- (if wasBalanced && wasPartitioned && isIncreasing hint
                   then partialInsertionSortI a b else cret false) ;;
          if done then cret tt
          else
            e <- andM (a >? 0) (geAt ge (a -! 1) pivot) ;;
            if e then
              mid <- partitionEqualI a b pivot ;;
              pdqLoopI self fuel' mid b limit wasBalanced wasPartitioned
            else
              '(mid, alreadyPartitioned) <- partitionI a b pivot ;;
              let leftLen := mid -! a in
              let rightLen := b -! mid in
              let balanceThreshold := Z.quot length 8 in
              if leftLen <? rightLen then
                self a mid limit ;;
                pdqLoopI self fuel' (mid +! 1) b limit
                  (leftLen >=? balanceThreshold) alreadyPartitioned
              else
                self (mid +! 1) b limit ;;
                pdqLoopI self fuel' a mid limit
                  (rightLen >=? balanceThreshold) alreadyPartitioned
    end.

  (** sort_any.go:57-115 pdqsortLessFunc, with an explicit stack budget:
      [stack] bounds the number of nested calls. *)
  Fixpoint pdqsortI (stack : nat) (a b limit : Z) : CM (@st E S) unit :=
    match stack with
    | O => cdiverge
    | Datatypes.S stack' =>
        pdqLoopI (pdqsortI stack') (Z.to_nat (b - a) + 1) a b limit true true
    end.

  (** sort_any.go:301-305 swapRangeLessFunc. *)
  Fixpoint swapRangeLoopI (fuel : nat) (i n a b : Z) : CM (@st E S) unit :=
    match fuel with
    | O => cdiverge
    | Datatypes.S fuel' =>
        if i <? n then swap (a +! i) (b +! i) ;; swapRangeLoopI fuel' (i +! 1) n a b
        else cret tt
    end.
  Definition swapRangeI (a b n : Z) : CM (@st E S) unit :=
    swapRangeLoopI (Z.to_nat n + 1) 0 n a b.

  (** sort_any.go:433-443, loop of rotate. *)
  Fixpoint rotateLoopI (fuel : nat) (i j m : Z) : CM (@st E S) unit :=
    match fuel with
    | O => cdiverge
    | Datatypes.S fuel' =>
        if i =? j then swapRangeI (m -! i) m i
        else if i >? j then
          swapRangeI (m -! i) m j ;; rotateLoopI fuel' (i -! j) j m
        else
          swapRangeI (m -! i) (m +! j -! i) i ;; rotateLoopI fuel' i (j -! i) m
    end.

  (** sort_any.go:430-444 rotateLessFunc. *)
  Definition rotateI (a m b : Z) : CM (@st E S) unit :=
    rotateLoopI (Z.to_nat (b - a) + 1) (m -! a) (b -! m) m.

  (** sort_any.go:358-365: binary search, lowest i with data[i] >= data[a]. *)
  Fixpoint bsearchLowI (fuel : nat) (i j a : Z) : CM (@st E S) Z :=
    match fuel with
    | O => cdiverge
    | Datatypes.S fuel' =>
        if i <? j then
          let h := halfI i j in
          c <- ltAt lt h a ;;
          if c then bsearchLowI fuel' (h +! 1) j a else bsearchLowI fuel' i h a
        else cret i
    end.

  (** sort_any.go:367-369. *)
  Fixpoint bubbleUpI (fuel : nat) (k i : Z) : CM (@st E S) unit :=
    match fuel with
    | O => cdiverge
    | Datatypes.S fuel' =>
        if k <? i -! 1 then swap k (k +! 1) ;; bubbleUpI fuel' (k +! 1) i else cret tt
    end.

  (** sort_any.go:381-388: binary search, lowest i with data[i] > data[m]. *)
  Fixpoint bsearchHighI (fuel : nat) (i j m : Z) : CM (@st E S) Z :=
    match fuel with
    | O => cdiverge
    | Datatypes.S fuel' =>
        if i <? j then
          let h := halfI i j in
          g <- geAt ge m h ;;
          if g then bsearchHighI fuel' (h +! 1) j m else bsearchHighI fuel' i h m
        else cret i
    end.

  (** sort_any.go:390-392. *)
  Fixpoint bubbleDownI (fuel : nat) (k i : Z) : CM (@st E S) unit :=
    match fuel with
    | O => cdiverge
    | Datatypes.S fuel' =>
        if k >? i then swap k (k -! 1) ;; bubbleDownI fuel' (k -! 1) i else cret tt
    end.

  (** sort_any.go:406-413: symmetric binary search; returns start. *)
  Fixpoint bsearchSymI (fuel : nat) (start r p : Z) : CM (@st E S) Z :=
    match fuel with
    | O => cdiverge
    | Datatypes.S fuel' =>
        if start <? r then
          let c := halfI start r in
          g <- geAt ge (p -! c) c ;;
          if g then bsearchSymI fuel' (c +! 1) r p else bsearchSymI fuel' start c p
        else cret start
    end.

  (** sort_any.go:348-424 symMergeLessFunc with explicit stack budget. *)
  Fixpoint symMergeI (stack : nat) (a m b : Z) : CM (@st E S) unit :=
    match stack with
    | O => cdiverge
    | Datatypes.S stack' =>
        if m -! a =? 1 then
          i <- bsearchLowI (Z.to_nat (b - m) + 1) m b a ;;
          bubbleUpI (Z.to_nat (b - a) + 1) a i
        else if b -! m =? 1 then
          i <- bsearchHighI (Z.to_nat (m - a) + 1) a m m ;;
          bubbleDownI (Z.to_nat (m - a) + 1) m i
        else
          let mid := halfI a b in
          let n := mid +! m in
          let '(start, r) := if m >? mid then (n -! b, mid) else (a, m) in
          let p := n -! 1 in
          start <- bsearchSymI (Z.to_nat (r - start) + 1) start r p ;;
          let end_ := n -! start in
          (if (start <? m) && (m <? end_) then rotateI start m end_ else cret tt) ;;
          (if (a <? start) && (start <? mid) then symMergeI stack' a start mid else cret tt) ;;
          (if (mid <? end_) && (end_ <? b) then symMergeI stack' mid end_ b else cret tt)
    end.

  (** sort_any.go:309-313. *)
  Fixpoint stableBlocksI (fuel : nat) (a b n blockSize : Z) : CM (@st E S) Z :=
    match fuel with
    | O => cdiverge
    | Datatypes.S fuel' =>
        if b <=? n then
          insertionSortI a b ;; stableBlocksI fuel' b (b +! blockSize) n blockSize
        else cret a
    end.

  (** sort_any.go:317-321. *)
  Fixpoint mergePassI (stack fuel : nat) (a b n blockSize : Z) : CM (@st E S) Z :=
    match fuel with
    | O => cdiverge
    | Datatypes.S fuel' =>
        if b <=? n then
          symMergeI stack a (a +! blockSize) b ;;
          mergePassI stack fuel' b (b +! 2 *! blockSize) n blockSize
        else cret a
    end.

  (** sort_any.go:315-326. *)
  Fixpoint mergeLoopI (stack fuel : nat) (n blockSize : Z) : CM (@st E S) unit :=
    match fuel with
    | O => cdiverge
    | Datatypes.S fuel' =>
        if blockSize <? n then
          a <- mergePassI stack (Z.to_nat n + 1) 0 (2 *! blockSize) n blockSize ;;
          let m := a +! blockSize in
          (if m <? n then symMergeI stack a m n else cret tt) ;;
          mergeLoopI stack fuel' n (blockSize *! 2)
        else cret tt
    end.

  (** sort_any.go:306-327 stableLessFunc (initial blockSize 20); [stack]
      bounds the nesting of symMerge calls. *)
  Definition stableI (stack : nat) (n : Z) : CM (@st E S) unit :=
    a <- stableBlocksI (Z.to_nat n + 1) 0 20 n 20 ;;
    insertionSortI a n ;;
    mergeLoopI stack (Z.to_nat n + 1) n 20.

End IntSort.

(** sort.go:39-43 Sort and sort.go:49-51 Stable, with the stack budget of XSort_Model. *)
Definition SortI {E S} (data : list E) (less : comparatorW E S) (s : S)
  : cres unit * (list E * S) :=
  pdqsortI less (notLessW less) (Datatypes.S (List.length data)) 0 (zlen data) (bitsLen (zlen data)) (data, s).
Definition StableI {E S} (data : list E) (less : comparatorW E S) (s : S)
  : cres unit * (list E * S) :=
  stableI less (notLessW less) (Datatypes.S (List.length data)) (zlen data) (data, s).

(** sort.go:33-37 SortOrdered and sort.go:45-47 StableOrdered. *)
Definition SortOrderedI {E} (ltb geb : E -> E -> bool) (data : list E)
  : outcome (list E) :=
  omap fst (plain (pdqsortI (always (pureCmp ltb)) (always (pureCmp geb))
                     (Datatypes.S (List.length data)) 0 (zlen data) (bitsLen (zlen data)) (data, tt))).
Definition StableOrderedI {E} (ltb geb : E -> E -> bool) (data : list E)
  : outcome (list E) :=
  omap fst (plain (stableI (always (pureCmp ltb)) (always (pureCmp geb))
                     (Datatypes.S (List.length data)) (zlen data) (data, tt))).
