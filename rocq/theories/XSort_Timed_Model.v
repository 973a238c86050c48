(** Package xsort with a clock, for statements about its running time.

    The code is that of XSort_Model; in addition a counter in the state goes up
    by one with every pass of a loop (the last, in which the condition fails,
    included), every recursive call, every call of the comparator and every
    exchange of two elements.  Between two counts the code does a bounded number
    of operations on ints and of accesses to the slice, so that the counter is
    the running time up to a constant factor, if a call of the comparator counts
    as one operation. *)
From Verif Require Import Base Callback XSort_Model.
Local Open Scope cb_scope.
Local Open Scope Z_scope.

(** A comparator that lets the clock be. *)
Definition beside {E S} (less : comparatorW E S) : comparatorW E (S * Z) := fun d x y st =>
  let '(r, (d', s')) := less d x y (fst st) in (r, (d', (s', snd st))).

Section TimedSort.
  Context {E S : Type}.
  Variable lt ge : comparatorW E S.

  (** The slice, the comparator's state, the clock. *)
  Definition stT : Type := (list E * (S * Z))%type.
  Definition tick : CM stT unit := fun '(d, (s, t)) => (CRet tt, (d, (s, t + 1))).

  (** [data[i], data[j] = data[j], data[i]], [less(data[i], data[j])] and
      [!less(data[i], data[j])]. *)
  Definition swapT (i j : Z) : CM stT unit := tick ;; swap i j.
  Definition ltAtT (i j : Z) : CM stT bool := tick ;; ltAt (beside lt) i j.
  Definition geAtT (i j : Z) : CM stT bool := tick ;; geAt (beside ge) i j.

  (** sort_any.go:11-13, inner loop of insertionSort. *)
  Fixpoint insertionInnerT (fuel : nat) (a j : Z) : CM stT unit :=
    match fuel with
    | O => cdiverge
    | Datatypes.S fuel' =>
        tick ;;
        c <- andM (j >? a) (ltAtT j (j - 1)) ;;
        if c then swapT j (j - 1) ;; insertionInnerT fuel' a (j - 1)
        else cret tt
    end.

  (** sort_any.go:10-14, outer loop of insertionSort. *)
  Fixpoint insertionOuterT (fuel : nat) (a b i : Z) : CM stT unit :=
    match fuel with
    | O => cdiverge
    | Datatypes.S fuel' =>
        tick ;;
        if i <? b then
          insertionInnerT (Z.to_nat (i - a) + 1) a i ;;
          insertionOuterT fuel' a b (i + 1)
        else cret tt
    end.

  (** sort_any.go:9-15 insertionSortLessFunc. *)
  Definition insertionSortT (a b : Z) : CM stT unit :=
    insertionOuterT (Z.to_nat (b - a) + 1) a b (a + 1).

  (** sort_any.go:21-34, loop of siftDown. *)
  Fixpoint siftDownLoopT (fuel : nat) (root hi first : Z) : CM stT unit :=
    match fuel with
    | O => cdiverge
    | Datatypes.S fuel' =>
        tick ;;
        let child := 2 * root + 1 in
        if child >=? hi then cret tt
        else
          c <- andM (child + 1 <? hi) (ltAtT (first + child) (first + child + 1)) ;;
          let child := if c then child + 1 else child in
          g <- geAtT (first + root) (first + child) ;;
          if g then cret tt
          else
            swapT (first + root) (first + child) ;;
            siftDownLoopT fuel' child hi first
    end.

  (** sort_any.go:19-35 siftDownLessFunc. *)
  Definition siftDownT (lo hi first : Z) : CM stT unit :=
    siftDownLoopT (Z.to_nat (hi - lo) + 1) lo hi first.

  (** sort_any.go:41-43, heap construction loop. *)
  Fixpoint heapBuildT (fuel : nat) (i hi first : Z) : CM stT unit :=
    match fuel with
    | O => cdiverge
    | Datatypes.S fuel' =>
        tick ;;
        if i >=? 0 then siftDownT i hi first ;; heapBuildT fuel' (i - 1) hi first
        else cret tt
    end.

  (** sort_any.go:45-48, pop loop. *)
  Fixpoint heapPopT (fuel : nat) (i lo first : Z) : CM stT unit :=
    match fuel with
    | O => cdiverge
    | Datatypes.S fuel' =>
        tick ;;
        if i >=? 0 then
          swapT first (first + i) ;; siftDownT lo i first ;;
          heapPopT fuel' (i - 1) lo first
        else cret tt
    end.

  (** sort_any.go:36-49 heapSortLessFunc. *)
  Definition heapSortT (a b : Z) : CM stT unit :=
    let first := a in
    let lo := 0 in
    let hi := b - a in
    heapBuildT (Z.to_nat hi + 2) (Z.quot (hi - 1) 2) hi first ;;
    heapPopT (Z.to_nat hi + 2) (hi - 1) lo first.

  (** sort_any.go:124-126 / 138-140: advance i. *)
  Fixpoint advIT (fuel : nat) (i j a : Z) : CM stT Z :=
    match fuel with
    | O => cdiverge
    | Datatypes.S fuel' =>
        tick ;;
        c <- andM (i <=? j) (ltAtT i a) ;;
        if c then advIT fuel' (i + 1) j a else cret i
    end.

  (** sort_any.go:127-129 / 141-143: retreat j. *)
  Fixpoint advJT (fuel : nat) (i j a : Z) : CM stT Z :=
    match fuel with
    | O => cdiverge
    | Datatypes.S fuel' =>
        tick ;;
        c <- andM (i <=? j) (geAtT j a) ;;
        if c then advJT fuel' i (j - 1) a else cret j
    end.

  (** sort_any.go:137-150: main partition loop; returns the final j. *)
  Fixpoint partitionLoopT (fuel : nat) (i j a : Z) : CM stT Z :=
    match fuel with
    | O => cdiverge
    | Datatypes.S fuel' =>
        tick ;;
        i <- advIT (scanFuel i j) i j a ;;
        j <- advJT (scanFuel i j) i j a ;;
        if i >? j then cret j
        else swapT i j ;; partitionLoopT fuel' (i + 1) (j - 1) a
    end.

  (** sort_any.go:121-153 partitionLessFunc. *)
  Definition partitionT (a b pivot : Z) : CM stT (Z * bool) :=
    swapT a pivot ;;
    let i := a + 1 in
    let j := b - 1 in
    i <- advIT (scanFuel i j) i j a ;;
    j <- advJT (scanFuel i j) i j a ;;
    if i >? j then
      swapT j a ;; cret (j, true)
    else
      swapT i j ;;
      j <- partitionLoopT (scanFuel i j) (i + 1) (j - 1) a ;;
      swapT j a ;; cret (j, false).

  (** sort_any.go:161-163. *)
  Fixpoint eqAdvIT (fuel : nat) (i j a : Z) : CM stT Z :=
    match fuel with
    | O => cdiverge
    | Datatypes.S fuel' =>
        tick ;;
        c <- andM (i <=? j) (geAtT a i) ;;
        if c then eqAdvIT fuel' (i + 1) j a else cret i
    end.

  (** sort_any.go:164-166. *)
  Fixpoint eqAdvJT (fuel : nat) (i j a : Z) : CM stT Z :=
    match fuel with
    | O => cdiverge
    | Datatypes.S fuel' =>
        tick ;;
        c <- andM (i <=? j) (ltAtT a j) ;;
        if c then eqAdvJT fuel' i (j - 1) a else cret j
    end.

  (** sort_any.go:160-173. *)
  Fixpoint partitionEqualLoopT (fuel : nat) (i j a : Z) : CM stT Z :=
    match fuel with
    | O => cdiverge
    | Datatypes.S fuel' =>
        tick ;;
        i <- eqAdvIT (scanFuel i j) i j a ;;
        j <- eqAdvJT (scanFuel i j) i j a ;;
        if i >? j then cret i
        else swapT i j ;; partitionEqualLoopT fuel' (i + 1) (j - 1) a
    end.

  (** sort_any.go:157-175 partitionEqualLessFunc. *)
  Definition partitionEqualT (a b pivot : Z) : CM stT Z :=
    swapT a pivot ;;
    partitionEqualLoopT (scanFuel (a + 1) (b - 1)) (a + 1) (b - 1) a.

  (** sort_any.go:185-187. *)
  Fixpoint pisAdvanceT (fuel : nat) (i b : Z) : CM stT Z :=
    match fuel with
    | O => cdiverge
    | Datatypes.S fuel' =>
        tick ;;
        c <- andM (i <? b) (geAtT i (i - 1)) ;;
        if c then pisAdvanceT fuel' (i + 1) b else cret i
    end.

  (** sort_any.go:197-202: shift the smaller one to the left (note: the
      loop runs down to index 1, not to a+1). *)
  Fixpoint pisShiftLeftT (fuel : nat) (j : Z) : CM stT unit :=
    match fuel with
    | O => cdiverge
    | Datatypes.S fuel' =>
        tick ;;
        if j >=? 1 then
          g <- geAtT j (j - 1) ;;
          if g then cret tt
          else swapT j (j - 1) ;; pisShiftLeftT fuel' (j - 1)
        else cret tt
    end.

  (** sort_any.go:206-211: shift the greater one to the right. *)
  Fixpoint pisShiftRightT (fuel : nat) (j b : Z) : CM stT unit :=
    match fuel with
    | O => cdiverge
    | Datatypes.S fuel' =>
        tick ;;
        if j <? b then
          g <- geAtT j (j - 1) ;;
          if g then cret tt
          else swapT j (j - 1) ;; pisShiftRightT fuel' (j + 1) b
        else cret tt
    end.

  (** sort_any.go:184-214: [steps] is maxSteps - j. *)
  Fixpoint pisLoopT (steps : nat) (i a b : Z) : CM stT bool :=
    match steps with
    | O => cret false
    | Datatypes.S steps' =>
        tick ;;
        i <- pisAdvanceT (Z.to_nat (b - i) + 1) i b ;;
        if i =? b then cret true
        else if b - a <? 50 then cret false
        else
          swapT i (i - 1) ;;
          (if i - a >=? 2 then pisShiftLeftT (Z.to_nat i + 1) (i - 1) else cret tt) ;;
          (if b - i >=? 2 then pisShiftRightT (Z.to_nat (b - i) + 1) (i + 1) b else cret tt) ;;
          pisLoopT steps' i a b
    end.

  (** sort_any.go:178-215 partialInsertionSortLessFunc (maxSteps = 5,
      shortestShifting = 50). *)
  Definition partialInsertionSortT (a b : Z) : CM stT bool :=
    pisLoopT 5 (a + 1) a b.

  (** sort_any.go:224-230: three iterations, idx = from .. to. *)
  Fixpoint breakLoopT (fuel : nat) (idx last random modulus length a : Z) : CM stT unit :=
    match fuel with
    | O => cdiverge
    | Datatypes.S fuel' =>
        tick ;;
        if idx <=? last then
          let random := xorshiftNext random in
          let other := Z.land random (modulus - 1) in
          let other := if other >=? length then other - length else other in
          swapT idx (a + other) ;;
          breakLoopT fuel' (idx + 1) last random modulus length a
        else cret tt
    end.

  (** sort_any.go:219-232 breakPatternsLessFunc. *)
  Definition breakPatternsT (a b : Z) : CM stT unit :=
    let length := b - a in
    if length >=? 8 then
      breakLoopT 4 (a + Z.quot length 4 * 2 - 1) (a + Z.quot length 4 * 2 + 1)
        length (nextPowerOfTwo length) length a
    else cret tt.

  (** sort_any.go:272-278 order2LessFunc; the *swaps pointer is threaded. *)
  Definition order2T (a b swaps : Z) : CM stT (Z * Z * Z) :=
    c <- ltAtT b a ;;
    cret (if c then (b, a, swaps + 1) else (a, b, swaps)).

  (** sort_any.go:281-286 medianLessFunc. *)
  Definition medianT (a b c swaps : Z) : CM stT (Z * Z) :=
    '(a, b, swaps) <- order2T a b swaps ;;
    '(b, c, swaps) <- order2T b c swaps ;;
    '(a, b, swaps) <- order2T a b swaps ;;
    cret (b, swaps).

  (** sort_any.go:289-291 medianAdjacentLessFunc. *)
  Definition medianAdjacentT (a swaps : Z) : CM stT (Z * Z) :=
    medianT (a - 1) a (a + 1) swaps.

  (** sort_any.go:239-269 choosePivotLessFunc (shortestNinther = 50, maxSwaps = 12). *)
  Definition choosePivotT (a b : Z) : CM stT (Z * sortedHint) :=
    let l := b - a in
    let i := a + Z.quot l 4 * 1 in
    let j := a + Z.quot l 4 * 2 in
    let k := a + Z.quot l 4 * 3 in
    '(j, swaps) <-
      (if l >=? 8 then
         '(i, j, k, swaps) <-
           (if l >=? 50 then
              '(i, swaps) <- medianAdjacentT i 0 ;;
              '(j, swaps) <- medianAdjacentT j swaps ;;
              '(k, swaps) <- medianAdjacentT k swaps ;;
              cret (i, j, k, swaps)
            else cret (i, j, k, 0)) ;;
         medianT i j k swaps
       else cret (j, 0)) ;;
    cret (j, if swaps =? 0 then increasingHint
            else if swaps =? 12 then decreasingHint
            else unknownHint).

  (** sort_any.go:295-299. *)
  Fixpoint reverseLoopT (fuel : nat) (i j : Z) : CM stT unit :=
    match fuel with
    | O => cdiverge
    | Datatypes.S fuel' =>
        tick ;;
        if i <? j then swapT i j ;; reverseLoopT fuel' (i + 1) (j - 1) else cret tt
    end.

  (** sort_any.go:292-300 reverseRangeLessFunc. *)
  Definition reverseRangeT (a b : Z) : CM stT unit :=
    reverseLoopT (Z.to_nat (b - a) + 1) a (b - 1).

  (** sort_any.go:63-114: the for-loop of pdqsort.  [self] is the recursive
      call (one stack frame deeper). *)
  Fixpoint pdqLoopT (self : Z -> Z -> Z -> CM stT unit) (fuel : nat)
      (a b limit : Z) (wasBalanced wasPartitioned : bool) : CM stT unit :=
    match fuel with
    | O => cdiverge
    | Datatypes.S fuel' =>
        tick ;;
        let length := b - a in
        if length <=? 12 then insertionSortT a b
        else if limit =? 0 then heapSortT a b
        else
          (if negb wasBalanced then breakPatternsT a b else cret tt) ;;
          let limit := if negb wasBalanced then limit - 1 else limit in
          '(pivot, hint) <- choosePivotT a b ;;
          '(pivot, hint) <-
            (match hint with
             | decreasingHint =>
                 reverseRangeT a b ;; cret (b - 1 - (pivot - a), increasingHint)
             | _ => cret (pivot, hint)
             end) ;;
          done <- (if wasBalanced && wasPartitioned && isIncreasing hint
                   then partialInsertionSortT a b else cret false) ;;
          if done then cret tt
          else
            e <- andM (a >? 0) (geAtT (a - 1) pivot) ;;
            if e then
              mid <- partitionEqualT a b pivot ;;
              pdqLoopT self fuel' mid b limit wasBalanced wasPartitioned
            else
              '(mid, alreadyPartitioned) <- partitionT a b pivot ;;
              let leftLen := mid - a in
              let rightLen := b - mid in
              let balanceThreshold := Z.quot length 8 in
              if leftLen <? rightLen then
                self a mid limit ;;
                pdqLoopT self fuel' (mid + 1) b limit
                  (leftLen >=? balanceThreshold) alreadyPartitioned
              else
                self (mid + 1) b limit ;;
                pdqLoopT self fuel' a mid limit
                  (rightLen >=? balanceThreshold) alreadyPartitioned
    end.

  (** sort_any.go:57-115 pdqsortLessFunc, with an explicit stack budget:
      [stack] bounds the number of nested calls. *)
  Fixpoint pdqsortT (stack : nat) (a b limit : Z) : CM stT unit :=
    match stack with
    | O => cdiverge
    | Datatypes.S stack' =>
        tick ;;
        pdqLoopT (pdqsortT stack') (Z.to_nat (b - a) + 1) a b limit true true
    end.

  (** sort_any.go:301-305 swapRangeLessFunc. *)
  Fixpoint swapRangeLoopT (fuel : nat) (i n a b : Z) : CM stT unit :=
    match fuel with
    | O => cdiverge
    | Datatypes.S fuel' =>
        tick ;;
        if i <? n then swapT (a + i) (b + i) ;; swapRangeLoopT fuel' (i + 1) n a b
        else cret tt
    end.
  Definition swapRangeT (a b n : Z) : CM stT unit :=
    swapRangeLoopT (Z.to_nat n + 1) 0 n a b.

  (** sort_any.go:433-443, loop of rotate. *)
  Fixpoint rotateLoopT (fuel : nat) (i j m : Z) : CM stT unit :=
    match fuel with
    | O => cdiverge
    | Datatypes.S fuel' =>
        tick ;;
        if i =? j then swapRangeT (m - i) m i
        else if i >? j then
          swapRangeT (m - i) m j ;; rotateLoopT fuel' (i - j) j m
        else
          swapRangeT (m - i) (m + j - i) i ;; rotateLoopT fuel' i (j - i) m
    end.

  (** sort_any.go:430-444 rotateLessFunc. *)
  Definition rotateT (a m b : Z) : CM stT unit :=
    rotateLoopT (Z.to_nat (b - a) + 1) (m - a) (b - m) m.

  (** sort_any.go:358-365: binary search, lowest i with data[i] >= data[a]. *)
  Fixpoint bsearchLowT (fuel : nat) (i j a : Z) : CM stT Z :=
    match fuel with
    | O => cdiverge
    | Datatypes.S fuel' =>
        tick ;;
        if i <? j then
          let h := half i j in
          c <- ltAtT h a ;;
          if c then bsearchLowT fuel' (h + 1) j a else bsearchLowT fuel' i h a
        else cret i
    end.

  (** sort_any.go:367-369. *)
  Fixpoint bubbleUpT (fuel : nat) (k i : Z) : CM stT unit :=
    match fuel with
    | O => cdiverge
    | Datatypes.S fuel' =>
        tick ;;
        if k <? i - 1 then swapT k (k + 1) ;; bubbleUpT fuel' (k + 1) i else cret tt
    end.

  (** sort_any.go:381-388: binary search, lowest i with data[i] > data[m]. *)
  Fixpoint bsearchHighT (fuel : nat) (i j m : Z) : CM stT Z :=
    match fuel with
    | O => cdiverge
    | Datatypes.S fuel' =>
        tick ;;
        if i <? j then
          let h := half i j in
          g <- geAtT m h ;;
          if g then bsearchHighT fuel' (h + 1) j m else bsearchHighT fuel' i h m
        else cret i
    end.

  (** sort_any.go:390-392. *)
  Fixpoint bubbleDownT (fuel : nat) (k i : Z) : CM stT unit :=
    match fuel with
    | O => cdiverge
    | Datatypes.S fuel' =>
        tick ;;
        if k >? i then swapT k (k - 1) ;; bubbleDownT fuel' (k - 1) i else cret tt
    end.

  (** sort_any.go:406-413: symmetric binary search; returns start. *)
  Fixpoint bsearchSymT (fuel : nat) (start r p : Z) : CM stT Z :=
    match fuel with
    | O => cdiverge
    | Datatypes.S fuel' =>
        tick ;;
        if start <? r then
          let c := half start r in
          g <- geAtT (p - c) c ;;
          if g then bsearchSymT fuel' (c + 1) r p else bsearchSymT fuel' start c p
        else cret start
    end.

  (** sort_any.go:348-424 symMergeLessFunc with explicit stack budget. *)
  Fixpoint symMergeT (stack : nat) (a m b : Z) : CM stT unit :=
    match stack with
    | O => cdiverge
    | Datatypes.S stack' =>
        tick ;;
        if m - a =? 1 then
          i <- bsearchLowT (Z.to_nat (b - m) + 1) m b a ;;
          bubbleUpT (Z.to_nat (b - a) + 1) a i
        else if b - m =? 1 then
          i <- bsearchHighT (Z.to_nat (m - a) + 1) a m m ;;
          bubbleDownT (Z.to_nat (m - a) + 1) m i
        else
          let mid := half a b in
          let n := mid + m in
          let '(start, r) := if m >? mid then (n - b, mid) else (a, m) in
          let p := n - 1 in
          start <- bsearchSymT (Z.to_nat (r - start) + 1) start r p ;;
          let end_ := n - start in
          (if (start <? m) && (m <? end_) then rotateT start m end_ else cret tt) ;;
          (if (a <? start) && (start <? mid) then symMergeT stack' a start mid else cret tt) ;;
          (if (mid <? end_) && (end_ <? b) then symMergeT stack' mid end_ b else cret tt)
    end.

  (** sort_any.go:309-313. *)
  Fixpoint stableBlocksT (fuel : nat) (a b n blockSize : Z) : CM stT Z :=
    match fuel with
    | O => cdiverge
    | Datatypes.S fuel' =>
        tick ;;
        if b <=? n then
          insertionSortT a b ;; stableBlocksT fuel' b (b + blockSize) n blockSize
        else cret a
    end.

  (** sort_any.go:317-321. *)
  Fixpoint mergePassT (stack fuel : nat) (a b n blockSize : Z) : CM stT Z :=
    match fuel with
    | O => cdiverge
    | Datatypes.S fuel' =>
        tick ;;
        if b <=? n then
          symMergeT stack a (a + blockSize) b ;;
          mergePassT stack fuel' b (b + 2 * blockSize) n blockSize
        else cret a
    end.

  (** sort_any.go:315-326. *)
  Fixpoint mergeLoopT (stack fuel : nat) (n blockSize : Z) : CM stT unit :=
    match fuel with
    | O => cdiverge
    | Datatypes.S fuel' =>
        tick ;;
        if blockSize <? n then
          a <- mergePassT stack (Z.to_nat n + 1) 0 (2 * blockSize) n blockSize ;;
          let m := a + blockSize in
          (if m <? n then symMergeT stack a m n else cret tt) ;;
          mergeLoopT stack fuel' n (blockSize * 2)
        else cret tt
    end.

  (** sort_any.go:306-327 stableLessFunc (initial blockSize 20); [stack]
      bounds the nesting of symMerge calls. *)
  Definition stableT (stack : nat) (n : Z) : CM stT unit :=
    a <- stableBlocksT (Z.to_nat n + 1) 0 20 n 20 ;;
    insertionSortT a n ;;
    mergeLoopT stack (Z.to_nat n + 1) n 20.

End TimedSort.

(** sort.go:39-43 Sort and sort.go:49-51 Stable, the clock at 0 in the
    beginning. *)
Definition SortT {E S} (data : list E) (less : comparatorW E S) (s : S) : cres unit * (list E * (S * Z)) :=
  pdqsortT less (notLessW less) (Datatypes.S (List.length data)) 0 (zlen data) (bitsLen (zlen data)) (data, (s, 0)).
Definition StableT {E S} (data : list E) (less : comparatorW E S) (s : S) : cres unit * (list E * (S * Z)) :=
  stableT less (notLessW less) (Datatypes.S (List.length data)) (zlen data) (data, (s, 0)).

(** sort.go:33-37 SortOrdered and sort.go:45-47 StableOrdered. *)
Definition SortOrderedT {E} (ltb geb : E -> E -> bool) (data : list E) : cres unit * (list E * (unit * Z)) :=
  pdqsortT (reads (always (pureCmp ltb))) (reads (always (pureCmp geb)))
    (Datatypes.S (List.length data)) 0 (zlen data) (bitsLen (zlen data)) (data, (tt, 0)).
Definition StableOrderedT {E} (ltb geb : E -> E -> bool) (data : list E) : cres unit * (list E * (unit * Z)) :=
  stableT (reads (always (pureCmp ltb))) (reads (always (pureCmp geb)))
    (Datatypes.S (List.length data)) (zlen data) (data, (tt, 0)).
