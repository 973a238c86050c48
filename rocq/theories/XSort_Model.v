(** Model of package xsort: xsort/sort.go, xsort/sort_any.go and
    xsort/sort_ordered.go.

    The two generated files are the same code up to the comparison used:
    sort_any.go writes [less(x,y)] / [!less(x,y)] where sort_ordered.go writes
    [x < y] / [x >= y].  The model is therefore parametric in two questions
    [lt x y] ("less(x,y)", "x < y") and [ge x y] ("!less(x,y)", "x >= y").
    Line numbers cite sort_any.go; the sort_ordered.go line is the same + 4.

    A comparator may have side effects: it is a state transformer over an
    arbitrary state [S].  It may look at the slice being sorted and write to it
    (a closure over it), and it may panic. *)
From Verif Require Import Base.
From Verif Require Export Callback.
Local Open Scope cb_scope.

(** A comparator called on two elements while the slice being sorted holds the
    given list: its answer or its panic, and what it leaves in the slice. *)
Definition comparatorW (E S : Type) := list E -> E -> E -> S -> (bool + string) * (list E * S).

(** One that may panic and may look at the slice, but does not write to it. *)
Definition comparatorP (E S : Type) := list E -> E -> E -> S -> (bool + string) * S.

Definition reads {E S} (less : comparatorP E S) : comparatorW E S :=
  fun d x y s => (fst (less d x y s), (d, snd (less d x y s))).
Coercion reads : comparatorP >-> comparatorW.

Section XSort.
  Context {E S : Type}.
  Variable lt ge : comparatorW E S.

  (** Machine state: the contents of the slice [data], the comparator state. *)
  Definition st : Type := (list E * S)%type.

  (** [data[i]] as an rvalue. *)
  Definition rd (i : Z) : CM st E := fun '(d, s) =>
    (match zget d i with Some x => CRet x | None => CPanic idx_msg end, (d, s)).

  (** [data[i] = x]. *)
  Definition wr (i : Z) (x : E) : CM st unit := fun '(d, s) =>
    match zset d i x with
    | Some d' => (CRet tt, (d', s))
    | None => (CPanic idx_msg, (d, s))
    end.

  (** [data[i], data[j] = data[j], data[i]]: both reads, then both writes. *)
  Definition swap (i j : Z) : CM st unit :=
    x <- rd j ;; y <- rd i ;; wr i x ;; wr j y.

  (** [less(x, y)] / [x < y]. *)
  Definition askLt (x y : E) : CM st bool := fun '(d, s) =>
    match lt d x y s with
    | (inl b, s') => (CRet b, s')
    | (inr e, s') => (CUser e, s')
    end.

  (** [!less(x, y)] / [x >= y]. *)
  Definition askGe (x y : E) : CM st bool := fun '(d, s) =>
    match ge d x y s with
    | (inl b, s') => (CRet b, s')
    | (inr e, s') => (CUser e, s')
    end.

  (** Short-circuit conjunction [c && m]. *)
  Definition andM (c : bool) (m : CM st bool) : CM st bool :=
    if c then m else cret false.

  (** [less(data[i], data[j])]. *)
  Definition ltAt (i j : Z) : CM st bool := x <- rd i ;; y <- rd j ;; askLt x y.
  (** [!less(data[i], data[j])]. *)
  Definition geAt (i j : Z) : CM st bool := x <- rd i ;; y <- rd j ;; askGe x y.

  (** sort_any.go:11-13, inner loop of insertionSort. *)
  Fixpoint insertionInner (fuel : nat) (a j : Z) : CM st unit :=
    match fuel with
    | O => cdiverge
    | Datatypes.S fuel' =>
        c <- andM (j >? a) (ltAt j (j - 1)) ;;
        if c then swap j (j - 1) ;; insertionInner fuel' a (j - 1)
        else cret tt
    end.

  (** sort_any.go:10-14, outer loop of insertionSort. *)
  Fixpoint insertionOuter (fuel : nat) (a b i : Z) : CM st unit :=
    match fuel with
    | O => cdiverge
    | Datatypes.S fuel' =>
        if i <? b then
          insertionInner (Z.to_nat (i - a) + 1) a i ;;
          insertionOuter fuel' a b (i + 1)
        else cret tt
    end.

  (** sort_any.go:9-15 insertionSortLessFunc. *)
  Definition insertionSort (a b : Z) : CM st unit :=
    insertionOuter (Z.to_nat (b - a) + 1) a b (a + 1).

  (** sort_any.go:21-34, loop of siftDown. *)
  Fixpoint siftDownLoop (fuel : nat) (root hi first : Z) : CM st unit :=
    match fuel with
    | O => cdiverge
    | Datatypes.S fuel' =>
        let child := 2 * root + 1 in
        if child >=? hi then cret tt
        else
          c <- andM (child + 1 <? hi) (ltAt (first + child) (first + child + 1)) ;;
          let child := if c then child + 1 else child in
          g <- geAt (first + root) (first + child) ;;
          if g then cret tt
          else
            swap (first + root) (first + child) ;;
            siftDownLoop fuel' child hi first
    end.

  (** sort_any.go:19-35 siftDownLessFunc. *)
  Definition siftDown (lo hi first : Z) : CM st unit :=
    siftDownLoop (Z.to_nat (hi - lo) + 1) lo hi first.

  (** sort_any.go:41-43, heap construction loop. *)
  Fixpoint heapBuild (fuel : nat) (i hi first : Z) : CM st unit :=
    match fuel with
    | O => cdiverge
    | Datatypes.S fuel' =>
        if i >=? 0 then siftDown i hi first ;; heapBuild fuel' (i - 1) hi first
        else cret tt
    end.

  (** sort_any.go:45-48, pop loop. *)
  Fixpoint heapPop (fuel : nat) (i lo first : Z) : CM st unit :=
    match fuel with
    | O => cdiverge
    | Datatypes.S fuel' =>
        if i >=? 0 then
          swap first (first + i) ;; siftDown lo i first ;;
          heapPop fuel' (i - 1) lo first
        else cret tt
    end.

  (** sort_any.go:36-49 heapSortLessFunc. *)
  Definition heapSort (a b : Z) : CM st unit :=
    let first := a in
    let lo := 0 in
    let hi := b - a in
    heapBuild (Z.to_nat hi + 2) (Z.quot (hi - 1) 2) hi first ;;
    heapPop (Z.to_nat hi + 2) (hi - 1) lo first.

  (** sort_any.go:124-126 / 138-140: advance i. *)
  Fixpoint advI (fuel : nat) (i j a : Z) : CM st Z :=
    match fuel with
    | O => cdiverge
    | Datatypes.S fuel' =>
        c <- andM (i <=? j) (ltAt i a) ;;
        if c then advI fuel' (i + 1) j a else cret i
    end.

  (** sort_any.go:127-129 / 141-143: retreat j. *)
  Fixpoint advJ (fuel : nat) (i j a : Z) : CM st Z :=
    match fuel with
    | O => cdiverge
    | Datatypes.S fuel' =>
        c <- andM (i <=? j) (geAt j a) ;;
        if c then advJ fuel' i (j - 1) a else cret j
    end.

  (** Fuel for the index scans: they stop when i > j. *)
  Definition scanFuel (i j : Z) : nat := (Z.to_nat (j - i + 1) + 1)%nat.

  (** sort_any.go:137-150: main partition loop; returns the final j. *)
  Fixpoint partitionLoop (fuel : nat) (i j a : Z) : CM st Z :=
    match fuel with
    | O => cdiverge
    | Datatypes.S fuel' =>
        i <- advI (scanFuel i j) i j a ;;
        j <- advJ (scanFuel i j) i j a ;;
        if i >? j then cret j
        else swap i j ;; partitionLoop fuel' (i + 1) (j - 1) a
    end.

  (** sort_any.go:121-153 partitionLessFunc. *)
  Definition partition (a b pivot : Z) : CM st (Z * bool) :=
    swap a pivot ;;
    let i := a + 1 in
    let j := b - 1 in
    i <- advI (scanFuel i j) i j a ;;
    j <- advJ (scanFuel i j) i j a ;;
    if i >? j then
      swap j a ;; cret (j, true)
    else
      swap i j ;;
      j <- partitionLoop (scanFuel i j) (i + 1) (j - 1) a ;;
      swap j a ;; cret (j, false).

  (** sort_any.go:161-163. *)
  Fixpoint eqAdvI (fuel : nat) (i j a : Z) : CM st Z :=
    match fuel with
    | O => cdiverge
    | Datatypes.S fuel' =>
        c <- andM (i <=? j) (geAt a i) ;;
        if c then eqAdvI fuel' (i + 1) j a else cret i
    end.

  (** sort_any.go:164-166. *)
  Fixpoint eqAdvJ (fuel : nat) (i j a : Z) : CM st Z :=
    match fuel with
    | O => cdiverge
    | Datatypes.S fuel' =>
        c <- andM (i <=? j) (ltAt a j) ;;
        if c then eqAdvJ fuel' i (j - 1) a else cret j
    end.

  (** sort_any.go:160-173. *)
  Fixpoint partitionEqualLoop (fuel : nat) (i j a : Z) : CM st Z :=
    match fuel with
    | O => cdiverge
    | Datatypes.S fuel' =>
        i <- eqAdvI (scanFuel i j) i j a ;;
        j <- eqAdvJ (scanFuel i j) i j a ;;
        if i >? j then cret i
        else swap i j ;; partitionEqualLoop fuel' (i + 1) (j - 1) a
    end.

  (** sort_any.go:157-175 partitionEqualLessFunc. *)
  Definition partitionEqual (a b pivot : Z) : CM st Z :=
    swap a pivot ;;
    partitionEqualLoop (scanFuel (a + 1) (b - 1)) (a + 1) (b - 1) a.

  (** sort_any.go:185-187. *)
  Fixpoint pisAdvance (fuel : nat) (i b : Z) : CM st Z :=
    match fuel with
    | O => cdiverge
    | Datatypes.S fuel' =>
        c <- andM (i <? b) (geAt i (i - 1)) ;;
        if c then pisAdvance fuel' (i + 1) b else cret i
    end.

  (** sort_any.go:197-202: shift the smaller one to the left (note: the
      loop runs down to index 1, not to a+1). *)
  Fixpoint pisShiftLeft (fuel : nat) (j : Z) : CM st unit :=
    match fuel with
    | O => cdiverge
    | Datatypes.S fuel' =>
        if j >=? 1 then
          g <- geAt j (j - 1) ;;
          if g then cret tt
          else swap j (j - 1) ;; pisShiftLeft fuel' (j - 1)
        else cret tt
    end.

  (** sort_any.go:206-211: shift the greater one to the right. *)
  Fixpoint pisShiftRight (fuel : nat) (j b : Z) : CM st unit :=
    match fuel with
    | O => cdiverge
    | Datatypes.S fuel' =>
        if j <? b then
          g <- geAt j (j - 1) ;;
          if g then cret tt
          else swap j (j - 1) ;; pisShiftRight fuel' (j + 1) b
        else cret tt
    end.

  (** sort_any.go:184-214: [steps] is maxSteps - j. *)
  Fixpoint pisLoop (steps : nat) (i a b : Z) : CM st bool :=
    match steps with
    | O => cret false
    | Datatypes.S steps' =>
        i <- pisAdvance (Z.to_nat (b - i) + 1) i b ;;
        if i =? b then cret true
        else if b - a <? 50 then cret false
        else
          swap i (i - 1) ;;
          (if i - a >=? 2 then pisShiftLeft (Z.to_nat i + 1) (i - 1) else cret tt) ;;
          (if b - i >=? 2 then pisShiftRight (Z.to_nat (b - i) + 1) (i + 1) b else cret tt) ;;
          pisLoop steps' i a b
    end.

  (** sort_any.go:178-215 partialInsertionSortLessFunc (maxSteps = 5,
      shortestShifting = 50). *)
  Definition partialInsertionSort (a b : Z) : CM st bool :=
    pisLoop 5 (a + 1) a b.

  (** sort.go:21-26 xorshift.Next on uint64. *)
  Definition xorshiftNext (r : Z) : Z :=
    let r := Z.lxor r (Z.shiftl r 13 mod 2 ^ 64) in
    let r := Z.lxor r (Z.shiftr r 17) in
    Z.lxor r (Z.shiftl r 5 mod 2 ^ 64).

  (** math/bits.Len of a non-negative int. *)
  Definition bitsLen (n : Z) : Z := if n <=? 0 then 0 else Z.log2 n + 1.

  (** sort.go:28-31 nextPowerOfTwo. *)
  Definition nextPowerOfTwo (length : Z) : Z := Z.shiftl 1 (bitsLen length).

  (** sort_any.go:224-230: three iterations, idx = from .. to. *)
  Fixpoint breakLoop (fuel : nat) (idx last random modulus length a : Z) : CM st unit :=
    match fuel with
    | O => cdiverge
    | Datatypes.S fuel' =>
        if idx <=? last then
          let random := xorshiftNext random in
          let other := Z.land random (modulus - 1) in
          let other := if other >=? length then other - length else other in
          swap idx (a + other) ;;
          breakLoop fuel' (idx + 1) last random modulus length a
        else cret tt
    end.

  (** sort_any.go:219-232 breakPatternsLessFunc. *)
  Definition breakPatterns (a b : Z) : CM st unit :=
    let length := b - a in
    if length >=? 8 then
      breakLoop 4 (a + Z.quot length 4 * 2 - 1) (a + Z.quot length 4 * 2 + 1)
        length (nextPowerOfTwo length) length a
    else cret tt.

  (** sort_any.go:272-278 order2LessFunc; the *swaps pointer is threaded. *)
  Definition order2 (a b swaps : Z) : CM st (Z * Z * Z) :=
    c <- ltAt b a ;;
    cret (if c then (b, a, swaps + 1) else (a, b, swaps)).

  (** sort_any.go:281-286 medianLessFunc. *)
  Definition median (a b c swaps : Z) : CM st (Z * Z) :=
    '(a, b, swaps) <- order2 a b swaps ;;
    '(b, c, swaps) <- order2 b c swaps ;;
    '(a, b, swaps) <- order2 a b swaps ;;
    cret (b, swaps).

  (** sort_any.go:289-291 medianAdjacentLessFunc. *)
  Definition medianAdjacent (a swaps : Z) : CM st (Z * Z) :=
    median (a - 1) a (a + 1) swaps.

  (** sort.go:10-16. *)
  Inductive sortedHint := unknownHint | increasingHint | decreasingHint.

  (** sort_any.go:239-269 choosePivotLessFunc (shortestNinther = 50, maxSwaps = 12). *)
  Definition choosePivot (a b : Z) : CM st (Z * sortedHint) :=
    let l := b - a in
    let i := a + Z.quot l 4 * 1 in
    let j := a + Z.quot l 4 * 2 in
    let k := a + Z.quot l 4 * 3 in
    '(j, swaps) <-
      (if l >=? 8 then
         '(i, j, k, swaps) <-
           (if l >=? 50 then
              '(i, swaps) <- medianAdjacent i 0 ;;
              '(j, swaps) <- medianAdjacent j swaps ;;
              '(k, swaps) <- medianAdjacent k swaps ;;
              cret (i, j, k, swaps)
            else cret (i, j, k, 0)) ;;
         median i j k swaps
       else cret (j, 0)) ;;
    cret (j, if swaps =? 0 then increasingHint
            else if swaps =? 12 then decreasingHint
            else unknownHint).

  (** sort_any.go:295-299. *)
  Fixpoint reverseLoop (fuel : nat) (i j : Z) : CM st unit :=
    match fuel with
    | O => cdiverge
    | Datatypes.S fuel' =>
        if i <? j then swap i j ;; reverseLoop fuel' (i + 1) (j - 1) else cret tt
    end.

  (** sort_any.go:292-300 reverseRangeLessFunc. *)
  Definition reverseRange (a b : Z) : CM st unit :=
    reverseLoop (Z.to_nat (b - a) + 1) a (b - 1).

  Definition isIncreasing (h : sortedHint) : bool :=
    match h with increasingHint => true | _ => false end.

  (** sort_any.go:63-114: the for-loop of pdqsort.  [self] is the recursive
      call (one stack frame deeper). *)
  Fixpoint pdqLoop (self : Z -> Z -> Z -> CM st unit) (fuel : nat)
      (a b limit : Z) (wasBalanced wasPartitioned : bool) : CM st unit :=
    match fuel with
    | O => cdiverge
    | Datatypes.S fuel' =>
        let length := b - a in
        if length <=? 12 then insertionSort a b
        else if limit =? 0 then heapSort a b
        else
          (if negb wasBalanced then breakPatterns a b else cret tt) ;;
          let limit := if negb wasBalanced then limit - 1 else limit in
          '(pivot, hint) <- choosePivot a b ;;
          '(pivot, hint) <-
            (match hint with
             | decreasingHint =>
                 reverseRange a b ;; cret (b - 1 - (pivot - a), increasingHint)
             | _ => cret (pivot, hint)
             end) ;;
          done <- (if wasBalanced && wasPartitioned && isIncreasing hint
                   then partialInsertionSort a b else cret false) ;;
          if done then cret tt
          else
            e <- andM (a >? 0) (geAt (a - 1) pivot) ;;
            if e then
              mid <- partitionEqual a b pivot ;;
              pdqLoop self fuel' mid b limit wasBalanced wasPartitioned
            else
              '(mid, alreadyPartitioned) <- partition a b pivot ;;
              let leftLen := mid - a in
              let rightLen := b - mid in
              let balanceThreshold := Z.quot length 8 in
              if leftLen <? rightLen then
                self a mid limit ;;
                pdqLoop self fuel' (mid + 1) b limit
                  (leftLen >=? balanceThreshold) alreadyPartitioned
              else
                self (mid + 1) b limit ;;
                pdqLoop self fuel' a mid limit
                  (rightLen >=? balanceThreshold) alreadyPartitioned
    end.

  (** sort_any.go:57-115 pdqsortLessFunc, with an explicit stack budget:
      [stack] bounds the number of nested calls. *)
  Fixpoint pdqsort (stack : nat) (a b limit : Z) : CM st unit :=
    match stack with
    | O => cdiverge
    | Datatypes.S stack' =>
        pdqLoop (pdqsort stack') (Z.to_nat (b - a) + 1) a b limit true true
    end.

  (** sort_any.go:301-305 swapRangeLessFunc. *)
  Fixpoint swapRangeLoop (fuel : nat) (i n a b : Z) : CM st unit :=
    match fuel with
    | O => cdiverge
    | Datatypes.S fuel' =>
        if i <? n then swap (a + i) (b + i) ;; swapRangeLoop fuel' (i + 1) n a b
        else cret tt
    end.
  Definition swapRange (a b n : Z) : CM st unit :=
    swapRangeLoop (Z.to_nat n + 1) 0 n a b.

  (** sort_any.go:433-443, loop of rotate. *)
  Fixpoint rotateLoop (fuel : nat) (i j m : Z) : CM st unit :=
    match fuel with
    | O => cdiverge
    | Datatypes.S fuel' =>
        if i =? j then swapRange (m - i) m i
        else if i >? j then
          swapRange (m - i) m j ;; rotateLoop fuel' (i - j) j m
        else
          swapRange (m - i) (m + j - i) i ;; rotateLoop fuel' i (j - i) m
    end.

  (** sort_any.go:430-444 rotateLessFunc. *)
  Definition rotate (a m b : Z) : CM st unit :=
    rotateLoop (Z.to_nat (b - a) + 1) (m - a) (b - m) m.

  (** [int(uint(i+j) >> 1)]. *)
  Definition half (i j : Z) : Z := Z.shiftr (i + j) 1.

  (** sort_any.go:358-365: binary search, lowest i with data[i] >= data[a]. *)
  Fixpoint bsearchLow (fuel : nat) (i j a : Z) : CM st Z :=
    match fuel with
    | O => cdiverge
    | Datatypes.S fuel' =>
        if i <? j then
          let h := half i j in
          c <- ltAt h a ;;
          if c then bsearchLow fuel' (h + 1) j a else bsearchLow fuel' i h a
        else cret i
    end.

  (** sort_any.go:367-369. *)
  Fixpoint bubbleUp (fuel : nat) (k i : Z) : CM st unit :=
    match fuel with
    | O => cdiverge
    | Datatypes.S fuel' =>
        if k <? i - 1 then swap k (k + 1) ;; bubbleUp fuel' (k + 1) i else cret tt
    end.

  (** sort_any.go:381-388: binary search, lowest i with data[i] > data[m]. *)
  Fixpoint bsearchHigh (fuel : nat) (i j m : Z) : CM st Z :=
    match fuel with
    | O => cdiverge
    | Datatypes.S fuel' =>
        if i <? j then
          let h := half i j in
          g <- geAt m h ;;
          if g then bsearchHigh fuel' (h + 1) j m else bsearchHigh fuel' i h m
        else cret i
    end.

  (** sort_any.go:390-392. *)
  Fixpoint bubbleDown (fuel : nat) (k i : Z) : CM st unit :=
    match fuel with
    | O => cdiverge
    | Datatypes.S fuel' =>
        if k >? i then swap k (k - 1) ;; bubbleDown fuel' (k - 1) i else cret tt
    end.

  (** sort_any.go:406-413: symmetric binary search; returns start. *)
  Fixpoint bsearchSym (fuel : nat) (start r p : Z) : CM st Z :=
    match fuel with
    | O => cdiverge
    | Datatypes.S fuel' =>
        if start <? r then
          let c := half start r in
          g <- geAt (p - c) c ;;
          if g then bsearchSym fuel' (c + 1) r p else bsearchSym fuel' start c p
        else cret start
    end.

  (** sort_any.go:348-424 symMergeLessFunc with explicit stack budget. *)
  Fixpoint symMerge (stack : nat) (a m b : Z) : CM st unit :=
    match stack with
    | O => cdiverge
    | Datatypes.S stack' =>
        if m - a =? 1 then
          i <- bsearchLow (Z.to_nat (b - m) + 1) m b a ;;
          bubbleUp (Z.to_nat (b - a) + 1) a i
        else if b - m =? 1 then
          i <- bsearchHigh (Z.to_nat (m - a) + 1) a m m ;;
          bubbleDown (Z.to_nat (m - a) + 1) m i
        else
          let mid := half a b in
          let n := mid + m in
          let '(start, r) := if m >? mid then (n - b, mid) else (a, m) in
          let p := n - 1 in
          start <- bsearchSym (Z.to_nat (r - start) + 1) start r p ;;
          let end_ := n - start in
          (if (start <? m) && (m <? end_) then rotate start m end_ else cret tt) ;;
          (if (a <? start) && (start <? mid) then symMerge stack' a start mid else cret tt) ;;
          (if (mid <? end_) && (end_ <? b) then symMerge stack' mid end_ b else cret tt)
    end.

  (** sort_any.go:309-313. *)
  Fixpoint stableBlocks (fuel : nat) (a b n blockSize : Z) : CM st Z :=
    match fuel with
    | O => cdiverge
    | Datatypes.S fuel' =>
        if b <=? n then
          insertionSort a b ;; stableBlocks fuel' b (b + blockSize) n blockSize
        else cret a
    end.

  (** sort_any.go:317-321. *)
  Fixpoint mergePass (stack fuel : nat) (a b n blockSize : Z) : CM st Z :=
    match fuel with
    | O => cdiverge
    | Datatypes.S fuel' =>
        if b <=? n then
          symMerge stack a (a + blockSize) b ;;
          mergePass stack fuel' b (b + 2 * blockSize) n blockSize
        else cret a
    end.

  (** sort_any.go:315-326. *)
  Fixpoint mergeLoop (stack fuel : nat) (n blockSize : Z) : CM st unit :=
    match fuel with
    | O => cdiverge
    | Datatypes.S fuel' =>
        if blockSize <? n then
          a <- mergePass stack (Z.to_nat n + 1) 0 (2 * blockSize) n blockSize ;;
          let m := a + blockSize in
          (if m <? n then symMerge stack a m n else cret tt) ;;
          mergeLoop stack fuel' n (blockSize * 2)
        else cret tt
    end.

  (** sort_any.go:306-327 stableLessFunc (initial blockSize 20); [stack]
      bounds the nesting of symMerge calls. *)
  Definition stable (stack : nat) (n : Z) : CM st unit :=
    a <- stableBlocks (Z.to_nat n + 1) 0 20 n 20 ;;
    insertionSort a n ;;
    mergeLoop stack (Z.to_nat n + 1) n 20.

End XSort.

(** [!less(x,y)]. *)
Definition negate (r : bool + string) : bool + string :=
  match r with inl b => inl (negb b) | inr e => inr e end.
Definition notLessW {E S} (less : comparatorW E S) : comparatorW E S :=
  fun d x y s => (negate (fst (less d x y s)), snd (less d x y s)).
Definition notLessP {E S} (less : comparatorP E S) : comparatorP E S :=
  fun d x y s => (negate (fst (less d x y s)), snd (less d x y s)).

(** sort.go:39-43 Sort, run on a stack with room for [stack] nested calls of
    pdqsortLessFunc; the result is [CDiverge] if that is not enough.  Beside
    the result: what the slice holds in the end, and the comparator's state. *)
Definition SortWWithin {E S} (stack : nat) (data : list E) (less : comparatorW E S) (s : S)
  : cres unit * (list E * S) :=
  let length := zlen data in
  let limit := bitsLen length in
  pdqsort less (notLessW less) stack 0 length limit (data, s).

(** sort.go:49-51 Stable, with room for [stack] nested calls of
    symMergeLessFunc. *)
Definition StableWWithin {E S} (stack : nat) (data : list E) (less : comparatorW E S) (s : S)
  : cres unit * (list E * S) :=
  stable less (notLessW less) stack (zlen data) (data, s).

(** sort.go:39-43 Sort and sort.go:49-51 Stable.  Simplification: Go's
    (growable) stack is a budget of len(data)+1 nested calls, far more than is
    ever used. *)
Definition SortW {E S} (data : list E) (less : comparatorW E S) (s : S)
  : cres unit * (list E * S) := SortWWithin (Datatypes.S (List.length data)) data less s.
Definition StableW {E S} (data : list E) (less : comparatorW E S) (s : S)
  : cres unit * (list E * S) := StableWWithin (Datatypes.S (List.length data)) data less s.

(** sort.go:39-43 Sort and sort.go:49-51 Stable with a comparator that does not
    write to the slice. *)
Definition SortPWithin {E S} (stack : nat) (data : list E) (less : comparatorP E S) (s : S)
  : cres unit * (list E * S) := SortWWithin stack data (reads less) s.
Definition StablePWithin {E S} (stack : nat) (data : list E) (less : comparatorP E S) (s : S)
  : cres unit * (list E * S) := StableWWithin stack data (reads less) s.
Definition SortP {E S} (data : list E) (less : comparatorP E S) (s : S)
  : cres unit * (list E * S) := SortW data (reads less) s.
Definition StableP {E S} (data : list E) (less : comparatorP E S) (s : S)
  : cres unit * (list E * S) := StableW data (reads less) s.

(** A comparator callback that neither panics nor looks at the slice. *)
Definition comparator (E S : Type) := E -> E -> S -> bool * S.

Definition always {E S} (less : comparator E S) : comparatorP E S :=
  fun _ x y s => let '(b, s') := less x y s in (inl b, s').

(** sort.go:39-43 Sort and sort.go:49-51 Stable with such a comparator. *)
Definition SortWithin {E S} (stack : nat) (data : list E) (less : comparator E S) (s : S)
  : outcome (list E * S) := plain (SortPWithin stack data (always less) s).
Definition StableWithin {E S} (stack : nat) (data : list E) (less : comparator E S) (s : S)
  : outcome (list E * S) := plain (StablePWithin stack data (always less) s).
Definition Sort {E S} (data : list E) (less : comparator E S) (s : S)
  : outcome (list E * S) := plain (SortP data (always less) s).
Definition Stable {E S} (data : list E) (less : comparator E S) (s : S)
  : outcome (list E * S) := plain (StableP data (always less) s).

(** Primitive comparison operators of an ordered element type: [<] and [>=]. *)
Definition pureCmp {E} (c : E -> E -> bool) : comparator E unit :=
  fun x y s => (c x y, s).

(** sort.go:33-37 SortOrdered; [ltb], [geb] are the operators [<] and [>=] of
    the element type (for floats with NaN they are not complements).  Same
    stack budget as [Sort]. *)
Definition SortOrdered {E} (ltb geb : E -> E -> bool) (data : list E)
  : outcome (list E) :=
  let length := zlen data in
  let limit := bitsLen length in
  omap fst (plain (pdqsort (always (pureCmp ltb)) (always (pureCmp geb))
                     (Datatypes.S (List.length data)) 0 length limit (data, tt))).

(** sort.go:45-47 StableOrdered; same stack budget as [Sort]. *)
Definition StableOrdered {E} (ltb geb : E -> E -> bool) (data : list E)
  : outcome (list E) :=
  omap fst (plain (stable (always (pureCmp ltb)) (always (pureCmp geb))
                     (Datatypes.S (List.length data)) (zlen data) (data, tt))).
