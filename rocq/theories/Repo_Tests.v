(** The project's own unit tests, run on the model.  These are tests of the
    model, evidence that it computes what the Go code computes; they prove no
    property.  Left out are tests that need random numbers of math/rand, wall
    clocks or goroutines (see DESIGN.md), and benchmarks. *)
From Verif Require Import Base Arr Exn.
From Verif Require GoSlice Iter_Model XSlice_Model Algo_Model XRing_Model XSort_Model Stream_Model XFn_Model
  XFn_Bind_Model XMap_Model XHash_Model XHash_Spec XRing_Spec XFn_Arith_Model.
Local Open Scope string_scope.
Local Open Scope list_scope.
Local Open Scope Z_scope.

(** ** Slices and algorithms *)
Section Slices.
  Import GoSlice Iter_Model XSlice_Model Algo_Model.
  Local Open Scope exn_scope.

  (** A heap with one slice of these elements; append doubles the capacity. *)
  Definition H (l : list Z) : heap Z := [[]; []; l].
  Definition S (l : list Z) : slice := if zlen l =? 0 then nilSlice else mkSlice 2 0 (zlen l) (zlen l).
  Definition g (c n : Z) : Z := 2 * c.
  Definition less (x y : Z) : X (heap Z) bool := xret (x <? y).
  Definition rops := ReverseRandom (sliceOps (T := Z)).
  (** What is left in the array of the slice. *)
  Definition left_ {A} (r : outcome A * heap Z) : outcome A * list Z := (fst r, nth 2 (snd r) []).
  Definition panics {A} (r : outcome A * heap Z) : bool := match fst r with Panic _ => true | _ => false end.

  (** algo/binary_search_test.go TestUpperBound, TestLowerBound. *)
  Definition up (l : list Z) (v : Z) : outcome Z := fst ((r <- Range (S l) ;; i <- UpperBoundAny sliceOps less r v ;; xret (pos i)) (H l)).
  Definition lo (l : list Z) (v : Z) : outcome Z := fst ((r <- Range (S l) ;; i <- LowerBoundAny sliceOps less r v ;; xret (pos i)) (H l)).
  Definition upR (l : list Z) (v : Z) : outcome Z := fst ((r <- ReverseRange (S l) ;; i <- UpperBoundAny rops less r v ;; xret (pos (Base i) - 1)) (H l)).
  Definition loR (l : list Z) (v : Z) : outcome Z := fst ((r <- ReverseRange (S l) ;; i <- LowerBoundAny rops less r v ;; xret (pos (Base i) - 1)) (H l)).
  Example TestUpperBound :
    map (up [1; 1; 2; 2; 3; 5; 7]) [0; 1; 2; 3; 4; 5; 6; 7; 8] = map Ok [0; 2; 4; 5; 5; 6; 6; 7; 7] /\
    map (upR [7; 5; 3; 2; 2; 1; 1]) [0; 1; 2; 3; 4; 5; 6; 7; 8] = map Ok [6; 4; 2; 1; 1; 0; 0; -1; -1] /\
    up [] 1 = Ok 0 /\ upR [] 1 = Ok (-1).
  Proof. repeat split. Qed.
  Example TestLowerBound :
    map (lo [1; 1; 2; 2; 3; 5; 7]) [0; 1; 2; 3; 4; 5; 6; 7; 8] = map Ok [0; 0; 2; 4; 5; 5; 6; 6; 7] /\
    map (loR [7; 5; 3; 2; 2; 1; 1]) [0; 1; 2; 3; 4; 5; 6; 7; 8] = map Ok [6; 6; 4; 2; 1; 1; 0; 0; -1] /\
    lo [] 1 = Ok 0 /\ loR [] 1 = Ok (-1).
  Proof. repeat split. Qed.

  (** algo/fill_test.go TestFillN. *)
  Example TestFillN_Normal : let l := [0; 1; 2; 3; 4; 5; 6; 7; 8; 9] in
    left_ ((b <- Begin (S l) ;; b <- Add sliceOps b 1 ;; i <- FillN sliceOps b 4 (-1) ;; xret (pos i)) (H l)) =
      (Ok 5, [0; -1; -1; -1; -1; 5; 6; 7; 8; 9]).
  Proof. reflexivity. Qed.
  (** The elements of the slice variable. *)
  Definition slVar {A} (r : outcome A * (heap Z * slice)) : list Z :=
    let '(_, (h, s)) := r in firstn (Z.to_nat (len s)) (skipn (Z.to_nat (off s)) (nth (arr s) h [])).
  Example TestFillN_Append :
    slVar (FillN (AppendIterator 0 (fun _ : unit => Append_ 0 g) (fun _ _ => true)) tt 3 (-1) (H [0; 2], S [0; 2])) = [0; 2; -1; -1; -1].
  Proof. reflexivity. Qed.
  Example TestFillN_Prepend : let s := XRing_Model.Of [0; 2] in
    XRing_Model.ToSlice 0 (snd (FillN (PrependIterator 0 (fun _ : unit => XRing_Model.Prepend 0) (fun _ _ => true)) tt 3 (-1) s)) None =
      Some [-1; -1; -1; 0; 2].
  Proof. reflexivity. Qed.
  Example TestFillN_Insert : let l := [0; 1; 2; 3; 4] in
    slVar (let '(r, (hs, _)) := FillN (InsertIterator 0 {|
          Next := fun i => onVar (Next sliceOps i); Get := fun i => onVar (Get sliceOps i); Equal := fun i j => onVar (Equal sliceOps i j);
          Prev := fun i => onVar (Prev sliceOps i); Add := fun i n => onVar (Add sliceOps i n); Pos := fun i => onVar (Pos sliceOps i);
          Set_ := fun i v => onVar (Set_ sliceOps i v) |} (Insert_ 0 g)) tt 3 (-1) ((H l, S l), mkIt 2 (S l)) in (r, hs)) =
      [0; 1; -1; -1; -1; 2; 3; 4].
  Proof. reflexivity. Qed.

  (** algo/generic_test.go TestReverse, TestSwap. *)
  Example TestReverse :
    left_ ((b <- Begin (S [3; 2; 1]) ;; e <- End (S [3; 2; 1]) ;; ReverseElems sliceOps 9 b e) (H [3; 2; 1])) = (Ok tt, [1; 2; 3]) /\
    left_ ((b <- RBegin (S [3; 2; 1]) ;; e <- REnd (S [3; 2; 1]) ;; ReverseElems rops 9 b e) (H [3; 2; 1])) = (Ok tt, [1; 2; 3]) /\
    left_ ((b <- Begin (S []) ;; e <- End (S []) ;; ReverseElems sliceOps 9 b e) (H [])) = (Ok tt, []) /\
    left_ ((b <- RBegin (S []) ;; e <- REnd (S []) ;; ReverseElems rops 9 b e) (H [])) = (Ok tt, []).
  Proof. repeat split. Qed.
  Example TestSwap : let l := [1; 2; 3; 4; 5; 6] in
    left_ ((b <- Begin (S l) ;; i <- Add sliceOps b 1 ;; j <- Add sliceOps b 3 ;; Swap sliceOps i j) (H l)) = (Ok tt, [1; 4; 3; 2; 5; 6]) /\
    left_ ((b <- RBegin (S l) ;; i <- Add rops b 1 ;; j <- Add rops b 3 ;; Swap rops i j) (H l)) = (Ok tt, [1; 2; 5; 4; 3; 6]) /\
    left_ ((b <- Begin (S [1; 2]) ;; Swap sliceOps b b) (H [1; 2])) = (Ok tt, [1; 2]).
  Proof. repeat split. Qed.

  (** algo/is_sorted_test.go TestIsSortedUntil, TestIsSorted. *)
  Definition until (l : list Z) : outcome Z :=
    fst ((b <- Begin (S l) ;; e <- End (S l) ;; i <- IsSortedUntilIterators sliceOps less 9 b e ;; xret (pos i)) (H l)).
  Definition isSorted (l : list Z) : outcome bool :=
    fst ((b <- Begin (S l) ;; e <- End (S l) ;; IsSortedIterators sliceOps less 99 b e) (H l)).
  Example TestIsSortedUntil : map until [[1; 2; 3; 3; 2; 3; 4]; [1; 0; 1]; []] = map Ok [4; 1; 0].
  Proof. reflexivity. Qed.
  Example TestIsSorted : map isSorted [[]; [1]; [1; 2]; [1; 2; 3; 3; 3; 5]; [1; 2; 3; 2; 3]; [2; 2; 2; 1]] =
    map Ok [true; true; true; true; false; false].
  Proof. reflexivity. Qed.

  (** algo/next_permutation_test.go TestNextPermutation. *)
  Definition np (l : list Z) := left_ ((r <- Range (S l) ;; NextPermutationAny sliceOps less 9 r) (H l)).
  Definition npSub (i j : Z) (l : list Z) := left_ ((r <- SubRange_ (S l) i j ;; NextPermutationAny sliceOps less 9 r) (H l)).
  Definition npR (l : list Z) := left_ ((r <- ReverseRange (S l) ;; NextPermutationAny rops less 9 r) (H l)).
  Definition npRSub (i j : Z) (l : list Z) := left_ ((r <- ReverseSubRange (S l) i j ;; NextPermutationAny rops less 9 r) (H l)).
  Example TestNextPermutation :
    map np [[1; 2; 3]; [1; 3; 2]; [2; 1; 3]; [2; 3; 1]; [3; 1; 2]; [3; 2; 1]; [1; 2]; [2; 1]; [1]; []] =
      [(Ok true, [1; 3; 2]); (Ok true, [2; 1; 3]); (Ok true, [2; 3; 1]); (Ok true, [3; 1; 2]); (Ok true, [3; 2; 1]); (Ok false, [1; 2; 3]);
       (Ok true, [2; 1]); (Ok false, [1; 2]); (Ok false, [1]); (Ok false, [])] /\
    map (npSub 1 3) [[1; 2; 3]; [1; 3; 2]] = [(Ok true, [1; 3; 2]); (Ok false, [1; 2; 3])] /\
    map npR [[3; 2; 1]; [2; 3; 1]; [3; 1; 2]; [1; 3; 2]; [2; 1; 3]; [1; 2; 3]; [2; 1]; [1; 2]; [1]; []] =
      [(Ok true, [2; 3; 1]); (Ok true, [3; 1; 2]); (Ok true, [1; 3; 2]); (Ok true, [2; 1; 3]); (Ok true, [1; 2; 3]); (Ok false, [3; 2; 1]);
       (Ok true, [1; 2]); (Ok false, [2; 1]); (Ok false, [1]); (Ok false, [])] /\
    map (npRSub 1 3) [[3; 2; 1]; [2; 3; 1]] = [(Ok true, [2; 3; 1]); (Ok false, [3; 2; 1])].
  Proof. repeat split. Qed.

  (** ds/xslice/iterator_test.go TestIterator; a pointer &s[i] is a position. *)
  Example TestIterator : let l := [1; 2; 3] in
    left_ ((b <- Begin (S l) ;; x <- Get sliceOps b ;; Set_ sliceOps b 5 ;; n <- Next sliceOps b ;; b' <- Begin (S l) ;; e <- End (S l) ;;
       q1 <- Equal sliceOps b b' ;; q2 <- Equal sliceOps b e ;; b3 <- Add sliceOps b 3 ;; q3 <- Equal sliceOps e b3 ;; p <- Prev sliceOps e ;;
       z <- Add sliceOps b 0 ;; b2 <- Add sliceOps b 2 ;; b2 <- Add sliceOps b2 0 ;;
       xret (x, pos n, [q1; q2; q3], pos p, pos z, pos b2)) (H l)) = (Ok (1, 1, [true; false; true], 2, 0, 2), [5; 2; 3]) /\
    panics ((e <- End (S l) ;; Get sliceOps e) (H l)) = true /\ panics ((b <- Begin (S l) ;; Prev sliceOps b) (H l)) = true /\
    panics ((e <- End (S l) ;; Next sliceOps e) (H l)) = true /\ panics ((b <- Begin (S l) ;; Add sliceOps b (-1)) (H l)) = true /\
    panics ((e <- End (S l) ;; Add sliceOps e 1) (H l)) = true /\
    fst ((b <- Begin (S []) ;; e <- End (S []) ;; Equal sliceOps b e) (H [])) = Ok true /\
    panics ((b <- Begin (S []) ;; Get sliceOps b) (H [])) = true.
  Proof. repeat split. Qed.

  (** ds/xslice/slice_test.go. *)
  Definition ints (n : nat) : list Z := map Z.of_nat (seq 1 n).
  Fixpoint appendAll (l : list Z) : X (heap Z * slice) unit :=
    match l with [] => xret tt | x :: l => Append_ 0 g x ;; appendAll l end.
  Fixpoint appendPairs (l : list Z) : X (heap Z * slice) unit :=
    match l with [] => xret tt | x :: l => AppendMany_ 0 g [x; x * 2] ;; appendPairs l end.
  Fixpoint takeLast (k : nat) : X (heap Z * slice) (list Z) :=
    match k with
    | O => xret []
    | Datatypes.S k => hs <- xget ;; v <- onVar (Last (snd hs)) ;; DeleteLast_ ;; r <- takeLast k ;; xret (v :: r)
    end.
  Example TestSlice_Append : slVar (appendAll (ints 99) (emptyHeap, nilSlice)) = ints 99.
  Proof. reflexivity. Qed.
  Example TestSlice_AppendMany : slVar (appendPairs (ints 99) (emptyHeap, nilSlice)) = flat_map (fun i => [i; i * 2]) (ints 99).
  Proof. reflexivity. Qed.
  Example TestSlice_EraseEnd : fst ((appendAll (ints 99) ;; takeLast 99) (emptyHeap, nilSlice)) = Ok (rev (ints 99)).
  Proof. reflexivity. Qed.
  Example TestSlice_At : let l := [1; 2; 3] in map (fun i => fst (At (S l) i (H l))) [0; 1; 2] = map Ok [1; 2; 3] /\
    panics (At (S l) (-1) (H l)) = true /\ panics (At (S l) 3 (H l)) = true /\
    fst (First (S l) (H l)) = Ok 1 /\ fst (Last (S l) (H l)) = Ok 3 /\ panics (First (S []) (H [])) = true /\ panics (Last (S []) (H [])) = true /\
    Len (S []) = 0 /\ Len (S l) = 3.
  Proof. repeat split. Qed.
  Definition reversed (l : list Z) : list Z := slVar (let '(r, h) := Reversed 0 (S l) (H l) in (r, (h, match r with Ok s => s | _ => nilSlice end))).
  Example TestSlice_Reversed : map reversed [[]; [1]; [3; 2; 1]; [4; 3; 2; 1]] = [[]; [1]; [1; 2; 3]; [1; 2; 3; 4]].
  Proof. reflexivity. Qed.
  Definition insertAt (i v : Z) (l : list Z) : outcome unit * (heap Z * slice) := InsertAt_ 0 g i v (H l, S l).
  Example TestSlice_Insert : slVar (insertAt 0 5 []) = [5] /\ slVar (insertAt 0 5 [1; 2; 3]) = [5; 1; 2; 3] /\
    slVar (insertAt 3 5 [1; 2; 3]) = [1; 2; 3; 5] /\ slVar (insertAt 2 10 [1; 2; 3; 4; 5; 6]) = [1; 2; 10; 3; 4; 5; 6] /\
    (exists m, fst (insertAt (-1) 10 [1; 2; 3]) = Panic m) /\ (exists m, fst (insertAt 4 10 [1; 2; 3]) = Panic m).
  Proof. repeat split; eexists; reflexivity. Qed.
  Example TestInsert :
    fst (Insert_ 0 g (mkIt 0 (mkSlice 3 0 2 2)) 0 ([[]; []; [1; 2]; [1; 2]], S [1; 2])) = Panic "iterator does not belongs to this slice" /\
    let l := [1; 2; 3] in
    let m := b <- onVar (Begin (S l)) ;; b <- onVar (Add sliceOps b 1) ;; it <- Insert_ 0 g b 4 ;; v <- onVar (Get sliceOps it) ;;
      hs <- xget ;; b' <- onVar (Begin (snd hs)) ;; b' <- onVar (Add sliceOps b' 1) ;; q <- onVar (Equal sliceOps it b') ;; xret (v, q) in
    fst (m (H l, S l)) = Ok (4, true) /\ slVar (m (H l, S l)) = [1; 4; 2; 3].
  Proof. repeat split. Qed.
End Slices.

(** ** Rings: ds/xring/ring_test.go TestRing, and TestRing_Large with n = 100. *)
Section Rings.
  Import XRing_Spec XRing_Model.
  Definition ring1 : list (ringOp Z) := [OAppend 1; OAppend 1; OAppend 2; OAppend 3; OAppend 4; OPrepend 5].
  Definition after {O R} (step : O -> X (ring Z) R) ops := snd (runOps step ops (@New Z)).
  Definition bad {A} (r : outcome A * ring Z) : bool := match fst r with Panic _ => true | _ => false end.
  Example TestRing : bad (DeleteLast 0 New) = true /\ bad (DeleteFirst 0 New) = true /\ bad (First (@New Z)) = true /\
    bad (Last (@New Z)) = true /\ bad (At 0 (@New Z)) = true /\ ToSlice 0 (@New Z) None = None /\
    ToSlice 0 (after (ringStep 0) (firstn 1 ring1)) None = Some [1] /\
    fst (Last (after (ringStep 0) (firstn 3 ring1))) = Ok 2 /\ fst (First (after (ringStep 0) (firstn 3 ring1))) = Ok 1 /\
    ToSlice 0 (after (ringStep 0) (firstn 5 ring1)) None = Some [1; 1; 2; 3; 4] /\
    let r := after (ringStep 0) ring1 in
    fst (First r) = Ok 5 /\ ToSlice 0 r None = Some [5; 1; 1; 2; 3; 4] /\ Cap r = 8 /\ bad (At (-1) r) = true /\ bad (At 6 r) = true.
  Proof. repeat split. Qed.

  Definition both (i : nat) : list (ringOp Z) := [OAppend (Z.of_nat i); OPrepend (- Z.of_nat i)].
  Definition ends (i : nat) : list (ringOp Z) := [OFirst; OLast; ODeleteFirst; ODeleteLast].
  Definition large : list (ringOp Z) :=
    flat_map (fun i => both i ++ [OAt 0; OAt (2 * Z.of_nat i - 1)]) (seq 1 100) ++ flat_map ends (rev (seq 50 51)) ++
    flat_map both (seq 1 100) ++ flat_map ends (rev (seq 1 100)) ++ flat_map ends (rev (seq 1 49)).
  (** The values read, in order: -i and i each time. *)
  Fixpoint valuesRead (l : list (outcome (ringRes Z))) : list Z :=
    match l with [] => [] | Ok (RVal v) :: l => v :: valuesRead l | _ :: l => valuesRead l end.
  Definition twice (i : nat) : list Z := [- Z.of_nat i; Z.of_nat i].
  Example TestRing_Large :
    let '(rs, r) := runOps (ringStep 0) large New in
    valuesRead rs = flat_map twice (seq 1 100 ++ rev (seq 50 51) ++ rev (seq 1 100) ++ rev (seq 1 49)) /\
    forallb (fun o => match o with Ok _ => true | _ => false end) rs = true /\
    ToSlice 0 r None = None /\ Cap r < 1024.
  Proof. vm_compute. repeat split. Qed.
End Rings.

(** ** Sorting: xsort/sort_test.go *)
Section Sorting.
  Import XSort_Model.
  Definition testInts : list Z := [74; 59; 238; -784; 9845; 959; 905; 0; 0; 42; 7586; -5467984; 7586].
  Fixpoint sortedBy {E} (ltb : E -> E -> bool) (l : list E) : bool :=
    match l with x :: (y :: _) as l' => negb (ltb y x) && sortedBy ltb l' | _ => true end.
  Definition isOkSorted {E} (ltb : E -> E -> bool) (r : outcome (list E)) (n : nat) : bool :=
    match r with Ok l => sortedBy ltb l && (List.length l =? n)%nat | _ => false end.
  Definition sortBy {E} (ltb : E -> E -> bool) (l : list E) : outcome (list E) := omap fst (Sort l (pureCmp ltb) tt).
  Definition stableBy {E} (ltb : E -> E -> bool) (l : list E) : outcome (list E) := omap fst (Stable l (pureCmp ltb) tt).
  Example TestSortIntSlice :
    isOkSorted Z.ltb (SortOrdered Z.ltb Z.geb testInts) 13 = true /\ isOkSorted Z.ltb (sortBy Z.ltb testInts) 13 = true /\
    isOkSorted Z.ltb (StableOrdered Z.ltb Z.geb testInts) 13 = true /\ isOkSorted Z.ltb (stableBy Z.ltb testInts) 13 = true.
  Proof. vm_compute. repeat split. Qed.

  (** float64s, in units of 0.0001; [None] is NaN, and the infinities are far away. *)
  Definition inf : Z := 10 ^ 20.
  Definition testFloats : list (option Z) := [Some 743000; Some 590000; Some inf; Some 2382000; Some (-7840000); Some 23000; None; None;
    Some (- inf); Some 98457680; Some (-9597485); Some 9050000; Some 78000; Some 78000].
  Definition fltb (x y : option Z) : bool := match x, y with Some a, Some b => a <? b | _, _ => false end.
  Definition fgeb (x y : option Z) : bool := match x, y with Some a, Some b => a >=? b | _, _ => false end.
  (** xfn.LessFloat *)
  Definition lessFloat (x y : option Z) : bool := fltb x y || (match x, y with None, Some _ => true | _, _ => false end).
  Example TestSortAnyFloat64Slice : isOkSorted lessFloat (sortBy lessFloat testFloats) 14 = true /\
    isOkSorted lessFloat (stableBy lessFloat testFloats) 14 = true.
  Proof. vm_compute. repeat split. Qed.
  (** With the operator < of floats, NaNs included. *)
  Example TestSortFloat64Slice : isOkSorted fltb (SortOrdered fltb fgeb testFloats) 14 = true /\
    isOkSorted fltb (StableOrdered fltb fgeb testFloats) 14 = true.
  Proof. vm_compute. repeat split. Qed.

  Definition testStrings : list string := [""; "Hello"; "foo"; "bar"; "foo"; "f00"; "%*&^*&^&"; "***"].
  Example TestSortStringSlice :
    isOkSorted String.ltb (SortOrdered String.ltb (fun x y => negb (String.ltb x y)) testStrings) 8 = true /\
    isOkSorted String.ltb (sortBy String.ltb testStrings) 8 = true /\
    isOkSorted String.ltb (StableOrdered String.ltb (fun x y => negb (String.ltb x y)) testStrings) 8 = true /\
    isOkSorted String.ltb (stableBy String.ltb testStrings) 8 = true.
  Proof. vm_compute. repeat split. Qed.

  Example TestReverseSortIntSlice :
    omap (@rev Z) (sortBy Z.gtb testInts) = SortOrdered Z.ltb Z.geb testInts /\
    omap (@rev Z) (stableBy Z.gtb testInts) = StableOrdered Z.ltb Z.geb testInts.
  Proof. vm_compute. repeat split. Qed.

  Definition patterns : list Z := repeat 10 7 ++ [0] ++ repeat 10 6 ++ [1] ++ repeat 10 6 ++ [2] ++ repeat 10 8.
  Example TestBreakPatterns : isOkSorted Z.ltb (SortOrdered Z.ltb Z.geb patterns) 30 = true.
  Proof. vm_compute. reflexivity. Qed.
End Sorting.

(** ** Streams: stream/source_test.go, stream/stream_test.go, xfn/arthmetic_test.go, xfn/predicate_test.go *)
Section Streams.
  Import Stream_Model.
  Local Open Scope exn_scope.
  Definition quietly {A B} (f : A -> B) : A -> X unit B := fun x => xret (f x).
  Definition intT : inttype := {| bits := 64; signed := true |}.
  Definition from {A} (z : outcome intSource_) (m : X (stream unit Z * (intSource_ * unit)) A) : outcome A :=
    match z with Ok z => fst (m (New, (z, tt))) | Panic e => Panic e | Diverge => Diverge end.
  Definition ints_ : source intSource_ unit Z := intSource intT.
  Definition ofSlice {A} (l : list Z) (m : source Z unit Z -> X (stream unit Z * (Z * unit)) A) : outcome A :=
    fst (m (sliceSource l) (New, (0, tt))).

  Example TestNew : ofSlice [1; 2; 3] (fun s => Slice s 9) = Ok [1; 2; 3] /\ ofSlice [] (fun s => Slice s 9) = Ok [] /\
    fst (Slice (sliceSource (W := unit) ([] : list Z)) 9 (mkStream false [] false, (0, tt))) = Ok [].
  Proof. repeat split. Qed.
  Example TestOfRange :
    ofSlice [0; 1; 2; 3; 4] (fun s => Skip s 3 ;; Map_ (quietly (fun i => i * 2)) ;; Slice s 9) = Ok [6; 8] /\
    ofSlice [0; 1; 2; 3; 4] (fun s => Skip s 10 ;; Slice s 9) = Ok [].
  Proof. repeat split. Qed.

  (** TestStream_Source/Skip: a source that is asked to skip 5 and then has one element. *)
  Definition mockSkip : source (list Z) unit Z := {|
    sNext := fun '(l, w) => match l with x :: l' => (Ok (Some x), (l', w)) | [] => (Ok None, (l, w)) end;
    sSkip := fun n '(l, w) => (if n =? 5 then Ok (-1) else Panic "unexpected call", (l, w)) |}.
  Example TestStream_Source_Skip : fst ((Skip mockSkip 5 ;; Slice mockSkip 9) (New, ([1], tt))) = Ok [1].
  Proof. reflexivity. Qed.
  (** TestStream_Source/NoSkip: counting the calls of both filters; the source must not be asked to skip. *)
  Definition mockNoSkip : source (list Z) (Z * Z) Z := {|
    sNext := fun '(l, w) => match l with x :: l' => (Ok (Some x), (l', w)) | [] => (Ok None, (l, w)) end;
    sSkip := fun n '(l, w) => (Panic "unexpected call", (l, w)) |}.
  Example TestStream_Source_NoSkip :
    let '(r, (_, (_, c))) := (Filter (fun _ '(c1, c2) => (Ok true, (c1 + 1, c2))) ;; Skip mockNoSkip 1 ;;
      Filter (fun _ '(c1, c2) => (Ok true, (c1, c2 + 1))) ;; Slice mockNoSkip 9) (New, ([1; 2; 3], (0, 0))) in
    r = Ok [2; 3] /\ c = (3, 2).
  Proof. cbn. split; reflexivity. Qed.

  Example TestStream_Map :
    from (Range 0 9 3) (Map_ (quietly (fun x => x * x)) ;; Slice ints_ 9) = Ok [0; 9; 36; 81] /\
    from (Range 0 50 3) (Map_ (quietly (fun x => x * x)) ;; Filter (quietly (fun x => Z.rem x 2 =? 1)) ;; Map_ (quietly (fun x => x - 1)) ;;
      Map_ (quietly (fun x => Z.quot x 2)) ;; Skip ints_ 1 ;; Limit 2 ;; Slice ints_ 99) = Ok [40; 112].
  Proof. vm_compute. repeat split. Qed.
  Example TestStream_Peek :
    let src : source intSource_ (list Z * list Z) Z := intSource intT in
    match Range 0 9 3 with
    | Ok z => let '(_, (_, (_, w))) := (Peek (fun v '(a, r) => (Ok tt, (a ++ [v], r))) ;; Map_ (fun x => xret (x * x)) ;;
          Peek (fun v '(a, r) => (Ok tt, (a, r ++ [v]))) ;; Collect src 9 (fun _ => xret tt)) (New, (z, ([], []))) in
        w = ([0; 3; 6; 9], [0; 9; 36; 81])
    | _ => False
    end.
  Proof. vm_compute. reflexivity. Qed.
  Example TestStream_String : ofSlice [1; 2; 3] (fun s => String_ s 9 "int" XFn_Bind_Model.decimal) = Ok "Stream[int]{1, 2, 3}".
  Proof. reflexivity. Qed.
  Example TestMap :
    match Range 0 9 3 with
    | Ok z => fst (Slice (transformed ints_ 9 (quietly XFn_Bind_Model.decimal)) 9 (New, ((New, z), tt))) = Ok ["0"; "3"; "6"; "9"]
    | _ => False
    end.
  Proof. vm_compute. reflexivity. Qed.

  Definition plus1 := XFn_Arith_Model.Plus (XFn_Arith_Model.intOps intT) 1.
  Definition times2 := XFn_Arith_Model.Mult (XFn_Arith_Model.intOps intT) 2.
  Example TestPlus : from (RangeN intT 3) (Map_ (quietly plus1) ;; Map_ (quietly times2) ;; Slice ints_ 9) = Ok [2; 4; 6] /\
    from (RangeN intT 3) (Map_ (quietly plus1) ;; Map_ (quietly times2) ;;
      Reduce ints_ 9 0 (fun a v => xret (XFn_Arith_Model.PlusOp (XFn_Arith_Model.intOps intT) a v))) = Ok 12.
  Proof. vm_compute. repeat split. Qed.
  Definition pred (p : XFn_Model.Predicate Z unit) : Z -> X unit bool := fun v s => let '(b, s') := p v s in (Ok b, s').
  Example TestEq : from (RangeN intT 4) (Filter (pred (XFn_Model.IsEq Z.eqb 2)) ;; Slice ints_ 9) = Ok [2] /\
    from (RangeN intT 4) (Filter (pred (XFn_Model.Neg (XFn_Model.IsEq Z.eqb 2))) ;; Slice ints_ 9) = Ok [0; 1; 3].
  Proof. vm_compute. repeat split. Qed.
  Example TestEqAny : from (RangeN intT 4) (Filter (pred (XFn_Model.IsEqAny Z.eqb [-1; 2; 1])) ;; Slice ints_ 9) = Ok [1; 2].
  Proof. vm_compute. reflexivity. Qed.
End Streams.

(** ** Bind: xfn/bind_test.go *)
Section Binding.
  Import XFn_Bind_Model.
  Inductive goType := Int | Str | Bool | Float64 | Float32 | Int32 | Int64 | Time | Duration | Error.
  Definition same (a b : goType) : bool :=
    match a, b with
    | Int, Int | Str, Str | Bool, Bool | Float64, Float64 | Float32, Float32 | Int32, Int32 | Int64, Int64
    | Time, Time | Duration, Duration | Error, Error => true
    | _, _ => false
    end.
  Definition name (t : goType) : string :=
    match t with Int => "int" | Str => "string" | Bool => "bool" | Float64 => "float64" | Float32 => "float32" | Int32 => "int32"
               | Int64 => "int64" | Time => "time.Time" | Duration => "time.Duration" | Error => "error" end.
  Definition names (l : list goType) : string := String.concat ", " (map name l).
  Definition fnName (f : sig goType) : string :=
    ("func(" ++ names (ins f) ++ ")" ++
     match outs f with [] => "" | [t] => " " ++ name t | l => " (" ++ names l ++ ")" end)%string.
  Definition isNumber (t : goType) : bool := match t with Int | Float64 | Float32 | Int32 | Int64 | Duration => true | _ => false end.
  (** The conversions the tests need: identity, numbers to numbers, integers to strings. *)
  Definition canConv (v : value goType Z) (t : goType) : bool := same (vty v) t || isNumber (vty v) && isNumber t || same (vty v) Int && same t Str.
  Definition B (src : srcArg goType) (dest : destArg goType) args :=
    Bind same canConv (fun v t => {| vty := t; vpay := vpay v |}) name fnName src dest args.
  Definition F (i o : list goType) : sig goType := {| ins := i; outs := o; variadic := false |}.
  Definition V (t : goType) (x : Z) : barg goType Z := AVal {| vty := t; vpay := x |}.
  Example TestBind_Panics :
    B (SrcOther Str) (DestFunc (F [] [])) [] = Panic "invalid type: src [string] is not a function type" /\
    B (SrcFunc (F [] [])) (DestOther Int) [] = Panic "invalid type: dest [int] is not a function type" /\
    B (SrcFunc (F [Int; Str] [Bool])) (DestFunc (F [Int] [])) [] =
      Panic "incompatible output: src [func(int, string) bool] has 1 outputs but dest [func(int)] has 0" /\
    B (SrcFunc (F [Int; Str] [Int; Bool])) (DestFunc (F [Int] [Int; Str])) [] =
      Panic "incompatible output: 2nd output of src [func(int, string) (int, bool)] is [bool] but 2nd output of dest [func(int) (int, string)] is [string]" /\
    B (SrcFunc (F [Int; Str] [])) (DestFunc (F [] [])) [V Int 1; V Int 2; V Int 3] =
      Panic "too many arguments: src [func(int, string)] has 2 inputs but provided 3 bind arguments" /\
    B (SrcFunc (F [Int; Str] [])) (DestFunc (F [Str] [])) [APh P2] =
      Panic "invalid placeholder: dest [func(string)] has 1 inputs but provided Placeholder(2) at 1st bind argument" /\
    B (SrcFunc (F [Str; Str; Str; Str] [])) (DestFunc (F [Int; Int; Str] [])) [V Str 1; V Str 2; V Str 3; APh 0] =
      Panic "invalid placeholder: dest [func(int, int, string)] has 3 inputs but provided Placeholder(0) at 4th bind argument" /\
    B (SrcFunc (F [Int; Time] [])) (DestFunc (F [Str] [])) [APh P1] =
      Panic "type mismatch: src [func(int, time.Time)] 1st input is [int] but provided [string] via Placeholder(1) at 1st bind argument" /\
    B (SrcFunc (F [Int; Str] [])) (DestFunc (F [Str] [])) [V Str 1] =
      Panic "type mismatch: src [func(int, string)] 1st input is [int] but provided [string] at 1st bind argument" /\
    B (SrcFunc (F [Str; Int; Float64; Int32] [])) (DestFunc (F [Time; Str; Int] [])) [APh P2] =
      Panic "not enough inputs: dest [func(time.Time, string, int)] needs 2 more inputs [float64, int32]" /\
    B (SrcFunc (F [Str; Int; Float64] [])) (DestFunc (F [Time; Str; Int; Float32] [])) [APh 2] =
      Panic "type mismatch: src [func(string, int, float64)] 3rd input is [float64] but provided [float32] via 4th dest input [func(time.Time, string, int, float32)]" /\
    P 0 = Panic "invalid index".
  Proof. repeat split. Qed.
  (** TestBind: src is called with Duration(now), "Hi", 123, 456, 4.5. *)
  Example TestBind : let now := 1700000000 in let hi := 1 in let fourAndAHalf := 45 in
    match B (SrcFunc (F [Duration; Str; Int; Int; Float64] [Bool; Error])) (DestFunc (F [Int; Str; Float64] [Bool; Error]))
            [V Int64 now; APh P2; APh P1; V Int 456] with
    | Ok f => fst (callBound same (fun _ _ => false) (fun t => t) (fun _ _ => {| vty := Int; vpay := 0 |})
                     [{| vty := Int; vpay := 123 |}; {| vty := Str; vpay := hi |}; {| vty := Float64; vpay := fourAndAHalf |}] f) =
        Ok [{| vty := Duration; vpay := now |}; {| vty := Str; vpay := hi |}; {| vty := Int; vpay := 123 |};
            {| vty := Int; vpay := 456 |}; {| vty := Float64; vpay := fourAndAHalf |}]
    | _ => False
    end.
  Proof. reflexivity. Qed.
End Binding.

(** ** Custom maps: ds/xmap/custom_test.go, for any hash *)
Example TestNewCustom : forall hash : string * Z -> Z,
  let eq (x y : string * Z) := String.eqb (fst x) (fst y) && (snd x =? snd y) in
  fst (XMap_Model.cRun hash eq 0 [XMap_Model.CSet ("1", 0) 1; XMap_Model.CSet ("1", 0) 1; XMap_Model.CGet ("1", 0)] (@XMap_Model.NewCustom (string * Z) Z)) =
    [XMap_Model.CBool true; XMap_Model.CBool false; XMap_Model.CVal 1 true].
Proof. intros hash eq. cbn. unfold XMap_Model.cStep, XMap_Model.cSet, XMap_Model.cGet. cbn. repeat (rewrite ?Z.eqb_refl; cbn; unfold XMap_Model.zeqb; cbn). reflexivity. Qed.

(** ** Hashing: xhash/fast64_test.go.  TestUint64 and TestUint64Seed compare with
    the package xxh3 and are what C60 is about; TestHash depends on raw hashes. *)
Section Hashing.
  Import XHash_Model.
  Example TestFast64_Reset : Sum64 (WriteUint64 NewFast64 1) = Sum64 (WriteUint64 (Reset (WriteUint64 NewFast64 1)) 1).
  Proof. reflexivity. Qed.

  (** The hundred sums of _testSticky. *)
  Fixpoint sums (n : nat) (h : Z) (f : nat -> Z) : list Z :=
    match n with O => [] | Datatypes.S n => let h := WriteUint64 h (f (100 - n)%nat) in Sum64 h :: sums n h f end.
  Fixpoint ones (k : nat) (x : Z) : nat := match k with O => O | Datatypes.S k => ((if Z.odd x then 1 else 0) + ones k (Z.div2 x))%nat end.
  Definition sticky (f : nat -> Z) : bool :=
    let l := sums 100 NewFast64 f in
    let max := 2 ^ 64 - 1 in
    let n := ones 64 (fold_left Z.lxor l 0) in
    (fold_left Z.lor l 0 =? max) && (fold_left Z.land l max =? 0) && (22 <=? n)%nat && (n <=? 42)%nat.
  Example TestFast64_Sticky : sticky Z.of_nat = true /\ sticky (fun _ => 0) = true /\ sticky (fun _ => 1) = true /\
    sticky (fun _ => 2 ^ 64 - 1) = true.
  Proof. vm_compute. repeat split. Qed.

  (** TestFast64_Write: b[:i] of 32 zero bytes, and with b[i-1] = 1. *)
  Definition sumOf (p : bytes) : Z := match Write NewFast64 p with Ok (h, _) => Sum64 h | _ => -1 end.
  Definition zeroBytes (i : nat) : bytes := {| mem := repeat 0 32; blen := Z.of_nat i |}.
  Definition lastOne (i : nat) : bytes := {| mem := repeat 0 i ++ [1] ++ repeat 0 (31 - i); blen := Z.of_nat i + 1 |}.
  Fixpoint distinct (l : list Z) : bool := match l with [] => true | x :: l => negb (existsb (Z.eqb x) l) && distinct l end.
  Example TestFast64_Write : let l := map sumOf (map zeroBytes (seq 0 33) ++ map lastOne (seq 0 32)) in
    distinct l = true /\ forallb (Z.leb 0) l = true.
  Proof. vm_compute. repeat split. Qed.
End Hashing.
