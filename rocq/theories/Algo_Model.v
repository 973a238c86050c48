(** Model of algo: binary search, sortedness, swap, reverse, fill and
    next_permutation, over any iterator type.  The comparator may have side
    effects.  Loops without an obvious bound take [fuel]. *)
From Verif Require Import Base Exn Iter_Model.
Local Open Scope exn_scope.
Local Open Scope string_scope.
Local Open Scope list_scope.
Local Open Scope Z_scope.

Section Algo.
  Context {St It T : Type} (o : ops St It T) (comp : T -> T -> X St bool).

  (** binary_search.go:14-25, the loop of UpperBoundIterators. *)
  Fixpoint upperLoop (fuel : nat) (first : It) (count : Z) (value : T) : X St It :=
    if count >? 0 then
      match fuel with
      | O => fun s => (Diverge, s)
      | S fuel =>
          let step := count / 2 in
          it <- Add o first step ;;
          v <- Get o it ;;
          b <- comp value v ;;
          if negb b then
            it <- Next o it ;;
            upperLoop fuel it (count - (step + 1)) value
          else upperLoop fuel first step value
      end
    else xret first.

  (** binary_search.go:9-27 UpperBoundIterators.  [count] shrinks at every
      round, so that many rounds are enough. *)
  Definition UpperBoundIterators (first last : It) (value : T) : X St It :=
    count <- Distance o first last ;;
    if count <? 0 then xpanic "invalid range" else
    upperLoop (Z.to_nat count) first count value.

  (** binary_search.go:34-45, the loop of LowerBoundIterators. *)
  Fixpoint lowerLoop (fuel : nat) (first : It) (count : Z) (value : T) : X St It :=
    if count >? 0 then
      match fuel with
      | O => fun s => (Diverge, s)
      | S fuel =>
          let step := count / 2 in
          it <- Add o first step ;;
          v <- Get o it ;;
          b <- comp v value ;;
          if b : bool then
            it <- Next o it ;;
            lowerLoop fuel it (count - (step + 1)) value
          else lowerLoop fuel first step value
      end
    else xret first.

  (** binary_search.go:29-47 LowerBoundIterators. *)
  Definition LowerBoundIterators (first last : It) (value : T) : X St It :=
    count <- Distance o first last ;;
    if count <? 0 then xpanic "invalid range" else
    lowerLoop (Z.to_nat count) first count value.

  (** binary_search.go:57-63 UpperBoundAny, LowerBoundAny (49-55 are these with
      the < of the element type). *)
  Definition UpperBoundAny (r : range It) (value : T) : X St It := UpperBoundIterators (fst r) (snd r) value.
  Definition LowerBoundAny (r : range It) (value : T) : X St It := LowerBoundIterators (fst r) (snd r) value.

  (** is_sorted.go:12-18, the loop of IsSortedUntilIterators. *)
  Fixpoint sortedLoop (fuel : nat) (first next last : It) : X St It :=
    e <- Equal o next last ;;
    if e : bool then xret last else
    match fuel with
    | O => fun s => (Diverge, s)
    | S fuel =>
        vn <- Get o next ;;
        vf <- Get o first ;;
        b <- comp vn vf ;;
        if b : bool then xret next else
        n <- Next o next ;;
        sortedLoop fuel next n last
    end.

  (** is_sorted.go:9-21 IsSortedUntilIterators. *)
  Definition IsSortedUntilIterators (fuel : nat) (first last : It) : X St It :=
    e <- Equal o first last ;;
    if e : bool then xret last else
    next <- Next o first ;;
    sortedLoop fuel first next last.

  (** is_sorted.go:23-25 IsSortedIterators. *)
  Definition IsSortedIterators (fuel : nat) (first last : It) : X St bool :=
    it <- IsSortedUntilIterators fuel first last ;;
    Equal o it last.

  (** is_sorted.go:35-41 IsSortedUntilAny, IsSortedAny (27-33 are these with the
      < of the type). *)
  Definition IsSortedUntilAny (fuel : nat) (r : range It) : X St It := IsSortedUntilIterators fuel (fst r) (snd r).
  Definition IsSortedAny (fuel : nat) (r : range It) : X St bool := IsSortedIterators fuel (fst r) (snd r).

  (** generic.go:8-15 Swap. *)
  Definition Swap (a b : It) : X St unit :=
    e <- Equal o a b ;;
    if e : bool then xret tt else
    va <- Get o a ;;
    vb <- Get o b ;;
    Set_ o a vb ;;
    Set_ o b va.

  (** generic.go:18-27 Reverse. *)
  Fixpoint ReverseElems (fuel : nat) (first last : It) : X St unit :=
    e <- Equal o first last ;;
    if e : bool then xret tt else
    match fuel with
    | O => fun s => (Diverge, s)
    | S fuel =>
        last <- Prev o last ;;
        e <- Equal o first last ;;
        if e : bool then xret tt else
        Swap first last ;;
        first <- Next o first ;;
        ReverseElems fuel first last
    end.

  (** fill.go:7-13 FillN. *)
  Fixpoint fillLoop (n : nat) (first : It) (value : T) : X St It :=
    match n with
    | O => xret first
    | S n =>
        Set_ o first value ;;
        first <- Next o first ;;
        fillLoop n first value
    end.
  Definition FillN (first : It) (count : Z) (value : T) : X St It := fillLoop (Z.to_nat count) first value.
End Algo.

Section NextPermutation.
  Context {St It T : Type} (o : ops St It T) (comp : T -> T -> X St bool).

  (** next_permutation.go:9-19 NextPermutationIterators. *)
  Definition NextPermutationIterators (fuel : nat) (first last : It) : X St bool :=
    let ro := ReverseRandom o in
    let rFirst := Rev last in
    let rLast := Rev first in
    left <- IsSortedUntilIterators ro comp fuel rFirst rLast ;;
    e <- Equal ro left rLast ;;
    (if negb e then
       v <- Get ro left ;;
       right <- UpperBoundIterators ro comp rFirst left v ;;
       Swap ro left right
     else xret tt) ;;
    ReverseElems o fuel (Base left) last ;;
    e <- Equal ro left rLast ;;
    xret (negb e).

  (** next_permutation.go:25-27 NextPermutationAny (21-23 is this with the < of
      the element type). *)
  Definition NextPermutationAny (fuel : nat) (r : range It) : X St bool :=
    NextPermutationIterators fuel (fst r) (snd r).
End NextPermutation.
