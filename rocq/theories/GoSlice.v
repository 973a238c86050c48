(** Model of Go slices: headers into arrays of a shared heap, and the built-in
    operations on them.  Elements do not have size zero (pointers to those may
    coincide).  Ints are unbounded. *)
From Verif Require Import Base Exn.
Local Open Scope exn_scope.
Local Open Scope string_scope.
Local Open Scope list_scope.
Local Open Scope Z_scope.

(** The arrays allocated so far.  Array 0 is where a nil slice points and array
    1 where every slice made with capacity 0 points; both have no elements. *)
Definition heap (T : Type) : Type := list (list T).
Definition emptyHeap {T} : heap T := [[]; []].

(** A slice header: the data pointer is (arr, off). *)
Record slice : Type := mkSlice { arr : nat; off : Z; len : Z; cap : Z }.

Definition nilSlice : slice := mkSlice 0 0 0 0.

Section Slices.
  Context {T : Type} (zero : T).
  (** Capacity append asks for when it reallocates, from the old capacity and
      the length needed; never less than needed. *)
  Context (growth : Z -> Z -> Z).

  Definition badPtr : string := "invalid memory address".

  (** Load and store one element. *)
  Definition ld (a : nat) (i : Z) : X (heap T) T := fun h =>
    match nth_error h a with
    | Some d => (of_opt badPtr (zget d i), h)
    | None => (Panic badPtr, h)
    end.
  Definition st (a : nat) (i : Z) (v : T) : X (heap T) unit := fun h =>
    match nth_error h a with
    | Some d => match zset d i v with
                | Some d' => (Ok tt, upd h a d')
                | None => (Panic badPtr, h)
                end
    | None => (Panic badPtr, h)
    end.

  (** Load and store a block. *)
  Definition rd (a : nat) (i n : Z) : X (heap T) (list T) := fun h =>
    match nth_error h a with
    | Some d => if (0 <=? i) && (0 <=? n) && (i + n <=? zlen d)
                then (Ok (firstn (Z.to_nat n) (skipn (Z.to_nat i) d)), h)
                else (Panic badPtr, h)
    | None => (Panic badPtr, h)
    end.
  Definition wr (a : nat) (i : Z) (l : list T) : X (heap T) unit := fun h =>
    match nth_error h a with
    | Some d => if (0 <=? i) && (i + zlen l <=? zlen d)
                then (Ok tt, upd h a (firstn (Z.to_nat i) d ++ l ++ skipn (Z.to_nat (i + zlen l)) d))
                else (Panic badPtr, h)
    | None => (Panic badPtr, h)
    end.

  Definition alloc (l : list T) : X (heap T) nat := fun h => (Ok (List.length h), h ++ [l]).

  (** s[i] and s[i] = v. *)
  Definition index (s : slice) (i : Z) : X (heap T) T :=
    if (0 <=? i) && (i <? len s) then ld (arr s) (off s + i) else xpanic idx_msg.
  Definition assign (s : slice) (i : Z) (v : T) : X (heap T) unit :=
    if (0 <=? i) && (i <? len s) then st (arr s) (off s + i) v else xpanic idx_msg.

  (** s[i:j]; the pointer does not move when no capacity is left. *)
  Definition reslice (s : slice) (i j : Z) : X (heap T) slice :=
    if (0 <=? i) && (i <=? j) && (j <=? cap s)
    then xret (mkSlice (arr s) (if cap s - i =? 0 then off s else off s + i) (j - i) (cap s - i))
    else xpanic "slice bounds out of range".

  (** make([]T, n). *)
  Definition makeSlice (n : Z) : X (heap T) slice :=
    if n <? 0 then xpanic "makeslice: len out of range"
    else if n =? 0 then xret (mkSlice 1 0 0 0)
    else a <- alloc (repeat zero (Z.to_nat n)) ;; xret (mkSlice a 0 n n).

  (** append(s, vs...). *)
  Definition append (s : slice) (vs : list T) : X (heap T) slice :=
    let n := len s + zlen vs in
    if n <=? cap s then
      wr (arr s) (off s + len s) vs ;;
      xret (mkSlice (arr s) (off s) n (cap s))
    else
      let c := Z.max n (growth (cap s) n) in
      old <- rd (arr s) (off s) (len s) ;;
      a <- alloc (old ++ vs ++ repeat zero (Z.to_nat (c - n))) ;;
      xret (mkSlice a 0 n c).

  (** copy(dst, src): memmove. *)
  Definition copy (dst src : slice) : X (heap T) unit :=
    let n := Z.min (len dst) (len src) in
    l <- rd (arr src) (off src) n ;;
    wr (arr dst) (off dst) l.
End Slices.

(** The elements a slice shows. *)
Definition elems {T} (h : heap T) (s : slice) : list T :=
  firstn (Z.to_nat (len s)) (skipn (Z.to_nat (off s)) (nth (arr s) h [])).

(** Slices that programs can hold: they lie in an allocated array. *)
Definition valid {T} (h : heap T) (s : slice) : Prop :=
  0 <= off s /\ 0 <= len s <= cap s /\
  exists d, nth_error h (arr s) = Some d /\ off s + cap s <= zlen d.

(** One memory cell; [None] if not allocated. *)
Definition cell {T} (h : heap T) (a : nat) (i : Z) : option T :=
  match nth_error h a with Some d => zget d i | None => None end.
