(** Model of xfn/predicate.go, xfn/comparator.go and xmath/number.go. *)
From Coq Require Import SpecFloat.
From Verif Require Import Base.

Section Predicates.
  (** types.go:3 Predicate: a callback, with side effects on a state [S]. *)
  Context {T S : Type}.
  Definition Predicate : Type := T -> S -> bool * S.

  (** predicate.go:71-78 / 82-89 / 93-100: the loop
      [for _, f := range fns { if f(v) { return hit } }; return !hit]. *)
  Fixpoint scan (hit : bool) (fns : list Predicate) (v : T) (s : S) : bool * S :=
    match fns with
    | [] => (negb hit, s)
    | f :: fns' =>
        let '(b, s') := f v s in
        if b then (hit, s') else scan hit fns' v s'
    end.

  (** predicate.go:67-79 Or (the empty [if len(fns) == 0 {}] does nothing). *)
  Definition Or (fns : list Predicate) : Predicate := scan true fns.

  (** predicate.go:81-90 And: the code is the same as that of Or. *)
  Definition And (fns : list Predicate) : Predicate := scan true fns.

  (** predicate.go:92-101 Not. *)
  Definition Not (fns : list Predicate) : Predicate := scan false fns.

  (** predicate.go:13-15, 17-19 methods Or, And. *)
  Definition mOr (p : Predicate) (fns : list Predicate) : Predicate := Or (p :: fns).
  Definition mAnd (p : Predicate) (fns : list Predicate) : Predicate := And (p :: fns).

  (** predicate.go:21-23 Neg. *)
  Definition Neg (p : Predicate) : Predicate := fun v s =>
    let '(b, s') := p v s in (negb b, s').

  (** predicate.go:59-65 True, False. *)
  Definition True_ : Predicate := fun _ s => (true, s).
  Definition False_ : Predicate := fun _ s => (false, s).

  Variable eqb : T -> T -> bool.  (* the operator == of the type *)

  (** predicate.go:25-29 IsEq, 42-46 IsNeq. *)
  Definition IsEq (rhs : T) : Predicate := fun lhs s => (eqb lhs rhs, s).
  Definition IsNeq (rhs : T) : Predicate := fun lhs s => (negb (eqb lhs rhs), s).

  Fixpoint scanEq (hit : bool) (rhs : list T) (v : T) : bool :=
    match rhs with
    | [] => negb hit
    | r :: rhs' => if eqb v r then hit else scanEq hit rhs' v
    end.

  (** predicate.go:31-40 IsEqAny, 48-57 IsNeqAny. *)
  Definition IsEqAny (rhs : list T) : Predicate := fun v s => (scanEq true rhs v, s).
  Definition IsNeqAny (rhs : list T) : Predicate := fun v s => (scanEq false rhs v, s).
End Predicates.
Arguments Predicate : clear implicits.

(** Strings and byte slices: lists of bytes. *)
Section Fixes.
  Context {B : Type} (eqb : B -> B -> bool).

  (** Slice expression v[i:j] on a string (bounds-checked). *)
  Definition slice (v : list B) (i j : Z) : outcome (list B) :=
    if (0 <=? i) && (i <=? j) && (j <=? zlen v)
    then Ok (firstn (Z.to_nat (j - i)) (skipn (Z.to_nat i) v))
    else Panic "slice bounds out of range".

  (** String equality / bytes.Equal. *)
  Fixpoint eqs (a b : list B) : bool :=
    match a, b with
    | [], [] => true
    | x :: a', y :: b' => eqb x y && eqs a' b'
    | _, _ => false
    end.

  Local Open Scope out_scope.

  (** predicate.go:127-132 HasPrefix, 141-146 HasPrefixBytes. *)
  Definition HasPrefix (prefix v : list B) : outcome bool :=
    let i := zlen prefix in
    if zlen v >=? i then w <- slice v 0 i ;; Ok (eqs w prefix) else Ok false.

  (** predicate.go:134-139 HasSuffix, 148-153 HasSuffixBytes. *)
  Definition HasSuffix (suffix v : list B) : outcome bool :=
    let i := zlen suffix in
    if zlen v >=? i then w <- slice v (zlen v - i) (zlen v) ;; Ok (eqs w suffix) else Ok false.
End Fixes.

(** Floats are the IEEE 754 values of Coq's SpecFloat; [==] and [<] are its
    comparisons (false on NaN, -0 equal to +0). *)

(** predicate.go:171-173 Less at a float type. *)
Definition Less (lhs rhs : spec_float) : bool := SFltb lhs rhs.

(** predicate.go:179-187 LessFloat. *)
Definition LessFloat (lhs rhs : spec_float) : bool :=
  let lhsNan := negb (SFeqb lhs lhs) in
  let rhsNan := negb (SFeqb rhs rhs) in
  if lhsNan || rhsNan then lhsNan && negb rhsNan else SFltb lhs rhs.

Section Ordered.
  Context {T : Type} (ltb : T -> T -> bool) (leb : T -> T -> bool)
          (geb : T -> T -> bool) (gtb : T -> T -> bool).

  (** number.go:7-13 Min. *)
  Definition Min (a b : T) : T := if leb a b then a else b.

  (** number.go:15-21 Max. *)
  Definition Max (a b : T) : T := if geb a b then a else b.

  (** comparator.go:14-23 FullComparatorOf. *)
  Definition FullComparatorOf (a b : T) : Z :=
    if ltb a b then -1 else if gtb a b then 1 else 0.
End Ordered.
