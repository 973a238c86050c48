(** Model of the comparison functions of xfn/predicate.go. *)
From Coq Require Import SpecFloat.
From Verif Require Import Base.
Local Open Scope list_scope.
Local Open Scope Z_scope.

(** What the operators == != < <= > >= of a type do. *)
Record comparisons (T : Type) : Type := {
  eqOp : T -> T -> bool; neOp : T -> T -> bool;
  ltOp : T -> T -> bool; leOp : T -> T -> bool;
  gtOp : T -> T -> bool; geOp : T -> T -> bool }.
Arguments eqOp {T}. Arguments neOp {T}. Arguments ltOp {T}.
Arguments leOp {T}. Arguments gtOp {T}. Arguments geOp {T}.

Section Compare.
  Context {T : Type} (O : comparisons T).
  Definition Equal (lhs rhs : T) : bool := eqOp O lhs rhs.          (* predicate.go:155-157 *)
  Definition NotEqual (lhs rhs : T) : bool := neOp O lhs rhs.       (* predicate.go:159-161 *)
  Definition Greater (lhs rhs : T) : bool := gtOp O lhs rhs.        (* predicate.go:163-165 *)
  Definition GreaterEq (lhs rhs : T) : bool := geOp O lhs rhs.      (* predicate.go:167-169 *)
  Definition Less (lhs rhs : T) : bool := ltOp O lhs rhs.           (* predicate.go:171-173 *)
  Definition LessEq (lhs rhs : T) : bool := leOp O lhs rhs.         (* predicate.go:175-177 *)
  (** The predicates made from a right-hand side; they have no effects. *)
  Definition IsGreater (rhs v : T) : bool := gtOp O v rhs.          (* predicate.go:103-107 *)
  Definition IsGreaterEq (rhs v : T) : bool := geOp O v rhs.        (* predicate.go:109-113 *)
  Definition IsLess (rhs v : T) : bool := ltOp O v rhs.             (* predicate.go:115-119 *)
  Definition IsLessEq (rhs v : T) : bool := leOp O v rhs.           (* predicate.go:121-125 *)
End Compare.

(** The operators of the integer types (Go specification, "Comparison
    operators"), on the numbers that the values stand for. *)
Definition intCmp : comparisons Z := {|
  eqOp := Z.eqb; neOp := fun a b => negb (Z.eqb a b);
  ltOp := Z.ltb; leOp := Z.leb; gtOp := Z.gtb; geOp := Z.geb |}.

(** Strings, as lists of bytes: compared byte by byte from the front, a proper
    prefix being less. *)
Fixpoint compareBytes (a b : list Z) : comparison :=
  match a, b with
  | [], [] => Eq
  | [], _ => Lt
  | _, [] => Gt
  | x :: a', y :: b' => match Z.compare x y with Eq => compareBytes a' b' | c => c end
  end.
Definition stringCmp : comparisons (list Z) :=
  let is (f : comparison -> bool) a b := f (compareBytes a b) in {|
  eqOp := is (fun c => match c with Eq => true | _ => false end);
  neOp := is (fun c => match c with Eq => false | _ => true end);
  ltOp := is (fun c => match c with Lt => true | _ => false end);
  leOp := is (fun c => match c with Gt => false | _ => true end);
  gtOp := is (fun c => match c with Gt => true | _ => false end);
  geOp := is (fun c => match c with Lt => false | _ => true end) |}.

(** Floats are those of Coq's SpecFloat, with its comparisons. *)
Definition floatCmp : comparisons spec_float := {|
  eqOp := SFeqb; neOp := fun a b => negb (SFeqb a b);
  ltOp := SFltb; leOp := SFleb;
  gtOp := fun a b => SFltb b a; geOp := fun a b => SFleb b a |}.
