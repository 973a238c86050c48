(** Model of xfn/arithmetic.go: the operators of the number types and of
    strings as functions. *)
From Coq Require Import SpecFloat.
From Verif Require Import Base Stream_Model.
Local Open Scope string_scope.
Local Open Scope list_scope.
Local Open Scope Z_scope.

(** What the operators + - * / % of a type do.  Division may panic. *)
Record operators (T : Type) : Type := {
  add : T -> T -> T; sub : T -> T -> T; mul : T -> T -> T;
  quo : T -> T -> outcome T; rem : T -> T -> outcome T }.
Arguments add {T}. Arguments sub {T}. Arguments mul {T}. Arguments quo {T}. Arguments rem {T}.

Section Arithmetic.
  Context {T : Type} (O : operators T).
  Definition Plus (rhs lhs : T) : T := add O lhs rhs.            (* arithmetic.go:7-11 *)
  Definition Minus (rhs lhs : T) : T := sub O lhs rhs.           (* arithmetic.go:13-17 *)
  Definition Mult (rhs lhs : T) : T := mul O lhs rhs.            (* arithmetic.go:19-23 *)
  Definition Div (rhs lhs : T) : outcome T := quo O lhs rhs.     (* arithmetic.go:25-29 *)
  Definition Mod (rhs lhs : T) : outcome T := rem O lhs rhs.     (* arithmetic.go:31-35 *)
  Definition PlusOp (lhs rhs : T) : T := add O lhs rhs.          (* arithmetic.go:37-39 *)
  Definition MultOp (lhs rhs : T) : T := mul O lhs rhs.          (* arithmetic.go:41-43 *)
  Definition DivOp (lhs rhs : T) : outcome T := quo O lhs rhs.   (* arithmetic.go:45-48 *)
  Definition ModOp (lhs rhs : T) : outcome T := rem O lhs rhs.   (* arithmetic.go:50-52 *)
End Arithmetic.

(** The operators of an integer type (Go specification, "Arithmetic operators"
    and "Integer overflow"): results wrap, division truncates towards zero and
    panics for a zero divisor. *)
Definition intOps (t : inttype) : operators Z := {|
  add := fun x y => wrap t (x + y); sub := fun x y => wrap t (x - y); mul := fun x y => wrap t (x * y);
  quo := fun x y => if y =? 0 then Panic "integer divide by zero" else Ok (wrap t (Z.quot x y));
  rem := fun x y => if y =? 0 then Panic "integer divide by zero" else Ok (wrap t (Z.rem x y)) |}.

(** Strings have + only: concatenation.  The other operators do not type-check
    for strings; here they panic or do nothing. *)
Definition stringOps {B} : operators (list B) := {|
  add := fun x y => x ++ y; sub := fun x _ => x; mul := fun x _ => x;
  quo := fun _ _ => Panic "no such operator"; rem := fun _ _ => Panic "no such operator" |}.

(** IEEE 754 floats (constraints.Float: float64 is prec 53, emax 1024; float32
    is 24, 128), the payload of a NaN left out; they have no %. *)
Definition floatOps (prec emax : Z) : operators spec_float := {|
  add := SFadd prec emax; sub := SFsub prec emax; mul := SFmul prec emax;
  quo := fun x y => Ok (SFdiv prec emax x y); rem := fun _ _ => Panic "no such operator" |}.
