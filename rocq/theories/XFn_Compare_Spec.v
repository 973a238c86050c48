(** What the comparison functions are to say (C136), apart from the model: two
    relations on the values, "is less" and "is the same". *)
From Coq Require Import SpecFloat.
From Verif Require Import Base.
Local Open Scope list_scope.
Local Open Scope Z_scope.

(** The dictionary order: at the first difference [a] has the smaller byte, or
    [a] is a proper prefix of [b]. *)
Definition before (a b : list Z) : Prop :=
  (exists c r, b = a ++ c :: r) \/
  (exists p x y r r', a = p ++ x :: r /\ b = p ++ y :: r' /\ x < y).

(** The number that a float of the format [prec], [emax] stands for, as a multiple
    of the smallest positive number of the format, 2^(3 - emax - prec); NaN
    stands for none. *)
Inductive number : Type := MinusInf | Times (k : Z) | PlusInf.
Definition numberOf (prec emax : Z) (x : spec_float) : option number :=
  match x with
  | S754_nan => None
  | S754_infinity s => Some (if s then MinusInf else PlusInf)
  | S754_zero _ => Some (Times 0)
  | S754_finite s m e =>
      let k := Zpos m * 2 ^ (e - (3 - emax - prec)) in Some (Times (if s then - k else k))
  end.
Definition smaller (a b : number) : Prop :=
  match a, b with
  | Times j, Times k => j < k
  | MinusInf, MinusInf | PlusInf, _ | Times _, MinusInf => False
  | MinusInf, _ | Times _, PlusInf => True
  end.
Definition floatLess (prec emax : Z) (x y : spec_float) : Prop :=
  exists a b, numberOf prec emax x = Some a /\ numberOf prec emax y = Some b /\ smaller a b.
Definition floatSame (prec emax : Z) (x y : spec_float) : Prop :=
  exists a, numberOf prec emax x = Some a /\ numberOf prec emax y = Some a.
