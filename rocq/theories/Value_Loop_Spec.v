(** What programs may expect that update an atomic.Value only by
    [for { x := v.Load(); if v.CompareAndSwap(x, f(x)) { break } }]. *)
From Verif Require Import Base Lin Value_Model.
Local Open Scope list_scope.

Section Spec.
  Context {T : Type} (f : T -> T).

  (** The calls such programs make. *)
  Inductive loopCall : op T -> Prop :=
  | lc_load : loopCall Load
  | lc_cas x : loopCall (CompareAndSwap x (f x)).

  (** The values [x] for which a CompareAndSwap(x, f(x)) returned true. *)
  Fixpoint updated (l : list (op T * res T)) : list T :=
    match l with
    | (CompareAndSwap x _, RBool true) :: l' => x :: updated l'
    | _ :: l' => updated l'
    | [] => []
    end.

  (** [x], [f x], [f (f x)] and so on, [n] of them, and the one after these. *)
  Fixpoint iterates (n : nat) (x : T) : list T := match n with O => [] | S n' => x :: iterates n' (f x) end.
  Fixpoint iterate (n : nat) (x : T) : T := match n with O => x | S n' => iterate n' (f x) end.
End Spec.
