(** What programs may expect that only exchange the contents of an
    atomic.Value or atomic.Ptr: every value put in comes out once. *)
From Verif Require Import Base Lin.
From Verif Require Value_Model Ptr_Model.
Local Open Scope list_scope.

Section Value.
  Import Value_Model.
  Context {T : Type}.

  (** Calls that do not overwrite unseen: all but Store. *)
  Inductive exchange : op T -> Prop :=
  | ex_load : exchange Load
  | ex_swap x : exchange (Swap x)
  | ex_cas old new : exchange (CompareAndSwap old new).
  (** The same without CompareAndSwap. *)
  Inductive swapOnly : op T -> Prop :=
  | so_load : swapOnly Load
  | so_swap x : swapOnly (Swap x).

  (** The values that the calls put in: the argument of a Swap, and the new
      value of a CompareAndSwap that returned true. *)
  Fixpoint given (l : list (op T * res T)) : list T :=
    match l with
    | (Swap x, _) :: l' => x :: given l'
    | (CompareAndSwap _ new, RBool true) :: l' => new :: given l'
    | _ :: l' => given l'
    | [] => []
    end.
  (** The values that the calls took out: the result of a Swap, and the old
      value of a CompareAndSwap that returned true. *)
  Fixpoint taken (l : list (op T * res T)) : list T :=
    match l with
    | (Swap _, RVal v) :: l' => v :: taken l'
    | (CompareAndSwap old _, RBool true) :: l' => old :: taken l'
    | _ :: l' => taken l'
    | [] => []
    end.
End Value.

Section Ptr.
  Import Ptr_Model.
  Inductive exchangeP : op -> Prop :=
  | exp_load : exchangeP Load
  | exp_swap x : exchangeP (Swap x)
  | exp_cas old new : exchangeP (CompareAndSwap old new).
  Fixpoint givenP (l : list (op * res)) : list pointer :=
    match l with
    | (Swap x, _) :: l' => x :: givenP l'
    | (CompareAndSwap _ new, RBool true) :: l' => new :: givenP l'
    | _ :: l' => givenP l'
    | [] => []
    end.
  Fixpoint takenP (l : list (op * res)) : list pointer :=
    match l with
    | (Swap _, RPtr v) :: l' => v :: takenP l'
    | (CompareAndSwap old _, RBool true) :: l' => old :: takenP l'
    | _ :: l' => takenP l'
    | [] => []
    end.
End Ptr.
