(** What a copy r2 of a ring variable r shows after calls on r. *)
From Verif Require Import Base GoSlice XRing_Spec XRing_Heap_Spec.
Local Open Scope list_scope.
Local Open Scope Z_scope.

Section Spec.
  Context {T : Type}.

  (** How many elements more were taken from the front than put there, by one
      call on a deque that holds [l] and by several. *)
  Definition frontMoves (e : event T) (l : list T) : Z :=
    match e, l with
    | EPrepend _, _ => -1
    | (EPop | EDeleteFirst), _ :: _ => 1
    | _, _ => 0
    end.
  Fixpoint frontShift (es : list (event T)) (l : list T) : Z :=
    match es with
    | [] => 0
    | e :: es => frontMoves e l + frontShift es (listAfter e l)
    end.

  (** Calls that take no element out and replace none. *)
  Definition onlyAdds (e : event T) : Prop :=
    match e with
    | EPop | EDeleteFirst | EDeleteLast | ESet _ _ => False
    | _ => True
    end.
End Spec.
