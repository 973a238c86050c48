(** Vocabulary for a queue that goroutines share. *)
From Verif Require Import Base Exn XRing_Spec XRing_Model Sync_Ring_Model.
Local Open Scope list_scope.

Section Spec.
  Context {T : Type}.

  Definition method (u : ringUse T) : ringOp T := match u with WithLock o | WithRLock o => o end.

  (** The methods that only look at the ring. *)
  Definition looks (o : ringOp T) : bool :=
    match o with
    | OFirst | OLast | OAt _ | OLen | OEmpty | OToSlice _ => true
    | _ => false
    end.
  (** Under RLock only such methods are called. *)
  Definition proper (u : ringUse T) : Prop :=
    match u with WithLock _ => True | WithRLock o => looks o = true end.

  (** A queue: one end is for pushing, the other for popping. *)
  Definition push (v : T) : ringUse T := WithLock (OPush v).
  Definition pop : ringUse T := WithLock OPop.
  Definition queueing (u : ringUse T) : Prop := u = pop \/ exists v, u = push v.

  (** The values pushed and popped by some calls with their results. *)
  Definition pushedBy (e : ringUse T * outcome (ringRes T)) : list T :=
    match fst e with WithLock (OPush v) => [v] | _ => [] end.
  Definition poppedBy (e : ringUse T * outcome (ringRes T)) : list T :=
    match e with (WithLock OPop, Ok (RVal v)) => [v] | _ => [] end.
  Definition pushed (h : list (ringUse T * outcome (ringRes T))) : list T := flat_map pushedBy h.
  Definition popped (h : list (ringUse T * outcome (ringRes T))) : list T := flat_map poppedBy h.
End Spec.
