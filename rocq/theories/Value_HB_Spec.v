(** What the calls of an atomic.Value pass on. *)
From Verif Require Import Base Lin HB Value_Model.
Local Open Scope list_scope.

(** [o] puts [v] into the Value if it succeeds. *)
Definition brings {T} (o : op T) (v : T) : Prop :=
  match o with
  | Load => False
  | Store x | Swap x => v = x
  | CompareAndSwap _ new => v = new
  end.
(** A call that returned [r] has seen the value [v]. *)
Definition saw {T} (eqb : T -> T -> bool) (o : op T) (r : res T) (v : T) : Prop :=
  match o, r with
  | Load, RVal x | Swap _, RVal x => v = x
  | CompareAndSwap old _, RBool true => eqb v old = true
  | _, _ => False
  end.
(** A call that tells its caller something about the value. *)
Definition tells {T} (o : op T) (r : res T) : Prop :=
  match o, r with
  | Load, _ | Swap _, _ | CompareAndSwap _ _, RBool true => True
  | _, _ => False
  end.
