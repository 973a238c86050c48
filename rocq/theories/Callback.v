(** Go code that calls back into user code which may panic.  A state monad in
    which every way of stopping keeps the state reached so far, and in which a
    panic of the user's function is told apart from one of the code itself. *)
From Verif Require Import Base.

Inductive cres (A : Type) : Type :=
| CRet (a : A)            (* returned *)
| CPanic (msg : string)   (* the code itself panicked: index out of range *)
| CDiverge                (* the fuel handed to the model ran out *)
| CUser (msg : string).   (* the user's function panicked, and the panic passed through *)
Arguments CRet {A} a.
Arguments CPanic {A} msg.
Arguments CDiverge {A}.
Arguments CUser {A} msg.

Definition CM (st A : Type) : Type := st -> cres A * st.

Definition cret {st A} (a : A) : CM st A := fun s => (CRet a, s).
Definition cdiverge {st A} : CM st A := fun s => (CDiverge, s).
Definition cbind {st A B} (m : CM st A) (f : A -> CM st B) : CM st B :=
  fun s => match m s with
           | (CRet a, s') => f a s'
           | (CPanic e, s') => (CPanic e, s')
           | (CDiverge, s') => (CDiverge, s')
           | (CUser e, s') => (CUser e, s')
           end.

Declare Scope cb_scope.
Delimit Scope cb_scope with cb.
Notation "x <- m ;; k" := (cbind m (fun x => k))
  (at level 61, m at next level, right associativity) : cb_scope.
Notation "' p <- m ;; k" := (cbind m (fun x => match x with p => k end))
  (at level 61, p pattern, m at next level, right associativity) : cb_scope.
Notation "m ;; k" := (cbind m (fun _ => k))
  (at level 61, right associativity) : cb_scope.

(** What the caller sees: a panic is a panic. *)
Definition plain {st A} (r : cres A * st) : outcome st :=
  match r with
  | (CRet _, s) => Ok s
  | (CPanic e, _) | (CUser e, _) => Panic e
  | (CDiverge, _) => Diverge
  end.
