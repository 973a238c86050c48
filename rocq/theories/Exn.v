(** State monad in which a panic keeps the state reached so far, so that what
    a recovered panic leaves behind can be stated. *)
From Verif Require Import Base.

Definition X (st A : Type) : Type := st -> outcome A * st.

Definition xret {st A} (a : A) : X st A := fun s => (Ok a, s).
Definition xbind {st A B} (m : X st A) (f : A -> X st B) : X st B :=
  fun s => match m s with
           | (Ok a, s') => f a s'
           | (Panic e, s') => (Panic e, s')
           | (Diverge, s') => (Diverge, s')
           end.
Definition xpanic {st A} (msg : string) : X st A := fun s => (Panic msg, s).
Definition xget {st} : X st st := fun s => (Ok s, s).
Definition xput {st} (s' : st) : X st unit := fun _ => (Ok tt, s').

Declare Scope exn_scope.
Delimit Scope exn_scope with exn.
Notation "x <- m ;; k" := (xbind m (fun x => k))
  (at level 61, m at next level, right associativity) : exn_scope.
Notation "' p <- m ;; k" := (xbind m (fun x => match x with p => k end))
  (at level 61, p pattern, m at next level, right associativity) : exn_scope.
Notation "m ;; k" := (xbind m (fun _ => k))
  (at level 61, right associativity) : exn_scope.

(** Running a list of operations, collecting results; panics are recovered
    between operations. *)
Fixpoint runOps {st Op R} (step : Op -> X st R) (ops : list Op) (s : st)
  : list (outcome R) * st :=
  match ops with
  | [] => ([], s)
  | o :: ops' =>
      let '(r, s') := step o s in
      let '(rs, s'') := runOps step ops' s' in
      (r :: rs, s'')
  end.
