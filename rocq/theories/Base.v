(** Shared vocabulary of the model: outcomes of Go computations, a state monad
    over them, and int-indexed (bounds-checked) list access.  No proofs about
    the code here. *)
From Coq Require Export List ZArith Lia Bool String.
Export ListNotations.
Open Scope Z_scope.

(** Outcome of running a piece of Go code: it returns, it panics with a
    message, or the fuel handed to the model ran out.  [Diverge] stands for
    "did not return within the given number of loop iterations / stack
    frames"; every theorem claiming that code returns says [Ok]. *)
Inductive outcome (A : Type) : Type :=
| Ok (a : A)
| Panic (msg : string)
| Diverge.
Arguments Ok {A} a.
Arguments Panic {A} msg.
Arguments Diverge {A}.

Definition obind {A B} (m : outcome A) (f : A -> outcome B) : outcome B :=
  match m with
  | Ok a => f a
  | Panic s => Panic s
  | Diverge => Diverge
  end.

Definition omap {A B} (f : A -> B) (m : outcome A) : outcome B :=
  obind m (fun a => Ok (f a)).

(** State monad over outcomes. *)
Definition M (st A : Type) : Type := st -> outcome (A * st).

Definition ret {st A} (a : A) : M st A := fun s => Ok (a, s).
Definition bind {st A B} (m : M st A) (f : A -> M st B) : M st B :=
  fun s => match m s with
           | Ok (a, s') => f a s'
           | Panic e => Panic e
           | Diverge => Diverge
           end.
Definition panic {st A} (msg : string) : M st A := fun _ => Panic msg.
Definition diverge {st A} : M st A := fun _ => Diverge.

Declare Scope go_scope.
Delimit Scope go_scope with go.
Notation "x <- m ;; k" := (bind m (fun x => k))
  (at level 61, m at next level, right associativity) : go_scope.
Notation "' p <- m ;; k" := (bind m (fun x => match x with p => k end))
  (at level 61, p pattern, m at next level, right associativity) : go_scope.
Notation "m ;; k" := (bind m (fun _ => k))
  (at level 61, right associativity) : go_scope.

(** Same notations for plain outcomes. *)
Declare Scope out_scope.
Delimit Scope out_scope with out.
Notation "x <- m ;; k" := (obind m (fun x => k))
  (at level 61, m at next level, right associativity) : out_scope.
Notation "' p <- m ;; k" := (obind m (fun x => match x with p => k end))
  (at level 61, p pattern, m at next level, right associativity) : out_scope.

(** Lengths as [Z], the Go [len]. *)
Definition zlen {A} (l : list A) : Z := Z.of_nat (List.length l).

(** Go index expression [l[i]]: [None] when out of range. *)
Definition zget {A} (l : list A) (i : Z) : option A :=
  if i <? 0 then None else nth_error l (Z.to_nat i).

Fixpoint upd {A} (l : list A) (n : nat) (x : A) : list A :=
  match l, n with
  | [], _ => []
  | _ :: l', O => x :: l'
  | y :: l', S n' => y :: upd l' n' x
  end.

(** Go assignment [l[i] = x]: [None] when out of range. *)
Definition zset {A} (l : list A) (i : Z) (x : A) : option (list A) :=
  if (0 <=? i) && (i <? zlen l) then Some (upd l (Z.to_nat i) x) else None.

Definition of_opt {A} (msg : string) (o : option A) : outcome A :=
  match o with Some a => Ok a | None => Panic msg end.

Definition idx_msg : string := "index out of range".

(** Weakest precondition (total correctness) of a monadic computation. *)
Definition wp {st A} (m : M st A) (Q : A -> st -> Prop) (s : st) : Prop :=
  match m s with Ok (a, s') => Q a s' | _ => False end.
