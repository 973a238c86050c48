(** Goroutines that call the operations of one shared object, and what it means
    that these calls are linearizable. *)
From Coq Require Import Permutation.
From Verif Require Import Base.
Local Open Scope list_scope.

Definition put {A} (f : nat -> A) (i : nat) (a : A) : nat -> A := fun j => if Nat.eqb i j then a else f j.

Section Lin.
  Context {Op R : Type}.

  (** Calls and returns of goroutine [t]. *)
  Inductive event : Type := EInv (t : nat) (o : Op) | ERet (t : nat) (o : Op) (r : R).
  (** Where a goroutine is: outside, inside a call that had no effect yet, or
      inside a call that had its effect and will return [r]. *)
  Inductive phase : Type := PIdle | PPending (o : Op) | PDone (o : Op) (r : R).

  (** The calls in [h] took effect one at a time, in this order, each between
      its call and its return in [tr], with the result that was returned. *)
  Inductive linearized : list event -> list (Op * R) -> (nat -> phase) -> Prop :=
  | lin_init : linearized [] [] (fun _ => PIdle)
  | lin_inv tr h p t o : linearized tr h p -> p t = PIdle ->
      linearized (tr ++ [EInv t o]) h (put p t (PPending o))
  | lin_effect tr h p t o r : linearized tr h p -> p t = PPending o ->
      linearized tr (h ++ [(o, r)]) (put p t (PDone o r))
  | lin_ret tr h p t o r : linearized tr h p -> p t = PDone o r ->
      linearized (tr ++ [ERet t o r]) h (put p t PIdle).

  (** A sequential run: [spec s o r s'] says that [o] on the state [s] may
      return [r] and leave [s']. *)
  Inductive sequential {S : Type} (spec : S -> Op -> R -> S -> Prop) (s0 : S) : list (Op * R) -> S -> Prop :=
  | sq_nil : sequential spec s0 [] s0
  | sq_snoc h s o r s' : sequential spec s0 h s -> spec s o r s' -> sequential spec s0 (h ++ [(o, r)]) s'.

  Definition linearizable {S : Type} (spec : S -> Op -> R -> S -> Prop) (s0 : S) (tr : list event) : Prop :=
    exists h p s, linearized tr h p /\ sequential spec s0 h s.

  (** The calls that returned, with their results. *)
  Fixpoint returned (tr : list event) : list (Op * R) :=
    match tr with
    | [] => []
    | EInv _ _ :: tr' => returned tr'
    | ERet _ o r :: tr' => (o, r) :: returned tr'
    end.
End Lin.
Arguments event : clear implicits.
Arguments phase : clear implicits.

(** ** Goroutines *)
Section Machine.
  Context {Op R Sh Prog : Type}.
  (** The code of a call, when it is over and with which result, and one
      atomic instruction of goroutine [t] on the shared memory. *)
  Context (progOf : Op -> Prog) (result : Prog -> option R) (tstep : nat -> Prog -> Sh -> Prog -> Sh -> Prop).

  Inductive tstate : Type := Idle | Run (o : Op) (k : Prog).
  Record config : Type := { shared : Sh; thread : nat -> tstate }.

  (** Any goroutine may call any operation when it is outside, or run its next
      instruction, or return. *)
  Inductive step : config -> list (event Op R) -> config -> Prop :=
  | st_inv c t o : thread c t = Idle ->
      step c [EInv t o] {| shared := shared c; thread := put (thread c) t (Run o (progOf o)) |}
  | st_run c t o k k' sh' : thread c t = Run o k -> tstep t k (shared c) k' sh' ->
      step c [] {| shared := sh'; thread := put (thread c) t (Run o k') |}
  | st_ret c t o k r : thread c t = Run o k -> result k = Some r ->
      step c [ERet t o r] {| shared := shared c; thread := put (thread c) t Idle |}.

  Definition start (sh : Sh) : config := {| shared := sh; thread := fun _ => Idle |}.

  Inductive runs (sh : Sh) : list (event Op R) -> config -> Prop :=
  | runs_nil : runs sh [] (start sh)
  | runs_snoc tr c ev c' : runs sh tr c -> step c ev c' -> runs sh (tr ++ ev) c'.

  (** From one configuration to another through configurations that all satisfy [P]. *)
  Inductive span (P : config -> Prop) (c : config) : config -> Prop :=
  | span_refl : P c -> span P c c
  | span_step c1 ev c2 : span P c c1 -> step c1 ev c2 -> P c2 -> span P c c2.
End Machine.
Arguments tstate : clear implicits.
Arguments config : clear implicits.
Arguments Idle {Op Prog}. Arguments Run {Op Prog}.
Arguments shared {Op Sh Prog}. Arguments thread {Op Sh Prog}. Arguments Build_config {Op Sh Prog}.
Arguments start {Op Sh Prog}.
