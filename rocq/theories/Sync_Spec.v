(** What a lock should do. *)
From Verif Require Import Base Lin Sync_Model.
Local Open Scope list_scope.

Section Spec.
  Context {T R : Type}.

  (** A body run alone from start to end. *)
  Fixpoint atomically (b : body T R) (v : T) : R * T :=
    match b with
    | Finish r => (r, v)
    | ReadValue k => atomically (k v) v
    | WriteValue v' k => atomically k v'
    end.
  Fixpoint sees (l : look T R) (v : T) : R :=
    match l with
    | Seen r => r
    | LookAt k => sees (k v) v
    end.
  Inductive oneAtATime : T -> op T R -> R -> T -> Prop :=
  | oat_exclusive v b r v' : atomically b v = (r, v') -> oneAtATime v (Exclusive b) r v'
  | oat_shared v l : oneAtATime v (Shared l) (sees l v) v.

  (** A goroutine is between Lock and Unlock (RLock and RUnlock): the next
      operation on the lock that it will do is an Unlock (RUnlock). *)
  Inductive beforeUnlock : prog T R -> Prop :=
  | bu_unlock k : beforeUnlock (Unlock k)
  | bu_read k : (forall v, beforeUnlock (k v)) -> beforeUnlock (Read k)
  | bu_write v k : beforeUnlock k -> beforeUnlock (Write v k).
  Inductive beforeRUnlock : prog T R -> Prop :=
  | br_unlock k : beforeRUnlock (RUnlock k)
  | br_read k : (forall v, beforeRUnlock (k v)) -> beforeRUnlock (Read k)
  | br_write v k : beforeRUnlock k -> beforeRUnlock (Write v k).
  Definition locks (c : state T R) (t : nat) : Prop := exists o k, thread c t = Run o k /\ beforeUnlock k.
  Definition rlocks (c : state T R) (t : nat) : Prop := exists o k, thread c t = Run o k /\ beforeRUnlock k.

  (** Goroutine [u] can go on: it is about to return or has a next instruction
      that does not have to wait. *)
  Definition canGoOn (c : state T R) (u : nat) : Prop := exists o k, thread c u = Run o k /\
    (over k <> None \/ exists k' s', instr u k (shared c) k' s').
End Spec.

(** A read-modify-write: x := s.Lock(); *x += d; s.Unlock(). *)
Definition add (d : Z) : op Z unit := Exclusive (ReadValue (fun v => WriteValue (v + d)%Z (Finish tt))).
