(** Happens-before, after the Go memory model (go.dev/ref/mem) and the
    documentation of sync.RWMutex, for goroutines that use one object whose methods
    make plain and atomic accesses and use locks.  There is at most one atomic
    variable; plain memory locations and locks have numbers. *)
From Verif Require Import Base Lin.
Local Open Scope list_scope.
Local Open Scope nat_scope.

(** What a goroutine does: it calls an operation, an operation returns; a plain
    read or write of a location; an atomic access, which may read, write or both;
    Lock or RLock returns; Unlock or RUnlock is called; anything else. *)
Inductive act (Op R : Type) : Type :=
| ACall (o : Op)
| AReturn (o : Op) (r : R)
| APlain (writes : bool) (loc : nat)
| AAtomic (reads writes : bool)
| ALock (exclusive : bool) (lock : nat)
| AUnlock (exclusive : bool) (lock : nat)
| AElse.
Arguments ACall {Op R}. Arguments AReturn {Op R}. Arguments APlain {Op R}. Arguments AAtomic {Op R}.
Arguments ALock {Op R}. Arguments AUnlock {Op R}. Arguments AElse {Op R}.

Section HB.
  Context {Op R : Type}.
  (** What was done, in the order of an interleaving, with the goroutine that did it. *)
  Definition doings : Type := list (nat * act Op R).

  Definition does (tr : doings) (i t : nat) (a : act Op R) : Prop := nth_error tr i = Some (t, a).

  (** [j] observes the effect of the atomic write [i]: no other one is between. *)
  Definition observed (tr : doings) (i j : nat) : Prop :=
    (exists t b, does tr i t (AAtomic b true)) /\ (exists t b, does tr j t (AAtomic true b)) /\
    forall m t b, i < m < j -> ~ does tr m t (AAtomic b true).

  (** Unlock comes before every later Lock and RLock of the same lock, and RUnlock
      before every later Lock. *)
  Definition released (tr : doings) (i j : nat) : Prop :=
    exists s x y t u, does tr i t (AUnlock x s) /\ does tr j u (ALock y s) /\ (x = true \/ y = true).

  (** Number [i] happens before number [j]: by program order, by synchronization,
      and by transitivity. *)
  Inductive hb (tr : doings) : nat -> nat -> Prop :=
  | hb_program i j t a b : i < j -> does tr i t a -> does tr j t b -> hb tr i j
  | hb_sync i j : i < j -> observed tr i j \/ released tr i j -> hb tr i j
  | hb_trans i j k : hb tr i j -> hb tr j k -> hb tr i k.

  (** Two plain accesses of one location, one of them a write. *)
  Definition conflict (tr : doings) (i j : nat) : Prop :=
    exists t u b b' l, does tr i t (APlain b l) /\ does tr j u (APlain b' l) /\ (b = true \/ b' = true).
  Definition raceFree (tr : doings) : Prop :=
    forall i j, conflict tr i j -> i <> j -> hb tr i j \/ hb tr j i.
End HB.
Arguments doings : clear implicits.

(** The calls and returns among what was done. *)
Fixpoint events {Op R} (tr : doings Op R) : list (event Op R) :=
  match tr with
  | [] => []
  | (t, ACall o) :: tr' => EInv t o :: events tr'
  | (t, AReturn o r) :: tr' => ERet t o r :: events tr'
  | _ :: tr' => events tr'
  end.
