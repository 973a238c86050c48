(** Model of xsync/synchronized.go: goroutines that use several values, each in a
    Synchronized or RWSynchronized of its own, and may hold several of the locks
    at a time. *)
From Verif Require Import Base Lin Sync_Model.
Local Open Scope list_scope.

Section Multi.
  Context {T R : Type}.

  (** What a goroutine does: it locks and unlocks the objects, numbered, and reads
      and writes their values through the pointers it got. *)
  Inductive client : Type :=
  | CRet (r : R)
  | CLock (i : nat) (k : client)
  | CUnlock (i : nat) (k : client)
  | CRLock (i : nat) (k : client)
  | CRUnlock (i : nat) (k : client)
  | CRead (i : nat) (k : T -> client)
  | CWrite (i : nat) (v : T) (k : client).

  (** Its instructions; Lock takes two (Sync_Model.v). *)
  Inductive mprog : Type :=
  | MRet (r : R)
  | MLock (i : nat) (k : mprog)
  | MLockWait (i : nat) (k : mprog)
  | MUnlock (i : nat) (k : mprog)
  | MRLock (i : nat) (k : mprog)
  | MRUnlock (i : nat) (k : mprog)
  | MRead (i : nat) (k : T -> mprog)
  | MWrite (i : nat) (v : T) (k : mprog).

  (** synchronized.go:13-20 and 28-44. *)
  Fixpoint compile (c : client) : mprog :=
    match c with
    | CRet r => MRet r
    | CLock i k => MLock i (MLockWait i (compile k))
    | CUnlock i k => MUnlock i (compile k)
    | CRLock i k => MRLock i (compile k)
    | CRUnlock i k => MRUnlock i (compile k)
    | CRead i k => MRead i (fun v => compile (k v))
    | CWrite i v k => MWrite i v (compile k)
    end.
  Definition mover (k : mprog) : option R := match k with MRet r => Some r | _ => None end.

  (** The objects. *)
  Definition objects : Type := nat -> object T.
  Definition setMutex (s : objects) (i : nat) (m : rwmutex) : objects := put s i {| mutex := m; Value := Value (s i) |}.

  (** The instructions of Sync_Model, on object [i]. *)
  Inductive minstr (t : nat) : mprog -> objects -> mprog -> objects -> Prop :=
  | m_lock i k s : writer (mutex (s i)) = None ->
      minstr t (MLock i k) s k (setMutex s i {| writer := Some (t, false); readers := readers (mutex (s i)) |})
  | m_lockwait i k s : writer (mutex (s i)) = Some (t, false) -> readers (mutex (s i)) = [] ->
      minstr t (MLockWait i k) s k (setMutex s i {| writer := Some (t, true); readers := [] |})
  | m_unlock i k s u : writer (mutex (s i)) = Some (u, true) ->
      minstr t (MUnlock i k) s k (setMutex s i {| writer := None; readers := readers (mutex (s i)) |})
  | m_rlock i k s : writer (mutex (s i)) = None ->
      minstr t (MRLock i k) s k (setMutex s i {| writer := None; readers := t :: readers (mutex (s i)) |})
  | m_runlock i k s : In t (readers (mutex (s i))) ->
      minstr t (MRUnlock i k) s k (setMutex s i {| writer := writer (mutex (s i)); readers := leave t (readers (mutex (s i))) |})
  | m_read i k s : minstr t (MRead i k) s (k (Value (s i))) s
  | m_write i v k s : minstr t (MWrite i v k) s k (put s i {| mutex := mutex (s i); Value := v |}).

  (** A call is a client that satisfies [P]. *)
  Definition call (P : client -> Prop) : Type := { c : client | P c }.
  Definition mcode {P} (o : call P) : mprog := compile (proj1_sig o).
  Definition mstate (P : client -> Prop) : Type := config (call P) objects mprog.
  Definition mfresh (v : nat -> T) : objects := fun i => fresh (v i).
  Definition mexecution {P} (v : nat -> T) : list (event (call P) R) -> mstate P -> Prop := runs mcode mover minstr (mfresh v).
End Multi.
Arguments client : clear implicits.
Arguments mprog : clear implicits.
Arguments objects : clear implicits.
