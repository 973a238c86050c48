(** Model of xsync/synchronized.go: goroutines that use a value under the lock
    of a Synchronized or of a RWSynchronized. *)
From Verif Require Import Base Lin.
Local Open Scope list_scope.

(** sync.Mutex and sync.RWMutex: who holds the write lock, or has asked for it
    and waits for the readers to leave ([false]); and who holds the read lock.  A
    Mutex is one that is never locked for reading. *)
Record rwmutex : Type := { writer : option (nat * bool); readers : list nat }.
Definition unlocked : rwmutex := {| writer := None; readers := [] |}.

Fixpoint leave (t : nat) (l : list nat) : list nat :=
  match l with
  | [] => []
  | u :: l' => if Nat.eqb t u then l' else u :: leave t l'
  end.

Section Sync.
  Context {T R : Type}.

  (** synchronized.go:8-11 and 23-26. *)
  Record object : Type := { mutex : rwmutex; Value : T }.

  (** What the user does with the pointer between Lock and Unlock: any sequence
      of reads and writes of the value that depends on what was read. *)
  Inductive body : Type :=
  | Finish (r : R)
  | ReadValue (k : T -> body)
  | WriteValue (v : T) (k : body).

  (** ... and between RLock and RUnlock: any sequence of reads. *)
  Inductive look : Type :=
  | Seen (r : R)
  | LookAt (k : T -> look).

  (** Instructions of a goroutine. *)
  Inductive prog : Type :=
  | Ret (r : R)
  | Lock (k : prog)          (* wait until nobody has or awaits the write lock, and ask for it *)
  | LockWait (k : prog)      (* ... and wait until the readers have left *)
  | Unlock (k : prog)
  | RLock (k : prog)
  | RUnlock (k : prog)
  | Read (k : T -> prog)
  | Write (v : T) (k : prog).

  (** A use of the value: x := s.Lock(); ...; s.Unlock(), or with RLock and
      RUnlock.  The pointer is not used outside, and nothing is written through
      the pointer of RLock. *)
  Inductive op : Type := Exclusive (b : body) | Shared (l : look).

  Fixpoint inside (b : body) (fin : R -> prog) : prog :=
    match b with
    | Finish r => fin r
    | ReadValue k => Read (fun v => inside (k v) fin)
    | WriteValue v k => Write v (inside k fin)
    end.
  Fixpoint looking (l : look) (fin : R -> prog) : prog :=
    match l with
    | Seen r => fin r
    | LookAt k => Read (fun v => looking (k v) fin)
    end.

  (** synchronized.go:13-20 with the Synchronized, 28-35 with the RWSynchronized.
      The two Locks differ only in that the first never meets a reader. *)
  Definition exclusively (b : body) : prog := Lock (LockWait (inside b (fun r => Unlock (Ret r)))).
  (** synchronized.go:37-44. *)
  Definition sharing (l : look) : prog := RLock (looking l (fun r => RUnlock (Ret r))).

  Definition code (o : op) : prog := match o with Exclusive b => exclusively b | Shared l => sharing l end.
  Definition over (k : prog) : option R := match k with Ret r => Some r | _ => None end.

  (** The standard library's Lock and Unlock take a few steps each; those in
      which another goroutine could notice a difference are kept.  A mutex does
      not know who locked it: Unlock needs only that somebody did. *)
  Inductive instr (t : nat) : prog -> object -> prog -> object -> Prop :=
  | i_lock k s : writer (mutex s) = None ->
      instr t (Lock k) s k {| mutex := {| writer := Some (t, false); readers := readers (mutex s) |}; Value := Value s |}
  | i_lockwait k s : writer (mutex s) = Some (t, false) -> readers (mutex s) = [] ->
      instr t (LockWait k) s k {| mutex := {| writer := Some (t, true); readers := [] |}; Value := Value s |}
  | i_unlock k s u : writer (mutex s) = Some (u, true) ->
      instr t (Unlock k) s k {| mutex := {| writer := None; readers := readers (mutex s) |}; Value := Value s |}
  | i_rlock k s : writer (mutex s) = None ->
      instr t (RLock k) s k {| mutex := {| writer := None; readers := t :: readers (mutex s) |}; Value := Value s |}
  | i_runlock k s : In t (readers (mutex s)) ->
      instr t (RUnlock k) s k {| mutex := {| writer := writer (mutex s); readers := leave t (readers (mutex s)) |}; Value := Value s |}
  | i_read k s : instr t (Read k) s (k (Value s)) s
  | i_write v k s : instr t (Write v k) s k {| mutex := mutex s; Value := v |}.

  Definition state : Type := config op object prog.
  Definition fresh (v : T) : object := {| mutex := unlocked; Value := v |}.
  Definition execution (v : T) : list (event op R) -> state -> Prop := runs code over instr (fresh v).
End Sync.
Arguments object : clear implicits.
Arguments body : clear implicits.
Arguments look : clear implicits.
Arguments prog : clear implicits.
Arguments op : clear implicits.
Arguments state : clear implicits.
