(** Model of goroutines that call the methods of an xmap.Sharded and in between
    lock and unlock its shards themselves: GetShard (sharded.go:46-52) returns a
    *Shard, whose embedded sync.RWMutex (sharded.go:20-23) is exported. *)
From Verif Require Import Base GoMap Sharded_Model.

Section Outer.
  Context {K V : Type} (eqb : K -> K -> bool) (zero : V) (nsh : nat) (hash : K -> Z).
  Notation prog := (prog K V).
  Notation res := (res K V).
  Notation op := (op K V).
  Notation shared := (shared K V).

  (** What a goroutine does: call methods, and m.GetShard(key).RLock() and so on. *)
  Inductive client : Type :=
  | CEnd
  | CDo (o : op) (k : res -> client)
  | CRLock (key : K) (k : client) | CRUnlock (key : K) (k : client)
  | CLock (key : K) (k : client) | CUnlock (key : K) (k : client).

  (** [At c]: about to do [c]; [In o p k]: inside the method call [o];
      [Waiting s c]: inside Lock of shard [s]. *)
  Inductive ustate : Type := At (c : client) | In_ (o : op) (p : prog) (k : res -> client) | Waiting (s : nat) (c : client).
  Record uconfig : Type := { umem : shared; uthr : nat -> ustate }.

  Inductive uevent : Type :=
  | UInv (t : nat) (o : op) | URet (t : nat) (o : op) (r : res)
  | URLocked (t s : nat) | URUnlocked (t s : nat) | ULocked (t s : nat) | UUnlocked (t s : nat).

  Notation shardOf := (GetShard nsh hash).
  Notation done := (Ret RUnit).

  (** The mutex works as in Sharded_Model.  A goroutine that unlocks what it has
      not locked stops there: such executions are not modelled. *)
  Inductive ustep : uconfig -> list uevent -> uconfig -> Prop :=
  | u_inv t o k sh th : th t = At (CDo o k) ->
      ustep {| umem := sh; uthr := th |} [UInv t o]
        {| umem := sh; uthr := fupd th t (In_ o (progOf eqb zero nsh hash o) k) |}
  | u_ret t o r k sh th : th t = In_ o (Ret r) k ->
      ustep {| umem := sh; uthr := th |} [URet t o r] {| umem := sh; uthr := fupd th t (At (k r)) |}
  | u_call t o p k sh th : th t = In_ o (Call p) k ->
      ustep {| umem := sh; uthr := th |} [] {| umem := sh; uthr := fupd th t (In_ o p k) |}
  | u_tau t o p p' k sh sh' th : th t = In_ o p k -> tstep t p sh p' sh' ->
      ustep {| umem := sh; uthr := th |} [] {| umem := sh'; uthr := fupd th t (In_ o p' k) |}
  | u_rlock t key k sh sh' th : th t = At (CRLock key k) ->
      tstep t (RLock (shardOf key) done) sh done sh' ->
      ustep {| umem := sh; uthr := th |} [URLocked t (shardOf key)] {| umem := sh'; uthr := fupd th t (At k) |}
  | u_runlock t key k sh sh' th : th t = At (CRUnlock key k) ->
      tstep t (RUnlock (shardOf key) done) sh done sh' ->
      ustep {| umem := sh; uthr := th |} [URUnlocked t (shardOf key)] {| umem := sh'; uthr := fupd th t (At k) |}
  | u_lock t key k sh sh' th : th t = At (CLock key k) ->
      tstep t (Lock (shardOf key) done) sh (LockWait (shardOf key) done) sh' ->
      ustep {| umem := sh; uthr := th |} [] {| umem := sh'; uthr := fupd th t (Waiting (shardOf key) k) |}
  | u_lockwait t s k sh sh' th : th t = Waiting s k ->
      tstep t (LockWait s done) sh done sh' ->
      ustep {| umem := sh; uthr := th |} [ULocked t s] {| umem := sh'; uthr := fupd th t (At k) |}
  | u_unlock t key k sh sh' th : th t = At (CUnlock key k) ->
      tstep t (Unlock (shardOf key) done) sh done sh' ->
      ustep {| umem := sh; uthr := th |} [UUnlocked t (shardOf key)] {| umem := sh'; uthr := fupd th t (At k) |}.

  (** A run; the trace is in order of time. *)
  Inductive uruns : uconfig -> list uevent -> uconfig -> Prop :=
  | uruns_refl c : uruns c [] c
  | uruns_step c tr c' ev c'' : uruns c tr c' -> ustep c' ev c'' -> uruns c (tr ++ ev) c''.

  (** A new map; goroutine [t] runs [clients t]. *)
  Definition ustart (clients : nat -> client) : uconfig :=
    {| umem := {| items := fun _ => []; mu := fun _ => {| writer := None; readers := [] |} |};
       uthr := fun t => At (clients t) |}.
End Outer.
Arguments client : clear implicits.
Arguments ustate : clear implicits.
Arguments uconfig : clear implicits.
Arguments uevent : clear implicits.
