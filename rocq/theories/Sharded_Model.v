(** Model of ds/xmap/sharded.go: a map split over shards, each behind its own
    sync.RWMutex, used by any number of goroutines.

    A method is a tree of instructions.  An instruction is atomic; what happens
    between two instructions of one goroutine is up to the scheduler.  Accesses
    to a shard's map are instructions of their own, so that two of them being
    enabled at once is a data race. *)
From Coq Require Import Permutation.
From Verif Require Import Base GoMap.
Local Open Scope string_scope.
Local Open Scope list_scope.
Local Open Scope Z_scope.

Definition fupd {A} (f : nat -> A) (i : nat) (a : A) : nat -> A :=
  fun j => if Nat.eqb i j then a else f j.

Section Sharded.
  Context {K V : Type} (eqb : K -> K -> bool) (zero : V).
  (** len(m.shards) and m.hasher(key, m.seed) of sharded.go:14-18. *)
  Context (nsh : nat) (hash : K -> Z).

  (** Results; [RPanic] is a panic reaching the caller. *)
  Inductive res : Type :=
  | RUnit | RBool (b : bool) | RVal (v : V) | ROpt (v : V) (found : bool) | RInt (n : Z)
  | RKeys (l : list K) | RVals (l : list V) | REntries (l : list (K * V)) | RMap (m : gomap K V)
  | RMaps (l : list (list (K * V))) | RSeen (l : list (K * V)) (returned : bool) | RPanic.

  Inductive prog : Type :=
  | Ret (r : res)
  | RLock (s : nat) (k : prog) | RUnlock (s : nat) (k : prog)
  | Lock (s : nat) (k : prog) | LockWait (s : nat) (k : prog) | Unlock (s : nat) (k : prog)
  | Read (s : nat) (k : gomap K V -> prog)            (* read shard.items *)
  | Range (s : nat) (k : list (K * V) -> prog)        (* range over shard.items *)
  | Write (s : nat) (f : gomap K V -> gomap K V) (k : prog)
  | Call (k : prog).                                  (* run a user callback *)

  (** The API.  What a callback does is a parameter of the call: [None] is a
      factory that panics; [fn] of Iterate says whether it returns. *)
  Inductive op : Type :=
  | OSet (key : K) (v : V) | OTrySet (key : K) (v : V) | OGet (key : K) | OTryGet (key : K)
  | OHas (key : K) | ODelete (key : K)
  | OGetOrSetDefault (key : K) (v : V) | OGetOrSetFactory (key : K) (factory : option V)
  | OLen | OEmpty | OKeys | OValues | OEntries | OToMap | OClear
  | OIterate (fn : K -> V -> bool) | OIterateShardsReadOnly
  | OIterateShards (fn : gomap K V -> gomap K V).

  (** sharded.go:46-52 GetShard. *)
  Definition GetShard (key : K) : nat :=
    if Nat.eqb nsh 1 then 0%nat else Z.to_nat (hash key mod Z.of_nat nsh).

  Definition has (m : gomap K V) (key : K) : bool :=
    match gget eqb m key with Some _ => true | None => false end.
  (** v, found := m[key] *)
  Definition get2 (m : gomap K V) (key : K) : V * bool :=
    match gget eqb m key with Some v => (v, true) | None => (zero, false) end.

  (** sharded.go:80-86 TryGet, with what follows it. *)
  Definition tryGetK (key : K) (k : V -> bool -> prog) : prog :=
    let s := GetShard key in
    RLock s (Read s (fun m => let '(val, found) := get2 m key in RUnlock s (k val found))).

  Definition setP (key : K) (v : V) : prog :=                        (* sharded.go:54-59 *)
    let s := GetShard key in
    Lock s (Write s (fun m => gset eqb m key v) (Unlock s (Ret RUnit))).

  Definition trySetP (key : K) (v : V) : prog :=                     (* sharded.go:61-70 *)
    let s := GetShard key in
    Lock s (Read s (fun m =>
      let found := has m key in
      let fin := Unlock s (Ret (RBool (negb found))) in
      if found then fin else Write s (fun m => gset eqb m key v) fin)).

  Definition getP (key : K) : prog :=                                (* sharded.go:72-78 *)
    tryGetK key (fun value found => Ret (if found then RVal value else RPanic)).

  Definition tryGetP (key : K) : prog :=
    tryGetK key (fun value found => Ret (ROpt value found)).

  Definition getOrSetFactoryP (key : K) (factory : option V) : prog := (* sharded.go:88-101 *)
    tryGetK key (fun oldValue ok =>
      if ok then Ret (ROpt oldValue true) else
      let s := GetShard key in
      Lock s (Read s (fun m =>
        let '(oldValue, ok) := get2 m key in
        if ok then Unlock s (Ret (ROpt oldValue true)) else
        Call match factory with
             | None => Unlock s (Ret RPanic)       (* the deferred Unlock runs *)
             | Some newValue =>
                 Write s (fun m => gset eqb m key newValue)
                   (Unlock s (Ret (ROpt newValue false)))
             end))).

  Definition getOrSetDefaultP (key : K) (v : V) : prog :=            (* sharded.go:103-115 *)
    tryGetK key (fun oldValue ok =>
      if ok then Ret (ROpt oldValue true) else
      let s := GetShard key in
      Lock s (Read s (fun m =>
        let '(oldValue, ok) := get2 m key in
        if ok then Unlock s (Ret (ROpt oldValue true)) else
        Write s (fun m => gset eqb m key v) (Unlock s (Ret (ROpt v false)))))).

  Fixpoint lenP (ss : list nat) (count : Z) : prog :=                (* sharded.go:117-126 *)
    match ss with
    | [] => Ret (RInt count)
    | s :: ss' => RLock s (Read s (fun m => RUnlock s (lenP ss' (count + glen m))))
    end.

  Fixpoint emptyP (ss : list nat) : prog :=                          (* sharded.go:128-139 *)
    match ss with
    | [] => Ret (RBool true)
    | s :: ss' => RLock s (Read s (fun m => RUnlock s
                    (if glen m >? 0 then Ret (RBool false) else emptyP ss')))
    end.

  Definition hasP (key : K) : prog :=                                (* sharded.go:141-147 *)
    let s := GetShard key in
    RLock s (Read s (fun m => RUnlock s (Ret (RBool (has m key))))).

  Definition deleteP (key : K) : prog :=                             (* sharded.go:149-154 *)
    let s := GetShard key in
    Lock s (Write s (fun m => gdel eqb m key) (Unlock s (Ret RUnit))).

  (** sharded.go:159-170 Iterate: each round of the range loop touches the map
      and calls [fn]; a panic runs the deferred RUnlock and leaves. *)
  Fixpoint iterLoop (s : nat) (fn : K -> V -> bool) (l seen : list (K * V))
    (next : list (K * V) -> prog) : prog :=
    match l with
    | [] => RUnlock s (next seen)
    | (key, value) :: l' =>
        Read s (fun _ => Call
          (if fn key value then iterLoop s fn l' (seen ++ [(key, value)]) next
           else RUnlock s (Ret (RSeen (seen ++ [(key, value)]) false))))
    end.
  Fixpoint iterateP (ss : list nat) (fn : K -> V -> bool) (seen : list (K * V)) : prog :=
    match ss with
    | [] => Ret (RSeen seen true)
    | s :: ss' => RLock s (Range s (fun l => iterLoop s fn l seen (iterateP ss' fn)))
    end.

  (** sharded.go:172-181 IterateShards; [fn] may change the map it is given. *)
  Fixpoint iterateShardsP (ss : list nat) (fn : gomap K V -> gomap K V) : prog :=
    match ss with
    | [] => Ret RUnit
    | s :: ss' => Lock s (Call (Write s fn (Unlock s (iterateShardsP ss' fn))))
    end.

  (** sharded.go:183-192 IterateShardsReadOnly with a callback that ranges over
      the map it is given, accumulating with [step]. *)
  Fixpoint readOnlyP {A} (ss : list nat) (step : A -> list (K * V) -> A) (fin : A -> res) (acc : A) : prog :=
    match ss with
    | [] => Ret (fin acc)
    | s :: ss' => RLock s (Range s (fun l => RUnlock s (readOnlyP ss' step fin (step acc l))))
    end.

  (** sharded.go:241-250 Clear: the write happens under the read lock. *)
  Fixpoint clearP (ss : list nat) : prog :=
    match ss with
    | [] => Ret RUnit
    | s :: ss' => RLock s (Write s (fun _ => []) (RUnlock s (clearP ss')))
    end.

  Definition allShards : list nat := seq 0 nsh.

  Definition progOf (o : op) : prog :=
    match o with
    | OSet key v => setP key v
    | OTrySet key v => trySetP key v
    | OGet key => getP key
    | OTryGet key => tryGetP key
    | OHas key => hasP key
    | ODelete key => deleteP key
    | OGetOrSetDefault key v => getOrSetDefaultP key v
    | OGetOrSetFactory key factory => getOrSetFactoryP key factory
    | OLen => lenP allShards 0
    | OEmpty => emptyP allShards
    | OKeys =>                                                       (* sharded.go:194-202 *)
        readOnlyP allShards (fun keys l => keys ++ map fst l) RKeys []
    | OValues =>                                                     (* sharded.go:204-212 *)
        readOnlyP allShards (fun values l => values ++ map snd l) RVals []
    | OEntries =>                                                    (* sharded.go:214-225 *)
        readOnlyP allShards (fun es l => es ++ l) REntries []
    | OToMap =>                                                      (* sharded.go:227-235 *)
        readOnlyP allShards
          (fun ret l => fold_left (fun ret e => gset eqb ret (fst e) (snd e)) l ret) RMap []
    | OClear => clearP allShards
    | OIterate fn => iterateP allShards fn []
    | OIterateShardsReadOnly =>
        readOnlyP allShards (fun ms l => ms ++ [l]) RMaps []
    | OIterateShards fn => iterateShardsP allShards fn
    end.

  (** ** The shared state *)

  (** sync.RWMutex.  [writer = Some (t, false)]: t is waiting for the readers to
      leave and keeps new readers and writers out; [Some (t, true)]: t is in. *)
  Record rwmutex : Type := { writer : option (nat * bool); readers : list nat }.
  Record shared : Type := { items : nat -> gomap K V; mu : nat -> rwmutex }.

  (** sharded.go:30-44 NewShardedCustom. *)
  Definition NewShardedCustom (shards : Z) : outcome shared :=
    if shards <=? 0 then Panic "invalid number of shards" else
    Ok {| items := fun _ => []; mu := fun _ => {| writer := None; readers := [] |} |}.

  Definition setItems (sh : shared) (s : nat) (m : gomap K V) : shared :=
    {| items := fupd (items sh) s m; mu := mu sh |}.
  Definition setMu (sh : shared) (s : nat) (w : rwmutex) : shared :=
    {| items := items sh; mu := fupd (mu sh) s w |}.

  Fixpoint removeOne (t : nat) (l : list nat) : list nat :=
    match l with [] => [] | x :: l' => if Nat.eqb x t then l' else x :: removeOne t l' end.

  (** One instruction of goroutine [t]. *)
  Inductive tstep (t : nat) : prog -> shared -> prog -> shared -> Prop :=
  | t_rlock s k sh : writer (mu sh s) = None ->
      tstep t (RLock s k) sh k
        (setMu sh s {| writer := None; readers := t :: readers (mu sh s) |})
  | t_runlock s k sh : In t (readers (mu sh s)) ->
      tstep t (RUnlock s k) sh k
        (setMu sh s {| writer := writer (mu sh s); readers := removeOne t (readers (mu sh s)) |})
  | t_lock s k sh : writer (mu sh s) = None ->
      tstep t (Lock s k) sh (LockWait s k)
        (setMu sh s {| writer := Some (t, false); readers := readers (mu sh s) |})
  | t_lockwait s k sh : writer (mu sh s) = Some (t, false) -> readers (mu sh s) = [] ->
      tstep t (LockWait s k) sh k (setMu sh s {| writer := Some (t, true); readers := [] |})
  | t_unlock s k sh : writer (mu sh s) = Some (t, true) ->
      tstep t (Unlock s k) sh k (setMu sh s {| writer := None; readers := readers (mu sh s) |})
  | t_read s k sh : tstep t (Read s k) sh (k (items sh s)) sh
  | t_range s k l sh : Permutation l (items sh s) -> tstep t (Range s k) sh (k l) sh
  | t_write s f k sh : tstep t (Write s f k) sh k (setItems sh s (f (items sh s))).

  Inductive tstate : Type := Idle | Running (o : op) (p : prog).
  Record config : Type := { shm : shared; thr : nat -> tstate }.

  (** What an observer sees: calls, returns, and callbacks being run. *)
  Inductive event : Type := EInv (t : nat) (o : op) | ERet (t : nat) (o : op) (r : res) | ECall (t : nat) (o : op).

  (** [allow t o]: goroutine [t] may call [o]. *)
  Inductive cstep (allow : nat -> op -> Prop) : config -> list event -> config -> Prop :=
  | c_inv t o sh th : th t = Idle -> allow t o ->
      cstep allow {| shm := sh; thr := th |} [EInv t o]
        {| shm := sh; thr := fupd th t (Running o (progOf o)) |}
  | c_ret t o r sh th : th t = Running o (Ret r) ->
      cstep allow {| shm := sh; thr := th |} [ERet t o r] {| shm := sh; thr := fupd th t Idle |}
  | c_call t o p sh th : th t = Running o (Call p) ->
      cstep allow {| shm := sh; thr := th |} [ECall t o] {| shm := sh; thr := fupd th t (Running o p) |}
  | c_tau t o p p' sh sh' th : th t = Running o p -> tstep t p sh p' sh' ->
      cstep allow {| shm := sh; thr := th |} [] {| shm := sh'; thr := fupd th t (Running o p') |}.

  Definition initial : config :=
    {| shm := {| items := fun _ => []; mu := fun _ => {| writer := None; readers := [] |} |};
       thr := fun _ => Idle |}.

  (** Executions from a new map; the trace is in order of time. *)
  Inductive reach (allow : nat -> op -> Prop) : list event -> config -> Prop :=
  | reach_init : reach allow [] initial
  | reach_step tr c ev c' : reach allow tr c -> cstep allow c ev c' -> reach allow (tr ++ ev) c'.
End Sharded.
Arguments res : clear implicits.
Arguments prog : clear implicits.
Arguments op : clear implicits.
Arguments shared : clear implicits.
Arguments tstate : clear implicits.
Arguments config : clear implicits.
Arguments event : clear implicits.
