(** Model of ds/xmap/sharded.go when callbacks call the map again, and when keys
    cannot be hashed.  Each method is written in continuation-passing style over
    the instructions of Sharded_Model: [k r] is what the goroutine does after the
    method returned [r].  [k RPanic] is what it does after a panic, which it may
    have recovered from; locks that no defer releases are then still held. *)
From Coq Require Import Permutation.
From Verif Require Import Base GoMap Sharded_Model.

Section Reent.
  Context {K V : Type} (eqb : K -> K -> bool) (zero : V) (nsh : nat).
  (** m.hasher(key, m.seed), sharded.go:16-17; [None]: it panics.  [hashable key]
      is false when indexing a Go map with [key] panics (an interface key that
      holds a slice, a map or a function). *)
  Context (hasher : K -> option Z) (hashable : K -> bool).
  Notation prog := (prog K V).
  Notation res := (res K V).
  Notation op := (op K V).

  (** sharded.go:46-52 GetShard; the hasher is not used when there is one shard. *)
  Definition shardOf (key : K) : option nat :=
    if Nat.eqb nsh 1 then Some 0%nat
    else match hasher key with
         | None => None
         | Some h => Some (Z.to_nat (h mod Z.of_nat nsh))
         end.

  (** shard := m.GetShard(key) *)
  Definition withShard (key : K) (k : res -> prog) (body : nat -> prog) : prog :=
    match shardOf key with None => k RPanic | Some s => body s end.

  (** An access to shard.items[key] outside of any defer. *)
  Definition index (key : K) (k : res -> prog) (p : prog) : prog :=
    if hashable key then p else k RPanic.

  Definition setC (key : K) (v : V) (k : res -> prog) : prog :=          (* sharded.go:54-59 *)
    withShard key k (fun s =>
      Lock s (index key k (Write s (fun m => gset eqb m key v) (Unlock s (k RUnit))))).

  Definition trySetC (key : K) (v : V) (k : res -> prog) : prog :=       (* sharded.go:61-70 *)
    withShard key k (fun s =>
      Lock s (index key k (Read s (fun m =>
        let found := has eqb m key in
        let fin := Unlock s (k (RBool (negb found))) in
        if found then fin else Write s (fun m => gset eqb m key v) fin)))).

  Definition tryGetC (key : K) (k : res -> prog) : prog :=               (* sharded.go:80-86 *)
    withShard key k (fun s =>
      RLock s (index key k (Read s (fun m =>
        let '(val, found) := get2 eqb zero m key in RUnlock s (k (ROpt val found)))))).

  Definition getC (key : K) (k : res -> prog) : prog :=                  (* sharded.go:72-78 *)
    tryGetC key (fun r => match r with
                          | ROpt value true => k (RVal value)
                          | _ => k RPanic
                          end).

  Definition hasC (key : K) (k : res -> prog) : prog :=                  (* sharded.go:141-147 *)
    withShard key k (fun s =>
      RLock s (index key k (Read s (fun m => RUnlock s (k (RBool (has eqb m key))))))).

  Definition deleteC (key : K) (k : res -> prog) : prog :=               (* sharded.go:149-154 *)
    withShard key k (fun s =>
      Lock s (index key k (Write s (fun m => gdel eqb m key) (Unlock s (k RUnit))))).

  (** sharded.go:88-101 GetOrSetFactory.  [factory k'] runs the factory and goes
      on with [k' (Some v)] when it returns v, with [k' None] when it panics.  From
      the Lock on, a panic runs the deferred Unlock. *)
  Definition getOrSetFactoryC (key : K) (factory : (option V -> prog) -> prog) (k : res -> prog) : prog :=
    tryGetC key (fun r => match r with
      | ROpt oldValue true => k (ROpt oldValue true)
      | ROpt _ false =>
          withShard key k (fun s =>
            Lock s (index key (fun r => Unlock s (k r)) (Read s (fun m =>
              let '(oldValue, ok) := get2 eqb zero m key in
              if ok then Unlock s (k (ROpt oldValue true)) else
              Call (factory (fun a => match a with
                | None => Unlock s (k RPanic)
                | Some newValue =>
                    Write s (fun m => gset eqb m key newValue) (Unlock s (k (ROpt newValue false)))
                end))))))
      | _ => k RPanic
      end).

  Definition getOrSetDefaultC (key : K) (v : V) (k : res -> prog) : prog := (* sharded.go:103-115 *)
    tryGetC key (fun r => match r with
      | ROpt oldValue true => k (ROpt oldValue true)
      | ROpt _ false =>
          withShard key k (fun s =>
            Lock s (index key (fun r => Unlock s (k r)) (Read s (fun m =>
              let '(oldValue, ok) := get2 eqb zero m key in
              if ok then Unlock s (k (ROpt oldValue true)) else
              Write s (fun m => gset eqb m key v) (Unlock s (k (ROpt v false)))))))
      | _ => k RPanic
      end).

  (** sharded.go:159-170 Iterate, as Sharded_Model.iterateP, with [fn key value k']
      running the callback. *)
  Fixpoint iterLoopC (s : nat) (fn : K -> V -> (option V -> prog) -> prog) (l seen : list (K * V))
    (k : res -> prog) (next : list (K * V) -> prog) : prog :=
    match l with
    | [] => RUnlock s (next seen)
    | (key, value) :: l' =>
        let seen' := seen ++ [(key, value)] in
        Read s (fun _ => Call (fn key value (fun a => match a with
          | Some _ => iterLoopC s fn l' seen' k next
          | None => RUnlock s (k (RSeen seen' false))
          end)))
    end.
  Fixpoint iterateC (ss : list nat) (fn : K -> V -> (option V -> prog) -> prog) (seen : list (K * V))
    (k : res -> prog) : prog :=
    match ss with
    | [] => k (RSeen seen true)
    | s :: ss' => RLock s (Range s (fun l => iterLoopC s fn l seen k (fun seen' => iterateC ss' fn seen' k)))
    end.

  (** sharded.go:172-181 IterateShards.  The callback changes the map it is given
      by [g]; the change is made at once, after its calls. *)
  Fixpoint iterateShardsC (ss : list nat) (fn : (option V -> prog) -> prog) (g : gomap K V -> gomap K V)
    (k : res -> prog) : prog :=
    match ss with
    | [] => k RUnit
    | s :: ss' => Lock s (Call (fn (fun a => match a with
        | Some _ => Write s g (Unlock s (iterateShardsC ss' fn g k))
        | None => Unlock s (k RPanic)
        end)))
    end.

  (** sharded.go:183-192 IterateShardsReadOnly; the callback is given the entries. *)
  Fixpoint iterateShardsReadOnlyC (ss : list nat) (fn : list (K * V) -> (option V -> prog) -> prog)
    (k : res -> prog) : prog :=
    match ss with
    | [] => k RUnit
    | s :: ss' => RLock s (Range s (fun l => Call (fn l (fun a => match a with
        | Some _ => RUnlock s (iterateShardsReadOnlyC ss' fn k)
        | None => RUnlock s (k RPanic)
        end))))
    end.

  (** [p], then [k] with its result. *)
  Fixpoint bindP (p : prog) (k : res -> prog) : prog :=
    match p with
    | Ret r => k r
    | RLock s p' => RLock s (bindP p' k)
    | RUnlock s p' => RUnlock s (bindP p' k)
    | Lock s p' => Lock s (bindP p' k)
    | LockWait s p' => LockWait s (bindP p' k)
    | Unlock s p' => Unlock s (bindP p' k)
    | Read s p' => Read s (fun m => bindP (p' m) k)
    | Range s p' => Range s (fun l => bindP (p' l) k)
    | Write s f p' => Write s f (bindP p' k)
    | Call p' => Call (bindP p' k)
    end.

  (** A method whose callback, if any, leaves the map alone.  The methods without
      a key are those of Sharded_Model. *)
  Definition opC (o : op) (k : res -> prog) : prog :=
    match o with
    | OSet key v => setC key v k
    | OTrySet key v => trySetC key v k
    | OGet key => getC key k
    | OTryGet key => tryGetC key k
    | OHas key => hasC key k
    | ODelete key => deleteC key k
    | OGetOrSetDefault key v => getOrSetDefaultC key v k
    | OGetOrSetFactory key factory => getOrSetFactoryC key (fun k' => k' factory) k
    | _ => bindP (progOf eqb zero nsh (fun _ => 0) o) k
    end.

  (** What a goroutine, or a callback, does with the map: calls, one after the
      other, each depending on the results of those before; then it returns
      [Some v], or panics, [None]. *)
  Inductive code : Type :=
  | Done (r : option V)
  | Do (o : op) (k : res -> code)
  | DoGetOrSetFactory (key : K) (factory : code) (k : res -> code)
  | DoIterate (fn : K -> V -> code) (k : res -> code)
  | DoIterateShards (fn : code) (g : gomap K V -> gomap K V) (k : res -> code)
  | DoIterateShardsReadOnly (fn : list (K * V) -> code) (k : res -> code).

  Fixpoint compile (c : code) (fin : option V -> prog) : prog :=
    match c with
    | Done r => fin r
    | Do o k => opC o (fun r => compile (k r) fin)
    | DoGetOrSetFactory key factory k =>
        getOrSetFactoryC key (fun k' => compile factory k') (fun r => compile (k r) fin)
    | DoIterate fn k =>
        iterateC (allShards nsh) (fun key value k' => compile (fn key value) k') []
          (fun r => compile (k r) fin)
    | DoIterateShards fn g k =>
        iterateShardsC (allShards nsh) (fun k' => compile fn k') g (fun r => compile (k r) fin)
    | DoIterateShardsReadOnly fn k =>
        iterateShardsReadOnlyC (allShards nsh) (fun l k' => compile (fn l) k') (fun r => compile (k r) fin)
    end.

  (** Goroutine [t] runs [codes t] and finishes with its result. *)
  Definition finish (r : option V) : prog :=
    Ret match r with Some v => RVal v | None => RPanic end.

  Record state : Type := { mem : shared K V; run : nat -> prog }.

  Definition start (codes : nat -> code) : state :=
    {| mem := {| items := fun _ => []; mu := fun _ => {| writer := None; readers := [] |} |};
       run := fun t => compile (codes t) finish |}.

  Inductive step : state -> state -> Prop :=
  | step_tau t sh sh' r p' : tstep t (r t) sh p' sh' ->
      step {| mem := sh; run := r |} {| mem := sh'; run := fupd r t p' |}
  | step_call t sh r p' : r t = Call p' ->
      step {| mem := sh; run := r |} {| mem := sh; run := fupd r t p' |}.

  Inductive steps : state -> state -> Prop :=
  | steps_refl c : steps c c
  | steps_next c c' c'' : steps c c' -> step c' c'' -> steps c c''.

  (** Goroutine [t] has returned [r]. *)
  Definition returned (c : state) (t : nat) (r : res) : Prop := run c t = Ret r.
End Reent.
Arguments code : clear implicits.
Arguments state : clear implicits.
