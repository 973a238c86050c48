(** Which uses of a Sharded map from inside its callbacks are allowed. *)
From Verif Require Import Base GoMap Sharded_Model Sharded_Reent_Model.

Section Spec.
  Context {K V : Type} (nsh : nat) (hasher : K -> option Z) (hashable : K -> bool).
  Notation op := (op K V).
  Notation code := (code K V).
  Notation shardOf := (shardOf nsh hasher).

  (** The key of a call, and whether it may write under that key. *)
  Definition keyOf (o : op) : option (K * bool) :=
    match o with
    | OSet key _ | OTrySet key _ | ODelete key | OGetOrSetDefault key _ | OGetOrSetFactory key _ => Some (key, true)
    | OGet key | OTryGet key | OHas key => Some (key, false)
    | _ => None
    end.

  (** [o] cannot return without having locked shard [s]. *)
  Definition touches (o : op) (s : nat) : Prop :=
    match keyOf o with
    | Some (key, _) => shardOf key = Some s
    | None => (s < nsh)%nat /\
        match o with
        | OEmpty => s = 0%nat                                  (* stops at the first entry *)
        | OIterate fn => s = 0%nat \/ forall k v, fn k v = true  (* stops when fn panics *)
        | _ => True
        end
    end.

  (** What a goroutine holds: shards with [true] for exclusive; the latest first. *)
  Definition holds : Type := list (nat * bool).

  Section Discipline.
    (** [adm h s ex]: a goroutine that holds [h] may lock [s]. *)
    Context (adm : holds -> nat -> bool -> Prop).

    (** All the keys of [l] belong to shard [s]. *)
    Definition placed (s : nat) (l : list (K * V)) : Prop := forall k v, In (k, v) l -> shardOf k = Some s.

    (** A call under [key]: it panics at once, or locks the shard of [key]. *)
    Definition okKey (h : holds) (key : K) (ex : bool) : Prop :=
      match shardOf key with
      | None => True
      | Some s => hashable key = true /\ adm h s false /\ (ex = true -> adm h s true)
      end.

    Definition okOp (h : holds) (o : op) : Prop :=
      match keyOf o with
      | Some (key, ex) => okKey h key ex
      | None => forall s, (s < nsh)%nat ->
          match o with
          | OIterateShards g => adm h s true /\ forall m, placed s m -> placed s (g m)
          | _ => adm h s false
          end
      end.

    (** Every lock [c] asks for, in callbacks too, is admitted.  The callbacks of
        Iterate run while holding the shard of their key. *)
    Fixpoint okCode (h : holds) (c : code) : Prop :=
      match c with
      | Done _ => True
      | Do o k => okOp h o /\ forall r, okCode h (k r)
      | DoGetOrSetFactory key factory k =>
          okKey h key true /\
          (forall s, shardOf key = Some s -> okCode ((s, true) :: h) factory) /\
          forall r, okCode h (k r)
      | DoIterate fn k =>
          (forall s, (s < nsh)%nat -> adm h s false /\
             forall key v, shardOf key = Some s -> okCode ((s, false) :: h) (fn key v)) /\
          forall r, okCode h (k r)
      | DoIterateShards fn g k =>
          (forall s, (s < nsh)%nat -> adm h s true /\ okCode ((s, true) :: h) fn /\
             forall m, placed s m -> placed s (g m)) /\
          forall r, okCode h (k r)
      | DoIterateShardsReadOnly fn k =>
          (forall s, (s < nsh)%nat -> adm h s false /\
             forall l, placed s l -> okCode ((s, false) :: h) (fn l)) /\
          forall r, okCode h (k r)
      end.
  End Discipline.

  (** No lock is asked for while held, unless both are shared. *)
  Definition notHeld (h : holds) (s : nat) (ex : bool) : Prop :=
    forall ex', In (s, ex') h -> ex = false /\ ex' = false.

  (** Locks are asked for in increasing order of [rank]. *)
  Definition inOrder (rank : nat -> nat) (h : holds) (s : nat) (ex : bool) : Prop :=
    forall s' ex', In (s', ex') h -> (rank s' < rank s)%nat.

  (** No callback of [c] calls the map. *)
  Fixpoint flat (c : code) : Prop :=
    match c with
    | Done _ => True
    | Do o k => (forall g, o <> OIterateShards g) /\ forall r, flat (k r)
    | _ => False
    end.
End Spec.

(** Every execution from [c], whatever the schedule, gets to [P]: none stops or
    runs for ever before. *)
Inductive inevitably {K V : Type} (P : state K V -> Prop) : state K V -> Prop :=
| inev_now c : P c -> inevitably P c
| inev_next c : (exists c', step c c') -> (forall c', step c c' -> inevitably P c') -> inevitably P c.
