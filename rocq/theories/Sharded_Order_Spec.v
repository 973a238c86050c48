(** Goroutines that lock the shards of an xmap.Sharded themselves, all in the
    same order. *)
From Verif Require Import Base GoMap Sharded_Model Sharded_Outer_Model Sharded_Outer_Spec.

Section OrderSpec.
  Context {K V : Type} (eqb : K -> K -> bool) (zero : V) (nsh : nat) (hash : K -> Z).
  (** The order: shard [s] comes before [s'] when [rank s < rank s']. *)
  Context (rank : nat -> nat).
  Notation shardOf := (GetShard nsh hash).

  (** The shards a goroutine holds, with [true] for Lock and [false] for RLock. *)
  Definition holding : Type := list (nat * bool).

  (** Shard [s] comes after all those held. *)
  Definition after (h : holding) (s : nat) : Prop := forall s' ex, In (s', ex) h -> (rank s' < rank s)%nat.

  (** The callback of IterateShards puts no key into a shard that is not its own. *)
  Definition keeps (o : op K V) : Prop :=
    match o with
    | OIterateShards g => forall s m, (s < nsh)%nat -> (forall k v, In (k, v) m -> shardOf k = s) ->
        forall k v, In (k, v) (g m) -> shardOf k = s
    | _ => True
    end.

  (** [c], begun while holding [h], locks shards and calls methods for a key only
      in the order, calls the other methods only while it holds nothing, unlocks
      what it has locked, in any order, and unlocks everything. *)
  Fixpoint ordered (h : holding) (c : client K V) : Prop :=
    match c with
    | CEnd => h = []
    | CDo o k =>
        match keyOf o with Some key => after h (shardOf key) | None => h = [] end /\
        keeps o /\ forall r, ordered h (k r)
    | CRLock key k => after h (shardOf key) /\ ordered ((shardOf key, false) :: h) k
    | CLock key k => after h (shardOf key) /\ ordered ((shardOf key, true) :: h) k
    | CRUnlock key k => exists h1 h2, h = h1 ++ (shardOf key, false) :: h2 /\ ordered (h1 ++ h2) k
    | CUnlock key k => exists h1 h2, h = h1 ++ (shardOf key, true) :: h2 /\ ordered (h1 ++ h2) k
    end.

  (** Every execution from [c], whatever the schedule, gets to [P]: none stops or
      runs for ever before. *)
  Inductive alwaysGetsTo (P : uconfig K V -> Prop) : uconfig K V -> Prop :=
  | agt_now c : P c -> alwaysGetsTo P c
  | agt_next c : (exists ev c', ustep eqb zero nsh hash c ev c') ->
      (forall ev c', ustep eqb zero nsh hash c ev c' -> alwaysGetsTo P c') -> alwaysGetsTo P c.

  (** Every goroutine has ended and every shard is unlocked. *)
  Definition ended (c : uconfig K V) : Prop :=
    (forall t, uthr c t = At CEnd) /\ forall s, mu (umem c) s = {| writer := None; readers := [] |}.
End OrderSpec.
