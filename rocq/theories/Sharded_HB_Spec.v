(** What the calls of a Sharded pass on. *)
From Verif Require Import Base GoMap Sharded_Model.
Local Open Scope list_scope.

Section Sharded.
  Context {K V : Type} (eqb : K -> K -> bool).

  (** [o] may put the entry [k], [v] into the map. *)
  Definition puts (o : op K V) (k : K) (v : V) : Prop :=
    match o with
    | OSet key w | OTrySet key w | OGetOrSetDefault key w => k = key /\ v = w
    | OGetOrSetFactory key (Some w) => k = key /\ v = w
    | OIterateShards fn => exists m, In (k, v) (fn m)
    | _ => False
    end.

  (** What a result tells about an entry of the map: the value of a key, that
      a key is there, the entry itself, the key itself, the value. *)
  Inductive clue : Type :=
  | ValueOf (key : K) (v : V) | Present (key : K) | TheEntry (k : K) (v : V) | TheKey (k : K) | TheValue (v : V).
  Definition fits (c : clue) (k : K) (v : V) : Prop :=
    match c with
    | ValueOf key w => eqb k key = true /\ v = w
    | Present key => eqb k key = true
    | TheEntry k' v' => k = k' /\ v = v'
    | TheKey k' => k = k'
    | TheValue v' => v = v'
    end.
  (** The call [o] that returned [r] has shown its caller the clue. *)
  Definition shows (o : op K V) (r : res K V) (c : clue) : Prop :=
    match o, r with
    | OGet key, RVal v => c = ValueOf key v
    | OTryGet key, ROpt v true | OGetOrSetDefault key _, ROpt v true | OGetOrSetFactory key _, ROpt v true => c = ValueOf key v
    | OTrySet key _, RBool false | OHas key, RBool true => c = Present key
    | OKeys, RKeys l => exists k, In k l /\ c = TheKey k
    | OValues, RVals l => exists v, In v l /\ c = TheValue v
    | OEntries, REntries l | OToMap, RMap l | OIterate _, RSeen l _ => exists k v, In (k, v) l /\ c = TheEntry k v
    | OIterateShardsReadOnly, RMaps ls => exists l k v, In l ls /\ In (k, v) l /\ c = TheEntry k v
    | _, _ => False
    end.
End Sharded.
Arguments clue : clear implicits.
