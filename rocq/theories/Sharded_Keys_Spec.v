(** xmap.Sharded next to one Go map, for every key type.  Go's == on the keys may
    be any partial equivalence: NaN is not equal to itself, and +0 and -0 are
    equal without being the same. *)
From Coq Require Import Permutation.
From Verif Require Import Base GoMap XMap_Spec Sharded_Model Sharded_Spec.

(** Keys that are == have the same hash.  The hash of other keys is arbitrary. *)
Definition hashRespects {K} (eqb : K -> K -> bool) (hash : K -> Z) : Prop :=
  forall x y, eqb x y = true -> hash x = hash y.

(** A callback of IterateShards that goes through the entries of the map it is
    given, deleting some and giving new values to others. *)
Fixpoint entrywise {K V} (g : K -> V -> option V) (m : gomap K V) : gomap K V :=
  match m with
  | [] => []
  | (k, v) :: m' => match g k v with Some v' => (k, v') :: entrywise g m' | None => entrywise g m' end
  end.

Section Spec.
  Context {K V : Type} (eqb : K -> K -> bool) (zero : V).
  Notation op := (op K V).
  Notation res := (res K V).

  (** One Go map after the calls [h], latest first. *)
  Fixpoint oneMap (h : list op) : gomap K V :=
    match h with
    | [] => []
    | OSet k v :: h' => gset eqb (oneMap h') k v
    | ODelete k :: h' => gdel eqb (oneMap h') k
    | OTrySet k v :: h' | OGetOrSetDefault k v :: h' | OGetOrSetFactory k (Some v) :: h' =>
        match gget eqb (oneMap h') k with
        | None => gset eqb (oneMap h') k v
        | Some _ => oneMap h'
        end
    | OClear :: _ => []
    | OIterateShards fn :: h' => fn (oneMap h')
    | _ :: h' => oneMap h'
    end.

  (** Its answers; iteration is in any order. *)
  Definition mapAnswer (h : list op) (o : op) (r : res) : Prop :=
    let m := oneMap h in
    match o with
    | OSet _ _ | ODelete _ | OClear | OIterateShards _ => r = RUnit
    | OTrySet k _ => r = RBool (match gget eqb m k with Some _ => false | None => true end)
    | OGet k => r = match gget eqb m k with Some v => RVal v | None => RPanic end
    | OTryGet k => r = match gget eqb m k with Some v => ROpt v true | None => ROpt zero false end
    | OHas k => r = RBool (match gget eqb m k with Some _ => true | None => false end)
    | OGetOrSetDefault k v =>
        r = match gget eqb m k with Some v' => ROpt v' true | None => ROpt v false end
    | OGetOrSetFactory k f =>
        r = match gget eqb m k, f with
            | Some v', _ => ROpt v' true
            | None, Some v => ROpt v false
            | None, None => RPanic
            end
    | OLen => r = RInt (glen m)
    | OEmpty => r = RBool (match m with [] => true | _ => false end)
    | _ => tells (fun l => Permutation l m) o r
    end.

  (** The calls: IterateShards only with entrywise callbacks. *)
  Definition ordinary (o : op) : Prop :=
    match o with
    | OIterateShards fn => exists g, forall m, fn m = entrywise g m
    | _ => True
    end.
End Spec.

(** Float64 keys: the bits of the number, and what the random number generator
    of the Go runtime will make of them if they are a NaN. *)
Definition floatKey : Type := Z * Z.
Definition isNaN64 (b : Z) : bool := (Z.land (Z.shiftr b 52) 2047 =? 2047) && negb (Z.land b (2 ^ 52 - 1) =? 0).
Definition isZero64 (b : Z) : bool := (b =? 0) || (b =? 2 ^ 63).
Definition floatEq (x y : floatKey) : bool :=
  negb (isNaN64 (fst x)) && negb (isNaN64 (fst y)) && ((fst x =? fst y) || (isZero64 (fst x) && isZero64 (fst y))).
(** A hash of floats as the runtime's: one value for both zeros, a random one for
    every NaN, [raw] of the bits for the others. *)
Definition floatHash (raw : Z -> Z) (x : floatKey) : Z :=
  if isNaN64 (fst x) then snd x else if isZero64 (fst x) then raw 0 else raw (fst x).
