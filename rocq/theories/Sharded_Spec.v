(** What xmap.Sharded should do, in terms of the history of calls only. *)
From Coq Require Import Permutation.
From Verif Require Import Base GoMap XMap_Spec Sharded_Model.

Section Spec.
  Context {K V : Type} (eqb : K -> K -> bool) (zero : V).
  Notation op := (op K V).
  Notation res := (res K V).
  Notation event := (event K V).

  (** Value of [x] after the calls [h], latest first, on one map. *)
  Fixpoint value (h : list op) (x : K) : option V :=
    match h with
    | [] => None
    | OSet k v :: h' => if eqb k x then Some v else value h' x
    | ODelete k :: h' => if eqb k x then None else value h' x
    | OTrySet k v :: h' | OGetOrSetDefault k v :: h' | OGetOrSetFactory k (Some v) :: h' =>
        match value h' k with
        | None => if eqb k x then Some v else value h' x
        | Some _ => value h' x
        end
    | OClear :: _ => None
    | _ :: h' => value h' x
    end.

  Definition present (h : list op) (k : K) : bool :=
    match value h k with Some _ => true | None => false end.

  (** The answers of one map to the single-key calls after the calls [h]. *)
  Definition answer1 (h : list op) (o : op) (r : res) : Prop :=
    match o with
    | OSet _ _ | ODelete _ => r = RUnit
    | OTrySet k _ => r = RBool (negb (present h k))
    | OGet k => r = match value h k with Some v => RVal v | None => RPanic end
    | OTryGet k => r = match value h k with Some v => ROpt v true | None => ROpt zero false end
    | OHas k => r = RBool (present h k)
    | OGetOrSetDefault k v =>
        r = match value h k with Some v' => ROpt v' true | None => ROpt v false end
    | OGetOrSetFactory k f =>
        r = match value h k, f with
            | Some v', _ => ROpt v' true
            | None, Some v => ROpt v false
            | None, None => RPanic
            end
    | _ => True
    end.

  (** [l] holds exactly the entries of the map, each once. *)
  Definition allEntries (h : list op) (l : list (K * V)) : Prop :=
    NoDup (map fst l) /\ forall k v, In (k, v) l <-> value h k = Some v.

  (** Calls that look at the whole map. *)
  Definition looks (o : op) : Prop :=
    match o with
    | OLen | OEmpty | OKeys | OValues | OEntries | OToMap | OIterate _ | OIterateShardsReadOnly => True
    | _ => False
    end.

  (** The answers to the calls that look at the whole map: [r] tells of a list
      of entries [l] with [P l]. *)
  Definition tells (P : list (K * V) -> Prop) (o : op) (r : res) : Prop :=
    match o with
    | OLen => exists l, P l /\ r = RInt (zlen l)
    | OEmpty => exists l, P l /\ r = RBool (match l with [] => true | _ => false end)
    | OKeys => exists l, P l /\ r = RKeys (map fst l)
    | OValues => exists l, P l /\ r = RVals (map snd l)
    | OEntries => exists l, P l /\ r = REntries l
    | OToMap => exists l, P l /\ r = RMap l
    | OClear => r = RUnit
    | OIterateShardsReadOnly => exists ls, P (List.concat ls) /\ r = RMaps ls
    | OIterate fn =>
        exists seen rest returned, P (seen ++ rest) /\ r = RSeen seen returned /\
        (* all were visited, or fn panicked at the last one visited *)
        (if returned : bool then rest = [] /\ forall k v, In (k, v) seen -> fn k v = true
         else exists before k v, seen = before ++ [(k, v)] /\ fn k v = false /\
              forall k v, In (k, v) before -> fn k v = true)
    | _ => True
    end.

  (** The answers of one map to all calls. *)
  Definition answer (h : list op) (o : op) (r : res) : Prop :=
    answer1 h o r /\ tells (allEntries h) o r.

  (** [happened h0 new h]: the map passed through the state after the calls [h]
      while the calls [new], latest first, took effect after [h0]. *)
  Definition happened (h0 new h : list op) : Prop :=
    exists later earlier, new = later ++ earlier /\ h = earlier ++ h0.

  (** What a look at the whole map may tell while the calls [new] take effect:
      no key twice, no entry that was not there at some moment, and every key
      that was there all the time. *)
  Definition weakEntries (h0 new : list op) (l : list (K * V)) : Prop :=
    NoDup (map fst l) /\
    (forall k v, In (k, v) l -> exists h, happened h0 new h /\ value h k = Some v) /\
    (forall k, (forall h, happened h0 new h -> value h k <> None) -> In k (map fst l)).

  (** ** Linearizability *)

  (** [linearized tr h p]: the calls and returns [tr] can be explained by the
      calls having taken effect one at a time, the latest first in [h], each
      between its call and its return.  [p t] says where goroutine t is.
      [linearizedFrom tr0 h0 p0] goes on from there. *)
  Inductive phase : Type := PIdle | PPending (o : op) | PDone (o : op) (r : res).

  Inductive linearizedFrom (tr0 : list event) (h0 : list op) (p0 : nat -> phase) :
    list event -> list op -> (nat -> phase) -> Prop :=
  | lin_init : linearizedFrom tr0 h0 p0 tr0 h0 p0
  | lin_inv tr h p t o : linearizedFrom tr0 h0 p0 tr h p -> p t = PIdle ->
      linearizedFrom tr0 h0 p0 (tr ++ [EInv t o]) h (fupd p t (PPending o))
  | lin_effect tr h p t o r : linearizedFrom tr0 h0 p0 tr h p -> p t = PPending o -> answer1 h o r ->
      linearizedFrom tr0 h0 p0 tr (o :: h) (fupd p t (PDone o r))
  | lin_ret tr h p t o r : linearizedFrom tr0 h0 p0 tr h p -> p t = PDone o r ->
      linearizedFrom tr0 h0 p0 (tr ++ [ERet t o r]) h (fupd p t PIdle)
  | lin_call tr h p t o : linearizedFrom tr0 h0 p0 tr h p ->
      linearizedFrom tr0 h0 p0 (tr ++ [ECall t o]) h p.

  Definition linearized : list event -> list op -> (nat -> phase) -> Prop :=
    linearizedFrom [] [] (fun _ => PIdle).

  Definition linearizable (tr : list event) : Prop := exists h p, linearized tr h p.

  (** Returned calls and their results, in order of return. *)
  Fixpoint returns (tr : list event) : list (op * res) :=
    match tr with
    | [] => []
    | ERet _ o r :: tr' => (o, r) :: returns tr'
    | _ :: tr' => returns tr'
    end.
End Spec.
Arguments phase : clear implicits.
