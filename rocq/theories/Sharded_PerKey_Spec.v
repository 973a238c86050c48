(** xmap.Sharded seen one key at a time: what each call does to the entry of the
    key [x], and what its answer says about it. *)
From Verif Require Import Base GoMap XMap_Spec Sharded_Model Sharded_Spec Sharded_Keys_Spec.

Section PerKey.
  Context {K V : Type} (eqb : K -> K -> bool) (zero : V) (x : K).
  Notation op := (op K V).
  Notation res := (res K V).
  Notation event := (event K V).

  (** The entry of [x]: its value, if it is there. *)
  Notation cell := (option V).

  (** The map that has no other entry. *)
  Definition only (c : cell) : gomap K V := match c with Some v => [(x, v)] | None => [] end.

  (** What a call makes of the entry. *)
  Definition after (o : op) (c : cell) : cell :=
    match o with
    | OSet k v => if eqb k x then Some v else c
    | ODelete k => if eqb k x then None else c
    | OTrySet k v | OGetOrSetDefault k v | OGetOrSetFactory k (Some v) =>
        match c with None => if eqb k x then Some v else None | Some _ => c end
    | OClear => None
    | OIterateShards fn => gget eqb (fn (only c)) x
    | _ => c
    end.

  (** [l] tells of the entry once if it is there and else not at all. *)
  Definition told (c : cell) (l : list (K * V)) : Prop :=
    map snd (filter (fun e => eqb (fst e) x) l) = match c with Some v => [v] | None => [] end.

  (** The answers to a call that takes effect when the entry is [c]. *)
  Definition reply (o : op) (c : cell) (r : res) : Prop :=
    match o with
    | OSet _ _ | ODelete _ | OClear | OIterateShards _ => r = RUnit
    | OTrySet k _ => eqb k x = true -> r = RBool (match c with Some _ => false | None => true end)
    | OGet k => eqb k x = true -> r = match c with Some v => RVal v | None => RPanic end
    | OTryGet k => eqb k x = true -> r = match c with Some v => ROpt v true | None => ROpt zero false end
    | OHas k => eqb k x = true -> r = RBool (match c with Some _ => true | None => false end)
    | OGetOrSetDefault k v =>
        eqb k x = true -> r = match c with Some v' => ROpt v' true | None => ROpt v false end
    | OGetOrSetFactory k f =>
        eqb k x = true ->
        r = match c, f with
            | Some v', _ => ROpt v' true
            | None, Some v => ROpt v false
            | None, None => RPanic
            end
    | _ => tells (told c) o r
    end.

  (** [explained tr c p]: the calls and returns [tr] can be explained by every
      call having taken effect on the entry at one instant between its call and
      its return; the entry is [c] now, and goroutine t is at [p t]: [KDone o c0]
      means that its call took effect when the entry was [c0]. *)
  Inductive kphase : Type := KIdle | KPending (o : op) | KDone (o : op) (c : cell).

  Inductive explained : list event -> cell -> (nat -> kphase) -> Prop :=
  | ex_init : explained [] None (fun _ => KIdle)
  | ex_inv tr c p t o : explained tr c p -> p t = KIdle ->
      explained (tr ++ [EInv t o]) c (fupd p t (KPending o))
  | ex_effect tr c p t o : explained tr c p -> p t = KPending o ->
      explained tr (after o c) (fupd p t (KDone o c))
  | ex_ret tr c p t o c0 r : explained tr c p -> p t = KDone o c0 -> reply o c0 r ->
      explained (tr ++ [ERet t o r]) c (fupd p t KIdle)
  | ex_call tr c p t o : explained tr c p -> explained (tr ++ [ECall t o]) c p.

  Definition atomicAt (tr : list event) : Prop := exists c p, explained tr c p.
End PerKey.
Arguments kphase : clear implicits.

(** A callback of IterateShards that treats == keys alike. *)
Definition alike {K V} (eqb : K -> K -> bool) (g : K -> V -> option V) : Prop :=
  forall k k' v, eqb k k' = true -> g k v = g k' v.

(** The calls: IterateShards only with callbacks that go through the entries. *)
Definition sweeps {K V} (eqb : K -> K -> bool) (o : op K V) : Prop :=
  match o with
  | OIterateShards fn => exists g, alike eqb g /\ forall m, fn m = entrywise g m
  | _ => True
  end.
