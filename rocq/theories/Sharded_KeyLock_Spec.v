(** A key of a Sharded used as a lock: who holds it, told from the calls and
    returns only. *)
From Verif Require Import Base GoMap Sharded_Model.
Local Open Scope list_scope.

Section Spec.
  Context {K V : Type} (eqb : K -> K -> bool) (key : K).
  Notation op := (op K V).
  Notation res := (res K V).
  Notation event := (event K V).

  (** The call put the key there, with this value. *)
  Definition acquires (o : op) (r : res) : option V :=
    match o, r with
    | OTrySet k v, RBool true => if eqb k key then Some v else None
    | OGetOrSetDefault k v, ROpt _ false => if eqb k key then Some v else None
    | OGetOrSetFactory k (Some v), ROpt _ false => if eqb k key then Some v else None
    | _, _ => None
    end.

  (** Goroutine t holds the key, with the value it last gave it, from the return
      of the call with which it put the key there until it calls Delete. *)
  Definition next (own : nat -> option V) (e : event) : nat -> option V :=
    match e with
    | ERet t o r =>
        match acquires o r, o with
        | Some v, _ => fupd own t (Some v)
        | None, OSet k v => if eqb k key then fupd own t (Some v) else own
        | None, _ => own
        end
    | EInv t (ODelete k) => if eqb k key then fupd own t None else own
    | _ => own
    end.
  Definition holder (tr : list event) : nat -> option V := fold_left next tr (fun _ => None).

  (** The calls that only the holder may make; nobody may call Clear or IterateShards. *)
  Definition holdersOnly (o : op) : Prop :=
    match o with ODelete k | OSet k _ => eqb k key = true | _ => False end.
  Definition wholesale (o : op) : Prop :=
    match o with OClear | OIterateShards _ => True | _ => False end.
  Definition disciplined (tr : list event) : Prop :=
    forall tr1 t o tr2, tr = tr1 ++ EInv t o :: tr2 -> holdersOnly o -> holder tr1 t <> None.

  (** What a call that looks for the key returns if the value is [v]. *)
  Definition sees (v : V) (o : op) (r : res) : Prop :=
    match o with
    | OGet k => eqb k key = true -> r = RVal v
    | OTryGet k | OGetOrSetDefault k _ | OGetOrSetFactory k _ => eqb k key = true -> r = ROpt v true
    | OHas k => eqb k key = true -> r = RBool true
    | OTrySet k _ => eqb k key = true -> r = RBool false
    | _ => True
    end.

  (** The call said that the value of the key is [v]. *)
  Definition tells (o : op) (r : res) (v : V) : Prop :=
    match o with
    | OGet k => eqb k key = true /\ r = RVal v
    | OTryGet k => eqb k key = true /\ r = ROpt v true
    | OGetOrSetDefault k _ | OGetOrSetFactory k _ => eqb k key = true /\ exists found, r = ROpt v found
    | OTrySet k v' => eqb k key = true /\ r = RBool true /\ v' = v
    | _ => False
    end.

  (** The call that goroutine t is in. *)
  Definition enter (cur : nat -> option op) (e : event) : nat -> option op :=
    match e with
    | EInv t o => fupd cur t (Some o)
    | ERet t _ _ => fupd cur t None
    | ECall _ _ => cur
    end.
  Definition current (tr : list event) : nat -> option op := fold_left enter tr (fun _ => None).
  (** Calls that may take the key or give it back. *)
  Definition concerns (o : op) : Prop :=
    match o with
    | OTrySet k _ | OGetOrSetDefault k _ | OGetOrSetFactory k _ | ODelete k => eqb k key = true
    | _ => False
    end.
  (** After [tr], somebody holds the key, or somebody other than [u] is taking it
      or giving it back. *)
  Definition contended (u : nat) (tr : list event) : Prop :=
    (exists t, holder tr t <> None) \/ (exists t o, t <> u /\ current tr t = Some o /\ concerns o).
  (** [tr] goes on from the call of goroutine [u] without a return of it. *)
  Definition without (u : nat) (tr : list event) : Prop :=
    forall e, In e tr -> match e with EInv t _ | ERet t _ _ => t <> u | ECall _ _ => True end.
End Spec.
