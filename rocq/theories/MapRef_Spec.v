(** What a program with map variables should see, in terms of its statements so
    far, latest first. *)
From Verif Require Import Base Exn GoMap MapRef_Model.
Local Open Scope list_scope.

Section Spec.
  Context {K V : Type} (eqb : K -> K -> bool) (hashable : K -> bool) (star : V).

  (** Which map the variable [x] refers to: the one made by statement number n of
      the program ([Some n]), or none. *)
  Fixpoint refers (h : list (op K V)) (x : nat) : option nat :=
    match h with
    | [] => None
    | New y :: h' => if Nat.eqb x y then Some (List.length h') else refers h' x
    | Nil y :: h' => if Nat.eqb x y then None else refers h' x
    | Copy y z :: h' => if Nat.eqb x y then refers h' z else refers h' x
    | _ :: h' => refers h' x
    end.

  (** What the map made by statement number [n] has under the key [k]: all
      statements count that are made through a variable referring to it. *)
  Fixpoint value (h : list (op K V)) (n : nat) (k : K) : option V :=
    match h with
    | [] => None
    | o :: h' =>
        let through x (now : option V) :=
          match refers h' x with Some m => if Nat.eqb m n then now else value h' n k | None => value h' n k end in
        match o with
        | Assign x k' v => through x (if hashable k' && eqb k' k then Some v else value h' n k)
        | Add x k' => through x (if hashable k' && eqb k' k then Some star else value h' n k)
        | TryAdd x k' => through x (if hashable k' && eqb k' k
                                    then match value h' n k with Some v => Some v | None => Some star end
                                    else value h' n k)
        | Del x k' | TryDelete x k' => through x (if hashable k' && eqb k' k then None else value h' n k)
        | Clr x => through x None
        | _ => value h' n k
        end
    end.

  (** What is seen through the variable [x]: a nil one is like an empty map. *)
  Definition seen (h : list (op K V)) (x : nat) (k : K) : option V :=
    match refers h x with Some n => value h n k | None => None end.

  (** [l] lists the entries seen through [x], each once. *)
  Definition entries (h : list (op K V)) (x : nat) (l : list (K * V)) : Prop :=
    NoDup (map fst l) /\ forall k v, In (k, v) l <-> seen h x k = Some v.

  Definition there (o : option V) : bool := match o with Some _ => true | None => false end.

  (** The key a statement looks at, and the variable it writes to. *)
  Definition keyOf (o : op K V) : option K :=
    match o with
    | Index _ k | Assign _ k _ | Del _ k | Add _ k | TryAdd _ k | TryDelete _ k | Has _ k => Some k
    | _ => None
    end.
  (** A statement that adds an entry. *)
  Definition adds (h : list (op K V)) (o : op K V) : option nat :=
    match o with
    | Assign x _ _ | Add x _ => Some x
    | TryAdd x k => if there (seen h x k) then None else Some x
    | _ => None
    end.

  (** It panics exactly when the key cannot be hashed, or when it would add an
      entry to a nil map. *)
  Definition panics (h : list (op K V)) (o : op K V) : Prop :=
    (exists k, keyOf o = Some k /\ hashable k = false) \/ (exists x, adds h o = Some x /\ refers h x = None).

  Definition answer (h : list (op K V)) (o : op K V) (r : outcome (result K V)) : Prop :=
    (panics h o -> exists e, r = Panic e) /\
    (~ panics h o ->
     match o with
     | New _ | Nil _ | Copy _ _ | Assign _ _ _ | Del _ _ | Clr _ | Add _ _ => r = Ok RUnit
     | Index x k => r = Ok (RVal (seen h x k))
     | Len x => exists l, entries h x l /\ r = Ok (RInt (zlen l))
     | Ents x => exists l, entries h x l /\ r = Ok (REntries l)
     | Kys x => exists l, entries h x l /\ r = Ok (RKeys (map fst l))
     | Vals x => exists l, entries h x l /\ r = Ok (RValues (map snd l))
     | TryAdd x k => r = Ok (RBool (negb (there (seen h x k))))
     | TryDelete x k | Has x k => r = Ok (RBool (there (seen h x k)))
     end).
End Spec.
