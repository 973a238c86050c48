(** Model of ds/xmap/ops.go, map.go and set.go once more, with Go's maps as what
    they are: references.  A map variable is nil or refers to a map object, and
    several variables may refer to the same one.  Keys of an interface type may
    be impossible to hash, which makes the built-in operations panic. *)
From Coq Require Import Permutation.
From Verif Require Import Base Exn GoMap.
Local Open Scope exn_scope.
Local Open Scope string_scope.
Local Open Scope list_scope.

Section MapRef.
  Context {K V : Type} (eqb : K -> K -> bool) (hashable : K -> bool).
  (** The value struct{}{} of the elements of a Set. *)
  Context (star : V).

  (** The map objects, and what the variables of type map[K]V, Map or Set refer
      to ([None] is nil, the initial value). *)
  Record world : Type := { objects : list (gomap K V); vars : nat -> option nat }.
  Definition start : world := {| objects := []; vars := fun _ => None |}.

  (** ** The built-in operations *)

  Definition contents (m : option nat) (w : world) : gomap K V :=
    match m with
    | None => []
    | Some i => match nth_error (objects w) i with Some l => l | None => [] end
    end.
  Definition store (i : nat) (l : gomap K V) : X world unit := fun w =>
    (Ok tt, {| objects := upd (objects w) i l; vars := vars w |}).
  Definition hash (k : K) : X world unit :=
    if hashable k then xret tt else xpanic "hash of unhashable type".

  (** v, ok := m[k] and delete(m, k): a nil map is like an empty one, and the
      key is hashed even then. *)
  Definition index (m : option nat) (k : K) : X world (option V) :=
    hash k ;; w <- xget ;; xret (gget eqb (contents m w) k).
  Definition remove (m : option nat) (k : K) : X world unit :=
    hash k ;; w <- xget ;;
    match m with None => xret tt | Some i => store i (gdel eqb (contents m w) k) end.
  (** m[k] = v *)
  Definition assign (m : option nat) (k : K) (v : V) : X world unit :=
    match m with
    | None => xpanic "assignment to entry in nil map"
    | Some i => hash k ;; w <- xget ;; store i (gset eqb (contents m w) k v)
    end.
  Definition count (m : option nat) : X world Z := w <- xget ;; xret (glen (contents m w)).
  (** map[K]V{} *)
  Definition make : X world (option nat) := fun w =>
    (Ok (Some (List.length (objects w))), {| objects := objects w ++ [[]]; vars := vars w |}).

  (** ** ops.go; [order] is the order in which the range statement meets the
      entries *)

  (** ops.go:3-9, 11-17, 19-25. *)
  Fixpoint Entries (order : list (K * V)) (entries : list (K * V)) : X world (list (K * V)) :=
    match order with [] => xret entries | (k, v) :: order' => Entries order' (entries ++ [(k, v)]) end.
  Fixpoint Keys (order : list (K * V)) (keys : list K) : X world (list K) :=
    match order with [] => xret keys | (k, _) :: order' => Keys order' (keys ++ [k]) end.
  Fixpoint Values (order : list (K * V)) (values : list V) : X world (list V) :=
    match order with [] => xret values | (_, v) :: order' => Values order' (values ++ [v]) end.
  (** ops.go:27-29; set.go:21-23, the method of Set, is the same built-in delete. *)
  Definition Delete (m : option nat) (key : K) : X world unit := remove m key.
  (** ops.go:31-38; an entry is deleted when it is met. *)
  Fixpoint Clear (order : list (K * V)) (m : option nat) : X world unit :=
    match order with [] => xret tt | (k, _) :: order' => remove m k ;; Clear order' m end.

  (** ** set.go *)

  (** set.go:9-11. *)
  Definition sAdd (s : option nat) (k : K) : X world unit := assign s k star.
  (** set.go:13-19. *)
  Definition sTryAdd (s : option nat) (k : K) : X world bool :=
    found <- index s k ;;
    match found with Some _ => xret false | None => assign s k star ;; xret true end.
  (** set.go:25-31. *)
  Definition sTryDelete (s : option nat) (k : K) : X world bool :=
    found <- index s k ;;
    match found with None => xret false | Some _ => remove s k ;; xret true end.
  (** set.go:33-36. *)
  Definition sHas (s : option nat) (k : K) : X world bool :=
    found <- index s k ;; xret (match found with Some _ => true | None => false end).

  (** ** A statement of a program that uses maps and sets in its variables *)
  Inductive op : Type :=
  | New (x : nat)              (* x = NewMap() or NewSet(): map.go:18-20, set.go:5-7 *)
  | Nil (x : nat)              (* x = nil *)
  | Copy (x y : nat)           (* x = y, x = y.Map() or y.Raw(): map.go:38-40, set.go:46-48 *)
  | Index (x : nat) (k : K)    (* v, ok := x[k] *)
  | Assign (x : nat) (k : K) (v : V)    (* x[k] = v *)
  | Len (x : nat)              (* len(x), x.Len(): set.go:38-40 *)
  | Del (x : nat) (k : K)      (* Delete(x, k), x.Delete(k): map.go:34-36, set.go:21-23 *)
  | Clr (x : nat)              (* Clear(x), x.Clear(): map.go:42-44, set.go:42-44 *)
  | Ents (x : nat)             (* Entries(x), x.Entries(), the elements of x.Stream(): map.go:22-24, 46-48 *)
  | Kys (x : nat)              (* Keys(x), x.Keys(), x.Values() of a Set: map.go:26-28, set.go:50-52 *)
  | Vals (x : nat)             (* Values(x), x.Values() of a Map: map.go:30-32 *)
  | Add (x : nat) (k : K) | TryAdd (x : nat) (k : K) | TryDelete (x : nat) (k : K) | Has (x : nat) (k : K).
  Inductive result : Type :=
  | RUnit | RBool (b : bool) | RInt (n : Z) | RVal (v : option V)
  | REntries (l : list (K * V)) | RKeys (l : list K) | RValues (l : list V).

  Definition setVar (x : nat) (m : option nat) : X world result := fun w =>
    (Ok RUnit, {| objects := objects w; vars := fun y => if Nat.eqb y x then m else vars w y |}).

  Definition exec (o : op) (order : list (K * V)) : X world result :=
    w <- xget ;;
    match o with
    | New x => m <- make ;; setVar x m
    | Nil x => setVar x None
    | Copy x y => setVar x (vars w y)
    | Index x k => r <- index (vars w x) k ;; xret (RVal r)
    | Assign x k v => assign (vars w x) k v ;; xret RUnit
    | Len x => n <- count (vars w x) ;; xret (RInt n)
    | Del x k => Delete (vars w x) k ;; xret RUnit
    | Clr x => Clear order (vars w x) ;; xret RUnit
    | Ents x => l <- Entries order [] ;; xret (REntries l)
    | Kys x => l <- Keys order [] ;; xret (RKeys l)
    | Vals x => l <- Values order [] ;; xret (RValues l)
    | Add x k => sAdd (vars w x) k ;; xret RUnit
    | TryAdd x k => b <- sTryAdd (vars w x) k ;; xret (RBool b)
    | TryDelete x k => b <- sTryDelete (vars w x) k ;; xret (RBool b)
    | Has x k => b <- sHas (vars w x) k ;; xret (RBool b)
    end.

  (** The variable whose map a statement ranges over. *)
  Definition ranged (o : op) : option nat :=
    match o with Clr x | Ents x | Kys x | Vals x => Some x | _ => None end.

  (** Running statements one after the other; a panic is recovered and the next
      statement runs.  Every range statement meets the entries in some order. *)
  Inductive program : world -> list op -> list (outcome result) -> Prop :=
  | p_done w : program w [] []
  | p_next w o order r w' os rs :
      (forall x, ranged o = Some x -> Permutation order (contents (vars w x) w)) ->
      exec o order w = (r, w') -> program w' os rs -> program w (o :: os) (r :: rs).
End MapRef.
Arguments op : clear implicits.
Arguments result : clear implicits.
Arguments world : clear implicits.
