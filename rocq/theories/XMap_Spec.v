(** What the maps of ds/xmap should do, in terms of the history of calls (most
    recent call first) and without reference to the model's data structures. *)
From Verif Require Import Base Exn GoMap XMap_Model.

(** ** Set *)
Section SetSpec.
  Context {K : Type}.

  (** x belongs to the set after history [h]. *)
  Fixpoint member (h : list (setOp K)) (x : K) : Prop :=
    match h with
    | [] => False
    | SAdd k :: h' | STryAdd k :: h' => x = k \/ member h' x
    | SDelete k :: h' | STryDelete k :: h' => x <> k /\ member h' x
    | SClear :: _ => False
    | _ :: h' => member h' x
    end.

  (** [l] lists the elements satisfying [P], each once. *)
  Definition enumerates {A} (l : list A) (P : A -> Prop) : Prop :=
    NoDup l /\ forall x, In x l <-> P x.

  (** The answer a mathematical set gives to [o] after history [h]. *)
  Definition setAnswer (h : list (setOp K)) (o : setOp K) (r : setRes K) : Prop :=
    match o with
    | SAdd _ | SDelete _ | SClear => r = SUnit
    | STryAdd k => exists b, r = SBool b /\ (b = true <-> ~ member h k)
    | STryDelete k | SHas k => exists b, r = SBool b /\ (b = true <-> member h k)
    | SLen => exists l, enumerates l (member h) /\ r = SInt (zlen l)
    | SValues => exists l, r = SList l /\ enumerates l (member h)
    end.
End SetSpec.

(** ** ArrayMap *)
Section AmSpec.
  Context {K V : Type} (eqb : K -> K -> bool) (zero : V).

  (** Value of [x] after history [h]: the latest Set not deleted since. *)
  Fixpoint alive (h : list (amOp K V)) (x : K) : option V :=
    match h with
    | [] => None
    | ASet k v :: h' => if eqb k x then Some v else alive h' x
    | ADelete k :: h' => if eqb k x then None else alive h' x
    | AClear :: _ => None
    | _ :: h' => alive h' x
    end.

  (** The answer of a map to the lookups, Set, Delete and Clear; [True] for the
      calls about positions and size. *)
  Definition amLookup (h : list (amOp K V)) (o : amOp K V) (r : outcome (amRes K V)) : Prop :=
    match o with
    | ASet _ _ | AClear => r = Ok (AUnit)
    | ADelete k | AHas k => r = Ok (ABool (match alive h k with Some _ => true | None => false end))
    | ATryGet k => r = Ok (match alive h k with Some v => AOpt v true | None => AOpt zero false end)
    | AGet k => match alive h k with
                | Some v => r = Ok (AVal v)
                | None => exists msg, r = Panic msg
                end
    | _ => True
    end.

  (** The answer to every call, [l] being the entries in the order of At. *)
  Definition amAnswer (l : list (K * V)) (h : list (amOp K V)) (o : amOp K V)
    (r : outcome (amRes K V)) : Prop :=
    amLookup h o r /\
    match o with
    | ALen => r = Ok (AInt (zlen l))
    | AEmpty => r = Ok (ABool (zlen l =? 0))
    | AAt i => match zget l i with Some e => r = Ok (AEntry e) | None => exists m, r = Panic m end
    | AValueAt i => match zget l i with Some e => r = Ok (AVal (snd e)) | None => exists m, r = Panic m end
    | AKeyAt i => match zget l i with Some e => r = Ok (AKey (fst e)) | None => exists m, r = Panic m end
    | _ => True
    end.

  (** [l] holds exactly the live entries, each once. *)
  Definition liveEntries (h : list (amOp K V)) (l : list (K * V)) : Prop :=
    NoDup (map fst l) /\ forall k v, In (k, v) l <-> alive h k = Some v.

  (** The keys passed to Set whose slot has not been given up, latest first:
      Set pushes, a Delete that finds its key pops. *)
  Fixpoint pushed (h : list (amOp K V)) : list K :=
    match h with
    | [] => []
    | ASet k _ :: h' => k :: pushed h'
    | ADelete k :: h' => match alive h' k with Some _ => tl (pushed h') | None => pushed h' end
    | AClear :: _ => []
    | _ :: h' => pushed h'
    end.

  (** Every Delete is of an absent key or of the latest pushed one. *)
  Fixpoint stackDeletes (h : list (amOp K V)) : Prop :=
    match h with
    | [] => True
    | ADelete k :: h' => (alive h' k = None \/ exists l, pushed h' = k :: l) /\ stackDeletes h'
    | _ :: h' => stackDeletes h'
    end.

  (** No key is Set while present. *)
  Fixpoint freshSets (h : list (amOp K V)) : Prop :=
    match h with
    | [] => True
    | ASet k _ :: h' => alive h' k = None /\ freshSets h'
    | _ :: h' => freshSets h'
    end.

  (** Calls of Set minus Deletes that answered true, since the last Clear; [n]
      before. *)
  Fixpoint setsLessDeletes (n : Z) (ops : list (amOp K V)) (rs : list (outcome (amRes K V))) : Z :=
    match ops, rs with
    | ASet _ _ :: ops, _ :: rs => setsLessDeletes (n + 1) ops rs
    | ADelete _ :: ops, Ok (ABool true) :: rs => setsLessDeletes (n - 1) ops rs
    | AClear :: ops, _ :: rs => setsLessDeletes 0 ops rs
    | _ :: ops, _ :: rs => setsLessDeletes n ops rs
    | _, _ => n
    end.
End AmSpec.

(** ** Custom *)
Section CustomSpec.
  Context {K V : Type} (hash : K -> Z) (equal : K -> K -> bool).

  Fixpoint latest (h : list (cOp K V)) (x : K) : option V :=
    match h with
    | [] => None
    | CSet k v :: h' => if equal k x then Some v else latest h' x
    | CDelete k :: h' => if equal k x then None else latest h' x
    | CGet _ :: h' => latest h' x
    end.

  Definition cAnswer (h : list (cOp K V)) (o : cOp K V) (r : cRes V) : Prop :=
    match o with
    | CSet k _ => r = CBool (match latest h k with Some _ => false | None => true end)
    | CDelete k => r = CBool (match latest h k with Some _ => true | None => false end)
    | CGet k => match latest h k with
                | Some v => r = CVal v true
                | None => exists v, r = CVal v false
                end
    end.

  (** Equal keys have equal hashes. *)
  Definition compatible : Prop := forall x y, equal x y = true -> hash x = hash y.

  Definition keyOf (o : cOp K V) : K := match o with CSet k _ | CDelete k | CGet k => k end.

  (** Among the keys used, only equal ones have the same hash. *)
  Definition noCollision (ops : list (cOp K V)) : Prop :=
    forall o o', In o ops -> In o' ops -> hash (keyOf o) = hash (keyOf o') ->
                 equal (keyOf o) (keyOf o') = true.

  (** No Set is of a key whose hash is at that time the hash of another key present. *)
  Fixpoint noClash (h : list (cOp K V)) : Prop :=
    match h with
    | [] => True
    | CSet k _ :: h' =>
        (forall x v, latest h' x = Some v -> hash x = hash k -> equal x k = true) /\ noClash h'
    | _ :: h' => noClash h'
    end.

  (** What the code does instead of keeping colliding keys: there is one place
      per hash, and while a key holds it, a Set of another key with that hash is
      ignored.  The entry at hash [z] after history [h]: *)
  Fixpoint holder (h : list (cOp K V)) (z : Z) : option (K * V) :=
    match h with
    | [] => None
    | CSet k v :: h' =>
        if hash k =? z then
          match holder h' z with
          | Some (k', v') => if equal k' k then Some (k, v) else Some (k', v')
          | None => Some (k, v)
          end
        else holder h' z
    | CDelete k :: h' =>
        if hash k =? z then
          match holder h' z with
          | Some (k', v') => if equal k' k then None else Some (k', v')
          | None => None
          end
        else holder h' z
    | CGet _ :: h' => holder h' z
    end.

  Definition holds (h : list (cOp K V)) (k : K) : bool :=
    match holder h (hash k) with Some (k', _) => equal k' k | None => false end.

  Definition cActual (zero : V) (h : list (cOp K V)) (o : cOp K V) (r : cRes V) : Prop :=
    match o with
    | CSet k _ => r = CBool (negb (holds h k))
    | CDelete k => r = CBool (holds h k)
    | CGet k => r = CVal (match holder h (hash k) with Some (_, v) => v | None => zero end) (holds h k)
    end.
End CustomSpec.

(** ** Histories *)

(** [hist answer h ops rs]: started after history [h], the calls [ops] got
    answers [rs], each as [answer] says. *)
Inductive hist {Op R} (answer : list Op -> Op -> R -> Prop)
  : list Op -> list Op -> list R -> Prop :=
| hist_nil h : hist answer h [] []
| hist_cons h o r ops rs :
    answer h o r -> hist answer (o :: h) ops rs -> hist answer h (o :: ops) (r :: rs).
