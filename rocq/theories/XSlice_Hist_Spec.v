(** Histories of calls that change a Slice variable, and the lists they make. *)
From Verif Require Import Base Exn GoSlice Iter_Model XSlice_Model.
Local Open Scope exn_scope.
Local Open Scope list_scope.
Local Open Scope Z_scope.

Inductive edit (T : Type) : Type :=
| EAppend (v : T)
| EAppendMany (vs : list T)
| EInsertAt (i : Z) (v : T)
| EDelete (i : Z)
| EDeleteLast
| EUnorderedDelete (i : Z)
| ESet (i : Z) (v : T).
Arguments EAppend {T}. Arguments EAppendMany {T}. Arguments EInsertAt {T}. Arguments EDelete {T}.
Arguments EDeleteLast {T}. Arguments EUnorderedDelete {T}. Arguments ESet {T}.

(** The call on the variable. *)
Definition perform {T} (zero : T) (growth : Z -> Z -> Z) (e : edit T) : X (heap T * slice) unit :=
  match e with
  | EAppend v => Append_ zero growth v
  | EAppendMany vs => AppendMany_ zero growth vs
  | EInsertAt i v => InsertAt_ zero growth i v
  | EDelete i => Delete_ i
  | EDeleteLast => DeleteLast_
  | EUnorderedDelete i => UnorderedDelete_ i
  | ESet i v => hs <- xget ;; onVar (SetAt (snd hs) i v)
  end.

(** What it makes of the list of the elements; [None] if it panics. *)
Definition ledit {T} (e : edit T) (l : list T) : option (list T) :=
  match e with
  | EAppend v => Some (l ++ [v])
  | EAppendMany vs => Some (l ++ vs)
  | EInsertAt i v =>
      if (0 <=? i) && (i <=? zlen l) then Some (firstn (Z.to_nat i) l ++ v :: skipn (Z.to_nat i) l) else None
  | EDelete i =>
      if (0 <=? i) && (i <? zlen l) then Some (firstn (Z.to_nat i) l ++ skipn (Z.to_nat (i + 1)) l) else None
  | EDeleteLast => match l with [] => None | _ => Some (removelast l) end
  | EUnorderedDelete i =>
      if (0 <=? i) && (i <? zlen l)
      then let p := firstn (Z.to_nat i) l in
           match rev (skipn (Z.to_nat (i + 1)) l) with
           | [] => Some p
           | z :: m => Some (p ++ z :: rev m)
           end
      else None
  | ESet i v =>
      if (0 <=? i) && (i <? zlen l) then Some (firstn (Z.to_nat i) l ++ v :: skipn (Z.to_nat (i + 1)) l) else None
  end.
Definition after {T} (e : edit T) (l : list T) : list T :=
  match ledit e l with Some l' => l' | None => l end.

(** A history: which calls return, and the elements at the end. *)
Fixpoint returned {T} (es : list (edit T)) (l : list T) : list bool :=
  match es with
  | [] => []
  | e :: es => match ledit e l with Some _ => true | None => false end :: returned es (after e l)
  end.
Definition afterAll {T} (es : list (edit T)) (l : list T) : list T := fold_left (fun l e => after e l) es l.

(** Some time in the history there are more than [c] elements. *)
Fixpoint outgrown {T} (c : Z) (es : list (edit T)) (l : list T) : bool :=
  match es with
  | [] => false
  | e :: es => (c <? zlen (after e l)) || outgrown c es (after e l)
  end.

Definition returns {R} (r : outcome R) : bool := match r with Ok _ => true | _ => false end.
