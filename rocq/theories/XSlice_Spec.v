(** Specification vocabulary for xslice. *)
From Verif Require Import Base Exn GoSlice Iter_Model XSlice_Model.

(** The two arrays without elements are there. *)
Definition goHeap {T} (h : heap T) : Prop := nth_error h 0 = Some [] /\ nth_error h 1 = Some [].

(** Iterators a program can get from the slice [s]. *)
Inductive reach {T} (s : slice) : iterator -> Prop :=
| reach_at (h h' : heap T) p it : IteratorAt s p h = (Ok it, h') -> reach s it
| reach_begin (h h' : heap T) it : Begin s h = (Ok it, h') -> reach s it
| reach_end (h h' : heap T) it : End s h = (Ok it, h') -> reach s it
| reach_next (h h' : heap T) it it' : reach s it -> Next sliceOps it h = (Ok it', h') -> reach s it'
| reach_prev (h h' : heap T) it it' : reach s it -> Prev sliceOps it h = (Ok it', h') -> reach s it'
| reach_add (h h' : heap T) it k it' : reach s it -> Add sliceOps it k h = (Ok it', h') -> reach s it'.

(** Assignments s[i] = v; those that panic are recovered. *)
Definition setMany {T} (s : slice) (ws : list (Z * T)) (h : heap T) : heap T :=
  snd (runOps (fun '(i, v) => SetAt s i v) ws h).

(** From [h] to [h'], no memory cell there was has changed but, maybe, those in [P]. *)
Definition writes_only {T} (h h' : heap T) (P : nat -> Z -> Prop) : Prop :=
  forall a k, cell h a k <> None -> ~ P a k -> cell h' a k = cell h a k.

(** [r], made by a call that took the heap from [h] to [h'], is independent of
    every slice [q] there was before: no assignments through one are visible
    through the other. *)
Definition independent {T} (h h' : heap T) (r : slice) : Prop :=
  (forall q, valid h q -> forall ws, elems (setMany r ws h') q = elems h q) /\
  (forall q, valid h q -> forall ws, elems (setMany q ws h') r = elems h' r).
