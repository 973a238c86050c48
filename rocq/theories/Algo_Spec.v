(** Specification vocabulary for algo. *)
From Coq Require Import Permutation.
From Verif Require Import Base Exn XSort_Spec.

(** Lexicographic order of lists of the same length, elements that are not
    distinguished by [lt] counting as equal. *)
Fixpoint lexlt {T} (lt : T -> T -> bool) (l l' : list T) : Prop :=
  match l, l' with
  | x :: l, y :: l' => lt x y = true \/ (lt x y = false /\ lt y x = false /\ lexlt lt l l')
  | _, _ => False
  end.

(** [k] is the first position of [l] whose element is less than its predecessor,
    or the length of [l] if there is none. *)
Definition first_drop {T} (lt : T -> T -> bool) (l : list T) (k : Z) : Prop :=
  0 <= k <= zlen l /\
  (forall i x y, 0 < i < k -> zget l (i - 1) = Some x -> zget l i = Some y -> lt y x = false) /\
  (k < zlen l -> exists x y, zget l (k - 1) = Some x /\ zget l k = Some y /\ lt y x = true).

(** The same elements, from the greatest to the smallest. *)
Definition non_increasing {T} (lt : T -> T -> bool) (l : list T) : Prop :=
  forall i j x y, (i < j)%nat -> nth_error l i = Some x -> nth_error l j = Some y -> lt x y = false.

(** A comparator that answers [lt] and may change the part [w] of the state. *)
Definition answers {St T C} (comp : T -> T -> Exn.X St bool) (lt : T -> T -> bool) (tick : T -> T -> C -> C)
    (plug : C -> list T -> St) : Prop :=
  forall x y w l, comp x y (plug w l) = (Ok (lt x y), plug (tick x y w) l).

(** [w] after the comparator calls [calls]. *)
Definition after {T C} (tick : T -> T -> C -> C) (calls : list (T * T)) (w : C) : C :=
  fold_left (fun w c => tick (fst c) (snd c) w) calls w.

(** [floor (log2 n) + 1], the comparisons of a binary search over [n] elements. *)
Definition bisections (n : Z) : Z := if n =? 0 then 0 else Z.log2 n + 1.

(** The states at the start of each round of [for ok := true; ok; ok = next()],
    and the state at the end. *)
Inductive visits {St} (next : Exn.X St bool) : St -> list St -> St -> Prop :=
| visits_last s s' : next s = (Ok false, s') -> visits next s [s] s'
| visits_more s s' ss s'' : next s = (Ok true, s') -> visits next s' ss s'' -> visits next s (s :: ss) s''.

(** Elements not distinguished are equal. *)
Definition total {T} (lt : T -> T -> bool) : Prop :=
  forall x y, lt x y = false -> lt y x = false -> x = y.

(** A comparator that answers anything or panics, and may change the part [w]
    of the state but not the elements.  [meter] reads from [w] at most the
    number of calls made so far. *)
Definition unruly {St T C} (comp : T -> T -> Exn.X St bool) (plug : C -> list T -> St) (meter : C -> Z) : Prop :=
  forall x y w l, exists r w', comp x y (plug w l) = (r, plug w' l) /\ r <> Diverge /\ meter w' <= meter w + 1.

(** [p] is a panic of the comparator. *)
Definition comparator_panic {St T} (comp : T -> T -> Exn.X St bool) (p : string) : Prop :=
  exists x y s, fst (comp x y s) = Panic p.

(** [k] rounds of [f], whatever they answer. *)
Inductive times {St A} (f : Exn.X St A) : nat -> St -> St -> Prop :=
| times_none s : times f 0 s s
| times_more k s r s' s'' : f s = (Ok r, s') -> times f k s' s'' -> times f (S k) s s''.

(** Of any two elements at different positions one is less than the other. *)
Definition all_different {T} (lt : T -> T -> bool) (l : list T) : Prop :=
  forall i j x y, (i < j)%nat -> nth_error l i = Some x -> nth_error l j = Some y -> lt x y = true \/ lt y x = true.
