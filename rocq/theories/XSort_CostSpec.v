(** Specification vocabulary for the number of calls a sort makes to the
    comparator, independent of the sorting code. *)
From Verif Require Import Base.

(** A comparator, with any state of its own, beside a counter of its calls. *)
Definition counting {E S} (less : E -> E -> S -> bool * S) (x y : E) (sn : S * Z) : bool * (S * Z) :=
  let '(b, s') := less x y (fst sn) in (b, (s', snd sn + 1)).

(** Every element is less than every element placed before it. *)
Definition strictly_descending {E} (lt : E -> E -> bool) (l : list E) : Prop :=
  forall i j x y, (i < j)%nat ->
    nth_error l i = Some x -> nth_error l j = Some y -> lt y x = true.

(** The elements fall into at most [k] kinds: there are [k] values such that
    every element is neither less nor greater than one of them. *)
Definition at_most_kinds {E} (lt : E -> E -> bool) (k : Z) (l : list E) : Prop :=
  exists kinds, zlen kinds = k /\
    forall x, In x l -> exists r, In r kinds /\ lt r x = false /\ lt x r = false.
