(** Specification vocabulary for sorting, independent of the sorting code. *)
From Coq Require Import Permutation.
From Verif Require Import Base.

(** A strict weak order (the contract of less functions, cf. sort.Interface). *)
Record strict_weak_order {E} (lt : E -> E -> bool) : Prop := {
  swo_irrefl : forall x, lt x x = false;
  swo_trans : forall x y z, lt x y = true -> lt y z = true -> lt x z = true;
  swo_incomp : forall x y z,
      lt x y = false -> lt y x = false -> lt y z = false -> lt z y = false ->
      lt x z = false /\ lt z x = false }.

(** A callback (with arbitrary side effects on its state) answers according
    to the boolean relation [lt]. *)
Definition answers {E S} (less : E -> E -> S -> bool * S) (lt : E -> E -> bool) : Prop :=
  forall x y s, fst (less x y s) = lt x y.

(** No element is less than an element placed before it. *)
Definition sorted_by {E} (lt : E -> E -> bool) (l : list E) : Prop :=
  forall i j x y, (i < j)%nat ->
    nth_error l i = Some x -> nth_error l j = Some y -> lt y x = false.

(** Neither is less than the other. *)
Definition equivb {E} (lt : E -> E -> bool) (x y : E) : bool :=
  negb (lt x y) && negb (lt y x).

(** For every value [x], the elements equivalent to [x] occur in [l'] in
    exactly the order in which they occur in [l]. *)
Definition keeps_equiv_order {E} (lt : E -> E -> bool) (l l' : list E) : Prop :=
  forall x, filter (equivb lt x) l' = filter (equivb lt x) l.

(** A total order given by the two operators [<] and [>=]. *)
Record total_order_ops {E} (ltb geb : E -> E -> bool) : Prop := {
  to_swo : strict_weak_order ltb;
  to_ge : forall x y, geb x y = negb (ltb x y);
  to_antisym : forall x y, ltb x y = false -> ltb y x = false -> x = y }.

(** A callback that may panic and may look at the slice answers, whenever it
    answers, according to [lt]. *)
Definition answers_or_panics {E S} (less : list E -> E -> E -> S -> (bool + string) * S)
  (lt : E -> E -> bool) : Prop :=
  forall d x y s b s', less d x y s = (inl b, s') -> b = lt x y.

(** A callback beside a list of its calls: what the slice held and the two
    arguments. *)
Definition recording {E S} (less : list E -> E -> E -> S -> (bool + string) * S)
  (d : list E) (x y : E) (sc : S * list (list E * E * E))
  : (bool + string) * (S * list (list E * E * E)) :=
  let '(r, s') := less d x y (fst sc) in (r, (s', (d, x, y) :: snd sc)).

(** A callback that may also write to the slice, beside a list of its calls, the
    oldest first: what the slice held, the two arguments, and what the slice
    held afterwards. *)
Definition recordingW {E S} (less : list E -> E -> E -> S -> (bool + string) * (list E * S))
  (d : list E) (x y : E) (sc : S * list (list E * E * E * list E))
  : (bool + string) * (list E * (S * list (list E * E * E * list E))) :=
  let '(r, (d', s')) := less d x y (fst sc) in (r, (d', (s', snd sc ++ [(d, x, y, d')]))).

(** From [before], through these calls, to [after]: between two calls the
    elements have only been rearranged, and each call was asked about two
    elements which the slice held at that time. *)
Fixpoint only_rearranged {E} (before : list E) (calls : list (list E * E * E * list E)) (after : list E) : Prop :=
  match calls with
  | [] => Permutation before after
  | (d, x, y, d') :: rest => Permutation before d /\ In x d /\ In y d /\ only_rearranged d' rest after
  end.

(** A callback that leaves the length of the slice alone, as every Go function
    does that is called while the slice is being sorted. *)
Definition keeps_length {E S} (less : list E -> E -> E -> S -> (bool + string) * (list E * S)) : Prop :=
  forall d x y s r d' s', less d x y s = (r, (d', s')) -> List.length d' = List.length d.
