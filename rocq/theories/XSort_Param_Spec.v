(** What it means that a sort sees the elements through its comparator only. *)
From Verif Require Import Base XSort_Model.

(** Two comparators answer alike on related elements: given slices whose
    elements are related one by one, related arguments and related states, they
    give the same answer or the same panic, and leave related slices and states. *)
Definition alike {E1 E2 S1 S2} (R : E1 -> E2 -> Prop) (Q : S1 -> S2 -> Prop)
  (c1 : comparatorW E1 S1) (c2 : comparatorW E2 S2) : Prop :=
  forall d1 d2 x1 x2 y1 y2 s1 s2, Forall2 R d1 d2 -> R x1 x2 -> R y1 y2 -> Q s1 s2 ->
    fst (c1 d1 x1 y1 s1) = fst (c2 d2 x2 y2 s2) /\
    Forall2 R (fst (snd (c1 d1 x1 y1 s1))) (fst (snd (c2 d2 x2 y2 s2))) /\
    Q (snd (snd (c1 d1 x1 y1 s1))) (snd (snd (c2 d2 x2 y2 s2))).

(** [l] is made of the elements of [d] at the positions [p]. *)
Definition picked {E} (d : list E) (p : list nat) (l : list E) : Prop :=
  Forall2 (fun i x => nth_error d i = Some x) p l.
