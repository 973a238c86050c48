(** Specification vocabulary for arithmetic, independent of the code. *)
From Verif Require Import Base Stream_Model Stream_Spec.

(** [r] is the number of the type that differs from [exact] by a multiple of
    two to the number of bits. *)
Definition wraps_to (t : inttype) (exact r : Z) : Prop :=
  inType t r /\ exists k, r = exact + k * 2 ^ bits t.

Definition sum (l : list Z) : Z := fold_right Z.add 0 l.
Definition product (l : list Z) : Z := fold_right Z.mul 1 l.
