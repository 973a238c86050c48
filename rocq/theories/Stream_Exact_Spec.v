(** Specification vocabulary: how far a pipeline looks. *)
From Verif Require Import Base Stream_Spec.
Local Open Scope list_scope.
Local Open Scope Z_scope.

(** Skip calls before the first Filter or Limit drop elements of the source at
    once; the other stages work element by element.  [early gs] is how many
    elements the former drop in all, and [later gs] are the other stages. *)
Fixpoint early {T} (gs : list (stage T)) : Z :=
  match gs with
  | [] => 0
  | SSkip n :: gs => n + early gs
  | g :: gs => if selects g then 0 else early gs
  end.
Fixpoint later {T} (gs : list (stage T)) : list (stage T) :=
  match gs with
  | [] => []
  | SSkip _ :: gs => later gs
  | g :: gs => g :: if selects g then gs else later gs
  end.

(** With the elements [r] a Limit among the stages has got more than it lets
    through. *)
Definition stopped {T} (gs : list (stage T)) (r : list T) : Prop :=
  exists before n behind, gs = before ++ SLimit n :: behind /\ n < Z.of_nat (List.length (pipeline before r)).

(** [r] is what is taken from [l]: all of it, or just enough to stop. *)
Definition taken {T} (gs : list (stage T)) (l r : list T) : Prop :=
  exists rest, l = r ++ rest /\ (rest <> [] -> stopped gs r) /\
    forall a b, r = a ++ b -> b <> [] -> ~ stopped gs a.
