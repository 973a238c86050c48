(** Vocabulary for the overflow lists of xmap.Custom. *)
From Verif Require Import Base XMap_Model XMap_Spec.

(** In history [h] (latest call first) the key that holds a hash is deleted only
    when no other key with that hash is present. *)
Fixpoint sparing {K V} (hash : K -> Z) (equal : K -> K -> bool) (h : list (cOp K V)) : Prop :=
  match h with
  | [] => True
  | CDelete k :: h' =>
      (holds hash equal h' k = true ->
       forall x v, latest equal h' x = Some v -> hash x = hash k -> equal k x = true) /\
      sparing hash equal h'
  | _ :: h' => sparing hash equal h'
  end.
