(** The bind arguments that do at once what two successive Binds do. *)
From Verif Require Import Base XFn_Bind_Model XFn_Bind_Spec.

Section Spec.
  Context {ty pay : Type}.

  (** What the bind arguments say about parameter [j] (from 0): the argument at
      that place or, beyond them, the next input after the highest placeholder. *)
  Definition says (args : list (barg ty pay)) (j : Z) : barg ty pay :=
    match zget args j with
    | Some a => a
    | None => APh (highest args + (j - zlen args) + 1)
    end.

  (** The same for [first] and then [second]: a placeholder of [first] names a
      parameter of the function in the middle, which [second] binds. *)
  Definition at_once (first second : list (barg ty pay)) (i : nat) : barg ty pay :=
    match says first (Z.of_nat i) with
    | APh k => says second (k - 1)
    | a => a
    end.

  (** One bind argument for each of the [n] parameters of src. *)
  Definition merged (n : nat) (first second : list (barg ty pay)) : list (barg ty pay) :=
    map (at_once first second) (seq 0 n).
End Spec.
