(** Vocabulary for generators drawn from a pool. *)
From Verif Require Import Base Lin Pool_Gen_Model.
Local Open Scope list_scope.

(** The state after [n] steps of a generator, and its number [n]. *)
Fixpoint stateAt {S A} (next : S -> A * S) (n : nat) (s : S) : S := match n with O => s | S n => stateAt next n (snd (next s)) end.
Definition numberAt {S A} (next : S -> A * S) (n : nat) (s : S) : A := fst (next (stateAt next n s)).

(** Word [i] of generator [g]: the generator made from number [g] of the master. *)
Definition stream {M D G W} (int63 : M -> D * M) (make : D -> G) (next : G -> W * G) (m0 : M) (g i : nat) : W :=
  numberAt next i (make (numberAt int63 g m0)).

(** What was drawn from [g], in order. *)
Definition wordsOf {W} (g : nat) (log : list (nat * nat * W)) : list W :=
  map snd (filter (fun e => Nat.eqb (snd (fst e)) g) log).

(** Code that puts its generator back only at the end. *)
Inductive polite : gact -> Prop :=
| po_draw : polite GDraw
| po_call b : Forall polite b -> polite (GCall b).

(** The generators a goroutine has between Get and Put, in all its running calls. *)
Definition holds {M D G} (f : @gframe M D G) : list nat := match f with GHold g _ | GDrawing g _ _ => [g] | _ => [] end.
Definition holdings {M D G} (ts : tstate (list gact) (list (@gframe M D G))) : list nat := match ts with Idle => [] | Run _ fs => flat_map holds fs end.
