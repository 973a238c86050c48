(** Specification vocabulary for streams over shared memory. *)
From Verif Require Import Base Exn GoSlice Stream_Model Stream_Spec Stream_Live_Model.
Local Open Scope exn_scope.
Local Open Scope list_scope.
Local Open Scope Z_scope.

(** [for i, v := range a[i:] { body(v) }] over [k] elements: each is read when
    its turn comes. *)
Fixpoint rangeLoop {V T} (a : slice) (body : T -> X (heap T * V) unit) (k : nat) (i : Z) : X (heap T * V) unit :=
  match k with
  | O => xret tt
  | Datatypes.S k => v <- onHeap (index a i) ;; body v ;; rangeLoop a body k (i + 1)
  end.

(** One element going through Filter, Map and Peek stages to [c]. *)
Fixpoint through {W T} (os : list (op W T)) (c : T -> X W unit) (v : T) : X W unit :=
  match os with
  | [] => c v
  | OPred p :: os => b <- p v ;; if b : bool then through os c v else xret tt
  | OMap f :: os => v' <- f v ;; through os c v'
  | OPeek q :: os => q v ;; through os c v
  | _ :: os => xret tt
  end.
Definition uncounted {W T} (o : op W T) : Prop :=
  match o with OSkip _ | OLimit _ => False | _ => True end.

(** A callback on a world that is a part of a larger one. *)
Definition within {Y W T} (o : op W T) : op (Y * W) T :=
  match o with
  | OPred p => OPred (fun v => onWorld (p v))
  | OSkip n => OSkip n
  | OLimit n => OLimit n
  | OMap f => OMap (fun v => onWorld (f v))
  | OPeek c => OPeek (fun v => onWorld (c v))
  end.
Definition within_ {Y W T} (s : stream W T) : stream (Y * W) T := mkStream (live s) (map within (ops s)) (hasPred s).

Definition withinB {Y W T} (c : build W T) : build (Y * W) T :=
  match c with
  | BMap f => BMap (fun v => onWorld (f v))
  | BFilter p => BFilter (fun v => onWorld (p v))
  | BSkip n => BSkip n
  | BLimit n => BLimit n
  | BPeek c => BPeek (fun v => onWorld (c v))
  end.

(** A consumer that notes down the elements. *)
Definition note {W T} (v : T) : X (list T * W) unit := fun '(out, w) => (Ok tt, (out ++ [v], w)).

(** What a computation does to the world, the state of the stream aside. *)
Definition effect {St S W A} (r : outcome A * (St * (S * W))) : outcome A * W := (fst r, snd (snd (snd r))).
