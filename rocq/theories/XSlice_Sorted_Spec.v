(** Programs that keep a Slice in order with the searches of algo, and what they
    may expect. *)
From Verif Require Import Base Exn XSort_Spec GoSlice Iter_Model Algo_Model Algo_Proofs XSlice_Model.
Local Open Scope exn_scope.
Local Open Scope list_scope.
Local Open Scope Z_scope.

Inductive call (T : Type) : Type := CAdd (v : T) | CRemove (v : T) | CHas (v : T).
Arguments CAdd {T}. Arguments CRemove {T}. Arguments CHas {T}.

Section Programs.
  Context {T : Type} (zero : T) (growth : Z -> Z -> Z) (lt : T -> T -> bool).

  (** The comparator; slice iterators beside the slice variable. *)
  Definition less (x y : T) : X (heap T * slice) bool := xret (lt x y).
  Definition its : ops (heap T * slice) iterator T := liftOps sliceOps slice.

  (** [s.Insert(algo.UpperBoundAny(s.Range(), v, less), v)] *)
  Definition add (v : T) : X (heap T * slice) bool :=
    hs <- xget ;;
    r <- onVar (Range (snd hs)) ;;
    it <- UpperBoundAny its less r v ;;
    Insert_ zero growth it v ;;
    xret true.

  (** [it := algo.LowerBoundAny(s.Range(), v, less)], and whether it is at an
      element equivalent to [v]: [!it.Equal(s.End()) && !less(v, it.Get())]. *)
  Definition find (v : T) : X (heap T * slice) (bool * iterator) :=
    hs <- xget ;;
    r <- onVar (Range (snd hs)) ;;
    it <- LowerBoundAny its less r v ;;
    e <- Equal its it (snd r) ;;
    if e : bool then xret (false, it) else
    x <- Get its it ;;
    b <- less v x ;;
    xret (negb b, it).
  Definition has (v : T) : X (heap T * slice) bool := '(b, it) <- find v ;; xret b.

  (** [s.Delete(it.Pos())] if it is. *)
  Definition remove (v : T) : X (heap T * slice) bool :=
    '(b, it) <- find v ;;
    if b : bool then p <- Pos its it ;; Delete_ p ;; xret true else xret false.

  Definition carry_out (c : call T) : X (heap T * slice) bool :=
    match c with CAdd v => add v | CRemove v => remove v | CHas v => has v end.

  (** The same on a list: a new element goes between those not greater and
      those greater; one equivalent element, the first, goes away. *)
  Fixpoint without (v : T) (l : list T) : list T :=
    match l with [] => [] | x :: l' => if equivb lt v x then l' else x :: without v l' end.
  Definition listCall (c : call T) (l : list T) : bool * list T :=
    match c with
    | CAdd v => (true, filter (fun x => negb (lt v x)) l ++ v :: filter (lt v) l)
    | CRemove v => (existsb (equivb lt v) l, without v l)
    | CHas v => (existsb (equivb lt v) l, l)
    end.
  Fixpoint listCalls (cs : list (call T)) (l : list T) : list bool * list T :=
    match cs with
    | [] => ([], l)
    | c :: cs' => let '(r, l') := listCall c l in let '(rs, l'') := listCalls cs' l' in (r :: rs, l'')
    end.
End Programs.
