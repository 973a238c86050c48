(** What programs may expect of indices and lengths that are Go ints (64 bits). *)
From Verif Require Import Base Exn XRing_Spec.
From Verif Require Stream_Model.
Local Open Scope string_scope.
Local Open Scope list_scope.
Local Open Scope Z_scope.

Notation maxInt := Stream_Model.maxInt.

(** [x] is a value of type int. *)
Definition isInt (x : Z) : Prop := - maxInt - 1 <= x <= maxInt.

(** Moving to position [p], a mathematical integer, of a slice of [n] elements. *)
Definition movedTo {It} (n : Z) (at_ : Z -> It) (p : Z) : outcome It :=
  if (0 <=? p) && (p <=? n) then Ok (at_ p) else Panic "offset out of bound".

(** A queue of elements of [esz] bytes where an allocation has at most [A]
    bytes: the answers of a deque, except that adding an element may be refused,
    with the panic of make, when double the elements (at least 4) would exceed
    [A].  A refused call changes nothing. *)
Inductive answers {T} (esz A : Z) : list (ringOp T) -> list T -> list (outcome (ringRes T)) -> Prop :=
| ans_none l : answers esz A [] l []
| ans_call o ops l rs :
    answers esz A ops (snd (dequeStep o l)) rs ->
    answers esz A (o :: ops) l (fst (dequeStep o l) :: rs)
| ans_refused o v ops l rs :
    o = OAppend v \/ o = OPush v \/ o = OPrepend v ->
    A < Z.max 4 (2 * zlen l) * esz ->
    answers esz A ops l rs ->
    answers esz A (o :: ops) l (Panic "makeslice: len out of range" :: rs).
