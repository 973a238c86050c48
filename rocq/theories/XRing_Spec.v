(** Specification of a double-ended queue: operations on a plain list. *)
From Verif Require Import Base Exn.
Local Open Scope string_scope.
Local Open Scope list_scope.
Local Open Scope Z_scope.

(** The API calls of a ring, with their arguments. *)
Inductive ringOp (T : Type) : Type :=
| OAppend (v : T) | OPush (v : T) | OPrepend (v : T)
| OPop | ODeleteFirst | ODeleteLast
| OFirst | OLast | OAt (i : Z) | OSet (i : Z) (v : T)
| OLen | OEmpty | OToSlice (s : option (list T)).
Arguments OAppend {T}. Arguments OPush {T}. Arguments OPrepend {T}.
Arguments OPop {T}. Arguments ODeleteFirst {T}. Arguments ODeleteLast {T}.
Arguments OFirst {T}. Arguments OLast {T}. Arguments OAt {T}. Arguments OSet {T}.
Arguments OLen {T}. Arguments OEmpty {T}. Arguments OToSlice {T}.

(** What a call returns; [RSlice None] is a nil slice. *)
Inductive ringRes (T : Type) : Type :=
| RUnit | RVal (v : T) | RInt (n : Z) | RBool (b : bool) | RSlice (s : option (list T)).
Arguments RUnit {T}. Arguments RVal {T}. Arguments RInt {T}.
Arguments RBool {T}. Arguments RSlice {T}.

Section Deque.
  Context {T : Type}.

  Definition orPanic (msg : string) (o : option T) : outcome (ringRes T) :=
    match o with Some v => Ok (RVal v) | None => Panic msg end.

  (** The deque: first element at the head of the list. *)
  Definition dequeStep (o : ringOp T) (l : list T) : outcome (ringRes T) * list T :=
    match o with
    | OAppend v | OPush v => (Ok RUnit, l ++ [v])
    | OPrepend v => (Ok RUnit, v :: l)
    | OPop => match l with
              | [] => (Panic "pop from empty queu", [])
              | x :: l' => (Ok (RVal x), l')
              end
    | ODeleteFirst => match l with
                      | [] => (Panic "delete from empty queue", [])
                      | _ :: l' => (Ok RUnit, l')
                      end
    | ODeleteLast => match l with
                     | [] => (Panic "delete from empty queue", [])
                     | _ :: _ => (Ok RUnit, removelast l)
                     end
    | OFirst => (orPanic "get from empty queue" (nth_error l 0), l)
    | OLast => (orPanic "get from empty queue" (nth_error (rev l) 0), l)
    | OAt i => (orPanic "index out of bound" (zget l i), l)
    | OSet i v => match zset l i v with
                  | Some l' => (Ok RUnit, l')
                  | None => (Panic "index out of bound", l)
                  end
    | OLen => (Ok (RInt (zlen l)), l)
    | OEmpty => (Ok (RBool (match l with [] => true | _ => false end)), l)
    | OToSlice _ => (Ok (RSlice (match l with [] => None | _ => Some l end)), l)
    end.
End Deque.
