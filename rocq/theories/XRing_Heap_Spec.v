(** What happens around a ring in memory: calls of the ring, other code that
    writes to memory it holds or allocates, and what each answer must be. *)
From Verif Require Import Base Exn GoSlice XRing_Spec.
Local Open Scope string_scope.
Local Open Scope list_scope.
Local Open Scope Z_scope.

Inductive event (T : Type) : Type :=
| EAppend (v : T) | EPush (v : T) | EPrepend (v : T)
| EPop | EDeleteFirst | EDeleteLast
| EFirst | ELast | EAt (i : Z) | ESet (i : Z) (v : T) | EAtRef (i : Z)
| ELen | EEmpty | EToSlice (s : slice)
| EPoke (a : nat) (i : Z) (v : T)      (* other code stores v in a cell *)
| EAlloc (l : list T).                 (* other code allocates an array *)
Arguments EAppend {T}. Arguments EPush {T}. Arguments EPrepend {T}.
Arguments EPop {T}. Arguments EDeleteFirst {T}. Arguments EDeleteLast {T}.
Arguments EFirst {T}. Arguments ELast {T}. Arguments EAt {T}. Arguments ESet {T}.
Arguments EAtRef {T}. Arguments ELen {T}. Arguments EEmpty {T}. Arguments EToSlice {T}.
Arguments EPoke {T}. Arguments EAlloc {T}.

(** What an event gives back. *)
Inductive answer (T : Type) : Type :=
| AUnit | AVal (v : T) | AInt (n : Z) | ABool (b : bool)
| ASlice (s : slice) | APtr (a : nat) (i : Z).
Arguments AUnit {T}. Arguments AVal {T}. Arguments AInt {T}.
Arguments ABool {T}. Arguments ASlice {T}. Arguments APtr {T}.

Section Spec.
  Context {T : Type}.

  (** Cell (a, i) lies among the elements, resp. the capacity, of a slice. *)
  Definition inLen (s : slice) (a : nat) (i : Z) : Prop := a = arr s /\ off s <= i < off s + len s.
  Definition inCap (s : slice) (a : nat) (i : Z) : Prop := a = arr s /\ off s <= i < off s + cap s.

  (** The deque call an event is, if it is one. *)
  Definition dequeOp (e : event T) : option (ringOp T) :=
    match e with
    | EAppend v => Some (OAppend v)
    | EPush v => Some (OPush v)
    | EPrepend v => Some (OPrepend v)
    | EPop => Some OPop
    | EDeleteFirst => Some ODeleteFirst
    | EDeleteLast => Some ODeleteLast
    | EFirst => Some OFirst
    | ELast => Some OLast
    | EAt i | EAtRef i => Some (OAt i)
    | ESet i v => Some (OSet i v)
    | ELen => Some OLen
    | EEmpty => Some OEmpty
    | EToSlice _ => Some (OToSlice None)
    | EPoke _ _ _ | EAlloc _ => None
    end.

  (** The list after an event. *)
  Definition listAfter (e : event T) (l : list T) : list T :=
    match dequeOp e with Some o => snd (dequeStep o l) | None => l end.

  (** An answer [x], given in memory [h], is what the deque answers: values are
      equal, a slice shows the elements in [h], a pointer points to the element
      in [h]. *)
  Definition sameAnswer (h : heap T) (x : answer T) (y : ringRes T) : Prop :=
    match x, y with
    | AUnit, RUnit => True
    | AVal v, RVal v' => v = v'
    | AInt n, RInt n' => n = n'
    | ABool b, RBool b' => b = b'
    | ASlice s, RSlice None => s = nilSlice
    | ASlice s, RSlice (Some l) => valid h s /\ s <> nilSlice /\ elems h s = l
    | APtr a i, RVal v => cell h a i = Some v
    | _, _ => False
    end.

  Definition sameOutcome (h : heap T) (x : outcome (answer T)) (y : outcome (ringRes T)) : Prop :=
    match x, y with
    | Ok x, Ok y => sameAnswer h x y
    | Panic m, Panic m' => m = m'
    | _, _ => False
    end.

  (** Events of other code say nothing about the ring. *)
  Definition answered (e : event T) (l : list T) (h : heap T) (x : outcome (answer T)) : Prop :=
    match dequeOp e with
    | Some o => sameOutcome h x (fst (dequeStep o l))
    | None => True
    end.

  (** What other code may do while the ring's elements lie in the memory of
      [own]: write elsewhere, and hand ToSlice slices that lie elsewhere (nil
      is one). *)
  Definition allowed (h : heap T) (own : slice) (e : event T) : Prop :=
    match e with
    | EToSlice s => valid h s /\ forall a i, inCap s a i -> ~ inLen own a i
    | EPoke a i _ => ~ inLen own a i
    | _ => True
    end.

  (** The cells an event may write, apart from the ring's own. *)
  Definition writes (e : event T) (a : nat) (i : Z) : Prop :=
    match e with
    | EToSlice s => inCap s a i
    | EPoke a' i' _ => a = a' /\ i = i'
    | _ => False
    end.
  (** Where the element at position [i] is after an event that does not panic,
      if it is still there. *)
  Definition positionAfter (e : event T) (l : list T) (i : Z) : option Z :=
    match e with
    | EPrepend _ => Some (i + 1)
    | EPop | EDeleteFirst => if i =? 0 then None else Some (i - 1)
    | EDeleteLast => if i =? zlen l - 1 then None else Some i
    | _ => Some i
    end.
End Spec.
