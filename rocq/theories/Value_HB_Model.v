(** The executions of atomic.Value with what every instruction does to the memory:
    &val of an argument writes a new heap cell and *p reads one, both plain; the
    functions of atomic/ptr.go:22-39 are atomic. *)
From Verif Require Import Base Lin HB Value_Model.
Local Open Scope list_scope.
Local Open Scope nat_scope.

Section Value.
  Context {T : Type} (zero : T) (eqb : T -> T -> bool).

  Definition samePtr (a b : option nat) : bool :=
    match a, b with Some x, Some y => Nat.eqb x y | None, None => true | _, _ => false end.
  (** The access of the next instruction.  A CompareAndSwap that fails only reads. *)
  Definition access (k : prog T) (m : memory T) : option (act (op T) (res T)) :=
    match k with
    | Ret _ => None
    | New _ _ => Some (APlain true (List.length (heap m)))
    | Deref l _ => Some (APlain false l)
    | LoadPointer _ => Some (AAtomic true false)
    | StorePointer _ _ => Some (AAtomic false true)
    | SwapPointer _ _ => Some (AAtomic true true)
    | CompareAndSwapPointer old _ _ => Some (AAtomic true (samePtr (ptr m) old))
    end.

  Inductive detailed (m : memory T) : doings (op T) (res T) -> state T -> Prop :=
  | d_nil : detailed m [] (start m)
  | d_call tr c t o : detailed m tr c -> thread c t = Idle ->
      detailed m (tr ++ [(t, ACall o)]) {| shared := shared c; thread := put (thread c) t (Run o (code zero eqb o)) |}
  | d_instr tr c t o k a k' m' : detailed m tr c -> thread c t = Run o k -> access k (shared c) = Some a -> instr t k (shared c) k' m' ->
      detailed m (tr ++ [(t, a)]) {| shared := m'; thread := put (thread c) t (Run o k') |}
  | d_return tr c t o k r : detailed m tr c -> thread c t = Run o k -> over k = Some r ->
      detailed m (tr ++ [(t, AReturn o r)]) {| shared := shared c; thread := put (thread c) t Idle |}.
End Value.
