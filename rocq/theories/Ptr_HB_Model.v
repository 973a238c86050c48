(** The executions of atomic.Ptr with what every instruction does to the memory:
    each is one atomic access. *)
From Verif Require Import Base Lin HB Ptr_Model.
Local Open Scope list_scope.

(** atomic/ptr.go:22-39.  A CompareAndSwap that fails only reads. *)
Definition access (k : prog) (v : pointer) : option (act op res) :=
  match k with
  | Ret _ => None
  | LoadPointer _ => Some (AAtomic true false)
  | StorePointer _ _ => Some (AAtomic false true)
  | SwapPointer _ _ => Some (AAtomic true true)
  | CompareAndSwapPointer old _ _ => Some (AAtomic true (samePointer v old))
  end.

Inductive detailed (v : pointer) : doings op res -> state -> Prop :=
| d_nil : detailed v [] (start v)
| d_call tr c t o : detailed v tr c -> thread c t = Idle ->
    detailed v (tr ++ [(t, ACall o)]) {| shared := shared c; thread := put (thread c) t (Run o (code o)) |}
| d_instr tr c t o k a k' v' : detailed v tr c -> thread c t = Run o k -> access k (shared c) = Some a -> instr t k (shared c) k' v' ->
    detailed v (tr ++ [(t, a)]) {| shared := v'; thread := put (thread c) t (Run o k') |}
| d_return tr c t o k r : detailed v tr c -> thread c t = Run o k -> over k = Some r ->
    detailed v (tr ++ [(t, AReturn o r)]) {| shared := shared c; thread := put (thread c) t Idle |}.

(** [o] puts [p] into the Ptr if it succeeds; a call that returned [r] has seen [p]. *)
Definition brings (o : op) (p : pointer) : Prop :=
  match o with
  | Load => False
  | Store x | Swap x => p = x
  | CompareAndSwap _ new => p = new
  end.
Definition saw (o : op) (r : res) (p : pointer) : Prop :=
  match o, r with
  | Load, RPtr x | Swap _, RPtr x => p = x
  | CompareAndSwap old _, RBool true => p = old
  | _, _ => False
  end.
