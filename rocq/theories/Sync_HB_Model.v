(** The executions of xsync.Synchronized and RWSynchronized with what every
    instruction does to memory and lock: the value is one location, accessed
    plainly through the pointer that Lock and RLock return. *)
From Verif Require Import Base Lin HB Sync_Model.
Local Open Scope list_scope.

Section Sync.
  Context {T R : Type}.

  (** Lock has returned after [LockWait] (synchronized.go:13-16, 28-31). *)
  Definition access (k : prog T R) : act (op T R) R :=
    match k with
    | Ret _ | Lock _ => AElse
    | LockWait _ => ALock true 0
    | Unlock _ => AUnlock true 0
    | RLock _ => ALock false 0
    | RUnlock _ => AUnlock false 0
    | Read _ => APlain false 0
    | Write _ _ => APlain true 0
    end.

  Inductive detailed (v : T) : doings (op T R) R -> state T R -> Prop :=
  | d_nil : detailed v [] (start (fresh v))
  | d_call tr c t o : detailed v tr c -> thread c t = Idle ->
      detailed v (tr ++ [(t, ACall o)]) {| shared := shared c; thread := put (thread c) t (Run o (code o)) |}
  | d_instr tr c t o k k' s' : detailed v tr c -> thread c t = Run o k -> instr t k (shared c) k' s' ->
      detailed v (tr ++ [(t, access k)]) {| shared := s'; thread := put (thread c) t (Run o k') |}
  | d_return tr c t o k r : detailed v tr c -> thread c t = Run o k -> over k = Some r ->
      detailed v (tr ++ [(t, AReturn o r)]) {| shared := shared c; thread := put (thread c) t Idle |}.
End Sync.
