(** The executions of xmap.Sharded with what every instruction does to memory and
    locks.  A shard's map is one memory location, with the number of the shard,
    accessed plainly; so is its lock (sharded.go:20-23). *)
From Verif Require Import Base GoMap Lin HB Sharded_Model.
Local Open Scope list_scope.

Section Sharded.
  Context {K V : Type} (eqb : K -> K -> bool) (zero : V) (nsh : nat) (hash : K -> Z).

  (** What the next instruction does.  [Lock] waits for its turn; Lock has
      returned after [LockWait]. *)
  Definition access (p : prog K V) : act (op K V) (res K V) :=
    match p with
    | Ret _ | Call _ | Lock _ _ => AElse
    | RLock s _ => ALock false s
    | RUnlock s _ => AUnlock false s
    | LockWait s _ => ALock true s
    | Unlock s _ => AUnlock true s
    | Read s _ | Range s _ => APlain false s
    | Write s _ _ => APlain true s
    end.

  Inductive detailed (allow : nat -> op K V -> Prop) : doings (op K V) (res K V) -> config K V -> Prop :=
  | d_nil : detailed allow [] initial
  | d_inv tr c t o : detailed allow tr c -> thr c t = Idle -> allow t o ->
      detailed allow (tr ++ [(t, ACall o)]) {| shm := shm c; thr := fupd (thr c) t (Running o (progOf eqb zero nsh hash o)) |}
  | d_ret tr c t o r : detailed allow tr c -> thr c t = Running o (Ret r) ->
      detailed allow (tr ++ [(t, AReturn o r)]) {| shm := shm c; thr := fupd (thr c) t Idle |}
  | d_callback tr c t o p : detailed allow tr c -> thr c t = Running o (Call p) ->
      detailed allow (tr ++ [(t, AElse)]) {| shm := shm c; thr := fupd (thr c) t (Running o p) |}
  | d_tau tr c t o p p' sh' : detailed allow tr c -> thr c t = Running o p -> tstep t p (shm c) p' sh' ->
      detailed allow (tr ++ [(t, access p)]) {| shm := sh'; thr := fupd (thr c) t (Running o p') |}.
End Sharded.

(** The calls and returns of an execution of Sharded_Model. *)
Fixpoint callsReturns {K V} (l : list (event K V)) : list (Lin.event (op K V) (res K V)) :=
  match l with
  | [] => []
  | EInv t o :: l' => Lin.EInv t o :: callsReturns l'
  | ERet t o r :: l' => Lin.ERet t o r :: callsReturns l'
  | ECall _ _ :: l' => callsReturns l'
  end.
