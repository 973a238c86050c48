(** What the operations of an atomic register do. *)
From Verif Require Import Base Lin Value_Model.
Local Open Scope list_scope.

Section Spec.
  Context {T : Type} (zero : T) (eqb : T -> T -> bool).

  (** One operation on a register that holds [v], its result and what the
      register holds then.  A CompareAndSwap that returns true found a value
      [== old] and replaced it by [new]; if [new == old], it may also have left it. *)
  Inductive register : T -> op T -> res T -> T -> Prop :=
  | r_load v : register v Load (RVal v) v
  | r_store v x : register v (Store x) RUnit x
  | r_swap v x : register v (Swap x) (RVal v) x
  | r_cas_new v old new : eqb v old = true -> register v (CompareAndSwap old new) (RBool true) new
  | r_cas_same v old new : eqb v old = true -> eqb new old = true -> register v (CompareAndSwap old new) (RBool true) v
  | r_cas_fail v old new : register v (CompareAndSwap old new) (RBool false) v.

  (** The same when [==] is identity: a CompareAndSwap that returns true found
      exactly [old] and left exactly [new]. *)
  Inductive exactRegister : T -> op T -> res T -> T -> Prop :=
  | x_load v : exactRegister v Load (RVal v) v
  | x_store v x : exactRegister v (Store x) RUnit x
  | x_swap v x : exactRegister v (Swap x) (RVal v) x
  | x_cas old new : exactRegister old (CompareAndSwap old new) (RBool true) new
  | x_cas_fail v old new : exactRegister v (CompareAndSwap old new) (RBool false) v.

  (** [==] is identity. *)
  Definition identity : Prop := forall a b, eqb a b = true <-> a = b.

  (** The value held at an instant. *)
  Definition value (c : state T) : option T :=
    match ptr (shared c) with None => Some zero | Some l => nth_error (heap (shared c)) l end.

  (** Goroutine [t] just called [o]; it is inside a call of [o]; it is about to return [r] from it. *)
  Definition called (c : state T) (t : nat) (o : op T) : Prop := thread c t = Run o (code zero eqb o).
  Definition within (c : state T) (t : nat) (o : op T) : Prop := exists k, thread c t = Run o k.
  Definition returns (c : state T) (t : nat) (o : op T) (r : res T) : Prop := exists k, thread c t = Run o k /\ over k = Some r.

  (** Goroutine [u] is in a Store(x) or Swap(x), and its next instruction, which
      leads from [c] to [c'], is the one that makes the register hold [x]. *)
  Definition writes (c c' : state T) (u : nat) (x : T) : Prop :=
    (within c u (Store x) \/ within c u (Swap x)) /\ step (code zero eqb) over instr c [] c' /\
    thread c' u <> thread c u /\ ptr (shared c') <> ptr (shared c).

  (** Whatever the others do to the memory meanwhile, [k] is over after at most
      [n] of its own instructions. *)
  Fixpoint overWithin (n : nat) (t : nat) (k : prog T) : Prop :=
    (exists r, over k = Some r) \/
    match n with
    | O => False
    | S n' => forall m k' m', instr t k m k' m' -> overWithin n' t k'
    end.
End Spec.
