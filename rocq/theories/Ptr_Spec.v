(** What the operations of a pointer variable do. *)
From Verif Require Import Base Ptr_Model.

(** A pointer variable used by one goroutine. *)
Inductive variable : pointer -> op -> res -> pointer -> Prop :=
| v_load v : variable v Load (RPtr v) v
| v_store v x : variable v (Store x) RUnit x
| v_swap v x : variable v (Swap x) (RPtr v) x
| v_cas old new : variable old (CompareAndSwap old new) (RBool true) new
| v_cas_fail v old new : v <> old -> variable v (CompareAndSwap old new) (RBool false) v.
