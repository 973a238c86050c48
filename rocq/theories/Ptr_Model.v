(** Model of atomic/ptr.go: a shared pointer and the goroutines that use it. *)
From Verif Require Import Base Lin.
Local Open Scope list_scope.

(** A pointer: nil or an address.  What it points to plays no role here. *)
Definition pointer : Type := option nat.

(** Go's [==] on pointers. *)
Definition samePointer (a b : pointer) : bool :=
  match a, b with
  | None, None => true
  | Some x, Some y => Nat.eqb x y
  | _, _ => false
  end.

(** The methods of Ptr[T]. *)
Inductive op : Type := Load | Store (val : pointer) | Swap (val : pointer) | CompareAndSwap (old new : pointer).
Inductive res : Type := RUnit | RPtr (p : pointer) | RBool (b : bool).

(** Each method makes one call of package sync/atomic, which is atomic. *)
Inductive prog : Type :=
| Ret (r : res)
| LoadPointer (k : pointer -> prog)
| StorePointer (val : pointer) (k : prog)
| SwapPointer (val : pointer) (k : pointer -> prog)
| CompareAndSwapPointer (old new : pointer) (k : bool -> prog).

Definition code (o : op) : prog :=
  match o with
  | Load => LoadPointer (fun p => Ret (RPtr p))                                      (* atomic/ptr.go:22-24 *)
  | Store val => StorePointer val (Ret RUnit)                                        (* atomic/ptr.go:27-29 *)
  | Swap val => SwapPointer val (fun p => Ret (RPtr p))                              (* atomic/ptr.go:32-34 *)
  | CompareAndSwap old new => CompareAndSwapPointer old new (fun b => Ret (RBool b)) (* atomic/ptr.go:37-39 *)
  end.

Definition over (k : prog) : option res := match k with Ret r => Some r | _ => None end.

(** The shared memory is the field v of atomic/ptr.go:10-14. *)
Inductive instr (t : nat) : prog -> pointer -> prog -> pointer -> Prop :=
| i_load k v : instr t (LoadPointer k) v (k v) v
| i_store x k v : instr t (StorePointer x k) v k x
| i_swap x k v : instr t (SwapPointer x k) v (k v) x
| i_cas old new k v : instr t (CompareAndSwapPointer old new k) v (k (samePointer v old)) (if samePointer v old then new else v).

Definition state : Type := config op pointer prog.
(** Executions from the zero Ptr ([newPtr None]) or from NewPtr(val), atomic/ptr.go:17-19. *)
Definition newPtr (val : pointer) : pointer := val.
Definition execution (v : pointer) : list (event op res) -> state -> Prop := runs code over instr v.
