(** Model of atomic/value.go and of the pointer operations of atomic/ptr.go it uses. *)
From Verif Require Import Base Lin.
Local Open Scope list_scope.

Section Value.
  (** The type [T], its zero value and Go's [==] on it.  [==] is any function:
      it need not be reflexive (floats), and two equal values need not be
      identical (+0 and -0).  A [==] that panics (interface values) is not
      modelled. *)
  Context {T : Type} (zero : T) (eqb : T -> T -> bool).

  (** atomic/value.go:9-13 and atomic/ptr.go:10-14: the heap cells that [&val]
      and [&new] made, and the pointer [p].  A cell is never written after it was
      made and its address is not used again: the garbage collector keeps it as
      long as somebody has its address. *)
  Record memory : Type := { heap : list T; ptr : option nat }.

  (** The methods of Value[T]. *)
  Inductive op : Type := Load | Store (x : T) | Swap (x : T) | CompareAndSwap (old new : T).
  Inductive res : Type := RUnit | RVal (v : T) | RBool (b : bool).

  (** Instructions that touch the shared memory; each is atomic. *)
  Inductive prog : Type :=
  | Ret (r : res)
  | New (x : T) (k : nat -> prog)                          (* &x of an argument that escapes *)
  | Deref (l : nat) (k : T -> prog)                        (* *p *)
  | LoadPointer (k : option nat -> prog)                   (* atomic/ptr.go:22-24 *)
  | StorePointer (l : nat) (k : prog)                      (* atomic/ptr.go:27-29 *)
  | SwapPointer (l : nat) (k : option nat -> prog)         (* atomic/ptr.go:32-34 *)
  | CompareAndSwapPointer (old : option nat) (new : nat) (k : bool -> prog). (* atomic/ptr.go:37-39 *)

  (** atomic/value.go:23-30 *)
  Definition load : prog :=
    LoadPointer (fun p => match p with None => Ret (RVal zero) | Some l => Deref l (fun v => Ret (RVal v)) end).
  (** atomic/value.go:33-36 *)
  Definition store (x : T) : prog := New x (fun l => StorePointer l (Ret RUnit)).
  (** atomic/value.go:39-46 *)
  Definition swap (x : T) : prog :=
    New x (fun l => SwapPointer l (fun p =>
      match p with None => Ret (RVal zero) | Some l' => Deref l' (fun v => Ret (RVal v)) end)).
  (** atomic/value.go:57-64: the part of CompareAndSwap after the comparison of
      the value loaded with [old]. *)
  Definition replace (old new : T) (p : option nat) : prog :=
    if eqb new old then Ret (RBool true)
    else New new (fun l => CompareAndSwapPointer p l (fun b => Ret (RBool b))).
  (** atomic/value.go:49-64 *)
  Definition compareAndSwap (old new : T) : prog :=
    LoadPointer (fun p =>
      match p with
      | None => if negb (eqb zero old) then Ret (RBool false) else replace old new p
      | Some l => Deref l (fun v => if negb (eqb v old) then Ret (RBool false) else replace old new p)
      end).
  Definition code (o : op) : prog :=
    match o with
    | Load => load
    | Store x => store x
    | Swap x => swap x
    | CompareAndSwap old new => compareAndSwap old new
    end.

  Definition over (k : prog) : option res := match k with Ret r => Some r | _ => None end.

  (** One instruction; every goroutine runs the same ones. *)
  Inductive instr (t : nat) : prog -> memory -> prog -> memory -> Prop :=
  | i_new x k m : instr t (New x k) m (k (List.length (heap m))) {| heap := heap m ++ [x]; ptr := ptr m |}
  | i_deref l k m v : nth_error (heap m) l = Some v -> instr t (Deref l k) m (k v) m
  | i_load k m : instr t (LoadPointer k) m (k (ptr m)) m
  | i_store l k m : instr t (StorePointer l k) m k {| heap := heap m; ptr := Some l |}
  | i_swap l k m : instr t (SwapPointer l k) m (k (ptr m)) {| heap := heap m; ptr := Some l |}
  | i_cas_yes old new k m : ptr m = old ->
      instr t (CompareAndSwapPointer old new k) m (k true) {| heap := heap m; ptr := Some new |}
  | i_cas_no old new k m : ptr m <> old -> instr t (CompareAndSwapPointer old new k) m (k false) m.

  (** The zero Value, atomic/value.go:9-13. *)
  Definition zeroValue : memory := {| heap := []; ptr := None |}.
  (** atomic/value.go:16-20: NewValue stores into a Value nobody else has yet. *)
  Definition newValue (x : T) : memory := {| heap := [x]; ptr := Some 0%nat |}.

  Definition state : Type := config op memory prog.
  Definition execution (m : memory) : list (event op res) -> state -> Prop := runs code over instr m.
  Definition stretch : (state -> Prop) -> state -> state -> Prop := span code over instr.
End Value.
Arguments memory : clear implicits.
Arguments op : clear implicits.
Arguments res : clear implicits.
Arguments prog : clear implicits.
Arguments state : clear implicits.
