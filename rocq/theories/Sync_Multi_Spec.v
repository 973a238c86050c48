(** Vocabulary for goroutines that hold several locks at a time. *)
From Verif Require Import Base Lin Sync_Model Sync_Multi_Model.
Local Open Scope list_scope.

Section Spec.
  Context {T R : Type}.

  (** A client run alone. *)
  Fixpoint alone (c : client T R) (v : nat -> T) : R * (nat -> T) :=
    match c with
    | CRet r => (r, v)
    | CLock _ k | CUnlock _ k | CRLock _ k | CRUnlock _ k => alone k v
    | CRead i k => alone (k (v i)) v
    | CWrite i x k => alone k (put v i x)
    end.
  Inductive serial {P : client T R -> Prop} : (nat -> T) -> call P -> R -> (nat -> T) -> Prop :=
  | ser o v v' : (forall i, v' i = snd (alone (proj1_sig o) v) i) -> serial v o (fst (alone (proj1_sig o) v)) v'.

  (** The objects a goroutine has locked, with [true] for Lock and [false] for RLock. *)
  Definition holding : Type := list (nat * bool).

  (** Two-phase locking: the client locks first what it uses and then unlocks, in
      any order; it locks nothing after the first unlock, nothing twice, something,
      and unlocks everything; it reads what it has locked and writes what it has
      locked with Lock.  It locks [i] while it holds [j] only if [ok j i]. *)
  Fixpoint twoPhase (ok : nat -> nat -> Prop) (released : bool) (h : holding) (c : client T R) : Prop :=
    match c with
    | CRet _ => released = true /\ h = []
    | CLock i k => released = false /\ (forall j ex, In (j, ex) h -> j <> i /\ ok j i) /\ twoPhase ok false ((i, true) :: h) k
    | CRLock i k => released = false /\ (forall j ex, In (j, ex) h -> j <> i /\ ok j i) /\ twoPhase ok false ((i, false) :: h) k
    | CUnlock i k => exists h1 h2, h = h1 ++ (i, true) :: h2 /\ twoPhase ok true (h1 ++ h2) k
    | CRUnlock i k => exists h1 h2, h = h1 ++ (i, false) :: h2 /\ twoPhase ok true (h1 ++ h2) k
    | CRead i k => (exists ex, In (i, ex) h) /\ forall v, twoPhase ok released h (k v)
    | CWrite i _ k => In (i, true) h /\ twoPhase ok released h k
    end.
  Definition anyOrder (j i : nat) : Prop := True.
End Spec.

(** *** Accounts *)
Local Open Scope Z_scope.
(** Moves [d] from account [i] to account [j]. *)
Definition transfer (i j : nat) (d : Z) : client Z Z :=
  CLock (Nat.min i j) (CLock (Nat.max i j) (
    CRead i (fun x => CWrite i (x - d) (
    CRead j (fun y => CWrite j (y + d) (
    CUnlock i (CUnlock j (CRet 0)))))))).
(** The sum of the accounts 0 ... n-1: locks all of them for reading, then adds
    up and unlocks one after the other. *)
Fixpoint lockAll (i n : nat) (k : client Z Z) : client Z Z :=
  match n with O => k | S n => CRLock i (lockAll (S i) n k) end.
Fixpoint addUp (i n : nat) (acc : Z) : client Z Z :=
  match n with O => CRet acc | S n => CRead i (fun x => CRUnlock i (addUp (S i) n (acc + x))) end.
Definition audit (n : nat) : client Z Z := lockAll 0 n (addUp 0 n 0).
Fixpoint sum (n : nat) (v : nat -> Z) : Z := match n with O => 0 | S n => sum n v + v n end.

(** Transfers between accounts below [n], and audits. *)
Inductive banking (n : nat) : client Z Z -> Prop :=
| b_transfer i j d : (i < n)%nat -> (j < n)%nat -> i <> j -> banking n (transfer i j d)
| b_audit : (0 < n)%nat -> banking n (audit n).
