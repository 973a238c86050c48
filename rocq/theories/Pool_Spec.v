(** What pools and master generators should do. *)
From Verif Require Import Base Lin Secrand_Model Secrand_Spec Sync_Model Pool_Model.
Local Open Scope list_scope.

(** The generators that a goroutine's running calls hold. *)
Fixpoint heldIn (fs : list frame) : list nat :=
  match fs with
  | [] => []
  | FGet _ :: fs' => heldIn fs'
  | FHold g _ :: fs' => g :: heldIn fs'
  end.
Definition held (c : config (list act) pool (list frame)) (t : nat) : list nat :=
  match thread c t with Idle => [] | Run _ fs => heldIn fs end.

(** Piece number [i], of 32 bytes, of what the master generator with this seed delivers. *)
Definition piece (ks : Z -> list Z -> list Z -> nat -> Z) (nonce seed : list Z) (i : nat) : list Z :=
  map (streamByte ks 12 nonce seed (Z.to_nat 1024)) (seq (32 * i) 32).

(** Number [i] of the numbers a source delivers. *)
Fixpoint drawn {M D} (int63 : M -> D * M) (m : M) (i : nat) : D :=
  match i with
  | O => fst (int63 m)
  | S i' => drawn int63 (snd (int63 m)) i'
  end.

(** How often [p] was put and not handed out since. *)
Definition account (p : nat) (n : nat) (e : happening) : nat :=
  match e with
  | HPut q => if Nat.eqb p q then S n else n
  | HGet (Ok q) => if Nat.eqb p q then pred n else n
  | HGet _ => n
  end.
Definition available (p : nat) (l : list happening) : nat := fold_left (account p) l 0%nat.
(** [p] occurs in a history. *)
Definition occurs (p : nat) (l : list happening) : Prop := In (HPut p) l \/ In (HGet (Ok p)) l.
