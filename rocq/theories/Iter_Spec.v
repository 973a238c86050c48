(** What it is to be an iterator over a sequence, and what a range denotes. *)
From Verif Require Import Base Exn Iter_Model.

Section Laws.
  Context {St It T C : Type}.

  (** The state holds a sequence of [n] elements, [plug w l] being the state
      whose sequence is [l], with [w] for what the comparator may change; all
      the rest of the state is fixed by [plug].  [at_ i] is the iterator at
      position [i], 0 <= i <= n.  *)
  Context (o : ops St It T) (n : Z) (plug : C -> list T -> St) (at_ : Z -> It).

  (** ConstIterator: Next, Get, Equal. *)
  Record lawful : Prop := {
    law_len : 0 <= n;
    law_next : forall w l i, zlen l = n -> 0 <= i < n ->
      Next o (at_ i) (plug w l) = (Ok (at_ (i + 1)), plug w l);
    law_get : forall w l i x, zlen l = n -> zget l i = Some x ->
      Get o (at_ i) (plug w l) = (Ok x, plug w l);
    law_equal : forall w l i j, zlen l = n -> 0 <= i <= n -> 0 <= j <= n ->
      Equal o (at_ i) (at_ j) (plug w l) = (Ok (i =? j), plug w l) }.

  (** Iterator: Set changes the element, and nothing else. *)
  Definition lawful_set : Prop :=
    forall w l i x l', zlen l = n -> zset l i x = Some l' ->
      Set_ o (at_ i) x (plug w l) = (Ok tt, plug w l').

  (** ConstBidirIterator. *)
  Definition lawful_prev : Prop :=
    forall w l i, zlen l = n -> 0 < i <= n ->
      Prev o (at_ i) (plug w l) = (Ok (at_ (i - 1)), plug w l).

  (** ConstRandomIterator; Pos counts from anywhere. *)
  Definition lawful_random : Prop :=
    (forall w l i k, zlen l = n -> 0 <= i <= n -> 0 <= i + k <= n ->
       Add o (at_ i) k (plug w l) = (Ok (at_ (i + k)), plug w l)) /\
    exists p0, forall w l i, zlen l = n -> 0 <= i <= n -> Pos o (at_ i) (plug w l) = (Ok (p0 + i), plug w l).
End Laws.

(** [walks o b e s l]: going from [b] with Next until Equal to [e], and reading
    each element with Get, gives [l]; the state stays [s]. *)
Inductive walks {St It T} (o : ops St It T) (s : St) : It -> It -> list T -> Prop :=
| walks_end b e : Equal o b e s = (Ok true, s) -> walks o s b e []
| walks_step b e x b' l : Equal o b e s = (Ok false, s) -> Get o b s = (Ok x, s) ->
    Next o b s = (Ok b', s) -> walks o s b' e l -> walks o s b e (x :: l).

(** Elements [i, j) of [l]. *)
Definition part {T} (i j : Z) (l : list T) : list T := firstn (Z.to_nat (j - i)) (skipn (Z.to_nat i) l).

(** Writing values one after the other through an iterator. *)
Fixpoint writes {St It T} (o : ops St It T) (it : It) (vs : list T) : X St It :=
  match vs with
  | [] => xret it
  | v :: vs => xbind (Set_ o it v) (fun _ => xbind (Next o it) (fun it => writes o it vs))
  end.
