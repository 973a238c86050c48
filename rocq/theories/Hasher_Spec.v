(** Specification vocabulary for hashing, independent of the hash functions. *)
From Verif Require Import Base Hasher_Model.

(** Somewhere in the value an interface holds a value of a type that cannot be
    compared (or the value is itself of such a type). *)
Inductive unhashable : val -> Prop :=
| uh_func id : unhashable (VFunc id)
| uh_iface t v : comparable t = false -> unhashable (VIface t v)
| uh_held t v : unhashable v -> unhashable (VIface t v)
| uh_part l v : In v l -> unhashable v -> unhashable (VSeq l).

(** IEEE 754: a NaN is, apart from the sign bit, above infinity. *)
Definition nanBits (wide : bool) (b : Z) : Prop :=
  if wide then 2047 * 2 ^ 52 < b mod 2 ^ 63 else 255 * 2 ^ 23 < b mod 2 ^ 31.

(** Some part of the value that takes part in comparisons is a NaN. *)
Inductive has_nan : val -> Prop :=
| hn_float w b : nanBits w b -> has_nan (VFloat w b)
| hn_held t v : has_nan v -> has_nan (VIface t v)
| hn_part l v : In v l -> has_nan v -> has_nan (VSeq l).

(** Two values of one type whose interfaces hold values of the same types. *)
Inductive alike : val -> val -> Prop :=
| al_mem (a b : list Z) : List.length a = List.length b -> alike (VMem a) (VMem b)
| al_float (w : bool) (a b : Z) : 0 <= a < 2 ^ (if w then 64 else 32) -> 0 <= b < 2 ^ (if w then 64 else 32) ->
    alike (VFloat w a) (VFloat w b)
| al_string a b : alike (VString a) (VString b)
| al_nil : alike VNil VNil
| al_iface t v v' : alike v v' -> alike (VIface t v) (VIface t v')
| al_seq l l' : alikes l l' -> alike (VSeq l) (VSeq l')
| al_blank a b : alike (VBlank a) (VBlank b)
with alikes : list val -> list val -> Prop :=
| als_nil : alikes [] []
| als_cons v v' l l' : alike v v' -> alikes l l' -> alikes (v :: l) (v' :: l').

(** The lowest [n] bytes of a number, the lowest first. *)
Fixpoint leBytes (n : nat) (b : Z) : list Z :=
  match n with O => [] | Datatypes.S n => b mod 256 :: leBytes n (b / 256) end.

Section Asks.
  Variable memhash : list Z -> Z -> Z.

  (** The pieces of memory that are hashed on the way, with the seeds they are
      hashed with; [None] is a floating point zero, which has a hash of its own. *)
  Inductive asks : val -> Z -> option (list Z) * Z -> Prop :=
  | as_mem bs h : asks (VMem bs) h (Some bs, h)
  | as_string bs h : asks (VString bs) h (Some bs, h)
  | as_zero (w : bool) b h : b mod (if w then 2 ^ 63 else 2 ^ 31) = 0 -> asks (VFloat w b) h (None, h)
  | as_float (w : bool) b h : b mod (if w then 2 ^ 63 else 2 ^ 31) <> 0 ->
      asks (VFloat w b) h (Some (leBytes (if w then 8 else 4) b), h)
  | as_iface t v h q : asks v (Z.lxor h c0) q -> asks (VIface t v) h q
  | as_part l x r h h' q : (forall rnd n, HashSeed memhash rnd (VSeq l) h n = Ok (h', n)) ->
      asks x h' q -> asks (VSeq (l ++ x :: r)) h q.
  Definition rawHash (q : option (list Z) * Z) : Z :=
    match q with (Some bs, h) => memhash bs h | (None, h) => mulw c1 (Z.lxor c0 h) end.
End Asks.
