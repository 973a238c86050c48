(** What is expected of the two programs. *)
From Verif Require Import Base XHash_Spec.
From Verif Require Import Secrand_Spec.
Local Open Scope list_scope.
Local Open Scope Z_scope.

(** Word number [j] of a byte string, least significant byte first. *)
Definition wordAt (out : list Z) (j : nat) : Z := le (firstn 8 (skipn (8 * j) out)).

(** The words of the output repeat with period [p], and there are no other
    repetitions; [out k] is the output after [k] words. *)
Definition cycles (out : nat -> list Z) (p : Z) : Prop :=
  forall k i j, (i < k)%nat -> (j < k)%nat ->
  (wordAt (out k) i = wordAt (out k) j <-> Z.of_nat i mod p = Z.of_nat j mod p).

(** Where in page [i] the read starts that goes beyond its end, when all reads
    are of [d] bytes and pages of [bs]; [bs] if a read ends exactly there. *)
Definition leave (bs d i : nat) : nat := (d * (S i * bs / d) - i * bs)%nat.
