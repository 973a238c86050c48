(** Vocabulary for the properties of random numbers. *)
From Coq Require Import Permutation.
From Verif Require Import Base Exn.
Local Open Scope list_scope.

(** A source of 63-bit words. *)
Definition words63 {st} (src : st -> Z * st) : Prop := forall s, 0 <= fst (src s) < 2 ^ 63.

(** The source whose words are all its state, a 63-bit number. *)
Definition always (w : Z) : Z * Z := (w mod 2 ^ 63, w).

(** Of the words 0 .. N-1, the function [f] maps the same number, [q], to each
    of the results 0 .. n-1, and these are more than half of all words. *)
Definition equallyLikely (N n : Z) (f : Z -> outcome Z) : Prop :=
  exists q, N < 2 * (q * n) /\
    forall r, 0 <= r < n ->
      exists ws, NoDup ws /\ zlen ws = q /\ forall w, In w ws <-> 0 <= w < N /\ f w = Ok r.

(** The numbers 0 .. n-1. *)
Definition below (n : Z) : list Z := map Z.of_nat (seq 0 (Z.to_nat n)).

(** Numbers that were decided before: the state is the list of them, each with
    the bound that has to be asked for. *)
Definition scripted (k : Z) : X (list (Z * Z)) Z := fun js =>
  match js with
  | (b, j) :: js' => (if b =? k then Ok j else Diverge, js')
  | [] => (Diverge, [])
  end.

(** One number for each bound in [ks], at least 0 and below it. *)
Definition draws (ks js : list Z) : Prop := Forall2 (fun k j => 0 <= j < k) ks js.

(** The list with its elements number i and j exchanged. *)
Definition exchange {A} (i j : Z) (l : list A) : list A :=
  match zget l i, zget l j with
  | Some x, Some y => upd (upd l (Z.to_nat i) y) (Z.to_nat j) x
  | _, _ => l
  end.

(** The word number [i] that a source gives. *)
Fixpoint word {st} (src : st -> Z * st) (i : nat) (s : st) : Z :=
  match i with
  | O => fst (src s)
  | S i' => word src i' (snd (src s))
  end.

(** A number of at most [p] significant bits. *)
Definition significant (p x : Z) : Prop := exists m e, 0 <= e /\ 0 <= m < 2 ^ p /\ x = m * 2 ^ e.

(** [f] is [x] rounded to [p] significant bits: no number of [p] bits is nearer
    to x, and if another one is as near, then the last of the p bits of f is 0. *)
Definition nearest (p x f : Z) : Prop :=
  significant p f /\
  forall g, significant p g ->
    Z.abs (x - f) <= Z.abs (x - g) /\
    (Z.abs (x - f) = Z.abs (x - g) -> g = f \/ significant (p - 1) f).

(** The number whose bytes, the lowest first, are [b]. *)
Fixpoint fromBytes (b : list Z) : Z :=
  match b with
  | [] => 0
  | x :: b' => x + 256 * fromBytes b'
  end.

(** A computation on a part of the state. *)
Definition onFst {S D A} (m : X S A) : X (S * D) A := fun sd => (fst (m (fst sd)), (snd (m (fst sd)), snd sd)).
Definition onSnd {S D} (f : D -> D) : X (S * D) unit := fun sd => (Ok tt, (fst sd, f (snd sd))).
(** n, n-1, ..., 2 *)
Definition downTo2 (n : Z) : list Z := map (fun i => n - i) (below (n - 1)).
(** swap(n-1, j1), swap(n-2, j2), ..., swap(1, j_{n-1}), in this order. *)
Definition swaps {D} (swap : Z -> Z -> D -> D) (n : Z) (js : list Z) (d : D) : D :=
  fold_left (fun d ij => swap (fst ij - 1) (snd ij) d) (combine (downTo2 n) js) d.

(** A function that draws from a source: it uses the next word [w] if the
    source that gives [w] for ever lets it return, and otherwise starts again
    with the next word.  The last argument but two bounds how often. *)
Definition redraws (F : forall st, (st -> Z * st) -> nat -> X st Z) : Prop :=
  forall st (src : st -> Z * st), words63 src -> forall fuel s,
    F st src fuel s =
      match fst (F Z always 0%nat (fst (src s))), fuel with
      | Diverge, S fuel' => F st src fuel' (snd (src s))
      | r, _ => (r, snd (src s))
      end.
