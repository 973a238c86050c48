(** Models of the two programs of the repository that write random bytes for a
    statistical test: xhash/diehard_gen/main.go and secrand/dieharder_test/main.go.

    Both loop for ever.  The model gives what they have written after [k] rounds
    of the loop; bufio.Writer only delays it.  Errors of os.Stdout are ignored by
    the programs and not modelled.  Nor are the flag package and strconv.ParseInt:
    the mode and the seed are parameters. *)
From Verif Require Import Base Exn.
From Verif Require XHash_Model Secrand_Model.
Local Open Scope exn_scope.
Local Open Scope list_scope.
Local Open Scope Z_scope.

(** diehard_gen/main.go:13-17, the flags. *)
Inductive mode : Type := Incr64 | CountUint64 | CountUint64Seed.

(** encoding/binary, LittleEndian.PutUint64. *)
Definition PutUint64 (v : Z) : list Z :=
  map (fun i => Z.shiftr v (8 * i) mod 256) [0; 1; 2; 3; 4; 5; 6; 7].

(** diehard_gen/main.go:28-42, the three loops; [h] is the hasher of line 21,
    [i] the loop variable. *)
Fixpoint hashLoop (m : mode) (k : nat) (h i : Z) : list Z :=
  match k with
  | O => []
  | S k =>
      match m with
      | Incr64 => PutUint64 (XHash_Model.Sum64 h) ++ hashLoop m k (XHash_Model.WriteUint64 h 0) i
      | CountUint64 => PutUint64 (XHash_Model.Uint64 i) ++ hashLoop m k h (XHash_Model.u64 (i + 1))
      | CountUint64Seed => PutUint64 (XHash_Model.Uint64Seed 0 i) ++ hashLoop m k h (XHash_Model.u64 (i + 1))
      end
  end.
(** diehard_gen/main.go:19-42. *)
Definition hashMain (m : mode) (k : nat) : list Z := hashLoop m k XHash_Model.NewFast64 0.

(** dieharder_test/main.go:21-22: the seed of the generator. *)
Definition seed32 (seed : Z) : list Z := PutUint64 (seed mod 2 ^ 64) ++ repeat 0 24.

Section Cipher.
  Context (ks : Z -> list Z -> list Z -> nat -> Z).

  (** dieharder_test/main.go:26-34; [buf] is the array of line 24. *)
  Fixpoint rngLoop (raw : bool) (k : nat) (buf : list Z) : X Secrand_Model.RNG (list Z) :=
    match k with
    | O => xret []
    | S k =>
        if raw then
          'x <- Secrand_Model.Read ks 2 buf ;;
          more <- rngLoop raw k (snd x) ;;
          xret (snd x ++ more)
        else
          v <- Secrand_Model.Uint64 ks 2 ;;
          more <- rngLoop raw k buf ;;
          xret (PutUint64 v ++ more)
    end.

  (** dieharder_test/main.go:21-34. *)
  Definition rngMain (defaultNonce : list Z) (seed : Z) (raw : bool) (k : nat) : outcome (list Z) :=
    match Secrand_Model.NewRNGFromSeed ks defaultNonce (seed32 seed) with
    | Ok rng => fst (rngLoop raw k (repeat 0 499) rng)
    | Panic e => Panic e
    | Diverge => Diverge
    end.
End Cipher.
