(** Model of secrand/rng.go.

    Bytes are numbers from 0 to 255 and byte slices are lists of them.  A slice
    of the RNG's own buffer is cut out of the list in the state and written
    back.  The caller's slice [b] does not overlap that buffer, which is never
    handed out; Read takes its contents and returns the new ones. *)
From Verif Require Import Base Exn.
Local Open Scope exn_scope.
Local Open Scope string_scope.
Local Open Scope list_scope.
Local Open Scope Z_scope.

(** The constants of the package chacha. *)
Definition KeySize : Z := 32.
Definition NonceSize : Z := 8.
(** rng.go:12-15. *)
Definition DefaultBufSize : Z := 1024.
Definition DefaultRounds : Z := 12.

(** make([]byte, n), and an array of n zero bytes. *)
Definition zeros (n : Z) : list Z := repeat 0 (Z.to_nat n).

(** l[i:] and l[:i]; the capacity is the length. *)
Definition from {A} (l : list A) (i : Z) : outcome (list A) :=
  if (0 <=? i) && (i <=? zlen l) then Ok (skipn (Z.to_nat i) l) else Panic "slice bounds out of range".
Definition upto {A} (l : list A) (i : Z) : outcome (list A) :=
  if (0 <=? i) && (i <=? zlen l) then Ok (firstn (Z.to_nat i) l) else Panic "slice bounds out of range".
(** The built-in copy: the new contents of dst, and the number copied. *)
Definition copy (dst src : list Z) : list Z * Z :=
  let n := Nat.min (List.length dst) (List.length src) in
  (firstn n src ++ skipn n dst, Z.of_nat n).

(** rng.go:148-153 erase. *)
Definition erase (b : list Z) : list Z := map (fun _ => 0) b.
(** rng.go:155-159 copyAndErase: the new dst, the new src, the count. *)
Definition copyAndErase (dst src : list Z) : list Z * list Z * Z :=
  let '(dst', n) := copy dst src in
  (dst', erase (firstn (Z.to_nat n) src) ++ skipn (Z.to_nat n) src, n).

Definition lift {st A} (m : outcome A) : X st A := fun s => (m, s).

(** b xored with the bytes i, i+1, ... of a key stream. *)
Fixpoint xorFrom (f : nat -> Z) (i : nat) (b : list Z) : list Z :=
  match b with
  | [] => []
  | x :: b' => Z.lxor x (f i) :: xorFrom f (S i) b'
  end.

(** rng.go:39-44 RNG. *)
Record RNG : Type := mkRNG { buf : list Z; n : Z; rounds : Z; nonce : list Z }.
Definition setBuf (r : RNG) (b : list Z) (k : Z) : RNG := mkRNG b k (rounds r) (nonce r).

Section Cipher.
  (** The key stream: [ks rounds nonce key i] is its byte number i. *)
  Context (ks : Z -> list Z -> list Z -> nat -> Z).

  (** chacha.XORKeyStream(b, b, nonce, key, rounds), with the conditions under
      which it panics.  The key may be a part of b: it is copied first. *)
  Definition XORKeyStream (b nonce key : list Z) (rounds : Z) : outcome (list Z) :=
    if negb ((rounds =? 8) || (rounds =? 12) || (rounds =? 20)) then Panic "chacha20/chacha: bad number of rounds" else
    if negb (zlen key =? KeySize) then Panic "chacha20/chacha: bad key length" else
    if negb (zlen nonce =? NonceSize) then Panic "chacha20/chacha: bad nonce length" else
    Ok (xorFrom (ks rounds nonce key) 0 b).

  (** rng.go:76-90 NewRNGCustom. *)
  Definition NewRNGCustom (seed nonce : list Z) (bufsize rounds : Z) : outcome RNG :=
    if bufsize <? KeySize * 2 then Panic "frand: bufsize must be at least 64" else
    if negb ((rounds =? 8) || (rounds =? 12) || (rounds =? 20)) then
      Panic "frand: rounds must be 8, 12, or 20" else
    match XORKeyStream (zeros (KeySize + bufsize)) nonce seed rounds with
    | Ok buf => Ok (mkRNG buf KeySize rounds nonce)
    | Panic e => Panic e
    | Diverge => Diverge
    end.

  (** rng.go:50-52 NewRNGFromSeedNonce, 46-48 NewRNGFromSeed; the package's
      _defaultNonce is a parameter. *)
  Definition NewRNGFromSeedNonce (seed nonce : list Z) : outcome RNG :=
    NewRNGCustom seed nonce DefaultBufSize DefaultRounds.
  Definition NewRNGFromSeed (defaultNonce seed : list Z) : outcome RNG :=
    NewRNGCustom seed defaultNonce DefaultBufSize DefaultRounds.

  (** rng.go:101-119 Read: its int result and the new contents of b.  The error
      is always nil.  [fuel] bounds the nested calls. *)
  Fixpoint Read (fuel : nat) (b : list Z) : X RNG (Z * list Z) :=
    match fuel with
    | O => fun s => (Diverge, s)
    | S fuel =>
        r <- xget ;;
        rest <- lift (from (buf r) (n r)) ;;
        body <- lift (from (buf r) KeySize) ;;
        if zlen b <=? zlen rest then
          used <- lift (upto (buf r) (n r)) ;;
          let '(b', rest', k) := copyAndErase b rest in
          xput (setBuf r (used ++ rest') (n r + k)) ;;
          xret (zlen b, b')
        else if zlen b <=? zlen rest + zlen body then
          let '(b1, k) := copy b rest in
          key <- lift (upto (buf r) KeySize) ;;
          buf' <- lift (XORKeyStream (buf r) (nonce r) key (rounds r)) ;;
          xput (setBuf r buf' (n r)) ;;
          head <- lift (upto b1 k) ;;
          tail <- lift (from b1 k) ;;
          key' <- lift (upto buf' KeySize) ;;
          body' <- lift (from buf' KeySize) ;;
          let '(tail', body'', k') := copyAndErase tail body' in
          xput (setBuf r (key' ++ body'') (KeySize + k')) ;;
          xret (zlen b, head ++ tail')
        else
          'tmp <- Read fuel (zeros KeySize) ;;
          r <- xget ;;
          b' <- lift (XORKeyStream b (nonce r) (snd tmp) (rounds r)) ;;
          xret (zlen b, b')
    end.

  (** rng.go:129-133 toUint64. *)
  Definition toUint64 (b : list Z) : outcome Z :=
    match b with
    | b0 :: b1 :: b2 :: b3 :: b4 :: b5 :: b6 :: b7 :: _ =>
        Ok (Z.lor (Z.lor (Z.lor (Z.lor (Z.lor (Z.lor (Z.lor b0 (Z.shiftl b1 8)) (Z.shiftl b2 16)) (Z.shiftl b3 24))
          (Z.shiftl b4 32)) (Z.shiftl b5 40)) (Z.shiftl b6 48)) (Z.shiftl b7 56))
    | _ => Panic "index out of range"
    end.

  (** rng.go:135-146 Uint64. *)
  Definition Uint64 (fuel : nat) : X RNG Z :=
    r <- xget ;;
    rest <- lift (from (buf r) (n r)) ;;
    if 8 <=? zlen rest then
      b <- lift (upto rest 8) ;;
      v <- lift (toUint64 b) ;;
      used <- lift (upto (buf r) (n r)) ;;
      more <- lift (from rest 8) ;;
      xput (setBuf r (used ++ erase b ++ more) (n r + 8)) ;;
      xret v
    else
      'b <- Read fuel (zeros 8) ;;
      lift (toUint64 (snd b)).

  (** rng.go:121-123 Int63: v & ^uint64(1<<63) fits an int64. *)
  Definition Int63 (fuel : nat) : X RNG Z :=
    v <- Uint64 fuel ;;
    xret (Z.ldiff v (2 ^ 63)).

  (** rng.go:125-127 Seed. *)
  Definition Seed (seed : Z) : X RNG unit := xpanic "secrand.RNG.Seed is not supported".

  (** An io.Reader: asked for up to [k] bytes it returns some and maybe an
      error; [W] is its state.
      io.ReadFull of the standard library (io.go, ReadAtLeast with min =
      len(buf)): [got] is what was read so far, [want] how much is missing. *)
  Section Reader.
    Context {W : Type} (read : Z -> X W (list Z * option string)).
    Fixpoint readFull (fuel : nat) (got : list Z) (want : Z) (err : option string) : X W (list Z * option string) :=
      match fuel with
      | O => fun s => (Diverge, s)
      | S fuel =>
          if (0 <? want) && match err with None => true | Some _ => false end then
            'x <- read want ;;
            readFull fuel (got ++ fst x) (want - zlen (fst x)) (snd x)
          else xret (got, if want <=? 0 then None else err)
      end.

    (** rng.go:24-29 mustRead, into a fresh array of [size] bytes. *)
    Definition mustRead (fuel : nat) (size : Z) : X W (list Z) :=
      'x <- readFull fuel [] size None ;;
      match snd x with
      | None => if negb (zlen (fst x) =? size) then xpanic "error reading random source" else xret (fst x)
      | Some _ => xpanic "error reading random source"
      end.

    (** rng.go:54-58 NewRNGFromReader. *)
    Definition NewRNGFromReader (fuel : nat) (defaultNonce : list Z) : X W RNG :=
      seed <- mustRead fuel KeySize ;;
      lift (NewRNGFromSeed defaultNonce seed).
  End Reader.

  (** ** Histories *)
  Inductive call : Type := CRead (b : list Z) | CUint64 | CInt63.
  Inductive answer : Type := ARead (k : Z) (b : list Z) | ANum (v : Z).
  (** [fuel]: two nested calls of Read are enough, which is proved. *)
  Definition perform (c : call) : X RNG answer :=
    match c with
    | CRead b => 'x <- Read 2 b ;; xret (ARead (fst x) (snd x))
    | CUint64 => v <- Uint64 2 ;; xret (ANum v)
    | CInt63 => v <- Int63 2 ;; xret (ANum v)
    end.
  Fixpoint performs (cs : list call) : X RNG (list answer) :=
    match cs with
    | [] => xret []
    | c :: cs' => a <- perform c ;; r <- performs cs' ;; xret (a :: r)
    end.
End Cipher.
