(** Model of xrand/crypto.go and of the generator behind every function of
    xrand/xrand.go and secrand/secrand.go.

    xrand/xrand.go:5-138 and secrand/secrand.go:5-138: each package function F is
      rng := Get(); defer Put(rng); return rng.F(...)
    where rng is a *rand.Rand of math/rand.  Get and Put are in Pool_Model; here
    is F.  The repository does not contain math/rand: its functions are
    transcribed from the Go 1.18 standard library (the version go.mod names),
    src/math/rand/rand.go, for a 64-bit int.  NormFloat64 and ExpFloat64 (tables
    of floats) are not modelled. *)
From Verif Require Import Base Exn.
Local Open Scope exn_scope.
Local Open Scope string_scope.
Local Open Scope list_scope.
Local Open Scope Z_scope.

(** ** math/rand *)
Section Rand.
  (** The rand.Source64: any generator of int64 and uint64 numbers. *)
  Context {st : Type} (srcInt63 srcUint64 : st -> Z * st).
  Definition draw (f : st -> Z * st) : X st Z := fun s => (Ok (fst (f s)), snd (f s)).

  (** xrand.go:5-9 Int63: rand.go Rand.Int63. *)
  Definition Int63 : X st Z := draw srcInt63.
  (** xrand.go:13-17 Uint32: uint32(r.Int63() >> 31). *)
  Definition Uint32 : X st Z := v <- Int63 ;; xret (Z.shiftr v 31 mod 2 ^ 32).
  (** xrand.go:21-25 Uint64: the sources of both packages have the method Uint64. *)
  Definition Uint64 : X st Z := draw srcUint64.
  (** xrand.go:29-33 Int31: int32(r.Int63() >> 32). *)
  Definition Int31 : X st Z := v <- Int63 ;; xret (Z.shiftr v 32).
  (** xrand.go:36-40 Int: int(uint(r.Int63()) << 1 >> 1). *)
  Definition Int : X st Z := v <- Int63 ;; xret (Z.shiftr ((v * 2) mod 2 ^ 64) 1).

  (** for bad(v) { v = draw() } *)
  Fixpoint redraw (fuel : nat) (d : X st Z) (bad : Z -> bool) (v : Z) : X st Z :=
    if bad v then
      match fuel with
      | O => fun s => (Diverge, s)
      | S fuel' => v' <- d ;; redraw fuel' d bad v'
      end
    else xret v.

  (** [fuel] bounds the number of numbers drawn again. *)
  Section Fuel.
    Context (fuel : nat).
    (** xrand.go:45-49 Int63n. *)
    Definition Int63n (n : Z) : X st Z :=
      if n <=? 0 then xpanic "invalid argument to Int63n" else
      if Z.land n (n - 1) =? 0 then v <- Int63 ;; xret (Z.land v (n - 1)) else
      let max := 2 ^ 63 - 1 - 2 ^ 63 mod n in
      v <- Int63 ;;
      v <- redraw fuel Int63 (fun v => v >? max) v ;;
      xret (v mod n).
    (** xrand.go:54-58 Int31n. *)
    Definition Int31n (n : Z) : X st Z :=
      if n <=? 0 then xpanic "invalid argument to Int31n" else
      if Z.land n (n - 1) =? 0 then v <- Int31 ;; xret (Z.land v (n - 1)) else
      let max := 2 ^ 31 - 1 - 2 ^ 31 mod n in
      v <- Int31 ;;
      v <- redraw fuel Int31 (fun v => v >? max) v ;;
      xret (v mod n).
    (** xrand.go:63-67 Intn. *)
    Definition Intn (n : Z) : X st Z :=
      if n <=? 0 then xpanic "invalid argument to Intn" else
      if n <=? 2 ^ 31 - 1 then Int31n n else Int63n n.

    (** rand.go int31n, used by Shuffle: the 32-bit product method.  [v] is kept,
        [prod] and [low] are v * n and its low 32 bits. *)
    Definition int31n (n : Z) : X st Z :=
      let low v := (v * n) mod 2 ^ 32 in
      v <- Uint32 ;;
      v <- (if low v <? n then
              let thresh := ((- n) mod 2 ^ 32) mod n in
              redraw fuel Uint32 (fun v => low v <? thresh) v
            else xret v) ;;
      xret (Z.shiftr (v * n) 32).
  End Fuel.

  (** A float64 in [0, 1] made from 63 bits is given by its numerator over 2^63.
      [round p x] rounds x to p significant bits, to the nearest, ties to even:
      the conversion of an integer to a float (p = 53: float64), or of such a
      float64 to a float32 (p = 24; the numbers are 0 or at least 2^-63, far above
      the smallest normal float32). *)
  Definition round (p x : Z) : Z :=
    let k := Z.log2 x + 1 - p in
    if k <=? 0 then x else
    let q := x / 2 ^ k in
    let r := x mod 2 ^ k in
    let half := 2 ^ (k - 1) in
    (if r <? half then q else if half <? r then q + 1 else if Z.even q then q else q + 1) * 2 ^ k.

  (** xrand.go:71-75 Float64: again: f := float64(r.Int63()) / (1 << 63); if f == 1 { goto again }. *)
  Fixpoint Float64 (fuel : nat) : X st Z :=
    v <- Int63 ;;
    let f := round 53 v in
    if f =? 2 ^ 63 then match fuel with O => fun s => (Diverge, s) | S fuel' => Float64 fuel' end else xret f.
  (** xrand.go:79-83 Float32: again: f := float32(r.Float64()); if f == 1 { goto again }. *)
  Fixpoint Float32 (fuel64 fuel : nat) : X st Z :=
    v <- Float64 fuel64 ;;
    let f := round 24 v in
    if f =? 2 ^ 63 then match fuel with O => fun s => (Diverge, s) | S fuel' => Float32 fuel64 fuel' end else xret f.
End Rand.

Definition lift {st A} (m : outcome A) : X st A := fun s => (m, s).

(** xrand.go:87-91 Perm: for i := 0; i < n; i++ { j := r.Intn(i + 1); m[i] = m[j]; m[j] = i }.
    [intn] is Intn. *)
Fixpoint permLoop {st} (intn : Z -> X st Z) (fuel : nat) (i : Z) (m : list Z) : X st (list Z) :=
  match fuel with
  | O => xret m
  | S fuel' =>
      j <- intn (i + 1) ;;
      x <- lift (of_opt idx_msg (zget m j)) ;;
      m <- lift (of_opt idx_msg (zset m i x)) ;;
      m <- lift (of_opt idx_msg (zset m j i)) ;;
      permLoop intn fuel' (i + 1) m
  end.
Definition Perm {st} (intn : Z -> X st Z) (n : Z) : X st (list Z) :=
  if n <? 0 then xpanic "makeslice: len out of range" else
  permLoop intn (Z.to_nat n) 0 (repeat 0 (Z.to_nat n)).

(** xrand.go:96-100 Shuffle: for ; i > 1<<31-1-1; i-- { j := int(r.Int63n(int64(i + 1))); swap(i, j) };
    for ; i > 0; i-- { j := int(r.int31n(int32(i + 1))); swap(i, j) }.
    [swap] is the user's function, with any effect; [big] and [small] are Int63n and int31n.
    The two loops are one here: which of the two draws is used depends on [i]. *)
Fixpoint shuffleLoop {st} (big small : Z -> X st Z) (swap : Z -> Z -> X st unit) (fuel : nat) (i : Z) : X st unit :=
  match fuel with
  | O => xret tt
  | S fuel' =>
      j <- (if i >? 2 ^ 31 - 1 - 1 then big (i + 1) else small (i + 1)) ;;
      _ <- swap i j ;;
      shuffleLoop big small swap fuel' (i - 1)
  end.
Definition Shuffle {st} (big small : Z -> X st Z) (n : Z) (swap : Z -> Z -> X st unit) : X st unit :=
  if n <? 0 then xpanic "invalid argument to Shuffle" else
  shuffleLoop big small swap (Z.to_nat (n - 1)) (n - 1).

(** xrand.go:105-109 Read: rand.go read, with the state of the Rand: its source,
    readVal and readPos.  The argument is len(p), the result the new contents of
    p; the returned n is len(p) and the error nil. *)
Record reader (st : Type) : Type := { source : st; readVal : Z; readPos : Z }.
Arguments source {st}. Arguments readVal {st}. Arguments readPos {st}. Arguments Build_reader {st}.
Fixpoint Read {st} (srcInt63 : st -> Z * st) (len : nat) (r : reader st) : list Z * reader st :=
  match len with
  | O => ([], r)
  | S len' =>
      let r := if readPos r =? 0 then let '(v, s) := srcInt63 (source r) in Build_reader s v 7 else r in
      let b := readVal r mod 256 in
      let '(bs, r') := Read srcInt63 len' (Build_reader (source r) (Z.shiftr (readVal r) 8) (readPos r - 1)) in
      (b :: bs, r')
  end.
(** rand.New: readVal and readPos are zero. *)
Definition newReader {st} (s : st) : reader st := Build_reader s 0 0.

(** ** xrand.Crypto *)
Section Crypto.
  (** crypto/rand.Read into 8 bytes: the bytes, or an error. *)
  Context {W : Type} (read : W -> option (list Z) * W).

  (** binary.LittleEndian.Uint64 of package encoding/binary. *)
  Definition littleEndian (b : list Z) : outcome Z :=
    match b with
    | b0 :: b1 :: b2 :: b3 :: b4 :: b5 :: b6 :: b7 :: _ =>
        Ok (Z.lor (Z.lor (Z.lor (Z.lor (Z.lor (Z.lor (Z.lor b0 (Z.shiftl b1 8)) (Z.shiftl b2 16)) (Z.shiftl b3 24))
          (Z.shiftl b4 32)) (Z.shiftl b5 40)) (Z.shiftl b6 48)) (Z.shiftl b7 56))
    | _ => Panic idx_msg
    end.
  (** xrand/crypto.go:17-24 Uint64. *)
  Definition cryptoUint64 : X W Z := fun w =>
    match read w with
    | (None, w') => (Panic "cannot read from crypto/rand", w')
    | (Some b, w') => (littleEndian b, w')
    end.
  (** xrand/crypto.go:13-15 Int63. *)
  Definition cryptoInt63 : X W Z := v <- cryptoUint64 ;; xret (Z.ldiff v (2 ^ 63)).
  (** xrand/crypto.go:11 Seed. *)
  Definition cryptoSeed (seed : Z) : X W unit := xret tt.
End Crypto.
