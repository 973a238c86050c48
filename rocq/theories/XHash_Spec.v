(** Specification vocabulary: words, bytes, and the XXH3 64-bit hash of inputs
    of 4 to 8 bytes, written from the published algorithm (XXH3_len_4to8_64b)
    with arithmetic operators only, reading its keys from the secret. *)
From Verif Require Import Base.

Definition is_word (x : Z) : Prop := 0 <= x < 2 ^ 64.
Definition is_byte (x : Z) : Prop := 0 <= x < 256.

Definition bijective_on_words (f : Z -> Z) : Prop :=
  (forall x, is_word x -> is_word (f x)) /\
  (forall x y, is_word x -> is_word y -> f x = f y -> x = y) /\
  (forall z, is_word z -> exists x, is_word x /\ f x = z).

(** Little-endian number of a byte string. *)
Fixpoint le (b : list Z) : Z :=
  match b with [] => 0 | x :: b' => x + 256 * le b' end.

(** Little-endian bytes of a number. *)
Fixpoint le_bytes (n : nat) (v : Z) : list Z :=
  match n with O => [] | S n' => v mod 256 :: le_bytes n' (v / 256) end.

(** First 24 bytes of the XXH3 default secret. *)
Definition secret : list Z :=
  [0xb8; 0xfe; 0x6c; 0x39; 0x23; 0xa4; 0x4b; 0xbe;
   0x7c; 0x01; 0x81; 0x2c; 0xf7; 0x21; 0xad; 0x1c;
   0xde; 0xd4; 0x6d; 0xe9; 0x83; 0x90; 0x97; 0xdb].

Definition readLE64 (b : list Z) (off : nat) : Z := le (firstn 8 (skipn off b)).
Definition readLE32 (b : list Z) (off : nat) : Z := le (firstn 4 (skipn off b)).

Definition rotl64 (x k : Z) : Z := (x * 2 ^ k) mod 2 ^ 64 + x / 2 ^ (64 - k).
Definition swap32 (x : Z) : Z := le (rev (le_bytes 4 x)).
Definition PRIME_MX2 : Z := 0x9FB21C651E98DF25.

Definition XXH3_rrmxmx (h len : Z) : Z :=
  let h := Z.lxor (Z.lxor h (rotl64 h 49)) (rotl64 h 24) in
  let h := (h * PRIME_MX2) mod 2 ^ 64 in
  let h := Z.lxor h (h / 2 ^ 35 + len) in
  let h := (h * PRIME_MX2) mod 2 ^ 64 in
  Z.lxor h (h / 2 ^ 28).

Definition XXH3_len_4to8 (input : list Z) (seed : Z) : Z :=
  let len := List.length input in
  let seed := Z.lxor seed (swap32 (seed mod 2 ^ 32) * 2 ^ 32) in
  let input1 := readLE32 input 0 in
  let input2 := readLE32 input (len - 4) in
  let bitflip := (Z.lxor (readLE64 secret 8) (readLE64 secret 16) - seed) mod 2 ^ 64 in
  let input64 := input2 + input1 * 2 ^ 32 in
  let keyed := Z.lxor input64 bitflip in
  XXH3_rrmxmx keyed (Z.of_nat len).

(** The 8 bytes the property speaks of: high half, then low half. *)
Definition halves (v : Z) : list Z := le_bytes 4 (v / 2 ^ 32) ++ le_bytes 4 (v mod 2 ^ 32).
