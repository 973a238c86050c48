(** Model of xhash/fast64.go and xhash/binary.go.  A uint64 is a [Z] in
    [0, 2^64); every operation that can leave the range wraps.  A byte is a [Z]
    in [0, 256). *)
From Verif Require Import Base.
Local Open Scope out_scope.

Definition W64 : Z := 2 ^ 64.

(** Conversion to uint64 / wrap-around of uint64 arithmetic. *)
Definition u64 (x : Z) : Z := x mod W64.
(** Conversion to uint32. *)
Definition u32 (x : Z) : Z := x mod 2 ^ 32.
(** Conversion to byte. *)
Definition u8 (x : Z) : Z := x mod 256.

(** math/bits.RotateLeft64 (for 0 <= k < 64): x<<k | x>>(64-k). *)
Definition RotateLeft64 (x k : Z) : Z :=
  Z.lor (u64 (Z.shiftl x k)) (Z.shiftr x (64 - k)).

(** math/bits.ReverseBytes32. *)
Definition ReverseBytes32 (x : Z) : Z :=
  Z.lor (Z.lor (Z.shiftl (u8 x) 24) (Z.shiftl (u8 (Z.shiftr x 8)) 16))
        (Z.lor (Z.shiftl (u8 (Z.shiftr x 16)) 8) (u8 (Z.shiftr x 24))).

(** fast64.go:11-15. *)
Definition key64_000 : Z := 0xbe4ba423396cfeb8.
Definition key64_008 : Z := 0x1cad21f72c81017c.
Definition key64_016 : Z := 0xdb979083e96dd4de.

(** fast64.go:21-28 rrmxmx. *)
Definition rrmxmx (h64 : Z) : Z :=
  let h64 := Z.lxor h64 (Z.lxor (RotateLeft64 h64 49) (RotateLeft64 h64 24)) in
  let h64 := u64 (h64 * 0x9fb21c651e98df25) in
  let h64 := Z.lxor h64 (u64 (Z.shiftr h64 35 + 8)) in
  let h64 := u64 (h64 * 0x9fb21c651e98df25) in
  Z.lxor h64 (Z.shiftr h64 28).

(** fast64.go:30-33 Uint64. *)
Definition Uint64 (v : Z) : Z :=
  let keyed := Z.lxor v (Z.lxor key64_008 key64_016) in
  rrmxmx keyed.

(** fast64.go:36-40 Uint64Seed.  In Go, [^] and [-] have the same precedence
    and associate to the left: [key64_008 ^ key64_016 - seed] is
    [(key64_008 ^ key64_016) - seed]. *)
Definition Uint64Seed (v seed : Z) : Z :=
  let seed := Z.lxor seed (u64 (Z.shiftl (ReverseBytes32 (u32 seed)) 32)) in
  let keyed := Z.lxor v (u64 (Z.lxor key64_008 key64_016 - seed)) in
  rrmxmx keyed.

(** binary.go:3-7 toUint64, on a slice of exactly the given bytes. *)
Definition toUint64 (b : list Z) : outcome Z :=
  match b with
  | b0 :: b1 :: b2 :: b3 :: b4 :: b5 :: b6 :: b7 :: _ =>
      Ok (Z.lor (Z.lor (Z.lor (Z.lor (Z.lor (Z.lor (Z.lor b0
            (Z.shiftl b1 8)) (Z.shiftl b2 16)) (Z.shiftl b3 24))
            (Z.shiftl b4 32)) (Z.shiftl b5 40)) (Z.shiftl b6 48)) (Z.shiftl b7 56))
  | _ => Panic idx_msg
  end.

(** binary.go:9-19 putUint64 (of an 8-byte array: its new contents). *)
Definition putUint64 (v : Z) : list Z :=
  [u8 v; u8 (Z.shiftr v 8); u8 (Z.shiftr v 16); u8 (Z.shiftr v 24);
   u8 (Z.shiftr v 32); u8 (Z.shiftr v 40); u8 (Z.shiftr v 48); u8 (Z.shiftr v 56)].

(** fast64.go:7-9: the state of Incremental64 is the word h. *)

(** fast64.go:17-19 NewFast64, 66-68 Reset. *)
Definition NewFast64 : Z := key64_000.
Definition Reset (_ : Z) : Z := NewFast64.

(** fast64.go:42-44 WriteUint64. *)
Definition WriteUint64 (h v : Z) : Z := Uint64Seed v h.

(** fast64.go:78-80 Sum64. *)
Definition Sum64 (h : Z) : Z := Uint64 h.

(** A []byte argument: [mem] is the backing array from its first element to its
    capacity, [len] its length. *)
Record bytes : Type := { mem : list Z; blen : Z }.

(** p[i:j]: bounds-checked against the capacity. *)
Definition reslice (p : bytes) (i j : Z) : outcome (list Z) :=
  if (0 <=? i) && (i <=? j) && (j <=? zlen (mem p))
  then Ok (firstn (Z.to_nat (j - i)) (skipn (Z.to_nat i) (mem p)))
  else Panic "slice bounds out of range".

(** fast64.go:49-51: the loop; one unit of fuel per iteration. *)
Fixpoint writeLoop (fuel : nat) (p : bytes) (h i : Z) : outcome (Z * Z) :=
  match fuel with
  | O => Diverge
  | S fuel' =>
      if i <? blen p then
        b <- reslice p i (i + 8) ;;
        v <- toUint64 b ;;
        writeLoop fuel' p (WriteUint64 h v) (i + 8)
      else Ok (h, i)
  end.

(** fast64.go:46-58 Write: new state and returned count. *)
Definition Write (h : Z) (p : bytes) : outcome (Z * Z) :=
  let h := WriteUint64 h (u64 (blen p)) in
  ' (h, i) <- writeLoop (S (Z.to_nat (blen p))) p h 0 ;;
  if i <? blen p then
    rest <- reslice p i (blen p) ;;
    v <- toUint64 (firstn 8 (rest ++ repeat 0 8)) ;;
    Ok (WriteUint64 h v, i)
  else Ok (h, i).

(** fast64.go:60-64 Sum: the contents of the returned slice. *)
Definition Sum (h : Z) (b : list Z) : list Z := b ++ putUint64 (Sum64 h).

(** fast64.go:70-72 Size, 74-76 BlockSize. *)
Definition Size : Z := 8.
Definition BlockSize : Z := 8.

(** Calls of Write one after the other, as by io.Copy: the state after the last one. *)
Fixpoint Writes (h : Z) (ps : list bytes) : outcome Z :=
  match ps with
  | [] => Ok h
  | p :: ps' => ' (h, _) <- Write h p ;; Writes h ps'
  end.
