(** What secrand.RNG should do. *)
From Verif Require Import Base Exn Secrand_Model.
Local Open Scope list_scope.
Local Open Scope Z_scope.

Definition byte (x : Z) : Prop := 0 <= x < 256.
Definition bytes (l : list Z) : Prop := Forall byte l.
(** A cipher whose key stream consists of bytes. *)
Definition cipher (ks : Z -> list Z -> list Z -> nat -> Z) : Prop := forall r nc k i, byte (ks r nc k i).
Definition legal (bufsize rounds : Z) : Prop := 64 <= bufsize /\ (rounds = 8 \/ rounds = 12 \/ rounds = 20).

(** The number written in b with the least significant byte first. *)
Fixpoint littleEndian (b : list Z) : Z :=
  match b with
  | [] => 0
  | x :: b' => x + 256 * littleEndian b'
  end.

Definition xorl (a b : list Z) : list Z := map (fun p => Z.lxor (fst p) (snd p)) (combine a b).

(** What the answer to a call has to look like. *)
Definition answers (c : call) (a : answer) : Prop :=
  match c, a with
  | CRead b, ARead k b' => k = zlen b /\ zlen b' = zlen b /\ (bytes b -> bytes b')
  | CUint64, ANum v => 0 <= v < 2 ^ 64
  | CInt63, ANum v => 0 <= v < 2 ^ 63
  | _, _ => False
  end.

(** The part of the buffer that was handed out since the last reseed. *)
Definition consumed (r : RNG) : list Z := firstn (Z.to_nat (n r - KeySize)) (skipn (Z.to_nat KeySize) (buf r)).
(** ... and the part still to be handed out. *)
Definition unread (r : RNG) : list Z := skipn (Z.to_nat (n r)) (buf r).

(** ** The stream that small reads should give *)
Section Pages.
  Context (ks : Z -> list Z -> list Z -> nat -> Z) (rounds : Z) (nonce seed : list Z) (bufsize : nat).
  (** Bytes [i ..  i+k) of the key stream of a key. *)
  Definition stretch (key : list Z) (i k : nat) : list Z := map (ks rounds nonce key) (seq i k).
  (** The key after [i] reseeds, and the i-th pageful of random bytes. *)
  Fixpoint pageKey (i : nat) : list Z :=
    match i with
    | O => stretch seed 0 32
    | S i => xorl (pageKey i) (stretch (pageKey i) 0 32)
    end.
  Definition page (i : nat) : list Z :=
    stretch (match i with O => seed | S i => pageKey i end) 32 bufsize.
  (** Byte number [j] of all pages. *)
  Definition streamByte (j : nat) : Z := nth (j mod bufsize) (page (j / bufsize)) 0.
End Pages.

(** Reads of these lengths, from position [p] on, never cross a multiple of
    [bufsize]. *)
Fixpoint aligned (bufsize p : nat) (lens : list nat) : Prop :=
  match lens with
  | [] => True
  | k :: lens' => (k <= bufsize - p mod bufsize)%nat /\ aligned bufsize (p + k) lens'
  end.

(** ** What reads that do cross the end of a page get *)
Section Served.
  Context (page : nat -> list Z) (bufsize : nat) (left : nat -> nat).
  (** The pages that are handed out when page [i] has been read up to [left i] at
      the moment when more is asked for than is left: the rest of the page is
      xored into the next one, at its old place. *)
  Fixpoint served (i : nat) : list Z :=
    match i with
    | O => page O
    | S i => xorl (page (S i)) (repeat 0 (left i) ++ skipn (left i) (served i))
    end.
  (** Byte number [j] of them all. *)
  Definition servedByte (j : nat) : Z := nth (j mod bufsize) (served (j / bufsize)) 0.
End Served.
(** The last place not after [q] where a read ends (or the first begins), when
    reads of these lengths are made from position [p] on. *)
Fixpoint lastCut (p : nat) (lens : list nat) (q : nat) : nat :=
  match lens with
  | [] => p
  | k :: lens' => if (p + k <=? q)%nat then lastCut (p + k) lens' q else p
  end.
(** How far page [i] is read when the read starts that goes beyond its end. *)
Definition cutIn (bufsize : nat) (lens : list nat) (i : nat) : nat :=
  (lastCut 0 lens (S i * bufsize) - i * bufsize)%nat.

(** The bytes that a history of reads returned. *)
Fixpoint output (l : list answer) : list Z :=
  match l with
  | ARead _ b :: l' => b ++ output l'
  | _ :: l' => output l'
  | [] => []
  end.

(** ** A reader of a given sequence of bytes *)

(** [read] gives the bytes of the list that is its state, in pieces it likes,
    at least one at a time, and an error only together with or after the last. *)
Definition reads {W} (read : Z -> X W (list Z * option string)) (left : W -> list Z) : Prop :=
  forall k w, 0 < k -> exists d err w', read k w = (Ok (d, err), w') /\
    left w = d ++ left w' /\ zlen d <= k /\
    match err with
    | None => d <> []
    | Some _ => left w' = []
    end.

(** ** ChaCha, as in RFC 8439 but with a 64-bit counter and a 64-bit nonce *)
Definition w32 (x : Z) : Z := x mod 2 ^ 32.
Definition rotl32 (x k : Z) : Z := Z.lor (w32 (Z.shiftl x k)) (Z.shiftr x (32 - k)).
Definition quarter (s : list Z) (a b c d : nat) : list Z :=
  let g := fun s i => nth i s 0 in
  let s := upd s a (w32 (g s a + g s b)) in let s := upd s d (rotl32 (Z.lxor (g s d) (g s a)) 16) in
  let s := upd s c (w32 (g s c + g s d)) in let s := upd s b (rotl32 (Z.lxor (g s b) (g s c)) 12) in
  let s := upd s a (w32 (g s a + g s b)) in let s := upd s d (rotl32 (Z.lxor (g s d) (g s a)) 8) in
  let s := upd s c (w32 (g s c + g s d)) in upd s b (rotl32 (Z.lxor (g s b) (g s c)) 7).
Definition doubleRound (s : list Z) : list Z :=
  let s := quarter s 0 4 8 12 in let s := quarter s 1 5 9 13 in
  let s := quarter s 2 6 10 14 in let s := quarter s 3 7 11 15 in
  let s := quarter s 0 5 10 15 in let s := quarter s 1 6 11 12 in
  let s := quarter s 2 7 8 13 in quarter s 3 4 9 14.
Fixpoint words (b : list Z) : list Z :=
  match b with
  | b0 :: b1 :: b2 :: b3 :: b' => littleEndian [b0; b1; b2; b3] :: words b'
  | _ => []
  end.
Definition le4 (x : Z) : list Z := [x mod 256; x / 2 ^ 8 mod 256; x / 2 ^ 16 mod 256; x / 2 ^ 24 mod 256].
Definition chachaBlock (rounds : Z) (nonce key : list Z) (counter : Z) : list Z :=
  let s := [0x61707865; 0x3320646e; 0x79622d32; 0x6b206574] ++ words key ++
           [w32 counter; w32 (counter / 2 ^ 32)] ++ words nonce in
  flat_map le4 (map (fun p => w32 (fst p + snd p)) (combine s (Nat.iter (Z.to_nat (rounds / 2)) doubleRound s))).
Definition chacha (rounds : Z) (nonce key : list Z) (i : nat) : Z :=
  nth (i mod 64) (chachaBlock rounds nonce key (Z.of_nat (i / 64))) 0.
