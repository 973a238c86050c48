(** Model of hasher/hasher.go: hashing values of a comparable type with the hash
    function that the Go runtime keeps for maps of that type.

    The functions of the runtime it ends up in are those of Go 1.18
    (hasher/runtime_go118.go), runtime/alg.go; the hash of raw memory is a
    parameter.  Pointers are 64 bits wide. *)
From Verif Require Import Base.
Local Open Scope string_scope.
Local Open Scope list_scope.
Local Open Scope Z_scope.
Local Open Scope go_scope.

(** A dynamic type: its identity, and whether its values can be compared
    ([_type.equal != nil], runtime_go118.go:37). *)
Record dtype : Type := { tid : Z; comparable : bool }.

(** A value of a comparable type, as the hash functions see it.  Integers,
    booleans, pointers and channels are raw memory; [VMem] is a run of it, so
    that adjacent fields of a struct that the compiler hashes in one go are one
    [VMem].  A float is its bit pattern; complex numbers are two floats; arrays
    and structs are sequences of parts; [VBlank] is a field named _.
    [VFunc] is a function, map or slice: not comparable, but an interface may
    hold one. *)
Inductive val : Type :=
| VMem (bytes : list Z)
| VFloat (wide : bool) (bits : Z)
| VString (bytes : list Z)
| VNil                                   (* an interface holding nothing *)
| VIface (t : dtype) (v : val)
| VSeq (parts : list val)
| VBlank (bytes : list Z)
| VFunc (id : Z).

(** Float bit patterns: [f == 0] and [f != f]. *)
Definition mantBits (wide : bool) : Z := if wide then 52 else 23.
Definition expBits (wide : bool) : Z := if wide then 11 else 8.
Definition isZero (wide : bool) (b : Z) : bool :=
  (b =? 0) || (b =? 2 ^ (mantBits wide + expBits wide)).
Definition isNaN (wide : bool) (b : Z) : bool :=
  (Z.land (Z.shiftr b (mantBits wide)) (2 ^ expBits wide - 1) =? 2 ^ expBits wide - 1) &&
  negb (Z.land b (2 ^ mantBits wide - 1) =? 0).

(** The bytes of a float in memory. *)
Definition floatBytes (wide : bool) (b : Z) : list Z := map (fun i => Z.land (Z.shiftr b (8 * Z.of_nat i)) 255) (seq 0 (if wide then 8 else 4)).

(** Go's == .  Comparing interfaces that hold the same type compares what they
    hold, and panics if that type is not comparable. *)
Definition sameType (t t' : dtype) : bool := (tid t =? tid t') && Bool.eqb (comparable t) (comparable t').
Fixpoint eqBytes (a b : list Z) : bool :=
  match a, b with
  | [], [] => true
  | x :: a', y :: b' => (x =? y) && eqBytes a' b'
  | _, _ => false
  end.
Fixpoint goEq (x y : val) {struct x} : outcome bool :=
  match x, y with
  | VMem a, VMem b => Ok (eqBytes a b)
  | VFloat w a, VFloat w' b =>
      Ok (Bool.eqb w w' && negb (isNaN w a) && negb (isNaN w b) && ((isZero w a && isZero w b) || (a =? b)))
  | VString a, VString b => Ok (eqBytes a b)
  | VNil, VNil => Ok true
  | VIface t v, VIface t' v' =>
      if negb (sameType t t') then Ok false else
      if negb (comparable t) then Panic "comparing uncomparable type" else goEq v v'
  | VSeq l, VSeq l' =>
      (fix go l l' := match l, l' with
       | [], [] => Ok true
       | x :: l, y :: l' =>
           match goEq x y with Ok true => go l l' | r => r end
       | _, _ => Ok false
       end) l l'
  | VBlank _, VBlank _ => Ok true
  | VFunc _, VFunc _ => Panic "comparing uncomparable type"
  | _, _ => Ok false
  end.

Section Runtime.
  (** alg.go memhash: raw memory and a seed to a hash.  strhash is memhash of
      the bytes of the string. *)
  Variable memhash : list Z -> Z -> Z.
  (** The numbers the runtime's fastrand delivers; the state of the model is
      how many have been taken. *)
  Variable fastrand : nat -> Z.

  Definition c0 : Z := 33054211828000289.                     (* alg.go:13-16, 64 bits *)
  Definition c1 : Z := 23344194077549503.
  Definition mulw (x y : Z) : Z := (x * y) mod 2 ^ 64.

  (** alg.go f32hash, f64hash. *)
  Definition floatHash (wide : bool) (b h : Z) : M nat Z := fun n =>
    if isZero wide b then Ok (mulw c1 (Z.lxor c0 h), n) else
    if isNaN wide b then Ok (mulw c1 (Z.lxor (Z.lxor c0 h) (fastrand n)), Datatypes.S n) else
    Ok (memhash (floatBytes wide b) h, n).

  (** alg.go typehash, interhash and nilinterhash.  Simplification: a nil
      interface hashes to the seed, whether it is empty or has methods. *)
  Fixpoint typehash (v : val) (h : Z) : M nat Z :=
    match v with
    | VMem bs => ret (memhash bs h)
    | VFloat w b => floatHash w b h
    | VString bs => ret (memhash bs h)
    | VNil => ret h
    | VIface t v =>
        if negb (comparable t) then panic "hash of unhashable type" else
        r <- typehash v (Z.lxor h c0) ;; ret (mulw c1 r)
    | VSeq l =>
        (fix go l h := match l with
         | [] => ret h
         | x :: l => h' <- typehash x h ;; go l h'
         end) l h
    | VBlank _ => ret h
    | VFunc _ => panic "hash of unhashable type"
    end.

  (** hasher.go:9 defaultSeed: a number drawn when the program starts. *)
  Variable defaultSeed : Z.

  (** hasher.go:31-34 Of: the runtime's hash function for the type. *)
  Definition Hasher : Type := val -> Z -> M nat Z.
  Definition Of : Hasher := typehash.

  (** hasher.go:15-17 Hash, 19-21 HashSeed.  [uint64] and [uintptr] are the same
      64 bits. *)
  Definition mHash (h : Hasher) (value : val) : M nat Z := h value defaultSeed.
  Definition mHashSeed (h : Hasher) (value : val) (seed : Z) : M nat Z := h value seed.

  (** hasher.go:23-25 HashPointer, 27-29 HashPointerSeed: the value is read
      through the pointer, [None] is nil (a nil pointer to a value of size zero
      would not be followed; that case is left out). *)
  Definition deref (heap : nat -> val) (p : option nat) : M nat val :=
    match p with Some l => ret (heap l) | None => panic "nil pointer dereference" end.
  Definition mHashPointer (h : Hasher) (heap : nat -> val) (p : option nat) : M nat Z :=
    v <- deref heap p ;; h v defaultSeed.
  Definition mHashPointerSeed (h : Hasher) (heap : nat -> val) (p : option nat) (seed : Z) : M nat Z :=
    v <- deref heap p ;; h v seed.

  (** hasher.go:36-38 Hash, 40-42 HashSeed, 44-46 HashOp. *)
  Definition Hash (value : val) : M nat Z := mHash Of value.
  Definition HashSeed (value : val) (seed : Z) : M nat Z := mHashSeed Of value seed.
  Definition HashOp : val -> M nat Z := mHash Of.
End Runtime.
