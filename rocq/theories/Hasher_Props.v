(** Properties of hasher (C83, C100), and C108 with the default hasher. *)
From Verif Require Import Base GoMap XMap_Spec Sharded_Model Sharded_Spec Sharded_Props Sharded_Keys_Spec Sharded_Keys_Props
  Hasher_Model Hasher_Spec Hasher_Proofs Hasher_Inj_Proofs.

(** C83.  Values that are == have the same hash, for every seed, whenever and
    wherever in the program they are hashed (the runtime's random numbers and
    how many have been taken play no role). *)
Theorem C83_equal_values (memhash : list Z -> Z -> Z) (x y : val) (seed : Z) :
  goEq x y = Ok true ->
  exists h, forall rnd n,
    HashSeed memhash rnd x seed n = Ok (h, n) /\ HashSeed memhash rnd y seed n = Ok (h, n).
Proof.
  intros H. destruct (same_hash memhash x y seed H) as (r & F1 & F2). exists r. intros rnd n. split; [apply F1|apply F2].
Qed.

(** Which values are equal to themselves, hence always hash alike: all but
    those with a NaN or something uncomparable inside. *)
Theorem C83_self_equal (x : val) : goEq x x = Ok true <-> ~ unhashable x /\ ~ has_nan x.
Proof. exact (same_self x). Qed.

(** Hashing panics exactly if something inside cannot be compared. *)
Theorem C83_panics (memhash : list Z -> Z -> Z) (rnd : nat -> Z) (x : val) (seed : Z) (n : nat) :
  (unhashable x -> exists msg, HashSeed memhash rnd x seed n = Panic msg) /\
  (~ unhashable x -> exists h n', HashSeed memhash rnd x seed n = Ok (h, n')).
Proof. split; intros H; [exact (hash_panics memhash x H rnd seed n)|exact (hash_ok memhash x H rnd seed n)]. Qed.

(** The hash of a NaN is as random as the runtime's random number: different
    numbers give different hashes. *)
Theorem C83_nan (memhash : list Z -> Z -> Z) (w : bool) (b seed : Z) rnd rnd' n n' h h' m m' :
  nanBits w b -> 0 <= seed < 2 ^ 64 -> 0 <= rnd n < 2 ^ 32 -> 0 <= rnd' n' < 2 ^ 32 ->
  HashSeed memhash rnd (VFloat w b) seed n = Ok (h, m) ->
  HashSeed memhash rnd' (VFloat w b) seed n' = Ok (h', m') ->
  h = h' -> rnd n = rnd' n'.
Proof.
  intros HN Hs H1 H2 E1 E2 <-. apply isNaN_bits in HN. eapply nan_hash_inj; eauto. now apply nan_not_zero.
Qed.

(** The ways to hash agree: the methods, the functions, by value or by pointer,
    and Hash is HashSeed with the seed of the program. *)
Theorem C83_ways (memhash : list Z -> Z -> Z) (rnd : nat -> Z) (defaultSeed seed : Z) (heap : nat -> val) (l : nat) (x : val) (n : nat) :
  heap l = x ->
  Hash memhash rnd defaultSeed x n = HashSeed memhash rnd x defaultSeed n /\
  HashOp memhash rnd defaultSeed x n = HashSeed memhash rnd x defaultSeed n /\
  mHash defaultSeed (Of memhash rnd) x n = HashSeed memhash rnd x defaultSeed n /\
  mHashPointer defaultSeed (Of memhash rnd) heap (Some l) n = HashSeed memhash rnd x defaultSeed n /\
  mHashSeed (Of memhash rnd) x seed n = HashSeed memhash rnd x seed n /\
  mHashPointerSeed (Of memhash rnd) heap (Some l) seed n = HashSeed memhash rnd x seed n /\
  (exists msg, mHashPointer defaultSeed (Of memhash rnd) heap None n = Panic msg) /\
  (exists msg, mHashPointerSeed (Of memhash rnd) heap None seed n = Panic msg).
Proof. intros <-. repeat split; eexists; reflexivity. Qed.

(** So the default hasher is fit for Sharded: with == as key equality and
    HashSeed as hash, what C35 asks for holds, and NewSharded's maps are
    linearizable.  A key comes with the state of the runtime's random number
    generator at the time it is hashed, so a NaN goes to another shard each time. *)
Definition hashedKey : Type := val * nat.
Definition eqKey (x y : hashedKey) : bool := match goEq (fst x) (fst y) with Ok b => b | _ => false end.
Definition hashKey (memhash : list Z -> Z -> Z) (rnd : nat -> Z) (seed : Z) (x : hashedKey) : Z :=
  match HashSeed memhash rnd (fst x) seed (snd x) with Ok (h, _) => h | _ => 0 end.

Lemma eqKey_pe : partial_equiv eqKey.
Proof.
  assert (E : forall x y, eqKey x y = true <-> goEq (fst x) (fst y) = Ok true).
  { intros x y. unfold eqKey. destruct (goEq (fst x) (fst y)) as [[|]| |]; split; congruence. }
  split.
  - intros x y H. apply E, same_sym, E, H.
  - intros x y z H H'. rewrite E in *. eauto using same_trans.
Qed.
Lemma hashKey_respects memhash rnd seed : hashRespects eqKey (hashKey memhash rnd seed).
Proof.
  intros [x n] [y n'] H.
  assert (G : goEq x y = Ok true) by (unfold eqKey in H; cbn in H; destruct (goEq x y) as [[|]| |]; congruence).
  destruct (C83_equal_values memhash x y seed G) as (h & F). unfold hashKey. cbn [fst snd].
  destruct (F rnd n) as [-> _]. destruct (F rnd n') as [_ ->]. reflexivity.
Qed.

Theorem C83_sharded {V} (memhash : list Z -> Z -> Z) (rnd : nat -> Z) (seed : Z) (zero : V) (nsh : nat)
  (allow : nat -> op hashedKey V -> Prop) tr c :
  (forall t o, allow t o -> o <> OClear /\ forall fn, o <> OIterateShards fn) ->
  reach eqKey zero nsh (hashKey memhash rnd seed) allow tr c -> linearizable eqKey zero tr.
Proof. apply C35_linearizable; [apply eqKey_pe|apply hashKey_respects]. Qed.

(** C108 for NewSharded: used by one goroutine, with keys of any type, it is one
    Go map. *)
Theorem C108_default_hasher {V} (memhash : list Z -> Z -> Z) (rnd : nat -> Z) (seed : Z) (zero : V) (nsh : nat) tr c :
  (0 < nsh)%nat ->
  reach eqKey zero nsh (hashKey memhash rnd seed) (fun t o => t = 0%nat /\ ordinary o) tr c ->
  hist (mapAnswer eqKey zero) [] (map fst (returns tr)) (map snd (returns tr)).
Proof. intros Hn R. eapply C108_one_map; eauto using eqKey_pe, hashKey_respects. Qed.

(** C100.  Two values of the same type, hashed with the same seed, that are not
    equal have different hashes, unless two pieces of memory that are hashed on
    the way, or their seeds, differ and yet have the same hash: nothing that
    takes part in comparisons is left out or mixed up. *)
Theorem C100_distinct (memhash : list Z -> Z -> Z) (x y : val) (seed : Z) rnd rnd' n n' h h' m m' :
  (forall bs s, 0 <= memhash bs s < 2 ^ 64) -> 0 <= seed < 2 ^ 64 ->
  alike x y -> ~ has_nan x -> ~ has_nan y -> goEq x y <> Ok true ->
  HashSeed memhash rnd x seed n = Ok (h, m) -> HashSeed memhash rnd' y seed n' = Ok (h', m') -> h = h' ->
  exists q q', asks memhash x seed q /\ asks memhash y seed q' /\ q <> q' /\ rawHash memhash q = rawHash memhash q'.
Proof.
  intros HM Hs HA N1 N2 HE E1 E2 <-.
  assert (U : forall z rnd n r, HashSeed memhash rnd z seed n = Ok r -> ~ unhashable z).
  { intros z rn k r E C. destruct (hash_panics memhash z C rn seed k) as (msg & E'). unfold HashSeed, mHashSeed, Of in E. congruence. }
  destruct (alike_told memhash HM x y HA (U _ _ _ _ E1) (U _ _ _ _ E2) N1 N2 seed seed Hs Hs) as (r1 & r2 & F1 & F2 & _ & _ & HI).
  unfold HashSeed, mHashSeed, Of in E1, E2. rewrite F1 in E1. rewrite F2 in E2.
  destruct HI as [[_ C]|C]; [congruence|contradiction|exact C].
Qed.

(** The type an interface holds does not take part: the same memory hashes the
    same under every comparable type. *)
Theorem C100_types_not_hashed (memhash : list Z -> Z -> Z) (t t' : dtype) (v : val) (seed : Z) rnd n :
  comparable t = true -> comparable t' = true ->
  HashSeed memhash rnd (VIface t v) seed n = HashSeed memhash rnd (VIface t' v) seed n.
Proof. intros E E'. unfold HashSeed, mHashSeed, Of. cbn [typehash]. now rewrite E, E'. Qed.

Print Assumptions C100_distinct.
Print Assumptions C100_types_not_hashed.
Print Assumptions C83_equal_values.
Print Assumptions C83_self_equal.
Print Assumptions C83_panics.
Print Assumptions C83_nan.
Print Assumptions C83_ways.
Print Assumptions C83_sharded.
Print Assumptions C108_default_hasher.

(** ** Non-vacuity *)

(** struct { any; [2]float64; _ byte } holding a string, -0 and 1.5 ... *)
Definition str : dtype := {| tid := 24; comparable := true |}.
Definition oneAndHalf : Z := 4609434218613702656.
Definition x1 : val := VSeq [VIface str (VString [97; 98]); VSeq [VFloat true (2 ^ 63); VFloat true oneAndHalf]; VBlank [1]].
(** ... and the same with +0 and another blank byte: equal, so same hash. *)
Definition y1 : val := VSeq [VIface str (VString [97; 98]); VSeq [VFloat true 0; VFloat true oneAndHalf]; VBlank [2]].
Example x1_y1 : x1 <> y1 /\ goEq x1 y1 = Ok true.
Proof. split; [discriminate|reflexivity]. Qed.
(** NaN; an interface holding a slice. *)
Definition nan64 : Z := 9221120237041090561.
Example nan_case : isNaN true nan64 = true /\ goEq (VFloat true nan64) (VFloat true nan64) = Ok false /\
  isNaN true oneAndHalf = false /\ isNaN true 9218868437227405312 = false.
Proof. repeat split. Qed.
Example slice_case : unhashable (VSeq [VMem [1]; VIface {| tid := 7; comparable := false |} (VFunc 3)]) /\ ~ unhashable x1 /\ ~ has_nan x1.
Proof.
  split; [econstructor; [right; left; reflexivity|now constructor]|]. apply C83_self_equal. reflexivity.
Qed.

(** C100: struct { any; float64; string } with one byte different. *)
Definition mh (bs : list Z) (h : Z) : Z := fold_left (fun h b => (31 * h + b + 1) mod 2 ^ 64) bs (h mod 2 ^ 64).
Definition x2 : val := VSeq [VIface str (VString [97; 98]); VFloat true (2 ^ 63); VString [99]].
Definition y2 : val := VSeq [VIface str (VString [97; 98]); VFloat true 0; VString [100]].
Example C100_case : (forall bs h, 0 <= mh bs h < 2 ^ 64) /\ alike x2 y2 /\ ~ has_nan x2 /\ ~ has_nan y2 /\ goEq x2 y2 <> Ok true /\
  exists h h', HashSeed mh (fun _ => 0) x2 5 0%nat = Ok (h, 0%nat) /\ HashSeed mh (fun _ => 0) y2 5 0%nat = Ok (h', 0%nat).
Proof.
  split; [|split; [|split; [|split; [|split]]]].
  - intros bs h. unfold mh. assert (G : forall x, 0 <= x < 2 ^ 64 -> 0 <= fold_left (fun h b => (31 * h + b + 1) mod 2 ^ 64) bs x < 2 ^ 64).
    { induction bs as [|b bs IH]; intros x Hx; [exact Hx|]. cbn [fold_left]. apply IH. apply Z.mod_pos_bound. lia. }
    apply G. apply Z.mod_pos_bound. lia.
  - repeat constructor; lia.
  - apply C83_self_equal. reflexivity.
  - apply C83_self_equal. reflexivity.
  - discriminate.
  - eexists _, _. split; reflexivity.
Qed.
