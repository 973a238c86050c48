(** Proofs about the secrand model. *)
From Verif Require Import Base Arr Exn Secrand_Model Secrand_Spec.
Local Open Scope list_scope.
Local Open Scope Z_scope.

(** ** Lists *)
Lemma firstn_app_exact {A} (a b : list A) : firstn (List.length a) (a ++ b) = a.
Proof. rewrite firstn_app, Nat.sub_diag, firstn_all, firstn_O. apply app_nil_r. Qed.
Lemma skipn_app_exact {A} (a b : list A) : skipn (List.length a) (a ++ b) = b.
Proof. rewrite skipn_app, Nat.sub_diag, skipn_all. reflexivity. Qed.
Lemma repeat_map {A B} (x : B) (l : list A) : map (fun _ => x) l = repeat x (List.length l).
Proof. induction l; cbn; congruence. Qed.

Lemma from_app {A} (a b : list A) i : i = zlen a -> from (a ++ b) i = Ok b.
Proof.
  intros ->. unfold from. rewrite zlen_app. pose proof (zlen_nonneg a). pose proof (zlen_nonneg b).
  destruct (Z.leb_spec 0 (zlen a)); [|lia]. destruct (Z.leb_spec (zlen a) (zlen a + zlen b)); [|lia]. cbn [andb].
  unfold zlen. rewrite Nat2Z.id. now rewrite skipn_app_exact.
Qed.
Lemma upto_app {A} (a b : list A) i : i = zlen a -> upto (a ++ b) i = Ok a.
Proof.
  intros ->. unfold upto. rewrite zlen_app. pose proof (zlen_nonneg a). pose proof (zlen_nonneg b).
  destruct (Z.leb_spec 0 (zlen a)); [|lia]. destruct (Z.leb_spec (zlen a) (zlen a + zlen b)); [|lia]. cbn [andb].
  unfold zlen. rewrite Nat2Z.id. now rewrite firstn_app_exact.
Qed.

Lemma xorFrom_app f i a b : xorFrom f i (a ++ b) = xorFrom f i a ++ xorFrom f (i + List.length a) b.
Proof.
  revert i; induction a as [|x a IH]; intros i; cbn [app xorFrom List.length]; [now rewrite Nat.add_0_r|].
  rewrite IH. now rewrite <- Nat.add_succ_comm.
Qed.
Lemma xorFrom_zeros f i k : xorFrom f i (repeat 0 k) = map f (seq i k).
Proof. revert i; induction k as [|k IH]; intros i; cbn [repeat xorFrom seq map]; [reflexivity|]. now rewrite IH, Z.lxor_0_l. Qed.
Lemma length_xorFrom f i b : List.length (xorFrom f i b) = List.length b.
Proof. revert i; induction b as [|x b IH]; intros i; cbn; congruence. Qed.
Lemma xorFrom_xorl f i b : xorFrom f i b = xorl b (map f (seq i (List.length b))).
Proof. revert i; induction b as [|x b IH]; intros i; cbn; [reflexivity|]. now rewrite IH. Qed.

Lemma xorl_comm a b : xorl a b = xorl b a.
Proof. revert b; induction a as [|x a IH]; intros [|y b]; cbn; try reflexivity. unfold xorl in IH. now rewrite IH, Z.lxor_comm. Qed.
Lemma xorl_firstn k a b : firstn k (xorl a b) = xorl (firstn k a) (firstn k b).
Proof. revert a b; induction k as [|k IH]; intros [|x a] [|y b]; cbn; try reflexivity. f_equal. apply IH. Qed.
Lemma xorl_skipn k a b : List.length a = List.length b -> skipn k (xorl a b) = xorl (skipn k a) (skipn k b).
Proof. revert a b; induction k as [|k IH]; intros [|x a] [|y b]; cbn; intros H; try reflexivity; try discriminate. apply IH. lia. Qed.

Lemma zlen_zeros k : 0 <= k -> zlen (zeros k) = k.
Proof. intros H. unfold zlen, zeros. rewrite repeat_length. lia. Qed.

(** ** Bytes *)
Lemma byte_bits x : byte x <-> 0 <= x /\ forall i, 8 <= i -> Z.testbit x i = false.
Proof.
  unfold byte. split.
  - intros [H H1]. split; [exact H|]. intros i Hi. destruct (Z.eq_dec x 0) as [->|N]; [apply Z.bits_0|].
    apply Z.bits_above_log2; [exact H|]. apply Z.log2_lt_pow2; [lia|]. apply Z.lt_le_trans with (2 ^ 8); [exact H1|]. now apply Z.pow_le_mono_r.
  - intros [H H1]. split; [exact H|]. destruct (Z.lt_ge_cases x 256) as [L|L]; [exact L|]. exfalso.
    assert (N : 0 < x) by lia. pose proof (Z.bit_log2 x N) as B. rewrite H1 in B; [discriminate|].
    change 8 with (Z.log2 256). now apply Z.log2_le_mono.
Qed.
Lemma byte_lxor x y : byte x -> byte y -> byte (Z.lxor x y).
Proof.
  rewrite !byte_bits. intros [Hx Bx] [Hy By]. split; [rewrite Z.lxor_nonneg; tauto|].
  intros i Hi. now rewrite Z.lxor_spec, Bx, By.
Qed.
Lemma bytes_xorFrom f b : (forall i, byte (f i)) -> bytes b -> forall i, bytes (xorFrom f i b).
Proof. intros Hf H. induction H; intros i; cbn; constructor; [now apply byte_lxor|apply IHForall]. Qed.
Lemma bytes_map f l : (forall i : nat, byte (f i)) -> bytes (map f l).
Proof. intros Hf. apply Forall_forall. intros x Hx. apply in_map_iff in Hx as (i & <- & _). apply Hf. Qed.
Lemma bytes_app a b : bytes a -> bytes b -> bytes (a ++ b).
Proof. intros. now apply Forall_app. Qed.
Lemma bytes_firstn k b : bytes b -> bytes (firstn k b).
Proof. intros H. rewrite <- (firstn_skipn k b) in H. now apply Forall_app in H. Qed.
Lemma bytes_skipn k b : bytes b -> bytes (skipn k b).
Proof. intros H. rewrite <- (firstn_skipn k b) in H. now apply Forall_app in H. Qed.
Lemma bytes_zeros k : bytes (repeat 0 k).
Proof. induction k; cbn; constructor; [unfold byte; lia|assumption]. Qed.

Lemma lor_shift x y k : 0 <= k -> 0 <= x < 2 ^ k -> Z.lor x (Z.shiftl y k) = x + 2 ^ k * y.
Proof.
  intros Hk Hx. rewrite Z.shiftl_mul_pow2 by exact Hk. rewrite (Z.mul_comm (2 ^ k)). rewrite <- Z.lxor_lor.
  - rewrite <- Z.add_nocarry_lxor; [reflexivity|]. apply Z.bits_inj'. intros i Hi. rewrite Z.land_spec, Z.bits_0.
    destruct (Z.lt_ge_cases i k) as [L|L].
    + rewrite Z.mul_pow2_bits_low by exact L. apply andb_false_r.
    + replace (Z.testbit x i) with false; [reflexivity|]. symmetry. destruct (Z.eq_dec x 0) as [->|N]; [apply Z.bits_0|].
      apply Z.bits_above_log2; [lia|]. apply Z.lt_le_trans with k; [apply Z.log2_lt_pow2; lia|exact L].
  - apply Z.bits_inj'. intros i Hi. rewrite Z.land_spec, Z.bits_0.
    destruct (Z.lt_ge_cases i k) as [L|L].
    + rewrite Z.mul_pow2_bits_low by exact L. apply andb_false_r.
    + replace (Z.testbit x i) with false; [reflexivity|]. symmetry. destruct (Z.eq_dec x 0) as [->|N]; [apply Z.bits_0|].
      apply Z.bits_above_log2; [lia|]. apply Z.lt_le_trans with k; [apply Z.log2_lt_pow2; lia|exact L].
Qed.

Lemma toUint64_le b : zlen b = 8 -> bytes b -> toUint64 b = Ok (littleEndian b) /\ 0 <= littleEndian b < 2 ^ 64.
Proof.
  intros HL HB. do 8 (destruct b as [|? b]; [discriminate HL|]). destruct b; [|unfold zlen in HL; cbn [List.length] in HL; lia].
  unfold bytes in HB. repeat match goal with H : Forall byte (_ :: _) |- _ => let H1 := fresh "B" in inversion H as [|? ? H1 ?]; subst; clear H; unfold byte in H1 end.
  unfold toUint64.
  rewrite (lor_shift _ _ 8) by lia. rewrite (lor_shift _ _ 16) by lia.
  rewrite (lor_shift _ _ 24) by lia. rewrite (lor_shift _ _ 32) by lia. rewrite (lor_shift _ _ 40) by lia.
  rewrite (lor_shift _ _ 48) by lia. rewrite (lor_shift _ _ 56) by lia.
  cbn [littleEndian]. split; [f_equal; ring|]. lia.
Qed.

Lemma ldiff63 v : 0 <= v < 2 ^ 64 -> Z.ldiff v (2 ^ 63) = v mod 2 ^ 63.
Proof.
  intros H. rewrite <- Z.land_ones by lia. apply Z.bits_inj'. intros i Hi. rewrite Z.ldiff_spec, Z.land_spec.
  rewrite Z.pow2_bits_eqb by lia. destruct (Z.lt_ge_cases i 63) as [L|L].
  - rewrite Z.ones_spec_low by lia. destruct (Z.eqb_spec 63 i); [lia|reflexivity].
  - rewrite Z.ones_spec_high by lia. rewrite andb_false_r. destruct (Z.eqb_spec 63 i) as [<-|N]; [apply andb_false_r|].
    replace (Z.testbit v i) with false; [reflexivity|]. symmetry. destruct (Z.eq_dec v 0) as [->|N0]; [apply Z.bits_0|].
    apply Z.bits_above_log2; [lia|]. apply Z.lt_le_trans with 64; [apply Z.log2_lt_pow2; lia|lia].
Qed.

(** ** The shape of a buffer: the key, k bytes erased, and the unread bytes t *)
Section Shape.
  Context (ks : Z -> list Z -> list Z -> nat -> Z) (rd : Z) (nc : list Z).
  Hypothesis Hrd : rd = 8 \/ rd = 12 \/ rd = 20.
  Hypothesis Hnc : zlen nc = 8.

  Definition shaped (key : list Z) (k : nat) (t : list Z) : RNG :=
    mkRNG (key ++ repeat 0 k ++ t) (32 + Z.of_nat k) rd nc.
  Local Notation f key := (ks rd nc key).

  Lemma xor_ok b key : zlen key = 32 -> XORKeyStream ks b nc key rd = Ok (xorFrom (f key) 0 b).
  Proof.
    intros Hk. unfold XORKeyStream, KeySize, NonceSize. rewrite Hk, Hnc.
    destruct Hrd as [-> | [-> | ->]]; reflexivity.
  Qed.

  Section Read.
    Context (key : list Z) (k : nat) (t : list Z).
    Hypothesis Hkey : zlen key = 32.

    Lemma zlen_used : zlen (key ++ repeat 0 k) = 32 + Z.of_nat k.
    Proof. rewrite zlen_app, Hkey. unfold zlen. now rewrite repeat_length. Qed.

    Lemma shaped_rest : from (buf (shaped key k t)) (n (shaped key k t)) = Ok t.
    Proof. unfold shaped. cbn [buf n]. rewrite app_assoc. apply from_app. now rewrite zlen_used. Qed.
    Lemma shaped_used : upto (buf (shaped key k t)) (n (shaped key k t)) = Ok (key ++ repeat 0 k).
    Proof. unfold shaped. cbn [buf n]. rewrite app_assoc. apply upto_app. now rewrite zlen_used. Qed.
    Lemma shaped_body : from (buf (shaped key k t)) KeySize = Ok (repeat 0 k ++ t).
    Proof. apply from_app. now rewrite Hkey. Qed.
    Lemma shaped_key : upto (buf (shaped key k t)) KeySize = Ok key.
    Proof. apply upto_app. now rewrite Hkey. Qed.

    Lemma unread_shaped : unread (shaped key k t) = t.
    Proof.
      unfold unread, shaped. cbn [n buf]. rewrite app_assoc.
      replace (Z.to_nat (32 + Z.of_nat k)) with (List.length (key ++ repeat 0 k)) by (pose proof zlen_used as H; unfold zlen in H; lia).
      apply skipn_app_exact.
    Qed.

    Lemma read_buffered fuel b : (List.length b <= List.length t)%nat ->
      Read ks (S fuel) b (shaped key k t) =
      (Ok (zlen b, firstn (List.length b) t), shaped key (k + List.length b) (skipn (List.length b) t)).
    Proof.
      intros Hb. cbn [Read]. unfold xbind, xget, lift. rewrite shaped_rest, shaped_body.
      destruct (Z.leb_spec (zlen b) (zlen t)) as [_|L]; [|unfold zlen in L; lia].
      rewrite shaped_used.
      unfold copyAndErase, copy. rewrite Nat.min_l by exact Hb. rewrite Nat2Z.id, skipn_all, app_nil_r.
      unfold xput, xret, setBuf, shaped. cbn [rounds nonce n]. f_equal. f_equal.
      - unfold erase. rewrite repeat_map, firstn_length, Nat.min_l by exact Hb.
        rewrite repeat_app, <- !app_assoc. reflexivity.
      - lia.
    Qed.

    (** The buffer after a reseed. *)
    Definition refilled : list Z := map (f key) (seq 32 k) ++ xorFrom (f key) (32 + k) t.
    Lemma length_refilled : List.length refilled = (k + List.length t)%nat.
    Proof. unfold refilled. now rewrite app_length, map_length, seq_length, length_xorFrom. Qed.
    Lemma xor_shaped : xorFrom (f key) 0 (buf (shaped key k t)) = xorFrom (f key) 0 key ++ refilled.
    Proof.
      assert (Hk32 : List.length key = 32%nat) by (unfold zlen in Hkey; lia).
      unfold shaped. cbn [buf]. rewrite !xorFrom_app, xorFrom_zeros, Hk32, repeat_length. reflexivity.
    Qed.

    Lemma read_reseed fuel b : (List.length t < List.length b <= List.length t + (k + List.length t))%nat ->
      let m := (List.length b - List.length t)%nat in
      Read ks (S fuel) b (shaped key k t) =
      (Ok (zlen b, t ++ firstn m refilled), shaped (xorFrom (f key) 0 key) m (skipn m refilled)).
    Proof.
      intros Hb m. cbn [Read]. unfold xbind, xget, lift. rewrite shaped_rest, shaped_body.
      destruct (Z.leb_spec (zlen b) (zlen t)) as [L|_]; [unfold zlen in L; lia|].
      destruct (Z.leb_spec (zlen b) (zlen t + zlen (repeat 0 k ++ t))) as [_|L];
        [|unfold zlen in L; rewrite app_length, repeat_length in L; lia].
      unfold copy at 1. rewrite Nat.min_r by lia. rewrite firstn_all, shaped_key.
      change (nonce (shaped key k t)) with nc. change (rounds (shaped key k t)) with rd.
      rewrite xor_ok by exact Hkey. unfold xput at 1. rewrite upto_app, from_app by reflexivity.
      assert (HK : zlen (xorFrom (f key) 0 key) = 32) by (unfold zlen in *; now rewrite length_xorFrom).
      rewrite xor_shaped, upto_app, from_app by (now rewrite HK).
      unfold copyAndErase, copy. assert (HL : List.length (skipn (List.length t) b) = m) by (now rewrite skipn_length).
      rewrite HL, length_refilled, Nat.min_l by lia. rewrite Nat2Z.id.
      unfold xput, xret, setBuf, shaped. cbn [rounds nonce]. f_equal.
      - f_equal. f_equal. f_equal. rewrite <- HL at 2. rewrite skipn_all. apply app_nil_r.
      - f_equal. f_equal. unfold erase. rewrite repeat_map, firstn_length, length_refilled, Nat.min_l by lia. reflexivity.
    Qed.

    Lemma read_overwrites fuel b b2 : List.length b = List.length b2 -> (List.length b <= List.length t + (k + List.length t))%nat ->
      Read ks (S fuel) b (shaped key k t) = Read ks (S fuel) b2 (shaped key k t).
    Proof.
      intros HE HB. assert (HZ : zlen b = zlen b2) by (unfold zlen; now rewrite HE).
      destruct (le_lt_dec (List.length b) (List.length t)) as [L|L].
      - rewrite !read_buffered by lia. now rewrite HE, HZ.
      - rewrite !read_reseed by lia. now rewrite HE, HZ.
    Qed.
    Lemma read_fuel fuel fuel' b : (List.length b <= List.length t + (k + List.length t))%nat ->
      Read ks (S fuel) b (shaped key k t) = Read ks (S fuel') b (shaped key k t).
    Proof.
      intros HB. destruct (le_lt_dec (List.length b) (List.length t)) as [L|L].
      - now rewrite !read_buffered by lia.
      - now rewrite !read_reseed by lia.
    Qed.

    Lemma read_large fuel b : (List.length t + (k + List.length t) < List.length b)%nat -> (64 <= k + List.length t)%nat ->
      exists tmp r', Read ks (S fuel) (zeros 32) (shaped key k t) = (Ok (32, tmp), r') /\ zlen tmp = 32 /\
        Read ks (S (S fuel)) b (shaped key k t) = (Ok (zlen b, xorFrom (f tmp) 0 b), r').
    Proof.
      intros Hb Hk.
      assert (HR : exists tmp r', Read ks (S fuel) (zeros 32) (shaped key k t) = (Ok (32, tmp), r') /\ zlen tmp = 32 /\ nonce r' = nc /\ rounds r' = rd).
      { destruct (le_lt_dec 32 (List.length t)) as [L|L].
        - rewrite read_buffered by exact L. eexists _, _. split; [reflexivity|]. split; [|split; reflexivity].
          change (List.length (zeros 32)) with 32%nat. unfold zlen. rewrite firstn_length. lia.
        - rewrite read_reseed by (change (List.length (zeros 32)) with 32%nat; lia).
          eexists _, _. split; [reflexivity|]. split; [|split; reflexivity].
          change (List.length (zeros 32)) with 32%nat. unfold zlen. rewrite app_length, firstn_length, length_refilled. lia. }
      destruct HR as (tmp & r' & E & Ht & Hn & Hr). exists tmp, r'. split; [exact E|]. split; [exact Ht|].
      remember (S fuel) as fuel1. cbn [Read]. unfold xbind, xget, lift. rewrite shaped_rest, shaped_body.
      destruct (Z.leb_spec (zlen b) (zlen t)) as [L|_]; [unfold zlen in L; lia|].
      destruct (Z.leb_spec (zlen b) (zlen t + zlen (repeat 0 k ++ t))) as [L|_];
        [unfold zlen in L; rewrite app_length, repeat_length in L; lia|].
      change KeySize with 32. rewrite E. unfold xret. rewrite Hn, Hr. cbn [snd]. now rewrite xor_ok.
    Qed.
  End Read.
End Shape.

(** ** Every reachable state *)
Section Good.
  Context (ks : Z -> list Z -> list Z -> nat -> Z) (rd : Z) (nc : list Z) (bs : nat).
  Hypothesis Hks : cipher ks.
  Hypothesis Hrd : rd = 8 \/ rd = 12 \/ rd = 20.
  Hypothesis Hnc : zlen nc = 8.
  Hypothesis Hbs : (64 <= bs)%nat.

  Definition good (r : RNG) : Prop := exists key k t,
    r = shaped rd nc key k t /\ zlen key = 32 /\ bytes key /\ bytes t /\ (k + List.length t = bs)%nat.

  Lemma read_good fuel b r : good r -> exists b' r',
    Read ks (S (S fuel)) b r = (Ok (zlen b, b'), r') /\ zlen b' = zlen b /\ (bytes b -> bytes b') /\ good r'.
  Proof.
    intros (key & k & t & -> & Hk & Bk & Bt & HL).
    assert (G : forall fuel b, (List.length b <= List.length t + bs)%nat -> exists b' r',
      Read ks (S fuel) b (shaped rd nc key k t) = (Ok (zlen b, b'), r') /\ zlen b' = zlen b /\ bytes b' /\ good r').
    { clear fuel b. intros fuel b Hb. destruct (le_lt_dec (List.length b) (List.length t)) as [L|L].
      - rewrite read_buffered by assumption. eexists _, _. split; [reflexivity|]. split; [unfold zlen; rewrite firstn_length; lia|].
        split; [now apply bytes_firstn|]. eexists _, _, _. split; [reflexivity|]. split; [exact Hk|]. split; [exact Bk|].
        split; [now apply bytes_skipn|]. rewrite skipn_length. lia.
      - rewrite read_reseed by (assumption || lia).
        assert (Br : bytes (refilled ks rd nc key k t)).
        { apply bytes_app; [apply bytes_map; intros; apply Hks|]. apply bytes_xorFrom; [intros; apply Hks|exact Bt]. }
        eexists _, _. split; [reflexivity|]. split; [unfold zlen; rewrite app_length, firstn_length, length_refilled; lia|].
        split; [apply bytes_app; [exact Bt|now apply bytes_firstn]|]. eexists _, _, _. split; [reflexivity|].
        split; [unfold zlen in *; now rewrite length_xorFrom|]. split; [apply bytes_xorFrom; [intros; apply Hks|exact Bk]|].
        split; [now apply bytes_skipn|]. rewrite skipn_length, length_refilled. lia. }
    destruct (le_lt_dec (List.length b) (List.length t + bs)) as [L|L].
    - destruct (G (S fuel) b L) as (b' & r' & E & H1 & H2 & H3). exists b', r'. auto.
    - destruct (read_large ks rd nc Hrd Hnc key k t Hk fuel b) as (tmp & r' & E1 & Ht & E2); [lia|lia|].
      destruct (G fuel (zeros 32)) as (b' & r'' & E & _ & _ & Hg); [change (List.length (zeros 32)) with 32%nat; lia|].
      rewrite E in E1. injection E1 as -> ->. eexists _, _. split; [exact E2|].
      split; [unfold zlen; now rewrite length_xorFrom|]. split; [|exact Hg].
      intros Hb. apply bytes_xorFrom; [intros; apply Hks|exact Hb].
  Qed.

  Lemma uint64_read fuel r : good r -> Uint64 ks (S (S fuel)) r =
    (let '(x, r') := Read ks (S (S fuel)) (zeros 8) r in
     (match x with Ok (_, b) => Ok (littleEndian b) | Panic e => Panic e | Diverge => Diverge end, r')).
  Proof.
    intros Hg. destruct (read_good fuel (zeros 8) r Hg) as (b' & r' & E & HL & HB & _).
    change (zlen (zeros 8)) with 8 in HL. specialize (HB (bytes_zeros 8)).
    destruct (toUint64_le b' HL HB) as [HT _].
    destruct Hg as (key & k & t & -> & Hk & Bk & Bt & HL2).
    rewrite E. unfold Uint64, xbind, xget, lift. rewrite shaped_rest by exact Hk.
    destruct (Z.leb_spec 8 (zlen t)) as [L|L].
    - assert (L' : (8 <= List.length t)%nat) by (unfold zlen in L; lia).
      rewrite read_buffered in E by (exact Hk || exact L').
      change (List.length (zeros 8)) with 8%nat in E.
      assert (b' = firstn 8 t) as -> by (remember (firstn 8 t); congruence).
      assert (r' = shaped rd nc key (k + 8) (skipn 8 t)) as -> by (remember (skipn 8 t); congruence). clear E.
      assert (HF : zlen (firstn 8 t) = 8) by exact HL.
      assert (E8 : upto t 8 = Ok (firstn 8 t)).
      { rewrite <- (firstn_skipn 8 t) at 1. apply upto_app. now rewrite HF. }
      assert (S8 : from t 8 = Ok (skipn 8 t)).
      { rewrite <- (firstn_skipn 8 t) at 1. apply from_app. now rewrite HF. }
      rewrite E8, HT, S8, shaped_used by exact Hk. unfold xput, xret, setBuf, shaped. cbn [rounds nonce n]. f_equal. f_equal; [|lia].
      unfold erase. rewrite repeat_map, firstn_length, Nat.min_l by exact L'. rewrite repeat_app, <- !app_assoc. reflexivity.
    - rewrite E. cbn [snd]. now rewrite HT.
  Qed.

  Lemma perform_good c r : good r -> exists a r', perform ks c r = (Ok a, r') /\ answers c a /\ good r'.
  Proof.
    intros Hg. assert (HU : exists v r', Uint64 ks 2 r = (Ok v, r') /\ 0 <= v < 2 ^ 64 /\ good r').
    { rewrite uint64_read by exact Hg. destruct (read_good 0 (zeros 8) r Hg) as (b' & r' & E & HL & HB & Hg').
      rewrite E. destruct (toUint64_le b' HL (HB (bytes_zeros 8))) as [_ H]. eauto. }
    destruct c as [b| |]; cbn [perform].
    - destruct (read_good 0 b r Hg) as (b' & r' & E & H1 & H2 & H3). unfold xbind. rewrite E.
      eexists _, _. split; [reflexivity|]. split; [|exact H3]. cbn. auto.
    - destruct HU as (v & r' & E & H1 & H2). unfold xbind. rewrite E. eexists _, _. split; [reflexivity|]. split; [exact H1|exact H2].
    - destruct HU as (v & r' & E & H1 & H2). unfold Int63, xbind. rewrite E. eexists _, _. split; [reflexivity|]. split; [|exact H2].
      cbn [answers]. rewrite ldiff63 by exact H1. apply Z.mod_pos_bound. reflexivity.
  Qed.

  Lemma performs_good cs : forall r, good r -> exists l r', performs ks cs r = (Ok l, r') /\ Forall2 answers cs l /\ good r'.
  Proof.
    induction cs as [|c cs IH]; intros r Hg; cbn [performs].
    - exists [], r. repeat split; auto.
    - destruct (perform_good c r Hg) as (a & r1 & E & HA & Hg1). destruct (IH r1 Hg1) as (l & r2 & E2 & HF & Hg2).
      unfold xbind. rewrite E, E2. eexists _, _. split; [reflexivity|]. split; [now constructor|exact Hg2].
  Qed.

  Lemma new_ok seed : zlen seed = 32 -> NewRNGCustom ks seed nc (Z.of_nat bs) rd =
    Ok (shaped rd nc (stretch ks rd nc seed 0 32) 0 (stretch ks rd nc seed 32 bs)).
  Proof.
    intros Hs. unfold NewRNGCustom, KeySize. destruct (Z.ltb_spec (Z.of_nat bs) (32 * 2)) as [L|_]; [lia|].
    replace (negb ((rd =? 8) || (rd =? 12) || (rd =? 20))) with false by (now destruct Hrd as [-> | [-> | ->]]).
    rewrite xor_ok by assumption. unfold zeros. rewrite xorFrom_zeros.
    replace (Z.to_nat (32 + Z.of_nat bs)) with (32 + bs)%nat by lia.
    rewrite seq_app, map_app. reflexivity.
  Qed.
  Lemma new_good seed r : zlen seed = 32 -> NewRNGCustom ks seed nc (Z.of_nat bs) rd = Ok r -> good r.
  Proof.
    intros Hs. rewrite new_ok by exact Hs. intros [= <-]. eexists _, _, _. split; [reflexivity|].
    unfold stretch, zlen. rewrite !map_length, !seq_length.
    split; [reflexivity|]. split; [apply bytes_map; intros; apply Hks|]. split; [apply bytes_map; intros; apply Hks|]. reflexivity.
  Qed.

  (** ** Reads that do not cross pages *)
  Section Aligned.
    Context (seed : list Z).
    Hypothesis Hseed : zlen seed = 32.
    Local Notation pk := (pageKey ks rd nc seed).
    Local Notation pg := (page ks rd nc seed bs).
    Local Notation sb := (streamByte ks rd nc seed bs).

    Lemma zlen_pageKey i : zlen (pk i) = 32.
    Proof.
      unfold zlen. induction i as [|i IH]; cbn [pageKey]; unfold stretch.
      - now rewrite map_length, seq_length.
      - unfold xorl. rewrite map_length, combine_length, map_length, seq_length. lia.
    Qed.
    Lemma pageKey_S i : pk (S i) = xorFrom (ks rd nc (pk i)) 0 (pk i).
    Proof.
      rewrite xorFrom_xorl. pose proof (zlen_pageKey i) as H. unfold zlen in H.
      replace (List.length (pk i)) with 32%nat by lia. reflexivity.
    Qed.
    Lemma length_page i : List.length (pg i) = bs.
    Proof. unfold page, stretch. now rewrite map_length, seq_length. Qed.

    Lemma page_part i o k : (o + k <= bs)%nat -> firstn k (skipn o (pg i)) = map sb (seq (i * bs + o) k).
    Proof.
      intros H. apply nth_ext with (d := 0) (d' := 0).
      { rewrite firstn_length, skipn_length, length_page, map_length, seq_length. lia. }
      intros j Hj. rewrite firstn_length, skipn_length, length_page in Hj.
      assert (E1 : nth j (firstn k (skipn o (pg i))) 0 = nth (o + j) (pg i) 0).
      { transitivity (nth j (skipn o (pg i)) 0).
        - rewrite <- (firstn_skipn k (skipn o (pg i))) at 2. rewrite app_nth1; [reflexivity|rewrite firstn_length, skipn_length, length_page; lia].
        - rewrite <- (firstn_skipn o (pg i)) at 2. rewrite app_nth2 by (rewrite firstn_length, length_page; lia).
          f_equal. rewrite firstn_length, length_page. lia. }
      rewrite E1. rewrite (nth_indep (map sb _) 0 (sb 0)) by (rewrite map_length, seq_length; lia).
      rewrite map_nth, seq_nth by lia. unfold streamByte.
      replace (i * bs + o + j)%nat with ((o + j) + i * bs)%nat by lia.
      rewrite Nat.mod_add, Nat.mod_small, Nat.div_add, Nat.div_small by lia. reflexivity.
    Qed.

    Lemma aligned_reads bl : forall i o, (o <= bs)%nat -> aligned bs (i * bs + o) (map (@List.length Z) bl) ->
      exists l r', performs ks (map CRead bl) (shaped rd nc (pk i) o (skipn o (pg i))) = (Ok l, r') /\
        output l = map sb (seq (i * bs + o) (list_sum (map (@List.length Z) bl))).
    Proof.
      induction bl as [|b bl IH]; intros i o Ho HA; cbn [map aligned performs list_sum fold_right] in *.
      { exists [], (shaped rd nc (pk i) o (skipn o (pg i))). auto. }
      destruct HA as [HA1 HA2].
      assert (HL : List.length (skipn o (pg i)) = (bs - o)%nat) by (now rewrite skipn_length, length_page).
      destruct (le_lt_dec (List.length b) (bs - o)) as [L|L].
      - destruct (IH i (o + List.length b)%nat) as (l & r' & E & HO); [lia|now rewrite Nat.add_assoc|].
        exists (ARead (zlen b) (firstn (List.length b) (skipn o (pg i))) :: l), r'. split.
        + unfold xbind at 1. cbn [perform]. unfold xbind at 1. rewrite read_buffered by (apply zlen_pageKey || lia).
          unfold xret at 1. cbn [fst snd]. rewrite skipn_skipn', (Nat.add_comm (List.length b)). unfold xbind. now rewrite E.
        + cbn [output]. rewrite HO, page_part by lia. unfold list_sum. rewrite seq_app, map_app, Nat.add_assoc. reflexivity.
      - (* the page is used up *)
        assert (o = bs) as ->.
        { destruct (Nat.eq_dec o bs) as [e|Ne]; [exact e|]. exfalso.
          rewrite Nat.add_comm, Nat.mod_add, Nat.mod_small in HA1 by lia. lia. }
        replace (i * bs + bs)%nat with (S i * bs + 0)%nat in * by lia.
        rewrite Nat.add_0_r, Nat.mod_mul in HA1 by lia.
        rewrite (skipn_all2 (pg i)) in * by (rewrite length_page; lia).
        destruct (IH (S i) (List.length b)) as (l & r' & E & HO); [lia|now rewrite Nat.add_0_r in HA2|].
        exists (ARead (zlen b) (firstn (List.length b) (pg (S i))) :: l), r'. split.
        + unfold xbind at 1. cbn [perform]. unfold xbind at 1.
          rewrite read_reseed by (assumption || apply zlen_pageKey || (cbn [List.length]; lia)).
          unfold xret at 1. cbn [fst snd app List.length]. rewrite Nat.sub_0_r. unfold refilled. cbn [xorFrom]. rewrite app_nil_r, <- pageKey_S.
          change (map (ks rd nc (pk i)) (seq 32 bs)) with (pg (S i)). unfold xbind. now rewrite E.
        + cbn [output]. rewrite HO. rewrite <- (skipn_O (pg (S i))), page_part by lia.
          unfold list_sum. rewrite Nat.add_0_r, seq_app, map_app. reflexivity.
    Qed.
  End Aligned.
End Good.

(** ** Readers *)
Section Readers.
  Context {W : Type} (read : Z -> X W (list Z * option string)) (left : W -> list Z).
  Hypothesis HR : reads read left.

  Lemma readFull_ok fuel : forall got want w, (Z.to_nat want < fuel)%nat -> 0 <= want -> want <= zlen (left w) ->
    exists d w', readFull read fuel got want None w = (Ok (got ++ d, None), w') /\ left w = d ++ left w' /\ zlen d = want.
  Proof.
    induction fuel as [|fuel IH]; intros got want w Hf Hw Hl; [lia|]. cbn [readFull].
    destruct (Z.ltb_spec 0 want) as [L|L]; cbn [andb].
    - destruct (HR want w L) as (d & err & w1 & E & HL & Hd & He). unfold xbind. rewrite E. cbn [fst snd].
      pose proof (zlen_nonneg d). pose proof HL as HZ. apply (f_equal zlen) in HZ. rewrite zlen_app in HZ.
      destruct err as [e|].
      + rewrite He, zlen_nil in HZ. destruct fuel as [|fuel]; [lia|]. cbn [readFull]. rewrite andb_false_r.
        destruct (Z.leb_spec (want - zlen d) 0); [|lia]. eexists _, _. split; [reflexivity|]. split; [exact HL|lia].
      + assert (0 < zlen d) by (destruct d; [congruence|rewrite zlen_cons; pose proof (zlen_nonneg d); lia]).
        destruct (IH (got ++ d) (want - zlen d) w1) as (d2 & w2 & E2 & HL2 & Hd2); [lia|lia|lia|].
        exists (d ++ d2), w2. rewrite E2, <- app_assoc. split; [reflexivity|]. split; [now rewrite HL, HL2, <- app_assoc|].
        rewrite zlen_app. lia.
    - destruct (Z.leb_spec want 0); [|lia]. exists [], w. rewrite app_nil_r. split; [reflexivity|]. split; [reflexivity|]. cbn. lia.
  Qed.

  Lemma readFull_short fuel : forall got want w, (Z.to_nat want < fuel)%nat -> zlen (left w) < want ->
    exists d e w', readFull read fuel got want None w = (Ok (got ++ d, Some e), w').
  Proof.
    induction fuel as [|fuel IH]; intros got want w Hf Hl; [lia|]. cbn [readFull]. pose proof (zlen_nonneg (left w)).
    destruct (Z.ltb_spec 0 want) as [L|L]; cbn [andb]; [|lia].
    destruct (HR want w L) as (d & err & w1 & E & HL & Hd & He). unfold xbind. rewrite E. cbn [fst snd].
    pose proof (zlen_nonneg d). apply (f_equal zlen) in HL. rewrite zlen_app in HL. pose proof (zlen_nonneg (left w1)).
    destruct err as [e|].
    - destruct fuel as [|fuel]; [lia|]. cbn [readFull]. rewrite andb_false_r. destruct (Z.leb_spec (want - zlen d) 0); [lia|]. eexists _, _, _. reflexivity.
    - assert (0 < zlen d) by (destruct d; [congruence|rewrite zlen_cons; pose proof (zlen_nonneg d); lia]).
      destruct (IH (got ++ d) (want - zlen d) w1) as (d2 & e & w2 & E2); [lia|lia|].
      exists (d ++ d2), e, w2. now rewrite E2, <- app_assoc.
  Qed.
End Readers.

(** ** Two ways of cutting 128 bytes *)
Lemma chunking_differs ks seed nonce rounds : zlen seed = 32 -> zlen nonce = 8 -> rounds = 8 \/ rounds = 12 \/ rounds = 20 ->
  ks rounds nonce seed 62%nat <> 0 ->
  exists r l1 r1 l2 r2,
  NewRNGCustom ks seed nonce 64 rounds = Ok r /\
  performs ks (map CRead [zeros 30; zeros 64; zeros 34]) r = (Ok l1, r1) /\
  performs ks (map CRead [zeros 30; zeros 34; zeros 30; zeros 34]) r = (Ok l2, r2) /\
  zlen (output l1) = 128 /\ zlen (output l2) = 128 /\ output l1 <> output l2.
Proof.
  intros Hs Hn Hr H62.
  assert (L30 : List.length (zeros 30) = 30%nat) by reflexivity.
  assert (L34 : List.length (zeros 34) = 34%nat) by reflexivity.
  assert (L64 : List.length (zeros 64) = 64%nat) by reflexivity.
  pose proof (new_ok ks rounds nonce 64 Hr Hn ltac:(lia) seed Hs) as EN. change (Z.of_nat 64) with 64 in EN.
  set (K := stretch ks rounds nonce seed 0 32) in *. set (P := stretch ks rounds nonce seed 32 64) in *.
  assert (HK : zlen K = 32) by (unfold K, stretch, zlen; now rewrite map_length, seq_length).
  assert (HP : List.length P = 64%nat) by (unfold P, stretch; now rewrite map_length, seq_length).
  assert (Ht0 : nth 30 P 0 <> 0) by exact H62.
  clearbody K P. set (t := skipn 30 P).
  assert (Ht : List.length t = 34%nat) by (unfold t; rewrite skipn_length; lia).
  assert (Hd : nth 0 t 0 = nth 30 P 0) by (unfold t; rewrite nth_skipn'; reflexivity).
  assert (E1 : Read ks 2 (zeros 30) (shaped rounds nonce K 0 P) = (Ok (30, firstn 30 P), shaped rounds nonce K 30 t)).
  { rewrite (read_buffered ks rounds nonce K 0 P HK) by (rewrite HP; rewrite ?L30, ?L34, ?L64; cbn [List.length]; lia). reflexivity. }
  set (f := ks rounds nonce K). set (K' := xorFrom f 0 K).
  assert (HK' : zlen K' = 32) by (unfold K', zlen in *; now rewrite length_xorFrom).
  set (A := refilled ks rounds nonce K 30 t). set (B := refilled ks rounds nonce K 64 []).
  assert (HA : List.length A = 64%nat) by (unfold A; rewrite length_refilled; lia).
  assert (HB : List.length B = 64%nat) by (unfold B; rewrite length_refilled; reflexivity).
  assert (E2 : Read ks 2 (zeros 64) (shaped rounds nonce K 30 t) = (Ok (64, t ++ firstn 30 A), shaped rounds nonce K' 30 (skipn 30 A))).
  { rewrite (read_reseed ks rounds nonce Hr Hn K 30 t HK) by (rewrite Ht; rewrite ?L30, ?L34, ?L64; cbn [List.length]; lia).
    change (List.length (zeros 64)) with 64%nat. rewrite Ht. reflexivity. }
  assert (E3 : Read ks 2 (zeros 34) (shaped rounds nonce K' 30 (skipn 30 A)) = (Ok (34, skipn 30 A), shaped rounds nonce K' 64 [])).
  { rewrite (read_buffered ks rounds nonce K' 30 (skipn 30 A) HK') by (rewrite skipn_length, HA; rewrite ?L30, ?L34, ?L64; cbn [List.length]; lia).
    change (List.length (zeros 34)) with 34%nat. rewrite firstn_all2, (skipn_all2 (skipn 30 A)) by (rewrite skipn_length; lia). reflexivity. }
  assert (E4 : Read ks 2 (zeros 34) (shaped rounds nonce K 30 t) = (Ok (34, t), shaped rounds nonce K 64 [])).
  { rewrite (read_buffered ks rounds nonce K 30 t HK) by (rewrite Ht; rewrite ?L30, ?L34, ?L64; cbn [List.length]; lia).
    change (List.length (zeros 34)) with 34%nat. rewrite firstn_all2, skipn_all2 by lia. reflexivity. }
  assert (E5 : Read ks 2 (zeros 30) (shaped rounds nonce K 64 []) = (Ok (30, firstn 30 B), shaped rounds nonce K' 30 (skipn 30 B))).
  { rewrite (read_reseed ks rounds nonce Hr Hn K 64 [] HK) by (rewrite ?L30, ?L34, ?L64; cbn [List.length]; lia). reflexivity. }
  assert (E6 : Read ks 2 (zeros 34) (shaped rounds nonce K' 30 (skipn 30 B)) = (Ok (34, skipn 30 B), shaped rounds nonce K' 64 [])).
  { rewrite (read_buffered ks rounds nonce K' 30 (skipn 30 B) HK') by (rewrite skipn_length, HB; rewrite ?L30, ?L34, ?L64; cbn [List.length]; lia).
    change (List.length (zeros 34)) with 34%nat. rewrite firstn_all2, (skipn_all2 (skipn 30 B)) by (rewrite skipn_length; lia). reflexivity. }
  exists (shaped rounds nonce K 0 P), [ARead 30 (firstn 30 P); ARead 64 (t ++ firstn 30 A); ARead 34 (skipn 30 A)], (shaped rounds nonce K' 64 []),
    [ARead 30 (firstn 30 P); ARead 34 t; ARead 30 (firstn 30 B); ARead 34 (skipn 30 B)], (shaped rounds nonce K' 64 []).
  split; [exact EN|]. cbn [map performs]. unfold xbind. cbn [perform]. unfold xbind.
  rewrite E1. unfold xret. cbn [fst snd]. rewrite E2, E4. cbn [fst snd]. rewrite E3, E5. cbn [fst snd]. rewrite E6. cbn [fst snd].
  split; [reflexivity|]. split; [reflexivity|]. cbn [output]. rewrite !app_nil_r.
  split; [unfold zlen; rewrite !app_length, !firstn_length, !skipn_length; lia|].
  split; [unfold zlen; rewrite !app_length, !firstn_length, !skipn_length; lia|].
  intros E. rewrite <- app_assoc in E. apply app_inv_head, app_inv_head in E.
  rewrite !firstn_skipn in E. apply (f_equal (fun l => nth 30 l 0)) in E.
  unfold A, B, refilled in E. fold f in E. rewrite app_nil_r in E.
  rewrite app_nth2 in E by (rewrite map_length, seq_length; lia). rewrite map_length, seq_length, Nat.sub_diag in E.
  destruct t as [|t0 t']; [discriminate Ht|]. cbn [xorFrom nth] in E. change (32 + 30)%nat with 62%nat in E.
  rewrite (nth_indep (map f (seq 32 64)) 0 (f 0%nat)) in E by (rewrite map_length, seq_length; lia).
  rewrite map_nth, seq_nth in E by lia. change (32 + 30)%nat with 62%nat in E. cbn [nth] in Hd.
  apply Ht0. rewrite <- Hd. apply (f_equal (fun x => Z.lxor x (f 62%nat))) in E.
  rewrite Z.lxor_assoc, Z.lxor_nilpotent, Z.lxor_0_r in E. exact E.
Qed.
