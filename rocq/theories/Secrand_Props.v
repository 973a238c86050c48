(** The properties of secrand.RNG, C61-C66 and C73.  [ks] is any cipher; where
    a property fails, it fails for ChaCha itself. *)
From Verif Require Import Base Arr Exn Secrand_Model Secrand_Spec Secrand_Proofs.
Local Open Scope list_scope.
Local Open Scope Z_scope.

(** The hypotheses are met by ChaCha and by every seed. *)
Example chacha_vector : firstn 20 (chachaBlock 20 (zeros 8) (zeros 32) 0) =
  [0x76; 0xb8; 0xe0; 0xad; 0xa0; 0xf1; 0x3d; 0x90; 0x40; 0x5d; 0x6a; 0xe5; 0x53; 0x86; 0xbd; 0x28; 0xbd; 0xd2; 0x19; 0xb8].
Proof. vm_compute. reflexivity. Qed.
Lemma chacha_cipher : cipher chacha.
Proof.
  intros r nc k i. unfold chacha. set (l := chachaBlock _ _ _ _).
  assert (H : Forall byte l).
  { apply Forall_flat_map, Forall_forall. intros x _. unfold le4, byte. repeat constructor; apply Z.mod_pos_bound; reflexivity. }
  destruct (nth_in_or_default (i mod 64) l 0) as [Hin| ->]; [|unfold byte; lia].
  rewrite Forall_forall in H. now apply H.
Qed.

(** A cipher that is quick to compute, for the examples. *)
Definition quick (rounds : Z) (nonce key : list Z) (i : nat) : Z :=
  (13 * Z.of_nat i + nth (i mod 32) key 0 + nth 0 nonce 0 + rounds) mod 256.
Lemma quick_cipher : cipher quick.
Proof. intros r nc k i. apply Z.mod_pos_bound. reflexivity. Qed.

(** ** C61: Read fills b and never fails *)
Theorem C61_never_fails ks seed nonce bufsize rounds cs :
  cipher ks -> zlen seed = 32 -> zlen nonce = 8 -> legal bufsize rounds ->
  exists r l r', NewRNGCustom ks seed nonce bufsize rounds = Ok r /\
    performs ks cs r = (Ok l, r') /\ Forall2 answers cs l.
Proof.
  intros Hks Hs Hn [Hb Hr]. rewrite <- (Z2Nat.id bufsize) by lia.
  assert (Hb' : (64 <= Z.to_nat bufsize)%nat) by lia.
  pose proof (new_ok ks rounds nonce (Z.to_nat bufsize) Hr Hn Hb' seed Hs) as E.
  eexists. destruct (performs_good ks rounds nonce (Z.to_nat bufsize) Hks Hr Hn Hb' cs _ (new_good ks rounds nonce (Z.to_nat bufsize) Hks Hr Hn Hb' seed _ Hs E)) as (l & r' & E2 & HA & _).
  eauto.
Qed.
(** Any number of nested calls from 2 up is enough. *)
Theorem C61_nesting ks seed nonce bufsize rounds cs r l r' fuel b :
  cipher ks -> zlen seed = 32 -> zlen nonce = 8 -> legal bufsize rounds ->
  NewRNGCustom ks seed nonce bufsize rounds = Ok r -> performs ks cs r = (Ok l, r') ->
  (2 <= fuel)%nat -> exists b' r'', Read ks fuel b r' = (Ok (zlen b, b'), r'') /\ zlen b' = zlen b.
Proof.
  intros Hks Hs Hn [Hb Hr] E1 E2 Hf. rewrite <- (Z2Nat.id bufsize) in E1 by lia.
  assert (Hb' : (64 <= Z.to_nat bufsize)%nat) by lia.
  pose proof (new_good ks rounds nonce (Z.to_nat bufsize) Hks Hr Hn Hb' seed r Hs E1) as Hg.
  destruct (performs_good ks rounds nonce (Z.to_nat bufsize) Hks Hr Hn Hb' cs r Hg) as (l2 & r2 & E3 & _ & Hg2).
  rewrite E2 in E3. injection E3 as <- <-. destruct fuel as [|[|fuel]]; [lia|lia|].
  destruct (read_good ks rounds nonce (Z.to_nat bufsize) Hks Hr Hn Hb' fuel b r' Hg2) as (b' & r'' & E & HL & _). eauto.
Qed.
Print Assumptions C61_never_fails. Print Assumptions C61_nesting.
Example C61_example : zlen (zeros 32) = 32 /\ zlen (zeros 8) = 8 /\ legal 64 12 /\ cipher chacha.
Proof. split; [reflexivity|]. split; [reflexivity|]. split; [split; [lia|now right; left]|apply chacha_cipher]. Qed.

(** ** C62: what was handed out is erased *)
Theorem C62_erased ks seed nonce bufsize rounds cs r l r' :
  cipher ks -> zlen seed = 32 -> zlen nonce = 8 -> legal bufsize rounds ->
  NewRNGCustom ks seed nonce bufsize rounds = Ok r -> performs ks cs r = (Ok l, r') ->
  32 <= n r' <= zlen (buf r') /\ zlen (buf r') = 32 + bufsize /\
  consumed r' = repeat 0 (Z.to_nat (n r' - 32)).
Proof.
  intros Hks Hs Hn [Hb Hr] E1 E2. rewrite <- (Z2Nat.id bufsize) in E1 by lia.
  assert (Hb' : (64 <= Z.to_nat bufsize)%nat) by lia.
  pose proof (new_good ks rounds nonce (Z.to_nat bufsize) Hks Hr Hn Hb' seed r Hs E1) as Hg.
  destruct (performs_good ks rounds nonce (Z.to_nat bufsize) Hks Hr Hn Hb' cs r Hg) as (l2 & r2 & E3 & _ & Hg2).
  rewrite E2 in E3. injection E3 as <- <-. destruct Hg2 as (key & k & t & -> & Hk & _ & _ & HL).
  unfold consumed, shaped. cbn [n buf]. rewrite !zlen_app, Hk. unfold KeySize.
  assert (HZ : zlen (repeat 0 k) + zlen t = bufsize) by (unfold zlen; rewrite repeat_length; lia).
  pose proof (zlen_nonneg t). assert (zlen (repeat 0 k) = Z.of_nat k) by (unfold zlen; now rewrite repeat_length).
  split; [lia|]. split; [lia|].
  replace (32 + Z.of_nat k - 32) with (Z.of_nat k) by lia. rewrite Nat2Z.id.
  assert (E32 : Z.to_nat 32 = List.length key) by (unfold zlen in Hk; lia). rewrite E32, skipn_app_exact.
  rewrite <- (repeat_length 0 k) at 1. apply firstn_app_exact.
Qed.
Print Assumptions C62_erased.
(** 20 bytes read: 20 zeros. *)
Example C62_example : exists r l r', NewRNGCustom quick (zeros 32) (zeros 8) 64 8 = Ok r /\
  performs quick [CRead (repeat 1 12); CUint64] r = (Ok l, r') /\ consumed r' = repeat 0 20.
Proof. eexists _, _, _. split; [vm_compute; reflexivity|]. split; vm_compute; reflexivity. Qed.

(** ** C63: chunking *)

(** Reads that never cross the end of a page give the bytes of one fixed stream,
    however they are cut. *)
Theorem C63_aligned_partial ks seed nonce bufsize rounds (bl : list (list Z)) r :
  cipher ks -> zlen seed = 32 -> zlen nonce = 8 -> legal (Z.of_nat bufsize) rounds ->
  NewRNGCustom ks seed nonce (Z.of_nat bufsize) rounds = Ok r ->
  aligned bufsize 0 (map (@List.length Z) bl) ->
  exists l r', performs ks (map CRead bl) r = (Ok l, r') /\
    output l = map (streamByte ks rounds nonce seed bufsize) (seq 0 (list_sum (map (@List.length Z) bl))).
Proof.
  intros Hks Hs Hn [Hb Hr] E HA. assert (Hb' : (64 <= bufsize)%nat) by lia.
  rewrite new_ok in E by assumption. injection E as <-.
  apply (aligned_reads ks rounds nonce bufsize Hr Hn Hb' seed bl 0 0); [lia|exact HA].
Qed.
(** So two such ways of cutting give the same bytes. *)
Theorem C63_cuts_partial ks seed nonce bufsize rounds (bl1 bl2 : list (list Z)) r :
  cipher ks -> zlen seed = 32 -> zlen nonce = 8 -> legal (Z.of_nat bufsize) rounds ->
  NewRNGCustom ks seed nonce (Z.of_nat bufsize) rounds = Ok r ->
  aligned bufsize 0 (map (@List.length Z) bl1) -> aligned bufsize 0 (map (@List.length Z) bl2) ->
  list_sum (map (@List.length Z) bl1) = list_sum (map (@List.length Z) bl2) ->
  exists l1 r1 l2 r2, performs ks (map CRead bl1) r = (Ok l1, r1) /\ performs ks (map CRead bl2) r = (Ok l2, r2) /\
    output l1 = output l2.
Proof.
  intros Hks Hs Hn HL E HA1 HA2 HE.
  destruct (C63_aligned_partial ks seed nonce bufsize rounds bl1 r Hks Hs Hn HL E HA1) as (l1 & r1 & E1 & O1).
  destruct (C63_aligned_partial ks seed nonce bufsize rounds bl2 r Hks Hs Hn HL E HA2) as (l2 & r2 & E2 & O2).
  exists l1, r1, l2, r2. split; [exact E1|]. split; [exact E2|]. now rewrite O1, O2, HE.
Qed.
(** What a read across the end of a page does: against reading up to the end
    first and the rest after that, the bytes [t] that were left are xored into
    the new page at their old places.  The second part is the same exactly if
    the places it covers held zeros. *)
Theorem C63_straddle ks seed nonce bufsize rounds cs r l r1 b1 b2 :
  cipher ks -> zlen seed = 32 -> zlen nonce = 8 -> legal bufsize rounds ->
  NewRNGCustom ks seed nonce bufsize rounds = Ok r -> performs ks cs r = (Ok l, r1) ->
  let t := unread r1 in
  let old := repeat 0 (Z.to_nat (n r1 - 32)) ++ t in
  List.length b1 = List.length t -> 0 < zlen b2 <= bufsize ->
  exists x y z r2 r3,
    performs ks [CRead (b1 ++ b2)] r1 = (Ok [ARead (zlen b1 + zlen b2) (t ++ x)], r2) /\
    performs ks [CRead b1; CRead b2] r1 = (Ok [ARead (zlen b1) y; ARead (zlen b2) z], r3) /\
    y = t /\ x = xorl z (firstn (List.length b2) old) /\
    unread r2 = xorl (unread r3) (skipn (List.length b2) old).
Proof.
  intros Hks Hs Hn [Hb Hr] E1 E2 t old Hb1 Hb2. rewrite <- (Z2Nat.id bufsize) in E1 by lia.
  assert (Hb' : (64 <= Z.to_nat bufsize)%nat) by lia.
  pose proof (new_good ks rounds nonce (Z.to_nat bufsize) Hks Hr Hn Hb' seed r Hs E1) as Hg.
  destruct (performs_good ks rounds nonce (Z.to_nat bufsize) Hks Hr Hn Hb' cs r Hg) as (l2 & r2' & E3 & _ & Hg2).
  rewrite E2 in E3. injection E3 as <- <-. destruct Hg2 as (key & k & t' & -> & Hk & _ & _ & HL).
  assert (Ht : t = t').
  { subst t. unfold unread, shaped. cbn [n buf]. rewrite app_assoc.
    replace (Z.to_nat (32 + Z.of_nat k)) with (List.length (key ++ repeat 0 k)) by (rewrite app_length, repeat_length; unfold zlen in Hk; lia).
    apply skipn_app_exact. }
  assert (Ho : old = repeat 0 k ++ t).
  { subst old. unfold shaped. cbn [n]. now replace (Z.to_nat (32 + Z.of_nat k - 32)) with k by lia. }
  clearbody t old. subst t' old. cbn [performs]. unfold xbind. cbn [perform]. unfold xbind.
  assert (L2 : (0 < List.length b2 <= k + List.length t)%nat) by (unfold zlen in Hb2; lia).
  rewrite (read_reseed ks rounds nonce Hr Hn key k t Hk) by (rewrite app_length; lia).
  unfold xret. cbn [fst snd].
  rewrite (read_buffered ks rounds nonce key k t Hk) by lia. cbn [fst snd].
  rewrite !Hb1, skipn_all, firstn_all.
  rewrite (read_reseed ks rounds nonce Hr Hn key (k + List.length t) [] Hk) by (cbn [List.length]; lia).
  cbn [fst snd List.length app]. rewrite Nat.sub_0_r.
  replace (List.length (b1 ++ b2) - List.length t)%nat with (List.length b2) by (rewrite app_length; lia).
  replace (zlen (b1 ++ b2)) with (zlen b1 + zlen b2) by (now rewrite zlen_app).
  set (f := ks rounds nonce key).
  assert (HX : refilled ks rounds nonce key k t = xorl (refilled ks rounds nonce key (k + List.length t) []) (repeat 0 k ++ t)).
  { unfold refilled. cbn [xorFrom]. rewrite app_nil_r. fold f.
    transitivity (xorFrom f 32 (repeat 0 k ++ t)); [rewrite xorFrom_app, xorFrom_zeros, repeat_length; reflexivity|].
    rewrite xorFrom_xorl, xorl_comm, app_length, repeat_length. reflexivity. }
  assert (HLr : List.length (refilled ks rounds nonce key (k + List.length t) []) = List.length (repeat 0 k ++ t)).
  { rewrite length_refilled, app_length, repeat_length. cbn [List.length]. lia. }
  eexists _, _, _, _, _. split; [reflexivity|]. split; [reflexivity|]. split; [reflexivity|].
  rewrite HX. split; [apply xorl_firstn|].
  assert (HK : zlen (xorFrom f 0 key) = 32) by (unfold zlen in *; now rewrite length_xorFrom).
  rewrite (unread_shaped ks rounds nonce _ _ _ HK), (unread_shaped ks rounds nonce _ _ _ HK). apply xorl_skipn. exact HLr.
Qed.
Example C63_straddle_example : exists r l r1, NewRNGCustom quick (zeros 32) (zeros 8) 64 12 = Ok r /\
  performs quick [CRead (zeros 30)] r = (Ok l, r1) /\
  List.length (zeros 34) = List.length (unread r1) /\ 0 < zlen (zeros 30) <= 64.
Proof. eexists _, _, _. split; [vm_compute; reflexivity|]. split; [vm_compute; reflexivity|]. split; [reflexivity|]. rewrite zlen_zeros; lia. Qed.
Example C63_aligned_example : aligned 64 0 (map (@List.length Z) [zeros 30; zeros 34; zeros 64; zeros 1]).
Proof. cbn [map]. repeat (split; [vm_compute; lia|]). exact I. Qed.
(** With ChaCha, and no read longer than the buffer of 64 bytes: the same number
    of bytes cut in two ways, with different contents. *)
Theorem C63_chunking_refuted : exists r l1 r1 l2 r2,
  NewRNGCustom chacha (zeros 32) (zeros 8) 64 12 = Ok r /\
  performs chacha (map CRead [zeros 30; zeros 64; zeros 34]) r = (Ok l1, r1) /\
  performs chacha (map CRead [zeros 30; zeros 34; zeros 30; zeros 34]) r = (Ok l2, r2) /\
  zlen (output l1) = 128 /\ zlen (output l2) = 128 /\ output l1 <> output l2.
Proof.
  apply chunking_differs; [reflexivity|reflexivity|now right; left|]. vm_compute. discriminate.
Qed.
Print Assumptions C63_aligned_partial. Print Assumptions C63_cuts_partial.
Print Assumptions C63_straddle. Print Assumptions C63_chunking_refuted.

(** ** C64: Uint64 and Int63 against Read *)
Theorem C64_uint64 ks seed nonce bufsize rounds cs r l r1 b :
  cipher ks -> zlen seed = 32 -> zlen nonce = 8 -> legal bufsize rounds ->
  NewRNGCustom ks seed nonce bufsize rounds = Ok r -> performs ks cs r = (Ok l, r1) -> zlen b = 8 ->
  exists b' r2, Read ks 2 b r1 = (Ok (8, b'), r2) /\ Uint64 ks 2 r1 = (Ok (littleEndian b'), r2) /\
    Int63 ks 2 r1 = (Ok (littleEndian b' mod 2 ^ 63), r2) /\ 0 <= littleEndian b' < 2 ^ 64.
Proof.
  intros Hks Hs Hn [Hb Hr] E1 E2 H8. rewrite <- (Z2Nat.id bufsize) in E1 by lia.
  assert (Hb' : (64 <= Z.to_nat bufsize)%nat) by lia.
  pose proof (new_good ks rounds nonce (Z.to_nat bufsize) Hks Hr Hn Hb' seed r Hs E1) as Hg.
  destruct (performs_good ks rounds nonce (Z.to_nat bufsize) Hks Hr Hn Hb' cs r Hg) as (l2 & r2' & E3 & _ & Hg2).
  rewrite E2 in E3. injection E3 as <- <-.
  destruct (read_good ks rounds nonce (Z.to_nat bufsize) Hks Hr Hn Hb' 0 (zeros 8) r1 Hg2) as (b' & r2 & E & HL & HB & _).
  destruct (toUint64_le b' HL (HB (bytes_zeros 8))) as [_ HV].
  pose proof (uint64_read ks rounds nonce (Z.to_nat bufsize) Hks Hr Hn Hb' 0 r1 Hg2) as HU. rewrite E in HU.
  exists b', r2. split; [|split; [exact HU|split; [|exact HV]]].
  - destruct Hg2 as (key & k & t & -> & Hk & _ & _ & HL2).
    rewrite (read_overwrites ks rounds nonce Hr Hn key k t Hk 1 b (zeros 8)) by (unfold zlen in H8; change (List.length (zeros 8)) with 8%nat; lia).
    rewrite E. reflexivity.
  - unfold Int63, xbind. rewrite HU. unfold xret. now rewrite ldiff63.
Qed.
Print Assumptions C64_uint64.

(** Seed never takes effect: it panics, and the generator goes on as if it had not
    been called. *)
Theorem C64_seed ks seed (r : RNG) cs :
  exists m r', Seed seed r = (Panic m, r') /\ performs ks cs r' = performs ks cs r.
Proof. do 2 eexists. split; reflexivity. Qed.
Print Assumptions C64_seed.
(** The value of a generator. *)
Example C64_example : exists r r2, NewRNGCustom quick (zeros 32) (zeros 8) 64 12 = Ok r /\
  Uint64 quick 2 r = (Ok (littleEndian (map (quick 12 (zeros 8) (zeros 32)) (seq 32 8))), r2).
Proof. eexists _, _. split; [vm_compute; reflexivity|]. vm_compute. reflexivity. Qed.

(** ** C65: the parameters of NewRNGCustom *)
Theorem C65_new ks seed nonce bufsize rounds : zlen seed = 32 -> zlen nonce = 8 ->
  (legal bufsize rounds -> exists r, NewRNGCustom ks seed nonce bufsize rounds = Ok r /\
     unread r = map (ks rounds nonce seed) (seq 32 (Z.to_nat bufsize)) /\
     (* and reading them does not touch the cipher again *)
     forall b fuel, zlen b = bufsize -> exists r', Read ks (S fuel) b r =
       (Ok (bufsize, map (ks rounds nonce seed) (seq 32 (Z.to_nat bufsize))), r') /\ unread r' = []) /\
  (~ legal bufsize rounds -> exists e, NewRNGCustom ks seed nonce bufsize rounds = Panic e).
Proof.
  intros Hs Hn. split.
  - intros [Hb Hr]. assert (Hb' : (64 <= Z.to_nat bufsize)%nat) by lia.
    pose proof (new_ok ks rounds nonce (Z.to_nat bufsize) Hr Hn Hb' seed Hs) as E. rewrite Z2Nat.id in E by lia.
    set (t := stretch ks rounds nonce seed 32 (Z.to_nat bufsize)) in *.
    assert (Hk : zlen (stretch ks rounds nonce seed 0 32) = 32) by (unfold stretch, zlen; now rewrite map_length, seq_length).
    assert (Ht : List.length t = Z.to_nat bufsize) by (unfold t, stretch; now rewrite map_length, seq_length).
    eexists. split; [exact E|]. split; [now rewrite (unread_shaped ks)|]. intros b fuel Hbl.
    assert (Hl : List.length b = List.length t) by (unfold zlen in Hbl; lia).
    rewrite read_buffered by (assumption || lia). rewrite Hl, firstn_all, skipn_all, Hbl. eexists. split; [reflexivity|]. now rewrite (unread_shaped ks).
  - intros HN. unfold NewRNGCustom, KeySize. destruct (Z.ltb_spec bufsize (32 * 2)) as [L|L]; [eauto|].
    destruct (Z.eqb_spec rounds 8), (Z.eqb_spec rounds 12), (Z.eqb_spec rounds 20); cbn [orb negb]; eauto; exfalso; apply HN; split; lia.
Qed.
Print Assumptions C65_new.
(** NewRNGFromSeedNonce and NewRNGFromSeed: 1024 bytes of ChaCha12 with that seed
    and nonce come first. *)
Theorem C65_defaults ks seed nonce : zlen seed = 32 -> zlen nonce = 8 ->
  exists r, NewRNGFromSeedNonce ks seed nonce = Ok r /\ NewRNGFromSeed ks nonce seed = Ok r /\
    unread r = map (ks 12 nonce seed) (seq 32 (Z.to_nat 1024)).
Proof.
  intros Hs Hn. destruct (C65_new ks seed nonce 1024 12 Hs Hn) as [H _].
  destruct H as (r & E & U & _); [split; [lia|tauto]|]. exists r. split; [exact E|split; [exact E|exact U]].
Qed.
Print Assumptions C65_defaults.
Example C65_example : legal 64 8 /\ ~ legal 63 8 /\ ~ legal 1024 16.
Proof. unfold legal. lia. Qed.

(** ** C66: the previous contents of b *)
Theorem C66_contents ks seed nonce bufsize rounds cs r l r1 b :
  cipher ks -> zlen seed = 32 -> zlen nonce = 8 -> legal bufsize rounds ->
  NewRNGCustom ks seed nonce bufsize rounds = Ok r -> performs ks cs r = (Ok l, r1) ->
  (zlen b <= zlen (unread r1) + bufsize -> forall b2, zlen b2 = zlen b -> Read ks 2 b2 r1 = Read ks 2 b r1) /\
  (zlen (unread r1) + bufsize < zlen b -> exists key r2,
     Read ks 2 (zeros 32) r1 = (Ok (32, key), r2) /\
     Read ks 2 b r1 = (Ok (zlen b, xorl b (map (ks rounds nonce key) (seq 0 (List.length b)))), r2)).
Proof.
  intros Hks Hs Hn [Hb Hr] E1 E2. rewrite <- (Z2Nat.id bufsize) in E1 by lia.
  assert (Hb' : (64 <= Z.to_nat bufsize)%nat) by lia.
  pose proof (new_good ks rounds nonce (Z.to_nat bufsize) Hks Hr Hn Hb' seed r Hs E1) as Hg.
  destruct (performs_good ks rounds nonce (Z.to_nat bufsize) Hks Hr Hn Hb' cs r Hg) as (l2 & r2' & E3 & _ & Hg2).
  rewrite E2 in E3. injection E3 as <- <-. destruct Hg2 as (key & k & t & -> & Hk & _ & _ & HL).
  rewrite (unread_shaped ks) by exact Hk. split.
  - intros L b2 Hb2. unfold zlen in *. apply read_overwrites; assumption || lia.
  - intros L. destruct (read_large ks rounds nonce Hr Hn key k t Hk 0 b) as (tmp & r' & E3 & _ & E4); [unfold zlen in L; lia|lia|].
    exists tmp, r'. split; [|now rewrite E4, xorFrom_xorl].
    rewrite <- E3. apply read_fuel; [assumption..|]. change (List.length (zeros 32)) with 32%nat. lia.
Qed.
Print Assumptions C66_contents.
(** Both cases: 100 bytes of a fresh generator with a buffer of 64
    are overwritten, 200 are xored. *)
Example C66_example : exists r, NewRNGCustom quick (zeros 32) (zeros 8) 64 8 = Ok r /\
  zlen (zeros 100) <= zlen (unread r) + 64 /\ zlen (unread r) + 64 < zlen (zeros 200).
Proof. eexists. split; [vm_compute; reflexivity|]. split; vm_compute; [discriminate|reflexivity]. Qed.

(** ** C73: seeding from a reader *)
Theorem C73_from_reader {W} ks nonce (read : Z -> X W (list Z * option string)) left w fuel :
  reads read left -> zlen nonce = 8 -> (32 < fuel)%nat ->
  (32 <= zlen (left w) -> exists seed r w',
     NewRNGFromReader ks read fuel nonce w = (Ok r, w') /\
     left w = seed ++ left w' /\ zlen seed = 32 /\ NewRNGFromSeed ks nonce seed = Ok r) /\
  (zlen (left w) < 32 -> exists e w', NewRNGFromReader ks read fuel nonce w = (Panic e, w')).
Proof.
  intros HR Hn Hf. unfold NewRNGFromReader, mustRead, KeySize, xbind. split.
  - intros HL. destruct (readFull_ok read left HR fuel [] 32 w) as (d & w' & E & H1 & H2); [lia|lia|exact HL|].
    rewrite E. cbn [app fst snd]. rewrite H2. cbn [Z.eqb negb Pos.eqb]. unfold xret, lift.
    pose proof (new_ok ks 12 nonce 1024 (or_intror (or_introl eq_refl)) Hn ltac:(lia) d H2) as EN.
    unfold NewRNGFromSeed, DefaultBufSize, DefaultRounds. change (Z.of_nat 1024) with 1024 in EN. rewrite EN.
    exists d. eexists _, w'. split; [reflexivity|]. auto.
  - intros HL. destruct (readFull_short read left HR fuel [] 32 w) as (d & e & w' & E); [lia|exact HL|].
    rewrite E. cbn [snd]. unfold xpanic. eauto.
Qed.
Print Assumptions C73_from_reader.
(** A reader that gives 5 bytes at a time, and its end with the last ones. *)
Definition fives : Z -> X (list Z) (list Z * option string) := fun k l =>
  let m := Z.to_nat (Z.min k 5) in
  (Ok (firstn m l, match skipn m l with [] => Some "EOF"%string | _ => None end), skipn m l).
Example C73_example : reads fives (fun l => l) /\
  exists r w', NewRNGFromReader quick fives 33 (zeros 8) (zeros 40) = (Ok r, w') /\ zlen w' = 8.
Proof.
  split.
  - intros k w Hk. eexists _, _, _. split; [reflexivity|]. split; [symmetry; apply firstn_skipn|].
    split; [unfold zlen; rewrite firstn_length; lia|]. destruct (skipn (Z.to_nat (Z.min k 5)) w) eqn:E; [reflexivity|].
    destruct (Z.to_nat (Z.min k 5)) eqn:E5; [lia|]. destruct w; [discriminate|]. discriminate.
  - eexists _, _. split; [vm_compute; reflexivity|]. reflexivity.
Qed.
