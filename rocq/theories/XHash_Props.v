(** Properties of xhash (C56-C60). *)
From Verif Require Import Base XHash_Spec XHash_Model XHash_Proofs.

(** C56. *)
Theorem C56_uint64_bijective : bijective_on_words Uint64.
Proof. exact Uint64_bij. Qed.

(** C57. *)
Theorem C57_seed_injective :
  (forall seed, is_word seed -> bijective_on_words (fun v => Uint64Seed v seed)) /\
  (forall v, is_word v -> bijective_on_words (fun seed => Uint64Seed v seed)).
Proof.
  split; [intros; apply Uint64Seed_bij_v|exact Uint64Seed_bij_seed].
Qed.

(** Two sequences written to fresh (or equal) hashers, of the same length and
    differing in exactly one word. *)
Theorem C57_one_word_differs :
  forall (before after : list Z) (x y h : Z),
  Forall is_word before -> Forall is_word after -> is_word x -> is_word y -> is_word h ->
  x <> y ->
  Sum64 (fold_left WriteUint64 (before ++ x :: after) h) <>
  Sum64 (fold_left WriteUint64 (before ++ y :: after) h).
Proof.
  intros before after x y h Hb Ha Hx Hy Hh Hne E.
  rewrite !fold_left_app in E. cbn [fold_left] in E.
  pose proof (fold_word before h Hb Hh) as Hw. set (s := fold_left WriteUint64 before h) in *.
  assert (Hwx : is_word (WriteUint64 s x)) by now apply write_word.
  assert (Hwy : is_word (WriteUint64 s y)) by now apply write_word.
  destruct Uint64_bij as (_ & Hi & _). apply Hi in E; try (apply fold_word; assumption).
  apply fold_inj in E; try assumption.
  destruct (Uint64Seed_bij_v s) as (_ & Hv & _). apply Hne. apply Hv; assumption.
Qed.

(** Hashers in different states stay different whatever equal words follow. *)
Theorem C57_states_stay_apart :
  forall (vs : list Z) (h h' : Z), Forall is_word vs -> is_word h -> is_word h' -> h <> h' ->
  Sum64 (fold_left WriteUint64 vs h) <> Sum64 (fold_left WriteUint64 vs h').
Proof.
  intros vs h h' Hvs Hh Hh' Hne E. destruct Uint64_bij as (_ & Hi & _).
  apply Hi in E; try (apply fold_word; assumption). apply fold_inj in E; auto.
Qed.

Example C57_nonvacuous : is_word NewFast64 /\ Forall is_word [1; 2 ^ 64 - 1].
Proof.
  split; [split; vm_compute; congruence|].
  constructor; [split; vm_compute; congruence|constructor; [split; vm_compute; congruence|constructor]].
Qed.

(** C58.  A slice: bytes up to its capacity, and a length within it. *)
Definition slice_ok (p : bytes) : Prop :=
  Forall is_byte (mem p) /\ 0 <= blen p <= zlen (mem p).
Definition visible (p : bytes) : list Z := firstn (Z.to_nat (blen p)) (mem p).

Definition write_claim (p : bytes) : Prop :=
  forall h, is_word h ->
  exists h', Write h p = Ok (h', blen p) /\
    forall p', slice_ok p' -> visible p' = visible p -> exists n, Write h p' = Ok (h', n).

(** Refuted as stated: a 1-byte slice of capacity 1 panics. *)
Theorem C58_write_refuted :
  (exists p, slice_ok p /\ ~ write_claim p) /\
  (exists p h m, slice_ok p /\ is_word h /\ Write h p = Panic m) /\
  (exists p p' h, slice_ok p /\ slice_ok p' /\ is_word h /\ visible p = visible p' /\
     exists a b, Write h p = Ok (a, 8) /\ Write h p' = Ok (b, 8) /\ a <> b /\ blen p = 1).
Proof.
  assert (B : forall l, forallb (fun x => (0 <=? x) && (x <? 256)) l = true -> Forall is_byte l).
  { intros l H. rewrite forallb_forall in H. apply Forall_forall. intros x Hx.
    specialize (H x Hx). unfold is_byte. lia. }
  assert (P1 : slice_ok {| mem := [7]; blen := 1 |}).
  { split; [apply B; reflexivity|cbn; lia]. }
  assert (W : is_word 0) by (split; vm_compute; congruence).
  assert (E1 : Write 0 {| mem := [7]; blen := 1 |} = Panic "slice bounds out of range") by reflexivity.
  split; [|split].
  - exists {| mem := [7]; blen := 1 |}. split; [assumption|]. intros H.
    destruct (H 0 W) as (h' & E & _). congruence.
  - exists {| mem := [7]; blen := 1 |}, 0. eauto.
  - exists {| mem := [7; 0; 0; 0; 0; 0; 0; 0]; blen := 1 |}, {| mem := [7; 1; 0; 0; 0; 0; 0; 0]; blen := 1 |}, 0.
    split; [split; [apply B; reflexivity|cbn; lia]|].
    split; [split; [apply B; reflexivity|cbn; lia]|]. split; [assumption|]. split; [reflexivity|].
    eexists _, _. split; [vm_compute; reflexivity|]. split; [vm_compute; reflexivity|].
    split; [congruence|reflexivity].
Qed.

(** Proved for lengths that are multiples of 8. *)
Theorem C58_write_partial :
  forall p, slice_ok p -> blen p mod 8 = 0 -> write_claim p.
Proof.
  intros p [Hb Hl] Hm h Hh.
  assert (Hn : 8 * nblocks (blen p) = blen p).
  { unfold nblocks. pose proof (Z.div_mod (blen p) 8 ltac:(lia)) as D. rewrite Hm in D.
    replace ((blen p + 7) / 8) with (blen p / 8); [lia|].
    rewrite D at 2. replace (8 * (blen p / 8) + 0 + 7) with (7 + blen p / 8 * 8) by lia.
    rewrite Z.div_add by lia. reflexivity. }
  eexists. split.
  - rewrite Write_ok by (auto; lia). rewrite Hn. reflexivity.
  - intros p' [Hb' Hl'] Hv.
    assert (Hlen : blen p' = blen p).
    { apply (f_equal (@List.length Z)) in Hv. unfold visible in Hv. rewrite !firstn_length in Hv.
      unfold zlen in *. lia. }
    rewrite Write_ok by (auto; rewrite Hlen; lia).
    rewrite Hlen, Hn. eexists. do 3 f_equal.
    rewrite <- (words_firstn _ (Z.to_nat (blen p)) (mem p')) by lia.
    rewrite <- (words_firstn _ (Z.to_nat (blen p)) (mem p)) by lia.
    f_equal. unfold visible in Hv. rewrite Hlen in Hv. exact Hv.
Qed.

(** What Write does for every slice: it needs 8 * ceil(len/8) bytes of capacity,
    hashes the length and then that many bytes (past the length), and returns
    that number; with less capacity it panics. *)
Theorem C58_write_exactly :
  forall h p, slice_ok p ->
  let need := 8 * ((blen p + 7) / 8) in
  (need <= zlen (mem p) ->
     Write h p = Ok (fold_left WriteUint64 (words (Z.to_nat (need / 8)) (mem p))
                       (WriteUint64 h (blen p mod 2 ^ 64)), need)) /\
  (zlen (mem p) < need -> exists m, Write h p = Panic m).
Proof.
  intros h p [Hb Hl] need. split; intros Hc.
  - rewrite Write_ok by (auto; unfold nblocks; lia). unfold need, nblocks.
    replace (8 * ((blen p + 7) / 8) / 8) with ((blen p + 7) / 8); [reflexivity|].
    rewrite Z.mul_comm, Z.div_mul; lia.
  - destruct (writeLoop_panics p Hb ltac:(lia) (S (Z.to_nat (blen p)))
      (WriteUint64 h (u64 (blen p))) 0) as [m E].
    + rewrite Z.sub_0_r. lia.
    + lia.
    + rewrite Z.sub_0_r. unfold need in Hc. lia.
    + lia.
    + exists m. unfold Write. rewrite E. reflexivity.
Qed.

(** Consequence: for whole-block inputs, changing one block changes the hash. *)
Theorem C58_block_differs :
  forall h before after x y,
  is_word h -> Forall is_byte before -> Forall is_byte after -> Forall is_byte x -> Forall is_byte y ->
  zlen before mod 8 = 0 -> zlen after mod 8 = 0 -> zlen x = 8 -> zlen y = 8 -> x <> y ->
  exists a b n,
    Write h {| mem := before ++ x ++ after; blen := zlen (before ++ x ++ after) |} = Ok (a, n) /\
    Write h {| mem := before ++ y ++ after; blen := zlen (before ++ y ++ after) |} = Ok (b, n) /\
    Sum64 a <> Sum64 b.
Proof.
  intros h before after x y Hh Hb Ha Hx Hy Lb La Lx Ly Hne.
  assert (Dv : forall z, zlen z = 8 -> 8 * nblocks (zlen (before ++ z ++ after)) = zlen (before ++ z ++ after)).
  { intros z Lz. unfold zlen in *. rewrite !app_length, !Nat2Z.inj_add. unfold nblocks.
    pose proof (Z.div_mod (Z.of_nat (List.length before)) 8 ltac:(lia)).
    pose proof (Z.div_mod (Z.of_nat (List.length after)) 8 ltac:(lia)).
    set (q := Z.of_nat (List.length before) / 8) in *. set (r := Z.of_nat (List.length after) / 8) in *.
    replace (Z.of_nat (List.length before) + (Z.of_nat (List.length z) + Z.of_nat (List.length after)) + 7)
      with (7 + (q + 1 + r) * 8) by lia. rewrite Z.div_add by lia. change (7 / 8) with 0. lia. }
  assert (Lxy : zlen (before ++ x ++ after) = zlen (before ++ y ++ after)).
  { unfold zlen in *. rewrite !app_length. lia. }
  rewrite !Write_ok; cbn [mem blen]; rewrite ?Dv; auto;
    try (repeat (apply Forall_app; split); assumption); try (unfold zlen; lia).
  eexists _, _, _. split; [reflexivity|]. split; [now rewrite Lxy|].
  rewrite Lxy. set (n := Z.to_nat (nblocks (zlen (before ++ y ++ after)))).
  assert (Wd : forall z, zlen z = 8 -> words n (before ++ z ++ after) =
     words (Z.to_nat (zlen before / 8)) before ++ le z :: words (Z.to_nat (zlen after / 8)) after).
  { intros z Lz. apply words_split; auto. unfold n.
    pose proof (Dv y Ly) as D. unfold zlen in *. rewrite !app_length in *. lia. }
  rewrite !Wd by assumption. apply C57_one_word_differs; auto using words_word.
  - apply le_word8; auto. unfold zlen in *. lia.
  - apply le_word8; auto. unfold zlen in *. lia.
  - apply write_word; auto. apply is_word_u64.
  - intros E. apply Hne. apply le_inj; auto. unfold zlen in *. lia.
Qed.

(** C59. *)
Theorem C59_roundtrip :
  (forall v, is_word v -> toUint64 (putUint64 v) = Ok v) /\
  (forall b, List.length b = 8%nat -> Forall is_byte b -> exists v, toUint64 b = Ok v /\ putUint64 v = b) /\
  (forall h b, Sum h b = b ++ le_bytes 8 (Sum64 h)).
Proof.
  split; [exact roundtrip|split].
  - intros b Hl Hb. exists (le b). split; [now apply toUint64_le|].
    rewrite putUint64_le, <- Hl. now apply le_bytes_le.
  - intros h b. unfold Sum. now rewrite putUint64_le.
Qed.

(** C60. *)
Theorem C60_is_xxh3 :
  forall v seed, is_word v -> is_word seed ->
  Uint64Seed v seed = XXH3_len_4to8 (halves v) seed /\
  Uint64 v = XXH3_len_4to8 (halves v) 0.
Proof.
  intros v seed Hv Hs. split; [now apply Uint64Seed_spec|].
  rewrite Uint64_seed0. apply Uint64Seed_spec; [assumption|]. split; vm_compute; congruence.
Qed.

Example C60_halves : halves 0x1122334455667788 = [0x44; 0x33; 0x22; 0x11; 0x88; 0x77; 0x66; 0x55].
Proof. reflexivity. Qed.

Print Assumptions C56_uint64_bijective.
Print Assumptions C57_seed_injective.
Print Assumptions C57_one_word_differs.
Print Assumptions C57_states_stay_apart.
Print Assumptions C58_write_refuted.
Print Assumptions C58_write_partial.
Print Assumptions C58_write_exactly.
Print Assumptions C58_block_differs.
Print Assumptions C59_roundtrip.
Print Assumptions C60_is_xxh3.
