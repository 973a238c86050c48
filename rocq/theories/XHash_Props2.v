(** The hash.Hash64 contract of Incremental64 (C95). *)
From Verif Require Import Base XHash_Spec XHash_Model XHash_Proofs XHash_Props.

(** A slice of whole 8-byte blocks. *)
Definition whole_blocks (p : bytes) : Prop := slice_ok p /\ blen p mod 8 = 0.

(** The sum after a list of Write calls depends only on the bytes written, not
    on where they are cut. *)
Definition cuts_do_not_matter (h : Z) : Prop :=
  forall ps qs, Forall whole_blocks ps -> Forall whole_blocks qs ->
  List.concat (map visible ps) = List.concat (map visible qs) ->
  exists a b, Writes h ps = Ok a /\ Writes h qs = Ok b /\ Sum64 a = Sum64 b.

Lemma visible_len p : slice_ok p -> zlen (visible p) = blen p.
Proof.
  intros [_ H]. unfold visible, zlen in *. rewrite firstn_length. lia.
Qed.

Lemma visible_bytes p : slice_ok p -> Forall is_byte (visible p).
Proof. intros [H _]. now apply Forall_firstn. Qed.

(** The words one Write feeds, and those of several. *)
Definition fed (b : list Z) : list Z := zlen b mod 2 ^ 64 :: words (Z.to_nat (zlen b / 8)) b.

Lemma write_fed h p : is_word h -> whole_blocks p ->
  Write h p = Ok (fold_left WriteUint64 (fed (visible p)) h, blen p).
Proof.
  intros Hh [Hs Hm]. pose proof Hs as [Hb Hl].
  destruct (C58_write_exactly h p Hs) as [H _].
  assert (D : (blen p + 7) / 8 = blen p / 8).
  { pose proof (Z.div_mod (blen p) 8 ltac:(lia)) as D. rewrite Hm in D.
    rewrite D at 1. replace (8 * (blen p / 8) + 0 + 7) with (7 + blen p / 8 * 8) by lia.
    rewrite Z.div_add by lia. reflexivity. }
  pose proof (Z.div_mod (blen p) 8 ltac:(lia)) as D2. rewrite Hm in D2.
  rewrite D in H. replace (8 * (blen p / 8)) with (blen p) in H by lia.
  rewrite H by lia. unfold fed. rewrite visible_len by assumption. cbn [fold_left].
  do 3 f_equal. unfold visible. symmetry. apply words_firstn.
  assert (8 * Z.to_nat (blen p / 8) = Z.to_nat (blen p))%nat by lia. lia.
Qed.

Lemma fed_words b : Forall is_byte b -> Forall is_word (fed b).
Proof. intros H. constructor; [apply is_word_u64|now apply words_word]. Qed.

Lemma writes_fed : forall ps h, is_word h -> Forall whole_blocks ps ->
  Writes h ps = Ok (fold_left WriteUint64 (flat_map fed (map visible ps)) h).
Proof.
  induction ps as [|p ps IH]; intros h Hh H; [reflexivity|].
  inversion H as [|? ? Hp Hps]; subst. cbn [Writes map flat_map].
  rewrite write_fed by assumption. cbn [bind]. rewrite fold_left_app. apply IH; [|assumption].
  apply fold_word; [|assumption]. apply fed_words. apply visible_bytes. apply Hp.
Qed.

Lemma all_fed_words ps : Forall whole_blocks ps -> Forall is_word (flat_map fed (map visible ps)).
Proof.
  induction 1 as [|p ps Hp H IH]; cbn; [constructor|].
  constructor; [apply is_word_u64|]. apply Forall_app. split; [|assumption].
  apply words_word. apply visible_bytes. apply Hp.
Qed.

Lemma all_bytes l : forallb (fun x => (0 <=? x) && (x <? 256)) l = true -> Forall is_byte l.
Proof.
  intros H. rewrite forallb_forall in H. apply Forall_forall. intros x Hx.
  specialize (H x Hx). unfold is_byte. lia.
Qed.

Lemma new_word : is_word NewFast64.
Proof. split; vm_compute; congruence. Qed.

(** C95, refuted: a Write of no bytes before any other writes of whole blocks
    changes the sum, always. *)
Theorem C95_cuts_refuted :
  ~ cuts_do_not_matter NewFast64 /\
  (forall nothing ps, whole_blocks nothing -> blen nothing = 0 -> Forall whole_blocks ps ->
     exists a b, Writes NewFast64 ps = Ok a /\ Writes NewFast64 (nothing :: ps) = Ok b /\
                 List.concat (map visible (nothing :: ps)) = List.concat (map visible ps) /\
                 Sum64 a <> Sum64 b).
Proof.
  assert (K : forall nothing ps, whole_blocks nothing -> blen nothing = 0 -> Forall whole_blocks ps ->
     exists a b, Writes NewFast64 ps = Ok a /\ Writes NewFast64 (nothing :: ps) = Ok b /\
                 List.concat (map visible (nothing :: ps)) = List.concat (map visible ps) /\
                 Sum64 a <> Sum64 b).
  { intros z ps Hz Lz H. rewrite !writes_fed; auto using new_word.
    eexists _, _. split; [reflexivity|]. split; [reflexivity|].
    assert (V : visible z = []) by (unfold visible; now rewrite Lz).
    cbn [map flat_map List.concat]. rewrite V. split; [reflexivity|].
    rewrite fold_left_app. apply C57_states_stay_apart.
    - now apply all_fed_words.
    - apply new_word.
    - apply fold_word; [|apply new_word]. apply fed_words. constructor.
    - vm_compute. congruence. }
  split; [|exact K]. intros H.
  pose (z := {| mem := []; blen := 0 |}).
  assert (Z0 : whole_blocks z) by (split; [split; [constructor|vm_compute; intuition congruence]|reflexivity]).
  destruct (K z [] Z0 eq_refl (Forall_nil _)) as (a & b & Ea & Eb & _ & N).
  destruct (H [] [z] (Forall_nil _) ltac:(auto) eq_refl) as (a' & b' & Ea' & Eb' & E).
  congruence.
Qed.

(** Also when no write is empty: 16 bytes at once or as two blocks. *)
Theorem C95_two_blocks_refuted :
  exists x y, zlen x = 8 /\ zlen y = 8 /\ Forall is_byte (x ++ y) /\
  exists a b,
    Writes NewFast64 [ {| mem := x ++ y; blen := 16 |} ] = Ok a /\
    Writes NewFast64 [ {| mem := x; blen := 8 |}; {| mem := y; blen := 8 |} ] = Ok b /\
    Sum64 a <> Sum64 b.
Proof.
  exists [1; 2; 3; 4; 5; 6; 7; 8], [9; 10; 11; 12; 13; 14; 15; 16].
  split; [reflexivity|]. split; [reflexivity|].
  split; [now apply all_bytes|].
  eexists _, _. split; [vm_compute; reflexivity|]. split; [vm_compute; reflexivity|].
  vm_compute. congruence.
Qed.

(** What holds: with the same cuts (whole blocks each) the sum depends only on
    the bytes written, and a change of one block in one of the writes changes it. *)
Theorem C95_same_cuts_partial :
  (forall h ps qs, is_word h -> Forall whole_blocks ps -> Forall whole_blocks qs ->
     map visible ps = map visible qs ->
     exists a, Writes h ps = Ok a /\ Writes h qs = Ok a) /\
  (forall h ps p q rest before after x y,
     is_word h -> Forall whole_blocks ps -> Forall whole_blocks rest ->
     whole_blocks p -> whole_blocks q ->
     visible p = before ++ x ++ after -> visible q = before ++ y ++ after ->
     zlen before mod 8 = 0 -> zlen x = 8 -> zlen y = 8 -> x <> y ->
     exists a b, Writes h (ps ++ p :: rest) = Ok a /\ Writes h (ps ++ q :: rest) = Ok b /\
                 Sum64 a <> Sum64 b).
Proof.
  split.
  - intros h ps qs Hh Hp Hq E. rewrite !writes_fed by assumption. rewrite E. eauto.
  - intros h ps p q rest before after x y Hh Hps Hr Hp Hq Ep Eq Lb Lx Ly Hne.
    assert (Bp : Forall is_byte (before ++ x ++ after)) by (rewrite <- Ep; apply visible_bytes, Hp).
    assert (Bq : Forall is_byte (before ++ y ++ after)) by (rewrite <- Eq; apply visible_bytes, Hq).
    apply Forall_app in Bp. destruct Bp as [Bb Bp]. apply Forall_app in Bp. destruct Bp as [Bx Ba].
    apply Forall_app in Bq. destruct Bq as [_ Bq]. apply Forall_app in Bq. destruct Bq as [By _].
    assert (Lv : zlen (visible p) mod 8 = 0) by (rewrite visible_len by apply Hp; apply Hp).
    assert (La : zlen after mod 8 = 0).
    { rewrite Ep in Lv. unfold zlen in *. rewrite !app_length, !Nat2Z.inj_add in Lv.
      pose proof (Z.div_mod (Z.of_nat (List.length before)) 8 ltac:(lia)).
      rewrite Lx in Lv.
      replace (Z.of_nat (List.length before) + (8 + Z.of_nat (List.length after)))
        with (Z.of_nat (List.length after) + (Z.of_nat (List.length before) / 8 + 1) * 8) in Lv by lia.
      now rewrite Z.mod_add in Lv by lia. }
    rewrite !writes_fed; try assumption; try (apply Forall_app; split; [assumption|now constructor]).
    eexists _, _. split; [reflexivity|]. split; [reflexivity|].
    rewrite !map_app, !flat_map_app. cbn [map flat_map]. unfold fed at 2 5. rewrite Ep, Eq.
    assert (Lxy : zlen (before ++ x ++ after) = zlen (before ++ y ++ after)).
    { unfold zlen in *. rewrite !app_length. lia. }
    rewrite <- Lxy. set (n := Z.to_nat (zlen (before ++ x ++ after) / 8)).
    assert (Wd : forall z, zlen z = 8 -> words n (before ++ z ++ after) =
       words (Z.to_nat (zlen before / 8)) before ++ le z :: words (Z.to_nat (zlen after / 8)) after).
    { intros z Lz. apply words_split; auto. unfold n. unfold zlen in *.
      rewrite !app_length, !Nat2Z.inj_add in *. rewrite Lx.
      pose proof (Z.div_mod (Z.of_nat (List.length before)) 8 ltac:(lia)).
      pose proof (Z.div_mod (Z.of_nat (List.length after)) 8 ltac:(lia)).
      pose proof (Z.div_mod (Z.of_nat (List.length before) + (8 + Z.of_nat (List.length after))) 8 ltac:(lia)).
      replace (Z.of_nat (List.length before) + (8 + Z.of_nat (List.length after)))
        with ((Z.of_nat (List.length before) / 8 + 1 + Z.of_nat (List.length after) / 8) * 8) by lia.
      rewrite Z.div_mul by lia. lia. }
    rewrite !Wd by assumption.
    set (P0 := flat_map fed (map visible ps)). set (R0 := flat_map fed (map visible rest)).
    set (L0 := zlen (before ++ x ++ after) mod 2 ^ 64).
    set (W1 := words (Z.to_nat (zlen before / 8)) before). set (W2 := words (Z.to_nat (zlen after / 8)) after).
    replace (P0 ++ (L0 :: W1 ++ le x :: W2) ++ R0) with ((P0 ++ L0 :: W1) ++ le x :: (W2 ++ R0))
      by (rewrite <- !app_assoc; cbn; rewrite <- !app_assoc; reflexivity).
    replace (P0 ++ (L0 :: W1 ++ le y :: W2) ++ R0) with ((P0 ++ L0 :: W1) ++ le y :: (W2 ++ R0))
      by (rewrite <- !app_assoc; cbn; rewrite <- !app_assoc; reflexivity).
    apply C57_one_word_differs; auto.
    + apply Forall_app. split; [now apply all_fed_words|]. constructor; [apply is_word_u64|now apply words_word].
    + apply Forall_app. split; [now apply words_word|now apply all_fed_words].
    + apply le_word8; auto. unfold zlen in *. lia.
    + apply le_word8; auto. unfold zlen in *. lia.
    + intros E. apply Hne. apply le_inj; auto. unfold zlen in *. lia.
Qed.

Lemma blocksize_writes h m : Forall is_byte m ->
  (exists r, Write h {| mem := m; blen := zlen m |} = Ok r) <-> zlen m mod BlockSize = 0.
Proof.
  intros B. unfold BlockSize.
  destruct (C58_write_exactly h {| mem := m; blen := zlen m |}) as [Y N].
  { split; cbn; [assumption|unfold zlen; lia]. }
  cbn [mem blen] in Y, N.
  pose proof (Z.div_mod (zlen m) 8 ltac:(lia)) as D. pose proof (Z.mod_pos_bound (zlen m) 8 ltac:(lia)) as M.
  assert (Q : (zlen m + 7) / 8 = zlen m / 8 + (if zlen m mod 8 =? 0 then 0 else 1)).
  { destruct (Z.eqb_spec (zlen m mod 8) 0);
      [symmetry; apply (Z.div_unique _ 8 _ 7)|symmetry; apply (Z.div_unique _ 8 _ (zlen m mod 8 - 1))]; lia. }
  rewrite Q in Y, N. split.
  - intros [r R]. destruct (Z.eqb_spec (zlen m mod 8) 0) as [|E]; [assumption|].
    destruct (N ltac:(lia)) as [msg P]. congruence.
  - intros E. rewrite E in *. cbn [Z.eqb] in *. eexists. apply Y. lia.
Qed.

(** Sum appends Size() bytes, from which the sum is read back; hashers in
    different states have different sums; after Reset a hasher does what a new
    one does. *)
Theorem C95_sum_partial :
  (forall h b, is_word h ->
     exists tail, Sum h b = b ++ tail /\ zlen tail = Size /\ Forall is_byte tail /\ le tail = Sum64 h) /\
  (forall h h' b, is_word h -> is_word h' -> h <> h' -> Sum h b <> Sum h' b) /\
  (forall h ps, Writes (Reset h) ps = Writes NewFast64 ps) /\
  (* BlockSize: a slice without spare capacity can be written iff it consists of whole blocks *)
  (forall h m, Forall is_byte m ->
     (exists r, Write h {| mem := m; blen := zlen m |} = Ok r) <-> zlen m mod BlockSize = 0).
Proof.
  assert (T : forall h b, is_word h ->
     exists tail, Sum h b = b ++ tail /\ zlen tail = Size /\ Forall is_byte tail /\ le tail = Sum64 h).
  { intros h b Hh. exists (le_bytes 8 (Sum64 h)). split; [unfold Sum; now rewrite putUint64_le|].
    split; [reflexivity|]. split; [apply le_bytes_byte|].
    apply le_le_bytes. destruct Uint64_bij as (Hw & _). exact (Hw h Hh). }
  split; [exact T|]. split; [|split; [reflexivity|exact blocksize_writes]].
  intros h h' b Hh Hh' Hne E.
  destruct (T h b Hh) as (t & E1 & _ & _ & L1). destruct (T h' b Hh') as (t' & E2 & _ & _ & L2).
  rewrite E1, E2 in E. apply app_inv_head in E. subst t'.
  apply Hne. destruct Uint64_bij as (_ & Hi & _). apply Hi; auto. unfold Sum64 in *. congruence.
Qed.

Example C95_nonvacuous :
  whole_blocks {| mem := [1; 2; 3; 4; 5; 6; 7; 8; 9]; blen := 8 |} /\
  whole_blocks {| mem := []; blen := 0 |} /\
  [1; 2; 3; 4; 5; 6; 7; 8] <> [1; 2; 3; 4; 5; 6; 7; 9].
Proof.
  split; [|split; [|congruence]].
  - split; [split; [now apply all_bytes|vm_compute; intuition congruence]|reflexivity].
  - split; [split; [constructor|vm_compute; intuition congruence]|reflexivity].
Qed.

Print Assumptions C95_cuts_refuted.
Print Assumptions C95_two_blocks_refuted.
Print Assumptions C95_same_cuts_partial.
Print Assumptions C95_sum_partial.
