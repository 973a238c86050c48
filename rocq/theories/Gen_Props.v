(** Properties C115 and C116: what the two generator programs write. *)
From Verif Require Import Base Arr Exn Secrand_Model Secrand_Spec Secrand_Proofs.
From Verif Require XHash_Spec XHash_Model XHash_Proofs.
From Verif Require Import Gen_Spec Gen_Model Gen_Proofs Gen_Rng_Proofs.
From Verif Require Secrand_Props.
Local Open Scope list_scope.
Local Open Scope Z_scope.

(** ** C115: xhash/diehard_gen *)
Theorem C115_output m k : List.length (hashMain m k) = (8 * k)%nat /\ Forall byte (hashMain m k) /\
  forall k', (k <= k')%nat -> exists more, hashMain m k' = hashMain m k ++ more.
Proof.
  unfold hashMain. generalize XHash_Model.NewFast64, 0. induction k as [|k IH]; intros h i.
  - split; [reflexivity|]. split; [constructor|]. intros k' _. eexists. reflexivity.
  - assert (B : forall v, Forall byte (PutUint64 v)).
    { intros v. unfold PutUint64. apply Forall_forall. intros x Hx. apply in_map_iff in Hx as (a & <- & _).
      apply Z.mod_pos_bound. reflexivity. }
    destruct m; cbn [hashLoop];
      match goal with |- context [hashLoop ?m k ?h ?i] => destruct (IH h i) as (H1 & H2 & H3) end;
      (split; [rewrite app_length, put_length, H1; lia|]; split; [now apply Forall_app|];
       intros [|k'] Hk; [lia|]; destruct (H3 k') as (more & E); [lia|]; exists more; cbn [hashLoop]; rewrite E;
       apply app_assoc).
Qed.

(** The counting modes write every 64-bit word once before they start over. *)
Theorem C115_counters : cycles (hashMain CountUint64) (2 ^ 64) /\ cycles (hashMain CountUint64Seed) (2 ^ 64).
Proof. split; apply counter_cycles; discriminate. Qed.
(** The chained mode writes some words in turn, and never enters a cycle that
    does not go back to its first word. *)
Theorem C115_chain : exists p, 0 < p <= 2 ^ 64 /\ cycles (hashMain Incr64) p.
Proof. exact incr_cycles. Qed.

Example C115_example : wordAt (hashMain CountUint64 3) 1 = XHash_Model.Uint64 1 /\
  wordAt (hashMain CountUint64Seed 3) 2 = XHash_Model.Uint64Seed 0 2 /\
  wordAt (hashMain Incr64 2) 1 = XHash_Model.Sum64 (XHash_Model.WriteUint64 XHash_Model.NewFast64 0).
Proof. repeat split; vm_compute; reflexivity. Qed.
Print Assumptions C115_output. Print Assumptions C115_counters. Print Assumptions C115_chain.

(** ** C116: secrand/dieharder_test *)

(** The seed is the number on the command line. *)
Theorem C116_seed s : zlen (seed32 s) = 32 /\ bytes (seed32 s) /\ littleEndian (seed32 s) = s mod 2 ^ 64.
Proof.
  split; [reflexivity|]. split.
  - unfold seed32. apply bytes_app; [|apply bytes_zeros]. rewrite put_le. exact (XHash_Proofs.le_bytes_byte 8 _).
  - unfold seed32. assert (A : forall a k, littleEndian (a ++ repeat 0 k) = littleEndian a).
    { induction a as [|x a IH]; intros k; cbn [app littleEndian]; [|now rewrite IH].
      induction k as [|k IHk]; cbn [repeat littleEndian]; [reflexivity|]. rewrite IHk. reflexivity. }
    rewrite A, put_le. apply (XHash_Proofs.le_le_bytes 8). apply Z.mod_pos_bound. reflexivity.
Qed.

(** Without -raw: the bytes of the generator's pages, one after the other. *)
Theorem C116_words ks nonce seed k : cipher ks -> zlen nonce = 8 ->
  rngMain ks nonce seed false k =
  Ok (map (streamByte ks DefaultRounds nonce (seed32 seed) (Z.to_nat DefaultBufSize)) (seq 0 (8 * k))).
Proof.
  intros Hks Hnc. set (bs := Z.to_nat DefaultBufSize).
  assert (Hbs : (64 <= bs)%nat) by (unfold bs, DefaultBufSize; lia).
  assert (Hrd : DefaultRounds = 8 \/ DefaultRounds = 12 \/ DefaultRounds = 20) by (right; left; reflexivity).
  unfold rngMain, NewRNGFromSeed. replace DefaultBufSize with (Z.of_nat bs) by reflexivity.
  pose proof (new_ok ks DefaultRounds nonce bs Hrd Hnc Hbs (seed32 seed) eq_refl) as E. rewrite E.
  pose proof (new_good ks DefaultRounds nonce bs Hks Hrd Hnc Hbs (seed32 seed) _ eq_refl E) as Hg.
  destruct (words_reads ks DefaultRounds nonce bs Hks Hrd Hnc Hbs k (repeat 0 499) _ Hg) as (l & r' & E1 & E2).
  rewrite E2. cbn [fst]. f_equal.
  destruct (aligned_reads ks DefaultRounds nonce bs Hrd Hnc Hbs (seed32 seed) (repeat (zeros 8) k) 0 0)
    as (l' & r2 & E3 & HO); [lia|apply (aligned8 bs Hbs k); [reflexivity|reflexivity]|].
  assert (EQ : (Ok l, r') = (Ok l', r2)) by (rewrite <- E1, <- E3; reflexivity).
  injection EQ as <- <-. rewrite HO, (sum8 bs Hbs k). reflexivity.
Qed.

(** With -raw: the same pages, each with the unread rest of the one before
    xored into it. *)
Theorem C116_raw ks nonce seed k : zlen nonce = 8 ->
  let bs := Z.to_nat DefaultBufSize in
  rngMain ks nonce seed true k =
  Ok (map (servedByte (page ks DefaultRounds nonce (seed32 seed) bs) bs (leave bs 499)) (seq 0 (499 * k))).
Proof.
  intros Hnc bs.
  assert (Hbs : (64 <= bs)%nat) by (unfold bs, DefaultBufSize; lia).
  assert (Hd : (0 < 499 <= bs)%nat) by (unfold bs, DefaultBufSize; lia).
  assert (Hrd : DefaultRounds = 8 \/ DefaultRounds = 12 \/ DefaultRounds = 20) by (right; left; reflexivity).
  unfold rngMain, NewRNGFromSeed. replace DefaultBufSize with (Z.of_nat bs) by reflexivity.
  pose proof (new_ok ks DefaultRounds nonce bs Hrd Hnc Hbs (seed32 seed) eq_refl) as E. rewrite E.
  destruct (raw_loop ks DefaultRounds nonce bs Hrd Hnc Hbs (seed32 seed) 499 Hd k 0 0 0 (repeat 0 499))
    as (s & E2); [lia|reflexivity|apply repeat_length|].
  change (Z.to_nat DefaultBufSize) with bs. etransitivity; [exact (f_equal fst E2)|].
  cbn [fst]. do 3 f_equal. apply Nat.mul_comm.
Qed.

(** The two outputs agree up to byte 2022; the 26 bytes after that differ by the
    26 bytes that were left of the first page. *)
Theorem C116_agreement ks nonce seed j : let bs := Z.to_nat DefaultBufSize in
  let raw := servedByte (page ks DefaultRounds nonce (seed32 seed) bs) bs (leave bs 499) in
  let word := streamByte ks DefaultRounds nonce (seed32 seed) bs in
  ((j < 2022)%nat -> raw j = word j) /\
  ((2022 <= j < 2048)%nat -> raw j = Z.lxor (word j) (word (j - 1024)%nat)).
Proof.
  intros bs raw word.
  destruct (first_pages (page ks DefaultRounds nonce (seed32 seed) bs) bs 499 j) as (H1 & H2).
  { intros i. apply length_page. }
  { apply Nat.ltb_lt. vm_compute. reflexivity. }
  replace (bs + leave bs 499 0)%nat with 2022%nat in H1, H2 by (vm_compute; reflexivity).
  replace (bs + bs)%nat with 2048%nat in H2 by (vm_compute; reflexivity).
  split; [exact H1|]. intros Hj. replace 1024%nat with bs by (vm_compute; reflexivity). exact (H2 Hj).
Qed.

Example C116_example : cipher chacha /\ zlen (zeros 8) = 8 /\
  (leave (Z.to_nat DefaultBufSize) 499 0, leave (Z.to_nat DefaultBufSize) 499 1) = (998%nat, 972%nat).
Proof. split; [exact Secrand_Props.chacha_cipher|]. split; [reflexivity|]. vm_compute. reflexivity. Qed.
Print Assumptions C116_seed. Print Assumptions C116_words. Print Assumptions C116_raw. Print Assumptions C116_agreement.
