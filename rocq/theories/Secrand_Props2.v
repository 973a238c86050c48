(** C63 for every way of cutting reads no longer than the buffer. *)
From Verif Require Import Base Arr Exn Secrand_Model Secrand_Spec Secrand_Proofs Secrand_Cut_Proofs Secrand_Props.
Local Open Scope list_scope.
Local Open Scope Z_scope.

(** The bytes that any reads give, none of them longer than the buffer: those of
    the pages, each with what was left of the one before xored into it.  How they
    are cut matters only through how far each page has been read when the read
    comes that goes beyond its end. *)
Theorem C63_exact_partial ks seed nonce bufsize rounds (bl : list (list Z)) r :
  zlen seed = 32 -> zlen nonce = 8 -> legal (Z.of_nat bufsize) rounds ->
  NewRNGCustom ks seed nonce (Z.of_nat bufsize) rounds = Ok r ->
  Forall (fun b => (List.length b <= bufsize)%nat) bl ->
  let lens := map (@List.length Z) bl in
  exists l r', performs ks (map CRead bl) r = (Ok l, r') /\
    output l = map (servedByte (page ks rounds nonce seed bufsize) bufsize (cutIn bufsize lens)) (seq 0 (list_sum lens)).
Proof.
  intros Hs Hn [Hb Hr] E HF. exact (all_reads ks rounds nonce bufsize seed bl r Hr Hn ltac:(lia) Hs E HF).
Qed.

Lemma served_ext pg lv1 lv2 i : (forall j, (j < i)%nat -> lv1 j = lv2 j) -> served pg lv1 i = served pg lv2 i.
Proof.
  induction i as [|i IH]; intros H; [reflexivity|]. cbn [served]. rewrite (H i) by lia. rewrite IH; [reflexivity|].
  intros j Hj. apply H. lia.
Qed.

(** So two ways of cutting the same number of bytes that leave every full page
    at the same place give the same bytes. *)
Theorem C63_same_cuts_partial ks seed nonce bufsize rounds (bl1 bl2 : list (list Z)) r :
  zlen seed = 32 -> zlen nonce = 8 -> legal (Z.of_nat bufsize) rounds ->
  NewRNGCustom ks seed nonce (Z.of_nat bufsize) rounds = Ok r ->
  Forall (fun b => (List.length b <= bufsize)%nat) bl1 -> Forall (fun b => (List.length b <= bufsize)%nat) bl2 ->
  let lens1 := map (@List.length Z) bl1 in let lens2 := map (@List.length Z) bl2 in
  list_sum lens1 = list_sum lens2 ->
  (forall i, (S i * bufsize < list_sum lens1)%nat -> cutIn bufsize lens1 i = cutIn bufsize lens2 i) ->
  exists l1 r1 l2 r2, performs ks (map CRead bl1) r = (Ok l1, r1) /\ performs ks (map CRead bl2) r = (Ok l2, r2) /\
    output l1 = output l2.
Proof.
  intros Hs Hn HL E HF1 HF2 lens1 lens2 HT HC.
  destruct (C63_exact_partial ks seed nonce bufsize rounds bl1 r Hs Hn HL E HF1) as (l1 & r1 & E1 & O1).
  destruct (C63_exact_partial ks seed nonce bufsize rounds bl2 r Hs Hn HL E HF2) as (l2 & r2 & E2 & O2).
  exists l1, r1, l2, r2. split; [exact E1|]. split; [exact E2|]. rewrite O1, O2.
  fold lens1 lens2. rewrite <- HT. apply map_ext_in. intros j Hj. apply in_seq in Hj. unfold servedByte. f_equal.
  apply served_ext. intros i Hi. apply HC.
  assert (0 < bufsize)%nat by (destruct HL; lia).
  pose proof (Nat.div_mod j bufsize ltac:(lia)).
  pose proof (Nat.mul_le_mono_l (S i) (j / bufsize) bufsize Hi). rewrite (Nat.mul_comm bufsize (S i)) in *. lia.
Qed.

(** Three reads that leave the first page at 30 and the second at 60. *)
Example C63_exact_example : exists r, NewRNGCustom chacha (zeros 32) (zeros 8) (Z.of_nat 64) 12 = Ok r /\
  let lens := map (@List.length Z) [zeros 30; zeros 64; zeros 30; zeros 20] in
  Forall (fun b => (List.length b <= 64)%nat) [zeros 30; zeros 64; zeros 30; zeros 20] /\
  cutIn 64 lens 0 = 30%nat /\ cutIn 64 lens 1 = 60%nat /\ list_sum lens = 144%nat.
Proof.
  eexists. split.
  - apply new_ok; [right; left; reflexivity|reflexivity|lia|reflexivity].
  - split; [repeat constructor; apply Nat.leb_le; reflexivity|]. repeat split.
Qed.
(** Different cuts that agree where it matters. *)
Example C63_same_cuts_example : let a := [30; 64; 40]%nat in let b := [10; 20; 50; 14; 40]%nat in
  list_sum a = list_sum b /\ forall i, (S i * 64 < list_sum a)%nat -> cutIn 64 a i = cutIn 64 b i.
Proof. split; [reflexivity|]. intros [|[|i]] H; [reflexivity|reflexivity|]. cbn in H. lia. Qed.
Print Assumptions C63_exact_partial. Print Assumptions C63_same_cuts_partial.
