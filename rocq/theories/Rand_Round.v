(** C79: Float64 and Float32 round to the nearest float. *)
From Verif Require Import Base Exn Rand_Model Rand_Spec Rand_Read.
Local Open Scope Z_scope.

(** No number of [p] bits lies between two neighbours. *)
Lemma no_between p k q g : 0 < p -> 0 <= k -> 2 ^ (p - 1) <= q -> significant p g ->
  g <= q * 2 ^ k \/ (q + 1) * 2 ^ k <= g.
Proof.
  intros Hp Hk Hq (m & e & He & Hm & ->).
  destruct (Z.le_gt_cases k e) as [L|L].
  - assert (Hd : 2 ^ e = 2 ^ (e - k) * 2 ^ k) by (rewrite <- Z.pow_add_r by lia; f_equal; lia).
    rewrite Hd, Z.mul_assoc. pose proof (Z.pow_pos_nonneg 2 k ltac:(lia) Hk).
    destruct (Z.le_gt_cases (m * 2 ^ (e - k)) q); [left|right]; apply Z.mul_le_mono_nonneg_r; lia.
  - left. apply Z.le_trans with (2 ^ p * 2 ^ e); [apply Z.mul_le_mono_nonneg_r; [apply Z.pow_nonneg|]; lia|].
    apply Z.le_trans with (2 ^ (p - 1) * 2 ^ k); [|apply Z.mul_le_mono_nonneg_r; [apply Z.pow_nonneg|]; lia].
    rewrite <- !Z.pow_add_r by lia. apply Z.pow_le_mono_r; lia.
Qed.

Lemma round_nearest p x : 1 < p -> 0 <= x < 2 ^ 63 -> nearest p x (round p x).
Proof.
  intros Hp Hx. split; [apply round_spec; lia|]. intros g Hg.
  destruct (Z.eq_dec x 0) as [->|N].
  { assert (round p 0 = 0) as ->; [|lia].
    unfold round. rewrite (proj2 (Z.leb_le _ _)) by (change (Z.log2 0) with 0; lia). reflexivity. }
  pose proof (Z.log2_spec x ltac:(lia)) as HL. pose proof (Z.log2_nonneg x) as H0.
  unfold round. destruct (Z.leb_spec (Z.log2 x + 1 - p) 0) as [E|E]; [lia|].
  set (k := Z.log2 x + 1 - p) in *. set (q := x / 2 ^ k).
  assert (Hk : 2 ^ k = 2 * 2 ^ (k - 1)) by (rewrite <- Z.pow_succ_r by lia; f_equal; lia).
  assert (Hk1 : 0 < 2 ^ (k - 1)) by (apply Z.pow_pos_nonneg; lia).
  pose proof (Z.div_mod x (2 ^ k) ltac:(lia)) as HD. pose proof (Z.mod_pos_bound x (2 ^ k) ltac:(lia)) as HR.
  fold q in HD. set (r := x mod 2 ^ k) in *.
  assert (Hq : 2 ^ (p - 1) <= q < 2 ^ p).
  { split.
    - apply Z.div_le_lower_bound; [lia|]. rewrite <- Z.pow_add_r by lia.
      replace (k + (p - 1)) with (Z.log2 x) by lia. lia.
    - apply Z.div_lt_upper_bound; [lia|]. rewrite <- Z.pow_add_r by lia.
      replace (k + p) with (Z.succ (Z.log2 x)) by lia. lia. }
  assert (Hp1 : 2 ^ p = 2 * 2 ^ (p - 1)) by (rewrite <- Z.pow_succ_r by lia; f_equal; lia).
  assert (Hp2 : 1 < 2 ^ (p - 1)) by (apply Z.pow_gt_1; lia).
  assert (HE : forall m, 0 <= m <= 2 ^ (p - 1) -> significant (p - 1) (2 * m * 2 ^ k)).
  { intros m Hm. destruct (Z.eq_dec m (2 ^ (p - 1))) as [->|Nm].
    - exists 1, (p + k). split; [lia|]. split; [lia|]. rewrite <- Hp1, Z.pow_add_r by lia. lia.
    - exists m, (k + 1). split; [lia|]. split; [lia|]. rewrite Z.pow_add_r by lia. lia. }
  pose proof (no_between p k q g ltac:(lia) ltac:(lia) ltac:(lia) Hg) as HB.
  assert (Hx' : x = q * 2 ^ k + r) by lia.
  assert (Hn : (q + 1) * 2 ^ k = q * 2 ^ k + 2 ^ k) by ring.
  clearbody r q k. clear Hx HL HD N H0. subst x.
  generalize dependent (2 ^ (k - 1)). intros h Hk Hk1.
  destruct (Z.ltb_spec r h); [|destruct (Z.ltb_spec h r)].
  - generalize dependent (q * 2 ^ k). intros Q HB Hn. split; [lia|]. intros Et. left. lia.
  - generalize dependent ((q + 1) * 2 ^ k). intros Q HB Hn. generalize dependent (q * 2 ^ k). intros Q' HB Hn. split; [lia|]. intros Et. left. lia.
  - assert (r = h) as -> by lia. destruct (Z.even q) eqn:Eq.
    + apply Z.even_spec in Eq. destruct Eq as [m ->]. split; [lia|]. intros _. right. apply HE. lia.
    + assert (exists m, q + 1 = 2 * m) as [m Em].
      { apply Z.even_spec. rewrite Z.even_add, Eq. reflexivity. }
      split; [lia|]. intros _. right. rewrite Em. apply HE. lia.
Qed.

Section Floats.
  Context {st : Type} (src : st -> Z * st) (HW : words63 src).

  Lemma Float64_word fuel : forall s f s', Float64 src fuel s = (Ok f, s') ->
    exists i, (i <= fuel)%nat /\ nearest 53 (word src i s) f /\
      (forall j, (j < i)%nat -> nearest 53 (word src j s) (2 ^ 63)) /\
      forall j, word src j s' = word src (i + 1 + j) s.
  Proof.
    induction fuel as [|fuel IH]; intros s f s'; rewrite Float64_unfold; cbv zeta;
      pose proof (round_nearest 53 (fst (src s)) ltac:(lia) (HW s)) as HN;
      destruct (Z.eqb_spec (round 53 (fst (src s))) (2 ^ 63)) as [E|E]; intros H.
    - discriminate H.
    - injection H as <- <-. exists 0%nat. split; [lia|]. split; [exact HN|]. split; [lia|reflexivity].
    - destruct (IH _ _ _ H) as (i & Hi & Hf & Hj & Hs). exists (S i). split; [lia|]. split; [exact Hf|].
      split; [|exact Hs]. intros [|j] Hlt; [rewrite <- E; exact HN|]. apply Hj. lia.
    - injection H as <- <-. exists 0%nat. split; [lia|]. split; [exact HN|]. split; [lia|reflexivity].
  Qed.

  Lemma Float32_word fuel64 fuel : forall s f s', Float32 src fuel64 fuel s = (Ok f, s') ->
    exists i d, nearest 53 (word src i s) d /\ nearest 24 d f /\
      (forall j, (j < i)%nat -> nearest 53 (word src j s) (2 ^ 63) \/
         exists d', nearest 53 (word src j s) d' /\ nearest 24 d' (2 ^ 63)) /\
      forall j, word src j s' = word src (i + 1 + j) s.
  Proof.
    induction fuel as [|fuel IH]; intros s f s' H; cbn [Float32] in H; unfold xbind in H;
      destruct (Float64 src fuel64 s) as [[v|m|] s1] eqn:E64; pose proof (Float64_range src HW _ _ _ _ E64) as HR; cbn in HR; try contradiction;
      try discriminate H;
      cbv zeta in H; destruct HR as [HR _]; pose proof (round_nearest 24 v ltac:(lia) HR) as HN;
      destruct (Float64_word _ _ _ _ E64) as (i & _ & Hi & Hj & Hs);
      destruct (Z.eqb_spec (round 24 v) (2 ^ 63)) as [E|E].
    - discriminate H.
    - injection H as <- <-. exists i, v. split; [exact Hi|]. split; [exact HN|]. split; [|exact Hs]. intros j Lj. left. auto.
    - destruct (IH _ _ _ H) as (i' & d & Hd & Hf & Hj' & Hs'). rewrite Hs in Hd.
      exists (i + 1 + i')%nat, d. split; [exact Hd|]. split; [exact Hf|]. split.
      + intros j Lj. destruct (Nat.lt_trichotomy j i) as [L|[->|L]]; [left; auto| |].
        * right. exists v. split; [exact Hi|]. rewrite <- E. exact HN.
        * specialize (Hj' (j - (i + 1))%nat ltac:(lia)). rewrite Hs in Hj'.
          replace (i + 1 + (j - (i + 1)))%nat with j in Hj' by lia. exact Hj'.
      + intros j. rewrite Hs', Hs. f_equal. lia.
    - injection H as <- <-. exists i, v. split; [exact Hi|]. split; [exact HN|]. split; [|exact Hs]. intros j Lj. left. auto.
  Qed.
End Floats.
