(** Proofs about xsort: pdqsort, Sort, SortOrdered. *)
From Coq Require Import Permutation.
From Verif Require Import Base Arr XSort_Model XSort_Spec XSort_Panic XSort_Proofs.
Local Open Scope cb_scope.

Ltac bools :=
  repeat match goal with
  | H : (_ >? _) = true |- _ => rewrite Z.gtb_ltb in H
  | H : (_ >? _) = false |- _ => rewrite Z.gtb_ltb in H
  | H : (_ >=? _) = true |- _ => rewrite Z.geb_leb in H
  | H : (_ >=? _) = false |- _ => rewrite Z.geb_leb in H
  | H : (_ <? _) = true |- _ => apply Z.ltb_lt in H
  | H : (_ <? _) = false |- _ => apply Z.ltb_ge in H
  | H : (_ <=? _) = true |- _ => apply Z.leb_le in H
  | H : (_ <=? _) = false |- _ => apply Z.leb_gt in H
  | H : (_ =? _) = true |- _ => apply Z.eqb_eq in H
  | H : (_ =? _) = false |- _ => apply Z.eqb_neq in H
  | H : (_ && _)%bool = true |- _ => apply andb_true_iff in H; destruct H
  | H : negb _ = true |- _ => apply negb_true_iff in H
  | H : negb _ = false |- _ => apply negb_false_iff in H
  end.

Ltac swps :=
  repeat (rewrite at_swp by (rewrite ?zlen_swp; lia));
  repeat match goal with
  | |- context [?a =? ?b] => destruct (Z.eqb_spec a b)
  end.

Ltac wp1_ dflt lt ge ltb :=
  match goal with
  | |- wpd (cbind _ _) _ _ _ => apply wpd_bind
  | |- wpd (cret _) _ _ _ => apply wpd_ret
  | |- wpd (swap _ _) _ _ _ => apply (wpd_swap dflt lt ge ltb); [try lia|try lia|]
  | |- wpd (rd _) _ _ _ => apply (wpd_rd dflt lt ge ltb); [try lia|]
  | |- wpd (ltAt _ _ _) _ _ _ => apply (wpd_ltAt dflt lt ge ltb); [try lia|try lia|intros ? ? ?]
  | |- wpd (geAt _ _ _) _ _ _ => apply (wpd_geAt dflt lt ge ltb); [try lia|try lia|intros ? ? ?]
  | |- wpd (andM _ _) _ _ _ => apply wpd_andM; intros ?
  | |- wpd (if _ then _ else _) _ _ _ => apply wpd_if; intros ?
  | |- wpd (match ?x with (_, _) => _ end) _ _ _ => destruct x
  end.

Lemma shiftl1 n : 0 <= n -> Z.shiftl 1 n = 2 ^ n.
Proof. intros. rewrite Z.shiftl_mul_pow2; lia. Qed.

Lemma nextPow2_bounds n : 0 < n -> n < nextPowerOfTwo n <= 2 * n.
Proof.
  intros Hn. unfold nextPowerOfTwo, bitsLen. destruct (Z.leb_spec n 0); [lia|].
  pose proof (Z.log2_nonneg n). rewrite shiftl1 by lia.
  rewrite Z.pow_add_r by lia. pose proof (Z.log2_spec n Hn) as [H1 H2].
  rewrite Z.pow_succ_r in H2 by lia. lia.
Qed.

Lemma land_mask_bound r n : 0 < n -> 0 <= Z.land r (nextPowerOfTwo n - 1) < nextPowerOfTwo n.
Proof.
  intros Hn. unfold nextPowerOfTwo, bitsLen. destruct (Z.leb_spec n 0); [lia|].
  pose proof (Z.log2_nonneg n). rewrite shiftl1 by lia.
  replace (2 ^ (Z.log2 n + 1) - 1) with (Z.ones (Z.log2 n + 1)) by (rewrite Z.ones_equiv; lia).
  rewrite Z.land_ones by lia. apply Z.mod_pos_bound. apply Z.pow_pos_nonneg; lia.
Qed.

Section Pdq.
  Context {E S : Type}.
  Variable dflt : E.
  Variable lt ge : list E -> E -> E -> S -> (bool + string) * S.
  Variable ltb : E -> E -> bool.
  Local Notation "d .[ i ]" := (at_ dflt d i) (at level 2, format "d .[ i ]").
  Local Notation leE := (le ltb).
  Local Notation permr := (permr dflt).
  Local Notation swp := (swp dflt).
  Local Notation srt := (srt dflt ltb).
  Local Notation bounded := (bounded dflt ltb).
  Local Notation parted := (parted dflt ltb).
  Local Notation C := (C lt ge ltb).
  Local Notation T := (list E).
  Ltac wp1 := wp1_ dflt lt ge ltb.

  Lemma breakLoop_spec fuel : forall idx last random a b (d : T) (s : S),
    0 <= a -> b <= zlen d -> 0 < b - a -> a <= idx -> last < b ->
    Z.max 0 (last - idx + 1) < Z.of_nat fuel ->
    wpd (breakLoop fuel idx last random (nextPowerOfTwo (b - a)) (b - a) a)
      (fun _ d' _ => permr a b d d') d s.
  Proof.
    induction fuel as [|fuel IH]; intros idx last random a b d s Ha Hb Hab Hi Hl Hf; [lia|].
    cbn [breakLoop]. wp1; bools.
    - cbv zeta. set (r := xorshiftNext random). clearbody r.
      pose proof (land_mask_bound r (b - a) Hab) as Hm.
      pose proof (nextPow2_bounds (b - a) Hab) as Hn.
      set (o := Z.land r (nextPowerOfTwo (b - a) - 1)) in *. clearbody o.
      assert (Ho : 0 <= (if o >=? b - a then o - (b - a) else o) < b - a).
      { destruct (o >=? b - a) eqn:Hc; bools; lia. }
      set (o2 := if o >=? b - a then o - (b - a) else o) in *. clearbody o2.
      wp1. wp1. eapply wpd_conseq; [apply IH; rewrite ?zlen_swp; lia|].
      intros ? d' s' Hp. eapply permr_trans; [|apply Hp]. apply permr_swp; lia.
    - wp1. apply permr_refl.
  Qed.

  Lemma breakPatterns_spec a b (d : T) (s : S) :
    0 <= a -> b <= zlen d ->
    wpd (breakPatterns a b) (fun _ d' _ => permr a b d d') d s.
  Proof.
    intros Ha Hb. unfold breakPatterns. wp1; bools.
    - apply breakLoop_spec; lia.
    - wp1. apply permr_refl.
  Qed.

  Lemma order2_spec i j sw (d : T) (s : S) :
    0 <= i < zlen d -> 0 <= j < zlen d ->
    wpd (order2 (reads lt) i j sw) (fun r d' _ => d' = d /\
      (fst (fst r) = i /\ snd (fst r) = j \/ fst (fst r) = j /\ snd (fst r) = i)) d s.
  Proof.
    intros Hi Hj. unfold order2. wp1. wp1. wp1. split; auto. destruct b; cbn; auto.
  Qed.

  Lemma median_spec lo hi i j k sw (d : T) (s : S) :
    0 <= lo -> hi <= zlen d -> lo <= i < hi -> lo <= j < hi -> lo <= k < hi ->
    wpd (median (reads lt) i j k sw) (fun r d' _ => d' = d /\ lo <= fst r < hi) d s.
  Proof.
    intros Hl Hh Hi Hj Hk. unfold median.
    wp1. eapply wpd_conseq; [apply order2_spec; lia|].
    intros [[x1 y1] sw1] d1 s1 [-> H1]. cbn in H1.
    wp1. eapply wpd_conseq; [apply order2_spec; lia|].
    intros [[x2 y2] sw2] d1 s2 [-> H2]. cbn in H2.
    wp1. eapply wpd_conseq; [apply order2_spec; lia|].
    intros [[x3 y3] sw3] d1 s3 [-> H3]. cbn in H3. wp1. cbn. split; auto. lia.
  Qed.

  Lemma choosePivot_spec a b (d : T) (s : S) :
    0 <= a -> a < b -> b <= zlen d ->
    wpd (choosePivot (reads lt) a b) (fun r d' _ => d' = d /\ a <= fst r < b) d s.
  Proof.
    intros Ha Hab Hb. unfold choosePivot. cbv zeta. wp1.
    apply wpd_conseq with (P := fun r d' _ => d' = d /\ a <= fst r < b).
    - wp1; bools.
      + wp1.
        apply wpd_conseq with (P := fun r d' _ => d' = d /\
          a <= fst (fst (fst r)) < b /\ a <= snd (fst (fst r)) < b /\ a <= snd (fst r) < b).
        * wp1; bools.
          -- wp1. unfold medianAdjacent.
             eapply wpd_conseq; [apply (median_spec a b); lia|].
             intros [i sw1] d1 s1 [-> H1]. cbn in H1. wp1.
             eapply wpd_conseq; [apply (median_spec a b); lia|].
             intros [j sw2] d1 s2 [-> H2]. cbn in H2. wp1.
             eapply wpd_conseq; [apply (median_spec a b); lia|].
             intros [k sw3] d1 s3 [-> H3]. cbn in H3. wp1. cbn. split; [auto|lia].
          -- wp1. cbn. split; [auto|lia].
        * intros [[[i j] k] sw] d1 s1 (-> & H1 & H2 & H3). cbn in *. cbn iota.
          apply (median_spec a b); lia.
      + wp1. cbn. split; [auto|lia].
    - intros [j sw] d1 s1 [-> H1]. cbn iota. wp1. cbn in *. auto.
  Qed.

  Lemma reverseLoop_spec fuel : forall i j a b (d : T) (s : S),
    0 <= a -> b <= zlen d -> a <= i -> j < b -> Z.max 0 (j - i + 1) < Z.of_nat fuel ->
    wpd (reverseLoop fuel i j) (fun _ d' _ => permr a b d d') d s.
  Proof.
    induction fuel as [|fuel IH]; intros i j a b d s Ha Hb Hi Hj Hf; [lia|].
    cbn [reverseLoop]. wp1; bools.
    - wp1. wp1. eapply wpd_conseq; [apply (IH _ _ a b); rewrite ?zlen_swp; lia|].
      intros ? d' s' Hp. eapply permr_trans; [|apply Hp]. apply permr_swp; lia.
    - wp1. apply permr_refl.
  Qed.

  Lemma reverseRange_spec a b (d : T) (s : S) : 0 <= a -> b <= zlen d ->
    wpd (reverseRange a b) (fun _ d' _ => permr a b d d') d s.
  Proof. intros. unfold reverseRange. apply reverseLoop_spec; lia. Qed.

  (** What a (recursive) call to pdqsort on [a,b) guarantees. *)
  Definition sorts (a b : Z) (m : CM (@st E S) unit) : Prop :=
    forall d s, b <= zlen d ->
      wpd m (fun _ d' _ => permr 0 b d d' /\
        (C -> bounded a b d -> permr a b d d' /\ srt a b d')) d s.

  Lemma parted_srt a m b d : strict_weak_order ltb ->
    parted a m b d -> srt a m d -> srt (m + 1) b d -> srt a b d.
  Proof.
    intros HW [HL HR] S1 S2 i j Hi Hij Hj.
    destruct (Z.lt_ge_cases j m); [apply S1; lia|].
    destruct (Z.lt_ge_cases m i); [apply S2; lia|].
    assert (Him : i = m \/ leE d.[i] d.[m]).
    { destruct (Z.eq_dec i m); auto. right. apply lt_le; auto. apply HL; lia. }
    assert (Hmj : j = m \/ leE d.[m] d.[j]).
    { destruct (Z.eq_dec j m); auto. right. apply HR; lia. }
    destruct Him as [->|Him], Hmj as [->|Hmj]; auto; try lia.
    apply (le_trans ltb HW) with d.[m]; auto.
  Qed.

  Lemma parted_permrL a m b d d' : 0 <= a <= m -> m < b -> b <= zlen d ->
    parted a m b d -> permr a m d d' -> parted a m b d'.
  Proof.
    intros Ha Hm Hb [HL HR] Hp. split.
    - rewrite (permr_out dflt _ _ _ _ m Hp) by lia.
      apply (permr_forall dflt a m d d' (fun x => ltb x d.[m] = true) Hp); auto; lia.
    - intros k Hk. rewrite !(permr_out dflt _ _ _ _ _ Hp) by lia. auto.
  Qed.

  Lemma parted_permrR a m b d d' : 0 <= a <= m -> m < b -> b <= zlen d ->
    parted a m b d -> permr (m + 1) b d d' -> parted a m b d'.
  Proof.
    intros Ha Hm Hb [HL HR] Hp. split.
    - intros k Hk. rewrite !(permr_out dflt _ _ _ _ _ Hp) by lia. auto.
    - intros k Hk. rewrite (permr_out dflt _ _ _ _ m Hp) by lia. revert k Hk.
      assert (Hf : forall k, m + 1 <= k < b -> ltb d'.[k] d.[m] = false).
      { apply (permr_forall dflt (m + 1) b d d' (fun x => ltb x d.[m] = false) Hp); try lia.
        intros; apply HR; lia. }
      intros; apply Hf; lia.
  Qed.

  Lemma bounded_sub a m b d : 0 <= a -> m <= b -> bounded a b d -> bounded a m d.
  Proof. intros Ha Hm Hb Ha0 k Hk. apply Hb; lia. Qed.

  Lemma pdqLoop_spec self fuel : forall a b limit wb wp (d : T) (s : S),
    0 <= a <= b -> b <= zlen d ->
    (forall a' b' lim, a <= a' <= b' -> b' <= b -> 2 * (b' - a') <= b - a ->
       (12 < b - a) -> sorts a' b' (self a' b' lim)) ->
    b - a < Z.of_nat fuel ->
    wpd (pdqLoop (reads lt) (reads ge) self fuel a b limit wb wp) (fun _ d' _ =>
      permr 0 b d d' /\
      (C -> bounded a b d -> permr a b d d' /\ srt a b d')) d s.
  Proof.
    induction fuel as [|fuel IH]; intros a b limit wb wp d s Ha Hb Hself Hf; [lia|].
    cbn [pdqLoop]. cbv zeta. wp1; bools.
    { eapply wpd_conseq; [apply (insertionSort_spec dflt lt ge ltb); lia|].
      intros _ d' s' [Hp Hs]. split; [eapply permr_weaken; eauto; lia|]. auto. }
    wp1; bools.
    { eapply wpd_conseq; [apply (heapSort_spec dflt lt ge ltb); lia|].
      intros _ d' s' [Hp Hs]. split; [eapply permr_weaken; eauto; lia|]. auto. }
    wp1. apply wpd_conseq with (P := fun _ d' _ => permr a b d d').
    { wp1. apply breakPatterns_spec; lia. wp1. apply permr_refl. }
    intros ? d1 s1 Hp1. cbn beta in Hp1. pose proof (permr_len _ _ _ _ _ Hp1) as HL1.
    wp1. eapply wpd_conseq; [apply choosePivot_spec; lia|].
    intros [pivot hint] ? s2 [-> Hpiv]. cbn in Hpiv. wp1.
    apply wpd_conseq with (P := fun r d' _ => permr a b d1 d' /\ a <= fst r < b).
    { destruct hint.
      1, 2: wp1; split; [apply permr_refl|cbn; lia].
      wp1. eapply wpd_conseq; [apply reverseRange_spec; lia|].
      intros ? d2 s3 Hp. wp1. split; [auto|cbn; lia]. }
    intros [pivot2 hint2] d2 s3 [Hp2 Hpiv2]. cbn in Hpiv2. cbn iota.
    pose proof (permr_len _ _ _ _ _ Hp2) as HL2. rewrite HL1 in HL2. clear hint pivot Hpiv.
    assert (Hp02 : permr a b d d2) by (eapply permr_trans; eauto).
    clear d1 Hp1 HL1 Hp2 s1 s2. wp1.
    apply wpd_conseq with (P := fun r d' _ => permr 0 b d2 d' /\
      (C -> bounded a b d2 -> permr a b d2 d' /\ (r = true -> srt a b d'))).
    { wp1.
      - apply (partialInsertionSort_spec dflt lt ge ltb); lia.
      - wp1. split; [apply permr_refl|]. intros; split; [apply permr_refl|discriminate]. }
    intros done d3 s4 [Hp3 Hs3]. pose proof (permr_len _ _ _ _ _ Hp3) as HL3.
    assert (H03 : permr 0 b d d3).
    { eapply permr_trans; [eapply permr_weaken; [apply Hp02|lia|lia]|auto]. }
    assert (HC03 : C -> bounded a b d -> permr a b d d3 /\ bounded a b d3 /\ (done = true -> srt a b d3)).
    { intros HC Hbd.
      assert (Hbd2 : bounded a b d2) by (apply (bounded_permr dflt lt ge ltb a b d d2); auto; lia).
      destruct (Hs3 HC Hbd2) as [Hp Hs]. split; [eapply permr_trans; eauto|split; auto].
      apply (bounded_permr dflt lt ge ltb a b d2 d3); auto; lia. }
    clear Hp3 Hs3 Hp02. wp1.
    { wp1. split; auto. intros HC Hbd. destruct (HC03 HC Hbd) as (? & ? & ?). auto. }
    wp1. apply wpd_conseq with (P := fun r d' _ => d' = d3 /\
      (r = true -> 0 < a /\ (C -> leE d3.[pivot2] d3.[a - 1]))).
    { wp1.
      - bools. wp1. split; [auto|]. intros ->. split; [auto|]. intros HC. unfold le. rewrite H3; auto.
      - split; auto. discriminate. }
    intros e ? s5 [-> He]. wp1.
    - (* partitionEqual *)
      destruct (He H2) as [Ha0 Hle]. wp1.
      eapply wpd_conseq; [apply (partitionEqual_spec dflt lt ge ltb); lia|].
      intros m d4 s6 (Hp4 & Hm & Hd4 & Hs4). pose proof (permr_len _ _ _ _ _ Hp4) as HL4.
      eapply wpd_conseq.
      { apply (IH m b); try lia. intros; apply Hself; lia. }
      intros _ d5 s7 [Hp5 Hs5]. split.
      + eapply permr_trans; [apply H03|]. eapply permr_trans; [|apply Hp5].
        eapply permr_weaken; [apply Hp4|lia|lia].
      + intros HC Hbd. destruct (HC03 HC Hbd) as (Hpd3 & Hbd3 & _).
        destruct (Hs4 HC) as [Heq Hgt].
        assert (Hbd4 : bounded a b d4) by (apply (bounded_permr dflt lt ge ltb a b d3 d4); auto; lia).
        assert (Hall : forall k, a <= k < b -> leE d4.[a] d4.[k]).
        { intros k Hk. rewrite Hd4.
          apply (le_trans ltb (proj1 HC)) with d3.[a - 1]; auto.
          rewrite <- (permr_out dflt _ _ _ _ (a - 1) Hp4) by lia. apply Hbd4; lia. }
        assert (Hlow : forall i k, a <= i < m -> m <= k < b -> leE d4.[i] d4.[k]).
        { intros i k Hi Hk. apply (le_trans ltb (proj1 HC)) with d4.[a]; [apply Heq; lia|].
          apply Hall; lia. }
        destruct (Hs5 HC) as [Hp5' Hs5'].
        { intros Hm0 k Hk. apply Hlow; lia. }
        split.
        * eapply permr_trans; [apply Hpd3|]. eapply permr_trans; [apply Hp4|].
          eapply permr_weaken; [apply Hp5'|lia|lia].
        * apply (srt_glue dflt lt ge ltb a m b); auto.
          -- apply (srt_ext dflt lt ge ltb a m d4).
             ++ intros i Hi. symmetry. apply (permr_out dflt _ _ _ _ _ Hp5'); lia.
             ++ intros i j Hi Hij Hj. apply (le_trans ltb (proj1 HC)) with d4.[a];
                  [apply Heq; lia|apply Hall; lia].
          -- intros i j Hi Hj. rewrite (permr_out dflt _ _ _ _ i Hp5') by lia. revert j Hj.
             apply (permr_forall dflt m b d4 d5 (fun x => leE d4.[i] x) Hp5'); try lia.
             intros k Hk. apply Hlow; lia.
    - (* partition *)
      wp1. eapply wpd_conseq; [apply (partition_spec dflt lt ge ltb); lia|].
      intros [m al] d4 s6 (Hp4 & Hm & Hs4). cbn in Hm, Hs4. cbn iota.
      pose proof (permr_len _ _ _ _ _ Hp4) as HL4. wp1; bools.
      + wp1. eapply wpd_conseq; [apply (Hself a m); lia|].
        intros _ d5 s7 [Hp5 Hs5]. pose proof (permr_len _ _ _ _ _ Hp5) as HL5.
        eapply wpd_conseq.
        { apply (IH (m + 1) b); try lia. intros; apply Hself; lia. }
        intros _ d6 s8 [Hp6 Hs6]. split.
        * eapply permr_trans; [apply H03|].
          eapply permr_trans; [eapply permr_weaken; [apply Hp4|lia|lia]|].
          eapply permr_trans; [eapply permr_weaken; [apply Hp5|lia|lia]|]. auto.
        * intros HC Hbd. destruct (HC03 HC Hbd) as (Hpd3 & Hbd3 & _).
          assert (Hbd4 : bounded a b d4) by (apply (bounded_permr dflt lt ge ltb a b d3 d4); auto; lia).
          destruct (Hs5 HC) as [Hp5' Hsrt5]; [apply (bounded_sub a m b); auto; lia|].
          assert (Hpt5 : parted a m b d5) by (apply (parted_permrL a m b d4); auto; lia).
          destruct (Hs6 HC) as [Hp6' Hsrt6].
          { intros _ k Hk. replace (m + 1 - 1) with m by lia. apply Hpt5. lia. }
          assert (Hpt6 : parted a m b d6) by (apply (parted_permrR a m b d5); auto; lia).
          split.
          -- eapply permr_trans; [apply Hpd3|]. eapply permr_trans; [apply Hp4|].
             eapply permr_trans; [eapply permr_weaken; [apply Hp5'|lia|lia]|].
             eapply permr_weaken; [apply Hp6'|lia|lia].
          -- apply (parted_srt a m b); auto; [apply HC|].
             apply (srt_ext dflt lt ge ltb a m d5); auto.
             intros i Hi. symmetry. apply (permr_out dflt _ _ _ _ _ Hp6'); lia.
      + wp1. eapply wpd_conseq; [apply (Hself (m + 1) b); lia|].
        intros _ d5 s7 [Hp5 Hs5]. pose proof (permr_len _ _ _ _ _ Hp5) as HL5.
        eapply wpd_conseq.
        { apply (IH a m); try lia. intros; apply Hself; lia. }
        intros _ d6 s8 [Hp6 Hs6]. split.
        * eapply permr_trans; [apply H03|].
          eapply permr_trans; [eapply permr_weaken; [apply Hp4|lia|lia]|].
          eapply permr_trans; [apply Hp5|]. eapply permr_weaken; [apply Hp6|lia|lia].
        * intros HC Hbd. destruct (HC03 HC Hbd) as (Hpd3 & Hbd3 & _).
          assert (Hbd4 : bounded a b d4) by (apply (bounded_permr dflt lt ge ltb a b d3 d4); auto; lia).
          destruct (Hs5 HC) as [Hp5' Hsrt5].
          { intros _ k Hk. replace (m + 1 - 1) with m by lia. apply Hs4; auto. lia. }
          assert (Hpt5 : parted a m b d5) by (apply (parted_permrR a m b d4); auto; lia).
          assert (Hbd5 : bounded a b d5).
          { apply (bounded_permr dflt lt ge ltb a b d4 d5); auto; try lia.
            eapply permr_weaken; [apply Hp5'|lia|lia]. }
          destruct (Hs6 HC) as [Hp6' Hsrt6]; [apply (bounded_sub a m b); auto; lia|].
          assert (Hpt6 : parted a m b d6) by (apply (parted_permrL a m b d5); auto; lia).
          split.
          -- eapply permr_trans; [apply Hpd3|]. eapply permr_trans; [apply Hp4|].
             eapply permr_trans; [eapply permr_weaken; [apply Hp5'|lia|lia]|].
             eapply permr_weaken; [apply Hp6'|lia|lia].
          -- apply (parted_srt a m b); auto; [apply HC|].
             apply (srt_ext dflt lt ge ltb (m + 1) b d5); auto.
             intros i Hi. symmetry. apply (permr_out dflt _ _ _ _ _ Hp6'); lia.
  Qed.

  (** [stack] frames suffice once 2^stack exceeds the length. *)
  Lemma pdqsort_spec stack : forall a b limit,
    (0 < stack)%nat -> b - a < 2 ^ Z.of_nat stack -> 0 <= a <= b ->
    sorts a b (pdqsort (reads lt) (reads ge) stack a b limit).
  Proof.
    induction stack as [|stack IH]; intros a b limit Hst Hlen Ha; [lia|].
    intros d s Hb. cbn [pdqsort]. apply pdqLoop_spec; try lia.
    intros a' b' lim Ha' Hb' Hhalf Hbig. apply IH; try lia.
    - destruct stack; [|lia]. cbn in Hlen. lia.
    - rewrite Nat2Z.inj_succ, Z.pow_succ_r in Hlen by lia. lia.
  Qed.

  Lemma bitsLen_pow n : 0 <= n -> n < 2 ^ bitsLen n.
  Proof.
    intros Hn. unfold bitsLen. destruct (Z.leb_spec n 0); [cbn; lia|].
    pose proof (Z.log2_spec n ltac:(lia)) as [_ H2]. auto.
  Qed.

  Lemma bitsLen_nonneg n : 0 <= bitsLen n.
  Proof.
    unfold bitsLen. destruct (Z.leb_spec n 0); [lia|]. pose proof (Z.log2_nonneg n). lia.
  Qed.

  Lemma srt_sorted_by (d : T) : srt 0 (zlen d) d -> sorted_by ltb d.
  Proof.
    intros Hs i j x y Hij Hx Hy.
    assert (Hj : (j < List.length d)%nat) by (apply nth_error_Some; congruence).
    specialize (Hs (Z.of_nat i) (Z.of_nat j)). unfold at_ in Hs. rewrite !Nat2Z.id in Hs.
    rewrite (nth_error_nth _ _ _ Hx), (nth_error_nth _ _ _ Hy) in Hs.
    apply Hs; unfold zlen; lia.
  Qed.

  Lemma pdqsort_run stack (d : T) (s : S) limit :
    (0 < stack)%nat -> zlen d < 2 ^ Z.of_nat stack ->
    exists r d' s', pdqsort (reads lt) (reads ge) stack 0 (zlen d) limit (d, s) = (r, (d', s')) /\
      ((exists e, r = CUser e) \/ r = CRet tt /\ Permutation d d' /\ (C -> sorted_by ltb d')).
  Proof.
    intros Hst Hen. pose proof (zlen_nonneg d).
    assert (Hs : sorts 0 (zlen d) (pdqsort (reads lt) (reads ge) stack 0 (zlen d) limit)).
    { apply pdqsort_spec; lia. }
    specialize (Hs d s (Z.le_refl _)). unfold wpd in Hs.
    destruct (pdqsort _ _ _ _ _ _ (d, s)) as [[[]| | |e] [d' s']]; try contradiction.
    2: { exists (CUser e), d', s'. split; [auto|left; eauto]. }
    destruct Hs as [Hp HC]. exists (CRet tt), d', s'. split; [auto|right]. split; [auto|split; [apply Hp|]].
    intros Hc. destruct (HC Hc) as [Hp' Hs]; [intros ?; lia|].
    apply srt_sorted_by. now rewrite (permr_len _ _ _ _ _ Hp).
  Qed.
End Pdq.

Lemma pow2_S_gt n : Z.of_nat n < 2 ^ Z.of_nat (Datatypes.S n).
Proof.
  induction n as [|n IH]; [reflexivity|].
  rewrite (Nat2Z.inj_succ (Datatypes.S n)), Z.pow_succ_r by lia. lia.
Qed.

Lemma pdqsort_total_run {E S} (lt ge : comparatorP E S) (dflt : E) (ltb : E -> E -> bool) stack (d : list E) (s : S) limit :
  (forall d x y s, exists b, fst (lt d x y s) = inl b) -> (forall d x y s, exists b, fst (ge d x y s) = inl b) ->
  (0 < stack)%nat -> zlen d < 2 ^ Z.of_nat stack ->
  exists d' s', plain (pdqsort (reads lt) (reads ge) stack 0 (zlen d) limit (d, s)) = Ok (d', s') /\
    Permutation d d' /\ (C lt ge ltb -> sorted_by ltb d').
Proof.
  intros Hlt Hge Hst Hen.
  destruct (pdqsort_run dflt lt ge ltb stack d s limit Hst Hen) as (r & d' & s' & Hr & [[e ->]|(-> & Hp & Hs)]).
  - exfalso. eapply no_user; [exact Hlt|exact Hge| |exact Hr]. now apply good_pdqsort.
  - exists d', s'. rewrite Hr. auto.
Qed.

Lemma always_C {E S} (less : comparator E S) lt : strict_weak_order lt -> answers less lt ->
  C (always less) (notLessP (always less)) lt.
Proof.
  intros HW Ha. split; [auto|split]; intros d x y s b s'; specialize (Ha x y s).
  - rewrite always_ok. congruence.
  - rewrite notLessP_always. congruence.
Qed.
Lemma pure_C {E} (ltb geb : E -> E -> bool) : strict_weak_order ltb -> (forall x y, geb x y = negb (ltb x y)) ->
  C (always (pureCmp ltb)) (always (pureCmp geb)) ltb.
Proof. intros HW Hg. split; [auto|split]; intros d x y s b s'; cbn; [|rewrite Hg]; congruence. Qed.

Lemma SortWithin_run {E S} stack (less : comparator E S) (lt : E -> E -> bool) (d : list E) (s : S) :
  (0 < stack)%nat -> zlen d < 2 ^ Z.of_nat stack ->
  exists d' s', SortWithin stack d less s = Ok (d', s') /\ Permutation d d' /\
    (strict_weak_order lt -> answers less lt -> sorted_by lt d').
Proof.
  intros Hst Hen. destruct d as [|x d0].
  - destruct stack; [lia|]. exists [], s. split; [reflexivity|]. split; [constructor|].
    intros _ _ i j u v _ Hn. destruct i; discriminate Hn.
  - unfold SortWithin. set (d := x :: d0) in *.
    destruct (pdqsort_total_run (always less) (notLessP (always less)) x lt stack d s (bitsLen (zlen d))
      (always_total less) (notLess_total less) Hst Hen) as (d' & s' & Hr & Hp & Hs).
    exists d', s'. split; [auto|split; [auto|]]. intros HW Ha. apply Hs. now apply always_C.
Qed.

Lemma Sort_run {E S} (less : comparator E S) (lt : E -> E -> bool) (d : list E) (s : S) :
  exists d' s', Sort d less s = Ok (d', s') /\ Permutation d d' /\
    (strict_weak_order lt -> answers less lt -> sorted_by lt d').
Proof.
  change (Sort d less s) with (SortWithin (Datatypes.S (List.length d)) d less s).
  apply SortWithin_run; [lia|]. apply pow2_S_gt.
Qed.

Lemma SortOrdered_run {E} (ltb geb : E -> E -> bool) (d : list E) :
  exists d', SortOrdered ltb geb d = Ok d' /\ Permutation d d' /\
    (strict_weak_order ltb -> (forall x y, geb x y = negb (ltb x y)) -> sorted_by ltb d').
Proof.
  destruct d as [|x d0].
  - exists []. split; [reflexivity|]. split; [constructor|].
    intros _ _ i j u v _ Hn. destruct i; discriminate Hn.
  - unfold SortOrdered. set (d := x :: d0).
    destruct (pdqsort_total_run (always (pureCmp ltb)) (always (pureCmp geb)) x ltb (Datatypes.S (List.length d)) d tt
      (bitsLen (zlen d)) (always_total _) (always_total _) ltac:(lia) (pow2_S_gt _)) as (d' & s' & Hr & Hp & Hs).
    exists d'. split; [now rewrite Hr|split; [auto|]]. intros HW Hg. apply Hs. now apply pure_C.
Qed.

(** Floor(log2 n)+1 frames are enough for the sorts. *)
Lemma log2_frames n stack : 0 <= n -> Z.log2 n + 1 <= Z.of_nat stack ->
  (0 < stack)%nat /\ n < 2 ^ Z.of_nat stack.
Proof.
  intros Hn Hs. pose proof (Z.log2_nonneg n). split; [lia|].
  destruct (Z.eq_dec n 0) as [->|]; [apply Z.pow_pos_nonneg; lia|].
  pose proof (Z.log2_spec n ltac:(lia)) as [_ H2].
  eapply Z.lt_le_trans; [apply H2|]. apply Z.pow_le_mono_r; lia.
Qed.

(** More stack never changes a result. *)
Section Mono.
  Context {E S : Type} (lt ge : comparatorW E S).
  Local Notation st := (list E * S)%type.
  Definition ext {A} (m m' : CM st A) : Prop := forall x r y, r <> CDiverge -> m x = (r, y) -> m' x = (r, y).

  Lemma ext_refl {A} (m : CM st A) : ext m m.
  Proof. intros x r y _ H; exact H. Qed.

  Lemma ext_bind {A B} (m m' : CM st A) (f f' : A -> CM st B) :
    ext m m' -> (forall a, ext (f a) (f' a)) -> ext (cbind m f) (cbind m' f').
  Proof.
    intros Hm Hf x r z Hr. unfold cbind. destruct (m x) as [[a|e| |e] y] eqn:Hx; [| |congruence|];
      rewrite (fun h => Hm x _ y h Hx) by discriminate; [now apply Hf|auto|auto].
  Qed.

  Lemma ext_if {A} (b : bool) (m1 m2 m1' m2' : CM st A) :
    ext m1 m1' -> ext m2 m2' -> ext (if b then m1 else m2) (if b then m1' else m2').
  Proof. destruct b; auto. Qed.

  Lemma pdqLoop_mono self self' fuel : (forall a b l, ext (self a b l) (self' a b l)) ->
    forall a b l wb wp, ext (pdqLoop lt ge self fuel a b l wb wp) (pdqLoop lt ge self' fuel a b l wb wp).
  Proof.
    intros Hself. induction fuel as [|fuel IH]; intros; cbn [pdqLoop]; [apply ext_refl|].
    cbv zeta. apply ext_if; [apply ext_refl|]. apply ext_if; [apply ext_refl|].
    apply ext_bind; [apply ext_refl|intros _].
    apply ext_bind; [apply ext_refl|intros [p h]].
    apply ext_bind; [apply ext_refl|intros [p2 h2]].
    apply ext_bind; [apply ext_refl|intros dn].
    apply ext_if; [apply ext_refl|].
    apply ext_bind; [apply ext_refl|intros eq].
    apply ext_if.
    - apply ext_bind; [apply ext_refl|intros m]. apply IH.
    - apply ext_bind; [apply ext_refl|intros [m al]].
      apply ext_if; (apply ext_bind; [apply Hself|intros _; apply IH]).
  Qed.

  Lemma pdqsort_mono1 k : forall a b l, ext (pdqsort lt ge k a b l) (pdqsort lt ge (Datatypes.S k) a b l).
  Proof.
    induction k as [|k IH]; intros a b l.
    - intros x r y Hr H. injection H as <- _. congruence.
    - change (ext (pdqLoop lt ge (pdqsort lt ge k) (Z.to_nat (b - a) + 1) a b l true true)
        (pdqLoop lt ge (pdqsort lt ge (Datatypes.S k)) (Z.to_nat (b - a) + 1) a b l true true)).
      apply pdqLoop_mono. apply IH.
  Qed.

  Lemma pdqsort_mono k k' : (k <= k')%nat -> forall a b l, ext (pdqsort lt ge k a b l) (pdqsort lt ge k' a b l).
  Proof.
    induction 1 as [|k' Hk IH]; intros; [apply ext_refl|].
    intros x r y Hr Hx. apply pdqsort_mono1; [exact Hr|]. now apply IH.
  Qed.
End Mono.

Lemma plain_ext {E S A} (m m' : CM (list E * S) A) d s r :
  ext m m' -> plain (m (d, s)) = Ok r -> plain (m' (d, s)) = Ok r.
Proof.
  intros Hm. destruct (m (d, s)) as [[u| | |] ds] eqn:Hx; try discriminate.
  intros H. now rewrite (fun h => Hm (d, s) _ ds h Hx) by discriminate.
Qed.

(** With floor(log2 n)+1 frames, or more, the outcome is that of [Sort]. *)
Lemma SortWithin_log2 {E S} (less : comparator E S) (d : list E) (s : S) stack :
  Z.log2 (zlen d) + 1 <= Z.of_nat stack ->
  SortWithin stack d less s = Sort d less s /\ exists r, Sort d less s = Ok r.
Proof.
  intros Hs. destruct (log2_frames (zlen d) stack (zlen_nonneg d) Hs) as [H0 Hlt].
  destruct (SortWithin_run stack less (fun _ _ => true) d s H0 Hlt) as (d1 & s1 & H1 & _).
  destruct (Sort_run less (fun _ _ => true) d s) as (d2 & s2 & H2 & _).
  split; [|eauto]. rewrite H1, H2. change (Sort d less s) with (SortWithin (Datatypes.S (List.length d)) d less s) in H2.
  destruct (Nat.le_ge_cases stack (Datatypes.S (List.length d))) as [Hle|Hle].
  - rewrite <- H2. symmetry. unfold SortWithin, SortPWithin, SortWWithin in *.
    change (notLessW (reads (always less))) with (reads (notLessP (always less))) in *.
    eapply plain_ext; [apply pdqsort_mono; apply Hle|exact H1].
  - rewrite <- H1. unfold SortWithin, SortPWithin, SortWWithin in *.
    change (notLessW (reads (always less))) with (reads (notLessP (always less))) in *.
    eapply plain_ext; [apply pdqsort_mono; apply Hle|exact H2].
Qed.
