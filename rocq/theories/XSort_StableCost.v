(** Proofs about xsort: number of comparisons made by Stable, for every comparator. *)
From Coq Require Import Permutation.
From Verif Require Import Base Arr XSort_Model XSort_Spec XSort_Panic XSort_Proofs XSort_Pdq XSort_CostSpec XSort_Stab.
Local Open Scope cb_scope.

Lemma bitsLen_half n : 0 < n -> bitsLen n = 1 + bitsLen (n / 2).
Proof.
  intros Hn. unfold bitsLen. rewrite (proj2 (Z.leb_gt _ _)) by lia. destruct (Z.leb_spec (n / 2) 0) as [H|H].
  - assert (n = 1) as ->; [|reflexivity]. pose proof (Z.div_mod n 2 ltac:(lia)). pose proof (Z.mod_pos_bound n 2 ltac:(lia)). lia.
  - assert (2 <= n) by (pose proof (Z.div_mod n 2 ltac:(lia)); pose proof (Z.mod_pos_bound n 2 ltac:(lia)); lia).
    pose proof (Z.log2_shiftr n 1 ltac:(lia)) as HS. rewrite Z.shiftr_div_pow2 in HS by lia. change (2 ^ 1) with 2 in HS.
    pose proof (Z.log2_le_mono 2 n ltac:(lia)) as HM. change (Z.log2 2) with 1 in HM. lia.
Qed.
Lemma bitsLen_mono m n : m <= n -> bitsLen m <= bitsLen n.
Proof.
  intros H. unfold bitsLen. destruct (Z.leb_spec m 0), (Z.leb_spec n 0); try lia.
  - pose proof (Z.log2_nonneg n). lia.
  - pose proof (Z.log2_le_mono m n ltac:(lia)). lia.
Qed.
Lemma bitsLen_0 n : 0 <= bitsLen n.
Proof. unfold bitsLen. destruct (n <=? 0); [lia|]. pose proof (Z.log2_nonneg n). lia. Qed.
Lemma bitsLen_lin n : 0 <= n -> bitsLen n <= n.
Proof. intros H. unfold bitsLen. destruct (Z.leb_spec n 0); [lia|]. pose proof (Z.log2_lt_lin n ltac:(lia)). lia. Qed.
(** bitsLen n <= n / 2 + 1 *)
Lemma bitsLen_half_lin n : 0 < n -> bitsLen n <= 1 + n / 2.
Proof. intros H. rewrite bitsLen_half by exact H. pose proof (bitsLen_lin (n / 2)). assert (0 <= n / 2) by (apply Z.div_pos; lia). lia. Qed.

Section Cost.
  Context {E S : Type}.
  Variable dflt : E.
  Variable lt ge : list E -> E -> E -> S -> (bool + string) * S.
  (** The number of comparisons made so far, according to the comparator's state. *)
  Variable cnt : S -> Z.
  Hypothesis Hlt : forall d x y s, cnt (snd (lt d x y s)) = cnt s + 1.
  Hypothesis Hge : forall d x y s, cnt (snd (ge d x y s)) = cnt s + 1.
  Local Notation "d .[ i ]" := (at_ dflt d i) (at level 2, format "d .[ i ]").
  Let any : E -> E -> bool := fun _ _ => true.
  Local Notation swp := (swp dflt).
  Local Notation T := (list E).

  Lemma n_ltAt i j (Q : bool -> T -> S -> Prop) d s : 0 <= i < zlen d -> 0 <= j < zlen d ->
    (forall b s', cnt s' = cnt s + 1 -> Q b d s') -> wpd (ltAt (reads lt) i j) Q d s.
  Proof.
    intros Hi Hj HQ. unfold ltAt.
    apply wpd_bind, (wpd_rd dflt lt ge any); auto. apply wpd_bind, (wpd_rd dflt lt ge any); auto.
    unfold wpd, askLt, reads. pose proof (Hlt d d.[i] d.[j] s) as H1. destruct (lt d d.[i] d.[j] s) as [[b|e] s']; cbn [fst snd] in *; [now apply HQ|exact I].
  Qed.
  Lemma n_geAt i j (Q : bool -> T -> S -> Prop) d s : 0 <= i < zlen d -> 0 <= j < zlen d ->
    (forall b s', cnt s' = cnt s + 1 -> Q b d s') -> wpd (geAt (reads ge) i j) Q d s.
  Proof.
    intros Hi Hj HQ. unfold geAt.
    apply wpd_bind, (wpd_rd dflt lt ge any); auto. apply wpd_bind, (wpd_rd dflt lt ge any); auto.
    unfold wpd, askGe, reads. pose proof (Hge d d.[i] d.[j] s) as H1. destruct (ge d d.[i] d.[j] s) as [[b|e] s']; cbn [fst snd] in *; [now apply HQ|exact I].
  Qed.

  Ltac wp1 :=
    match goal with
    | |- wpd (ltAt _ _ _) _ _ _ => apply n_ltAt; [try lia|try lia|intros ? ? ?]
    | |- wpd (geAt _ _ _) _ _ _ => apply n_geAt; [try lia|try lia|intros ? ? ?]
    | _ => wp1_ dflt lt ge any
    end.

  (** ** Insertion sort *)
  Lemma insertionInner_n fuel : forall a j (d : T) (s : S),
    0 <= a -> a <= j -> j < zlen d -> j - a < Z.of_nat fuel ->
    wpd (insertionInner (reads lt) fuel a j) (fun _ d' s' => zlen d' = zlen d /\ cnt s' <= cnt s + (j - a)) d s.
  Proof.
    induction fuel as [|fuel IH]; intros a j d s Ha Haj Hj Hf; [lia|].
    cbn [insertionInner]. wp1. wp1.
    - bools. wp1. wp1.
      + wp1. wp1. eapply wpd_conseq; [apply IH; rewrite ?zlen_swp; lia|].
        intros ? d' s1 [HL Hs]. rewrite zlen_swp in HL. split; [auto|lia].
      + wp1. split; [auto|lia].
    - wp1. split; [auto|lia].
  Qed.
  Lemma insertionOuter_n fuel : forall a b i (d : T) (s : S),
    0 <= a -> a < i -> b <= zlen d -> Z.max 0 (b - i) < Z.of_nat fuel ->
    wpd (insertionOuter (reads lt) fuel a b i) (fun _ d' s' => zlen d' = zlen d /\ cnt s' <= cnt s + Z.max 0 (b - i) * (b - a - 1)) d s.
  Proof.
    induction fuel as [|fuel IH]; intros a b i d s Ha Hai Hl Hf; [lia|].
    cbn [insertionOuter]. wp1; bools.
    - wp1. eapply wpd_conseq; [apply (insertionInner_n _ a i); lia|].
      intros ? d1 s1 [HL1 Hs1].
      eapply wpd_conseq; [apply (IH a b (i + 1)); lia|].
      intros ? d2 s2 [HL2 Hs2].
      replace (Z.max 0 (b - (i + 1))) with (b - i - 1) in Hs2 by lia.
      replace (Z.max 0 (b - i)) with (b - i) by lia. split; [congruence|nia].
    - wp1. split; [reflexivity|]. nia.
  Qed.
  Lemma insertionSort_n a b (d : T) (s : S) : 0 <= a <= b -> b <= zlen d -> b - a <= 20 ->
    wpd (insertionSort (reads lt) a b) (fun _ d' s' => zlen d' = zlen d /\ cnt s' <= cnt s + 19 * (b - a)) d s.
  Proof.
    intros Ha Hb Hn. unfold insertionSort.
    eapply wpd_conseq; [apply insertionOuter_n; lia|].
    intros ? d' s' [HL Hs]. split; [exact HL|]. nia.
  Qed.

  (** ** Rotations compare nothing *)
  Definition silent (m : CM (T * S) unit) (d : T) (s : S) : Prop := wpd m (fun _ d' s' => zlen d' = zlen d /\ s' = s) d s.
  Lemma bubbleUp_n fuel : forall k i (d : T) (s : S), 0 <= k -> i <= zlen d -> Z.max 0 (i - 1 - k) < Z.of_nat fuel -> silent (bubbleUp fuel k i) d s.
  Proof.
    induction fuel as [|fuel IH]; intros k i d s Hk Hi Hf; [lia|]. cbn [bubbleUp]. unfold silent. wp1; bools.
    - wp1. wp1. eapply wpd_conseq; [apply (IH (k + 1) i); rewrite ?zlen_swp; lia|]. intros ? d' s' [HL ->]. now rewrite zlen_swp in HL.
    - now wp1.
  Qed.
  Lemma bubbleDown_n fuel : forall k i (d : T) (s : S), 0 <= i -> k < zlen d -> Z.max 0 (k - i) < Z.of_nat fuel -> silent (bubbleDown fuel k i) d s.
  Proof.
    induction fuel as [|fuel IH]; intros k i d s Hk Hi Hf; [lia|]. cbn [bubbleDown]. unfold silent. wp1; bools.
    - wp1. wp1. eapply wpd_conseq; [apply (IH (k - 1) i); rewrite ?zlen_swp; lia|]. intros ? d' s' [HL ->]. now rewrite zlen_swp in HL.
    - now wp1.
  Qed.
  Lemma swapRangeLoop_n fuel : forall i n a b (d : T) (s : S), 0 <= i -> 0 <= a -> 0 <= b -> a + n <= zlen d -> b + n <= zlen d ->
    Z.max 0 (n - i) < Z.of_nat fuel -> silent (swapRangeLoop fuel i n a b) d s.
  Proof.
    induction fuel as [|fuel IH]; intros i n a b d s Hi Ha Hb HA HB Hf; [lia|]. cbn [swapRangeLoop]. unfold silent. wp1; bools.
    - wp1. wp1. eapply wpd_conseq; [apply (IH (i + 1) n a b); rewrite ?zlen_swp; lia|]. intros ? d' s' [HL ->]. now rewrite zlen_swp in HL.
    - now wp1.
  Qed.
  Lemma swapRange_n a b n (d : T) (s : S) : 0 <= n -> 0 <= a -> 0 <= b -> a + n <= zlen d -> b + n <= zlen d -> silent (swapRange a b n) d s.
  Proof. intros. unfold swapRange. apply swapRangeLoop_n; lia. Qed.
  Lemma rotateLoop_n fuel : forall i j m (d : T) (s : S), 0 < i -> 0 < j -> 0 <= m - i -> m + j <= zlen d -> i + j <= Z.of_nat fuel ->
    silent (rotateLoop fuel i j m) d s.
  Proof.
    induction fuel as [|fuel IH]; intros i j m d s Hi Hj Hm Hb Hf; [lia|]. cbn [rotateLoop]. unfold silent. wp1; bools.
    - apply swapRange_n; lia.
    - wp1; bools; wp1; (eapply wpd_conseq; [apply swapRange_n; lia|]); intros ? d1 s1 [HL1 ->];
        (eapply wpd_conseq; [apply IH; lia|]); intros ? d2 s2 [HL2 ->]; split; congruence.
  Qed.
  Lemma rotate_n a m b (d : T) (s : S) : 0 <= a -> a < m < b -> b <= zlen d -> silent (rotate a m b) d s.
  Proof. intros. unfold rotate. apply rotateLoop_n; lia. Qed.

  (** ** Binary searches *)
  Lemma half_div i j : half i j = (i + j) / 2.
  Proof. unfold half. now rewrite Z.shiftr_div_pow2 by lia. Qed.
  Lemma half_cost i j h : i < j -> h = (i + j) / 2 -> i <= h < j /\ 1 + bitsLen (h - i) <= bitsLen (j - i) /\ 1 + bitsLen (j - (h + 1)) <= bitsLen (j - i).
  Proof.
    intros Hij ->. pose proof (Z.div_mod (i + j) 2 ltac:(lia)). pose proof (Z.mod_pos_bound (i + j) 2 ltac:(lia)).
    pose proof (Z.div_mod (j - i) 2 ltac:(lia)). pose proof (Z.mod_pos_bound (j - i) 2 ltac:(lia)).
    rewrite (bitsLen_half (j - i)) by lia. split; [lia|].
    pose proof (bitsLen_mono ((i + j) / 2 - i) ((j - i) / 2) ltac:(lia)). pose proof (bitsLen_mono (j - ((i + j) / 2 + 1)) ((j - i) / 2) ltac:(lia)). lia.
  Qed.

  Lemma bsearchLow_n fuel : forall i j a (d : T) (s : S),
    0 <= i <= j -> j <= zlen d -> 0 <= a < zlen d -> j - i < Z.of_nat fuel ->
    wpd (bsearchLow (reads lt) fuel i j a) (fun r d' s' => d' = d /\ i <= r <= j /\ cnt s' <= cnt s + bitsLen (j - i)) d s.
  Proof.
    induction fuel as [|fuel IH]; intros i j a d s Hi Hj Ha Hf; [lia|]. cbn [bsearchLow]. wp1; bools.
    - destruct (half_cost i j (half i j) ltac:(lia) (half_div i j)) as (H1 & H2 & H3). cbv zeta. set (h := half i j) in *. clearbody h. wp1. wp1. wp1.
      + eapply wpd_conseq; [apply (IH (h + 1) j); lia|]. intros r d' s1 (-> & Hr & Hs). repeat split; lia.
      + eapply wpd_conseq; [apply (IH i h); lia|]. intros r d' s1 (-> & Hr & Hs). repeat split; lia.
    - wp1. pose proof (bitsLen_0 (j - i)). repeat split; lia.
  Qed.
  Lemma bsearchHigh_n fuel : forall i j m (d : T) (s : S),
    0 <= i <= j -> j <= zlen d -> 0 <= m < zlen d -> j - i < Z.of_nat fuel ->
    wpd (bsearchHigh (reads ge) fuel i j m) (fun r d' s' => d' = d /\ i <= r <= j /\ cnt s' <= cnt s + bitsLen (j - i)) d s.
  Proof.
    induction fuel as [|fuel IH]; intros i j a d s Hi Hj Ha Hf; [lia|]. cbn [bsearchHigh]. wp1; bools.
    - destruct (half_cost i j (half i j) ltac:(lia) (half_div i j)) as (H1 & H2 & H3). cbv zeta. set (h := half i j) in *. clearbody h. wp1. wp1. wp1.
      + eapply wpd_conseq; [apply (IH (h + 1) j); lia|]. intros r d' s1 (-> & Hr & Hs). repeat split; lia.
      + eapply wpd_conseq; [apply (IH i h); lia|]. intros r d' s1 (-> & Hr & Hs). repeat split; lia.
    - wp1. pose proof (bitsLen_0 (j - i)). repeat split; lia.
  Qed.
  Lemma bsearchSym_n fuel : forall i j p (d : T) (s : S),
    0 <= i <= j -> j <= zlen d -> 0 <= p - j + 1 -> p - i < zlen d -> j - i < Z.of_nat fuel ->
    wpd (bsearchSym (reads ge) fuel i j p) (fun r d' s' => d' = d /\ i <= r <= j /\ cnt s' <= cnt s + bitsLen (j - i)) d s.
  Proof.
    induction fuel as [|fuel IH]; intros i j p d s Hi Hj Ha Hp Hf; [lia|]. cbn [bsearchSym]. wp1; bools.
    - destruct (half_cost i j (half i j) ltac:(lia) (half_div i j)) as (H1 & H2 & H3). cbv zeta. set (h := half i j) in *. clearbody h. wp1. wp1. wp1.
      + eapply wpd_conseq; [apply (IH (h + 1) j); lia|]. intros r d' s1 (-> & Hr & Hs). repeat split; lia.
      + eapply wpd_conseq; [apply (IH i h); lia|]. intros r d' s1 (-> & Hr & Hs). repeat split; lia.
    - wp1. pose proof (bitsLen_0 (j - i)). repeat split; lia.
  Qed.

  (** ** Merging n elements takes less than 3n comparisons *)
  Definition mergeCost (n : Z) : Z := 3 * n - bitsLen n - 2.

  Lemma symMerge_n stack : forall a m b (d : T) (s : S),
    0 <= a -> a < m < b -> b <= zlen d -> b - a - 1 < 2 ^ Z.of_nat stack ->
    wpd (symMerge (reads lt) (reads ge) stack a m b) (fun _ d' s' => zlen d' = zlen d /\ cnt s' <= cnt s + mergeCost (b - a)) d s.
  Proof.
    induction stack as [|stack IH]; intros a m b d s Ha Hm Hb Hst; [cbn in Hst; lia|].
    rewrite Nat2Z.inj_succ, Z.pow_succ_r in Hst by lia.
    pose proof (bitsLen_half_lin (b - a) ltac:(lia)) as HB. pose proof (bitsLen_half (b - a) ltac:(lia)) as HH.
    pose proof (Z.div_mod (b - a) 2 ltac:(lia)). pose proof (Z.mod_pos_bound (b - a) 2 ltac:(lia)). unfold mergeCost in *.
    cbn [symMerge]. wp1; bools.
    { wp1. eapply wpd_conseq; [apply bsearchLow_n; lia|]. intros i d1 s1 (-> & Hi & Hs1).
      eapply wpd_conseq; [apply bubbleUp_n; lia|]. intros ? d2 s2 [HL ->]. split; [exact HL|].
      pose proof (bitsLen_mono (b - m) (b - a) ltac:(lia)). lia. }
    wp1; bools.
    { wp1. eapply wpd_conseq; [apply bsearchHigh_n; lia|]. intros i d1 s1 (-> & Hi & Hs1).
      eapply wpd_conseq; [apply bubbleDown_n; lia|]. intros ? d2 s2 [HL ->]. split; [exact HL|].
      pose proof (bitsLen_mono (m - a) (b - a) ltac:(lia)). lia. }
    cbv zeta. rewrite half_div. pose proof (Z.div_mod (a + b) 2 ltac:(lia)). pose proof (Z.mod_pos_bound (a + b) 2 ltac:(lia)).
    set (mid := (a + b) / 2) in *. clearbody mid.
    destruct (if m >? mid then (mid + m - b, mid) else (a, m)) as [start0 r0] eqn:Hsr.
    assert (Hsr' : (m > mid /\ start0 = mid + m - b /\ r0 = mid) \/ (m <= mid /\ start0 = a /\ r0 = m)).
    { destruct (m >? mid) eqn:Hmm; bools; inversion Hsr; subst; lia. }
    clear Hsr. wp1. eapply wpd_conseq; [apply bsearchSym_n; lia|]. intros start d1 s1 (-> & Hstart & Hs1).
    assert (HS : bitsLen (r0 - start0) <= bitsLen (b - a) - 1) by (rewrite HH; pose proof (bitsLen_mono (r0 - start0) ((b - a) / 2) ltac:(lia)); lia).
    set (e := mid + m - start).
    wp1. apply wpd_conseq with (P := fun _ d' s' => zlen d' = zlen d /\ s' = s1).
    { unfold e. wp1; bools; [apply rotate_n; lia|now wp1]. }
    intros ? d2 s2 [HL2 ->].
    assert (HX : bitsLen (mid - a) = bitsLen (b - a) - 1) by (replace (mid - a) with ((b - a) / 2) by lia; lia).
    assert (HY : bitsLen (b - a) - 1 <= bitsLen (b - mid)).
    { rewrite HH. pose proof (bitsLen_mono ((b - a) / 2) (b - mid) ltac:(lia)). lia. }
    assert (HZ : forall n, 2 <= n -> bitsLen n + 2 <= 3 * n) by (intros n Hn; pose proof (bitsLen_lin n ltac:(lia)); lia).
    wp1. apply wpd_conseq with (P := fun _ d' s' => zlen d' = zlen d /\ cnt s' <= cnt s1 + (if (a <? start) && (start <? mid) then mergeCost (mid - a) else 0)).
    { unfold mergeCost. destruct ((a <? start) && (start <? mid))%bool eqn:EA; bools.
      - eapply wpd_conseq; [apply IH; lia|]. intros ? d3 s3 [HL3 Hs3]. split; [congruence|exact Hs3].
      - wp1. split; [exact HL2|lia]. }
    intros ? d3 s3 [HL3 Hs3]. unfold mergeCost in *.
    wp1; bools.
    - eapply wpd_conseq; [apply IH; lia|]. intros ? d4 s4 [HL4 Hs4]. split; [congruence|].
      destruct (_ && _) in Hs3; lia.
    - wp1. split; [exact HL3|]. destruct (_ && _) eqn:EA in Hs3; lia.
  Qed.

  (** ** The whole of Stable *)
  Lemma stableBlocks_n fuel : forall a n (d : T) (s : S),
    0 <= a <= n -> n <= zlen d -> n - a < Z.of_nat fuel ->
    wpd (stableBlocks (reads lt) fuel a (a + 20) n 20) (fun a' d' s' => zlen d' = zlen d /\ a <= a' <= n /\ n < a' + 20 /\ cnt s' <= cnt s + 19 * (a' - a)) d s.
  Proof.
    induction fuel as [|fuel IH]; intros a n d s Ha Hn Hf; [lia|]. cbn [stableBlocks]. wp1; bools.
    - wp1. eapply wpd_conseq; [apply insertionSort_n; lia|]. intros ? d1 s1 [HL1 Hs1].
      eapply wpd_conseq; [apply (IH (a + 20) n); lia|]. intros a' d2 s2 (HL2 & H1 & H2 & Hs2). repeat split; try congruence; lia.
    - wp1. repeat split; lia.
  Qed.
  Lemma mergePass_n stack fuel : forall a n bs (d : T) (s : S),
    0 <= a <= n -> n <= zlen d -> 0 < bs -> n - a < Z.of_nat fuel -> n < 2 ^ Z.of_nat stack ->
    wpd (mergePass (reads lt) (reads ge) stack fuel a (a + 2 * bs) n bs)
      (fun a' d' s' => zlen d' = zlen d /\ a <= a' <= n /\ cnt s' <= cnt s + 3 * (a' - a)) d s.
  Proof.
    induction fuel as [|fuel IH]; intros a n bs d s Ha Hn Hbs Hf Hst; [lia|]. cbn [mergePass]. wp1; bools.
    - wp1. eapply wpd_conseq; [apply symMerge_n; lia|]. intros ? d1 s1 [HL1 Hs1].
      eapply wpd_conseq; [apply (IH (a + 2 * bs) n bs); lia|]. intros a' d2 s2 (HL2 & H1 & Hs2). unfold mergeCost in Hs1.
      pose proof (bitsLen_0 (a + 2 * bs - a)). repeat split; try congruence; lia.
    - wp1. repeat split; lia.
  Qed.
  Lemma mergeLoop_n stack fuel : forall n bs k (d : T) (s : S),
    0 <= n <= zlen d -> 0 < bs -> Z.max 0 (n - bs) < Z.of_nat fuel -> n < 2 ^ Z.of_nat stack -> n <= bs * 2 ^ Z.of_nat k ->
    wpd (mergeLoop (reads lt) (reads ge) stack fuel n bs) (fun _ d' s' => cnt s' <= cnt s + 3 * n * Z.of_nat k) d s.
  Proof.
    induction fuel as [|fuel IH]; intros n bs k d s Hn Hbs Hf Hst Hk; [lia|]. cbn [mergeLoop]. wp1; bools.
    - destruct k as [|k]; [cbn in Hk; lia|]. rewrite Nat2Z.inj_succ, Z.pow_succ_r in Hk by lia.
      wp1. eapply wpd_conseq; [apply (mergePass_n stack (Z.to_nat n + 1) 0 n bs); lia|]. intros a d1 s1 (HL1 & H1 & Hs1). cbv zeta.
      wp1. apply wpd_conseq with (P := fun _ d' s' => zlen d' = zlen d /\ cnt s' <= cnt s1 + 3 * (n - a)).
      { wp1; bools.
        - eapply wpd_conseq; [apply symMerge_n; lia|]. intros ? d2 s2 [HL2 Hs2]. split; [congruence|]. unfold mergeCost in Hs2.
          pose proof (bitsLen_0 (n - a)). lia.
        - wp1. split; [exact HL1|lia]. }
      intros ? d2 s2 [HL2 Hs2]. eapply wpd_conseq; [apply (IH n (bs * 2) k); lia|]. intros ? d3 s3 Hs3. cbn beta in Hs3. nia.
    - wp1. nia.
  Qed.

  Lemma stable_n stack (d : T) (s : S) : zlen d < 2 ^ Z.of_nat stack ->
    wpd (stable (reads lt) (reads ge) stack (zlen d)) (fun _ d' s' => cnt s' <= cnt s + 3 * zlen d * bitsLen (zlen d) + 19 * zlen d) d s.
  Proof.
    intros Hst. pose proof (zlen_nonneg d) as H0. unfold stable.
    wp1. eapply wpd_conseq; [apply (stableBlocks_n _ 0 (zlen d)); lia|]. intros a d1 s1 (HL1 & H1 & H2 & Hs1).
    wp1. eapply wpd_conseq; [apply insertionSort_n; lia|]. intros ? d2 s2 [HL2 Hs2].
    eapply wpd_conseq; [apply (mergeLoop_n stack _ (zlen d) 20 (Z.to_nat (bitsLen (zlen d)))); try lia|].
    - rewrite Z2Nat.id by apply bitsLen_0. unfold bitsLen. destruct (Z.leb_spec (zlen d) 0); [lia|].
      pose proof (Z.log2_spec (zlen d) ltac:(lia)) as HL. rewrite Z.add_1_r. lia.
    - intros ? d3 s3 Hs3. cbn beta in Hs3. rewrite Z2Nat.id in Hs3 by apply bitsLen_0. lia.
  Qed.
End Cost.

Lemma Stable_cost {E S} (less : E -> E -> S -> bool * S) (d : list E) (s : S) :
  exists d' s' k, Stable d (counting less) (s, 0) = Ok (d', (s', k)) /\
    k <= 3 * zlen d * bitsLen (zlen d) + 19 * zlen d.
Proof.
  destruct d as [|x d0].
  { exists [], s, 0. split; [reflexivity|]. cbn. lia. }
  set (d := x :: d0). set (less' := counting less).
  unfold Stable, StableP, StableW, StableWWithin.
  pose proof (stable_n x (always less') (notLessP (always less')) snd) as Hc.
  assert (H1 : forall d x y sn, snd (snd (always less' d x y sn)) = snd sn + 1).
  { intros d1 x1 y1 sn. rewrite always_ok. cbn [snd]. unfold less', counting. now destruct (less _ _ _). }
  assert (H2 : forall d x y sn, snd (snd (notLessP (always less') d x y sn)) = snd sn + 1).
  { intros d1 x1 y1 sn. rewrite notLessP_always. cbn [snd]. unfold less', counting. now destruct (less _ _ _). }
  pose proof (pow2_S_gt (List.length d)) as Hst. change (Z.of_nat (List.length d)) with (zlen d) in Hst.
  specialize (Hc H1 H2 (Datatypes.S (List.length d)) d (s, 0) Hst). unfold wpd in Hc.
  destruct (stable _ _ _ _ (d, (s, 0))) as [[u| | |e] [d' [s' k]]] eqn:Hr; try contradiction.
  2: { exfalso. eapply no_user; [apply always_total|apply notLess_total| |exact Hr]. now apply good_stable. }
  exists d', s', k. split; [reflexivity|]. cbn [snd] in Hc. lia.
Qed.

Lemma Stable_comparisons {E S} (less : E -> E -> S -> bool * S) (d : list E) (s : S) :
  exists d' s' k, Stable d (counting less) (s, 0) = Ok (d', (s', k)) /\
    k <= 3 * zlen d * (Z.log2 (zlen d) + 1) + 19 * zlen d.
Proof.
  destruct (Stable_cost less d s) as (d' & s' & k & H & Hk). exists d', s', k. split; [exact H|].
  unfold bitsLen in Hk. destruct (Z.leb_spec (zlen d) 0); [|exact Hk].
  pose proof (zlen_nonneg d). pose proof (Z.log2_nonneg (zlen d)). nia.
Qed.
