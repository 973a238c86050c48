(** Proofs about xsort: number of comparisons made by Sort whatever the
    comparator answers. *)
From Coq Require Import Permutation.
From Verif Require Import Base Arr XSort_Model XSort_Spec XSort_Panic XSort_Proofs XSort_Pdq XSort_Stab XSort_StableCost.
Local Open Scope cb_scope.

Section Cost.
  Context {E S : Type}.
  Variable dflt : E.
  Variable lt ge : list E -> E -> E -> S -> (bool + string) * S.
  Variable cnt : S -> Z.
  Hypothesis Hlt : forall d x y s, cnt (snd (lt d x y s)) = cnt s + 1.
  Hypothesis Hge : forall d x y s, cnt (snd (ge d x y s)) = cnt s + 1.
  Local Notation "d .[ i ]" := (at_ dflt d i) (at level 2, format "d .[ i ]").
  Let any : E -> E -> bool := fun _ _ => true.
  Local Notation swp := (swp dflt).
  Local Notation permr := (permr dflt).
  Local Notation T := (list E).

  Ltac wp1 :=
    match goal with
    | |- wpd (ltAt _ _ _) _ _ _ => apply (n_ltAt dflt lt ge cnt Hlt); [try lia|try lia|let z := fresh "z" in intros ? z ?]
    | |- wpd (geAt _ _ _) _ _ _ => apply (n_geAt dflt lt ge cnt Hge); [try lia|try lia|let z := fresh "z" in intros ? z ?]
    | _ => wp1_ dflt lt ge any
    end.

  Lemma siftDownLoop_k k : forall fuel root hi first (d : T) (s : S),
    0 <= first -> 0 <= root -> first + hi <= zlen d -> Z.max 0 (hi - root) < Z.of_nat fuel ->
    hi <= (root + 1) * 2 ^ Z.of_nat k ->
    wpd (siftDownLoop (reads lt) (reads ge) fuel root hi first)
      (fun _ d' s' => zlen d' = zlen d /\ cnt s' <= cnt s + 2 * Z.of_nat k) d s.
  Proof.
    induction k as [|k IH]; intros fuel root hi first d s Hfi Hr Hl Hf Hk;
      (destruct fuel as [|fuel]; [lia|]); cbn [siftDownLoop]; cbv zeta; wp1; bools.
    - wp1. split; [auto|lia].
    - change (2 ^ Z.of_nat 0) with 1 in Hk. lia.
    - wp1. split; [auto|lia].
    - rewrite Nat2Z.inj_succ, Z.pow_succ_r in Hk by lia.
      assert (0 < 2 ^ Z.of_nat k) by (apply Z.pow_pos_nonneg; lia).
      assert (Hstep : forall (bb : bool) s1,
        (bb = true -> 2 * root + 1 + 1 < hi) -> cnt s1 <= cnt s + 1 ->
        wpd (g <- geAt (reads ge) (first + root) (first + (if bb then 2 * root + 1 + 1 else 2 * root + 1)) ;;
          (if g then cret tt
          else swap (first + root) (first + (if bb then 2 * root + 1 + 1 else 2 * root + 1)) ;;
            siftDownLoop (reads lt) (reads ge) fuel (if bb then 2 * root + 1 + 1 else 2 * root + 1) hi first))
        (fun _ d' s' => zlen d' = zlen d /\ cnt s' <= cnt s + 2 * Z.of_nat (Datatypes.S k)) d s1).
      { intros bb s1 Hbb Hs1.
        set (ch := if bb then 2 * root + 1 + 1 else 2 * root + 1).
        assert (Hch : 2 * root + 1 <= ch < hi) by (unfold ch; destruct bb; [specialize (Hbb eq_refl)|]; lia).
        clearbody ch. wp1. wp1. wp1.
        - wp1. split; [auto|lia].
        - wp1. wp1. eapply wpd_conseq; [apply IH; rewrite ?zlen_swp; try lia; nia|].
          intros ? d' s' [HL Hs]. rewrite zlen_swp in HL. split; [auto|lia]. }
      wp1. wp1; bools.
      + wp1. apply Hstep; auto. lia.
      + apply (Hstep false); auto. discriminate. lia.
  Qed.

  Lemma siftDown_k k lo hi first (d : T) (s : S) :
    0 <= first -> 0 <= lo -> first + hi <= zlen d -> hi <= 2 ^ Z.of_nat k ->
    wpd (siftDown (reads lt) (reads ge) lo hi first)
      (fun _ d' s' => zlen d' = zlen d /\ cnt s' <= cnt s + 2 * Z.of_nat k) d s.
  Proof.
    intros. unfold siftDown. assert (0 < 2 ^ Z.of_nat k) by (apply Z.pow_pos_nonneg; lia).
    apply siftDownLoop_k; try lia; nia.
  Qed.

  Lemma heapBuild_k k fuel : forall i hi first (d : T) (s : S),
    0 <= first -> first + hi <= zlen d -> 0 <= i + 1 < Z.of_nat fuel -> hi <= 2 ^ Z.of_nat k ->
    wpd (heapBuild (reads lt) (reads ge) fuel i hi first)
      (fun _ d' s' => zlen d' = zlen d /\ cnt s' <= cnt s + (i + 1) * (2 * Z.of_nat k)) d s.
  Proof.
    induction fuel as [|fuel IH]; intros i hi first d s Hfi Hl Hf Hk; [lia|].
    cbn [heapBuild]. wp1; bools.
    - wp1. eapply wpd_conseq; [apply (siftDown_k k); lia|].
      intros ? d1 s1 [HL1 Hs1]. eapply wpd_conseq; [apply IH; lia|].
      intros ? d2 s2 [HL2 Hs2]. split; [congruence|lia].
    - wp1. split; [auto|nia].
  Qed.

  Lemma heapPop_k k fuel : forall i first (d : T) (s : S),
    0 <= first -> first + i + 1 <= zlen d -> 0 <= i + 1 < Z.of_nat fuel -> i <= 2 ^ Z.of_nat k ->
    wpd (heapPop (reads lt) (reads ge) fuel i 0 first)
      (fun _ d' s' => cnt s' <= cnt s + (i + 1) * (2 * Z.of_nat k)) d s.
  Proof.
    induction fuel as [|fuel IH]; intros i first d s Hfi Hl Hf Hk; [lia|].
    cbn [heapPop]. wp1; bools.
    - wp1. wp1. wp1. eapply wpd_conseq; [apply (siftDown_k k); rewrite ?zlen_swp; lia|].
      intros ? d1 s1 [HL1 Hs1]. rewrite zlen_swp in HL1. eapply wpd_conseq; [apply IH; lia|].
      intros ? d2 s2 Hs2. cbn beta in Hs2. lia.
    - wp1. nia.
  Qed.

  Lemma heapSort_k a b (d : T) (s : S) : 0 <= a -> 1 < b - a -> b <= zlen d ->
    wpd (heapSort (reads lt) (reads ge) a b) (fun _ d' s' => cnt s' <= cnt s + 5 * (b - a) * (Z.log2 (b - a) + 1)) d s.
  Proof.
    intros Ha Hab Hb. unfold heapSort.
    set (k := Z.to_nat (Z.log2 (b - a) + 1)).
    pose proof (Z.log2_spec (b - a) ltac:(lia)) as [_ Hk].
    pose proof (Z.log2_nonneg (b - a)).
    assert (Hk2 : Z.of_nat k = Z.log2 (b - a) + 1) by (unfold k; lia).
    replace (Z.succ (Z.log2 (b - a))) with (Z.of_nat k) in Hk by lia.
    rewrite <- Hk2. clearbody k.
    wp1. eapply wpd_conseq; [apply (heapBuild_k k); lia|].
    intros ? d1 s1 [HL1 Hs1]. eapply wpd_conseq; [apply (heapPop_k k); lia|].
    intros ? d2 s2 Hs2. cbn beta in Hs2.
    assert ((b - a - 1) ÷ 2 + 1 <= b - a) by lia. 
    assert (Hq : ((b - a - 1) ÷ 2 + 1) * (2 * Z.of_nat k) <= (b - a) * (2 * Z.of_nat k)) by nia.
    nia.
  Qed.

  Lemma advI_k fuel : forall i j a (d : T) (s : S),
    0 <= a -> 0 <= i -> a < zlen d -> j < zlen d -> Z.max 0 (j - i + 1) < Z.of_nat fuel ->
    wpd (advI (reads lt) fuel i j a) (fun i' d' s' => d' = d /\ i <= i' /\ (i' <= j + 1 \/ i' = i) /\
      cnt s' = cnt s + (i' - i) + (if i' <=? j then 1 else 0)) d s.
  Proof.
    induction fuel as [|fuel IH]; intros i j a d s Ha Hi Hal Hj Hf; [lia|].
    cbn [advI]. wp1. wp1; bools.
    - wp1. wp1.
      + eapply wpd_conseq; [apply IH; lia|]. intros i' d' s' (-> & Hx1 & Hx2 & Hx3).
        repeat split; lia.
      + wp1. destruct (Z.leb_spec i j); repeat split; lia.
    - wp1. destruct (Z.leb_spec i j); repeat split; lia.
  Qed.

  Lemma advJ_k fuel : forall i j a (d : T) (s : S),
    0 <= a -> 0 <= i -> a < zlen d -> j < zlen d -> Z.max 0 (j - i + 1) < Z.of_nat fuel ->
    wpd (advJ (reads ge) fuel i j a) (fun j' d' s' => d' = d /\ j' <= j /\ (i - 1 <= j' \/ j' = j) /\
      cnt s' = cnt s + (j - j') + (if i <=? j' then 1 else 0)) d s.
  Proof.
    induction fuel as [|fuel IH]; intros i j a d s Ha Hi Hal Hj Hf; [lia|].
    cbn [advJ]. wp1. wp1; bools.
    - wp1. wp1.
      + eapply wpd_conseq; [apply IH; lia|]. intros i' d' s' (-> & Hx1 & Hx2 & Hx3).
        repeat split; lia.
      + wp1. destruct (Z.leb_spec i j); repeat split; lia.
    - wp1. destruct (Z.leb_spec i j); repeat split; lia.
  Qed.

  Lemma eqAdvI_k fuel : forall i j a (d : T) (s : S),
    0 <= a -> 0 <= i -> a < zlen d -> j < zlen d -> Z.max 0 (j - i + 1) < Z.of_nat fuel ->
    wpd (eqAdvI (reads ge) fuel i j a) (fun i' d' s' => d' = d /\ i <= i' /\ (i' <= j + 1 \/ i' = i) /\
      cnt s' = cnt s + (i' - i) + (if i' <=? j then 1 else 0)) d s.
  Proof.
    induction fuel as [|fuel IH]; intros i j a d s Ha Hi Hal Hj Hf; [lia|].
    cbn [eqAdvI]. wp1. wp1; bools.
    - wp1. wp1.
      + eapply wpd_conseq; [apply IH; lia|]. intros i' d' s' (-> & Hx1 & Hx2 & Hx3).
        repeat split; lia.
      + wp1. destruct (Z.leb_spec i j); repeat split; lia.
    - wp1. destruct (Z.leb_spec i j); repeat split; lia.
  Qed.

  Lemma eqAdvJ_k fuel : forall i j a (d : T) (s : S),
    0 <= a -> 0 <= i -> a < zlen d -> j < zlen d -> Z.max 0 (j - i + 1) < Z.of_nat fuel ->
    wpd (eqAdvJ (reads lt) fuel i j a) (fun j' d' s' => d' = d /\ j' <= j /\ (i - 1 <= j' \/ j' = j) /\
      cnt s' = cnt s + (j - j') + (if i <=? j' then 1 else 0)) d s.
  Proof.
    induction fuel as [|fuel IH]; intros i j a d s Ha Hi Hal Hj Hf; [lia|].
    cbn [eqAdvJ]. wp1. wp1; bools.
    - wp1. wp1.
      + eapply wpd_conseq; [apply IH; lia|]. intros i' d' s' (-> & Hx1 & Hx2 & Hx3).
        repeat split; lia.
      + wp1. destruct (Z.leb_spec i j); repeat split; lia.
    - wp1. destruct (Z.leb_spec i j); repeat split; lia.
  Qed.

  Lemma partitionLoop_k fuel : forall i j a b (d : T) (s : S),
    0 <= a < i -> a <= j -> i <= j + 2 -> j < b -> b <= zlen d ->
    Z.max 0 (j - i + 1) < Z.of_nat fuel ->
    wpd (partitionLoop (reads lt) (reads ge) fuel i j a) (fun j' d' s' => zlen d' = zlen d /\
      a <= j' <= j /\ cnt s' <= cnt s + (j - i + 3)) d s.
  Proof.
    induction fuel as [|fuel IH]; intros i j a b d s Ha Haj Hij Hj Hb Hf; [lia|].
    cbn [partitionLoop]. wp1. eapply wpd_conseq; [apply advI_k; unfold scanFuel; lia|].
    intros i' d1 s1 (-> & Hi1 & Hi2 & Hi3). wp1.
    eapply wpd_conseq; [apply advJ_k; unfold scanFuel; lia|].
    intros j' d1 s2 (-> & Hj1 & Hj2 & Hj3). wp1; bools.
    - wp1. split; [auto|]. destruct (Z.leb_spec i' j), (Z.leb_spec i' j'); lia.
    - wp1. wp1. eapply wpd_conseq; [apply (IH (i' + 1) (j' - 1) a b); rewrite ?zlen_swp; lia|].
      intros j2 d2 s3 (HL & Hr & Hs). rewrite zlen_swp in HL. split; [auto|].
      destruct (Z.leb_spec i' j), (Z.leb_spec i' j'); lia.
  Qed.

  Lemma partition_k a b pivot (d : T) (s : S) :
    0 <= a -> a + 1 < b -> b <= zlen d -> a <= pivot < b ->
    wpd (partition (reads lt) (reads ge) a b pivot) (fun r d' s' => cnt s' <= cnt s + (b - a + 1)) d s.
  Proof.
    intros Ha Hab Hb Hp. unfold partition. wp1. wp1. cbv zeta. wp1.
    eapply wpd_conseq; [apply advI_k; unfold scanFuel; rewrite ?zlen_swp; lia|].
    intros i d1 s1 (-> & Hi1 & Hi2 & Hi3). wp1.
    eapply wpd_conseq; [apply advJ_k; unfold scanFuel; rewrite ?zlen_swp; lia|].
    intros j d1 s2 (-> & Hj1 & Hj2 & Hj3).
    pose proof (zlen_swp dflt d a pivot) as HL0.
    set (d0 := swp d a pivot) in *. clearbody d0. wp1; bools.
    - wp1. wp1. wp1. destruct (Z.leb_spec i (b - 1)), (Z.leb_spec i j); lia.
    - wp1. wp1. wp1.
      eapply wpd_conseq; [apply (partitionLoop_k _ _ _ a b); unfold scanFuel; rewrite ?zlen_swp; lia|].
      intros j2 d2 s3 (HL & Hr & Hs). rewrite zlen_swp in HL. wp1. wp1. wp1.
      destruct (Z.leb_spec i (b - 1)), (Z.leb_spec i j); lia.
  Qed.

  Lemma partitionEqualLoop_k fuel : forall i j a b (d : T) (s : S),
    0 <= a < i -> a <= j -> i <= j + 2 -> j < b -> b <= zlen d ->
    Z.max 0 (j - i + 1) < Z.of_nat fuel ->
    wpd (partitionEqualLoop (reads lt) (reads ge) fuel i j a) (fun _ d' s' => cnt s' <= cnt s + (j - i + 3)) d s.
  Proof.
    induction fuel as [|fuel IH]; intros i j a b d s Ha Haj Hij Hj Hb Hf; [lia|].
    cbn [partitionEqualLoop]. wp1. eapply wpd_conseq; [apply eqAdvI_k; unfold scanFuel; lia|].
    intros i' d1 s1 (-> & Hi1 & Hi2 & Hi3). wp1.
    eapply wpd_conseq; [apply eqAdvJ_k; unfold scanFuel; lia|].
    intros j' d1 s2 (-> & Hj1 & Hj2 & Hj3). wp1; bools.
    - wp1. destruct (Z.leb_spec i' j), (Z.leb_spec i' j'); lia.
    - wp1. wp1. eapply wpd_conseq; [apply (IH (i' + 1) (j' - 1) a b); rewrite ?zlen_swp; lia|].
      intros j2 d2 s3 Hs. cbn beta in Hs.
      destruct (Z.leb_spec i' j), (Z.leb_spec i' j'); lia.
  Qed.

  Lemma partitionEqual_k a b pivot (d : T) (s : S) :
    0 <= a -> a + 1 < b -> b <= zlen d -> a <= pivot < b ->
    wpd (partitionEqual (reads lt) (reads ge) a b pivot) (fun r d' s' => cnt s' <= cnt s + (b - a + 1)) d s.
  Proof.
    intros Ha Hab Hb Hp. unfold partitionEqual. wp1. wp1.
    eapply wpd_conseq; [apply (partitionEqualLoop_k _ _ _ a b); unfold scanFuel; rewrite ?zlen_swp; lia|].
    intros m d2 s3 Hs. cbn beta in Hs. lia.
  Qed.

  Lemma order2_k i j sw (d : T) (s : S) : 0 <= i < zlen d -> 0 <= j < zlen d ->
    wpd (order2 (reads lt) i j sw) (fun r d' s' => cnt s' = cnt s + 1) d s.
  Proof. intros. unfold order2. wp1. wp1. wp1. auto. Qed.

  Lemma median_k lo hi i j k sw (d : T) (s : S) :
    0 <= lo -> hi <= zlen d -> lo <= i < hi -> lo <= j < hi -> lo <= k < hi ->
    wpd (median (reads lt) i j k sw) (fun r d' s' => d' = d /\ lo <= fst r < hi /\ cnt s' = cnt s + 3) d s.
  Proof.
    intros Hl Hh Hi Hj Hk. unfold median.
    wp1. eapply wpd_conseq; [apply wpd_and; [apply (order2_spec dflt lt ge any); lia|apply order2_k; lia]|].
    intros [[x1 y1] sw1] d1 s1 [[-> Hy1] Hk1]. cbn in Hy1.
    wp1. eapply wpd_conseq; [apply wpd_and; [apply (order2_spec dflt lt ge any); lia|apply order2_k; lia]|].
    intros [[x2 y2] sw2] d1 s2 [[-> Hy2] Hk2]. cbn in Hy2.
    wp1. eapply wpd_conseq; [apply wpd_and; [apply (order2_spec dflt lt ge any); lia|apply order2_k; lia]|].
    intros [[x3 y3] sw3] d1 s3 [[-> Hy3] Hk3]. cbn in Hy3. wp1. cbn. repeat split; try lia.
  Qed.

  Lemma choosePivot_k a b (d : T) (s : S) : 0 <= a -> a < b -> b <= zlen d ->
    wpd (choosePivot (reads lt) a b) (fun r d' s' => cnt s' <= cnt s + 12) d s.
  Proof.
    intros Ha Hab Hb. unfold choosePivot. cbv zeta. wp1.
    apply wpd_conseq with (P := fun r d' s' => cnt s' <= cnt s + 12).
    - wp1; bools.
      + wp1.
        apply wpd_conseq with (P := fun r d' s' => d' = d /\
          (a <= fst (fst (fst r)) < b /\ a <= snd (fst (fst r)) < b /\ a <= snd (fst r) < b) /\ cnt s' <= cnt s + 9).
        * wp1; bools.
          -- wp1. unfold medianAdjacent.
             eapply wpd_conseq; [apply (median_k a b); lia|].
             intros [i sw1] d1 s1 (-> & Hy1 & Hk1). cbn in Hy1. wp1.
             eapply wpd_conseq; [apply (median_k a b); lia|].
             intros [j sw2] d1 s2 (-> & Hy2 & Hk2). cbn in Hy2. wp1.
             eapply wpd_conseq; [apply (median_k a b); lia|].
             intros [k sw3] d1 s3 (-> & Hy3 & Hk3). cbn in Hy3. wp1. cbn. split; [auto|lia].
          -- wp1. cbn. split; [auto|lia].
        * intros [[[i j] k] sw] d1 s1 (-> & (Hx1 & Hx2 & Hx3) & Hs). cbn in *. cbn iota.
          eapply wpd_conseq; [apply (median_k a b); lia|].
          intros r d' s' (_ & _ & Hk4). lia.
      + wp1. lia.
    - intros [j sw] d1 s1 H1. cbn iota. wp1. exact H1.
  Qed.

  Lemma reverseLoop_k fuel : forall i j (d : T) (s : S),
    0 <= i -> j < zlen d -> Z.max 0 (j - i + 1) < Z.of_nat fuel ->
    wpd (reverseLoop fuel i j) (fun _ d' s' => s' = s) d s.
  Proof.
    induction fuel as [|fuel IH]; intros i j d s Hi Hj Hf; [lia|].
    cbn [reverseLoop]. wp1; bools.
    - wp1. wp1. apply IH; rewrite ?zlen_swp; lia.
    - wp1. auto.
  Qed.

  Lemma breakLoop_k fuel : forall idx last random a b (d : T) (s : S),
    0 <= a -> b <= zlen d -> 0 < b - a -> a <= idx -> last < b ->
    Z.max 0 (last - idx + 1) < Z.of_nat fuel ->
    wpd (breakLoop fuel idx last random (nextPowerOfTwo (b - a)) (b - a) a)
      (fun _ d' s' => s' = s) d s.
  Proof.
    induction fuel as [|fuel IH]; intros idx last random a b d s Ha Hb Hab Hi Hl Hf; [lia|].
    cbn [breakLoop]. wp1; bools.
    - cbv zeta. set (r := xorshiftNext random). clearbody r.
      pose proof (land_mask_bound r (b - a) Hab) as Hm.
      pose proof (nextPow2_bounds (b - a) Hab) as Hn.
      set (o := Z.land r (nextPowerOfTwo (b - a) - 1)) in *. clearbody o.
      assert (Ho : 0 <= (if o >=? b - a then o - (b - a) else o) < b - a).
      { destruct (o >=? b - a) eqn:Hc; bools; lia. }
      set (o2 := if o >=? b - a then o - (b - a) else o) in *. clearbody o2.
      wp1. wp1. apply IH; rewrite ?zlen_swp; lia.
    - wp1. auto.
  Qed.

  Lemma breakPatterns_k a b (d : T) (s : S) : 0 <= a -> b <= zlen d ->
    wpd (breakPatterns a b) (fun _ d' s' => s' = s) d s.
  Proof.
    intros Ha Hb. unfold breakPatterns. wp1; bools.
    - apply breakLoop_k; lia.
    - wp1. auto.
  Qed.

  Lemma pisAdvance_k fuel : forall i b (d : T) (s : S),
    0 < i -> b <= zlen d -> Z.max 0 (b - i) < Z.of_nat fuel ->
    wpd (pisAdvance (reads ge) fuel i b) (fun i' d' s' => cnt s' <= cnt s + (i' - i) + 1) d s.
  Proof.
    induction fuel as [|fuel IH]; intros i b d s Hi Hb Hf; [lia|].
    cbn [pisAdvance]. wp1. wp1; bools.
    - wp1. wp1.
      + eapply wpd_conseq; [apply IH; lia|]. intros i' d' s' Hs. cbn beta in Hs. lia.
      + wp1. lia.
    - wp1. lia.
  Qed.

  (** The shift to the left may leave the range that is being sorted. *)
  Lemma pisShiftLeft_k fuel : forall j (d : T) (s : S), 0 <= j < zlen d -> j < Z.of_nat fuel ->
    wpd (pisShiftLeft (reads ge) fuel j) (fun _ d' s' => zlen d' = zlen d /\ cnt s' <= cnt s + j) d s.
  Proof.
    induction fuel as [|fuel IH]; intros j d s Hj Hf; [lia|].
    cbn [pisShiftLeft]. wp1; bools.
    - wp1. wp1. wp1.
      + wp1. split; [auto|lia].
      + wp1. wp1. eapply wpd_conseq; [apply (IH (j - 1)); rewrite ?zlen_swp; lia|].
        intros ? d' s' [HL Hs]. rewrite zlen_swp in HL. split; [auto|lia].
    - wp1. split; [auto|lia].
  Qed.
  Lemma pisShiftRight_k fuel : forall j b (d : T) (s : S),
    0 < j -> b <= zlen d -> Z.max 0 (b - j) < Z.of_nat fuel ->
    wpd (pisShiftRight (reads ge) fuel j b) (fun _ d' s' => zlen d' = zlen d /\ cnt s' <= cnt s + Z.max 0 (b - j)) d s.
  Proof.
    induction fuel as [|fuel IH]; intros j b d s Hj Hl Hf; [lia|].
    cbn [pisShiftRight]. wp1; bools.
    - wp1. wp1. wp1.
      + wp1. split; [auto|lia].
      + wp1. wp1. eapply wpd_conseq; [apply (IH (j + 1) b); rewrite ?zlen_swp; lia|].
        intros ? d' s' [HL Hs]. rewrite zlen_swp in HL. split; [auto|lia].
    - wp1. split; [auto|lia].
  Qed.

  Lemma pisLoop_k steps : forall i a b (d : T) (s : S),
    0 <= a < i -> i <= b -> b <= zlen d ->
    wpd (pisLoop (reads ge) steps i a b) (fun r d' s' => zlen d' = zlen d /\ cnt s' <= cnt s + Z.of_nat steps * (3 * zlen d)) d s.
  Proof.
    induction steps as [|steps IH]; intros i a b d s Ha Hib Hb.
    { cbn [pisLoop]. wp1. split; [auto|lia]. }
    cbn [pisLoop]. wp1.
    eapply wpd_conseq; [apply wpd_and; [apply (pisAdvance_spec dflt lt ge any); lia|apply pisAdvance_k; lia]|].
    intros i' d1 s1 [(-> & Hi1 & Hi2 & _) Hc1]. wp1; bools.
    { wp1. split; [auto|nia]. }
    wp1; bools.
    { wp1. split; [auto|nia]. }
    wp1. wp1. wp1.
    pose proof (zlen_swp dflt d i' (i' - 1)) as HL1. set (d1 := swp d i' (i' - 1)) in *. clearbody d1.
    apply wpd_conseq with (P := fun _ d' s' => zlen d' = zlen d /\ cnt s' <= cnt s1 + i').
    { wp1; bools.
      - eapply wpd_conseq; [apply pisShiftLeft_k; lia|]. intros ? d2 s2 [HL2 Hc2]. split; [congruence|lia].
      - wp1. split; [auto|lia]. }
    intros ? d2 s2 [HL2 Hc2]. wp1.
    apply wpd_conseq with (P := fun _ d' s' => zlen d' = zlen d /\ cnt s' <= cnt s2 + b).
    { wp1; bools.
      - eapply wpd_conseq; [apply pisShiftRight_k; lia|]. intros ? d3 s3 [HL3 Hc3]. split; [congruence|lia].
      - wp1. split; [auto|lia]. }
    intros ? d3 s3 [HL3 Hc3].
    eapply wpd_conseq; [apply (IH i' a b); lia|]. intros r d4 s4 [HL4 Hc4]. split; [congruence|]. rewrite HL3 in Hc4. nia.
  Qed.

  (** What a (recursive) call on [a,b) may cost in a slice of [n] elements. *)
  Definition costs (n a b : Z) (m : CM (@st E S) unit) : Prop :=
    forall d s, zlen d = n -> wpd m (fun _ d' s' => zlen d' = n /\ cnt s' <= cnt s + 19 * n * (b - a)) d s.

  Lemma pdqLoop_k n self fuel : forall a b limit wb wp (d : T) (s : S),
    0 <= a <= b -> b <= n -> zlen d = n ->
    (forall a' b' lim, a <= a' <= b' -> b' <= b -> 2 * (b' - a') <= b - a -> 12 < b - a -> costs n a' b' (self a' b' lim)) ->
    b - a < Z.of_nat fuel ->
    wpd (pdqLoop (reads lt) (reads ge) self fuel a b limit wb wp)
      (fun _ d' s' => zlen d' = n /\ cnt s' <= cnt s + 19 * n * (b - a)) d s.
  Proof.
    induction fuel as [|fuel IH]; intros a b limit wb wp d s Ha Hb HL Hself Hf; [lia|].
    cbn [pdqLoop]. cbv zeta. wp1; bools.
    { eapply wpd_conseq; [apply (insertionSort_n dflt lt ge cnt Hlt Hge); lia|]. intros ? d' s' [HL' Hs].
      split; [congruence|]. assert (b - a <= n * (b - a)); [|lia].
      destruct (Z.eq_dec a b) as [->|]; [lia|]. nia. }
    wp1; bools.
    { eapply wpd_conseq; [apply wpd_and; [apply (heapSort_spec dflt lt ge any); lia|apply heapSort_k; lia]|].
      intros ? d' s' [[Hp _] Hs]. pose proof (permr_len _ _ _ _ _ Hp). split; [congruence|].
      pose proof (Z.log2_lt_lin (b - a) ltac:(lia)). nia. }
    wp1. apply wpd_conseq with (P := fun _ d' s' => zlen d' = n /\ s' = s).
    { wp1.
      - eapply wpd_conseq; [apply wpd_and; [apply (breakPatterns_spec dflt lt ge any a b); lia|apply breakPatterns_k; lia]|].
        intros ? d1 s1 [Hp ->]. pose proof (permr_len _ _ _ _ _ Hp). split; [congruence|auto].
      - wp1. auto. }
    intros ? d1 s1 [HL1 ->].
    wp1. eapply wpd_conseq; [apply wpd_and; [apply (choosePivot_spec dflt lt ge any); lia|apply choosePivot_k; lia]|].
    intros [pivot hint] ? s2 [[-> Hpiv] Hc2]. cbn in Hpiv. wp1.
    apply wpd_conseq with (P := fun r d' s' => (zlen d' = n /\ a <= fst r < b) /\ s' = s2).
    { destruct hint.
      1, 2: wp1; split; [split; [auto|cbn; lia]|auto].
      wp1. eapply wpd_conseq; [apply wpd_and; [apply (reverseRange_spec dflt lt ge any a b); lia
        |unfold reverseRange; apply reverseLoop_k; lia]|].
      intros ? d2 s3 [Hp ->]. pose proof (permr_len _ _ _ _ _ Hp). wp1. split; [split; [congruence|cbn; lia]|auto]. }
    intros [pivot2 hint2] d2 s3 [[HL2 Hpiv2] ->]. cbn in Hpiv2. cbn iota. clear hint pivot Hpiv. wp1.
    apply wpd_conseq with (P := fun r d' s' => zlen d' = n /\ cnt s' <= cnt s2 + 15 * n).
    { wp1.
      - unfold partialInsertionSort. eapply wpd_conseq; [apply pisLoop_k; lia|]. intros r d3 s3 [HL3 Hc3]. split; [congruence|lia].
      - wp1. split; [auto|lia]. }
    intros done d3 s3 [HL3 Hc3]. wp1.
    { wp1. split; [auto|nia]. }
    wp1. apply wpd_conseq with (P := fun r d' s' => d' = d3 /\ cnt s' <= cnt s3 + 1).
    { wp1.
      - bools. wp1. split; [auto|lia].
      - split; [auto|lia]. }
    intros eq ? s5 [-> Hc5].
    set (lim' := if negb wb then limit - 1 else limit). clearbody lim'.
    wp1.
    - wp1. eapply wpd_conseq; [apply wpd_and; [apply (partitionEqual_spec dflt lt ge any); lia|apply partitionEqual_k; lia]|].
      intros m d4 s6 [(Hp4 & Hm & _ & _) Hc6]. pose proof (permr_len _ _ _ _ _ Hp4) as HL4.
      eapply wpd_conseq; [apply (IH m b); try lia; intros; apply Hself; lia|].
      intros ? d5 s7 [HL5 Hc7]. split; [auto|]. nia.
    - wp1. eapply wpd_conseq; [apply wpd_and; [apply (partition_spec dflt lt ge any); lia|apply partition_k; lia]|].
      intros [m al] d4 s6 [(Hp4 & Hm & _) Hc6]. cbn in Hm. cbn iota. pose proof (permr_len _ _ _ _ _ Hp4) as HL4.
      wp1; bools.
      + wp1. eapply wpd_conseq; [apply (Hself a m); lia|]. intros ? d5 s7 [HL5 Hc7].
        eapply wpd_conseq; [apply (IH (m + 1) b); try lia; intros; apply Hself; lia|].
        intros ? d6 s8 [HL6 Hc8]. split; [auto|]. nia.
      + wp1. eapply wpd_conseq; [apply (Hself (m + 1) b); lia|]. intros ? d5 s7 [HL5 Hc7].
        eapply wpd_conseq; [apply (IH a m); try lia; intros; apply Hself; lia|].
        intros ? d6 s8 [HL6 Hc8]. split; [auto|]. nia.
  Qed.

  Lemma pdqsort_k n stack : forall a b limit,
    (0 < stack)%nat -> b - a < 2 ^ Z.of_nat stack -> 0 <= a <= b -> b <= n ->
    costs n a b (pdqsort (reads lt) (reads ge) stack a b limit).
  Proof.
    induction stack as [|stack IH]; intros a b limit Hst Hlen Ha Hn; [lia|].
    intros d s HL. cbn [pdqsort].
    assert (Hstk : 12 < b - a -> (0 < stack)%nat)
      by (intros; destruct stack; [cbn in Hlen; lia|lia]).
    rewrite Nat2Z.inj_succ, Z.pow_succ_r in Hlen by lia.
    apply pdqLoop_k; try lia; auto. intros a' b' lim Ha' Hb' Hhalf Hbig. apply IH; auto; lia.
  Qed.
End Cost.
