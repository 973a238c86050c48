(** Proofs about xsort: Sort on input that is already in order. *)
From Coq Require Import Permutation.
From Verif Require Import Base Arr XSort_Model XSort_Spec XSort_CostSpec XSort_Panic XSort_Proofs XSort_Pdq XSort_Stab.
Local Open Scope cb_scope.

Section Adaptive.
  Context {E S : Type}.
  Variable dflt : E.
  Variable lt ge : list E -> E -> E -> S -> (bool + string) * S.
  Variable ltb : E -> E -> bool.
  Hypothesis Al : forall d x y s, fst (lt d x y s) = inl (ltb x y).
  Hypothesis Ag : forall d x y s, fst (ge d x y s) = inl (negb (ltb x y)).
  Variable cnt : S -> Z.
  Hypothesis Hlt : forall d x y s, cnt (snd (lt d x y s)) = cnt s + 1.
  Hypothesis Hge : forall d x y s, cnt (snd (ge d x y s)) = cnt s + 1.
  Local Notation "d .[ i ]" := (at_ dflt d i) (at level 2, format "d .[ i ]").
  Local Notation swp := (swp dflt).
  Local Notation T := (list E).

  Lemma x_ltAt i j (Q : bool -> T -> S -> Prop) d s : 0 <= i < zlen d -> 0 <= j < zlen d ->
    (forall s', cnt s' = cnt s + 1 -> Q (ltb d.[i] d.[j]) d s') -> wpd (ltAt (reads lt) i j) Q d s.
  Proof.
    intros Hi Hj HQ. unfold ltAt.
    apply wpd_bind, (wpd_rd dflt lt ge ltb); auto. apply wpd_bind, (wpd_rd dflt lt ge ltb); auto.
    unfold wpd, askLt, reads. pose proof (Hlt d d.[i] d.[j] s) as H1. pose proof (Al d d.[i] d.[j] s) as H2.
    destruct (lt d d.[i] d.[j] s) as [r s']. cbn [fst snd] in *. subst r. now apply HQ.
  Qed.
  Lemma x_geAt i j (Q : bool -> T -> S -> Prop) d s : 0 <= i < zlen d -> 0 <= j < zlen d ->
    (forall s', cnt s' = cnt s + 1 -> Q (negb (ltb d.[i] d.[j])) d s') -> wpd (geAt (reads ge) i j) Q d s.
  Proof.
    intros Hi Hj HQ. unfold geAt.
    apply wpd_bind, (wpd_rd dflt lt ge ltb); auto. apply wpd_bind, (wpd_rd dflt lt ge ltb); auto.
    unfold wpd, askGe, reads. pose proof (Hge d d.[i] d.[j] s) as H1. pose proof (Ag d d.[i] d.[j] s) as H2.
    destruct (ge d d.[i] d.[j] s) as [r s']. cbn [fst snd] in *. subst r. now apply HQ.
  Qed.
  Ltac wp1 :=
    match goal with
    | |- wpd (ltAt _ _ _) _ _ _ => apply x_ltAt; [try lia|try lia|intros ? ?]
    | |- wpd (geAt _ _ _) _ _ _ => apply x_geAt; [try lia|try lia|intros ? ?]
    | _ => wp1_ dflt lt ge ltb
    end.

  (** Ascending and strictly descending data. *)
  Definition asc (d : T) : Prop := forall i j, 0 <= i < j -> j < zlen d -> ltb d.[j] d.[i] = false.
  Definition desc (d : T) : Prop := forall i j, 0 <= i < j -> j < zlen d -> ltb d.[j] d.[i] = true.

  Lemma insertionOuter_asc fuel : forall b i (d : T) (s : S), asc d -> 0 < i -> b <= zlen d -> Z.max 0 (b - i) < Z.of_nat fuel ->
    wpd (insertionOuter (reads lt) fuel 0 b i) (fun _ d' s' => d' = d /\ cnt s' = cnt s + Z.max 0 (b - i)) d s.
  Proof.
    induction fuel as [|fuel IH]; intros b i d s HA Hi Hb Hf; [lia|]. cbn [insertionOuter]. wp1; bools.
    - rewrite Z.sub_0_r. replace (Z.to_nat i + 1)%nat with (Datatypes.S (Z.to_nat i)) by lia. cbn [insertionInner].
      wp1. wp1. wp1; bools; [|lia]. wp1. rewrite HA by lia. cbv iota. wp1.
      eapply wpd_conseq; [apply (IH b (i + 1)); auto; lia|]. intros ? d' s1 [-> Hs]. split; [reflexivity|lia].
    - wp1. split; [reflexivity|lia].
  Qed.

  Lemma pisAdvance_asc fuel : forall i b (d : T) (s : S), asc d -> 0 < i -> b <= zlen d -> Z.max 0 (b - i) < Z.of_nat fuel -> i <= b ->
    wpd (pisAdvance (reads ge) fuel i b) (fun r d' s' => r = b /\ d' = d /\ cnt s' = cnt s + (b - i)) d s.
  Proof.
    induction fuel as [|fuel IH]; intros i b d s HA Hi Hb Hf Hib; [lia|]. cbn [pisAdvance]. wp1. wp1; bools.
    - wp1. rewrite HA by lia. cbn [negb]. eapply wpd_conseq; [apply (IH (i + 1) b); auto; lia|].
      intros r d' s1 (-> & -> & Hs). repeat split; lia.
    - wp1. repeat split; lia.
  Qed.
  Lemma pis_asc b (d : T) (s : S) : asc d -> 0 < b -> b <= zlen d ->
    wpd (partialInsertionSort (reads ge) 0 b) (fun r d' s' => r = true /\ d' = d /\ cnt s' = cnt s + (b - 1)) d s.
  Proof.
    intros HA H0 Hb. unfold partialInsertionSort. cbn [pisLoop]. wp1.
    eapply wpd_conseq; [apply (pisAdvance_asc _ (0 + 1) b); auto; lia|]. intros r d' s1 (-> & -> & Hs).
    rewrite Z.eqb_refl. wp1. repeat split; lia.
  Qed.

  Lemma median_asc a b c sw (d : T) (s : S) : asc d -> 0 <= a < b -> b < c -> c < zlen d ->
    wpd (median (reads lt) a b c sw) (fun r d' s' => r = (b, sw) /\ d' = d /\ cnt s' = cnt s + 3) d s.
  Proof.
    intros HA H1 H2 H3. unfold median, order2.
    repeat (wp1; try (rewrite HA by lia; cbv iota beta)). repeat split; lia.
  Qed.
  Lemma median_desc a b c sw (d : T) (s : S) : desc d -> 0 <= a < b -> b < c -> c < zlen d ->
    wpd (median (reads lt) a b c sw) (fun r d' s' => r = (b, sw + 3) /\ d' = d /\ cnt s' = cnt s + 3) d s.
  Proof.
    intros HA H1 H2 H3. unfold median, order2.
    repeat (wp1; try (rewrite HA by lia; cbv iota beta)). repeat split; try lia. f_equal. lia.
  Qed.
  Lemma choosePivot_asc b (d : T) (s : S) : asc d -> 12 < b -> b <= zlen d ->
    wpd (choosePivot (reads lt) 0 b) (fun r d' s' => snd r = increasingHint /\ d' = d /\ cnt s' <= cnt s + 12) d s.
  Proof.
    intros HA H0 Hb. unfold choosePivot, medianAdjacent. cbv zeta. rewrite Z.sub_0_r, !Z.add_0_l. pose proof (Z.quot_div_nonneg b 4 ltac:(lia) ltac:(lia)) as HQ.
    pose proof (Z.div_mod b 4 ltac:(lia)). pose proof (Z.mod_pos_bound b 4 ltac:(lia)). rewrite HQ. set (q := b / 4) in *. clearbody q. clear HQ.
    wp1. wp1; bools; [|lia]. wp1.
    apply wpd_conseq with (P := fun r d' s' => r = (q * 1, q * 2, q * 3, 0) /\ d' = d /\ cnt s' <= cnt s + 9).
    { wp1; bools.
      - wp1. eapply wpd_conseq; [apply median_asc; auto; lia|]. intros r d1 s1 (-> & -> & Hs1).
        wp1. eapply wpd_conseq; [apply median_asc; auto; lia|]. intros r d1 s2 (-> & -> & Hs2).
        wp1. eapply wpd_conseq; [apply median_asc; auto; lia|]. intros r d1 s3 (-> & -> & Hs3).
        wp1. repeat split; lia.
      - wp1. repeat split; lia. }
    intros r d1 s1 (-> & -> & Hs1).
    eapply wpd_conseq; [apply median_asc; auto; lia|]. intros r d1 s2 (-> & -> & Hs2). wp1. cbn. repeat split; lia.
  Qed.
  Lemma choosePivot_desc b (d : T) (s : S) : desc d -> 50 <= b -> b <= zlen d ->
    wpd (choosePivot (reads lt) 0 b) (fun r d' s' => snd r = decreasingHint /\ d' = d /\ cnt s' = cnt s + 12) d s.
  Proof.
    intros HA H0 Hb. unfold choosePivot, medianAdjacent. cbv zeta. rewrite Z.sub_0_r, !Z.add_0_l. pose proof (Z.quot_div_nonneg b 4 ltac:(lia) ltac:(lia)) as HQ.
    pose proof (Z.div_mod b 4 ltac:(lia)). pose proof (Z.mod_pos_bound b 4 ltac:(lia)). rewrite HQ. set (q := b / 4) in *. clearbody q. clear HQ.
    wp1. wp1; bools; [|lia]. wp1. wp1; bools; [|lia].
    wp1. eapply wpd_conseq; [apply median_desc; auto; lia|]. intros r d1 s1 (-> & -> & Hs1).
    wp1. eapply wpd_conseq; [apply median_desc; auto; lia|]. intros r d1 s2 (-> & -> & Hs2).
    wp1. eapply wpd_conseq; [apply median_desc; auto; lia|]. intros r d1 s3 (-> & -> & Hs3).
    wp1. eapply wpd_conseq; [apply median_desc; auto; lia|]. intros r d1 s4 (-> & -> & Hs4). wp1. cbn. repeat split; lia.
  Qed.

  Lemma reverseLoop_x fuel : forall i (d : T) (s : S), 0 <= i -> Z.max 0 (zlen d - 2 * i) < Z.of_nat fuel ->
    wpd (reverseLoop fuel i (zlen d - 1 - i)) (fun _ d' s' => s' = s /\ zlen d' = zlen d /\
      forall k, 0 <= k < zlen d -> d'.[k] = if (i <=? k) && (k <? zlen d - i) then d.[zlen d - 1 - k] else d.[k]) d s.
  Proof.
    induction fuel as [|fuel IH]; intros i d s Hi Hf; [lia|]. cbn [reverseLoop]. wp1; bools.
    - wp1. wp1. pose proof (zlen_swp dflt d i (zlen d - 1 - i)) as HL.
      replace (zlen d - 1 - i - 1) with (zlen (swp d i (zlen d - 1 - i)) - 1 - (i + 1)) by lia.
      eapply wpd_conseq; [apply (IH (i + 1)); lia|]. intros ? d' s' (-> & HL' & HK). split; [reflexivity|]. split; [congruence|].
      rewrite HL in HK. intros k Hk. rewrite HK by exact Hk.
      destruct (Z.leb_spec (i + 1) k), (Z.ltb_spec k (zlen d - (i + 1))), (Z.leb_spec i k), (Z.ltb_spec k (zlen d - i)); cbn [andb]; try lia;
        rewrite at_swp by lia; repeat match goal with |- context [?x =? ?y] => destruct (Z.eqb_spec x y) end; try lia; f_equal; lia.
    - wp1. split; [reflexivity|]. split; [reflexivity|]. intros k Hk.
      destruct (Z.leb_spec i k), (Z.ltb_spec k (zlen d - i)); cbn [andb]; try reflexivity. f_equal. lia.
  Qed.
  Lemma reverseRange_x (d : T) (s : S) : wpd (reverseRange 0 (zlen d)) (fun _ d' s' => s' = s /\ zlen d' = zlen d /\
      forall k, 0 <= k < zlen d -> d'.[k] = d.[zlen d - 1 - k]) d s.
  Proof.
    unfold reverseRange. pose proof (reverseLoop_x (Z.to_nat (zlen d - 0) + 1) 0 d s ltac:(lia) ltac:(lia)) as H.
    rewrite (Z.sub_0_r (zlen d - 1)) in H. eapply wpd_conseq; [apply H|]. clear H. intros ? d' s' (-> & HL & HK). split; [reflexivity|]. split; [exact HL|].
    intros k Hk. rewrite HK by exact Hk. destruct (Z.leb_spec 0 k), (Z.ltb_spec k (zlen d - 0)); cbn [andb]; try lia. reflexivity.
  Qed.

  Lemma pdq_asc stack limit (d : T) (s : S) : asc d -> (0 < stack)%nat -> 0 < limit ->
    wpd (pdqsort (reads lt) (reads ge) stack 0 (zlen d) limit) (fun _ d' s' => d' = d /\ cnt s' <= cnt s + zlen d + 11) d s.
  Proof.
    intros HA Hst Hlim. pose proof (zlen_nonneg d) as H0. destruct stack as [|stack]; [lia|]. cbn [pdqsort].
    replace (Z.to_nat (zlen d - 0) + 1)%nat with (Datatypes.S (Z.to_nat (zlen d))) by lia. cbn [pdqLoop]. cbv zeta. wp1; bools.
    - unfold insertionSort. eapply wpd_conseq; [apply (insertionOuter_asc _ (zlen d) (0 + 1)); auto; lia|].
      intros ? d' s' [-> Hs]. split; [reflexivity|lia].
    - wp1; bools; [lia|]. cbn [negb]. wp1. wp1. wp1. eapply wpd_conseq; [apply choosePivot_asc; auto; lia|].
      intros [pv h] d1 s1 (Hh & -> & Hs1). cbn [snd] in Hh. subst h. wp1. wp1. cbn [andb isIncreasing]. wp1.
      eapply wpd_conseq; [apply pis_asc; auto; lia|]. intros r d1 s2 (-> & -> & Hs2). wp1. split; [reflexivity|lia].
  Qed.
  Lemma pdq_desc stack limit (d : T) (s : S) : strict_weak_order ltb -> desc d -> 50 <= zlen d -> (0 < stack)%nat -> 0 < limit ->
    wpd (pdqsort (reads lt) (reads ge) stack 0 (zlen d) limit) (fun _ d' s' => d' = rev d /\ cnt s' = cnt s + zlen d + 11) d s.
  Proof.
    intros HW HA H50 Hst Hlim. destruct stack as [|stack]; [lia|]. cbn [pdqsort].
    replace (Z.to_nat (zlen d - 0) + 1)%nat with (Datatypes.S (Z.to_nat (zlen d))) by lia. cbn [pdqLoop]. cbv zeta. wp1; bools; [lia|].
    wp1; bools; [lia|]. cbn [negb]. wp1. wp1. wp1. eapply wpd_conseq; [apply choosePivot_desc; auto; lia|].
    intros [pv h] d1 s1 (Hh & -> & Hs1). cbn [snd] in Hh. subst h. wp1. wp1. eapply wpd_conseq; [apply reverseRange_x|].
    intros ? d1 s2 (-> & HL & HK). wp1. cbn [andb isIncreasing]. wp1.
    assert (HA1 : asc d1).
    { intros i j Hij Hj. rewrite !HK by lia. apply (lt_asym ltb HW). apply HA; lia. }
    eapply wpd_conseq; [apply pis_asc; auto; lia|]. intros r d2 s2 (-> & -> & Hs2). wp1. split; [|lia].
    apply (arr_ext dflt); [unfold zlen in *; rewrite rev_length; lia|].
    intros i Hi. rewrite HK by lia. unfold at_. rewrite rev_nth by (unfold zlen in *; lia). f_equal. unfold zlen in *. lia.
  Qed.
End Adaptive.

Lemma at_nth_error {E} (dflt : E) d i : 0 <= i < zlen d -> nth_error d (Z.to_nat i) = Some (at_ dflt d i).
Proof. intros H. unfold at_. apply nth_error_nth'. unfold zlen in H. lia. Qed.

Lemma counting_lt {E S} (less : E -> E -> S -> bool * S) d x y sn : snd (snd (always (counting less) d x y sn)) = snd sn + 1.
Proof. rewrite always_ok. unfold counting. now destruct (less x y (fst sn)). Qed.
Lemma counting_ge {E S} (less : E -> E -> S -> bool * S) d x y sn : snd (snd (notLessP (always (counting less)) d x y sn)) = snd sn + 1.
Proof. rewrite notLessP_always. unfold counting. now destruct (less x y (fst sn)). Qed.
Lemma counting_al {E S} (less : E -> E -> S -> bool * S) lt d x y sn : answers less lt -> fst (always (counting less) d x y sn) = inl (lt x y).
Proof. intros H. specialize (H x y (fst sn)). rewrite always_ok. unfold counting. destruct (less x y (fst sn)). cbn in *. now subst. Qed.
Lemma counting_ag {E S} (less : E -> E -> S -> bool * S) lt d x y sn : answers less lt -> fst (notLessP (always (counting less)) d x y sn) = inl (negb (lt x y)).
Proof. intros H. specialize (H x y (fst sn)). rewrite notLessP_always. unfold counting. destruct (less x y (fst sn)). cbn in *. now subst. Qed.

Lemma Sort_asc {E S} (less : E -> E -> S -> bool * S) (lt : E -> E -> bool) d s : answers less lt -> sorted_by lt d ->
  exists s' k, Sort d (counting less) (s, 0) = Ok (d, (s', k)) /\ k <= zlen d + 11.
Proof.
  intros HA HS. destruct d as [|x d0].
  { exists s, 0. split; [reflexivity|]. cbn. lia. }
  set (d := x :: d0) in *. unfold Sort, SortP, SortW, SortWWithin.
  assert (Ha : asc x lt d).
  { intros i j Hij Hj. apply (HS (Z.to_nat i) (Z.to_nat j)); [lia| |]; apply at_nth_error; lia. }
  assert (Hl : 0 < bitsLen (zlen d)).
  { pose proof (Z.log2_nonneg (zlen d)). unfold bitsLen. destruct (Z.leb_spec (zlen d) 0) as [H1|]; [|lia]. unfold d in H1. rewrite zlen_cons in H1. pose proof (zlen_nonneg d0). lia. }
  pose proof (pdq_asc x (always (counting less)) (notLessP (always (counting less))) lt
    (fun d a b c => counting_al less lt d a b c HA) (fun d a b c => counting_ag less lt d a b c HA) snd (counting_lt less) (counting_ge less)
    (Datatypes.S (List.length d)) (bitsLen (zlen d)) d (s, 0) Ha ltac:(lia) Hl) as H.
  unfold wpd in H. destruct (pdqsort _ _ _ _ _ _ (d, (s, 0))) as [[u| | |e] [d' [s' k]]] eqn:Hr; try contradiction.
  2: { exfalso. eapply no_user; [apply always_total|apply notLess_total| |exact Hr]. now apply good_pdqsort. }
  destruct H as [-> H]. cbn [snd] in H. exists s', k. split; [reflexivity|lia].
Qed.

Lemma Sort_desc {E S} (less : E -> E -> S -> bool * S) (lt : E -> E -> bool) d s : strict_weak_order lt -> answers less lt ->
  strictly_descending lt d -> 50 <= zlen d ->
  exists s', Sort d (counting less) (s, 0) = Ok (rev d, (s', zlen d + 11)).
Proof.
  intros HW HA HS H50. destruct d as [|x d0]; [cbn in H50; lia|].
  set (d := x :: d0) in *. unfold Sort, SortP, SortW, SortWWithin.
  assert (Ha : desc x lt d).
  { intros i j Hij Hj. apply (HS (Z.to_nat i) (Z.to_nat j)); [lia| |]; apply at_nth_error; lia. }
  assert (Hl : 0 < bitsLen (zlen d)).
  { pose proof (Z.log2_nonneg (zlen d)). unfold bitsLen. destruct (Z.leb_spec (zlen d) 0); lia. }
  pose proof (pdq_desc x (always (counting less)) (notLessP (always (counting less))) lt
    (fun d a b c => counting_al less lt d a b c HA) (fun d a b c => counting_ag less lt d a b c HA) snd (counting_lt less) (counting_ge less)
    (Datatypes.S (List.length d)) (bitsLen (zlen d)) d (s, 0) HW Ha H50 ltac:(lia) Hl) as H.
  unfold wpd in H. destruct (pdqsort _ _ _ _ _ _ (d, (s, 0))) as [[u| | |e] [d' [s' k]]] eqn:Hr; try contradiction.
  2: { exfalso. eapply no_user; [apply always_total|apply notLess_total| |exact Hr]. now apply good_pdqsort. }
  destruct H as [-> H]. cbn [snd] in H. exists s'. cbn [plain]. repeat f_equal. lia.
Qed.
