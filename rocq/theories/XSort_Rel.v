(** Proofs about xsort: two runs of the sorting code, on slices of different
    types with different comparators, stay related if every swap and every
    comparison keeps them so. *)
From Verif Require Import Base XSort_Model.
Local Open Scope cb_scope.

Section Rel.
  Context {E1 S1 E2 S2 : Type}.
  Variable lt1 ge1 : comparatorW E1 S1.
  Variable lt2 ge2 : comparatorW E2 S2.
  Variable rel : forall A, CM (@st E1 S1) A -> CM (@st E2 S2) A -> Prop.
  Arguments rel {A} _ _.
  Hypothesis rel_ret : forall A (a : A), rel (cret a) (cret a).
  Hypothesis rel_diverge : forall A, rel (@cdiverge _ A) (@cdiverge _ A).
  Hypothesis rel_bind : forall A B (m1 : CM _ A) m2 (f1 : A -> CM _ B) f2,
    rel m1 m2 -> (forall a, rel (f1 a) (f2 a)) -> rel (cbind m1 f1) (cbind m2 f2).
  Hypothesis rel_swap : forall i j, rel (swap i j) (swap i j).
  Hypothesis rel_ltAt : forall i j, rel (ltAt lt1 i j) (ltAt lt2 i j).
  Hypothesis rel_geAt : forall i j, rel (geAt ge1 i j) (geAt ge2 i j).

  Lemma rel_if {A} (b : bool) (m1 m1' : CM st A) m2 m2' :
    rel m1 m2 -> rel m1' m2' -> rel (if b then m1 else m1') (if b then m2 else m2').
  Proof. destruct b; auto. Qed.
  Lemma rel_andM c m1 m2 : rel m1 m2 -> rel (andM c m1) (andM c m2).
  Proof. destruct c; cbn; auto. Qed.

  Hint Resolve rel_ret rel_diverge rel_swap rel_ltAt rel_geAt rel_andM : rel.

  Ltac g :=
    repeat (cbv beta zeta; match goal with
    | |- rel (cbind _ _) _ => apply rel_bind; [|intros ?]
    | |- rel (if _ then _ else _) _ => apply rel_if
    | |- rel (match ?x with _ => _ end) _ => destruct x
    | |- rel _ _ => solve [auto with rel]
    | H : forall _, _ |- rel _ _ => apply H
    end).

  Lemma rel_insertionInner fuel : forall a j, rel (insertionInner lt1 fuel a j) (insertionInner lt2 fuel a j).
  Proof. induction fuel; intros; cbn [insertionInner]; g. Qed.
  Hint Resolve rel_insertionInner : rel.
  Lemma rel_insertionOuter fuel : forall a b i, rel (insertionOuter lt1 fuel a b i) (insertionOuter lt2 fuel a b i).
  Proof. induction fuel; intros; cbn [insertionOuter]; g. Qed.
  Lemma rel_insertionSort a b : rel (insertionSort lt1 a b) (insertionSort lt2 a b).
  Proof. apply rel_insertionOuter. Qed.
  Lemma rel_siftDownLoop fuel : forall a b i, rel (siftDownLoop lt1 ge1 fuel a b i) (siftDownLoop lt2 ge2 fuel a b i).
  Proof. induction fuel; intros; cbn [siftDownLoop]; g. Qed.
  Lemma rel_siftDown lo hi first : rel (siftDown lt1 ge1 lo hi first) (siftDown lt2 ge2 lo hi first).
  Proof. apply rel_siftDownLoop. Qed.
  Hint Resolve rel_insertionSort rel_siftDown : rel.
  Lemma rel_heapBuild fuel : forall i hi first, rel (heapBuild lt1 ge1 fuel i hi first) (heapBuild lt2 ge2 fuel i hi first).
  Proof. induction fuel; intros; cbn [heapBuild]; g. Qed.
  Lemma rel_heapPop fuel : forall i lo first, rel (heapPop lt1 ge1 fuel i lo first) (heapPop lt2 ge2 fuel i lo first).
  Proof. induction fuel; intros; cbn [heapPop]; g. Qed.
  Hint Resolve rel_heapBuild rel_heapPop : rel.
  Lemma rel_heapSort a b : rel (heapSort lt1 ge1 a b) (heapSort lt2 ge2 a b).
  Proof. unfold heapSort. g. Qed.
  Lemma rel_advI fuel : forall i j a, rel (advI lt1 fuel i j a) (advI lt2 fuel i j a).
  Proof. induction fuel; intros; cbn [advI]; g. Qed.
  Lemma rel_advJ fuel : forall i j a, rel (advJ ge1 fuel i j a) (advJ ge2 fuel i j a).
  Proof. induction fuel; intros; cbn [advJ]; g. Qed.
  Hint Resolve rel_heapSort rel_advI rel_advJ : rel.
  Lemma rel_partitionLoop fuel : forall i j a, rel (partitionLoop lt1 ge1 fuel i j a) (partitionLoop lt2 ge2 fuel i j a).
  Proof. induction fuel; intros; cbn [partitionLoop]; g. Qed.
  Hint Resolve rel_partitionLoop : rel.
  Lemma rel_partition a b p : rel (partition lt1 ge1 a b p) (partition lt2 ge2 a b p).
  Proof. unfold partition. g. Qed.
  Lemma rel_eqAdvI fuel : forall i j a, rel (eqAdvI ge1 fuel i j a) (eqAdvI ge2 fuel i j a).
  Proof. induction fuel; intros; cbn [eqAdvI]; g. Qed.
  Lemma rel_eqAdvJ fuel : forall i j a, rel (eqAdvJ lt1 fuel i j a) (eqAdvJ lt2 fuel i j a).
  Proof. induction fuel; intros; cbn [eqAdvJ]; g. Qed.
  Hint Resolve rel_partition rel_eqAdvI rel_eqAdvJ : rel.
  Lemma rel_partitionEqualLoop fuel : forall i j a,
    rel (partitionEqualLoop lt1 ge1 fuel i j a) (partitionEqualLoop lt2 ge2 fuel i j a).
  Proof. induction fuel; intros; cbn [partitionEqualLoop]; g. Qed.
  Hint Resolve rel_partitionEqualLoop : rel.
  Lemma rel_partitionEqual a b p : rel (partitionEqual lt1 ge1 a b p) (partitionEqual lt2 ge2 a b p).
  Proof. unfold partitionEqual. g. Qed.
  Lemma rel_pisAdvance fuel : forall i b, rel (pisAdvance ge1 fuel i b) (pisAdvance ge2 fuel i b).
  Proof. induction fuel; intros; cbn [pisAdvance]; g. Qed.
  Lemma rel_pisShiftLeft fuel : forall j, rel (pisShiftLeft ge1 fuel j) (pisShiftLeft ge2 fuel j).
  Proof. induction fuel; intros; cbn [pisShiftLeft]; g. Qed.
  Lemma rel_pisShiftRight fuel : forall j b, rel (pisShiftRight ge1 fuel j b) (pisShiftRight ge2 fuel j b).
  Proof. induction fuel; intros; cbn [pisShiftRight]; g. Qed.
  Hint Resolve rel_partitionEqual rel_pisAdvance rel_pisShiftLeft rel_pisShiftRight : rel.
  Lemma rel_pisLoop fuel : forall i a b, rel (pisLoop ge1 fuel i a b) (pisLoop ge2 fuel i a b).
  Proof. induction fuel; intros; cbn [pisLoop]; g. Qed.
  Lemma rel_breakLoop fuel : forall i l r m n a, rel (breakLoop fuel i l r m n a) (breakLoop fuel i l r m n a).
  Proof. induction fuel; intros; cbn [breakLoop]; g. Qed.
  Hint Resolve rel_pisLoop rel_breakLoop : rel.
  Lemma rel_breakPatterns a b : rel (breakPatterns a b) (breakPatterns a b).
  Proof. unfold breakPatterns. g. Qed.
  Lemma rel_order2 a b sw : rel (order2 lt1 a b sw) (order2 lt2 a b sw).
  Proof. unfold order2. g. Qed.
  Hint Resolve rel_breakPatterns rel_order2 : rel.
  Lemma rel_median a b c sw : rel (median lt1 a b c sw) (median lt2 a b c sw).
  Proof. unfold median. g. Qed.
  Hint Resolve rel_median : rel.
  Lemma rel_choosePivot a b : rel (choosePivot lt1 a b) (choosePivot lt2 a b).
  Proof. unfold choosePivot, medianAdjacent. g. Qed.
  Lemma rel_reverseLoop fuel : forall i j, rel (reverseLoop fuel i j) (reverseLoop fuel i j).
  Proof. induction fuel; intros; cbn [reverseLoop]; g. Qed.
  Hint Resolve rel_choosePivot rel_reverseLoop : rel.
  Lemma rel_pdqLoop self1 self2 : (forall a b l, rel (self1 a b l) (self2 a b l)) ->
    forall fuel a b l wb wp, rel (pdqLoop lt1 ge1 self1 fuel a b l wb wp) (pdqLoop lt2 ge2 self2 fuel a b l wb wp).
  Proof.
    intros Hself. induction fuel as [|fuel IH]; intros; cbn [pdqLoop]; unfold reverseRange, partialInsertionSort; g.
  Qed.
  Lemma rel_pdqsort stack : forall a b l, rel (pdqsort lt1 ge1 stack a b l) (pdqsort lt2 ge2 stack a b l).
  Proof. induction stack as [|stack IH]; intros; cbn [pdqsort]; g. now apply rel_pdqLoop. Qed.

  Lemma rel_swapRangeLoop fuel : forall i n a b, rel (swapRangeLoop fuel i n a b) (swapRangeLoop fuel i n a b).
  Proof. induction fuel; intros; cbn [swapRangeLoop]; g. Qed.
  Hint Resolve rel_swapRangeLoop : rel.
  Lemma rel_rotateLoop fuel : forall i j m, rel (rotateLoop fuel i j m) (rotateLoop fuel i j m).
  Proof. induction fuel; intros; cbn [rotateLoop]; unfold swapRange; g. Qed.
  Lemma rel_bsearchLow fuel : forall i j a, rel (bsearchLow lt1 fuel i j a) (bsearchLow lt2 fuel i j a).
  Proof. induction fuel; intros; cbn [bsearchLow]; g. Qed.
  Lemma rel_bsearchHigh fuel : forall i j a, rel (bsearchHigh ge1 fuel i j a) (bsearchHigh ge2 fuel i j a).
  Proof. induction fuel; intros; cbn [bsearchHigh]; g. Qed.
  Lemma rel_bsearchSym fuel : forall i j a, rel (bsearchSym ge1 fuel i j a) (bsearchSym ge2 fuel i j a).
  Proof. induction fuel; intros; cbn [bsearchSym]; g. Qed.
  Lemma rel_bubbleUp fuel : forall k i, rel (bubbleUp fuel k i) (bubbleUp fuel k i).
  Proof. induction fuel; intros; cbn [bubbleUp]; g. Qed.
  Lemma rel_bubbleDown fuel : forall k i, rel (bubbleDown fuel k i) (bubbleDown fuel k i).
  Proof. induction fuel; intros; cbn [bubbleDown]; g. Qed.
  Hint Resolve rel_rotateLoop rel_bsearchLow rel_bsearchHigh rel_bsearchSym rel_bubbleUp rel_bubbleDown : rel.
  Lemma rel_symMerge stack : forall a m b, rel (symMerge lt1 ge1 stack a m b) (symMerge lt2 ge2 stack a m b).
  Proof. induction stack as [|stack IH]; intros; cbn [symMerge]; unfold rotate; g. Qed.
  Hint Resolve rel_symMerge : rel.
  Lemma rel_stableBlocks fuel : forall a b n bs, rel (stableBlocks lt1 fuel a b n bs) (stableBlocks lt2 fuel a b n bs).
  Proof. induction fuel; intros; cbn [stableBlocks]; g. Qed.
  Lemma rel_mergePass stack fuel : forall a b n bs,
    rel (mergePass lt1 ge1 stack fuel a b n bs) (mergePass lt2 ge2 stack fuel a b n bs).
  Proof. induction fuel; intros; cbn [mergePass]; g. Qed.
  Hint Resolve rel_stableBlocks rel_mergePass : rel.
  Lemma rel_mergeLoop stack fuel : forall n bs, rel (mergeLoop lt1 ge1 stack fuel n bs) (mergeLoop lt2 ge2 stack fuel n bs).
  Proof. induction fuel; intros; cbn [mergeLoop]; g. Qed.
  Hint Resolve rel_mergeLoop : rel.
  Lemma rel_stable stack n : rel (stable lt1 ge1 stack n) (stable lt2 ge2 stack n).
  Proof. unfold stable. g. Qed.
End Rel.
