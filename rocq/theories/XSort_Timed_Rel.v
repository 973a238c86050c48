(** Two runs of the sorting code with a clock stay related if ticks, exchanges and
    comparisons keep them so. *)
From Verif Require Import Base Callback XSort_Model XSort_Timed_Model.
Local Open Scope cb_scope.
Local Open Scope Z_scope.

Section Rel.
  Context {E1 S1 E2 S2 : Type}.
  Variable lt1 ge1 : comparatorW E1 S1.
  Variable lt2 ge2 : comparatorW E2 S2.
  Variable rel : forall A, CM (@stT E1 S1) A -> CM (@stT E2 S2) A -> Prop.
  Arguments rel {A} _ _.
  Hypothesis rel_ret : forall A (a : A), rel (cret a) (cret a).
  Hypothesis rel_diverge : forall A, rel (@cdiverge _ A) (@cdiverge _ A).
  Hypothesis rel_bind : forall A B (m1 : CM _ A) m2 (f1 : A -> CM _ B) f2,
    rel m1 m2 -> (forall a, rel (f1 a) (f2 a)) -> rel (cbind m1 f1) (cbind m2 f2).
  Hypothesis rel_tick : rel tick tick.
  Hypothesis rel_swap : forall i j, rel (swapT i j) (swapT i j).
  Hypothesis rel_ltAt : forall i j, rel (ltAtT lt1 i j) (ltAtT lt2 i j).
  Hypothesis rel_geAt : forall i j, rel (geAtT ge1 i j) (geAtT ge2 i j).

  Lemma rel_if {A} (b : bool) (m1 m1' : CM stT A) m2 m2' :
    rel m1 m2 -> rel m1' m2' -> rel (if b then m1 else m1') (if b then m2 else m2').
  Proof. destruct b; auto. Qed.
  Lemma rel_andM c m1 m2 : rel m1 m2 -> rel (andM c m1) (andM c m2).
  Proof. destruct c; cbn; auto. Qed.

  Hint Resolve rel_ret rel_diverge rel_tick rel_swap rel_ltAt rel_geAt rel_andM : rel.

  Ltac g :=
    repeat (cbv beta zeta; match goal with
    | |- rel (cbind _ _) _ => apply rel_bind; [|intros ?]
    | |- rel (if _ then _ else _) _ => apply rel_if
    | |- rel (match ?x with _ => _ end) _ => destruct x
    | |- rel _ _ => solve [auto with rel]
    | H : forall _, _ |- rel _ _ => apply H
    end).

  Lemma rel_insertionInner  fuel : forall a j, rel (insertionInnerT lt1 fuel a j) (insertionInnerT lt2 fuel a j).
  Proof. induction fuel; intros; cbn [insertionInnerT]; g. Qed.
  Hint Resolve rel_insertionInner : rel.
  Lemma rel_insertionOuter  fuel : forall a b i, rel (insertionOuterT lt1 fuel a b i) (insertionOuterT lt2 fuel a b i).
  Proof. induction fuel; intros; cbn [insertionOuterT]; g. Qed.
  Hint Resolve rel_insertionOuter : rel.
  Lemma rel_insertionSort a b : rel (insertionSortT lt1 a b) (insertionSortT lt2 a b).
  Proof. unfold insertionSortT. g. Qed.
  Hint Resolve rel_insertionSort : rel.
  Lemma rel_siftDownLoop  fuel : forall root hi first, rel (siftDownLoopT lt1 ge1 fuel root hi first) (siftDownLoopT lt2 ge2 fuel root hi first).
  Proof. induction fuel; intros; cbn [siftDownLoopT]; g. Qed.
  Hint Resolve rel_siftDownLoop : rel.
  Lemma rel_siftDown lo hi first : rel (siftDownT lt1 ge1 lo hi first) (siftDownT lt2 ge2 lo hi first).
  Proof. unfold siftDownT. g. Qed.
  Hint Resolve rel_siftDown : rel.
  Lemma rel_heapBuild  fuel : forall i hi first, rel (heapBuildT lt1 ge1 fuel i hi first) (heapBuildT lt2 ge2 fuel i hi first).
  Proof. induction fuel; intros; cbn [heapBuildT]; g. Qed.
  Hint Resolve rel_heapBuild : rel.
  Lemma rel_heapPop  fuel : forall i lo first, rel (heapPopT lt1 ge1 fuel i lo first) (heapPopT lt2 ge2 fuel i lo first).
  Proof. induction fuel; intros; cbn [heapPopT]; g. Qed.
  Hint Resolve rel_heapPop : rel.
  Lemma rel_heapSort a b : rel (heapSortT lt1 ge1 a b) (heapSortT lt2 ge2 a b).
  Proof. unfold heapSortT. g. Qed.
  Hint Resolve rel_heapSort : rel.
  Lemma rel_advI  fuel : forall i j a, rel (advIT lt1 fuel i j a) (advIT lt2 fuel i j a).
  Proof. induction fuel; intros; cbn [advIT]; g. Qed.
  Hint Resolve rel_advI : rel.
  Lemma rel_advJ  fuel : forall i j a, rel (advJT ge1 fuel i j a) (advJT ge2 fuel i j a).
  Proof. induction fuel; intros; cbn [advJT]; g. Qed.
  Hint Resolve rel_advJ : rel.
  Lemma rel_partitionLoop  fuel : forall i j a, rel (partitionLoopT lt1 ge1 fuel i j a) (partitionLoopT lt2 ge2 fuel i j a).
  Proof. induction fuel; intros; cbn [partitionLoopT]; g. Qed.
  Hint Resolve rel_partitionLoop : rel.
  Lemma rel_partition a b pivot : rel (partitionT lt1 ge1 a b pivot) (partitionT lt2 ge2 a b pivot).
  Proof. unfold partitionT. g. Qed.
  Hint Resolve rel_partition : rel.
  Lemma rel_eqAdvI  fuel : forall i j a, rel (eqAdvIT ge1 fuel i j a) (eqAdvIT ge2 fuel i j a).
  Proof. induction fuel; intros; cbn [eqAdvIT]; g. Qed.
  Hint Resolve rel_eqAdvI : rel.
  Lemma rel_eqAdvJ  fuel : forall i j a, rel (eqAdvJT lt1 fuel i j a) (eqAdvJT lt2 fuel i j a).
  Proof. induction fuel; intros; cbn [eqAdvJT]; g. Qed.
  Hint Resolve rel_eqAdvJ : rel.
  Lemma rel_partitionEqualLoop  fuel : forall i j a, rel (partitionEqualLoopT lt1 ge1 fuel i j a) (partitionEqualLoopT lt2 ge2 fuel i j a).
  Proof. induction fuel; intros; cbn [partitionEqualLoopT]; g. Qed.
  Hint Resolve rel_partitionEqualLoop : rel.
  Lemma rel_partitionEqual a b pivot : rel (partitionEqualT lt1 ge1 a b pivot) (partitionEqualT lt2 ge2 a b pivot).
  Proof. unfold partitionEqualT. g. Qed.
  Hint Resolve rel_partitionEqual : rel.
  Lemma rel_pisAdvance  fuel : forall i b, rel (pisAdvanceT ge1 fuel i b) (pisAdvanceT ge2 fuel i b).
  Proof. induction fuel; intros; cbn [pisAdvanceT]; g. Qed.
  Hint Resolve rel_pisAdvance : rel.
  Lemma rel_pisShiftLeft  fuel : forall j, rel (pisShiftLeftT ge1 fuel j) (pisShiftLeftT ge2 fuel j).
  Proof. induction fuel; intros; cbn [pisShiftLeftT]; g. Qed.
  Hint Resolve rel_pisShiftLeft : rel.
  Lemma rel_pisShiftRight  fuel : forall j b, rel (pisShiftRightT ge1 fuel j b) (pisShiftRightT ge2 fuel j b).
  Proof. induction fuel; intros; cbn [pisShiftRightT]; g. Qed.
  Hint Resolve rel_pisShiftRight : rel.
  Lemma rel_pisLoop  steps : forall i a b, rel (pisLoopT ge1 steps i a b) (pisLoopT ge2 steps i a b).
  Proof. induction steps; intros; cbn [pisLoopT]; g. Qed.
  Hint Resolve rel_pisLoop : rel.
  Lemma rel_partialInsertionSort a b : rel (partialInsertionSortT ge1 a b) (partialInsertionSortT ge2 a b).
  Proof. unfold partialInsertionSortT. g. Qed.
  Hint Resolve rel_partialInsertionSort : rel.
  Lemma rel_breakLoop  fuel : forall idx last random modulus length a, rel (breakLoopT fuel idx last random modulus length a) (breakLoopT fuel idx last random modulus length a).
  Proof. induction fuel; intros; cbn [breakLoopT]; g. Qed.
  Hint Resolve rel_breakLoop : rel.
  Lemma rel_breakPatterns a b : rel (breakPatternsT a b) (breakPatternsT a b).
  Proof. unfold breakPatternsT. g. Qed.
  Hint Resolve rel_breakPatterns : rel.
  Lemma rel_order2 a b swaps : rel (order2T lt1 a b swaps) (order2T lt2 a b swaps).
  Proof. unfold order2T. g. Qed.
  Hint Resolve rel_order2 : rel.
  Lemma rel_median a b c swaps : rel (medianT lt1 a b c swaps) (medianT lt2 a b c swaps).
  Proof. unfold medianT. g. Qed.
  Hint Resolve rel_median : rel.
  Lemma rel_medianAdjacent a swaps : rel (medianAdjacentT lt1 a swaps) (medianAdjacentT lt2 a swaps).
  Proof. unfold medianAdjacentT. g. Qed.
  Hint Resolve rel_medianAdjacent : rel.
  Lemma rel_choosePivot a b : rel (choosePivotT lt1 a b) (choosePivotT lt2 a b).
  Proof. unfold choosePivotT. g. Qed.
  Hint Resolve rel_choosePivot : rel.
  Lemma rel_reverseLoop  fuel : forall i j, rel (reverseLoopT fuel i j) (reverseLoopT fuel i j).
  Proof. induction fuel; intros; cbn [reverseLoopT]; g. Qed.
  Hint Resolve rel_reverseLoop : rel.
  Lemma rel_reverseRange a b : rel (reverseRangeT a b) (reverseRangeT a b).
  Proof. unfold reverseRangeT. g. Qed.
  Hint Resolve rel_reverseRange : rel.
  Lemma rel_pdqLoop self1 self2 : (forall a b l, rel (self1 a b l) (self2 a b l)) -> forall fuel a b limit wb wp,
    rel (pdqLoopT lt1 ge1 self1 fuel a b limit wb wp) (pdqLoopT lt2 ge2 self2 fuel a b limit wb wp).
  Proof. intros HS. induction fuel; intros; cbn [pdqLoopT]; g. Qed.
  Hint Resolve rel_pdqLoop : rel.
  Lemma rel_pdqsort  stack : forall a b limit, rel (pdqsortT lt1 ge1 stack a b limit) (pdqsortT lt2 ge2 stack a b limit).
  Proof. induction stack; intros; cbn [pdqsortT]; g. Qed.
  Hint Resolve rel_pdqsort : rel.
  Lemma rel_swapRangeLoop  fuel : forall i n a b, rel (swapRangeLoopT fuel i n a b) (swapRangeLoopT fuel i n a b).
  Proof. induction fuel; intros; cbn [swapRangeLoopT]; g. Qed.
  Hint Resolve rel_swapRangeLoop : rel.
  Lemma rel_swapRange a b n : rel (swapRangeT a b n) (swapRangeT a b n).
  Proof. unfold swapRangeT. g. Qed.
  Hint Resolve rel_swapRange : rel.
  Lemma rel_rotateLoop  fuel : forall i j m, rel (rotateLoopT fuel i j m) (rotateLoopT fuel i j m).
  Proof. induction fuel; intros; cbn [rotateLoopT]; g. Qed.
  Hint Resolve rel_rotateLoop : rel.
  Lemma rel_rotate a m b : rel (rotateT a m b) (rotateT a m b).
  Proof. unfold rotateT. g. Qed.
  Hint Resolve rel_rotate : rel.
  Lemma rel_bsearchLow  fuel : forall i j a, rel (bsearchLowT lt1 fuel i j a) (bsearchLowT lt2 fuel i j a).
  Proof. induction fuel; intros; cbn [bsearchLowT]; g. Qed.
  Hint Resolve rel_bsearchLow : rel.
  Lemma rel_bubbleUp  fuel : forall k i, rel (bubbleUpT fuel k i) (bubbleUpT fuel k i).
  Proof. induction fuel; intros; cbn [bubbleUpT]; g. Qed.
  Hint Resolve rel_bubbleUp : rel.
  Lemma rel_bsearchHigh  fuel : forall i j m, rel (bsearchHighT ge1 fuel i j m) (bsearchHighT ge2 fuel i j m).
  Proof. induction fuel; intros; cbn [bsearchHighT]; g. Qed.
  Hint Resolve rel_bsearchHigh : rel.
  Lemma rel_bubbleDown  fuel : forall k i, rel (bubbleDownT fuel k i) (bubbleDownT fuel k i).
  Proof. induction fuel; intros; cbn [bubbleDownT]; g. Qed.
  Hint Resolve rel_bubbleDown : rel.
  Lemma rel_bsearchSym  fuel : forall start r p, rel (bsearchSymT ge1 fuel start r p) (bsearchSymT ge2 fuel start r p).
  Proof. induction fuel; intros; cbn [bsearchSymT]; g. Qed.
  Hint Resolve rel_bsearchSym : rel.
  Lemma rel_symMerge  stack : forall a m b, rel (symMergeT lt1 ge1 stack a m b) (symMergeT lt2 ge2 stack a m b).
  Proof. induction stack; intros; cbn [symMergeT]; g. Qed.
  Hint Resolve rel_symMerge : rel.
  Lemma rel_stableBlocks  fuel : forall a b n blockSize, rel (stableBlocksT lt1 fuel a b n blockSize) (stableBlocksT lt2 fuel a b n blockSize).
  Proof. induction fuel; intros; cbn [stableBlocksT]; g. Qed.
  Hint Resolve rel_stableBlocks : rel.
  Lemma rel_mergePass stack fuel : forall a b n blockSize, rel (mergePassT lt1 ge1 stack fuel a b n blockSize) (mergePassT lt2 ge2 stack fuel a b n blockSize).
  Proof. induction fuel; intros; cbn [mergePassT]; g. Qed.
  Hint Resolve rel_mergePass : rel.
  Lemma rel_mergeLoop stack fuel : forall n blockSize, rel (mergeLoopT lt1 ge1 stack fuel n blockSize) (mergeLoopT lt2 ge2 stack fuel n blockSize).
  Proof. induction fuel; intros; cbn [mergeLoopT]; g. Qed.
  Hint Resolve rel_mergeLoop : rel.
  Lemma rel_stable stack n : rel (stableT lt1 ge1 stack n) (stableT lt2 ge2 stack n).
  Proof. unfold stableT. g. Qed.
  Hint Resolve rel_stable : rel.
End Rel.
