(** XSort_Timed_Model: the clock changes nothing; time against comparisons (Sort)
    and against the length (Stable). *)
From Verif Require Import Base Arr Callback XSort_Model XSort_Timed_Model XSort_StableCost.
Local Open Scope cb_scope.
Local Open Scope Z_scope.

(** ** The clock changes nothing *)
Section Same.
  Context {E S : Type} (lt ge : comparatorW E S).

  Definition clockless {A} (m : CM (@st E S) A) (mT : CM (@stT E S) A) : Prop :=
    forall d s t, exists t', mT (d, (s, t)) = (fst (m (d, s)), (fst (snd (m (d, s))), (snd (snd (m (d, s))), t'))).

  Lemma cl_ret {A} (a : A) : clockless (cret a) (cret a).
  Proof. intros d s t. exists t. reflexivity. Qed.
  Lemma cl_diverge {A} : clockless (@cdiverge _ A) cdiverge.
  Proof. intros d s t. exists t. reflexivity. Qed.
  Lemma cl_bind {A B} (m : CM _ A) mT (f : A -> CM _ B) fT : clockless m mT -> (forall a, clockless (f a) (fT a)) -> clockless (cbind m f) (cbind mT fT).
  Proof.
    intros Hm Hf d s t. unfold cbind. destruct (Hm d s t) as (t1 & E1). rewrite E1. destruct (m (d, s)) as [[a|e| |e] [d1 s1]]; cbn [fst snd]; try (exists t1; reflexivity).
    apply Hf.
  Qed.
  Lemma cl_tick {A} (m : CM _ A) mT : clockless m mT -> clockless m (tick ;; mT).
  Proof. intros Hm d s t. apply (Hm d s (t + 1)). Qed.
  Lemma cl_rd i : clockless (rd i) (rd i).
  Proof. intros d s t. exists t. unfold rd. reflexivity. Qed.
  Lemma cl_wr i x : clockless (wr i x) (wr i x).
  Proof. intros d s t. exists t. unfold wr. destruct (zset d i x); reflexivity. Qed.
  Lemma cl_swap i j : clockless (swap i j) (swapT i j).
  Proof.
    unfold swapT, swap. apply cl_tick, cl_bind; [apply cl_rd|intros x]. apply cl_bind; [apply cl_rd|intros y].
    apply cl_bind; [apply cl_wr|intros []; apply cl_wr].
  Qed.
  Lemma cl_askLt x y : clockless (askLt lt x y) (askLt (beside lt) x y).
  Proof. intros d s t. exists t. unfold askLt, beside. cbn [fst snd]. destruct (lt d x y s) as [[b|e] [d' s']]; reflexivity. Qed.
  Lemma cl_askGe x y : clockless (askGe ge x y) (askGe (beside ge) x y).
  Proof. intros d s t. exists t. unfold askGe, beside. cbn [fst snd]. destruct (ge d x y s) as [[b|e] [d' s']]; reflexivity. Qed.
  Lemma cl_ltAt i j : clockless (ltAt lt i j) (ltAtT lt i j).
  Proof. apply cl_tick, cl_bind; [apply cl_rd|intros x]. apply cl_bind; [apply cl_rd|intros y]. apply cl_askLt. Qed.
  Lemma cl_geAt i j : clockless (geAt ge i j) (geAtT ge i j).
  Proof. apply cl_tick, cl_bind; [apply cl_rd|intros x]. apply cl_bind; [apply cl_rd|intros y]. apply cl_askGe. Qed.
  Lemma cl_if {A} (b : bool) (m n : CM _ A) mT nT : clockless m mT -> clockless n nT -> clockless (if b then m else n) (if b then mT else nT).
  Proof. destruct b; auto. Qed.
  Lemma cl_andM c m mT : clockless m mT -> clockless (andM c m) (andM c mT).
  Proof. destruct c; cbn; [auto|intros _; apply cl_ret]. Qed.

  Hint Resolve cl_ret cl_diverge cl_swap cl_ltAt cl_geAt cl_andM : cl.
  Ltac g :=
    repeat (cbv beta zeta; match goal with
    | |- clockless _ (cbind tick _) => apply cl_tick
    | |- clockless (cbind _ _) _ => apply cl_bind; [|intros ?]
    | |- clockless (if _ then _ else _) _ => apply cl_if
    | |- clockless (match ?x with _ => _ end) _ => destruct x
    | |- clockless _ _ => solve [auto with cl]
    | H : forall _, _ |- clockless _ _ => apply H
    end).

  Lemma cl_insertionInner  fuel : forall a j, clockless (insertionInner lt fuel a j) (insertionInnerT lt fuel a j).
  Proof. induction fuel; intros; cbn [insertionInner insertionInnerT]; g. Qed.
  Hint Resolve cl_insertionInner : cl.
  Lemma cl_insertionOuter  fuel : forall a b i, clockless (insertionOuter lt fuel a b i) (insertionOuterT lt fuel a b i).
  Proof. induction fuel; intros; cbn [insertionOuter insertionOuterT]; g. Qed.
  Hint Resolve cl_insertionOuter : cl.
  Lemma cl_insertionSort a b : clockless (insertionSort lt a b) (insertionSortT lt a b).
  Proof. unfold insertionSort, insertionSortT. g. Qed.
  Hint Resolve cl_insertionSort : cl.
  Lemma cl_siftDownLoop  fuel : forall root hi first, clockless (siftDownLoop lt ge fuel root hi first) (siftDownLoopT lt ge fuel root hi first).
  Proof. induction fuel; intros; cbn [siftDownLoop siftDownLoopT]; g. Qed.
  Hint Resolve cl_siftDownLoop : cl.
  Lemma cl_siftDown lo hi first : clockless (siftDown lt ge lo hi first) (siftDownT lt ge lo hi first).
  Proof. unfold siftDown, siftDownT. g. Qed.
  Hint Resolve cl_siftDown : cl.
  Lemma cl_heapBuild  fuel : forall i hi first, clockless (heapBuild lt ge fuel i hi first) (heapBuildT lt ge fuel i hi first).
  Proof. induction fuel; intros; cbn [heapBuild heapBuildT]; g. Qed.
  Hint Resolve cl_heapBuild : cl.
  Lemma cl_heapPop  fuel : forall i lo first, clockless (heapPop lt ge fuel i lo first) (heapPopT lt ge fuel i lo first).
  Proof. induction fuel; intros; cbn [heapPop heapPopT]; g. Qed.
  Hint Resolve cl_heapPop : cl.
  Lemma cl_heapSort a b : clockless (heapSort lt ge a b) (heapSortT lt ge a b).
  Proof. unfold heapSort, heapSortT. g. Qed.
  Hint Resolve cl_heapSort : cl.
  Lemma cl_advI  fuel : forall i j a, clockless (advI lt fuel i j a) (advIT lt fuel i j a).
  Proof. induction fuel; intros; cbn [advI advIT]; g. Qed.
  Hint Resolve cl_advI : cl.
  Lemma cl_advJ  fuel : forall i j a, clockless (advJ ge fuel i j a) (advJT ge fuel i j a).
  Proof. induction fuel; intros; cbn [advJ advJT]; g. Qed.
  Hint Resolve cl_advJ : cl.
  Lemma cl_partitionLoop  fuel : forall i j a, clockless (partitionLoop lt ge fuel i j a) (partitionLoopT lt ge fuel i j a).
  Proof. induction fuel; intros; cbn [partitionLoop partitionLoopT]; g. Qed.
  Hint Resolve cl_partitionLoop : cl.
  Lemma cl_partition a b pivot : clockless (partition lt ge a b pivot) (partitionT lt ge a b pivot).
  Proof. unfold partition, partitionT. g. Qed.
  Hint Resolve cl_partition : cl.
  Lemma cl_eqAdvI  fuel : forall i j a, clockless (eqAdvI ge fuel i j a) (eqAdvIT ge fuel i j a).
  Proof. induction fuel; intros; cbn [eqAdvI eqAdvIT]; g. Qed.
  Hint Resolve cl_eqAdvI : cl.
  Lemma cl_eqAdvJ  fuel : forall i j a, clockless (eqAdvJ lt fuel i j a) (eqAdvJT lt fuel i j a).
  Proof. induction fuel; intros; cbn [eqAdvJ eqAdvJT]; g. Qed.
  Hint Resolve cl_eqAdvJ : cl.
  Lemma cl_partitionEqualLoop  fuel : forall i j a, clockless (partitionEqualLoop lt ge fuel i j a) (partitionEqualLoopT lt ge fuel i j a).
  Proof. induction fuel; intros; cbn [partitionEqualLoop partitionEqualLoopT]; g. Qed.
  Hint Resolve cl_partitionEqualLoop : cl.
  Lemma cl_partitionEqual a b pivot : clockless (partitionEqual lt ge a b pivot) (partitionEqualT lt ge a b pivot).
  Proof. unfold partitionEqual, partitionEqualT. g. Qed.
  Hint Resolve cl_partitionEqual : cl.
  Lemma cl_pisAdvance  fuel : forall i b, clockless (pisAdvance ge fuel i b) (pisAdvanceT ge fuel i b).
  Proof. induction fuel; intros; cbn [pisAdvance pisAdvanceT]; g. Qed.
  Hint Resolve cl_pisAdvance : cl.
  Lemma cl_pisShiftLeft  fuel : forall j, clockless (pisShiftLeft ge fuel j) (pisShiftLeftT ge fuel j).
  Proof. induction fuel; intros; cbn [pisShiftLeft pisShiftLeftT]; g. Qed.
  Hint Resolve cl_pisShiftLeft : cl.
  Lemma cl_pisShiftRight  fuel : forall j b, clockless (pisShiftRight ge fuel j b) (pisShiftRightT ge fuel j b).
  Proof. induction fuel; intros; cbn [pisShiftRight pisShiftRightT]; g. Qed.
  Hint Resolve cl_pisShiftRight : cl.
  Lemma cl_pisLoop  steps : forall i a b, clockless (pisLoop ge steps i a b) (pisLoopT ge steps i a b).
  Proof. induction steps; intros; cbn [pisLoop pisLoopT]; g. Qed.
  Hint Resolve cl_pisLoop : cl.
  Lemma cl_partialInsertionSort a b : clockless (partialInsertionSort ge a b) (partialInsertionSortT ge a b).
  Proof. unfold partialInsertionSort, partialInsertionSortT. g. Qed.
  Hint Resolve cl_partialInsertionSort : cl.
  Lemma cl_breakLoop  fuel : forall idx last random modulus length a, clockless (breakLoop fuel idx last random modulus length a) (breakLoopT fuel idx last random modulus length a).
  Proof. induction fuel; intros; cbn [breakLoop breakLoopT]; g. Qed.
  Hint Resolve cl_breakLoop : cl.
  Lemma cl_breakPatterns a b : clockless (breakPatterns a b) (breakPatternsT a b).
  Proof. unfold breakPatterns, breakPatternsT. g. Qed.
  Hint Resolve cl_breakPatterns : cl.
  Lemma cl_order2 a b swaps : clockless (order2 lt a b swaps) (order2T lt a b swaps).
  Proof. unfold order2, order2T. g. Qed.
  Hint Resolve cl_order2 : cl.
  Lemma cl_median a b c swaps : clockless (median lt a b c swaps) (medianT lt a b c swaps).
  Proof. unfold median, medianT. g. Qed.
  Hint Resolve cl_median : cl.
  Lemma cl_medianAdjacent a swaps : clockless (medianAdjacent lt a swaps) (medianAdjacentT lt a swaps).
  Proof. unfold medianAdjacent, medianAdjacentT. g. Qed.
  Hint Resolve cl_medianAdjacent : cl.
  Lemma cl_choosePivot a b : clockless (choosePivot lt a b) (choosePivotT lt a b).
  Proof. unfold choosePivot, choosePivotT. g. Qed.
  Hint Resolve cl_choosePivot : cl.
  Lemma cl_reverseLoop  fuel : forall i j, clockless (reverseLoop fuel i j) (reverseLoopT fuel i j).
  Proof. induction fuel; intros; cbn [reverseLoop reverseLoopT]; g. Qed.
  Hint Resolve cl_reverseLoop : cl.
  Lemma cl_reverseRange a b : clockless (reverseRange a b) (reverseRangeT a b).
  Proof. unfold reverseRange, reverseRangeT. g. Qed.
  Hint Resolve cl_reverseRange : cl.
  Lemma cl_pdqLoop self selfT : (forall a b l, clockless (self a b l) (selfT a b l)) -> forall fuel a b limit wb wp,
    clockless (pdqLoop lt ge self fuel a b limit wb wp) (pdqLoopT lt ge selfT fuel a b limit wb wp).
  Proof. intros HS. induction fuel; intros; cbn [pdqLoop pdqLoopT]; g. Qed.
  Hint Resolve cl_pdqLoop : cl.
  Lemma cl_pdqsort  stack : forall a b limit, clockless (pdqsort lt ge stack a b limit) (pdqsortT lt ge stack a b limit).
  Proof. induction stack; intros; cbn [pdqsort pdqsortT]; g. Qed.
  Hint Resolve cl_pdqsort : cl.
  Lemma cl_swapRangeLoop  fuel : forall i n a b, clockless (swapRangeLoop fuel i n a b) (swapRangeLoopT fuel i n a b).
  Proof. induction fuel; intros; cbn [swapRangeLoop swapRangeLoopT]; g. Qed.
  Hint Resolve cl_swapRangeLoop : cl.
  Lemma cl_swapRange a b n : clockless (swapRange a b n) (swapRangeT a b n).
  Proof. unfold swapRange, swapRangeT. g. Qed.
  Hint Resolve cl_swapRange : cl.
  Lemma cl_rotateLoop  fuel : forall i j m, clockless (rotateLoop fuel i j m) (rotateLoopT fuel i j m).
  Proof. induction fuel; intros; cbn [rotateLoop rotateLoopT]; g. Qed.
  Hint Resolve cl_rotateLoop : cl.
  Lemma cl_rotate a m b : clockless (rotate a m b) (rotateT a m b).
  Proof. unfold rotate, rotateT. g. Qed.
  Hint Resolve cl_rotate : cl.
  Lemma cl_bsearchLow  fuel : forall i j a, clockless (bsearchLow lt fuel i j a) (bsearchLowT lt fuel i j a).
  Proof. induction fuel; intros; cbn [bsearchLow bsearchLowT]; g. Qed.
  Hint Resolve cl_bsearchLow : cl.
  Lemma cl_bubbleUp  fuel : forall k i, clockless (bubbleUp fuel k i) (bubbleUpT fuel k i).
  Proof. induction fuel; intros; cbn [bubbleUp bubbleUpT]; g. Qed.
  Hint Resolve cl_bubbleUp : cl.
  Lemma cl_bsearchHigh  fuel : forall i j m, clockless (bsearchHigh ge fuel i j m) (bsearchHighT ge fuel i j m).
  Proof. induction fuel; intros; cbn [bsearchHigh bsearchHighT]; g. Qed.
  Hint Resolve cl_bsearchHigh : cl.
  Lemma cl_bubbleDown  fuel : forall k i, clockless (bubbleDown fuel k i) (bubbleDownT fuel k i).
  Proof. induction fuel; intros; cbn [bubbleDown bubbleDownT]; g. Qed.
  Hint Resolve cl_bubbleDown : cl.
  Lemma cl_bsearchSym  fuel : forall start r p, clockless (bsearchSym ge fuel start r p) (bsearchSymT ge fuel start r p).
  Proof. induction fuel; intros; cbn [bsearchSym bsearchSymT]; g. Qed.
  Hint Resolve cl_bsearchSym : cl.
  Lemma cl_symMerge  stack : forall a m b, clockless (symMerge lt ge stack a m b) (symMergeT lt ge stack a m b).
  Proof. induction stack; intros; cbn [symMerge symMergeT]; g. Qed.
  Hint Resolve cl_symMerge : cl.
  Lemma cl_stableBlocks  fuel : forall a b n blockSize, clockless (stableBlocks lt fuel a b n blockSize) (stableBlocksT lt fuel a b n blockSize).
  Proof. induction fuel; intros; cbn [stableBlocks stableBlocksT]; g. Qed.
  Hint Resolve cl_stableBlocks : cl.
  Lemma cl_mergePass stack fuel : forall a b n blockSize, clockless (mergePass lt ge stack fuel a b n blockSize) (mergePassT lt ge stack fuel a b n blockSize).
  Proof. induction fuel; intros; cbn [mergePass mergePassT]; g. Qed.
  Hint Resolve cl_mergePass : cl.
  Lemma cl_mergeLoop stack fuel : forall n blockSize, clockless (mergeLoop lt ge stack fuel n blockSize) (mergeLoopT lt ge stack fuel n blockSize).
  Proof. induction fuel; intros; cbn [mergeLoop mergeLoopT]; g. Qed.
  Hint Resolve cl_mergeLoop : cl.
  Lemma cl_stable stack n : clockless (stable lt ge stack n) (stableT lt ge stack n).
  Proof. unfold stable, stableT. g. Qed.
  Hint Resolve cl_stable : cl.
End Same.

(** ** Sort: at most ten steps for every comparison *)
Section Credit.
  Context {E S : Type} (lt ge : comparatorW E S).
  (** The number of comparisons, according to the comparator's state. *)
  Variable cnt : S -> Z.
  Hypothesis Hlt : forall d x y s, cnt (snd (snd (lt d x y s))) = cnt s + 1.
  Hypothesis Hge : forall d x y s, cnt (snd (snd (ge d x y s))) = cnt s + 1.

  (** If the run returns: what it returns, and ten times the comparisons made
      minus the time taken, starting from [p]. *)
  Definition wk {A} (m : CM (@stT E S) A) (Q : A -> Z -> Prop) (p : Z) : Prop :=
    forall d s t, 10 * cnt s - t = p ->
    match m (d, (s, t)) with (CRet a, (_, (s', t'))) => Q a (10 * cnt s' - t') | _ => True end.

  Lemma wk_ret {A} (a : A) (Q : A -> Z -> Prop) p : Q a p -> wk (cret a) Q p.
  Proof. intros H d s t <-. exact H. Qed.
  Lemma wk_diverge {A} (Q : A -> Z -> Prop) p : wk cdiverge Q p.
  Proof. intros d s t _. exact I. Qed.
  Lemma wk_bind {A B} (m : CM _ A) (f : A -> CM _ B) Q p : wk m (fun a q => wk (f a) Q q) p -> wk (cbind m f) Q p.
  Proof.
    intros H d s t Hp. unfold cbind. specialize (H d s t Hp). destruct (m (d, (s, t))) as [[a| | |] [d' [s' t']]]; auto.
    apply H. reflexivity.
  Qed.
  Lemma wk_mono {A} (m : CM _ A) (Q R : A -> Z -> Prop) p : wk m Q p -> (forall a q, Q a q -> R a q) -> wk m R p.
  Proof. intros H HQ d s t Hp. specialize (H d s t Hp). destruct (m (d, (s, t))) as [[a| | |] [d' [s' t']]]; auto. Qed.
  Lemma wk_tick (Q : unit -> Z -> Prop) p : Q tt (p - 1) -> wk tick Q p.
  Proof. intros H d s t <-. unfold tick. replace (10 * cnt s - (t + 1)) with (10 * cnt s - t - 1) by lia. exact H. Qed.
  Lemma wk_rd i (Q : E -> Z -> Prop) p : (forall x, Q x p) -> wk (rd i) Q p.
  Proof. intros H d s t <-. unfold rd. destruct (zget d i); auto. Qed.
  Lemma wk_wr i x (Q : unit -> Z -> Prop) p : Q tt p -> wk (wr i x) Q p.
  Proof. intros H d s t <-. unfold wr. destruct (zset d i x); auto. Qed.
  Lemma wk_swap i j (Q : unit -> Z -> Prop) p : Q tt (p - 1) -> wk (swapT i j) Q p.
  Proof.
    intros H. unfold swapT, swap. apply wk_bind, wk_tick. repeat (apply wk_bind, wk_rd; intros ?).
    apply wk_bind, wk_wr, wk_wr. exact H.
  Qed.
  Lemma wk_ltAt i j (Q : bool -> Z -> Prop) p : (forall b, Q b (p + 9)) -> wk (ltAtT lt i j) Q p.
  Proof.
    intros H. unfold ltAtT, ltAt. apply wk_bind, wk_tick. repeat (apply wk_bind, wk_rd; intros ?).
    intros d s t Hp. unfold askLt, beside. cbn [fst snd]. pose proof (Hlt d x x0 s) as Hc. destruct (lt d x x0 s) as [[b|e] [d' s']]; [|exact I].
    cbn [fst snd] in *. replace (10 * cnt s' - t) with (p + 9) by lia. apply H.
  Qed.
  Lemma wk_geAt i j (Q : bool -> Z -> Prop) p : (forall b, Q b (p + 9)) -> wk (geAtT ge i j) Q p.
  Proof.
    intros H. unfold geAtT, geAt. apply wk_bind, wk_tick. repeat (apply wk_bind, wk_rd; intros ?).
    intros d s t Hp. unfold askGe, beside. cbn [fst snd]. pose proof (Hge d x x0 s) as Hc. destruct (ge d x x0 s) as [[b|e] [d' s']]; [|exact I].
    cbn [fst snd] in *. replace (10 * cnt s' - t) with (p + 9) by lia. apply H.
  Qed.
  Lemma wk_andM c m (Q : bool -> Z -> Prop) p : (c = true -> wk m Q p) -> (c = false -> Q false p) -> wk (andM c m) Q p.
  Proof. destruct c; cbn; intros H1 H2; [auto|apply wk_ret; auto]. Qed.

  Ltac zb := rewrite ?Z.gtb_ltb, ?Z.geb_leb, ?Z.ltb_lt, ?Z.ltb_ge, ?Z.leb_le, ?Z.leb_gt, ?Z.eqb_eq, ?Z.eqb_neq in * |-.
  Ltac w1 :=
    cbv beta zeta;
    lazymatch goal with
    | |- wk (cbind _ _) _ _ => apply wk_bind
    | |- wk (cret _) _ _ => apply wk_ret
    | |- wk cdiverge _ _ => apply wk_diverge
    | |- wk tick _ _ => apply wk_tick
    | |- wk (swapT _ _) _ _ => apply wk_swap
    | |- wk (ltAtT _ _ _) _ _ => apply wk_ltAt; intros ?b
    | |- wk (geAtT _ _ _) _ _ => apply wk_geAt; intros ?b
    | |- wk (andM _ _) _ _ => apply wk_andM; intros ?Hc; zb
    | |- wk (if ?c then _ else _) _ _ => destruct c eqn:?Hc; zb
    end.
  Ltac w := repeat w1.

  Lemma wk_insertionInner fuel : forall a j p, wk (insertionInnerT lt fuel a j) (fun _ q => q >= p - 1 /\ (j > a -> q >= p + 6)) p.
  Proof.
    induction fuel as [|fuel IH]; intros a j p; cbn [insertionInnerT]; w; try lia.
    eapply wk_mono; [apply IH|]. cbv beta. lia.
  Qed.
  Lemma wk_insertionOuter fuel : forall a b i p, a < i -> wk (insertionOuterT lt fuel a b i) (fun _ q => q >= p - 1) p.
  Proof.
    induction fuel as [|fuel IH]; intros a b i p Hi; cbn [insertionOuterT]; w; try lia.
    eapply wk_mono; [apply wk_insertionInner|]. cbv beta. intros _ q [_ Hq].
    eapply wk_mono; [apply IH; lia|]. cbv beta. lia.
  Qed.
  Lemma wk_insertionSort a b p : wk (insertionSortT lt a b) (fun _ q => q >= p - 1) p.
  Proof. apply wk_insertionOuter. lia. Qed.

  Lemma wk_siftDownLoop fuel : forall root hi first p,
    wk (siftDownLoopT lt ge fuel root hi first) (fun _ q => q >= p - 1 /\ (2 * root + 1 < hi -> q >= p + 6)) p.
  Proof.
    induction fuel as [|fuel IH]; intros root hi first p; cbn [siftDownLoopT]; w; try lia;
      (eapply wk_mono; [apply IH|]; cbv beta; lia).
  Qed.
  Lemma wk_heapBuild fuel : forall i hi first p, 2 * i + 1 < hi -> -1 <= i ->
    wk (heapBuildT lt ge fuel i hi first) (fun _ q => q >= p - 1 + 5 * (i + 1)) p.
  Proof.
    induction fuel as [|fuel IH]; intros i hi first p Hi H0; cbn [heapBuildT]; w; try lia.
    eapply wk_mono; [apply wk_siftDownLoop|]. cbv beta. intros _ q [_ Hq].
    eapply wk_mono; [apply IH; lia|]. cbv beta. lia.
  Qed.
  Lemma wk_heapBuild_top fuel i hi first p : 2 * i + 1 <= hi -> 0 <= i ->
    wk (heapBuildT lt ge fuel i hi first) (fun _ q => q >= p - 3 + 5 * i) p.
  Proof.
    intros Hi H0. destruct fuel as [|fuel]; cbn [heapBuildT]; w; try lia.
    eapply wk_mono; [apply wk_siftDownLoop|]. cbv beta. intros _ q [Hq _].
    eapply wk_mono; [apply wk_heapBuild; lia|]. cbv beta. lia.
  Qed.
  Lemma wk_heapPop fuel : forall i first p, wk (heapPopT lt ge fuel i 0 first) (fun _ q => q >= p - 1 - 3 * Z.min (Z.max 0 (i + 1)) 2) p.
  Proof.
    induction fuel as [|fuel IH]; intros i first p; cbn [heapPopT]; w; try lia.
    eapply wk_mono; [apply wk_siftDownLoop|]. cbv beta. intros _ q [Hq1 Hq2].
    eapply wk_mono; [apply IH|]. cbv beta. lia.
  Qed.
  Lemma wk_heapSort a b p : b - a > 12 -> wk (heapSortT lt ge a b) (fun _ q => q >= p) p.
  Proof.
    intros Hn. unfold heapSortT. w. rewrite Z.quot_div_nonneg by lia.
    pose proof (Z.div_mod (b - a - 1) 2 ltac:(lia)). pose proof (Z.mod_pos_bound (b - a - 1) 2 ltac:(lia)).
    eapply wk_mono; [apply wk_heapBuild_top; lia|]. cbv beta. intros _ q Hq.
    eapply wk_mono; [apply wk_heapPop|]. cbv beta. lia.
  Qed.

  (** Partitioning compares every element. *)
  Lemma wk_advI fuel : forall i j a p, wk (advIT lt fuel i j a)
    (fun i' q => i <= i' /\ (i <= j + 1 -> i' <= j + 1) /\ (i' <= j -> q >= p + 8 * (i' - i + 1)) /\ q >= p + 8 * (i' - i) - 1) p.
  Proof.
    induction fuel as [|fuel IH]; intros i j a p; cbn [advIT]; w; try lia.
    eapply wk_mono; [apply IH|]. cbv beta. lia.
  Qed.
  Lemma wk_advJ fuel : forall i j a p, wk (advJT ge fuel i j a)
    (fun j' q => j' <= j /\ (i <= j + 1 -> i <= j' + 1) /\ (i <= j' -> q >= p + 8 * (j - j' + 1)) /\ q >= p + 8 * (j - j') - 1) p.
  Proof.
    induction fuel as [|fuel IH]; intros i j a p; cbn [advJT]; w; try lia.
    eapply wk_mono; [apply IH|]. cbv beta. lia.
  Qed.
  Lemma wk_partitionLoop fuel : forall i j a p, i <= j + 2 -> wk (partitionLoopT lt ge fuel i j a)
    (fun _ q => q >= p + 7 * (j - i + 1) - 3) p.
  Proof.
    induction fuel as [|fuel IH]; intros i j a p Hij; cbn [partitionLoopT]; w.
    eapply wk_mono; [apply wk_advI|]. cbv beta. intros i' q (Hi1 & Hi2 & Hi3 & Hi4). w.
    eapply wk_mono; [apply wk_advJ|]. cbv beta. intros j' q' (Hj1 & Hj2 & Hj3 & Hj4). w; try lia.
    eapply wk_mono; [apply IH; lia|]. cbv beta. lia.
  Qed.
  Lemma wk_partition a b pivot p : a < b -> wk (partitionT lt ge a b pivot) (fun _ q => q >= p + 7 * (b - a) - 20) p.
  Proof.
    intros Hab. unfold partitionT. w.
    eapply wk_mono; [apply wk_advI|]. cbv beta. intros i' q (Hi1 & Hi2 & Hi3 & Hi4). w.
    eapply wk_mono; [apply wk_advJ|]. cbv beta. intros j' q' (Hj1 & Hj2 & Hj3 & Hj4). w; try lia.
    eapply wk_mono; [apply wk_partitionLoop; lia|]. cbv beta. intros ? q'' Hq. w. lia.
  Qed.
  Lemma wk_eqAdvI fuel : forall i j a p, wk (eqAdvIT ge fuel i j a)
    (fun i' q => i <= i' /\ (i <= j + 1 -> i' <= j + 1) /\ (i' <= j -> q >= p + 8 * (i' - i + 1)) /\ q >= p + 8 * (i' - i) - 1) p.
  Proof.
    induction fuel as [|fuel IH]; intros i j a p; cbn [eqAdvIT]; w; try lia.
    eapply wk_mono; [apply IH|]. cbv beta. lia.
  Qed.
  Lemma wk_eqAdvJ fuel : forall i j a p, wk (eqAdvJT lt fuel i j a)
    (fun j' q => j' <= j /\ (i <= j + 1 -> i <= j' + 1) /\ (i <= j' -> q >= p + 8 * (j - j' + 1)) /\ q >= p + 8 * (j - j') - 1) p.
  Proof.
    induction fuel as [|fuel IH]; intros i j a p; cbn [eqAdvJT]; w; try lia.
    eapply wk_mono; [apply IH|]. cbv beta. lia.
  Qed.
  Lemma wk_partitionEqualLoop fuel : forall i j a p, i <= j + 2 -> wk (partitionEqualLoopT lt ge fuel i j a)
    (fun _ q => q >= p + 7 * (j - i + 1) - 3) p.
  Proof.
    induction fuel as [|fuel IH]; intros i j a p Hij; cbn [partitionEqualLoopT]; w.
    eapply wk_mono; [apply wk_eqAdvI|]. cbv beta. intros i' q (Hi1 & Hi2 & Hi3 & Hi4). w.
    eapply wk_mono; [apply wk_eqAdvJ|]. cbv beta. intros j' q' (Hj1 & Hj2 & Hj3 & Hj4). w; try lia.
    eapply wk_mono; [apply IH; lia|]. cbv beta. lia.
  Qed.
  Lemma wk_partitionEqual a b pivot p : a < b -> wk (partitionEqualT lt ge a b pivot) (fun _ q => q >= p + 7 * (b - a) - 20) p.
  Proof.
    intros Hab. unfold partitionEqualT. w.
    eapply wk_mono; [apply wk_partitionEqualLoop; lia|]. cbv beta. lia.
  Qed.

  Lemma wk_pisAdvance fuel : forall i b p, wk (pisAdvanceT ge fuel i b) (fun i' q => i <= i' /\ q >= p + 8 * (i' - i) - 1) p.
  Proof.
    induction fuel as [|fuel IH]; intros i b p; cbn [pisAdvanceT]; w; try lia.
    eapply wk_mono; [apply IH|]. cbv beta. lia.
  Qed.
  Lemma wk_pisShiftLeft fuel : forall j p, wk (pisShiftLeftT ge fuel j) (fun _ q => q >= p - 1) p.
  Proof.
    induction fuel as [|fuel IH]; intros j p; cbn [pisShiftLeftT]; w; try lia.
    eapply wk_mono; [apply IH|]. cbv beta. lia.
  Qed.
  Lemma wk_pisShiftRight fuel : forall j b p, wk (pisShiftRightT ge fuel j b) (fun _ q => q >= p - 1) p.
  Proof.
    induction fuel as [|fuel IH]; intros j b p; cbn [pisShiftRightT]; w; try lia.
    eapply wk_mono; [apply IH|]. cbv beta. lia.
  Qed.
  Lemma wk_pisLoop steps : forall i a b p, wk (pisLoopT ge steps i a b)
    (fun done q => q >= p - 5 * Z.of_nat steps /\ (done = true -> q >= p - 5 * Z.of_nat steps + 8 * (b - i))) p.
  Proof.
    induction steps as [|steps IH]; intros i a b p; cbn [pisLoopT]; w; [split; [lia|discriminate]|].
    eapply wk_mono; [apply wk_pisAdvance|]. cbv beta. intros i' q [Hi Hq]. w; try (split; [lia|discriminate || lia]).
    all: repeat (eapply wk_mono; [apply wk_pisShiftLeft || apply wk_pisShiftRight|]; cbv beta; intros _ ? ?; w).
    all: eapply wk_mono; [apply IH|]; cbv beta; intros dn qf [H1 H2]; split; [lia|intros Hd; specialize (H2 Hd); lia].
  Qed.
  Lemma wk_breakLoop fuel : forall idx last random modulus length a p, wk (breakLoopT fuel idx last random modulus length a)
    (fun _ q => q >= p - 2 * Z.of_nat fuel) p.
  Proof.
    induction fuel as [|fuel IH]; intros; cbn [breakLoopT]; w; try lia.
    eapply wk_mono; [apply IH|]. cbv beta. lia.
  Qed.
  Lemma wk_breakPatterns a b p : wk (breakPatternsT a b) (fun _ q => q >= p - 8) p.
  Proof. unfold breakPatternsT. w; [|lia]. eapply wk_mono; [apply wk_breakLoop|]. cbv beta. lia. Qed.
  Lemma wk_order2 a b swaps p : wk (order2T lt a b swaps) (fun _ q => q >= p) p.
  Proof. unfold order2T. w. lia. Qed.
  Lemma wk_median a b c swaps p : wk (medianT lt a b c swaps) (fun _ q => q >= p) p.
  Proof.
    unfold medianT. do 3 (w; eapply wk_mono; [apply wk_order2|]; cbv beta; intros [[? ?] ?] ? ?). w. lia.
  Qed.
  Lemma wk_choosePivot a b p : wk (choosePivotT lt a b) (fun _ q => q >= p) p.
  Proof.
    unfold choosePivotT, medianAdjacentT. w; try lia.
    - do 3 (w; eapply wk_mono; [apply wk_median|]; cbv beta; intros [? ?] ? ?). w.
      eapply wk_mono; [apply wk_median|]. cbv beta. intros [? ?] ? ?. w. lia.
    - eapply wk_mono; [apply wk_median|]. cbv beta. intros [? ?] ? ?. w. lia.
  Qed.
  Lemma wk_reverseLoop fuel : forall i j p, wk (reverseLoopT fuel i j) (fun _ q => q >= p - 1 - Z.max 0 (j - i + 1)) p.
  Proof.
    induction fuel as [|fuel IH]; intros i j p; cbn [reverseLoopT]; w; try lia.
    eapply wk_mono; [apply IH|]. cbv beta. lia.
  Qed.

  Lemma wk_pdqLoop self : (forall a b l p, wk (self a b l) (fun _ q => q >= p - 4) p) -> forall fuel a b limit wb wp p,
    wk (pdqLoopT lt ge self fuel a b limit wb wp) (fun _ q => q >= p - 3) p.
  Proof.
    intros HS. induction fuel as [|fuel IH]; intros a b limit wb wp p; cbn [pdqLoopT]; w1. w1. w1; [|w1].
    - eapply wk_mono; [apply wk_insertionSort|]. cbv beta. lia.
    - eapply wk_mono; [apply wk_heapSort; lia|]. cbv beta. lia.
    - w1. apply wk_mono with (Q := fun _ q => q >= p - 1 - 8).
      { w1; [|w1; lia]. apply wk_breakPatterns. }
      intros _ q1 Hq1. w1. eapply wk_mono; [apply wk_choosePivot|]. cbv beta. intros [pivot hint] q2 Hq2. w1.
      apply wk_mono with (Q := fun _ q => q >= q2 - 1 - (b - a)).
      { destruct hint; w; try lia. eapply wk_mono; [apply wk_reverseLoop|]. cbv beta. intros _ q Hq. w. lia. }
      intros [pivot' hint'] q3 Hq3. w1.
      apply wk_mono with (Q := fun done q => q >= q3 - 25 /\ (done = true -> q >= q3 - 25 + 8 * (b - a - 1))).
      { w1; [|w1; split; [lia|discriminate]]. eapply wk_mono; [apply (wk_pisLoop 5)|]. cbv beta. intros dn qf [H1 H2]. split; [lia|intros Hd; specialize (H2 Hd); lia]. }
      intros done q4 [Hq4 Hq4']. destruct done; [w1; lia|]. w1.
      apply wk_mono with (Q := fun _ q => q >= q4); [w; lia|]. intros e q5 Hq5. destruct e.
      + w1. eapply wk_mono; [apply wk_partitionEqual; lia|]. cbv beta. intros mid q6 Hq6.
        eapply wk_mono; [apply IH|]. cbv beta. lia.
      + w1. eapply wk_mono; [apply wk_partition; lia|]. cbv beta. intros [mid al] q6 Hq6.
        w1; w1; (eapply wk_mono; [apply HS|]; cbv beta; intros _ q7 Hq7; eapply wk_mono; [apply IH|]; cbv beta; lia).
  Qed.
  Lemma wk_pdqsort stack : forall a b limit p, wk (pdqsortT lt ge stack a b limit) (fun _ q => q >= p - 4) p.
  Proof.
    induction stack as [|stack IH]; intros a b limit p; cbn [pdqsortT]; w1. w1.
    eapply wk_mono; [apply wk_pdqLoop, IH|]. cbv beta. lia.
  Qed.
End Credit.

Lemma half_spec i j : 2 * half i j <= i + j < 2 * half i j + 2.
Proof. unfold half. rewrite Z.shiftr_div_pow2 by lia. change (2 ^ 1) with 2. pose proof (Z.div_mod (i + j) 2 ltac:(lia)). pose proof (Z.mod_pos_bound (i + j) 2 ltac:(lia)). lia. Qed.

(** ** Stable: time against the length *)
Section Time.
  Context {E S : Type} (lt ge : comparatorW E S).

  (** If the run returns: what it returns, and the clock. *)
  Definition wt {A} (m : CM (@stT E S) A) (Q : A -> Z -> Prop) (t : Z) : Prop :=
    forall d s, match m (d, (s, t)) with (CRet a, (_, (_, t'))) => Q a t' | _ => True end.

  Lemma wt_ret {A} (a : A) (Q : A -> Z -> Prop) t : Q a t -> wt (cret a) Q t.
  Proof. intros H d s. exact H. Qed.
  Lemma wt_diverge {A} (Q : A -> Z -> Prop) t : wt cdiverge Q t.
  Proof. intros d s. exact I. Qed.
  Lemma wt_bind {A B} (m : CM _ A) (f : A -> CM _ B) Q t : wt m (fun a t' => wt (f a) Q t') t -> wt (cbind m f) Q t.
  Proof. intros H d s. unfold cbind. specialize (H d s). destruct (m (d, (s, t))) as [[a| | |] [d' [s' t']]]; auto. apply H. Qed.
  Lemma wt_mono {A} (m : CM _ A) (Q R : A -> Z -> Prop) t : wt m Q t -> (forall a t', Q a t' -> R a t') -> wt m R t.
  Proof. intros H HQ d s. specialize (H d s). destruct (m (d, (s, t))) as [[a| | |] [d' [s' t']]]; auto. Qed.
  Lemma wt_tick (Q : unit -> Z -> Prop) t : Q tt (t + 1) -> wt tick Q t.
  Proof. intros H d s. exact H. Qed.
  Lemma wt_rd i (Q : E -> Z -> Prop) t : (forall x, Q x t) -> wt (rd i) Q t.
  Proof. intros H d s. unfold rd. destruct (zget d i); auto. Qed.
  Lemma wt_wr i x (Q : unit -> Z -> Prop) t : Q tt t -> wt (wr i x) Q t.
  Proof. intros H d s. unfold wr. destruct (zset d i x); auto. Qed.
  Lemma wt_swap i j (Q : unit -> Z -> Prop) t : Q tt (t + 1) -> wt (swapT i j) Q t.
  Proof.
    intros H. unfold swapT, swap. apply wt_bind, wt_tick. repeat (apply wt_bind, wt_rd; intros ?).
    apply wt_bind, wt_wr, wt_wr. exact H.
  Qed.
  Lemma wt_ltAt i j (Q : bool -> Z -> Prop) t : (forall b, Q b (t + 1)) -> wt (ltAtT lt i j) Q t.
  Proof.
    intros H. unfold ltAtT, ltAt. apply wt_bind, wt_tick. repeat (apply wt_bind, wt_rd; intros ?).
    intros d s. unfold askLt, beside. cbn [fst snd]. destruct (lt d x x0 s) as [[b|e] [d' s']]; [apply H|exact I].
  Qed.
  Lemma wt_geAt i j (Q : bool -> Z -> Prop) t : (forall b, Q b (t + 1)) -> wt (geAtT ge i j) Q t.
  Proof.
    intros H. unfold geAtT, geAt. apply wt_bind, wt_tick. repeat (apply wt_bind, wt_rd; intros ?).
    intros d s. unfold askGe, beside. cbn [fst snd]. destruct (ge d x x0 s) as [[b|e] [d' s']]; [apply H|exact I].
  Qed.
  Lemma wt_andM c m (Q : bool -> Z -> Prop) t : (c = true -> wt m Q t) -> (c = false -> Q false t) -> wt (andM c m) Q t.
  Proof. destruct c; cbn; intros H1 H2; [auto|apply wt_ret; auto]. Qed.

  Ltac zb := rewrite ?Z.gtb_ltb, ?Z.geb_leb, ?Z.ltb_lt, ?Z.ltb_ge, ?Z.leb_le, ?Z.leb_gt, ?Z.eqb_eq, ?Z.eqb_neq in * |-.
  Ltac w1 :=
    cbv beta zeta;
    lazymatch goal with
    | |- wt (cbind _ _) _ _ => apply wt_bind
    | |- wt (cret _) _ _ => apply wt_ret
    | |- wt cdiverge _ _ => apply wt_diverge
    | |- wt tick _ _ => apply wt_tick
    | |- wt (swapT _ _) _ _ => apply wt_swap
    | |- wt (ltAtT _ _ _) _ _ => apply wt_ltAt; intros ?b
    | |- wt (geAtT _ _ _) _ _ => apply wt_geAt; intros ?b
    | |- wt (andM _ _) _ _ => apply wt_andM; intros ?Hc; zb
    | |- wt (if ?c then _ else _) _ _ => destruct c eqn:?Hc; zb
    end.
  Ltac w := repeat w1.
  Ltac use l := eapply wt_mono; [apply l|]; cbv beta.

  Lemma wt_insertionInner fuel : forall a j t, a <= j -> wt (insertionInnerT lt fuel a j) (fun _ t' => t' <= t + 3 * (j - a) + 2) t.
  Proof. induction fuel as [|fuel IH]; intros a j t Ha; cbn [insertionInnerT]; w; try lia. use IH; lia. Qed.
  Lemma wt_insertionOuter fuel : forall a b i t, a < i -> b - a <= 20 -> wt (insertionOuterT lt fuel a b i) (fun _ t' => t' <= t + 60 * Z.max 0 (b - i) + 1) t.
  Proof.
    induction fuel as [|fuel IH]; intros a b i t Hi Hb; cbn [insertionOuterT]; w; try lia.
    use wt_insertionInner; [lia|]. intros _ t1 H1. use IH; lia.
  Qed.
  Lemma wt_insertionSort a b t : a <= b -> b - a <= 20 -> wt (insertionSortT lt a b) (fun _ t' => t' <= t + 60 * (b - a) + 1) t.
  Proof. intros Ha Hb. use wt_insertionOuter; lia. Qed.
  Lemma wt_stableBlocks fuel : forall a n t, 0 <= a <= n -> wt (stableBlocksT lt fuel a (a + 20) n 20)
    (fun a' t' => a <= a' <= n /\ n - a' < 20 /\ t' <= t + 61 * (a' - a) + 1) t.
  Proof.
    induction fuel as [|fuel IH]; intros a n t Ha; cbn [stableBlocksT]; w; try lia.
    use wt_insertionSort; [lia..|]. intros _ t1 H1. use IH; lia.
  Qed.

  Lemma wt_swapRangeLoop fuel : forall i n a b t, wt (swapRangeLoopT fuel i n a b) (fun _ t' => t' <= t + 2 * Z.max 0 (n - i) + 1) t.
  Proof. induction fuel as [|fuel IH]; intros i n a b t; cbn [swapRangeLoopT]; w; try lia. use IH. lia. Qed.
  Lemma wt_rotateLoop fuel : forall i j m t, 1 <= i -> 1 <= j -> wt (rotateLoopT fuel i j m) (fun _ t' => t' <= t + 4 * (i + j)) t.
  Proof.
    induction fuel as [|fuel IH]; intros i j m t Hi Hj; cbn [rotateLoopT]; w.
    - use wt_swapRangeLoop. lia.
    - use wt_swapRangeLoop. intros _ t1 H1. use IH; lia.
    - use wt_swapRangeLoop. intros _ t1 H1. use IH; lia.
  Qed.
  Lemma wt_bsearchLow fuel : forall i j a t, i <= j -> wt (bsearchLowT lt fuel i j a) (fun i' t' => i <= i' <= j /\ t' <= t + 2 * (j - i) + 1) t.
  Proof.
    induction fuel as [|fuel IH]; intros i j a t Hij; cbn [bsearchLowT]; w; try lia; pose proof (half_spec i j); use IH; lia.
  Qed.
  Lemma wt_bsearchHigh fuel : forall i j a t, i <= j -> wt (bsearchHighT ge fuel i j a) (fun i' t' => i <= i' <= j /\ t' <= t + 2 * (j - i) + 1) t.
  Proof.
    induction fuel as [|fuel IH]; intros i j a t Hij; cbn [bsearchHighT]; w; try lia; pose proof (half_spec i j); use IH; lia.
  Qed.
  Lemma wt_bsearchSym fuel : forall i j p t, i <= j -> wt (bsearchSymT ge fuel i j p) (fun i' t' => i <= i' <= j /\ t' <= t + 2 * (j - i) + 1) t.
  Proof.
    induction fuel as [|fuel IH]; intros i j p t Hij; cbn [bsearchSymT]; w; try lia; pose proof (half_spec i j); use IH; lia.
  Qed.
  Lemma wt_bubbleUp fuel : forall k i t, wt (bubbleUpT fuel k i) (fun _ t' => t' <= t + 2 * Z.max 0 (i - k) + 1) t.
  Proof. induction fuel as [|fuel IH]; intros k i t; cbn [bubbleUpT]; w; try lia. use IH. lia. Qed.
  Lemma wt_bubbleDown fuel : forall k i t, wt (bubbleDownT fuel k i) (fun _ t' => t' <= t + 2 * Z.max 0 (k - i) + 1) t.
  Proof. induction fuel as [|fuel IH]; intros k i t; cbn [bubbleDownT]; w; try lia. use IH. lia. Qed.

  Lemma wt_symMerge stack : forall k a m b t, a < m < b -> b - a <= 2 ^ Z.of_nat k ->
    wt (symMergeT lt ge stack a m b) (fun _ t' => t' <= t + 6 * (b - a) * Z.of_nat k) t.
  Proof.
    induction stack as [|stack IH]; intros k a m b t Ham Hk; cbn [symMergeT]; w1.
    destruct k as [|k]; [change (2 ^ Z.of_nat 0) with 1 in Hk; lia|].
    assert (HP : 2 ^ Z.of_nat (Datatypes.S k) = 2 * 2 ^ Z.of_nat k) by (rewrite Nat2Z.inj_succ, Z.pow_succ_r; lia).
    rewrite HP in Hk. assert (HK : 6 * (b - a) * Z.of_nat (Datatypes.S k) = 6 * (b - a) * Z.of_nat k + 6 * (b - a)) by lia.
    assert (HN : 0 <= 6 * (b - a) * Z.of_nat k) by nia.
    w1. w1; [|w1].
    - w1. use wt_bsearchLow; [lia|]. intros i t1 [Hi H1]. use wt_bubbleUp. lia.
    - w1. use wt_bsearchHigh; [lia|]. intros i t1 [Hi H1]. use wt_bubbleDown. lia.
    - cbv zeta. pose proof (half_spec a b) as Hh. set (mid := half a b) in *. clearbody mid.
      assert (Hsr : exists st r, (if m >? mid then (mid + m - b, mid) else (a, m)) = (st, r) /\ a <= st /\ st <= r /\ 2 * (r - st) <= b - a /\
        mid + m - st <= b /\ a <= mid + m - r).
      { destruct (m >? mid) eqn:Hm; zb; eexists _, _; repeat split; lia. }
      destruct Hsr as (st & r & -> & S1 & S2 & S3 & S4 & S5). w1.
      use wt_bsearchSym; [lia|]. intros start t1 [Hs H1]. set (e := mid + m - start) in *.
      assert (He : e <= b /\ a <= e) by lia. w1.
      apply wt_mono with (Q := fun _ t' => t' <= t1 + 4 * (b - a)).
      { w1; [|w1; lia]. apply andb_true_iff in Hc1 as [C1 C2]. zb. unfold rotateT. use wt_rotateLoop; lia. }
      intros _ t2 H2. w1.
      apply wt_mono with (Q := fun _ t' => t' <= t2 + 6 * (mid - a) * Z.of_nat k).
      { w1; [|w1; nia]. apply andb_true_iff in Hc1 as [C1 C2]. zb. apply IH; lia. }
      intros _ t3 H3.
      apply wt_mono with (Q := fun _ t' => t' <= t3 + 6 * (b - mid) * Z.of_nat k).
      { w1; [|w1; nia]. apply andb_true_iff in Hc1 as [C1 C2]. zb. apply IH; lia. }
      intros _ t4 H4. nia.
  Qed.
  Lemma wt_mergePass stack k fuel : forall a n bs t, 0 <= a <= n -> 0 < bs -> n <= 2 ^ Z.of_nat k ->
    wt (mergePassT lt ge stack fuel a (a + 2 * bs) n bs) (fun a' t' => a <= a' <= n /\ t' <= t + (6 * Z.of_nat k + 1) * (a' - a) + 1) t.
  Proof.
    induction fuel as [|fuel IH]; intros a n bs t Ha Hb Hk; cbn [mergePassT]; w; try nia.
    use (wt_symMerge stack k); [lia..|]. intros _ t1 H1. use IH; [lia..|]. intros a' t' [Ha' Ht']. split; [lia|]. nia.
  Qed.
  Lemma wt_mergeLoop stack k : forall j fuel n bs t, 0 <= n -> n <= 2 ^ Z.of_nat k -> 0 < bs -> n <= bs * 2 ^ Z.of_nat j ->
    wt (mergeLoopT lt ge stack fuel n bs) (fun _ t' => t' <= t + Z.of_nat j * ((6 * Z.of_nat k + 1) * n + 2) + 1) t.
  Proof.
    induction j as [|j IH]; intros [|fuel] n bs t H0 Hk Hb Hj; cbn [mergeLoopT]; w1.
    - w1. change (2 ^ Z.of_nat 0) with 1 in Hj. w1; [lia|]. w1. lia.
    - w1. w1; [|w1; nia]. w1. change (2 * bs) with (0 + 2 * bs); use (wt_mergePass stack k); [lia..|]. intros a t1 [Ha H1]. w1.
      apply wt_mono with (Q := fun _ t' => t' <= t1 + 6 * (n - a) * Z.of_nat k).
      { w1; [|w1; nia]. use (wt_symMerge stack k); lia. }
      intros _ t2 H2.
      rewrite Nat2Z.inj_succ, Z.pow_succ_r in Hj by lia.
      use IH; [lia..|]. intros _ t3 H3. nia.
  Qed.
  Lemma wt_stable stack k n t : 0 <= n -> n <= 2 ^ Z.of_nat k ->
    wt (stableT lt ge stack n) (fun _ t' => t' <= t + 61 * n + Z.of_nat k * ((6 * Z.of_nat k + 1) * n + 2) + 3) t.
  Proof.
    intros Hn Hk. unfold stableT. w1. use (wt_stableBlocks (Z.to_nat n + 1) 0); [lia|]. intros a t1 (Ha & Ha' & H1). w1.
    use wt_insertionSort; [lia..|]. intros _ t2 H2.
    use (wt_mergeLoop stack k k); [lia..|]. lia.
  Qed.
End Time.
