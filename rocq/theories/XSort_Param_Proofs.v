(** Proofs: the sorts are parametric in the type of the elements. *)
From Verif Require Import Base XSort_Model XSort_Param_Spec.
Local Open Scope cb_scope.

Section Param.
  Context {E1 E2 S1 S2 : Type} (R : E1 -> E2 -> Prop) (Q : S1 -> S2 -> Prop).
  Variable lt1 ge1 : comparatorW E1 S1.
  Variable lt2 ge2 : comparatorW E2 S2.

  Hypothesis HL : alike R Q lt1 lt2.
  Hypothesis HG : alike R Q ge1 ge2.

  Definition rst (a : list E1 * S1) (b : list E2 * S2) : Prop := Forall2 R (fst a) (fst b) /\ Q (snd a) (snd b).
  Definition rel {A} (m1 : CM (list E1 * S1) A) (m2 : CM (list E2 * S2) A) : Prop :=
    forall a b, rst a b -> fst (m1 a) = fst (m2 b) /\ rst (snd (m1 a)) (snd (m2 b)).

  Lemma rel_ret {A} (x : A) : rel (cret x) (cret x).
  Proof. intros a b H. split; [reflexivity|exact H]. Qed.
  Lemma rel_div {A} : rel (@cdiverge _ A) (@cdiverge _ A).
  Proof. intros a b H. split; [reflexivity|exact H]. Qed.
  Lemma rel_bind {A B} m1 m2 (f1 : A -> CM _ B) f2 : rel m1 m2 -> (forall x, rel (f1 x) (f2 x)) ->
    rel (cbind m1 f1) (cbind m2 f2).
  Proof.
    intros Hm Hf a b H. destruct (Hm a b H) as [E1' E2']. unfold cbind.
    destruct (m1 a) as [r1 a'], (m2 b) as [r2 b']. cbn in E1', E2'. subst r2.
    destruct r1; [apply Hf; assumption|split; [reflexivity|exact E2']..].
  Qed.

  Lemma Forall2_nth d1 d2 : Forall2 R d1 d2 -> forall n,
    match nth_error d1 n, nth_error d2 n with Some x, Some y => R x y | None, None => True | _, _ => False end.
  Proof. induction 1; intros [|n]; cbn; auto. apply IHForall2. Qed.
  Lemma Forall2_zget d1 d2 i : Forall2 R d1 d2 ->
    match zget d1 i, zget d2 i with Some x, Some y => R x y | None, None => True | _, _ => False end.
  Proof. intros H. unfold zget. destruct (i <? 0); [exact I|]. now apply Forall2_nth. Qed.

  Lemma Forall2_upd d1 d2 x y : Forall2 R d1 d2 -> R x y -> forall n, Forall2 R (upd d1 n x) (upd d2 n y).
  Proof. intros H Hx. induction H; intros [|n]; cbn; constructor; auto. Qed.
  Lemma Forall2_zset d1 d2 i x y : Forall2 R d1 d2 -> R x y ->
    match zset d1 i x, zset d2 i y with Some a, Some b => Forall2 R a b | None, None => True | _, _ => False end.
  Proof.
    intros H Hx. pose proof (Forall2_zget d1 d2 i H) as Hz. unfold zset.
    assert (zlen d2 = zlen d1) as -> by (unfold zlen; f_equal; clear -H; induction H; cbn; congruence). destruct ((0 <=? i) && _); [now apply Forall2_upd|exact I].
  Qed.

  (** Elements read on both sides are related. *)
  Definition relE (m1 : CM (list E1 * S1) E1) (m2 : CM (list E2 * S2) E2) : Prop :=
    forall a b, rst a b -> rst (snd (m1 a)) (snd (m2 b)) /\
      match fst (m1 a), fst (m2 b) with
      | CRet x, CRet y => R x y
      | CPanic e, CPanic f => e = f
      | _, _ => False
      end.
  Lemma relE_rd i : relE (rd i) (rd i).
  Proof.
    intros [d1 s1] [d2 s2] [H1 H2]. cbn in H1, H2. pose proof (Forall2_zget d1 d2 i H1) as Hz. cbn.
    split; [split; assumption|]. destruct (zget d1 i), (zget d2 i); cbn; auto; contradiction.
  Qed.
  Lemma relE_bind {B} m1 m2 (f1 : E1 -> CM _ B) f2 : relE m1 m2 -> (forall x y, R x y -> rel (f1 x) (f2 y)) ->
    rel (cbind m1 f1) (cbind m2 f2).
  Proof.
    intros Hm Hf a b H. destruct (Hm a b H) as [Hs Hr]. unfold cbind.
    destruct (m1 a) as [r1 a'], (m2 b) as [r2 b']. cbn in Hs, Hr.
    destruct r1, r2; try contradiction; [apply Hf; assumption|subst; split; [reflexivity|exact Hs]].
  Qed.
  Lemma rel_wr i x y : R x y -> rel (wr i x) (wr i y).
  Proof.
    intros Hx [d1 s1] [d2 s2] [H1 H2]. cbn in H1, H2. pose proof (Forall2_zset d1 d2 i x y H1 Hx) as Hz. cbn.
    destruct (zset d1 i x), (zset d2 i y); try contradiction; (split; [reflexivity|split; assumption]).
  Qed.
  Lemma rel_swap i j : rel (swap i j) (swap i j).
  Proof.
    unfold swap. apply relE_bind; [apply relE_rd|intros x y Hx]. apply relE_bind; [apply relE_rd|intros x' y' Hx'].
    apply rel_bind; [now apply rel_wr|intros _; now apply rel_wr].
  Qed.
  Lemma rel_ltAt i j : rel (ltAt lt1 i j) (ltAt lt2 i j).
  Proof.
    unfold ltAt. apply relE_bind; [apply relE_rd|intros x y Hx]. apply relE_bind; [apply relE_rd|intros x' y' Hx'].
    intros [d1 s1] [d2 s2] [H1 H2]. cbn in H1, H2. destruct (HL d1 d2 x y x' y' s1 s2 H1 Hx Hx' H2) as (A & B & C).
    unfold askLt. destruct (lt1 d1 x x' s1) as [[r1|r1] t1], (lt2 d2 y y' s2) as [[r2|r2] t2]; cbn in *; try discriminate;
      injection A as ->; (split; [reflexivity|split; assumption]).
  Qed.
  Lemma rel_geAt i j : rel (geAt ge1 i j) (geAt ge2 i j).
  Proof.
    unfold geAt. apply relE_bind; [apply relE_rd|intros x y Hx]. apply relE_bind; [apply relE_rd|intros x' y' Hx'].
    intros [d1 s1] [d2 s2] [H1 H2]. cbn in H1, H2. destruct (HG d1 d2 x y x' y' s1 s2 H1 Hx Hx' H2) as (A & B & C).
    unfold askGe. destruct (ge1 d1 x x' s1) as [[r1|r1] t1], (ge2 d2 y y' s2) as [[r2|r2] t2]; cbn in *; try discriminate;
      injection A as ->; (split; [reflexivity|split; assumption]).
  Qed.
  Lemma rel_andM c m1 m2 : rel m1 m2 -> rel (andM c m1) (andM c m2).
  Proof. intros H. destruct c; [exact H|apply rel_ret]. Qed.
  Hint Resolve rel_ret rel_div rel_swap rel_ltAt rel_geAt rel_andM : par.

  Ltac go := repeat first
    [ progress cbv zeta
    | progress intros
    | solve [auto with par nocore]
    | apply rel_bind
    | apply rel_andM
    | match goal with
      | |- rel (if ?c then _ else _) _ => destruct c
      | |- rel (let '(_, _) := ?c in _) _ => destruct c
      | |- rel (match ?x with _ => _ end) _ => destruct x
      end ].

  Lemma rel_insertionInner fuel a j : rel (insertionInner lt1 fuel a j) (insertionInner lt2 fuel a j).
  Proof.
    revert a j. induction fuel as [|fuel IH]; intros a j; cbn [insertionInner]; go.
  Qed.
  Hint Resolve rel_insertionInner : par.
  Lemma rel_insertionOuter fuel a b i : rel (insertionOuter lt1 fuel a b i) (insertionOuter lt2 fuel a b i).
  Proof.
    revert a b i. induction fuel as [|fuel IH]; intros a b i; cbn [insertionOuter]; go.
  Qed.
  Hint Resolve rel_insertionOuter : par.
  Lemma rel_insertionSort a b : rel (insertionSort lt1 a b) (insertionSort lt2 a b).
  Proof. unfold insertionSort; go. Qed.
  Hint Resolve rel_insertionSort : par.
  Lemma rel_siftDownLoop fuel root hi first : rel (siftDownLoop lt1 ge1 fuel root hi first) (siftDownLoop lt2 ge2 fuel root hi first).
  Proof.
    revert root hi first. induction fuel as [|fuel IH]; intros root hi first; cbn [siftDownLoop]; go.
  Qed.
  Hint Resolve rel_siftDownLoop : par.
  Lemma rel_siftDown lo hi first : rel (siftDown lt1 ge1 lo hi first) (siftDown lt2 ge2 lo hi first).
  Proof. unfold siftDown; go. Qed.
  Hint Resolve rel_siftDown : par.
  Lemma rel_heapBuild fuel i hi first : rel (heapBuild lt1 ge1 fuel i hi first) (heapBuild lt2 ge2 fuel i hi first).
  Proof.
    revert i hi first. induction fuel as [|fuel IH]; intros i hi first; cbn [heapBuild]; go.
  Qed.
  Hint Resolve rel_heapBuild : par.
  Lemma rel_heapPop fuel i lo first : rel (heapPop lt1 ge1 fuel i lo first) (heapPop lt2 ge2 fuel i lo first).
  Proof.
    revert i lo first. induction fuel as [|fuel IH]; intros i lo first; cbn [heapPop]; go.
  Qed.
  Hint Resolve rel_heapPop : par.
  Lemma rel_heapSort a b : rel (heapSort lt1 ge1 a b) (heapSort lt2 ge2 a b).
  Proof. unfold heapSort; go. Qed.
  Hint Resolve rel_heapSort : par.
  Lemma rel_advI fuel i j a : rel (advI lt1 fuel i j a) (advI lt2 fuel i j a).
  Proof.
    revert i j a. induction fuel as [|fuel IH]; intros i j a; cbn [advI]; go.
  Qed.
  Hint Resolve rel_advI : par.
  Lemma rel_advJ fuel i j a : rel (advJ ge1 fuel i j a) (advJ ge2 fuel i j a).
  Proof.
    revert i j a. induction fuel as [|fuel IH]; intros i j a; cbn [advJ]; go.
  Qed.
  Hint Resolve rel_advJ : par.
  Lemma rel_partitionLoop fuel i j a : rel (partitionLoop lt1 ge1 fuel i j a) (partitionLoop lt2 ge2 fuel i j a).
  Proof.
    revert i j a. induction fuel as [|fuel IH]; intros i j a; cbn [partitionLoop]; go.
  Qed.
  Hint Resolve rel_partitionLoop : par.
  Lemma rel_partition a b pivot : rel (partition lt1 ge1 a b pivot) (partition lt2 ge2 a b pivot).
  Proof. unfold partition; go. Qed.
  Hint Resolve rel_partition : par.
  Lemma rel_eqAdvI fuel i j a : rel (eqAdvI ge1 fuel i j a) (eqAdvI ge2 fuel i j a).
  Proof.
    revert i j a. induction fuel as [|fuel IH]; intros i j a; cbn [eqAdvI]; go.
  Qed.
  Hint Resolve rel_eqAdvI : par.
  Lemma rel_eqAdvJ fuel i j a : rel (eqAdvJ lt1 fuel i j a) (eqAdvJ lt2 fuel i j a).
  Proof.
    revert i j a. induction fuel as [|fuel IH]; intros i j a; cbn [eqAdvJ]; go.
  Qed.
  Hint Resolve rel_eqAdvJ : par.
  Lemma rel_partitionEqualLoop fuel i j a : rel (partitionEqualLoop lt1 ge1 fuel i j a) (partitionEqualLoop lt2 ge2 fuel i j a).
  Proof.
    revert i j a. induction fuel as [|fuel IH]; intros i j a; cbn [partitionEqualLoop]; go.
  Qed.
  Hint Resolve rel_partitionEqualLoop : par.
  Lemma rel_partitionEqual a b pivot : rel (partitionEqual lt1 ge1 a b pivot) (partitionEqual lt2 ge2 a b pivot).
  Proof. unfold partitionEqual; go. Qed.
  Hint Resolve rel_partitionEqual : par.
  Lemma rel_pisAdvance fuel i b : rel (pisAdvance ge1 fuel i b) (pisAdvance ge2 fuel i b).
  Proof.
    revert i b. induction fuel as [|fuel IH]; intros i b; cbn [pisAdvance]; go.
  Qed.
  Hint Resolve rel_pisAdvance : par.
  Lemma rel_pisShiftLeft fuel j : rel (pisShiftLeft ge1 fuel j) (pisShiftLeft ge2 fuel j).
  Proof.
    revert j. induction fuel as [|fuel IH]; intros j; cbn [pisShiftLeft]; go.
  Qed.
  Hint Resolve rel_pisShiftLeft : par.
  Lemma rel_pisShiftRight fuel j b : rel (pisShiftRight ge1 fuel j b) (pisShiftRight ge2 fuel j b).
  Proof.
    revert j b. induction fuel as [|fuel IH]; intros j b; cbn [pisShiftRight]; go.
  Qed.
  Hint Resolve rel_pisShiftRight : par.
  Lemma rel_pisLoop steps i a b : rel (pisLoop ge1 steps i a b) (pisLoop ge2 steps i a b).
  Proof.
    revert i a b. induction steps as [|steps IH]; intros i a b; cbn [pisLoop]; go.
  Qed.
  Hint Resolve rel_pisLoop : par.
  Lemma rel_partialInsertionSort a b : rel (partialInsertionSort ge1 a b) (partialInsertionSort ge2 a b).
  Proof. unfold partialInsertionSort; go. Qed.
  Hint Resolve rel_partialInsertionSort : par.
  Lemma rel_breakLoop fuel idx last random modulus length a : rel (breakLoop fuel idx last random modulus length a) (breakLoop fuel idx last random modulus length a).
  Proof.
    revert idx last random modulus length a. induction fuel as [|fuel IH]; intros idx last random modulus length a; cbn [breakLoop]; go.
  Qed.
  Hint Resolve rel_breakLoop : par.
  Lemma rel_breakPatterns a b : rel (breakPatterns a b) (breakPatterns a b).
  Proof. unfold breakPatterns; go. Qed.
  Hint Resolve rel_breakPatterns : par.
  Lemma rel_order2 a b swaps : rel (order2 lt1 a b swaps) (order2 lt2 a b swaps).
  Proof. unfold order2; go. Qed.
  Hint Resolve rel_order2 : par.
  Lemma rel_median a b c swaps : rel (median lt1 a b c swaps) (median lt2 a b c swaps).
  Proof. unfold median; go. Qed.
  Hint Resolve rel_median : par.
  Lemma rel_medianAdjacent a swaps : rel (medianAdjacent lt1 a swaps) (medianAdjacent lt2 a swaps).
  Proof. unfold medianAdjacent; go. Qed.
  Hint Resolve rel_medianAdjacent : par.
  Lemma rel_choosePivot a b : rel (choosePivot lt1 a b) (choosePivot lt2 a b).
  Proof. unfold choosePivot; go. Qed.
  Hint Resolve rel_choosePivot : par.
  Lemma rel_reverseLoop fuel i j : rel (reverseLoop fuel i j) (reverseLoop fuel i j).
  Proof.
    revert i j. induction fuel as [|fuel IH]; intros i j; cbn [reverseLoop]; go.
  Qed.
  Hint Resolve rel_reverseLoop : par.
  Lemma rel_reverseRange a b : rel (reverseRange a b) (reverseRange a b).
  Proof. unfold reverseRange; go. Qed.
  Hint Resolve rel_reverseRange : par.
  Lemma rel_pdqLoop self1 self2 (Hs : forall a b limit, rel (self1 a b limit) (self2 a b limit)) fuel a b limit wb wp :
    rel (pdqLoop lt1 ge1 self1 fuel a b limit wb wp) (pdqLoop lt2 ge2 self2 fuel a b limit wb wp).
  Proof.
    revert a b limit wb wp. induction fuel as [|fuel IH]; intros a b limit wb wp; cbn [pdqLoop]; go.
  Qed.
  Hint Resolve rel_pdqLoop : par.
  Lemma rel_pdqsort stack a b limit : rel (pdqsort lt1 ge1 stack a b limit) (pdqsort lt2 ge2 stack a b limit).
  Proof.
    revert a b limit. induction stack as [|stack IH]; intros a b limit; cbn [pdqsort]; go.
  Qed.
  Hint Resolve rel_pdqsort : par.
  Lemma rel_swapRangeLoop fuel i n a b : rel (swapRangeLoop fuel i n a b) (swapRangeLoop fuel i n a b).
  Proof.
    revert i n a b. induction fuel as [|fuel IH]; intros i n a b; cbn [swapRangeLoop]; go.
  Qed.
  Hint Resolve rel_swapRangeLoop : par.
  Lemma rel_swapRange a b n : rel (swapRange a b n) (swapRange a b n).
  Proof. unfold swapRange; go. Qed.
  Hint Resolve rel_swapRange : par.
  Lemma rel_rotateLoop fuel i j m : rel (rotateLoop fuel i j m) (rotateLoop fuel i j m).
  Proof.
    revert i j m. induction fuel as [|fuel IH]; intros i j m; cbn [rotateLoop]; go.
  Qed.
  Hint Resolve rel_rotateLoop : par.
  Lemma rel_rotate a m b : rel (rotate a m b) (rotate a m b).
  Proof. unfold rotate; go. Qed.
  Hint Resolve rel_rotate : par.
  Lemma rel_bsearchLow fuel i j a : rel (bsearchLow lt1 fuel i j a) (bsearchLow lt2 fuel i j a).
  Proof.
    revert i j a. induction fuel as [|fuel IH]; intros i j a; cbn [bsearchLow]; go.
  Qed.
  Hint Resolve rel_bsearchLow : par.
  Lemma rel_bubbleUp fuel k i : rel (bubbleUp fuel k i) (bubbleUp fuel k i).
  Proof.
    revert k i. induction fuel as [|fuel IH]; intros k i; cbn [bubbleUp]; go.
  Qed.
  Hint Resolve rel_bubbleUp : par.
  Lemma rel_bsearchHigh fuel i j m : rel (bsearchHigh ge1 fuel i j m) (bsearchHigh ge2 fuel i j m).
  Proof.
    revert i j m. induction fuel as [|fuel IH]; intros i j m; cbn [bsearchHigh]; go.
  Qed.
  Hint Resolve rel_bsearchHigh : par.
  Lemma rel_bubbleDown fuel k i : rel (bubbleDown fuel k i) (bubbleDown fuel k i).
  Proof.
    revert k i. induction fuel as [|fuel IH]; intros k i; cbn [bubbleDown]; go.
  Qed.
  Hint Resolve rel_bubbleDown : par.
  Lemma rel_bsearchSym fuel start r p : rel (bsearchSym ge1 fuel start r p) (bsearchSym ge2 fuel start r p).
  Proof.
    revert start r p. induction fuel as [|fuel IH]; intros start r p; cbn [bsearchSym]; go.
  Qed.
  Hint Resolve rel_bsearchSym : par.
  Lemma rel_symMerge stack a m b : rel (symMerge lt1 ge1 stack a m b) (symMerge lt2 ge2 stack a m b).
  Proof.
    revert a m b. induction stack as [|stack IH]; intros a m b; cbn [symMerge]; go.
  Qed.
  Hint Resolve rel_symMerge : par.
  Lemma rel_stableBlocks fuel a b n blockSize : rel (stableBlocks lt1 fuel a b n blockSize) (stableBlocks lt2 fuel a b n blockSize).
  Proof.
    revert a b n blockSize. induction fuel as [|fuel IH]; intros a b n blockSize; cbn [stableBlocks]; go.
  Qed.
  Hint Resolve rel_stableBlocks : par.
  Lemma rel_mergePass stack fuel a b n blockSize : rel (mergePass lt1 ge1 stack fuel a b n blockSize) (mergePass lt2 ge2 stack fuel a b n blockSize).
  Proof.
    revert stack a b n blockSize. induction fuel as [|fuel IH]; intros stack a b n blockSize; cbn [mergePass]; go.
  Qed.
  Hint Resolve rel_mergePass : par.
  Lemma rel_mergeLoop stack fuel n blockSize : rel (mergeLoop lt1 ge1 stack fuel n blockSize) (mergeLoop lt2 ge2 stack fuel n blockSize).
  Proof.
    revert stack n blockSize. induction fuel as [|fuel IH]; intros stack n blockSize; cbn [mergeLoop]; go.
  Qed.
  Hint Resolve rel_mergeLoop : par.
  Lemma rel_stable stack n : rel (stable lt1 ge1 stack n) (stable lt2 ge2 stack n).
  Proof. unfold stable; go. Qed.
  Hint Resolve rel_stable : par.
End Param.

Lemma alike_not {E1 E2 S1 S2} (R : E1 -> E2 -> Prop) (Q : S1 -> S2 -> Prop) c1 c2 :
  alike R Q c1 c2 -> alike R Q (notLessW c1) (notLessW c2).
Proof.
  intros H d1 d2 x1 x2 y1 y2 s1 s2 Hd Hx Hy Hs. destruct (H d1 d2 x1 x2 y1 y2 s1 s2 Hd Hx Hy Hs) as (A & B & C).
  unfold notLessW. cbn. rewrite A. auto.
Qed.

Lemma Forall2_len {A B} (R : A -> B -> Prop) l m : Forall2 R l m -> List.length l = List.length m.
Proof. induction 1; cbn; congruence. Qed.

Lemma SortW_rel {E1 E2 S1 S2} (R : E1 -> E2 -> Prop) (Q : S1 -> S2 -> Prop) c1 c2 d1 d2 s1 s2 :
  alike R Q c1 c2 -> Forall2 R d1 d2 -> Q s1 s2 ->
  fst (SortW d1 c1 s1) = fst (SortW d2 c2 s2) /\ rst R Q (snd (SortW d1 c1 s1)) (snd (SortW d2 c2 s2)).
Proof.
  intros H Hd Hs. unfold SortW, SortWWithin, zlen. rewrite (Forall2_len _ _ _ Hd).
  apply rel_pdqsort; [exact H|now apply alike_not|split; assumption].
Qed.
Lemma StableW_rel {E1 E2 S1 S2} (R : E1 -> E2 -> Prop) (Q : S1 -> S2 -> Prop) c1 c2 d1 d2 s1 s2 :
  alike R Q c1 c2 -> Forall2 R d1 d2 -> Q s1 s2 ->
  fst (StableW d1 c1 s1) = fst (StableW d2 c2 s2) /\ rst R Q (snd (StableW d1 c1 s1)) (snd (StableW d2 c2 s2)).
Proof.
  intros H Hd Hs. unfold StableW, StableWWithin, zlen. rewrite (Forall2_len _ _ _ Hd).
  apply rel_stable; [exact H|now apply alike_not|split; assumption].
Qed.

Lemma alike_always {E1 E2 S} (R : E1 -> E2 -> Prop) (c1 : comparator E1 S) (c2 : comparator E2 S) :
  (forall x1 x2 y1 y2 s, R x1 x2 -> R y1 y2 -> c1 x1 y1 s = c2 x2 y2 s) -> alike R eq (reads (always c1)) (reads (always c2)).
Proof.
  intros H d1 d2 x1 x2 y1 y2 s1 s2 Hd Hx Hy <-. unfold reads, always. rewrite (H _ _ _ _ s1 Hx Hy).
  destruct (c2 x2 y2 s1) as [b s']. cbn. auto.
Qed.

(** The outcomes of two plain runs. *)
Lemma plain_rel {E1 E2 S} (R : E1 -> E2 -> Prop) (r1 : cres unit * (list E1 * S)) (r2 : cres unit * (list E2 * S)) :
  fst r1 = fst r2 -> rst R eq (snd r1) (snd r2) ->
  match plain r1, plain r2 with
  | Ok (l1, s1), Ok (l2, s2) => Forall2 R l1 l2 /\ s1 = s2
  | Panic e1, Panic e2 => e1 = e2
  | Diverge, Diverge => True
  | _, _ => False
  end.
Proof.
  destruct r1 as [[u|e| |e] [l1 s1]], r2 as [[u'|e'| |e'] [l2 s2]]; cbn; intros E [H1 H2]; cbn in *; try discriminate; auto; congruence.
Qed.

Lemma Forall2_map_r {A B} (f : A -> B) l m : Forall2 (fun x y => f x = y) l m <-> map f l = m.
Proof.
  split.
  - induction 1; cbn; congruence.
  - intros <-. induction l; cbn; constructor; auto.
Qed.

Lemma map_of_rel {A B S} (f : A -> B) (r1 : cres unit * (list A * S)) (r2 : cres unit * (list B * S)) :
  fst r1 = fst r2 -> rst (fun x y => f x = y) eq (snd r1) (snd r2) ->
  plain r2 = omap (fun '(l, s) => (map f l, s)) (plain r1).
Proof.
  intros H1 H2. pose proof (plain_rel _ r1 r2 H1 H2) as H.
  destruct (plain r1) as [[l1 s1]| |], (plain r2) as [[l2 s2]| |]; try contradiction; cbn; try congruence.
  destruct H as [H ->]. apply Forall2_map_r in H as ->. reflexivity.
Qed.
