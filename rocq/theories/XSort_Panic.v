(** Proofs about xsort: every intermediate state of the slice is a permutation
    of the input, whatever the comparator does. *)
From Coq Require Import Permutation.
From Verif Require Import Base Arr XSort_Model.
Local Open Scope cb_scope.

Section Good.
  Context {E S : Type}.
  Variable lt ge : comparatorP E S.
  Variable d0 : list E.
  Variable I : S -> Prop.
  Hypothesis Ilt : forall d x y s, Permutation d0 d -> In x d -> In y d -> I s -> I (snd (lt d x y s)).
  Hypothesis Ige : forall d x y s, Permutation d0 d -> In x d -> In y d -> I s -> I (snd (ge d x y s)).

  (** The comparator panicked with [e], called on two elements of the slice
      while it held [d], and left state [s']. *)
  Definition broke (e : string) (d : list E) (s' : S) : Prop :=
    exists x y s, In x d /\ In y d /\ I s /\
      (lt d x y s = (inr e, s') \/ ge d x y s = (inr e, s')).

  Definition good {A} (m : CM (@st E S) A) : Prop :=
    forall d s r d' s', Permutation d0 d -> I s -> m (d, s) = (r, (d', s')) ->
    Permutation d0 d' /\ I s' /\ (forall e, r = CUser e -> broke e d' s').

  Lemma good_ret {A} (a : A) : good (cret a).
  Proof. intros d s r d' s' Hp Hi H. injection H as <- <- <-. repeat split; auto. discriminate. Qed.

  Lemma good_diverge {A} : good (@cdiverge _ A).
  Proof. intros d s r d' s' Hp Hi H. injection H as <- <- <-. repeat split; auto. discriminate. Qed.

  Lemma good_bind {A B} (m : CM st A) (f : A -> CM st B) :
    good m -> (forall a, good (f a)) -> good (cbind m f).
  Proof.
    intros Hm Hf d s r d' s' Hp Hi H. unfold cbind in H.
    destruct (m (d, s)) as [[a|e| |e] [d1 s1]] eqn:Hx.
    all: destruct (Hm _ _ _ _ _ Hp Hi Hx) as (Hp1 & Hi1 & Hu1).
    - apply (Hf a d1 s1); auto.
    - injection H as <- <- <-. repeat split; auto. discriminate.
    - injection H as <- <- <-. repeat split; auto. discriminate.
    - injection H as <- <- <-. repeat split; auto. intros e0 He. injection He as <-. now apply Hu1.
  Qed.

  Lemma good_if {A} (b : bool) (m1 m2 : CM st A) : good m1 -> good m2 -> good (if b then m1 else m2).
  Proof. destruct b; auto. Qed.

  Lemma good_swap i j : good (swap i j).
  Proof.
    intros d s r d' s' Hp Hi H. unfold swap, cbind, rd, wr in H.
    destruct (zget d j) as [x|] eqn:Hj; [|injection H as <- <- <-; repeat split; auto; discriminate].
    destruct (zget d i) as [y|] eqn:Hi'; [|injection H as <- <- <-; repeat split; auto; discriminate].
    assert (Hir : 0 <= i < zlen d).
    { unfold zget in Hi'. destruct (Z.ltb_spec i 0); [discriminate|].
      assert (Z.to_nat i < List.length d)%nat by (apply nth_error_Some; congruence). unfold zlen. lia. }
    assert (Hjr : 0 <= j < zlen d).
    { unfold zget in Hj. destruct (Z.ltb_spec j 0); [discriminate|].
      assert (Z.to_nat j < List.length d)%nat by (apply nth_error_Some; congruence). unfold zlen. lia. }
    rewrite zset_ok in H by lia. rewrite zset_ok in H by (rewrite zlen_upd; lia).
    injection H as <- <- <-. repeat split; auto; [|discriminate].
    etransitivity; [exact Hp|].
    rewrite (zget_at y) in Hj, Hi' by lia. injection Hj as Hx. injection Hi' as Hy.
    pose proof (perm_swp y d i j Hir Hjr) as HP. unfold swp in HP. now rewrite Hx, Hy in HP.
  Qed.

  Lemma zget_In (d : list E) i x : zget d i = Some x -> In x d.
  Proof. unfold zget. destruct (i <? 0); [discriminate|]. apply nth_error_In. Qed.

  Lemma good_ltAt i j : good (ltAt lt i j).
  Proof.
    intros d s r d' s' Hp Hi H. unfold ltAt, cbind, rd, askLt, reads in H.
    destruct (zget d i) as [x|] eqn:Hx; [|injection H as <- <- <-; repeat split; auto; discriminate].
    destruct (zget d j) as [y|] eqn:Hy; [|injection H as <- <- <-; repeat split; auto; discriminate].
    apply zget_In in Hx, Hy. pose proof (Ilt d x y s Hp Hx Hy Hi) as Hi1.
    destruct (lt d x y s) as [[b|e] s1] eqn:Hl; cbn [fst snd] in *; injection H as <- <- <-; (split; [auto|split; [auto|]]).
    - discriminate.
    - intros e0 He. injection He as <-. exists x, y, s. auto.
  Qed.

  Lemma good_geAt i j : good (geAt ge i j).
  Proof.
    intros d s r d' s' Hp Hi H. unfold geAt, cbind, rd, askGe, reads in H.
    destruct (zget d i) as [x|] eqn:Hx; [|injection H as <- <- <-; repeat split; auto; discriminate].
    destruct (zget d j) as [y|] eqn:Hy; [|injection H as <- <- <-; repeat split; auto; discriminate].
    apply zget_In in Hx, Hy. pose proof (Ige d x y s Hp Hx Hy Hi) as Hi1.
    destruct (ge d x y s) as [[b|e] s1] eqn:Hl; cbn [fst snd] in *; injection H as <- <- <-; (split; [auto|split; [auto|]]).
    - discriminate.
    - intros e0 He. injection He as <-. exists x, y, s. auto.
  Qed.

  Lemma good_andM c m : good m -> good (andM c m).
  Proof. destruct c; cbn; auto. intros _. apply good_ret. Qed.

  Hint Resolve good_ret good_diverge good_swap good_ltAt good_geAt good_andM : good.

  Ltac g :=
    repeat (cbv beta zeta; match goal with
    | |- good (cbind _ _) => apply good_bind; [|intros ?]
    | |- good (if _ then _ else _) => apply good_if
    | |- good (match ?x with _ => _ end) => destruct x
    | |- good _ => solve [auto with good]
    | H : forall _, _ |- good _ => apply H
    end).

  Lemma good_insertionInner fuel : forall a j, good (insertionInner lt fuel a j).
  Proof. induction fuel; intros; cbn [insertionInner]; g. Qed.
  Hint Resolve good_insertionInner : good.
  Lemma good_insertionOuter fuel : forall a b i, good (insertionOuter lt fuel a b i).
  Proof. induction fuel; intros; cbn [insertionOuter]; g. Qed.
  Lemma good_insertionSort a b : good (insertionSort lt a b).
  Proof. apply good_insertionOuter. Qed.
  Lemma good_siftDownLoop fuel : forall a b i, good (siftDownLoop lt ge fuel a b i).
  Proof. induction fuel; intros; cbn [siftDownLoop]; g. Qed.
  Lemma good_siftDown lo hi first : good (siftDown lt ge lo hi first).
  Proof. apply good_siftDownLoop. Qed.
  Hint Resolve good_insertionSort good_siftDown : good.
  Lemma good_heapBuild fuel : forall i hi first, good (heapBuild lt ge fuel i hi first).
  Proof. induction fuel; intros; cbn [heapBuild]; g. Qed.
  Lemma good_heapPop fuel : forall i lo first, good (heapPop lt ge fuel i lo first).
  Proof. induction fuel; intros; cbn [heapPop]; g. Qed.
  Hint Resolve good_heapBuild good_heapPop : good.
  Lemma good_heapSort a b : good (heapSort lt ge a b).
  Proof. unfold heapSort. g. Qed.
  Lemma good_advI fuel : forall i j a, good (advI lt fuel i j a).
  Proof. induction fuel; intros; cbn [advI]; g. Qed.
  Lemma good_advJ fuel : forall i j a, good (advJ ge fuel i j a).
  Proof. induction fuel; intros; cbn [advJ]; g. Qed.
  Hint Resolve good_heapSort good_advI good_advJ : good.
  Lemma good_partitionLoop fuel : forall i j a, good (partitionLoop lt ge fuel i j a).
  Proof. induction fuel; intros; cbn [partitionLoop]; g. Qed.
  Hint Resolve good_partitionLoop : good.
  Lemma good_partition a b p : good (partition lt ge a b p).
  Proof. unfold partition. g. Qed.
  Lemma good_eqAdvI fuel : forall i j a, good (eqAdvI ge fuel i j a).
  Proof. induction fuel; intros; cbn [eqAdvI]; g. Qed.
  Lemma good_eqAdvJ fuel : forall i j a, good (eqAdvJ lt fuel i j a).
  Proof. induction fuel; intros; cbn [eqAdvJ]; g. Qed.
  Hint Resolve good_partition good_eqAdvI good_eqAdvJ : good.
  Lemma good_partitionEqualLoop fuel : forall i j a, good (partitionEqualLoop lt ge fuel i j a).
  Proof. induction fuel; intros; cbn [partitionEqualLoop]; g. Qed.
  Hint Resolve good_partitionEqualLoop : good.
  Lemma good_partitionEqual a b p : good (partitionEqual lt ge a b p).
  Proof. unfold partitionEqual. g. Qed.
  Lemma good_pisAdvance fuel : forall i b, good (pisAdvance ge fuel i b).
  Proof. induction fuel; intros; cbn [pisAdvance]; g. Qed.
  Lemma good_pisShiftLeft fuel : forall j, good (pisShiftLeft ge fuel j).
  Proof. induction fuel; intros; cbn [pisShiftLeft]; g. Qed.
  Lemma good_pisShiftRight fuel : forall j b, good (pisShiftRight ge fuel j b).
  Proof. induction fuel; intros; cbn [pisShiftRight]; g. Qed.
  Hint Resolve good_partitionEqual good_pisAdvance good_pisShiftLeft good_pisShiftRight : good.
  Lemma good_pisLoop fuel : forall i a b, good (pisLoop ge fuel i a b).
  Proof. induction fuel; intros; cbn [pisLoop]; g. Qed.
  Lemma good_breakLoop fuel : forall i l r m n a, good (@breakLoop E S fuel i l r m n a).
  Proof. induction fuel; intros; cbn [breakLoop]; g. Qed.
  Hint Resolve good_pisLoop good_breakLoop : good.
  Lemma good_breakPatterns a b : good (@breakPatterns E S a b).
  Proof. unfold breakPatterns. g. Qed.
  Lemma good_order2 a b sw : good (order2 lt a b sw).
  Proof. unfold order2. g. Qed.
  Hint Resolve good_breakPatterns good_order2 : good.
  Lemma good_median a b c sw : good (median lt a b c sw).
  Proof. unfold median. g. Qed.
  Hint Resolve good_median : good.
  Lemma good_choosePivot a b : good (choosePivot lt a b).
  Proof. unfold choosePivot, medianAdjacent. g. Qed.
  Lemma good_reverseLoop fuel : forall i j, good (@reverseLoop E S fuel i j).
  Proof. induction fuel; intros; cbn [reverseLoop]; g. Qed.
  Hint Resolve good_choosePivot good_reverseLoop : good.
  Lemma good_pdqLoop self : (forall a b l, good (self a b l)) ->
    forall fuel a b l wb wp, good (pdqLoop lt ge self fuel a b l wb wp).
  Proof.
    intros Hself. induction fuel as [|fuel IH]; intros; cbn [pdqLoop]; unfold reverseRange, partialInsertionSort; g.
  Qed.
  Lemma good_pdqsort stack : forall a b l, good (pdqsort lt ge stack a b l).
  Proof. induction stack as [|stack IH]; intros; cbn [pdqsort]; g. now apply good_pdqLoop. Qed.

  Lemma good_swapRangeLoop fuel : forall i n a b, good (@swapRangeLoop E S fuel i n a b).
  Proof. induction fuel; intros; cbn [swapRangeLoop]; g. Qed.
  Hint Resolve good_swapRangeLoop : good.
  Lemma good_rotateLoop fuel : forall i j m, good (@rotateLoop E S fuel i j m).
  Proof. induction fuel; intros; cbn [rotateLoop]; unfold swapRange; g. Qed.
  Lemma good_bsearchLow fuel : forall i j a, good (bsearchLow lt fuel i j a).
  Proof. induction fuel; intros; cbn [bsearchLow]; g. Qed.
  Lemma good_bsearchHigh fuel : forall i j a, good (bsearchHigh ge fuel i j a).
  Proof. induction fuel; intros; cbn [bsearchHigh]; g. Qed.
  Lemma good_bsearchSym fuel : forall i j a, good (bsearchSym ge fuel i j a).
  Proof. induction fuel; intros; cbn [bsearchSym]; g. Qed.
  Lemma good_bubbleUp fuel : forall k i, good (@bubbleUp E S fuel k i).
  Proof. induction fuel; intros; cbn [bubbleUp]; g. Qed.
  Lemma good_bubbleDown fuel : forall k i, good (@bubbleDown E S fuel k i).
  Proof. induction fuel; intros; cbn [bubbleDown]; g. Qed.
  Hint Resolve good_rotateLoop good_bsearchLow good_bsearchHigh good_bsearchSym good_bubbleUp good_bubbleDown : good.
  Lemma good_symMerge stack : forall a m b, good (symMerge lt ge stack a m b).
  Proof. induction stack as [|stack IH]; intros; cbn [symMerge]; unfold rotate; g. Qed.
  Hint Resolve good_symMerge : good.
  Lemma good_stableBlocks fuel : forall a b n bs, good (stableBlocks lt fuel a b n bs).
  Proof. induction fuel; intros; cbn [stableBlocks]; g. Qed.
  Lemma good_mergePass stack fuel : forall a b n bs, good (mergePass lt ge stack fuel a b n bs).
  Proof. induction fuel; intros; cbn [mergePass]; g. Qed.
  Hint Resolve good_stableBlocks good_mergePass : good.
  Lemma good_mergeLoop stack fuel : forall n bs, good (mergeLoop lt ge stack fuel n bs).
  Proof. induction fuel; intros; cbn [mergeLoop]; g. Qed.
  Hint Resolve good_mergeLoop : good.
  Lemma good_stable stack n : good (stable lt ge stack n).
  Proof. unfold stable. g. Qed.
End Good.

(** Comparators that never panic. *)
Lemma always_ok {E S} (less : comparator E S) d x y s :
  always less d x y s = (inl (fst (less x y s)), snd (less x y s)).
Proof. unfold always. now destruct (less x y s). Qed.
Lemma notLessP_always {E S} (less : comparator E S) d x y s :
  notLessP (always less) d x y s = (inl (negb (fst (less x y s))), snd (less x y s)).
Proof. unfold notLessP. now rewrite always_ok. Qed.

Lemma no_user {E S A} (lt ge : comparatorP E S) (m : CM (list E * S) A) d s e ds :
  (forall d x y s, exists b, fst (lt d x y s) = inl b) -> (forall d x y s, exists b, fst (ge d x y s) = inl b) ->
  good lt ge d (fun _ => True) m -> m (d, s) <> (CUser e, ds).
Proof.
  intros Hlt Hge Hm H. destruct ds as [d' s'].
  destruct (Hm d s _ d' s' (Permutation_refl _) I H) as (_ & _ & Hu).
  destruct (Hu e eq_refl) as (x & y & s0 & _ & _ & _ & [Hb|Hb]).
  - destruct (Hlt d' x y s0) as [b Hb']. rewrite Hb in Hb'. discriminate.
  - destruct (Hge d' x y s0) as [b Hb']. rewrite Hb in Hb'. discriminate.
Qed.
Lemma always_total {E S} (less : comparator E S) d x y s : exists b, fst (always less d x y s) = inl b.
Proof. rewrite always_ok. eexists. reflexivity. Qed.
Lemma notLess_total {E S} (less : comparator E S) d x y s : exists b, fst (notLessP (always less) d x y s) = inl b.
Proof. rewrite notLessP_always. eexists. reflexivity. Qed.

Lemma notLessP_panic {E S} (less : comparatorP E S) d x y s e s' :
  notLessP less d x y s = (inr e, s') -> less d x y s = (inr e, s').
Proof. unfold notLessP. destruct (less d x y s) as [[b|e0] s0]; cbn; congruence. Qed.
Lemma notLessP_snd {E S} (less : comparatorP E S) d x y s : snd (notLessP less d x y s) = snd (less d x y s).
Proof. unfold notLessP. now destruct (less d x y s) as [[b|e0] s0]. Qed.
