(** Proofs about xsort: safety for every comparator and sortedness for strict
    weak orders, by total-correctness triples over the state monad. *)
From Coq Require Import Permutation.
From Verif Require Import Base Arr XSort_Model XSort_Spec.
Local Open Scope cb_scope.

Section Order.
  Context {E : Type} (ltb : E -> E -> bool) (HW : strict_weak_order ltb).
  Definition le (x y : E) : Prop := ltb y x = false.

  Lemma lt_asym x y : ltb x y = true -> ltb y x = false.
  Proof.
    intros Hxy. destruct (ltb y x) eqn:Hyx; auto.
    pose proof (swo_trans _ HW _ _ _ Hxy Hyx) as Ht.
    rewrite (swo_irrefl _ HW) in Ht. discriminate.
  Qed.

  Lemma lt_le x y : ltb x y = true -> le x y.
  Proof. apply lt_asym. Qed.

  Lemma le_refl x : le x x.
  Proof. apply (swo_irrefl _ HW). Qed.

  Lemma le_trans x y z : le x y -> le y z -> le x z.
  Proof.
    unfold le. intros Hxy Hyz. destruct (ltb z x) eqn:Hzx; auto.
    destruct (ltb x y) eqn:H1.
    - pose proof (swo_trans _ HW _ _ _ Hzx H1). congruence.
    - destruct (ltb y z) eqn:H2.
      + pose proof (swo_trans _ HW _ _ _ H2 Hzx). congruence.
      + destruct (swo_incomp _ HW x y z); auto. congruence.
  Qed.

  Lemma le_lt_trans x y z : le x y -> ltb y z = true -> ltb x z = true.
  Proof.
    intros Hxy Hyz. destruct (ltb x z) eqn:Hxz; auto.
    assert (Hzy : le z y) by (apply le_trans with x; auto).
    unfold le in Hzy. congruence.
  Qed.

  Lemma lt_le_trans x y z : ltb x y = true -> le y z -> ltb x z = true.
  Proof.
    intros Hxy Hyz. destruct (ltb x z) eqn:Hxz; auto.
    assert (Hyx : le y x) by (apply le_trans with z; auto).
    unfold le in Hyx. congruence.
  Qed.
End Order.

Section Triples.
  Context {E S : Type}.
  Variable dflt : E.
  Variable lt ge : list E -> E -> E -> S -> (bool + string) * S.
  Variable ltb : E -> E -> bool.

  (** The good case: both questions answer the strict weak order [ltb]. *)
  Definition C : Prop :=
    strict_weak_order ltb /\
    (forall d x y s b s', lt d x y s = (inl b, s') -> b = ltb x y) /\
    (forall d x y s b s', ge d x y s = (inl b, s') -> b = negb (ltb x y)).

  Local Notation "d .[ i ]" := (at_ dflt d i) (at level 2, format "d .[ i ]").
  Local Notation leE := (le ltb).
  Local Notation permr := (permr dflt).
  Local Notation swp := (swp dflt).

  Definition wpd {A} (m : CM (@st E S) A) (Q : A -> list E -> S -> Prop) (d : list E) (s : S) : Prop :=
    match m (d, s) with
    | (CRet a, (d', s')) => Q a d' s'
    | (CUser _, _) => True
    | _ => False
    end.

  Lemma wpd_ret {A} (a : A) (Q : A -> list E -> S -> Prop) d s : Q a d s -> wpd (cret a) Q d s.
  Proof. auto. Qed.

  Lemma wpd_bind {A B} (m : CM st A) (f : A -> CM st B) (Q : B -> list E -> S -> Prop) d s :
    wpd m (fun a d' s' => wpd (f a) Q d' s') d s -> wpd (cbind m f) Q d s.
  Proof.
    unfold wpd, cbind. destruct (m (d, s)) as [[a| | |] [d' s']]; auto.
  Qed.

  Lemma wpd_conseq {A} (m : CM st A) (P Q : A -> list E -> S -> Prop) d s :
    wpd m P d s -> (forall a d' s', P a d' s' -> Q a d' s') -> wpd m Q d s.
  Proof.
    unfold wpd. destruct (m (d, s)) as [[a| | |] [d' s']]; auto.
  Qed.

  Lemma wpd_rd i (Q : _ -> list E -> S -> Prop) d s : 0 <= i < zlen d -> Q d.[i] d s -> wpd (rd i) Q d s.
  Proof. intros Hi HQ. unfold wpd, rd. now rewrite (zget_at dflt) by lia. Qed.

  Lemma wpd_wr i x (Q : _ -> list E -> S -> Prop) d s : 0 <= i < zlen d -> Q tt (upd d (Z.to_nat i) x) s -> wpd (wr i x) Q d s.
  Proof. intros Hi HQ. unfold wpd, wr. now rewrite zset_ok by lia. Qed.

  Lemma wpd_swap i j (Q : _ -> list E -> S -> Prop) d s : 0 <= i < zlen d -> 0 <= j < zlen d ->
    Q tt (swp d i j) s -> wpd (swap i j) Q d s.
  Proof.
    intros Hi Hj HQ. unfold swap.
    apply wpd_bind, wpd_rd; auto. apply wpd_bind, wpd_rd; auto.
    apply wpd_bind, wpd_wr; auto. apply wpd_wr; [rewrite zlen_upd; lia|].
    exact HQ.
  Qed.

  Lemma wpd_ltAt i j (Q : _ -> list E -> S -> Prop) d s : 0 <= i < zlen d -> 0 <= j < zlen d ->
    (forall b s', (C -> ltb d.[i] d.[j] = b) -> Q b d s') -> wpd (ltAt (reads lt) i j) Q d s.
  Proof.
    intros Hi Hj HQ. unfold ltAt.
    apply wpd_bind, wpd_rd; auto. apply wpd_bind, wpd_rd; auto.
    unfold wpd, askLt, reads. destruct (lt d d.[i] d.[j] s) as [[b|e] s'] eqn:Hl; cbn [fst snd]; [|exact I].
    apply HQ. intros (_ & Ha & _). symmetry. exact (Ha _ _ _ _ _ _ Hl).
  Qed.

  Lemma wpd_geAt i j (Q : _ -> list E -> S -> Prop) d s : 0 <= i < zlen d -> 0 <= j < zlen d ->
    (forall b s', (C -> ltb d.[i] d.[j] = negb b) -> Q b d s') -> wpd (geAt (reads ge) i j) Q d s.
  Proof.
    intros Hi Hj HQ. unfold geAt.
    apply wpd_bind, wpd_rd; auto. apply wpd_bind, wpd_rd; auto.
    unfold wpd, askGe, reads. destruct (ge d d.[i] d.[j] s) as [[b|e] s'] eqn:Hl; cbn [fst snd]; [|exact I].
    apply HQ. intros (_ & _ & Ha). rewrite (Ha _ _ _ _ _ _ Hl). now rewrite negb_involutive.
  Qed.

  Lemma wpd_andM c m (Q : _ -> list E -> S -> Prop) d s :
    (c = true -> wpd m Q d s) -> (c = false -> Q false d s) -> wpd (andM c m) Q d s.
  Proof. destruct c; cbn; auto. Qed.

  Lemma wpd_if {A} (c : bool) (m1 m2 : CM st A) (Q : A -> list E -> S -> Prop) d s :
    (c = true -> wpd m1 Q d s) -> (c = false -> wpd m2 Q d s) ->
    wpd (if c then m1 else m2) Q d s.
  Proof. destruct c; auto. Qed.

  (** Pairwise sortedness of [a,b). *)
  Definition srt (a b : Z) (d : list E) : Prop :=
    forall i j, a <= i -> i < j -> j < b -> leE d.[i] d.[j].

  (** Adjacent sortedness of [a,b). *)
  Definition adj (a b : Z) (d : list E) : Prop :=
    forall k, a < k < b -> leE d.[k - 1] d.[k].

  Lemma adj_srt a b d : strict_weak_order ltb -> adj a b d -> srt a b d.
  Proof.
    intros HW Hadj i j Hai Hij Hjb.
    assert (Hn : exists n, j = i + 1 + Z.of_nat n)
      by (exists (Z.to_nat (j - i - 1)); lia).
    destruct Hn as [n ->]. clear Hij. revert Hjb. induction n; intros Hjb.
    - replace (i + 1 + Z.of_nat 0) with (i + 1) in * by lia.
      specialize (Hadj (i + 1)). replace (i + 1 - 1) with i in Hadj by lia.
      apply Hadj. lia.
    - apply (le_trans ltb HW) with (d.[i + 1 + Z.of_nat n]); [apply IHn; lia|].
      specialize (Hadj (i + 1 + Z.of_nat (Datatypes.S n))).
      replace (i + 1 + Z.of_nat (Datatypes.S n) - 1) with (i + 1 + Z.of_nat n) in Hadj by lia.
      apply Hadj. lia.
  Qed.

  Lemma srt_adj a b d : srt a b d -> adj a b d.
  Proof. intros H k Hk. apply H; lia. Qed.

  Lemma srt_sub a b a' b' d : srt a b d -> a <= a' -> b' <= b -> srt a' b' d.
  Proof. intros H Ha Hb i j H1 H2 H3. apply H; lia. Qed.

  Lemma srt_small a b d : b <= a + 1 -> srt a b d.
  Proof. intros H i j H1 H2 H3. lia. Qed.

  Lemma srt_ext a b d d' : (forall i, a <= i < b -> d.[i] = d'.[i]) -> srt a b d -> srt a b d'.
  Proof.
    intros He H i j H1 H2 H3. rewrite <- !He by lia. apply H; lia.
  Qed.

  (** Gluing two sorted ranges. *)
  Lemma srt_glue a m b d : srt a m d -> srt m b d ->
    (forall i j, a <= i < m -> m <= j < b -> leE d.[i] d.[j]) -> srt a b d.
  Proof.
    intros H1 H2 H3 i j Hi Hij Hj.
    destruct (Z.lt_ge_cases j m); [apply H1; lia|].
    destruct (Z.lt_ge_cases i m); [apply H3; lia|apply H2; lia].
  Qed.

  Ltac wp1 :=
    match goal with
    | |- wpd (cbind _ _) _ _ _ => apply wpd_bind
    | |- wpd (cret _) _ _ _ => apply wpd_ret
    | |- wpd (swap _ _) _ _ _ => apply wpd_swap; [try lia|try lia|]
    | |- wpd (rd _) _ _ _ => apply wpd_rd; [try lia|]
    | |- wpd (ltAt _ _ _) _ _ _ => apply wpd_ltAt; [try lia|try lia|intros ? ? ?]
    | |- wpd (geAt _ _ _) _ _ _ => apply wpd_geAt; [try lia|try lia|intros ? ? ?]
    | |- wpd (andM _ _) _ _ _ => apply wpd_andM; intros ?
    | |- wpd (if _ then _ else _) _ _ _ => apply wpd_if; intros ?
    | |- wpd (match ?x with (_, _) => _ end) _ _ _ => destruct x
    end.

  Ltac bools := 
    repeat match goal with
    | H : (_ >? _) = true |- _ => rewrite Z.gtb_ltb in H
    | H : (_ >? _) = false |- _ => rewrite Z.gtb_ltb in H
    | H : (_ >=? _) = true |- _ => rewrite Z.geb_leb in H
    | H : (_ >=? _) = false |- _ => rewrite Z.geb_leb in H
    | H : (_ <? _) = true |- _ => apply Z.ltb_lt in H
    | H : (_ <? _) = false |- _ => apply Z.ltb_ge in H
    | H : (_ <=? _) = true |- _ => apply Z.leb_le in H
    | H : (_ <=? _) = false |- _ => apply Z.leb_gt in H
    | H : (_ =? _) = true |- _ => apply Z.eqb_eq in H
    | H : (_ =? _) = false |- _ => apply Z.eqb_neq in H
    | H : (_ && _)%bool = true |- _ => apply andb_true_iff in H; destruct H
    | H : negb _ = true |- _ => apply negb_true_iff in H
    | H : negb _ = false |- _ => apply negb_false_iff in H
    end.

  (** Rewrites reads of swapped arrays and splits on the index tests. *)
  Ltac swps :=
    repeat (rewrite at_swp by (rewrite ?zlen_swp; lia));
    repeat match goal with
    | |- context [?a =? ?b] => destruct (Z.eqb_spec a b)
    end.

  (** ---- insertion sort ---- *)

  (** [a,hi) is sorted except that element [j] may be smaller than earlier ones. *)
  Definition almost (a j hi : Z) (d : list E) : Prop :=
    forall p q, a <= p -> p < q -> q < hi -> q <> j -> leE d.[p] d.[q].

  Lemma almost_done a j hi d : strict_weak_order ltb -> a <= j < hi ->
    almost a j hi d -> (a < j -> leE d.[j - 1] d.[j]) -> srt a hi d.
  Proof.
    intros HW Hj Hal Hle p q Hp Hpq Hq.
    destruct (Z.eq_dec q j) as [->|Hne]; [|apply Hal; lia].
    destruct (Z.eq_dec p (j - 1)) as [->|Hne]; [apply Hle; lia|].
    apply (le_trans ltb HW) with d.[j - 1]; [|apply Hle; lia]. apply Hal; lia.
  Qed.

  Lemma almost_step a j hi d : 0 <= a -> strict_weak_order ltb -> a < j < hi -> hi <= zlen d ->
    almost a j hi d -> ltb d.[j] d.[j - 1] = true -> almost a (j - 1) hi (swp d j (j - 1)).
  Proof.
    intros Ha HW Hj Hl Hal Hlt p q Hp Hpq Hq Hne.
    swps; try lia; subst; try (apply Hal; lia).
    apply (lt_le ltb HW). auto.
  Qed.

  Lemma insertionInner_spec fuel : forall a j hi d s,
    0 <= a -> a <= j -> j < hi -> hi <= zlen d -> j - a < Z.of_nat fuel ->
    wpd (insertionInner (reads lt) fuel a j) (fun _ d' _ =>
      permr a hi d d' /\ (C -> almost a j hi d -> srt a hi d')) d s.
  Proof.
    induction fuel as [|fuel IH]; intros a j hi d s Ha Haj Hjh Hl Hf; [lia|].
    cbn [insertionInner]. wp1. wp1.
    - bools. wp1. wp1.
      + wp1. wp1. eapply wpd_conseq; [apply (IH a (j - 1) hi); rewrite ?zlen_swp; lia|].
        intros _ d' s1 [Hp Hs]. split.
        * eapply permr_trans; [|apply Hp]. apply permr_swp; lia.
        * intros HC Hal. apply Hs; auto. apply almost_step; auto; try apply HC; try lia. subst; auto.
      + wp1. split; [apply permr_refl|]. intros HC Hal.
        apply almost_done with j; auto; try apply HC; try lia. unfold le. subst; auto.
    - wp1. bools. split; [apply permr_refl|]. intros HC Hal.
      apply almost_done with j; auto; try apply HC; try lia.
  Qed.

  Lemma insertionOuter_spec fuel : forall a b i d s,
    0 <= a -> a < i -> b <= zlen d -> Z.max 0 (b - i) < Z.of_nat fuel ->
    wpd (insertionOuter (reads lt) fuel a b i) (fun _ d' _ =>
      permr a b d d' /\ (C -> srt a i d -> srt a b d')) d s.
  Proof.
    induction fuel as [|fuel IH]; intros a b i d s Ha Hai Hl Hf.
    { lia. }
    cbn [insertionOuter]. wp1; bools.
    - wp1. eapply wpd_conseq; [apply (insertionInner_spec _ a i (i + 1)); lia|].
      intros _ d1 s1 [Hp1 Hs1]. pose proof (permr_len _ _ _ _ _ Hp1).
      eapply wpd_conseq; [apply (IH a b (i + 1)); lia|].
      intros _ d2 s2 [Hp2 Hs2]. split.
      + eapply permr_trans; [|apply Hp2]. eapply permr_weaken; [apply Hp1|lia|lia].
      + intros HC Hs. apply Hs2; auto. apply Hs1; auto.
        intros p q ? ? ? ?. apply Hs; lia.
    - wp1. split; [apply permr_refl|]. intros _ Hs. apply (srt_sub a i); auto; lia.
  Qed.

  Lemma insertionSort_spec a b d s :
    0 <= a -> b <= zlen d ->
    wpd (insertionSort (reads lt) a b) (fun _ d' _ =>
      permr a b d d' /\ (C -> srt a b d')) d s.
  Proof.
    intros Ha Hb. unfold insertionSort.
    eapply wpd_conseq; [apply insertionOuter_spec; lia|].
    intros _ d' s' [Hp Hs]. split; auto. intros HC. apply Hs; auto.
    apply srt_small. lia.
  Qed.

  (** ---- heap sort ---- *)

  Definition child (i c : Z) : Prop := c = 2 * i + 1 \/ c = 2 * i + 2.

  (** heap order on nodes [lo..hi), except below [root]. *)
  Definition heapX (lo hi first root : Z) (d : list E) : Prop :=
    (forall i c, lo <= i -> i <> root -> child i c -> c < hi ->
       leE d.[first + c] d.[first + i]) /\
    (forall i c, lo <= i -> child i root -> child root c -> c < hi ->
       leE d.[first + c] d.[first + i]).

  Definition heap (lo hi first : Z) (d : list E) : Prop :=
    forall i c, lo <= i -> child i c -> c < hi -> leE d.[first + c] d.[first + i].

  Lemma siftDownLoop_spec fuel : forall lo root hi first d s,
    0 <= first -> 0 <= lo <= root -> first + hi <= zlen d ->
    Z.max 0 (hi - root) < Z.of_nat fuel ->
    wpd (siftDownLoop (reads lt) (reads ge) fuel root hi first) (fun _ d' _ =>
      permr (first + lo) (first + hi) d d' /\
      (C -> heapX lo hi first root d -> heap lo hi first d')) d s.
  Proof.
    induction fuel as [|fuel IH]; intros lo root hi first d s Hfi Hlo Hl Hf.
    { lia. }
    cbn [siftDownLoop]. wp1; bools.
    { wp1. split; [apply permr_refl|]. intros HC [HX1 HX2] i c Hi Hc Hch.
      apply HX1; auto. unfold child in *. lia. }
    wp1.
    assert (Hstep : forall (bb : bool) s1,
      (C -> bb = true -> 2 * root + 1 + 1 < hi) ->
      (bb = true -> 2 * root + 1 + 1 < hi) ->
      (C -> 2 * root + 1 + 1 < hi -> ltb d.[first + (2 * root + 1)] d.[first + (2 * root + 1) + 1] = bb) ->
      wpd (g <- geAt (reads ge) (first + root) (first + (if bb then 2 * root + 1 + 1 else 2 * root + 1)) ;;
          (if g then cret tt
          else swap (first + root) (first + (if bb then 2 * root + 1 + 1 else 2 * root + 1)) ;;
            siftDownLoop (reads lt) (reads ge) fuel (if bb then 2 * root + 1 + 1 else 2 * root + 1) hi first))
        (fun _ d' _ => permr (first + lo) (first + hi) d d' /\
          (C -> heapX lo hi first root d -> heap lo hi first d')) d s1).
    { intros bb s1 _ Hbb Hlt.
      set (ch := if bb then 2 * root + 1 + 1 else 2 * root + 1).
      assert (Hch : child root ch /\ ch < hi) by (unfold child, ch; destruct bb; [split; [lia|auto]|lia]).
      destruct Hch as [Hch Hchh].
      assert (Hbig : C -> forall c, child root c -> c < hi -> leE d.[first + c] d.[first + ch]).
      { intros HC c Hc Hchi. specialize (Hlt HC). unfold ch. unfold child in Hc.
        destruct (Z.lt_ge_cases (2 * root + 1 + 1) hi) as [Hlt2|Hge2].
        - specialize (Hlt Hlt2). destruct bb, Hc as [-> | ->].
          + replace (first + (2 * root + 1 + 1)) with (first + (2 * root + 1) + 1) by lia.
            apply lt_le; auto. apply HC.
          + replace (2 * root + 2) with (2 * root + 1 + 1) by lia. apply le_refl, HC.
          + apply le_refl, HC.
          + unfold le. replace (first + (2 * root + 2)) with (first + (2 * root + 1) + 1) by lia. auto.
        - assert (bb = false) by (destruct bb; auto; specialize (Hbb eq_refl); lia). subst bb.
          replace c with (2 * root + 1) by lia. apply le_refl, HC. }
      clear Hlt Hbb. clearbody ch. unfold child in Hch.
      wp1. wp1. wp1.
      - wp1. split; [apply permr_refl|]. intros HC [HX1 HX2] i c Hi Hc Hchi.
        destruct (Z.eq_dec i root) as [->|Hne]; [|apply HX1; auto].
        apply (le_trans ltb (proj1 HC)) with d.[first + ch]; auto.
        unfold le. rewrite H0; auto. subst; auto.
      - wp1. wp1. eapply wpd_conseq; [apply (IH lo ch hi first); rewrite ?zlen_swp; lia|].
        intros _ d' s2 [Hp Hh]. split.
        { eapply permr_trans; [|apply Hp]. apply permr_swp; lia. }
        intros HC [HX1 HX2]. apply Hh; auto.
        assert (Hrc : ltb d.[first + root] d.[first + ch] = true) by (rewrite H0; auto; subst; auto).
        split.
        + intros i c Hi Hne Hc Hchi. unfold child in *.
          swps; try lia; try (apply HX1; unfold child; lia).
          * apply lt_le; auto. apply HC.
          * assert (c = root) by lia. subst c. apply HX2; auto; unfold child; lia.
          * assert (i = root) by lia. subst i. apply Hbig; unfold child; auto.
        + intros i c Hi Hc1 Hc2 Hchi. unfold child in *.
          assert (i = root) by lia. subst i.
          swps; try lia. apply HX1; unfold child; lia. }
    wp1.
    - bools. wp1. apply Hstep; auto.
    - bools. apply (Hstep false); auto; try discriminate. intros; lia.
  Qed.

  Lemma siftDown_spec lo hi first d s :
    0 <= first -> 0 <= lo -> first + hi <= zlen d ->
    wpd (siftDown (reads lt) (reads ge) lo hi first) (fun _ d' _ =>
      permr (first + lo) (first + hi) d d' /\
      (C -> heapX lo hi first lo d -> heap lo hi first d')) d s.
  Proof.
    intros. unfold siftDown. apply siftDownLoop_spec; lia.
  Qed.

  Lemma heapBuild_spec fuel : forall i hi first d s,
    0 <= first -> first + hi <= zlen d -> 0 <= i + 1 < Z.of_nat fuel ->
    wpd (heapBuild (reads lt) (reads ge) fuel i hi first) (fun _ d' _ =>
      permr first (first + hi) d d' /\
      (C -> heap (i + 1) hi first d -> heap 0 hi first d')) d s.
  Proof.
    induction fuel as [|fuel IH]; intros i hi first d s Hfi Hl Hf; [lia|].
    cbn [heapBuild]. wp1; bools.
    - wp1. eapply wpd_conseq; [apply siftDown_spec; lia|].
      intros _ d1 s1 [Hp1 Hh1]. pose proof (permr_len _ _ _ _ _ Hp1).
      eapply wpd_conseq; [apply (IH (i - 1) hi first); lia|].
      intros _ d2 s2 [Hp2 Hh2]. split.
      + eapply permr_trans; [|apply Hp2]. eapply permr_weaken; [apply Hp1|lia|lia].
      + intros HC Hh. apply Hh2; auto. replace (i - 1 + 1) with i by lia.
        apply Hh1; auto. split.
        * intros j c Hj Hne Hc Hchi. apply Hh; auto. lia.
        * intros j c Hj Hc1 Hc2 Hchi. unfold child in *. lia.
    - wp1. split; [apply permr_refl|]. intros HC Hh.
      replace (i + 1) with 0 in Hh by lia. auto.
  Qed.

  Lemma heap_max hi first d : strict_weak_order ltb -> heap 0 hi first d ->
    forall n k, (Z.to_nat k <= n)%nat -> 0 <= k < hi -> leE d.[first + k] d.[first].
  Proof.
    intros HW Hh. induction n as [|n IH]; intros k Hn Hk.
    - replace k with 0 by lia. rewrite Z.add_0_r. now apply le_refl.
    - destruct (Z.eq_dec k 0) as [->|Hne]; [rewrite Z.add_0_r; now apply le_refl|].
      apply (le_trans ltb HW) with d.[first + (k - 1) / 2].
      + apply Hh; unfold child; lia.
      + apply IH; lia.
  Qed.

  Lemma heapPop_spec fuel : forall i hi first d s,
    0 <= first -> first + hi <= zlen d -> 0 <= i + 1 <= hi -> i + 1 < Z.of_nat fuel ->
    wpd (heapPop (reads lt) (reads ge) fuel i 0 first) (fun _ d' _ =>
      permr first (first + i + 1) d d' /\
      (C -> heap 0 (i + 1) first d -> srt (first + i + 1) (first + hi) d ->
       (forall k l, 0 <= k <= i -> i < l < hi -> leE d.[first + k] d.[first + l]) ->
       srt first (first + hi) d')) d s.
  Proof.
    induction fuel as [|fuel IH]; intros i hi first d s Hfi Hl Hi Hf; [lia|].
    cbn [heapPop]. wp1; bools.
    - wp1. wp1. wp1. eapply wpd_conseq; [apply siftDown_spec; rewrite ?zlen_swp; lia|].
      intros _ d1 s1 [Hp1 Hh1]. pose proof (permr_len _ _ _ _ _ Hp1) as HL.
      rewrite zlen_swp in HL.
      eapply wpd_conseq; [apply (IH (i - 1) hi first); lia|].
      intros _ d2 s2 [Hp2 Hh2].
      assert (Hp01 : permr first (first + i + 1) d d1).
      { eapply permr_trans; [|eapply permr_weaken; [apply Hp1|lia|lia]].
        apply permr_swp; lia. }
      split.
      + eapply permr_trans; [apply Hp01|]. eapply permr_weaken; [apply Hp2|lia|lia].
      + intros HC Hh Hs Hle.
        assert (Hmax : forall k, 0 <= k <= i -> leE d.[first + k] d.[first]).
        { intros k Hk. apply (heap_max (i + 1) first d) with (Z.to_nat k); auto; try lia. apply HC. }
        assert (Hout : forall k, i <= k < hi -> d1.[first + k] = (swp d first (first + i)).[first + k]).
        { intros k Hk. apply (permr_out dflt _ _ _ _ _ Hp1); lia. }
        assert (Htop : d1.[first + i] = d.[first]).
        { rewrite Hout by lia. swps; try lia; auto. }
        assert (Hrest : forall k, i < k < hi -> d1.[first + k] = d.[first + k]).
        { intros k Hk. rewrite Hout by lia. swps; try lia; auto. }
        assert (Hin : forall k, 0 <= k < i -> leE d1.[first + k] d.[first]).
        { intros k Hk.
          apply (permr_forall dflt (first + 0) (first + i) _ _ (fun x => leE x d.[first]) Hp1); try lia.
          - rewrite zlen_swp. lia.
          - intros j Hj. swps; try lia.
            + replace d.[first + i] with d.[first + i] by auto. apply Hmax. lia.
            + replace j with (first + (j - first)) by lia. apply Hmax. lia. }
        apply Hh2; auto.
        * replace (i - 1 + 1) with i by lia. apply Hh1; auto. split.
          -- intros j c Hj Hne Hc Hchi. unfold child in *.
             swps; try lia. apply Hh; unfold child; lia.
          -- intros j c Hj Hc1 Hc2 Hchi. unfold child in *. lia.
        * replace (first + (i - 1) + 1) with (first + i) by lia.
          intros p q Hp Hpq Hq.
          replace q with (first + (q - first)) by lia. rewrite (Hrest (q - first)) by lia.
          destruct (Z.eq_dec p (first + i)) as [->|Hne].
          -- rewrite Htop. replace d.[first] with d.[first + 0] by (f_equal; lia). apply Hle; lia.
          -- replace p with (first + (p - first)) by lia. rewrite (Hrest (p - first)) by lia.
             apply Hs; lia.
        * intros k l Hk Hll. destruct (Z.eq_dec l i) as [->|Hne].
          -- rewrite Htop. apply Hin. lia.
          -- rewrite (Hrest l) by lia.
             apply (le_trans ltb (proj1 HC)) with d.[first]; [apply Hin; lia|].
             replace d.[first] with d.[first + 0] by (f_equal; lia). apply Hle; lia.
    - wp1. split; [apply permr_refl|]. intros HC _ Hs _.
      replace (first + i + 1) with first in Hs by lia. auto.
  Qed.

  Lemma heapSort_spec a b d s :
    0 <= a <= b -> b <= zlen d ->
    wpd (heapSort (reads lt) (reads ge) a b) (fun _ d' _ =>
      permr a b d d' /\ (C -> srt a b d')) d s.
  Proof.
    intros Ha Hb. unfold heapSort. wp1.
    eapply wpd_conseq; [apply heapBuild_spec; lia|].
    intros _ d1 s1 [Hp1 Hh1]. pose proof (permr_len _ _ _ _ _ Hp1) as HL.
    eapply wpd_conseq; [apply (heapPop_spec _ _ (b - a)); lia|].
    intros _ d2 s2 [Hp2 Hs2]. replace (a + (b - a)) with b in * by lia.
    replace (a + (b - a - 1) + 1) with b in * by lia. split.
    - eapply permr_trans; eauto.
    - intros HC. apply Hs2; auto.
      + replace (b - a - 1 + 1) with (b - a) by lia. apply Hh1; auto.
        intros i c Hi Hc Hch. unfold child in Hc. lia.
      + apply srt_small. lia.
      + intros; lia.
  Qed.

  (** ---- partition ---- *)

  Lemma advI_spec fuel : forall i j a d s,
    0 <= a -> 0 <= i -> a < zlen d -> j < zlen d -> Z.max 0 (j - i + 1) < Z.of_nat fuel ->
    wpd (advI (reads lt) fuel i j a) (fun i' d' _ =>
      d' = d /\ i <= i' /\ (i' <= j + 1 \/ i' = i) /\
      (C -> (forall k, i <= k < i' -> ltb d.[k] d.[a] = true) /\
            (i' <= j -> ltb d.[i'] d.[a] = false))) d s.
  Proof.
    induction fuel as [|fuel IH]; intros i j a d s Ha Hi Hal Hj Hf; [lia|].
    cbn [advI]. wp1. wp1.
    - bools. wp1. wp1.
      + eapply wpd_conseq; [apply (IH (i + 1) j a); lia|].
        intros i' d' s1 (-> & H3 & H4 & H5). repeat split; try lia; intros; destruct H5; auto.
        destruct (Z.eq_dec k i) as [->|]; [subst; auto|]. apply H5; lia.
      + wp1. repeat split; try lia; intros; subst; auto; lia.
    - wp1. bools. repeat split; try lia; intros; lia.
  Qed.

  Lemma advJ_spec fuel : forall i j a d s,
    0 <= a -> 0 <= i -> a < zlen d -> j < zlen d -> Z.max 0 (j - i + 1) < Z.of_nat fuel ->
    wpd (advJ (reads ge) fuel i j a) (fun j' d' _ =>
      d' = d /\ j' <= j /\ (i - 1 <= j' \/ j' = j) /\
      (C -> (forall k, j' < k <= j -> ltb d.[k] d.[a] = false) /\
            (i <= j' -> ltb d.[j'] d.[a] = true))) d s.
  Proof.
    induction fuel as [|fuel IH]; intros i j a d s Ha Hi Hal Hj Hf; [lia|].
    cbn [advJ]. wp1. wp1.
    - bools. wp1. wp1.
      + eapply wpd_conseq; [apply (IH i (j - 1) a); lia|].
        intros j' d' s1 (-> & H3 & H4 & H5). repeat split; try lia; intros; destruct H5; auto.
        destruct (Z.eq_dec k j) as [->|]; [subst; auto|]. apply H5; lia.
      + wp1. repeat split; try lia; intros; subst; auto; lia.
    - wp1. bools. repeat split; try lia; intros; lia.
  Qed.

  Lemma partitionLoop_spec fuel : forall i j a b d s,
    0 <= a < i -> a <= j -> i <= j + 2 -> j < b -> b <= zlen d ->
    Z.max 0 (j - i + 1) < Z.of_nat fuel ->
    wpd (partitionLoop (reads lt) (reads ge) fuel i j a) (fun j' d' _ =>
      permr (a + 1) b d d' /\ a <= j' <= j /\
      (C -> (forall k, a < k < i -> ltb d.[k] d.[a] = true) ->
            (forall k, j < k < b -> ltb d.[k] d.[a] = false) ->
       (forall k, a < k <= j' -> ltb d'.[k] d'.[a] = true) /\
       (forall k, j' < k < b -> ltb d'.[k] d'.[a] = false))) d s.
  Proof.
    induction fuel as [|fuel IH]; intros i j a b d s Ha Haj Hij Hj Hb Hf; [lia|].
    cbn [partitionLoop]. wp1. eapply wpd_conseq; [apply advI_spec; unfold scanFuel; lia|].
    intros i' d1 s1 (-> & Hi1 & Hi2 & Hi3). wp1.
    eapply wpd_conseq; [apply advJ_spec; unfold scanFuel; lia|].
    intros j' d1 s2 (-> & Hj1 & Hj2 & Hj3). wp1; bools.
    - wp1. split; [apply permr_refl|]. split; [lia|]. intros HC HL HR.
      destruct (Hi3 HC) as [Hi4 Hi5], (Hj3 HC) as [Hj4 Hj5]. split; intros k Hk.
      + destruct (Z.lt_ge_cases k i); [apply HL; lia|apply Hi4; lia].
      + destruct (Z.le_gt_cases k j); [apply Hj4; lia|apply HR; lia].
    - wp1. wp1. eapply wpd_conseq; [apply (IH (i' + 1) (j' - 1) a b); rewrite ?zlen_swp; lia|].
      intros j2 d2 s3 (Hp & Hr & Hc). split; [|split; [lia|]].
      + eapply permr_trans; [|apply Hp]. apply permr_swp; lia.
      + intros HC HL HR. destruct (Hi3 HC) as [Hi4 Hi5], (Hj3 HC) as [Hj4 Hj5].
        assert (i' <> j').
        { intros ->. rewrite Hi5 in Hj5 by lia. discriminate Hj5. lia. }
        apply Hc; auto.
        * intros k Hk. swps; try lia.
          -- apply Hj5. lia.
          -- destruct (Z.lt_ge_cases k i); [apply HL; lia|apply Hi4; lia].
        * intros k Hk. swps; try lia.
          -- apply Hi5. lia.
          -- destruct (Z.le_gt_cases k j); [apply Hj4; lia|apply HR; lia].
  Qed.

  Definition parted (a m b : Z) (d : list E) : Prop :=
    (forall k, a <= k < m -> ltb d.[k] d.[m] = true) /\
    (forall k, m < k < b -> ltb d.[k] d.[m] = false).

  Lemma parted_swp a j b d : 0 <= a <= j -> j < b -> b <= zlen d ->
    (forall k, a < k <= j -> ltb d.[k] d.[a] = true) ->
    (forall k, j < k < b -> ltb d.[k] d.[a] = false) -> parted a j b (swp d j a).
  Proof.
    intros Ha Hj Hb H1 H2. split; intros k Hk; swps; try lia; auto.
    all: subst; first [apply H1; lia | apply H2; lia].
  Qed.

  Lemma partition_spec a b pivot d s :
    0 <= a -> a + 1 < b -> b <= zlen d -> a <= pivot < b ->
    wpd (partition (reads lt) (reads ge) a b pivot) (fun r d' _ =>
      permr a b d d' /\ a <= fst r < b /\ (C -> parted a (fst r) b d')) d s.
  Proof.
    intros Ha Hab Hb Hp. unfold partition. wp1. wp1. cbv zeta. wp1.
    eapply wpd_conseq; [apply advI_spec; unfold scanFuel; rewrite ?zlen_swp; lia|].
    intros i d1 s1 (-> & Hi1 & Hi2 & Hi3). wp1.
    eapply wpd_conseq; [apply advJ_spec; unfold scanFuel; rewrite ?zlen_swp; lia|].
    intros j d1 s2 (-> & Hj1 & Hj2 & Hj3).
    assert (Hp0 : permr a b d (swp d a pivot)) by (apply permr_swp; lia).
    pose proof (zlen_swp dflt d a pivot) as HL0.
    set (d0 := swp d a pivot) in *. clearbody d0.
    wp1; bools.
    - wp1. wp1. wp1. split; [|split; [cbn; lia|]].
      + eapply permr_trans; [apply Hp0|]. apply permr_swp; lia.
      + intros HC. cbn. apply parted_swp; try lia.
        * intros k Hk. apply Hi3; auto; lia.
        * intros k Hk. apply Hj3; auto; lia.
    - wp1. wp1. wp1. 
      eapply wpd_conseq; [apply (partitionLoop_spec _ _ _ a b); unfold scanFuel; rewrite ?zlen_swp; lia|].
      intros j2 d2 s3 (Hp2 & Hr & Hc). pose proof (permr_len _ _ _ _ _ Hp2) as HL2.
      rewrite zlen_swp in HL2. wp1. wp1. wp1. split; [|split; [cbn; lia|]].
      + eapply permr_trans; [apply Hp0|].
        eapply permr_trans; [apply (permr_swp dflt a b d0 i j); lia|].
        eapply permr_trans; [eapply permr_weaken; [apply Hp2|lia|lia]|]. apply permr_swp; lia.
      + intros HC. cbn. destruct (Hi3 HC) as [Hi4 Hi5], (Hj3 HC) as [Hj4 Hj5].
        assert (i <> j).
        { intros ->. rewrite Hi5 in Hj5 by lia. discriminate Hj5. lia. }
        destruct (Hc HC) as [Hc1 Hc2].
        * intros k Hk. swps; try lia.
          -- apply Hj5; lia.
          -- apply Hi4; lia.
        * intros k Hk. swps; try lia.
          -- apply Hi5; lia.
          -- apply Hj4; lia.
        * apply parted_swp; auto; lia.
  Qed.

  (** ---- partitionEqual ---- *)

  Lemma eqAdvI_spec fuel : forall i j a d s,
    0 <= a -> 0 <= i -> a < zlen d -> j < zlen d -> Z.max 0 (j - i + 1) < Z.of_nat fuel ->
    wpd (eqAdvI (reads ge) fuel i j a) (fun i' d' _ =>
      d' = d /\ i <= i' /\ (i' <= j + 1 \/ i' = i) /\
      (C -> (forall k, i <= k < i' -> ltb d.[a] d.[k] = false) /\
            (i' <= j -> ltb d.[a] d.[i'] = true))) d s.
  Proof.
    induction fuel as [|fuel IH]; intros i j a d s Ha Hi Hal Hj Hf; [lia|].
    cbn [eqAdvI]. wp1. wp1.
    - bools. wp1. wp1.
      + eapply wpd_conseq; [apply (IH (i + 1) j a); lia|].
        intros i' d' s1 (-> & H3 & H4 & H5). repeat split; try lia; intros; destruct H5; auto.
        destruct (Z.eq_dec k i) as [->|]; [subst; auto|]. apply H5; lia.
      + wp1. repeat split; try lia; intros; subst; auto; lia.
    - wp1. bools. repeat split; try lia; intros; lia.
  Qed.

  Lemma eqAdvJ_spec fuel : forall i j a d s,
    0 <= a -> 0 <= i -> a < zlen d -> j < zlen d -> Z.max 0 (j - i + 1) < Z.of_nat fuel ->
    wpd (eqAdvJ (reads lt) fuel i j a) (fun j' d' _ =>
      d' = d /\ j' <= j /\ (i - 1 <= j' \/ j' = j) /\
      (C -> (forall k, j' < k <= j -> ltb d.[a] d.[k] = true) /\
            (i <= j' -> ltb d.[a] d.[j'] = false))) d s.
  Proof.
    induction fuel as [|fuel IH]; intros i j a d s Ha Hi Hal Hj Hf; [lia|].
    cbn [eqAdvJ]. wp1. wp1.
    - bools. wp1. wp1.
      + eapply wpd_conseq; [apply (IH i (j - 1) a); lia|].
        intros j' d' s1 (-> & H3 & H4 & H5). repeat split; try lia; intros; destruct H5; auto.
        destruct (Z.eq_dec k j) as [->|]; [subst; auto|]. apply H5; lia.
      + wp1. repeat split; try lia; intros; subst; auto; lia.
    - wp1. bools. repeat split; try lia; intros; lia.
  Qed.

  Lemma partitionEqualLoop_spec fuel : forall i j a b d s,
    0 <= a < i -> a <= j -> i <= j + 2 -> i <= b -> j < b -> b <= zlen d ->
    Z.max 0 (j - i + 1) < Z.of_nat fuel ->
    wpd (partitionEqualLoop (reads lt) (reads ge) fuel i j a) (fun i' d' _ =>
      permr (a + 1) b d d' /\ i <= i' <= b /\
      (C -> (forall k, a < k < i -> ltb d.[a] d.[k] = false) ->
            (forall k, j < k < b -> ltb d.[a] d.[k] = true) ->
       (forall k, a < k < i' -> ltb d'.[a] d'.[k] = false) /\
       (forall k, i' <= k < b -> ltb d'.[a] d'.[k] = true))) d s.
  Proof.
    induction fuel as [|fuel IH]; intros i j a b d s Ha Haj Hij Hib Hj Hb Hf; [lia|].
    cbn [partitionEqualLoop]. wp1.
    eapply wpd_conseq; [apply eqAdvI_spec; unfold scanFuel; lia|].
    intros i' d1 s1 (-> & Hi1 & Hi2 & Hi3). wp1.
    eapply wpd_conseq; [apply eqAdvJ_spec; unfold scanFuel; lia|].
    intros j' d1 s2 (-> & Hj1 & Hj2 & Hj3). wp1; bools.
    - wp1. split; [apply permr_refl|]. split; [lia|]. intros HC HL HR.
      destruct (Hi3 HC) as [Hi4 Hi5], (Hj3 HC) as [Hj4 Hj5]. split; intros k Hk.
      + destruct (Z.lt_ge_cases k i); [apply HL; lia|apply Hi4; lia].
      + destruct (Z.le_gt_cases k j); [apply Hj4; lia|apply HR; lia].
    - wp1. wp1. eapply wpd_conseq; [apply (IH (i' + 1) (j' - 1) a b); rewrite ?zlen_swp; lia|].
      intros j2 d2 s3 (Hp & Hr & Hc). split; [|split; [lia|]].
      + eapply permr_trans; [|apply Hp]. apply permr_swp; lia.
      + intros HC HL HR. destruct (Hi3 HC) as [Hi4 Hi5], (Hj3 HC) as [Hj4 Hj5].
        assert (i' <> j').
        { intros ->. rewrite Hi5 in Hj5 by lia. discriminate Hj5. lia. }
        apply Hc; auto.
        * intros k Hk. swps; try lia.
          -- apply Hj5. lia.
          -- destruct (Z.lt_ge_cases k i); [apply HL; lia|apply Hi4; lia].
        * intros k Hk. swps; try lia.
          -- apply Hi5. lia.
          -- destruct (Z.le_gt_cases k j); [apply Hj4; lia|apply HR; lia].
  Qed.

  Lemma partitionEqual_spec a b pivot d s :
    0 <= a -> a + 1 < b -> b <= zlen d -> a <= pivot < b ->
    wpd (partitionEqual (reads lt) (reads ge) a b pivot) (fun m d' _ =>
      permr a b d d' /\ a < m <= b /\ d'.[a] = d.[pivot] /\
      (C -> (forall k, a <= k < m -> ltb d'.[a] d'.[k] = false) /\
            (forall k, m <= k < b -> ltb d'.[a] d'.[k] = true))) d s.
  Proof.
    intros Ha Hab Hb Hp. unfold partitionEqual. wp1. wp1.
    eapply wpd_conseq; [apply (partitionEqualLoop_spec _ _ _ a b); unfold scanFuel; rewrite ?zlen_swp; lia|].
    intros m d2 s3 (Hp2 & Hr & Hc). split; [|split; [lia|split]].
    - eapply permr_trans; [apply (permr_swp dflt a b d a pivot); lia|].
      eapply permr_weaken; [apply Hp2|lia|lia].
    - rewrite (permr_out dflt _ _ _ _ _ Hp2) by lia. swps; try lia; congruence.
    - intros HC. destruct (Hc HC) as [Hc1 Hc2]; try (intros; lia). split; auto.
      intros k Hk. destruct (Z.eq_dec k a) as [->|]; [apply (swo_irrefl _ (proj1 HC))|].
      apply Hc1; lia.
  Qed.

  (** ---- partial insertion sort ---- *)

  Lemma pisAdvance_spec fuel : forall i b d s,
    0 < i -> b <= zlen d -> Z.max 0 (b - i) < Z.of_nat fuel ->
    wpd (pisAdvance (reads ge) fuel i b) (fun i' d' _ =>
      d' = d /\ i <= i' /\ (i' <= b \/ i' = i) /\
      (C -> (forall k, i <= k < i' -> leE d.[k - 1] d.[k]) /\
            (i' < b -> ltb d.[i'] d.[i' - 1] = true))) d s.
  Proof.
    induction fuel as [|fuel IH]; intros i b d s Hi Hb Hf; [lia|].
    cbn [pisAdvance]. wp1. wp1.
    - bools. wp1. wp1.
      + eapply wpd_conseq; [apply (IH (i + 1) b); lia|].
        intros i' d' s1 (-> & H3 & H4 & H5). repeat split; try lia; intros; destruct H5; auto.
        destruct (Z.eq_dec k i) as [->|]; [unfold le; subst; auto|]. apply H5; lia.
      + wp1. repeat split; try lia; intros; subst; auto; lia.
    - wp1. bools. repeat split; try lia; intros; lia.
  Qed.

  Lemma pisShiftLeft_spec fuel : forall a j hi d s,
    0 <= j < hi -> hi <= zlen d -> j < Z.of_nat fuel ->
    wpd (pisShiftLeft (reads ge) fuel j) (fun _ d' _ =>
      permr 0 hi d d' /\
      (C -> 0 <= a <= j -> (0 < a -> forall k, a <= k < hi -> leE d.[a - 1] d.[k]) ->
       almost a j hi d -> permr a hi d d' /\ srt a hi d')) d s.
  Proof.
    induction fuel as [|fuel IH]; intros a j hi d s Hj Hl Hf; [lia|].
    cbn [pisShiftLeft]. wp1; bools.
    - wp1. wp1. wp1.
      + wp1. split; [apply permr_refl|]. intros HC Ha Hbd Hal. split; [apply permr_refl|].
        apply almost_done with j; auto; try apply HC; try lia. unfold le. subst; auto.
      + wp1. wp1. eapply wpd_conseq; [apply (IH a (j - 1) hi); rewrite ?zlen_swp; lia|].
        intros _ d' s1 [Hp Hs]. split.
        * eapply permr_trans; [|apply Hp]. apply permr_swp; lia.
        * intros HC Ha Hbd Hal.
          assert (Hlt : ltb d.[j] d.[j - 1] = true) by (rewrite H0; auto; subst; auto).
          assert (a < j).
          { destruct (Z.eq_dec a j) as [->|]; [|lia]. specialize (Hbd ltac:(lia) j ltac:(lia)).
            unfold le in Hbd. congruence. }
          destruct Hs as [Hs1 Hs2]; auto; try lia.
          -- intros Ha0 k Hk. swps; try lia; apply Hbd; lia.
          -- apply almost_step; auto; try lia. apply HC.
          -- split; auto. eapply permr_trans; [|apply Hs1]. apply permr_swp; lia.
    - wp1. split; [apply permr_refl|]. intros HC Ha Hbd Hal. split; [apply permr_refl|].
      apply almost_done with j; auto; try apply HC; try lia.
  Qed.

  Lemma pisShiftRight_spec fuel : forall j b d s,
    0 < j -> b <= zlen d -> Z.max 0 (b - j) < Z.of_nat fuel ->
    wpd (pisShiftRight (reads ge) fuel j b) (fun _ d' _ => permr (j - 1) b d d') d s.
  Proof.
    induction fuel as [|fuel IH]; intros j b d s Hj Hl Hf; [lia|].
    cbn [pisShiftRight]. wp1; bools.
    - wp1. wp1. wp1.
      + wp1. apply permr_refl.
      + wp1. wp1. eapply wpd_conseq; [apply (IH (j + 1) b); rewrite ?zlen_swp; lia|].
        intros ? d' s1 Hp. eapply permr_trans; [|eapply permr_weaken; [apply Hp|lia|lia]].
        apply permr_swp; lia.
    - wp1. apply permr_refl.
  Qed.

  Definition bounded (a b : Z) (d : list E) : Prop :=
    0 < a -> forall k, a <= k < b -> leE d.[a - 1] d.[k].

  Lemma bounded_permr a b d d' : 0 <= a -> b <= zlen d ->
    bounded a b d -> permr a b d d' -> bounded a b d'.
  Proof.
    intros Ha Hb Hbd Hp Ha0. rewrite (permr_out dflt _ _ _ _ (a - 1) Hp) by lia.
    apply (permr_forall dflt a b d d' _ Hp); auto.
  Qed.

  Lemma pisLoop_spec steps : forall i a b d s,
    0 <= a < i -> i <= b -> b <= zlen d ->
    wpd (pisLoop (reads ge) steps i a b) (fun r d' _ =>
      permr 0 b d d' /\
      (C -> bounded a b d -> srt a i d -> permr a b d d' /\ (r = true -> srt a b d'))) d s.
  Proof.
    induction steps as [|steps IH]; intros i a b d s Ha Hib Hb.
    { cbn [pisLoop]. apply wpd_ret. split; [apply permr_refl|].
      intros. split; [apply permr_refl|discriminate]. }
    cbn [pisLoop]. wp1. eapply wpd_conseq; [apply pisAdvance_spec; lia|].
    intros i' d1 s1 (-> & Hi1 & Hi2 & Hi3). wp1; bools.
    { wp1. split; [apply permr_refl|]. intros HC Hbd Hs. split; [apply permr_refl|].
      intros _. subst i'. apply adj_srt; [apply HC|]. intros k Hk.
      destruct (Z.lt_ge_cases k i); [apply Hs; lia|]. apply (Hi3 HC). lia. }
    wp1; bools.
    { wp1. split; [apply permr_refl|]. intros HC Hbd Hs. split; [apply permr_refl|discriminate]. }
    wp1. wp1. wp1.
    assert (Hp1 : permr a b d (swp d i' (i' - 1))) by (apply permr_swp; lia).
    pose proof (zlen_swp dflt d i' (i' - 1)) as HL1.
    set (d1 := swp d i' (i' - 1)) in *.
    assert (Hleft : wpd (if i' - a >=? 2 then pisShiftLeft (reads ge) (Z.to_nat i' + 1) (i' - 1) else cret tt)
      (fun _ d' _ => permr 0 i' d1 d' /\
         (C -> bounded a b d -> srt a i d -> permr a i' d1 d' /\ srt a i' d')) d1 s1).
    { wp1; bools.
      - eapply wpd_conseq; [apply (pisShiftLeft_spec _ a (i' - 1) i'); lia|].
        intros _ d' s2 [Hp2 Hs2]. split; auto. intros HC Hbd Hs.
        apply Hs2; auto; try lia.
        + intros Ha0 k Hk. apply (bounded_permr a b d d1); auto; try lia.
        + assert (Hsi : srt a i' d).
          { apply adj_srt; [apply HC|]. intros k Hk.
            destruct (Z.lt_ge_cases k i); [apply Hs; lia|]. apply (Hi3 HC). lia. }
          intros p q Hpp Hpq Hq Hne. unfold d1. swps; try lia. apply Hsi; lia.
      - wp1. split; [apply permr_refl|]. intros. split; [apply permr_refl|].
        apply srt_small. lia. }
    eapply wpd_conseq; [apply Hleft|]. intros _ d2 s2 [Hp2 Hs2]. clear Hleft.
    pose proof (permr_len _ _ _ _ _ Hp2) as HL2. wp1.
    assert (Hright : wpd (if b - i' >=? 2 then pisShiftRight (reads ge) (Z.to_nat (b - i') + 1) (i' + 1) b else cret tt)
      (fun _ d' _ => permr i' b d2 d') d2 s2).
    { wp1; bools.
      - eapply wpd_conseq; [apply pisShiftRight_spec; lia|].
        intros ? d' s3 Hp. eapply permr_weaken; [apply Hp|lia|lia].
      - wp1. apply permr_refl. }
    eapply wpd_conseq; [apply Hright|]. intros ? d3 s3 Hp3. cbn beta in Hp3. clear Hright.
    pose proof (permr_len _ _ _ _ _ Hp3) as HL3.
    eapply wpd_conseq; [apply (IH i' a b); lia|].
    intros r d4 s4 [Hp4 Hs4]. split.
    - eapply permr_trans; [eapply permr_weaken; [apply Hp1|lia|lia]|].
      eapply permr_trans; [eapply permr_weaken; [apply Hp2|lia|lia]|].
      eapply permr_trans; [eapply permr_weaken; [apply Hp3|lia|lia]|]. auto.
    - intros HC Hbd Hs. destruct (Hs2 HC Hbd Hs) as [Hp2' Hsrt2].
      assert (Hp03 : permr a b d d3).
      { eapply permr_trans; [apply Hp1|].
        eapply permr_trans; [eapply permr_weaken; [apply Hp2'|lia|lia]|].
        eapply permr_weaken; [apply Hp3|lia|lia]. }
      destruct Hs4 as [Hp4' Hs4]; auto.
      + apply (bounded_permr a b d d3); auto; lia.
      + apply srt_ext with d2; auto. intros k Hk.
        symmetry. apply (permr_out dflt _ _ _ _ _ Hp3); lia.
      + split; auto. eapply permr_trans; eauto.
  Qed.

  Lemma partialInsertionSort_spec a b d s :
    0 <= a -> a < b -> b <= zlen d ->
    wpd (partialInsertionSort (reads ge) a b) (fun r d' _ =>
      permr 0 b d d' /\
      (C -> bounded a b d -> permr a b d d' /\ (r = true -> srt a b d'))) d s.
  Proof.
    intros Ha Hab Hb. unfold partialInsertionSort.
    eapply wpd_conseq; [apply pisLoop_spec; lia|].
    intros r d' s' [Hp Hs]. split; auto. intros HC Hbd. apply Hs; auto.
    apply srt_small. lia.
  Qed.
End Triples.
