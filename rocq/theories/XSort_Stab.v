(** Proofs about xsort: Stable, StableOrdered. *)
From Coq Require Import Permutation.
From Verif Require Import Base Arr XSort_Model XSort_Spec XSort_Panic XSort_Proofs XSort_Pdq.
Local Open Scope cb_scope.

Section Stl.
  Context {E : Type} (ltb : E -> E -> bool).

  (** Rearrangements obtained by exchanging adjacent strictly inverted pairs. *)
  Inductive stl : list E -> list E -> Prop :=
  | stl_refl d : stl d d
  | stl_step p x y q d : ltb y x = true -> stl (p ++ y :: x :: q) d -> stl (p ++ x :: y :: q) d.

  Lemma stl_trans d1 d2 d3 : stl d1 d2 -> stl d2 d3 -> stl d1 d3.
  Proof. induction 1; auto. intros. apply stl_step; auto. Qed.

  Lemma stl_perm d d' : stl d d' -> Permutation d d'.
  Proof.
    induction 1; auto. eapply Permutation_trans; [|apply IHstl].
    apply Permutation_app_head. constructor.
  Qed.

  Lemma stl_filter d d' : strict_weak_order ltb -> stl d d' -> keeps_equiv_order ltb d d'.
  Proof.
    intros HW H z. induction H; auto. rewrite IHstl, !filter_app. f_equal. cbn.
    destruct (equivb ltb z y) eqn:Hy, (equivb ltb z x) eqn:Hx; auto.
    exfalso. unfold equivb in *. apply andb_true_iff in Hx, Hy.
    destruct Hx as [Hx1 Hx2], Hy as [Hy1 Hy2].
    apply negb_true_iff in Hx1, Hx2, Hy1, Hy2.
    destruct (swo_incomp _ HW y z x); auto. congruence.
  Qed.

  Lemma stl_app p q d d' : stl d d' -> stl (p ++ d ++ q) (p ++ d' ++ q).
  Proof.
    induction 1; [constructor|].
    replace (p ++ (p0 ++ x :: y :: q0) ++ q) with ((p ++ p0) ++ x :: y :: (q0 ++ q))
      by (rewrite <- !app_assoc; reflexivity).
    apply stl_step; auto.
    replace ((p ++ p0) ++ y :: x :: q0 ++ q) with (p ++ (p0 ++ y :: x :: q0) ++ q)
      by (rewrite <- !app_assoc; reflexivity). auto.
  Qed.

  (** moving one element to the right past smaller ones *)
  Lemma stl_move x v : (forall y, In y v -> ltb y x = true) -> stl (x :: v) (v ++ [x]).
  Proof.
    induction v as [|y v IH]; intros H; [constructor|].
    apply (stl_step [] x y v); [apply H; left; auto|].
    apply (stl_app [y] [] (x :: v) (v ++ [x])) in IH.
    - rewrite !app_nil_r in IH. exact IH.
    - intros; apply H; right; auto.
  Qed.

  Lemma stl_block u v : (forall x y, In x u -> In y v -> ltb y x = true) -> stl (u ++ v) (v ++ u).
  Proof.
    induction u as [|x u IH]; intros H; [rewrite app_nil_r; constructor|].
    apply stl_trans with (x :: v ++ u).
    - assert (Hi : stl (u ++ v) (v ++ u)) by (apply IH; intros; apply H; cbn; auto).
      apply (stl_app [x] []) in Hi. rewrite !app_nil_r in Hi. exact Hi.
    - change (x :: v ++ u) with ((x :: v) ++ u).
      replace (v ++ x :: u) with ((v ++ [x]) ++ u) by (rewrite <- app_assoc; reflexivity).
      apply (stl_app [] u (x :: v) (v ++ [x])). apply stl_move. intros; apply H; cbn; auto.
  Qed.
End Stl.

Section Stab.
  Context {E S : Type}.
  Variable dflt : E.
  Variable lt ge : list E -> E -> E -> S -> (bool + string) * S.
  Variable ltb : E -> E -> bool.
  Local Notation "d .[ i ]" := (at_ dflt d i) (at level 2, format "d .[ i ]").
  Local Notation leE := (le ltb).
  Local Notation permr := (permr dflt).
  Local Notation swp := (swp dflt).
  Local Notation srt := (srt dflt ltb).
  Local Notation C := (C lt ge ltb).
  Local Notation T := (list E).
  Local Notation stl := (stl ltb).
  Local Notation seg := (@seg E).
  Ltac wp1 := wp1_ dflt lt ge ltb.

  Lemma split_two (d : T) k : 0 <= k -> k + 1 < zlen d ->
    exists p q, d = p ++ d.[k] :: d.[k + 1] :: q /\ zlen p = k.
  Proof.
    intros Hk Hl. exists (firstn (Z.to_nat k) d), (skipn (Z.to_nat k + 2) d). split.
    - rewrite <- (firstn_skipn (Z.to_nat k) d) at 1. f_equal.
      unfold at_. rewrite Nat.add_comm. rewrite <- skipn_skipn'.
      replace (Z.to_nat (k + 1)) with (Z.to_nat k + 1)%nat by lia.
      replace (nth (Z.to_nat k) d dflt) with (nth (Z.to_nat k + 0) d dflt) by (f_equal; lia).
      rewrite <- !nth_skipn'.
      assert (Hs : (2 <= List.length (skipn (Z.to_nat k) d))%nat)
        by (rewrite skipn_length; unfold zlen in Hl; lia).
      destruct (skipn (Z.to_nat k) d) as [|x [|y q]]; cbn in *; try lia. reflexivity.
    - unfold zlen in *. rewrite firstn_length. lia.
  Qed.

  Lemma at_app_l (p q : T) i : 0 <= i < zlen p -> (p ++ q).[i] = p.[i].
  Proof. intros. unfold at_, zlen in *. apply app_nth1. lia. Qed.

  Lemma at_app_r (p q : T) i : zlen p <= i -> (p ++ q).[i] = q.[i - zlen p].
  Proof.
    intros. unfold at_, zlen in *. rewrite app_nth2 by lia. f_equal. lia.
  Qed.

  Lemma at_cons_0 x (q : T) : (x :: q).[0] = x.
  Proof. reflexivity. Qed.

  Lemma at_cons_S x (q : T) i : 0 < i -> (x :: q).[i] = q.[i - 1].
  Proof.
    intros. unfold at_. replace (Z.to_nat i) with (Datatypes.S (Z.to_nat (i - 1))) by lia. reflexivity.
  Qed.

  Lemma swp_adj (p q : T) x y : swp (p ++ x :: y :: q) (zlen p) (zlen p + 1) = p ++ y :: x :: q.
  Proof.
    assert (Hl : zlen (p ++ x :: y :: q) = zlen p + zlen q + 2)
      by (rewrite zlen_app, !zlen_cons; lia).
    pose proof (zlen_nonneg p). pose proof (zlen_nonneg q).
    apply (arr_ext dflt).
    - rewrite zlen_swp, !zlen_app, !zlen_cons. lia.
    - intros i Hi. rewrite zlen_swp in Hi. rewrite at_swp by lia.
      assert (Hx : (p ++ x :: y :: q).[zlen p] = x)
        by (rewrite at_app_r by lia; now rewrite Z.sub_diag).
      assert (Hy : (p ++ x :: y :: q).[zlen p + 1] = y).
      { rewrite at_app_r by lia. replace (zlen p + 1 - zlen p) with 1 by lia. reflexivity. }
      rewrite Hx, Hy.
      destruct (Z.lt_ge_cases i (zlen p)).
      + rewrite !at_app_l by lia. destruct (Z.eqb_spec i (zlen p + 1)), (Z.eqb_spec i (zlen p)); auto; lia.
      + rewrite !at_app_r by lia.
        destruct (Z.eqb_spec i (zlen p + 1)) as [->|].
        { replace (zlen p + 1 - zlen p) with 1 by lia. reflexivity. }
        destruct (Z.eqb_spec i (zlen p)) as [->|]; [now rewrite Z.sub_diag|].
        rewrite !at_cons_S by lia. reflexivity.
  Qed.

  Lemma swp_comm (d : T) i j : 0 <= i < zlen d -> 0 <= j < zlen d -> swp d i j = swp d j i.
  Proof.
    intros. apply (arr_ext dflt); [now rewrite !zlen_swp|].
    intros k Hk. rewrite zlen_swp in Hk. swps; subst; auto; lia.
  Qed.

  Lemma stl_swp (d : T) k : 0 <= k -> k + 1 < zlen d -> ltb d.[k + 1] d.[k] = true ->
    stl d (swp d k (k + 1)).
  Proof.
    intros Hk Hl Hlt. destruct (split_two d k Hk Hl) as (p & q & Hd & Hp).
    set (x := d.[k]) in *. set (y := d.[k + 1]) in *. clearbody x y. subst d k.
    rewrite swp_adj. apply stl_step; auto. apply stl_refl.
  Qed.

  Lemma insertionInner_stl fuel : forall a j d s,
    0 <= a -> a <= j -> j < zlen d -> j - a < Z.of_nat fuel ->
    wpd (insertionInner (reads lt) fuel a j) (fun _ d' _ => zlen d' = zlen d /\ (C -> stl d d')) d s.
  Proof.
    induction fuel as [|fuel IH]; intros a j d s Ha Haj Hl Hf; [lia|].
    cbn [insertionInner]. wp1. wp1.
    - bools. wp1. wp1.
      + wp1. wp1. eapply wpd_conseq; [apply (IH a (j - 1)); rewrite ?zlen_swp; lia|].
        intros _ d' s1 [HL Hs]. rewrite zlen_swp in HL. split; auto. intros HC.
        eapply stl_trans; [|apply Hs; auto]. rewrite swp_comm by lia.
        replace (swp d (j - 1) j) with (swp d (j - 1) (j - 1 + 1)) by (f_equal; lia).
        apply stl_swp; try lia. replace (j - 1 + 1) with j by lia. subst; auto.
      + wp1. split; auto. intros; apply stl_refl.
    - wp1. split; auto. intros; apply stl_refl.
  Qed.

  Lemma insertionOuter_stl fuel : forall a b i d s,
    0 <= a -> a < i -> b <= zlen d -> Z.max 0 (b - i) < Z.of_nat fuel ->
    wpd (insertionOuter (reads lt) fuel a b i) (fun _ d' _ => zlen d' = zlen d /\ (C -> stl d d')) d s.
  Proof.
    induction fuel as [|fuel IH]; intros a b i d s Ha Hai Hl Hf; [lia|].
    cbn [insertionOuter]. wp1; bools.
    - wp1. eapply wpd_conseq; [apply (insertionInner_stl _ a i); lia|].
      intros _ d1 s1 [HL1 Hs1].
      eapply wpd_conseq; [apply (IH a b (i + 1)); lia|].
      intros _ d2 s2 [HL2 Hs2]. split; [congruence|]. intros HC.
      eapply stl_trans; eauto.
    - wp1. split; auto. intros; apply stl_refl.
  Qed.

  Lemma wpd_and {A} (m : CM st A) (P Q : A -> T -> S -> Prop) d s :
    wpd m P d s -> wpd m Q d s -> wpd m (fun a d' s' => P a d' s' /\ Q a d' s') d s.
  Proof. unfold wpd. destruct (m (d, s)) as [[a| | |] [d' s']]; auto. Qed.

  Lemma insertionSort_full a b d s :
    0 <= a -> b <= zlen d ->
    wpd (insertionSort (reads lt) a b) (fun _ d' _ =>
      permr a b d d' /\ (C -> srt a b d' /\ stl d d')) d s.
  Proof.
    intros Ha Hb. eapply wpd_conseq.
    - apply wpd_and; [apply (insertionSort_spec dflt lt ge ltb); auto|].
      unfold insertionSort. apply insertionOuter_stl; lia.
    - intros _ d' s' [[Hp Hs] [_ Hst]]. auto.
  Qed.

  (** ---- rotation ---- *)

  Lemma swapRangeLoop_spec fuel : forall i n a b (d : T) (s : S),
    0 <= i -> 0 <= a -> a + n <= b -> b + n <= zlen d -> Z.max 0 (n - i) < Z.of_nat fuel ->
    wpd (swapRangeLoop fuel i n a b) (fun _ d' _ =>
      zlen d' = zlen d /\ Permutation d d' /\
      (forall k, 0 <= k -> d'.[k] =
        if (a + i <=? k) && (k <? a + n) then d.[k + (b - a)]
        else if (b + i <=? k) && (k <? b + n) then d.[k - (b - a)] else d.[k])) d s.
  Proof.
    induction fuel as [|fuel IH]; intros i n a b d s Hi Ha Hab Hb Hf; [lia|].
    cbn [swapRangeLoop]. wp1; bools.
    - wp1. wp1. eapply wpd_conseq; [apply (IH (i + 1) n a b); rewrite ?zlen_swp; lia|].
      intros _ d' s' (HL & HP & Hk). rewrite zlen_swp in HL. split; [auto|split].
      + eapply Permutation_trans; [|apply HP]. apply perm_swp; lia.
      + intros k Hk0. rewrite Hk by auto.
        destruct (Z.leb_spec (a + (i + 1)) k), (Z.ltb_spec k (a + n)),
          (Z.leb_spec (b + (i + 1)) k), (Z.ltb_spec k (b + n)),
          (Z.leb_spec (a + i) k), (Z.leb_spec (b + i) k); cbn [andb]; try lia;
        swps; try lia; f_equal; lia.
    - wp1. split; [auto|split; [auto|]]. intros k Hk.
      destruct (Z.leb_spec (a + i) k), (Z.ltb_spec k (a + n)),
          (Z.leb_spec (b + i) k), (Z.ltb_spec k (b + n)); cbn [andb]; auto; lia.
  Qed.

  Lemma swapRange_spec a b n (d : T) (s : S) :
    0 <= n -> 0 <= a -> a + n <= b -> b + n <= zlen d ->
    wpd (swapRange a b n) (fun _ d' _ =>
      zlen d' = zlen d /\ Permutation d d' /\
      (forall k, 0 <= k -> d'.[k] =
        if (a <=? k) && (k <? a + n) then d.[k + (b - a)]
        else if (b <=? k) && (k <? b + n) then d.[k - (b - a)] else d.[k])) d s.
  Proof.
    intros. unfold swapRange. eapply wpd_conseq; [apply swapRangeLoop_spec; lia|].
    intros _ d' s' (HL & HP & Hk). rewrite !Z.add_0_r in Hk. auto.
  Qed.

  (** [d'] is [d] with [m-i,m) and [m,m+j) exchanged. *)
  Definition rotated (lo i j : Z) (d d' : T) : Prop :=
    zlen d' = zlen d /\ Permutation d d' /\
    (forall k, 0 <= k -> d'.[k] =
        if (lo <=? k) && (k <? lo + j) then d.[k + i]
        else if (lo + j <=? k) && (k <? lo + i + j) then d.[k - j] else d.[k]).

  Ltac cmpk k :=
    repeat match goal with
    | |- context [?x <=? k] => destruct (Z.leb_spec x k)
    | |- context [k <? ?x] => destruct (Z.ltb_spec k x)
    | |- context [?x <=? k + ?z] => destruct (Z.leb_spec x (k + z))
    | |- context [k + ?z <? ?x] => destruct (Z.ltb_spec (k + z) x)
    | |- context [?x <=? k - ?z] => destruct (Z.leb_spec x (k - z))
    | |- context [k - ?z <? ?x] => destruct (Z.ltb_spec (k - z) x)
    end; cbn [andb]; try lia.

  Lemma rotateLoop_spec fuel : forall i j m (d : T) (s : S),
    0 < i -> 0 < j -> 0 <= m - i -> m + j <= zlen d -> i + j <= Z.of_nat fuel ->
    wpd (rotateLoop fuel i j m) (fun _ d' _ => rotated (m - i) i j d d') d s.
  Proof.
    induction fuel as [|fuel IH]; intros i j m d s Hi Hj Hm Hb Hf; [lia|].
    cbn [rotateLoop]. wp1; bools.
    - subst j. eapply wpd_conseq; [apply swapRange_spec; lia|].
      intros _ d' s' (HL & HP & Hk). split; [auto|split; [auto|]].
      intros k Hk0. rewrite Hk by auto.
      replace (m - (m - i)) with i by lia.
      cmpk k; reflexivity.
    - wp1; bools.
      + wp1. eapply wpd_conseq; [apply swapRange_spec; lia|].
        intros _ d1 s1 (HL1 & HP1 & Hk1).
        eapply wpd_conseq; [apply IH; lia|].
        intros ? d2 s2 (HL2 & HP2 & Hk2). split; [congruence|split].
        { eapply Permutation_trans; eauto. }
        intros k Hk0. rewrite Hk2 by auto.
        cmpk k; rewrite Hk1 by lia; cmpk k; f_equal; lia.
      + wp1. eapply wpd_conseq; [apply swapRange_spec; lia|].
        intros _ d1 s1 (HL1 & HP1 & Hk1).
        eapply wpd_conseq; [apply IH; lia|].
        intros ? d2 s2 (HL2 & HP2 & Hk2). split; [congruence|split].
        { eapply Permutation_trans; eauto. }
        intros k Hk0. rewrite Hk2 by auto.
        cmpk k; rewrite Hk1 by lia; cmpk k; f_equal; lia.
  Qed.

  Lemma rotate_spec a m b (d : T) (s : S) :
    0 <= a -> a < m < b -> b <= zlen d ->
    wpd (rotate a m b) (fun _ d' _ => rotated a (m - a) (b - m) d d') d s.
  Proof.
    intros. unfold rotate. eapply wpd_conseq; [apply rotateLoop_spec; lia|].
    intros ? d' s' Hr. replace (m - (m - a)) with a in Hr by lia. exact Hr.
  Qed.

  Lemma rotated_permr a m b d d' : 0 <= a -> a <= m <= b -> rotated a (m - a) (b - m) d d' ->
    permr a b d d'.
  Proof.
    intros Ha Hm (HL & HP & Hk). split; [auto|split; [|auto]].
    intros k Hk0 Hn. rewrite Hk by auto. cmpk k; auto.
  Qed.

  Lemma In_seg a b (d : T) x : 0 <= a <= b -> b <= zlen d ->
    In x (seg a b d) -> exists k, a <= k < b /\ x = d.[k].
  Proof.
    intros Ha Hb Hin. apply In_nth with (d := dflt) in Hin. destruct Hin as (n & Hn & He).
    pose proof (zlen_seg a b d Ha Hb) as Hz. unfold zlen in Hz.
    exists (a + Z.of_nat n). split; [lia|].
    rewrite <- (at_seg dflt a b d (Z.of_nat n)) by lia.
    unfold at_. rewrite Nat2Z.id. auto.
  Qed.

  Lemma seg_split a m b (d : T) : 0 <= a <= m -> m <= b -> b <= zlen d ->
    seg a b d = seg a m d ++ seg m b d.
  Proof.
    intros Ha Hm Hb. apply (arr_ext dflt).
    - rewrite zlen_app, !zlen_seg by lia. lia.
    - intros i Hi. rewrite zlen_seg in Hi by lia. rewrite at_seg by lia.
      destruct (Z.lt_ge_cases i (m - a)).
      + rewrite at_app_l by (rewrite zlen_seg; lia). rewrite at_seg by lia. auto.
      + rewrite at_app_r by (rewrite zlen_seg; lia). rewrite zlen_seg by lia.
        rewrite at_seg by lia. f_equal. lia.
  Qed.

  Lemma rotated_stl a m b d d' : 0 <= a -> a <= m <= b -> b <= zlen d ->
    rotated a (m - a) (b - m) d d' ->
    (forall i j, a <= i < m -> m <= j < b -> ltb d.[j] d.[i] = true) -> stl d d'.
  Proof.
    intros Ha Hm Hb Hr Hlt.
    pose proof (rotated_permr a m b d d' Ha Hm Hr) as Hp.
    destruct (permr_seg dflt a b d d' Hp) as (H1 & H2 & _); try lia.
    destruct Hr as (HL & HP & Hk).
    assert (Hseg : seg a b d' = seg m b d ++ seg a m d).
    { apply (arr_ext dflt).
      - rewrite zlen_app, !zlen_seg by lia. lia.
      - intros i Hi. rewrite zlen_seg in Hi by lia. rewrite at_seg by lia. rewrite Hk by lia.
        destruct (Z.leb_spec a (a + i)), (Z.ltb_spec (a + i) (a + (b - m))),
          (Z.leb_spec (a + (b - m)) (a + i)), (Z.ltb_spec (a + i) (a + (m - a) + (b - m)));
          cbn [andb]; try lia.
        + rewrite at_app_l by (rewrite zlen_seg; lia). rewrite at_seg by lia. f_equal; lia.
        + rewrite at_app_r by (rewrite zlen_seg; lia). rewrite zlen_seg by lia.
          rewrite at_seg by lia. f_equal; lia. }
    rewrite (split3 a b d) by lia. rewrite (split3 a b d') by lia.
    rewrite Hseg, <- H1, <- H2, (seg_split a m b) by lia.
    apply stl_app. apply stl_block. intros x y Hx Hy.
    apply In_seg in Hx; [|lia|lia]. apply In_seg in Hy; [|lia|lia].
    destruct Hx as (i & Hi & ->), Hy as (j & Hj & ->). auto.
  Qed.

  (** ---- binary searches ---- *)

  Lemma half_bounds i j : i < j -> 0 <= i -> i <= half i j < j.
  Proof. intros. unfold half. rewrite Z.shiftr_div_pow2 by lia. change (2 ^ 1) with 2. lia. Qed.

  Lemma bsearchLow_spec fuel : forall i j a (d : T) (s : S),
    0 <= a < zlen d -> 0 <= i <= j -> j <= zlen d -> j - i < Z.of_nat fuel ->
    wpd (bsearchLow (reads lt) fuel i j a) (fun r d' _ => d' = d /\ i <= r <= j /\
      (C -> (r = i \/ ltb d.[r - 1] d.[a] = true) /\
            (r = j \/ ltb d.[r] d.[a] = false))) d s.
  Proof.
    induction fuel as [|fuel IH]; intros i j a d s Ha Hi Hj Hf; [lia|].
    cbn [bsearchLow]. wp1; bools.
    - pose proof (half_bounds i j ltac:(lia) ltac:(lia)) as Hh. cbv zeta.
      set (h := half i j) in *. clearbody h. wp1. wp1. wp1.
      + eapply wpd_conseq; [apply IH; lia|].
        intros r d' s1 (-> & Hr & Hc). repeat split; try lia; destruct Hc as [Hc1 Hc2]; auto.
        destruct Hc1; auto. subst r. right. replace (h + 1 - 1) with h by lia. subst; auto.
      + eapply wpd_conseq; [apply IH; lia|].
        intros r d' s1 (-> & Hr & Hc). repeat split; try lia; destruct Hc as [Hc1 Hc2]; auto.
        destruct Hc2; auto. subst r. right. subst; auto.
    - wp1. repeat split; lia.
  Qed.

  Lemma bsearchHigh_spec fuel : forall i j m (d : T) (s : S),
    0 <= m < zlen d -> 0 <= i <= j -> j <= zlen d -> j - i < Z.of_nat fuel ->
    wpd (bsearchHigh (reads ge) fuel i j m) (fun r d' _ => d' = d /\ i <= r <= j /\
      (C -> (r = i \/ ltb d.[m] d.[r - 1] = false) /\
            (r = j \/ ltb d.[m] d.[r] = true))) d s.
  Proof.
    induction fuel as [|fuel IH]; intros i j m d s Ha Hi Hj Hf; [lia|].
    cbn [bsearchHigh]. wp1; bools.
    - pose proof (half_bounds i j ltac:(lia) ltac:(lia)) as Hh. cbv zeta.
      set (h := half i j) in *. clearbody h. wp1. wp1. wp1.
      + eapply wpd_conseq; [apply IH; lia|].
        intros r d' s1 (-> & Hr & Hc). repeat split; try lia; destruct Hc as [Hc1 Hc2]; auto.
        destruct Hc1; auto. subst r. right. replace (h + 1 - 1) with h by lia. subst; auto.
      + eapply wpd_conseq; [apply IH; lia|].
        intros r d' s1 (-> & Hr & Hc). repeat split; try lia; destruct Hc as [Hc1 Hc2]; auto.
        destruct Hc2; auto. subst r. right. subst; auto.
    - wp1. repeat split; lia.
  Qed.

  Lemma bsearchSym_spec fuel : forall i j p (d : T) (s : S),
    0 <= i <= j -> j <= zlen d -> 0 <= p - (j - 1) -> p - i < zlen d -> j - i < Z.of_nat fuel ->
    wpd (bsearchSym (reads ge) fuel i j p) (fun r d' _ => d' = d /\ i <= r <= j /\
      (C -> (r = i \/ ltb d.[p - (r - 1)] d.[r - 1] = false) /\
            (r = j \/ ltb d.[p - r] d.[r] = true))) d s.
  Proof.
    induction fuel as [|fuel IH]; intros i j p d s Hi Hj Hp1 Hp2 Hf; [lia|].
    cbn [bsearchSym]. wp1; bools.
    - pose proof (half_bounds i j ltac:(lia) ltac:(lia)) as Hh. cbv zeta.
      set (h := half i j) in *. clearbody h. wp1. wp1. wp1.
      + eapply wpd_conseq; [apply IH; lia|].
        intros r d' s1 (-> & Hr & Hc). repeat split; try lia; destruct Hc as [Hc1 Hc2]; auto.
        destruct Hc1; auto. subst r. right. replace (h + 1 - 1) with h by lia. subst; auto.
      + eapply wpd_conseq; [apply IH; lia|].
        intros r d' s1 (-> & Hr & Hc). repeat split; try lia; destruct Hc as [Hc1 Hc2]; auto.
        destruct Hc2; auto. subst r. right. subst; auto.
    - wp1. repeat split; lia.
  Qed.

  (** ---- single element moves, as rotations ---- *)

  Lemma rotated_id lo i (d : T) : rotated lo i 0 d d.
  Proof.
    split; [auto|split; [auto|]]. intros k Hk. cmpk k; f_equal; lia.
  Qed.

  Lemma rotated_id' lo j (d : T) : rotated lo 0 j d d.
  Proof.
    split; [auto|split; [auto|]]. intros k Hk. cmpk k; f_equal; lia.
  Qed.

  Lemma bubbleUp_spec fuel : forall k i (d : T) (s : S),
    0 <= k -> i <= zlen d -> k < i -> i - k <= Z.of_nat fuel ->
    wpd (bubbleUp fuel k i) (fun _ d' _ => rotated k 1 (i - 1 - k) d d') d s.
  Proof.
    induction fuel as [|fuel IH]; intros k i d s Hk Hi Hki Hf; [lia|].
    cbn [bubbleUp]. wp1; bools.
    - wp1. wp1. eapply wpd_conseq; [apply IH; rewrite ?zlen_swp; lia|].
      intros ? d' s' (HL & HP & Hc). rewrite zlen_swp in HL. split; [auto|split].
      + eapply Permutation_trans; [|apply HP]. apply perm_swp; lia.
      + intros x Hx. rewrite Hc by auto. cmpk x; swps; try lia; f_equal; lia.
    - wp1. replace (i - 1 - k) with 0 by lia. apply rotated_id.
  Qed.

  Lemma bubbleDown_spec fuel : forall k i (d : T) (s : S),
    0 <= i <= k -> k < zlen d -> k - i < Z.of_nat fuel ->
    wpd (bubbleDown fuel k i) (fun _ d' _ => rotated i (k - i) 1 d d') d s.
  Proof.
    induction fuel as [|fuel IH]; intros k i d s Hk Hi Hf; [lia|].
    cbn [bubbleDown]. wp1; bools.
    - wp1. wp1. eapply wpd_conseq; [apply IH; rewrite ?zlen_swp; lia|].
      intros ? d' s' (HL & HP & Hc). rewrite zlen_swp in HL. split; [auto|split].
      + eapply Permutation_trans; [|apply HP]. apply perm_swp; lia.
      + intros x Hx. rewrite Hc by auto. cmpk x; swps; try lia; f_equal; lia.
    - wp1. replace (k - i) with 0 by lia. apply rotated_id'.
  Qed.

  Lemma srt_le a b d i j : strict_weak_order ltb -> srt a b d ->
    a <= i -> i <= j -> j < b -> leE d.[i] d.[j].
  Proof.
    intros HW Hs Hi Hij Hj. destruct (Z.eq_dec i j) as [->|]; [now apply le_refl|].
    apply Hs; lia.
  Qed.

  (** ---- symMerge ---- *)

  Lemma symMerge_spec stack : forall a m b (d : T) (s : S),
    0 <= a -> a < m < b -> b <= zlen d -> b - a - 1 < 2 ^ Z.of_nat stack ->
    wpd (symMerge (reads lt) (reads ge) stack a m b) (fun _ d' _ =>
      permr a b d d' /\ (C -> srt a m d -> srt m b d -> srt a b d' /\ stl d d')) d s.
  Proof.
    induction stack as [|stack IH]; intros a m b d s Ha Hm Hb Hst.
    { cbn in Hst. lia. }
    cbn [symMerge]. wp1; bools.
    { (* m - a = 1 *)
      wp1. eapply wpd_conseq; [apply bsearchLow_spec; lia|].
      intros i ? s1 (-> & Hi & Hc).
      eapply wpd_conseq; [apply bubbleUp_spec; lia|].
      intros ? d' s2 Hr. cbn beta in Hr.
      assert (Hr' : rotated a (m - a) (i - m) d d').
      { replace (m - a) with 1 by lia. replace (i - m) with (i - 1 - a) by lia. auto. }
      split; [eapply permr_weaken; [apply (rotated_permr a m i); auto; lia|lia|lia]|].
      intros HC Hs1 Hs2. destruct (Hc HC) as [Hc1 Hc2]. pose proof (proj1 HC) as HW.
      assert (Hlow : forall j, m <= j < i -> ltb d.[j] d.[a] = true).
      { intros j Hj. destruct Hc1 as [->|Hc1]; [lia|].
        apply (le_lt_trans ltb HW) with d.[i - 1]; auto. apply (srt_le m b); auto; lia. }
      assert (Hhigh : forall j, i <= j < b -> leE d.[a] d.[j]).
      { intros j Hj. destruct Hc2 as [->|Hc2]; [lia|].
        apply (le_trans ltb HW) with d.[i]; auto. apply (srt_le m b); auto; lia. }
      split.
      - destruct Hr' as (HL & HP & Hk). intros p q Hp Hpq Hq. rewrite !Hk by lia.
        assert (Hma : m = a + 1) by lia. replace (m - a) with 1 in * by lia.
        cmpk p; cmpk q; try (apply Hs2; lia).
        all: first [ replace (q - (i - m)) with a by lia; apply lt_le; auto; apply Hlow; lia
          | apply (srt_le m b); auto; lia
          | replace (p - (i - m)) with a by lia; apply Hhigh; lia ].
      - apply (rotated_stl a m i); auto; try lia.
        intros p q Hp Hq. replace p with a by lia. apply Hlow; lia. }
    wp1; bools.
    { (* b - m = 1 *)
      wp1. eapply wpd_conseq; [apply bsearchHigh_spec; lia|].
      intros i ? s1 (-> & Hi & Hc).
      eapply wpd_conseq; [apply bubbleDown_spec; lia|].
      intros ? d' s2 Hr. cbn beta in Hr.
      assert (Hr' : rotated i (m - i) (b - m) d d').
      { replace (b - m) with 1 by lia. auto. }
      split; [eapply permr_weaken; [apply (rotated_permr i m b); auto; lia|lia|lia]|].
      intros HC Hs1 Hs2. destruct (Hc HC) as [Hc1 Hc2]. pose proof (proj1 HC) as HW.
      assert (Hlow : forall j, a <= j < i -> leE d.[j] d.[m]).
      { intros j Hj. destruct Hc1 as [->|Hc1]; [lia|].
        apply (le_trans ltb HW) with d.[i - 1]; auto. apply (srt_le a m); auto; lia. }
      assert (Hhigh : forall j, i <= j < m -> ltb d.[m] d.[j] = true).
      { intros j Hj. destruct Hc2 as [->|Hc2]; [lia|].
        apply (lt_le_trans ltb HW) with d.[i]; auto. apply (srt_le a m); auto; lia. }
      split.
      - destruct Hr' as (HL & HP & Hk). intros p q Hp Hpq Hq. rewrite !Hk by lia.
        assert (Hbm : b = m + 1) by lia. replace (b - m) with 1 in * by lia.
        cmpk p; cmpk q; try (apply Hs1; lia).
        all: first [ replace (p + (m - i)) with m by lia; apply lt_le; auto; apply Hhigh; lia
          | replace (q + (m - i)) with m by lia; apply Hlow; lia
          | apply (srt_le a m); auto; lia ].
      - apply (rotated_stl i m b); auto; try lia.
        intros p q Hp Hq. replace q with m by lia. apply Hhigh; lia. }
    (* general case *)
    cbv zeta. pose proof (half_bounds a b ltac:(lia) ltac:(lia)) as Hmid.
    assert (Hhalf : half a b = (a + b) / 2)
      by (unfold half; rewrite Z.shiftr_div_pow2 by lia; reflexivity).
    set (mid := half a b) in *. clearbody mid.
    destruct (if m >? mid then (mid + m - b, mid) else (a, m)) as [start0 r0] eqn:Hsr.
    assert (Hsr' : (m > mid /\ start0 = mid + m - b /\ r0 = mid) \/
                   (m <= mid /\ start0 = a /\ r0 = m)).
    { destruct (m >? mid) eqn:Hmm; bools; inversion Hsr; subst; lia. }
    clear Hsr. wp1. eapply wpd_conseq; [apply bsearchSym_spec; lia|].
    intros start ? s1 (-> & Hstart & Hc).
    set (e := mid + m - start).
    wp1. apply wpd_conseq with (P := fun _ d' _ => rotated start (m - start) (e - m) d d').
    { unfold e. wp1; bools.
      - apply rotate_spec; lia.
      - apply andb_false_iff in H1. wp1.
        assert (start = m \/ mid + m - start = m) as [Hz|Hz].
        { destruct H1; bools; lia. }
        + rewrite Hz. replace (m - m) with 0 by lia. apply rotated_id'.
        + rewrite Hz. replace (m - m) with 0 by lia. apply rotated_id. }
    intros ? d1 s2 Hr1. cbn beta in Hr1.
    assert (He : start <= m <= e /\ e <= b /\ a <= start) by (unfold e; lia).
    pose proof (rotated_permr start m e d d1 ltac:(lia) ltac:(lia) Hr1) as Hp1.
    pose proof (permr_len _ _ _ _ _ Hp1) as HL1.
    (* the four blocks after rotation *)
    assert (Hgood : C -> srt a m d -> srt m b d ->
      srt a start d1 /\ srt start mid d1 /\ srt mid e d1 /\ srt e b d1 /\ stl d d1 /\
      (forall i j, a <= i < mid -> mid <= j < b -> leE d1.[i] d1.[j])).
    { intros HC Hs1 Hs2. destruct (Hc HC) as [Hc1 Hc2]. pose proof (proj1 HC) as HW.
      (* left part (before start) <= right part (after end) *)
      assert (Hlr : forall i j, a <= i < start -> e <= j < b -> leE d.[i] d.[j]).
      { intros i j Hi Hj. destruct Hc1 as [->|Hc1].
        - unfold e in *. lia.
        - apply (le_trans ltb HW) with d.[start - 1]; [apply (srt_le a m); auto; lia|].
          apply (le_trans ltb HW) with d.[e]; [|apply (srt_le m b); auto; lia].
          unfold le. unfold e.
          replace (mid + m - 1 - (start - 1)) with (mid + m - start) in Hc1 by lia. auto. }
      (* v < u strictly *)
      assert (Hvu : forall i j, start <= i < m -> m <= j < e -> ltb d.[j] d.[i] = true).
      { intros i j Hi Hj. destruct Hc2 as [->|Hc2].
        - unfold e in *. lia.
        - apply (le_lt_trans ltb HW) with d.[e - 1]; [apply (srt_le m b); auto; lia|].
          apply (lt_le_trans ltb HW) with d.[start]; [|apply (srt_le a m); auto; lia].
          unfold e. replace (mid + m - 1 - start) with (mid + m - start - 1) in Hc2 by lia. auto. }
      pose proof Hr1 as (_ & _ & Hk).
      assert (K1 : forall i, 0 <= i < start -> d1.[i] = d.[i]) by (intros i Hi; rewrite Hk by lia; cmpk i; auto).
      assert (K2 : forall i, start <= i < mid -> d1.[i] = d.[i + (m - start)])
        by (intros i Hi; rewrite Hk by lia; unfold e in *; cmpk i; auto).
      assert (K3 : forall i, mid <= i < e -> d1.[i] = d.[i - (e - m)])
        by (intros i Hi; rewrite Hk by lia; unfold e in *; cmpk i; auto).
      assert (K4 : forall i, e <= i < b -> d1.[i] = d.[i])
        by (intros i Hi; rewrite Hk by lia; unfold e in *; cmpk i; auto).
      assert (Em : e - m = mid - start) by (unfold e; lia).
      repeat split.
      - intros i j Hi Hij Hj. rewrite !K1 by lia. apply Hs1; lia.
      - intros i j Hi Hij Hj. rewrite !K2 by lia. apply Hs2; lia.
      - intros i j Hi Hij Hj. rewrite !K3 by lia. apply Hs1; lia.
      - intros i j Hi Hij Hj. rewrite !K4 by lia. apply Hs2; lia.
      - apply (rotated_stl start m e); auto; lia.
      - intros i j Hi Hj.
        destruct (Z.lt_ge_cases i start), (Z.lt_ge_cases j e).
        + rewrite K1, K3 by lia. apply Hs1; lia.
        + rewrite K1, K4 by lia. apply Hlr; lia.
        + rewrite K2, K3 by lia. apply lt_le; auto. apply Hvu; lia.
        + rewrite K2, K4 by lia. apply Hs2; lia. }
    clear Hc. rewrite Nat2Z.inj_succ, Z.pow_succ_r in Hst by lia.
    (* left recursive call *)
    wp1. apply wpd_conseq with (P := fun _ d' _ => permr a mid d1 d' /\
      (C -> srt a start d1 -> srt start mid d1 -> srt a mid d' /\ stl d1 d')).
    { wp1; bools.
      - apply IH; lia.
      - apply andb_false_iff in H1. wp1. split; [apply permr_refl|].
        intros HC Hx Hy. split; [|apply stl_refl].
        destruct H1; bools.
        + replace start with a in * by lia. auto.
        + apply (srt_sub dflt lt ge ltb a start); auto; lia. }
    intros _ d2 s3 [Hp2 Hs2]. pose proof (permr_len _ _ _ _ _ Hp2) as HL2.
    apply wpd_conseq with (P := fun _ d' _ => permr mid b d2 d' /\
      (C -> srt mid e d2 -> srt e b d2 -> srt mid b d' /\ stl d2 d')).
    { wp1; bools.
      - apply IH; lia.
      - apply andb_false_iff in H1. wp1. split; [apply permr_refl|].
        intros HC Hx Hy. split; [|apply stl_refl].
        destruct H1; bools.
        + apply (srt_sub dflt lt ge ltb e b); auto; lia.
        + replace e with b in * by lia. auto. }
    intros _ d3 s4 [Hp3 Hs3]. pose proof (permr_len _ _ _ _ _ Hp3) as HL3.
    split.
    - eapply permr_trans; [eapply permr_weaken; [apply Hp1|lia|lia]|].
      eapply permr_trans; [eapply permr_weaken; [apply Hp2|lia|lia]|].
      eapply permr_weaken; [apply Hp3|lia|lia].
    - intros HC HsA HsB. destruct (Hgood HC HsA HsB) as (G1 & G2 & G3 & G4 & G5 & G6).
      destruct (Hs2 HC G1 G2) as [Q1 Q2].
      assert (R : forall i, mid <= i < b -> d2.[i] = d1.[i])
        by (intros i Hi; apply (permr_out dflt _ _ _ _ _ Hp2); lia).
      destruct (Hs3 HC) as [Q3 Q4].
      { apply (srt_ext dflt lt ge ltb mid e d1); auto. intros; symmetry; apply R; lia. }
      { apply (srt_ext dflt lt ge ltb e b d1); auto. intros; symmetry; apply R; lia. }
      split; [|eapply stl_trans; [apply G5|]; eapply stl_trans; eauto].
      apply (srt_glue dflt lt ge ltb a mid b); auto.
      + apply (srt_ext dflt lt ge ltb a mid d2); auto.
        intros i Hi. symmetry. apply (permr_out dflt _ _ _ _ _ Hp3); lia.
      + intros i j Hi Hj. rewrite (permr_out dflt _ _ _ _ i Hp3) by lia. revert j Hj.
        apply (permr_forall dflt mid b d2 d3 (fun x => leE d2.[i] x) Hp3); try lia.
        intros j Hj. rewrite (R j) by lia. revert i Hi.
        apply (permr_forall dflt a mid d1 d2 (fun x => leE x d1.[j]) Hp2); try lia.
        intros i Hi. apply G6; auto.
  Qed.

  (** ---- stable ---- *)

  (** Consecutive blocks of size [bs] inside [lo,n) are sorted. *)
  Definition blocks (lo n bs : Z) (d : T) : Prop :=
    forall k, 0 <= k -> lo + k * bs < n -> srt (lo + k * bs) (Z.min n (lo + (k + 1) * bs)) d.

  Lemma blocks_ext lo n bs d d' : 0 < bs -> (forall i, lo <= i < n -> d.[i] = d'.[i]) ->
    blocks lo n bs d -> blocks lo n bs d'.
  Proof.
    intros Hbs He Hb k Hk Hl. apply (srt_ext dflt lt ge ltb _ _ d); [|apply Hb; auto].
    intros i Hi. apply He. nia.
  Qed.

  Lemma blocks_tail lo n bs d : 0 < bs -> blocks lo n bs d -> blocks (lo + bs) n bs d.
  Proof.
    intros Hbs Hb k Hk Hl. specialize (Hb (k + 1)).
    replace (lo + (k + 1) * bs) with (lo + bs + k * bs) in Hb by lia.
    replace (lo + (k + 1 + 1) * bs) with (lo + bs + (k + 1) * bs) in Hb by lia.
    apply Hb; lia.
  Qed.

  Lemma blocks_cons lo n bs d : 0 < bs -> lo + bs <= n ->
    srt lo (lo + bs) d -> blocks (lo + bs) n bs d -> blocks lo n bs d.
  Proof.
    intros Hbs Hn Hs Hb k Hk Hl. destruct (Z.eq_dec k 0) as [->|].
    - replace (lo + 0 * bs) with lo by lia.
      replace (Z.min n (lo + (0 + 1) * bs)) with (lo + bs) by lia. auto.
    - specialize (Hb (k - 1)).
      replace (lo + bs + (k - 1) * bs) with (lo + k * bs) in Hb by lia.
      replace (lo + bs + (k - 1 + 1) * bs) with (lo + (k + 1) * bs) in Hb by lia.
      apply Hb; lia.
  Qed.

  Lemma blocks_last lo n bs d : 0 < bs -> n <= lo + bs -> srt lo n d -> blocks lo n bs d.
  Proof.
    intros Hbs Hn Hs k Hk Hl. assert (k = 0) by nia. subst k.
    replace (lo + 0 * bs) with lo by lia.
    replace (Z.min n (lo + (0 + 1) * bs)) with n by lia. auto.
  Qed.

  Lemma stableBlocks_spec fuel : forall a n bs (d : T) (s : S),
    0 < bs -> 0 <= a <= n -> n <= zlen d -> n - a < Z.of_nat fuel ->
    wpd (stableBlocks (reads lt) fuel a (a + bs) n bs) (fun a' d' _ =>
      permr a n d d' /\ a <= a' <= n /\ n < a' + bs /\
      (C -> stl d d' /\
            forall d'', permr a' n d' d'' -> srt a' n d'' -> blocks a n bs d'')) d s.
  Proof.
    induction fuel as [|fuel IH]; intros a n bs d s Hbs Ha Hn Hf; [lia|].
    cbn [stableBlocks]. wp1; bools.
    - wp1. eapply wpd_conseq; [apply insertionSort_full; lia|].
      intros _ d1 s1 [Hp1 Hs1]. pose proof (permr_len _ _ _ _ _ Hp1) as HL1.
      eapply wpd_conseq; [apply IH; lia|].
      intros a' d2 s2 (Hp2 & Ha' & Hn' & Hc2). split; [|split; [lia|split; [lia|]]].
      + eapply permr_trans; [eapply permr_weaken; [apply Hp1|lia|lia]|].
        eapply permr_weaken; [apply Hp2|lia|lia].
      + intros HC. destruct (Hs1 HC) as [S1 T1], (Hc2 HC) as [T2 B2].
        split; [eapply stl_trans; eauto|]. intros d'' Hp Hs.
        apply blocks_cons; auto; try lia.
        apply (srt_ext dflt lt ge ltb _ _ d1); auto. intros i Hi.
        rewrite (permr_out dflt _ _ _ _ _ Hp) by lia.
        rewrite (permr_out dflt _ _ _ _ _ Hp2) by lia. auto.
    - wp1. split; [apply permr_refl|split; [lia|split; [lia|]]]. intros HC.
      split; [apply stl_refl|]. intros d'' Hp Hs. apply blocks_last; auto; lia.
  Qed.

  Lemma blocks2 a n bs d k : 0 < bs -> 0 <= k -> blocks a n bs d -> a + k * bs < n ->
    srt (a + k * bs) (Z.min n (a + (k + 1) * bs)) d.
  Proof. intros. apply H1; auto. Qed.

  Lemma mergePass_spec stack fuel : forall a n bs (d : T) (s : S),
    0 < bs -> 0 <= a <= n -> n <= zlen d -> n - a < Z.of_nat fuel ->
    n - 1 < 2 ^ Z.of_nat stack ->
    wpd (mergePass (reads lt) (reads ge) stack fuel a (a + 2 * bs) n bs) (fun a' d' _ =>
      permr a n d d' /\ a <= a' <= n /\ n < a' + 2 * bs /\
      (C -> blocks a n bs d -> stl d d' /\ blocks a' n bs d' /\
            forall d'', permr a' n d' d'' -> srt a' n d'' -> blocks a n (2 * bs) d'')) d s.
  Proof.
    induction fuel as [|fuel IH]; intros a n bs d s Hbs Ha Hn Hf Hst; [lia|].
    cbn [mergePass]. wp1; bools.
    - wp1. eapply wpd_conseq; [apply symMerge_spec; lia|].
      intros _ d1 s1 [Hp1 Hs1]. pose proof (permr_len _ _ _ _ _ Hp1) as HL1.
      eapply wpd_conseq; [apply IH; lia|].
      intros a' d2 s2 (Hp2 & Ha' & Hn' & Hc2). split; [|split; [lia|split; [lia|]]].
      + eapply permr_trans; [eapply permr_weaken; [apply Hp1|lia|lia]|].
        eapply permr_weaken; [apply Hp2|lia|lia].
      + intros HC HB. destruct (Hs1 HC) as [S1 T1].
        { pose proof (HB 0) as B. replace (a + 0 * bs) with a in B by lia.
          replace (Z.min n (a + (0 + 1) * bs)) with (a + bs) in B by lia. apply B; lia. }
        { pose proof (HB 1) as B. replace (a + 1 * bs) with (a + bs) in B by lia.
          replace (Z.min n (a + (1 + 1) * bs)) with (a + 2 * bs) in B by lia. apply B; lia. }
        destruct (Hc2 HC) as (T2 & B2 & B3).
        { apply (blocks_ext _ _ _ d); auto.
          - intros i Hi. symmetry. apply (permr_out dflt _ _ _ _ _ Hp1); lia.
          - replace (a + 2 * bs) with (a + bs + bs) by lia. apply blocks_tail; auto.
            apply blocks_tail; auto. }
        split; [eapply stl_trans; eauto|]. split; auto. intros d'' Hp Hs.
        apply blocks_cons; auto; try lia.
        apply (srt_ext dflt lt ge ltb _ _ d1); auto. intros i Hi.
        rewrite (permr_out dflt _ _ _ _ _ Hp) by lia.
        rewrite (permr_out dflt _ _ _ _ _ Hp2) by lia. auto.
    - wp1. split; [apply permr_refl|split; [lia|split; [lia|]]]. intros HC HB.
      split; [apply stl_refl|]. split; auto. intros d'' Hp Hs. apply blocks_last; auto; lia.
  Qed.

  Lemma mergeLoop_spec stack fuel : forall n bs (d : T) (s : S),
    0 < bs -> 0 <= n -> n <= zlen d -> n <= bs + Z.of_nat fuel - 1 ->
    n - 1 < 2 ^ Z.of_nat stack -> (0 < fuel)%nat ->
    wpd (mergeLoop (reads lt) (reads ge) stack fuel n bs) (fun _ d' _ =>
      permr 0 n d d' /\ (C -> blocks 0 n bs d -> srt 0 n d' /\ stl d d')) d s.
  Proof.
    induction fuel as [|fuel IH]; intros n bs d s Hbs Hn0 Hn Hf Hst Hfu; [lia|].
    cbn [mergeLoop]. wp1; bools.
    - wp1. replace (mergePass (reads lt) (reads ge) stack (Z.to_nat n + 1) 0 (2 * bs) n bs)
        with (mergePass (reads lt) (reads ge) stack (Z.to_nat n + 1) 0 (0 + 2 * bs) n bs) by (f_equal; lia).
      eapply wpd_conseq; [apply mergePass_spec; lia|].
      intros a d1 s1 (Hp1 & Ha & Han & Hc1). pose proof (permr_len _ _ _ _ _ Hp1) as HL1.
      cbv zeta. wp1.
      apply wpd_conseq with (P := fun _ d' _ => permr a n d1 d' /\
        (C -> blocks a n bs d1 -> srt a n d' /\ stl d1 d')).
      { wp1; bools.
        - eapply wpd_conseq; [apply symMerge_spec; lia|].
          intros _ d2 s2 [Hp2 Hs2]. split; auto. intros HC HB. apply Hs2; auto.
          + pose proof (HB 0) as B. replace (a + 0 * bs) with a in B by lia.
            replace (Z.min n (a + (0 + 1) * bs)) with (a + bs) in B by lia. apply B; lia.
          + pose proof (HB 1) as B. replace (a + 1 * bs) with (a + bs) in B by lia.
            replace (Z.min n (a + (1 + 1) * bs)) with n in B by lia. apply B; lia.
        - wp1. split; [apply permr_refl|]. intros HC HB. split; [|apply stl_refl].
          destruct (Z.eq_dec a n) as [->|]; [apply (srt_small dflt lt ge ltb); lia|].
          pose proof (HB 0) as B. replace (a + 0 * bs) with a in B by lia.
          replace (Z.min n (a + (0 + 1) * bs)) with n in B by lia. apply B; lia. }
      intros _ d2 s2 [Hp2 Hs2]. pose proof (permr_len _ _ _ _ _ Hp2) as HL2.
      eapply wpd_conseq; [apply IH; lia|].
      intros _ d3 s3 [Hp3 Hs3]. split.
      + eapply permr_trans; [apply Hp1|]. eapply permr_trans; [|apply Hp3].
        eapply permr_weaken; [apply Hp2|lia|lia].
      + intros HC HB. destruct (Hc1 HC HB) as (T1 & B1 & B2).
        destruct (Hs2 HC B1) as [S2 T2].
        destruct (Hs3 HC) as [S3 T3].
        { replace (bs * 2) with (2 * bs) by lia. apply B2; auto. }
        split; auto. eapply stl_trans; [apply T1|]. eapply stl_trans; eauto.
    - wp1. split; [apply permr_refl|]. intros HC HB. split; [|apply stl_refl].
      destruct (Z.eq_dec n 0) as [->|]; [apply (srt_small dflt lt ge ltb); lia|].
      pose proof (HB 0) as B. replace (0 + 0 * bs) with 0 in B by lia.
      replace (Z.min n (0 + (0 + 1) * bs)) with n in B by lia. apply B; lia.
  Qed.

  Lemma stable_spec stack n (d : T) (s : S) :
    0 <= n -> n <= zlen d -> n - 1 < 2 ^ Z.of_nat stack ->
    wpd (stable (reads lt) (reads ge) stack n) (fun _ d' _ =>
      permr 0 n d d' /\ (C -> srt 0 n d' /\ stl d d')) d s.
  Proof.
    intros Hn0 Hn Hst. unfold stable. wp1.
    replace (stableBlocks (reads lt) (Z.to_nat n + 1) 0 20 n 20)
      with (stableBlocks (reads lt) (Z.to_nat n + 1) 0 (0 + 20) n 20) by reflexivity.
    eapply wpd_conseq; [apply stableBlocks_spec; lia|].
    intros a d1 s1 (Hp1 & Ha & Han & Hc1). pose proof (permr_len _ _ _ _ _ Hp1) as HL1.
    wp1. eapply wpd_conseq; [apply insertionSort_full; lia|].
    intros _ d2 s2 [Hp2 Hs2]. pose proof (permr_len _ _ _ _ _ Hp2) as HL2.
    eapply wpd_conseq; [apply mergeLoop_spec; lia|].
    intros _ d3 s3 [Hp3 Hs3]. split.
    - eapply permr_trans; [apply Hp1|]. eapply permr_trans; [|apply Hp3].
      eapply permr_weaken; [apply Hp2|lia|lia].
    - intros HC. destruct (Hc1 HC) as (T1 & B1), (Hs2 HC) as [S2 T2].
      destruct (Hs3 HC) as [S3 T3]; [apply B1; auto|].
      split; auto. eapply stl_trans; [apply T1|]. eapply stl_trans; eauto.
  Qed.

  Lemma stable_run stack (d : T) (s : S) : (0 < stack)%nat -> zlen d < 2 ^ Z.of_nat stack ->
    exists r d' s', stable (reads lt) (reads ge) stack (zlen d) (d, s) = (r, (d', s')) /\
      ((exists e, r = CUser e) \/
       r = CRet tt /\ Permutation d d' /\ (C -> sorted_by ltb d' /\ keeps_equiv_order ltb d d')).
  Proof.
    intros Hst0 Hst. pose proof (zlen_nonneg d).
    pose proof (stable_spec stack (zlen d) d s
      ltac:(lia) ltac:(lia) ltac:(lia)) as Hs.
    unfold wpd in Hs.
    destruct (stable _ _ _ _ (d, s)) as [[[]| | |e] [d' s']]; try contradiction.
    2: { exists (CUser e), d', s'. split; [auto|left; eauto]. }
    destruct Hs as [Hp HC]. exists (CRet tt), d', s'. split; [auto|right]. split; [auto|split; [apply Hp|]].
    intros Hc. destruct (HC Hc) as [Hs Ht]. split.
    - apply (srt_sorted_by dflt lt ge ltb). now rewrite (permr_len _ _ _ _ _ Hp).
    - apply stl_filter; auto. apply Hc.
  Qed.
End Stab.

Lemma stable_total_run {E S} (lt ge : comparatorP E S) (dflt : E) (ltb : E -> E -> bool) stack (d : list E) (s : S) :
  (forall d x y s, exists b, fst (lt d x y s) = inl b) -> (forall d x y s, exists b, fst (ge d x y s) = inl b) ->
  (0 < stack)%nat -> zlen d < 2 ^ Z.of_nat stack ->
  exists d' s', plain (stable (reads lt) (reads ge) stack (zlen d) (d, s)) = Ok (d', s') /\
    Permutation d d' /\ (C lt ge ltb -> sorted_by ltb d' /\ keeps_equiv_order ltb d d').
Proof.
  intros Hlt Hge Hst Hen.
  destruct (stable_run dflt lt ge ltb stack d s Hst Hen) as (r & d' & s' & Hr & [[e ->]|(-> & Hp & Hs)]).
  - exfalso. eapply no_user; [exact Hlt|exact Hge| |exact Hr]. now apply good_stable.
  - exists d', s'. rewrite Hr. auto.
Qed.

Lemma StableWithin_run {E S} stack (less : comparator E S) (lt : E -> E -> bool) (d : list E) (s : S) :
  (0 < stack)%nat -> zlen d < 2 ^ Z.of_nat stack ->
  exists d' s', StableWithin stack d less s = Ok (d', s') /\ Permutation d d' /\
    (strict_weak_order lt -> answers less lt -> sorted_by lt d' /\ keeps_equiv_order lt d d').
Proof.
  intros Hst Hen. destruct d as [|x d0].
  - destruct stack; [lia|]. exists [], s. split; [reflexivity|]. split; [constructor|].
    intros _ _. split; [|intros z; reflexivity].
    intros i j u v _ Hn. destruct i; discriminate Hn.
  - unfold StableWithin, StablePWithin, StableWWithin. set (d := x :: d0) in *.
    destruct (stable_total_run (always less) (notLessP (always less)) x lt stack d s
      (always_total less) (notLess_total less) Hst Hen) as (d' & s' & Hr & Hp & Hs).
    exists d', s'. split; [auto|split; [auto|]]. intros HW Ha. apply Hs. now apply always_C.
Qed.

Lemma Stable_run {E S} (less : comparator E S) (lt : E -> E -> bool) (d : list E) (s : S) :
  exists d' s', Stable d less s = Ok (d', s') /\ Permutation d d' /\
    (strict_weak_order lt -> answers less lt -> sorted_by lt d' /\ keeps_equiv_order lt d d').
Proof. apply StableWithin_run; [lia|]. apply pow2_S_gt. Qed.

Section Mono.
  Context {E S : Type} (lt ge : comparatorW E S).

  Lemma symMerge_mono1 k : forall a m b, ext (symMerge lt ge k a m b) (symMerge lt ge (Datatypes.S k) a m b).
  Proof.
    induction k as [|k IH]; intros a m b.
    - intros x r y Hr H. injection H as <- _. congruence.
    - cbn [symMerge]. apply ext_if; [apply ext_refl|]. apply ext_if; [apply ext_refl|].
      cbv zeta. destruct (if m >? half a b then _ else _) as [st0 r0].
      apply ext_bind; [apply ext_refl|intros start].
      apply ext_bind; [apply ext_refl|intros _].
      apply ext_bind; [|intros _]; (apply ext_if; [apply IH|apply ext_refl]).
  Qed.

  Lemma mergePass_mono1 k fuel : forall a b n bs,
    ext (mergePass lt ge k fuel a b n bs) (mergePass lt ge (Datatypes.S k) fuel a b n bs).
  Proof.
    induction fuel as [|fuel IH]; intros; cbn [mergePass]; [apply ext_refl|].
    apply ext_if; [|apply ext_refl].
    apply ext_bind; [apply symMerge_mono1|intros _]. apply IH.
  Qed.

  Lemma mergeLoop_mono1 k fuel : forall n bs,
    ext (mergeLoop lt ge k fuel n bs) (mergeLoop lt ge (Datatypes.S k) fuel n bs).
  Proof.
    induction fuel as [|fuel IH]; intros; cbn [mergeLoop]; [apply ext_refl|].
    apply ext_if; [|apply ext_refl].
    apply ext_bind; [apply mergePass_mono1|intros a]. cbv zeta.
    apply ext_bind; [|intros _; apply IH].
    apply ext_if; [apply symMerge_mono1|apply ext_refl].
  Qed.

  Lemma stable_mono1 k n : ext (stable lt ge k n) (stable lt ge (Datatypes.S k) n).
  Proof.
    unfold stable. cbv zeta. apply ext_bind; [apply ext_refl|intros a].
    apply ext_bind; [apply ext_refl|intros _]. apply mergeLoop_mono1.
  Qed.

  Lemma stable_mono k k' : (k <= k')%nat -> forall n, ext (stable lt ge k n) (stable lt ge k' n).
  Proof.
    induction 1 as [|k' Hk IH]; intros; [apply ext_refl|].
    intros x r y Hr Hx. apply stable_mono1; [exact Hr|]. now apply IH.
  Qed.
End Mono.

Lemma StableWithin_log2 {E S} (less : comparator E S) (d : list E) (s : S) stack :
  Z.log2 (zlen d) + 1 <= Z.of_nat stack ->
  StableWithin stack d less s = Stable d less s /\ exists r, Stable d less s = Ok r.
Proof.
  intros Hs. destruct (log2_frames (zlen d) stack (zlen_nonneg d) Hs) as [H0 Hlt].
  destruct (StableWithin_run stack less (fun _ _ => true) d s H0 Hlt) as (d1 & s1 & H1 & _).
  destruct (Stable_run less (fun _ _ => true) d s) as (d2 & s2 & H2 & _).
  split; [|eauto]. rewrite H1, H2. change (Stable d less s) with (StableWithin (Datatypes.S (List.length d)) d less s) in H2.
  destruct (Nat.le_ge_cases stack (Datatypes.S (List.length d))) as [Hle|Hle].
  - rewrite <- H2. symmetry. unfold StableWithin, StablePWithin, StableWWithin in *.
    change (notLessW (reads (always less))) with (reads (notLessP (always less))) in *.
    eapply plain_ext; [apply stable_mono; apply Hle|exact H1].
  - rewrite <- H1. unfold StableWithin, StablePWithin, StableWWithin in *.
    change (notLessW (reads (always less))) with (reads (notLessP (always less))) in *.
    eapply plain_ext; [apply stable_mono; apply Hle|exact H2].
Qed.

Lemma StableOrdered_run {E} (ltb geb : E -> E -> bool) (d : list E) :
  exists d', StableOrdered ltb geb d = Ok d' /\ Permutation d d' /\
    (strict_weak_order ltb -> (forall x y, geb x y = negb (ltb x y)) ->
     sorted_by ltb d' /\ keeps_equiv_order ltb d d').
Proof.
  destruct d as [|x d0].
  - exists []. split; [reflexivity|]. split; [constructor|].
    intros _ _. split; [|intros z; reflexivity].
    intros i j u v _ Hn. destruct i; discriminate Hn.
  - unfold StableOrdered. set (d := x :: d0).
    destruct (stable_total_run (always (pureCmp ltb)) (always (pureCmp geb)) x ltb (Datatypes.S (List.length d)) d tt
      (always_total _) (always_total _) ltac:(lia) (pow2_S_gt _)) as (d' & s' & Hr & Hp & Hs).
    exists d'. split; [now rewrite Hr|split; [auto|]]. intros HW Hg. apply Hs. now apply pure_C.
Qed.
