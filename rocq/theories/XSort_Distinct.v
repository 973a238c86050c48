(** Proofs about xsort: Sort of data with few distinct elements. *)
From Coq Require Import Permutation.
From Verif Require Import Base Arr XSort_Model XSort_Spec XSort_CostSpec XSort_Panic XSort_Proofs XSort_Pdq XSort_Stab XSort_Cost.
Local Open Scope cb_scope.

Section Count.
  Context {E : Type}.
  Definition many (f : E -> bool) (l : list E) : Z := zlen (filter f l).

  Lemma many_nonneg f l : 0 <= many f l.
  Proof. apply zlen_nonneg. Qed.
  Lemma many_cons f x l : many f (x :: l) = (if f x then 1 else 0) + many f l.
  Proof. unfold many. cbn [filter]. destruct (f x); rewrite ?zlen_cons; lia. Qed.
  Lemma many_le f g l : (forall x, In x l -> f x = true -> g x = true) -> many f l <= many g l.
  Proof.
    induction l as [|x l IH]; intros H; [cbn; lia|]. rewrite !many_cons.
    specialize (IH ltac:(intros; apply H; [now right|auto])). specialize (H x (or_introl eq_refl)).
    destruct (f x); [rewrite H by auto|destruct (g x)]; lia.
  Qed.
  Lemma many_lt f g l r : (forall x, In x l -> f x = true -> g x = true) ->
    In r l -> f r = false -> g r = true -> many f l <= many g l - 1.
  Proof.
    induction l as [|x l IH]; intros H Hr Hf Hg; [destruct Hr|]. rewrite !many_cons.
    assert (H' : forall x, In x l -> f x = true -> g x = true) by (intros; apply H; [now right|auto]).
    destruct Hr as [->|Hr].
    - rewrite Hf, Hg. pose proof (many_le f g l H'). lia.
    - specialize (IH H' Hr Hf Hg). specialize (H x (or_introl eq_refl)).
      destruct (f x); [rewrite H by auto|destruct (g x)]; lia.
  Qed.
  Lemma many_filter f g l : many f (filter g l) = many (fun x => g x && f x) l.
  Proof.
    induction l as [|x l IH]; [reflexivity|]. cbn [filter]. rewrite many_cons.
    destruct (g x); cbn [andb]; [rewrite many_cons|]; lia.
  Qed.
  Lemma many_all l : many (fun _ => true) l = zlen l.
  Proof. unfold many. f_equal. induction l as [|x l IH]; [reflexivity|]. cbn. now rewrite IH. Qed.
End Count.

Section Few.
  Context {E : Type}.
  Variable dflt : E.
  Variable lt ge : list E -> E -> E -> Z -> (bool + string) * Z.
  Variable ltb : E -> E -> bool.
  Hypothesis HC : C lt ge ltb.
  Hypothesis Hlt : forall d x y s, snd (lt d x y s) = s + 1.
  Hypothesis Hge : forall d x y s, snd (ge d x y s) = s + 1.
  Local Notation "d .[ i ]" := (at_ dflt d i) (at level 2, format "d .[ i ]").
  Local Notation leE := (le ltb).
  Local Notation permr := (permr dflt).
  Local Notation swp := (swp dflt).
  Local Notation bounded := (bounded dflt ltb).
  Local Notation T := (list E).

  Ltac wp1 :=
    match goal with
    | |- wpd (ltAt _ _ _) _ _ _ => apply (cost_ltAt dflt lt ge ltb HC Hlt); [try lia|try lia|intros ? ?]
    | |- wpd (geAt _ _ _) _ _ _ => apply (cost_geAt dflt lt ge ltb HC Hge); [try lia|try lia|intros ? ?]
    | _ => wp1_ dflt lt ge ltb
    end.

  Lemma lt_le_trans_ x y z : ltb x y = true -> ltb z y = false -> ltb x z = true.
  Proof.
    intros H1 H2. destruct (ltb x z) eqn:H3; [auto|]. exfalso.
    destruct HC as (HW & _). destruct (ltb z x) eqn:H4.
    - assert (ltb z y = true) by (eapply swo_trans; eauto). congruence.
    - destruct (ltb y z) eqn:H5.
      + assert (ltb x z = true) by (eapply swo_trans; eauto). congruence.
      + destruct (swo_incomp _ HW x z y) as [H6 _]; auto. congruence.
  Qed.
  Lemma le_lt_trans_ x y z : ltb y x = false -> ltb y z = true -> ltb x z = true.
  Proof. intros H1 H2. apply (le_lt_trans ltb (proj1 HC)) with y; auto. Qed.

  (** Every element of the range is equivalent to one of [L]. *)
  Definition covers (L : list E) (a b : Z) (d : T) : Prop :=
    forall k, a <= k < b -> exists r, In r L /\ ltb r d.[k] = false /\ ltb d.[k] r = false.
  (** The members of [L] above the range's left neighbour. *)
  Definition above (L : list E) (a : Z) (d : T) : Z :=
    if 0 <? a then many (fun r => ltb d.[a - 1] r) L else zlen L.
  Definition height (L : list E) (a : Z) (d : T) : Z := zlen L + above L a d.

  Lemma above_nonneg L a d : 0 <= above L a d.
  Proof. unfold above. destruct (0 <? a); [apply many_nonneg|apply zlen_nonneg]. Qed.
  Lemma height_nonneg L a d : 0 <= height L a d.
  Proof. unfold height. pose proof (above_nonneg L a d). pose proof (zlen_nonneg L). lia. Qed.
  Lemma above_pos L a d : 0 < a -> above L a d = many (fun r => ltb d.[a - 1] r) L.
  Proof. intros H. unfold above. destruct (Z.ltb_spec 0 a); [auto|lia]. Qed.

  Lemma covers_permr L a b d d' : 0 <= a -> b <= zlen d -> permr a b d d' -> covers L a b d -> covers L a b d'.
  Proof.
    intros Ha Hb Hp Hc k Hk.
    apply (permr_forall dflt a b d d' (fun x => exists r, In r L /\ ltb r x = false /\ ltb x r = false)); auto; lia.
  Qed.
  Lemma height_permr L a b d d' : 0 <= a -> permr a b d d' -> height L a d' = height L a d.
  Proof.
    intros Ha Hp. unfold height, above. destruct (Z.ltb_spec 0 a); [|auto].
    now rewrite (permr_out dflt _ _ _ _ (a - 1) Hp) by lia.
  Qed.

  (** Left of the pivot. *)
  Lemma left_height L a b m d : 0 <= a <= m -> m < b -> covers L a b d ->
    (forall k, a <= k < m -> ltb d.[k] d.[m] = true) -> (0 < a -> ltb d.[a - 1] d.[m] = true) ->
    exists L', covers L' a m d /\ height L' a d <= height L a d - 1.
  Proof.
    intros Ha Hm Hc HL Hp. destruct (Hc m ltac:(lia)) as (r & Hr & Hr1 & Hr2).
    exists (filter (fun r => ltb r d.[m]) L). split.
    - intros k Hk. destruct (Hc k ltac:(lia)) as (q & Hq & Hq1 & Hq2). exists q.
      split; [|auto]. apply filter_In. split; [auto|]. apply le_lt_trans_ with d.[k]; auto.
    - unfold height.
      assert (H1 : zlen (filter (fun r => ltb r d.[m]) L) <= zlen L - 1).
      { rewrite <- (many_all L). change (zlen (filter ?f L)) with (many f L). apply (many_lt _ _ _ r); auto. }
      assert (H2 : above (filter (fun r => ltb r d.[m]) L) a d <= above L a d).
      { unfold above. destruct (0 <? a); [|lia]. rewrite many_filter. apply many_le.
        intros x _ H. apply andb_true_iff in H. tauto. }
      lia.
  Qed.

  (** Right of the pivot. *)
  Lemma right_height L a b m d : 0 <= a <= m -> m < b -> covers L a b d ->
    (forall k, m < k < b -> ltb d.[k] d.[m] = false) -> (0 < a -> ltb d.[a - 1] d.[m] = true) ->
    exists L', covers L' (m + 1) b d /\ height L' (m + 1) d <= height L a d - 1.
  Proof.
    intros Ha Hm Hc HR Hp. destruct (Hc m ltac:(lia)) as (r & Hr & Hr1 & Hr2).
    exists L. split.
    - intros k Hk. apply Hc. lia.
    - unfold height. rewrite (above_pos L (m + 1)) by lia. replace (m + 1 - 1) with m by lia.
      assert (many (fun r => ltb d.[m] r) L <= above L a d - 1); [|lia].
      unfold above. destruct (Z.ltb_spec 0 a) as [H0|H0].
      + specialize (Hp H0). apply (many_lt _ _ _ r); auto.
        * intros x _ H. destruct HC as (HW & _). eapply swo_trans; eauto.
        * apply lt_le_trans_ with d.[m]; auto.
      + rewrite <- (many_all L). apply (many_lt _ _ _ r); auto.
  Qed.

  (** Right of the elements that are equivalent to the left neighbour. *)
  Lemma equal_height L a b m d : 0 < a < m -> m <= b -> covers L a b d ->
    (forall k, a <= k < m -> ltb d.[k] d.[a] = false /\ ltb d.[a] d.[k] = false) ->
    (forall k, m <= k < b -> ltb d.[a] d.[k] = true) ->
    ltb d.[a] d.[a - 1] = false ->
    exists L', covers L' m b d /\ height L' m d <= height L a d - 1.
  Proof.
    intros Ha Hm Hc Heq Hgt Hle. destruct (Hc a ltac:(lia)) as (r & Hr & Hr1 & Hr2).
    exists (filter (fun r => ltb d.[a] r) L). split.
    - intros k Hk. destruct (Hc k ltac:(lia)) as (q & Hq & Hq1 & Hq2). exists q.
      split; [|auto]. apply filter_In. split; [auto|]. apply lt_le_trans_ with d.[k]; auto.
    - unfold height. rewrite (above_pos _ m), (above_pos _ a) by lia.
      assert (H1 : zlen (filter (fun r => ltb d.[a] r) L) <= zlen L - 1).
      { rewrite <- (many_all L). change (zlen (filter ?f L)) with (many f L). apply (many_lt _ _ _ r); auto. }
      assert (H2 : many (fun r => ltb d.[m - 1] r) (filter (fun r => ltb d.[a] r) L) <= many (fun r => ltb d.[a - 1] r) L).
      { rewrite many_filter. apply many_le. intros x _ H. apply andb_true_iff in H. destruct H as [H _].
        apply le_lt_trans_ with d.[a]; auto. }
      lia.
  Qed.

  (** The element that partition leaves in the middle is the pivot. *)
  Lemma partition_pivot a b pivot (d : T) (s : Z) :
    0 <= a -> a + 1 < b -> b <= zlen d -> a <= pivot < b ->
    wpd (partition (reads lt) (reads ge) a b pivot) (fun r d' _ => d'.[fst r] = d.[pivot]) d s.
  Proof.
    intros Ha Hab Hb Hp. unfold partition. wp1. wp1. cbv zeta. wp1.
    eapply wpd_conseq; [apply (advI_spec dflt lt ge ltb); unfold scanFuel; rewrite ?zlen_swp; lia|].
    intros i d1 s1 (-> & Hi1 & Hi2 & Hi3). wp1.
    eapply wpd_conseq; [apply (advJ_spec dflt lt ge ltb); unfold scanFuel; rewrite ?zlen_swp; lia|].
    intros j d1 s2 (-> & Hj1 & Hj2 & Hj3).
    assert (H0 : (swp d a pivot).[a] = d.[pivot]) by (rewrite at_swp by lia; destruct (Z.eqb_spec a a), (Z.eqb_spec a pivot); congruence).
    pose proof (zlen_swp dflt d a pivot) as HL0.
    set (d0 := swp d a pivot) in *. clearbody d0. rewrite <- H0.
    wp1; bools.
    - wp1. wp1. wp1. cbn. rewrite at_swp by lia. rewrite Z.eqb_refl. destruct (Z.eqb_spec j a); congruence.
    - wp1. wp1. wp1.
      eapply wpd_conseq; [apply (partitionLoop_spec dflt lt ge ltb _ _ _ a b); unfold scanFuel; rewrite ?zlen_swp; lia|].
      intros j2 d2 s3 (Hp2 & Hr & _). pose proof (permr_len _ _ _ _ _ Hp2) as HL2.
      rewrite zlen_swp in HL2. wp1. wp1. wp1. cbn.
      assert (Ha2 : d2.[a] = d0.[a]).
      { rewrite (permr_out dflt _ _ _ _ a Hp2) by lia.
        rewrite at_swp by lia. destruct (Z.eqb_spec a i), (Z.eqb_spec a j); try lia; auto. }
      rewrite at_swp by lia. rewrite Z.eqb_refl. destruct (Z.eqb_spec j2 a); congruence.
  Qed.

  Definition cheap (a b lim : Z) (m : CM (@XSort_Model.st E Z) unit) : Prop :=
    forall d s L, b <= zlen d -> bounded a b d -> covers L a b d -> height L a d < lim ->
      wpd m (fun _ d' s' => s' <= s + 15 * (b - a) * (height L a d + 1)) d s.

  Lemma pdqLoop_few self fuel : forall a b limit wb wp L (d : T) (s : Z),
    0 <= a <= b -> b <= zlen d ->
    (forall a' b' lim, a <= a' <= b' -> b' <= b -> 2 * (b' - a') <= b - a ->
       (12 < b - a) -> sorts dflt lt ge ltb a' b' (self a' b' lim)) ->
    (forall a' b' lim, a <= a' <= b' -> b' <= b -> 2 * (b' - a') <= b - a ->
       (12 < b - a) -> cheap a' b' lim (self a' b' lim)) ->
    b - a < Z.of_nat fuel -> bounded a b d -> covers L a b d -> height L a d < limit ->
    wpd (pdqLoop (reads lt) (reads ge) self fuel a b limit wb wp) (fun _ d' s' =>
      s' <= s + 15 * (b - a) * (height L a d + 1)) d s.
  Proof.
    induction fuel as [|fuel IH]; intros a b limit wb wp L d s Ha Hb Hself Hcost Hf Hbd Hcov Hlim; [lia|].
    pose proof (height_nonneg L a d) as Hh.
    cbn [pdqLoop]. cbv zeta. wp1; bools.
    { eapply wpd_conseq; [apply (insertionSort_cost dflt lt ge ltb HC Hlt Hge); lia|].
      intros ? d' s' Hs. cbn beta in Hs.
      assert ((b - a) * (b - a) <= 12 * (b - a)) by nia. nia. }
    wp1; bools.
    { lia. }
    wp1. apply wpd_conseq with (P := fun _ d' s' => permr a b d d' /\ s' = s).
    { wp1.
      - apply wpd_and; [apply (breakPatterns_spec dflt lt ge ltb); lia|apply (breakPatterns_cost dflt lt ge ltb Hlt Hge); lia].
      - wp1. split; [apply permr_refl|auto]. }
    intros ? d1 s1 [Hp1 ->]. pose proof (permr_len _ _ _ _ _ Hp1) as HL1.
    wp1. eapply wpd_conseq; [apply wpd_and;
      [apply (choosePivot_spec dflt lt ge ltb); lia|apply (choosePivot_cost dflt lt ge ltb HC Hlt Hge); lia]|].
    intros [pivot hint] ? s2 [[-> Hpiv] Hc2]. cbn in Hpiv. wp1.
    apply wpd_conseq with (P := fun r d' s' => (permr a b d1 d' /\ a <= fst r < b) /\ s' = s2).
    { destruct hint.
      1, 2: wp1; split; [split; [apply permr_refl|cbn; lia]|auto].
      wp1. eapply wpd_conseq; [apply wpd_and;
        [apply (reverseRange_spec dflt lt ge ltb a b); lia
        |unfold reverseRange; apply (reverseLoop_cost dflt lt ge ltb Hlt Hge); lia]|].
      intros ? d2 s3 [Hp ->]. wp1. split; [split; [auto|cbn; lia]|auto]. }
    intros [pivot2 hint2] d2 s3 [[Hp2 Hpiv2] ->]. cbn in Hpiv2. cbn iota.
    pose proof (permr_len _ _ _ _ _ Hp2) as HL2. rewrite HL1 in HL2. clear hint pivot Hpiv.
    assert (Hp02 : permr a b d d2) by (eapply permr_trans; eauto).
    clear d1 Hp1 HL1 Hp2.
    assert (Hbd2 : bounded a b d2) by (apply (bounded_permr dflt lt ge ltb a b d d2); auto; lia).
    wp1.
    apply wpd_conseq with (P := fun r d' s' => (permr 0 b d2 d' /\
      (C lt ge ltb -> bounded a b d2 -> permr a b d2 d' /\ (r = true -> srt dflt ltb a b d'))) /\
      s' <= s2 + 12 * (b - a)).
    { wp1.
      - apply wpd_and; [apply (partialInsertionSort_spec dflt lt ge ltb); lia
                       |apply (partialInsertionSort_cost dflt lt ge ltb HC Hlt Hge); auto; lia].
      - wp1. split; [split; [apply permr_refl|]|lia]. intros; split; [apply permr_refl|discriminate]. }
    intros done d3 s4 [[_ Hs3] Hc4]. destruct (Hs3 HC Hbd2) as [Hp3 _]. clear Hs3.
    pose proof (permr_len _ _ _ _ _ Hp3) as HL3.
    assert (Hp03 : permr a b d d3) by (eapply permr_trans; eauto).
    assert (Hbd3 : bounded a b d3) by (apply (bounded_permr dflt lt ge ltb a b d d3); auto; lia).
    clear Hp3 Hp02 Hbd2. wp1.
    { wp1. nia. }
    wp1. apply wpd_conseq with (P := fun r d' s' => (d' = d3 /\
      (r = true -> 0 < a /\ leE d3.[pivot2] d3.[a - 1]) /\
      (r = false -> 0 < a -> ltb d3.[a - 1] d3.[pivot2] = true)) /\ s' <= s4 + 1).
    { wp1.
      - bools. wp1. split; [|lia]. split; [auto|]. unfold le. split; intros ->; cbn in *; auto.
      - split; [|lia]. bools. split; [auto|]. split; [discriminate|lia]. }
    intros eq ? s5 [(-> & Hq & Hnq) Hc5].
    set (lim' := if negb wb then limit - 1 else limit).
    assert (Hlim' : limit - 1 <= lim') by (unfold lim'; destruct wb; cbn [negb]; lia).
    wp1.
    - (* partitionEqual *)
      destruct (Hq H2) as [Ha0 Hle]. wp1.
      eapply wpd_conseq; [apply wpd_and;
        [apply (partitionEqual_spec dflt lt ge ltb); lia|apply (partitionEqual_cost dflt lt ge ltb HC Hlt Hge); lia]|].
      intros m d4 s6 [(Hp4 & Hm & Hd4 & Hs4) Hc6]. pose proof (permr_len _ _ _ _ _ Hp4) as HL4.
      destruct (Hs4 HC) as [Heq Hgt].
      assert (Hp04 : permr a b d d4) by (eapply permr_trans; eauto).
      assert (Hbd4 : bounded a b d4) by (apply (bounded_permr dflt lt ge ltb a b d3 d4); auto; lia).
      assert (Hcov4 : covers L a b d4) by (apply (covers_permr L a b d); auto; lia).
      rewrite <- (height_permr L a b d d4 ltac:(lia) Hp04) in *.
      assert (Hpa : leE d4.[a] d4.[a - 1]).
      { rewrite Hd4, (permr_out dflt _ _ _ _ (a - 1) Hp4) by lia. exact Hle. }
      assert (Hall : forall k, a <= k < b -> leE d4.[a] d4.[k]).
      { intros k Hk. apply (le_trans ltb (proj1 HC)) with d4.[a - 1]; auto. }
      destruct (equal_height L a b m d4) as (L' & HcL & HhL); auto; try lia.
      { intros k Hk. split; [apply Hall|apply Heq]; lia. }
      { apply Hbd4; lia. }
      eapply wpd_conseq.
      { apply (IH m b lim' wb wp L'); try lia; auto.
        - intros; apply Hself; lia.
        - intros; apply Hcost; lia.
        - intros Hm0 k Hk. apply lt_le; [apply HC|]. apply (le_lt_trans ltb (proj1 HC)) with d4.[a]; [apply Heq; lia|apply Hgt; lia]. }
      intros ? d5 s7 Hs7. cbn beta in Hs7.
      pose proof (height_nonneg L' m d4). nia.
    - (* partition *)
      wp1. eapply wpd_conseq; [apply wpd_and; [apply wpd_and; [apply partition_pivot; lia|]|];
        [apply (partition_spec dflt lt ge ltb); lia|apply (partition_cost dflt lt ge ltb HC Hlt Hge); lia]|].
      intros [m al] d4 s6 [[Hpv (Hp4 & Hm & Hs4)] Hc6]. cbn in Hm, Hs4, Hpv. cbn iota.
      specialize (Hs4 HC). pose proof (permr_len _ _ _ _ _ Hp4) as HL4.
      assert (Hbd4 : bounded a b d4) by (apply (bounded_permr dflt lt ge ltb a b d3 d4); auto; lia).
      assert (Hp04 : permr a b d d4) by (eapply permr_trans; eauto).
      assert (Hcov4 : covers L a b d4) by (apply (covers_permr L a b d); auto; lia).
      rewrite <- (height_permr L a b d d4 ltac:(lia) Hp04) in *.
      assert (Hpm : 0 < a -> ltb d4.[a - 1] d4.[m] = true).
      { intros Ha0. rewrite Hpv, (permr_out dflt _ _ _ _ (a - 1) Hp4) by lia. apply Hnq; auto. }
      destruct (left_height L a b m d4) as (L1 & HcL1 & HhL1); auto; try lia.
      { intros; apply Hs4; lia. }
      destruct (right_height L a b m d4) as (L2 & HcL2 & HhL2); auto; try lia.
      { intros; apply Hs4; lia. }
      pose proof (height_nonneg L1 a d4) as HN1. pose proof (height_nonneg L2 (m + 1) d4) as HN2.
      wp1; bools.
      + wp1. eapply wpd_conseq; [apply wpd_and;
          [apply (Hself a m); lia|apply (Hcost a m lim'); auto; try lia]|].
        { apply (bounded_sub dflt lt ge ltb a m b); auto; lia. }
        { exact HcL1. }
        { lia. }
        intros ? d5 s7 [[_ Hs5] Hc7]. destruct (Hs5 HC) as [Hp5 _].
        { apply (bounded_sub dflt lt ge ltb a m b); auto; lia. }
        pose proof (permr_len _ _ _ _ _ Hp5) as HL5.
        assert (Hpt5 : parted dflt ltb a m b d5) by (apply (parted_permrL dflt lt ge ltb a m b d4); auto; lia).
        assert (HcL2' : covers L2 (m + 1) b d5).
        { intros k Hk. rewrite (permr_out dflt _ _ _ _ k Hp5) by lia. apply HcL2; lia. }
        assert (Hhe : height L2 (m + 1) d5 = height L2 (m + 1) d4).
        { unfold height. rewrite !above_pos by lia. now rewrite (permr_out dflt _ _ _ _ (m + 1 - 1) Hp5) by lia. }
        eapply wpd_conseq.
        { apply (IH (m + 1) b lim' _ al L2); try lia; auto.
          - intros; apply Hself; lia.
          - intros; apply Hcost; lia.
          - intros _ k Hk. replace (m + 1 - 1) with m by lia. apply Hpt5. lia. }
        intros ? d6 s8 Hs8. cbn beta in Hs8. rewrite Hhe in Hs8.
        set (h := height L a d4) in *. set (h1 := height L1 a d4) in *. set (h2 := height L2 (m + 1) d4) in *. clearbody h h1 h2.
        assert ((m - a) * (h1 + 1) <= (m - a) * h) by nia.
        assert ((b - (m + 1)) * (h2 + 1) <= (b - (m + 1)) * h) by nia. nia.
      + wp1. eapply wpd_conseq; [apply wpd_and;
          [apply (Hself (m + 1) b); lia|apply (Hcost (m + 1) b lim'); auto; try lia]|].
        { intros _ k Hk. replace (m + 1 - 1) with m by lia. apply Hs4. lia. }
        { exact HcL2. }
        { lia. }
        intros ? d5 s7 [[_ Hs5] Hc7]. destruct (Hs5 HC) as [Hp5 _].
        { intros _ k Hk. replace (m + 1 - 1) with m by lia. apply Hs4. lia. }
        pose proof (permr_len _ _ _ _ _ Hp5) as HL5.
        assert (Hbd5 : bounded a b d5).
        { apply (bounded_permr dflt lt ge ltb a b d4 d5); auto; try lia.
          eapply permr_weaken; [apply Hp5|lia|lia]. }
        assert (HcL1' : covers L1 a m d5).
        { intros k Hk. rewrite (permr_out dflt _ _ _ _ k Hp5) by lia. apply HcL1; lia. }
        assert (Hhe : height L1 a d5 = height L1 a d4).
        { unfold height, above. destruct (Z.ltb_spec 0 a); [|auto]. now rewrite (permr_out dflt _ _ _ _ (a - 1) Hp5) by lia. }
        eapply wpd_conseq.
        { apply (IH a m lim' _ al L1); try lia; auto.
          - intros; apply Hself; lia.
          - intros; apply Hcost; lia.
          - apply (bounded_sub dflt lt ge ltb a m b); auto; lia. }
        intros ? d6 s8 Hs8. cbn beta in Hs8. rewrite Hhe in Hs8.
        set (h := height L a d4) in *. set (h1 := height L1 a d4) in *. set (h2 := height L2 (m + 1) d4) in *. clearbody h h1 h2.
        assert ((m - a) * (h1 + 1) <= (m - a) * h) by nia.
        assert ((b - (m + 1)) * (h2 + 1) <= (b - (m + 1)) * h) by nia. nia.
  Qed.

  Lemma pdqsort_few stack : forall a b limit,
    (0 < stack)%nat -> b - a < 2 ^ Z.of_nat stack -> 0 <= a <= b ->
    cheap a b limit (pdqsort (reads lt) (reads ge) stack a b limit).
  Proof.
    induction stack as [|stack IH]; intros a b limit Hst Hlen Ha; [lia|].
    intros d s L Hb Hbd Hcov Hh. cbn [pdqsort].
    assert (Hstk : 12 < b - a -> (0 < stack)%nat)
      by (intros; destruct stack; [cbn in Hlen; lia|lia]).
    rewrite Nat2Z.inj_succ, Z.pow_succ_r in Hlen by lia.
    apply pdqLoop_few; try lia; auto.
    - intros a' b' lim Ha' Hb' Hhalf Hbig. apply (pdqsort_spec dflt lt ge ltb); auto; lia.
    - intros a' b' lim Ha' Hb' Hhalf Hbig. apply IH; auto; lia.
  Qed.
End Few.

Lemma Sort_few {E} (lt : E -> E -> bool) (d : list E) k :
  strict_weak_order lt -> at_most_kinds lt k d ->
  exists d' c, Sort d (fun x y c => (lt x y, c + 1)) 0 = Ok (d', c) /\ c <= 2000 * zlen d * k.
Proof.
  intros HW (L & HLk & HL). destruct d as [|x d0].
  { exists [], 0. split; [reflexivity|]. change (zlen []) with 0. lia. }
  set (d := x :: d0) in *.
  assert (Hn : 0 < zlen d) by (unfold d; rewrite zlen_cons; pose proof (zlen_nonneg d0); lia).
  assert (Hk : 0 < k).
  { destruct (HL x (or_introl eq_refl)) as (r & Hr & _). destruct L as [|r0 L]; [destruct Hr|].
    rewrite <- HLk, zlen_cons. pose proof (zlen_nonneg L). lia. }
  destruct (Z.lt_ge_cases (2 * k) (bitsLen (zlen d))) as [Hc|Hc].
  - set (less := fun x y c => (lt x y, c + 1)).
    assert (HC : C (always less) (notLessP (always less)) lt).
    { apply always_C; [auto|]. intros ? ? ?. reflexivity. }
    unfold Sort, SortP, SortW, SortWWithin.
    pose proof (pdqsort_few x (always less) (notLessP (always less)) lt HC ltac:(reflexivity) ltac:(reflexivity)
      (Datatypes.S (List.length d)) 0 (zlen d) (bitsLen (zlen d)) ltac:(lia)) as Hp.
    pose proof (pow2_S_gt (List.length d)) as Hst. change (Z.of_nat (List.length d)) with (zlen d) in Hst.
    rewrite Z.sub_0_r in Hp. specialize (Hp Hst ltac:(lia) d 0 L ltac:(lia) ltac:(intros ?; lia)).
    assert (Hh : height x lt L 0 d = 2 * k) by (unfold height, above; change (0 <? 0) with false; cbv iota; lia).
    rewrite Hh in Hp. specialize (fun h => Hp h Hc).
    assert (Hcov : covers x lt L 0 (zlen d) d).
    { intros i Hi. apply HL. unfold at_. apply nth_In. unfold zlen in Hi. lia. }
    specialize (Hp Hcov). unfold wpd in Hp.
    destruct (pdqsort _ _ _ _ _ _ (d, 0)) as [[u| | |e] [d' s']] eqn:Hr; try contradiction.
    2: { exfalso. eapply no_user; [apply always_total|apply notLess_total| |exact Hr]. now apply good_pdqsort. }
    exists d', s'. split; [auto|]. cbn beta in Hp. clearbody d. nia.
  - destruct (Sort_cost lt d HW) as (d' & c & HS & Hcost). exists d', c. split; [exact HS|].
    unfold bitsLen in Hc. destruct (Z.leb_spec (zlen d) 0); [lia|]. clearbody d.
    assert (zlen d * (Z.log2 (zlen d) + 1) <= zlen d * (2 * k)) by nia. lia.
Qed.
