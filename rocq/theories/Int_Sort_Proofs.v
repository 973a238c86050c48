(** Int_Sort_Model: with wrapping ints the sorts do what they do with unbounded ones. *)
From Verif Require Import Base Callback XSort_Model Int_Sort_Model.
From Verif Require Stream_Model.
Local Open Scope cb_scope.
Local Open Scope Z_scope.

Lemma wid x : -9223372036854775808 <= x < 9223372036854775808 -> wrapInt x = x.
Proof.
  intros H. unfold Stream_Model.wrapInt.
  change (2 ^ 63) with 9223372036854775808. change (2 ^ 64) with 18446744073709551616.
  rewrite Z.mod_small; lia.
Qed.
Lemma wuid x : 0 <= x < 18446744073709551616 -> wrapUint x = x.
Proof. intros H. unfold wrapUint. change (2 ^ 64) with 18446744073709551616. now apply Z.mod_small. Qed.

Lemma quot4 x : 0 <= x -> 0 <= Z.quot x 4 /\ 4 * Z.quot x 4 <= x < 4 * Z.quot x 4 + 4.
Proof. intros H. rewrite Z.quot_div_nonneg by lia. pose proof (Z.div_mod x 4 ltac:(lia)). pose proof (Z.mod_pos_bound x 4 ltac:(lia)). pose proof (Z.div_pos x 4 ltac:(lia) ltac:(lia)). lia. Qed.
Lemma half_bounds i j : 0 <= i <= j -> i <= half i j <= j /\ (i < j -> half i j < j) /\ 2 * half i j <= i + j < 2 * half i j + 2.
Proof. intros H. unfold half. rewrite Z.shiftr_div_pow2 by lia. change (2 ^ 1) with 2. pose proof (Z.div_mod (i + j) 2 ltac:(lia)). pose proof (Z.mod_pos_bound (i + j) 2 ltac:(lia)). lia. Qed.
Lemma halfI_half i j : 0 <= i -> 0 <= j -> i + j < 9223372036854775808 -> halfI i j = half i j.
Proof.
  intros. unfold halfI, half. rewrite (wid (i + j)) by lia. rewrite wuid by lia. apply wid.
  rewrite Z.shiftr_div_pow2 by lia. change (2 ^ 1) with 2. pose proof (Z.div_mod (i + j) 2 ltac:(lia)). pose proof (Z.mod_pos_bound (i + j) 2 ltac:(lia)). lia.
Qed.

(** Two programs that do the same; the results satisfy [P]. *)
Definition agree {st A} (P : A -> Prop) (m m' : CM st A) : Prop :=
  forall s, m s = m' s /\ forall x s', m' s = (CRet x, s') -> P x.
Lemma ag_ret {st A} (P : A -> Prop) x : P x -> agree P (@cret st A x) (cret x).
Proof. intros H s. split; [reflexivity|]. intros y s' E. injection E as <- <-. exact H. Qed.
Lemma ag_div {st A} (P : A -> Prop) : agree P (@cdiverge st A) cdiverge.
Proof. intros s. split; [reflexivity|]. discriminate. Qed.
Lemma ag_same {st A} (m : CM st A) : agree (fun _ => True) m m.
Proof. intros s. split; [reflexivity|]. trivial. Qed.
Lemma ag_weak {st A} (P Q : A -> Prop) (m m' : CM st A) : agree P m m' -> (forall x, P x -> Q x) -> agree Q m m'.
Proof. intros H HPQ s. destruct (H s) as [E HP]. split; [exact E|]. eauto. Qed.
Lemma ag_bind {st A B} (P : A -> Prop) (Q : B -> Prop) (m m' : CM st A) k k' :
  agree P m m' -> (forall x, P x -> agree Q (k x) (k' x)) -> agree Q (cbind m k) (cbind m' k').
Proof.
  intros Hm Hk s. unfold cbind. destruct (Hm s) as [E HP]. rewrite E. destruct (m' s) as [[x| | |] s'] eqn:Em; try (split; [reflexivity|discriminate]).
  apply Hk. eauto.
Qed.
Lemma ag_then {st A B} (Q : B -> Prop) (m m' : CM st A) k k' :
  agree (fun _ => True) m m' -> agree Q k k' -> agree Q (cbind m (fun _ => k)) (cbind m' (fun _ => k')).
Proof. intros Hm Hk. eapply ag_bind; eauto. Qed.

Ltac uw := repeat match goal with |- context[Stream_Model.wrapInt ?x] => rewrite (wid x) by lia end.
Ltac zb := rewrite ?Z.gtb_ltb, ?Z.geb_leb, ?Z.ltb_lt, ?Z.ltb_ge, ?Z.leb_le, ?Z.leb_gt, ?Z.gtb_ltb, ?Z.geb_leb, ?Z.eqb_eq, ?Z.eqb_neq in * |-.
Tactic Notation "cs" constr(c) "as" ident(H) := destruct c eqn:H; zb.
Ltac tt_ := eapply ag_weak; [|intros; exact I].

Section Proofs.
  Context {E S : Type} (lt ge : comparatorW E S) (N : Z).
  Notation same := (ag_same (st := @st E S)).
  Notation T := (fun _ => True).

  Lemma ag_and c (m : CM (@st E S) bool) : agree (fun b => b = true -> c = true) (andM c m) (andM c m).
  Proof. unfold andM. destruct c; [eapply ag_weak; [apply same|auto]|apply ag_ret; discriminate]. Qed.

  Section Below62.
  Context (HN : N <= 4611686018427387904).

  Lemma ins_inner fuel : forall a j, 0 <= a -> a - 1 <= j <= N -> agree T (insertionInnerI lt fuel a j) (insertionInner lt fuel a j).
  Proof.
    induction fuel as [|fuel IH]; intros a j Ha Hj; cbn [insertionInnerI insertionInner]; [apply ag_div|]. uw.
    eapply ag_bind; [apply ag_and|]. intros [|] Hc; [|now apply ag_ret]. specialize (Hc eq_refl). zb.
    apply ag_then; [apply same|]. apply IH; lia.
  Qed.
  Lemma ins_outer fuel : forall a b i, 0 <= a -> a <= i -> b <= N -> i <= N + 1 -> agree T (insertionOuterI lt fuel a b i) (insertionOuter lt fuel a b i).
  Proof.
    induction fuel as [|fuel IH]; intros a b i Ha Hi Hb Hi'; cbn [insertionOuterI insertionOuter]; [apply ag_div|].
    cs (i <? b) as C; [|now apply ag_ret]. uw. apply ag_then; [apply ins_inner; lia|]. apply IH; lia.
  Qed.
  Lemma ins a b : 0 <= a <= N -> b <= N -> agree T (insertionSortI lt a b) (insertionSort lt a b).
  Proof. intros Ha Hb. unfold insertionSortI, insertionSort. uw. apply ins_outer; lia. Qed.

  Lemma sift_loop fuel : forall root hi first, 0 <= root <= N -> 0 <= hi -> 0 <= first -> first + hi <= N -> root < hi \/ root = 0 ->
    agree T (siftDownLoopI lt ge fuel root hi first) (siftDownLoop lt ge fuel root hi first).
  Proof.
    induction fuel as [|fuel IH]; intros root hi first Hr Hh Hf Hs Hrh; cbn [siftDownLoopI siftDownLoop]; [apply ag_div|]. uw.
    cs (2 * root + 1 >=? hi) as C; [now apply ag_ret|]. uw.
    eapply ag_bind; [apply ag_and|]. intros c Hc.
    assert (HC : 0 <= (if c then 2 * root + 1 + 1 else 2 * root + 1) < hi) by (destruct c; [specialize (Hc eq_refl); zb|]; lia).
    replace (if c then 2 * root + 1 +! 1 else 2 * root + 1) with (if c then 2 * root + 1 + 1 else 2 * root + 1) by (destruct c; uw; reflexivity).
    set (child := if c then _ else _) in *. uw.
    apply (ag_bind T); [apply same|]. intros [|] _; [now apply ag_ret|]. apply ag_then; [apply same|]. apply IH; lia.
  Qed.
  Lemma sift lo hi first : 0 <= lo <= N -> 0 <= hi -> 0 <= first -> first + hi <= N -> lo < hi \/ lo = 0 ->
    agree T (siftDownI lt ge lo hi first) (siftDown lt ge lo hi first).
  Proof. intros. now apply sift_loop. Qed.
  Lemma heap_build fuel : forall i hi first, -1 <= i < hi \/ i <= 0 /\ -1 <= i -> 0 <= hi -> 0 <= first -> first + hi <= N ->
    agree T (heapBuildI lt ge fuel i hi first) (heapBuild lt ge fuel i hi first).
  Proof.
    induction fuel as [|fuel IH]; intros i hi first Hi Hh Hf Hs; cbn [heapBuildI heapBuild]; [apply ag_div|].
    cs (i >=? 0) as C; [|now apply ag_ret]. uw. apply ag_then; [apply sift; lia|]. apply IH; lia.
  Qed.
  Lemma heap_pop fuel : forall i lo first, -1 <= i -> lo = 0 -> 0 <= first -> first + i <= N ->
    agree T (heapPopI lt ge fuel i lo first) (heapPop lt ge fuel i lo first).
  Proof.
    induction fuel as [|fuel IH]; intros i lo first Hi Hl Hf Hs; cbn [heapPopI heapPop]; [apply ag_div|].
    cs (i >=? 0) as C; [|now apply ag_ret]. uw. apply ag_then; [apply same|]. apply ag_then; [apply sift; lia|]. apply IH; lia.
  Qed.
  Lemma heap_sort a b : 0 <= a <= b -> b <= N -> agree T (heapSortI lt ge a b) (heapSort lt ge a b).
  Proof.
    intros Ha Hb. unfold heapSortI, heapSort. uw. apply ag_then; [|apply heap_pop; lia].
    assert (HQ : -1 < Z.quot (b - a - 1) 2 < b - a \/ b - a = 0 /\ Z.quot (b - a - 1) 2 = 0).
    { destruct (Z.eq_dec (b - a) 0) as [Ez|]; [right; rewrite Ez; auto|left].
      rewrite Z.quot_div_nonneg by lia. pose proof (Z.div_mod (b - a - 1) 2 ltac:(lia)). pose proof (Z.mod_pos_bound (b - a - 1) 2 ltac:(lia)). lia. }
    apply heap_build; lia.
  Qed.

  (** The scans of the partitions. *)
  Lemma adv_i fuel : forall i j a, 0 <= i -> j <= N -> agree (fun i' => i <= i' /\ (i' <= i \/ i' <= j + 1)) (advII lt fuel i j a) (advI lt fuel i j a).
  Proof.
    induction fuel as [|fuel IH]; intros i j a Hi Hj; cbn [advII advI]; [apply ag_div|].
    eapply ag_bind; [apply ag_and|]. intros [|] Hc; [|apply ag_ret; lia]. specialize (Hc eq_refl). zb. uw.
    eapply ag_weak; [apply IH; lia|]. cbn. intros; lia.
  Qed.
  Lemma adv_j fuel : forall i j a, 0 <= i -> j <= N -> agree (fun j' => j' <= j /\ (j <= j' \/ i - 1 <= j')) (advJI ge fuel i j a) (advJ ge fuel i j a).
  Proof.
    induction fuel as [|fuel IH]; intros i j a Hi Hj; cbn [advJI advJ]; [apply ag_div|].
    eapply ag_bind; [apply ag_and|]. intros [|] Hc; [|apply ag_ret; lia]. specialize (Hc eq_refl). zb. uw.
    eapply ag_weak; [apply IH; lia|]. cbn. intros; lia.
  Qed.
  Lemma eqadv_i fuel : forall i j a, 0 <= i -> j <= N -> agree (fun i' => i <= i' /\ (i' <= i \/ i' <= j + 1)) (eqAdvII ge fuel i j a) (eqAdvI ge fuel i j a).
  Proof.
    induction fuel as [|fuel IH]; intros i j a Hi Hj; cbn [eqAdvII eqAdvI]; [apply ag_div|].
    eapply ag_bind; [apply ag_and|]. intros [|] Hc; [|apply ag_ret; lia]. specialize (Hc eq_refl). zb. uw.
    eapply ag_weak; [apply IH; lia|]. cbn. intros; lia.
  Qed.
  Lemma eqadv_j fuel : forall i j a, 0 <= i -> j <= N -> agree (fun j' => j' <= j /\ (j <= j' \/ i - 1 <= j')) (eqAdvJI lt fuel i j a) (eqAdvJ lt fuel i j a).
  Proof.
    induction fuel as [|fuel IH]; intros i j a Hi Hj; cbn [eqAdvJI eqAdvJ]; [apply ag_div|].
    eapply ag_bind; [apply ag_and|]. intros [|] Hc; [|apply ag_ret; lia]. specialize (Hc eq_refl). zb. uw.
    eapply ag_weak; [apply IH; lia|]. cbn. intros; lia.
  Qed.

  (** [lo - 1 <= j' < hi] where the loop starts with [lo <= i], [j < hi]. *)
  Lemma part_loop lo fuel : forall i j a, 0 <= lo <= i -> i - 2 <= j -> lo - 1 <= j < N -> i <= N ->
    agree (fun j' => lo - 1 <= j' <= j) (partitionLoopI lt ge fuel i j a) (partitionLoop lt ge fuel i j a).
  Proof.
    induction fuel as [|fuel IH]; intros i j a Hl Hij Hj Hi; cbn [partitionLoopI partitionLoop]; [apply ag_div|].
    eapply ag_bind; [apply adv_i; lia|]. cbn. intros i' Hi'.
    eapply ag_bind; [apply adv_j; lia|]. cbn. intros j' Hj'.
    cs (i' >? j') as C; [apply ag_ret; lia|]. uw. apply ag_then; [apply same|].
    eapply ag_weak; [apply IH; lia|]. cbn. intros; lia.
  Qed.
  Lemma part a b pivot : 0 <= a -> a + 1 < b -> b <= N ->
    agree (fun r => a <= fst r < b) (partitionI lt ge a b pivot) (partition lt ge a b pivot).
  Proof.
    intros Ha Hab Hb. unfold partitionI, partition. apply ag_then; [apply same|]. uw.
    eapply ag_bind; [apply adv_i; lia|]. cbn. intros i' Hi'.
    eapply ag_bind; [apply adv_j; lia|]. cbn. intros j' Hj'.
    cs (i' >? j') as C; [apply ag_then; [apply same|]; apply ag_ret; cbn; lia|]. uw. apply ag_then; [apply same|].
    eapply ag_bind; [apply (part_loop (a + 1)); lia|]. cbn. intros j'' Hj''. apply ag_then; [apply same|]; apply ag_ret; cbn; lia.
  Qed.
  Lemma parteq_loop fuel : forall i j a, 0 <= i <= N -> i - 2 <= j < N ->
    agree (fun i' => i <= i' /\ (i' <= j + 2)) (partitionEqualLoopI lt ge fuel i j a) (partitionEqualLoop lt ge fuel i j a).
  Proof.
    induction fuel as [|fuel IH]; intros i j a Hl Hj; cbn [partitionEqualLoopI partitionEqualLoop]; [apply ag_div|].
    eapply ag_bind; [apply eqadv_i; lia|]. cbn. intros i' Hi'.
    eapply ag_bind; [apply eqadv_j; lia|]. cbn. intros j' Hj'.
    cs (i' >? j') as C; [apply ag_ret; lia|]. uw. apply ag_then; [apply same|].
    eapply ag_weak; [apply IH; lia|]. cbn. intros; lia.
  Qed.

  Lemma parteq a b pivot : 0 <= a -> a + 1 < b -> b <= N ->
    agree (fun i => a < i <= b + 1) (partitionEqualI lt ge a b pivot) (partitionEqual lt ge a b pivot).
  Proof.
    intros Ha Hab Hb. unfold partitionEqualI, partitionEqual. apply ag_then; [apply same|]. uw.
    eapply ag_weak; [apply parteq_loop; lia|]. cbn. intros; lia.
  Qed.

  Lemma pis_advance fuel : forall i b, 0 <= i -> b <= N -> agree (fun i' => i <= i' /\ (i' <= i \/ i' <= b)) (pisAdvanceI ge fuel i b) (pisAdvance ge fuel i b).
  Proof.
    induction fuel as [|fuel IH]; intros i b Hi Hb; cbn [pisAdvanceI pisAdvance]; [apply ag_div|].
    cs (i <? b) as C; unfold andM.
    - uw. apply (ag_bind T); [apply same|]. intros [|] _; [|apply ag_ret; lia]. eapply ag_weak; [apply IH; lia|]. cbn. intros; lia.
    - apply (ag_bind (fun c => c = false)); [now apply ag_ret|]. intros c ->. apply ag_ret; lia.
  Qed.
  Lemma pis_left fuel : forall j, -1 <= j <= N -> agree T (pisShiftLeftI ge fuel j) (pisShiftLeft ge fuel j).
  Proof.
    induction fuel as [|fuel IH]; intros j Hj; cbn [pisShiftLeftI pisShiftLeft]; [apply ag_div|].
    cs (j >=? 1) as C; [|now apply ag_ret]. uw. apply (ag_bind T); [apply same|]. intros [|] _; [now apply ag_ret|].
    apply ag_then; [apply same|]. apply IH; lia.
  Qed.
  Lemma pis_right fuel : forall j b, 0 <= j <= N + 1 -> b <= N -> agree T (pisShiftRightI ge fuel j b) (pisShiftRight ge fuel j b).
  Proof.
    induction fuel as [|fuel IH]; intros j b Hj Hb; cbn [pisShiftRightI pisShiftRight]; [apply ag_div|].
    cs (j <? b) as C; [|now apply ag_ret]. uw. apply (ag_bind T); [apply same|]. intros [|] _; [now apply ag_ret|].
    apply ag_then; [apply same|]. apply IH; lia.
  Qed.
  Lemma pis_loop steps : forall i a b, 0 <= a < i -> i <= b -> b <= N -> agree T (pisLoopI ge steps i a b) (pisLoop ge steps i a b).
  Proof.
    induction steps as [|steps IH]; intros i a b Ha Hi Hb; cbn [pisLoopI pisLoop]; [now apply ag_ret|].
    eapply ag_bind; [apply pis_advance; lia|]. cbn. intros i' Hi'.
    cs (i' =? b) as C; [now apply ag_ret|]. uw. destruct (b - a <? 50); [now apply ag_ret|].
    apply ag_then; [apply same|]. apply ag_then; [destruct (i' - a >=? 2); [apply pis_left; lia|now apply ag_ret]|].
    apply ag_then; [destruct (b - i' >=? 2); [apply pis_right; lia|now apply ag_ret]|]. apply IH; lia.
  Qed.
  Lemma pis a b : 0 <= a < b -> b <= N -> agree T (partialInsertionSortI ge a b) (partialInsertionSort ge a b).
  Proof. intros Ha Hb. unfold partialInsertionSortI, partialInsertionSort. uw. apply pis_loop; lia. Qed.

  Lemma power_bounds length : 1 <= length <= N -> exists k, 0 <= k <= 63 /\ nextPowerOfTwoI length = 2 ^ k /\ nextPowerOfTwo length = 2 ^ k /\ length < 2 ^ k <= 2 * length.
  Proof.
    intros H. exists (bitsLen length). unfold nextPowerOfTwoI, nextPowerOfTwo. rewrite (wuid length) by lia. unfold bitsLen.
    cs (length <=? 0) as C; [lia|]. pose proof (Z.log2_spec length ltac:(lia)) as HL. pose proof (Z.log2_nonneg length).
    assert (Z.log2 length < 63). { apply Z.log2_lt_pow2; [lia|]. change (2 ^ 63) with 9223372036854775808. lia. }
    rewrite Z.shiftl_1_l. rewrite <- Z.add_1_r in HL. rewrite Z.pow_add_r in HL by lia. change (2 ^ 1) with 2 in HL.
    assert (E2 : 2 ^ (Z.log2 length + 1) = 2 ^ Z.log2 length * 2) by (rewrite Z.pow_add_r by lia; reflexivity).
    repeat split; try lia. apply wuid. lia.
  Qed.
  Lemma break_loop fuel k length : forall idx last random a, 0 <= a -> 1 <= length -> a + length <= N -> 0 <= k <= 63 -> length < 2 ^ k <= 2 * length ->
    0 <= idx <= N -> last <= N ->
    agree T (breakLoopI (E := E) (S := S) fuel idx last random (2 ^ k) length a) (breakLoop fuel idx last random (2 ^ k) length a).
  Proof.
    induction fuel as [|fuel IH]; intros idx last random a Ha Hl Hal Hk Hp Hi Hla; cbn [breakLoopI breakLoop]; [apply ag_div|].
    cs (idx <=? last) as C; [|now apply ag_ret].
    set (r := xorshiftNext random). rewrite (wuid (2 ^ k - 1)) by lia.
    assert (EO : Z.land r (2 ^ k - 1) = r mod 2 ^ k) by (rewrite <- Z.land_ones by lia; unfold Z.ones; now rewrite Z.shiftl_1_l, <- Z.sub_1_r).
    rewrite EO. pose proof (Z.mod_pos_bound r (2 ^ k) ltac:(lia)). set (other := r mod 2 ^ k) in *. uw.
    assert (0 <= (if other >=? length then other - length else other) < length) by (cs (other >=? length) as D; lia).
    set (o := if other >=? length then _ else _) in *. uw. apply ag_then; [apply same|]. destruct (Z.eq_dec idx N); [|apply IH; lia].
    destruct fuel; cbn [breakLoopI breakLoop]; [apply ag_div|]. cs (idx + 1 <=? last) as D; [lia|now apply ag_ret].
  Qed.
  Lemma break_patterns a b : 0 <= a <= b -> b <= N -> agree T (breakPatternsI (E := E) (S := S) a b) (breakPatterns a b).
  Proof.
    intros Ha Hb. unfold breakPatternsI, breakPatterns. uw. cs (b - a >=? 8) as C; [|now apply ag_ret].
    pose proof (quot4 (b - a) ltac:(lia)) as HQ. uw. destruct (power_bounds (b - a) ltac:(lia)) as (k & Hk & -> & -> & Hp).
    apply break_loop; lia.
  Qed.

  (** Indices out of [[lo, hi)]; the number of swaps counted grows by at most [n]. *)
  Lemma order2_ag a b swaps lo hi : lo <= a < hi -> lo <= b < hi -> 0 <= swaps < 1000 ->
    agree (fun r => lo <= fst (fst r) < hi /\ lo <= snd (fst r) < hi /\ swaps <= snd r <= swaps + 1) (order2I lt a b swaps) (order2 lt a b swaps).
  Proof.
    intros Ha Hb Hs. unfold order2I, order2. uw. apply (ag_bind T); [apply same|]. intros [|] _; apply ag_ret; cbn; lia.
  Qed.
  Lemma median_ag a b c swaps lo hi : lo <= a < hi -> lo <= b < hi -> lo <= c < hi -> 0 <= swaps < 900 ->
    agree (fun r => lo <= fst r < hi /\ swaps <= snd r <= swaps + 3) (medianI lt a b c swaps) (median lt a b c swaps).
  Proof.
    intros Ha Hb Hc Hs. unfold medianI, median.
    eapply ag_bind; [apply (order2_ag _ _ _ lo hi); lia|]. intros [[a1 b1] s1]. cbn. intros H1.
    eapply ag_bind; [apply (order2_ag _ _ _ lo hi); lia|]. intros [[b2 c2] s2]. cbn. intros H2.
    eapply ag_bind; [apply (order2_ag _ _ _ lo hi); lia|]. intros [[a3 b3] s3]. cbn. intros H3.
    apply ag_ret. cbn. lia.
  Qed.
  Lemma adjacent_ag a swaps lo hi : 0 <= lo -> hi <= N -> lo <= a - 1 -> a + 1 < hi -> 0 <= swaps < 900 ->
    agree (fun r => lo <= fst r < hi /\ swaps <= snd r <= swaps + 3) (medianAdjacentI lt a swaps) (medianAdjacent lt a swaps).
  Proof. intros. unfold medianAdjacentI, medianAdjacent. uw. apply median_ag; lia. Qed.
  Lemma choose a b : 0 <= a < b -> b <= N -> agree (fun r => a <= fst r < b) (choosePivotI lt a b) (choosePivot lt a b).
  Proof.
    intros Ha Hb. unfold choosePivotI, choosePivot. uw. pose proof (quot4 (b - a) ltac:(lia)) as HQ. set (q := Z.quot (b - a) 4) in *. uw.
    eapply (ag_bind (fun r => a <= fst r < b)).
    - cs (b - a >=? 8) as C8; [|apply ag_ret; cbn; lia].
      apply (ag_bind (fun r => a <= fst (fst (fst r)) < b /\ a <= snd (fst (fst r)) < b /\ a <= snd (fst r) < b /\ 0 <= snd r <= 9)).
      + cs (b - a >=? 50) as C50; [|apply ag_ret; cbn; lia].
        eapply ag_bind; [apply (adjacent_ag _ _ a b); lia|]. intros [i1 s1]. cbn. intros H1.
        eapply ag_bind; [apply (adjacent_ag _ _ a b); lia|]. intros [i2 s2]. cbn. intros H2.
        eapply ag_bind; [apply (adjacent_ag _ _ a b); lia|]. intros [i3 s3]. cbn. intros H3.
        apply ag_ret. cbn. lia.
      + intros [[[i1 j1] k1] s1]. cbn. intros H1. eapply ag_weak; [apply (median_ag _ _ _ _ a b); lia|]. cbn. intros; lia.
    - intros [j s]. cbn. intros Hj. now apply ag_ret.
  Qed.
  Lemma reverse_loop fuel : forall i j, 0 <= i <= N -> -1 <= j <= N -> agree T (reverseLoopI (E := E) (S := S) fuel i j) (reverseLoop fuel i j).
  Proof.
    induction fuel as [|fuel IH]; intros i j Hi Hj; cbn [reverseLoopI reverseLoop]; [apply ag_div|].
    cs (i <? j) as C; [|now apply ag_ret]. uw. apply ag_then; [apply same|]. apply IH; lia.
  Qed.
  Lemma reverse_range a b : 0 <= a <= b -> b <= N -> agree T (reverseRangeI (E := E) (S := S) a b) (reverseRange a b).
  Proof. intros Ha Hb. unfold reverseRangeI, reverseRange. uw. apply reverse_loop; lia. Qed.

  Lemma pdq_loop self self' : (forall a b limit, 0 <= a <= N -> 0 <= b <= N -> 0 <= limit <= 1000 -> agree T (self' a b limit) (self a b limit)) ->
    forall fuel a b limit wb wp, 0 <= a <= N + 1 -> 0 <= b <= N -> 0 <= limit <= 1000 ->
    agree T (pdqLoopI lt ge self' fuel a b limit wb wp) (pdqLoop lt ge self fuel a b limit wb wp).
  Proof.
    intros Hself. induction fuel as [|fuel IH]; intros a b limit wb wp Ha Hb Hl; cbn [pdqLoopI pdqLoop]; [apply ag_div|]. uw.
    cs (b - a <=? 12) as C12.
    { destruct (Z.eq_dec a (N + 1)) as [->|]; [|apply ins; lia].
      unfold insertionSortI, insertionSort. uw. replace (Z.to_nat (b - (N + 1)) + 1)%nat with 1%nat by lia. cbn [insertionOuterI insertionOuter].
      cs (N + 1 + 1 <? b) as D; [lia|]. now apply ag_ret. }
    cs (limit =? 0) as C0; [apply heap_sort; lia|].
    apply ag_then; [destruct (negb wb); [apply break_patterns; lia|now apply ag_ret]|].
    replace (if negb wb then limit -! 1 else limit) with (if negb wb then limit - 1 else limit) by (destruct (negb wb); uw; reflexivity).
    assert (HL : 0 <= (if negb wb then limit - 1 else limit) <= 1000) by (destruct (negb wb); lia).
    set (limit' := if negb wb then _ else _) in *. clearbody limit'.
    eapply ag_bind; [apply choose; lia|]. intros [pivot hint]. cbn. intros Hp.
    apply (ag_bind (fun r => a <= fst r < b)).
    { destruct hint; try (apply ag_ret; cbn; lia). apply ag_then; [apply reverse_range; lia|]. uw. apply ag_ret; cbn; lia. }
    intros [pivot' hint']. cbn. intros Hp'.
    apply (ag_bind T); [destruct (wb && wp && isIncreasing hint'); [apply pis; lia|now apply ag_ret]|]. intros [|] _; [now apply ag_ret|]. uw.
    apply (ag_bind T); [tt_; apply ag_and|]. intros [|] _.
    - eapply ag_bind; [apply parteq; lia|]. cbn. intros mid Hm. apply IH; lia.
    - eapply ag_bind; [apply part; lia|]. intros [mid al]. cbn. intros Hm. uw.
      destruct (mid - a <? b - mid); (apply ag_then; [apply Hself; lia|]; apply IH; lia).
  Qed.
  Lemma pdq stack : forall a b limit, 0 <= a <= N -> 0 <= b <= N -> 0 <= limit <= 1000 ->
    agree T (pdqsortI lt ge stack a b limit) (pdqsort lt ge stack a b limit).
  Proof.
    induction stack as [|stack IH]; intros a b limit Ha Hb Hl; cbn [pdqsortI pdqsort]; [apply ag_div|].
    apply pdq_loop; [exact IH|lia|lia|lia].
  Qed.
  End Below62.

  Section Below61.
  Context (HN : N <= 2305843009213693952).
  Lemma HN' : N <= 4611686018427387904.
  Proof. lia. Qed.

  Lemma swap_range_loop fuel : forall i n a b, 0 <= i <= N -> 0 <= a -> 0 <= b -> a + n <= N -> b + n <= N ->
    agree T (swapRangeLoopI (E := E) (S := S) fuel i n a b) (swapRangeLoop fuel i n a b).
  Proof.
    induction fuel as [|fuel IH]; intros i n a b Hi Ha Hb Han Hbn; cbn [swapRangeLoopI swapRangeLoop]; [apply ag_div|].
    cs (i <? n) as C; [|now apply ag_ret]. uw. apply ag_then; [apply same|]. apply IH; lia.
  Qed.
  Lemma swap_range a b n : 0 <= a -> 0 <= b -> 0 <= n -> a + n <= N -> b + n <= N -> agree T (swapRangeI (E := E) (S := S) a b n) (swapRange a b n).
  Proof. intros. apply swap_range_loop; lia. Qed.
  Lemma rotate_loop fuel : forall i j m, 0 <= i <= m -> 0 <= j -> m + j <= N -> agree T (rotateLoopI (E := E) (S := S) fuel i j m) (rotateLoop fuel i j m).
  Proof.
    induction fuel as [|fuel IH]; intros i j m Hi Hj Hm; cbn [rotateLoopI rotateLoop]; [apply ag_div|]. uw.
    cs (i =? j) as C; [apply swap_range; lia|]. cs (i >? j) as D.
    - apply ag_then; [apply swap_range; lia|]. apply IH; lia.
    - apply ag_then; [apply swap_range; lia|]. apply IH; lia.
  Qed.
  Lemma rotate_ag a m b : 0 <= a <= m -> m <= b <= N -> agree T (rotateI (E := E) (S := S) a m b) (rotate a m b).
  Proof. intros. unfold rotateI, rotate. uw. apply rotate_loop; lia. Qed.

  Lemma bs_low fuel : forall i j a, 0 <= i <= j -> j <= N -> agree (fun i' => i <= i' <= j) (bsearchLowI lt fuel i j a) (bsearchLow lt fuel i j a).
  Proof.
    induction fuel as [|fuel IH]; intros i j a Hi Hj; cbn [bsearchLowI bsearchLow]; [apply ag_div|].
    cs (i <? j) as C; [|apply ag_ret; lia]. rewrite halfI_half by lia. destruct (half_bounds i j Hi) as (HB & HB' & _). specialize (HB' C).
    set (h := half i j) in *. uw. apply (ag_bind T); [apply same|]. intros [|] _; (eapply ag_weak; [apply IH; lia|]; cbn; intros; lia).
  Qed.
  Lemma bs_high fuel : forall i j m, 0 <= i <= j -> j <= N -> agree (fun i' => i <= i' <= j) (bsearchHighI ge fuel i j m) (bsearchHigh ge fuel i j m).
  Proof.
    induction fuel as [|fuel IH]; intros i j m Hi Hj; cbn [bsearchHighI bsearchHigh]; [apply ag_div|].
    cs (i <? j) as C; [|apply ag_ret; lia]. rewrite halfI_half by lia. destruct (half_bounds i j Hi) as (HB & HB' & _). specialize (HB' C).
    set (h := half i j) in *. uw. apply (ag_bind T); [apply same|]. intros [|] _; (eapply ag_weak; [apply IH; lia|]; cbn; intros; lia).
  Qed.
  Lemma bs_sym fuel : forall i j p, 0 <= i <= j -> j <= N -> -1 <= p <= 2 * N -> agree (fun i' => i <= i' <= j) (bsearchSymI ge fuel i j p) (bsearchSym ge fuel i j p).
  Proof.
    induction fuel as [|fuel IH]; intros i j p Hi Hj Hp; cbn [bsearchSymI bsearchSym]; [apply ag_div|].
    cs (i <? j) as C; [|apply ag_ret; lia]. rewrite halfI_half by lia. destruct (half_bounds i j Hi) as (HB & HB' & _). specialize (HB' C).
    set (h := half i j) in *. uw. apply (ag_bind T); [apply same|]. intros [|] _; (eapply ag_weak; [apply IH; lia|]; cbn; intros; lia).
  Qed.
  Lemma bubble_up fuel : forall k i, 0 <= k <= N -> 0 <= i <= N -> agree T (bubbleUpI (E := E) (S := S) fuel k i) (bubbleUp fuel k i).
  Proof.
    induction fuel as [|fuel IH]; intros k i Hk Hi; cbn [bubbleUpI bubbleUp]; [apply ag_div|]. uw.
    cs (k <? i - 1) as C; [|now apply ag_ret]. apply ag_then; [apply same|]. apply IH; lia.
  Qed.
  Lemma bubble_down fuel : forall k i, 0 <= k <= N -> 0 <= i <= N -> agree T (bubbleDownI (E := E) (S := S) fuel k i) (bubbleDown fuel k i).
  Proof.
    induction fuel as [|fuel IH]; intros k i Hk Hi; cbn [bubbleDownI bubbleDown]; [apply ag_div|]. uw.
    cs (k >? i) as C; [|now apply ag_ret]. apply ag_then; [apply same|]. apply IH; lia.
  Qed.

  Lemma sym_merge stack : forall a m b, 0 <= a <= m -> m <= b <= N -> agree T (symMergeI lt ge stack a m b) (symMerge lt ge stack a m b).
  Proof.
    induction stack as [|stack IH]; intros a m b Ha Hm; cbn [symMergeI symMerge]; [apply ag_div|]. uw.
    cs (m - a =? 1) as C1; [eapply ag_bind; [apply bs_low; lia|]; cbn; intros i Hi; apply bubble_up; lia|].
    cs (b - m =? 1) as C2; [eapply ag_bind; [apply bs_high; lia|]; cbn; intros i Hi; apply bubble_down; lia|].
    rewrite halfI_half by lia. destruct (half_bounds a b ltac:(lia)) as (HB & _ & HB2). set (mid := half a b) in *. clearbody mid. uw.
    destruct (m >? mid) eqn:D; zb.
    - uw. eapply ag_bind; [apply bs_sym; lia|]. cbn. intros start Hs. uw.
      apply ag_then; [destruct ((start <? m) && (m <? mid + m - start)); [apply rotate_ag; lia|now apply ag_ret]|].
      apply ag_then; [destruct ((a <? start) && (start <? mid)) eqn:X; [apply andb_true_iff in X; zb; apply IH; lia|now apply ag_ret]|].
      destruct ((mid <? mid + m - start) && (mid + m - start <? b)) eqn:X; [apply andb_true_iff in X; zb; apply IH; lia|now apply ag_ret].
    - uw. eapply ag_bind; [apply bs_sym; lia|]. cbn. intros start Hs. uw.
      apply ag_then; [destruct ((start <? m) && (m <? mid + m - start)); [apply rotate_ag; lia|now apply ag_ret]|].
      apply ag_then; [destruct ((a <? start) && (start <? mid)) eqn:X; [apply andb_true_iff in X; zb; apply IH; lia|now apply ag_ret]|].
      destruct ((mid <? mid + m - start) && (mid + m - start <? b)) eqn:X; [apply andb_true_iff in X; zb; apply IH; lia|now apply ag_ret].
  Qed.

  Lemma stable_blocks fuel : forall a b, 0 <= a <= N -> a <= b -> b <= N + 20 ->
    agree (fun a' => 0 <= a' <= N) (stableBlocksI lt fuel a b N 20) (stableBlocks lt fuel a b N 20).
  Proof.
    induction fuel as [|fuel IH]; intros a b Ha Hab Hb; cbn [stableBlocksI stableBlocks]; [apply ag_div|].
    cs (b <=? N) as C; [|apply ag_ret; lia]. uw. apply ag_then; [apply ins; [exact HN'|lia|lia]|]. apply IH; lia.
  Qed.
  Lemma merge_pass stack fuel : forall a b bs, 0 <= a <= N -> b = a + 2 * bs -> 0 <= bs < N ->
    agree (fun a' => 0 <= a' <= N) (mergePassI lt ge stack fuel a b N bs) (mergePass lt ge stack fuel a b N bs).
  Proof.
    induction fuel as [|fuel IH]; intros a b bs Ha Hb Hs; cbn [mergePassI mergePass]; [apply ag_div|].
    cs (b <=? N) as C; [|apply ag_ret; lia]. uw. apply ag_then; [apply sym_merge; lia|]. apply IH; lia.
  Qed.
  Lemma merge_loop stack fuel : forall bs, 0 <= bs <= 2 * N + 20 -> agree T (mergeLoopI lt ge stack fuel N bs) (mergeLoop lt ge stack fuel N bs).
  Proof.
    induction fuel as [|fuel IH]; intros bs Hs; cbn [mergeLoopI mergeLoop]; [apply ag_div|].
    cs (bs <? N) as C; [|now apply ag_ret]. uw. eapply ag_bind; [apply merge_pass; lia|]. cbn. intros a Ha. uw.
    apply ag_then; [cs (a + bs <? N) as D; [apply sym_merge; lia|now apply ag_ret]|]. apply IH; lia.
  Qed.
  Lemma stable_ag stack : 0 <= N -> agree T (stableI lt ge stack N) (stable lt ge stack N).
  Proof.
    intros H0. unfold stableI, stable. eapply ag_bind; [apply stable_blocks; lia|]. cbn. intros a Ha.
    apply ag_then; [apply ins; [exact HN'|lia|lia]|]. apply merge_loop. lia.
  Qed.
  End Below61.
End Proofs.

Lemma bitsLen_small n : 0 <= n <= 4611686018427387904 -> 0 <= bitsLen n <= 1000.
Proof.
  intros H. unfold bitsLen. destruct (n <=? 0) eqn:C; zb; [lia|]. pose proof (Z.log2_nonneg n).
  assert (Z.log2 n < 63) by (apply Z.log2_lt_pow2; [lia|]; change (2 ^ 63) with 9223372036854775808; lia). lia.
Qed.
Lemma zlen_nonneg' {A} (l : list A) : 0 <= zlen l.
Proof. unfold zlen. lia. Qed.

Lemma SortI_eq {E S} (data : list E) (less : comparatorW E S) s : zlen data <= 4611686018427387904 -> SortI data less s = SortW data less s.
Proof.
  intros H. pose proof (zlen_nonneg' data). pose proof (bitsLen_small (zlen data) ltac:(lia)). unfold SortI, SortW, SortWWithin.
  apply (pdq less (notLessW less) (zlen data) H); lia.
Qed.
Lemma StableI_eq {E S} (data : list E) (less : comparatorW E S) s : zlen data <= 2305843009213693952 -> StableI data less s = StableW data less s.
Proof.
  intros H. pose proof (zlen_nonneg' data). unfold StableI, StableW, StableWWithin. apply (stable_ag less (notLessW less) (zlen data) H). lia.
Qed.
Lemma SortOrderedI_eq {E} (ltb geb : E -> E -> bool) data : zlen data <= 4611686018427387904 -> SortOrderedI ltb geb data = SortOrdered ltb geb data.
Proof.
  intros H. pose proof (zlen_nonneg' data). pose proof (bitsLen_small (zlen data) ltac:(lia)). unfold SortOrderedI, SortOrdered.
  f_equal. f_equal. apply (pdq _ _ (zlen data) H); lia.
Qed.
Lemma StableOrderedI_eq {E} (ltb geb : E -> E -> bool) data : zlen data <= 2305843009213693952 -> StableOrderedI ltb geb data = StableOrdered ltb geb data.
Proof.
  intros H. pose proof (zlen_nonneg' data). unfold StableOrderedI, StableOrdered. f_equal. f_equal. apply (stable_ag _ _ (zlen data) H). lia.
Qed.
