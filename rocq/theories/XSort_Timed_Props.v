(** C106: the running time of the sorts. *)
From Verif Require Import Base Arr Callback XSort_Model XSort_Spec XSort_CostSpec XSort_Props XSort_Stab XSort_Adaptive XSort_Timed_Model XSort_Timed_Runs.
Local Open Scope list_scope.
Local Open Scope Z_scope.

(** A comparator that may do anything, beside a counter of its calls. *)
Definition countingW {E S} (less : comparatorW E S) : comparatorW E (S * Z) := fun d x y sn =>
  let '(r, (d', s')) := less d x y (fst sn) in (r, (d', (s', snd sn + 1))).

(** The clock changes nothing: with every comparator, even one that panics or
    writes to the slice, the result, the elements left and the comparator's state
    are those of the sort without it. *)
Theorem C106_clock : forall (E S : Type) (less : comparatorW E S) data s,
  (forall r data' s', SortW data less s = (r, (data', s')) -> exists steps, SortT data less s = (r, (data', (s', steps)))) /\
  (forall r data' s', StableW data less s = (r, (data', s')) -> exists steps, StableT data less s = (r, (data', (s', steps)))).
Proof.
  intros E S less data s. split; intros r data' s' H.
  - destruct (SortT_same data less s) as (t & HT). rewrite H in HT. now exists t.
  - destruct (StableT_same data less s) as (t & HT). rewrite H in HT. now exists t.
Qed.
Print Assumptions C106_clock.

(** Sort takes O(n log n) steps for every strict weak order. *)
Theorem C106_sort : exists C, forall (E S : Type) (lt : E -> E -> bool) (less : E -> E -> S -> bool * S),
  strict_weak_order lt -> answers less lt -> forall data s, exists data' s' steps,
  SortT data (always less) s = (CRet tt, (data', (s', steps))) /\ steps <= C * zlen data * (Z.log2 (zlen data) + 1) + C.
Proof.
  exists 10000. intros E S lt less HW HA data s.
  destruct (pdq_time lt (fun x y => negb (lt x y)) (reads (always less)) (notLessW (reads (always less))) data s HW) as (data' & s' & t & HT & Ht).
  - reflexivity.
  - intros d x y s0. unfold reads, always. specialize (HA x y s0). destruct (less x y s0) as [b s1]. cbn in *. subst. now exists s1.
  - intros d x y s0. unfold notLessW, reads, always. specialize (HA x y s0). destruct (less x y s0) as [b s1]. cbn in *. subst. now exists s1.
  - exists data', s', t. split; [exact HT|lia].
Qed.
Print Assumptions C106_sort.

Theorem C106_sort_ordered : exists C, forall (E : Type) (ltb geb : E -> E -> bool), total_order_ops ltb geb -> forall data, exists data' steps,
  SortOrderedT ltb geb data = (CRet tt, (data', (tt, steps))) /\ SortOrdered ltb geb data = Ok data' /\
  steps <= C * zlen data * (Z.log2 (zlen data) + 1) + C.
Proof.
  exists 10000. intros E ltb geb [HW HG _] data.
  destruct (pdq_time ltb geb (reads (always (pureCmp ltb))) (reads (always (pureCmp geb))) data tt HW HG) as (data' & [] & t & HT & Ht).
  - intros d x y s0. eexists. reflexivity.
  - intros d x y s0. eexists. reflexivity.
  - exists data', t. split; [exact HT|]. split; [|lia]. unfold SortOrdered.
    destruct (XSort_Timed_Proofs.cl_pdqsort (reads (always (pureCmp ltb))) (reads (always (pureCmp geb))) (Datatypes.S (List.length data)) 0 (zlen data) (bitsLen (zlen data)) data tt 0) as (t' & HC).
    rewrite HT in HC. destruct (pdqsort _ _ _ _ _ _ (data, tt)) as [r [d1 s1]]. injection HC as <- <- _ _. reflexivity.
Qed.
Print Assumptions C106_sort_ordered.

(** Whatever the comparator does, a sort that returns has taken at most ten
    steps for every call of the comparator, and four. *)
Theorem C106_sort_per_comparison : forall (E S : Type) (less : comparatorW E S) data s data' s' calls steps,
  SortT data (countingW less) (s, 0) = (CRet tt, (data', ((s', calls), steps))) -> steps <= 10 * calls + 4.
Proof.
  intros E S less data s data' s' calls steps H.
  assert (H1 : steps <= 10 * (snd (s', calls) - snd (s, 0)) + 4); [|cbn [snd] in H1; lia].
  refine (per_comparison (countingW less) (notLessW (countingW less)) snd _ _ _ _ _ _ _ _ _ _ _ H);
    intros d x y sn; unfold notLessW, countingW; destruct (less d x y (fst sn)) as [r [d' s2]]; reflexivity.
Qed.
Print Assumptions C106_sort_per_comparison.

(** So sorted data takes O(n) steps. *)
Theorem C106_sorted : forall (E S : Type) (lt : E -> E -> bool) (less : E -> E -> S -> bool * S), answers less lt ->
  forall data s, sorted_by lt data -> exists s' steps,
  SortT data (always less) s = (CRet tt, (data, (s', steps))) /\ steps <= 10 * zlen data + 114.
Proof.
  intros E S lt less HA data s HS. destruct (Sort_asc less lt data s HA HS) as (s1 & k & E1 & Hk). apply plain_ok in E1. unfold SortP in E1.
  destruct (SortT_same data (reads (always (counting less))) (s, 0)) as (t & E2). rewrite E1 in E2. cbn [fst snd] in E2.
  assert (Ht : t <= 10 * (snd (s1, k) - snd (s, 0)) + 4).
  { refine (per_comparison (reads (always (counting less))) (notLessW (reads (always (counting less)))) snd _ _ _ _ _ _ _ _ _ _ _ E2);
      intros d x y sn; unfold notLessW, reads, always, counting; destruct (less x y (fst sn)); reflexivity. }
  cbn [snd] in Ht.
  pose proof (al_pdqsort lt (fun x y => negb (lt x y)) (reads (always less)) (notLessW (reads (always less)))
    (reads (always (counting less))) (notLessW (reads (always (counting less))))) as H.
  assert (HL : forall d x y s, exists s', reads (always less) d x y s = (inl (lt x y), (d, s'))).
  { intros d x y s0. unfold reads, always. specialize (HA x y s0). destruct (less x y s0) as [b s2]. cbn in *. subst. now exists s2. }
  assert (HC : forall d x y sn, exists s', reads (always (counting less)) d x y sn = (inl (lt x y), (d, s'))).
  { intros d x y sn. unfold reads, always, counting. specialize (HA x y (fst sn)). destruct (less x y (fst sn)) as [b s2]. cbn in *. subst. eexists. reflexivity. }
  specialize (H HL).
  specialize (H ltac:(intros d x y s0; unfold notLessW; destruct (HL d x y s0) as (s2 & ->); now exists s2) HC
    ltac:(intros d x y sn; unfold notLessW; destruct (HC d x y sn) as (s2 & ->); now exists s2)
    (Datatypes.S (List.length data)) 0 (zlen data) (bitsLen (zlen data)) data s (s, 0) 0).
  unfold SortT in *. rewrite E2 in H. destruct (pdqsortT (reads (always less)) _ _ _ _ _ _) as [r [d1 [s2 t2]]]. destruct H as (-> & -> & ->).
  exists s2, t. split; [reflexivity|]. lia.
Qed.
Print Assumptions C106_sorted.

(** Stable takes O(n log^2 n) steps, whatever the comparator answers. *)
Theorem C106_stable : forall (E S : Type) (less : E -> E -> S -> bool * S) data s, exists data' s' steps,
  StableT data (always less) s = (CRet tt, (data', (s', steps))) /\ steps <= 70 * zlen data * (Z.log2 (zlen data) + 1) ^ 2 + 3.
Proof.
  intros E S less data s. destruct (C04_stable_safe E S less data s) as (data' & s' & HS & _). apply plain_ok in HS. unfold StableP in HS.
  destruct (StableT_same data (reads (always less)) s) as (t & HT). rewrite HS in HT. cbn [fst snd] in HT. exists data', s', t. split; [exact HT|].
  eapply stable_time; [apply zlen_nonneg|exact HT].
Qed.
Print Assumptions C106_stable.

Theorem C106_stable_ordered : forall (E : Type) (ltb geb : E -> E -> bool) data, exists data' steps,
  StableOrderedT ltb geb data = (CRet tt, (data', (tt, steps))) /\ StableOrdered ltb geb data = Ok data' /\
  steps <= 70 * zlen data * (Z.log2 (zlen data) + 1) ^ 2 + 3.
Proof.
  intros E ltb geb data. destruct (C04_stableordered_safe E ltb geb data) as (data' & HS & _). unfold StableOrdered in *.
  destruct (XSort_Timed_Proofs.cl_stable (reads (always (pureCmp ltb))) (reads (always (pureCmp geb))) (Datatypes.S (List.length data)) (zlen data) data tt 0) as (t & HC).
  destruct (stable _ _ _ _ (data, tt)) as [[[]| | |] [d1 []]]; cbn in HS; try discriminate. injection HS as <-. cbn [fst snd] in HC.
  exists d1, t. split; [exact HC|]. split; [reflexivity|]. eapply stable_time; [apply zlen_nonneg|exact HC].
Qed.
Print Assumptions C106_stable_ordered.

(** Non-vacuity: the sorts at work. *)
Example C106_sort_case :
  SortT [9; 3; 14; 1; 12; 6; 0; 13; 5; 8; 2; 11; 7; 4; 10] (countingW (always (pureCmp Z.ltb))) (tt, 0) =
  (CRet tt, ([0; 1; 2; 3; 4; 5; 6; 7; 8; 9; 10; 11; 12; 13; 14], ((tt, 64), 181))).
Proof. vm_compute. reflexivity. Qed.
Example C106_stable_case :
  StableT [9; 3; 14; 1; 22; 12; 6; 0; 13; 21; 5; 8; 2; 20; 11; 7; 4; 15; 19; 10; 16; 18; 17] (countingW (always (pureCmp Z.ltb))) (tt, 0) =
  (CRet tt, ([0; 1; 2; 3; 4; 5; 6; 7; 8; 9; 10; 11; 12; 13; 14; 15; 16; 17; 18; 19; 20; 21; 22], ((tt, 115), 395))).
Proof. vm_compute. reflexivity. Qed.
