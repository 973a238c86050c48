(** C112: Sort of data with few kinds of elements. *)
From Verif Require Import Base Arr Callback XSort_Model XSort_Spec XSort_CostSpec XSort_Distinct XSort_Timed_Model XSort_Timed_Proofs XSort_Timed_Runs.
Local Open Scope list_scope.
Local Open Scope Z_scope.

(** The comparator's state counts its calls. *)
Theorem C112_comparisons :
  exists C : Z, forall (E : Type) (lt : E -> E -> bool), strict_weak_order lt ->
  forall (data : list E) k, at_most_kinds lt k data ->
  exists data' calls,
    Sort data (fun x y n => (lt x y, n + 1)) 0 = Ok (data', calls) /\
    calls <= C * zlen data * k.
Proof. exists 2000. intros E lt HW data k HK. now apply Sort_few. Qed.
Print Assumptions C112_comparisons.

Lemma pdq_few_time {E S} (f g : E -> E -> bool) (lt ge : comparatorW E S) (data : list E) s k :
  strict_weak_order f -> (forall x y, g x y = negb (f x y)) -> at_most_kinds f k data ->
  (forall d x y s, exists s', lt d x y s = (inl (f x y), (d, s'))) -> (forall d x y s, exists s', ge d x y s = (inl (g x y), (d, s'))) ->
  exists data' s' t, pdqsortT lt ge (Datatypes.S (List.length data)) 0 (zlen data) (bitsLen (zlen data)) (data, (s, 0)) = (CRet tt, (data', (s', t))) /\
    t <= 20000 * zlen data * k + 4.
Proof.
  intros HW Hg HK HL HG. destruct (Sort_few f data k HW HK) as (data' & c & E1 & Hk). apply plain_ok in E1.
  set (less := fun x y (c : Z) => (f x y, c + 1)) in *. unfold SortP in E1.
  destruct (SortT_same data (reads (always less)) 0) as (t & E2). rewrite E1 in E2. cbn [fst snd] in E2.
  pose proof (al_pdqsort f g lt ge (reads (always less)) (notLessW (reads (always less))) HL HG
    ltac:(intros d x y c0; eexists; reflexivity) ltac:(intros d x y c0; eexists; unfold notLessW; cbn; rewrite Hg; reflexivity)
    (Datatypes.S (List.length data)) 0 (zlen data) (bitsLen (zlen data)) data s 0 0) as HA.
  unfold SortT in E2. rewrite E2 in HA. destruct (pdqsortT lt ge _ _ _ _ _) as [r [d1 [s1 t1]]]. destruct HA as (-> & -> & ->).
  exists data', s1, t. split; [reflexivity|].
  assert (HT : t <= 10 * (c - 0) + 4).
  { refine (per_comparison (reads (always less)) (notLessW (reads (always less))) (fun c : Z => c) _ _ _ _ _ _ _ _ _ _ _ E2); reflexivity. }
  nia.
Qed.

(** The same for the running time, and for every comparator that answers by the
    order, whatever else it does to its own state. *)
Theorem C112_time : exists C, forall (E S : Type) (lt : E -> E -> bool) (less : E -> E -> S -> bool * S),
  strict_weak_order lt -> answers less lt -> forall data s k, at_most_kinds lt k data ->
  exists data' s' steps,
  SortT data (always less) s = (CRet tt, (data', (s', steps))) /\ steps <= C * zlen data * k + C.
Proof.
  exists 20000. intros E S lt less HW HA data s k HK.
  destruct (pdq_few_time lt (fun x y => negb (lt x y)) (reads (always less)) (notLessW (reads (always less))) data s k HW) as (data' & s' & t & HT & Ht); auto.
  - intros d x y s0. unfold reads, always. specialize (HA x y s0). destruct (less x y s0) as [b s1]. cbn in *. subst. now exists s1.
  - intros d x y s0. unfold notLessW, reads, always. specialize (HA x y s0). destruct (less x y s0) as [b s1]. cbn in *. subst. now exists s1.
  - exists data', s', t. split; [exact HT|lia].
Qed.
Print Assumptions C112_time.

(** And for SortOrdered. *)
Theorem C112_ordered : exists C, forall (E : Type) (ltb geb : E -> E -> bool), total_order_ops ltb geb ->
  forall data k, at_most_kinds ltb k data -> exists data' steps,
  SortOrderedT ltb geb data = (CRet tt, (data', (tt, steps))) /\ SortOrdered ltb geb data = Ok data' /\
  steps <= C * zlen data * k + C.
Proof.
  exists 20000. intros E ltb geb [HW HG _] data k HK.
  destruct (pdq_few_time ltb geb (reads (always (pureCmp ltb))) (reads (always (pureCmp geb))) data tt k HW HG HK) as (data' & [] & t & HT & Ht).
  - intros d x y s0. eexists. reflexivity.
  - intros d x y s0. eexists. reflexivity.
  - exists data', t. split; [exact HT|]. split; [|lia]. unfold SortOrdered.
    destruct (XSort_Timed_Proofs.cl_pdqsort (reads (always (pureCmp ltb))) (reads (always (pureCmp geb))) (Datatypes.S (List.length data)) 0 (zlen data) (bitsLen (zlen data)) data tt 0) as (t' & HC).
    rewrite HT in HC. destruct (pdqsort _ _ _ _ _ _ (data, tt)) as [r [d1 s1]]. injection HC as <- <- _ _. reflexivity.
Qed.
Print Assumptions C112_ordered.

(** Sixty elements of three kinds that are neither ascending nor descending: more
    comparisons than elements, but fewer than eight per element. *)
Definition flags : list Z := map (fun i => Z.of_nat i * 7 mod 3) (seq 0 60).
Example C112_case : at_most_kinds Z.ltb 3 flags /\
  exists data' calls, Sort flags (fun x y n => (x <? y, n + 1)) 0 = Ok (data', calls) /\ 60 < calls < 8 * 60.
Proof.
  split.
  - exists [0; 1; 2]. split; [reflexivity|]. intros x Hx. exists x. rewrite Z.ltb_irrefl. split; [|auto].
    unfold flags in Hx. apply in_map_iff in Hx. destruct Hx as (i & <- & _).
    pose proof (Z.mod_pos_bound (Z.of_nat i * 7) 3 ltac:(lia)). cbn [In]. lia.
  - eexists. eexists. split; [vm_compute; reflexivity|]. vm_compute. auto.
Qed.
