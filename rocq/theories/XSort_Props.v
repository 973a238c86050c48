(** Properties of xsort (C01-C07).  Only theorem statements, one-line proofs
    from the proof files, and non-vacuity examples. *)
From Coq Require Import Permutation.
From Verif Require Import Base XSort_Model XSort_Spec XSort_Pdq XSort_Stab XSort_Cost.

(** C01.  For every comparator (an arbitrary state transformer, hence possibly
    random, inconsistent or stateful) Sort returns and permutes. *)
Theorem C01_sort_safe :
  forall (E S : Type) (less : E -> E -> S -> bool * S) (data : list E) (s : S),
  exists data' s', Sort data less s = Ok (data', s') /\ Permutation data data'.
Proof.
  intros E S less data s.
  destruct (Sort_run less (fun _ _ => true) data s) as (d' & s' & H & Hp & _). eauto.
Qed.

(** C02. *)
Theorem C02_sort_sorts :
  forall (E S : Type) (lt : E -> E -> bool) (less : E -> E -> S -> bool * S),
  strict_weak_order lt -> answers less lt ->
  forall (data : list E) (s : S),
  exists data' s', Sort data less s = Ok (data', s') /\
    Permutation data data' /\ sorted_by lt data'.
Proof.
  intros E S lt less HW Ha data s.
  destruct (Sort_run less lt data s) as (d' & s' & H & Hp & Hs). eauto 6.
Qed.

(** C03, safety: whatever the operators [<] and [>=] answer (NaN). *)
Theorem C03_sortordered_safe :
  forall (E : Type) (ltb geb : E -> E -> bool) (data : list E),
  exists data', SortOrdered ltb geb data = Ok data' /\ Permutation data data'.
Proof.
  intros E ltb geb data.
  destruct (SortOrdered_run ltb geb data) as (d' & H & Hp & _). eauto.
Qed.

(** C03, sortedness for totally ordered element types. *)
Theorem C03_sortordered_sorts :
  forall (E : Type) (ltb geb : E -> E -> bool), total_order_ops ltb geb ->
  forall data : list E,
  exists data', SortOrdered ltb geb data = Ok data' /\
    Permutation data data' /\ sorted_by ltb data'.
Proof.
  intros E ltb geb [HW Hg _] data.
  destruct (SortOrdered_run ltb geb data) as (d' & H & Hp & Hs). eauto.
Qed.

(** C04. *)
Theorem C04_stable_safe :
  forall (E S : Type) (less : E -> E -> S -> bool * S) (data : list E) (s : S),
  exists data' s', Stable data less s = Ok (data', s') /\ Permutation data data'.
Proof.
  intros E S less data s.
  destruct (Stable_run less (fun _ _ => true) data s) as (d' & s' & H & Hp & _). eauto.
Qed.

Theorem C04_stableordered_safe :
  forall (E : Type) (ltb geb : E -> E -> bool) (data : list E),
  exists data', StableOrdered ltb geb data = Ok data' /\ Permutation data data'.
Proof.
  intros E ltb geb data.
  destruct (StableOrdered_run ltb geb data) as (d' & H & Hp & _). eauto.
Qed.

(** C05. *)
Theorem C05_stable_sorts_stably :
  forall (E S : Type) (lt : E -> E -> bool) (less : E -> E -> S -> bool * S),
  strict_weak_order lt -> answers less lt ->
  forall (data : list E) (s : S),
  exists data' s', Stable data less s = Ok (data', s') /\
    Permutation data data' /\ sorted_by lt data' /\ keeps_equiv_order lt data data'.
Proof.
  intros E S lt less HW Ha data s.
  destruct (Stable_run less lt data s) as (d' & s' & H & Hp & Hs).
  destruct (Hs HW Ha). eauto 6.
Qed.

Theorem C05_stableordered_sorts_stably :
  forall (E : Type) (ltb geb : E -> E -> bool),
  strict_weak_order ltb -> (forall x y, geb x y = negb (ltb x y)) ->
  forall data : list E,
  exists data', StableOrdered ltb geb data = Ok data' /\
    Permutation data data' /\ sorted_by ltb data' /\ keeps_equiv_order ltb data data'.
Proof.
  intros E ltb geb HW Hg data.
  destruct (StableOrdered_run ltb geb data) as (d' & H & Hp & Hs).
  destruct (Hs HW Hg). eauto 6.
Qed.

(** C06.  [SortWithin stack] / [StableWithin stack] are the sorts run with room
    for only [stack] nested calls of the recursive function (pdqsortLessFunc,
    symMergeLessFunc), [Diverge] meaning that more were needed.  Room for
    floor(log2 n)+1 calls always suffices and more room changes nothing. *)
Theorem C06_sort_depth :
  forall (E S : Type) (less : E -> E -> S -> bool * S) (data : list E) (s : S) (stack : nat),
  Z.log2 (zlen data) + 1 <= Z.of_nat stack ->
  SortWithin stack data less s = Sort data less s /\
  exists r, Sort data less s = Ok r.
Proof. intros. apply SortWithin_log2. assumption. Qed.

Theorem C06_symmerge_depth :
  forall (E S : Type) (less : E -> E -> S -> bool * S) (data : list E) (s : S) (stack : nat),
  Z.log2 (zlen data) + 1 <= Z.of_nat stack ->
  StableWithin stack data less s = Stable data less s /\
  exists r, Stable data less s = Ok r.
Proof. intros. apply StableWithin_log2. assumption. Qed.

(** C07.  The comparator's state counts its calls. *)
Theorem C07_sort_comparisons :
  exists C : Z, forall (E : Type) (lt : E -> E -> bool), strict_weak_order lt ->
  forall data : list E,
  exists data' calls,
    Sort data (fun x y n => (lt x y, n + 1)) 0 = Ok (data', calls) /\
    calls <= C * zlen data * (Z.log2 (zlen data) + 1).
Proof. exists 1000. intros E lt HW data. apply Sort_cost. exact HW. Qed.

Print Assumptions C01_sort_safe.
Print Assumptions C02_sort_sorts.
Print Assumptions C03_sortordered_safe.
Print Assumptions C03_sortordered_sorts.
Print Assumptions C04_stable_safe.
Print Assumptions C04_stableordered_safe.
Print Assumptions C05_stable_sorts_stably.
Print Assumptions C05_stableordered_sorts_stably.
Print Assumptions C06_sort_depth.
Print Assumptions C06_symmerge_depth.
Print Assumptions C07_sort_comparisons.

(** ** Non-vacuity *)

Lemma Zltb_swo : strict_weak_order Z.ltb.
Proof.
  split; intros; rewrite ?Z.ltb_lt, ?Z.ltb_ge in *; try lia.
Qed.

Lemma Zltb_total : total_order_ops Z.ltb Z.geb.
Proof.
  split; [apply Zltb_swo| |]; intros; rewrite ?Z.ltb_ge in *; try lia.
Qed.

(** A key order with equivalent, distinguishable elements. *)
Definition byKey (x y : Z * Z) : bool := fst x <? fst y.
Lemma byKey_swo : strict_weak_order byKey.
Proof. unfold byKey. split; intros; rewrite ?Z.ltb_lt, ?Z.ltb_ge in *; lia. Qed.

(** A logging comparator still [answers] its order. *)
Definition logging (x y : Z) (log : list (Z * Z)) := (x <? y, (x, y) :: log).
Example logging_answers : answers logging Z.ltb.
Proof. intros x y s. reflexivity. Qed.

Definition pattern (n : nat) : list Z :=
  map (fun i => (Z.of_nat i * 7919 + 13) mod 101) (seq 0 n).

(** 60 elements: uses partitioning, ninther and recursion. *)
Example ex_sort :
  omap fst (Sort (pattern 60) logging []) =
    Ok [0; 2; 3; 5; 6; 8; 9; 12; 13; 15; 16; 18; 19; 21; 22; 24; 25; 27; 28;
        31; 34; 35; 37; 38; 40; 41; 43; 44; 46; 47; 50; 53; 54; 56; 57; 59;
        60; 62; 63; 65; 66; 68; 69; 72; 75; 76; 78; 79; 81; 82; 84; 85; 87;
        88; 91; 94; 95; 97; 98; 100].
Proof. vm_compute. reflexivity. Qed.

Example ex_calls :
  omap snd (Sort (pattern 60) (fun x y n => (x <? y, n + 1)) 0) = Ok 321.
Proof. vm_compute. reflexivity. Qed.

(** An inconsistent, stateful comparator: answers alternate regardless of the
    arguments; the sort still returns. *)
Definition flipflop (x y : Z) (b : bool) := (b, negb b).
Example ex_flipflop :
  match Sort (pattern 60) flipflop true with Ok (d, _) => List.length d | _ => 0%nat end = 60%nat.
Proof. vm_compute. reflexivity. Qed.

(** NaN as 0: both [<] and [>=] are false. *)
Definition nanLt (x y : Z) := negb (x =? 0) && negb (y =? 0) && (x <? y).
Definition nanGe (x y : Z) := negb (x =? 0) && negb (y =? 0) && (x >=? y).
Example ex_nan : exists d', SortOrdered nanLt nanGe [3;0;2;0;1] = Ok d' /\ List.length d' = 5%nat.
Proof. eexists. split; vm_compute; reflexivity. Qed.

Example ex_stable :
  Stable [(2,1);(1,1);(2,2);(1,2);(2,3);(0,1);(1,3)] (fun x y s => (byKey x y, s)) tt
  = Ok ([(0,1);(1,1);(1,2);(1,3);(2,1);(2,2);(2,3)], tt).
Proof. vm_compute. reflexivity. Qed.

(** One frame does not suffice for long inputs: the budget is meaningful. *)
Example ex_depth_needed : SortWithin 1 (pattern 60) logging [] = Diverge.
Proof. vm_compute. reflexivity. Qed.

Example ex_depth_hyp : Z.log2 (zlen (pattern 60)) + 1 <= Z.of_nat 6.
Proof. vm_compute. discriminate. Qed.
