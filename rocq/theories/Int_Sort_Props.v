(** C104: the sorts with 64-bit ints. *)
From Coq Require Import Permutation.
From Verif Require Import Base Callback XSort_Model XSort_Spec XSort_Props Int_Sort_Model Int_Sort_Proofs.
Local Open Scope list_scope.
Local Open Scope Z_scope.

(** *** Up to 2^62 elements (Sort) and 2^61 (Stable), wrapping ints make no
    difference: with every comparator, even one that panics or writes to the
    slice, the result, the elements left behind and the calls of the comparator
    (its state) are the same. *)
Theorem C104_same : forall (E S : Type) (less : list E -> E -> E -> S -> (bool + string) * (list E * S)) data s,
  (zlen data <= 2 ^ 62 -> SortI data less s = SortW data less s) /\
  (zlen data <= 2 ^ 61 -> StableI data less s = StableW data less s).
Proof. intros E S less data s. split; intros H; [apply SortI_eq|apply StableI_eq]; exact H. Qed.
Print Assumptions C104_same.

Theorem C104_ordered_same : forall E (ltb geb : E -> E -> bool) data,
  (zlen data <= 2 ^ 62 -> SortOrderedI ltb geb data = SortOrdered ltb geb data) /\
  (zlen data <= 2 ^ 61 -> StableOrderedI ltb geb data = StableOrdered ltb geb data).
Proof. intros E ltb geb data. split; intros H; [apply SortOrderedI_eq|apply StableOrderedI_eq]; exact H. Qed.
Print Assumptions C104_ordered_same.

(** In particular the sorts with 64-bit ints are safe for every comparator, and
    sort, stably, for every strict weak order. *)
Theorem C104_sorts : forall (E S : Type) (less : E -> E -> S -> bool * S) (data : list E) (s : S), zlen data <= 2 ^ 61 ->
  (exists data' s', SortI data (always less) s = (CRet tt, (data', s')) /\ Permutation data data' /\
    forall lt, strict_weak_order lt -> answers less lt -> sorted_by lt data') /\
  (exists data' s', StableI data (always less) s = (CRet tt, (data', s')) /\ Permutation data data' /\
    forall lt, strict_weak_order lt -> answers less lt -> sorted_by lt data' /\ keeps_equiv_order lt data data').
Proof.
  intros E S less data s H. assert (H2 : 2 ^ 61 <= 2 ^ 62) by (apply Z.pow_le_mono_r; lia).
  assert (OK : forall r : cres unit * (list E * S), forall x, plain r = Ok x -> r = (CRet tt, x)).
  { intros [[[]| | |] y] x E'; cbn in E'; try discriminate. congruence. }
  split.
  - rewrite (proj1 (C104_same E S (reads (always less)) data s)) by lia.
    destruct (C01_sort_safe E S less data s) as (d' & s' & E1 & HP). exists d', s'. split; [apply OK; exact E1|]. split; [exact HP|].
    intros lt HW HA. destruct (C02_sort_sorts E S lt less HW HA data s) as (d2 & s2 & E2 & _ & HS). rewrite E1 in E2. injection E2 as <- <-. exact HS.
  - rewrite (proj2 (C104_same E S (reads (always less)) data s)) by lia.
    destruct (C04_stable_safe E S less data s) as (d' & s' & E1 & HP). exists d', s'. split; [apply OK; exact E1|]. split; [exact HP|].
    intros lt HW HA. destruct (C05_stable_sorts_stably E S lt less HW HA data s) as (d2 & s2 & E2 & _ & HS). rewrite E1 in E2. injection E2 as <- <-. exact HS.
Qed.
Print Assumptions C104_sorts.

(** Non-vacuity: the wrapping sorts at work on slices long enough for
    partitioning and merging. *)
Example C104_sort_case :
  SortI [9; 3; 14; 1; 12; 6; 0; 13; 5; 8; 2; 11; 7; 4; 10] (always (pureCmp Z.ltb)) tt = (CRet tt, ([0; 1; 2; 3; 4; 5; 6; 7; 8; 9; 10; 11; 12; 13; 14], tt)).
Proof. vm_compute. reflexivity. Qed.
Example C104_stable_case :
  StableI [9; 3; 14; 1; 22; 12; 6; 0; 13; 21; 5; 8; 2; 20; 11; 7; 4; 15; 19; 10; 16; 18; 17] (always (pureCmp Z.ltb)) tt =
  (CRet tt, ([0; 1; 2; 3; 4; 5; 6; 7; 8; 9; 10; 11; 12; 13; 14; 15; 16; 17; 18; 19; 20; 21; 22], tt)).
Proof. vm_compute. reflexivity. Qed.
