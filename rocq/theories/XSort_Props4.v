(** Properties of xsort with comparators that write to the slice (C91). *)
From Coq Require Import Permutation.
From Verif Require Import Base XSort_Model XSort_Spec XSort_Write.

(** C91.  A comparator may do anything but change the length of the slice, which
    no Go function can do to its caller's slice: look at the elements, overwrite
    them, panic, answer without any order.  Sort stops, by returning or because
    the comparator panicked.  Between two calls of the comparator it only
    rearranges the elements, those written by the comparator included; it asks
    only about elements which the slice holds at that time, and at most 19 n^2
    times. *)
Theorem C91_sort_writes :
  forall (E S : Type) (less : list E -> E -> E -> S -> (bool + string) * (list E * S)) (data : list E) (s : S),
  keeps_length less ->
  exists r data' s' calls,
    SortW data less s = (r, (data', s')) /\
    SortW data (recordingW less) (s, []) = (r, (data', (s', calls))) /\
    List.length data' = List.length data /\
    only_rearranged data calls data' /\
    (r = CRet tt \/
     exists e earlier d x y s0,
       r = CUser e /\ calls = earlier ++ [(d, x, y, data')] /\ less d x y s0 = (inr e, (data', s'))) /\
    zlen calls <= 19 * zlen data * zlen data.
Proof.
  intros E S less data s HK. destruct (SortW_run less data s HK) as (r & d' & s' & k & H1 & H2 & H3 & H4 & H5).
  exists r, d', s', k. pose proof (SortW_length less data s r d' s' HK H1). auto 10.
Qed.

(** C91, Stable: at most [3 n (log2 n + 1) + 19 n] questions. *)
Theorem C91_stable_writes :
  forall (E S : Type) (less : list E -> E -> E -> S -> (bool + string) * (list E * S)) (data : list E) (s : S),
  keeps_length less ->
  exists r data' s' calls,
    StableW data less s = (r, (data', s')) /\
    StableW data (recordingW less) (s, []) = (r, (data', (s', calls))) /\
    List.length data' = List.length data /\
    only_rearranged data calls data' /\
    (r = CRet tt \/
     exists e earlier d x y s0,
       r = CUser e /\ calls = earlier ++ [(d, x, y, data')] /\ less d x y s0 = (inr e, (data', s'))) /\
    zlen calls <= 3 * zlen data * (Z.log2 (zlen data) + 1) + 19 * zlen data.
Proof.
  intros E S less data s HK. destruct (StableW_run less data s HK) as (r & d' & s' & k & H1 & H2 & H3 & H4 & H5).
  exists r, d', s', k. pose proof (StableW_length less data s r d' s' HK H1). auto 10.
Qed.

(** C91.  No element is made up: in the end the slice holds elements from the
    beginning and elements written by the comparator. *)
Theorem C91_elements :
  forall (E S : Type) (P : E -> Prop) (less : list E -> E -> E -> S -> (bool + string) * (list E * S)),
  (forall d x y s r d' s', Forall P d -> In x d -> In y d -> less d x y s = (r, (d', s')) -> Forall P d') ->
  forall (data : list E) (s : S), Forall P data ->
  Forall P (fst (snd (SortW data less s))) /\ Forall P (fst (snd (StableW data less s))).
Proof.
  intros E S P less HP data s HD. split.
  - destruct (SortW data less s) as [r [d' s']] eqn:Hr. revert HD Hr.
    apply (SortW_inv less (fun d _ => Forall P d)); [|exact HP].
    intros d1 d2 _ Hp HF. rewrite Forall_forall in *. intros x Hx. apply HF. eapply Permutation_in; [|exact Hx]. now symmetry.
  - destruct (StableW data less s) as [r [d' s']] eqn:Hr. revert HD Hr.
    apply (StableW_inv less (fun d _ => Forall P d)); [|exact HP].
    intros d1 d2 _ Hp HF. rewrite Forall_forall in *. intros x Hx. apply HF. eapply Permutation_in; [|exact Hx]. now symmetry.
Qed.

(** C91.  The calls nest no deeper than for an honest comparator: floor(log2 n)+1
    frames are enough. *)
Theorem C91_depth :
  forall (E S : Type) (less : list E -> E -> E -> S -> (bool + string) * (list E * S)) (data : list E) (s : S) (stack : nat),
  keeps_length less -> Z.log2 (zlen data) + 1 <= Z.of_nat stack ->
  SortWWithin stack data less s = SortW data less s /\ fst (SortW data less s) <> CDiverge /\
  StableWWithin stack data less s = StableW data less s /\ fst (StableW data less s) <> CDiverge.
Proof.
  intros E S less data s stack HK Hst.
  split; [now apply SortWWithin_log2|]. split.
  { destruct (SortW_run less data s HK) as (r & d' & s' & k & -> & _ & _ & H & _). exact (stops_ret _ _ _ _ _ H). }
  split; [now apply StableWWithin_log2|].
  destruct (StableW_run less data s HK) as (r & d' & s' & k & -> & _ & _ & H & _). exact (stops_ret _ _ _ _ _ H).
Qed.

Print Assumptions C91_sort_writes.
Print Assumptions C91_stable_writes.
Print Assumptions C91_elements.
Print Assumptions C91_depth.

(** ** Non-vacuity *)

(** A comparator that reverses the slice at each call. *)
Definition reverser (d : list Z) (x y : Z) (n : Z) : (bool + string) * (list Z * Z) :=
  (inl (x <? y), (rev d, n + 1)).
Example reverser_keeps : keeps_length reverser.
Proof. intros d x y s r d' s' H. injection H as _ <- _. apply rev_length. Qed.
Example reverser_case : SortW [3; 1; 2; 5; 4] reverser 0 = (CRet tt, ([2; 3; 1; 5; 4], 6)).
Proof. vm_compute. reflexivity. Qed.

(** One that writes over the first element, and panics at its fifth call. *)
Definition eraser (d : list Z) (x y : Z) (n : Z) : (bool + string) * (list Z * Z) :=
  if n =? 4 then (inr "enough"%string, (d, n)) else (inl (x <? y), (match d with [] => [] | _ :: d' => x :: d' end, n + 1)).
Example eraser_keeps : keeps_length eraser.
Proof.
  intros d x y s r d' s' H. unfold eraser in H. destruct (s =? 4); injection H as _ <- _; [reflexivity|now destruct d].
Qed.
Example eraser_case : StableW [3; 1; 2; 5; 4] (recordingW eraser) (0, []) =
  (CUser "enough", ([4; 1; 2; 4; 5], (4,
    [([3; 1; 2; 5; 4], 1, 3, [1; 1; 2; 5; 4]); ([1; 1; 2; 5; 4], 2, 1, [2; 1; 2; 5; 4]);
     ([2; 1; 2; 5; 4], 5, 2, [5; 1; 2; 5; 4]); ([5; 1; 2; 5; 4], 4, 5, [4; 1; 2; 5; 4]);
     ([4; 1; 2; 4; 5], 4, 2, [4; 1; 2; 4; 5])]))).
Proof. vm_compute. reflexivity. Qed.
Example eraser_elements : forall d x y s r d' s',
  Forall (fun z => 0 < z < 6) d -> In x d -> In y d -> eraser d x y s = (r, (d', s')) -> Forall (fun z => 0 < z < 6) d'.
Proof.
  intros d x y s r d' s' HF Hx _ H. unfold eraser in H. destruct (s =? 4); injection H as _ <- _; [exact HF|].
  destruct d as [|z d]; [constructor|]. inversion HF; subst. constructor; [|assumption].
  rewrite Forall_forall in HF. now apply HF.
Qed.
