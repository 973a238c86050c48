(** Properties of xsort with comparators that panic (C86). *)
From Coq Require Import Permutation.
From Verif Require Import Base XSort_Model XSort_Spec XSort_PanicRun.

(** C86.  Whatever the comparator does (it may panic, and may look at the slice
    while it is being sorted), when Sort stops the slice holds the elements it
    held before.  Sort stops by returning, or because the comparator panicked
    when it was asked about two elements of the slice; if it returns and the
    answers were those of a strict weak order, the slice is sorted. *)
Theorem C86_sort_panics :
  forall (E S : Type) (lt : E -> E -> bool)
    (less : list E -> E -> E -> S -> (bool + string) * S) (data : list E) (s : S),
  exists r data' s', SortP data less s = (r, (data', s')) /\
    Permutation data data' /\
    ((exists e x y s0, r = CUser e /\ In x data /\ In y data /\ less data' x y s0 = (inr e, s')) \/
     r = CRet tt /\ (strict_weak_order lt -> answers_or_panics less lt -> sorted_by lt data')).
Proof. intros E S lt less data s. exact (SortP_run less lt data s). Qed.

Theorem C86_stable_panics :
  forall (E S : Type) (lt : E -> E -> bool)
    (less : list E -> E -> E -> S -> (bool + string) * S) (data : list E) (s : S),
  exists r data' s', StableP data less s = (r, (data', s')) /\
    Permutation data data' /\
    ((exists e x y s0, r = CUser e /\ In x data /\ In y data /\ less data' x y s0 = (inr e, s')) \/
     r = CRet tt /\ (strict_weak_order lt -> answers_or_panics less lt ->
                     sorted_by lt data' /\ keeps_equiv_order lt data data')).
Proof. intros E S lt less data s. exact (StableP_run less lt data s). Qed.

(** C86.  At every call of the comparator the slice holds a permutation of the
    input, and the arguments are elements of the input. *)
Theorem C86_sort_calls :
  forall (E S : Type) (less : list E -> E -> E -> S -> (bool + string) * S)
    (data : list E) (s : S) r data' s' calls,
  SortP data (recording less) (s, []) = (r, (data', (s', calls))) ->
  Forall (fun '(d, x, y) => Permutation data d /\ In x data /\ In y data) calls.
Proof.
  intros E S less data s r data' s' calls H. pose proof (SortP_seen less data s) as HS. rewrite H in HS.
  eapply Forall_impl; [|exact HS]. intros [[d x] y]. exact (fun h => h).
Qed.

Theorem C86_stable_calls :
  forall (E S : Type) (less : list E -> E -> E -> S -> (bool + string) * S)
    (data : list E) (s : S) r data' s' calls,
  StableP data (recording less) (s, []) = (r, (data', (s', calls))) ->
  Forall (fun '(d, x, y) => Permutation data d /\ In x data /\ In y data) calls.
Proof.
  intros E S less data s r data' s' calls H. pose proof (StableP_seen less data s) as HS. rewrite H in HS.
  eapply Forall_impl; [|exact HS]. intros [[d x] y]. exact (fun h => h).
Qed.

Print Assumptions C86_sort_panics.
Print Assumptions C86_stable_panics.
Print Assumptions C86_sort_calls.
Print Assumptions C86_stable_calls.

(** ** Non-vacuity *)

(** A comparator that panics at its tenth call: the slice is left half sorted. *)
Definition tenth (d : list Z) (x y : Z) (n : Z) : (bool + string) * Z :=
  if n <? 9 then (inl (x <? y), n + 1) else (inr "too many calls"%string, n).
Example tenth_case :
  SortP [5; 2; 4; 1; 3; 0] tenth 0 = (CUser "too many calls", ([1; 2; 3; 4; 5; 0], 9)) /\
  StableP [5; 2; 4; 1; 3; 0] tenth 0 = (CUser "too many calls", ([1; 2; 3; 4; 5; 0], 9)).
Proof. vm_compute. auto. Qed.
Example tenth_answers : answers_or_panics tenth Z.ltb.
Proof. intros d x y s b s' H. unfold tenth in H. destruct (s <? 9); congruence. Qed.

(** One that looks at the slice, and refuses to go on once it is sorted. *)
Definition watchful (d : list Z) (x y : Z) (n : Z) : (bool + string) * Z :=
  match d with
  | [0; 1; 2; 3] => (inr "sorted"%string, n)
  | _ => (inl (x <? y), n + 1)
  end.
Example watchful_case : SortP [2; 0; 1; 3] watchful 0 = (CUser "sorted", ([0; 1; 2; 3], 2)).
Proof. vm_compute. reflexivity. Qed.
Example watchful_returns : SortP [2; 0; 3; 2] watchful 0 = (CRet tt, ([0; 2; 2; 3], 4)).
Proof. vm_compute. reflexivity. Qed.
