(** Properties C92 and C93: ranges, the dummy iterator and the plain methods of
    Slice. *)
From Verif Require Import Base Arr Exn GoSlice GoSlice_Proofs Iter_Model Iter_Spec Algo_Proofs
  XSlice_Model XSlice_Spec XSlice_Proofs XSlice_Facts XSlice_Access.
From Verif Require XSlice_Props.
Local Open Scope string_scope.
Local Open Scope list_scope.
Local Open Scope Z_scope.

(** ** C92: ranges *)

(** Every range of a lawful random-access iterator (those of slices and their
    reverses are, by C17) from position [p] to position [q]: it walks the
    elements between; RangeDistance and Distance count them; the part from i to
    j is a range that walks elements i to j of those. *)
Theorem C92_ranges :
  forall {St It T C} (o : ops St It T) n (plug : C -> list T -> St) at_,
  lawful o n plug at_ -> lawful_random o n plug at_ ->
  forall w l p q, zlen l = n -> 0 <= p <= q -> q <= n ->
  let r := (at_ p, at_ q) in
  walks o (plug w l) (fst r) (snd r) (part p q l) /\
  RangeDistance o r (plug w l) = (Ok (zlen (part p q l)), plug w l) /\
  Distance o (at_ p) (at_ q) (plug w l) = (Ok (zlen (part p q l)), plug w l) /\
  forall i j, 0 <= i <= j -> j <= zlen (part p q l) ->
  exists b e, SubRange o r i j (plug w l) = (Ok (b, e), plug w l) /\
    walks o (plug w l) b e (part i j (part p q l)).
Proof.
  intros St It T C o n plug at_ L LR w l p q Hl Hp Hq r. subst r. assert (Hz := part_len p q l Hp ltac:(lia)).
  split; [now apply (range_walks o n plug at_ L)|]. split; [|split].
  - rewrite (range_distance o n plug at_ LR w l p q Hl ltac:(lia) ltac:(lia)). now rewrite Hz.
  - rewrite (distance o n plug at_ L LR w l p q Hl ltac:(lia) ltac:(lia)). now rewrite Hz.
  - intros i j Hi Hj. rewrite Hz in Hj. exists (at_ (p + i)), (at_ (p + j)). split.
    + apply (sub_range o n plug at_ LR); lia.
    + rewrite part_part by lia. apply (range_walks o n plug at_ L); lia.
Qed.

(** Backwards the distances are negative. *)
Theorem C92_distance_signed :
  forall {St It T C} (o : ops St It T) n (plug : C -> list T -> St) at_,
  lawful o n plug at_ -> lawful_random o n plug at_ ->
  forall w l p q, zlen l = n -> 0 <= p <= n -> 0 <= q <= n ->
  RangeDistance o (at_ p, at_ q) (plug w l) = (Ok (q - p), plug w l) /\
  Distance o (at_ p) (at_ q) (plug w l) = (Ok (q - p), plug w l).
Proof.
  intros St It T C o n plug at_ L LR w l p q Hl Hp Hq.
  split; [now apply (range_distance o n plug at_ LR)|now apply (distance o n plug at_ L LR)].
Qed.

(** Bounds of a part of a slice range: they are counted from the beginning of
    the range and are checked against the slice, not against the end of the
    range; iterators of other slices are refused by Distance, not by
    RangeDistance. *)
Theorem C92_slice_parts :
  forall {T} (h : heap T) (s : slice), valid h s ->
  forall p q, 0 <= p <= len s -> forall i j,
  (0 <= p + i <= len s -> 0 <= p + j <= len s ->
     SubRange (@sliceOps T) (mkIt p s, mkIt q s) i j h = (Ok (mkIt (p + i) s, mkIt (p + j) s), h)) /\
  (~ (0 <= p + i <= len s /\ 0 <= p + j <= len s) ->
     SubRange (@sliceOps T) (mkIt p s, mkIt q s) i j h = (Panic "offset out of bound", h)) /\
  (forall s', (arr s', off s') <> (arr s, off s) ->
     Distance (@sliceOps T) (mkIt p s) (mkIt q s') h = (Panic "compare iterator of different slices", h) /\
     RangeDistance (@sliceOps T) (mkIt p s, mkIt q s') h = (Ok (q - p), h)).
Proof. intros T h s V p q Hp i j. exact (slice_parts h s p q i j Hp). Qed.

(** The dummy iterator stays where it is, reads zero, swallows what is written
    and equals every other. *)
Theorem C92_dummy :
  forall {St T} (zero : T) (s : St) (it other : unit) v k,
  let o := Dummy (St := St) zero in
  Next o it s = (Ok it, s) /\ Prev o it s = (Ok it, s) /\ Add o it k s = (Ok it, s) /\
  Get o it s = (Ok zero, s) /\ Set_ o it v s = (Ok tt, s) /\ Pos o it s = (Ok 0, s) /\
  Equal o it other s = (Ok true, s) /\
  Distance o it other s = (Ok 0, s) /\ RangeDistance o (it, other) s = (Ok 0, s) /\
  walks o s it other [].
Proof. intros St T zero s it other v k o. repeat match goal with |- _ /\ _ => split end; try reflexivity. now apply walks_end. Qed.

(** ** C93: the plain methods of Slice *)
Theorem C93_reads :
  forall {T} (h : heap T) (s : slice), valid h s ->
  Len s = zlen (elems h s) /\ (Empty s = true <-> elems h s = []) /\ Len s <= Cap s /\
  (forall p x q, elems h s = p ++ x :: q -> At s (zlen p) h = (Ok x, h)) /\
  (forall i, ~ 0 <= i < Len s -> At s i h = (Panic idx_msg, h)) /\
  (forall x q, elems h s = x :: q -> First s h = (Ok x, h)) /\
  (forall p x, elems h s = p ++ [x] -> Last s h = (Ok x, h)) /\
  (elems h s = [] -> First s h = (Panic idx_msg, h) /\ Last s h = (Panic idx_msg, h)).
Proof. intros T h s V. exact (reads_ok h s V). Qed.

(** Set changes one memory cell, so that slices which show this cell see the
    new value and no other slice sees a change. *)
Theorem C93_set :
  forall {T} (h : heap T) (s : slice) i v, valid h s ->
  (0 <= i < Len s -> exists h', SetAt s i v h = (Ok tt, h') /\ valid h' s /\
     (forall p x q, elems h s = p ++ x :: q -> zlen p = i -> elems h' s = p ++ v :: q) /\
     cell h' (arr s) (off s + i) = Some v /\
     writes_only h h' (fun a k => a = arr s /\ k = off s + i)) /\
  (~ 0 <= i < Len s -> SetAt s i v h = (Panic idx_msg, h)).
Proof. intros T h s i v V. exact (set_ok h s i v V). Qed.

(** Sub(i, j) shows elements i to j, in the same memory: a Set through it is
    seen by the slice itself.  Beyond the length, up to the capacity, it shows
    what lies there; beyond that it panics. *)
Theorem C93_sub :
  forall {T} (h : heap T) (s : slice) i j, valid h s ->
  (0 <= i <= j -> j <= Cap s ->
     exists r, Sub s i j h = (Ok r, h) /\ valid h r /\ Len r = j - i /\
       (j <= Len s -> elems h r = part i j (elems h s)) /\
       forall k v, 0 <= k < j - i ->
         At r k h = (of_opt idx_msg (cell h (arr s) (off s + i + k)), h) /\
         (i + k < Len s -> SetAt r k v h = SetAt s (i + k) v h)) /\
  (~ (0 <= i <= j /\ j <= Cap s) -> Sub s i j h = (Panic "slice bounds out of range", h)).
Proof. intros T h s i j V. exact (sub_ok h s i j V). Qed.

(** ** Cases that meet the hypotheses *)
Import XSlice_Props.
Example ex_parts : SubRange (@sliceOps Z) (mkIt 1 exSlice, mkIt 3 exSlice) 0 3 exHeap = (Ok (mkIt 1 exSlice, mkIt 4 exSlice), exHeap).
Proof. reflexivity. Qed.
Example ex_walk : exists b e,
  SubRange (ReverseRandom (@sliceOps Z)) (Rev (mkIt 4 exSlice), Rev (mkIt 0 exSlice)) 1 3 exHeap = (Ok (b, e), exHeap) /\
  walks (ReverseRandom (@sliceOps Z)) exHeap b e [3; 3].
Proof.
  eexists _, _. split; [reflexivity|].
  eapply walks_step; [reflexivity..|]. eapply walks_step; [reflexivity..|]. now apply walks_end.
Qed.
Example ex_sub : Sub exSlice 2 5 exHeap = (Ok (mkSlice 2 3 3 3), exHeap) /\ elems exHeap (mkSlice 2 3 3 3) = [3; 5; 8] /\
  Last exSlice exHeap = (Ok 5, exHeap) /\ SetAt exSlice 3 7 exHeap = (Ok tt, [[]; []; [9; 1; 3; 3; 7; 8]]).
Proof. repeat split. Qed.

Print Assumptions C92_ranges. Print Assumptions C92_distance_signed. Print Assumptions C92_slice_parts.
Print Assumptions C92_dummy. Print Assumptions C93_reads. Print Assumptions C93_set. Print Assumptions C93_sub.
