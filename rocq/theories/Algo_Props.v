(** Properties C08-C16 of algo, for every lawful iterator (see Iter_Spec).
    XSlice_Props (C17) shows that slice iterators and their reverses are lawful. *)
From Coq Require Import Permutation Sorted.
From Verif Require Import Base Arr Exn XSort_Spec Iter_Model Iter_Spec Algo_Model Algo_Spec
  Algo_Proofs Perm_Proofs NextPerm_Proofs Enum_Proofs GoSlice GoSlice_Proofs XSlice_Model XSlice_Proofs Algo_Facts.
Local Open Scope string_scope.
Local Open Scope list_scope.
Local Open Scope Z_scope.

(** ** C08: LowerBound *)

(** On a range whose elements less than [v] come first, LowerBound returns the
    position after them, changes nothing and makes few comparisons. *)
Theorem C08_lower_bound :
  forall {St It T C} (o : ops St It T) n (plug : C -> list T -> St) at_ comp lt tick,
  lawful o n plug at_ -> lawful_random o n plug at_ -> answers comp lt tick plug ->
  forall w pre a b post v, zlen (pre ++ (a ++ b) ++ post) = n ->
  (forall x, In x a -> lt x v = true) -> (forall x, In x b -> lt x v = false) ->
  let l := pre ++ (a ++ b) ++ post in
  let first := at_ (zlen pre) in
  let last := at_ (zlen pre + zlen (a ++ b)) in
  exists calls,
    LowerBoundIterators o comp first last v (plug w l) = (Ok (at_ (zlen pre + zlen a)), plug (after tick calls w) l) /\
    LowerBoundAny o comp (first, last) v (plug w l) = (Ok (at_ (zlen pre + zlen a)), plug (after tick calls w) l) /\
    zlen calls <= bisections (zlen (a ++ b)).
Proof.
  intros. destruct (lower_bound o n plug at_ H comp lt tick H1 H0 w pre a b post v H2 H3 H4) as (calls & E & Hc).
  exists calls. repeat split; [exact E|exact E|]. now rewrite <- rounds_bisections.
Qed.

(** On a range sorted by a strict weak order there is always such a position. *)
Theorem C08_lower_bound_sorted :
  forall {St It T C} (o : ops St It T) n (plug : C -> list T -> St) at_ comp lt tick,
  lawful o n plug at_ -> lawful_random o n plug at_ -> answers comp lt tick plug -> strict_weak_order lt ->
  forall w pre mid post v, zlen (pre ++ mid ++ post) = n -> sorted_by lt mid ->
  exists k w', 0 <= k <= zlen mid /\
    LowerBoundIterators o comp (at_ (zlen pre)) (at_ (zlen pre + zlen mid)) v (plug w (pre ++ mid ++ post))
      = (Ok (at_ (zlen pre + k)), plug w' (pre ++ mid ++ post)) /\
    (forall i x, zget mid i = Some x -> (lt x v = true <-> i < k)).
Proof.
  intros. destruct (sorted_split_lower lt H2 v mid H4) as (a & b & -> & Ha & Hb).
  destruct (lower_bound o n plug at_ H comp lt tick H1 H0 w pre a b post v H3 Ha Hb) as (calls & E & _).
  exists (zlen a), (after tick calls w). pose proof (zlen_nonneg a). pose proof (zlen_nonneg b).
  split; [rewrite zlen_app; lia|]. split; [exact E|]. now apply split_index.
Qed.

(** ** C09: UpperBound *)
Theorem C09_upper_bound :
  forall {St It T C} (o : ops St It T) n (plug : C -> list T -> St) at_ comp lt tick,
  lawful o n plug at_ -> lawful_random o n plug at_ -> answers comp lt tick plug ->
  forall w pre a b post v, zlen (pre ++ (a ++ b) ++ post) = n ->
  (forall x, In x a -> lt v x = false) -> (forall x, In x b -> lt v x = true) ->
  let l := pre ++ (a ++ b) ++ post in
  let first := at_ (zlen pre) in
  let last := at_ (zlen pre + zlen (a ++ b)) in
  exists calls,
    UpperBoundIterators o comp first last v (plug w l) = (Ok (at_ (zlen pre + zlen a)), plug (after tick calls w) l) /\
    UpperBoundAny o comp (first, last) v (plug w l) = (Ok (at_ (zlen pre + zlen a)), plug (after tick calls w) l) /\
    zlen calls <= bisections (zlen (a ++ b)).
Proof.
  intros. destruct (upper_bound o n plug at_ H comp lt tick H1 H0 w pre a b post v H2 H3 H4) as (calls & E & Hc).
  exists calls. repeat split; [exact E|exact E|]. now rewrite <- rounds_bisections.
Qed.

Theorem C09_upper_bound_sorted :
  forall {St It T C} (o : ops St It T) n (plug : C -> list T -> St) at_ comp lt tick,
  lawful o n plug at_ -> lawful_random o n plug at_ -> answers comp lt tick plug -> strict_weak_order lt ->
  forall w pre mid post v, zlen (pre ++ mid ++ post) = n -> sorted_by lt mid ->
  exists k w', 0 <= k <= zlen mid /\
    UpperBoundIterators o comp (at_ (zlen pre)) (at_ (zlen pre + zlen mid)) v (plug w (pre ++ mid ++ post))
      = (Ok (at_ (zlen pre + k)), plug w' (pre ++ mid ++ post)) /\
    (forall i x, zget mid i = Some x -> (lt v x = false <-> i < k)).
Proof.
  intros. destruct (sorted_split_upper lt H2 v mid H4) as (a & b & -> & Ha & Hb).
  destruct (upper_bound o n plug at_ H comp lt tick H1 H0 w pre a b post v H3 Ha Hb) as (calls & E & _).
  exists (zlen a), (after tick calls w). pose proof (zlen_nonneg a). pose proof (zlen_nonneg b).
  split; [rewrite zlen_app; lia|]. split; [exact E|].
  intros i x Hx. rewrite <- (split_index (fun x => negb (lt v x)) a b) with (x := x) (i := i); [|..|exact Hx].
  - destruct (lt v x); cbn; intuition discriminate.
  - intros y Hy. now rewrite Ha.
  - intros y Hy. now rewrite Hb.
Qed.

(** ** C10: reversed and empty ranges.  Nothing is assumed of the comparator. *)
Theorem C10_reversed_range_panics :
  forall {St It T C} (o : ops St It T) n (plug : C -> list T -> St) at_ comp,
  lawful o n plug at_ -> lawful_random o n plug at_ ->
  forall w l i j v, zlen l = n -> 0 <= j < i -> i <= n ->
    LowerBoundIterators o comp (at_ i) (at_ j) v (plug w l) = (Panic "invalid range", plug w l) /\
    UpperBoundIterators o comp (at_ i) (at_ j) v (plug w l) = (Panic "invalid range", plug w l).
Proof.
  intros. unfold LowerBoundIterators, UpperBoundIterators.
  erewrite !xbind_ok by (apply (distance o n plug at_ H H0); lia).
  replace (j - i <? 0) with true by lia. split; reflexivity.
Qed.

Theorem C10_empty_range_no_calls :
  forall {St It T C} (o : ops St It T) n (plug : C -> list T -> St) at_ comp,
  lawful o n plug at_ -> lawful_random o n plug at_ ->
  forall w l i v, zlen l = n -> 0 <= i <= n ->
    LowerBoundIterators o comp (at_ i) (at_ i) v (plug w l) = (Ok (at_ i), plug w l) /\
    UpperBoundIterators o comp (at_ i) (at_ i) v (plug w l) = (Ok (at_ i), plug w l).
Proof.
  intros. unfold LowerBoundIterators, UpperBoundIterators.
  erewrite !xbind_ok by (apply (distance o n plug at_ H H0); lia).
  rewrite Z.sub_diag. split; reflexivity.
Qed.

(** ** C11: IsSortedUntil, IsSorted.  The comparator need not be an order. *)
Theorem C11_sorted_until :
  forall {St It T C} (o : ops St It T) n (plug : C -> list T -> St) at_ comp lt tick,
  lawful o n plug at_ -> answers comp lt tick plug ->
  forall w pre mid post fuel, zlen (pre ++ mid ++ post) = n -> (List.length mid <= fuel)%nat ->
  exists k w', first_drop lt mid k /\
    IsSortedUntilIterators o comp fuel (at_ (zlen pre)) (at_ (zlen pre + zlen mid)) (plug w (pre ++ mid ++ post))
    = (Ok (at_ (zlen pre + k)), plug w' (pre ++ mid ++ post)).
Proof. exact @sorted_until_spec. Qed.

Theorem C11_is_sorted :
  forall {St It T C} (o : ops St It T) n (plug : C -> list T -> St) at_ comp lt tick,
  lawful o n plug at_ -> answers comp lt tick plug ->
  forall w pre mid post fuel, zlen (pre ++ mid ++ post) = n -> (List.length mid <= fuel)%nat ->
  exists b w',
    IsSortedIterators o comp fuel (at_ (zlen pre)) (at_ (zlen pre + zlen mid)) (plug w (pre ++ mid ++ post))
      = (Ok b, plug w' (pre ++ mid ++ post)) /\
    (b = true <-> forall i x y, zget mid i = Some x -> zget mid (i + 1) = Some y -> lt y x = false) /\
    (strict_weak_order lt -> (b = true <-> sorted_by lt mid)).
Proof. exact @is_sorted_spec. Qed.

(** ** C12: Reverse *)
Theorem C12_reverse :
  forall {St It T C} (o : ops St It T) n (plug : C -> list T -> St) at_,
  lawful o n plug at_ -> lawful_set o n plug at_ -> lawful_prev o n plug at_ ->
  forall w pre mid post fuel, zlen (pre ++ mid ++ post) = n -> (List.length mid <= fuel)%nat ->
    ReverseElems o fuel (at_ (zlen pre)) (at_ (zlen pre + zlen mid)) (plug w (pre ++ mid ++ post))
    = (Ok tt, plug w (pre ++ rev mid ++ post)).
Proof. intros. now apply reverse_elems with n. Qed.

(** ** C13: Swap and FillN *)
Theorem C13_swap :
  forall {St It T C} (o : ops St It T) n (plug : C -> list T -> St) at_,
  lawful o n plug at_ -> lawful_set o n plug at_ ->
  forall w l i j x y, zlen l = n -> zget l i = Some x -> zget l j = Some y ->
  exists l', Swap o (at_ i) (at_ j) (plug w l) = (Ok tt, plug w l') /\
    zlen l' = n /\ zget l' i = Some y /\ zget l' j = Some x /\
    (forall k, k <> i -> k <> j -> zget l' k = zget l k).
Proof. exact @swap_spec. Qed.

Theorem C13_fill_n :
  forall {St It T C} (o : ops St It T) n (plug : C -> list T -> St) at_,
  lawful o n plug at_ -> lawful_set o n plug at_ ->
  forall w pre mid post v, zlen (pre ++ mid ++ post) = n ->
    FillN o (at_ (zlen pre)) (zlen mid) v (plug w (pre ++ mid ++ post))
    = (Ok (at_ (zlen pre + zlen mid)), plug w (pre ++ map (fun _ => v) mid ++ post)).
Proof.
  intros. unfold FillN. replace (Z.to_nat (zlen mid)) with (List.length mid) by (unfold zlen; lia).
  rewrite (fill_n o n plug at_ H H0) by assumption.
  now rewrite map_const_repeat.
Qed.

(** No iterator law is needed when there is nothing to fill. *)
Theorem C13_fill_none :
  forall {St It T} (o : ops St It T) (first : It) count v s, count <= 0 -> FillN o first count v s = (Ok first, s).
Proof. intros. unfold FillN. now replace (Z.to_nat count) with O by lia. Qed.

(** ** C14: the next permutation *)
Theorem C14_next_permutation :
  forall {St It T C} (o : ops St It T) n (plug : C -> list T -> St) at_ comp lt tick,
  lawful o n plug at_ -> lawful_prev o n plug at_ -> lawful_set o n plug at_ -> lawful_random o n plug at_ ->
  answers comp lt tick plug -> strict_weak_order lt ->
  forall w pre mid post fuel, zlen (pre ++ mid ++ post) = n -> (List.length mid <= fuel)%nat ->
  exists b w' mid',
    NextPermutationAny o comp fuel (at_ (zlen pre), at_ (zlen pre + zlen mid)) (plug w (pre ++ mid ++ post))
      = (Ok b, plug w' (pre ++ mid' ++ post)) /\
    Permutation mid mid' /\
    (b = true -> lexlt lt mid mid' /\ forall q, Permutation mid q -> ~ (lexlt lt mid q /\ lexlt lt q mid')).
Proof.
  intros.
  destruct (next_step o n plug at_ H H0 H1 H2 comp lt tick H3 H4 pre post (zlen mid) fuel) with (w := w) (p := mid)
    as [(w' & p' & E & P & Lt & Least)|(w' & E & D)]; [rewrite !zlen_app in *; lia|unfold zlen; lia|reflexivity| |].
  - exists true, w', p'. repeat split; auto. intros q Hq [Ha Hb]. now apply (Least q).
  - exists false, w', (rev mid). repeat split; auto using Permutation_rev; discriminate.
Qed.

(** ** C15: the last permutation *)
Theorem C15_wraps_at_the_last :
  forall {St It T C} (o : ops St It T) n (plug : C -> list T -> St) at_ comp lt tick,
  lawful o n plug at_ -> lawful_prev o n plug at_ -> lawful_set o n plug at_ -> lawful_random o n plug at_ ->
  answers comp lt tick plug -> strict_weak_order lt ->
  forall w pre mid post fuel, zlen (pre ++ mid ++ post) = n -> (List.length mid <= fuel)%nat ->
  exists b w' mid',
    NextPermutationAny o comp fuel (at_ (zlen pre), at_ (zlen pre + zlen mid)) (plug w (pre ++ mid ++ post))
      = (Ok b, plug w' (pre ++ mid' ++ post)) /\
    (b = false <-> non_increasing lt mid) /\
    (b = false <-> forall q, Permutation mid q -> ~ lexlt lt mid q) /\
    (b = false -> Permutation mid mid' /\ sorted_by lt mid').
Proof.
  intros.
  destruct (next_step o n plug at_ H H0 H1 H2 comp lt tick H3 H4 pre post (zlen mid) fuel) with (w := w) (p := mid)
    as [(w' & p' & E & P & Lt & Least)|(w' & E & D)]; [rewrite !zlen_app in *; lia|unfold zlen; lia|reflexivity| |].
  - exists true, w', p'. split; [exact E|]. repeat split; try discriminate.
    + intros D. apply desc_non_increasing in D. exfalso. revert Lt. apply (desc_greatest lt H4); [assumption|now apply perm_same].
    + intros Hq. exfalso. now apply (Hq p').
  - exists false, w', (rev mid). split; [exact E|]. repeat split; auto.
    + intros _. now apply desc_non_increasing.
    + intros _ q Hq. apply (desc_greatest lt H4); [assumption|now apply perm_same].
    + apply Permutation_rev.
    + apply asc_sorted, asc_rev. assumption.
Qed.

(** ** C16: the loop over all permutations *)
Theorem C16_enumerates_all_permutations :
  forall {St It T C} (o : ops St It T) n (plug : C -> list T -> St) at_ comp lt tick,
  lawful o n plug at_ -> lawful_prev o n plug at_ -> lawful_set o n plug at_ -> lawful_random o n plug at_ ->
  answers comp lt tick plug -> strict_weak_order lt -> total lt ->
  forall w pre mid post fuel, zlen (pre ++ mid ++ post) = n -> (List.length mid <= fuel)%nat ->
  sorted_by lt mid ->
  exists states perms w',
    visits (NextPermutationAny o comp fuel (at_ (zlen pre), at_ (zlen pre + zlen mid)))
      (plug w (pre ++ mid ++ post)) states (plug w' (pre ++ mid ++ post)) /\
    Forall2 (fun s p => exists w, s = plug w (pre ++ p ++ post)) states perms /\
    StronglySorted (lexlt lt) perms /\ NoDup perms /\
    (forall q, In q perms <-> Permutation mid q).
Proof. exact @enumerates. Qed.

(** ** The hypotheses are met by a slice in a larger array, with a comparator
    that counts its calls. *)
Definition exHeap : heap Z := [[]; []; [9; 1; 3; 3; 5; 8]].
Definition exSlice : slice := mkSlice 2 1 4 5.
Definition exOps : ops (heap Z * Z) iterator Z := liftOps sliceOps Z.
Definition exComp (x y : Z) : X (heap Z * Z) bool := fun '(h, c) => (Ok (x <? y), (h, c + 1)).

Example ex_valid : valid exHeap exSlice.
Proof. repeat split; cbn; try lia. exists [9; 1; 3; 3; 5; 8]. split; [reflexivity|cbn; lia]. Qed.
Example ex_hypotheses :
  lawful exOps 4 (plugW Z (store exHeap exSlice)) (fun i => mkIt i exSlice) /\
  lawful_prev exOps 4 (plugW Z (store exHeap exSlice)) (fun i => mkIt i exSlice) /\
  lawful_set exOps 4 (plugW Z (store exHeap exSlice)) (fun i => mkIt i exSlice) /\
  lawful_random exOps 4 (plugW Z (store exHeap exSlice)) (fun i => mkIt i exSlice) /\
  answers exComp Z.ltb (fun _ _ '(u, c) => (u, c + 1)) (plugW Z (store exHeap exSlice)) /\
  strict_weak_order Z.ltb /\ total Z.ltb /\
  plugW Z (store exHeap exSlice) (tt, 0) [1; 3; 3; 5] = (exHeap, 0).
Proof.
  assert (V := ex_valid).
  split; [exact (lift_lawful sliceOps Z 4 _ _ (slice_lawful exHeap exSlice V))|].
  split; [exact (lift_prev sliceOps Z 4 _ _ (slice_prev exHeap exSlice))|].
  split; [exact (lift_set sliceOps Z 4 _ _ (slice_set exHeap exSlice V))|].
  split; [exact (lift_random sliceOps Z 4 _ _ (slice_random exHeap exSlice))|].
  split; [intros x y [[] c] l; reflexivity|].
  split; [split; intros; lia|]. split; [intros x y; lia|]. reflexivity.
Qed.
Example ex_lower : LowerBoundIterators exOps exComp (mkIt 0 exSlice) (mkIt 4 exSlice) 3 (exHeap, 0)
  = (Ok (mkIt 1 exSlice), (exHeap, 3)).
Proof. reflexivity. Qed.
Example ex_upper : UpperBoundIterators exOps exComp (mkIt 0 exSlice) (mkIt 4 exSlice) 3 (exHeap, 0)
  = (Ok (mkIt 3 exSlice), (exHeap, 2)).
Proof. reflexivity. Qed.
Example ex_sorted : sorted_by Z.ltb [1; 3; 3; 5].
Proof.
  apply asc_sorted; cbn; repeat split; intros e He; repeat destruct He as [<-|He]; try contradiction; reflexivity.
Qed.
Example ex_next : NextPermutationIterators exOps exComp 4 (mkIt 0 exSlice) (mkIt 4 exSlice) ([[]; []; [9; 3; 5; 3; 1; 8]], 0)
  = (Ok true, ([[]; []; [9; 5; 1; 3; 3; 8]], 5)).
Proof. reflexivity. Qed.

Print Assumptions C08_lower_bound. Print Assumptions C08_lower_bound_sorted.
Print Assumptions C09_upper_bound. Print Assumptions C09_upper_bound_sorted.
Print Assumptions C10_reversed_range_panics. Print Assumptions C10_empty_range_no_calls.
Print Assumptions C11_sorted_until. Print Assumptions C11_is_sorted.
Print Assumptions C12_reverse. Print Assumptions C13_swap. Print Assumptions C13_fill_n. Print Assumptions C13_fill_none.
Print Assumptions C14_next_permutation. Print Assumptions C15_wraps_at_the_last.
Print Assumptions C16_enumerates_all_permutations.
