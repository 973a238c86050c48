(** Property C94: the algorithms with a comparator that need not be an order,
    may change its mind, or panic.  [unruly] says what is left: it does not
    write to the elements and each call moves the meter by at most one. *)
From Coq Require Import Permutation.
From Verif Require Import Base Arr Exn XSort_Spec Iter_Model Iter_Spec Algo_Model Algo_Spec
  Algo_Proofs Algo_Facts Algo_Safe GoSlice XSlice_Model XSlice_Proofs.
From Verif Require Algo_Props.
Local Open Scope string_scope.
Local Open Scope list_scope.
Local Open Scope Z_scope.

(** LowerBound and UpperBound return a position inside the range, or let the
    comparator's panic through; in any case after few calls and without a
    change to the elements. *)
Theorem C94_bounds :
  forall {St It T C} (o : ops St It T) n (plug : C -> list T -> St) at_ comp meter,
  lawful o n plug at_ -> lawful_random o n plug at_ -> unruly comp plug meter ->
  forall w pre mid post v, zlen (pre ++ mid ++ post) = n ->
  let l := pre ++ mid ++ post in
  let range := (at_ (zlen pre), at_ (zlen pre + zlen mid)) in
  let good := fun '(r, s) => exists w', s = plug w' l /\ meter w' <= meter w + bisections (zlen mid) /\
    match r with
    | Ok it => exists k, 0 <= k <= zlen mid /\ it = at_ (zlen pre + k)
    | Panic p => comparator_panic comp p
    | Diverge => False
    end in
  good (LowerBoundAny o comp range v (plug w l)) /\ good (UpperBoundAny o comp range v (plug w l)).
Proof.
  intros St It T C o n plug at_ comp meter L LR HU w pre mid post v Hn l range good.
  pose proof (zlen_nonneg pre); pose proof (zlen_nonneg mid); pose proof (zlen_nonneg post).
  assert (Hn' := Hn). rewrite !zlen_app in Hn'.
  assert (G : forall m, calm plug comp meter m w l (rounds (zlen pre + zlen mid - zlen pre))
      (fun it => exists k, it = at_ k /\ zlen pre <= k <= zlen pre + zlen mid) -> good (m (plug w l))).
  { intros m (r & w' & E & Hm & HQ). rewrite E. exists w'. split; [reflexivity|]. split.
    - rewrite <- (rounds_bisections mid). replace (zlen pre + zlen mid - zlen pre) with (zlen mid) in Hm by lia. exact Hm.
    - destruct r as [it|p|]; [|exact HQ|exact HQ]. destruct HQ as (k & -> & Hk). exists (k - zlen pre). split; [lia|f_equal; lia]. }
  split; apply G.
  - apply (lower_bound_calm o n plug at_ L comp meter HU LR); [exact Hn|lia|lia].
  - apply (upper_bound_calm o n plug at_ L comp meter HU LR); [exact Hn|lia|lia].
Qed.

(** The same for IsSortedUntil and IsSorted, with one call fewer than elements;
    IsSortedUntil never answers the first position of a range with elements. *)
Theorem C94_sorted :
  forall {St It T C} (o : ops St It T) n (plug : C -> list T -> St) at_ comp meter,
  lawful o n plug at_ -> unruly comp plug meter ->
  forall w pre mid post fuel, zlen (pre ++ mid ++ post) = n -> (List.length mid <= fuel)%nat ->
  let l := pre ++ mid ++ post in
  let first := at_ (zlen pre) in
  let last := at_ (zlen pre + zlen mid) in
  (exists r w', IsSortedUntilIterators o comp fuel first last (plug w l) = (r, plug w' l) /\
     meter w' <= meter w + Z.max 0 (zlen mid - 1) /\
     match r with
     | Ok it => exists k, 0 <= k <= zlen mid /\ (mid <> [] -> 0 < k) /\ it = at_ (zlen pre + k)
     | Panic p => comparator_panic comp p
     | Diverge => False
     end) /\
  (exists r w', IsSortedIterators o comp fuel first last (plug w l) = (r, plug w' l) /\
     meter w' <= meter w + Z.max 0 (zlen mid - 1) /\
     match r with Ok _ => True | Panic p => comparator_panic comp p | Diverge => False end).
Proof.
  intros St It T C o n plug at_ comp meter L HU w pre mid post fuel Hn Hf l first last.
  pose proof (zlen_nonneg pre); pose proof (zlen_nonneg mid); pose proof (zlen_nonneg post).
  assert (Hn' := Hn). rewrite !zlen_app in Hn'.
  assert (E : zlen pre + zlen mid - zlen pre - 1 = zlen mid - 1) by lia.
  assert (Hfu : zlen pre + zlen mid - zlen pre <= Z.of_nat fuel) by (unfold zlen; lia). split.
  - destruct (sorted_until_calm o n plug at_ L comp meter HU l w (zlen pre) (zlen pre + zlen mid) fuel Hn) as (r & w' & E' & Hm & HQ);
      [lia|lia|exact Hfu|]. rewrite E in Hm. exists r, w'. split; [exact E'|]. split; [exact Hm|].
    destruct r as [it|p|]; [|exact HQ|exact HQ]. destruct HQ as (k & -> & Hk & Hk'). exists (k - zlen pre). split; [lia|]. split; [|f_equal; lia].
    intros Hne. destruct mid; [congruence|]. rewrite zlen_cons in Hk'. pose proof (zlen_nonneg mid). lia.
  - destruct (is_sorted_calm o n plug at_ L comp meter HU l w (zlen pre) (zlen pre + zlen mid) fuel Hn) as (r & w' & E' & Hm & HQ);
      [lia|lia|exact Hfu|]. rewrite E in Hm. exists r, w'. split; [exact E'|]. split; [exact Hm|exact HQ].
Qed.

(** NextPermutation leaves a permutation of the range and the rest alone.  If
    the comparator panics, nothing has been moved. *)
Theorem C94_next_permutation :
  forall {St It T C} (o : ops St It T) n (plug : C -> list T -> St) at_ comp meter,
  lawful o n plug at_ -> lawful_prev o n plug at_ -> lawful_set o n plug at_ -> lawful_random o n plug at_ ->
  unruly comp plug meter ->
  forall w pre mid post fuel, zlen (pre ++ mid ++ post) = n -> (List.length mid <= fuel)%nat ->
  exists r w' mid',
    NextPermutationAny o comp fuel (at_ (zlen pre), at_ (zlen pre + zlen mid)) (plug w (pre ++ mid ++ post))
      = (r, plug w' (pre ++ mid' ++ post)) /\
    meter w' <= meter w + (Z.max 0 (zlen mid - 1) + bisections (zlen mid)) /\
    match r with
    | Ok _ => Permutation mid mid'
    | Panic p => mid' = mid /\ comparator_panic comp p
    | Diverge => False
    end.
Proof.
  intros St It T C o n plug at_ comp meter L LP LS LR HU w pre mid post fuel Hn Hf.
  destruct (next_safe o n plug at_ L LP LS LR comp meter HU w pre mid post fuel Hn Hf) as (r & w' & m & E & H).
  exists r, w', m. rewrite <- (rounds_bisections mid). split; [exact E|exact H].
Qed.

(** ** Comparators that meet the hypothesis: one that always says yes, and one
    that panics at its third call. *)
Import Algo_Props.
Definition always (x y : Z) : X (heap Z * Z) bool := fun '(h, c) => (Ok true, (h, c + 1)).
Definition thirdPanics (x y : Z) : X (heap Z * Z) bool := fun '(h, c) =>
  (if c =? 2 then Panic "third" else Ok (x <? y), (h, c + 1)).
Example ex_unruly :
  unruly always (plugW Z (store exHeap exSlice)) snd /\ unruly thirdPanics (plugW Z (store exHeap exSlice)) snd.
Proof.
  split; intros x y [[] c] l.
  - exists (Ok true), (tt, c + 1). split; [reflexivity|]. split; [discriminate|cbn; lia].
  - exists (if c =? 2 then Panic "third" else Ok (x <? y)), (tt, c + 1). split; [reflexivity|].
    split; [destruct (c =? 2); discriminate|cbn; lia].
Qed.
Example ex_always : NextPermutationIterators exOps always 4 (mkIt 0 exSlice) (mkIt 4 exSlice) (exHeap, 0)
  = (Ok true, ([[]; []; [9; 1; 3; 5; 3; 8]], 2)).
Proof. reflexivity. Qed.
Example ex_third : NextPermutationIterators exOps thirdPanics 4 (mkIt 0 exSlice) (mkIt 4 exSlice) ([[]; []; [9; 1; 5; 3; 3; 8]], 0)
  = (Panic "third", ([[]; []; [9; 1; 5; 3; 3; 8]], 3)).
Proof. reflexivity. Qed.

Print Assumptions C94_bounds. Print Assumptions C94_sorted. Print Assumptions C94_next_permutation.
