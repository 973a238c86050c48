(** Properties C113 and C114: how often the algorithms call the comparator. *)
From Coq Require Import Permutation Sorted.
From Verif Require Import Base Arr Exn XSort_Spec Iter_Model Iter_Spec Algo_Model Algo_Spec
  Algo_Proofs Algo_Facts Perm_Proofs NextPerm_Proofs Enum_Proofs Algo_Amortised GoSlice XSlice_Model XSlice_Proofs.
From Verif Require Algo_Props.
Local Open Scope string_scope.
Local Open Scope list_scope.
Local Open Scope Z_scope.

(** ** C113: NextPermutation on different elements *)

(** Any number of rounds, from any arrangement and also past the last one. *)
Theorem C113_amortised :
  forall {St It T C} (o : ops St It T) n (plug : C -> list T -> St) at_ comp lt tick,
  lawful o n plug at_ -> lawful_prev o n plug at_ -> lawful_set o n plug at_ -> lawful_random o n plug at_ ->
  answers comp lt tick plug -> strict_weak_order lt ->
  forall w pre mid post fuel, zlen (pre ++ mid ++ post) = n -> (List.length mid <= fuel)%nat ->
  all_different lt mid ->
  forall k, exists calls mid',
    times (NextPermutationAny o comp fuel (at_ (zlen pre), at_ (zlen pre + zlen mid))) k
      (plug w (pre ++ mid ++ post)) (plug (after tick calls w) (pre ++ mid' ++ post)) /\
    Permutation mid mid' /\
    zlen calls <= 4 * Z.of_nat k + 2 * zlen mid.
Proof.
  intros St It T C o n plug at_ comp lt tick L LP LS LR HC O w pre mid post fuel Hn Hf D k.
  destruct (amortised o n plug at_ L LP LS LR comp lt tick HC O k w pre mid post fuel Hn Hf (dist_spec lt mid D))
    as (calls & mid' & E & P & H).
  exists calls, mid'. split; [exact E|]. split; [exact P|].
  pose proof (peaks_range lt mid). pose proof (peaks_range lt mid'). lia.
Qed.

(** The whole loop over the permutations of a sorted range. *)
Theorem C113_loop :
  forall {St It T C} (o : ops St It T) n (plug : C -> list T -> St) at_ comp lt tick,
  lawful o n plug at_ -> lawful_prev o n plug at_ -> lawful_set o n plug at_ -> lawful_random o n plug at_ ->
  answers comp lt tick plug -> strict_weak_order lt -> total lt ->
  forall w pre mid post fuel, zlen (pre ++ mid ++ post) = n -> (List.length mid <= fuel)%nat ->
  all_different lt mid -> sorted_by lt mid ->
  exists states perms calls,
    visits (NextPermutationAny o comp fuel (at_ (zlen pre), at_ (zlen pre + zlen mid)))
      (plug w (pre ++ mid ++ post)) states (plug (after tick calls w) (pre ++ mid ++ post)) /\
    Forall2 (fun s p => exists w, s = plug w (pre ++ p ++ post)) states perms /\
    NoDup perms /\ (forall q, In q perms <-> Permutation mid q) /\
    zlen calls <= 4 * zlen perms.
Proof.
  intros St It T C o n plug at_ comp lt tick L LP LS LR HC O Tot w pre mid post fuel Hn Hf D Srt.
  destruct (enumerates o n plug at_ comp lt tick L LP LS LR HC O Tot w pre mid post fuel Hn Hf Srt)
    as (ss & ps & w' & V & F & _ & ND & All).
  destruct (amortised o n plug at_ L LP LS LR comp lt tick HC O (List.length ss) w pre mid post fuel Hn Hf (dist_spec lt mid D))
    as (calls & mid' & E & P & H).
  assert (Q := times_det _ _ _ _ (times_visits _ _ _ _ V) _ E).
  assert (Hz : zlen mid' = zlen mid) by (unfold zlen; now rewrite (Permutation_length P)).
  apply (plug_inj o n plug at_ L) in Q as Q'; [|assumption|rewrite !zlen_app in *; lia].
  apply app_inv_head, app_inv_tail in Q'. subst mid'.
  exists ss, ps, calls. split; [|split; [exact F|split; [exact ND|split; [exact All|]]]].
  - unfold after. unfold ticks in Q. rewrite <- Q. exact V.
  - assert (List.length ss = List.length ps) by (clear - F; induction F; cbn; congruence). unfold zlen in *. lia.
Qed.

(** ** C114: IsSortedUntil and IsSorted compare neighbours *)

(** Each element with the one before it, from the front, up to the first that
    is less than the one before it. *)
Theorem C114_neighbours :
  forall {St It T C} (o : ops St It T) n (plug : C -> list T -> St) at_ comp lt tick,
  lawful o n plug at_ -> answers comp lt tick plug ->
  forall w pre mid post fuel k, zlen (pre ++ mid ++ post) = n -> (List.length mid <= fuel)%nat ->
  first_drop lt mid k ->
  let l := pre ++ mid ++ post in
  let first := at_ (zlen pre) in
  let last := at_ (zlen pre + zlen mid) in
  let calls := firstn (Z.to_nat k) (combine (tl mid) mid) in
  IsSortedUntilIterators o comp fuel first last (plug w l) = (Ok (at_ (zlen pre + k)), plug (after tick calls w) l) /\
  IsSortedUntilAny o comp fuel (first, last) (plug w l) = (Ok (at_ (zlen pre + k)), plug (after tick calls w) l) /\
  IsSortedIterators o comp fuel first last (plug w l) = (Ok (k =? zlen mid), plug (after tick calls w) l) /\
  IsSortedAny o comp fuel (first, last) (plug w l) = (Ok (k =? zlen mid), plug (after tick calls w) l).
Proof.
  intros St It T C o n plug at_ comp lt tick L HC w pre mid post fuel k Hn Hf Hk l first last calls.
  pose proof (sorted_until_calls o n plug at_ L comp lt tick HC w pre mid post fuel k Hn Hf Hk) as E.
  fold l first last calls in E.
  assert (E' : IsSortedIterators o comp fuel first last (plug w l) = (Ok (k =? zlen mid), plug (after tick calls w) l)).
  { unfold IsSortedIterators. erewrite xbind_ok by exact E. destruct Hk as [Hk _].
    pose proof (zlen_nonneg pre); pose proof (zlen_nonneg post). assert (Hn' := Hn). rewrite !zlen_app in Hn'.
    unfold last. rewrite (law_equal _ _ _ _ L) by (assumption || lia). do 2 f_equal.
    destruct (Z.eqb_spec k (zlen mid)); lia. }
  repeat split; assumption.
Qed.

(** ** The hypotheses are met: all six arrangements of three elements in a slice
    in sixteen calls, where the bound is 24; and two elements out of order. *)
Import Algo_Props.
Definition exSlice3 : slice := mkSlice 2 1 3 5.
Definition exHeap3 : heap Z := [[]; []; [9; 1; 3; 5; 7; 8]].
Example ex_different : all_different Z.ltb [1; 3; 5].
Proof.
  intros [|[|[|i]]] [|[|[|j]]] x y Hij Hx Hy; cbn in *; try lia; try discriminate;
    try (destruct i; discriminate); try (destruct j; discriminate); injection Hx as <-; injection Hy as <-; left; reflexivity.
Qed.
Example ex_loop : visits (NextPermutationAny exOps exComp 4 (mkIt 0 exSlice3, mkIt 3 exSlice3)) (exHeap3, 0)
  [(exHeap3, 0);
   ([[]; []; [9; 1; 5; 3; 7; 8]], 2);
   ([[]; []; [9; 3; 1; 5; 7; 8]], 6);
   ([[]; []; [9; 3; 5; 1; 7; 8]], 8);
   ([[]; []; [9; 5; 1; 3; 7; 8]], 12);
   ([[]; []; [9; 5; 3; 1; 7; 8]], 14)] (exHeap3, 16).
Proof.
  repeat (eapply visits_more; [vm_compute; reflexivity|]); apply visits_last; vm_compute; reflexivity.
Qed.
Example ex_drop : first_drop Z.ltb [3; 5; 4; 1] 2.
Proof.
  split; [cbn; lia|]. split.
  - intros i x y Hi Hx Hy. assert (i = 1) as -> by lia. cbn in Hx, Hy. injection Hx as <-. injection Hy as <-. reflexivity.
  - intros _. exists 5, 4. repeat split.
Qed.
Example ex_drop_calls : firstn (Z.to_nat 2) (combine (tl [3; 5; 4; 1]) [3; 5; 4; 1]) = [(5, 3); (4, 5)].
Proof. reflexivity. Qed.

Print Assumptions C113_amortised. Print Assumptions C113_loop. Print Assumptions C114_neighbours.
