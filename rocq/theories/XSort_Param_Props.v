(** Property C121: the sorts see elements only through the comparator. *)
From Coq Require Import Permutation.
From Verif Require Import Base XSort_Model XSort_Param_Spec XSort_Param_Proofs XSort_Props.

(** Any comparators: ones that keep a state, panic, or write to the slice.  If
    they answer alike on related elements then Sort, and Stable, end alike on
    related slices: both return or both panic with the same message, and the
    slices are related one by one. *)
Theorem C121_related {E1 E2 S1 S2} (R : E1 -> E2 -> Prop) (Q : S1 -> S2 -> Prop)
  (less1 : comparatorW E1 S1) (less2 : comparatorW E2 S2) data1 data2 s1 s2 :
  alike R Q less1 less2 -> Forall2 R data1 data2 -> Q s1 s2 ->
  (let '(r1, (d1, t1)) := SortW data1 less1 s1 in let '(r2, (d2, t2)) := SortW data2 less2 s2 in
   r1 = r2 /\ Forall2 R d1 d2 /\ Q t1 t2) /\
  (let '(r1, (d1, t1)) := StableW data1 less1 s1 in let '(r2, (d2, t2)) := StableW data2 less2 s2 in
   r1 = r2 /\ Forall2 R d1 d2 /\ Q t1 t2).
Proof.
  intros H Hd Hs. split.
  - pose proof (SortW_rel R Q less1 less2 data1 data2 s1 s2 H Hd Hs) as [A [B C]].
    destruct (SortW data1 less1 s1) as [r1 [d1 t1]], (SortW data2 less2 s2) as [r2 [d2 t2]]. auto.
  - pose proof (StableW_rel R Q less1 less2 data1 data2 s1 s2 H Hd Hs) as [A [B C]].
    destruct (StableW data1 less1 s1) as [r1 [d1 t1]], (StableW data2 less2 s2) as [r2 [d2 t2]]. auto.
Qed.

(** Sorting what f makes of the elements is what f makes of the elements sorted
    by what f makes of them; the comparator ends in the same state, so it was
    called on the same elements in the same order. *)
Theorem C121_map {A B S} (f : A -> B) (less : comparator B S) (data : list A) (s : S) :
  Sort (map f data) less s =
    omap (fun '(l, s) => (map f l, s)) (Sort data (fun x y => less (f x) (f y)) s) /\
  Stable (map f data) less s =
    omap (fun '(l, s) => (map f l, s)) (Stable data (fun x y => less (f x) (f y)) s).
Proof.
  assert (HA : alike (fun x y => f x = y) eq (reads (always (fun x y => less (f x) (f y)))) (reads (always less))).
  { apply alike_always. intros x1 x2 y1 y2 s0 <- <-. reflexivity. }
  assert (HD : Forall2 (fun x y => f x = y) data (map f data)) by now apply Forall2_map_r.
  split; (apply map_of_rel; [apply (SortW_rel _ _ _ _ _ _ s s HA HD eq_refl) || apply (StableW_rel _ _ _ _ _ _ s s HA HD eq_refl)..]).
Qed.

(** Two slices of the same length, of whatever types, whose comparators answer
    alike for the same positions are rearranged in the same way. *)
Theorem C121_same_moves {A B S} (da : list A) (db : list B) (lessA : comparator A S) (lessB : comparator B S) (s : S) :
  List.length da = List.length db ->
  (forall i j x y u v s, nth_error da i = Some x -> nth_error da j = Some y ->
     nth_error db i = Some u -> nth_error db j = Some v -> lessA x y s = lessB u v s) ->
  (exists p la lb s', Permutation (seq 0 (List.length da)) p /\
     Sort da lessA s = Ok (la, s') /\ picked da p la /\ Sort db lessB s = Ok (lb, s') /\ picked db p lb) /\
  (exists p la lb s', Permutation (seq 0 (List.length da)) p /\
     Stable da lessA s = Ok (la, s') /\ picked da p la /\ Stable db lessB s = Ok (lb, s') /\ picked db p lb).
Proof.
  intros HL HT.
  set (less := fun (i j : nat) (s : S) => match nth_error da i, nth_error da j with
               | Some x, Some y => lessA x y s | _, _ => (false, s) end).
  assert (PA : alike (fun i x => nth_error da i = Some x) eq (reads (always less)) (reads (always lessA))).
  { apply alike_always. intros i x j y s0 Hi Hj. unfold less. now rewrite Hi, Hj. }
  assert (PB : alike (fun i u => nth_error db i = Some u) eq (reads (always less)) (reads (always lessB))).
  { apply alike_always. intros i u j v s0 Hi Hj. unfold less.
    assert (Li : (i < List.length da)%nat) by (rewrite HL; apply nth_error_Some; congruence).
    assert (Lj : (j < List.length da)%nat) by (rewrite HL; apply nth_error_Some; congruence).
    destruct (nth_error da i) eqn:Ei; [|apply nth_error_None in Ei; lia].
    destruct (nth_error da j) eqn:Ej; [|apply nth_error_None in Ej; lia]. eauto. }
  assert (SEQ : forall {C} (d : list C), Forall2 (fun i x => nth_error ([] ++ d) i = Some x) (seq 0 (List.length d)) d).
  { intros C d. change 0%nat with (List.length (@nil C)). generalize (@nil C) as pre.
    induction d as [|x d IH]; intros pre; cbn; constructor.
    - rewrite nth_error_app2 by lia. now rewrite Nat.sub_diag.
    - specialize (IH (pre ++ [x])). rewrite app_length, Nat.add_1_r, <- app_assoc in IH. exact IH. }
  assert (DB : Forall2 (fun i x => nth_error db i = Some x) (seq 0 (List.length da)) db) by (rewrite HL; apply SEQ).
  pose proof (SEQ A da) as DA. split.
  - destruct (C01_sort_safe nat S less (seq 0 (List.length da)) s) as (p & s' & E & P).
    pose proof (SortW_rel _ _ _ _ _ _ s s PA DA eq_refl) as [A1 A2].
    pose proof (SortW_rel _ _ _ _ _ _ s s PB DB eq_refl) as [B1 B2].
    pose proof (plain_rel _ _ _ A1 A2) as HA. pose proof (plain_rel _ _ _ B1 B2) as HB.
    unfold Sort, SortP in *. rewrite E in HA, HB.
    destruct (plain (SortW da _ s)) as [[la sa]| |], (plain (SortW db _ s)) as [[lb sb]| |]; try contradiction.
    destruct HA as [HA <-], HB as [HB <-]. exists p, la, lb, s'. auto.
  - destruct (C04_stable_safe nat S less (seq 0 (List.length da)) s) as (p & s' & E & P).
    pose proof (StableW_rel _ _ _ _ _ _ s s PA DA eq_refl) as [A1 A2].
    pose proof (StableW_rel _ _ _ _ _ _ s s PB DB eq_refl) as [B1 B2].
    pose proof (plain_rel _ _ _ A1 A2) as HA. pose proof (plain_rel _ _ _ B1 B2) as HB.
    unfold Stable, StableP in *. rewrite E in HA, HB.
    destruct (plain (StableW da _ s)) as [[la sa]| |], (plain (StableW db _ s)) as [[lb sb]| |]; try contradiction.
    destruct HA as [HA <-], HB as [HB <-]. exists p, la, lb, s'. auto.
Qed.

(** SortOrdered and StableOrdered do what Sort and Stable do with [<], unless
    there are elements that are neither less nor greater or equal (NaN). *)
Theorem C121_ordered {E} (ltb geb : E -> E -> bool) (data : list E) :
  (forall x y, In x data -> In y data -> geb x y = negb (ltb x y)) ->
  SortOrdered ltb geb data = omap fst (Sort data (pureCmp ltb) tt) /\
  StableOrdered ltb geb data = omap fst (Stable data (pureCmp ltb) tt).
Proof.
  intros H.
  set (R := fun x y : E => x = y /\ In x data).
  assert (HD : forall d, (forall x, In x d -> In x data) -> Forall2 R d d).
  { induction d as [|x d IH]; intros Hi; constructor; [split; [reflexivity|apply Hi; now left]|apply IH; intros y Hy; apply Hi; now right]. }
  assert (L : alike R eq (reads (always (pureCmp ltb))) (reads (always (pureCmp ltb)))).
  { apply alike_always. intros x1 x2 y1 y2 s [<- _] [<- _]. reflexivity. }
  assert (G : alike R eq (reads (always (pureCmp geb))) (notLessW (reads (always (pureCmp ltb))))).
  { intros d1 d2 x1 x2 y1 y2 s1 s2 Hd [<- Hx] [<- Hy] <-. unfold notLessW, reads, always, pureCmp. cbn.
    rewrite (H x1 y1 Hx Hy). auto. }
  assert (F : forall l m, Forall2 R l m -> l = m) by (induction 1 as [|x y l m [-> _] _ IH]; congruence).
  pose proof (HD data (fun x Hx => Hx)) as DD. split.
  - unfold SortOrdered, Sort, SortP, SortW, SortWWithin.
    destruct (rel_pdqsort R eq _ _ _ _ L G (Datatypes.S (List.length data)) 0 (zlen data) (bitsLen (zlen data)) (data, tt) (data, tt)) as [A B];
      [split; [exact DD|reflexivity]|].
    pose proof (plain_rel R _ _ A B) as P.
    destruct (plain _) as [[l1 s1]| |], (plain _) as [[l2 s2]| |]; try contradiction; cbn; try congruence.
    destruct P as [P _]. now rewrite (F _ _ P).
  - unfold StableOrdered, Stable, StableP, StableW, StableWWithin.
    destruct (rel_stable R eq _ _ _ _ L G (Datatypes.S (List.length data)) (zlen data) (data, tt) (data, tt)) as [A B];
      [split; [exact DD|reflexivity]|].
    pose proof (plain_rel R _ _ A B) as P.
    destruct (plain _) as [[l1 s1]| |], (plain _) as [[l2 s2]| |]; try contradiction; cbn; try congruence.
    destruct P as [P _]. now rewrite (F _ _ P).
Qed.

(** Numbers and their negatives with the opposite order; equal keys with
    different values are moved alike too. *)
Example C121_case :
  Sort [30; 10; 20; 10] (pureCmp Z.ltb) tt = Ok ([10; 10; 20; 30], tt) /\
  Sort [(3, 1); (1, 2); (2, 3); (1, 4)] (fun x y => pureCmp Z.ltb (fst x) (fst y)) tt
    = Ok ([(1, 2); (1, 4); (2, 3); (3, 1)], tt) /\
  picked [30; 10; 20; 10] [1; 3; 2; 0]%nat [10; 10; 20; 30].
Proof. split; [reflexivity|]. split; [reflexivity|]. repeat constructor. Qed.
(** The hypotheses of [C121_same_moves] hold of those two slices. *)
Example C121_moves_case : forall i j x y u v (s : unit),
  nth_error [30; 10; 20; 10] i = Some x -> nth_error [30; 10; 20; 10] j = Some y ->
  nth_error [(3, 1); (1, 2); (2, 3); (1, 4)] i = Some u -> nth_error [(3, 1); (1, 2); (2, 3); (1, 4)] j = Some v ->
  pureCmp Z.ltb x y s = pureCmp Z.ltb (fst u) (fst v) s.
Proof.
  intros i j x y u v s.
  destruct i as [|[|[|[|[|i]]]]]; cbn; intros [= <-]; destruct j as [|[|[|[|[|j]]]]]; cbn; intros [= <-] [= <-] [= <-]; reflexivity.
Qed.
(** Comparators that panic alike on related elements. *)
Example C121_related_case : alike (fun x y => y = 2 * x) eq
  (reads (fun (_ : list Z) x y (n : Z) => (if x =? 5 then inr "five"%string else inl (x <? y), n + 1)))
  (reads (fun (_ : list Z) x y (n : Z) => (if x =? 10 then inr "five"%string else inl (x <? y), n + 1))).
Proof.
  intros d1 d2 x1 x2 y1 y2 s1 s2 Hd -> -> <-. cbn [fst snd reads]. split; [|auto].
  destruct (Z.eqb_spec x1 5), (Z.eqb_spec (2 * x1) 10), (Z.ltb_spec x1 y1), (Z.ltb_spec (2 * x1) (2 * y1)); try lia; reflexivity.
Qed.

Print Assumptions C121_related.
Print Assumptions C121_map.
Print Assumptions C121_same_moves.
Print Assumptions C121_ordered.
