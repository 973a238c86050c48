(** C45 and C47: how far a pipeline looks, exactly. *)
From Coq Require Import Lia.
From Verif Require Import Base Arr Exn Stream_Model Stream_Spec Stream_Sources Stream_Props Stream_Exact_Spec Stream_Exact_Proofs.
Local Open Scope string_scope.
Local Open Scope list_scope.
Local Open Scope Z_scope.

(** ** C47: Peek observes every element that flows past it *)

(** What a Peek sees, for all stages before and after it.  If a Filter or a
    Limit comes before it, it sees the elements the stages before it produce, as
    far as the Limits after it take them.  Otherwise Skip calls after it, up to
    the first Filter or Limit, hide from it the elements they drop. *)
Theorem C47_exact {W S T} (seen : W -> list T) (src : source S W T) D cpre pre c cpost post z ls b :
  delivers seen src D -> Forall2 (stands seen) cpre pre -> answers_upd seen c (fun _ => tt) (fun v l => l ++ [v]) ->
  Forall2 (stands seen) cpost post -> D z ls b -> skips (pre ++ post) <= b ->
  forall w fuel, (Datatypes.S (List.length ls) < fuel)%nat ->
  exists s' z' w' r, xbind (calls src (cpre ++ BPeek c :: cpost)) (fun _ => Slice src fuel) (New, (z, w)) =
      (Ok (pipeline (pre ++ post) ls), (s', (z', w'))) /\ seen w' = seen w ++ r /\
    if existsb selects pre then taken post (pipeline pre ls) r
    else taken (later post) (skipn (Z.to_nat (early post)) (pipeline pre ls)) r.
Proof. intros. eapply peek_exact; eassumption. Qed.
(** This determines what it sees. *)
Theorem C47_determined {T} (gs : list (stage T)) l r r' : taken gs l r -> taken gs l r' -> r = r'.
Proof.
  enough (H : forall r r', taken gs l r -> taken gs l r' -> (List.length r <= List.length r')%nat -> r = r').
  { intros H1 H2. destruct (Nat.le_ge_cases (List.length r) (List.length r')); [auto|symmetry; auto]. }
  clear r r'. intros r r' (q & E & Hq & _) (q' & E' & _ & Hm) Hl. rewrite E in E'.
  assert (exists d, r' = r ++ d /\ q = d ++ q') as (d & -> & ->).
  { clear - Hl E'. revert r' Hl E'. induction r as [|x r IH]; intros r' Hl E'; [now exists r'|].
    destruct r' as [|y r']; [cbn in Hl; lia|]. injection E' as -> E'. destruct (IH r' ltac:(cbn in Hl; lia) E') as (d & -> & ->).
    now exists d. }
  destruct d as [|y d]; [now rewrite app_nil_r|]. exfalso. apply (Hm r (y :: d) eq_refl); [discriminate|]. apply Hq. discriminate.
Qed.
Print Assumptions C47_exact. Print Assumptions C47_determined.

(** Peek, Skip(1), Filter(even), Limit(1) over 1 ... 6: the 1 is not seen, and
    the 4, which ends the stream, is. *)
Definition evens : list (build (list Z) Z) := [BSkip 1; BFilter (fun x w => (Ok (Z.even x), w)); BLimit 1].
Example C47_exact_case : exists st,
  xbind (calls (sliceSource [1; 2; 3; 4; 5; 6]) (BPeek recording :: evens)) (fun _ => Slice (sliceSource [1; 2; 3; 4; 5; 6]) 9) (New, (0, [])) =
    (Ok [2], (fst st, (snd st, [2; 3; 4]))).
Proof.
  destruct (C47_exact (fun w : list Z => w) (sliceSource [1; 2; 3; 4; 5; 6]) _ [] [] recording evens [SSkip 1; SFilter Z.even; SLimit 1]
    0 [1; 2; 3; 4; 5; 6] 100 (slice_delivers _ [1; 2; 3; 4; 5; 6])) with (w := @nil Z) (fuel := 9%nat) as (s' & z' & w' & r & E & HO & HT).
  - constructor.
  - exact recording_answers.
  - repeat constructor; try lia. intros a w. eexists. split; reflexivity.
  - repeat split; cbn; unfold maxInt; lia.
  - cbn. lia.
  - cbn. lia.
  - cbn in HT. assert (r = [2; 3; 4]) as ->.
    { eapply C47_determined; [exact HT|]. exists [5; 6]. split; [reflexivity|]. split.
      - intros _. exists [SFilter Z.even], 1, []. split; [reflexivity|]. reflexivity.
      - intros a b Eab Hb (p & n & q & Ep & Hn). destruct p as [|g [|g' p]]; try discriminate; cbn in Ep; [|destruct p; discriminate].
        injection Ep as <- <- <-. destruct a as [|x0 [|x1 [|x2 a]]]; inversion Eab; subst; cbn in Hn; try lia. destruct a; cbn in *; [subst; congruence|discriminate]. }
    exists (s', z'). cbn [fst snd]. cbn in HO. subst w'. exact E.
Qed.

(** ** C45: Limit bounds consumption of infinite sources *)

(** Limits anywhere between any other stages, over a source without end: if [m]
    is the first number of elements with which one of them gets more than it
    lets through, the stream ends after m pulls, having returned what the list
    pipeline makes of the elements pulled. *)
Theorem C45_pulls {W S T} (pulls : W -> nat) (src : source S W T) P f cs gs m k z :
  counted pulls src P f -> endless (fun _ => tt) src P f -> Forall2 (stands pulls) cs gs -> P z k ->
  let k' := (k + Z.to_nat (early gs))%nat in
  stopped (later gs) (prefix f k' m) -> (forall j, (j < m)%nat -> ~ stopped (later gs) (prefix f k' j)) ->
  forall w fuel, (Datatypes.S m < fuel)%nat ->
  exists s1 z1 w1 s' z' w', calls src cs (New, (z, w)) = (Ok tt, (s1, (z1, w1))) /\
    Slice src fuel (s1, (z1, w1)) = (Ok (pipeline gs (prefix f k (Z.to_nat (early gs) + m))), (s', (z', w'))) /\
    pulls w' = (m + pulls w1)%nat.
Proof. intros HC HE HS HP k' Hst Hmin w fuel Hf. now apply (limits_ok pulls src P f cs gs m k z w fuel). Qed.
Print Assumptions C45_pulls.

(** Skip(2), Filter(even), Skip(1), Limit(2) over 0, 1, 2, ...: 4 and 6, and
    the pulls are those of 2 to 8. *)
Example C45_pulls_case : exists s1 z1 w1 s' z' w',
  calls (generator ticking) [BSkip 2; BFilter (fun x w => (Ok (Z.even x), w)); BSkip 1; BLimit 2] (New, (0, 0%nat)) = (Ok tt, (s1, (z1, w1))) /\
  Slice (generator ticking) 9 (s1, (z1, w1)) = (Ok [4; 6], (s', (z', w'))) /\ w' = (7 + w1)%nat.
Proof.
  assert (HE : endless (fun _ : nat => tt) (generator ticking) (fun g k => g = Z.of_nat k) Z.of_nat).
  { apply generator_endless. intros z k w ->. eexists _, _. split; [reflexivity|]. split; [lia|reflexivity]. }
  destruct (C45_pulls (fun w : nat => w) _ _ _ [BSkip 2; BFilter (fun x w => (Ok (Z.even x), w)); BSkip 1; BLimit 2]
    [SSkip 2; SFilter Z.even; SSkip 1; SLimit 2] 7 0 0 ticking_counted HE) with (w := 0%nat) (fuel := 9%nat) as (s1 & z1 & w1 & s' & z' & w' & H).
  - repeat constructor; try lia. intros a w. eexists. split; reflexivity.
  - reflexivity.
  - exists [SFilter Z.even; SSkip 1], 2, []. split; [reflexivity|]. reflexivity.
  - intros j Hj (p & n & q & Ep & Hn). destruct p as [|g [|g' [|g2 p]]]; try discriminate; cbn in Ep; [|destruct p; discriminate].
    injection Ep as <- <- <- <-. do 7 (destruct j as [|j]; [vm_compute in Hn; discriminate|]). lia.
  - lia.
  - exists s1, z1, w1, s', z', w'. exact H.
Qed.
