(** Properties of streams whose callbacks panic (C99). *)
From Coq Require Import String.
From Verif Require Import Base Arr Exn Stream_Model Stream_Spec Stream_Sources Stream_Panic_Spec Stream_Panic_Proofs.
Local Open Scope string_scope.
Local Open Scope list_scope.
Local Open Scope Z_scope.

(** ** C99: a panic costs the element it happened on *)

(** For every source that delivers a list, every sequence of builder calls
    whose callbacks answer or panic as their element says, and every number of
    calls of Next, each recovered: they tell the items of the pipeline, one a
    call, and then the end. *)
Theorem C99_recovered {W S T} (src : source S W T) D (cs : list (build W T)) gs z ls b :
  delivers (fun _ => tt) src D -> Forall2 pstands cs gs -> D z ls b -> atSource gs <= b ->
  forall w fuel k, (List.length ls < fuel)%nat -> exists st,
    calls src cs (New, (z, w)) = (Ok tt, st) /\
    tries src fuel k st = told k (items gs ls).
Proof.
  intros HD HF Hz Hb w fuel k Hf.
  destruct (calls_behind src D HD cs gs HF New z w ls b [] eq_refl (Forall2_nil _) Hz Hb)
    as (s' & z' & w' & gs' & E & Hl & HO & Eg & b' & Hz').
  exists (s', (z', w')). split; [exact E|].
  cbn [hasPred New] in Eg, Hz'. apply (tries_told src D HD fuel (List.length ls) k Hf).
  unfold tellsItems. rewrite Hl. exists gs', (skipn (Z.to_nat (atSource gs)) ls), b'.
  split; [exact HO|]. split; [exact Hz'|]. split; [rewrite skipn_length; lia|].
  rewrite Eg. reflexivity.
Qed.
Print Assumptions C99_recovered.

(** As many calls as the source has elements give every element that is going
    to come, and those are the elements of the pipeline that filters out what
    its callbacks panic on. *)
Theorem C99_elements {W S T} (src : source S W T) D (cs : list (build W T)) gs z ls b :
  delivers (fun _ => tt) src D -> Forall2 pstands cs gs -> D z ls b -> atSource gs <= b ->
  forall w fuel k, (List.length ls < fuel)%nat -> (List.length ls <= k)%nat -> exists st,
    calls src cs (New, (z, w)) = (Ok tt, st) /\
    given (tries src fuel k st) = survivors (behind gs) (skipn (Z.to_nat (atSource gs)) ls).
Proof.
  intros HD HF Hz Hb w fuel k Hf Hk. destruct (C99_recovered src D cs gs z ls b HD HF Hz Hb w fuel k Hf) as (st & E & ET).
  exists st. split; [exact E|]. rewrite ET, given_told by (pose proof (items_length gs ls); lia).
  unfold items. rewrite vals_through. f_equal. unfold vals. generalize (skipn (Z.to_nat (atSource gs)) ls). clear.
  induction l as [|v l IH]; [reflexivity|]. cbn [map flat_map app]. now rewrite IH.
Qed.
Print Assumptions C99_elements.

(** A Limit counts an element a later callback panics on: Limit(2) and then a
    Map that panics on 1 gives the one element 2, where the Map before the
    Limit would give 2 and 3. *)
Definition onlyPast1 : Z -> X unit Z := fun x w => (if x =? 1 then Panic "one" else Ok x, w).
Definition past1 (x : Z) : Z + string := if x =? 1 then inr "one" else inl x.
Lemma onlyPast1_tells : tells onlyPast1 past1.
Proof. intros a w. exists w. unfold onlyPast1, past1. now destruct (a =? 1). Qed.

Example C99_example : exists st,
  calls (sliceSource [1; 2; 3; 4]) [BLimit 2; BMap onlyPast1] (New, (0, tt)) = (Ok tt, st) /\
  tries (sliceSource [1; 2; 3; 4]) 9 4 st = [Panic "one"; Ok (Some 2); Ok None; Ok None].
Proof.
  destruct (C99_recovered (sliceSource [1; 2; 3; 4]) _ [BLimit 2; BMap onlyPast1] [PLimit 2; PMap past1] 0 [1; 2; 3; 4] 100
    (slice_delivers _ [1; 2; 3; 4])) with (w := tt) (fuel := 9%nat) (k := 4%nat) as (st & E & ET).
  - repeat constructor; [lia|apply onlyPast1_tells].
  - unfold DSlice, zlen, maxInt; cbn; repeat split; lia.
  - cbn; lia.
  - cbn; lia.
  - exists st. split; [exact E|]. rewrite ET. reflexivity.
Qed.
Example C99_example_after : exists st,
  calls (sliceSource [0; 1; 2; 3; 4]) [BMap onlyPast1; BSkip 1; BLimit 2] (New, (0, tt)) = (Ok tt, st) /\
  given (tries (sliceSource [0; 1; 2; 3; 4]) 9 5 st) = [2; 3].
Proof.
  destruct (C99_elements (sliceSource [0; 1; 2; 3; 4]) _ [BMap onlyPast1; BSkip 1; BLimit 2] [PMap past1; PSkip 1; PLimit 2] 0 [0; 1; 2; 3; 4] 100
    (slice_delivers _ [0; 1; 2; 3; 4])) with (w := tt) (fuel := 9%nat) (k := 5%nat) as (st & E & ET).
  - constructor; [constructor; apply onlyPast1_tells|]. repeat constructor; lia.
  - unfold DSlice, zlen, maxInt; cbn; repeat split; lia.
  - cbn; lia.
  - cbn; lia.
  - cbn; lia.
  - exists st. split; [exact E|]. rewrite ET. reflexivity.
Qed.
