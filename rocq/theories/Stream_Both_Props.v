(** * C130: Limit when a callback adds stages to its own stream and calls Next. *)
From Coq Require Import Lia.
From Verif Require Import Base Arr Exn Stream_Model Stream_Spec Stream_Reent_Model Stream_Reent_Spec Stream_Grow_Model Stream_Both_Model Stream_Both_Spec Stream_Both_Proofs Stream_Both_Same Stream_Both_Adds.
Local Open Scope string_scope.
Local Open Scope list_scope.
Local Open Scope Z_scope.

(** As long as append makes no new array, Limit(n) lets at most n elements
    through, those that callbacks take included, whatever the callbacks add and
    take: a Peek right after it is called at most n times. *)
Theorem C130_limit_partial {S W T} (src : source S W T) (grow : nat -> nat) (calls : W -> Z) (bump : W -> W)
  (older : list (nat * list (bop W T))) cap before n behind hp z w us :
  bkeepsSource calls src -> (forall w, calls (bump w) = calls w + 1) -> 0 <= n ->
  Forall (bkeepsOp calls) before -> Forall (bkeepsOp calls) behind -> Forall (bkeepsUse calls) us ->
  let s := mkB true (older ++ [(cap, before ++ BLimit n :: bcounting bump :: behind)]) (Some (List.length older)) hp z w in
  let s' := snd (runOps (buse1 src grow) us s) in
  List.length (Stream_Both_Model.arrays s') = List.length (Stream_Both_Model.arrays s) -> calls (bworld s') <= calls w + n.
Proof.
  intros Hs Hb Hn H1 H2 Hu s s' Hz. set (j := List.length before). set (L := List.length older).
  destruct (blimit_uses src grow calls bump j L Hs Hb (calls w + n) us Hu s) as [_ HI].
  - split; [now right|]. exists n, cap, (before ++ BLimit n :: bcounting bump :: behind). cbn. split; [|split; [|lia]].
    { rewrite nth_error_app2 by (unfold L; lia). unfold L. now rewrite Nat.sub_diag. }
    split; [|split; [|split; [exact Hn|]]].
    + rewrite nth_error_app2 by (unfold j; lia). unfold j. now rewrite Nat.sub_diag.
    + rewrite nth_error_app2 by (unfold j; lia). unfold j. replace (List.length before + 1 - List.length before)%nat with 1%nat by lia. reflexivity.
    + intros i o E Hi. destruct (Nat.lt_ge_cases i j) as [Hlt|Hge].
      * rewrite nth_error_app1 in E by exact Hlt. apply nth_error_In in E. rewrite Forall_forall in H1. now apply H1.
      * rewrite nth_error_app2 in E by exact Hge. fold j in E. destruct (i - j)%nat as [|[|k]] eqn:Ek; cbn in E.
        -- injection E as <-. constructor.
        -- exfalso. lia.
        -- apply nth_error_In in E. rewrite Forall_forall in H2. now apply H2.
  - destruct (HI Hz) as (_ & m & c & l & _ & (_ & _ & Hm & _) & HC). fold s' in HC. lia.
Qed.
Print Assumptions C130_limit_partial.

(** Callbacks that add no stages: the model of C110. *)
Theorem C130_only_calls {S W T} (src : source S W T) (grow : nat -> nat) opl cap hp z w fuels :
  let '(rs, s) := rnexts src fuels (mkR true opl z w) in
  let '(rs', s') := runOps (buse1 src grow) (map VNext fuels) (mkB true [(cap, map bcallOp opl)] (Some 0%nat) hp z w) in
  rs = rs' /\ origin s = bsrc s' /\ world s = bworld s'.
Proof.
  assert (H : callR 0 (mkR true opl z w) (mkB true [(cap, map bcallOp opl)] (Some 0%nat) hp z w)).
  { repeat split. exists cap. reflexivity. }
  revert H. generalize (mkR true opl z w) (mkB true [(cap, map bcallOp opl)] (Some 0%nat) hp z w).
  induction fuels as [|fuel fuels IH]; intros s b H.
  { cbn. destruct H as (_ & _ & H3 & H4 & _). auto. }
  cbn [rnexts runOps map buse1]. pose proof (proj1 (proj2 (call_same src grow 0 fuel)) s b H) as [E1 HR].
  destruct (rnext src fuel s) as [r s1], (bnext src grow fuel b) as [r' b1]. cbn [fst snd] in E1, HR. specialize (IH s1 b1 HR).
  destruct (rnexts src fuels s1) as [rs s2], (runOps (buse1 src grow) (map VNext fuels) b1) as [rs' b2].
  destruct IH as (-> & ? & ?). rewrite E1. auto.
Qed.
Print Assumptions C130_only_calls.

(** Callbacks that do not call Next: the model of C127. *)
Theorem C130_only_adds {S W T} (src : source S W T) (grow : nat -> nat) us z w rs s :
  runOps (guse1 src grow) us (gnew z w) = (rs, s) -> ~ In Diverge rs ->
  exists N, forall fuel, (N <= fuel)%nat -> exists s',
    runOps (buse1 src grow) (map (badds fuel) us) (bnew z w) = (rs, s') /\ bsrc s' = gsrc s /\ bworld s' = gworld s.
Proof.
  intros E Hr. destruct (uses_reach src grow us _ _ _ E Hr) as (N & HN). exists N. intros fuel Hf. eexists. split; [exact (HN fuel Hf)|]. split; reflexivity.
Qed.
Print Assumptions C130_only_adds.

Definition idle : bop Z Z := BMap (fun v => BDone v).
(** Eight stages fill the array of New.  At the first element the callback in
    front of Limit(1) adds a ninth and calls Next: the second element takes the
    one place there is, in the new array; then the loop for the first element
    finds the old counter. *)
Definition addsNext : bop Z Z := BPeek (fun v => if v =? 1 then BBuild idle (BPull (fun _ => BDone tt)) else BDone tt).
Theorem C130_limit_refuted : exists s',
  runOps (buse1 (sliceSource [1; 2; 3; 4]) (fun c => (2 * c)%nat))
    (map VBuild [addsNext; BLimit 1; bcounting (fun w => w + 1); idle; idle; idle; idle; idle] ++ [VNext 40]) (bnew 0 0) =
    (repeat (Ok None) 8 ++ [Ok (Some 1)], s') /\ bworld s' = 2.
Proof. eexists. split; vm_compute; reflexivity. Qed.
Print Assumptions C130_limit_refuted.
(** The callback takes all there is and at the end adds two stages: then all
    elements on their way pass Limit(1). *)
Definition afterEnd : bop Z Z := BPeek (fun _ => BPull (fun r => match r with None => BBuild idle (BBuild idle (BDone tt)) | _ => BDone tt end)).
Theorem C130_end_refuted : exists s',
  runOps (buse1 (sliceSource [1; 2; 3; 4]) (fun c => (2 * c)%nat))
    (map VBuild [afterEnd; BLimit 1; bcounting (fun w => w + 1)] ++ [VNext 40]) (bnew 0 0) =
    (repeat (Ok None) 3 ++ [Ok (Some 1)], s') /\ bworld s' = 4.
Proof. eexists. split; vm_compute; reflexivity. Qed.
Print Assumptions C130_end_refuted.

(** The hypotheses of C130_limit_partial: the callback of [C130_limit_refuted]
    where the array has room. *)
Example C130_limit_case :
  let s' := snd (runOps (buse1 (sliceSource [1; 2; 3; 4]) (fun c => (2 * c)%nat)) [VNext 40; VNext 40]
    (mkB true ([] ++ [(8%nat, [addsNext] ++ BLimit 1 :: bcounting (fun w => w + 1) :: [idle])]) (Some 0%nat) true 0 0)) in
  bworld s' <= 0 + 1 /\ List.length (snd (List.nth 0 (Stream_Both_Model.arrays s') (0%nat, []))) = 5%nat.
Proof.
  split; [|vm_compute; reflexivity].
  assert (Hidle : bkeepsOp (fun w : Z => w) idle) by (constructor; constructor).
  apply (C130_limit_partial (sliceSource [1; 2; 3; 4]) (fun c => (2 * c)%nat) (fun w : Z => w) (fun w => w + 1) [] 8 [addsNext] 1 [idle] true 0 0 [VNext 40; VNext 40]).
  - intros z w. split; [|intros n]; cbn.
    + destruct (z =? 4); [reflexivity|]. now destruct (zget [1; 2; 3; 4] z).
    + repeat match goal with |- context [if ?b then _ else _] => destruct b end; reflexivity.
  - reflexivity.
  - lia.
  - constructor; [|constructor]. constructor. intros v n. destruct (v =? 1); [|constructor]. constructor; [exact Hidle|]. constructor. intros _ o'. constructor.
  - constructor; [exact Hidle|constructor].
  - repeat constructor.
  - vm_compute. reflexivity.
Qed.
