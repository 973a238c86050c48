(** C69: xsync.Synchronized and RWSynchronized. *)
From Coq Require Import Permutation.
From Verif Require Import Base Lin Lin_Proofs Sync_Model Sync_Spec Sync_Proofs.
Local Open Scope list_scope.

(** *** Mutual exclusion: while [t] is between Lock and Unlock, nobody else is
    between Lock and Unlock or between RLock and RUnlock. *)
Theorem C69_exclusion : forall T R (v0 : T) tr (c : state T R) t u,
  execution v0 tr c -> locks c t -> locks c u \/ rlocks c u -> t = u.
Proof. intros T R v0 tr c t u. apply exclusion. Qed.
Print Assumptions C69_exclusion.

(** *** What is done under the lock is done in one step: every execution is
    linearizable with respect to running each body alone, and when all
    goroutines are outside, the value is the one that this order leaves, the
    order consisting of exactly the calls that returned. *)
Theorem C69_atomic : forall T R (v0 : T) tr (c : state T R), execution v0 tr c ->
  linearizable oneAtATime v0 tr /\
  ((forall t, thread c t = Idle) -> exists order p, linearized tr order p /\
    Permutation order (returned tr) /\ sequential oneAtATime v0 order (Value (shared c))).
Proof.
  intros T R v0 tr c H. split.
  - destruct (sync_simulation v0 tr c H) as (h & p & v & HL & HS & _). exists h, p, v. auto.
  - intros HA. destruct (idle_value v0 tr c H HA) as (h & p & HL & HS & HP). eauto.
Qed.
Print Assumptions C69_atomic.

(** *** No update is lost: after any number of concurrent [*x += d] all of
    them have been added. *)
Theorem C69_no_lost_update : forall (v0 : Z) tr (c : state Z unit) (ds : list Z),
  execution v0 tr c -> (forall t, thread c t = Idle) ->
  map fst (returned tr) = map add ds ->
  Value (shared c) = fold_right Z.add v0 ds.
Proof.
  intros v0 tr c ds HR HA HD. destruct (idle_value v0 tr c HR HA) as (h & p & _ & HS & HP).
  assert (HF : forall l, map fst l = map add ds -> forall e : op Z unit * unit, In e l -> exists d, fst e = add d).
  { intros l El e He. apply (in_map fst) in He. rewrite El in He. apply in_map_iff in He as (d & Ed & _). eauto. }
  rewrite (total_sequential v0 h (Value (shared c))); [|intros e He; apply (HF _ HD); now apply (Permutation_in e HP)|exact HS].
  rewrite (total_perm _ _ HP). clear - HD. revert ds HD. induction (returned tr) as [|[o r] l IH]; intros [|d ds] HD; cbn [map fst] in HD; try discriminate.
  - cbn. lia.
  - injection HD as -> HD. cbn [total fold_right]. rewrite <- (IH ds HD). unfold amount. cbn. lia.
Qed.
Print Assumptions C69_no_lost_update.

(** *** The locks do not deadlock: as long as somebody is inside a use of the
    value, somebody can go on. *)
Theorem C69_no_deadlock : forall T R (v0 : T) tr (c : state T R) t o k,
  execution v0 tr c -> thread c t = Run o k -> exists u, canGoOn c u.
Proof. intros T R v0 tr c t o k. apply progress. Qed.
Print Assumptions C69_no_deadlock.

(** To build executions from their beginning. *)
Local Ltac go := cbn; first [apply i_read|apply i_write|apply i_lock; reflexivity|apply i_lockwait; reflexivity
  |eapply i_unlock; reflexivity|apply i_rlock; reflexivity|apply i_runlock; cbn; tauto].
Local Ltac run t before := eapply runs_snoc; [before|eapply (st_run _ _ _ _ t); [reflexivity|go]].
Local Ltac call t o before := eapply runs_snoc; [before|eapply (st_inv _ _ _ _ t o); reflexivity].
Local Ltac return_ t before := eapply runs_snoc; [before|eapply (st_ret _ _ _ _ t); reflexivity].

(** *** Readers do share: two goroutines are between RLock and RUnlock at once. *)
Definition peek : op Z Z := Shared (LookAt (fun v => Seen v)).
Theorem C69_readers_share : exists tr (c : state Z Z), execution 7%Z tr c /\ rlocks c 0 /\ rlocks c 1.
Proof.
  eexists _, _. split.
  - run 1%nat ltac:(run 0%nat ltac:(call 1%nat peek ltac:(call 0%nat peek ltac:(apply runs_nil)))).
  - split; eexists _, _; (split; [reflexivity|]); cbn; constructor; intros; constructor.
Qed.
Print Assumptions C69_readers_share.

(** Non-vacuity: an execution with two overlapping additions, back outside at the end. *)
Example C69_two_additions : exists tr (c : state Z unit), execution 0%Z tr c /\ (forall t, thread c t = Idle) /\
  map fst (returned tr) = map add [5; 3]%Z /\ Value (shared c) = 8%Z.
Proof.
  eexists _, _. split; [|split; [|split]].
  - return_ 1%nat ltac:(run 1%nat ltac:(run 1%nat ltac:(run 1%nat ltac:(run 1%nat ltac:(run 1%nat ltac:(return_ 0%nat ltac:(run 0%nat ltac:(run 0%nat ltac:(run 0%nat ltac:(run 0%nat ltac:(run 0%nat ltac:(call 1%nat (add 3) ltac:(call 0%nat (add 5) ltac:(apply runs_nil)))))))))))))).
  - intros t. cbn [thread]. unfold put. destruct (Nat.eqb 1 t), (Nat.eqb 0 t); reflexivity.
  - reflexivity.
  - reflexivity.
Qed.
