(** C69: everybody who wants the lock gets it and is done with it. *)
From Verif Require Import Base Lin Lin_Live Sync_Model Sync_Spec Sync_Proofs.
Local Open Scope list_scope.

Section Smaller.
  Context {T R : Type}.
  (** What is left of a piece of code after one instruction. *)
  Inductive after : prog T R -> prog T R -> Prop :=
  | a_lock k : after k (Lock k) | a_lockwait k : after k (LockWait k) | a_unlock k : after k (Unlock k)
  | a_rlock k : after k (RLock k) | a_runlock k : after k (RUnlock k)
  | a_read k v : after (k v) (Read k) | a_write v k : after k (Write v k).
  Lemma after_wf : well_founded after.
  Proof. intros k. induction k; constructor; intros y Hy; inversion Hy; subst; auto. Qed.
End Smaller.

(** Whatever goroutines have called so far, and however they are scheduled from
    now on: if no more calls are made, after finitely many steps all of them have
    had their turn and are outside. *)
Theorem C69_all_return : forall T R (v0 : T) tr (c : state T R), execution v0 tr c ->
  inevitably code over instr allOutside c.
Proof.
  intros T R v0 tr c. apply (all_return code over instr after after_wf).
  - intros t k s k' s' HI. inversion HI; constructor.
  - clear. intros tr c t o k HR E. destruct (progress v0 tr c t o k HR E) as (u & o' & k' & E' & [HO|(k2 & s2 & HI)]).
    + destruct (over k') as [r|] eqn:Er; [|easy]. eexists. exists [ERet u o' r].
      split; [eapply st_ret; eassumption|]. intros t' o2 [H|[]]. discriminate.
    + eexists. exists []. split; [eapply st_run; eassumption|]. intros t' o2 [].
Qed.
Print Assumptions C69_all_return.

(** Two goroutines are in the middle of an addition: one holds the lock, the other waits. *)
Example C69_all_return_case : exists tr (c : state Z unit), execution 0%Z tr c /\ ~ allOutside c /\
  locks c 0 /\ (exists o k, thread c 1 = Run o (Lock k)).
Proof.
  eexists _, _. split.
  - eapply runs_snoc; [eapply runs_snoc; [eapply runs_snoc; [eapply runs_snoc; [apply runs_nil|]|]|]|].
    + apply (st_inv _ _ _ _ 0%nat (add 5)). reflexivity.
    + apply (st_inv _ _ _ _ 1%nat (add 3)). reflexivity.
    + eapply (st_run _ _ _ _ 0%nat); [reflexivity|]. apply i_lock. reflexivity.
    + eapply (st_run _ _ _ _ 0%nat); [reflexivity|]. apply i_lockwait; reflexivity.
  - split; [|split].
    + intros H. specialize (H 0%nat). discriminate.
    + eexists _, _. split; [reflexivity|]. cbn. repeat (constructor; intros).
    + eexists _, _. reflexivity.
Qed.
