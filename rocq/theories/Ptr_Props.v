(** C75: atomic.Ptr. *)
From Coq Require Import Permutation.
From Verif Require Import Base Lin Lin_Proofs Ptr_Model Ptr_Spec Ptr_Proofs.
Local Open Scope list_scope.

(** *** C75: every execution of any number of goroutines is linearizable as a
    pointer variable: the calls took effect one at a time, each between its call
    and its return; a CompareAndSwap(old, new) returns true exactly when the
    pointer is [old] at that moment, and then leaves [new]. *)
Theorem C75_linearizable : forall val tr c, execution (newPtr val) tr c ->
  exists order p, linearized tr order p /\ sequential variable val order (shared c).
Proof. intros val tr c H. destruct (ptr_simulation val tr c H) as (h & p & HL & HS & _). eauto. Qed.
Print Assumptions C75_linearizable.

(** Every call is over after one instruction, which is always possible. *)
Theorem C75_wait_free : forall o t v, exists r v', instr t (code o) v (Ret r) v' /\
  forall k w, instr t (code o) v k w -> k = Ret r /\ w = v'.
Proof. exact one_instruction. Qed.
Print Assumptions C75_wait_free.

(** A consequence for users: of any number of goroutines that try to replace
    nil by their own pointer (and do nothing else), exactly one wins once all
    have returned (and there was at least one). *)
Theorem C75_one_winner : forall tr c, execution (newPtr None) tr c -> (forall t, thread c t = Idle) ->
  (forall o r, In (o, r) (returned tr) -> exists x, o = CompareAndSwap None (Some x)) -> returned tr <> [] ->
  exists o rest, Permutation (returned tr) ((o, RBool true) :: rest) /\ forall o' r', In (o', r') rest -> r' = RBool false.
Proof.
  intros tr c H HQ HO HN. destruct (ptr_simulation None tr c H) as (h & p & HL & HS & HT).
  assert (HP : forall t, p t = PIdle) by (intros t; specialize (HT t); rewrite HQ in HT; now inversion HT).
  pose proof (linearized_quiescent tr h p HL HP) as HE.
  destruct (one_winner h (shared c) HS) as [[-> _]|(_ & o & rest & Hp & Hr)].
  - intros o r Hin. apply HO with r. now rewrite <- HE.
  - apply Permutation_nil in HE. congruence.
  - exists o, rest. split; [|exact Hr]. now rewrite <- HE.
Qed.
Print Assumptions C75_one_winner.

(** Non-vacuity: two goroutines race to replace nil; 1 wins. *)
Example C75_race : exists tr c, execution (newPtr None) tr c /\ (forall t, thread c t = Idle) /\ shared c = Some 8%nat /\
  returned tr = [(CompareAndSwap None (Some 8%nat), RBool true); (CompareAndSwap None (Some 7%nat), RBool false)].
Proof.
  eexists _, _. split.
  - eapply runs_snoc; [eapply runs_snoc; [eapply runs_snoc; [eapply runs_snoc; [eapply runs_snoc; [eapply runs_snoc; [apply runs_nil|]|]|]|]|]|].
    + apply (st_inv _ _ _ _ 0%nat (CompareAndSwap None (Some 7%nat))). reflexivity.
    + apply (st_inv _ _ _ _ 1%nat (CompareAndSwap None (Some 8%nat))). reflexivity.
    + eapply (st_run _ _ _ _ 1%nat); [reflexivity|]. cbn. constructor.
    + eapply (st_ret _ _ _ _ 1%nat); reflexivity.
    + eapply (st_run _ _ _ _ 0%nat); [reflexivity|]. cbn. constructor.
    + eapply (st_ret _ _ _ _ 0%nat); reflexivity.
  - split; [|split; reflexivity]. intros [|[|t]]; reflexivity.
Qed.
