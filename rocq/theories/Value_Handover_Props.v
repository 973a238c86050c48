(** C107: values handed over through an atomic.Value or atomic.Ptr. *)
From Coq Require Import Permutation.
From Verif Require Import Base Lin Lin_Proofs Value_Handover_Spec.
From Verif Require Value_Model Value_Spec Value_Proofs Ptr_Model Ptr_Spec Ptr_Proofs.
Local Open Scope list_scope.

Lemma moved {A} (t g : list A) s x s' : Permutation (t ++ [s]) (x :: g) -> Permutation ((t ++ [s]) ++ [s']) (x :: g ++ [s']).
Proof. intros H. rewrite H. reflexivity. Qed.

Section Value.
  Import Value_Model Value_Spec Value_Proofs.
  Context {T : Type}.
  Implicit Types l h : list (op T * res T).

  Lemma given_app l l' : given (l ++ l') = given l ++ given l'.
  Proof. induction l as [|[[] [| |[]]] l IH]; cbn; congruence. Qed.
  Lemma taken_app l l' : taken (l ++ l') = taken l ++ taken l'.
  Proof. induction l as [|[[] [| |[]]] l IH]; cbn; congruence. Qed.
  Lemma given_perm l l' : Permutation l l' -> Permutation (given l) (given l').
  Proof.
    induction 1 as [|[o r] l l' _ IH|[o r] [o' r'] l|]; [constructor| | |etransitivity; eassumption].
    - destruct o, r as [| |[]]; cbn; auto.
    - destruct o, o', r as [| |[]], r' as [| |[]]; cbn; auto; apply perm_swap.
  Qed.
  Lemma taken_perm l l' : Permutation l l' -> Permutation (taken l) (taken l').
  Proof.
    induction 1 as [|[o r] l l' _ IH|[o r] [o' r'] l|]; [constructor| | |etransitivity; eassumption].
    - destruct o, r as [| |[]]; cbn; auto.
    - destruct o, o', r as [| |[]], r' as [| |[]]; cbn; auto; apply perm_swap.
  Qed.

  (** One step of either register hands a value over. *)
  Lemma handover (spec : T -> op T -> res T -> T -> Prop) (P : op T -> Prop) x h v :
    (forall v o r v', spec v o r v' -> P o ->
       (v' = v /\ given [(o, r)] = [] /\ taken [(o, r)] = []) \/ (given [(o, r)] = [v'] /\ taken [(o, r)] = [v])) ->
    sequential spec x h v -> (forall o r, In (o, r) h -> P o) -> Permutation (taken h ++ [v]) (x :: given h).
  Proof.
    intros HS. induction 1 as [|h s o r s' HQ IH Hx]; intros HP; [reflexivity|].
    assert (IH' : Permutation (taken h ++ [s]) (x :: given h)) by (apply IH; intros; eapply HP; apply in_or_app; left; eassumption).
    assert (Ho : P o) by (apply (HP o r); apply in_or_app; right; now left).
    rewrite given_app, taken_app. destruct (HS s o r s' Hx Ho) as [(-> & -> & ->)|(-> & ->)]; [now rewrite !app_nil_r|now apply moved].
  Qed.
End Value.

Section Ptr.
  Import Ptr_Model Ptr_Spec Ptr_Proofs.
  Implicit Types l h : list (op * res).
  Lemma givenP_app l l' : givenP (l ++ l') = givenP l ++ givenP l'.
  Proof. induction l as [|[[] [| |[]]] l IH]; cbn; congruence. Qed.
  Lemma takenP_app l l' : takenP (l ++ l') = takenP l ++ takenP l'.
  Proof. induction l as [|[[] [| |[]]] l IH]; cbn; congruence. Qed.
  Lemma givenP_perm l l' : Permutation l l' -> Permutation (givenP l) (givenP l').
  Proof.
    induction 1 as [|[o r] l l' _ IH|[o r] [o' r'] l|]; [constructor| | |etransitivity; eassumption].
    - destruct o, r as [| |[]]; cbn; auto.
    - destruct o, o', r as [| |[]], r' as [| |[]]; cbn; auto; apply perm_swap.
  Qed.
  Lemma takenP_perm l l' : Permutation l l' -> Permutation (takenP l) (takenP l').
  Proof.
    induction 1 as [|[o r] l l' _ IH|[o r] [o' r'] l|]; [constructor| | |etransitivity; eassumption].
    - destruct o, r as [| |[]]; cbn; auto.
    - destruct o, o', r as [| |[]], r' as [| |[]]; cbn; auto; apply perm_swap.
  Qed.
  Lemma handoverP x h v : sequential variable x h v -> (forall o r, In (o, r) h -> exchangeP o) ->
    Permutation (takenP h ++ [v]) (x :: givenP h).
  Proof.
    induction 1 as [|h s o r s' HQ IH Hx]; intros HP; [reflexivity|].
    assert (IH' : Permutation (takenP h ++ [s]) (x :: givenP h)) by (apply IH; intros; eapply HP; apply in_or_app; left; eassumption).
    assert (Ho : exchangeP o) by (apply (HP o r); apply in_or_app; right; now left).
    rewrite givenP_app, takenP_app. inversion Hx; subst; cbn [givenP takenP]; rewrite ?app_nil_r; try exact IH'; try now apply moved.
    inversion Ho.
  Qed.
End Ptr.

(** *** C107: goroutines that call nothing but Load and Swap.  When all calls
    have returned, what the Swaps returned together with the value now held is
    what the variable held first together with what the Swaps were given, each
    as often as it was given: nothing is lost and nothing comes out twice. *)
Theorem C107_swap : forall T (zero x : T) eqb m tr c,
  (m = Value_Model.zeroValue /\ x = zero \/ m = Value_Model.newValue x) ->
  Value_Model.execution zero eqb m tr c -> (forall t, thread c t = Idle) ->
  (forall o r, In (o, r) (returned tr) -> swapOnly o) ->
  exists v, Value_Spec.value zero c = Some v /\ Permutation (taken (returned tr) ++ [v]) (x :: given (returned tr)).
Proof.
  intros T zero x eqb m tr c Hm H HQ HO.
  assert (HI0 : Value_Proofs.Inv zero m x) by (destruct Hm as [[-> ->]| ->]; reflexivity).
  destruct (Value_Proofs.value_simulation zero eqb m x tr c HI0 H) as (h & p & s & HL & HS & HI & HT).
  assert (HP : forall t, p t = PIdle) by (intros t; specialize (HT t); rewrite HQ in HT; now inversion HT).
  pose proof (linearized_quiescent tr h p HL HP) as HR.
  exists s. split; [now apply Value_Proofs.value_inv|].
  rewrite <- (given_perm _ _ HR), <- (taken_perm _ _ HR).
  apply (handover _ swapOnly) with (2 := HS).
  - intros v o r v' Hx Ho. inversion Ho; subst; inversion Hx; subst; cbn; auto.
  - intros o r Hin. apply (HO o r). now rewrite <- HR.
Qed.
Print Assumptions C107_swap.

(** The same with CompareAndSwap, where [==] is identity: one that returned
    true took out its old value and put in the new one. *)
Theorem C107_exchange : forall T (zero x : T) eqb m tr c, Value_Spec.identity eqb ->
  (m = Value_Model.zeroValue /\ x = zero \/ m = Value_Model.newValue x) ->
  Value_Model.execution zero eqb m tr c -> (forall t, thread c t = Idle) ->
  (forall o r, In (o, r) (returned tr) -> exchange o) ->
  exists v, Value_Spec.value zero c = Some v /\ Permutation (taken (returned tr) ++ [v]) (x :: given (returned tr)).
Proof.
  intros T zero x eqb m tr c HE Hm H HQ HO.
  assert (HI0 : Value_Proofs.Inv zero m x) by (destruct Hm as [[-> ->]| ->]; reflexivity).
  destruct (Value_Proofs.value_simulation zero eqb m x tr c HI0 H) as (h & p & s & HL & HS & HI & HT).
  assert (HP : forall t, p t = PIdle) by (intros t; specialize (HT t); rewrite HQ in HT; now inversion HT).
  pose proof (linearized_quiescent tr h p HL HP) as HR.
  exists s. split; [now apply Value_Proofs.value_inv|].
  rewrite <- (given_perm _ _ HR), <- (taken_perm _ _ HR).
  apply (handover _ exchange) with (2 := Value_Proofs.sequential_exact eqb _ _ _ HE HS).
  - intros v o r v' Hx Ho. inversion Ho; subst; inversion Hx; subst; cbn; auto.
  - intros o r Hin. apply (HO o r). now rewrite <- HR.
Qed.
Print Assumptions C107_exchange.

(** The same for atomic.Ptr. *)
Theorem C107_ptr : forall val tr c, Ptr_Model.execution (Ptr_Model.newPtr val) tr c -> (forall t, thread c t = Idle) ->
  (forall o r, In (o, r) (returned tr) -> exchangeP o) ->
  Permutation (takenP (returned tr) ++ [shared c]) (val :: givenP (returned tr)).
Proof.
  intros val tr c H HQ HO. destruct (Ptr_Proofs.ptr_simulation val tr c H) as (h & p & HL & HS & HT).
  assert (HP : forall t, p t = PIdle) by (intros t; specialize (HT t); rewrite HQ in HT; now inversion HT).
  pose proof (linearized_quiescent tr h p HL HP) as HR.
  rewrite <- (givenP_perm _ _ HR), <- (takenP_perm _ _ HR). apply handoverP; [exact HS|].
  intros o r Hin. apply (HO o r). now rewrite <- HR.
Qed.
Print Assumptions C107_ptr.

(** Non-vacuity: goroutines 0 and 1 swap 5 and 7 into a zero Value, 0 called
    first and 1 getting through first. *)
Section Example_.
  Import Value_Model.
  Local Ltac go := cbn; first [apply i_new|apply i_swap|apply i_load|apply i_deref; reflexivity].
  Local Ltac run t before := eapply runs_snoc; [before|eapply (st_run _ _ _ _ t); [reflexivity|go]].
  Local Ltac call t o before := eapply runs_snoc; [before|eapply (st_inv _ _ _ _ t o); reflexivity].
  Local Ltac return_ t before := eapply runs_snoc; [before|eapply (st_ret _ _ _ _ t); reflexivity].
  Example C107_two : exists tr c, execution 0 Z.eqb zeroValue tr c /\ (forall t, thread c t = Idle) /\
    returned tr = [(Swap 5, RVal 7); (Swap 7, RVal 0)] /\ Value_Spec.value 0 c = Some 5.
  Proof.
    eexists _, _. split.
    - return_ 1%nat ltac:(return_ 0%nat ltac:(run 0%nat ltac:(run 0%nat ltac:(
      run 1%nat ltac:(run 1%nat ltac:(call 1%nat (Swap 7) ltac:(run 0%nat ltac:(call 0%nat (Swap 5) ltac:(apply runs_nil))))))))).
    - cbn [app returned]. split; [intros [|[|t]]; reflexivity|]. split; reflexivity.
  Qed.
End Example_.
