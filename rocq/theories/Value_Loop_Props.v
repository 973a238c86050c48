(** C103: compare-and-swap loops on atomic.Value. *)
From Coq Require Import Permutation.
From Verif Require Import Base Lin Lin_Proofs Value_Model Value_Spec Value_Proofs Value_Props Value_Loop_Spec.
Local Open Scope list_scope.

Section Proofs.
  Context {T : Type} (f : T -> T).

  Lemma updated_app l l' : updated (l ++ l') = updated l ++ updated (T := T) l'.
  Proof. induction l as [|[[] [| |[]]] l IH]; cbn; congruence. Qed.
  Lemma updated_perm (l l' : list (op T * res T)) : Permutation l l' -> Permutation (updated l) (updated l').
  Proof.
    induction 1 as [|[o r] l l' _ IH|[o r] [o' r'] l|]; [constructor| | |etransitivity; eassumption].
    - destruct o, r as [| |[]]; cbn; auto.
    - destruct o, o', r as [| |[]], r' as [| |[]]; cbn; auto; apply perm_swap.
  Qed.
  Lemma iterates_snoc n x : iterates f (S n) x = iterates f n x ++ [iterate f n x].
  Proof. revert x. induction n as [|n IH]; intros x; [reflexivity|]. cbn [iterates iterate app]. f_equal. apply IH. Qed.
  Lemma iterate_S n x : iterate f (S n) x = f (iterate f n x).
  Proof. revert x. induction n as [|n IH]; intros x; [reflexivity|]. exact (IH (f x)). Qed.
  Lemma iterates_length n x : List.length (iterates f n x) = n.
  Proof. revert x. induction n; cbn; auto. Qed.

  Lemma loop_sequential x0 h s : sequential exactRegister x0 h s -> (forall o r, In (o, r) h -> loopCall f o) ->
    updated h = iterates f (List.length (updated h)) x0 /\ s = iterate f (List.length (updated h)) x0.
  Proof.
    induction 1 as [|h v o r v' HS IH Hx]; intros HO; [split; reflexivity|].
    destruct IH as [IH1 IH2]; [intros o' r' Hin; apply (HO o' r'); apply in_or_app; now left|].
    assert (HC : loopCall f o) by (apply (HO o r); apply in_or_app; right; now left).
    rewrite updated_app. inversion Hx; subst; inversion HC; subst; cbn [updated]; rewrite ?app_nil_r; auto.
    rewrite app_length. cbn [List.length]. rewrite Nat.add_1_r, iterates_snoc, <- IH1, iterate_S. split; congruence.
  Qed.
End Proofs.

(** *** No update is lost and none is made twice: when every call was made by
    such a loop and all have returned, the values that the successful updates
    replaced are the start value [x], [f x], [f (f x)], ..., each exactly once,
    and the value held is the next of these. *)
Theorem C103_no_lost_update : forall T (zero x : T) eqb (f : T -> T) m tr c, identity eqb ->
  (m = zeroValue /\ x = zero \/ m = newValue x) ->
  execution zero eqb m tr c -> (forall t, thread c t = Idle) ->
  (forall o r, In (o, r) (returned tr) -> loopCall f o) ->
  let n := List.length (updated (returned tr)) in
  Permutation (updated (returned tr)) (iterates f n x) /\ value zero c = Some (iterate f n x).
Proof.
  intros T zero x eqb f m tr c HE Hm H HQ HO n.
  assert (HI0 : Inv zero m x) by (destruct Hm as [[-> ->]| ->]; reflexivity).
  destruct (value_simulation zero eqb m x tr c HI0 H) as (h & p & s & HL & HS & HI & HT).
  assert (HP : forall t, p t = PIdle) by (intros t; specialize (HT t); rewrite HQ in HT; now inversion HT).
  pose proof (linearized_quiescent tr h p HL HP) as HR.
  destruct (loop_sequential f x h s) as [E1 E2].
  - now apply sequential_exact with eqb.
  - intros o r Hin. apply (HO o r). now rewrite <- HR.
  - pose proof (updated_perm _ _ HR) as HU. unfold n. rewrite <- (Permutation_length HU). split.
    + rewrite <- E1. now symmetry.
    + rewrite <- E2. now apply value_inv.
Qed.
Print Assumptions C103_no_lost_update.

(** *** A loop goes round again only because somebody else got through: an
    update CompareAndSwap(x, f(x)) does not return false if the value was [x]
    at every instant since its call. *)
Theorem C103_retry : forall T (zero x0 : T) eqb (f : T -> T) m tr c1 c2 t x, identity eqb ->
  (m = zeroValue \/ m = newValue x0) -> execution zero eqb m tr c1 -> called zero eqb c1 t (CompareAndSwap x (f x)) ->
  stretch zero eqb (fun c => value zero c = Some x /\ forall u o, within c u o -> loopCall f o) c1 c2 ->
  ~ returns c2 t (CompareAndSwap x (f x)) (RBool false).
Proof.
  intros T zero x0 eqb f m tr c1 c2 t x HE Hm HR HC HS (k & Ek & HO).
  assert (HI0 : exists y, Inv zero m y) by (destruct Hm as [->| ->]; eexists; reflexivity). destruct HI0 as (y & HI0).
  assert (HS' : stretch zero eqb (quiet zero x) c1 c2).
  { revert HS. clear. assert (HM : forall c, value zero c = Some x /\ (forall u o, within c u o -> loopCall f o) -> quiet zero x c).
    { intros c [HV HW]. split; [exact HV|]. intros u. split; intros Hu; specialize (HW _ _ Hu); inversion HW. }
    induction 1; [apply span_refl; auto|eapply span_step; eauto]. }
  destruct (on_track zero eqb m y x (f x) t c1 c2 HE HI0 (ex_intro _ tr HR) HC HS') as (_ & _ & H).
  specialize (H k Ek). inversion H; subst; discriminate HO.
Qed.
Print Assumptions C103_retry.

(** Non-vacuity: two goroutines add 1 to a zero Value.  Both load 0; 1 gets
    through, the update of 0 fails, and it succeeds with 1 the second time. *)
Local Ltac go := cbn; first [apply i_new|apply i_load|apply i_deref; reflexivity|apply i_cas_yes; reflexivity|apply i_cas_no; discriminate].
Local Ltac run t before := eapply runs_snoc; [before|eapply (st_run _ _ _ _ t); [reflexivity|go]].
Local Ltac call t o before := eapply runs_snoc; [before|eapply (st_inv _ _ _ _ t o); reflexivity].
Local Ltac return_ t before := eapply runs_snoc; [before|eapply (st_ret _ _ _ _ t); reflexivity].
Definition add1 (x : Z) : Z := x + 1.
Example C103_race : exists tr c, execution 0 Z.eqb zeroValue tr c /\ (forall t, thread c t = Idle) /\
  (forall o r, In (o, r) (returned tr) -> loopCall add1 o) /\ In (CompareAndSwap 0 1, RBool false) (returned tr) /\
  updated (returned tr) = [0; 1] /\ value 0 c = Some 2.
Proof.
  eexists _, _. split.
  - (* from the last step to the first *)
    return_ 0%nat ltac:(run 0%nat ltac:(run 0%nat ltac:(run 0%nat ltac:(run 0%nat ltac:(call 0%nat (CompareAndSwap 1 2) ltac:(
    return_ 0%nat ltac:(run 0%nat ltac:(run 0%nat ltac:(call 0%nat (@Load Z) ltac:(
    return_ 0%nat ltac:(run 0%nat ltac:(
    return_ 1%nat ltac:(run 1%nat ltac:(run 1%nat ltac:(run 1%nat ltac:(call 1%nat (CompareAndSwap 0 1) ltac:(
    run 0%nat ltac:(run 0%nat ltac:(call 0%nat (CompareAndSwap 0 1) ltac:(
    return_ 1%nat ltac:(run 1%nat ltac:(call 1%nat (@Load Z) ltac:(
    return_ 0%nat ltac:(run 0%nat ltac:(call 0%nat (@Load Z) ltac:(apply runs_nil)))))))))))))))))))))))))).
  - cbn [app returned updated]. split; [intros [|[|t]]; reflexivity|]. split; [|split; [cbn; tauto|split; reflexivity]].
    intros o r H. cbn in H. repeat (destruct H as [H|H]; [injection H as <- <-; first [apply lc_load|exact (lc_cas add1 _)]|]). contradiction.
Qed.
