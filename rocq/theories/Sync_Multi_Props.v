(** C131: several values, each in a Synchronized or RWSynchronized of its own, used together. *)
From Coq Require Import Lia Permutation.
From Verif Require Import Base Lin Lin_Proofs Lin_Live Sync_Model Sync_Multi_Model Sync_Multi_Spec Sync_Multi_Proofs Sync_Multi_Live.
Local Open Scope list_scope.

(** *** Clients that lock what they use before they unlock anything take effect in
    one step, whatever order they lock in: every execution is linearizable with
    respect to running each client alone, and when all goroutines are outside,
    every lock is free and the values are those this order leaves, the order
    consisting of exactly the calls that returned. *)
Theorem C131_one_step : forall T R (P : client T R -> Prop), (forall c, P c -> twoPhase anyOrder false [] c) ->
  forall v0 tr (c : mstate P), mexecution v0 tr c ->
  linearizable serial v0 tr /\
  (allOutside c -> exists order p v, linearized tr order p /\ Permutation order (returned tr) /\
    sequential serial v0 order v /\ forall i, Value (shared c i) = v i /\ mutex (shared c i) = unlocked).
Proof.
  intros T R P HP v0 tr c H. destruct (multi_simulation anyOrder P HP v0 tr c H) as (h & p & v & HL & HS & HI & HT).
  split; [now exists h, p, v|]. intros HA. exists h, p, v. split; [exact HL|].
  assert (HX : forall t, p t = PIdle /\ Locks (shared c) t [] None).
  { intros t. specialize (HT t). rewrite HA in HT. now inversion HT. }
  split; [apply (linearized_quiescent tr h p HL); intros t; apply HX|]. split; [exact HS|]. intros i. destruct (HI i) as [_ HV].
  assert (HW : writer (mutex (shared c i)) = None).
  { destruct (writer (mutex (shared c i))) as [[u []]|] eqn:E; [| |reflexivity]; exfalso; destruct (HX u) as [_ L]; destruct (L i) as (_ & L2 & L3);
      [destruct (proj1 L2 E)|discriminate (proj1 L3 E)]. }
  rewrite HW in HV. split; [exact HV|]. destruct (mutex (shared c i)) as [w l] eqn:Em. cbn in HW. subst w. unfold unlocked. f_equal.
  destruct l as [|u l]; [reflexivity|]. exfalso. destruct (HX u) as [_ L]. destruct (L i) as (L1 & _). rewrite Em in L1. destruct (proj1 L1 (or_introl eq_refl)).
Qed.
Print Assumptions C131_one_step.

(** *** If they also lock in one order, nobody waits for ever: whatever has been
    called so far and however the goroutines are scheduled, without new calls all
    of them are outside after finitely many steps. *)
Theorem C131_all_end : forall T R (P : client T R -> Prop) (rank : nat -> nat),
  (forall c, P c -> twoPhase (fun j i => rank j < rank i)%nat false [] c) ->
  forall v0 tr (c : mstate P), mexecution v0 tr c -> inevitably mcode mover minstr allOutside c.
Proof. intros T R P rank HP v0 tr c. apply (all_end rank P HP). Qed.
Print Assumptions C131_all_end.

(** *** What each client preserves when run alone holds whenever a client takes
    effect, and when all are outside. *)
Lemma sequential_invariant {T R} (P : client T R -> Prop) (I : (nat -> T) -> Prop) (v0 : nat -> T) :
  (forall v v', (forall i, v i = v' i) -> I v -> I v') -> (forall c v, P c -> I v -> I (snd (alone c v))) -> I v0 ->
  forall h v, sequential (serial (P := P)) v0 h v -> I v /\ forall o r, In (o, r) h -> exists w, I w /\ fst (alone (proj1_sig o) w) = r.
Proof.
  intros HE HI H0 h v. induction 1 as [|h s o r s' HS [IH1 IH2] Hs]; [split; [exact H0|intros o r []]|].
  inversion Hs as [o1 v1 v1' E]; subst. split.
  - apply (HE (snd (alone (proj1_sig o) s))); [intros i; symmetry; apply E|]. apply HI; [apply (proj2_sig o)|exact IH1].
  - intros o2 r2 Hin. apply in_app_iff in Hin as [Hin|[Hin|[]]]; [now apply IH2|]. injection Hin as <- <-. exists s. auto.
Qed.
Lemma returned_in {Op R} (tr : list (event Op R)) t o r : In (ERet t o r) tr -> In (o, r) (returned tr).
Proof. induction tr as [|[u o'|u o' r'] tr IH]; cbn; [tauto| |]; intros [E|H]; try discriminate; auto. injection E as -> -> ->. now left. Qed.
Lemma linearizable_invariant {T R} (P : client T R -> Prop) (I : (nat -> T) -> Prop) (v0 : nat -> T) :
  (forall v v', (forall i, v i = v' i) -> I v -> I v') -> (forall c v, P c -> I v -> I (snd (alone c v))) -> I v0 ->
  forall tr, linearizable (serial (P := P)) v0 tr -> forall t o r, In (ERet t o r) tr -> exists w, I w /\ fst (alone (proj1_sig o) w) = r.
Proof.
  intros HE HI H0 tr (h & p & v & HL & HS) t o r Hin. apply (proj2 (sequential_invariant P I v0 HE HI H0 h v HS)).
  destruct (linearized_returned tr h p HL) as (d & _ & _ & HPm). symmetry in HPm. apply (Permutation_in _ HPm). apply in_app_iff. left. eapply returned_in; eassumption.
Qed.
Theorem C131_invariant : forall T R (P : client T R -> Prop) (I : (nat -> T) -> Prop), (forall c, P c -> twoPhase anyOrder false [] c) ->
  (forall v v', (forall i, v i = v' i) -> I v -> I v') -> (forall c v, P c -> I v -> I (snd (alone c v))) ->
  forall v0 tr (c : mstate P), I v0 -> mexecution v0 tr c ->
  (forall t o r, In (ERet t o r) tr -> exists v, I v /\ fst (alone (proj1_sig o) v) = r) /\
  (allOutside c -> I (fun i => Value (shared c i))).
Proof.
  intros T R P I HP HE HI v0 tr c H0 HR. destruct (C131_one_step T R P HP v0 tr c HR) as [HL HQ]. split.
  - exact (linearizable_invariant P I v0 HE HI H0 tr HL).
  - intros HA. destruct (HQ HA) as (h & p & v & _ & _ & HS & HV). apply (HE v); [intros i; symmetry; apply HV|].
    exact (proj1 (sequential_invariant P I v0 HE HI H0 h v HS)).
Qed.
Print Assumptions C131_invariant.

(** *** Accounts *)
Local Open Scope Z_scope.
Lemma twoPhase_lockAll (ok : nat -> nat -> Prop) k n : forall i h, (forall j ex, In (j, ex) h -> (j < i)%nat) -> (forall j j', (j < j')%nat -> ok j j') ->
  twoPhase ok false (rev (map (fun j => (j, false)) (seq i n)) ++ h) k -> twoPhase ok false h (lockAll i n k).
Proof.
  induction n as [|n IH]; intros i h Hh Hok H; cbn [lockAll twoPhase]; [exact H|]. split; [reflexivity|]. split.
  - intros j ex Hin. specialize (Hh _ _ Hin). split; [lia|auto].
  - apply IH; [|exact Hok|].
    + intros j ex [[= <- <-]|Hin]; [lia|]. specialize (Hh _ _ Hin). lia.
    + cbn [seq map rev] in H. rewrite <- app_assoc in H. exact H.
Qed.
Lemma twoPhase_addUp (ok : nat -> nat -> Prop) n : forall b i acc, (b = true \/ n <> 0%nat) -> twoPhase ok b (rev (map (fun j => (j, false)) (seq i n))) (addUp i n acc).
Proof.
  induction n as [|n IH]; intros b i acc Hb; cbn [addUp twoPhase seq map rev]; [split; [destruct Hb; [assumption|congruence]|reflexivity]|].
  split; [exists false; rewrite in_app_iff; cbn; tauto|]. intros v. exists (rev (map (fun j => (j, false)) (seq (S i) n))), []. split; [reflexivity|].
  rewrite app_nil_r. apply IH. now left.
Qed.
Lemma banking_twoPhase (ok : nat -> nat -> Prop) n c : (forall j i, (j < i)%nat -> ok j i) -> banking n c -> twoPhase ok false [] c.
Proof.
  intros Hok [i j d Hi Hj N|Hn].
  - unfold transfer. cbn [twoPhase]. split; [reflexivity|]. split; [intros ? ? []|]. split; [reflexivity|].
    split; [intros j' ex [[= <- <-]|[]]; split; [lia|apply Hok; lia]|].
    assert (D : (Nat.min i j = i /\ Nat.max i j = j) \/ (Nat.min i j = j /\ Nat.max i j = i)) by lia.
    destruct D as [[-> ->]|[-> ->]]; (split; [exists true; cbn; tauto|]; intros x; split; [cbn; tauto|]; split; [exists true; cbn; tauto|]; intros y; split; [cbn; tauto|]).
    + exists [(j, true)], []. split; [reflexivity|]. exists [], []. split; [reflexivity|]. now split.
    + exists [], [(j, true)]. split; [reflexivity|]. exists [], []. split; [reflexivity|]. now split.
  - unfold audit. apply twoPhase_lockAll; [intros ? ? []|exact Hok|]. rewrite app_nil_r. apply twoPhase_addUp. right. lia.
Qed.
Lemma sum_ext n v v' : (forall i, v i = v' i) -> sum n v = sum n v'.
Proof. intros H. induction n; cbn; congruence. Qed.
Lemma sum_put_out n v i x : (n <= i)%nat -> sum n (put v i x) = sum n v.
Proof. intros H. induction n as [|n IH]; cbn; [reflexivity|]. rewrite IH by lia. rewrite put_other by lia. reflexivity. Qed.
Lemma sum_put n v i x : (i < n)%nat -> sum n (put v i x) = sum n v - v i + x.
Proof.
  induction n as [|n IH]; intros H; [lia|]. cbn [sum]. destruct (Nat.eq_dec i n) as [->|N].
  - rewrite put_same, sum_put_out by lia. lia.
  - rewrite put_other by exact N. rewrite IH by lia. lia.
Qed.
Lemma alone_lockAll k n : forall i v, alone (lockAll i n k) v = alone k v.
Proof. induction n as [|n IH]; intros i v; cbn; auto. Qed.
Lemma alone_addUp n : forall i acc v, alone (addUp i n acc) v = (acc + (sum (i + n) v - sum i v), v).
Proof.
  induction n as [|n IH]; intros i acc v; cbn [addUp alone].
  - rewrite Nat.add_0_r. f_equal. lia.
  - rewrite IH. f_equal. replace (i + S n)%nat with (S i + n)%nat by lia. cbn [sum]. lia.
Qed.
Lemma alone_audit n v : alone (audit n) v = (sum n v, v).
Proof. unfold audit. rewrite alone_lockAll, alone_addUp. cbn. f_equal. lia. Qed.
Lemma banking_sum n c v : banking n c -> sum n (snd (alone c v)) = sum n v.
Proof.
  intros [i j d Hi Hj N|_]; [|now rewrite alone_audit]. cbn. rewrite !sum_put by assumption. rewrite put_other by exact N. lia.
Qed.

(** Goroutines move money between accounts and audit all of them, each account in
    an RWSynchronized of its own: every audit returns the money there was at the
    beginning, none is lost when all are outside, and all come to an end. *)
Theorem C131_accounts : forall n v0 tr (c : mstate (banking n)), mexecution v0 tr c ->
  (forall t o r, In (ERet t o r) tr -> proj1_sig o = audit n -> r = sum n v0) /\
  (allOutside c -> sum n (fun i => Value (shared c i)) = sum n v0) /\
  inevitably mcode mover minstr allOutside c.
Proof.
  intros n v0 tr c H.
  destruct (C131_invariant Z Z (banking n) (fun v => sum n v = sum n v0)) with (v0 := v0) (tr := tr) (c := c) as [H1 H2]; auto.
  - intros k Hk. apply (banking_twoPhase _ n); [easy|exact Hk].
  - intros v v' E Hv. rewrite <- Hv. apply sum_ext. intros i. symmetry. apply E.
  - intros k v Hk Hv. now rewrite (banking_sum n k v Hk).
  - split; [|split; [exact H2|]].
    + intros t o r Hin E. destruct (H1 t o r Hin) as (w & Hw & <-). now rewrite E, alone_audit.
    + apply (C131_all_end Z Z (banking n) (fun i => i)) with (v0 := v0) (tr := tr); [|exact H]. intros k Hk. now apply (banking_twoPhase _ n).
Qed.
Print Assumptions C131_accounts.

(** To build executions from their beginning. *)
Local Ltac go := cbn; first [apply m_read|apply m_write|apply m_lock; reflexivity|apply m_lockwait; reflexivity
  |eapply m_unlock; reflexivity|apply m_rlock; reflexivity|apply m_runlock; cbn; tauto].
Local Ltac run t H := eapply runs_snoc in H; [|eapply (st_run _ _ _ _ t); [reflexivity|go]].
Local Ltac invoke t o H := eapply runs_snoc in H; [|eapply (st_inv _ _ _ _ t o); reflexivity].
Local Ltac return_ t H := eapply runs_snoc in H; [|eapply (st_ret _ _ _ _ t); reflexivity].

(** Non-vacuity, for all the theorems above: two goroutines move money between accounts 0 and 1, the one back and the
    other forth, while an audit waits; it returns the sum. *)
Example C131_accounts_case : exists tr (c : mstate (banking 2)) o, mexecution (fun _ => 5) tr c /\ allOutside c /\
  In (ERet 2%nat o 10) tr /\ proj1_sig o = audit 2 /\ Value (shared c 0%nat) = 1 /\ Value (shared c 1%nat) = 9.
Proof.
  set (a := exist (banking 2) (transfer 0 1 7) (b_transfer 2 0 1 7 ltac:(lia) ltac:(lia) ltac:(lia))).
  set (b := exist (banking 2) (transfer 1 0 3) (b_transfer 2 1 0 3 ltac:(lia) ltac:(lia) ltac:(lia))).
  set (e := exist (banking 2) (audit 2) (b_audit 2 ltac:(lia))).
  assert (X : mexecution (P := banking 2) (fun _ => 5) [] (start (mfresh (fun _ => 5)))) by apply runs_nil.
  unfold mexecution in X. invoke 0%nat a X. invoke 1%nat b X. invoke 2%nat e X.
  do 4 run 0%nat X. do 4 run 0%nat X. run 0%nat X. run 1%nat X. run 0%nat X. return_ 0%nat X.
  do 9 run 1%nat X. return_ 1%nat X. do 6 run 2%nat X. return_ 2%nat X.
  eexists _, _, e. split; [exact X|]. split; [|split; [|repeat split]].
  - intros t. cbn [thread]. unfold put. destruct (Nat.eqb 2 t), (Nat.eqb 1 t), (Nat.eqb 0 t); reflexivity.
  - rewrite !in_app_iff. right. left. reflexivity.
Qed.

(** *** Locking again after an unlock is not enough: an audit of two accounts that
    unlocks the one before it locks the other, always in the same order, sees
    money that is not there. *)
Definition hasty : client Z Z := CRLock 0 (CRead 0 (fun x => CRUnlock 0 (CRLock 1 (CRead 1 (fun y => CRUnlock 1 (CRet (x + y))))))).
Theorem C131_two_phase_needed : exists tr (c : mstate (fun c => c = hasty \/ c = transfer 0 1 3)) o,
  mexecution (fun _ => 5) tr c /\ allOutside c /\ proj1_sig o = hasty /\ In (ERet 0%nat o 13) tr /\ (forall v, fst (alone hasty v) = sum 2 v) /\
  ~ linearizable serial (fun _ => 5) tr.
Proof.
  set (Q := fun c => c = hasty \/ c = transfer 0 1 3).
  set (a := exist Q hasty (or_introl eq_refl)). set (b := exist Q (transfer 0 1 3) (or_intror eq_refl)).
  assert (X : mexecution (P := Q) (fun _ => 5) [] (start (mfresh (fun _ => 5)))) by apply runs_nil.
  unfold mexecution in X. invoke 0%nat a X. invoke 1%nat b X. do 3 run 0%nat X. do 10 run 1%nat X. return_ 1%nat X. do 3 run 0%nat X. return_ 0%nat X.
  assert (HS : forall v, fst (alone hasty v) = sum 2 v) by (intros v; cbn; lia).
  eexists _, _, a. split; [exact X|]. split; [|split; [reflexivity|split; [|split; [exact HS|]]]].
  - intros t. cbn [thread]. unfold put. destruct (Nat.eqb 0 t), (Nat.eqb 1 t); reflexivity.
  - rewrite !in_app_iff. right. left. reflexivity.
  - intros HL.
    assert (HQ : forall k v, Q k -> sum 2 v = 10 -> sum 2 (snd (alone k v)) = 10).
    { intros k v [->| ->] E; [exact E|]. rewrite (banking_sum 2); [exact E|]. constructor; lia. }
    destruct (linearizable_invariant Q (fun v => sum 2 v = 10) (fun _ => 5)
      (fun v v' E H => eq_trans (eq_sym (sum_ext 2 v v' E)) H) HQ eq_refl _ HL 0%nat a 13) as (w & Hw & E).
    + rewrite !in_app_iff. right. left. reflexivity.
    + change (fst (alone hasty w) = 13) in E. rewrite HS in E. congruence.
Qed.
Print Assumptions C131_two_phase_needed.

(** *** Without an order they may wait for each other for ever: two goroutines that
    move money back and forth, each locking first the account it takes from. *)
Definition fromFirst (i j : nat) (d : Z) : client Z Z :=
  CLock i (CLock j (CRead i (fun x => CWrite i (x - d) (CRead j (fun y => CWrite j (y + d) (CUnlock i (CUnlock j (CRet 0)))))))).
Definition twoWays (c : client Z Z) : Prop := c = fromFirst 0 1 3 \/ c = fromFirst 1 0 3.
Theorem C131_order_needed : (forall c, twoWays c -> twoPhase anyOrder false [] c) /\
  exists tr (c : mstate twoWays), mexecution (fun _ => 5) tr c /\
  thread c 0 <> Idle /\ thread c 1 <> Idle /\ forall c', ~ goesOn mcode mover minstr c c'.
Proof.
  split.
  - intros c [->| ->]; cbn -[Z.add Z.sub]; (split; [reflexivity|]; split; [intros ? ? []|]; split; [reflexivity|]; split;
      [intros ? ? [[= <- <-]|[]]; split; [discriminate|exact I]|]; split; [exists true; tauto|]; intros x; split; [tauto|]; split; [exists true; tauto|];
      intros y; split; [tauto|]; eexists [_], []; split; [reflexivity|]; exists [], []; now repeat split).
  - set (a := exist twoWays (fromFirst 0 1 3) (or_introl eq_refl)). set (b := exist twoWays (fromFirst 1 0 3) (or_intror eq_refl)).
    assert (X : mexecution (P := twoWays) (fun _ => 5) [] (start (mfresh (fun _ => 5)))) by apply runs_nil.
    unfold mexecution in X. invoke 0%nat a X. invoke 1%nat b X. do 2 run 0%nat X. do 2 run 1%nat X.
    eexists _, _. split; [exact X|]. split; [discriminate|]. split; [discriminate|].
    intros c' (ev & HS & HE). inversion HS as [c1 t o E|c1 t o k k' sh' E HI|c1 t o k r E HR]; subst.
    + apply (HE t o). now left.
    + cbn [thread] in E. unfold put in E. cbn [shared] in HI.
      destruct (Nat.eqb 1 t) eqn:E1; [|destruct (Nat.eqb 0 t) eqn:E0; [|discriminate]]; injection E as <- <-; inversion HI; subst;
        match goal with H : writer _ = None |- _ => cbn in H; discriminate end.
    + cbn [thread] in E. unfold put in E. destruct (Nat.eqb 1 t) eqn:E1; [|destruct (Nat.eqb 0 t) eqn:E0; [|discriminate]]; injection E as <- <-; discriminate.
Qed.
Print Assumptions C131_order_needed.

(** *** Nor can a reader become a writer: RLock and then Lock of the same object
    waits for itself, even alone. *)
Definition upgrade : client Z Z := CRLock 0 (CRead 0 (fun x => CLock 0 (CWrite 0 (x + 1) (CUnlock 0 (CRUnlock 0 (CRet x)))))).
Theorem C131_upgrade_stuck : exists tr (c : mstate (fun c => c = upgrade)), mexecution (fun _ => 5) tr c /\
  thread c 0 <> Idle /\ forall c', ~ goesOn mcode mover minstr c c'.
Proof.
  set (Q := fun c => c = upgrade). set (a := exist Q upgrade eq_refl).
  assert (X : mexecution (P := Q) (fun _ => 5) [] (start (mfresh (fun _ => 5)))) by apply runs_nil.
  unfold mexecution in X. invoke 0%nat a X. do 3 run 0%nat X.
  eexists _, _. split; [exact X|]. split; [discriminate|].
  intros c' (ev & HS & HE). inversion HS as [c1 t o E|c1 t o k k' sh' E HI|c1 t o k r E HR]; subst.
  - apply (HE t o). now left.
  - cbn [thread] in E. unfold put in E. cbn [shared] in HI. destruct (Nat.eqb 0 t) eqn:E0; [|discriminate]. injection E as <- <-. inversion HI; subst.
    match goal with H : readers _ = [] |- _ => cbn in H; discriminate end.
  - cbn [thread] in E. unfold put in E. destruct (Nat.eqb 0 t) eqn:E0; [|discriminate]. injection E as <- <-. discriminate.
Qed.
Print Assumptions C131_upgrade_stuck.
