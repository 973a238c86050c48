(** C67, C68: atomic.Value. *)
From Verif Require Import Base Lin Lin_Proofs Value_Model Value_Spec Value_Proofs.
Local Open Scope list_scope.

(** *** C67: every execution of any number of goroutines is linearizable as an
    atomic register, for every type [T], zero value and [==]: the calls took
    effect one at a time, each between its call and its return, and the value
    held at the end is the one that order leaves. *)
Theorem C67_linearizable : forall T (zero : T) eqb tr c, execution zero eqb zeroValue tr c ->
  exists order p v, linearized tr order p /\ sequential (register eqb) zero order v /\ value zero c = Some v.
Proof.
  intros T zero eqb tr c H. destruct (value_simulation zero eqb zeroValue zero tr c eq_refl H) as (h & p & s & HL & HS & HI & _).
  exists h, p, s. split; [exact HL|]. split; [exact HS|]. now apply value_inv.
Qed.
Print Assumptions C67_linearizable.

Theorem C67_new_value : forall T (zero x : T) eqb tr c, execution zero eqb (newValue x) tr c ->
  exists order p v, linearized tr order p /\ sequential (register eqb) x order v /\ value zero c = Some v.
Proof.
  intros T zero x eqb tr c H. destruct (value_simulation zero eqb (newValue x) x tr c eq_refl H) as (h & p & s & HL & HS & HI & _).
  exists h, p, s. split; [exact HL|]. split; [exact HS|]. now apply value_inv.
Qed.
Print Assumptions C67_new_value.

(** Where [==] is identity, a CompareAndSwap(old, new) that returns true
    replaced exactly [old] by exactly [new]. *)
Theorem C67_exact : forall T (zero : T) eqb tr c, identity eqb -> execution zero eqb zeroValue tr c ->
  exists order p v, linearized tr order p /\ sequential exactRegister zero order v /\ value zero c = Some v.
Proof.
  intros T zero eqb tr c HE H. destruct (C67_linearizable T zero eqb tr c H) as (h & p & s & HL & HS & HV).
  exists h, p, s. split; [exact HL|]. split; [now apply sequential_exact with eqb|exact HV].
Qed.
Print Assumptions C67_exact.

(** No call reads through a bad pointer or waits for another: while it is not
    over it has a next instruction, and it has at most four. *)
Theorem C67_wait_free : forall T (zero : T) eqb,
  (forall tr c t o k, execution zero eqb zeroValue tr c -> thread c t = Run o k -> over k = None ->
    exists k' m', instr t k (shared c) k' m') /\
  (forall t o, overWithin 4 t (code zero eqb o)).
Proof.
  intros T zero eqb. split.
  - intros tr c t o k HR E HO. exact (never_stuck zero eqb zeroValue zero tr c t o k eq_refl HR E HO).
  - intros t o. apply over_within.
Qed.
Print Assumptions C67_wait_free.

(** *** C68 is refuted: while goroutine 0 runs CompareAndSwap(1, 2), the value
    is 1 at every instant, and it returns false.  The reason is a Store(1) of
    goroutine 1, which replaces the pointer by one to an equal value. *)
Definition one : Z := 1.
Definition c68_start : state Z :=
  Build_config (newValue one) (put (fun _ => Idle) 0%nat (Run (CompareAndSwap 1 2) (code 0 Z.eqb (CompareAndSwap 1 2)))).

Theorem C68_spurious_failure_refuted : exists tr c1 c2,
  execution 0 Z.eqb (newValue 1) tr c1 /\ called 0 Z.eqb c1 0 (CompareAndSwap 1 2) /\
  stretch 0 Z.eqb (fun c => value 0 c = Some 1) c1 c2 /\
  returns c2 0 (CompareAndSwap 1 2) (RBool false).
Proof.
  eexists _, _, _. split; [|split; [|split]].
  - eapply runs_snoc; [apply runs_nil|]. apply (st_inv _ _ _ _ 0%nat (CompareAndSwap 1 2)). reflexivity.
  - reflexivity.
  - (* 0 loads the pointer; 1 stores 1 in a new cell; 0 goes on and fails *)
    eapply span_step; [eapply span_step; [eapply span_step; [eapply span_step; [eapply span_step; [eapply span_step; [eapply span_step;
      [apply span_refl; reflexivity| |]| |]| |]| |]| |]| |]| |].
    + eapply (st_run _ _ _ _ 0%nat); [reflexivity|]. cbn. constructor.
    + reflexivity.
    + eapply (st_inv _ _ _ _ 1%nat (Store 1)). reflexivity.
    + reflexivity.
    + eapply (st_run _ _ _ _ 1%nat); [reflexivity|]. cbn. constructor.
    + reflexivity.
    + eapply (st_run _ _ _ _ 1%nat); [reflexivity|]. cbn. constructor.
    + reflexivity.
    + eapply (st_run _ _ _ _ 0%nat); [reflexivity|]. cbn. constructor. reflexivity.
    + reflexivity.
    + eapply (st_run _ _ _ _ 0%nat); [reflexivity|]. cbn. constructor.
    + reflexivity.
    + eapply (st_run _ _ _ _ 0%nat); [reflexivity|]. cbn. apply i_cas_no. discriminate.
    + reflexivity.
  - eexists. split; reflexivity.
Qed.
Print Assumptions C68_spurious_failure_refuted.

(** *** C68, what holds: where [==] is identity, a CompareAndSwap(old, new)
    does not fail if at every instant since its call the value was [old] and
    nobody was inside a Store(old) or Swap(old). *)
Theorem C68_failure_partial : forall T (zero : T) eqb x tr c1 c2 t old new, identity eqb ->
  execution zero eqb (newValue x) tr c1 -> called zero eqb c1 t (CompareAndSwap old new) ->
  stretch zero eqb (fun c => value zero c = Some old /\ forall u, ~ within c u (Store old) /\ ~ within c u (Swap old)) c1 c2 ->
  ~ returns c2 t (CompareAndSwap old new) (RBool false).
Proof.
  intros T zero eqb x tr c1 c2 t old new HE HR HC HS (k & Ek & HO).
  destruct (on_track zero eqb (newValue x) x old new t c1 c2 HE eq_refl (ex_intro _ tr HR) HC HS) as (_ & _ & H).
  specialize (H k Ek). inversion H; subst; discriminate HO.
Qed.
Print Assumptions C68_failure_partial.

(** *** C68, the only cause: if the value is [old] at every instant of a call of
    CompareAndSwap(old, new) that fails, then during this call the write of a
    Store(old) or Swap(old) took place.  For a new Value and for a zero one. *)
Theorem C68_cause_partial : forall T (zero : T) eqb m tr c1 c2 t old new, identity eqb ->
  m = zeroValue \/ (exists x, m = newValue x) ->
  execution zero eqb m tr c1 -> called zero eqb c1 t (CompareAndSwap old new) ->
  let unchanged c := value zero c = Some old /\ within c t (CompareAndSwap old new) in
  stretch zero eqb unchanged c1 c2 -> returns c2 t (CompareAndSwap old new) (RBool false) ->
  exists ca cb u, stretch zero eqb unchanged c1 ca /\ writes zero eqb ca cb u old /\ stretch zero eqb unchanged cb c2.
Proof.
  intros T zero eqb m tr c1 c2 t old new HE HM HR HC P HS (k & Ek & HO).
  assert (HI : exists v, Inv zero m v) by (destruct HM as [->|(x & ->)]; [exists zero|exists x]; reflexivity).
  destruct HI as (v & HI).
  destruct (on_track_or_written zero eqb m v old new t c1 c2 HE HI (ex_intro _ tr HR) HC HS) as (_ & _ & [H|H]); [|exact H].
  specialize (H k Ek). inversion H; subst; discriminate HO.
Qed.
Print Assumptions C68_cause_partial.

(** Non-vacuity: the run of [C68_spurious_failure_refuted] is one like this. *)
Example C68_cause_case : exists tr c1 c2,
  execution 0 Z.eqb zeroValue tr c1 /\ called 0 Z.eqb c1 0 (CompareAndSwap 0 2) /\
  stretch 0 Z.eqb (fun c => value 0 c = Some 0 /\ within c 0 (CompareAndSwap 0 2)) c1 c2 /\
  returns c2 0 (CompareAndSwap 0 2) (RBool false).
Proof.
  eexists _, _, _. split; [|split; [|split]].
  - eapply runs_snoc; [apply runs_nil|]. apply (st_inv _ _ _ _ 0%nat (CompareAndSwap 0 2)). reflexivity.
  - reflexivity.
  - eapply span_step; [eapply span_step; [eapply span_step; [eapply span_step; [eapply span_step; [eapply span_step;
      [apply span_refl; split; [reflexivity|eexists; reflexivity]| |]| |]| |]| |]| |]| |].
    + eapply (st_run _ _ _ _ 0%nat); [reflexivity|]. cbn. constructor.
    + split; [reflexivity|eexists; reflexivity].
    + eapply (st_inv _ _ _ _ 1%nat (Swap 0)). reflexivity.
    + split; [reflexivity|eexists; reflexivity].
    + eapply (st_run _ _ _ _ 1%nat); [reflexivity|]. cbn. constructor.
    + split; [reflexivity|eexists; reflexivity].
    + eapply (st_run _ _ _ _ 1%nat); [reflexivity|]. cbn. constructor.
    + split; [reflexivity|eexists; reflexivity].
    + eapply (st_run _ _ _ _ 0%nat); [reflexivity|]. cbn. constructor.
    + split; [reflexivity|eexists; reflexivity].
    + eapply (st_run _ _ _ _ 0%nat); [reflexivity|]. cbn. apply i_cas_no. discriminate.
    + split; [reflexivity|eexists; reflexivity].
  - eexists. split; reflexivity.
Qed.

(** Non-vacuity: a goroutine runs CompareAndSwap(1, 2) alone and the value is 1
    until it is replaced. *)
Example C68_quiet_stretch : exists c2, stretch 0 Z.eqb (fun c => value 0 c = Some 1 /\ forall u, ~ within c u (Store 1) /\ ~ within c u (Swap 1)) c68_start c2 /\
  within c2 0 (CompareAndSwap 1 2) /\ c2 <> c68_start.
Proof.
  assert (W : forall sh k, forall u o, within (Build_config sh (put (put (fun _ : nat => @Idle (op Z) (prog Z)) 0%nat (Run (CompareAndSwap 1 2) (code 0 Z.eqb (CompareAndSwap 1 2)))) 0%nat (Run (CompareAndSwap 1 2) k))) u o -> o = CompareAndSwap 1 2).
  { intros sh k u o (k' & E). cbn [thread] in E. unfold put in E. destruct (Nat.eqb 0 u); congruence. }
  eexists. split; [|split].
  - eapply span_step; [apply span_refl| |].
    + split; [reflexivity|]. intros u. split; intros (k' & E); cbn [thread c68_start] in E; unfold put in E; destruct (Nat.eqb 0 u); congruence.
    + eapply (st_run _ _ _ _ 0%nat); [reflexivity|]. cbn. constructor.
    + split; [reflexivity|]. intros u. split; intros HW; apply W in HW; discriminate.
  - eexists. reflexivity.
  - intros E. apply (f_equal (fun c => thread c 0%nat)) in E. cbn in E. discriminate.
Qed.
