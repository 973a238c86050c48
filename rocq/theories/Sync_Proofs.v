(** Proofs about xsync.Synchronized and RWSynchronized. *)
From Coq Require Import Permutation.
From Verif Require Import Base Lin Lin_Proofs Sync_Model Sync_Spec.
Local Open Scope list_scope.

Section Proofs.
  Context {T R : Type}.

  (** While nobody is writing, the value is the abstract one; readers and a
      writer exclude each other. *)
  Definition Inv (s : object T) (v : T) : Prop :=
    NoDup (readers (mutex s)) /\
    match writer (mutex s) with
    | Some (_, true) => readers (mutex s) = []
    | _ => Value s = v
    end.

  Definition away (s : object T) (t : nat) : Prop :=
    ~ In t (readers (mutex s)) /\ forall b, writer (mutex s) <> Some (t, b).

  Inductive Thr (s : object T) (v : T) (t : nat) : tstate (op T R) (prog T R) -> phase (op T R) R -> Prop :=
  | T_idle : away s t -> Thr s v t Idle PIdle
  | T_start o : away s t -> Thr s v t (Run o (code o)) (PPending o)
  | T_wait b : ~ In t (readers (mutex s)) -> writer (mutex s) = Some (t, false) ->
      Thr s v t (Run (Exclusive b) (LockWait (inside b (fun r => Unlock (Ret r))))) (PPending (Exclusive b))
  | T_inside b b' : ~ In t (readers (mutex s)) -> writer (mutex s) = Some (t, true) -> atomically b' (Value s) = atomically b v ->
      Thr s v t (Run (Exclusive b) (inside b' (fun r => Unlock (Ret r)))) (PPending (Exclusive b))
  | T_looking l l' : In t (readers (mutex s)) -> (forall b, writer (mutex s) <> Some (t, b)) -> sees l' v = sees l v ->
      Thr s v t (Run (Shared l) (looking l' (fun r => RUnlock (Ret r)))) (PPending (Shared l))
  | T_done o r : away s t -> Thr s v t (Run o (Ret r)) (PDone o r).

  Lemma In_leave t u l : u <> t -> In u (leave t l) <-> In u l.
  Proof.
    intros N. induction l as [|w l IH]; cbn [leave]; [reflexivity|]. destruct (Nat.eqb_spec t w) as [->|N2].
    - cbn. split; [now right|]. intros [->|H]; [contradiction|exact H].
    - cbn. now rewrite IH.
  Qed.
  Lemma leave_NoDup t l : NoDup l -> NoDup (leave t l) /\ ~ In t (leave t l).
  Proof.
    induction 1 as [|w l H1 H2 [IH1 IH2]]; cbn [leave]; [split; [constructor|auto]|].
    destruct (Nat.eqb_spec t w) as [->|N]; [auto|]. split.
    - constructor; [|exact IH1]. rewrite In_leave by congruence. exact H1.
    - intros [E|H]; [congruence|auto].
  Qed.

  Lemma Thr_keep s v s' v' t ts p : Thr s v t ts p ->
    (In t (readers (mutex s')) <-> In t (readers (mutex s))) ->
    (forall b, writer (mutex s') = Some (t, b) <-> writer (mutex s) = Some (t, b)) ->
    (writer (mutex s) = Some (t, true) -> Value s' = Value s /\ v' = v) ->
    (In t (readers (mutex s)) -> v' = v) -> Thr s' v' t ts p.
  Proof.
    intros H HR HW HV HV2. assert (HA : away s t -> away s' t).
    { intros [H1 H2]. split; [now rewrite HR|]. intros b E. apply (H2 b). now apply HW. }
    destruct H; try (constructor; auto; fail).
    - constructor; [now rewrite HR|now apply HW].
    - destruct (HV ltac:(assumption)) as [E1 ->]. constructor; [now rewrite HR|now apply HW|now rewrite E1].
    - specialize (HV2 ltac:(assumption)). subst v'. constructor; [now apply HR| |assumption]. intros b E. apply HW in E. now apply (H0 b).
  Qed.

  Lemma thr_step s v t o k p k' s' : Inv s v -> Thr s v t (Run o k) p -> instr t k s k' s' ->
    exists v' p', Inv s' v' /\ Thr s' v' t (Run o k') p' /\
      ((v' = v /\ p' = p) \/ (exists r, p = PPending o /\ oneAtATime v o r v' /\ p' = PDone o r)) /\
      (forall u ts pu, u <> t -> Thr s v u ts pu -> Thr s' v' u ts pu).
  Proof.
    intros [HN HI] HT HS. inversion HT; subst; clear HT.
    - (* start *) match goal with H : away _ _ |- _ => destruct H as [HA1 HA2] end. destruct o as [b|l]; cbn [code] in HS; unfold exclusively, sharing in HS; inversion HS; subst; clear HS.
      + exists v, (PPending (Exclusive b)). match goal with H : writer _ = None |- _ => rename H into HW end. rewrite HW in HI.
        split; [split; cbn [mutex readers writer Value]; assumption|]. split; [now constructor|]. split; [now left|].
        intros u1 ts pu N H. apply (Thr_keep _ _ _ _ _ _ _ H); cbn [mutex readers writer Value]; try reflexivity; auto.
        intros b0. rewrite HW. split; congruence.
      + exists v, (PPending (Shared l)). match goal with H : writer _ = None |- _ => rename H into HW end. rewrite HW in HI.
        split; [split; cbn [mutex readers writer Value]; [now constructor|assumption]|].
        split; [constructor; cbn [mutex readers writer Value]; [now left|discriminate|reflexivity]|]. split; [now left|].
        intros u1 ts pu N H. apply (Thr_keep _ _ _ _ _ _ _ H); cbn [mutex readers writer Value]; auto.
        * split; [intros [E|E]; [congruence|exact E]|now right].
        * intros b0. rewrite HW. reflexivity.
    - (* wait *) match goal with H : writer _ = Some _ |- _ => rename H into HW end. inversion HS; subst; clear HS.
      match goal with H : readers _ = [] |- _ => rename H into HRd end. rewrite HW in HI.
      exists v, (PPending (Exclusive b)). split; [split; cbn [mutex readers writer Value]; [constructor|reflexivity]|].
      split; [constructor; cbn [mutex readers writer Value]; [auto|reflexivity|now rewrite HI]|]. split; [now left|].
      intros u1 ts pu N H. apply (Thr_keep _ _ _ _ _ _ _ H); cbn [mutex readers writer Value]; auto.
      + now rewrite HRd.
      + intros b0. rewrite HW. split; congruence.
    - (* inside *) match goal with H : writer _ = Some _ |- _ => rename H into HW end.
      match goal with H : atomically _ _ = _ |- _ => rename H into HAt end. rewrite HW in HI. destruct b' as [r|k0|v0 b']; cbn [inside] in HS; inversion HS; subst; clear HS.
      + cbn [atomically] in HAt. exists (Value s), (PDone (Exclusive b) r).
        split; [split; cbn [mutex readers writer Value]; [assumption|reflexivity]|].
        split; [constructor; split; cbn [mutex readers writer Value]; [assumption|discriminate]|].
        split; [right; exists r; repeat split; now constructor|].
        intros u1 ts pu N H. apply (Thr_keep _ _ _ _ _ _ _ H); cbn [mutex readers writer Value]; auto.
        * reflexivity.
        * intros b0. rewrite HW. split; congruence.
        * rewrite HW. congruence.
        * rewrite HI. intros [].
      + exists v, (PPending (Exclusive b)). split; [split; [assumption|now rewrite HW]|].
        split; [now constructor|]. split; [now left|]. auto.
      + exists v, (PPending (Exclusive b)). split; [split; cbn [mutex]; [assumption|now rewrite HW]|].
        split; [now constructor|]. split; [now left|].
        intros u1 ts pu N H. apply (Thr_keep _ _ _ _ _ _ _ H); cbn [mutex readers writer Value]; auto; try reflexivity.
        rewrite HW. congruence.
    - (* looking *) match goal with H : In t _ |- _ => rename H into Hin end.
      match goal with H : sees _ _ = _ |- _ => rename H into Hse end. assert (HV : Value s = v).
      { destruct (writer (mutex s)) as [[w [|]]|]; auto. rewrite HI in Hin. destruct Hin. }
      destruct l' as [r|k0]; cbn [looking] in HS; inversion HS; subst; clear HS.
      + exists (Value s), (PDone (Shared l) r). destruct (leave_NoDup t _ HN) as [L1 L2].
        split; [split; cbn [mutex readers writer Value]; [assumption|]|].
        { destruct (writer (mutex s)) as [[w [|]]|]; auto. rewrite HI in Hin. destruct Hin. }
        split; [constructor; split; cbn [mutex readers writer Value]; assumption|].
        split; [right; exists r; repeat split; cbn [sees] in Hse; rewrite Hse; constructor|].
        intros u1 ts pu N H. apply (Thr_keep _ _ _ _ _ _ _ H); cbn [mutex readers writer Value]; auto.
        * now apply In_leave.
        * reflexivity.
      + exists (Value s'), (PPending (Shared l)). split; [split; [assumption|]|].
        { destruct (writer (mutex s')) as [[w [|]]|]; auto. }
        split; [now constructor|]. split; [now left|]. auto.
    - inversion HS.
  Qed.

  Lemma thr_ret s v t o k p r : Inv s v -> Thr s v t (Run o k) p -> over k = Some r -> p = PDone o r /\ Thr s v t Idle PIdle.
  Proof.
    intros _ HT HO. inversion HT; subst; try discriminate.
    - destruct o; discriminate.
    - destruct b'; discriminate.
    - destruct l'; discriminate.
    - cbn in HO. split; [congruence|now constructor].
  Qed.

  Lemma sync_simulation v0 tr c : execution v0 tr c ->
    exists h p v, linearized tr h p /\ sequential oneAtATime v0 h v /\ Inv (shared c) v /\ forall t, Thr (shared c) v t (thread c t) (p t).
  Proof.
    apply (simulation code over instr oneAtATime (fresh v0) v0 Inv Thr).
    - split; [constructor|reflexivity].
    - intros t. constructor. split; [intros []|discriminate].
    - intros s v t p H. now inversion H.
    - intros s v t o _ H. inversion H; subst. now constructor.
    - intros. eapply thr_ret; eauto.
    - intros. eapply thr_step; eauto.
  Qed.

  (** ** Where the lock holders are *)
  Lemma inside_unlock (x : T) (b : body T R) fin : (forall r, beforeUnlock (fin r)) -> beforeUnlock (inside b fin).
  Proof. intros H. induction b; cbn [inside]; [apply H|constructor; auto|constructor; auto]. Qed.
  Lemma looking_not_unlock (x : T) (l : look T R) : ~ beforeUnlock (looking l (fun r => RUnlock (Ret r))).
  Proof. induction l as [r|k IH]; cbn [looking]; intros H; inversion H; subst. now apply (IH x). Qed.
  Lemma inside_not_runlock (x : T) (b : body T R) : ~ beforeRUnlock (inside b (fun r => Unlock (Ret r))).
  Proof. induction b as [r|k IH|v b IH]; cbn [inside]; intros H; inversion H; subst; [now apply (IH x)|auto]. Qed.

  Lemma locks_writer s v t o k p : Thr s v t (Run o k) p -> beforeUnlock k -> writer (mutex s) = Some (t, true).
  Proof.
    intros HT HB. inversion HT; subst; auto; try (inversion HB; fail).
    - destruct o; inversion HB.
    - exfalso. now apply (looking_not_unlock v l').
  Qed.
  Lemma rlocks_reader s v t o k p : Thr s v t (Run o k) p -> beforeRUnlock k -> In t (readers (mutex s)).
  Proof.
    intros HT HB. inversion HT; subst; auto; try (inversion HB; fail).
    - destruct o; inversion HB.
    - exfalso. now apply (inside_not_runlock v b').
  Qed.

  Lemma exclusion (v0 : T) tr (c : state T R) t u : execution v0 tr c -> locks c t -> locks c u \/ rlocks c u -> t = u.
  Proof.
    intros HR (o & k & E & HB) HU. destruct (sync_simulation v0 tr c HR) as (h & p & v & _ & _ & [_ HI] & HT).
    pose proof (HT t) as Ht. rewrite E in Ht. pose proof (locks_writer _ _ _ _ _ _ Ht HB) as HW. rewrite HW in HI.
    destruct HU as [(o' & k' & E' & HB')|(o' & k' & E' & HB')]; pose proof (HT u) as Hu; rewrite E' in Hu.
    - pose proof (locks_writer _ _ _ _ _ _ Hu HB'). congruence.
    - pose proof (rlocks_reader _ _ _ _ _ _ Hu HB') as H. rewrite HI in H. destruct H.
  Qed.

  Lemma idle_value (v0 : T) tr (c : state T R) : execution v0 tr c -> (forall t, thread c t = Idle) ->
    exists h p, linearized tr h p /\ sequential oneAtATime v0 h (Value (shared c)) /\ Permutation h (returned tr).
  Proof.
    intros HR HA. destruct (sync_simulation v0 tr c HR) as (h & p & v & HL & HS & [_ HI] & HT).
    assert (HP : forall t, p t = PIdle /\ away (shared c) t).
    { intros t. pose proof (HT t) as Ht. rewrite HA in Ht. inversion Ht; auto. }
    exists h, p. split; [exact HL|]. split; [|apply (linearized_quiescent _ _ _ HL); apply HP].
    destruct (writer (mutex (shared c))) as [[u b]|] eqn:EW; [exfalso; now apply (proj2 (proj2 (HP u)) b)|]. now subst v.
  Qed.

  (** ** Progress *)
  Lemma progress (v0 : T) tr (c : state T R) t o k : execution v0 tr c -> thread c t = Run o k -> exists u, canGoOn c u.
  Proof.
    intros HR E. destruct (sync_simulation v0 tr c HR) as (h & p & v & _ & _ & [HN HI] & HT).
    assert (Insd : forall u o' b, thread c u = Run o' (inside b (fun r => Unlock (Ret r))) -> writer (mutex (shared c)) = Some (u, true) -> canGoOn c u).
    { intros u o' b E' HW. exists o', (inside b (fun r => Unlock (Ret r))). split; [exact E'|]. right.
      destruct b; cbn [inside]; eexists; eexists; econstructor; eauto. }
    assert (Look : forall u, In u (readers (mutex (shared c))) -> exists u, canGoOn c u).
    { intros u Hin. exists u. pose proof (HT u) as Hu. inversion Hu; subst; try (match goal with H : away _ _ |- _ => destruct H as [H _]; contradiction end); try contradiction.
      eexists; eexists. split; [symmetry; eassumption|]. right. destruct l'; cbn [looking]; eexists; eexists; econstructor; eauto. }
    assert (Wait : forall u b, writer (mutex (shared c)) = Some (u, b) -> exists u, canGoOn c u).
    { intros u b HW. pose proof (HT u) as Hu. inversion Hu; subst;
        try (match goal with H : away _ _ |- _ => destruct H as [_ H]; exfalso; now apply (H b) end).
      - destruct (readers (mutex (shared c))) as [|w l] eqn:ER.
        + exists u. eexists; eexists. split; [symmetry; eassumption|]. right. eexists; eexists. constructor; assumption.
        + apply (Look w). now left.
      - exists u. eapply Insd; eauto.
      - eapply Look; eauto. }
    pose proof (HT t) as Ht. rewrite E in Ht. inversion Ht; subst.
    - destruct (writer (mutex (shared c))) as [[u b]|] eqn:EW; [eapply Wait; eauto|].
      exists t. eexists; eexists. split; [eassumption|]. right. destruct o; eexists; eexists; constructor; assumption.
    - eapply Wait; eauto.
    - eapply Wait; eauto.
    - eapply Look; eauto.
    - exists t. eexists; eexists. split; [eassumption|]. left. discriminate.
  Qed.
End Proofs.

(** ** Updates *)
Definition amount (e : op Z unit * unit) : Z := match fst e with Exclusive b => snd (atomically b 0%Z) | Shared _ => 0%Z end.
Fixpoint total (l : list (op Z unit * unit)) : Z := match l with [] => 0%Z | e :: l' => (amount e + total l')%Z end.

Lemma total_app a b : total (a ++ b) = (total a + total b)%Z.
Proof. induction a as [|x a IH]; cbn [app total]; [reflexivity|]. rewrite IH. lia. Qed.
Lemma total_perm a b : Permutation a b -> total a = total b.
Proof. induction 1; cbn [total]; lia. Qed.
Lemma total_sequential v0 h v : (forall e, In e h -> exists d, fst e = add d) -> sequential oneAtATime v0 h v -> v = (v0 + total h)%Z.
Proof.
  intros HF H. induction H as [|h s o r s' HS IH HO]; [cbn; lia|].
  assert (E : s = (v0 + total h)%Z) by (apply IH; intros e He; apply HF, in_or_app; now left).
  destruct (HF (o, r)) as (d & Ed); [apply in_or_app; right; now left|]. cbn [fst] in Ed. subst o.
  inversion HO as [v1 b r1 v2 HA|]; subst. cbn in HA. injection HA as _ <-. rewrite total_app. cbn. lia.
Qed.
