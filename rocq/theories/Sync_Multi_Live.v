(** Locks taken in one order: nobody waits for ever. *)
From Coq Require Import Lia.
From Verif Require Import Base Lin Lin_Proofs Lin_Live Sync_Model Sync_Proofs Sync_Multi_Model Sync_Multi_Spec Sync_Multi_Proofs.
Local Open Scope list_scope.

Section Live.
  Context {T R : Type} (rank : nat -> nat) (P : client T R -> Prop).
  Definition inOrder (j i : nat) : Prop := (rank j < rank i)%nat.
  Hypothesis HP : forall c, P c -> twoPhase inOrder false [] c.
  Local Notation goesOn := (goesOn (mcode (P := P)) mover minstr).

  Inductive mafter : mprog T R -> mprog T R -> Prop :=
  | ma_lock i k : mafter k (MLock i k) | ma_lockwait i k : mafter k (MLockWait i k) | ma_unlock i k : mafter k (MUnlock i k)
  | ma_rlock i k : mafter k (MRLock i k) | ma_runlock i k : mafter k (MRUnlock i k)
  | ma_read i k v : mafter (k v) (MRead i k) | ma_write i v k : mafter k (MWrite i v k).
  Lemma mafter_wf : well_founded mafter.
  Proof. intros k. induction k; constructor; intros y Hy; inversion Hy; subst; auto. Qed.

  (** The object a goroutine is about to lock. *)
  Definition wants (k : mprog T R) (i : nat) : Prop :=
    match k with MLock j _ | MLockWait j _ | MRLock j _ => j = i | _ => False end.

  Lemma bound (c : mstate P) n : quietFrom n c -> exists B, forall t o k i, thread c t = Run o k -> wants k i -> (rank i < B)%nat.
  Proof.
    intros Hq. assert (H : forall m, exists B, forall t o k i, (t < m)%nat -> thread c t = Run o k -> wants k i -> (rank i < B)%nat).
    { induction m as [|m (B & HB)]; [exists 0%nat; lia|].
      exists (Nat.max B (match thread c m with Run _ (MLock i _) | Run _ (MLockWait i _) | Run _ (MRLock i _) => S (rank i) | _ => 0 end))%nat.
      intros t o k i Ht E HW. destruct (Nat.eq_dec t m) as [->|N]; [|assert (rank i < B)%nat by (apply (HB t o k i); [lia|exact E|exact HW]); lia].
      rewrite E. destruct k; cbn in HW; try contradiction; subst; lia. }
    destruct (H n) as (B & HB). exists B. intros t o k i E. destruct (Nat.lt_ge_cases t n) as [L|L]; [eauto|]. rewrite Hq in E by exact L. discriminate.
  Qed.

  Lemma step_on (c : mstate P) t o k k' s' : thread c t = Run o k -> minstr t k (shared c) k' s' -> exists c', goesOn c c'.
  Proof. intros E H. eexists. exists []. split; [eapply st_run; eassumption|]. intros u o' []. Qed.
  Lemma ret_on (c : mstate P) t o r : thread c t = Run o (MRet r) -> exists c', goesOn c c'.
  Proof. intros E. eexists. exists [ERet t o r]. split; [eapply st_ret; [eassumption|reflexivity]|]. intros u o' [H|[]]. discriminate. Qed.

  Section State.
    Context (c : mstate P) (v : nat -> T) (p : nat -> phase (call P) R).
    Hypothesis HI : MInv (shared c) v.
    Hypothesis HT : forall t, MThr inOrder P (shared c) v t (thread c t) (p t).

    (** Somebody who has locked [i] goes on, or waits for a later object. *)
    Lemma holder u i : In u (readers (mutex (shared c i))) \/ writer (mutex (shared c i)) = Some (u, true) ->
      (exists c', goesOn c c') \/ exists o k i', thread c u = Run o k /\ wants k i' /\ (rank i < rank i')%nat.
    Proof.
      intros HH. pose proof (HT u) as H. destruct (thread c u) as [|o0 k0] eqn:E0; (
      inversion H as [HL E1 E2|o h k HN HL HC HG E1 E2|o h j k HN HL HA HC HG E1 E2|o h k r HN HL HC HS E1 E2];  subst); clear H.
      - exfalso. destruct (HL i) as (L1 & L2 & _). destruct HH as [HH|HH]; [apply L1 in HH|apply L2 in HH]; destruct HH.
      - assert (Hin : exists ex, In (i, ex) h) by (destruct (HL i) as (L1 & L2 & _); destruct HH as [HH|HH]; [exists false; now apply L1|exists true; now apply L2]).
        destruct Hin as (ex & Hin). destruct k as [r|j k|j k|j k|j k|j k|j x k]; cbn [compile] in E0; cbn [twoPhase] in HC.
        + destruct HC. discriminate.
        + right. eexists _, _, j. split; [reflexivity|]. split; [reflexivity|]. exact (proj2 (proj1 (proj2 HC) _ _ Hin)).
        + left. destruct HC as (h1 & h2 & -> & _). eapply step_on; [exact E0|]. eapply m_unlock. apply HL. rewrite in_app_iff. cbn. tauto.
        + right. eexists _, _, j. split; [reflexivity|]. split; [reflexivity|]. exact (proj2 (proj1 (proj2 HC) _ _ Hin)).
        + left. destruct HC as (h1 & h2 & -> & _). eapply step_on; [exact E0|]. eapply m_runlock. apply HL. rewrite in_app_iff. cbn. tauto.
        + left. eapply step_on; [exact E0|]. apply m_read.
        + left. eapply step_on; [exact E0|]. apply m_write.
      - assert (Hin : exists ex, In (i, ex) h) by (destruct (HL i) as (L1 & L2 & _); destruct HH as [HH|HH]; [exists false; now apply L1|exists true; now apply L2]).
        destruct Hin as (ex & Hin). right. eexists _, _, j. split; [reflexivity|]. split; [reflexivity|]. exact (proj2 (HA _ _ Hin)).
      - left. destruct k as [r'|j k|j k|j k|j k|j k|j x k]; cbn [compile] in E0; cbn [twoPhase] in HC.
        + eapply ret_on; exact E0.
        + destruct HC. discriminate.
        + destruct HC as (h1 & h2 & -> & _). eapply step_on; [exact E0|]. eapply m_unlock. apply HL. rewrite in_app_iff. cbn. tauto.
        + destruct HC. discriminate.
        + destruct HC as (h1 & h2 & -> & _). eapply step_on; [exact E0|]. eapply m_runlock. apply HL. rewrite in_app_iff. cbn. tauto.
        + eapply step_on; [exact E0|]. apply m_read.
        + eapply step_on; [exact E0|]. apply m_write.
    Qed.

    (** Whoever announced a Lock waits for readers only. *)
    Lemma announced u i : writer (mutex (shared c i)) = Some (u, false) ->
      (exists c', goesOn c c') \/ exists u', In u' (readers (mutex (shared c i))).
    Proof.
      intros HW. pose proof (HT u) as H. destruct (readers (mutex (shared c i))) as [|u' l] eqn:ER; [|right; exists u'; now left]. left.
      destruct (thread c u) as [|o0 k0] eqn:E0; ( inversion H as [HL E1 E2|o h k HN HL HC HG E1 E2|o h j k HN HL HA HC HG E1 E2|o h k r HN HL HC HS E1 E2];  subst); clear H;
        destruct (HL i) as (_ & _ & L3); apply L3 in HW as HE; try discriminate.
      injection HE as ->. eapply step_on; [exact E0|]. now apply m_lockwait.
    Qed.

    Lemma waits B n : (forall t o k i, thread c t = Run o k -> wants k i -> (rank i < B)%nat) ->
      forall t o k i, thread c t = Run o k -> wants k i -> (B - rank i <= n)%nat -> exists c', goesOn c c'.
    Proof.
      intros HB. induction n as [|n IH]; intros t o k i E HW HN; pose proof (HB t o k i E HW) as Hb; [clear - HN Hb; lia|].
      assert (G : forall u, In u (readers (mutex (shared c i))) \/ writer (mutex (shared c i)) = Some (u, true) -> exists c', goesOn c c').
      { intros u Hu. destruct (holder u i Hu) as [H|(o' & k' & i' & E' & HW' & HR)]; [exact H|]. apply (IH u o' k' i' E' HW'). clear - HN Hb HR. lia. }
      destruct (writer (mutex (shared c i))) as [[u []]|] eqn:EW.
      - apply (G u). now right.
      - destruct (announced u i EW) as [H|(u' & Hu)]; [exact H|]. apply (G u'). now left.
      - destruct k; cbn in HW; try contradiction; subst.
        + eapply step_on; [exact E|]. now apply m_lock.
        + exfalso. pose proof (HT t) as H. rewrite E in H. inversion H as [|o1 h k1 HN1 HL HC HG|o1 h j k1 HN1 HL HA HC HG|o1 h k1 r HN1 HL HC HS]; subst.
          * destruct k1; discriminate.
          * destruct (HL i) as (_ & _ & L3). rewrite EW in L3. discriminate (proj2 L3 eq_refl).
          * destruct k1; discriminate.
        + eapply step_on; [exact E|]. now apply m_rlock.
    Qed.

    Lemma some_go t o k n : quietFrom n c -> thread c t = Run o k -> exists c', goesOn c c'.
    Proof.
      intros Hq E. destruct (bound c n Hq) as (B & HB).
      assert (W : forall i, wants k i -> exists c', goesOn c c') by (intros i Hi; exact (waits B (B - rank i) HB t o k i E Hi (le_n _))).
      pose proof (HT t) as H. rewrite E in H.
      inversion H as [|o1 h k1 HN HL HC HG|o1 h j k1 HN HL HA HC HG|o1 h k1 r HN HL HC HS]; subst.
      - destruct k1 as [r|i k|i k|i k|i k|i k|i x k]; cbn [compile] in *; cbn [twoPhase] in HC; try (apply (W i); reflexivity).
        + eapply ret_on; exact E.
        + destruct HC as (h1 & h2 & -> & _). eapply step_on; [exact E|]. eapply m_unlock. apply HL. rewrite in_app_iff. cbn. tauto.
        + destruct HC as (h1 & h2 & -> & _). eapply step_on; [exact E|]. eapply m_runlock. apply HL. rewrite in_app_iff. cbn. tauto.
        + eapply step_on; [exact E|]. apply m_read.
        + eapply step_on; [exact E|]. apply m_write.
      - apply (W j). reflexivity.
      - destruct k1 as [r'|i k|i k|i k|i k|i k|i x k]; cbn [compile] in *; cbn [twoPhase] in HC; try (apply (W i); reflexivity).
        + eapply ret_on; exact E.
        + destruct HC as (h1 & h2 & -> & _). eapply step_on; [exact E|]. eapply m_unlock. apply HL. rewrite in_app_iff. cbn. tauto.
        + destruct HC as (h1 & h2 & -> & _). eapply step_on; [exact E|]. eapply m_runlock. apply HL. rewrite in_app_iff. cbn. tauto.
        + eapply step_on; [exact E|]. apply m_read.
        + eapply step_on; [exact E|]. apply m_write.
    Qed.
  End State.

  Lemma all_end v0 tr c : mexecution (P := P) v0 tr c -> inevitably (mcode (P := P)) mover minstr allOutside c.
  Proof.
    apply (all_return (mcode (P := P)) mover minstr mafter mafter_wf).
    - intros t k s k' s' HI. inversion HI; constructor.
    - clear tr c. intros tr c t o k HR E. destruct (multi_simulation inOrder P HP v0 tr c HR) as (h & p & v & _ & _ & HI & HT).
      destruct (runs_quiet _ _ _ _ _ _ HR) as (n & Hn). exact (some_go c v p HT t o k n Hn E).
  Qed.
End Live.
