(** Proofs about goroutines that hold several locks at a time. *)
From Coq Require Import Lia Permutation.
From Verif Require Import Base Lin Lin_Proofs Lin_Live Sync_Model Sync_Proofs Sync_Multi_Model Sync_Multi_Spec.
Local Open Scope list_scope.

Section Alone.
  Context {T R : Type}.
  Definition eqv (v w : nat -> T) : Prop := forall i, v i = w i.
  Definition same_end (a b : R * (nat -> T)) : Prop := fst a = fst b /\ eqv (snd a) (snd b).

  Lemma same_refl a : same_end a a.
  Proof. split; [reflexivity|intros i; reflexivity]. Qed.
  Lemma same_trans a b c : same_end a b -> same_end b c -> same_end a c.
  Proof. intros [H1 H2] [H3 H4]. split; [congruence|]. intros i. now rewrite H2. Qed.
  Lemma alone_ext (c : client T R) : forall v w, eqv v w -> same_end (alone c v) (alone c w).
  Proof.
    induction c as [r|i k IH|i k IH|i k IH|i k IH|i k IH|i x k IH]; intros v w E; cbn [alone]; auto.
    - split; [reflexivity|exact E].
    - rewrite (E i). apply IH. exact E.
    - apply IH. intros j. unfold put. destruct (Nat.eqb i j); [reflexivity|apply E].
  Qed.

  Context (ok : nat -> nat -> Prop).
  (** After the first unlock nothing is written that is not held. *)
  Lemma alone_frame (c : client T R) : forall h v j, twoPhase ok true h c -> ~ In (j, true) h -> snd (alone c v) j = v j.
  Proof.
    induction c as [r|i k IH|i k IH|i k IH|i k IH|i k IH|i x k IH]; intros h v j H Hj; cbn [twoPhase alone] in *.
    - reflexivity.
    - destruct H as [H _]. discriminate.
    - destruct H as (h1 & h2 & -> & H). apply (IH _ _ _ H). intros Hin. apply Hj. rewrite in_app_iff in *. cbn. tauto.
    - destruct H as [H _]. discriminate.
    - destruct H as (h1 & h2 & -> & H). apply (IH _ _ _ H). intros Hin. apply Hj. rewrite in_app_iff in *. cbn. tauto.
    - destruct H as [_ H]. exact (IH _ _ _ _ (H _) Hj).
    - destruct H as [Hi H]. rewrite (IH _ _ _ H Hj). unfold put. destruct (Nat.eqb_spec i j); [subst; contradiction|reflexivity].
  Qed.
End Alone.

Section Proofs.
  Context {T R : Type} (ok : nat -> nat -> Prop) (P : client T R -> Prop).
  Hypothesis HP : forall c, P c -> twoPhase ok false [] c.
  Local Notation op := (call P).

  Definition MInv (s : objects T) (v : nat -> T) : Prop := forall i,
    NoDup (readers (mutex (s i))) /\
    match writer (mutex (s i)) with
    | Some (_, true) => readers (mutex (s i)) = []
    | _ => Value (s i) = v i
    end.

  (** [t] has locked [h] and waits for the readers of [w] to leave. *)
  Definition Locks (s : objects T) (t : nat) (h : holding) (w : option nat) : Prop := forall i,
    (In t (readers (mutex (s i))) <-> In (i, false) h) /\
    (writer (mutex (s i)) = Some (t, true) <-> In (i, true) h) /\
    (writer (mutex (s i)) = Some (t, false) <-> w = Some i).

  Definition exclusive (h : holding) (i : nat) : bool := existsb (fun e => Nat.eqb (fst e) i && snd e) h.
  Lemma exclusive_in h i : exclusive h i = true <-> In (i, true) h.
  Proof.
    unfold exclusive. rewrite existsb_exists. split.
    - intros ([j b] & Hin & H). cbn in H. apply andb_prop in H as [H ->]. apply Nat.eqb_eq in H. now subst.
    - intros H. exists (i, true). split; [exact H|]. cbn. now rewrite Nat.eqb_refl.
  Qed.
  (** What [t] sees: its own writes. *)
  Definition local (s : objects T) (h : holding) (v : nat -> T) : nat -> T := fun i => if exclusive h i then Value (s i) else v i.

  Definition Grow (s : objects T) (v : nat -> T) (h : holding) (c0 c : client T R) : Prop :=
    forall v', (forall i ex, In (i, ex) h -> v' i = v i) -> same_end (alone c0 v') (alone c (local s h v')).
  Definition Shrink (s : objects T) (v : nat -> T) (h : holding) (c : client T R) (r : R) : Prop :=
    exists w, (forall i ex, In (i, ex) h -> w i = Value (s i)) /\ fst (alone c w) = r /\ forall i, In (i, true) h -> snd (alone c w) i = v i.

  Inductive MThr (s : objects T) (v : nat -> T) (t : nat) : tstate op (mprog T R) -> phase op R -> Prop :=
  | MT_idle : Locks s t [] None -> MThr s v t Idle PIdle
  | MT_grow o h c : NoDup (map fst h) -> Locks s t h None -> twoPhase ok false h c -> Grow s v h (proj1_sig o) c ->
      MThr s v t (Run o (compile c)) (PPending o)
  | MT_wait o h i c : NoDup (map fst h) -> Locks s t h (Some i) -> (forall j ex, In (j, ex) h -> j <> i /\ ok j i) -> twoPhase ok false ((i, true) :: h) c ->
      Grow s v h (proj1_sig o) c -> MThr s v t (Run o (MLockWait i (compile c))) (PPending o)
  | MT_shrink o h c r : NoDup (map fst h) -> Locks s t h None -> twoPhase ok true h c -> Shrink s v h c r ->
      MThr s v t (Run o (compile c)) (PDone o r).

  Lemma MThr_keep s v s' v' t ts p : MThr s v t ts p ->
    (forall i, In t (readers (mutex (s' i))) <-> In t (readers (mutex (s i)))) ->
    (forall i b, writer (mutex (s' i)) = Some (t, b) <-> writer (mutex (s i)) = Some (t, b)) ->
    (forall i, In t (readers (mutex (s i))) \/ writer (mutex (s i)) = Some (t, true) -> Value (s' i) = Value (s i) /\ v' i = v i) ->
    MThr s' v' t ts p.
  Proof.
    intros H HR HW HV.
    assert (HL : forall h w, Locks s t h w -> Locks s' t h w).
    { intros h w HL i. destruct (HL i) as (H1 & H2 & H3). now rewrite HR, !HW. }
    assert (HX : forall h w, Locks s t h w -> forall i ex, In (i, ex) h -> Value (s' i) = Value (s i) /\ v' i = v i).
    { intros h w HL' i ex Hin. apply HV. destruct (HL' i) as (H1 & H2 & _). destruct ex; [right; now apply H2|left; now apply H1]. }
    assert (HG : forall h w c0 c, Locks s t h w -> Grow s v h c0 c -> Grow s' v' h c0 c).
    { intros h w c0 c HL' HG v2 Hv2. eapply same_trans; [apply HG; intros i ex Hin; rewrite (Hv2 i ex Hin); now apply (HX _ _ HL' i ex)|].
      apply alone_ext. intros i. unfold local. destruct (exclusive h i) eqn:E; [|reflexivity]. apply exclusive_in in E.
      symmetry. now apply (HX _ _ HL' i true). }
    destruct H as [H0|o h c H1 H2 H3 H4|o h i c H1 H2 H3 H4 H5|o h c r H1 H2 H3 (w & W1 & W2 & W3)].
    - constructor. auto.
    - econstructor; eauto.
    - econstructor; eauto.
    - econstructor; eauto. exists w. split; [|split; [exact W2|]].
      + intros i ex Hin. rewrite (W1 i ex Hin). symmetry. now apply (HX _ _ H2 i ex).
      + intros i Hin. rewrite (W3 i Hin). symmetry. now apply (HX _ _ H2 i true).
  Qed.

  (** A step on the lock of [i] alone that leaves the values. *)
  Lemma keep_lock s v i m u ts p : MThr s v u ts p ->
    (In u (readers m) <-> In u (readers (mutex (s i)))) -> (forall b, writer m = Some (u, b) <-> writer (mutex (s i)) = Some (u, b)) ->
    MThr (setMutex s i m) v u ts p.
  Proof.
    intros H HR HW. apply (MThr_keep _ _ _ _ _ _ _ H); unfold setMutex.
    - intros j. destruct (Nat.eq_dec i j) as [<-|N]; [now rewrite put_same|now rewrite put_other].
    - intros j b. destruct (Nat.eq_dec i j) as [<-|N]; [now rewrite put_same|now rewrite put_other].
    - intros j _. destruct (Nat.eq_dec i j) as [<-|N]; [now rewrite put_same|now rewrite put_other].
  Qed.
  Lemma value_set (s : objects T) i m j : Value (setMutex s i m j) = Value (s j).
  Proof. unfold setMutex. destruct (Nat.eq_dec i j) as [<-|N]; [now rewrite put_same|now rewrite put_other]. Qed.
  Lemma mutex_set (s : objects T) i m j : mutex (setMutex s i m j) = if Nat.eqb i j then m else mutex (s j).
  Proof. unfold setMutex, put. now destruct (Nat.eqb i j). Qed.
  Lemma Inv_set s v i m : MInv s v -> NoDup (readers m) ->
    match writer m with Some (_, true) => readers m = [] | _ => Value (s i) = v i end -> MInv (setMutex s i m) v.
  Proof.
    intros HI H1 H2 j. rewrite mutex_set, value_set. destruct (Nat.eqb_spec i j) as [<-|N]; [auto|apply HI].
  Qed.

  Lemma Grow_local s v h c0 c s' v' h' c' : Grow s v h c0 c ->
    (forall i ex, In (i, ex) h -> In (i, ex) h') -> (forall i ex, In (i, ex) h -> v' i = v i) ->
    (forall w, (forall i ex, In (i, ex) h' -> w i = v' i) -> same_end (alone c (local s h w)) (alone c' (local s' h' w))) -> Grow s' v' h' c0 c'.
  Proof.
    intros HG Hh Hv HE w Hw. eapply same_trans; [apply HG|exact (HE w Hw)]. intros i ex Hin. rewrite (Hw i ex (Hh _ _ Hin)). eauto.
  Qed.
  Lemma local_ext s h v s' h' v' : (forall i, exclusive h' i = exclusive h i) -> (forall i, exclusive h i = true -> Value (s' i) = Value (s i)) ->
    (forall i, exclusive h i = false -> v' i = v i) -> eqv (local s h v) (local s' h' v').
  Proof. intros H1 H2 H3 i. unfold local. rewrite H1. destruct (exclusive h i) eqn:E; symmetry; auto. Qed.

  Lemma NoDup_mid {A} (l1 l2 : list (nat * A)) i x : NoDup (map fst (l1 ++ (i, x) :: l2)) ->
    NoDup (map fst (l1 ++ l2)) /\ forall y, ~ In (i, y) (l1 ++ l2).
  Proof.
    rewrite !map_app. cbn [map fst]. intros H. split; [eapply NoDup_remove_1; exact H|]. intros y Hin. apply (in_map fst) in Hin. cbn in Hin.
    apply NoDup_remove_2 in H. rewrite map_app in Hin. contradiction.
  Qed.

  (** Locks after an unlock of [i]. *)
  Lemma Locks_unlock s t h1 h2 i : NoDup (map fst (h1 ++ (i, true) :: h2)) -> Locks s t (h1 ++ (i, true) :: h2) None ->
    Locks (setMutex s i {| writer := None; readers := readers (mutex (s i)) |}) t (h1 ++ h2) None.
  Proof.
    intros HN HL. destruct (NoDup_mid _ _ _ _ HN) as [_ Hno]. intros j. rewrite mutex_set. destruct (HL j) as (L1 & L2 & L3).
    rewrite in_app_iff in L1, L2. rewrite (in_app_iff h1 h2 (j, false)), (in_app_iff h1 h2 (j, true)). cbn [In] in L1, L2. destruct (Nat.eqb_spec i j) as [<-|N]; cbn [writer readers].
    - split; [rewrite L1; split; [intros [H|[H|H]]; [tauto|discriminate|tauto]|tauto]|]. split; [|split; discriminate].
      split; [discriminate|]. intros H. exfalso. apply (Hno true).
      rewrite in_app_iff. exact H.
    - split; [rewrite L1; split; [intros [H|[H|H]]; [tauto|congruence|tauto]|tauto]|]. split; [|exact L3].
      rewrite L2. split; [intros [H|[H|H]]; [tauto|congruence|tauto]|tauto].
  Qed.
  Lemma Locks_runlock s t h1 h2 i : NoDup (readers (mutex (s i))) -> NoDup (map fst (h1 ++ (i, false) :: h2)) -> Locks s t (h1 ++ (i, false) :: h2) None ->
    Locks (setMutex s i {| writer := writer (mutex (s i)); readers := leave t (readers (mutex (s i))) |}) t (h1 ++ h2) None.
  Proof.
    intros HR HN HL. destruct (NoDup_mid _ _ _ _ HN) as [_ Hno]. destruct (leave_NoDup t _ HR) as [_ HX]. intros j. rewrite mutex_set. destruct (HL j) as (L1 & L2 & L3).
    rewrite in_app_iff in L1, L2. rewrite (in_app_iff h1 h2 (j, false)), (in_app_iff h1 h2 (j, true)). cbn [In] in L1, L2. destruct (Nat.eqb_spec i j) as [<-|N]; cbn [writer readers].
    - split; [|split; [|exact L3]].
      + split; [intros H; contradiction|]. intros H. exfalso. apply (Hno false). now rewrite in_app_iff.
      + rewrite L2. split; [intros [H|[H|H]]; [tauto|discriminate|tauto]|tauto].
    - split; [rewrite L1; split; [intros [H|[H|H]]; [tauto|congruence|tauto]|tauto]|]. split; [|exact L3].
      rewrite L2. split; [intros [H|[H|H]]; [tauto|congruence|tauto]|tauto].
  Qed.

  (** What is read is what [t] sees. *)
  Lemma read_value s v t h w i ex : MInv s v -> Locks s t h w -> In (i, ex) h -> ex = false -> Value (s i) = v i.
  Proof.
    intros HI HL Hin ->. destruct (HL i) as (L1 & _). apply L1 in Hin. destruct (HI i) as [_ H].
    destruct (writer (mutex (s i))) as [[u []]|]; auto. rewrite H in Hin. destruct Hin.
  Qed.

  (** The state of others when [t] releases a lock; [v'] differs from [v] in what [t] held with Lock. *)
  Lemma others_effect s v v' t h w : MInv s v -> Locks s t h w -> (forall j, ~ In (j, true) h -> v' j = v j) ->
    forall u ts pu, u <> t -> MThr s v u ts pu -> MThr s v' u ts pu.
  Proof.
    intros HI HL Hv u ts pu N H. apply (MThr_keep _ _ _ _ _ _ _ H); try reflexivity.
    intros i Hu. split; [reflexivity|]. apply Hv. intros Hin. destruct (HL i) as (_ & L2 & _). apply L2 in Hin.
    destruct (HI i) as [_ HIi]. rewrite Hin in HIi, Hu. rewrite HIi in Hu. destruct Hu as [[]|Hu]. congruence.
  Qed.
  Lemma others_unlock s v t i : writer (mutex (s i)) = Some (t, true) ->
    forall u ts pu, u <> t -> MThr s v u ts pu -> MThr (setMutex s i {| writer := None; readers := readers (mutex (s i)) |}) v u ts pu.
  Proof.
    intros HW u ts pu N H. apply keep_lock; [exact H|reflexivity|]. intros b. cbn. rewrite HW. split; congruence.
  Qed.
  Lemma others_runlock s v t i : 
    forall u ts pu, u <> t -> MThr s v u ts pu -> MThr (setMutex s i {| writer := writer (mutex (s i)); readers := leave t (readers (mutex (s i))) |}) v u ts pu.
  Proof.
    intros u ts pu N H. apply keep_lock; [exact H|now apply In_leave|]. reflexivity.
  Qed.

  (** The first unlock: the client takes effect. *)
  Lemma effect s v t (o : op) h h' c : MInv s v -> Locks s t h None -> twoPhase ok true h' c -> Grow s v h (proj1_sig o) c ->
    (forall i ex, In (i, ex) h' -> In (i, ex) h) ->
    let v' := snd (alone (proj1_sig o) v) in
    (forall j, ~ In (j, true) h' -> v' j = local s h v j) /\ (forall j, ~ In (j, true) h -> v' j = v j) /\
    Shrink s v' h' c (fst (alone (proj1_sig o) v)).
  Proof.
    intros HI HL HT HG Hsub v'. destruct (HG v (fun _ _ _ => eq_refl)) as [E1 E2]. fold v' in E2.
    assert (F : forall j, ~ In (j, true) h' -> v' j = local s h v j) by (intros j Hj; rewrite E2; exact (alone_frame ok c _ _ _ HT Hj)).
    split; [exact F|]. split.
    - intros j Hj. rewrite F by (intros H; apply Hj; now apply Hsub). unfold local. destruct (exclusive h j) eqn:Ex; [|reflexivity].
      apply exclusive_in in Ex. contradiction.
    - exists (local s h v). split; [|split; [now symmetry|intros i _; now symmetry]].
      intros i ex Hin. apply Hsub in Hin. unfold local. destruct (exclusive h i) eqn:Ex; [reflexivity|].
      destruct ex; [apply exclusive_in in Hin; congruence|]. symmetry. exact (read_value _ _ _ _ _ _ _ HI HL Hin eq_refl).
  Qed.

  Lemma Shrink_eq s v h c r s' h' : Shrink s v h c r -> (forall i ex, In (i, ex) h' -> In (i, ex) h) -> (forall i, Value (s' i) = Value (s i)) ->
    Shrink s' v h' c r.
  Proof. intros (w & W1 & W2 & W3) Hs HV. exists w. split; [|split; [exact W2|]]; intros; [rewrite HV|]; eauto. Qed.

  Lemma mthr_step s v t o k p k' s' : MInv s v -> MThr s v t (Run o k) p -> minstr t k s k' s' ->
    exists v' p', MInv s' v' /\ MThr s' v' t (Run o k') p' /\
      ((v' = v /\ p' = p) \/ (exists r, p = PPending o /\ serial v o r v' /\ p' = PDone o r)) /\
      (forall u ts pu, u <> t -> MThr s v u ts pu -> MThr s' v' u ts pu).
  Proof.
    intros HI HT HS. inversion HT as [|o1 h c HN HL HC HG|o1 h i c HN HL HA HC HG|o1 h c r HN HL HC HSh]; subst; clear HT.
    - (* before the first unlock *)
      destruct c as [r|i c|i c|i c|i c|i kc|i x c]; cbn [compile] in HS; inversion HS; subst; clear HS; cbn [twoPhase] in HC.
      + (* Lock *) destruct HC as (_ & HA & HC). match goal with H : writer _ = _ |- _ => rename H into HW end. exists v, (PPending o). destruct (HI i) as [HN1 HV1]. rewrite HW in HV1.
        split; [now apply Inv_set|]. split; [|split; [now left|]].
        * apply MT_wait with h; auto.
          -- intros j. rewrite mutex_set. destruct (HL j) as (L1 & L2 & L3). destruct (Nat.eqb_spec i j) as [<-|N]; cbn [writer readers].
             ++ split; [exact L1|]. split; [|tauto]. split; [congruence|]. intros H. destruct (HA _ _ H). contradiction.
             ++ split; [exact L1|]. split; [exact L2|]. split; [intros H; apply L3 in H; discriminate|congruence].
          -- eapply Grow_local; [exact HG|auto|auto|]. intros w _. cbn [alone]. apply alone_ext, local_ext; auto. intros; apply value_set.
        * intros u ts pu N H. apply keep_lock; [exact H|reflexivity|]. intros b. cbn. rewrite HW. split; congruence.
      + (* Unlock *) destruct HC as (h1 & h2 & -> & HC). match goal with H : writer _ = _ |- _ => rename H into HW end.
        assert (HWt : writer (mutex (s i)) = Some (t, true)) by (apply HL; rewrite in_app_iff; cbn; tauto).
        assert (Hsub : forall j ex, In (j, ex) (h1 ++ h2) -> In (j, ex) (h1 ++ (i, true) :: h2)) by (intros j ex; rewrite !in_app_iff; cbn; tauto).
        destruct (NoDup_mid _ _ _ _ HN) as [HN' Hno].
        destruct (effect s v t o _ _ c HI HL HC HG Hsub) as (F1 & F2 & F3). set (v' := snd (alone (proj1_sig o) v)) in *.
        exists v', (PDone o (fst (alone (proj1_sig o) v))). split; [|split; [|split]].
        * intros j. rewrite mutex_set, value_set. destruct (Nat.eqb_spec i j) as [<-|N]; cbn [writer readers].
          -- split; [apply HI|]. rewrite F1 by apply Hno. unfold local. rewrite (proj2 (exclusive_in _ i)); [reflexivity|]. rewrite in_app_iff. cbn. tauto.
          -- split; [apply HI|]. destruct (HI j) as [_ HIj]. destruct (writer (mutex (s j))) as [[u' []]|] eqn:EW; [exact HIj| |]; (rewrite F2; [exact HIj|]);
               intros Hin; apply HL in Hin; congruence.
        * apply MT_shrink with (h1 ++ h2); auto; [now apply Locks_unlock|]. eapply Shrink_eq; [exact F3|auto|]. intros; apply value_set.
        * right. eexists. split; [reflexivity|]. split; [|reflexivity]. constructor. reflexivity.
        * intros u0 ts pu N H. apply (others_unlock s v' t i HWt u0 ts pu N). eapply others_effect; eauto.
      + (* RLock *) destruct HC as (_ & HA & HC). match goal with H : writer _ = _ |- _ => rename H into HW end. exists v, (PPending o). destruct (HI i) as [HN1 HV1]. rewrite HW in HV1.
        assert (Hn : ~ In t (readers (mutex (s i)))) by (intros H; apply HL in H; destruct (HA _ _ H); contradiction).
        split; [apply Inv_set; [exact HI|now constructor|exact HV1]|]. split; [|split; [now left|]].
        * apply MT_grow with ((i, false) :: h); auto.
          -- cbn. constructor; [|exact HN]. intros H. apply in_map_iff in H as ([j b] & E & H). cbn in E. subst j. destruct (HA _ _ H). contradiction.
          -- intros j. rewrite mutex_set. destruct (HL j) as (L1 & L2 & L3). cbn [In]. destruct (Nat.eqb_spec i j) as [<-|N]; cbn [writer readers In].
             ++ split; [tauto|]. split; [|split; discriminate]. split; [discriminate|]. intros [H|H]; [discriminate|]. apply L2 in H. congruence.
             ++ split; [rewrite L1; split; [tauto|intros [H|H]; [congruence|exact H]]|]. split; [|exact L3].
                rewrite L2. split; [tauto|intros [H|H]; [discriminate|exact H]].
          -- eapply Grow_local; [exact HG|cbn; auto|auto|]. intros w _. cbn [alone]. apply alone_ext, local_ext; auto; [|intros; apply value_set].
             intros j. unfold exclusive. cbn. now rewrite andb_false_r.
        * intros u ts pu N H. apply keep_lock; [exact H| |]; cbn; [split; [intros [E|E]; [congruence|exact E]|tauto]|]. intros b. rewrite HW. reflexivity.
      + (* RUnlock *) destruct HC as (h1 & h2 & -> & HC). 
        assert (Hsub : forall j ex, In (j, ex) (h1 ++ h2) -> In (j, ex) (h1 ++ (i, false) :: h2)) by (intros j ex; rewrite !in_app_iff; cbn; tauto).
        destruct (NoDup_mid _ _ _ _ HN) as [HN' Hno]. destruct (HI i) as [HNi HVi].
        destruct (effect s v t o _ _ c HI HL HC HG Hsub) as (F1 & F2 & F3). set (v' := snd (alone (proj1_sig o) v)) in *.
        assert (Hx : forall j, In (j, true) (h1 ++ (i, false) :: h2) -> writer (mutex (s j)) = Some (t, true)) by (intros j Hin; now apply HL).
        exists v', (PDone o (fst (alone (proj1_sig o) v))). split; [|split; [|split]].
        * intros j. rewrite mutex_set, value_set.
          assert (HV : match writer (mutex (s j)) with Some (_, true) => readers (mutex (s j)) = [] | _ => Value (s j) = v' j end).
          { destruct (HI j) as [_ HIj]. destruct (writer (mutex (s j))) as [[u' []]|] eqn:EW; [exact HIj| |]; (rewrite F2; [exact HIj|]);
              intros Hin; apply Hx in Hin; congruence. }
          destruct (Nat.eqb_spec i j) as [<-|N]; cbn [writer readers]; [|split; [apply HI|exact HV]].
          split; [now apply leave_NoDup|]. destruct (writer (mutex (s i))) as [[u' []]|]; auto. now rewrite HV.
        * apply MT_shrink with (h1 ++ h2); auto; [now apply Locks_runlock|]. eapply Shrink_eq; [exact F3|auto|]. intros; apply value_set.
        * right. eexists. split; [reflexivity|]. split; [|reflexivity]. constructor. reflexivity.
        * intros u0 ts pu N H. apply (others_runlock s v' t i u0 ts pu N). eapply others_effect; eauto.
      + (* Read *) destruct HC as [(ex & Hin) HC]. exists v, (PPending o). split; [exact HI|]. split; [|split; [now left|auto]].
        apply MT_grow with h; auto. eapply Grow_local; [exact HG|auto|auto|]. intros w Hw. cbn [alone].
        assert (E : local s' h w i = Value (s' i)); [|rewrite E; apply same_refl].
        unfold local. destruct (exclusive h i) eqn:Ex; [reflexivity|]. destruct ex; [apply exclusive_in in Hin; congruence|].
        rewrite (Hw i false Hin). symmetry. exact (read_value _ _ _ _ _ _ _ HI HL Hin eq_refl).
      + (* Write *) destruct HC as [Hin HC]. assert (HWt : writer (mutex (s i)) = Some (t, true)) by now apply HL.
        destruct (HI i) as [HN1 HR1]. rewrite HWt in HR1. exists v, (PPending o). split; [|split; [|split; [now left|]]].
        * intros j. destruct (Nat.eq_dec i j) as [<-|N]; [|rewrite put_other by exact N; apply HI]. rewrite put_same. cbn. rewrite HWt. auto.
        * apply MT_grow with h; auto.
          -- intros j. destruct (Nat.eq_dec i j) as [<-|N]; [rewrite put_same; apply HL|rewrite put_other by exact N; apply HL].
          -- eapply Grow_local; [exact HG|auto|auto|]. intros w Hw. cbn [alone]. apply alone_ext. intros j. unfold local.
             destruct (Nat.eq_dec i j) as [<-|N]; [rewrite !put_same, (proj2 (exclusive_in h i) Hin); reflexivity|]. rewrite !put_other by exact N. reflexivity.
        * intros u ts pu N H. apply (MThr_keep _ _ _ _ _ _ _ H).
          -- intros j. destruct (Nat.eq_dec i j) as [<-|Nj]; [now rewrite put_same|now rewrite put_other].
          -- intros j b. destruct (Nat.eq_dec i j) as [<-|Nj]; [now rewrite put_same|now rewrite put_other].
          -- intros j Hu. destruct (Nat.eq_dec i j) as [<-|Nj]; [|now rewrite put_other]. rewrite HR1, HWt in Hu. destruct Hu as [[]|Hu]. congruence.
    - (* waiting *) inversion HS; subst; clear HS. match goal with H : readers _ = [] |- _ => rename H into HR end. match goal with H : writer _ = _ |- _ => rename H into HW end.
      destruct (HI i) as [HN1 HV1]. rewrite HW in HV1. exists v, (PPending o).
      split; [apply Inv_set; [exact HI|constructor|reflexivity]|]. split; [|split; [now left|]].
      + apply MT_grow with ((i, true) :: h); auto.
        * cbn. constructor; [|exact HN]. intros H. apply in_map_iff in H as ([j b] & E & H). cbn in E. subst j. destruct (HA _ _ H). contradiction.
        * intros j. rewrite mutex_set. destruct (HL j) as (L1 & L2 & L3). cbn [In]. destruct (Nat.eqb_spec i j) as [<-|N]; cbn [writer readers In].
          -- split; [split; [tauto|intros [H|H]; [discriminate|]; destruct (HA _ _ H); contradiction]|]. split; [tauto|]. split; discriminate.
          -- split; [rewrite L1; split; [tauto|intros [H|H]; [congruence|exact H]]|]. split.
             ++ rewrite L2. split; [tauto|intros [H|H]; [congruence|exact H]].
             ++ split; [intros H; apply L3 in H; congruence|discriminate].
        * eapply Grow_local; [exact HG|cbn; auto|auto|]. intros w Hw. apply alone_ext. intros j. unfold local. rewrite value_set.
          unfold exclusive at 2. cbn [existsb fst snd]. rewrite andb_true_r. fold (exclusive h j). destruct (Nat.eqb_spec i j) as [<-|N]; cbn [orb]; [|reflexivity].
          destruct (exclusive h i) eqn:Ex; [apply exclusive_in in Ex; destruct (HA _ _ Ex); contradiction|]. rewrite (Hw i true) by now left. now symmetry.
      + intros u ts pu N H. apply keep_lock; [exact H| |]; cbn; [now rewrite HR|]. intros b. rewrite HW. split; congruence.
    - (* after the first unlock *)
      destruct c as [r'|i c|i c|i c|i c|i kc|i x c]; cbn [compile] in HS; inversion HS; subst; clear HS; cbn [twoPhase] in HC.
      + destruct HC as [E _]. discriminate.
      + (* Unlock *) destruct HC as (h1 & h2 & -> & HC). exists v, (PDone o r).
        assert (HWt : writer (mutex (s i)) = Some (t, true)) by (apply HL; rewrite in_app_iff; cbn; tauto).
        destruct (NoDup_mid _ _ _ _ HN) as [HN' Hno].
        assert (HV : Value (s i) = v i).
        { destruct HSh as (w & W1 & W2 & W3). rewrite <- (W3 i) by (rewrite in_app_iff; cbn; tauto). cbn [alone]. rewrite (alone_frame ok c _ _ _ HC) by apply Hno.
          symmetry. apply (W1 i true). rewrite in_app_iff. cbn. tauto. }
        split; [apply Inv_set; [exact HI|apply HI|exact HV]|]. split; [|split; [now left|]].
        * apply MT_shrink with (h1 ++ h2); auto; [now apply Locks_unlock|].
          apply (Shrink_eq s v (h1 ++ (i, true) :: h2) c r); [exact HSh|intros j ex; rewrite !in_app_iff; cbn; tauto|intros; apply value_set].
        * intros u0 ts pu N H. now apply (others_unlock s v t i HWt u0 ts pu N).
      + destruct HC as [E _]. discriminate.
      + (* RUnlock *) destruct HC as (h1 & h2 & -> & HC). exists v, (PDone o r). destruct (NoDup_mid _ _ _ _ HN) as [HN' Hno]. destruct (HI i) as [HNi HVi].
        split; [|split; [|split; [now left|]]].
        * apply Inv_set; [exact HI|now apply leave_NoDup|]. cbn. destruct (writer (mutex (s i))) as [[u' []]|]; auto. now rewrite HVi.
        * apply MT_shrink with (h1 ++ h2); auto; [now apply Locks_runlock|].
          apply (Shrink_eq s v (h1 ++ (i, false) :: h2) c r); [exact HSh|intros j ex; rewrite !in_app_iff; cbn; tauto|intros; apply value_set].
        * intros u0 ts pu N H. now apply (others_runlock s v t i u0 ts pu N).
      + (* Read *) destruct HC as [(ex & Hin) HC]. exists v, (PDone o r). split; [exact HI|]. split; [|split; [now left|auto]].
        apply MT_shrink with h; auto. destruct HSh as (w & W1 & W2 & W3). cbn [alone] in W2, W3. rewrite (W1 _ _ Hin) in W2, W3. now exists w.
      + (* Write *) destruct HC as [Hin HC]. assert (HWt : writer (mutex (s i)) = Some (t, true)) by now apply HL.
        destruct (HI i) as [HN1 HR1]. rewrite HWt in HR1. exists v, (PDone o r). split; [|split; [|split; [now left|]]].
        * intros j. destruct (Nat.eq_dec i j) as [<-|N]; [|rewrite put_other by exact N; apply HI]. rewrite put_same. cbn. rewrite HWt. auto.
        * apply MT_shrink with h; auto.
          -- intros j. destruct (Nat.eq_dec i j) as [<-|N]; [rewrite put_same; apply HL|rewrite put_other by exact N; apply HL].
          -- destruct HSh as (w & W1 & W2 & W3). exists (put w i x). split; [|split; [exact W2|exact W3]].
             intros j ex Hj. destruct (Nat.eq_dec i j) as [<-|N]; [now rewrite !put_same|]. rewrite !put_other by exact N. exact (W1 _ _ Hj).
        * intros u ts pu N H. apply (MThr_keep _ _ _ _ _ _ _ H).
          -- intros j. destruct (Nat.eq_dec i j) as [<-|Nj]; [now rewrite put_same|now rewrite put_other].
          -- intros j b. destruct (Nat.eq_dec i j) as [<-|Nj]; [now rewrite put_same|now rewrite put_other].
          -- intros j Hu. destruct (Nat.eq_dec i j) as [<-|Nj]; [|now rewrite put_other]. rewrite HR1, HWt in Hu. destruct Hu as [[]|Hu]. congruence.
  Qed.

  Lemma multi_simulation v0 tr c : mexecution (P := P) v0 tr c ->
    exists h p v, linearized tr h p /\ sequential serial v0 h v /\ MInv (shared c) v /\ forall t, MThr (shared c) v t (thread c t) (p t).
  Proof.
    apply (simulation mcode mover minstr serial (mfresh v0) v0 MInv MThr).
    - intros i. cbn. split; [constructor|reflexivity].
    - intros t. constructor. intros i. cbn. repeat split; (tauto || discriminate).
    - intros s v t p H. now inversion H.
    - intros s v t o _ H. inversion H; subst. unfold mcode. apply MT_grow with []; [constructor|assumption|apply HP, (proj2_sig o)|].
      intros v' _. apply alone_ext. intros i. reflexivity.
    - intros s v t o k p r _ H E. inversion H as [|o1 h c1 HN HL HC HG|o1 h i c1 HN HL HA HC HG|o1 h c1 r1 HN HL HC HSh]; subst; try discriminate.
      + destruct c1; try discriminate. cbn [twoPhase] in HC. destruct HC. discriminate.
      + destruct c1; try discriminate. cbn in E. injection E as <-. destruct HC as [_ ->]. destruct HSh as (w & _ & <- & _). split; [reflexivity|]. now constructor.
    - intros. eapply mthr_step; eauto.
  Qed.
End Proofs.
