(** Locking discipline of xmap.Sharded: who holds what, no data race, no deadlock. *)
From Coq Require Import Permutation.
From Verif Require Import Base GoMap Sharded_Model.

Lemma fupd_same {A} (f : nat -> A) i a : fupd f i a i = a.
Proof. unfold fupd. now rewrite Nat.eqb_refl. Qed.
Lemma fupd_other {A} (f : nat -> A) i j a : i <> j -> fupd f i a j = f j.
Proof. intros H. unfold fupd. destruct (Nat.eqb_spec i j); [contradiction|reflexivity]. Qed.
Lemma fupd_case {A} (f : nat -> A) i j a : (i = j /\ fupd f i a j = a) \/ (i <> j /\ fupd f i a j = f j).
Proof. unfold fupd. destruct (Nat.eqb_spec i j); auto. Qed.

Inductive held : Type := HNone | HR (s : nat) | HWait (s : nat) | HW (s : nat).

Section Locks.
  Context {K V : Type} (eqb : K -> K -> bool) (zero : V) (nsh : nat) (hash : K -> Z).
  Notation prog := (prog K V).
  Notation shared := (shared K V).
  Notation config := (config K V).
  Notation op := (op K V).
  Notation progOf := (progOf eqb zero nsh hash).
  Notation cstep := (cstep eqb zero nsh hash).
  Notation reach := (reach eqb zero nsh hash).

  (** [p] is balanced when started holding [h]: it waits only when holding
      nothing, touches a map only under its lock, and ends holding nothing.
      [strict]: it writes only under the write lock. *)
  Fixpoint bal (strict : bool) (h : held) (p : prog) : Prop :=
    match p with
    | Ret _ => h = HNone
    | RLock s k => h = HNone /\ bal strict (HR s) k
    | RUnlock s k => h = HR s /\ bal strict HNone k
    | Lock s k => h = HNone /\ bal strict (HW s) k
    | LockWait s k => h = HWait s /\ bal strict (HW s) k
    | Unlock s k => h = HW s /\ bal strict HNone k
    | Read s k => (h = HR s \/ h = HW s) /\ forall m, bal strict h (k m)
    | Range s k => (h = HR s \/ h = HW s) /\ forall l, bal strict h (k l)
    | Write s f k => (h = HW s \/ (strict = false /\ h = HR s)) /\ bal strict h k
    | Call k => bal strict h k
    end.

  Definition isClear (o : op) : Prop := match o with OClear => True | _ => False end.

  Lemma bal_len strict ss n : bal strict HNone (lenP (K := K) (V := V) ss n).
  Proof. revert n. induction ss; intros n; cbn; auto 10. Qed.
  Lemma bal_empty strict ss : bal strict HNone (emptyP (K := K) (V := V) ss).
  Proof.
    induction ss; cbn; auto. repeat split; auto; cbn; auto. destruct (glen m >? 0); cbn; auto.
  Qed.
  Lemma bal_readOnly strict {A} ss (step : A -> list (K * V) -> A) fin acc :
    bal strict HNone (readOnlyP ss step fin acc).
  Proof. revert acc. induction ss; intros acc; cbn; auto 10. Qed.
  Lemma bal_iterLoop strict s fn l next : (forall seen, bal strict HNone (next seen)) ->
    forall seen, bal strict (HR s) (iterLoop (K := K) (V := V) s fn l seen next).
  Proof.
    intros Hn. induction l as [|[k v] l IH]; intros seen; cbn; auto.
    split; auto. intros _. destruct (fn k v); cbn; auto.
  Qed.
  Lemma bal_iterate strict ss fn seen : bal strict HNone (iterateP (K := K) (V := V) ss fn seen).
  Proof.
    revert seen. induction ss; intros seen; cbn; auto. repeat split; auto.
    intros l. apply bal_iterLoop. assumption.
  Qed.
  Lemma bal_iterateShards strict ss fn : bal strict HNone (iterateShardsP (K := K) (V := V) ss fn).
  Proof. induction ss; cbn; auto 10. Qed.
  Lemma bal_clear ss : bal false HNone (clearP (K := K) (V := V) ss).
  Proof. induction ss; cbn; auto 10. Qed.

  Lemma bal_tryGetK strict key k : (forall v b, bal strict HNone (k v b)) ->
    bal strict HNone (tryGetK eqb zero nsh hash key k).
  Proof.
    intros H. cbn. split; [reflexivity|]. split; [auto|]. intros m. destruct (get2 eqb zero m key).
    cbn. auto.
  Qed.

  Lemma bal_op strict o : strict = false \/ ~ isClear o -> bal strict HNone (progOf o).
  Proof.
    intros Hs. destruct o; cbn [Sharded_Model.progOf].
    - cbn; auto 10.
    - cbn. repeat split; auto; intros; destruct (has eqb m key); cbn; auto.
    - apply bal_tryGetK. intros v b. destruct b; reflexivity.
    - apply bal_tryGetK. reflexivity.
    - cbn; auto 10.
    - cbn; auto 10.
    - apply bal_tryGetK. intros w []; [reflexivity|]. cbn. split; [reflexivity|]. split; [auto|].
      intros m. destruct (get2 eqb zero m key) as [? []]; cbn; auto.
    - apply bal_tryGetK. intros w []; [reflexivity|]. cbn. split; [reflexivity|]. split; [auto|].
      intros m. destruct (get2 eqb zero m key) as [? []]; cbn; auto. destruct factory; cbn; auto.
    - apply bal_len.
    - apply bal_empty.
    - apply bal_readOnly.
    - apply bal_readOnly.
    - apply bal_readOnly.
    - apply bal_readOnly.
    - destruct Hs as [->|Hs]; [apply bal_clear|]. cbn in Hs. tauto.
    - apply bal_iterate.
    - apply bal_readOnly.
    - apply bal_iterateShards.
  Qed.

  (** [h] is what goroutine [t] holds. *)
  Definition owns (sh : shared) (t : nat) (h : held) : Prop := forall s,
    (writer (mu sh s) = Some (t, false) <-> h = HWait s) /\
    (writer (mu sh s) = Some (t, true) <-> h = HW s) /\
    (In t (readers (mu sh s)) <-> h = HR s).

  Definition muOk (sh : shared) : Prop := forall s,
    NoDup (readers (mu sh s)) /\
    forall t, writer (mu sh s) = Some (t, true) -> readers (mu sh s) = [].

  Lemma in_removeOne t x l : NoDup l -> In x (removeOne t l) <-> In x l /\ x <> t.
  Proof.
    induction l as [|y l IH]; cbn; [tauto|]. intros N. inversion N; subst.
    destruct (Nat.eqb_spec y t) as [->|Hn].
    - split; [intros Hx; split; [auto|intros ->; contradiction]|]. intros [[->|] ?]; tauto.
    - cbn. rewrite IH by assumption. split; [intros [->|[? ?]]; auto|]. intros [[->|] ?]; auto.
  Qed.

  Lemma NoDup_removeOne t l : NoDup l -> NoDup (removeOne t l).
  Proof.
    induction l as [|y l IH]; cbn; [auto|]. intros N. inversion N; subst.
    destruct (Nat.eqb y t); [assumption|]. constructor; [|auto].
    rewrite in_removeOne by assumption. tauto.
  Qed.

  (** The lock part of one instruction. *)
  Definition nextHeld (p : prog) (h : held) : held :=
    match p with
    | RLock s _ => HR s | Lock s _ => HWait s | LockWait s _ => HW s
    | RUnlock _ _ | Unlock _ _ => HNone
    | _ => h
    end.

  Lemma tstep_locks strict t p sh p' sh' h : tstep t p sh p' sh' -> muOk sh -> owns sh t h -> bal strict h p ->
    muOk sh' /\ owns sh' t (nextHeld p h) /\ bal strict (nextHeld p h) p' /\
    forall t' h', t' <> t -> owns sh t' h' -> owns sh' t' h'.
  Proof.
    intros T M O B. destruct T as [s k sh W|s k sh W|s k sh W|s k sh W R|s k sh W|s k sh|s k l sh P|s f k sh];
      cbn in B |- *.
    - destruct B as [-> B]. split; [|split; [|split; [assumption|]]].
      + intros s'. unfold setMu; cbn. destruct (fupd_case (mu sh) s s' {| writer := None; readers := t :: readers (mu sh s) |}) as [[<- ->]|[_ ->]]; cbn.
        * destruct (M s). split; [|discriminate]. constructor; [|assumption].
          intros Hin. apply O in Hin. discriminate.
        * apply M.
      + intros s'. unfold setMu; cbn. destruct (fupd_case (mu sh) s s' {| writer := None; readers := t :: readers (mu sh s) |}) as [[<- ->]|[Hn ->]]; cbn.
        * repeat split; try discriminate; auto.
        * destruct (O s') as (O1 & O2 & O3). split; [|split].
          -- rewrite O1. split; discriminate.
          -- rewrite O2. split; discriminate.
          -- rewrite O3. split; [discriminate|congruence].
      + intros t' h' Ht O' s'. unfold setMu; cbn. destruct (fupd_case (mu sh) s s' {| writer := None; readers := t :: readers (mu sh s) |}) as [[<- ->]|[Hn ->]]; cbn; [|apply O'].
        destruct (O' s) as (O1 & O2 & O3). rewrite W in O1, O2. split; [assumption|]. split; [assumption|].
        rewrite <- O3. split; [intros [->|]; [congruence|assumption]|auto].
    - destruct B as [-> B]. split; [|split; [|split; [assumption|]]].
      + intros s'. unfold setMu; cbn. destruct (fupd_case (mu sh) s s' {| writer := writer (mu sh s); readers := removeOne t (readers (mu sh s)) |}) as [[<- ->]|[_ ->]]; cbn; [|apply M].
        destruct (M s) as [M1 M2]. split; [now apply NoDup_removeOne|].
        intros t' Ht. rewrite (M2 t' Ht). reflexivity.
      + intros s'. unfold setMu; cbn. destruct (fupd_case (mu sh) s s' {| writer := writer (mu sh s); readers := removeOne t (readers (mu sh s)) |}) as [[<- ->]|[Hn ->]]; cbn.
        * destruct (O s) as (O1 & O2 & O3). split; [rewrite O1; split; discriminate|].
          split; [rewrite O2; split; discriminate|]. rewrite in_removeOne by apply M. split; [tauto|discriminate].
        * destruct (O s') as (O1 & O2 & O3). split; [rewrite O1; split; discriminate|].
          split; [rewrite O2; split; discriminate|]. rewrite O3. split; [congruence|discriminate].
      + intros t' h' Ht O' s'. unfold setMu; cbn. destruct (fupd_case (mu sh) s s' {| writer := writer (mu sh s); readers := removeOne t (readers (mu sh s)) |}) as [[<- ->]|[Hn ->]]; cbn; [|apply O'].
        destruct (O' s) as (O1 & O2 & O3). split; [assumption|]. split; [assumption|].
        rewrite in_removeOne by apply M. tauto.
    - destruct B as [-> B]. split; [|split; [|split; [auto|]]].
      + intros s'. unfold setMu; cbn. destruct (fupd_case (mu sh) s s' {| writer := Some (t, false); readers := readers (mu sh s) |}) as [[<- ->]|[_ ->]]; cbn; [|apply M].
        split; [apply M|]. intros t'. discriminate.
      + intros s'. unfold setMu; cbn. destruct (fupd_case (mu sh) s s' {| writer := Some (t, false); readers := readers (mu sh s) |}) as [[<- ->]|[Hn ->]]; cbn.
        * destruct (O s) as (O1 & O2 & O3). repeat split; auto; try discriminate. rewrite O3. discriminate.
        * destruct (O s') as (O1 & O2 & O3). rewrite O1, O2, O3. repeat split; try discriminate. congruence.
      + intros t' h' Ht O' s'. unfold setMu; cbn. destruct (fupd_case (mu sh) s s' {| writer := Some (t, false); readers := readers (mu sh s) |}) as [[<- ->]|[Hn ->]]; cbn; [|apply O'].
        destruct (O' s) as (O1 & O2 & O3). rewrite W in O1, O2. split; [|split; [|assumption]].
        * split; [congruence|]. intros E. apply O1 in E. discriminate.
        * split; [congruence|]. intros E. apply O2 in E. discriminate.
    - destruct B as [-> B]. split; [|split; [|split; [assumption|]]].
      + intros s'. unfold setMu; cbn. destruct (fupd_case (mu sh) s s' {| writer := Some (t, true); readers := [] |}) as [[<- ->]|[_ ->]]; cbn; [|apply M].
        split; [constructor|auto].
      + intros s'. unfold setMu; cbn. destruct (fupd_case (mu sh) s s' {| writer := Some (t, true); readers := [] |}) as [[<- ->]|[Hn ->]]; cbn.
        * repeat split; auto; try discriminate; tauto.
        * destruct (O s') as (O1 & O2 & O3). rewrite O1, O2, O3. repeat split; try discriminate; congruence.
      + intros t' h' Ht O' s'. unfold setMu; cbn. destruct (fupd_case (mu sh) s s' {| writer := Some (t, true); readers := [] |}) as [[<- ->]|[Hn ->]]; cbn; [|apply O'].
        destruct (O' s) as (O1 & O2 & O3). rewrite W in O1, O2. rewrite R in O3. split; [|split; [|assumption]].
        * split; [congruence|]. intros E. apply O1 in E. congruence.
        * split; [congruence|]. intros E. apply O2 in E. congruence.
    - destruct B as [-> B]. split; [|split; [|split; [assumption|]]].
      + intros s'. unfold setMu; cbn. destruct (fupd_case (mu sh) s s' {| writer := None; readers := readers (mu sh s) |}) as [[<- ->]|[_ ->]]; cbn; [|apply M].
        split; [apply M|discriminate].
      + intros s'. unfold setMu; cbn. destruct (fupd_case (mu sh) s s' {| writer := None; readers := readers (mu sh s) |}) as [[<- ->]|[Hn ->]]; cbn.
        * destruct (O s) as (O1 & O2 & O3). rewrite O3. repeat split; discriminate.
        * destruct (O s') as (O1 & O2 & O3). rewrite O1, O2, O3. repeat split; try discriminate; congruence.
      + intros t' h' Ht O' s'. unfold setMu; cbn. destruct (fupd_case (mu sh) s s' {| writer := None; readers := readers (mu sh s) |}) as [[<- ->]|[Hn ->]]; cbn; [|apply O'].
        destruct (O' s) as (O1 & O2 & O3). rewrite W in O1, O2. split; [|split; [|assumption]].
        * split; [discriminate|]. intros E. apply O1 in E. discriminate.
        * split; [discriminate|]. intros E. apply O2 in E. congruence.
    - destruct B as [_ B]. auto.
    - destruct B as [_ B]. auto.
    - destruct B as [_ B]. auto.
  Qed.

  Lemma owns_unique sh t h h' : owns sh t h -> owns sh t h' -> h = h'.
  Proof.
    intros O O'. destruct h as [|s|s|s].
    - destruct h' as [|s|s|s]; [reflexivity| | |]; destruct (O s) as (O1 & O2 & O3), (O' s) as (P1 & P2 & P3).
      + apply O3. apply P3. reflexivity.
      + apply O1. apply P1. reflexivity.
      + apply O2. apply P2. reflexivity.
    - destruct (O s) as (O1 & O2 & O3), (O' s) as (P1 & P2 & P3). symmetry. apply P3, O3. reflexivity.
    - destruct (O s) as (O1 & O2 & O3), (O' s) as (P1 & P2 & P3). symmetry. apply P1, O1. reflexivity.
    - destruct (O s) as (O1 & O2 & O3), (O' s) as (P1 & P2 & P3). symmetry. apply P2, O2. reflexivity.
  Qed.

  (** ** The lock invariant *)
  Definition lockInv (strict : bool) (c : config) : Prop :=
    muOk (shm c) /\
    forall t, exists h, owns (shm c) t h /\
      match thr c t with Idle => h = HNone | Running _ p => bal strict h p end.

  Variable allow : nat -> op -> Prop.

  Lemma lockInv_step strict c ev c' : (strict = false \/ forall t o, allow t o -> ~ isClear o) ->
    cstep allow c ev c' -> lockInv strict c -> lockInv strict c'.
  Proof.
    intros HA S [M I]. destruct S as [t o sh th E A|t o r sh th E|t o p sh th E|t o p p' sh sh' th E T]; cbn in *.
    - split; [assumption|]. intros t'. cbn. destruct (I t') as (h & O & H). exists h. split; [assumption|].
      destruct (fupd_case th t t' (Running o (progOf o))) as [[<- ->]|[_ ->]]; [|assumption].
      rewrite E in H. subst. apply bal_op. destruct HA as [->|HA]; [auto|right; eauto].
    - split; [assumption|]. intros t'. cbn. destruct (I t') as (h & O & H). exists h. split; [assumption|].
      destruct (fupd_case th t t' Idle) as [[<- ->]|[_ ->]]; [|assumption]. rewrite E in H. assumption.
    - split; [assumption|]. intros t'. cbn. destruct (I t') as (h & O & H). exists h. split; [assumption|].
      destruct (fupd_case th t t' (Running o p)) as [[<- ->]|[_ ->]]; [|assumption]. rewrite E in H. assumption.
    - destruct (I t) as (h & O & H). rewrite E in H.
      destruct (tstep_locks strict _ _ _ _ _ _ T M O H) as (M' & O' & B' & F).
      split; [assumption|]. intros t'. cbn.
      destruct (fupd_case th t t' (Running o p')) as [[<- ->]|[Hn ->]]; [eauto|].
      destruct (I t') as (h' & Oh' & Hh'). exists h'. split; [|assumption]. now apply F; [congruence|].
  Qed.

  Lemma lockInv_reach strict tr c : (strict = false \/ forall t o, allow t o -> ~ isClear o) ->
    reach allow tr c -> lockInv strict c.
  Proof.
    intros HA. induction 1 as [|tr c ev c' _ IH S].
    - split.
      + intros s. cbn. split; [constructor|discriminate].
      + intros t. exists HNone. split; [|reflexivity]. intros s. cbn. repeat split; try discriminate; tauto.
    - eapply lockInv_step; eassumption.
  Qed.

  (** ** Deadlock freedom *)
  Definition waits (p : prog) : bool :=
    match p with RLock _ _ | Lock _ _ | LockWait _ _ => true | _ => false end.

  Lemma canRun t p h sh : owns sh t h -> bal false h p -> waits p = false ->
    (exists r, p = Ret r) \/ (exists q, p = Call q) \/ exists p' sh', tstep t p sh p' sh'.
  Proof.
    intros O B W. destruct p; try discriminate; cbn in B.
    - eauto.
    - destruct B as [-> B]. right; right. do 2 eexists. constructor. now apply O.
    - destruct B as [-> B]. right; right. do 2 eexists. constructor. now apply O.
    - right; right. do 2 eexists. constructor.
    - right; right. do 2 eexists. constructor. reflexivity.
    - right; right. do 2 eexists. constructor.
    - eauto.
  Qed.

  Lemma progress_thread c t : (exists o p h, thr c t = Running o p /\ owns (shm c) t h /\ bal false h p /\
      ((waits p = false) \/ exists p' sh', tstep t p (shm c) p' sh')) ->
    exists ev c', cstep allow c ev c'.
  Proof.
    intros (o & p & h & E & O & B & H). destruct c as [sh th]. cbn in *.
    assert (H' : (exists r, p = Ret r) \/ (exists q, p = Call q) \/ exists p' sh', tstep t p sh p' sh').
    { destruct H as [H|H]; [now apply (canRun t p h)|auto]. }
    destruct H' as [[r ->]|[[q ->]|(p' & sh' & T)]]; do 2 eexists.
    - eapply c_ret. eassumption.
    - eapply c_call. eassumption.
    - eapply c_tau; eassumption.
  Qed.

  Lemma no_deadlock c : lockInv false c -> (exists t, thr c t <> Idle) ->
    exists ev c', cstep allow c ev c'.
  Proof.
    intros [M I] [t Ht]. destruct (thr c t) as [|o p] eqn:E; [congruence|].
    assert (Own : forall t h, owns (shm c) t h -> h <> HNone ->
              exists o p, thr c t = Running o p /\ bal false h p).
    { intros t1 h1 O1 Hh. destruct (I t1) as (h2 & O2 & H2). rewrite (owns_unique _ _ _ _ O2 O1) in H2.
      destruct (thr c t1) as [|o1 p1]; [contradiction|eauto]. }
    assert (Wtr : forall s x, writer (mu (shm c) s) = Some x -> exists ev c', cstep allow c ev c').
    { intros s [t1 b] W. destruct (I t1) as (h1 & O1 & _). destruct b.
      - assert (h1 = HW s) by now apply O1. subst h1.
        destruct (Own t1 _ O1) as (o1 & p1 & E1 & B1); [discriminate|].
        apply (progress_thread c t1). exists o1, p1, (HW s). repeat split; try assumption; try apply O1.
        left. destruct p1; cbn in B1; try reflexivity; destruct B1 as [B1 _]; discriminate.
      - assert (h1 = HWait s) by now apply O1. subst h1.
        destruct (readers (mu (shm c) s)) as [|t2 l] eqn:R.
        + destruct (Own t1 _ O1) as (o1 & p1 & E1 & B1); [discriminate|].
          apply (progress_thread c t1). exists o1, p1, (HWait s). repeat split; try assumption; try apply O1.
          destruct p1; cbn in B1; auto; try (destruct B1 as [B1 _]; discriminate).
          destruct B1 as [[= ->] B1]. right. do 2 eexists. now apply t_lockwait.
        + destruct (I t2) as (h2 & O2 & _).
          assert (h2 = HR s) by (apply O2; rewrite R; left; reflexivity). subst h2.
          destruct (Own t2 _ O2) as (o2 & p2 & E2 & B2); [discriminate|].
          apply (progress_thread c t2). exists o2, p2, (HR s). repeat split; try assumption; try apply O2.
          left. destruct p2; cbn in B2; try reflexivity; destruct B2 as [B2 _]; discriminate. }
    destruct (I t) as (h & O & H). rewrite E in H.
    destruct (waits p) eqn:W.
    - destruct p; try discriminate.
      + destruct (writer (mu (shm c) s)) eqn:Ew; [eapply Wtr; eassumption|].
        apply (progress_thread c t). do 3 eexists. repeat split; try eassumption; try apply O.
        right. do 2 eexists. now constructor.
      + destruct (writer (mu (shm c) s)) eqn:Ew; [eapply Wtr; eassumption|].
        apply (progress_thread c t). do 3 eexists. repeat split; try eassumption; try apply O.
        right. do 2 eexists. now constructor.
      + cbn in H. destruct H as [-> H]. apply (Wtr s (t, false)). now apply O.
    - apply (progress_thread c t). do 3 eexists. repeat split; try eassumption; try apply O. auto.
  Qed.

  Lemma all_free c : lockInv false c -> (forall t, thr c t = Idle) ->
    forall s, writer (mu (shm c) s) = None /\ readers (mu (shm c) s) = [].
  Proof.
    intros [M I] H s.
    assert (O : forall t, owns (shm c) t HNone).
    { intros t. destruct (I t) as (h & O & Hh). rewrite H in Hh. now subst. }
    split.
    - destruct (writer (mu (shm c) s)) as [[t []]|] eqn:W; [| |reflexivity]; apply (O t) in W; discriminate.
    - destruct (readers (mu (shm c) s)) as [|t l] eqn:R; [reflexivity|].
      assert (Hin : In t (readers (mu (shm c) s))) by (rewrite R; now left). apply (O t) in Hin. discriminate.
  Qed.

  (** ** Data races *)
  (** The shard [p] is about to access, and whether it writes. *)
  Definition access (p : prog) : option (nat * bool) :=
    match p with
    | Read s _ | Range s _ => Some (s, false)
    | Write s _ _ => Some (s, true)
    | _ => None
    end.

  (** Two goroutines are about to access the same map, one of them writing. *)
  Definition race (c : config) : Prop :=
    exists t t' o o' p p' s b, t <> t' /\ thr c t = Running o p /\ thr c t' = Running o' p' /\
      access p = Some (s, true) /\ access p' = Some (s, b).

  Lemma no_race c : lockInv true c -> ~ race c.
  Proof.
    intros [M I] (t & t' & o & o' & p & p' & s & b & Hn & E & E' & A & A').
    destruct (I t) as (h & O & B), (I t') as (h' & O' & B'). rewrite E in B. rewrite E' in B'.
    assert (Hh : h = HW s).
    { destruct p; try discriminate. injection A as ->. cbn in B. destruct B as [[B|[B _]] _]; [assumption|discriminate]. }
    assert (Hh' : h' = HR s \/ h' = HW s).
    { destruct p'; try discriminate; injection A' as -> _; cbn in B'; try (now apply B').
      destruct B' as [[B'|[B' _]] _]; [auto|discriminate]. }
    subst h. assert (W : writer (mu (shm c) s) = Some (t, true)) by now apply O.
    destruct Hh' as [->| ->].
    - assert (R : In t' (readers (mu (shm c) s))) by now apply O'.
      destruct (M s) as [_ M2]. rewrite (M2 _ W) in R. contradiction.
    - assert (W' : writer (mu (shm c) s) = Some (t', true)) by now apply O'. congruence.
  Qed.
End Locks.
