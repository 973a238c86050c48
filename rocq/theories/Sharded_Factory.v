(** GetOrSetFactory runs the factory at most once and everybody sees its value. *)
From Coq Require Import Permutation.
From Verif Require Import Base GoMap XMap_Spec Sharded_Model Sharded_Spec Sharded_Locks Sharded_Lin.

Section Factory.
  Context {K V : Type} (eqb : K -> K -> bool) (zero : V) (nsh : nat) (hash : K -> Z).
  Hypothesis PE : partial_equiv eqb.
  Hypothesis HC : forall x y, eqb x y = true -> hash x = hash y.
  Notation prog := (prog K V).
  Notation shared := (shared K V).
  Notation config := (config K V).
  Notation op := (op K V).
  Notation event := (event K V).
  Notation progOf := (progOf eqb zero nsh hash).
  Notation cstep := (cstep eqb zero nsh hash).
  Notation reach := (reach eqb zero nsh hash).
  Notation value := (value eqb).
  Notation shardOf := (GetShard nsh hash).

  (** ** Knowledge about the shard held survives other goroutines' steps *)
  Section Know.
    (** [Kn o m p]: what holds of the rest [p] of call [o], [m] being the map of the shard held. *)
    Variable Kn : op -> gomap K V -> prog -> Prop.
    Record kclosed : Prop := {
      kc_rlock : forall o m s k, Kn o m (RLock s k) -> forall m', Kn o m' k;
      kc_lock : forall o m s k, Kn o m (Lock s k) -> Kn o m (LockWait s k);
      kc_wait : forall o m s k, Kn o m (LockWait s k) -> forall m', Kn o m' k;
      kc_runlock : forall o m s k, Kn o m (RUnlock s k) -> Kn o m k;
      kc_unlock : forall o m s k, Kn o m (Unlock s k) -> Kn o m k;
      kc_read : forall o m s k, Kn o m (Read s k) -> Kn o m (k m);
      kc_range : forall o m s k l, Kn o m (Range s k) -> Permutation l m -> Kn o m (k l);
      kc_write : forall o m s f k, Kn o m (Write s f k) -> Kn o (f m) k;
      kc_call : forall o m k, Kn o m (Call k) -> Kn o m k }.

    Definition kat (sh : shared) (hd : held) (o : op) (p : prog) : Prop :=
      match hd with HR s | HW s => Kn o (items sh s) p | HNone | HWait _ => exists m, Kn o m p end.

    Definition kInv (c : config) : Prop := forall t o p, thr c t = Running o p ->
      forall hd, owns (shm c) t hd -> kat (shm c) hd o p.

    Lemma kInv_step (allow : nat -> op -> Prop) c ev c' : kclosed -> (forall t o, allow t o -> Kn o [] (progOf o)) ->
      lockInv true c -> cstep allow c ev c' -> kInv c -> kInv c'.
    Proof.
      intros KC HA [M LI] S I.
      destruct S as [t o sh th E A|t o r sh th E|t o p sh th E|t o p p' sh sh' th E T];
        intros t1 o1 p1; cbn [thr shm] in *.
      - destruct (fupd_case th t t1 (Running o (progOf o))) as [[<- ->]|[_ ->]]; [|apply I].
        intros [= <- <-] hd O. destruct (LI t) as (hd' & O' & H). cbn [thr] in H. rewrite E in H. subst.
        rewrite (owns_unique _ _ _ _ O O'). exists []. eauto.
      - destruct (fupd_case th t t1 Idle) as [[<- ->]|[_ ->]]; [discriminate|apply I].
      - destruct (fupd_case th t t1 (Running o p)) as [[<- ->]|[_ ->]]; [|apply I].
        intros [= <- <-] hd O. specialize (I t o _ E hd O). destruct hd; cbn in I |- *;
          try (now apply (kc_call KC)); destruct I as [m I]; exists m; now apply (kc_call KC).
      - destruct (LI t) as (hd & O & B). cbn [thr shm] in B, O. rewrite E in B.
        destruct (tstep_locks true _ _ _ _ _ _ T M O B) as (M' & O' & B' & F).
        specialize (I t o p E hd O) as It. cbn [shm] in It.
        destruct (fupd_case th t t1 (Running o p')) as [[<- ->]|[Hn ->]].
        + intros [= <- <-] hd' Oh'. rewrite (owns_unique _ _ _ _ Oh' O'). clear Oh' hd'.
          destruct T as [s k sh W|s k sh W|s k sh W|s k sh W R|s k sh W|s k sh|s k l sh P|s f k sh];
            cbn [nextHeld bal] in *.
          * destruct B as [-> _]. destruct It as [m It]. cbn. eapply (kc_rlock KC); exact It.
          * destruct B as [-> _]. eexists. eapply (kc_runlock KC); exact It.
          * destruct B as [-> _]. destruct It as [m It]. exists m. now apply (kc_lock KC).
          * destruct B as [-> _]. destruct It as [m It]. cbn. eapply (kc_wait KC); exact It.
          * destruct B as [-> _]. eexists. eapply (kc_unlock KC); exact It.
          * destruct B as [[-> | ->] _]; eapply (kc_read KC); exact It.
          * destruct B as [[-> | ->] _]; (eapply (kc_range KC); [exact It|exact P]).
          * destruct B as [[-> |[? _]] _]; [|discriminate]. cbn. rewrite fupd_same.
            eapply (kc_write KC); exact It.
        + intros E1 hd1 O1. destruct (LI t1) as (hd2 & O2 & _). cbn [shm] in O2.
          assert (t1 <> t) as Hn' by congruence.
          rewrite (owns_unique _ _ _ _ O1 (F t1 hd2 Hn' O2)). specialize (I t1 o1 p1 E1 hd2 O2). cbn [shm] in I.
          assert (Hi : forall s, (hd2 = HR s \/ hd2 = HW s) -> items sh' s = items sh s).
          { intros s Hs. destruct T as [| | | | | | |s' f k sh]; try reflexivity.
            cbn. destruct (fupd_case (items sh) s' s (f (items sh s'))) as [[-> ->]|[_ ->]]; [exfalso|reflexivity].
            cbn in B. destruct B as [[->|[? _]] _]; [|discriminate].
            assert (W : writer (mu sh s) = Some (t, true)) by now apply O.
            destruct Hs as [-> | ->].
            - assert (R : In t1 (readers (mu sh s))) by now apply O2.
              destruct (M s) as [_ M2]. cbn in M2. rewrite (M2 _ W) in R. contradiction.
            - assert (R : writer (mu sh s) = Some (t1, true)) by now apply O2. congruence. }
          destruct hd2; cbn in I |- *; try assumption; rewrite Hi; auto.
    Qed.

    Lemma kInv_reach (allow : nat -> op -> Prop) tr c : kclosed -> (forall t o, allow t o -> Kn o [] (progOf o)) ->
      (forall t o, allow t o -> ~ isClear o) -> reach allow tr c -> kInv c.
    Proof.
      intros KC HA HN. induction 1 as [|tr c ev c' R IH S].
      - intros t o p. discriminate.
      - eapply kInv_step; try eassumption. eapply lockInv_reach; [|exact R]. now right.
    Qed.
  End Know.

  (** ** One key *)
  Variable k0 : K.
  Notation s0 := (shardOf k0).

  (** [o] may change the value of k0 after it has been set. *)
  Definition disturbs (o : op) : Prop :=
    match o with
    | OSet k _ | ODelete k => eqb k k0 = true
    | OClear | OIterateShards _ => True
    | _ => False
    end.

  Definition isF (o : op) : bool :=
    match o with OGetOrSetFactory k _ => eqb k k0 | _ => false end.
  Definition isFSome (o : op) : bool :=
    match o with OGetOrSetFactory k (Some _) => eqb k k0 | _ => false end.
  Definition isWrite (p : prog) : bool := match p with Write _ _ _ => true | _ => false end.
  Definition underLock (p : prog) : Prop :=
    match p with Write s _ _ | Unlock s _ => s = s0 | _ => False end.

  Lemma gget_cong (m : gomap K V) x y : eqb x y = true -> gget eqb m x = gget eqb m y.
  Proof.
    intros H. induction m as [|[k v] m IH]; cbn; [reflexivity|].
    rewrite (eqb_comm eqb PE k x), (eqb_comm eqb PE k y), (eqb_cong eqb PE _ _ k H), IH. reflexivity.
  Qed.

  (** For a GetOrSetFactory of k0: the factory runs only when k0 is absent, and
      the write follows. For every call: writes keep k0 present. *)
  Fixpoint fsafe (o : op) (m : gomap K V) (p : prog) : Prop :=
    match p with
    | Ret _ => True
    | RLock _ k | Lock _ k | LockWait _ k => forall m', fsafe o m' k
    | RUnlock _ k | Unlock _ k => fsafe o m k
    | Read s k => fsafe o m (k m)
    | Range s k => forall l, Permutation l m -> fsafe o m (k l)
    | Write s f k =>
        (gget eqb m k0 <> None -> gget eqb (f m) k0 <> None) /\
        (isF o = true -> s = s0 /\ gget eqb m k0 = None /\ gget eqb (f m) k0 <> None) /\
        fsafe o (f m) k
    | Call k => (isF o = true -> underLock k /\ gget eqb m k0 = None) /\ (isFSome o = true -> isWrite k = true) /\ fsafe o m k
    end.

  Lemma fsafe_closed : kclosed fsafe.
  Proof. split; cbn; intros; intuition eauto. Qed.

  Lemma fsafe_len o ss n m : fsafe o m (lenP ss n).
  Proof. revert n m. induction ss; cbn; auto. Qed.
  Lemma fsafe_empty o ss m : fsafe o m (emptyP ss).
  Proof. revert m. induction ss; cbn; auto. intros m m'. destruct (glen m' >? 0); cbn; auto. Qed.
  Lemma fsafe_readOnly o {A} ss (step : A -> list (K * V) -> A) fin acc m : fsafe o m (readOnlyP ss step fin acc).
  Proof. revert acc m. induction ss; cbn; auto. Qed.
  Lemma fsafe_iterLoop o m s fn l next : isF o = false -> (forall m seen, fsafe o m (next seen)) ->
    forall seen, fsafe o m (iterLoop s fn l seen next).
  Proof.
    intros W Hn. assert (isFSome o = false) by (destruct o; cbn in *; auto; destruct factory; auto).
    induction l as [|[k v] l IH]; intros seen; cbn; auto.
    repeat split; try congruence. destruct (fn k v); cbn; auto.
  Qed.
  Lemma fsafe_iterate o ss fn seen m : isF o = false -> fsafe o m (iterateP ss fn seen).
  Proof.
    intros W. revert m seen. induction ss as [|s ss IH]; intros m seen; cbn; [auto|].
    intros m' l _. apply fsafe_iterLoop; auto.
  Qed.

  Lemma gset_present (m : gomap K V) k v : gget eqb m k0 <> None -> gget eqb (gset eqb m k v) k0 <> None.
  Proof. intros H. rewrite (gget_gset eqb PE). destruct (eqb k k0); congruence. Qed.

  Lemma fsafe_op o m : ~ disturbs o -> fsafe o m (progOf o).
  Proof.
    intros H. destruct o; cbn [Sharded_Model.progOf].
    - cbn. intros m'. repeat split; try discriminate. intros. now apply gset_present.
    - cbn. intros m'. destruct (has eqb m' key); cbn; auto. repeat split; try discriminate.
      intros. now apply gset_present.
    - cbn. intros m'. destruct (get2 eqb zero m' key) as [? []]; cbn; auto.
    - cbn. intros m'. destruct (get2 eqb zero m' key) as [? []]; cbn; auto.
    - cbn. auto.
    - cbn in H |- *. intros m'. repeat split; try discriminate. intros Hp. rewrite (gget_gdel eqb PE).
      destruct (eqb key k0); [tauto|assumption].
    - cbn. intros m'. destruct (get2 eqb zero m' key) as [? []]; cbn; auto.
      intros m2. destruct (get2 eqb zero m2 key) as [? []]; cbn; auto.
      repeat split; try discriminate. intros. now apply gset_present.
    - cbn. intros m'. destruct (get2 eqb zero m' key) as [? []]; cbn; auto.
      intros m2. unfold get2. destruct (gget eqb m2 key) eqn:E; cbn; auto.
      split; [|split].
      + intros He. rewrite <- (gget_cong m2 _ _ He). split; [|assumption].
        destruct factory; now apply (shard_eq eqb nsh hash HC).
      + intros He. destruct factory; [reflexivity|discriminate].
      + destruct factory as [w|]; cbn; [|exact I]. split; [intros; now apply gset_present|].
        split; [|exact I]. intros He. split; [now apply (shard_eq eqb nsh hash HC)|].
        split; [now rewrite <- (gget_cong m2 _ _ He)|].
        rewrite (gget_gset eqb PE), He. discriminate.
    - apply fsafe_len.
    - apply fsafe_empty.
    - apply fsafe_readOnly.
    - apply fsafe_readOnly.
    - apply fsafe_readOnly.
    - apply fsafe_readOnly.
    - cbn in H. tauto.
    - now apply fsafe_iterate.
    - apply fsafe_readOnly.
    - cbn in H. tauto.
  Qed.

  (** Factories for k0 that returned a value, in the trace. *)
  Fixpoint factoryRuns (tr : list event) : nat :=
    match tr with
    | [] => 0
    | ECall _ o :: tr' => if isFSome o then S (factoryRuns tr') else factoryRuns tr'
    | _ :: tr' => factoryRuns tr'
    end.

  Lemma factoryRuns_app tr tr' : factoryRuns (tr ++ tr') = (factoryRuns tr + factoryRuns tr')%nat.
  Proof. induction tr as [|[] tr IH]; cbn; auto. destruct (isFSome o); cbn; congruence. Qed.

  Variable allow : nat -> op -> Prop.
  Hypothesis HA : forall t o, allow t o -> ~ disturbs o.

  Lemma HA_clear t o : allow t o -> ~ isClear o.
  Proof. intros A. specialize (HA t o A). destruct o; cbn in *; tauto. Qed.

  Lemma fInv tr c : reach allow tr c -> kInv fsafe c.
  Proof.
    apply kInv_reach; [apply fsafe_closed| |apply HA_clear].
    intros t o A. apply fsafe_op. eauto.
  Qed.

  Definition called (c : config) (t : nat) : Prop :=
    exists o p, thr c t = Running o p /\ isFSome o = true /\ isWrite p = true.

  Lemma isFSome_isF o : isFSome o = true -> isF o = true.
  Proof. destruct o; cbn; try discriminate. destruct factory; [auto|discriminate]. Qed.

  Lemma called_holds tr c t : reach allow tr c -> called c t ->
    writer (mu (shm c) s0) = Some (t, true) /\ gget eqb (items (shm c) s0) k0 = None.
  Proof.
    intros R (o & p & E & Fo & W). destruct p; try discriminate.
    assert (L : lockInv true c) by (eapply lockInv_reach; [right; apply HA_clear|exact R]).
    destruct L as [M L]. destruct (L t) as (hd & O & B). rewrite E in B. cbn in B.
    destruct B as [[->|[? _]] _]; [|discriminate].
    pose proof (fInv tr c R t o _ E _ O) as Kn. cbn in Kn. destruct Kn as (_ & Kn & _).
    destruct (Kn (isFSome_isF _ Fo)) as (-> & Hn & _). split; [now apply O|assumption].
  Qed.

  Lemma once tr c : reach allow tr c ->
    (factoryRuns tr <= 1)%nat /\
    (factoryRuns tr = 1%nat -> gget eqb (items (shm c) s0) k0 <> None \/ exists t, called c t).
  Proof.
    induction 1 as [|tr c ev c' R IH S]; [cbn; split; [lia|discriminate]|].
    assert (L : lockInv true c) by (eapply lockInv_reach; [right; apply HA_clear|exact R]).
    destruct IH as [IH1 IH2]. rewrite factoryRuns_app.
    assert (Quiet : factoryRuns ev = 0%nat ->
              (gget eqb (items (shm c) s0) k0 <> None -> gget eqb (items (shm c') s0) k0 <> None) ->
              (forall t, called c t -> called c' t \/ gget eqb (items (shm c') s0) k0 <> None) ->
              (factoryRuns tr + factoryRuns ev <= 1)%nat /\
              ((factoryRuns tr + factoryRuns ev)%nat = 1%nat ->
               gget eqb (items (shm c') s0) k0 <> None \/ exists t, called c' t)).
    { intros -> H1 H2. rewrite Nat.add_0_r. split; [assumption|]. intros H. destruct (IH2 H) as [P|[t C]]; [auto|].
      destruct (H2 t C); eauto. }
    destruct S as [t o sh th E A|t o r sh th E|t o p sh th E|t o p p' sh sh' th E T].
    - apply Quiet; [reflexivity|auto|]. intros t1 (o1 & p1 & E1 & F1). left. exists o1, p1. cbn in *.
      destruct (fupd_case th t t1 (Running o (progOf o))) as [[<- ->]|[_ ->]]; [congruence|auto].
    - apply Quiet; [reflexivity|auto|]. intros t1 (o1 & p1 & E1 & F1 & W1). left. exists o1, p1. cbn in *.
      destruct (fupd_case th t t1 Idle) as [[<- ->]|[_ ->]]; [|auto].
      rewrite E in E1. injection E1 as <- <-. discriminate.
    - destruct (isFSome o) eqn:Fo.
      + destruct L as [M L]. destruct (L t) as (hd & O & B). cbn [thr shm] in B, O. rewrite E in B.
        pose proof (fInv _ _ R t o _ E _ O) as Kn. cbn [shm] in Kn.
        assert (Wp : isWrite p = true).
        { destruct hd; cbn in Kn; [destruct Kn as [m Kn]| |destruct Kn as [m Kn]|]; cbn in Kn; now apply Kn. }
        destruct p as [| | | | | | | |sw f k|]; try discriminate.
        cbn in B. destruct B as [[->|[? _]] _]; [|discriminate]. cbn in Kn. destruct Kn as (Kn1' & _ & _ & Kn2 & _).
        destruct (Kn2 (isFSome_isF _ Fo)) as (-> & Hn & _).
        assert (W : writer (mu sh s0) = Some (t, true)) by now apply O.
        assert (Z : factoryRuns tr = 0%nat).
        { destruct (factoryRuns tr) as [|[|n]] eqn:En; [reflexivity| |lia]. destruct IH2 as [P|[t1 C]]; [reflexivity| |].
          - cbn in P. congruence.
          - destruct (called_holds tr _ t1 R C) as [W1 _]. cbn in W1. rewrite W in W1. injection W1 as <-.
            destruct C as (o1 & p1 & E1 & _ & W1). cbn in E1. rewrite E in E1. injection E1 as <- <-. discriminate. }
        rewrite Z. cbn. rewrite Fo. cbn. split; [lia|]. intros _. right. exists t, o, (Write s0 f k). cbn.
        rewrite fupd_same. auto.
      + apply Quiet; [cbn; now rewrite Fo|auto|]. intros t1 (o1 & p1 & E1 & F1 & W1). left. exists o1, p1. cbn in *.
        destruct (fupd_case th t t1 (Running o p)) as [[<- ->]|[_ ->]]; [|auto].
        rewrite E in E1. injection E1 as <- <-. discriminate.
    - destruct L as [M L]. destruct (L t) as (hd & O & B). cbn [thr shm] in B, O. rewrite E in B.
      pose proof (fInv _ _ R t o _ E _ O) as Kn. cbn [shm] in Kn.
      assert (Hw : forall s f k, p = Write s f k ->
                (gget eqb (items sh s) k0 <> None -> gget eqb (f (items sh s)) k0 <> None) /\
                (isF o = true -> s = s0 /\ gget eqb (f (items sh s)) k0 <> None)).
      { intros s f k ->. cbn in B. destruct B as [[->|[? _]] _]; [|discriminate]. cbn in Kn. tauto. }
      apply Quiet; [reflexivity| |]; cbn [shm].
      + intros P. destruct T as [| | | | | | |s f k sh]; try exact P. cbn.
        destruct (fupd_case (items sh) s s0 (f (items sh s))) as [[-> ->]|[_ ->]]; [|exact P].
        now apply (proj1 (Hw _ _ _ eq_refl)).
      + intros t1 C1. destruct (Nat.eq_dec t t1) as [<-|Hn].
        * right. destruct C1 as (o1 & p1 & E1 & F1 & W1). cbn in E1. rewrite E in E1. injection E1 as <- <-.
          destruct T as [| | | | | | |s f k sh]; try discriminate. cbn.
          destruct (Hw _ _ _ eq_refl) as [_ H2]. destruct (H2 (isFSome_isF _ F1)) as [-> H3].
          rewrite fupd_same. exact H3.
        * left. destruct C1 as (o1 & p1 & E1 & F1 & W1). exists o1, p1. cbn in *.
          rewrite fupd_other by assumption. auto.
  Qed.

  (** ** All calls see the same value *)
  Definition gives (o : op) (r : res K V) (v : V) : Prop :=
    isF o = true /\ exists b, r = ROpt v b.

  Lemma value_cong (h : list op) x y : eqb x y = true -> value h x = value h y.
  Proof.
    intros H. assert (C : forall k, eqb k x = eqb k y).
    { intros k. rewrite (eqb_comm eqb PE k x), (eqb_comm eqb PE k y). now apply eqb_cong. }
    induction h as [|o h IH]; [reflexivity|]. destruct o; cbn; rewrite ?C, ?IH; auto.
  Qed.

  Lemma value_stays h o v : ~ disturbs o -> value h k0 = Some v -> value (o :: h) k0 = Some v.
  Proof.
    intros Nd Hv. destruct o; cbn in *; auto; try tauto.
    - destruct (eqb key k0); tauto.
    - destruct (value h key) eqn:E; [assumption|]. destruct (eqb key k0) eqn:Ek; [|assumption].
      rewrite (value_cong h _ _ Ek) in E. congruence.
    - destruct (eqb key k0); tauto.
    - destruct (value h key) eqn:E; [assumption|]. destruct (eqb key k0) eqn:Ek; [|assumption].
      rewrite (value_cong h _ _ Ek) in E. congruence.
    - destruct factory; [|assumption].
      destruct (value h key) eqn:E; [assumption|]. destruct (eqb key k0) eqn:Ek; [|assumption].
      rewrite (value_cong h _ _ Ek) in E. congruence.
  Qed.

  Lemma lin_value tr h p : linearized eqb zero tr h p ->
    (forall t o, In (EInv t o) tr -> ~ disturbs o) ->
    (forall t o, p t = PPending o -> ~ disturbs o) /\
    (forall t o r v, p t = PDone o r -> gives o r v -> value h k0 = Some v) /\
    (forall t o r v, In (ERet t o r) tr -> gives o r v -> value h k0 = Some v).
  Proof.
    induction 1 as [|tr h p t o L IH Pt|tr h p t o r L IH Pt A|tr h p t o r L IH Pt|tr h p t o L IH]; intros Hd.
    - repeat split; [discriminate|discriminate|]. intros t o r v [].
    - destruct IH as (I1 & I2 & I3); [intros t' o' Hi; apply (Hd t'); apply in_or_app; auto|]. split; [|split].
      + intros t' o'. destruct (fupd_case p t t' (PPending o)) as [[<- ->]|[_ ->]]; [|apply I1].
        intros [= <-]. apply (Hd t). apply in_or_app. right. now left.
      + intros t' o' r v. destruct (fupd_case p t t' (PPending o)) as [[<- ->]|[_ ->]]; [discriminate|apply I2].
      + intros t' o' r v Hi. apply in_app_iff in Hi as [Hi|[Hi|[]]]; [|discriminate]. eapply I3; eassumption.
    - destruct IH as (I1 & I2 & I3); [assumption|]. specialize (I1 t o Pt) as Nd. split; [|split].
      + intros t' o'. destruct (fupd_case p t t' (PDone o r)) as [[<- ->]|[_ ->]]; [discriminate|apply I1].
      + intros t' o' r' v. destruct (fupd_case p t t' (PDone o r)) as [[<- ->]|[_ ->]].
        * intros [= <- <-] [Hf [b ->]]. destruct o; try discriminate. cbn in Hf, A |- *.
          rewrite <- (value_cong h _ _ Hf). destruct (value h key) as [v'|] eqn:E.
          -- injection A as -> ->. destruct factory; reflexivity.
          -- destruct factory; [|discriminate]. injection A as -> ->. now rewrite Hf.
        * intros Hp Hg. apply value_stays; [assumption|]. eapply I2; eassumption.
      + intros t' o' r' v Hi Hg. apply value_stays; [assumption|]. eapply I3; eassumption.
    - destruct IH as (I1 & I2 & I3); [intros t' o' Hi; apply (Hd t'); apply in_or_app; auto|]. split; [|split].
      + intros t' o'. destruct (fupd_case p t t' PIdle) as [[<- ->]|[_ ->]]; [discriminate|apply I1].
      + intros t' o' r' v. destruct (fupd_case p t t' PIdle) as [[<- ->]|[_ ->]]; [discriminate|apply I2].
      + intros t' o' r' v Hi Hg. apply in_app_iff in Hi as [Hi|[Hi|[]]]; [eapply I3; eassumption|].
        injection Hi as <- <- <-. eapply I2; eassumption.
    - destruct IH as (I1 & I2 & I3); [intros t' o' Hi; apply (Hd t'); apply in_or_app; auto|]. split; [|split]; auto.
      intros t' o' r' v Hi. apply in_app_iff in Hi as [Hi|[Hi|[]]]; [|discriminate]. eapply I3; eassumption.
  Qed.

  Lemma invoked_allowed tr c : reach allow tr c -> forall t o, In (EInv t o) tr -> allow t o.
  Proof.
    induction 1 as [|tr c ev c' R IH S]; intros t o Hi; [destruct Hi|].
    apply in_app_iff in Hi as [Hi|Hi]; [auto|].
    destruct S; cbn in Hi; try (destruct Hi as [Hi|[]]); try tauto; congruence.
  Qed.
End Factory.

(** ** The factory runs only when the key is absent, whatever else runs *)
Section Absent.
  Context {K V : Type} (eqb : K -> K -> bool) (zero : V) (nsh : nat) (hash : K -> Z).
  Hypothesis PE : partial_equiv eqb.
  Hypothesis HC : forall x y, eqb x y = true -> hash x = hash y.
  Notation prog := (prog K V).
  Notation op := (op K V).
  Notation progOf := (progOf eqb zero nsh hash).
  Notation shardOf := (GetShard nsh hash).
  Variable k0 : K.
  Notation isF := (isF eqb k0).
  Notation underLock := (underLock nsh hash k0).

  Fixpoint asafe (o : op) (m : gomap K V) (p : prog) : Prop :=
    match p with
    | Ret _ => True
    | RLock _ k | Lock _ k | LockWait _ k => forall m', asafe o m' k
    | RUnlock _ k | Unlock _ k => asafe o m k
    | Read s k => asafe o m (k m)
    | Range s k => forall l, Permutation l m -> asafe o m (k l)
    | Write s f k => asafe o (f m) k
    | Call k => (isF o = true -> underLock k /\ gget eqb m k0 = None) /\ asafe o m k
    end.

  Lemma asafe_closed : kclosed asafe.
  Proof. split; cbn; intros; intuition eauto. Qed.
  Lemma asafe_len o ss n m : asafe o m (lenP ss n).
  Proof. revert n m. induction ss; cbn; auto. Qed.
  Lemma asafe_empty o ss m : asafe o m (emptyP ss).
  Proof. revert m. induction ss; cbn; auto. intros m m'. destruct (glen m' >? 0); cbn; auto. Qed.
  Lemma asafe_readOnly o {A} ss (step : A -> list (K * V) -> A) fin acc m : asafe o m (readOnlyP ss step fin acc).
  Proof. revert acc m. induction ss; cbn; auto. Qed.
  Lemma asafe_iterate o ss fn seen m : isF o = false -> asafe o m (iterateP ss fn seen).
  Proof.
    intros W. revert m seen. induction ss as [|s ss IH]; intros m seen; cbn; [auto|].
    intros m' l _. revert seen. induction l as [|[k v] l IHl]; intros seen; cbn; auto.
    split; [congruence|]. destruct (fn k v); cbn; auto.
  Qed.
  Lemma asafe_iterateShards o ss fn m : isF o = false -> asafe o m (iterateShardsP ss fn).
  Proof. intros W. revert m. induction ss as [|s ss IH]; intros m; cbn; auto. split; [congruence|auto]. Qed.
  Lemma asafe_clear o ss m : asafe o m (clearP ss).
  Proof. revert m. induction ss; cbn; auto. Qed.

  Lemma asafe_op o m : asafe o m (progOf o).
  Proof.
    destruct o; cbn [Sharded_Model.progOf]; try apply asafe_readOnly.
    - cbn. auto.
    - cbn. intros m'. destruct (has eqb m' key); cbn; auto.
    - cbn. intros m'. destruct (get2 eqb zero m' key) as [? []]; cbn; auto.
    - cbn. intros m'. destruct (get2 eqb zero m' key) as [? []]; cbn; auto.
    - cbn. auto.
    - cbn. auto.
    - cbn. intros m'. destruct (get2 eqb zero m' key) as [? []]; cbn; auto.
      intros m2. destruct (get2 eqb zero m2 key) as [? []]; cbn; auto.
    - cbn. intros m'. destruct (get2 eqb zero m' key) as [? []]; cbn; auto.
      intros m2. unfold get2. destruct (gget eqb m2 key) eqn:E; cbn; auto.
      split; [|destruct factory; exact I].
      intros He. rewrite <- (gget_cong eqb PE m2 _ _ He). split; [|assumption].
      destruct factory; now apply (shard_eq eqb nsh hash HC).
    - apply asafe_len.
    - apply asafe_empty.
    - apply asafe_clear.
    - now apply asafe_iterate.
    - now apply asafe_iterateShards.
  Qed.

  Lemma only_absent (allow : nat -> op -> Prop) tr c t o ev c' : (forall t o, allow t o -> ~ isClear o) ->
    reach eqb zero nsh hash allow tr c -> cstep eqb zero nsh hash allow c ev c' ->
    In (ECall t o) ev -> isF o = true -> gget eqb (items (shm c) (shardOf k0)) k0 = None.
  Proof.
    intros HA R S Hin Fo.
    assert (L : lockInv true c) by (eapply lockInv_reach; [right; apply HA|exact R]).
    destruct S as [t1 o1 sh th E A|t1 o1 r sh th E|t1 o1 p sh th E|t1 o1 p p' sh sh' th E T]; cbn in Hin;
      try tauto; try (destruct Hin as [Hin|[]]; discriminate).
    destruct Hin as [[= -> ->]|[]].
    destruct L as [M L]. destruct (L t) as (hd & O & B). cbn [thr shm] in B, O. rewrite E in B.
    assert (KI : kInv asafe {| shm := sh; thr := th |}).
    { eapply kInv_reach; [apply asafe_closed|intros; apply asafe_op|exact HA|exact R]. }
    pose proof (KI t o _ E _ O) as Kn. cbn [shm] in Kn |- *.
    assert (Hu : underLock p).
    { destruct hd; cbn in Kn; [destruct Kn as [m Kn]| |destruct Kn as [m Kn]|]; cbn in Kn; now apply Kn. }
    assert (hd = HW (shardOf k0)).
    { destruct p; cbn in Hu; try contradiction; subst; cbn in B.
      - apply B.
      - destruct B as [[->|[? _]] _]; [reflexivity|discriminate]. }
    subst hd. cbn in Kn. now apply Kn.
  Qed.
End Absent.
