(** Linearizability of the single-key operations of xmap.Sharded, by a forward
    simulation: a call takes effect at the instruction where it reads or writes
    the map under the lock. *)
From Coq Require Import Permutation.
From Verif Require Import Base GoMap XMap_Spec Sharded_Model Sharded_Spec Sharded_Locks.

Section Lin.
  Context {K V : Type} (eqb : K -> K -> bool) (zero : V) (nsh : nat) (hash : K -> Z).
  Hypothesis PE : partial_equiv eqb.
  Hypothesis HC : forall x y, eqb x y = true -> hash x = hash y.
  Notation prog := (prog K V).
  Notation shared := (shared K V).
  Notation config := (config K V).
  Notation op := (op K V).
  Notation phase := (phase K V).
  Notation progOf := (progOf eqb zero nsh hash).
  Notation cstep := (cstep eqb zero nsh hash).
  Notation reach := (reach eqb zero nsh hash).
  Notation value := (value eqb).
  Notation answer1 := (answer1 eqb zero).
  Notation shardOf := (GetShard nsh hash).
  Variables (tr0 : list (event K V)) (h0 : list op) (p0 : nat -> phase).
  Notation linearized := (linearizedFrom eqb zero tr0 h0 p0).

  Lemma shard_eq x y : eqb x y = true -> shardOf x = shardOf y.
  Proof. intros H. unfold GetShard. now rewrite (HC _ _ H). Qed.

  (** [o] changes nothing and answer1 accepts any result. *)
  Definition weak (o : op) : Prop :=
    match o with
    | OLen | OEmpty | OKeys | OValues | OEntries | OToMap | OIterate _ | OIterateShardsReadOnly => True
    | _ => False
    end.

  Lemma weak_spec o : weak o -> forall h r, answer1 h o r /\ forall x, value (o :: h) x = value h x.
  Proof. destruct o; cbn; try contradiction; auto. Qed.

  (** Accessing shard [s], whose map goes from [m] to [m'], the call may take effect. *)
  Definition linAt (s : nat) (m m' : gomap K V) (st st' : phase) : Prop :=
    (st' = st /\ m' = m) \/
    exists o r, st = PPending o /\ st' = PDone o r /\
      forall h, (forall x, shardOf x = s -> value h x = gget eqb m x) ->
        answer1 h o r /\
        (forall x, shardOf x = s -> value (o :: h) x = gget eqb m' x) /\
        (forall x, shardOf x <> s -> value (o :: h) x = value h x).

  (** From phase [st], with [m] the contents of the shard held, [p] takes effect
      once and returns the right result. *)
  Fixpoint safe (m : gomap K V) (st : phase) (p : prog) : Prop :=
    match p with
    | Ret r => exists o, st = PDone o r \/ (st = PPending o /\ weak o)
    | RLock _ k | Lock _ k | LockWait _ k => forall m', safe m' st k
    | RUnlock _ k | Unlock _ k => safe m st k
    | Read s k => exists st', linAt s m m st st' /\ safe m st' (k m)
    | Range s k => forall l, Permutation l m -> safe m st (k l)
    | Write s f k => exists st', linAt s m (f m) st st' /\ safe (f m) st' k
    | Call k => safe m st k
    end.

  Definition linOp (o : op) : Prop := match o with OClear | OIterateShards _ => False | _ => True end.

  Lemma linAt_skip s m st : linAt s m m st st.
  Proof. left. auto. Qed.

  Lemma linAt_set s key v o r m : s = shardOf key ->
    (forall h, (forall x, shardOf x = s -> value h x = gget eqb m x) ->
       answer1 h o r /\ (forall x, value (o :: h) x = if eqb key x then Some v else value h x)) ->
    linAt s m (gset eqb m key v) (PPending o) (PDone o r).
  Proof.
    intros -> H. right. exists o, r. split; [reflexivity|]. split; [reflexivity|]. intros h Hh.
    destruct (H h Hh) as [H1 H2]. split; [assumption|]. split.
    - intros x Hx. rewrite H2, (gget_gset eqb PE). destruct (eqb key x); auto.
    - intros x Hx. rewrite H2. destruct (eqb key x) eqn:E; [|reflexivity].
      apply shard_eq in E. congruence.
  Qed.

  Lemma linAt_pure s key o r m : s = shardOf key ->
    (forall h, value h key = gget eqb m key -> answer1 h o r /\ (forall x, value (o :: h) x = value h x)) ->
    linAt s m m (PPending o) (PDone o r).
  Proof.
    intros -> H. right. exists o, r. split; [reflexivity|]. split; [reflexivity|]. intros h Hh.
    destruct (H h (Hh key eq_refl)) as [H1 H2]. split; [assumption|]. split.
    - intros x Hx. rewrite H2. auto.
    - auto.
  Qed.

  Lemma safe_len m o ss n : weak o -> safe m (PPending o) (lenP (K := K) (V := V) ss n).
  Proof.
    intros W. revert m n. induction ss as [|s ss IH]; intros m n; cbn; [eauto|].
    intros m'. exists (PPending o). split; [apply linAt_skip|auto].
  Qed.
  Lemma safe_empty m o ss : weak o -> safe m (PPending o) (emptyP (K := K) (V := V) ss).
  Proof.
    intros W. revert m. induction ss as [|s ss IH]; intros m; cbn; [eauto|].
    intros m'. exists (PPending o). split; [apply linAt_skip|]. destruct (glen m' >? 0); cbn; eauto.
  Qed.
  Lemma safe_readOnly m o {A} ss (step : A -> list (K * V) -> A) fin acc : weak o ->
    safe m (PPending o) (readOnlyP ss step fin acc).
  Proof.
    intros W. revert m acc. induction ss as [|s ss IH]; intros m acc; cbn; [eauto|]. auto.
  Qed.
  Lemma safe_iterLoop m o s fn l next : weak o -> (forall m seen, safe m (PPending o) (next seen)) ->
    forall seen, safe m (PPending o) (iterLoop (K := K) (V := V) s fn l seen next).
  Proof.
    intros W Hn. induction l as [|[k v] l IH]; intros seen; cbn; auto.
    exists (PPending o). split; [apply linAt_skip|]. destruct (fn k v); cbn; eauto.
  Qed.
  Lemma safe_iterate m o ss fn seen : weak o -> safe m (PPending o) (iterateP (K := K) (V := V) ss fn seen).
  Proof.
    intros W. revert m seen. induction ss as [|s ss IH]; intros m seen; cbn; [eauto|].
    intros m' l _. apply safe_iterLoop; auto.
  Qed.

  Lemma safe_op m o : linOp o -> safe m (PPending o) (progOf o).
  Proof.
    intros L. destruct o; cbn [Sharded_Model.progOf].
    - (* Set *)
      cbn. intros m'. eexists. split; [|eauto].
      apply linAt_set; [reflexivity|]. intros h Hh. cbn. auto.
    - (* TrySet *)
      cbn. intros m'. unfold has. destruct (gget eqb m' key) eqn:E; cbn.
      + eexists. split; [|eauto]. apply linAt_pure with (key := key); [reflexivity|]. intros h Hh.
        rewrite E in Hh. cbn. unfold present. rewrite Hh. auto.
      + eexists. split; [apply linAt_skip|]. eexists. split; [|eauto].
        apply linAt_set; [reflexivity|]. intros h Hh. specialize (Hh key eq_refl). rewrite E in Hh.
        cbn. unfold present. rewrite Hh. auto.
    - (* Get *)
      cbn. intros m'. unfold get2. destruct (gget eqb m' key) eqn:E; cbn; eexists; (split; [|eauto]);
        (apply linAt_pure with (key := key); [reflexivity|]; intros h Hh; rewrite E in Hh; cbn; rewrite Hh; auto).
    - (* TryGet *)
      cbn. intros m'. unfold get2. destruct (gget eqb m' key) eqn:E; cbn; eexists; (split; [|eauto]);
        (apply linAt_pure with (key := key); [reflexivity|]; intros h Hh; rewrite E in Hh; cbn; rewrite Hh; auto).
    - (* Has *)
      cbn. intros m'. eexists; (split; [|eauto]).
      apply linAt_pure with (key := key); [reflexivity|]. intros h Hh. cbn. unfold has, present. rewrite Hh. auto.
    - (* Delete *)
      cbn. intros m'. eexists. split; [|eauto].
      right. do 2 eexists. split; [reflexivity|]. split; [reflexivity|]. intros h Hh. cbn.
      split; [reflexivity|]. split.
      + intros x Hx. rewrite (gget_gdel eqb PE). destruct (eqb key x); auto.
      + intros x Hx. destruct (eqb key x) eqn:E; [|reflexivity]. apply shard_eq in E. congruence.
    - (* GetOrSetDefault *)
      cbn. intros m'. unfold get2. destruct (gget eqb m' key) eqn:E; cbn.
      + eexists. split; [|eauto]. apply linAt_pure with (key := key); [reflexivity|].
        intros h Hh. rewrite E in Hh. cbn. rewrite Hh. auto.
      + eexists. split; [apply linAt_skip|]. intros m2. destruct (gget eqb m2 key) eqn:E2; cbn.
        * eexists. split; [|eauto]. apply linAt_pure with (key := key); [reflexivity|].
          intros h Hh. rewrite E2 in Hh. cbn. rewrite Hh. auto.
        * eexists. split; [apply linAt_skip|]. eexists. split; [|eauto].
          apply linAt_set; [reflexivity|]. intros h Hh. specialize (Hh key eq_refl). rewrite E2 in Hh.
          cbn. rewrite Hh. auto.
    - (* GetOrSetFactory *)
      cbn. intros m'. unfold get2. destruct (gget eqb m' key) eqn:E; cbn.
      + eexists. split; [|eauto]. apply linAt_pure with (key := key); [reflexivity|].
        intros h Hh. rewrite E in Hh. cbn. rewrite Hh. destruct factory; auto.
      + eexists. split; [apply linAt_skip|]. intros m2. destruct (gget eqb m2 key) eqn:E2; cbn.
        * eexists. split; [|eauto]. apply linAt_pure with (key := key); [reflexivity|].
          intros h Hh. rewrite E2 in Hh. cbn. rewrite Hh. destruct factory; auto.
        * destruct factory as [v|]; cbn.
          -- eexists. split; [apply linAt_skip|]. eexists. split; [|eauto].
             apply linAt_set; [reflexivity|]. intros h Hh. specialize (Hh key eq_refl). rewrite E2 in Hh.
             cbn. rewrite Hh. auto.
          -- eexists. split; [|eauto]. apply linAt_pure with (key := key); [reflexivity|].
             intros h Hh. rewrite E2 in Hh. cbn. rewrite Hh. auto.
    - now apply safe_len.
    - now apply safe_empty.
    - now apply safe_readOnly.
    - now apply safe_readOnly.
    - now apply safe_readOnly.
    - now apply safe_readOnly.
    - contradiction.
    - now apply safe_iterate.
    - now apply safe_readOnly.
    - contradiction.
  Qed.

  Definition phaseOf (o : op) (st : phase) : Prop := st = PPending o \/ exists r, st = PDone o r.

  (** What is known about the contents of the shard held. *)
  Definition knows (sh : shared) (h : held) (st : phase) (p : prog) : Prop :=
    match h with
    | HR s | HW s => safe (items sh s) st p
    | HNone | HWait _ => exists m, safe m st p
    end.

  Definition linInv (c : config) (h : list op) (ph : nat -> phase) : Prop :=
    (forall x, value h x = gget eqb (items (shm c) (shardOf x)) x) /\
    forall t, match thr c t with
              | Idle => ph t = PIdle
              | Running o p => phaseOf o (ph t) /\ forall hd, owns (shm c) t hd -> knows (shm c) hd (ph t) p
              end.

  (** A thread's access to shard [s], held with contents [m], seen abstractly. *)
  Lemma linAt_sim tr h ph t o (sh sh' : shared) s m' st' :
    linearized tr h ph -> phaseOf o (ph t) ->
    (forall x, value h x = gget eqb (items sh (shardOf x)) x) ->
    linAt s (items sh s) m' (ph t) st' -> items sh' = fupd (items sh) s m' ->
    exists h' ph', linearized tr h' ph' /\ (exists new, h' = new ++ h) /\ ph' t = st' /\ (forall t', t' <> t -> ph' t' = ph t') /\
      phaseOf o st' /\ (forall x, value h' x = gget eqb (items sh' (shardOf x)) x).
  Proof.
    intros L P IV [[-> ->]|(o' & r & Hp & -> & H)] Hi; rewrite Hi.
    - exists h, ph. split; [assumption|]. split; [now exists []|]. repeat split; try assumption. intros x.
      destruct (fupd_case (items sh) s (shardOf x) (items sh s)) as [[-> ->]|[_ ->]]; apply IV.
    - destruct P as [P|[r' P]]; rewrite P in Hp; [|discriminate]. injection Hp as <-.
      destruct (H h) as (A & V1 & V2); [intros x <-; apply IV|].
      exists (o :: h), (fupd ph t (PDone o r)). split; [now apply lin_effect|]. split; [now exists [o]|].
      split; [apply fupd_same|]. split; [intros t' Ht; apply fupd_other; congruence|].
      split; [right; eauto|]. intros x.
      destruct (fupd_case (items sh) s (shardOf x) m') as [[Hx ->]|[Hx ->]].
      + now apply V1.
      + rewrite V2 by congruence. apply IV.
  Qed.

  Lemma fupd_id {A} (f : nat -> A) i j : fupd f i (f i) j = f j.
  Proof. destruct (fupd_case f i j (f i)) as [[<- ->]|[_ ->]]; reflexivity. Qed.

  Lemma sim_tau tr c h ph t o p p' sh' hd : linearized tr h ph -> linInv c h ph -> lockInv true c ->
    thr c t = Running o p -> tstep t p (shm c) p' sh' -> owns (shm c) t hd -> bal true hd p ->
    exists h' ph', linearized tr h' ph' /\ (exists new, h' = new ++ h) /\ (forall t', t' <> t -> ph' t' = ph t') /\
      phaseOf o (ph' t) /\ (forall x, value h' x = gget eqb (items sh' (shardOf x)) x) /\
      knows sh' (nextHeld p hd) (ph' t) p' /\
      (forall s, items sh' s = items (shm c) s \/ hd = HW s).
  Proof.
    intros L [IV IT] [M _] E T O B. specialize (IT t). rewrite E in IT. destruct IT as [P Kn].
    specialize (Kn _ O). destruct c as [sh th]. cbn [shm thr] in *.
    destruct T as [s k sh W|s k sh W|s k sh W|s k sh W R|s k sh W|s k sh|s k l sh Pm|s f k sh];
      cbn [bal nextHeld] in *.
    - exists h, ph. destruct B as [-> B]. destruct Kn as [m Kn]. split; [assumption|]; split; [now exists []|]; repeat split; auto. apply Kn.
    - exists h, ph. destruct B as [-> B]. split; [assumption|]; split; [now exists []|]; repeat split; auto. eexists. exact Kn.
    - exists h, ph. destruct B as [-> B]. destruct Kn as [m Kn]. split; [assumption|]; split; [now exists []|]; repeat split; auto. exists m. exact Kn.
    - exists h, ph. destruct B as [-> B]. destruct Kn as [m Kn]. split; [assumption|]; split; [now exists []|]; repeat split; auto. apply Kn.
    - exists h, ph. destruct B as [-> B]. split; [assumption|]; split; [now exists []|]; repeat split; auto. eexists. exact Kn.
    - destruct B as [B1 B2].
      assert (Kn' : exists st', linAt s (items sh s) (items sh s) (ph t) st' /\ safe (items sh s) st' (k (items sh s)))
        by (destruct B1 as [-> | ->]; exact Kn).
      destruct Kn' as (st' & Lt & Sf).
      assert (Hw : forall x, value h x = gget eqb (items sh (shardOf x)) x) by assumption.
      destruct (linAt_sim tr h ph t o sh (setItems sh s (items sh s)) s _ st' L P IV Lt eq_refl)
        as (h' & ph' & L' & New & Hst & Ho & P' & V').
      exists h', ph'. rewrite Hst. split; [assumption|]. split; [assumption|]. split; [assumption|]. split; [assumption|].
      split; [intros x; rewrite V'; cbn; now rewrite fupd_id|]. split; [|auto].
      destruct B1 as [-> | ->]; exact Sf.
    - exists h, ph. destruct B as [B1 B2]. split; [assumption|]; split; [now exists []|]; repeat split; auto. destruct B1 as [-> | ->]; now apply Kn.
    - destruct B as [[->|[? _]] B2]; [|discriminate]. destruct Kn as (st' & Lt & Sf).
      destruct (linAt_sim tr h ph t o sh (setItems sh s (f (items sh s))) s _ st' L P IV Lt eq_refl)
        as (h' & ph' & L' & New & Hst & Ho & P' & V').
      exists h', ph'. rewrite Hst. split; [assumption|]. split; [assumption|]. repeat split; auto.
      + cbn. rewrite fupd_same. exact Sf.
      + intros s'. cbn. destruct (fupd_case (items sh) s s' (f (items sh s))) as [[<- ->]|[_ ->]]; auto.
  Qed.

  Lemma sim_step (allow : nat -> op -> Prop) tr c ev c' h ph : (forall t o, allow t o -> linOp o) ->
    cstep allow c ev c' -> lockInv true c -> linearized tr h ph -> linInv c h ph ->
    exists h' ph', linearized (tr ++ ev) h' ph' /\ (exists new, h' = new ++ h) /\ linInv c' h' ph'.
  Proof.
    intros HA S LK L LV. pose proof LK as [M LI]. pose proof LV as [IV IT].
    destruct S as [t o sh th E A|t o r sh th E|t o p sh th E|t o p p' sh sh' th E T]; cbn in *.
    - exists h, (fupd ph t (PPending o)). specialize (IT t) as It. rewrite E in It.
      split; [now apply lin_inv|]. split; [now exists []|]. split; [assumption|]. intros t'. cbn.
      destruct (Nat.eq_dec t t') as [<-|Hn].
      + rewrite !fupd_same. split; [now left|]. intros hd O.
        specialize (LI t) as (hd' & O' & H). rewrite E in H. subst hd'.
        rewrite (owns_unique _ _ _ _ O O'). cbn. exists []. apply safe_op. eauto.
      + rewrite !fupd_other by assumption. apply IT.
    - specialize (IT t) as It. rewrite E in It. destruct It as [P Kn].
      destruct (LI t) as (hd & O & B). rewrite E in B. cbn in B. subst hd. specialize (Kn _ O).
      cbn in Kn. destruct Kn as (_ & o' & [Hd|[Hp W]]).
      + destruct P as [P|[r' P]]; rewrite P in Hd; [discriminate|]. injection Hd as <- <-.
        exists h, (fupd ph t PIdle). split; [now apply lin_ret|]. split; [now exists []|]. split; [assumption|]. intros t'. cbn.
        destruct (Nat.eq_dec t t') as [<-|Hn]; [now rewrite !fupd_same|].
        rewrite !fupd_other by assumption. apply IT.
      + destruct P as [P|[r' P]]; rewrite P in Hp; [|discriminate]. injection Hp as <-.
        destruct (weak_spec o W h r) as [W1 W2].
        exists (o :: h), (fupd (fupd ph t (PDone o r)) t PIdle). split.
        * apply lin_ret; [|apply fupd_same]. now apply lin_effect.
        * split; [now exists [o]|]. split; [intros x; rewrite W2; apply IV|]. intros t'. cbn.
          destruct (Nat.eq_dec t t') as [<-|Hn]; [now rewrite !fupd_same|].
          rewrite !fupd_other by assumption. apply IT.
    - exists h, ph. split; [now apply lin_call|]. split; [now exists []|]. split; [assumption|]. intros t'. cbn.
      destruct (Nat.eq_dec t t') as [<-|Hn].
      + rewrite fupd_same. specialize (IT t). rewrite E in IT. destruct IT as [P Kn]. split; [assumption|].
        intros hd O. specialize (Kn hd O). destruct hd; assumption.
      + rewrite fupd_other by assumption. apply IT.
    - rewrite app_nil_r. destruct (LI t) as (hd & O & B). rewrite E in B.
      destruct (tstep_locks true _ _ _ _ _ _ T M O B) as (M' & O' & B' & F).
      destruct (sim_tau tr _ h ph t o p p' sh' hd L LV LK E T O B) as (h' & ph' & L' & New & Ho & P' & V' & Kn' & Hi).
      exists h', ph'. split; [assumption|]. split; [assumption|]. split; [assumption|]. intros t'. cbn.
      destruct (Nat.eq_dec t t') as [<-|Hn].
      + rewrite fupd_same. split; [assumption|]. intros hd2 O2. now rewrite (owns_unique _ _ _ _ O2 O').
      + rewrite fupd_other by assumption. rewrite Ho by congruence.
        specialize (IT t'). destruct (th t') as [|o2 p2] eqn:E2; [assumption|].
        destruct IT as [P2 Kn2]. split; [assumption|]. intros hd2 O2'.
        destruct (LI t') as (hd3 & O3 & _). assert (t' <> t) as Hn' by congruence.
        pose proof (F t' hd3 Hn' O3) as O3'. rewrite (owns_unique _ _ _ _ O2' O3'). specialize (Kn2 _ O3).
        cbn [shm] in *. destruct hd3 as [|s|s|s]; try assumption; cbn in Kn2 |- *;
          (destruct (Hi s) as [->|Hw]; [assumption|subst hd]); exfalso.
        * assert (W : writer (mu sh s) = Some (t, true)) by now apply O.
          assert (R : In t' (readers (mu sh s))) by now apply O3.
          destruct (M s) as [_ M2]. rewrite (M2 _ W) in R. contradiction.
        * assert (W : writer (mu sh s) = Some (t, true)) by now apply O.
          assert (R : writer (mu sh s) = Some (t', true)) by now apply O3. congruence.
  Qed.

  Lemma notClear (allow : nat -> op -> Prop) : (forall t o, allow t o -> linOp o) ->
    forall t o, allow t o -> ~ isClear o.
  Proof. intros H t o A. specialize (H t o A). destruct o; cbn in *; tauto. Qed.

End Lin.

Lemma sim_reach {K V} (eqb : K -> K -> bool) (zero : V) (nsh : nat) (hash : K -> Z) :
  partial_equiv eqb -> (forall x y, eqb x y = true -> hash x = hash y) ->
  forall (allow : nat -> op K V -> Prop) tr c, (forall t o, allow t o -> linOp o) -> reach eqb zero nsh hash allow tr c ->
  exists h ph, linearized eqb zero tr h ph /\ linInv eqb zero nsh hash c h ph.
Proof.
  intros PE HC allow tr c HA. induction 1 as [|tr c ev c' R IH S].
  - exists [], (fun _ => PIdle). split; [constructor|]. split; reflexivity.
  - destruct IH as (h & ph & L & I).
    destruct (sim_step eqb zero nsh hash PE HC [] [] (fun _ => PIdle) allow tr c ev c' h ph) as (h' & ph' & L' & _ & I'); eauto.
    eapply lockInv_reach; [|eassumption]. right. now apply notClear.
Qed.
