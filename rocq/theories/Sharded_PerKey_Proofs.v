(** Every call of xmap.Sharded is atomic on each key, by a forward simulation. *)
From Coq Require Import Permutation.
From Verif Require Import Base Arr GoMap XMap_Spec Sharded_Model Sharded_Spec Sharded_Locks Sharded_Seq
  Sharded_Keys_Spec Sharded_Keys_Proofs Sharded_PerKey_Spec.

Section PerKey.
  Context {K V : Type} (eqb : K -> K -> bool) (zero : V) (nsh : nat) (hash : K -> Z) (x : K).
  Hypothesis PE : partial_equiv eqb.
  Hypothesis HC : hashRespects eqb hash.
  Hypothesis Hnsh : (0 < nsh)%nat.
  Hypothesis Rx : eqb x x = true.
  Notation prog := (prog K V).
  Notation shared := (shared K V).
  Notation config := (config K V).
  Notation op := (op K V).
  Notation kphase := (kphase K V).
  Notation progOf := (progOf eqb zero nsh hash).
  Notation cstep := (cstep eqb zero nsh hash).
  Notation reach := (reach eqb zero nsh hash).
  Notation shardOf := (GetShard nsh hash).
  Notation after := (after eqb x).
  Notation reply := (reply eqb zero x).
  Notation told := (told eqb x).
  Notation explained := (explained eqb zero x).
  Notation sx := (shardOf x).

  (** What the map of shard [s] is like. *)
  Definition good (s : nat) (m : gomap K V) : Prop :=
    wfm eqb m /\ forall k v, In (k, v) m -> shardOf k = s.

  Lemma good_nil s : good s [].
  Proof. split; [exact I|intros k v []]. Qed.

  Lemma in_gset_ (m : gomap K V) k v k' v' : In (k', v') (gset eqb m k v) -> (k', v') = (k, v) \/ In (k', v') m.
  Proof.
    induction m as [|[k0 v0] m IH]; cbn; [intros [H|[]]; auto|]. destruct (eqb k0 k); cbn.
    - intros [H|H]; auto.
    - intros [H|H]; [auto|]. destruct (IH H); auto.
  Qed.
  Lemma in_gdel_ (m : gomap K V) k k' v' : In (k', v') (gdel eqb m k) -> In (k', v') m.
  Proof. induction m as [|[k0 v0] m IH]; cbn; [tauto|]. destruct (eqb k0 k); cbn; tauto. Qed.

  Lemma good_set k v m : good (shardOf k) m -> good (shardOf k) (gset eqb m k v).
  Proof.
    intros [H1 H2]. split; [now apply wfm_gset|]. intros k' v' Hi.
    apply in_gset_ in Hi as [[= -> ->]|Hi]; [reflexivity|eauto].
  Qed.
  Lemma good_del s k m : good s m -> good s (gdel eqb m k).
  Proof. intros [H1 H2]. split; [now apply wfm_gdel|]. intros k' v' Hi. apply in_gdel_ in Hi. eauto. Qed.
  Lemma good_entrywise s g m : good s m -> good s (entrywise g m).
  Proof.
    intros [H1 H2]. split; [now apply wfm_entrywise|]. intros k' v' Hi. apply entrywise_in in Hi as [v'' Hi]. eauto.
  Qed.

  Lemma gget_entrywise g (m : gomap K V) : alike eqb g -> wfm eqb m ->
    gget eqb (entrywise g m) x = match gget eqb m x with Some v => g x v | None => None end.
  Proof.
    intros A. induction m as [|[k v] m IH]; cbn; [reflexivity|]. intros [H1 H2]. specialize (IH H2).
    destruct (eqb k x) eqn:E.
    - rewrite (A _ _ v E). destruct (g x v) as [v'|]; cbn; [now rewrite E|].
      rewrite IH. now rewrite <- (gget_cong _ PE m _ _ E), H1.
    - destruct (g k v); cbn; [now rewrite E|assumption].
  Qed.

  (** Told lists. *)
  Definition xs (l : list (K * V)) : list V := map snd (filter (fun e => eqb (fst e) x) l).
  Lemma xs_app l l' : xs (l ++ l') = xs l ++ xs l'.
  Proof. unfold xs. now rewrite filter_app, map_app. Qed.
  Lemma xs_none s m : good s m -> s <> sx -> xs m = [].
  Proof.
    intros [_ H] Hs. induction m as [|[k v] m IH]; [reflexivity|]. unfold xs. cbn.
    destruct (eqb k x) eqn:E.
    - exfalso. apply Hs. rewrite <- (H k v (or_introl eq_refl)). unfold GetShard. now rewrite (HC _ _ E).
    - apply IH. intros k' v' Hi. apply (H k' v'). now right.
  Qed.
  Lemma xs_wf m : wfm eqb m -> xs m = match gget eqb m x with Some v => [v] | None => [] end.
  Proof.
    induction m as [|[k v] m IH]; [reflexivity|]. cbn. intros [H1 H2]. specialize (IH H2). unfold xs in *. cbn.
    destruct (eqb k x) eqn:E; [|assumption]. cbn. rewrite IH. now rewrite <- (gget_cong _ PE m _ _ E), H1.
  Qed.
  Lemma xs_perm l m : Permutation l m -> good sx m \/ (exists s, good s m /\ s <> sx) ->
    xs l = xs m.
  Proof.
    intros P H. assert (W : wfm eqb m) by (destruct H as [[H _]|(s & [H _] & _)]; assumption).
    destruct (wfm_perm eqb PE m l (Permutation_sym P) W) as [Wl G]. now rewrite !xs_wf, G by assumption.
  Qed.

  (** Accessing shard [s], whose map goes from [m] to [m'], the call may take effect. *)
  Definition linAt (s : nat) (m m' : gomap K V) (st st' : kphase) : Prop :=
    (st' = st /\ (s = sx -> gget eqb m' x = gget eqb m x)) \/
    exists o, st = KPending o /\ st' = KDone o (gget eqb m x) /\ s = sx /\
      gget eqb m' x = after o (gget eqb m x).

  (** From phase [st], with [m] the contents of the shard held, [p] takes effect
      once and answers right.  [w]: the shard is held for writing, so that nobody
      else changes it. *)
  Fixpoint safe (w : bool) (m : gomap K V) (st : kphase) (p : prog) : Prop :=
    match p with
    | Ret r => (exists o c, st = KDone o c /\ reply o c r) \/
               (exists o, st = KPending o /\ forall c, after o c = c /\ reply o c r)
    | RLock s k => forall m', good s m' -> safe false m' st k
    | Lock s k | LockWait s k => forall m', good s m' -> safe true m' st k
    | RUnlock _ k | Unlock _ k => safe w m st k
    | Read s k => exists st', linAt s m m st st' /\
        forall m2, good s m2 -> (w = true -> m2 = m) -> safe w m2 st' (k m)
    | Range s k => forall l, Permutation l m -> exists st', linAt s m m st st' /\
        forall m2, good s m2 -> (w = true -> m2 = m) -> safe w m2 st' (k l)
    | Write s f k => good s (f m) /\ exists st', linAt s m (f m) st st' /\
        forall m2, good s m2 -> (w = true -> m2 = f m) -> safe w m2 st' k
    | Call k => safe w m st k
    end.

  Lemma linAt_skip s m st : linAt s m m st st.
  Proof. left. auto. Qed.

  Lemma key_shard key : eqb key x = true -> shardOf key = sx.
  Proof. intros H. unfold GetShard. now rewrite (HC _ _ H). Qed.
  Lemma key_get (m : gomap K V) key : eqb key x = true -> gget eqb m key = gget eqb m x.
  Proof. intros H. now apply gget_cong. Qed.

  (** The phase of a call on [key] once it is done with the map. *)
  Definition doneIf (key : K) (o : op) (m : gomap K V) : kphase :=
    if eqb key x then KDone o (gget eqb m x) else KPending o.

  Lemma linAt_key key o m m' : (eqb key x = true -> gget eqb m' x = after o (gget eqb m x)) ->
    (eqb key x = false -> gget eqb m' x = gget eqb m x) ->
    linAt (shardOf key) m m' (KPending o) (doneIf key o m).
  Proof.
    intros H1 H2. unfold doneIf. destruct (eqb key x) eqn:E.
    - right. exists o. repeat split; auto. now apply key_shard.
    - left. auto.
  Qed.

  Lemma ret_key key o r m0 : (eqb key x = true -> reply o (gget eqb m0 x) r) ->
    (eqb key x = false -> forall c, after o c = c /\ reply o c r) ->
    (exists o' c, doneIf key o m0 = KDone o' c /\ reply o' c r) \/
    (exists o', doneIf key o m0 = KPending o' /\ forall c, after o' c = c /\ reply o' c r).
  Proof. intros H1 H2. unfold doneIf. destruct (eqb key x) eqn:E; eauto 6. Qed.

  (** ** Calls that look at all the shards *)
  Definition seenOk (ss : list nat) (st : kphase) (o : op) (L : list (K * V)) : Prop :=
    (In sx ss /\ st = KPending o /\ xs L = []) \/ (~ In sx ss /\ exists c, st = KDone o c /\ told c L).

  Lemma seen_step s ss st o L m l : looks o -> ~ In s ss -> seenOk (s :: ss) st o L -> good s m -> Permutation l m ->
    exists st', linAt s m m st st' /\ seenOk ss st' o (L ++ l).
  Proof.
    intros Lo Ns So G P. destruct (Nat.eq_dec s sx) as [Es|Es].
    - destruct So as [(H1 & H2 & H3)|(H1 & _)]; [|exfalso; apply H1; now left].
      assert (El : xs l = xs m) by (apply xs_perm; [assumption|left; now rewrite <- Es]).
      exists (KDone o (gget eqb m x)). split.
      + right. exists o. repeat split; auto. destruct o; cbn in Lo |- *; tauto.
      + right. rewrite Es in Ns. split; [assumption|]. exists (gget eqb m x). split; [reflexivity|].
        unfold Sharded_PerKey_Spec.told. fold (xs (L ++ l)). rewrite xs_app, H3, El. cbn. apply xs_wf, G.
    - assert (El : xs l = []) by (rewrite (xs_perm l m P); [eapply xs_none; eassumption|right; eauto]).
      exists st. split; [apply linAt_skip|]. destruct So as [(H1 & H2 & H3)|(H1 & c & H2 & H3)].
      + left. split; [destruct H1; [congruence|assumption]|]. split; [assumption|]. now rewrite xs_app, H3, El.
      + right. split; [intros Hi; apply H1; now right|]. exists c. split; [assumption|].
        unfold Sharded_PerKey_Spec.told in *. fold (xs (L ++ l)). fold (xs L) in H3. rewrite xs_app, H3, El. apply app_nil_r.
  Qed.

  Lemma seen_exit w m ss st o L r : looks o -> seenOk ss st o L ->
    (forall c L', told c (L ++ L') -> reply o c r) -> safe w m st (Ret r).
  Proof.
    intros Lo [(_ & -> & H)|(_ & c & -> & H)] Hr; cbn.
    - right. exists o. split; [reflexivity|]. intros c. split; [destruct o; cbn in Lo |- *; tauto|].
      apply (Hr c (only x c)). unfold Sharded_PerKey_Spec.told. fold (xs (L ++ only x c)). rewrite xs_app, H.
      destruct c; unfold xs; cbn; [now rewrite Rx|reflexivity].
    - left. exists o, c. split; [reflexivity|]. apply (Hr c []). now rewrite app_nil_r.
  Qed.

  Lemma seen_end w m st o L r : looks o -> seenOk [] st o L ->
    (forall c, told c L -> reply o c r) -> safe w m st (Ret r).
  Proof.
    intros Lo [([] & _)|(_ & c & -> & H)] Hr. left. eauto.
  Qed.

  Lemma safe_len ss : NoDup ss -> forall w m st L, seenOk ss st OLen L ->
    safe w m st (lenP (K := K) (V := V) ss (zlen L)).
  Proof.
    induction 1 as [|s ss Hs N IH]; intros w m st L So; cbn [lenP].
    - eapply seen_end; [|eassumption|]; [exact I|]. intros c Hc. exists L. auto.
    - cbn. intros m' G. destruct (seen_step s ss st OLen L m' m' I Hs So G (Permutation_refl _)) as (st' & H1 & H2).
      exists st'. split; [assumption|]. intros m2 _ _. replace (zlen L + glen m') with (zlen (L ++ m')); [now apply IH|].
      unfold glen, zlen. rewrite app_length. lia.
  Qed.

  Lemma safe_empty ss : NoDup ss -> forall w m st, seenOk ss st OEmpty [] ->
    safe w m st (emptyP (K := K) (V := V) ss).
  Proof.
    induction 1 as [|s ss Hs N IH]; intros w m st So; cbn [emptyP].
    - eapply seen_end; [|eassumption|]; [exact I|]. intros c Hc. exists []. auto.
    - cbn. intros m' G. destruct (seen_step s ss st OEmpty [] m' m' I Hs So G (Permutation_refl _)) as (st' & H1 & H2).
      exists st'. split; [assumption|]. intros m2 _ _. destruct m' as [|e m'].
      + cbn. now apply IH.
      + replace (glen (e :: m') >? 0) with true by (unfold glen, zlen; cbn [List.length]; symmetry; apply Z.gtb_lt; lia).
        apply (seen_exit false m2 ss st' OEmpty _ _ I H2). intros c L' Hc. eexists. split; [exact Hc|]. reflexivity.
  Qed.

  (** [acc] accounts for the entries [L]. *)
  Lemma safe_readOnly o {A} (rep : A -> list (K * V) -> Prop) step fin : looks o ->
    (forall acc L l, rep acc L -> rep (step acc l) (L ++ l)) ->
    (forall acc L c, rep acc L -> told c L -> reply o c (fin acc)) ->
    forall ss, NoDup ss -> forall w m st L acc, rep acc L -> seenOk ss st o L ->
    safe w m st (readOnlyP ss step fin acc).
  Proof.
    intros Lo H1 H2. induction 1 as [|s ss Hs N IH]; intros w m st L acc Rp So; cbn [readOnlyP].
    - eapply seen_end; [exact Lo|eassumption|]. intros c Hc. eapply H2; eassumption.
    - cbn. intros m' G l P. destruct (seen_step s ss st o L m' l Lo Hs So G P) as (st' & E1 & E2).
      exists st'. split; [assumption|]. intros m2 _ _. eapply IH; [|exact E2]. now apply H1.
  Qed.

  Lemma safe_iterLoop fn s ss st L : forall l seen w m next, L = seen ++ l -> (forall k v, In (k, v) seen -> fn k v = true) ->
    good s m ->
    seenOk ss st (OIterate fn) L ->
    (forall m, (forall k v, In (k, v) L -> fn k v = true) -> safe w m st (next L)) ->
    safe w m st (iterLoop s fn l seen next).
  Proof.
    induction l as [|[k v] l IH]; intros seen w m next EL Hf G So Hn; cbn [iterLoop].
    - cbn. rewrite app_nil_r in EL. subst seen. now apply Hn.
    - cbn. exists st. split; [apply linAt_skip|]. intros m2 G2 _. destruct (fn k v) eqn:E.
      + apply IH with (m := m2); auto.
        * now rewrite <- app_assoc.
        * intros k' v' Hi. apply in_app_iff in Hi as [Hi|[[= <- <-]|[]]]; auto.
      + apply (seen_exit w m2 ss st (OIterate fn) L _ I So). intros c L' Hc. subst L.
        exists (seen ++ [(k, v)]), (l ++ L'), false. split; [now rewrite <- !app_assoc in *|].
        split; [reflexivity|]. exists seen, k, v. auto.
  Qed.

  Lemma safe_iterate fn ss : NoDup ss -> forall w m st L, seenOk ss st (OIterate fn) L ->
    (forall k v, In (k, v) L -> fn k v = true) ->
    safe w m st (iterateP (K := K) (V := V) ss fn L).
  Proof.
    induction 1 as [|s ss Hs N IH]; intros w m st L So Hf; cbn [iterateP].
    - eapply seen_end; [|eassumption|]; [exact I|]. intros c Hc. exists L, [], true. rewrite app_nil_r. auto.
    - cbn. intros m' G l P. destruct (seen_step s ss st (OIterate fn) L m' l I Hs So G P) as (st' & E1 & E2).
      exists st'. split; [assumption|]. intros m2 G2 _. eapply safe_iterLoop; [reflexivity|assumption|eassumption|exact E2|].
      intros m3 Hf'. now apply IH.
  Qed.

  (** ** Calls that change all the shards *)
  Definition sweptOk (ss : list nat) (st : kphase) (o : op) : Prop :=
    (In sx ss /\ st = KPending o) \/ (~ In sx ss /\ exists c, st = KDone o c).

  Lemma swept_step s ss st o m m' : ~ In s ss -> sweptOk (s :: ss) st o ->
    (s = sx -> gget eqb m' x = after o (gget eqb m x)) ->
    exists st', linAt s m m' st st' /\ sweptOk ss st' o.
  Proof.
    intros Ns So H. destruct (Nat.eq_dec s sx) as [Es|Es].
    - destruct So as [(_ & ->)|(H1 & _)]; [|exfalso; apply H1; now left].
      exists (KDone o (gget eqb m x)). split; [right; exists o; auto|]. right. rewrite Es in Ns. eauto.
    - exists st. split; [left; split; [reflexivity|congruence]|].
      destruct So as [(H1 & ->)|(H1 & H2)]; [left|right].
      + split; [|reflexivity]. destruct H1; [congruence|assumption].
      + split; [|assumption]. intros Hi. apply H1. now right.
  Qed.

  Lemma safe_clear ss : NoDup ss -> forall w m st, sweptOk ss st OClear -> safe w m st (clearP (K := K) (V := V) ss).
  Proof.
    induction 1 as [|s ss Hs N IH]; intros w m st So; cbn.
    - destruct So as [([] & _)|(_ & c & ->)]. left. exists OClear, c. cbn. auto.
    - intros m' G. split; [apply good_nil|].
      destruct (swept_step s ss st OClear m' [] Hs So (fun _ => eq_refl)) as (st' & H1 & H2). eauto.
  Qed.

  Lemma safe_iterateShards g fn ss : alike eqb g -> (forall m, fn m = entrywise g m) -> NoDup ss ->
    forall w m st, sweptOk ss st (OIterateShards fn) -> safe w m st (iterateShardsP (K := K) (V := V) ss fn).
  Proof.
    intros A Hfn. induction 1 as [|s ss Hs N IH]; intros w m st So; cbn.
    - destruct So as [([] & _)|(_ & c & ->)]. left. exists (OIterateShards fn), c. cbn. auto.
    - intros m' G. split; [rewrite Hfn; now apply good_entrywise|].
      destruct (swept_step s ss st (OIterateShards fn) m' (fn m') Hs So) as (st' & H1 & H2); [|eauto].
      intros _. cbn. rewrite !Hfn, !(gget_entrywise g) by (try apply G; auto; destruct (gget eqb m' x); cbn; auto).
      destruct (gget eqb m' x); cbn; [now rewrite Rx|reflexivity].
  Qed.

  Lemma all_in : In sx (allShards nsh).
  Proof. apply in_seq. pose proof (shard_lt nsh hash Hnsh x). lia. Qed.
  Lemma all_nodup : NoDup (allShards nsh).
  Proof. apply seq_NoDup. Qed.
  Lemma seen_start o : seenOk (allShards nsh) (KPending o) o [].
  Proof. left. repeat split. apply all_in. Qed.
  Lemma swept_start o : sweptOk (allShards nsh) (KPending o) o.
  Proof. left. split; [apply all_in|reflexivity]. Qed.

  Lemma fold_gset_xs l : forall ret : gomap K V, wfm eqb ret ->
    wfm eqb (fold_left (fun ret e => gset eqb ret (fst e) (snd e)) l ret) /\
    gget eqb (fold_left (fun ret e => gset eqb ret (fst e) (snd e)) l ret) x =
      match rev (xs l) with v :: _ => Some v | [] => gget eqb ret x end.
  Proof.
    induction l as [|[k v] l IH]; intros ret W; [auto|]. cbn.
    destruct (IH (gset eqb ret k v)) as [H1 H2]; [now apply wfm_gset|]. split; [assumption|].
    rewrite H2, (gget_gset eqb PE). unfold xs. cbn. destruct (eqb k x); cbn; [|reflexivity].
    destruct (rev _); reflexivity.
  Qed.

  Ltac skip_ := eexists; split; [apply linAt_skip|].

  Lemma safe_op w m o : sweeps eqb o -> safe w m (KPending o) (progOf o).
  Proof.
    intros Sw. destruct o; cbn [Sharded_Model.progOf].
    - (* Set *)
      cbn [setP safe]. intros m' G. split; [now apply good_set|]. exists (doneIf key (OSet key v) m'). split.
      + apply linAt_key; intros E; rewrite (gget_gset eqb PE), E; [cbn; now rewrite E|reflexivity].
      + intros m2 _ _. apply ret_key; intros E; cbn; rewrite ?E; auto.
    - (* TrySet *)
      cbn [trySetP safe]. intros m' G. unfold has. destruct (gget eqb m' key) eqn:E; cbn [safe].
      + exists (doneIf key (OTrySet key v) m'). split.
        * apply linAt_key; [|reflexivity]. intros Ek. rewrite (key_get _ _ Ek) in E. rewrite E. reflexivity.
        * intros m2 _ _. apply ret_key; intros Ek; cbn.
          -- rewrite (key_get _ _ Ek) in E. now rewrite E.
          -- rewrite Ek. intros []; split; auto; discriminate.
      + skip_. intros m2 G2 M2. rewrite (M2 eq_refl) in *. split; [now apply good_set|].
        exists (doneIf key (OTrySet key v) m'). split.
        * apply linAt_key; intros Ek; rewrite (gget_gset eqb PE), Ek; [|reflexivity].
          rewrite (key_get _ _ Ek) in E. rewrite E. cbn. now rewrite Ek.
        * intros m3 _ _. apply ret_key; intros Ek; cbn.
          -- rewrite (key_get _ _ Ek) in E. now rewrite E.
          -- rewrite Ek. intros []; split; auto; discriminate.
    - (* Get *)
      cbn [getP tryGetK safe]. intros m' G. exists (doneIf key (OGet key) m'). split; [apply linAt_key; reflexivity|].
      intros m2 _ _. unfold get2. destruct (gget eqb m' key) eqn:E; cbn [safe]; apply ret_key; intros Ek; cbn;
        try rewrite (key_get _ _ Ek) in E; try rewrite E; try rewrite Ek; auto; intros c; split; auto; discriminate.
    - (* TryGet *)
      cbn [tryGetP tryGetK safe]. intros m' G. exists (doneIf key (OTryGet key) m'). split; [apply linAt_key; reflexivity|].
      intros m2 _ _. unfold get2. destruct (gget eqb m' key) eqn:E; cbn [safe]; apply ret_key; intros Ek; cbn;
        try rewrite (key_get _ _ Ek) in E; try rewrite E; try rewrite Ek; auto; intros c; split; auto; discriminate.
    - (* Has *)
      cbn [hasP safe]. intros m' G. exists (doneIf key (OHas key) m'). split; [apply linAt_key; reflexivity|].
      intros m2 _ _. unfold has. apply ret_key; intros Ek; cbn.
      + rewrite (key_get _ _ Ek). auto.
      + rewrite Ek. intros c. split; [auto|discriminate].
    - (* Delete *)
      cbn [deleteP safe]. intros m' G. split; [now apply good_del|]. exists (doneIf key (ODelete key) m'). split.
      + apply linAt_key; intros E; rewrite (gget_gdel eqb PE), E; [cbn; now rewrite E|reflexivity].
      + intros m2 _ _. apply ret_key; intros E; cbn; rewrite ?E; auto.
    - (* GetOrSetDefault *)
      cbn [getOrSetDefaultP tryGetK safe]. intros m' G. unfold get2. destruct (gget eqb m' key) eqn:E; cbn [safe].
      + exists (doneIf key (OGetOrSetDefault key v) m'). split.
        * apply linAt_key; [|reflexivity]. intros Ek. rewrite (key_get _ _ Ek) in E. rewrite E. reflexivity.
        * intros m2 _ _. apply ret_key; intros Ek; cbn.
          -- rewrite (key_get _ _ Ek) in E. now rewrite E.
          -- rewrite Ek. intros []; split; auto; discriminate.
      + skip_. intros _ _ _ m2 G2. destruct (gget eqb m2 key) eqn:E2; cbn [safe].
        * exists (doneIf key (OGetOrSetDefault key v) m2). split.
          -- apply linAt_key; [|reflexivity]. intros Ek. rewrite (key_get _ _ Ek) in E2. rewrite E2. reflexivity.
          -- intros m3 _ _. apply ret_key; intros Ek; cbn.
             ++ rewrite (key_get _ _ Ek) in E2. now rewrite E2.
             ++ rewrite Ek. intros []; split; auto; discriminate.
        * skip_. intros m3 G3 M3. rewrite (M3 eq_refl) in *. split; [now apply good_set|].
          exists (doneIf key (OGetOrSetDefault key v) m2). split.
          -- apply linAt_key; intros Ek; rewrite (gget_gset eqb PE), Ek; [|reflexivity].
             rewrite (key_get _ _ Ek) in E2. rewrite E2. cbn. now rewrite Ek.
          -- intros m4 _ _. apply ret_key; intros Ek; cbn.
             ++ rewrite (key_get _ _ Ek) in E2. now rewrite E2.
             ++ rewrite Ek. intros []; split; auto; discriminate.
    - (* GetOrSetFactory *)
      cbn [getOrSetFactoryP tryGetK safe]. intros m' G. unfold get2. destruct (gget eqb m' key) eqn:E; cbn [safe].
      + exists (doneIf key (OGetOrSetFactory key factory) m'). split.
        * apply linAt_key; [|reflexivity]. intros Ek. rewrite (key_get _ _ Ek) in E. rewrite E. now destruct factory.
        * intros m2 _ _. apply ret_key; intros Ek; cbn.
          -- rewrite (key_get _ _ Ek) in E. now rewrite E.
          -- rewrite Ek. destruct factory; intros []; split; auto; discriminate.
      + skip_. intros _ _ _ m2 G2. destruct (gget eqb m2 key) eqn:E2; cbn [safe].
        * exists (doneIf key (OGetOrSetFactory key factory) m2). split.
          -- apply linAt_key; [|reflexivity]. intros Ek. rewrite (key_get _ _ Ek) in E2. rewrite E2. now destruct factory.
          -- intros m3 _ _. apply ret_key; intros Ek; cbn.
             ++ rewrite (key_get _ _ Ek) in E2. now rewrite E2.
             ++ rewrite Ek. destruct factory; intros []; split; auto; discriminate.
        * destruct factory as [v|]; cbn [safe].
          -- skip_. intros m3 G3 M3. rewrite (M3 eq_refl) in *. split; [now apply good_set|].
             exists (doneIf key (OGetOrSetFactory key (Some v)) m2). split.
             ++ apply linAt_key; intros Ek; rewrite (gget_gset eqb PE), Ek; [|reflexivity].
                rewrite (key_get _ _ Ek) in E2. rewrite E2. cbn. now rewrite Ek.
             ++ intros m4 _ _. apply ret_key; intros Ek; cbn.
                ** rewrite (key_get _ _ Ek) in E2. now rewrite E2.
                ** rewrite Ek. intros []; split; auto; discriminate.
          -- exists (doneIf key (OGetOrSetFactory key None) m2). split; [apply linAt_key; reflexivity|].
             intros m3 _ _. apply ret_key; intros Ek; cbn.
             ++ rewrite (key_get _ _ Ek) in E2. now rewrite E2.
             ++ rewrite Ek. intros []; split; auto; discriminate.
    - apply (safe_len _ all_nodup w m (KPending OLen) []). apply seen_start.
    - apply safe_empty; [apply all_nodup|apply seen_start].
    - apply safe_readOnly with (o := OKeys) (rep := fun ks L => ks = map fst L) (L := []);
        [exact I| | |apply all_nodup|reflexivity|apply seen_start].
      + intros acc L l ->. now rewrite map_app.
      + intros acc L c -> Hc. exists L. auto.
    - apply safe_readOnly with (o := OValues) (rep := fun vs L => vs = map snd L) (L := []);
        [exact I| | |apply all_nodup|reflexivity|apply seen_start].
      + intros acc L l ->. now rewrite map_app.
      + intros acc L c -> Hc. exists L. auto.
    - apply safe_readOnly with (o := OEntries) (rep := fun es L => es = L) (L := []);
        [exact I| | |apply all_nodup|reflexivity|apply seen_start].
      + intros acc L l ->. reflexivity.
      + intros acc L c -> Hc. exists L. auto.
    - apply safe_readOnly with (o := OToMap)
        (rep := fun ret L => ret = fold_left (fun ret e => gset eqb ret (fst e) (snd e)) L []) (L := []);
        [exact I| | |apply all_nodup|reflexivity|apply seen_start].
      + intros acc L l ->. now rewrite fold_left_app.
      + intros acc L c -> Hc. eexists. split; [|reflexivity].
        destruct (fold_gset_xs L [] I) as [W E]. unfold Sharded_PerKey_Spec.told in *. fold (xs L) in Hc.
        match goal with |- map snd (filter _ ?M) = _ => fold (xs M) end. rewrite xs_wf, E, Hc by assumption.
        destruct c; reflexivity.
    - apply safe_clear; [apply all_nodup|apply swept_start].
    - apply safe_iterate; [apply all_nodup|apply seen_start|intros k v []].
    - apply safe_readOnly with (o := OIterateShardsReadOnly) (rep := fun ls L => L = List.concat ls) (L := []);
        [exact I| | |apply all_nodup|reflexivity|apply seen_start].
      + intros acc L l ->. rewrite concat_app. cbn. now rewrite app_nil_r.
      + intros acc L c -> Hc. exists acc. auto.
    - destruct Sw as (g & A & Hfn). eapply safe_iterateShards; [eassumption..|apply all_nodup|apply swept_start].
  Qed.

  (** ** The simulation *)
  Definition phaseOf (o : op) (st : kphase) : Prop := st = KPending o \/ exists c, st = KDone o c.

  Definition knows (sh : shared) (h : held) (st : kphase) (p : prog) : Prop :=
    match h with
    | HR s => forall m, good s m -> safe false m st p
    | HW s => safe true (items sh s) st p
    | HNone | HWait _ => exists w m, safe w m st p
    end.

  Definition inv (cf : config) (c : option V) (ph : nat -> kphase) : Prop :=
    c = gget eqb (items (shm cf) sx) x /\ (forall s, good s (items (shm cf) s)) /\
    forall t, match thr cf t with
              | Idle => ph t = KIdle
              | Running o p => phaseOf o (ph t) /\ forall hd, owns (shm cf) t hd -> knows (shm cf) hd (ph t) p
              end.

  Lemma linAt_sim tr c ph t o (sh sh' : shared) s m' st' :
    explained tr c ph -> phaseOf o (ph t) -> c = gget eqb (items sh sx) x ->
    linAt s (items sh s) m' (ph t) st' -> items sh' = fupd (items sh) s m' ->
    exists c' ph', explained tr c' ph' /\ ph' t = st' /\ (forall t', t' <> t -> ph' t' = ph t') /\
      phaseOf o st' /\ c' = gget eqb (items sh' sx) x.
  Proof.
    intros L P C [[-> H]|(o' & Hp & -> & Hs & H)] Hi; rewrite Hi.
    - exists c, ph. split; [assumption|]. repeat split; try assumption. rewrite C.
      destruct (fupd_case (items sh) s sx m') as [[Es ->]|[_ ->]]; [|reflexivity].
      rewrite (H Es). now rewrite Es.
    - destruct P as [P|[c0 P]]; rewrite P in Hp; [|discriminate]. injection Hp as <-. subst s c.
      exists (after o (gget eqb (items sh sx) x)), (fupd ph t (KDone o (gget eqb (items sh sx) x))).
      split; [now apply ex_effect|]. split; [apply fupd_same|]. split; [intros t' Ht; apply fupd_other; congruence|].
      split; [right; eauto|]. now rewrite fupd_same.
  Qed.

  Lemma sim_tau tr cf c ph t o p p' sh' hd : explained tr c ph -> inv cf c ph -> lockInv false cf ->
    thr cf t = Running o p -> tstep t p (shm cf) p' sh' -> owns (shm cf) t hd -> bal false hd p ->
    exists c' ph', explained tr c' ph' /\ (forall t', t' <> t -> ph' t' = ph t') /\
      phaseOf o (ph' t) /\ c' = gget eqb (items sh' sx) x /\ (forall s, good s (items sh' s)) /\
      knows sh' (nextHeld p hd) (ph' t) p' /\
      (forall s, items sh' s = items (shm cf) s \/ hd = HW s \/ hd = HR s).
  Proof.
    intros L (C & Gd & IT) [M _] E T O B. specialize (IT t). rewrite E in IT. destruct IT as [P Kn].
    specialize (Kn _ O). destruct cf as [sh th]. cbn [shm thr] in *.
    destruct T as [s k sh W|s k sh W|s k sh W|s k sh W R|s k sh W|s k sh|s k l sh Pm|s f k sh];
      cbn [bal nextHeld] in *.
    - exists c, ph. destruct B as [-> B]. destruct Kn as (w & m & Kn). repeat split; auto; apply Gd.
    - exists c, ph. destruct B as [-> B]. repeat split; auto; try apply Gd. exists false, (items sh s). apply (Kn _ (Gd s)).
    - exists c, ph. destruct B as [-> B]. destruct Kn as (w & m & Kn). repeat split; auto; try apply Gd. exists w, m. exact Kn.
    - exists c, ph. destruct B as [-> B]. destruct Kn as (w & m & Kn). repeat split; auto; try apply Gd. apply Kn, Gd.
    - exists c, ph. destruct B as [-> B]. repeat split; auto; try apply Gd. eexists _, _. exact Kn.
    - destruct B as [B1 B2].
      assert (Kn' : exists st', linAt s (items sh s) (items sh s) (ph t) st' /\ knows sh hd st' (k (items sh s))).
      { destruct B1 as [-> | ->]; cbn in Kn |- *.
        - destruct (Kn _ (Gd s)) as (st' & H1 & H2). exists st'. split; [assumption|]. intros m Gm. apply H2; [assumption|discriminate].
        - destruct Kn as (st' & H1 & H2). exists st'. split; [assumption|]. now apply H2. }
      destruct Kn' as (st' & Lt & Sf).
      destruct (linAt_sim tr c ph t o sh (setItems sh s (items sh s)) s _ st' L P C Lt eq_refl)
        as (c' & ph' & L' & Hst & Ho & P' & C').
      exists c', ph'. rewrite Hst. repeat split; auto; try apply Gd.
      rewrite C'. cbn. destruct (fupd_case (items sh) s sx (items sh s)) as [[<- ->]|[_ ->]]; reflexivity.
    - destruct B as [B1 B2].
      assert (Kn' : exists st', linAt s (items sh s) (items sh s) (ph t) st' /\ knows sh hd st' (k l)).
      { destruct B1 as [-> | ->]; cbn in Kn |- *.
        - destruct (Kn _ (Gd s) l Pm) as (st' & H1 & H2). exists st'. split; [assumption|]. intros m Gm. apply H2; [assumption|discriminate].
        - destruct (Kn l Pm) as (st' & H1 & H2). exists st'. split; [assumption|]. now apply H2. }
      destruct Kn' as (st' & Lt & Sf).
      destruct (linAt_sim tr c ph t o sh (setItems sh s (items sh s)) s _ st' L P C Lt eq_refl)
        as (c' & ph' & L' & Hst & Ho & P' & C').
      exists c', ph'. rewrite Hst. repeat split; auto; try apply Gd.
      rewrite C'. cbn. destruct (fupd_case (items sh) s sx (items sh s)) as [[<- ->]|[_ ->]]; reflexivity.
    - destruct B as [B1 B2].
      assert (Kn' : good s (f (items sh s)) /\ exists st', linAt s (items sh s) (f (items sh s)) (ph t) st' /\
                knows (setItems sh s (f (items sh s))) hd st' k).
      { destruct B1 as [-> | [_ ->]]; cbn in Kn |- *.
        - destruct Kn as (G' & st' & H1 & H2). split; [assumption|]. exists st'. split; [assumption|].
          rewrite fupd_same. now apply H2.
        - destruct (Kn _ (Gd s)) as (G' & st' & H1 & H2). split; [assumption|]. exists st'. split; [assumption|].
          intros m Gm. apply H2; [assumption|discriminate]. }
      destruct Kn' as (G' & st' & Lt & Sf).
      destruct (linAt_sim tr c ph t o sh (setItems sh s (f (items sh s))) s _ st' L P C Lt eq_refl)
        as (c' & ph' & L' & Hst & Ho & P' & C').
      exists c', ph'. rewrite Hst. split; [assumption|]. split; [assumption|]. split; [assumption|]. split; [assumption|].
      split; [|split; [assumption|]].
      + intros s'. cbn. destruct (fupd_case (items sh) s s' (f (items sh s))) as [[<- ->]|[_ ->]]; [assumption|apply Gd].
      + intros s'. cbn. destruct (fupd_case (items sh) s s' (f (items sh s))) as [[<- ->]|[_ ->]]; [|auto].
        destruct B1 as [->|[_ ->]]; auto.
  Qed.

  Lemma sim_step (allow : nat -> op -> Prop) tr cf ev cf' c ph : (forall t o, allow t o -> sweeps eqb o) ->
    cstep allow cf ev cf' -> lockInv false cf -> explained tr c ph -> inv cf c ph ->
    exists c' ph', explained (tr ++ ev) c' ph' /\ inv cf' c' ph'.
  Proof.
    intros HA S LK L LV. pose proof LK as [M LI]. pose proof LV as (C & Gd & IT).
    destruct S as [t o sh th E A|t o r sh th E|t o p sh th E|t o p p' sh sh' th E T]; cbn in *.
    - exists c, (fupd ph t (KPending o)). specialize (IT t) as It. rewrite E in It.
      split; [now apply ex_inv|]. split; [assumption|]. split; [assumption|]. intros t'. cbn.
      destruct (Nat.eq_dec t t') as [<-|Hn].
      + rewrite !fupd_same. split; [now left|]. intros hd O.
        specialize (LI t) as (hd' & O' & H). rewrite E in H. subst hd'.
        rewrite (owns_unique _ _ _ _ O O'). cbn. exists false, []. apply safe_op. eauto.
      + rewrite !fupd_other by assumption. apply IT.
    - specialize (IT t) as It. rewrite E in It. destruct It as [P Kn].
      destruct (LI t) as (hd & O & B). rewrite E in B. cbn in B. subst hd. specialize (Kn _ O).
      cbn in Kn. destruct Kn as (_ & _ & [(o' & c0 & Hd & Rp)|(o' & Hp & W)]).
      + destruct P as [P|[c' P]]; rewrite P in Hd; [discriminate|]. injection Hd as <- <-.
        exists c, (fupd ph t KIdle). split; [eapply ex_ret; eassumption|]. split; [assumption|]. split; [assumption|]. intros t'. cbn.
        destruct (Nat.eq_dec t t') as [<-|Hn]; [now rewrite !fupd_same|].
        rewrite !fupd_other by assumption. apply IT.
      + destruct P as [P|[c' P]]; rewrite P in Hp; [|discriminate]. injection Hp as <-.
        destruct (W c) as [W1 W2].
        exists (after o c), (fupd (fupd ph t (KDone o c)) t KIdle). split.
        * eapply ex_ret; [|apply fupd_same|exact W2]. now apply ex_effect.
        * split; [cbn; congruence|]. split; [assumption|]. intros t'. cbn.
          destruct (Nat.eq_dec t t') as [<-|Hn]; [now rewrite !fupd_same|].
          rewrite !fupd_other by assumption. apply IT.
    - exists c, ph. split; [now apply ex_call|]. split; [assumption|]. split; [assumption|]. intros t'. cbn.
      destruct (Nat.eq_dec t t') as [<-|Hn].
      + rewrite fupd_same. specialize (IT t). rewrite E in IT. destruct IT as [P Kn]. split; [assumption|].
        intros hd O. specialize (Kn hd O). destruct hd; assumption.
      + rewrite fupd_other by assumption. apply IT.
    - rewrite app_nil_r. destruct (LI t) as (hd & O & B). rewrite E in B.
      destruct (tstep_locks false _ _ _ _ _ _ T M O B) as (M' & O' & B' & F).
      destruct (sim_tau tr _ c ph t o p p' sh' hd L LV LK E T O B) as (c' & ph' & L' & Ho & P' & C' & Gd' & Kn' & Hi).
      exists c', ph'. split; [assumption|]. split; [assumption|]. split; [assumption|]. intros t'. cbn.
      destruct (Nat.eq_dec t t') as [<-|Hn].
      + rewrite fupd_same. split; [assumption|]. intros hd2 O2. now rewrite (owns_unique _ _ _ _ O2 O').
      + rewrite fupd_other by assumption. rewrite Ho by congruence.
        specialize (IT t'). destruct (th t') as [|o2 p2] eqn:E2; [assumption|].
        destruct IT as [P2 Kn2]. split; [assumption|]. intros hd2 O2'.
        destruct (LI t') as (hd3 & O3 & _). assert (t' <> t) as Hn' by congruence.
        pose proof (F t' hd3 Hn' O3) as O3'. rewrite (owns_unique _ _ _ _ O2' O3'). specialize (Kn2 _ O3).
        cbn [shm] in *. destruct hd3 as [|s|s|s]; try assumption. cbn in Kn2 |- *.
        destruct (Hi s) as [->|[Hw|Hw]]; [assumption|subst hd; exfalso..].
        * assert (W : writer (mu sh s) = Some (t, true)) by now apply O.
          assert (R : writer (mu sh s) = Some (t', true)) by now apply O3. congruence.
        * assert (R : In t (readers (mu sh s))) by now apply O.
          assert (W : writer (mu sh s) = Some (t', true)) by now apply O3.
          destruct (M s) as [_ M2]. rewrite (M2 _ W) in R. contradiction.
  Qed.

  Lemma sim_reach (allow : nat -> op -> Prop) tr cf : (forall t o, allow t o -> sweeps eqb o) -> reach allow tr cf ->
    exists c ph, explained tr c ph /\ inv cf c ph.
  Proof.
    intros HA. induction 1 as [|tr cf ev cf' R IH S].
    - exists None, (fun _ => KIdle). split; [constructor|]. split; [reflexivity|]. split; [intros s; apply good_nil|reflexivity].
    - destruct IH as (c & ph & L & I). eapply sim_step; try eassumption. eapply lockInv_reach; [|eassumption]. now left.
  Qed.
End PerKey.
