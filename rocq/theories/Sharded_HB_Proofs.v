From Coq Require Import Lia Permutation.
From Verif Require Import Base GoMap Lin HB HB_Proofs HB_Locks Sharded_Model Sharded_Locks Sharded_HB_Model Sharded_HB_Spec.
Local Open Scope list_scope.
Local Open Scope nat_scope.

Section Proofs.
  Context {K V : Type} (eqb : K -> K -> bool) (zero : V) (nsh : nat) (hash : K -> Z).
  Notation prog := (prog K V).
  Notation op := (op K V).
  Notation res := (res K V).
  Notation doings := (doings op res).
  Notation detailed := (detailed eqb zero nsh hash).
  Notation progOf := (progOf eqb zero nsh hash).
  Notation reach := (reach eqb zero nsh hash).
  Variable allow : nat -> op -> Prop.

  (** ** The same executions *)
  Lemma callsReturns_app (a b : list (event K V)) : callsReturns (a ++ b) = callsReturns a ++ callsReturns b.
  Proof. induction a as [|[] a IH]; cbn; now rewrite ?IH. Qed.
  Lemma tau_silent t (p : prog) : events [(t, access p)] = [].
  Proof. now destruct p. Qed.

  Lemma detailed_reach tr c : detailed allow tr c -> exists ev, callsReturns ev = events tr /\ reach allow ev c.
  Proof.
    induction 1 as [|tr c t o D (ev & E & R) H A|tr c t o r D (ev & E & R) H|tr c t o p D (ev & E & R) H|tr c t o p p' sh' D (ev & E & R) H T].
    - exists []. split; [reflexivity|constructor].
    - exists (ev ++ [EInv t o]). rewrite callsReturns_app, events_app, E. split; [reflexivity|].
      eapply reach_step; [exact R|]. destruct c. now constructor.
    - exists (ev ++ [ERet t o r]). rewrite callsReturns_app, events_app, E. split; [reflexivity|].
      eapply reach_step; [exact R|]. destruct c. now constructor.
    - exists (ev ++ [ECall t o]). rewrite callsReturns_app, events_app, E. split; [reflexivity|].
      eapply reach_step; [exact R|]. destruct c. now constructor.
    - exists (ev ++ []). rewrite callsReturns_app, events_app, E, tau_silent. split; [reflexivity|].
      eapply reach_step; [exact R|]. destruct c. econstructor; eauto.
  Qed.
  Lemma reach_detailed ev c : reach allow ev c -> exists tr, events tr = callsReturns ev /\ detailed allow tr c.
  Proof.
    induction 1 as [|ev c e c' R (tr & E & D) S]; [exists []; split; [reflexivity|constructor]|].
    destruct S as [t o sh th H A|t o r sh th H|t o p sh th H|t o p p' sh sh' th H T].
    - exists (tr ++ [(t, ACall o)]). rewrite callsReturns_app, events_app, E. split; [reflexivity|].
      exact (d_inv _ _ _ _ _ _ _ _ _ D H A).
    - exists (tr ++ [(t, AReturn o r)]). rewrite callsReturns_app, events_app, E. split; [reflexivity|].
      exact (d_ret _ _ _ _ _ _ _ _ _ _ D H).
    - exists (tr ++ [(t, AElse)]). rewrite callsReturns_app, events_app, E. split; [reflexivity|].
      exact (d_callback _ _ _ _ _ _ _ _ _ _ D H).
    - exists (tr ++ [(t, access p)]). rewrite callsReturns_app, events_app, E, tau_silent. split; [reflexivity|].
      exact (d_tau _ _ _ _ _ _ _ _ _ _ _ _ D H T).
  Qed.

  (** ** Locking discipline *)
  Definition inOf (sh : shared K V) : inside :=
    {| wr := fun s => match writer (mu sh s) with Some (t, true) => Some t | _ => None end;
       rd := fun s => readers (mu sh s) |}.

  Variable noClear : forall t o, allow t o -> ~ isClear o.

  Lemma detailed_inv tr c : detailed allow tr c -> lockInv true c.
  Proof.
    intros D. destruct (detailed_reach _ _ D) as (ev & _ & R). eapply lockInv_reach; [|exact R]. right. exact noClear.
  Qed.

  Lemma tstep_acts t p sh p' sh' h : tstep t p sh p' sh' -> muOk sh -> owns sh t h -> bal true h p ->
    acts (Op := op) (R := res) t (access p) (inOf sh) (inOf sh').
  Proof.
    intros T M O B.
    destruct T as [s k sh W|s k sh W|s k sh W|s k sh W R|s k sh W|s k sh|s k l sh P|s f k sh]; cbn in B |- *.
    - rewrite W, fupd_same. cbn. split; [reflexivity|split; [reflexivity|split; [reflexivity|]]].
      intros s' N. rewrite fupd_other by congruence. auto.
    - destruct B as [-> B]. destruct (O s) as (O1 & O2 & O3). rewrite fupd_same. cbn.
      assert (E : match writer (mu sh s) with Some (t, true) => Some t | _ => None end = None).
      { destruct (writer (mu sh s)) as [[w []]|] eqn:E; [|reflexivity..]. exfalso.
        rewrite (proj2 (M s) w E) in W. destruct W. }
      rewrite E. split; [reflexivity|split; [reflexivity|]]. split; [|split].
      + intros u. rewrite in_removeOne by apply M. tauto.
      + intros u N Hin. apply in_removeOne; [apply M|]. auto.
      + intros s' N. rewrite fupd_other by congruence. auto.
    - intros s'. destruct (fupd_case (mu sh) s s' {| writer := Some (t, false); readers := readers (mu sh s) |}) as [[<- ->]|[_ ->]]; [|auto].
      cbn. rewrite W. auto.
    - rewrite W, R, fupd_same. cbn. split; [reflexivity|split; [reflexivity|split; [reflexivity|split; [reflexivity|]]]].
      intros s' N. rewrite fupd_other by congruence. auto.
    - rewrite W, fupd_same. cbn. split; [reflexivity|split; [reflexivity|split]]; [exact (proj2 (M s) _ W)|].
      intros s' N. rewrite fupd_other by congruence. auto.
    - split; [|auto]. destruct B as [[->| ->] _]; [right|left]; destruct (O s) as (O1 & O2 & O3); [now apply O3|].
      now rewrite (proj2 O2 eq_refl).
    - split; [|auto]. destruct B as [[->| ->] _]; [right|left]; destruct (O s) as (O1 & O2 & O3); [now apply O3|].
      now rewrite (proj2 O2 eq_refl).
    - split; [|auto]. destruct B as [[->|[? _]] _]; [|discriminate]. destruct (O s) as (O1 & O2 & O3). now rewrite (proj2 O2 eq_refl).
  Qed.

  Lemma detailed_disciplined tr c : detailed allow tr c -> disciplined tr (inOf (shm c)).
  Proof.
    induction 1 as [|tr c t o D IH H A|tr c t o r D IH H|tr c t o p D IH H|tr c t o p p' sh' D IH H T].
    - constructor. auto.
    - econstructor; [exact IH|]. cbn. auto.
    - econstructor; [exact IH|]. cbn. auto.
    - econstructor; [exact IH|]. cbn. auto.
    - econstructor; [exact IH|]. destruct (detailed_inv _ _ D) as [M I]. destruct (I t) as (h & O & B). rewrite H in B.
      eapply tstep_acts; eauto.
  Qed.

  (** ** Where the entries come from *)
  (** A program whose results tell only of entries that are [kn] or read on the way,
      and that writes only entries that were there or that [o] may put there. *)
  Fixpoint safe (o : op) (kn : K -> V -> Prop) (p : prog) : Prop :=
    match p with
    | Ret r => forall c, shows o r c -> exists k v, fits eqb c k v /\ kn k v
    | RLock _ q | RUnlock _ q | Lock _ q | LockWait _ q | Unlock _ q | Call q => safe o kn q
    | Read _ f | Range _ f => forall m, safe o (fun k v => kn k v \/ In (k, v) m) (f m)
    | Write _ f q => (forall m k v, In (k, v) (f m) -> In (k, v) m \/ puts o k v) /\ safe o kn q
    end.
  Lemma safe_mono o p : forall kn kn' : K -> V -> Prop, (forall k v, kn k v -> kn' k v) -> safe o kn p -> safe o kn' p.
  Proof.
    induction p as [r|s q IH|s q IH|s q IH|s q IH|s q IH|s f IH|s f IH|s f q IH|q IH]; intros kn kn' M H; cbn in H |- *; eauto.
    - intros c Hc. destruct (H c Hc) as (k & v & H1 & H2). eauto.
    - intros m. eapply IH; [|apply H]. cbn. intros k v [Hk|Hk]; auto.
    - intros m. eapply IH; [|apply H]. cbn. intros k v [Hk|Hk]; auto.
    - destruct H. eauto.
  Qed.

  Lemma in_gset (m : gomap K V) key w k v : In (k, v) (gset eqb m key w) -> In (k, v) m \/ (k = key /\ v = w).
  Proof.
    induction m as [|[k' v'] m IH]; cbn.
    - intros [[= -> ->]|[]]. auto.
    - destruct (eqb k' key); cbn; [intros [[= -> ->]|H]; auto|]. intros [H|H]; [auto|]. apply IH in H. tauto.
  Qed.
  Lemma in_gdel (m : gomap K V) key k v : In (k, v) (gdel eqb m key) -> In (k, v) m.
  Proof.
    induction m as [|[k' v'] m IH]; cbn; [auto|]. destruct (eqb k' key); cbn; [auto|]. intros [H|H]; auto.
  Qed.
  Lemma gget_in (m : gomap K V) key v : gget eqb m key = Some v -> exists k, eqb k key = true /\ In (k, v) m.
  Proof.
    induction m as [|[k' v'] m IH]; cbn; [discriminate|]. destruct (eqb k' key) eqn:E.
    - intros [= ->]. exists k'. auto.
    - intros H. destruct (IH H) as (k & H1 & H2). eauto.
  Qed.

  Lemma safe_tryGetK o key k (kn : K -> V -> Prop) :
    (forall v (kn' : K -> V -> Prop), (exists k0, eqb k0 key = true /\ kn' k0 v) -> safe o kn' (k v true)) ->
    (forall kn', safe o kn' (k zero false)) -> safe o kn (tryGetK eqb zero nsh hash key k).
  Proof.
    intros H1 H2. cbn. intros m. unfold get2. destruct (gget eqb m key) as [v|] eqn:E; cbn; [|apply H2].
    destruct (gget_in _ _ _ E) as (k0 & Hk & Hin). apply H1. eauto.
  Qed.

  Lemma safe_readOnly {A} o (Good : (K -> V -> Prop) -> A -> Prop) (step : A -> list (K * V) -> A) (fin : A -> res) :
    (forall (kn kn' : K -> V -> Prop) a, (forall k v, kn k v -> kn' k v) -> Good kn a -> Good kn' a) ->
    (forall (kn : K -> V -> Prop) a l, Good kn a -> (forall k v, In (k, v) l -> kn k v) -> Good kn (step a l)) ->
    (forall (kn : K -> V -> Prop) a, Good kn a -> safe o kn (Ret (fin a))) ->
    forall ss kn a, Good kn a -> safe o kn (readOnlyP ss step fin a).
  Proof.
    intros M S F ss. induction ss as [|s ss IH]; intros kn a G; [exact (F _ _ G)|].
    cbn. intros l. apply IH. apply S; [|auto]. eapply M; [|exact G]. auto.
  Qed.

  Lemma safe_iterLoop fn s next (l : list (K * V)) : forall (kn : K -> V -> Prop) seen,
    (forall (kn' : K -> V -> Prop) seen', (forall k v, In (k, v) seen' -> kn' k v) -> safe (OIterate fn) kn' (next seen')) ->
    (forall k v, In (k, v) l -> kn k v) -> (forall k v, In (k, v) seen -> kn k v) ->
    safe (OIterate fn) kn (iterLoop s fn l seen next).
  Proof.
    induction l as [|[k v] l IH]; intros kn seen Hn Hl Hs; cbn; [now apply Hn|].
    intros m. assert (Hs' : forall k' v', In (k', v') (seen ++ [(k, v)]) -> kn k' v').
    { intros k' v' Hi. apply in_app_iff in Hi. destruct Hi as [Hi|[[= -> ->]|[]]]; [auto|]. apply Hl. now left. }
    destruct (fn k v).
    - eapply safe_mono; [|apply (IH kn); [exact Hn| |exact Hs']].
      + auto.
      + intros k' v' Hi. apply Hl. now right.
    - cbn. intros c (k' & v' & Hi & ->). exists k', v'. split; [cbn; auto|left; auto].
  Qed.
  Lemma safe_iterate fn ss : forall (kn : K -> V -> Prop) seen, (forall k v, In (k, v) seen -> kn k v) ->
    safe (OIterate fn) kn (iterateP ss fn seen).
  Proof.
    induction ss as [|s ss IH]; intros kn seen H; cbn.
    - intros c (k & v & Hi & ->). exists k, v. cbn. auto.
    - intros l. apply safe_iterLoop; auto.
  Qed.

  Lemma safe_op o : safe o (fun _ _ => False) (progOf o).
  Proof.
    assert (RO : forall (kn : K -> V -> Prop) key v, (exists k0, eqb k0 key = true /\ kn k0 v) ->
      exists k w, fits eqb (ValueOf key v) k w /\ kn k w).
    { intros kn key v (k0 & H1 & H2). exists k0, v. cbn. auto. }
    assert (AP : forall (P : K -> V -> Prop) a b, (forall k v, In (k, v) a -> P k v) -> (forall k v, In (k, v) b -> P k v) ->
      forall k v, In (k, v) (a ++ b) -> P k v).
    { intros P a b Ha Hb k v Hi. apply in_app_iff in Hi. destruct Hi; auto. }
    destruct o as [key v|key v|key|key|key|key|key v|key factory| | | | | | | |fn| |fn]; cbn [Sharded_Model.progOf].
    - cbn. split; [intros m k w; apply in_gset|]. intros c [].
    - cbn. intros m. unfold has. destruct (gget eqb m key) as [v'|] eqn:E; cbn.
      + intros c ->. destruct (gget_in _ _ _ E) as (k0 & Hk & Hin). exists k0, v'. cbn. auto.
      + split; [intros m' k w; apply in_gset|]. intros c [].
    - apply safe_tryGetK; cbn; [|intros kn c []]. intros w kn H c ->. now apply RO.
    - apply safe_tryGetK; cbn; [|intros kn c []]. intros w kn H c ->. now apply RO.
    - cbn. intros m c. unfold has. destruct (gget eqb m key) as [v'|] eqn:E; [|intros []].
      intros ->. destruct (gget_in _ _ _ E) as (k0 & Hk & Hin). exists k0, v'. cbn. auto.
    - cbn. split; [intros m k w H; left; eapply in_gdel, H|]. intros c [].
    - apply safe_tryGetK; cbn; [intros w kn H c ->; now apply RO|]. intros kn m. unfold get2.
      destruct (gget eqb m key) as [v'|] eqn:E; cbn.
      + intros c ->. destruct (gget_in _ _ _ E) as (k0 & Hk & Hin). apply RO. eauto.
      + split; [intros m' k w; apply in_gset|]. intros c [].
    - apply safe_tryGetK; cbn; [intros w kn H c ->; now apply RO|]. intros kn m. unfold get2.
      destruct (gget eqb m key) as [v'|] eqn:E; cbn.
      + intros c ->. destruct (gget_in _ _ _ E) as (k0 & Hk & Hin). apply RO. eauto.
      + destruct factory as [w|]; cbn; [|intros c []]. split; [intros m' k x; apply in_gset|]. intros c [].
    - generalize 0%Z. generalize (fun (_ : K) (_ : V) => False). induction (allShards nsh) as [|s ss IH]; intros kn n; cbn.
      + intros c [].
      + intros m. apply IH.
    - generalize (fun (_ : K) (_ : V) => False). induction (allShards nsh) as [|s ss IH]; intros kn; cbn.
      + intros c [].
      + intros m. destruct (glen m >? 0)%Z; cbn; [intros c []|apply IH].
    - apply (safe_readOnly _ (fun kn l => forall k, In k l -> exists v, kn k v)).
      + intros kn kn' a M H k Hk. destruct (H k Hk). eauto.
      + intros kn a l H Hl k Hk. apply in_app_iff in Hk. destruct Hk as [Hk|Hk]; [auto|].
        apply in_map_iff in Hk. destruct Hk as ([k' v'] & <- & Hi). cbn. eauto.
      + intros kn a H c (k & Hk & ->). destruct (H k Hk) as [v Hv]. exists k, v. cbn. auto.
      + intros k [].
    - apply (safe_readOnly _ (fun kn l => forall v, In v l -> exists k, kn k v)).
      + intros kn kn' a M H k Hk. destruct (H k Hk). eauto.
      + intros kn a l H Hl v Hk. apply in_app_iff in Hk. destruct Hk as [Hk|Hk]; [auto|].
        apply in_map_iff in Hk. destruct Hk as ([k' v'] & <- & Hi). cbn. eauto.
      + intros kn a H c (v & Hv & ->). destruct (H v Hv) as [k Hk]. exists k, v. cbn. auto.
      + intros v [].
    - apply (safe_readOnly _ (fun kn l => forall k v, In (k, v) l -> kn k v)).
      + auto.
      + intros kn a l H Hl. now apply AP.
      + intros kn a H c (k & v & Hi & ->). exists k, v. cbn. auto.
      + intros k v [].
    - apply (safe_readOnly _ (fun kn l => forall k v, In (k, v) l -> kn k v)).
      + auto.
      + intros kn a l. revert a. induction l as [|[k' v'] l IH]; intros a H Hl; cbn [fold_left]; [exact H|]. apply IH.
        * intros k v Hi. cbn in Hi. apply in_gset in Hi. destruct Hi as [Hi|[-> ->]]; [auto|]. apply Hl. now left.
        * intros k v Hi. apply Hl. now right.
      + intros kn a H c (k & v & Hi & ->). exists k, v. cbn. auto.
      + intros k v [].
    - generalize (fun (_ : K) (_ : V) => False). induction (allShards nsh) as [|s ss IH]; intros kn; cbn.
      + intros c [].
      + split; [intros m k v []|apply IH].
    - apply safe_iterate. intros k v [].
    - apply (safe_readOnly _ (fun kn ls => forall l k v, In l ls -> In (k, v) l -> kn k v)).
      + intros kn kn' a M H l k v H1 H2. eauto.
      + intros kn a l H Hl l' k v H1 H2. apply in_app_iff in H1. destruct H1 as [H1|[<-|[]]]; eauto.
      + intros kn a H c (l & k & v & H1 & H2 & ->). exists k, v. cbn. eauto.
      + intros l k v [].
    - generalize (fun (_ : K) (_ : V) => False). induction (allShards nsh) as [|s ss IH]; intros kn; cbn.
      + intros c [].
      + split; [|apply IH]. intros m k v H. right. cbn. eauto.
  Qed.

  (** Goroutine [u] knows the entry: what put it there is seen. *)
  Definition seen (tr : doings) (u : nat) (k : K) (v : V) : Prop :=
    exists i t o, does tr i t (ACall o) /\ puts o k v /\ sees tr u i.
  Definition stored (tr : doings) (s : nat) (k : K) (v : V) : Prop :=
    exists i t o j, does tr i t (ACall o) /\ puts o k v /\ does tr j t (APlain true s) /\ i < j.
  Lemma seen_app tr e u k v : seen tr u k v -> seen (tr ++ [e]) u k v.
  Proof. intros (i & t & o & H1 & H2 & H3). exists i, t, o. auto using does_app, sees_app. Qed.
  Lemma stored_app tr e s k v : stored tr s k v -> stored (tr ++ [e]) s k v.
  Proof. intros (i & t & o & j & H1 & H2 & H3 & H4). exists i, t, o, j. auto using does_app. Qed.
  (** Reading the shard shows its entries. *)
  Lemma stored_seen tr u s b k v : ordered (tr ++ [(u, APlain b s)]) -> stored tr s k v -> seen (tr ++ [(u, APlain b s)]) u k v.
  Proof.
    intros O (i & t & o & j & H1 & H2 & H3 & H4). exists i, t, o. split; [now apply does_app|]. split; [exact H2|].
    exists (List.length tr), (APlain b s). split; [apply does_last|]. right.
    apply hb_trans with j; [eapply hb_program; eauto using does_app|]. apply O.
    - exists t, u, true, b, s. split; [now apply does_app|]. split; [apply does_last|now left].
    - eapply does_lt, H3.
  Qed.

  Record Inv (tr : doings) (c : config K V) : Prop := {
    s_items : forall s k v, In (k, v) (items (shm c) s) -> stored tr s k v;
    s_thread : forall t o p, thr c t = Running o p -> (exists i, does tr i t (ACall o)) /\ safe o (seen tr t) p;
    s_return : forall n t o r cl, does tr n t (AReturn o r) -> shows o r cl ->
      exists k v i u o', fits eqb cl k v /\ does tr i u (ACall o') /\ puts o' k v /\ hb tr i n }.

  Lemma inv_ok tr c : detailed allow tr c -> Inv tr c.
  Proof.
    assert (RK : forall (tr : doings) e, (forall t o r, e <> (t, AReturn o r)) ->
      (forall n t o r cl, does tr n t (AReturn o r) -> shows o r cl ->
        exists k v i u o', fits eqb cl k v /\ does tr i u (ACall o') /\ puts o' k v /\ hb tr i n) ->
      forall n t o r cl, does (tr ++ [e]) n t (AReturn o r) -> shows o r cl ->
        exists k v i u o', fits eqb cl k v /\ does (tr ++ [e]) i u (ACall o') /\ puts o' k v /\ hb (tr ++ [e]) i n).
    { intros tr' e He H n t o r cl D S. apply does_app_inv in D. destruct D as [D|[_ D]]; [|now apply He in D].
      destruct (H _ _ _ _ _ D S) as (k & v & i & u & o' & H0 & H1 & H2 & H3). exists k, v, i, u, o'. auto using does_app, hb_app. }
    assert (TK : forall (tr : doings) e t o p, (exists i, does tr i t (ACall o)) /\ safe o (seen tr t) p ->
      (exists i, does (tr ++ [e]) i t (ACall o)) /\ safe o (seen (tr ++ [e]) t) p).
    { intros tr' e t o p [[i D] S]. split; [eauto using does_app|]. eapply safe_mono; [|exact S]. intros k v. apply seen_app. }
    intros D. induction D as [|tr c t o D IH H A|tr c t o r D IH H|tr c t o p D IH H|tr c t o p p' sh' D IH H T].
    - split; cbn; [intros s k v []|discriminate|]. intros [|n] t o r cl Q; discriminate.
    - destruct IH as [I1 I2 I3]. split; cbn [shm thr].
      + intros s k v Hi. apply stored_app, I1, Hi.
      + intros u o' q E. destruct (fupd_case (thr c) t u (Running o (progOf o))) as [[<- E2]|[_ E2]]; rewrite E2 in E.
        * injection E as <- <-. split; [exists (List.length tr); apply does_last|]. eapply safe_mono; [|apply safe_op]. contradiction.
        * apply TK, I2, E.
      + apply RK; [discriminate|exact I3].
    - destruct IH as [I1 I2 I3]. split; cbn [shm thr].
      + intros s k v Hi. apply stored_app, I1, Hi.
      + intros u o' q E. destruct (fupd_case (thr c) t u Idle) as [[<- E2]|[_ E2]]; rewrite E2 in E; [discriminate|].
        apply TK, I2, E.
      + intros n u o' r' cl Dn S. apply does_app_inv in Dn. destruct Dn as [Dn|[-> Dn]].
        * destruct (I3 _ _ _ _ _ Dn S) as (k & v & i & w & o2 & H0 & H1 & H2 & H3). exists k, v, i, w, o2. auto using does_app, hb_app.
        * injection Dn as <- <- <-. destruct (I2 _ _ _ H) as [_ G]. destruct (G cl S) as (k & v & F & i & w & o2 & H1 & H2 & H3).
          exists k, v, i, w, o2. split; [exact F|]. split; [now apply does_app|]. split; [exact H2|]. now apply sees_hb.
    - destruct IH as [I1 I2 I3]. split; cbn [shm thr].
      + intros s k v Hi. apply stored_app, I1, Hi.
      + intros u o' q E. destruct (fupd_case (thr c) t u (Running o p)) as [[<- E2]|[_ E2]]; rewrite E2 in E.
        * injection E as <- <-. apply TK. exact (I2 _ _ _ H).
        * apply TK, I2, E.
      + apply RK; [discriminate|exact I3].
    - assert (D' := d_tau _ _ _ _ _ _ _ _ _ _ _ _ D H T). apply detailed_disciplined in D'. apply disciplined_inv in D'.
      destruct D' as (_ & _ & O). destruct IH as [I1 I2 I3]. destruct (I2 _ _ _ H) as [[ic Dc] S]. split; cbn [shm thr].
      + intros s k v Hi. destruct T; try (apply stored_app, I1, Hi). cbn [setItems items] in Hi.
        destruct (fupd_case (items sh) s0 s (f (items sh s0))) as [[-> E]|[_ E]]; rewrite E in Hi; [|apply stored_app, I1, Hi].
        destruct S as [S1 S2]. destruct (S1 _ _ _ Hi) as [Hi'|P]; [apply stored_app, I1, Hi'|].
        exists ic, t, o, (List.length tr). split; [now apply does_app|]. split; [exact P|]. split; [apply does_last|eapply does_lt, Dc].
      + intros u o' q E. destruct (fupd_case (thr c) t u (Running o p')) as [[<- E2]|[_ E2]]; rewrite E2 in E; [|apply TK, I2, E].
        injection E as <- <-. split; [eauto using does_app|].
        destruct T; cbn in S; try (eapply safe_mono; [|exact S]; intros; now apply seen_app).
        * eapply safe_mono; [|apply S]. cbn. intros k0 v [Hk|Hk]; [now apply seen_app|]. eapply stored_seen; [exact O|]. apply I1, Hk.
        * eapply safe_mono; [|apply S]. cbn. intros k0 v [Hk|Hk]; [now apply seen_app|]. eapply stored_seen; [exact O|]. apply I1.
          eapply Permutation_in; eauto.
        * eapply safe_mono; [|apply S]. intros; now apply seen_app.
      + apply RK; [|exact I3]. intros u o' r E. injection E as _ E. destruct p; discriminate.
  Qed.
End Proofs.
