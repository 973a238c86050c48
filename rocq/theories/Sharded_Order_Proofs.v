(** Goroutines that lock shards themselves run like the programs of
    Sharded_Reent_Model. *)
From Coq Require Import Permutation.
From Verif Require Import Base GoMap Sharded_Model Sharded_Locks Sharded_Outer_Model Sharded_Outer_Spec Sharded_Order_Spec
  Sharded_Reent_Model Sharded_Reent_Spec Sharded_Reent_Locks Sharded_Reent_Proofs.

Section Order.
  Context {K V : Type} (eqb : K -> K -> bool) (zero : V) (nsh : nat) (Hnsh : (0 < nsh)%nat) (hash : K -> Z).
  Context (rank : nat -> nat).
  Notation prog := (prog K V).
  Notation op := (op K V).
  Notation state := (state K V).
  Notation shard := (GetShard nsh hash).
  Notation hasher := (fun key : K => Some (hash key)).
  Notation ustep := (ustep eqb zero nsh hash).
  Notation opC := (opC eqb zero nsh hasher (fun _ => true)).
  Notation progOf := (progOf eqb zero nsh hash).
  Notation balX := (balX (V := V) nsh hasher (inOrder rank)).
  Notation ordered := (ordered (V := V) nsh hash rank).

  Lemma shardOf_eq key : shardOf nsh hasher key = Some (shard key).
  Proof. unfold shardOf, GetShard. now destruct (Nat.eqb nsh 1). Qed.

  (** ** The compiled goroutine *)
  Fixpoint comp (c : client K V) : prog :=
    match c with
    | CEnd => Ret RUnit
    | CDo o k => Call (bindP (progOf o) (fun r => Call (comp (k r))))
    | CRLock key k => RLock (shard key) (comp k)
    | CRUnlock key k => RUnlock (shard key) (comp k)
    | CLock key k => Lock (shard key) (comp k)
    | CUnlock key k => Unlock (shard key) (comp k)
    end.
  Definition rest (u : ustate K V) : prog :=
    match u with
    | At c => comp c
    | In_ o p k => bindP p (fun r => Call (comp (k r)))
    | Waiting s c => LockWait s (comp c)
    end.
  Definition sim (u : uconfig K V) (c : state) : Prop := mem c = umem u /\ forall t, run c t = rest (uthr u t).

  Lemma tstep_bind t (p : prog) sh p' sh' k : tstep t p sh p' sh' -> tstep t (bindP p k) sh (bindP p' k) sh'.
  Proof. intros T. destruct T; cbn; try (constructor; assumption).
    apply (t_range t s (fun m => bindP (k0 m) k)). assumption.
  Qed.

  Lemma bind_tstep t (p : prog) sh q sh' k : tstep t (bindP p (fun r => Call (k r))) sh q sh' ->
    exists p', tstep t p sh p' sh'.
  Proof. destruct p; cbn; intros T; inversion T; subst; eexists.
    - now apply t_rlock.
    - now apply t_runlock.
    - now apply t_lock.
    - now apply t_lockwait.
    - now apply t_unlock.
    - apply t_read.
    - now apply (t_range t s k0 l).
    - apply t_write.
  Qed.

  Lemma sim_tau u c t p' q sh' : sim u c -> tstep t (run c t) (mem c) p' sh' -> p' = rest q ->
    exists c', step c c' /\ sim {| umem := sh'; uthr := fupd (uthr u) t q |} c'.
  Proof.
    intros [Em Er] T ->. destruct c as [sh r]. cbn in *. eexists. split; [eapply step_tau; exact T|].
    split; [reflexivity|]. intros t'. cbn. destruct (Nat.eq_dec t t') as [<-|Hn]; [now rewrite !fupd_same|].
    rewrite !fupd_other by congruence. apply Er.
  Qed.
  Lemma sim_call u c t p' q : sim u c -> run c t = Call p' -> p' = rest q ->
    exists c', step c c' /\ sim {| umem := umem u; uthr := fupd (uthr u) t q |} c'.
  Proof.
    intros [Em Er] T ->. destruct c as [sh r]. cbn in *. eexists. split; [eapply step_call; exact T|].
    split; [assumption|]. intros t'. cbn. destruct (Nat.eq_dec t t') as [<-|Hn]; [now rewrite !fupd_same|].
    rewrite !fupd_other by congruence. apply Er.
  Qed.

  Lemma forward u ev u' c : ustep u ev u' -> sim u c -> exists c', step c c' /\ sim u' c'.
  Proof.
    intros S M. pose proof M as [Em Er].
    destruct S as [t o k sh th E|t o r k sh th E|t o p k sh th E|t o p p' k sh sh' th E T|t key k sh sh' th E T|t key k sh sh' th E T
                  |t key k sh sh' th E T|t s k sh sh' th E T|t key k sh sh' th E T]; cbn in *; specialize (Er t); rewrite E in Er; cbn in Er.
    - now apply (sim_call _ _ t _ (In_ o (progOf o) k) M Er).
    - now apply (sim_call _ _ t _ (At (k r)) M Er).
    - now apply (sim_call _ _ t _ (In_ o p k) M Er).
    - eapply (sim_tau _ _ t _ (In_ o p' k) sh' M); [|reflexivity]. rewrite Er, Em. cbn. now apply tstep_bind.
    - eapply (sim_tau _ _ t _ (At k) sh' M); [|reflexivity]. rewrite Er, Em. cbn. inversion T; subst. now constructor.
    - eapply (sim_tau _ _ t _ (At k) sh' M); [|reflexivity]. rewrite Er, Em. cbn. inversion T; subst. now constructor.
    - eapply (sim_tau _ _ t _ (Waiting (shard key) k) sh' M); [|reflexivity]. rewrite Er, Em. cbn. inversion T; subst. now constructor.
    - eapply (sim_tau _ _ t _ (At k) sh' M); [|reflexivity]. rewrite Er, Em. cbn. inversion T; subst. now constructor.
    - eapply (sim_tau _ _ t _ (At k) sh' M); [|reflexivity]. rewrite Er, Em. cbn. inversion T; subst. now constructor.
  Qed.

  Lemma backward u c c' : step c c' -> sim u c -> exists ev u', ustep u ev u'.
  Proof.
    intros S [Em Er]. destruct u as [sh th]. cbn in *.
    destruct S as [t sh0 sh' r p' T|t sh0 r p' E]; cbn in *; subst sh0; specialize (Er t).
    - rewrite Er in T. destruct (th t) as [cl|o p k|s cl] eqn:E; cbn in T.
      + destruct cl; cbn in T; inversion T; subst; do 2 eexists.
        * eapply u_rlock; [exact E|]. now constructor.
        * eapply u_runlock; [exact E|]. now constructor.
        * eapply u_lock; [exact E|]. now constructor.
        * eapply u_unlock; [exact E|]. now constructor.
      + destruct (bind_tstep _ _ _ _ _ _ T) as [q Tq]. do 2 eexists. eapply u_tau; eassumption.
      + inversion T; subst. do 2 eexists. eapply u_lockwait; [exact E|]. now constructor.
    - rewrite E in Er. destruct (th t) as [cl|o p k|s cl] eqn:Et; cbn in Er.
      + destruct cl; try discriminate. do 2 eexists. eapply u_inv. exact Et.
      + destruct p; try discriminate; do 2 eexists; [eapply u_ret|eapply u_call]; exact Et.
      + discriminate.
  Qed.

  Lemma sim_always (P : state -> Prop) (Q : uconfig K V -> Prop) : (forall u c, sim u c -> P c -> Q u) ->
    forall c, inevitably P c -> forall u, sim u c -> alwaysGetsTo eqb zero nsh hash Q u.
  Proof.
    intros H c I. induction I as [c Pc|c [c1 S] _ IH]; intros u M; [apply agt_now; eauto|].
    apply agt_next; [now apply (backward u c c1)|]. intros ev u' Su. destruct (forward _ _ _ _ Su M) as (c' & Sc & M'). eauto.
  Qed.

  (** ** It keeps to the order *)
  Lemma same_opk o k : same (opC o k) (bindP (progOf o) k).
  Proof.
    pose proof (fun p => same_refl (K := K) (V := V) p) as R.
    destruct o; cbn [Sharded_Reent_Model.opC Sharded_Model.progOf];
      unfold setC, trySetC, getC, tryGetC, hasC, deleteC, getOrSetFactoryC, getOrSetDefaultC, tryGetC, withShard, index,
        setP, trySetP, getP, tryGetP, hasP, deleteP, getOrSetFactoryP, getOrSetDefaultP, tryGetK;
      rewrite ?shardOf_eq; cbn; try apply R; repeat split; auto; intros m;
      try (destruct (has eqb m key); cbn; now auto);
      try (destruct (get2 eqb zero m key) as [a []]; cbn; repeat split; auto;
           rewrite ?shardOf_eq; cbn; repeat split; auto; intros m'; destruct (get2 eqb zero m' key) as [b []]; cbn; auto;
           try (destruct factory; cbn; now auto)).
  Qed.

  Lemma bal_same p : forall p' h, same p p' -> balX h p -> balX h p'.
  Proof.
    induction p; intros p' h S B; destruct p'; cbn in S, B |- *; try contradiction.
    - assumption.
    - destruct S as [<- S]. destruct B as (B1 & B2 & B3). repeat split; eauto.
    - destruct S as [<- S]. destruct B as (h1 & h2 & E & B). exists h1, h2. eauto.
    - destruct S as [<- S]. destruct B as (B1 & B2 & B3). repeat split; eauto.
    - destruct S as [<- S]. destruct B as (h1 & h2 & E & B). exists h1, h2. eauto.
    - destruct S as [<- S]. eauto.
    - destruct S as [<- S]. eauto.
    - destruct S as (<- & Ef & S). destruct B as [Bf B]. split; [|eauto]. intros m P. rewrite <- Ef. auto.
    - eauto.
  Qed.

  Lemma after_in h s ex : after rank h s -> inOrder rank h s ex.
  Proof. intros A s' ex'. apply A. Qed.

  Lemma ordered_bal c : forall h, ordered h c -> balX h (comp c).
  Proof.
    induction c as [|o k IH|key k IH|key k IH|key k IH|key k IH]; intros h; cbn.
    - auto.
    - intros (A & Kp & O). apply (bal_same (opC o (fun r => Call (comp (k r))))); [apply same_opk|].
      apply bal_op; [assumption| |cbn; auto]. unfold okOp. destruct o; cbn in A |- *; unfold okKey; rewrite ?shardOf_eq;
        try solve [repeat split; auto using after_in]; try solve [subst h; intros s Hs ? ? []].
      subst h. intros s Hs. split; [intros ? ? []|]. intros m P k' v' Hi. rewrite shardOf_eq. f_equal.
      cbn in Kp. eapply Kp; [exact Hs| |exact Hi]. intros a b Hab. specialize (P a b Hab). rewrite shardOf_eq in P. congruence.
    - intros [A O]. split; [eapply shardOf_lt, shardOf_eq; assumption|]. split; [now apply after_in|auto].
    - intros (h1 & h2 & E & O). exists h1, h2. auto.
    - intros [A O]. split; [eapply shardOf_lt, shardOf_eq; assumption|]. split; [now apply after_in|auto].
    - intros (h1 & h2 & E & O). exists h1, h2. auto.
  Qed.

  Lemma ordered_ends n clients : (forall t, (n <= t)%nat -> clients t = CEnd) -> (forall t, ordered [] (clients t)) ->
    alwaysGetsTo eqb zero nsh hash ended (ustart clients).
  Proof.
    intros Hn OK.
    set (c := {| mem := {| items := fun _ => []; mu := fun _ => {| writer := None; readers := [] |} |};
                 run := fun t => comp (clients t) |} : state).
    apply (sim_always allReturned ended) with (c := c).
    - intros u c' [Em Er] [R F]. split.
      + intros t. destruct (R t) as [r E]. unfold returned in E. rewrite Er in E.
        destruct (uthr u t) as [cl|o p k|s cl]; cbn in E; [destruct cl; cbn in E; try discriminate; reflexivity| |discriminate].
        destruct p; discriminate.
      + intros s. rewrite <- Em. destruct (F s) as [W Rd]. destruct (mu (mem c') s); cbn in *; congruence.
    - apply (ordered_goes nsh Hnsh hasher rank n).
      + split; [|split].
        * intros s t. cbn. discriminate.
        * intros s k v [].
        * intros t. exists [], None. split.
          -- intros s. cbn. repeat split; try discriminate; tauto.
          -- apply balS_of; [constructor|]. apply ordered_bal, OK.
      + intros t Ht. cbn. rewrite Hn by assumption. cbn. eauto.
    - split; [reflexivity|]. intros t. reflexivity.
  Qed.
End Order.
