(** Calls that return whatever the schedule. *)
From Verif Require Import Base Lin.
Local Open Scope list_scope.

Section Live.
  Context {Op R Sh Prog : Type}.
  Context (progOf : Op -> Prog) (result : Prog -> option R) (tstep : nat -> Prog -> Sh -> Prog -> Sh -> Prop).
  Local Notation config := (config Op Sh Prog).
  Local Notation step := (step progOf result tstep).
  Local Notation runs := (runs progOf result tstep).

  (** One step of a goroutine that is inside a call: no new calls. *)
  Definition goesOn (c c' : config) : Prop := exists ev, step c ev c' /\ forall t o, ~ In (EInv t o) ev.
  (** However the goroutines are scheduled, without new calls a state with [P] is
      reached after finitely many steps; until then some goroutine can go on. *)
  Inductive inevitably (P : config -> Prop) (c : config) : Prop :=
  | inev_now : P c -> inevitably P c
  | inev_later : (exists c', goesOn c c') -> (forall c', goesOn c c' -> inevitably P c') -> inevitably P c.
  Definition allOutside (c : config) : Prop := forall t, thread c t = Idle.

  (** [smaller k' k]: an instruction of [k] leaves [k']. *)
  Context (smaller : Prog -> Prog -> Prop).
  Hypothesis Hwf : well_founded smaller.
  Hypothesis Hsmaller : forall t k s k' s', tstep t k s k' s' -> smaller k' k.

  Inductive child : tstate Op Prog -> tstate Op Prog -> Prop :=
  | ch_run o k k' : smaller k' k -> child (Run o k') (Run o k)
  | ch_ret o k : child Idle (Run o k).
  Lemma child_wf ts : Acc child ts.
  Proof.
    assert (HI : Acc child Idle) by (constructor; intros y Hy; inversion Hy).
    destruct ts as [|o k]; [exact HI|]. induction (Hwf k) as [k _ IH]. constructor. intros y Hy. inversion Hy; subst; auto.
  Qed.
  Inductive oneChild : list (tstate Op Prog) -> list (tstate Op Prog) -> Prop :=
  | oc_here a a' l : child a' a -> oneChild (a' :: l) (a :: l)
  | oc_there a l l' : oneChild l' l -> oneChild (a :: l') (a :: l).
  Lemma oneChild_wf l : Acc oneChild l.
  Proof.
    induction l as [|a l IHl]; [constructor; intros y Hy; inversion Hy|].
    revert a. induction IHl as [l Hl IHl]. intros a. induction (child_wf a) as [a Ha IHa].
    constructor. intros y Hy. inversion Hy; subst; [now apply IHa|now apply IHl].
  Qed.

  Lemma map_put_other (th : nat -> tstate Op Prog) t a n i : ~ (i <= t < i + n)%nat ->
    map (put th t a) (seq i n) = map th (seq i n).
  Proof. intros H. apply map_ext_in. intros u Hu. apply in_seq in Hu. unfold put. destruct (Nat.eqb_spec t u); [lia|reflexivity]. Qed.
  Lemma map_put (th : nat -> tstate Op Prog) t a : child a (th t) -> forall n i, (i <= t < i + n)%nat ->
    oneChild (map (put th t a) (seq i n)) (map th (seq i n)).
  Proof.
    intros Hc. induction n as [|n IH]; intros i Hi; [lia|]. cbn [seq map].
    destruct (Nat.eq_dec t i) as [<-|Hne].
    - rewrite map_put_other by lia. unfold put at 1. rewrite Nat.eqb_refl. now constructor.
    - unfold put at 1. destruct (Nat.eqb_spec t i); [lia|]. constructor. apply IH. lia.
  Qed.

  Definition quietFrom (n : nat) (c : config) : Prop := forall t, (n <= t)%nat -> thread c t = Idle.
  Lemma goesOn_child n c c' : quietFrom n c -> goesOn c c' ->
    quietFrom n c' /\ oneChild (map (thread c') (seq 0 n)) (map (thread c) (seq 0 n)).
  Proof.
    intros Hq (ev & HS & HE). destruct HS as [c t o Hi|c t o k k' sh' Hr Hi|c t o k r Hr Hres].
    - exfalso. apply (HE t o). now left.
    - assert (Ht : (t < n)%nat) by (destruct (lt_dec t n) as [L|L]; [exact L|rewrite Hq in Hr by lia; discriminate]).
      split.
      + intros u Hu. cbn. unfold put. destruct (Nat.eqb_spec t u); [lia|]. now apply Hq.
      + cbn [thread]. apply map_put; [|lia]. rewrite Hr. constructor. eauto.
    - assert (Ht : (t < n)%nat) by (destruct (lt_dec t n) as [L|L]; [exact L|rewrite Hq in Hr by lia; discriminate]).
      split.
      + intros u Hu. cbn. unfold put. destruct (Nat.eqb_spec t u); [lia|]. now apply Hq.
      + cbn [thread]. apply map_put; [|lia]. rewrite Hr. constructor.
  Qed.
  Lemma runs_quiet sh tr c : runs sh tr c -> exists n, quietFrom n c.
  Proof.
    induction 1 as [|tr c ev c' HR (n & Hn) HS]; [exists 0%nat; intros t _; reflexivity|].
    destruct HS as [c t o Hi|c t o k k' sh' Hr Hi|c t o k r Hr Hres]; exists (Nat.max n (S t)); intros u Hu; cbn; unfold put;
      (destruct (Nat.eqb_spec t u); [lia|]; apply Hn; lia).
  Qed.

  Theorem all_return sh : (forall tr c t o k, runs sh tr c -> thread c t = Run o k -> exists c', goesOn c c') ->
    forall tr c, runs sh tr c -> inevitably allOutside c.
  Proof.
    intros Hprog tr c HR. destruct (runs_quiet sh tr c HR) as (n & Hn).
    remember (map (thread c) (seq 0 n)) as l eqn:El. revert tr c HR Hn El.
    induction (oneChild_wf l) as [l _ IH]. intros tr c HR Hn ->.
    assert (D : allOutside c \/ exists t o k, thread c t = Run o k).
    { clear - Hn. assert (HD : forall m, (forall t, (t < m)%nat -> thread c t = Idle) \/ exists t o k, thread c t = Run o k).
      { induction m as [|m [IHm|IHm]]; [left; lia| |now right].
        destruct (thread c m) as [|o k] eqn:E; [|right; eauto]. left. intros t Ht.
        destruct (Nat.eq_dec t m) as [->|]; [exact E|apply IHm; lia]. }
      destruct (HD n) as [H|H]; [|now right]. left. intros t. destruct (lt_dec t n); [now apply H|apply Hn; lia]. }
    destruct D as [D|(t & o & k & E)]; [now constructor|].
    apply inev_later; [eapply Hprog; eassumption|].
    intros c' HG. destruct (goesOn_child n c c' Hn HG) as [Hn' HO]. destruct HG as (ev & HS & _).
    exact (IH _ HO (tr ++ ev) c' (runs_snoc _ _ _ _ _ _ _ _ HR HS) Hn' eq_refl).
  Qed.
End Live.
