(** Progress of disciplined goroutines, and goroutines that wait for ever. *)
From Coq Require Import Permutation.
From Verif Require Import Base GoMap Sharded_Model Sharded_Locks Sharded_Reent_Model Sharded_Reent_Spec
  Sharded_Reent_Locks Sharded_Exec.

(** ** Every execution is finite *)
Section Finite.
  Context {K V : Type}.
  Notation prog := (prog K V).
  Notation state := (state K V).

  Inductive child : prog -> prog -> Prop :=
  | ch_rlock s k : child k (RLock s k)
  | ch_runlock s k : child k (RUnlock s k)
  | ch_lock s k : child (LockWait s k) (Lock s k)
  | ch_lockwait s k : child k (LockWait s k)
  | ch_unlock s k : child k (Unlock s k)
  | ch_read s k m : child (k m) (Read s k)
  | ch_range s k l : child (k l) (Range s k)
  | ch_write s f k : child k (Write s f k)
  | ch_call k : child k (Call k).

  Lemma child_acc p : Acc child p.
  Proof.
    induction p; constructor; intros q Hq; inversion Hq; subst; auto.
    constructor. intros q Hq'. inversion Hq'; subst. assumption.
  Qed.

  (** One of the goroutines below [n] moves. *)
  Definition moves (n : nat) (r' r : nat -> prog) : Prop :=
    exists t, (t < n)%nat /\ child (r' t) (r t) /\ forall t', t' <> t -> r' t' = r t'.

  Lemma moves_acc n : forall r, Acc (moves n) r.
  Proof.
    induction n as [|n IHn].
    - intros r. constructor. intros r' (t & Ht & _). lia.
    - assert (G : forall p, Acc child p -> forall r, Acc (moves n) r -> r n = p -> Acc (moves (S n)) r).
      { intros p Hp. induction Hp as [p _ IHp]. intros r Hr. induction Hr as [r _ IHr]. intros E.
        constructor. intros r' (t & Ht & Hc & Ho). destruct (Nat.eq_dec t n) as [->|Hn].
        - rewrite E in Hc. apply (IHp (r' n) Hc r' (IHn r') eq_refl).
        - apply IHr; [exists t; repeat split; auto; lia|]. rewrite Ho; auto. }
      intros r. apply (G (r n) (child_acc _) r (IHn r) eq_refl).
  Qed.

  Lemma step_moves n (c c' : state) : (forall t, (n <= t)%nat -> exists r, run c t = Ret r) -> step c c' ->
    moves n (run c') (run c) /\ forall t, (n <= t)%nat -> exists r, run c' t = Ret r.
  Proof.
    intros Hn S. destruct S as [t sh sh' r p' T|t sh r p' E]; cbn in *.
    - assert (Ht : (t < n)%nat).
      { destruct (Nat.lt_ge_cases t n) as [|Hge]; [assumption|]. destruct (Hn t Hge) as [x Ex].
        rewrite Ex in T. inversion T. }
      split.
      + exists t. split; [assumption|]. rewrite fupd_same. split.
        * destruct (r t) eqn:E; inversion T; subst; constructor.
        * intros t' H. apply fupd_other. congruence.
      + intros t' H. rewrite fupd_other by lia. now apply Hn.
    - assert (Ht : (t < n)%nat).
      { destruct (Nat.lt_ge_cases t n) as [|Hge]; [assumption|]. destruct (Hn t Hge) as [x Ex]. congruence. }
      split.
      + exists t. split; [assumption|]. rewrite fupd_same. split; [rewrite E; constructor|].
        intros t' H. apply fupd_other. congruence.
      + intros t' H. rewrite fupd_other by lia. now apply Hn.
  Qed.

  (** If an invariant rules out stopping before [P], [P] is inevitable. *)
  Lemma inevitable (I P : state -> Prop) n c : (forall c c', I c -> step c c' -> I c') ->
    (forall c, I c -> P c \/ exists c', step c c') ->
    (forall t, (n <= t)%nat -> exists r, run c t = Ret r) -> I c -> inevitably P c.
  Proof.
    intros HI HP. remember (run c) as r eqn:Er. revert c Er.
    induction (moves_acc n r) as [r _ IH]. intros c -> Hn Ic.
    destruct (HP c Ic) as [Pc|Ex]; [now apply inev_now|]. apply inev_next; [assumption|].
    intros c' S. destruct (step_moves n c c' Hn S) as [M Hn'].
    apply (IH (run c') M c' eq_refl Hn'). eapply HI; eassumption.
  Qed.
End Finite.

(** ** Disciplined goroutines finish *)
Section Progress.
  Context {K V : Type} (eqb : K -> K -> bool) (zero : V) (nsh : nat) (Hnsh : (0 < nsh)%nat).
  Context (hasher : K -> option Z) (hashable : K -> bool).
  Notation state := (state K V).
  Notation start := (start eqb zero nsh hasher hashable).

  (** All goroutines have returned and all locks are free. *)
  Definition allReturned (c : state) : Prop :=
    (forall t, exists r, returned c t r) /\
    forall s, writer (mu (mem c) s) = None /\ readers (mu (mem c) s) = [].

  Lemma free adm (c : state) : invX nsh hasher adm c -> (forall t, exists r, run c t = Ret r) -> allReturned c.
  Proof.
    intros (M & P & I) R. split; [exact R|]. intros s.
    assert (O : forall t, ownsX (mem c) t [] None).
    { intros t. destruct (I t) as (h & w & O & N & B). destruct (R t) as [r E]. rewrite E in B.
      destruct B as [-> B]. cbn in B. now subst. }
    split.
    - destruct (writer (mu (mem c) s)) as [[t []]|] eqn:W; [| |reflexivity]; destruct (O t s) as (O1 & O2 & _).
      + apply O1 in W. contradiction.
      + apply O2 in W. discriminate.
    - destruct (readers (mu (mem c) s)) as [|t l] eqn:R'; [reflexivity|]. destruct (O t s) as (_ & _ & O3).
      rewrite R' in O3. cbn in O3. rewrite Nat.eqb_refl in O3. discriminate.
  Qed.

  Lemma maxRank (rank : nat -> nat) n : exists b, forall s, (s < n)%nat -> (rank s <= b)%nat.
  Proof.
    induction n as [|n [b Hb]]; [exists 0%nat; lia|]. exists (max b (rank n)). intros s Hs.
    destruct (Nat.eq_dec s n) as [->|]; [lia|]. specialize (Hb s). lia.
  Qed.

  (** What a goroutine asks for is admitted. *)
  Lemma asked adm (c : state) t h w s ex : ownsX (mem c) t h w -> balS (V := V) nsh hasher adm h w (run c t) ->
    asks (run c t) = Some (s, ex) -> (s < nsh)%nat /\ adm h s ex.
  Proof.
    intros O [N B] A. destruct (run c t); try discriminate; injection A as -> <-; cbn in B; tauto.
  Qed.

  Lemma order_notHeld rank h s ex : inOrder rank h s ex -> notHeld h s ex.
  Proof. intros H ex' Hi. apply H in Hi. lia. Qed.

  Lemma ordered_wait rank b (c : state) : (forall s, (s < nsh)%nat -> (rank s <= b)%nat) -> invX nsh hasher (inOrder rank) c ->
    forall n t s ex, (b - rank s <= n)%nat -> asks (run c t) = Some (s, ex) -> exists c', step c c'.
  Proof.
    intros Hb I. induction n as [|n IH]; intros t s ex Hn A.
    all: destruct (kept_out nsh hasher (inOrder rank) c t s ex I A) as [?|(t' & h & w & ex' & O & B & Hi & _)]; [assumption|].
    all: destruct (runs_or_asks nsh hasher (inOrder rank) c t' I) as [[r E]|[?|(s' & ex1 & A')]]; [|assumption|].
    all: try (destruct B as [_ B]; rewrite E in B; destruct B as [_ B]; cbn in B; subst h; contradiction).
    all: destruct (asked _ _ _ _ _ _ _ O B A') as [L Ad]; pose proof (Ad _ _ Hi); pose proof (Hb s' L).
    - lia.
    - apply (IH t' s' ex1); [lia|assumption].
  Qed.

  Lemma ordered_goes rank n (c : state) : invX nsh hasher (inOrder rank) c ->
    (forall t, (n <= t)%nat -> exists r, run c t = Ret r) -> inevitably allReturned c.
  Proof.
    intros I0 Hn. destruct (maxRank rank nsh) as [b Hb].
    apply (inevitable (fun c => invX nsh hasher (inOrder rank) c /\ forall t, (n <= t)%nat -> exists r, run c t = Ret r) _ n).
    - intros c1 c' [I Q] S. split; [|now apply (step_moves n c1 c')]. eapply invX_step; [|exact S|exact I].
      intros h s ex. apply order_notHeld.
    - clear c I0 Hn. intros c [I Q].
      assert (D : forall m, (forall t, (t < m)%nat -> exists r, run c t = Ret r) \/ exists c', step c c').
      { induction m as [|m [IH|IH]]; [left; lia| |auto].
        destruct (runs_or_asks nsh hasher (inOrder rank) c m I) as [[r E]|[?|(s' & ex1 & A')]]; [|auto|].
        - left. intros t Ht. destruct (Nat.eq_dec t m) as [->|]; [eauto|]. apply IH. lia.
        - right. eapply (ordered_wait rank b c Hb I _ m s' ex1 (Nat.le_refl _) A'). }
      destruct (D n) as [D1|D1]; [left|auto]. eapply free; [exact I|].
      intros t. destruct (Nat.lt_ge_cases t n); auto.
    - assumption.
    - auto.
  Qed.

  Lemma ordered_inevitable rank n codes :
    (forall t, (n <= t)%nat -> exists r, codes t = Done r) ->
    (forall t, okCode nsh hasher hashable (inOrder rank) [] (codes t)) ->
    inevitably allReturned (start codes).
  Proof.
    intros Hn OK. apply (ordered_goes rank n); [now apply invX_start|].
    intros t Ht. cbn. destruct (Hn t Ht) as [r ->]. cbn. unfold finish. eauto.
  Qed.

  (** One goroutine alone. *)
  Lemma alone_inevitable code : okCode nsh hasher hashable notHeld [] code ->
    inevitably allReturned (start (fun t => match t with O => code | _ => Done None end)).
  Proof.
    intros OK.
    apply (inevitable (fun c => invX nsh hasher notHeld c /\ forall t, (1 <= t)%nat -> exists r, run c t = Ret r) _ 1%nat).
    - intros c c' [I Q] S. split; [|now apply (step_moves 1 c c')]. eapply invX_step; [|exact S|exact I]. auto.
    - intros c [I Q].
      destruct (runs_or_asks nsh hasher notHeld c 0%nat I) as [[r E]|[?|(s & ex & A)]]; [|auto|].
      { left. eapply free; [exact I|]. intros [|t]; [eauto|]. apply Q. lia. }
      destruct (kept_out nsh hasher notHeld c 0%nat s ex I A) as [?|(t' & h & w & ex' & O & B & Hi & Hx)]; [auto|].
      destruct t' as [|t'].
      + destruct (asked _ _ _ _ _ _ _ O B A) as [L Ad]. destruct (Ad _ Hi) as [-> ->].
        destruct Hx as [Hx|[Hx|(x & k & Hx & E)]]; try discriminate.
        destruct (Q x) as [r Er]; [lia|]. congruence.
      + destruct (Q (S t')) as [r E]; [lia|]. destruct B as [_ B]. rewrite E in B. destruct B as [_ B].
        cbn in B. subst h. contradiction.
    - intros [|t] Ht; [lia|]. cbn. unfold finish. eauto.
    - split.
      + apply invX_start; [assumption|]. intros [|t]; cbn; auto.
      + intros [|t] Ht; [lia|]. cbn. unfold finish. eauto.
  Qed.
End Progress.

(** ** Waiting for ever *)
Section Stuck.
  Context {K V : Type} (eqb : K -> K -> bool) (zero : V) (nsh : nat) (hasher : K -> option Z) (hashable : K -> bool).
  Notation prog := (prog K V).
  Notation res := (res K V).
  Notation state := (state K V).
  Notation op := (op K V).

  (** [p] cannot give [s] back, nor return if [fin] is False, without locking [s]
      first, exclusively if [ex]. *)
  Fixpoint must (fin : Prop) (ex : bool) (s : nat) (p : prog) : Prop :=
    match p with
    | Ret _ => fin
    | RLock s' k => (s' = s /\ ex = false) \/ (s' <> s /\ must fin ex s k)
    | RUnlock s' k => s' <> s /\ must fin ex s k
    | Lock s' k => s' = s \/ must fin ex s k
    | LockWait s' k => s' <> s /\ must fin ex s k
    | Unlock s' k => s' <> s /\ must fin ex s k
    | Read _ k => forall m, must fin ex s (k m)
    | Range _ k => forall l, must fin ex s (k l)
    | Write _ _ k => must fin ex s k
    | Call k => must fin ex s k
    end.

  Lemma in_removeOne_other t x l : x <> t -> In x l -> In x (removeOne t l).
  Proof.
    intros Hn. induction l as [|y l IH]; cbn; [tauto|]. destruct (Nat.eqb_spec y t) as [->|H].
    - intros [->|]; [congruence|assumption].
    - intros [->|]; cbn; auto.
  Qed.

  (** [s] is locked for good by [t]. *)
  Definition sealed (t s : nat) (c : state) : Prop :=
    writer (mu (mem c) s) = Some (t, true) /\ must True false s (run c t).

  Lemma must_step fin ex s t (sh : shared K V) p p' sh' : writer (mu sh s) <> None -> writer (mu sh s) <> Some (t, false) ->
    must fin ex s p -> tstep t p sh p' sh' -> must fin ex s p'.
  Proof.
    intros W W' M T. inversion T; subst; cbn in M; auto.
    - destruct M as [[-> _]|[_ M]]; [congruence|assumption].
    - tauto.
    - cbn. destruct M as [->|M]; [congruence|]. split; [intros ->; congruence|assumption].
    - tauto.
    - tauto.
  Qed.

  Lemma sealed_step t s c c' : step c c' -> sealed t s c -> sealed t s c'.
  Proof.
    intros S [W M]. destruct S as [t' sh sh' r p' T|t' sh r p' E]; cbn in *.
    - assert (W' : writer (mu sh' s) = Some (t, true)).
      { destruct (r t') eqn:Er; inversion T; subst; cbn; try assumption;
          (match goal with |- context [fupd (mu sh) ?s0 ?v s] =>
             destruct (fupd_case (mu sh) s0 s v) as [[-> ->]|[_ ->]]; [|assumption] end); cbn; try congruence.
        assert (t' = t) by congruence. subst t'. rewrite Er in M. cbn in M. tauto. }
      split; [exact W'|]. cbn. destruct (fupd_case r t' t p') as [[-> ->]|[_ ->]]; [|assumption].
      eapply must_step; [| |exact M|exact T]; congruence.
    - split; [assumption|]. cbn. destruct (fupd_case r t' t p') as [[-> ->]|[_ ->]]; [|assumption].
      rewrite E in M. exact M.
  Qed.

  Lemma sealed_must t s t' c c' : step c c' -> sealed t s c -> must False false s (run c t') ->
    must False false s (run c' t').
  Proof.
    intros S [W _] M. destruct S as [t1 sh sh' r p' T|t1 sh r p' E]; cbn in *.
    - destruct (fupd_case r t1 t' p') as [[-> ->]|[_ ->]]; [|assumption].
      eapply must_step; [| |exact M|exact T]; congruence.
    - destruct (fupd_case r t1 t' p') as [[-> ->]|[_ ->]]; [|assumption]. rewrite E in M. exact M.
  Qed.

  Lemma must_not_ret ex s (p : prog) r : must False ex s p -> p <> Ret r.
  Proof. intros M ->. exact M. Qed.

  Lemma sealed_never t s t' c c' : sealed t s c -> must False false s (run c t') -> steps c c' ->
    forall r, ~ returned c' t' r.
  Proof.
    intros S M St. assert (G : sealed t s c' /\ must False false s (run c' t')).
    { induction St as [c|c c1 c2 _ IH S1]; [auto|]. destruct (IH S M) as [S' M'].
      split; [eapply sealed_step; eassumption|eapply sealed_must; eassumption]. }
    intros r. apply must_not_ret with (ex := false) (s := s). apply G.
  Qed.

  (** A goroutine [t] in [s] as a reader for good: it has returned, or must lock
      [s] exclusively. *)
  Definition waitsFor (s : nat) (p : prog) : Prop := must False true s p \/ exists k, p = LockWait s k.
  Definition stays (t s : nat) (c : state) : Prop :=
    In t (readers (mu (mem c) s)) /\ ((exists r, run c t = Ret r) \/ waitsFor s (run c t)).

  Lemma waits_step s t (sh : shared K V) p p' sh' : readers (mu sh s) <> [] ->
    waitsFor s p -> tstep t p sh p' sh' -> waitsFor s p'.
  Proof.
    intros R [M|[k ->]] T; [|inversion T; subst; congruence].
    inversion T; subst; cbn in M; try (left; cbn; now auto).
    - destruct M as [[_ M]|[_ M]]; [discriminate|]. now left.
    - destruct (Nat.eq_dec s0 s) as [->|Hn]; [right; eauto|]. left. cbn. tauto.
  Qed.

  Lemma stays_step t s c c' : step c c' -> stays t s c -> stays t s c'.
  Proof.
    intros S [R M]. assert (Rn : readers (mu (mem c) s) <> []) by (intros E; rewrite E in R; contradiction).
    destruct S as [t' sh sh' r p' T|t' sh r p' E]; cbn in *.
    - split.
      + cbn. destruct (r t') eqn:Er; inversion T; subst; cbn; try assumption;
          (match goal with |- context [fupd (mu sh) ?s0 ?v s] =>
             destruct (fupd_case (mu sh) s0 s v) as [[-> ->]|[_ ->]]; [|assumption] end); cbn; auto; try congruence.
        destruct (Nat.eq_dec t t') as [->|Hn]; [|now apply in_removeOne_other].
        exfalso. rewrite Er in M. destruct M as [[? ?]|[M|[? ?]]]; try discriminate. cbn in M. tauto.
      + cbn. destruct (fupd_case r t' t p') as [[-> ->]|[_ ->]]; [|assumption]. right.
        destruct M as [[x E]|M]; [rewrite E in T; inversion T|]. eapply waits_step; eassumption.
    - split; [assumption|]. cbn. destruct (fupd_case r t' t p') as [[-> ->]|[_ ->]]; [|assumption].
      rewrite E in M. destruct M as [[? ?]|[M|[? ?]]]; try discriminate. right. left. exact M.
  Qed.

  Lemma stays_never t s t' c c' : stays t s c -> waitsFor s (run c t') -> steps c c' ->
    forall r, ~ returned c' t' r.
  Proof.
    intros S M St. assert (G : stays t s c' /\ waitsFor s (run c' t')).
    { induction St as [c|c c1 c2 _ IH S1]; [auto|]. destruct (IH S M) as [S' M'].
      split; [eapply stays_step; eassumption|]. destruct S' as [R _].
      assert (Rn : readers (mu (mem c1) s) <> []) by (intros E; rewrite E in R; contradiction).
      destruct S1 as [t1 sh sh' r p' T|t1 sh r p' E]; cbn in *;
        (destruct (fupd_case r t1 t' p') as [[-> ->]|[_ ->]]; [|assumption]).
      - eapply waits_step; eassumption.
      - rewrite E in M'. destruct M' as [M'|[? ?]]; [left; exact M'|discriminate]. }
    intros r Hr. unfold returned in Hr. destruct G as [_ [G|[k G]]]; rewrite Hr in G; [exact G|discriminate].
  Qed.

  Lemma must_readOnly {A} fin s ss (stp : A -> list (K * V) -> A) f acc k : In s ss ->
    must fin false s (bindP (readOnlyP ss stp f acc) k).
  Proof.
    revert acc. induction ss as [|x ss IH]; intros acc Hi; [contradiction|].
    cbn. destruct (Nat.eq_dec x s) as [->|Hn]; [auto|]. right. destruct Hi as [|Hi]; [contradiction|]. auto.
  Qed.

  (** Calls that touch [s] must lock it. *)
  Lemma must_op fin s o k : touches nsh hasher o s ->
    must fin false s (opC eqb zero nsh hasher hashable o k).
  Proof.
    intros T. unfold touches in T. destruct o; cbn in T |- *;
      try (unfold setC, trySetC, getC, tryGetC, hasC, deleteC, getOrSetFactoryC, getOrSetDefaultC, tryGetC, withShard;
           rewrite T; cbn; now auto).
    all: destruct T as [L T].
    all: assert (Hi : In s (allShards nsh)) by (apply in_seq; lia).
    - clear T. revert Hi. generalize (allShards nsh) 0. intros ss. induction ss as [|x ss IH]; intros n Hi; [contradiction|].
      cbn. destruct (Nat.eq_dec x s) as [->|Hn]; [auto|]. right. destruct Hi as [|Hi]; [contradiction|]. auto.
    - subst s. unfold allShards. destruct nsh; [lia|]. cbn. auto.
    - now apply must_readOnly.
    - now apply must_readOnly.
    - now apply must_readOnly.
    - now apply must_readOnly.
    - clear T. revert Hi. generalize (allShards nsh). intros ss. induction ss as [|x ss IH]; intros Hi; [contradiction|].
      cbn. destruct (Nat.eq_dec x s) as [->|Hn]; [auto|]. right. destruct Hi as [|Hi]; [contradiction|]. auto.
    - destruct T as [->|T].
      + unfold allShards. destruct nsh; [lia|]. cbn. auto.
      + revert Hi. generalize (allShards nsh) (@nil (K * V)). intros ss. induction ss as [|x ss IH]; intros seen Hi; [contradiction|].
        cbn. destruct (Nat.eq_dec x s) as [->|Hn]; [auto|]. right. split; [assumption|].
        destruct Hi as [|Hi]; [contradiction|]. intros l. revert seen.
        induction l as [|[a b] l IHl]; intros seen; cbn; [auto|]. intros _. rewrite T. apply IHl.
    - now apply must_readOnly.
    - clear T. revert Hi. generalize (allShards nsh). intros ss. induction ss as [|x ss IH]; intros Hi; [contradiction|].
      cbn. destruct (Nat.eq_dec x s) as [->|Hn]; [auto|]. right. destruct Hi as [|Hi]; [contradiction|]. auto.
  Qed.

  (** ** One goroutine alone, instruction by instruction *)
  Definition never (sh : shared K V) (p : prog) : Prop := forall c c', mem c = sh -> run c 0%nat = p ->
    (forall t, t <> 0%nat -> exists r, run c t = Ret r) -> steps c c' -> forall r, ~ returned c' 0%nat r.

  Lemma steps_left c c' : steps (K := K) (V := V) c c' -> c = c' \/ exists c1, step c c1 /\ steps c1 c'.
  Proof.
    induction 1 as [c|c c1 c2 H IH S]; [auto|]. right. destruct IH as [->|(c0 & S0 & H0)].
    - eexists. split; [exact S|constructor].
    - eexists. split; [exact S0|]. econstructor; eassumption.
  Qed.

  Lemma never_next sh p : (forall r, p <> Ret r) -> (forall p' sh', tstep 0 p sh p' sh' -> never sh' p') ->
    (forall p', p = Call p' -> never sh p') -> never sh p.
  Proof.
    intros Np Hs Hc c c' Em Er Ho St r. apply steps_left in St as [<-|(c1 & S & St)].
    - unfold returned. rewrite Er. auto.
    - destruct S as [t sh0 sh' r0 p' T|t sh0 r0 p' E]; cbn in *; subst sh0.
      + assert (t = 0%nat). { destruct (Nat.eq_dec t 0) as [|Hn]; [assumption|]. destruct (Ho t Hn) as [x Ex]. rewrite Ex in T. inversion T. }
        subst t. rewrite Er in T. apply (Hs _ _ T {| mem := sh'; run := fupd r0 0%nat p' |} c' eq_refl (fupd_same _ _ _)); [|exact St].
        intros t Ht. cbn. rewrite fupd_other by congruence. auto.
      + assert (t = 0%nat). { destruct (Nat.eq_dec t 0) as [|Hn]; [assumption|]. destruct (Ho t Hn) as [x Ex]. congruence. }
        subst t. rewrite Er in E. apply (Hc _ E {| mem := sh; run := fupd r0 0%nat p' |} c' eq_refl (fupd_same _ _ _)); [|exact St].
        intros t Ht. cbn. rewrite fupd_other by congruence. auto.
  Qed.

  Lemma never_rlock sh s k : never (setMu sh s {| writer := None; readers := 0%nat :: readers (mu sh s) |}) k -> never sh (RLock s k).
  Proof. intros H. apply never_next; [discriminate| |discriminate]. intros p' sh' T. inversion T; subst. assumption. Qed.
  Lemma never_runlock sh s k : never (setMu sh s {| writer := writer (mu sh s); readers := removeOne 0 (readers (mu sh s)) |}) k -> never sh (RUnlock s k).
  Proof. intros H. apply never_next; [discriminate| |discriminate]. intros p' sh' T. inversion T; subst. assumption. Qed.
  Lemma never_lock sh s k : never (setMu (setMu sh s {| writer := Some (0%nat, false); readers := readers (mu sh s) |}) s {| writer := Some (0%nat, true); readers := [] |}) k ->
    never sh (Lock s k).
  Proof.
    intros H. apply never_next; [discriminate| |discriminate]. intros p' sh' T. inversion T; subst.
    apply never_next; [discriminate| |discriminate]. intros p' sh' T'. inversion T'; subst. assumption.
  Qed.
  Lemma never_unlock sh s k : never (setMu sh s {| writer := None; readers := readers (mu sh s) |}) k -> never sh (Unlock s k).
  Proof. intros H. apply never_next; [discriminate| |discriminate]. intros p' sh' T. inversion T; subst. assumption. Qed.
  Lemma never_read sh s k : never sh (k (items sh s)) -> never sh (Read s k).
  Proof. intros H. apply never_next; [discriminate| |discriminate]. intros p' sh' T. inversion T; subst. assumption. Qed.
  Lemma never_range sh s k : (forall l, Permutation l (items sh s) -> never sh (k l)) -> never sh (Range s k).
  Proof. intros H. apply never_next; [discriminate| |discriminate]. intros p' sh' T. inversion T; subst. auto. Qed.
  Lemma never_write sh s f k : never (setItems sh s (f (items sh s))) k -> never sh (Write s f k).
  Proof. intros H. apply never_next; [discriminate| |discriminate]. intros p' sh' T. inversion T; subst. assumption. Qed.
  Lemma never_call sh k : never sh k -> never sh (Call k).
  Proof. intros H. apply never_next; [discriminate| |]. - intros p' sh' T. inversion T. - intros p' [= ->]. assumption. Qed.

  Lemma never_sealed sh s p : writer (mu sh s) = Some (0%nat, true) -> (forall fin, must fin false s p) -> never sh p.
  Proof.
    intros W M c c' Em Er Ho St. apply (sealed_never 0 s 0 c c'); [|rewrite Er; apply M|exact St].
    split; [now rewrite Em|rewrite Er; apply M].
  Qed.
  Lemma never_stays sh s p : In 0%nat (readers (mu sh s)) -> must False true s p -> never sh p.
  Proof.
    intros W M c c' Em Er Ho St. apply (stays_never 0 s 0 c c'); [|rewrite Er; now left|exact St].
    split; [now rewrite Em|]. right. rewrite Er. now left.
  Qed.

  (** A factory that calls the map for the shard of its own key. *)
  Lemma factory_never key s o k1 k2 fin : shardOf nsh hasher key = Some s -> hashable key = true ->
    touches nsh hasher o s ->
    never {| items := fun _ => []; mu := fun _ => {| writer := None; readers := [] |} |}
      (compile eqb zero nsh hasher hashable (DoGetOrSetFactory key (Do o k1) k2) fin).
  Proof.
    intros E Hh T. cbn [compile]. unfold getOrSetFactoryC, tryGetC, withShard, index. rewrite E, Hh.
    apply never_rlock, never_read. cbn [get2 gget items setMu]. cbn.
    apply never_runlock, never_lock, never_read. cbn. apply never_call.
    apply never_sealed with (s := s).
    - cbn. now rewrite fupd_same.
    - intros fin'. now apply must_op.
  Qed.

  (** Iterate whose callback sets a key of the shard it is visiting. *)
  Lemma iterate_never key v s key' v' k1 k2 fin : (s < nsh)%nat ->
    shardOf nsh hasher key = Some s -> hashable key = true ->
    shardOf nsh hasher key' = Some s ->
    never {| items := fun _ => []; mu := fun _ => {| writer := None; readers := [] |} |}
      (compile eqb zero nsh hasher hashable
         (Do (OSet key v) (fun _ => DoIterate (fun _ _ => Do (OSet key' v') k1) k2)) fin).
  Proof.
    intros L E Hh E'. cbn [compile]. cbn [opC]. unfold setC at 1. unfold withShard at 1. rewrite E.
    unfold index at 1. rewrite Hh.
    apply never_lock, never_write, never_unlock. cbn [items setMu setItems gset].
    match goal with |- never ?sh _ => set (sh0 := sh) end.
    assert (I0 : items sh0 s = [(key, v)]) by (cbn; now rewrite fupd_same).
    assert (I1 : forall x, x <> s -> items sh0 x = []) by (intros x Hx; cbn; now rewrite fupd_other by congruence).
    clearbody sh0. assert (Hi : In s (allShards nsh)) by (apply in_seq; lia). revert Hi.
    generalize (allShards nsh) (@nil (K * V)). intros ss. revert sh0 I0 I1.
    induction ss as [|x ss IH]; intros sh I0 I1 seen Hi; [contradiction|]. cbn.
    apply never_rlock, never_range. cbn. intros l P. destruct (Nat.eq_dec x s) as [->|Hn].
    - rewrite I0 in P. apply Permutation_sym, Permutation_length_1_inv in P. subst l. cbn.
      apply never_read, never_call. unfold setC, withShard. rewrite E'.
      apply never_stays with (s := s); cbn; [rewrite fupd_same; now left|now left].
    - rewrite I1 in P by assumption. apply Permutation_sym, Permutation_nil in P. subst l. cbn.
      apply never_runlock. cbn. destruct Hi as [|Hi]; [contradiction|]. apply IH; auto.
  Qed.
End Stuck.

(** ** Running a chosen schedule *)
Section Sched.
  Context {K V : Type}.
  Notation state := (state K V).

  Definition stepf (t : nat) (c : state) : option state :=
    match run c t with
    | Call p => Some {| mem := mem c; run := fupd (run c) t p |}
    | p => match tstepf t p (mem c) with
           | Some (p', sh') => Some {| mem := sh'; run := fupd (run c) t p' |}
           | None => None
           end
    end.

  Lemma stepf_sound t c c' : stepf t c = Some c' -> step c c'.
  Proof.
    unfold stepf. destruct c as [sh r]. cbn [run mem]. intros H.
    destruct (r t) eqn:E; try discriminate H;
      try (match type of H with context [tstepf t ?q sh] => destruct (tstepf t q sh) as [[p' sh']|] eqn:T end; [|discriminate H]; apply tstepf_sound in T;
           injection H as <-; apply step_tau; rewrite E; exact T).
    injection H as <-. now apply step_call.
  Qed.

  Fixpoint schedule (ts : list nat) (c : state) : option state :=
    match ts with
    | [] => Some c
    | t :: ts' => match stepf t c with Some c' => schedule ts' c' | None => None end
    end.

  Lemma steps_trans (c c1 c2 : state) : steps c c1 -> steps c1 c2 -> steps c c2.
  Proof. intros H H2. induction H2 as [|c3 c4 c5 H3 IH S]; [assumption|]. exact (steps_next _ _ _ (IH H) S). Qed.

  Lemma schedule_steps ts : forall c c', schedule ts c = Some c' -> steps c c'.
  Proof.
    induction ts as [|t ts IH]; cbn; intros c c' H; [injection H as <-; constructor|].
    destruct (stepf t c) as [c1|] eqn:E; [|discriminate]. apply stepf_sound in E.
    eapply steps_trans; [econstructor; [constructor|exact E]|]. auto.
  Qed.

  (** Nothing can happen any more. *)
  Lemma no_step (c : state) : (forall t, (exists r, run c t = Ret r) \/
      (exists s k, run c t = LockWait s k /\ readers (mu (mem c) s) <> []) \/
      (exists s k, (run c t = RLock s k \/ run c t = Lock s k) /\ writer (mu (mem c) s) <> None)) ->
    forall c', ~ step c c'.
  Proof.
    intros H c' S. destruct S as [t sh sh' r p' T|t sh r p' E]; cbn in H.
    - destruct (H t) as [[x E]|[(s & k & E & R)|(s & k & [E|E] & W)]]; rewrite E in T; inversion T; subst; congruence.
    - destruct (H t) as [[x E']|[(s & k & E' & R)|(s & k & [E'|E'] & W)]]; congruence.
  Qed.
End Sched.

(** ** Checking that a schedule ends in a deadlock *)
Section Dead.
  Context {K V : Type}.
  Notation state := (state K V).

  (** Goroutine [t] waits and cannot go on. *)
  Definition blockedb (c : state) (t : nat) : bool :=
    match run c t with
    | RLock s _ | Lock s _ => match writer (mu (mem c) s) with None => false | Some _ => true end
    | LockWait s _ => match readers (mu (mem c) s) with [] => false | _ => true end
    | _ => false
    end.

  Definition deadb (n : nat) (ts : list nat) (c : state) : bool :=
    match schedule ts c with
    | Some c' => forallb (blockedb c') (seq 0 n)
    | None => false
    end.

  Lemma stepf_other t c c' t' : stepf t c = Some c' -> t' <> t -> run c' t' = run (K := K) (V := V) c t'.
  Proof.
    unfold stepf. intros H Hn.
    destruct (run c t) eqn:E; try discriminate H;
      try (match type of H with context [tstepf t ?q ?m] => destruct (tstepf t q m) as [[p' sh']|] eqn:T end;
           [|discriminate H]; injection H as <-; cbn; now apply fupd_other; congruence).
    injection H as <-. cbn. apply fupd_other. congruence.
  Qed.

  Lemma schedule_other ts : forall c c' t, schedule ts c = Some c' -> ~ In t ts -> run c' t = run (K := K) (V := V) c t.
  Proof.
    induction ts as [|x ts IH]; cbn; intros c c' t H Hn; [now injection H as <-|].
    destruct (stepf x c) as [c1|] eqn:E; [|discriminate].
    rewrite (IH c1 c' t H) by tauto. eapply stepf_other; [exact E|]. intros ->. tauto.
  Qed.

  Lemma dead_sound n ts c : (forall t, (n <= t)%nat -> exists r, run c t = Ret r) ->
    forallb (fun t => Nat.ltb t n) ts = true -> deadb n ts c = true ->
    exists c', steps c c' /\ (forall c'', ~ step c' c'') /\ forall t r, (t < n)%nat -> ~ returned c' t r.
  Proof.
    unfold deadb. intros Ho Ht H. destruct (schedule ts c) as [c'|] eqn:E; [|discriminate].
    rewrite forallb_forall in Ht, H.
    assert (B : forall t, (t < n)%nat -> blockedb c' t = true) by (intros t L; apply H, in_seq; lia).
    exists c'. split; [now apply (schedule_steps ts)|]. split.
    - apply no_step. intros t. destruct (Nat.lt_ge_cases t n) as [L|L].
      + right. specialize (B t L). unfold blockedb in B. destruct (run c' t); try discriminate.
        * right. exists s, p. split; [auto|]. intros W. rewrite W in B. discriminate.
        * right. exists s, p. split; [auto|]. intros W. rewrite W in B. discriminate.
        * left. exists s, p. split; [auto|]. intros W. rewrite W in B. discriminate.
      + left. rewrite (schedule_other ts c c' t E); [auto|]. intros Hi. apply Ht in Hi. apply Nat.ltb_lt in Hi. lia.
    - intros t r L R. specialize (B t L). unfold blockedb in B. unfold returned in R. rewrite R in B. discriminate.
  Qed.
End Dead.

(** ** Keys that cannot be hashed *)
Section Unhashable.
  Context {K V : Type} (eqb : K -> K -> bool) (zero : V) (nsh : nat) (hasher : K -> option Z) (hashable : K -> bool).
  Notation prog := (prog K V).
  Notation op := (op K V).
  Notation opC := (opC eqb zero nsh hasher hashable).
  Notation start := (start eqb zero nsh hasher hashable).

  (** The locks left behind. *)
  Lemma leak_writer o key s k : hashable key = false -> shardOf nsh hasher key = Some s ->
    (exists v, o = OSet key v \/ o = OTrySet key v \/ o = ODelete key) ->
    opC o k = Lock s (k RPanic).
  Proof.
    intros Hh E (v & [->|[->| ->]]); cbn; unfold setC, trySetC, deleteC, withShard, index; now rewrite E, Hh.
  Qed.

  Lemma leak_reader o key s : hashable key = false -> shardOf nsh hasher key = Some s ->
    (o = OGet key \/ o = OTryGet key \/ o = OHas key \/ (exists v, o = OGetOrSetDefault key v) \/
     exists f, o = OGetOrSetFactory key f) ->
    forall k, opC o k = RLock s (k RPanic).
  Proof.
    intros Hh E [->|[->|[->|[[v ->]|[f ->]]]]] k; cbn;
      unfold getC, tryGetC, hasC, getOrSetDefaultC, getOrSetFactoryC, tryGetC, withShard, index; now rewrite E, Hh.
  Qed.

  Lemma writer_must o key s k : shardOf nsh hasher key = Some s ->
    (exists v, o = OSet key v \/ o = OTrySet key v \/ o = ODelete key) -> must False true s (opC o k).
  Proof.
    intros E (v & [->|[->| ->]]); cbn; unfold setC, trySetC, deleteC, withShard; rewrite E; now left.
  Qed.

  Lemma shardOf_none_op o key ex k : keyOf o = Some (key, ex) -> shardOf nsh hasher key = None -> opC o k = k RPanic.
  Proof.
    intros Ek E. destruct o; cbn in Ek; try discriminate; injection Ek as -> _; cbn;
      unfold setC, trySetC, getC, tryGetC, hasC, deleteC, getOrSetFactoryC, getOrSetDefaultC, tryGetC, withShard;
      now rewrite E.
  Qed.

  Lemma flat_ok (c : code K V) : (forall key, hashable key = false -> shardOf nsh hasher key = None) -> flat c ->
    okCode nsh hasher hashable (inOrder (fun _ => 0%nat)) [] c.
  Proof.
    intros Hs. induction c as [r|o k IH| | | |]; cbn; try tauto. intros [Ho Hk]. split; [|auto].
    assert (Ad : forall s ex, inOrder (fun _ => 0%nat) [] s ex) by (intros s ex s' ex' []).
    unfold okOp. destruct (keyOf o) as [[key ex]|] eqn:E.
    - unfold okKey. destruct (shardOf nsh hasher key) eqn:Es; [|exact I]. repeat split; auto.
      destruct (hashable key) eqn:Hh; [reflexivity|]. rewrite Hs in Es by assumption. discriminate.
    - intros s _. destruct o; auto. exfalso. now eapply Ho.
  Qed.
End Unhashable.

(** ** The two models of the methods agree *)
Section Same.
  Context {K V : Type} (eqb : K -> K -> bool) (zero : V) (nsh : nat) (hash : K -> Z).
  Notation prog := (prog K V).

  (** The same instructions. *)
  Fixpoint same (p q : prog) : Prop :=
    match p, q with
    | Ret r, Ret r' => r = r'
    | RLock s k, RLock s' k' | RUnlock s k, RUnlock s' k' | Lock s k, Lock s' k'
    | LockWait s k, LockWait s' k' | Unlock s k, Unlock s' k' => s = s' /\ same k k'
    | Read s k, Read s' k' => s = s' /\ forall m, same (k m) (k' m)
    | Range s k, Range s' k' => s = s' /\ forall l, same (k l) (k' l)
    | Write s f k, Write s' f' k' => s = s' /\ (forall m, f m = f' m) /\ same k k'
    | Call k, Call k' => same k k'
    | _, _ => False
    end.

  Lemma same_refl p : same p p.
  Proof. induction p; cbn; auto. Qed.
  Lemma same_bind p : same (bindP p (fun r => Ret r)) p.
  Proof. induction p; cbn; auto. Qed.

  Lemma same_op o : same (opC eqb zero nsh (fun key => Some (hash key)) (fun _ => true) o (fun r => Ret r))
                         (progOf eqb zero nsh hash o).
  Proof.
    assert (E : forall key, shardOf nsh (fun key => Some (hash key)) key = Some (GetShard nsh hash key)).
    { intros key. unfold shardOf, GetShard. now destruct (Nat.eqb nsh 1). }
    destruct o; cbn [opC progOf];
      unfold setC, trySetC, getC, tryGetC, hasC, deleteC, getOrSetFactoryC, getOrSetDefaultC, tryGetC, withShard, index,
        setP, trySetP, getP, tryGetP, hasP, deleteP, getOrSetFactoryP, getOrSetDefaultP, tryGetK;
      try rewrite E; try apply same_bind; cbn; repeat split; auto; intros m;
      try (destruct (has eqb m key); cbn; now auto);
      try (destruct (get2 eqb zero m key) as [a []]; cbn; repeat split; auto; try apply same_refl;
           try rewrite E; cbn; repeat split; auto; intros m'; destruct (get2 eqb zero m' key) as [b []]; cbn; auto;
           try (destruct factory; cbn; now auto)).
  Qed.
End Same.
