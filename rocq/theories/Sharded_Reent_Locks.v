(** Goroutines that keep to a locking discipline, in callbacks too. *)
From Coq Require Import Permutation.
From Verif Require Import Base GoMap Sharded_Model Sharded_Locks Sharded_Reent_Model Sharded_Reent_Spec.

Section Locks.
  Context {K V : Type} (eqb : K -> K -> bool) (zero : V) (nsh : nat) (Hnsh : (0 < nsh)%nat).
  Context (hasher : K -> option Z) (hashable : K -> bool).
  Context (adm : holds -> nat -> bool -> Prop).
  Notation prog := (prog K V).
  Notation res := (res K V).
  Notation op := (op K V).
  Notation code := (code K V).
  Notation state := (state K V).
  Notation shared := (shared K V).
  Notation shardOf := (shardOf nsh hasher).
  Notation placed := (placed (V := V) nsh hasher).
  Notation okKey := (okKey nsh hasher hashable adm).
  Notation okOp := (okOp (V := V) nsh hasher hashable adm).
  Notation okCode := (okCode (V := V) nsh hasher hashable adm).
  Notation opC := (opC eqb zero nsh hasher hashable).
  Notation compile := (compile eqb zero nsh hasher hashable).
  Notation start := (start eqb zero nsh hasher hashable).

  Lemma shardOf_lt key s : shardOf key = Some s -> (s < nsh)%nat.
  Proof.
    unfold Sharded_Reent_Model.shardOf. destruct (Nat.eqb_spec nsh 1) as [->|Hn].
    - intros [= <-]. auto with arith.
    - destruct (hasher key) as [h|]; [|discriminate]. intros [= <-].
      pose proof (Z.mod_pos_bound h (Z.of_nat nsh) ltac:(lia)). lia.
  Qed.

  (** [P] of what is left of [h] when [(s, ex)] is given back. *)
  Definition give (s : nat) (ex : bool) (h : holds) (P : holds -> Prop) : Prop :=
    exists h1 h2, h = h1 ++ (s, ex) :: h2 /\ P (h1 ++ h2).
  Arguments give : simpl never.
  Lemma give_top s ex h (P : holds -> Prop) : P h -> give s ex ((s, ex) :: h) P.
  Proof. exists [], h. auto. Qed.
  Hint Resolve give_top : core.

  (** [p], run while holding [h], asks only for admitted locks, gives back only
      what it holds, keeps keys in their shards and ends holding nothing. *)
  Fixpoint balX (h : holds) (p : prog) : Prop :=
    match p with
    | Ret _ => h = []
    | RLock s k => (s < nsh)%nat /\ adm h s false /\ balX ((s, false) :: h) k
    | RUnlock s k => give s false h (fun h' => balX h' k)
    | Lock s k => (s < nsh)%nat /\ adm h s true /\ balX ((s, true) :: h) k
    | LockWait _ _ => False
    | Unlock s k => give s true h (fun h' => balX h' k)
    | Read s k => forall m, placed s m -> balX h (k m)
    | Range s k => forall l, placed s l -> balX h (k l)
    | Write s f k => (forall m, placed s m -> placed s (f m)) /\ balX h k
    | Call k => balX h k
    end.

  Lemma placed_gset s m key v : shardOf key = Some s -> placed s m -> placed s (gset eqb m key v).
  Proof.
    intros E. induction m as [|[k' v'] m IH]; intros P; cbn.
    - intros k w [[= <- <-]|[]]. assumption.
    - destruct (eqb k' key).
      + intros k w [[= <- <-]|Hi]; [assumption|eapply P; cbn; eauto].
      + intros k w [[= <- <-]|Hi]; [eapply P; cbn; eauto|]. eapply IH; [|exact Hi].
        intros a b Ha. eapply P. right. exact Ha.
  Qed.

  Lemma placed_gdel s m key : placed s m -> placed s (gdel eqb m key).
  Proof.
    induction m as [|[k' v'] m IH]; intros P; cbn; [assumption|].
    assert (P' : placed s m) by (intros a b Ha; eapply P; right; exact Ha).
    destruct (eqb k' key); [auto|].
    intros k w [[= <- <-]|Hi]; [eapply P; cbn; eauto|]. now apply (IH P' k w).
  Qed.

  Lemma bal_withShard h key ex k body : okKey h key ex -> (forall r, balX h (k r)) ->
    (forall s, shardOf key = Some s -> (s < nsh)%nat -> adm h s false -> (ex = true -> adm h s true) -> balX h (body s)) ->
    balX h (withShard nsh hasher key k body).
  Proof.
    unfold Sharded_Reent_Spec.okKey, withShard. destruct (shardOf key) as [s|] eqn:E; [|auto].
    intros (Hh & A1 & A2) Hk Hb. apply Hb; auto. now apply shardOf_lt in E.
  Qed.

  Lemma bal_tryGet h key ex k : okKey h key ex -> (forall r, balX h (k r)) ->
    balX h (tryGetC eqb zero nsh hasher hashable key k).
  Proof.
    intros OK Hk. unfold tryGetC. eapply bal_withShard; [exact OK|exact Hk|]. intros s E L A1 A2.
    cbn. repeat split; auto. unfold index. unfold Sharded_Reent_Spec.okKey in OK. rewrite E in OK.
    destruct OK as (-> & _ & _). cbn. intros m _. destruct (get2 eqb zero m key). cbn. auto.
  Qed.

  Lemma bal_factory h key (factory : (option V -> prog) -> prog) k : okKey h key true ->
    (forall s k', shardOf key = Some s -> (forall a, balX ((s, true) :: h) (k' a)) -> balX ((s, true) :: h) (factory k')) ->
    (forall r, balX h (k r)) ->
    balX h (getOrSetFactoryC eqb zero nsh hasher hashable key factory k).
  Proof.
    intros OK HF Hk. unfold getOrSetFactoryC. eapply bal_tryGet; [exact OK|].
    intros [| | |v []| | | | | | | |]; auto.
    eapply bal_withShard; [exact OK|exact Hk|]. intros s E L A1 A2. cbn. repeat split; auto.
    pose proof OK as OK'. unfold Sharded_Reent_Spec.okKey in OK. rewrite E in OK. destruct OK as (Hh & _ & _).
    unfold index. rewrite Hh. cbn. intros m P. destruct (get2 eqb zero m key) as [v' []]; cbn; auto.
    apply HF; [assumption|]. intros [w|]; cbn; auto. repeat split; auto. intros m' P'. now apply placed_gset.
  Qed.

  Lemma bal_default h key v k : okKey h key true -> (forall r, balX h (k r)) ->
    balX h (getOrSetDefaultC eqb zero nsh hasher hashable key v k).
  Proof.
    intros OK Hk. unfold getOrSetDefaultC. eapply bal_tryGet; [exact OK|].
    intros [| | |w []| | | | | | | |]; auto.
    eapply bal_withShard; [exact OK|exact Hk|]. intros s E L A1 A2. cbn. repeat split; auto.
    unfold Sharded_Reent_Spec.okKey in OK. rewrite E in OK. destruct OK as (Hh & _ & _).
    unfold index. rewrite Hh. cbn. intros m P. destruct (get2 eqb zero m key) as [v' []]; cbn; auto.
    repeat split; auto. intros m' P'. now apply placed_gset.
  Qed.

  Definition canAll (h : holds) (ex : bool) (ss : list nat) : Prop :=
    forall s, In s ss -> (s < nsh)%nat /\ adm h s ex.
  Lemma canAll_tl h ex s ss : canAll h ex (s :: ss) -> canAll h ex ss.
  Proof. intros H x Hx. apply H. now right. Qed.

  Lemma bal_len h ss n k : canAll h false ss -> (forall r, balX h (k r)) -> balX h (bindP (lenP ss n) k).
  Proof.
    intros C Hk. revert n. induction ss as [|s ss IH]; intros n; cbn; auto.
    destruct (C s) as [L A]; [now left|]. repeat split; auto. intros m _. apply give_top.
    apply IH. eauto using canAll_tl.
  Qed.
  Lemma bal_empty h ss k : canAll h false ss -> (forall r, balX h (k r)) -> balX h (bindP (emptyP ss) k).
  Proof.
    intros C Hk. induction ss as [|s ss IH]; cbn; auto.
    destruct (C s) as [L A]; [now left|]. repeat split; auto.
    intros m _. apply give_top. match goal with |- context [if ?b then _ else _] => destruct b end; cbn; auto.
    apply IH. eauto using canAll_tl.
  Qed.
  Lemma bal_readOnly {A} h ss (stp : A -> list (K * V) -> A) fin acc k : canAll h false ss ->
    (forall r, balX h (k r)) -> balX h (bindP (readOnlyP ss stp fin acc) k).
  Proof.
    intros C Hk. revert acc. induction ss as [|s ss IH]; intros acc; cbn; auto.
    destruct (C s) as [L Ad]; [now left|]. repeat split; auto. intros l _. apply give_top. apply IH. eauto using canAll_tl.
  Qed.
  Lemma bal_clear h ss k : canAll h false ss -> (forall r, balX h (k r)) -> balX h (bindP (clearP ss) k).
  Proof.
    intros C Hk. induction ss as [|s ss IH]; cbn; auto.
    destruct (C s) as [L A]; [now left|]. repeat split; auto.
    - intros m _ a b [].
    - apply give_top. apply IH. eauto using canAll_tl.
  Qed.
  Lemma bal_iterate h ss fn seen k : canAll h false ss -> (forall r, balX h (k r)) ->
    balX h (bindP (iterateP ss fn seen) k).
  Proof.
    intros C Hk. revert seen. induction ss as [|s ss IH]; intros seen; cbn; auto.
    destruct (C s) as [L A]; [now left|]. repeat split; auto. intros l P. clear P. revert seen.
    induction l as [|[key v] l IHl]; intros seen; cbn.
    - apply give_top. apply IH. eauto using canAll_tl.
    - intros _ _. destruct (fn key v); [apply IHl|]. cbn. auto.
  Qed.
  Lemma bal_shards h ss g k : canAll h true ss -> (forall r, balX h (k r)) ->
    (forall s m, In s ss -> placed s m -> placed s (g m)) ->
    balX h (bindP (iterateShardsP ss g) k).
  Proof.
    intros C Hk Hg. induction ss as [|s ss IH]; cbn; auto.
    destruct (C s) as [L A]; [now left|]. repeat split; auto.
    - intros m. apply Hg. now left.
    - apply give_top. apply IH; [eauto using canAll_tl|]. intros x m Hx. apply Hg. now right.
  Qed.

  Lemma canAllShards h ex : (forall s, (s < nsh)%nat -> adm h s ex) -> canAll h ex (allShards nsh).
  Proof. intros H s Hs. apply in_seq in Hs. split; [lia|]. apply H. lia. Qed.

  Lemma bal_op h o k : okOp h o -> (forall r, balX h (k r)) -> balX h (opC o k).
  Proof.
    intros OK Hk. unfold Sharded_Reent_Spec.okOp in OK. destruct o; cbn in OK |- *.
    - eapply bal_withShard; [exact OK|exact Hk|]. intros s E L A1 A2. cbn. repeat split; auto.
      unfold Sharded_Reent_Spec.okKey in OK. rewrite E in OK. destruct OK as (Hh & _). unfold index. rewrite Hh.
      cbn. repeat split; auto. intros m. now apply placed_gset.
    - eapply bal_withShard; [exact OK|exact Hk|]. intros s E L A1 A2. cbn. repeat split; auto.
      unfold Sharded_Reent_Spec.okKey in OK. rewrite E in OK. destruct OK as (Hh & _). unfold index. rewrite Hh.
      cbn. intros m P. destruct (has eqb m key); cbn; repeat split; auto. intros m'. now apply placed_gset.
    - eapply bal_tryGet; [exact OK|]. intros [| | |w []| | | | | | | |]; auto.
    - eapply bal_tryGet; eassumption.
    - eapply bal_withShard; [exact OK|exact Hk|]. intros s E L A1 A2. cbn. repeat split; auto.
      unfold Sharded_Reent_Spec.okKey in OK. rewrite E in OK. destruct OK as (Hh & _). unfold index. rewrite Hh.
      cbn. auto.
    - eapply bal_withShard; [exact OK|exact Hk|]. intros s E L A1 A2. cbn. repeat split; auto.
      unfold Sharded_Reent_Spec.okKey in OK. rewrite E in OK. destruct OK as (Hh & _). unfold index. rewrite Hh.
      cbn. repeat split; auto. intros m. now apply placed_gdel.
    - now apply bal_default.
    - apply bal_factory; auto.
    - apply bal_len; [now apply canAllShards|exact Hk].
    - apply bal_empty; [now apply canAllShards|exact Hk].
    - apply bal_readOnly; [now apply canAllShards|exact Hk].
    - apply bal_readOnly; [now apply canAllShards|exact Hk].
    - apply bal_readOnly; [now apply canAllShards|exact Hk].
    - apply bal_readOnly; [now apply canAllShards|exact Hk].
    - apply bal_clear; [now apply canAllShards|exact Hk].
    - apply bal_iterate; [now apply canAllShards|exact Hk].
    - apply bal_readOnly; [now apply canAllShards|exact Hk].
    - apply bal_shards; [apply canAllShards; intros; now apply OK|exact Hk|].
      intros s m Hi. apply in_seq in Hi. now apply OK; lia.
  Qed.

  (** Code that keeps to the discipline compiles to balanced instructions. *)
  Lemma bal_compile c : forall h fin, okCode h c -> (forall r, balX h (fin r)) -> balX h (compile c fin).
  Proof.
    induction c as [r|o k IHk|key factory IHf k IHk|fn IHf k IHk|fn IHf g k IHk|fn IHf k IHk]; intros h fin; cbn.
    - auto.
    - intros [O OK] Hf. apply bal_op; auto.
    - intros (OK & OF & OKk) Hf. apply bal_factory; auto.
    - intros (OS & OKk) Hf.
      assert (G : forall ss, (forall s, In s ss -> (s < nsh)%nat) -> forall seen,
                  balX h (iterateC ss (fun key value k' => compile (fn key value) k') seen (fun r => compile (k r) fin))).
      { induction ss as [|s ss IH]; intros Hs seen; cbn; [auto|].
        assert (L : (s < nsh)%nat) by (apply Hs; now left). destruct (OS s L) as [A OF].
        repeat split; auto. intros l P. revert seen. induction l as [|[key v] l IHl]; intros seen; cbn.
        - apply give_top. apply IH. intros x Hx. apply Hs. now right.
        - intros _ _. apply IHf; [apply OF; eapply P; now left|]. intros [w|]; cbn; auto.
          apply IHl. intros a b Hi. eapply P. right. exact Hi. }
      apply G. intros s Hs. apply in_seq in Hs. lia.
    - intros (OS & OKk) Hf.
      assert (G : forall ss, (forall s, In s ss -> (s < nsh)%nat) ->
                  balX h (iterateShardsC ss (fun k' => compile fn k') g (fun r => compile (k r) fin))).
      { induction ss as [|s ss IH]; intros Hs; cbn; [auto|].
        assert (L : (s < nsh)%nat) by (apply Hs; now left). destruct (OS s L) as (A & OF & Hg).
        repeat split; auto. apply IHf; [assumption|]. intros [w|]; cbn; auto. repeat split; auto.
        apply give_top. apply IH. intros x Hx. apply Hs. now right. }
      apply G. intros s Hs. apply in_seq in Hs. lia.
    - intros (OS & OKk) Hf.
      assert (G : forall ss, (forall s, In s ss -> (s < nsh)%nat) ->
                  balX h (iterateShardsReadOnlyC ss (fun l k' => compile (fn l) k') (fun r => compile (k r) fin))).
      { induction ss as [|s ss IH]; intros Hs; cbn; [auto|].
        assert (L : (s < nsh)%nat) by (apply Hs; now left). destruct (OS s L) as (A & OF).
        repeat split; auto. intros l P. apply IHf; [auto|]. intros [w|]; cbn; auto.
        apply give_top. apply IH. intros x Hx. apply Hs. now right. }
      apply G. intros s Hs. apply in_seq in Hs. lia.
  Qed.

  (** ** Ownership of the locks *)
  Fixpoint cnt (t : nat) (l : list nat) : nat :=
    match l with [] => 0 | x :: l' => if Nat.eqb x t then S (cnt t l') else cnt t l' end.
  Fixpoint sharedBy (s : nat) (h : holds) : nat :=
    match h with
    | [] => 0
    | (s', false) :: h' => if Nat.eqb s' s then S (sharedBy s h') else sharedBy s h'
    | (_, true) :: h' => sharedBy s h'
    end.

  Lemma cnt_removeOne t x l : cnt x (removeOne t l) = if Nat.eqb t x then pred (cnt x l) else cnt x l.
  Proof.
    induction l as [|y l IH]; cbn; [now destruct (Nat.eqb t x)|].
    destruct (Nat.eqb_spec y t) as [->|H1].
    - destruct (Nat.eqb_spec t x) as [->|H2]; reflexivity.
    - cbn. rewrite IH. destruct (Nat.eqb_spec y x) as [->|H2]; [|reflexivity].
      destruct (Nat.eqb_spec t x) as [->|H3]; [congruence|reflexivity].
  Qed.
  Lemma cnt_in t l : In t l <-> cnt t l <> 0%nat.
  Proof.
    induction l as [|y l IH]; cbn; [tauto|]. destruct (Nat.eqb_spec y t); [subst; intuition discriminate|].
    rewrite <- IH. intuition.
  Qed.
  Lemma sharedBy_in s h : In (s, false) h <-> sharedBy s h <> 0%nat.
  Proof.
    induction h as [|[s' []] h IH]; cbn; [tauto| |].
    - rewrite <- IH. intuition discriminate.
    - destruct (Nat.eqb_spec s' s); [subst; intuition discriminate|]. rewrite <- IH.
      split; [intros [[= ?]|?]; [congruence|assumption]|auto].
  Qed.

  (** Goroutine [t] holds [h] and waits, having announced itself, for [w]. *)
  Definition ownsX (sh : shared) (t : nat) (h : holds) (w : option nat) : Prop := forall s,
    (writer (mu sh s) = Some (t, true) <-> In (s, true) h) /\
    (writer (mu sh s) = Some (t, false) <-> w = Some s) /\
    cnt t (readers (mu sh s)) = sharedBy s h.

  Definition noReaders (sh : shared) : Prop :=
    forall s t, writer (mu sh s) = Some (t, true) -> readers (mu sh s) = [].

  Definition balS (h : holds) (w : option nat) (p : prog) : Prop :=
    NoDup (map fst (filter snd h)) /\
    match p with
    | LockWait s k => w = Some s /\ (s < nsh)%nat /\ adm h s true /\ balX ((s, true) :: h) k
    | _ => w = None /\ balX h p
    end.

  Lemma balS_of h p : NoDup (map fst (filter snd h)) -> balX h p -> balS h None p.
  Proof. intros N B. split; [assumption|]. destruct p; auto. contradiction. Qed.

  (** [adm] never admits a lock that would wait for the goroutine itself. *)
  Hypothesis Hadm : forall h s ex, adm h s ex -> notHeld h s ex.

  Lemma noExcl h s : adm h s true -> ~ In s (map fst (filter snd h)).
  Proof.
    intros A Hi. apply in_map_iff in Hi as ([s' e] & E & Hi). cbn in E. subst.
    apply filter_In in Hi as [Hi _]. destruct (Hadm _ _ _ A _ Hi). discriminate.
  Qed.

  (** What is held after giving back [(s, ex)]. *)
  Lemma sharedBy_app s h1 h2 : sharedBy s (h1 ++ h2) = (sharedBy s h1 + sharedBy s h2)%nat.
  Proof. induction h1 as [|[s' []] h1 IH]; cbn; [reflexivity|exact IH|]. rewrite IH. now destruct (Nat.eqb s' s). Qed.
  Lemma give_in (h1 h2 : holds) x y : x <> y -> In x (h1 ++ y :: h2) <-> In x (h1 ++ h2).
  Proof. intros Hn. rewrite !in_app_iff. cbn. intuition congruence. Qed.
  Lemma give_shared (h1 h2 : holds) s : NoDup (map fst (filter snd (h1 ++ (s, false) :: h2))) ->
    NoDup (map fst (filter snd (h1 ++ h2))).
  Proof. now rewrite !filter_app. Qed.
  Lemma give_excl (h1 h2 : holds) s : NoDup (map fst (filter snd (h1 ++ (s, true) :: h2))) ->
    NoDup (map fst (filter snd (h1 ++ h2))) /\ ~ In (s, true) (h1 ++ h2).
  Proof.
    rewrite !filter_app, !map_app. cbn. intros N. apply NoDup_remove in N as [N1 N2]. split; [assumption|].
    intros Hi. apply N2. rewrite <- map_app, <- filter_app. apply in_map_iff. exists (s, true). split; [reflexivity|].
    apply filter_In. auto.
  Qed.

  Ltac own O1 O2 := split; [split|split; [split|]]; try solve
    [ discriminate | congruence | tauto | auto
    | intros Hi; apply O1 in Hi; solve [discriminate|congruence|assumption]
    | intros Hi; apply O2 in Hi; solve [discriminate|congruence|assumption]
    | intros Hi; apply O1 in Hi; destruct Hi as [Hi|Hi]; solve [discriminate|congruence|assumption]
    | intros [Hi|Hi]; [solve [discriminate|congruence]|]; apply O1 in Hi; solve [discriminate|congruence|assumption] ].

  Lemma tstep_owns t p sh p' sh' h w : tstep t p sh p' sh' -> noReaders sh -> ownsX sh t h w -> balS h w p ->
    (forall s, placed s (items sh s)) ->
    noReaders sh' /\ (forall s, placed s (items sh' s)) /\
    (exists h' w', ownsX sh' t h' w' /\ balS h' w' p') /\
    forall t' h' w', t' <> t -> ownsX sh t' h' w' -> ownsX sh' t' h' w'.
  Proof.
    intros T M O B P.
    destruct T as [s k sh W|s k sh W|s k sh W|s k sh W R|s k sh W|s k sh|s k l sh Pl|s f k sh];
      destruct B as [N B]; cbn in B.
    - destruct B as (-> & L & A & B). split; [|split; [|split]].
      + intros s' t'. unfold setMu; cbn. destruct (fupd_case (mu sh) s s' {| writer := None; readers := t :: readers (mu sh s) |}) as [[<- ->]|[_ ->]]; cbn; [discriminate|apply M].
      + exact P.
      + exists ((s, false) :: h), None. split; [|apply balS_of; assumption].
        intros s'. unfold setMu; cbn. destruct (O s') as (O1 & O2 & O3).
        destruct (fupd_case (mu sh) s s' {| writer := None; readers := t :: readers (mu sh s) |}) as [[<- ->]|[Hn ->]]; cbn.
        * rewrite W in O1. rewrite !Nat.eqb_refl. own O1 O2.
        * destruct (Nat.eqb_spec s s'); [congruence|]. own O1 O2.
      + intros t' h' w' Ht O' s'. unfold setMu; cbn. destruct (O' s') as (O1 & O2 & O3).
        destruct (fupd_case (mu sh) s s' {| writer := None; readers := t :: readers (mu sh s) |}) as [[<- ->]|[Hn ->]]; cbn; [|tauto].
        rewrite W in O1, O2. destruct (Nat.eqb_spec t t'); [congruence|]. auto.
    - destruct B as (-> & h1 & h2 & -> & B).
      split; [|split; [|split]].
      + intros s' t'. unfold setMu; cbn. destruct (fupd_case (mu sh) s s' {| writer := writer (mu sh s); readers := removeOne t (readers (mu sh s)) |}) as [[<- ->]|[_ ->]]; cbn; [|apply M].
        intros E. now rewrite (M _ _ E).
      + exact P.
      + exists (h1 ++ h2), None. split; [|apply balS_of; [eapply give_shared|]; eassumption].
        intros s'. unfold setMu; cbn. destruct (O s') as (O1 & O2 & O3). rewrite give_in in O1 by discriminate.
        rewrite sharedBy_app in O3 |- *. cbn in O3.
        destruct (fupd_case (mu sh) s s' {| writer := writer (mu sh s); readers := removeOne t (readers (mu sh s)) |}) as [[<- ->]|[Hn ->]]; cbn.
        * rewrite cnt_removeOne, O3, !Nat.eqb_refl. repeat split; try tauto. clear. lia.
        * rewrite O3. destruct (Nat.eqb_spec s s'); [congruence|]. tauto.
      + intros t' h' w' Ht O' s'. unfold setMu; cbn. destruct (O' s') as (O1 & O2 & O3).
        destruct (fupd_case (mu sh) s s' {| writer := writer (mu sh s); readers := removeOne t (readers (mu sh s)) |}) as [[<- ->]|[Hn ->]]; cbn; [|tauto].
        rewrite cnt_removeOne. destruct (Nat.eqb_spec t t'); [congruence|]. auto.
    - destruct B as (-> & L & A & B). split; [|split; [|split]].
      + intros s' t'. unfold setMu; cbn. destruct (fupd_case (mu sh) s s' {| writer := Some (t, false); readers := readers (mu sh s) |}) as [[<- ->]|[_ ->]]; cbn; [discriminate|apply M].
      + exact P.
      + exists h, (Some s). split; [|split; cbn; auto].
        intros s'. unfold setMu; cbn. destruct (O s') as (O1 & O2 & O3).
        destruct (fupd_case (mu sh) s s' {| writer := Some (t, false); readers := readers (mu sh s) |}) as [[<- ->]|[Hn ->]]; cbn.
        * rewrite W in O1. own O1 O2.
        * own O1 O2.
      + intros t' h' w' Ht O' s'. unfold setMu; cbn. destruct (O' s') as (O1 & O2 & O3).
        destruct (fupd_case (mu sh) s s' {| writer := Some (t, false); readers := readers (mu sh s) |}) as [[<- ->]|[Hn ->]]; cbn; [|tauto].
        rewrite W in O1, O2. own O1 O2.
    - destruct B as (-> & L & A & B). split; [|split; [|split]].
      + intros s' t'. unfold setMu; cbn. destruct (fupd_case (mu sh) s s' {| writer := Some (t, true); readers := [] |}) as [[<- ->]|[_ ->]]; cbn; [reflexivity|apply M].
      + exact P.
      + exists ((s, true) :: h), None. split.
        * intros s'. unfold setMu; cbn. destruct (O s') as (O1 & O2 & O3).
          destruct (fupd_case (mu sh) s s' {| writer := Some (t, true); readers := [] |}) as [[<- ->]|[Hn ->]]; cbn.
          -- rewrite R in O3. cbn in O3. own O1 O2.
          -- own O1 O2.
        * apply balS_of; [|assumption]. cbn. constructor; [|assumption]. now apply noExcl.
      + intros t' h' w' Ht O' s'. unfold setMu; cbn. destruct (O' s') as (O1 & O2 & O3).
        destruct (fupd_case (mu sh) s s' {| writer := Some (t, true); readers := [] |}) as [[<- ->]|[Hn ->]]; cbn; [|tauto].
        rewrite W in O1, O2. rewrite R in O3. own O1 O2.
    - destruct B as (-> & h1 & h2 & -> & B). destruct (give_excl _ _ _ N) as [N1 N2].
      split; [|split; [|split]].
      + intros s' t'. unfold setMu; cbn. destruct (fupd_case (mu sh) s s' {| writer := None; readers := readers (mu sh s) |}) as [[<- ->]|[_ ->]]; cbn; [discriminate|apply M].
      + exact P.
      + exists (h1 ++ h2), None. split; [|now apply balS_of].
        intros s'. unfold setMu; cbn. destruct (O s') as (O1 & O2 & O3).
        rewrite sharedBy_app in O3 |- *. cbn in O3.
        destruct (fupd_case (mu sh) s s' {| writer := None; readers := readers (mu sh s) |}) as [[<- ->]|[Hn ->]]; cbn.
        * split; [|split]; [split; [discriminate|intros Hi; now apply N2 in Hi]|split; discriminate|assumption].
        * rewrite give_in in O1 by congruence. tauto.
      + intros t' h' w' Ht O' s'. unfold setMu; cbn. destruct (O' s') as (O1 & O2 & O3).
        destruct (fupd_case (mu sh) s s' {| writer := None; readers := readers (mu sh s) |}) as [[<- ->]|[Hn ->]]; cbn; [|tauto].
        rewrite W in O1, O2. own O1 O2.
    - destruct B as (-> & B). split; [assumption|]. split; [assumption|]. split; [|auto].
      exists h, None. split; [assumption|]. apply balS_of; auto.
    - destruct B as (-> & B). split; [assumption|]. split; [assumption|]. split; [|auto].
      exists h, None. split; [assumption|]. apply balS_of; [assumption|]. apply B.
      intros a b Hi. apply (P s a b). eapply Permutation_in; eassumption.
    - destruct B as (-> & Hf & B). split; [exact M|]. split; [|split].
      + intros s'. unfold setItems; cbn. destruct (fupd_case (items sh) s s' (f (items sh s))) as [[<- ->]|[_ ->]]; auto.
      + exists h, None. split; [exact O|]. apply balS_of; auto.
      + auto.
  Qed.

  Definition invX (c : state) : Prop :=
    noReaders (mem c) /\ (forall s, placed s (items (mem c) s)) /\
    forall t, exists h w, ownsX (mem c) t h w /\ balS h w (run c t).

  Lemma invX_step c c' : step c c' -> invX c -> invX c'.
  Proof.
    intros S (M & P & I). destruct S as [t sh sh' r p' T|t sh r p' E]; cbn in *.
    - destruct (I t) as (h & w & O & B).
      destruct (tstep_owns _ _ _ _ _ _ _ T M O B P) as (M' & P' & (h' & w' & O' & B') & F).
      split; [assumption|]. split; [assumption|]. intros t'. cbn.
      destruct (fupd_case r t t' p') as [[<- ->]|[Hn ->]]; [eauto|].
      destruct (I t') as (h1 & w1 & O1 & B1). exists h1, w1. split; [|assumption]. apply F; [congruence|assumption].
    - split; [assumption|]. split; [assumption|]. intros t'. cbn.
      destruct (fupd_case r t t' p') as [[<- ->]|[Hn ->]]; [|apply I].
      destruct (I t) as (h & w & O & B). exists h, w. split; [assumption|]. rewrite E in B.
      destruct B as [N [-> B]]. now apply balS_of.
  Qed.

  Lemma invX_start codes : (forall t, okCode [] (codes t)) -> invX (start codes).
  Proof.
    intros OK. split; [|split].
    - intros s t. cbn. discriminate.
    - intros s k v [].
    - intros t. exists [], None. split.
      + intros s. cbn. repeat split; try discriminate; tauto.
      + apply balS_of; [constructor|]. apply bal_compile; [apply OK|]. reflexivity.
  Qed.

  (** ** Progress *)
  (** What [p] waits for. *)
  Definition asks (p : prog) : option (nat * bool) :=
    match p with
    | RLock s _ => Some (s, false)
    | Lock s _ | LockWait s _ => Some (s, true)
    | _ => None
    end.

  Lemma runs_or_asks c t : invX c -> (exists r, run c t = Ret r) \/ (exists c', step c c') \/
    exists s ex, asks (run c t) = Some (s, ex).
  Proof.
    intros (M & P & I). destruct (I t) as (h & w & O & N & B).
    destruct c as [sh r]. cbn in *. destruct (r t) eqn:E; cbn in *; eauto.
    - destruct B as (-> & h1 & h2 & -> & B).
      right. left. eexists. eapply step_tau with (t := t). rewrite E. constructor. apply cnt_in.
      destruct (O s) as (_ & _ & ->). rewrite sharedBy_app. cbn. rewrite Nat.eqb_refl. clear. lia.
    - destruct B as (-> & h1 & h2 & -> & B).
      right. left. eexists. eapply step_tau with (t := t). rewrite E. constructor. apply O. apply in_elt.
    - right. left. eexists. eapply step_tau with (t := t). rewrite E. constructor.
    - right. left. eexists. eapply step_tau with (t := t). rewrite E. constructor. reflexivity.
    - right. left. eexists. eapply step_tau with (t := t). rewrite E. constructor.
    - right. left. eexists. apply step_call with (t := t) (p' := p). exact E.
  Qed.

  (** A goroutine that asks for [s] and cannot go on is kept out by one that
      holds [s]. *)
  Lemma kept_out c t s ex : invX c -> asks (run c t) = Some (s, ex) ->
    (exists c', step c c') \/
    exists t' h w ex', ownsX (mem c) t' h w /\ balS h w (run c t') /\ In (s, ex') h /\ 
      (ex' = true \/ ex = true \/ exists x k, x <> t /\ run c x = LockWait s k).
  Proof.
    intros (M & P & I) A.
    assert (Hr : forall x, In x (readers (mu (mem c) s)) -> exists h w, ownsX (mem c) x h w /\ balS h w (run c x) /\ In (s, false) h).
    { intros x Hx. destruct (I x) as (h & w & O & B). exists h, w. split; [assumption|]. split; [assumption|].
      apply sharedBy_in. destruct (O s) as (_ & _ & <-). now apply cnt_in. }
    assert (Hw : forall x, writer (mu (mem c) s) = Some (x, true) -> exists h w, ownsX (mem c) x h w /\ balS h w (run c x) /\ In (s, true) h).
    { intros x Hx. destruct (I x) as (h & w & O & B). exists h, w. split; [assumption|]. split; [assumption|]. now apply O. }
    assert (Hp : forall x, writer (mu (mem c) s) = Some (x, false) ->
      (exists c', step c c') \/ exists y, In y (readers (mu (mem c) s)) ).
    { intros x Hx. destruct (readers (mu (mem c) s)) as [|y l] eqn:R; [|right; exists y; now left].
      left. destruct (I x) as (h & w & O & N & B). assert (w = Some s) by now apply O. subst w.
      destruct c as [sh r]. cbn in *. destruct (r x) eqn:E; cbn in B; try (destruct B; discriminate).
      destruct B as [[= ->] B]. eexists. eapply step_tau with (t := x). rewrite E. now constructor. }
    assert (W : forall p, run c t = p -> waits p = true -> (exists k, p = LockWait s k) \/
       (writer (mu (mem c) s) = None -> exists c', step c c')).
    { intros p Ep _. subst p. destruct c as [sh r]. cbn in *. destruct (r t) eqn:E; try discriminate; injection A as -> <-; eauto.
      - right. intros Wn. eexists. eapply step_tau with (t := t). rewrite E. now constructor.
      - right. intros Wn. eexists. eapply step_tau with (t := t). rewrite E. now constructor. }
    assert (Q : ex = true \/ (ex = false /\ exists k, run c t = RLock s k)).
    { destruct (run c t); try discriminate; injection A as -> <-; eauto. }
    destruct (W (run c t) eq_refl) as [[k E]|Wn].
    { destruct (run c t); try discriminate; reflexivity. }
    - (* waiting for the readers to leave *)
      destruct (I t) as (h & w & O & N & B). rewrite E in B. destruct B as (-> & L & Ad & B).
      destruct (Hp t (proj2 (proj1 (proj2 (O s))) eq_refl)) as [?|[y Hy]]; [auto|].
      destruct (Hr y Hy) as (h' & w' & O' & B' & Hi). right. exists y, h', w', false.
      rewrite E in A. injection A as <-. eauto 8.
    - destruct (writer (mu (mem c) s)) as [[x []]|] eqn:Ew; [| |auto].
      + destruct (Hw x eq_refl) as (h' & w' & O' & B' & Hi). right. exists x, h', w', true. eauto 8.
      + destruct (Hp x eq_refl) as [?|[y Hy]]; [auto|].
        destruct (Hr y Hy) as (h' & w' & O' & B' & Hi). right. exists y, h', w', false. split; [assumption|]. split; [assumption|]. split; [assumption|].
        destruct Q as [->|[-> [k E]]]; [auto|]. right. right.
        destruct (I x) as (h & w & O & N & B). assert (w = Some s) by now apply O. subst w.
        destruct (run c x) eqn:E1; cbn in B; try (destruct B; discriminate). destruct B as [[= ->] B].
        exists x; eexists. split; [|exact E1]. intros ->. congruence.
  Qed.
End Locks.
