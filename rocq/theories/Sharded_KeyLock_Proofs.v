(** Proofs about a key used as a lock. *)
From Verif Require Import Base GoMap Sharded_Model Sharded_Spec Sharded_Locks Sharded_Lin Sharded_Factory Sharded_KeyLock_Spec.
Local Open Scope list_scope.

Section KeyLock.
  Context {K V : Type} (eqb : K -> K -> bool) (zero : V) (key : K) (PE : partial_equiv eqb).
  Notation op := (op K V).
  Notation res := (res K V).
  Notation event := (event K V).
  Notation phase := (phase K V).
  Notation own tr := (holder eqb key tr).
  Notation value := (value eqb).

  Lemma holder_snoc (tr : list event) e : own (tr ++ [e]) = next eqb key (own tr) e.
  Proof. unfold holder. now rewrite fold_left_app. Qed.
  Definition obeys (tr : list event) : Prop := forall tr1 t o tr2, tr = tr1 ++ EInv t o :: tr2 ->
    ~ wholesale o /\ (holdersOnly eqb key o -> holder eqb key tr1 t <> None).
  Lemma obeys_app (tr tr' : list event) : obeys (tr ++ tr') -> obeys tr.
  Proof. intros H tr1 t o tr2 ->. apply (H tr1 t o (tr2 ++ tr')). now rewrite <- app_assoc. Qed.
  Lemma obeys_snoc (tr : list event) e : obeys (tr ++ [e]) -> obeys tr.
  Proof. apply obeys_app. Qed.

  (** A key that is taken: by a holder, by a call about to return, or by a Delete that did not happen yet. *)
  Definition takenBy (tr : list event) (p : nat -> phase) (t : nat) : Prop :=
    own tr t <> None \/
    (exists o r, p t = PDone o r /\ acquires eqb key o r <> None) \/
    (exists k, p t = PPending (ODelete k) /\ eqb k key = true).

  Record LockInv (tr : list event) (h : list op) (p : nat -> phase) : Prop := {
    inv_one : forall t u, takenBy tr p t -> takenBy tr p u -> t = u;
    inv_there : forall t, takenBy tr p t -> value h key <> None;
    inv_own : forall t v, own tr t = Some v ->
      value h key = match p t with PDone (OSet k v') _ => if eqb k key then Some v' else Some v | _ => Some v end;
    inv_new : forall t o r v, p t = PDone o r -> acquires eqb key o r = Some v -> value h key = Some v /\ own tr t = None;
    inv_set : forall t k v, (p t = PPending (OSet k v) \/ exists r, p t = PDone (OSet k v) r) -> eqb k key = true -> own tr t <> None;
    inv_del : forall t k, (p t = PPending (ODelete k) \/ exists r, p t = PDone (ODelete k) r) -> eqb k key = true -> own tr t = None;
    inv_sees : forall t v o r, own tr t = Some v -> p t = PDone o r -> sees eqb key v o r;
    inv_whole : forall t o, (p t = PPending o \/ exists r, p t = PDone o r) -> ~ wholesale o
  }.

  (** What one effect does to the key. *)
  Lemma effect (h : list op) o r : answer1 eqb zero h o r -> ~ wholesale o ->
    (acquires eqb key o r = None /\ ~ holdersOnly eqb key o /\ value (o :: h) key = value h key /\ (forall v, value h key = Some v -> sees eqb key v o r)) \/
    (exists v, acquires eqb key o r = Some v /\ value h key = None /\ value (o :: h) key = Some v /\ ~ holdersOnly eqb key o) \/
    (exists k, o = ODelete k /\ eqb k key = true /\ value (o :: h) key = None) \/
    (exists k v, o = OSet k v /\ eqb k key = true /\ value (o :: h) key = Some v).
  Proof.
    intros HA HW.
    assert (HC : forall k, eqb k key = true -> value h k = value h key) by (intros k E; now apply value_cong).
    destruct o as [k v|k v|k|k|k|k|k v|k f| | | | | | | |fn| |fn]; cbn [answer1 wholesale acquires holdersOnly Sharded_Spec.value sees] in *; try tauto.
    - destruct (eqb k key) eqn:E; [right; right; right; eauto|left; repeat split; congruence].
    - subst r. unfold present. destruct (eqb k key) eqn:E.
      + rewrite (HC k E). destruct (value h key) as [w|] eqn:Ev; cbn [negb]; [left|right; left].
        * repeat split; auto.
        * exists v. auto.
      + left. destruct (value h k); cbn [negb]; repeat split; auto; discriminate.
    - left. repeat split; auto. intros v Ev E. rewrite HA, (HC k E), Ev. reflexivity.
    - left. repeat split; auto. intros v Ev E. rewrite HA, (HC k E), Ev. reflexivity.
    - left. repeat split; auto. intros v Ev E. rewrite HA. unfold present. rewrite (HC k E), Ev. reflexivity.
    - destruct (eqb k key) eqn:E; [right; right; left; eauto|left; repeat split; congruence].
    - subst r. destruct (eqb k key) eqn:E.
      + rewrite (HC k E). destruct (value h key) as [w|] eqn:Ev; [left|right; left].
        * repeat split; auto. congruence.
        * exists v. auto.
      + left. destruct (value h k); repeat split; auto; discriminate.
    - subst r. destruct (eqb k key) eqn:E.
      + rewrite (HC k E). destruct f as [v|], (value h key) as [w|] eqn:Ev.
        * left. repeat split; auto. congruence.
        * right. left. exists v. auto.
        * left. repeat split; auto. congruence.
        * left. repeat split; auto. discriminate.
      + left. destruct f as [v|], (value h k); repeat split; auto; discriminate.
  Qed.

  (** A goroutine other than [t] is as it was. *)
  Definition same (tr tr' : list event) (p p' : nat -> phase) (t : nat) : Prop :=
    forall u, t <> u -> own tr' u = own tr u /\ p' u = p u.
  Lemma same_taken tr tr' p p' t u : same tr tr' p p' t -> t <> u -> takenBy tr' p' u -> takenBy tr p u.
  Proof. intros HS N. destruct (HS u N) as [E1 E2]. unfold takenBy. now rewrite E1, E2. Qed.

  Lemma invariant tr h p : linearized eqb zero tr h p -> obeys tr -> LockInv tr h p.
  Proof.
    induction 1 as [|tr h p t o L IH Pt|tr h p t o r L IH Pt A|tr h p t o r L IH Pt|tr h p t o L IH]; intros HD.
    - constructor; try (intros; discriminate).
      + intros t u [H|[(o & r & H & _)|(k & H & _)]]; [now destruct H|discriminate..].
      + intros t [H|[(o & r & H & _)|(k & H & _)]]; [now destruct H|discriminate..].
      + intros t k v [H|[r H]]; discriminate.
      + reflexivity.
      + intros t o [H|[r H]]; discriminate.
    - (* a call *)
      specialize (IH (obeys_snoc _ _ HD)). destruct (HD tr t o [] eq_refl) as [HW HH].
      set (tr' := tr ++ [EInv t o]). set (p' := fupd p t (PPending o)).
      assert (HO : own tr' = match o with ODelete k => if eqb k key then fupd (own tr) t None else own tr | _ => own tr end).
      { unfold tr'. rewrite holder_snoc. destruct o; reflexivity. }
      assert (HS : same tr tr' p p' t).
      { intros u N. split; [|unfold p'; now rewrite fupd_other]. rewrite HO. destruct o; try reflexivity. destruct (eqb key0 key); [now rewrite fupd_other|reflexivity]. }
      assert (Ep : p' t = PPending o) by (unfold p'; now rewrite fupd_same).
      assert (HO2 : own tr' t = own tr t \/ own tr' t = None /\ exists k, o = ODelete k /\ eqb k key = true /\ own tr t <> None).
      { rewrite HO. destruct o; auto. destruct (eqb key0 key) eqn:E; auto. right. rewrite fupd_same. split; [reflexivity|]. exists key0. cbn in HH. auto. }
      assert (HT : forall u, takenBy tr' p' u -> takenBy tr p u).
      { intros u Hu. destruct (Nat.eq_dec t u) as [<-|N]; [|now apply (same_taken _ _ _ _ _ _ HS N)].
        left. destruct Hu as [Hu|[(o' & r & Hu & _)|(k & Hu & Ek)]].
        - destruct HO2 as [E|[E _]]; congruence.
        - congruence.
        - rewrite Ep in Hu. injection Hu as ->. apply HH. exact Ek. }
      destruct IH as [J1 J2 J3 J4 J5 J6 J7 J8]. constructor.
      + intros u w Hu Hw. apply J1; auto.
      + intros u Hu. apply (J2 u). auto.
      + intros u v E. destruct (Nat.eq_dec t u) as [<-|N].
        * rewrite Ep. destruct HO2 as [E2|[E2 _]]; [|congruence]. rewrite E2 in E. apply J3 in E. now rewrite Pt in E.
        * destruct (HS u N) as [E1 E2]. rewrite E1 in E. rewrite E2. now apply J3.
      + intros u o' r v E. destruct (Nat.eq_dec t u) as [<-|N]; [congruence|]. destruct (HS u N) as [E1 E2]. rewrite E1. rewrite E2 in E. now apply J4 with (1 := E).
      + intros u k v E Ek. destruct (Nat.eq_dec t u) as [<-|N].
        * destruct E as [E|[r E]]; [|congruence]. rewrite Ep in E. injection E as ->. rewrite HO. apply HH. exact Ek.
        * destruct (HS u N) as [E1 E2]. rewrite E1. rewrite E2 in E. now apply J5 with (1 := E).
      + intros u k E Ek. destruct (Nat.eq_dec t u) as [<-|N].
        * destruct E as [E|[r E]]; [|congruence]. rewrite Ep in E. injection E as ->. rewrite HO, Ek. now rewrite fupd_same.
        * destruct (HS u N) as [E1 E2]. rewrite E1. rewrite E2 in E. now apply J6 with (1 := E).
      + intros u v o' r E Eu. destruct (Nat.eq_dec t u) as [<-|N]; [congruence|]. destruct (HS u N) as [E1 E2]. rewrite E1 in E. rewrite E2 in Eu. now apply (J7 u).
      + intros u o' E. destruct (Nat.eq_dec t u) as [<-|N].
        * destruct E as [E|[r E]]; congruence.
        * destruct (HS u N) as [E1 E2]. rewrite E2 in E. now apply (J8 u).
    - (* an effect *)
      specialize (IH HD). destruct IH as [J1 J2 J3 J4 J5 J6 J7 J8].
      set (p' := fupd p t (PDone o r)).
      assert (HS : same tr tr p p' t) by (intros u N; split; [reflexivity|unfold p'; now rewrite fupd_other]).
      assert (Ep : p' t = PDone o r) by (unfold p'; now rewrite fupd_same).
      assert (HW : ~ wholesale o) by (apply (J8 t); now left).
      assert (K5 : forall u k v, (p' u = PPending (OSet k v) \/ exists r, p' u = PDone (OSet k v) r) -> eqb k key = true -> own tr u <> None).
      { intros u k v E Ek. destruct (Nat.eq_dec t u) as [<-|N].
        - apply (J5 t k v); [|exact Ek]. destruct E as [E|[r' E]]; [congruence|]. rewrite Ep in E. injection E as -> ->. now left.
        - destruct (HS u N) as [_ E2]. rewrite E2 in E. now apply J5 with (1 := E). }
      assert (K6 : forall u k, (p' u = PPending (ODelete k) \/ exists r, p' u = PDone (ODelete k) r) -> eqb k key = true -> own tr u = None).
      { intros u k E Ek. destruct (Nat.eq_dec t u) as [<-|N].
        - apply (J6 t k); [|exact Ek]. destruct E as [E|[r' E]]; [congruence|]. rewrite Ep in E. injection E as -> ->. now left.
        - destruct (HS u N) as [_ E2]. rewrite E2 in E. now apply J6 with (1 := E). }
      assert (K8 : forall u o', (p' u = PPending o' \/ exists r, p' u = PDone o' r) -> ~ wholesale o').
      { intros u o' E. destruct (Nat.eq_dec t u) as [<-|N].
        - destruct E as [E|[r' E]]; [congruence|]. rewrite Ep in E. injection E as -> ->. exact HW.
        - destruct (HS u N) as [_ E2]. rewrite E2 in E. now apply (J8 u). }
      destruct (effect h o r A HW) as [(EA & HN & EV & ES)|[(v & EA & EN & EV & HN)|[(k & -> & Ek & EV)|(k & v & -> & Ek & EV)]]].
      + (* nothing happens to the key *)
        assert (HT : forall u, takenBy tr p' u -> takenBy tr p u).
        { intros u Hu. destruct (Nat.eq_dec t u) as [<-|N]; [|now apply (same_taken _ _ _ _ _ _ HS N)].
          destruct Hu as [Hu|[(o' & r' & Hu & Ha)|(k & Hu & Ek)]]; [now left| |congruence].
          rewrite Ep in Hu. injection Hu as <- <-. congruence. }
        constructor; auto.
        * intros u Hu. rewrite EV. apply (J2 u). auto.
        * intros u v E. rewrite EV. destruct (Nat.eq_dec t u) as [<-|N].
          -- rewrite Ep. apply J3 in E as E3. rewrite Pt in E3. rewrite E3. destruct o; try reflexivity. cbn in HN. destruct (eqb key0 key); [now destruct HN|reflexivity].
          -- destruct (HS u N) as [_ E2]. rewrite E2. now apply J3.
        * intros u o' r' v E Ea. destruct (Nat.eq_dec t u) as [<-|N].
          -- rewrite Ep in E. injection E as <- <-. congruence.
          -- destruct (HS u N) as [_ E2]. rewrite E2 in E. rewrite EV. now apply J4 with (1 := E).
        * intros u v o' r' E Eu. destruct (Nat.eq_dec t u) as [<-|N].
          -- rewrite Ep in Eu. injection Eu as <- <-. apply ES. apply J3 in E. now rewrite Pt in E.
          -- destruct (HS u N) as [_ E2]. rewrite E2 in Eu. now apply (J7 u).
      + (* the key is taken *)
        assert (HF : forall u, ~ takenBy tr p u) by (intros u Hu; now apply (J2 u)).
        assert (HO : forall u, own tr u = None).
        { intros u. destruct (own tr u) eqn:E; [|reflexivity]. exfalso. apply (HF u). left. congruence. }
        assert (HT : forall u, takenBy tr p' u -> t = u).
        { intros u Hu. destruct (Nat.eq_dec t u) as [e|N]; [exact e|]. exfalso. apply (HF u). now apply (same_taken _ _ _ _ _ _ HS N). }
        constructor; auto.
        * intros u w Hu Hw. now rewrite <- (HT u Hu), <- (HT w Hw).
        * intros u _. rewrite EV. discriminate.
        * intros u v' E. rewrite HO in E. discriminate.
        * intros u o' r' v' E Ea. split; [|apply HO]. destruct (Nat.eq_dec t u) as [<-|N].
          -- rewrite Ep in E. injection E as <- <-. congruence.
          -- exfalso. apply (HF u). right. left. destruct (HS u N) as [_ E2]. rewrite E2 in E. exists o', r'. split; [exact E|congruence].
        * intros u v' o' r' E. rewrite HO in E. discriminate.
      + (* the key is deleted *)
        assert (Ht : takenBy tr p t) by (right; right; eauto).
        assert (HF : forall u, ~ takenBy tr p' u).
        { intros u Hu. destruct (Nat.eq_dec t u) as [<-|N].
          - destruct Hu as [Hu|[(o' & r' & Hu & Ha)|(k' & Hu & Ek')]]; [|rewrite Ep in Hu; injection Hu as <- <-; now destruct Ha|congruence].
            apply Hu. apply (J6 t k); [now left|exact Ek].
          - apply N. apply J1; [exact Ht|]. now apply (same_taken _ _ _ _ _ _ HS N). }
        assert (HO : forall u, own tr u = None).
        { intros u. destruct (own tr u) eqn:E; [|reflexivity]. exfalso. apply (HF u). left. congruence. }
        constructor; auto.
        * intros u w Hu. now apply HF in Hu.
        * intros u Hu. now apply HF in Hu.
        * intros u v' E. rewrite HO in E. discriminate.
        * intros u o' r' v' E Ea. exfalso. apply (HF u). right. left. exists o', r'. split; [exact E|congruence].
        * intros u v' o' r' E. rewrite HO in E. discriminate.
      + (* the holder changes the value *)
        assert (Ho : own tr t <> None) by (apply (J5 t k v); [now left|exact Ek]).
        assert (HT : forall u, takenBy tr p' u -> t = u).
        { intros u Hu. destruct (Nat.eq_dec t u) as [e|N]; [exact e|]. apply J1; [now left|]. now apply (same_taken _ _ _ _ _ _ HS N). }
        constructor; auto.
        * intros u w Hu Hw. now rewrite <- (HT u Hu), <- (HT w Hw).
        * intros u _. rewrite EV. discriminate.
        * intros u v' E. assert (t = u) as <- by (apply HT; left; congruence). rewrite Ep, Ek. exact EV.
        * intros u o' r' v' E Ea. assert (t = u) as <- by (apply HT; right; left; exists o', r'; split; [exact E|congruence]).
          rewrite Ep in E. injection E as <- <-. discriminate.
        * intros u v' o' r' E Eu. assert (t = u) as <- by (apply HT; left; congruence). rewrite Ep in Eu. injection Eu as <- <-. exact I.
    - (* a return *)
      specialize (IH (obeys_snoc _ _ HD)).
      set (tr' := tr ++ [ERet t o r]). set (p' := fupd p t PIdle).
      assert (HO : own tr' = next eqb key (own tr) (ERet t o r)) by (unfold tr'; apply holder_snoc).
      assert (HS : same tr tr' p p' t).
      { intros u N. split; [|unfold p'; now rewrite fupd_other]. rewrite HO. cbn [next]. destruct (acquires eqb key o r); [now rewrite fupd_other|].
        destruct o; try reflexivity. destruct (eqb key0 key); [now rewrite fupd_other|reflexivity]. }
      assert (Ep : p' t = PIdle) by (unfold p'; now rewrite fupd_same).
      assert (HO2 : (acquires eqb key o r = None /\ own tr' t = own tr t /\ (forall k v, o = OSet k v -> eqb k key = false)) \/
        (exists v, acquires eqb key o r = Some v /\ own tr' t = Some v) \/
        (exists k v, o = OSet k v /\ eqb k key = true /\ own tr' t = Some v)).
      { rewrite HO. cbn [next]. destruct (acquires eqb key o r) as [v|] eqn:Ea; [right; left; exists v; now rewrite fupd_same|].
        destruct o; try (left; repeat split; auto; intros; discriminate).
        destruct (eqb key0 key) eqn:E; [right; right; exists key0, v; rewrite fupd_same; auto|left; repeat split; auto; congruence]. }
      destruct IH as [J1 J2 J3 J4 J5 J6 J7 J8].
      assert (HT : forall u, takenBy tr' p' u -> takenBy tr p u).
      { intros u Hu. destruct (Nat.eq_dec t u) as [<-|N]; [|now apply (same_taken _ _ _ _ _ _ HS N)].
        destruct Hu as [Hu|[(o' & r' & Hu & _)|(k & Hu & Ek)]]; [|congruence..].
        destruct HO2 as [(_ & E & _)|[(v & Ea & _)|(k & v & -> & Ek & _)]].
        - left. congruence.
        - right. left. exists o, r. split; [exact Pt|congruence].
        - left. apply (J5 t k v); [right; eauto|exact Ek]. }
      constructor.
      + intros u w Hu Hw. apply J1; auto.
      + intros u Hu. apply (J2 u). auto.
      + intros u v E. destruct (Nat.eq_dec t u) as [<-|N].
        * rewrite Ep. destruct HO2 as [(_ & E2 & HN)|[(w & Ea & E2)|(k & w & -> & Ek & E2)]].
          -- rewrite E2 in E. apply J3 in E. rewrite Pt in E. rewrite E. destruct o; try reflexivity. now rewrite (HN _ _ eq_refl).
          -- rewrite E2 in E. injection E as ->. now apply (J4 t o r).
          -- rewrite E2 in E. injection E as ->. destruct (own tr t) as [x|] eqn:Ex; [|exfalso; revert Ex; apply (J5 t k v); [right; eauto|exact Ek]].
             apply J3 in Ex. rewrite Pt, Ek in Ex. exact Ex.
        * destruct (HS u N) as [E1 E2]. rewrite E1 in E. rewrite E2. now apply J3.
      + intros u o' r' v E. destruct (Nat.eq_dec t u) as [<-|N]; [congruence|]. destruct (HS u N) as [E1 E2]. rewrite E1. rewrite E2 in E. now apply J4 with (1 := E).
      + intros u k v E Ek. destruct (Nat.eq_dec t u) as [<-|N]; [destruct E as [E|[r' E]]; congruence|].
        destruct (HS u N) as [E1 E2]. rewrite E1. rewrite E2 in E. now apply J5 with (1 := E).
      + intros u k E Ek. destruct (Nat.eq_dec t u) as [<-|N]; [destruct E as [E|[r' E]]; congruence|].
        destruct (HS u N) as [E1 E2]. rewrite E1. rewrite E2 in E. now apply J6 with (1 := E).
      + intros u v o' r' E Eu. destruct (Nat.eq_dec t u) as [<-|N]; [congruence|]. destruct (HS u N) as [E1 E2]. rewrite E1 in E. rewrite E2 in Eu. now apply (J7 u).
      + intros u o' E. destruct (Nat.eq_dec t u) as [<-|N]; [destruct E as [E|[r' E]]; congruence|].
        destruct (HS u N) as [E1 E2]. rewrite E2 in E. now apply (J8 u).
    - (* a factory runs *)
      specialize (IH (obeys_snoc _ _ HD)). destruct IH as [J1 J2 J3 J4 J5 J6 J7 J8].
      assert (HO : own (tr ++ [ECall t o]) = own tr) by (rewrite holder_snoc; reflexivity).
      constructor; unfold takenBy; rewrite ?HO; auto.
  Qed.

  (** The answers to the holder. *)
  Lemma holder_reads tr h p : linearized eqb zero tr h p -> obeys tr ->
    forall tr1 t o r tr2 v, tr = tr1 ++ ERet t o r :: tr2 -> holder eqb key tr1 t = Some v -> sees eqb key v o r.
  Proof.
    induction 1 as [|tr h p t o L IH Pt|tr h p t o r L IH Pt A|tr h p t o r L IH Pt|tr h p t o L IH]; intros HD tr1 t' o' r' tr2 v E Ho.
    - destruct tr1; discriminate.
    - destruct tr2 as [|e tr2] using rev_ind; [apply app_inj_tail in E as [_ E]; discriminate|].
      rewrite app_comm_cons, app_assoc in E. apply app_inj_tail in E as [E _]. exact (IH (obeys_snoc _ _ HD) _ _ _ _ _ _ E Ho).
    - exact (IH HD _ _ _ _ _ _ E Ho).
    - destruct tr2 as [|e tr2] using rev_ind.
      + apply app_inj_tail in E as [<- E]. injection E as <- <- <-. pose proof (invariant _ _ _ L (obeys_snoc _ _ HD)) as J. exact (inv_sees _ _ _ J t v o r Ho Pt).
      + rewrite app_comm_cons, app_assoc in E. apply app_inj_tail in E as [E _]. exact (IH (obeys_snoc _ _ HD) _ _ _ _ _ _ E Ho).
    - destruct tr2 as [|e tr2] using rev_ind; [apply app_inj_tail in E as [_ E]; discriminate|].
      rewrite app_comm_cons, app_assoc in E. apply app_inj_tail in E as [E _]. exact (IH (obeys_snoc _ _ HD) _ _ _ _ _ _ E Ho).
  Qed.

  Lemma prefix tr h p : linearized eqb zero tr h p -> forall tr1 tr2, tr = tr1 ++ tr2 -> exists h1 p1, linearized eqb zero tr1 h1 p1.
  Proof.
    induction 1 as [|tr h p t o L IH Pt|tr h p t o r L IH Pt A|tr h p t o r L IH Pt|tr h p t o L IH]; intros tr1 tr2 E.
    - symmetry in E. apply app_eq_nil in E as [-> _]. eexists _, _. constructor.
    - destruct tr2 as [|e tr2] using rev_ind; [rewrite app_nil_r in E; subst tr1; eexists _, _; eapply lin_inv; eassumption|].
      rewrite app_assoc in E. apply app_inj_tail in E as [E _]. eauto.
    - eauto.
    - destruct tr2 as [|e tr2] using rev_ind; [rewrite app_nil_r in E; subst tr1; eexists _, _; eapply lin_ret; eassumption|].
      rewrite app_assoc in E. apply app_inj_tail in E as [E _]. eauto.
    - destruct tr2 as [|e tr2] using rev_ind; [rewrite app_nil_r in E; subst tr1; eexists _, _; apply lin_call; eassumption|].
      rewrite app_assoc in E. apply app_inj_tail in E as [E _]. eauto.
  Qed.

  (** ** Nobody deletes or sets the key *)
  Definition free (tr : list event) : Prop := forall t o, In (EInv t o) tr -> ~ wholesale o /\ ~ holdersOnly eqb key o.
  Lemma free_obeys tr : free tr -> obeys tr.
  Proof. intros H tr1 t o tr2 ->. destruct (H t o) as [H1 H2]; [apply in_or_app; right; now left|]. split; [exact H1|]. intros HH. now destruct H2. Qed.
  Lemma keeps tr2 : forall tr1 t, free (tr1 ++ tr2) -> own tr1 t <> None -> own (tr1 ++ tr2) t <> None.
  Proof.
    induction tr2 as [|e tr2 IH] using rev_ind; intros tr1 t HF H; [now rewrite app_nil_r|].
    rewrite app_assoc, holder_snoc. assert (HF' : free (tr1 ++ tr2)).
    { intros u o Hi. apply (HF u o). rewrite app_assoc. apply in_or_app. now left. }
    specialize (IH tr1 t HF' H). destruct e as [u o|u o r|u o]; cbn [next]; [| |exact IH].
    - destruct o; try exact IH. destruct (HF u (ODelete key0)) as [_ HN]; [rewrite app_assoc; apply in_or_app; right; now left|].
      cbn in HN. destruct (eqb key0 key); [now destruct HN|exact IH].
    - assert (HU : forall v, fupd (own (tr1 ++ tr2)) u (Some v) t <> None).
      { intros v. destruct (fupd_case (own (tr1 ++ tr2)) u t (Some v)) as [[_ ->]|[_ ->]]; [discriminate|exact IH]. }
      destruct (acquires eqb key o r); [apply HU|]. destruct o; try exact IH. destruct (eqb key0 key); [apply HU|exact IH].
  Qed.
  Lemma one_winner tr h p : linearized eqb zero tr h p -> free tr ->
    forall tr1 t o r tr2 u o' r', tr = tr1 ++ ERet t o r :: tr2 -> acquires eqb key o r <> None ->
      In (ERet u o' r') tr2 -> acquires eqb key o' r' = None.
  Proof.
    intros L HF tr1 t o r tr2 u o' r' E Ha Hi. destruct (acquires eqb key o' r') as [v'|] eqn:Ea; [|reflexivity]. exfalso.
    apply in_split in Hi as (tra & trb & ->).
    set (a := (tr1 ++ [ERet t o r]) ++ tra). assert (Et : tr = (a ++ [ERet u o' r']) ++ trb).
    { rewrite E. unfold a. rewrite <- !app_assoc. reflexivity. }
    assert (HFa : free (a ++ [ERet u o' r'])) by (intros w x Hx; apply (HF w x); rewrite Et; apply in_or_app; now left).
    destruct (prefix _ _ _ L _ _ Et) as (h1 & p1 & L1).
    pose proof (invariant _ _ _ L1 (free_obeys _ HFa)) as J.
    assert (H1 : own (tr1 ++ [ERet t o r]) t <> None).
    { rewrite holder_snoc. cbn [next]. destruct (acquires eqb key o r); [rewrite fupd_same; discriminate|congruence]. }
    assert (HFb : free a) by (intros w x Hx; apply (HFa w x), in_or_app; now left).
    assert (H2 : own a t <> None) by (apply keeps; assumption).
    assert (H3 : own (a ++ [ERet u o' r']) t <> None) by (apply keeps; assumption).
    assert (H4 : own (a ++ [ERet u o' r']) u <> None) by (rewrite holder_snoc; cbn [next]; rewrite Ea, fupd_same; discriminate).
    assert (t = u) as <- by (apply (inv_one _ _ _ J); now left).
    destruct (own a t) as [v|] eqn:Ev; [|now apply H2].
    pose proof (holder_reads _ _ _ L1 (free_obeys _ HFa) a t o' r' [] v eq_refl Ev) as HR.
    destruct o' as [k w|k w|k|k|k|k|k w|k f| | | | | | | |fn| |fn]; cbn [acquires sees] in *; try discriminate.
    - destruct r' as [|[]| | | | | | | | | |]; try discriminate. destruct (eqb k key); [|discriminate]. now specialize (HR eq_refl).
    - destruct r' as [| | |? []| | | | | | | |]; try discriminate. destruct (eqb k key); [|discriminate]. now specialize (HR eq_refl).
    - destruct f; [|discriminate]. destruct r' as [| | |? []| | | | | | | |]; try discriminate. destruct (eqb k key); [|discriminate]. now specialize (HR eq_refl).
  Qed.

  Lemma all_agree tr h p : linearized eqb zero tr h p -> free tr ->
    (forall t o r v, p t = PDone o r -> tells eqb key o r v -> value h key = Some v) /\
    (forall t o r v, In (ERet t o r) tr -> tells eqb key o r v -> value h key = Some v) /\
    (forall t o, p t = PPending o -> ~ wholesale o /\ ~ holdersOnly eqb key o).
  Proof.
    induction 1 as [|tr h p t o L IH Pt|tr h p t o r L IH Pt A|tr h p t o r L IH Pt|tr h p t o L IH]; intros HF.
    - repeat split; try discriminate. intros t o r v [].
    - destruct IH as (I1 & I2 & I3); [intros u x Hx; apply (HF u x), in_or_app; now left|]. split; [|split].
      + intros u o' r v E. destruct (fupd_case p t u (PPending o)) as [[_ E2]|[_ E2]]; rewrite E2 in E; [discriminate|eauto].
      + intros u o' r v Hi. apply in_app_or in Hi as [Hi|[Hi|[]]]; [eauto|discriminate].
      + intros u o' E. destruct (fupd_case p t u (PPending o)) as [[_ E2]|[_ E2]]; rewrite E2 in E; [|eauto].
        injection E as <-. apply (HF t o), in_or_app. right. now left.
    - destruct (IH HF) as (I1 & I2 & I3). destruct (I3 t o Pt) as [HW HN].
      assert (HK : forall v, value h key = Some v -> value (o :: h) key = Some v).
      { intros v Ev. destruct (effect h o r A HW) as [(_ & _ & E & _)|[(w & _ & E & _)|[(k & -> & Ek & _)|(k & w & -> & Ek & _)]]]; [congruence|congruence|now destruct HN..]. }
      split; [|split].
      + intros u o' r' v E HT. destruct (fupd_case p t u (PDone o r)) as [[_ E2]|[_ E2]]; rewrite E2 in E; [|eauto].
        injection E as <- <-. destruct (effect h o r A HW) as [(Ea & _ & E & ES)|[(w & Ea & EN & E & _)|[(k & -> & Ek & _)|(k & w & -> & Ek & _)]]]; [| |now destruct HN..].
        * assert (HC : forall k, eqb k key = true -> value h k = value h key) by (intros k E'; now apply value_cong). rewrite E.
          destruct o as [k w|k w|k|k|k|k|k w|k f| | | | | | | |fn| |fn]; cbn [tells answer1 acquires] in *; try contradiction.
          -- destruct HT as (Ek & -> & ->). rewrite Ek in Ea. discriminate.
          -- destruct HT as (Ek & ->). rewrite (HC k Ek) in A. destruct (value h key); congruence.
          -- destruct HT as (Ek & ->). rewrite (HC k Ek) in A. destruct (value h key); congruence.
          -- destruct HT as (Ek & b & ->). rewrite (HC k Ek) in A. rewrite Ek in Ea. destruct (value h key); [congruence|]. injection A as -> ->. discriminate.
          -- destruct HT as (Ek & b & ->). rewrite (HC k Ek) in A. rewrite Ek in Ea. destruct (value h key); [congruence|]. destruct f; [|discriminate]. injection A as -> ->. discriminate.
        * rewrite E. assert (HC : forall k, eqb k key = true -> value h k = value h key) by (intros k E'; now apply value_cong).
          destruct o as [k x|k x|k|k|k|k|k x|k f| | | | | | | |fn| |fn]; cbn [tells answer1 acquires] in *; try contradiction; try discriminate.
          -- destruct HT as (Ek & -> & ->). rewrite Ek in Ea. congruence.
          -- destruct HT as (Ek & b & ->). rewrite Ek in Ea. rewrite (HC k Ek), EN in A. injection A as -> ->. congruence.
          -- destruct HT as (Ek & b & ->). rewrite Ek in Ea. rewrite (HC k Ek), EN in A. destruct f; [|discriminate]. injection A as -> ->. congruence.
      + intros u o' r' v Hi HT. apply HK. eauto.
      + intros u o' E. destruct (fupd_case p t u (PDone o r)) as [[_ E2]|[_ E2]]; rewrite E2 in E; [discriminate|eauto].
    - destruct IH as (I1 & I2 & I3); [intros u x Hx; apply (HF u x), in_or_app; now left|]. split; [|split].
      + intros u o' r' v E. destruct (fupd_case p t u PIdle) as [[_ E2]|[_ E2]]; rewrite E2 in E; [discriminate|eauto].
      + intros u o' r' v Hi. apply in_app_or in Hi as [Hi|[Hi|[]]]; [eauto|]. injection Hi as <- <- <-. eauto.
      + intros u o' E. destruct (fupd_case p t u PIdle) as [[_ E2]|[_ E2]]; rewrite E2 in E; [discriminate|eauto].
    - destruct IH as (I1 & I2 & I3); [intros u x Hx; apply (HF u x), in_or_app; now left|]. split; [exact I1|]. split; [|exact I3].
      intros u o' r' v Hi. apply in_app_or in Hi as [Hi|[Hi|[]]]; [eauto|discriminate].
  Qed.

  (** ** A key that is not equal to itself *)
  Lemma never_there (h : list op) : eqb key key = false -> value h key = None.
  Proof.
    intros HN. assert (HF : forall k, eqb k key = false).
    { intros k. destruct (eqb k key) eqn:E; [|reflexivity]. pose proof (pe_trans _ PE _ _ _ (pe_sym _ PE _ _ E) E). congruence. }
    induction h as [|o h IH]; [reflexivity|]. destruct o as [k x|k x|k|k|k|k|k x|k f| | | | | | | |fn| |fn]; cbn [Sharded_Spec.value]; rewrite ?HF; auto.
    - destruct (value h k); exact IH.
    - destruct (value h k); exact IH.
    - destruct f; [destruct (value h k)|]; exact IH.
  Qed.
  Lemma never_taken tr h p : linearized eqb zero tr h p -> eqb key key = false ->
    forall t v r, In (ERet t (OTrySet key v) r) tr -> r = RBool true.
  Proof.
    intros L HN.
    assert (HI : (forall t v r, In (ERet t (OTrySet key v) r) tr -> r = RBool true) /\ (forall t v r, p t = PDone (OTrySet key v) r -> r = RBool true)); [|apply HI].
    induction L as [|tr h p t o L [I1 I2] Pt|tr h p t o r L [I1 I2] Pt A|tr h p t o r L [I1 I2] Pt|tr h p t o L [I1 I2]].
    - split; [intros t v r []|discriminate].
    - split.
      + intros u v r Hi. apply in_app_or in Hi as [Hi|[Hi|[]]]; [eauto|discriminate].
      + intros u v r E. destruct (fupd_case p t u (PPending o)) as [[_ E2]|[_ E2]]; rewrite E2 in E; [discriminate|eauto].
    - split; [exact I1|]. intros u v r' E. destruct (fupd_case p t u (PDone o r)) as [[_ E2]|[_ E2]]; rewrite E2 in E; [|eauto].
      injection E as -> ->. cbn [answer1] in A. unfold present in A. now rewrite (never_there h HN) in A.
    - split.
      + intros u v r' Hi. apply in_app_or in Hi as [Hi|[Hi|[]]]; [eauto|]. injection Hi as <- -> <-. eauto.
      + intros u v r' E. destruct (fupd_case p t u PIdle) as [[_ E2]|[_ E2]]; rewrite E2 in E; [discriminate|eauto].
    - split; [|exact I2]. intros u v r Hi. apply in_app_or in Hi as [Hi|[Hi|[]]]; [eauto|discriminate].
  Qed.

  (** ** A TrySet fails only if the key is taken *)
  Lemma current_snoc (tr : list event) e : current (tr ++ [e]) = enter (current tr) e.
  Proof. unfold current. now rewrite fold_left_app. Qed.
  Lemma phase_current tr h p : linearized eqb zero tr h p ->
    forall t, current tr t = match p t with PIdle => None | PPending o | PDone o _ => Some o end.
  Proof.
    induction 1 as [|tr h p t o L IH Pt|tr h p t o r L IH Pt A|tr h p t o r L IH Pt|tr h p t o L IH]; intros u.
    - reflexivity.
    - rewrite current_snoc. cbn [enter]. destruct (Nat.eq_dec t u) as [<-|N]; [now rewrite !fupd_same|]. now rewrite !fupd_other.
    - destruct (Nat.eq_dec t u) as [<-|N]; [rewrite fupd_same, IH, Pt; reflexivity|]. now rewrite fupd_other.
    - rewrite current_snoc. cbn [enter]. destruct (Nat.eq_dec t u) as [<-|N]; [now rewrite !fupd_same|]. now rewrite !fupd_other.
    - rewrite current_snoc. cbn [enter]. apply IH.
  Qed.
  Lemma taken_somebody tr h p : linearized eqb zero tr h p -> obeys tr -> value h key <> None -> exists t, takenBy tr p t.
  Proof.
    induction 1 as [|tr h p t o L IH Pt|tr h p t o r L IH Pt A|tr h p t o r L IH Pt|tr h p t o L IH]; intros HD HV.
    - now destruct HV.
    - destruct (IH (obeys_snoc _ _ HD) HV) as [u Hu]. exists u. unfold takenBy in *. rewrite holder_snoc. cbn [next].
      destruct (Nat.eq_dec t u) as [<-|N].
      + destruct Hu as [Hu|[(o' & r & Hu & _)|(k & Hu & _)]]; [|congruence..]. rewrite fupd_same. destruct o; auto.
        destruct (eqb key0 key) eqn:E; auto. right. right. eauto.
      + rewrite fupd_other by exact N. destruct o; auto. destruct (eqb key0 key); [rewrite fupd_other by exact N|]; auto.
    - pose proof (invariant _ _ _ L HD) as J.
      assert (HW : ~ wholesale o) by (apply (inv_whole _ _ _ J t); now left).
      destruct (effect h o r A HW) as [(Ea & HN & EV & _)|[(v & Ea & _)|[(k & -> & Ek & EV)|(k & v & -> & Ek & _)]]].
      + rewrite EV in HV. destruct (IH HD HV) as [u Hu]. exists u. unfold takenBy in *. destruct (Nat.eq_dec t u) as [<-|N]; [|now rewrite fupd_other].
        destruct Hu as [Hu|[(o' & r' & Hu & _)|(k & Hu & Ek)]]; [now left|congruence|]. rewrite Pt in Hu. injection Hu as ->. now destruct HN.
      + exists t. right. left. exists o, r. rewrite fupd_same. split; [reflexivity|congruence].
      + congruence.
      + exists t. left. apply (inv_set _ _ _ J t k v); [now left|exact Ek].
    - destruct (IH (obeys_snoc _ _ HD) HV) as [u Hu]. exists u. unfold takenBy in *. rewrite holder_snoc. cbn [next].
      destruct (Nat.eq_dec t u) as [<-|N].
      + left. destruct Hu as [Hu|[(o' & r' & Hu & Ha)|(k & Hu & _)]]; [| |congruence].
        * destruct (acquires eqb key o r); [rewrite fupd_same; discriminate|]. destruct o; auto. destruct (eqb key0 key); [rewrite fupd_same; discriminate|exact Hu].
        * rewrite Pt in Hu. injection Hu as <- <-. destruct (acquires eqb key o r); [rewrite fupd_same; discriminate|congruence].
      + rewrite (fupd_other p) by exact N.
        destruct (acquires eqb key o r); [now rewrite fupd_other by exact N|]. destruct o; auto. destruct (eqb key0 key); [now rewrite fupd_other by exact N|exact Hu].
    - destruct (IH (obeys_snoc _ _ HD) HV) as [u Hu]. exists u. unfold takenBy in *. rewrite holder_snoc. exact Hu.
  Qed.

  Lemma without_app u a b : without u (a ++ b) <-> without u a /\ without (K := K) (V := V) u b.
  Proof. unfold without. split; [intros H; split; intros e He; apply (H e), in_or_app; auto|]. intros [H1 H2] e He. apply in_app_or in He as [He|He]; [exact (H1 e He)|exact (H2 e He)]. Qed.

  Definition began (tr : list event) (u : nat) (o : op) (Q : list event -> Prop) : Prop :=
    exists a b c, tr = a ++ EInv u o :: b ++ c /\ without u (b ++ c) /\ Q (a ++ EInv u o :: b).
  Lemma began_more tr e u o Q : began tr u o Q -> without u [e] -> began (tr ++ [e]) u o Q.
  Proof.
    intros (a & b & c & -> & HW & HQ) He. exists a, b, (c ++ [e]). rewrite <- app_assoc. cbn [app]. rewrite <- app_assoc.
    split; [reflexivity|]. split; [|exact HQ]. rewrite app_assoc, without_app. auto.
  Qed.
  Lemma failing tr h p : linearized eqb zero tr h p -> obeys tr ->
    (forall u o, p u = PPending o -> began tr u o (fun _ => True)) /\
    (forall u k v, p u = PDone (OTrySet k v) (RBool false) -> eqb k key = true -> began tr u (OTrySet k v) (contended eqb key u)).
  Proof.
    induction 1 as [|tr h p t o L IH Pt|tr h p t o r L IH Pt A|tr h p t o r L IH Pt|tr h p t o L IH]; intros HD.
    - split; discriminate.
    - destruct (IH (obeys_snoc _ _ HD)) as [I1 I2]. split.
      + intros u o' E. destruct (fupd_case p t u (PPending o)) as [[<- E2]|[N E2]]; rewrite E2 in E.
        * injection E as <-. exists tr, [], []. split; [reflexivity|]. split; [intros e []|exact I].
        * apply began_more; [now apply I1|]. intros e [<-|[]]. exact N.
      + intros u k v E Ek. destruct (fupd_case p t u (PPending o)) as [[<- E2]|[N E2]]; rewrite E2 in E; [discriminate|].
        apply began_more; [now apply I2|]. intros e [<-|[]]. exact N.
    - destruct (IH HD) as [I1 I2]. split.
      + intros u o' E. destruct (fupd_case p t u (PDone o r)) as [[<- E2]|[N E2]]; rewrite E2 in E; [discriminate|now apply I1].
      + intros u k v E Ek. destruct (fupd_case p t u (PDone o r)) as [[<- E2]|[N E2]]; rewrite E2 in E; [|now apply I2].
        injection E as -> ->. cbn [answer1] in A. injection A as A.
        assert (HV : value h key <> None).
        { unfold present in A. rewrite (value_cong eqb PE h _ _ Ek) in A. destruct (value h key); discriminate. }
        destruct (taken_somebody _ _ _ L HD HV) as [w Hw]. destruct (I1 t _ Pt) as (a & b & c & -> & HW & _).
        exists a, (b ++ c), []. rewrite app_nil_r. split; [reflexivity|]. split; [exact HW|].
        destruct Hw as [Hw|[(o' & r & Hw & Ha)|(k' & Hw & Ek')]]; [left; eauto|right..].
        * exists w, o'. split; [intros ->; congruence|]. rewrite (phase_current _ _ _ L), Hw. split; [reflexivity|].
          destruct o' as [k0 x|k0 x|k0|k0|k0|k0|k0 x|k0 f| | | | | | | |fn| |fn]; cbn [acquires concerns] in *; try congruence; destruct (eqb k0 key); try reflexivity; exfalso; apply Ha.
          -- now destruct r as [|[]| | | | | | | | | |].
          -- now destruct r as [| | |? []| | | | | | | |].
          -- destruct f; [|reflexivity]. now destruct r as [| | |? []| | | | | | | |].
        * exists w, (ODelete k'). split; [intros ->; congruence|]. rewrite (phase_current _ _ _ L), Hw. auto.
    - destruct (IH (obeys_snoc _ _ HD)) as [I1 I2]. split.
      + intros u o' E. destruct (fupd_case p t u PIdle) as [[<- E2]|[N E2]]; rewrite E2 in E; [discriminate|].
        apply began_more; [now apply I1|]. intros e [<-|[]]. exact N.
      + intros u k v E Ek. destruct (fupd_case p t u PIdle) as [[<- E2]|[N E2]]; rewrite E2 in E; [discriminate|].
        apply began_more; [now apply I2|]. intros e [<-|[]]. exact N.
    - destruct (IH (obeys_snoc _ _ HD)) as [I1 I2]. split; intros; (apply began_more; [auto|intros e [<-|[]]; exact I]).
  Qed.
  Lemma fails_contended tr h p : linearized eqb zero tr h p -> obeys tr ->
    forall tr1 u k v tr2, tr = tr1 ++ ERet u (OTrySet k v) (RBool false) :: tr2 -> eqb k key = true ->
      began tr1 u (OTrySet k v) (contended eqb key u).
  Proof.
    induction 1 as [|tr h p t o L IH Pt|tr h p t o r L IH Pt A|tr h p t o r L IH Pt|tr h p t o L IH]; intros HD tr1 u k v tr2 E Ek.
    - destruct tr1; discriminate.
    - destruct tr2 as [|e tr2] using rev_ind; [apply app_inj_tail in E as [_ E]; discriminate|].
      rewrite app_comm_cons, app_assoc in E. apply app_inj_tail in E as [E _]. exact (IH (obeys_snoc _ _ HD) _ _ _ _ _ E Ek).
    - exact (IH HD _ _ _ _ _ E Ek).
    - destruct tr2 as [|e tr2] using rev_ind.
      + apply app_inj_tail in E as [<- E]. injection E as -> -> ->. destruct (failing _ _ _ L (obeys_snoc _ _ HD)) as [_ I2]. now apply I2.
      + rewrite app_comm_cons, app_assoc in E. apply app_inj_tail in E as [E _]. exact (IH (obeys_snoc _ _ HD) _ _ _ _ _ E Ek).
    - destruct tr2 as [|e tr2] using rev_ind; [apply app_inj_tail in E as [_ E]; discriminate|].
      rewrite app_comm_cons, app_assoc in E. apply app_inj_tail in E as [E _]. exact (IH (obeys_snoc _ _ HD) _ _ _ _ _ E Ek).
  Qed.
End KeyLock.
