(** Linearizability by simulation, and what it says about quiescent states. *)
From Coq Require Import Permutation.
From Verif Require Import Base Lin.
Local Open Scope list_scope.

Lemma put_same {A} (f : nat -> A) i a : put f i a i = a.
Proof. unfold put. now rewrite Nat.eqb_refl. Qed.
Lemma put_other {A} (f : nat -> A) i j a : i <> j -> put f i a j = f j.
Proof. intros H. unfold put. now rewrite (proj2 (Nat.eqb_neq i j) H). Qed.

Lemma returned_app {Op R} (a b : list (event Op R)) : returned (a ++ b) = returned a ++ returned b.
Proof. induction a as [|[t o|t o r] a IH]; cbn; congruence. Qed.

Section Simulation.
  Context {Op R Sh Prog S : Type}.
  Context (progOf : Op -> Prog) (result : Prog -> option R) (tstep : nat -> Prog -> Sh -> Prog -> Sh -> Prop).
  Context (spec : S -> Op -> R -> S -> Prop) (sh0 : Sh) (s0 : S).
  (** A relation between the shared memory and the abstract state, and one
      between a goroutine and its phase. *)
  Context (Inv : Sh -> S -> Prop) (Thr : Sh -> S -> nat -> tstate Op Prog -> phase Op R -> Prop).
  Hypothesis Inv0 : Inv sh0 s0.
  Hypothesis Thr0 : forall t, Thr sh0 s0 t Idle PIdle.
  Hypothesis ThrIdle : forall sh s t p, Thr sh s t Idle p -> p = PIdle.
  Hypothesis ThrInv : forall sh s t o, Inv sh s -> Thr sh s t Idle PIdle -> Thr sh s t (Run o (progOf o)) (PPending o).
  Hypothesis ThrRet : forall sh s t o k p r, Inv sh s -> Thr sh s t (Run o k) p -> result k = Some r -> p = PDone o r /\ Thr sh s t Idle PIdle.
  Hypothesis ThrStep : forall sh s t o k p k' sh', Inv sh s -> Thr sh s t (Run o k) p -> tstep t k sh k' sh' ->
    exists s' p', Inv sh' s' /\ Thr sh' s' t (Run o k') p' /\
      ((s' = s /\ p' = p) \/ (exists r, p = PPending o /\ spec s o r s' /\ p' = PDone o r)) /\
      (forall u ts pu, u <> t -> Thr sh s u ts pu -> Thr sh' s' u ts pu).

  Lemma simulation tr c : runs progOf result tstep sh0 tr c ->
    exists h p s, linearized tr h p /\ sequential spec s0 h s /\ Inv (shared c) s /\ forall t, Thr (shared c) s t (thread c t) (p t).
  Proof.
    induction 1 as [|tr c ev c' HR (h & p & s & HL & HS & HI & HT) HST].
    { exists [], (fun _ => PIdle), s0. repeat split; try constructor; auto. }
    inversion HST as [c1 t o E|c1 t o k k' sh' E E2|c1 t o k r E E2]; subst; cbn [shared thread] in *.
    - pose proof (HT t) as Ht. rewrite E in Ht. pose proof (ThrIdle _ _ _ _ Ht) as Ep. rewrite Ep in Ht.
      exists h, (put p t (PPending o)), s. split; [now apply lin_inv|]. split; [exact HS|]. split; [exact HI|].
      intros u. destruct (Nat.eq_dec t u) as [<-|N]; [rewrite !put_same; now apply ThrInv|rewrite !put_other by exact N; apply HT].
    - pose proof (HT t) as Ht. rewrite E in Ht. destruct (ThrStep _ _ _ _ _ _ _ _ HI Ht E2) as (s' & p' & HI' & Ht' & HE & HO).
      assert (HT' : forall u, Thr sh' s' u (put (thread c) t (Run o k') u) (put p t p' u)).
      { intros u. destruct (Nat.eq_dec t u) as [<-|N]; [now rewrite !put_same|rewrite !put_other by exact N].
        apply HO; [congruence|apply HT]. }
      rewrite app_nil_r. destruct HE as [[-> ->]|(r & Ep & HSp & ->)].
      + exists h, p, s. split; [exact HL|]. split; [exact HS|]. split; [exact HI'|].
        intros u. specialize (HT' u). destruct (Nat.eq_dec t u) as [<-|N]; [now rewrite !put_same in *|now rewrite !put_other in * by exact N].
      + exists (h ++ [(o, r)]), (put p t (PDone o r)), s'. split; [now apply lin_effect|]. split; [now apply sq_snoc with s|]. split; [exact HI'|exact HT'].
    - pose proof (HT t) as Ht. rewrite E in Ht. destruct (ThrRet _ _ _ _ _ _ _ HI Ht E2) as [Ep Ht'].
      exists h, (put p t PIdle), s. split; [now apply lin_ret|]. split; [exact HS|]. split; [exact HI|].
      intros u. destruct (Nat.eq_dec t u) as [<-|N]; [now rewrite !put_same|rewrite !put_other by exact N; apply HT].
  Qed.

  Lemma simulation_lin tr c : runs progOf result tstep sh0 tr c -> linearizable spec s0 tr.
  Proof. intros H. destruct (simulation tr c H) as (h & p & s & HL & HS & _). exists h, p, s. auto. Qed.
End Simulation.

(** The calls that took effect are those that returned and those about to. *)
Section Quiescent.
  Context {Op R : Type}.
  Lemma linearized_returned tr (h : list (Op * R)) p : linearized tr h p ->
    exists done, NoDup (map fst done) /\ (forall t o r, In (t, (o, r)) done <-> p t = PDone o r) /\
      Permutation h (returned tr ++ map snd done).
  Proof.
    induction 1 as [|tr h p t o HL (d & HN & HI & HP) Hp|tr h p t o r HL (d & HN & HI & HP) Hp|tr h p t o r HL (d & HN & HI & HP) Hp].
    - exists []. split; [constructor|]. split; [intros; split; [intros []|discriminate]|constructor].
    - exists d. split; [exact HN|]. split.
      + intros u o' r'. rewrite HI. destruct (Nat.eq_dec t u) as [<-|N]; [rewrite put_same, Hp; split; discriminate|now rewrite put_other].
      + rewrite returned_app. cbn [returned]. now rewrite app_nil_r.
    - exists ((t, (o, r)) :: d). split; [|split].
      + cbn [map fst]. constructor; [|exact HN]. intros Hin. apply in_map_iff in Hin as ([u [o' r']] & E & Hin). cbn in E. subst u.
        apply HI in Hin. congruence.
      + intros u o' r'. cbn [In]. destruct (Nat.eq_dec t u) as [<-|N].
        * rewrite put_same. split.
          -- intros [E|Hin]; [congruence|]. apply HI in Hin. congruence.
          -- intros [= -> ->]. now left.
        * rewrite put_other by exact N. rewrite <- HI. split; [intros [E|Hin]; [congruence|exact Hin]|now right].
      + cbn [map snd]. transitivity ((o, r) :: h); [apply Permutation_app_comm|].
        transitivity ((o, r) :: returned tr ++ map snd d); [now constructor|apply Permutation_middle].
    - apply HI in Hp as Hin. apply in_split in Hin as (d1 & d2 & ->).
      exists (d1 ++ d2). rewrite map_app in HN. cbn [map fst] in HN. split; [rewrite map_app; now apply NoDup_remove_1 in HN|]. split.
      + intros u o' r'. destruct (Nat.eq_dec t u) as [<-|N].
        * rewrite put_same. split; [|discriminate]. intros Hin. apply NoDup_remove_2 in HN. exfalso. apply HN.
          rewrite <- map_app. apply in_map_iff. exists (t, (o', r')). auto.
        * rewrite put_other by exact N. rewrite <- HI. rewrite !in_app_iff. cbn [In]. split; [tauto|]. intros [H|[H|H]]; [tauto|congruence|tauto].
      + rewrite returned_app. cbn [returned]. rewrite HP, !map_app. cbn [map snd]. rewrite <- app_assoc. apply Permutation_app_head.
        cbn. symmetry. apply Permutation_middle.
  Qed.
  Lemma linearized_quiescent tr (h : list (Op * R)) p : linearized tr h p -> (forall t, p t = PIdle) -> Permutation h (returned tr).
  Proof.
    intros H HP. destruct (linearized_returned tr h p H) as (d & _ & HI & HE). destruct d as [|[t [o r]] d].
    - now rewrite app_nil_r in HE.
    - exfalso. assert (E : p t = PDone o r) by (apply HI; now left). rewrite HP in E. discriminate.
  Qed.
End Quiescent.
