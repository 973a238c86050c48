(** * C128, second part: what is done before a pointer is stored in an atomic.Ptr
    happens before what is done after it was loaded. *)
From Coq Require Import Lia.
From Verif Require Import Base Lin HB HB_Proofs Ptr_Model Ptr_HB_Model.
Local Open Scope list_scope.
Local Open Scope nat_scope.

Theorem C128_ptr_same_executions v :
  (forall tr c, detailed v tr c -> execution v (events tr) c) /\
  (forall ev c, execution v ev c -> exists tr, events tr = ev /\ detailed v tr c).
Proof.
  split.
  - induction 1 as [|tr c t o D IH H|tr c t o k a k' m' D IH H A I|tr c t o k r D IH H O]; [constructor| | |];
      rewrite events_app; eapply runs_snoc; eauto; [now apply st_inv| |eapply st_ret; eauto].
    replace (events [(t, a)]) with (@nil (event op res)) by (destruct k; cbn in A; now inversion A).
    eapply st_run; eauto.
  - induction 1 as [|ev c e c' D (tr & <- & IH) S]; [exists []; split; [reflexivity|constructor]|].
    destruct S as [c t o H|c t o k k' sh' H I|c t o k r H O].
    + exists (tr ++ [(t, ACall o)]). split; [now rewrite events_app|now constructor].
    + destruct (access k (shared c)) as [a|] eqn:A; [|inversion I; subst; discriminate].
      exists (tr ++ [(t, a)]). split; [|econstructor; eauto]. rewrite events_app. replace (events [(t, a)]) with (@nil (event op res)); [reflexivity|].
      destruct k; cbn in A; now inversion A.
    + exists (tr ++ [(t, AReturn o r)]). split; [now rewrite events_app|econstructor; eauto].
Qed.
Print Assumptions C128_ptr_same_executions.

Section Proofs.
  Variable v0 : pointer.
  Notation doings := (doings op res).
  Definition got (tr : doings) (u : nat) (p : pointer) : Prop :=
    p = v0 \/ exists i t o, does tr i t (ACall o) /\ brings o p /\ sees tr u i.
  Definition pointed (tr : doings) (p : pointer) : Prop :=
    p = v0 \/ exists i t o j a, does tr i t (ACall o) /\ brings o p /\ lastWrite tr j /\ does tr j t a /\ i < j.
  Lemma got_app tr e u p : got tr u p -> got (tr ++ [e]) u p.
  Proof. intros [H|(i & t & o & H1 & H2 & H3)]; [now left|right]. exists i, t, o. auto using does_app, sees_app. Qed.
  Lemma pointed_keep tr e p : pointed tr p -> (forall t b, e <> (t, AAtomic b true)) -> pointed (tr ++ [e]) p.
  Proof.
    intros [H|(i & t & o & j & a & H1 & H2 & H3 & H4 & H5)] He; [now left|right].
    exists i, t, o, j, a. auto 6 using does_app, lastWrite_keep.
  Qed.
  Lemma pointed_got tr t b p : pointed tr p -> got (tr ++ [(t, AAtomic true b)]) t p.
  Proof.
    intros [H|(i & u & o & j & a & H1 & H2 & H3 & H4 & H5)]; [now left|right]. exists i, u, o.
    split; [now apply does_app|split; [exact H2|]]. eapply sees_via; [|apply observe; exact H3].
    eapply hb_program; eauto using does_app.
  Qed.

  Record Inv (tr : doings) (c : state) : Prop := {
    p_calls : forall u o k, thread c u = Run o k -> (exists i, does tr i u (ACall o)) /\
      (k = code o \/ exists r, k = Ret r /\ forall p, saw o r p -> got tr u p);
    p_ptr : pointed tr (shared c);
    p_return : forall n t o r p, does tr n t (AReturn o r) -> saw o r p ->
      p = v0 \/ exists i u o', does tr i u (ACall o') /\ brings o' p /\ hb tr i n }.

  Lemma same_eq a b : samePointer a b = true -> a = b.
  Proof. destruct a, b; cbn; try discriminate; [|reflexivity]. intros H. apply Nat.eqb_eq in H. congruence. Qed.

  Lemma inv_ok tr c : detailed v0 tr c -> Inv tr c.
  Proof.
    assert (RK : forall (tr : doings) e, (forall t o r, e <> (t, AReturn o r)) ->
      (forall n t o r p, does tr n t (AReturn o r) -> saw o r p -> p = v0 \/ exists i u o', does tr i u (ACall o') /\ brings o' p /\ hb tr i n) ->
      (forall n t o r p, does (tr ++ [e]) n t (AReturn o r) -> saw o r p -> p = v0 \/ exists i u o', does (tr ++ [e]) i u (ACall o') /\ brings o' p /\ hb (tr ++ [e]) i n)).
    { intros tr' e He H n t o r p D S. apply does_app_inv in D. destruct D as [D|[_ D]]; [|now apply He in D].
      destruct (H _ _ _ _ _ D S) as [E|(i & u & o' & H1 & H2 & H3)]; [now left|right]. exists i, u, o'. auto using does_app, hb_app. }
    assert (CK : forall (tr : doings) e u o k, (exists i, does tr i u (ACall o)) /\ (k = code o \/ exists r, k = Ret r /\ forall p, saw o r p -> got tr u p) ->
      (exists i, does (tr ++ [e]) i u (ACall o)) /\ (k = code o \/ exists r, k = Ret r /\ forall p, saw o r p -> got (tr ++ [e]) u p)).
    { intros tr' e u o k [[i D] C]. split; [eauto using does_app|]. destruct C as [C|(r & C & G)]; [now left|right]. eauto using got_app. }
    induction 1 as [|tr c t o D [I1 I2 I3] H|tr c t o k a k' m' D [I1 I2 I3] H A I|tr c t o k r D [I1 I2 I3] H O].
    - split; cbn; [discriminate|now left|]. intros [|n] t o r p Q; discriminate.
    - split; cbn [shared thread].
      + intros u o' k E. unfold put in E. destruct (Nat.eqb_spec t u) as [->|N].
        * injection E as <- <-. split; [exists (List.length tr); apply does_last|now left].
        * apply CK, I1, E.
      + apply pointed_keep; [exact I2|discriminate].
      + apply RK; [discriminate|exact I3].
    - assert (NR : forall u o' r, (t, a) <> (u, AReturn o' r)) by (intros u o' r E; injection E as _ ->; destruct k; discriminate).
      destruct (I1 _ _ _ H) as [[i Di] C]. destruct C as [->|(r & -> & _)]; [|inversion I].
      assert (Q : pointed (tr ++ [(t, a)]) m' /\ exists r, k' = Ret r /\ forall p, saw o r p -> got (tr ++ [(t, a)]) t p).
      { assert (ON : forall b x, brings o x -> pointed (tr ++ [(t, AAtomic b true)]) x).
        { intros b x B. right. exists i, t, o, (List.length tr), (AAtomic b true). split; [now apply does_app|].
          split; [exact B|]. split; [apply lastWrite_new|]. split; [apply does_last|eapply does_lt, Di]. }
        destruct o as [|x|x|old new]; cbn [code] in I; inversion I; subst; cbn in A; injection A as <-.
        - split; [apply pointed_keep; [exact I2|discriminate]|]. eexists. split; [reflexivity|]. intros p ->. now apply pointed_got.
        - split; [apply ON; reflexivity|]. eexists. split; [reflexivity|]. intros p [].
        - split; [apply ON; reflexivity|]. eexists. split; [reflexivity|]. intros p ->. now apply pointed_got.
        - destruct (samePointer (shared c) old) eqn:E.
          + split; [apply ON; reflexivity|]. eexists. split; [reflexivity|]. intros p ->. apply same_eq in E. rewrite <- E. now apply pointed_got.
          + split; [apply pointed_keep; [exact I2|discriminate]|]. eexists. split; [reflexivity|]. intros p []. }
      destruct Q as [Q1 Q2]. split; cbn [shared thread].
      + intros u o' k2 E. unfold put in E. destruct (Nat.eqb_spec t u) as [->|N].
        * injection E as <- <-. split; [eauto using does_app|now right].
        * apply CK, I1, E.
      + exact Q1.
      + now apply RK.
    - split; cbn [shared thread].
      + intros u o' k2 E. unfold put in E. destruct (Nat.eqb_spec t u) as [->|N]; [discriminate|apply CK, I1, E].
      + apply pointed_keep; [exact I2|discriminate].
      + intros n u o' r' p Dn S. apply does_app_inv in Dn. destruct Dn as [Dn|[-> Dn]].
        * destruct (I3 _ _ _ _ _ Dn S) as [E|(i & w & o2 & H1 & H2 & H3)]; [now left|right]. exists i, w, o2. auto using does_app, hb_app.
        * injection Dn as <- <- <-. destruct (I1 _ _ _ H) as [_ [->|(r2 & -> & G)]]; [destruct o; discriminate|].
          cbn in O. injection O as ->. destruct (G p S) as [E|(i & w & o2 & H1 & H2 & H3)]; [now left|right].
          exists i, w, o2. split; [now apply does_app|]. split; [exact H2|]. now apply sees_hb.
  Qed.
End Proofs.

Theorem C128_ptr_publishes v tr c n t o r p : detailed v tr c -> does tr n t (AReturn o r) -> saw o r p ->
  p = v \/ exists i u o', does tr i u (ACall o') /\ brings o' p /\ hb tr i n.
Proof. intros D. exact (p_return _ _ _ (inv_ok v tr c D) n t o r p). Qed.
Print Assumptions C128_ptr_publishes.

(** Goroutine 1 stores the address 5 and goroutine 2 swaps it out. *)
Example C128_ptr_example : exists c, detailed None
  [(1, ACall (Store (Some 5))); (1, AAtomic false true); (2, ACall (Swap None)); (2, AAtomic true true); (2, AReturn (Swap None) (RPtr (Some 5)))] c.
Proof.
  pose proof (d_nil None) as D.
  apply (d_call _ _ _ 1 (Store (Some 5))) in D; [|reflexivity].
  eapply (d_instr _ _ _ 1) in D; [|reflexivity|reflexivity|apply i_store].
  apply (d_call _ _ _ 2 (Swap None)) in D; [|reflexivity].
  eapply (d_instr _ _ _ 2) in D; [|reflexivity|reflexivity|apply i_swap].
  eapply (d_return _ _ _ 2) in D; [|reflexivity|reflexivity].
  eexists. exact D.
Qed.
