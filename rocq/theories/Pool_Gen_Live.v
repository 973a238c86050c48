(** Every use of a pooled generator comes to an end. *)
From Coq Require Import Permutation.
From Verif Require Import Base Arr Lin Lin_Proofs Lin_Live Pool_Gen_Model Pool_Gen_Spec Pool_Gen_Proofs.
Local Open Scope list_scope.
Local Open Scope nat_scope.

Section Live.
  Context {M D G W : Type} (int63 : M -> D * M) (make : D -> G) (next : G -> W * G) (m0 : M).
  Local Notation frame := (@gframe M D G).
  Local Notation pool := (@gpool M G W).
  Local Notation cfg := (config (list gact) pool (list frame)).
  Local Notation goesOn := (goesOn genter gleft (gstep int63 make next)).

  (** How many steps are left. *)
  Fixpoint weight (a : gact) : nat :=
    match a with GDraw => 3 | GPut => 1 | GCall b => 7 + (fix all l := match l with [] => 0 | a :: l => weight a + all l end) b end.
  Fixpoint weights (b : list gact) : nat := match b with [] => 0 | a :: b => weight a + weights b end.
  Lemma weight_call b : weight (GCall b) = 7 + weights b.
  Proof. reflexivity. Qed.
  Lemma weight_pos a : 0 < weight a.
  Proof. destruct a; [cbn; lia| |cbn; lia]. rewrite weight_call. lia. Qed.
  Definition cost (f : frame) : nat :=
    match f with
    | GGet b => 6 + weights b | GNew b => 5 + weights b | GLocked b => 4 + weights b | GSeeding _ b => 3 + weights b
    | GSeeded _ b => 2 + weights b | GHold _ b => 1 + weights b | GDrawing _ _ b => 2 + weights b
    end.
  Fixpoint costs (fs : list frame) : nat := match fs with [] => 0 | f :: fs => cost f + costs fs end.
  Definition cheaper (a b : list frame) : Prop := costs a < costs b.
  Lemma cheaper_wf : well_founded cheaper.
  Proof. apply (well_founded_ltof _ costs). Qed.
  Lemma step_cheaper t fs p fs' p' : gstep int63 make next t fs p fs' p' -> cheaper fs' fs.
  Proof.
    intros H. unfold cheaper. inversion H; subst; cbn [costs cost weights]; rewrite ?weight_call; try (cbn [weight]; lia).
    match goal with |- context [weight ?a] => pose proof (weight_pos a) end. lia.
  Qed.

  Definition inNew (f : frame) : Prop := match f with GLocked _ | GSeeding _ _ | GSeeded _ _ => True | _ => False end.
  Definition belowLen (c : cfg) : Prop :=
    (forall g, In g (gcontents (shared c)) -> g < List.length (gstates (shared c))) /\
    (forall t g, In g (holdings (thread c t)) -> g < List.length (gstates (shared c))).
  Definition heldBy (c : cfg) : Prop := forall u, masterLock (shared c) = Some u -> exists o f fs, thread c u = Run o (f :: fs) /\ inNew f.
  (** Only the frame on top is in New. *)
  Definition onTop (c : cfg) : Prop := forall t o f fs, thread c t = Run o (f :: fs) -> Forall isHold fs /\ (inNew f -> masterLock (shared c) = Some t).

  Lemma live_inv tr c : generating int63 make next m0 tr c -> belowLen c /\ heldBy c /\ onTop c.
  Proof.
    induction 1 as [|tr c ev c' HR ([B1 B2] & HH & HT) HS].
    { split; [split; cbn; tauto|]. split; [intros u Hu; discriminate|intros t o f fs Hf; discriminate]. }
    assert (Hother : forall t ts lk, (forall u, u <> t -> lk = Some u -> masterLock (shared c) = Some u) ->
      (lk = Some t -> exists o f fs, ts = Run o (f :: fs) /\ inNew f) ->
      forall u, lk = Some u -> exists o f fs, put (thread c) t ts u = Run o (f :: fs) /\ inNew f).
    { intros t ts lk H1 H2 u Hu. destruct (Nat.eq_dec t u) as [<-|N]; [rewrite put_same; auto|rewrite put_other by exact N]. apply HH. apply H1; [congruence|exact Hu]. }
    assert (Htop : forall t ts lk, (forall u, u <> t -> masterLock (shared c) = Some u -> lk = Some u) ->
      (forall o f fs, ts = Run o (f :: fs) -> Forall isHold fs /\ (inNew f -> lk = Some t)) ->
      forall u o f fs, put (thread c) t ts u = Run o (f :: fs) -> Forall isHold fs /\ (inNew f -> lk = Some u)).
    { intros t ts lk H1 H2 u o f fs. destruct (Nat.eq_dec t u) as [<-|N]; [rewrite put_same; apply H2|rewrite put_other by exact N]. intros Hf. destruct (HT u o f fs Hf) as [H3 H4].
      split; [exact H3|]. intros Hi. apply H1; [congruence|auto]. }
    assert (Hlen : forall t ts p', (forall g, In g (gcontents p') -> In g (gcontents (shared c)) \/ In g (holdings (thread c t))) ->
      (forall g, In g (holdings ts) -> In g (holdings (thread c t)) \/ In g (gcontents (shared c)) \/ g < List.length (gstates p')) ->
      List.length (gstates (shared c)) <= List.length (gstates p') -> belowLen {| shared := p'; thread := put (thread c) t ts |}).
    { intros t ts p' H1 H2 H3. split; cbn [shared thread].
      - intros g Hg. destruct (H1 g Hg) as [H|H]; [apply B1 in H|apply B2 in H]; lia.
      - intros u g. destruct (Nat.eq_dec t u) as [<-|N]; [rewrite put_same|rewrite put_other by exact N]; intros Hg.
        + destruct (H2 g Hg) as [H|[H|H]]; [apply B2 in H|apply B1 in H|exact H]; lia.
        + apply B2 in Hg. lia. }
    destruct HS as [c t b E|c t o fs fs' p' E HS|c t o fs r E HE].
    - split; [apply Hlen; cbn; try tauto; lia|]. split; [unfold heldBy; cbn [shared thread masterLock]; apply Hother; [auto|]|unfold onTop; cbn [shared thread masterLock]; apply Htop; [auto|]].
      + intros Hl. destruct (HH t Hl) as (o & f & fs & E' & _). congruence.
      + intros o f fs [= <- <- <-]. split; [constructor|intros []].
    - pose proof (HT t o) as Ht. rewrite E in Ht.
      assert (HL : forall f fs1, fs = f :: fs1 -> Forall isHold fs1 /\ (inNew f -> masterLock (shared c) = Some t)) by (intros f fs1 ->; auto).
      assert (HN : forall f fs1, fs = f :: fs1 -> ~ inNew f -> masterLock (shared c) <> Some t).
      { intros f fs1 -> Hf Hl. destruct (HH t Hl) as (o' & f' & fs2 & E' & Hf'). rewrite E in E'. injection E' as -> -> ->. contradiction. }
      assert (Hperm : forall (x kept dropped : list nat) g, Permutation (gcontents (shared c)) (x ++ kept ++ dropped) -> In g (x ++ kept) -> In g (gcontents (shared c))).
      { intros x kept dropped g HP Hg. apply Permutation_sym in HP. apply (Permutation_in _ HP). rewrite app_assoc. apply in_app_iff. now left. }
      inversion HS as [b fs1 p1 g kept dropped HP|b fs1 p1 kept dropped HP|b fs1 p1 HL1|b fs1 p1|m b fs1 p1|d b fs1 p1|g b fs1 p1 s Hs|g s b fs1 p1|g b' b fs1 p1|g b fs1 p1|g a b fs1 p1|g fs1 p1];
        subst; destruct (HL _ _ eq_refl) as [HL2 HL3]; try specialize (HN _ _ eq_refl (fun H => H)); cbn [inNew] in HL3.
      all: (split; [apply Hlen; rewrite ?E; cbn [holdings flat_map holds app gcontents gstates In]; rewrite ?length_upd, ?app_length; cbn [List.length]; try tauto; try lia|
            split; [unfold heldBy; cbn [shared thread masterLock]; apply Hother; cbn [masterLock]; [try tauto; try congruence|try (intros; exfalso; tauto); try (intros _; eexists _, _, _; split; [reflexivity|exact I])]
                   |unfold onTop; cbn [shared thread masterLock]; apply Htop; cbn [masterLock]; [try tauto; try congruence|try (intros o1 f1 fs2 [= <- <- <-]; split; [auto|cbn; tauto])]]]).
      all: try (intros g' Hg'; left; apply (Hperm [g] kept dropped g' HP); now right).
      all: try (intros g' Hg'; left; apply (Hperm [] kept dropped g' HP); exact Hg').
      + intros g' [<-|Hg]; [right; left; apply (Hperm [g] kept dropped g HP); now left|tauto].
      + intros g' [<-|Hg]; [right; right; lia|tauto].
      + discriminate.
      + intros u N Hu. rewrite HL3 in Hu by exact I. congruence.
      + constructor; [exact I|exact HL2].
      + intros o1 f1 fs2 [= <- ->]. apply Forall_cons_iff in HL2 as [H1 H2]. split; [exact H2|]. destruct f1; intros []; contradiction.
    - destruct fs as [|f fs]; [|discriminate]. split; [apply Hlen; cbn; try tauto; lia|]. split; [unfold heldBy; cbn [shared thread masterLock]; apply Hother; [auto|]|unfold onTop; cbn [shared thread masterLock]; apply Htop; [auto|discriminate]].
      intros Hl. destruct (HH t Hl) as (o' & f & fs & E' & _). congruence.
  Qed.

  Lemma go (c : cfg) t o fs fs' p' : thread c t = Run o fs -> gstep int63 make next t fs (shared c) fs' p' -> exists c', goesOn c c'.
  Proof. intros E H. eexists. exists []. split; [eapply st_run; eassumption|]. intros u o' []. Qed.

  Lemma gen_all_end tr c : generating int63 make next m0 tr c -> inevitably genter gleft (gstep int63 make next) allOutside c.
  Proof.
    apply (all_return genter gleft (gstep int63 make next) cheaper cheaper_wf).
    - intros t k s k' s'. apply step_cheaper.
    - clear tr c. intros tr c t o fs HR E. destruct (live_inv tr c HR) as ([B1 B2] & HH & HT).
      destruct fs as [|f fs].
      { eexists. exists [ERet t o tt]. split; [eapply st_ret; [eassumption|reflexivity]|]. intros u o' [H|[]]. discriminate. }
      destruct f as [b|b|b|m b|d b|g b|g s b].
      + eapply go; [exact E|]. apply (gs_miss _ _ _ t b fs (shared c) (gcontents (shared c)) []). now rewrite app_nil_r.
      + destruct (masterLock (shared c)) as [u|] eqn:El.
        * destruct (HH u El) as (o' & f & fs1 & Eu & Hf). destruct f; try contradiction; (eapply go; [exact Eu|]; constructor).
        * eapply go; [exact E|]. now apply gs_lock.
      + eapply go; [exact E|]. constructor.
      + eapply go; [exact E|]. constructor.
      + eapply go; [exact E|]. constructor.
      + destruct b as [|[|b'|] b]; [eapply go; [exact E|]; apply gs_put| |eapply go; [exact E|]; apply gs_call|eapply go; [exact E|]; apply gs_early].
        assert (Hg : g < List.length (gstates (shared c))) by (apply (B2 t); rewrite E; now left).
        apply nth_error_Some in Hg. destruct (nth_error (gstates (shared c)) g) as [s|] eqn:Es; [|contradiction]. eapply go; [exact E|]. eapply gs_draw; exact Es.
      + eapply go; [exact E|]. constructor.
  Qed.
End Live.
