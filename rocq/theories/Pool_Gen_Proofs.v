(** Proofs about generators drawn from a pool. *)
From Coq Require Import Permutation.
From Verif Require Import Base Arr Lin Lin_Proofs Pool_Gen_Model Pool_Gen_Spec.
Local Open Scope list_scope.
Local Open Scope nat_scope.

Section Proofs.
  Context {M D G W : Type} (int63 : M -> D * M) (make : D -> G) (next : G -> W * G) (m0 : M).
  Local Notation frame := (@gframe M D G).
  Local Notation pool := (@gpool M G W).
  Local Notation cfg := (config (list gact) pool (list frame)).

  Definition body (f : frame) : list gact :=
    match f with GGet b | GNew b | GLocked b | GSeeding _ b | GSeeded _ b | GHold _ b | GDrawing _ _ b => b end.
  Definition isHold (f : frame) : Prop := match f with GHold _ _ => True | _ => False end.

  Definition topOK (t : nat) (top : frame) (p : pool) : Prop :=
    match top with
    | GLocked _ => masterLock p = Some t /\ master p = stateAt int63 (List.length (gstates p)) m0
    | GSeeding m _ => masterLock p = Some t /\ m = stateAt int63 (List.length (gstates p)) m0
    | GSeeded d _ => masterLock p = Some t /\ master p = stateAt int63 (S (List.length (gstates p))) m0 /\ d = numberAt int63 (List.length (gstates p)) m0
    | GDrawing g s _ => nth_error (gstates p) g = Some s
    | _ => True
    end.
  Definition threadOK (t : nat) (ts : tstate (list gact) (list frame)) (p : pool) : Prop :=
    match ts with
    | Run _ (top :: rest) => topOK t top p /\ Forall isHold rest /\ Forall (fun f => Forall polite (body f)) (top :: rest)
    | _ => True
    end.

  Definition genOK (p : pool) : Prop := forall g, g < List.length (gstates p) ->
    let k := List.length (wordsOf g (drawnLog p)) in
    nth_error (gstates p) g = Some (stateAt next k (make (numberAt int63 g m0))) /\
    wordsOf g (drawnLog p) = map (stream int63 make next m0 g) (seq 0 k).

  Record GInv (c : cfg) : Prop := {
    gi_range : forall g, In g (gcontents (shared c)) -> g < List.length (gstates (shared c));
    gi_owned : forall t g, In g (holdings (thread c t)) -> g < List.length (gstates (shared c)) /\ ~ In g (gcontents (shared c));
    gi_nodup : NoDup (gcontents (shared c));
    gi_once : forall t, NoDup (holdings (thread c t));
    gi_one : forall t u g, In g (holdings (thread c t)) -> In g (holdings (thread c u)) -> t = u;
    gi_thread : forall t, threadOK t (thread c t) (shared c);
    gi_master : masterLock (shared c) = None -> master (shared c) = stateAt int63 (List.length (gstates (shared c))) m0;
    gi_gen : genOK (shared c);
    gi_log : forall t g w, In (t, g, w) (drawnLog (shared c)) -> g < List.length (gstates (shared c))
  }.

  Lemma stateAt_S {S A} (f : S -> A * S) n : forall s, stateAt f (Datatypes.S n) s = snd (f (stateAt f n s)).
  Proof. induction n as [|n IH]; intros s; [reflexivity|]. cbn [stateAt] in *. now rewrite <- IH. Qed.

  Lemma wordsOf_app g (l l' : list (nat * nat * W)) : wordsOf g (l ++ l') = wordsOf g l ++ wordsOf g l'.
  Proof. unfold wordsOf. now rewrite filter_app, map_app. Qed.
  Lemma wordsOf_none g (l : list (nat * nat * W)) : (forall t w, ~ In (t, g, w) l) -> wordsOf g l = [].
  Proof.
    induction l as [|[[t g'] w] l IH]; intros H; [reflexivity|]. unfold wordsOf in *. cbn. destruct (Nat.eqb_spec g' g) as [->|N].
    - exfalso. apply (H t w). now left.
    - apply IH. intros t' w' Hin. apply (H t' w'). now right.
  Qed.

  (** Thread [t] moves from [ts] to [ts'] and the pool to [p'], which holds no new
      generators but those [t] puts back; nobody else notices. *)
  Lemma GInv_step c t ts' p' : GInv c ->
    (forall g, In g (gcontents p') -> (In g (gcontents (shared c)) \/ In g (holdings (thread c t))) /\ ~ In g (holdings ts')) ->
    NoDup (gcontents p') -> NoDup (holdings ts') ->
    (forall g, In g (holdings ts') -> (In g (holdings (thread c t)) \/ In g (gcontents (shared c)) \/ g = List.length (gstates (shared c))) /\ g < List.length (gstates p')) ->
    List.length (gstates (shared c)) <= List.length (gstates p') ->
    threadOK t ts' p' ->
    (forall u, u <> t -> threadOK u (thread c u) (shared c) -> threadOK u (thread c u) p') ->
    (masterLock p' = None -> master p' = stateAt int63 (List.length (gstates p')) m0) -> genOK p' ->
    (forall u g w, In (u, g, w) (drawnLog p') -> g < List.length (gstates p')) ->
    GInv {| shared := p'; thread := put (thread c) t ts' |}.
  Proof.
    intros [I1 I2 I3 I4 I5 I6 I7 I8 I9] HC HN HN' HH HL HT HU HM HG HLog.
    assert (HX : forall u, u <> t -> forall g, In g (holdings (thread c u)) -> ~ In g (gcontents p') /\ ~ In g (holdings ts')).
    { intros u N g Hg. split.
      - intros Hin. destruct (HC g Hin) as [[H|H] _]; [apply (I2 u g Hg); exact H|]. exact (N (I5 u t g Hg H)).
      - intros Hin. destruct (HH g Hin) as [[H|[H|H]] _]; [exact (N (I5 u t g Hg H))|apply (I2 u g Hg); exact H|]. destruct (I2 u g Hg) as [Hlt _]. lia. }
    constructor; cbn [shared thread].
    - intros g Hg. destruct (HC g Hg) as [[H|H] _]; [specialize (I1 g H); lia|]. destruct (I2 t g H). lia.
    - intros u g. destruct (Nat.eq_dec t u) as [<-|N]; [rewrite put_same|rewrite put_other by exact N]; intros Hg.
      + split; [now apply HH|]. intros Hin. now apply (HC g Hin).
      + destruct (I2 u g Hg). split; [lia|]. apply (HX u); [congruence|exact Hg].
    - exact HN.
    - intros u. destruct (Nat.eq_dec t u) as [<-|N]; [now rewrite put_same|now rewrite put_other].
    - intros u v g. destruct (Nat.eq_dec t u) as [<-|N]; [rewrite put_same|rewrite put_other by exact N];
        (destruct (Nat.eq_dec t v) as [<-|N']; [rewrite put_same|rewrite put_other by exact N']); intros H1 H2; [reflexivity| | |eauto].
      + exfalso. apply (HX v ltac:(congruence) g H2). exact H1.
      + exfalso. apply (HX u ltac:(congruence) g H1). exact H2.
    - intros u. destruct (Nat.eq_dec t u) as [<-|N]; [now rewrite put_same|rewrite put_other by exact N]. apply HU; [congruence|apply I6].
    - exact HM.
    - exact HG.
    - exact HLog.
  Qed.

  (** Others do not notice a change of the pool that leaves states, master and lock. *)
  Lemma thread_same u ts p p' : gstates p' = gstates p -> master p' = master p -> masterLock p' = masterLock p -> threadOK u ts p -> threadOK u ts p'.
  Proof. intros E1 E2 E3. destruct ts as [|o [|[]]]; cbn; rewrite ?E1, ?E2, ?E3; auto. Qed.
  Lemma gen_same p p' : gstates p' = gstates p -> drawnLog p' = drawnLog p -> genOK p -> genOK p'.
  Proof. intros E1 E2. unfold genOK. now rewrite E1, E2. Qed.

  Lemma perm_drop (l kept dropped : list nat) x : Permutation l (x ++ kept ++ dropped) -> NoDup l ->
    NoDup kept /\ NoDup x /\ (forall g, In g kept -> In g l /\ ~ In g x) /\ (forall g, In g x -> In g l).
  Proof.
    intros HP HN. apply (Permutation_NoDup HP) in HN as HN1. rewrite app_assoc in HN1.
    assert (HK : NoDup (x ++ kept)).
    { clear - HN1. induction (x ++ kept) as [|y l IH]; [constructor|]. cbn in HN1. apply NoDup_cons_iff in HN1 as [H1 H2]. constructor; [|auto].
      intros H. apply H1. apply in_app_iff. now left. }
    clear HN1. assert (Hin : forall g, In g (x ++ kept) -> In g l).
    { intros g Hg. apply Permutation_sym in HP. apply (Permutation_in _ HP). rewrite app_assoc. apply in_app_iff. now left. }
    revert HK Hin. clear. induction x as [|y x IH]; cbn; intros HK Hin.
    - split; [exact HK|]. split; [constructor|]. split; [intros g Hg; split; [auto|tauto]|intros g []].
    - apply NoDup_cons_iff in HK as [H1 H2]. destruct (IH H2) as (A & B & C & E); [auto|]. split; [exact A|]. split; [|split].
      + constructor; [|exact B]. intros H. apply H1. apply in_app_iff. now left.
      + intros g Hg. split; [now apply C|]. intros [->|H']; [apply H1; apply in_app_iff; now right|]. now apply (C g).
      + intros g [->|H]; auto.
  Qed.

  Lemma gstep_inv c t o fs fs' p' : GInv c -> thread c t = Run o fs -> gstep int63 make next t fs (shared c) fs' p' ->
    GInv {| shared := p'; thread := put (thread c) t (Run o fs') |}.
  Proof.
    intros HI E HS. pose proof HI as [I1 I2 I3 I4 I5 I6 I7 I8 I9]. pose proof (I6 t) as HT. pose proof (I4 t) as HO. pose proof (fun g => I2 t g) as HW. rewrite E in HT, HO, HW.
    inversion HS as [b fs1 p1 g kept dropped HP|b fs1 p1 kept dropped HP|b fs1 p1 HL|b fs1 p1|m b fs1 p1|d b fs1 p1|g b fs1 p1 s Hs|g s b fs1 p1|g b' b fs1 p1|g b fs1 p1|g a b fs1 p1|g fs1 p1];
      subst; cbn [threadOK topOK] in HT; destruct HT as (HT & HR & HB); cbn [holdings flat_map holds app] in HO, HW;
      assert (HB' := HB); apply Forall_cons_iff in HB' as [HB1 HB2]; cbn [body] in HB1.
    - (* Get *) destruct (perm_drop _ kept dropped [g] HP I3) as (A1 & _ & A2 & A3).
      apply GInv_step; cbn [gcontents gstates master masterLock drawnLog holdings flat_map holds app]; rewrite ?E; cbn [holdings flat_map holds app]; auto.
      + intros g' Hg. destruct (A2 g' Hg) as [H1 H2]. split; [now left|]. intros [->|H]; [apply H2; now left|]. now apply (HW g').
      + constructor; [|exact HO]. intros H. apply (HW g H). apply A3. now left.
      + intros g' [->|Hg]; [split; [right; left; apply A3; now left|apply I1, A3; now left]|split; [now left|now apply HW]].
      + cbn. auto.
    - (* miss *) destruct (perm_drop _ kept dropped [] HP I3) as (A1 & _ & A2 & _).
      apply GInv_step; cbn [gcontents gstates master masterLock drawnLog holdings flat_map holds app]; rewrite ?E; cbn [holdings flat_map holds app]; auto.
      + intros g' Hg. destruct (A2 g' Hg) as [H1 H2]. split; [now left|]. intros H. now apply (HW g').
      + intros g' Hg. split; [now left|now apply HW].
      + cbn. auto.
    - (* Lock *) apply GInv_step; cbn [gcontents gstates master masterLock drawnLog holdings flat_map holds app]; rewrite ?E; cbn [holdings flat_map holds app]; auto.
      + intros g' Hg. split; [now left|]. intros H. now apply (HW g').
      + intros g' Hg. split; [now left|now apply HW].
      + cbn. auto.
      + intros u N. destruct (thread c u) as [|o' [|[] r]]; cbn; rewrite ?HL; auto; intros [[H _] _]; congruence.
    - (* read the master *) destruct HT as [HT1 HT2].
      apply GInv_step; cbn [gcontents gstates master masterLock drawnLog holdings flat_map holds app]; rewrite ?E; cbn [holdings flat_map holds app]; auto.
      + intros g' Hg. split; [now left|]. intros H. now apply (HW g').
      + intros g' Hg. split; [now left|now apply HW].
      + cbn. auto.
    - (* write the master *) destruct HT as [HT1 HT2].
      apply GInv_step; cbn [gcontents gstates master masterLock drawnLog holdings flat_map holds app]; rewrite ?E; cbn [holdings flat_map holds app]; auto.
      + intros g' Hg. split; [now left|]. intros H. now apply (HW g').
      + intros g' Hg. split; [now left|now apply HW].
      + cbn [threadOK topOK masterLock master gstates]. subst m. rewrite stateAt_S. unfold numberAt. auto.
      + intros u N. destruct (thread c u) as [|o' [|[] r]]; cbn; rewrite ?HT1; auto; intros [[H _] _]; congruence.
      + rewrite HT1. discriminate.
    - (* Unlock *) destruct HT as (HT1 & HT2 & HT3). rename I9 into I9'.
      apply GInv_step; cbn [gcontents gstates master masterLock drawnLog holdings flat_map holds app]; rewrite ?E, ?app_length; cbn [holdings flat_map holds app List.length]; auto.
      + intros g' Hg. split; [now left|]. intros [H|H]; [specialize (I1 g' Hg); lia|now apply (HW g')].
      + constructor; [|exact HO]. intros H. destruct (HW _ H). lia.
      + intros g' [->|Hg]; [split; [auto|lia]|split; [now left|]]. destruct (HW g' Hg). lia.
      + lia.
      + cbn. auto.
      + intros u N. destruct (thread c u) as [|o' [|[] r]]; cbn; rewrite ?HT1; auto; try (intros [[H _] _]; congruence).
        intros [H H']. split; [|exact H']. rewrite nth_error_app1; [exact H|]. apply nth_error_Some. congruence.
      + intros _. now rewrite Nat.add_1_r.
      + intros g Hg. cbn [gstates drawnLog] in *. rewrite app_length in Hg. cbn in Hg. destruct (Nat.eq_dec g (List.length (gstates (shared c)))) as [->|N].
        * rewrite (wordsOf_none (List.length (gstates (shared c)))) by (intros u w Hin; specialize (I9' _ _ _ Hin); lia). cbn.
          rewrite nth_error_app2, Nat.sub_diag by lia. cbn. now subst d.
        * rewrite nth_error_app1 by lia. apply I8. lia.
      + intros u g w Hin. specialize (I9' _ _ _ Hin). lia.
    - (* draw: read *)
      apply GInv_step; cbn [gcontents gstates master masterLock drawnLog holdings flat_map holds app]; rewrite ?E; cbn [holdings flat_map holds app]; auto.
      + intros g' Hg. split; [now left|]. intros H. now apply (HW g').
      + intros g' Hg. split; [now left|now apply HW].
      + cbn [threadOK topOK]. split; [exact Hs|]. split; [exact HR|]. constructor; [|exact HB2]. cbn. now inversion HB1.
    - (* draw: write *) assert (Hg0 : g < List.length (gstates (shared c))) by (apply HW; now left).
      apply GInv_step; cbn [gcontents gstates master masterLock drawnLog holdings flat_map holds app]; rewrite ?E, ?length_upd; cbn [holdings flat_map holds app]; auto.
      + intros g' Hg. split; [now left|]. intros H. now apply (HW g').
      + intros g' Hg. split; [now left|now apply HW].
      + cbn. auto.
      + intros u N. pose proof (fun H => N (I5 u t g H ltac:(rewrite E; now left))) as Hu.
        destruct (thread c u) as [|o' [|[b'|b'|b'|m b'|d b'|g' b'|g' s' b'] r]]; cbn; rewrite ?length_upd; auto.
        intros [H H']. split; [|exact H']. rewrite nth_error_upd by exact Hg0. destruct (Nat.eqb_spec g' g); [|exact H]. subst. exfalso. apply Hu. now left.
      + intros g' Hg'. cbn [gstates drawnLog] in *. rewrite length_upd in Hg'. destruct (I8 g' Hg') as [J1 J2]. rewrite wordsOf_app.
        unfold wordsOf at 2 4 6. cbn [filter map fst snd]. rewrite nth_error_upd by exact Hg0. rewrite (Nat.eqb_sym g' g). destruct (Nat.eqb_spec g g') as [<-|N]; cbn [map].
        * rewrite app_length. cbn [List.length]. rewrite Nat.add_1_r, seq_S, map_app. cbn [map plus]. rewrite J1 in HT. injection HT as <-.
          split; [|now rewrite <- J2]. rewrite stateAt_S. reflexivity.
        * rewrite app_nil_r. split; [exact J1|exact J2].
      + intros u g' w Hin. apply in_app_iff in Hin as [Hin|[[= <- <- <-]|[]]]; [eauto|exact Hg0].
    - (* call *) apply GInv_step; cbn [gcontents gstates master masterLock drawnLog holdings flat_map holds app]; rewrite ?E; cbn [holdings flat_map holds app]; auto.
      + intros g' Hg. split; [now left|]. intros H. now apply (HW g').
      + intros g' Hg. split; [now left|now apply HW].
      + inversion HB1 as [|x l HX HY]; subst. inversion HX; subst. cbn. repeat constructor; auto.
    - (* too early *) exfalso. inversion HB1 as [|x l HX HY]; subst. inversion HX.
    - (* panic *) apply GInv_step; cbn [gcontents gstates master masterLock drawnLog holdings flat_map holds app]; rewrite ?E; cbn [holdings flat_map holds app]; auto.
      + intros g' Hg. split; [now left|]. intros H. now apply (HW g').
      + intros g' Hg. split; [now left|now apply HW].
      + cbn. split; [exact I|]. split; [exact HR|]. constructor; [constructor|exact HB2].
    - (* Put *) apply NoDup_cons_iff in HO as [HO1 HO2].
      apply GInv_step; cbn [gcontents gstates master masterLock drawnLog holdings flat_map holds app]; rewrite ?E; cbn [holdings flat_map holds app]; auto.
      + intros g' [<-|Hg]; [split; [right; now left|exact HO1]|]. split; [now left|]. intros H. apply (HW g'); [now right|exact Hg].
      + constructor; [|exact I3]. apply (HW g). now left.
      + intros g' Hg. split; [left; now right|]. apply HW. now right.
      + cbn. destruct fs' as [|f fs']; [exact I|]. apply Forall_cons_iff in HR as [HR1 HR2]. destruct f; try contradiction. cbn. auto.
  Qed.

  Lemma gen_inv tr c : generating int63 make next m0 tr c -> (forall t b, In (EInv t b) tr -> Forall polite b) -> GInv c.
  Proof.
    induction 1 as [|tr c ev c' HR IH HS]; intros HP.
    - constructor; cbn; try tauto; try (intros g1 Hg; cbn in Hg; lia); intros; constructor.
    - assert (HI : GInv c) by (apply IH; intros t b Hin; apply (HP t b); apply in_app_iff; now left).
      pose proof HI as [I1 I2 I3 I4 I5 I6 I7 I8 I9].
      destruct HS as [c t b E|c t o fs fs' p' E HS|c t o fs r E HE].
      + apply (GInv_step c t _ (shared c)); rewrite ?E; cbn [holdings genter flat_map holds app]; auto.
        * constructor.
        * intros g [].
        * cbn. repeat constructor. apply (HP t b). apply in_app_iff. right. now left.
      + eapply gstep_inv; eassumption.
      + destruct fs as [|f fs]; [|discriminate]. apply (GInv_step c t _ (shared c)); rewrite ?E; cbn [holdings]; auto.
        * constructor.
        * intros g [].
        * exact I.
  Qed.
End Proofs.
