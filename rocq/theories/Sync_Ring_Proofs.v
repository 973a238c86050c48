(** Proofs about a ring that goroutines share. *)
From Coq Require Import Permutation.
From Verif Require Import Base Arr Exn Lin Lin_Proofs XRing_Spec XRing_Model XRing_Proofs Sync_Model Sync_Spec Sync_Proofs Sync_Ring_Model Sync_Ring_Spec.
Local Open Scope list_scope.

Section Order.
  Context {Op R : Type}.
  Lemma linearized_invoked tr (h : list (Op * R)) p : linearized tr h p ->
    (forall t o, p t = PPending o -> In (EInv t o) tr) /\ (forall o r, In (o, r) h -> exists t, In (EInv t o) tr).
  Proof.
    induction 1 as [|tr h p t o HL [I1 I2] Hp|tr h p t o r HL [I1 I2] Hp|tr h p t o r HL [I1 I2] Hp].
    - split; [discriminate|intros o r []].
    - split.
      + intros u o' E. apply in_or_app. destruct (Nat.eq_dec t u) as [<-|N]; [rewrite put_same in E; injection E as <-; right; now left|].
        rewrite put_other in E by exact N. left. auto.
      + intros o' r' H. destruct (I2 o' r' H) as [u Hu]. exists u. apply in_or_app. now left.
    - split.
      + intros u o' E. destruct (Nat.eq_dec t u) as [<-|N]; [rewrite put_same in E; discriminate|]. rewrite put_other in E by exact N. auto.
      + intros o' r' H. apply in_app_or in H as [H|[[= <- <-]|[]]]; eauto.
    - split.
      + intros u o' E. apply in_or_app. left. destruct (Nat.eq_dec t u) as [<-|N]; [rewrite put_same in E; discriminate|].
        rewrite put_other in E by exact N. auto.
      + intros o' r' H. destruct (I2 o' r' H) as [u Hu]. exists u. apply in_or_app. now left.
  Qed.
  (** What took effect during a part of the history comes first in the order. *)
  Lemma linearized_prefix tr (h : list (Op * R)) p : linearized tr h p -> forall a b, tr = a ++ b ->
    exists h1 h2 p1, h = h1 ++ h2 /\ linearized a h1 p1.
  Proof.
    induction 1 as [|tr h p t o HL IH Hp|tr h p t o r HL IH Hp|tr h p t o r HL IH Hp]; intros a b E.
    - symmetry in E. apply app_eq_nil in E as [-> ->]. exists [], [], (fun _ => PIdle). split; [reflexivity|constructor].
    - destruct b as [|e b] using rev_ind.
      + rewrite app_nil_r in E. subst a. exists h, [], (put p t (PPending o)). rewrite app_nil_r. split; [reflexivity|now constructor].
      + rewrite app_assoc in E. apply app_inj_tail in E as [E _]. exact (IH _ _ E).
    - destruct (IH a b E) as (h1 & h2 & p1 & -> & H1). exists h1, (h2 ++ [(o, r)]), p1. now rewrite app_assoc.
    - destruct b as [|e b] using rev_ind.
      + rewrite app_nil_r in E. subst a. exists h, [], (put p t PIdle). rewrite app_nil_r. split; [reflexivity|now apply (lin_ret tr h p t o r)].
      + rewrite app_assoc in E. apply app_inj_tail in E as [E _]. exact (IH _ _ E).
  Qed.
  Lemma returned_in tr (h : list (Op * R)) p o r : linearized tr h p -> In (o, r) (returned tr) -> In (o, r) h.
  Proof.
    intros HL H. destruct (linearized_returned tr h p HL) as (d & _ & _ & HP).
    apply (Permutation_in _ (Permutation_sym HP)). apply in_or_app. now left.
  Qed.
End Order.

Lemma ret_returned {Op R} (tr : list (event Op R)) o r : In (o, r) (returned tr) <-> exists t, In (ERet t o r) tr.
Proof.
  induction tr as [|[t o'|t o' r'] tr IH]; cbn [returned In].
  - split; [intros []|intros [t []]].
  - rewrite IH. split; [intros [u H]; eauto|intros [u [H|H]]; [discriminate|eauto]].
  - rewrite IH. split.
    + intros [[= <- <-]|[u H]]; eauto.
    + intros [u [[= <- <- <-]|H]]; eauto.
Qed.

Lemma runOps_snoc {st Op R} (step : Op -> X st R) ops o : forall s,
  runOps step (ops ++ [o]) s =
    let '(rs, s1) := runOps step ops s in let '(r, s2) := step o s1 in (rs ++ [r], s2).
Proof.
  induction ops as [|o' ops IH]; intros s; cbn [runOps app].
  - destruct (step o s). reflexivity.
  - destruct (step o' s) as [r1 s1]. rewrite IH. destruct (runOps step ops s1) as [rs s2]. destruct (step o s2). reflexivity.
Qed.

Section Shared.
  Context {T : Type} (zero : T).
  Notation entry := (ringUse T * outcome (ringRes T))%type.
  Definition labelled (e : entry) := (used zero (fst e), snd e).

  Lemma used_step u r l x r' : Rep zero r l -> proper u -> oneAtATime r (used zero u) x r' ->
    x = fst (dequeStep (method u) l) /\ Rep zero r' (snd (dequeStep (method u) l)).
  Proof.
    intros HR Hp HO. destruct u as [o|o]; cbn [used method proper] in *.
    - destruct (step_ok zero r l o HR) as (r1 & E & HR1).
      inversion HO as [v b x1 v' HA|]; subst. cbn [atomically] in HA. rewrite E in HA. cbn [atomically] in HA.
      injection HA as <- <-. auto.
    - destruct (step_ok zero r l o HR) as (r1 & E & HR1). inversion HO; subst. cbn [sees]. rewrite E. cbn [fst]. split; [reflexivity|].
      assert (El : snd (dequeStep o l) = l) by (destruct o; try discriminate Hp; reflexivity). rewrite El. exact HR.
  Qed.

  Context (P : ringUse T -> Prop) (HPP : forall u, P u -> proper u).
  Lemma seq_deque r0 l0 os r : Rep zero r0 l0 -> sequential oneAtATime r0 os r ->
    (forall o x, In (o, x) os -> exists u, P u /\ o = used zero u) ->
    exists h, os = map labelled h /\ (forall e, In e h -> P (fst e)) /\
      map snd h = fst (runOps dequeStep (map (fun e => method (fst e)) h) l0) /\
      Rep zero r (snd (runOps dequeStep (map (fun e => method (fst e)) h) l0)).
  Proof.
    intros HR0. induction 1 as [|os s o x s' HS IH HO]; intros HF.
    - exists []. cbn. split; [reflexivity|]. split; [intros e []|]. split; [reflexivity|exact HR0].
    - destruct IH as (h & -> & HP & HE & HR); [intros o' x' H; apply (HF o' x'), in_or_app; now left|].
      destruct (HF o x) as (u & Hu & ->); [apply in_or_app; right; now left|].
      destruct (used_step u _ _ _ _ HR (HPP u Hu) HO) as [Ex HR'].
      exists (h ++ [(u, x)]). rewrite !map_app. cbn [map fst snd]. rewrite runOps_snoc.
      destruct (runOps dequeStep (map (fun e => method (fst e)) h) l0) as [rs l1]. cbn [fst snd] in *.
      destruct (dequeStep (method u) l1) as [y l2]. cbn [fst snd] in *. subst x rs. split; [reflexivity|]. split; [|split; [reflexivity|exact HR']].
      intros e H. apply in_app_or in H as [H|[<-|[]]]; auto.
  Qed.

  Lemma shared_deque r0 l0 tr c : Rep zero r0 l0 -> execution r0 tr c ->
    (forall t o, In (EInv t o) tr -> exists u, P u /\ o = used zero u) ->
    exists h p, linearized tr (map labelled h) p /\ (forall e, In e h -> P (fst e)) /\
      map snd h = fst (runOps dequeStep (map (fun e => method (fst e)) h) l0) /\
      ((forall t, thread c t = Idle) -> Permutation (map labelled h) (returned tr) /\
        Rep zero (Value (shared c)) (snd (runOps dequeStep (map (fun e => method (fst e)) h) l0))).
  Proof.
    intros HR HE HF. destruct (sync_simulation r0 tr c HE) as (os & p & v & HL & HS & HI & HT).
    destruct (seq_deque r0 l0 os v HR HS) as (h & -> & HP & Eh & HR').
    { intros o x H. destruct (linearized_invoked _ _ _ HL) as [_ I2]. destruct (I2 o x H) as [t Ht]. eauto. }
    exists h, p. split; [exact HL|]. split; [exact HP|]. split; [exact Eh|]. intros HA.
    destruct HI as [_ HI].
    assert (HX : forall t, p t = PIdle /\ away (shared c) t).
    { intros t. pose proof (HT t) as Ht. rewrite HA in Ht. inversion Ht; auto. }
    split; [apply (linearized_quiescent _ _ _ HL); apply HX|].
    destruct (writer (mutex (shared c))) as [[u b]|] eqn:EW; [exfalso; now apply (proj2 (proj2 (HX u)) b)|]. now subst v.
  Qed.

End Shared.

Section Queue.
  Context {T : Type} (zero : T).
  Notation entry := (ringUse T * outcome (ringRes T))%type.
  (** What a queue returns, in its order, is what was put in, in its order. *)
  Lemma queue_order (h : list entry) : forall l, (forall e, In e h -> queueing (fst e)) ->
    map snd h = fst (runOps dequeStep (map (fun e => method (fst e)) h) l) ->
    popped h ++ snd (runOps dequeStep (map (fun e => method (fst e)) h) l) = l ++ pushed h.
  Proof.
    induction h as [|[u x] h IH]; intros l HQ E.
    - cbn. now rewrite app_nil_r.
    - assert (HQ' : forall e, In e h -> queueing (fst e)) by (intros e H; apply HQ; now right).
      destruct (HQ (u, x) (or_introl eq_refl)) as [Eu|[v Eu]]; cbn [fst] in Eu; subst u; cbn [map fst snd method push pop runOps dequeStep] in *.
      + destruct l as [|y l].
        * specialize (IH [] HQ'). destruct (runOps dequeStep (map (fun e => method (fst e)) h) []) as [rs l']. cbn [fst snd] in *.
          injection E as -> E. exact (IH E).
        * specialize (IH l HQ'). destruct (runOps dequeStep (map (fun e => method (fst e)) h) l) as [rs l']. cbn [fst snd] in *.
          injection E as -> E. cbn. f_equal. exact (IH E).
      + specialize (IH (l ++ [v]) HQ'). destruct (runOps dequeStep (map (fun e => method (fst e)) h) (l ++ [v])) as [rs l']. cbn [fst snd] in *.
        injection E as -> E. unfold popped, pushed in *. cbn [flat_map poppedBy pushedBy fst app push]. rewrite (IH E), <- app_assoc. reflexivity.
  Qed.

  Lemma popped_in (h : list entry) v : In v (popped h) <-> In (pop, Ok (RVal v)) h.
  Proof.
    unfold popped. rewrite in_flat_map. split.
    - intros ([u x] & Hin & Hv). destruct u as [[]|]; cbn in Hv; try contradiction. destruct x as [[]| |]; cbn in Hv; try contradiction.
      destruct Hv as [->|[]]. exact Hin.
    - intros H. eexists. split; [exact H|]. now left.
  Qed.
  Lemma pushed_in (h : list entry) v : In v (pushed h) <-> exists x, In (push v, x) h.
  Proof.
    unfold pushed. rewrite in_flat_map. split.
    - intros ([u x] & Hin & Hv). destruct u as [[]|]; cbn in Hv; try contradiction. destruct Hv as [->|[]]. eauto.
    - intros [x H]. eexists. split; [exact H|]. now left.
  Qed.

  Lemma alone_eq u v : used zero (WithLock u) = used zero (WithLock v) -> ringStep zero u New = ringStep zero v New.
  Proof.
    cbn [used]. intros E. injection E as E. apply (f_equal (fun f => atomically (f New) New)) in E.
    destruct (ringStep zero u New), (ringStep zero v New). exact E.
  Qed.
  Lemma used_inj u v : queueing u -> queueing v -> used zero u = used zero v -> u = v.
  Proof.
    pose proof (rep_new zero) as HN.
    intros [->|[x ->]] [->|[y ->]] E; try reflexivity; unfold pop, push in E; apply alone_eq in E.
    - destruct (step_ok zero _ _ OPop HN) as (r1 & E1 & _), (step_ok zero _ _ (OPush y) HN) as (r2 & E2 & _). rewrite E1, E2 in E. discriminate.
    - destruct (step_ok zero _ _ OPop HN) as (r1 & E1 & _), (step_ok zero _ _ (OPush x) HN) as (r2 & E2 & _). rewrite E1, E2 in E. discriminate.
    - destruct (step_ok zero _ _ (OPush x) HN) as (r1 & E1 & R1), (step_ok zero _ _ (OPush y) HN) as (r2 & E2 & R2). rewrite E1, E2 in E.
      injection E as ->. destruct (step_ok zero _ _ OPop R1) as (r3 & E3 & _), (step_ok zero _ _ OPop R2) as (r4 & E4 & _).
      rewrite E3 in E4. cbn in E4. injection E4 as -> _. reflexivity.
  Qed.
  Lemma labelled_in (h : list entry) u x : (forall e, In e h -> queueing (fst e)) -> queueing u ->
    In (used zero u, x) (map (labelled zero) h) -> In (u, x) h.
  Proof.
    intros HQ Hu H. apply in_map_iff in H as ([u' x'] & E & Hin). cbn [labelled fst snd] in E. injection E as E ->.
    rewrite <- (used_inj u' u); auto. exact (HQ _ Hin).
  Qed.

  Lemma split_order {A} (a b a' b' : list A) x : a ++ x :: b = a' ++ b' -> ~ In x a' -> exists c, a = a' ++ c.
  Proof.
    revert a. induction a' as [|y a' IH]; intros a E HN; [now exists a|].
    destruct a as [|z a]; cbn in E; injection E as -> E; [exfalso; apply HN; now left|].
    destruct (IH a E) as [c ->]; [intros H; apply HN; now right|]. now exists c.
  Qed.

  Lemma fifo r0 l0 tr1 tr2 tr3 c t u x y r : Rep zero r0 l0 ->
    let tr := tr1 ++ ERet t (used zero (push x)) r :: tr2 ++ EInv u (used zero (push y)) :: tr3 in
    execution r0 tr c -> (forall t, thread c t = Idle) ->
    (forall t o, In (EInv t o) tr -> exists v, queueing v /\ o = used zero v) ->
    ~ In y l0 -> (forall w, ~ In (EInv w (used zero (push y))) (tr1 ++ ERet t (used zero (push x)) r :: tr2)) ->
    In (used zero pop, Ok (RVal y)) (returned tr) -> In (used zero pop, Ok (RVal x)) (returned tr).
  Proof.
    intros HR tr HE HA HF Hy Hfirst Hpop.
    assert (Hpp : forall v : ringUse T, queueing v -> proper v) by (intros v [->|[w ->]]; exact I).
    destruct (shared_deque zero queueing Hpp r0 l0 tr c HR HE HF) as (h & p & HL & HQ & Eh & HI). destruct (HI HA) as [HP _].
    pose proof (queue_order h l0 HQ Eh) as HO.
    assert (Et : tr = (tr1 ++ ERet t (used zero (push x)) r :: tr2) ++ (EInv u (used zero (push y)) :: tr3))
      by (unfold tr; now rewrite <- app_assoc).
    destruct (linearized_prefix _ _ _ HL _ _ Et) as (os1 & os2 & p1 & Eo & HL1).
    apply map_eq_app in Eo as (h1 & h2 & -> & <- & <-).
    assert (HQ1 : forall e, In e h1 -> queueing (fst e)) by (intros e H; apply HQ, in_or_app; now left).
    assert (Hx : In x (pushed h1)).
    { apply pushed_in. exists r. apply labelled_in; [exact HQ1|right; now exists x|]. apply (returned_in _ _ _ _ _ HL1).
      apply ret_returned. exists t. apply in_or_app. right. now left. }
    assert (HNy : ~ In y (pushed h1)).
    { intros H. apply pushed_in in H as [z Hz]. destruct (linearized_invoked _ _ _ HL1) as [_ I2].
      destruct (I2 (used zero (push y)) z) as [w Hw]; [apply (in_map (labelled zero)) in Hz; exact Hz|].
      apply (Hfirst w). clear - Hw. rewrite in_app_iff in *. cbn [In] in *. destruct Hw as [H|[H|H]]; auto. }
    assert (Hyp : In y (popped (h1 ++ h2))).
    { apply popped_in. apply labelled_in; [exact HQ|now left|]. exact (returned_in _ _ _ _ _ HL Hpop). }
    apply in_split in Hyp as (a & b & Ea). rewrite Ea, <- app_assoc in HO. cbn [app] in HO.
    unfold pushed in HO. rewrite flat_map_app, app_assoc in HO. apply split_order in HO as [d Ed].
    2: { rewrite in_app_iff. intros [H|H]; [now apply Hy|now apply HNy]. }
    assert (Hxp : In x (popped (h1 ++ h2))).
    { rewrite Ea, Ed. apply in_or_app. left. apply in_or_app. left. apply in_or_app. now right. }
    apply popped_in in Hxp. apply (in_map (labelled zero)) in Hxp. exact (Permutation_in _ HP Hxp).
  Qed.
End Queue.
