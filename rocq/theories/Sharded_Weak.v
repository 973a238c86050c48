(** Looks at the whole of an xmap.Sharded while other calls are running. *)
From Coq Require Import Permutation.
From Verif Require Import Base Arr GoMap XMap_Spec Sharded_Model Sharded_Spec Sharded_Locks Sharded_Lin
  Sharded_Seq Sharded_Len.

Section Weak.
  Context {K V : Type} (eqb : K -> K -> bool) (zero : V) (nsh : nat) (hash : K -> Z).
  Hypothesis D : decides eqb.
  Hypothesis Hnsh : (0 < nsh)%nat.
  Notation prog := (prog K V).
  Notation shared := (shared K V).
  Notation config := (config K V).
  Notation op := (op K V).
  Notation res := (res K V).
  Notation event := (event K V).
  Notation progOf := (progOf eqb zero nsh hash).
  Notation cstep := (cstep eqb zero nsh hash).
  Notation reach := (reach eqb zero nsh hash).
  Notation value := (value eqb).
  Notation shardOf := (GetShard nsh hash).
  Notation maps := (nat -> gomap K V).
  Notation during := (during eqb zero nsh hash).
  Let PE : partial_equiv eqb := eq_pe _ (decides_equiv _ D).

  (** ** Each key stays in its shard *)
  Definition keyed (s : nat) (m : gomap K V) : Prop := forall k v, In (k, v) m -> shardOf k = s.

  Fixpoint keeps (p : prog) : Prop :=
    match p with
    | Ret _ => True
    | RLock _ k | RUnlock _ k | Lock _ k | LockWait _ k | Unlock _ k | Call k => keeps k
    | Read _ k => forall m, keeps (k m)
    | Range _ k => forall l, keeps (k l)
    | Write s f k => (forall m, keyed s m -> keyed s (f m)) /\ keeps k
    end.

  Lemma keyed_set k v m : keyed (shardOf k) m -> keyed (shardOf k) (gset eqb m k v).
  Proof. intros H k' v' Hi. apply (in_gset eqb hash D) in Hi as [->|Hi]; [reflexivity|]. eapply H; eassumption. Qed.
  Lemma keyed_del s k m : keyed s m -> keyed s (gdel eqb m k).
  Proof. intros H k' v' Hi. apply (in_gdel eqb hash) in Hi. eapply H; eassumption. Qed.

  Lemma keeps_len ss n : keeps (lenP ss n).
  Proof. revert n. induction ss; cbn; auto. Qed.
  Lemma keeps_empty ss : keeps (emptyP ss).
  Proof. induction ss; cbn; auto. intros m. destruct (glen m >? 0); cbn; auto. Qed.
  Lemma keeps_readOnly {A} ss (step : A -> list (K * V) -> A) fin acc : keeps (readOnlyP ss step fin acc).
  Proof. revert acc. induction ss; cbn; auto. Qed.
  Lemma keeps_iterate ss fn seen : keeps (iterateP ss fn seen).
  Proof.
    revert seen. induction ss as [|s ss IH]; intros seen; cbn; auto. intros l. revert seen.
    induction l as [|[k v] l IHl]; intros seen; cbn; auto. intros _. destruct (fn k v); cbn; auto.
  Qed.

  Lemma keeps_op o : noIterateShards o -> keeps (progOf o).
  Proof.
    intros H. destruct o; cbn [Sharded_Model.progOf].
    - cbn. split; [|exact I]. intros m. apply keyed_set.
    - cbn. intros m. destruct (has eqb m key); cbn; auto. split; [|exact I]. intros m'. apply keyed_set.
    - cbn. intros m. destruct (get2 eqb zero m key) as [? []]; cbn; auto.
    - cbn. intros m. destruct (get2 eqb zero m key) as [? []]; cbn; auto.
    - cbn. auto.
    - cbn. split; [|exact I]. intros m. apply keyed_del.
    - cbn. intros m. destruct (get2 eqb zero m key) as [? []]; cbn; auto.
      intros m2. destruct (get2 eqb zero m2 key) as [? []]; cbn; auto. split; [|exact I]. intros m'. apply keyed_set.
    - cbn. intros m. destruct (get2 eqb zero m key) as [? []]; cbn; auto.
      intros m2. destruct (get2 eqb zero m2 key) as [? []]; cbn; auto. destruct factory; cbn; auto.
      split; [|exact I]. intros m'. apply keyed_set.
    - apply keeps_len.
    - apply keeps_empty.
    - apply keeps_readOnly.
    - apply keeps_readOnly.
    - apply keeps_readOnly.
    - apply keeps_readOnly.
    - cbn. generalize (allShards nsh). intros ss. induction ss; cbn; auto. split; [|assumption].
      intros m _ k v [].
    - apply keeps_iterate.
    - apply keeps_readOnly.
    - contradiction.
  Qed.

  Variable allow : nat -> op -> Prop.
  Hypothesis HA : forall t o, allow t o -> linOp o.

  Lemma noIS t o : allow t o -> noIterateShards o.
  Proof. intros A. apply HA in A. destruct o; cbn in *; auto. Qed.

  Definition keyInv (c : config) : Prop :=
    (forall s, keyed s (items (shm c) s)) /\ forall t o p, thr c t = Running o p -> keeps p.

  Lemma keyInv_step c ev c' : cstep allow c ev c' -> keyInv c -> keyInv c'.
  Proof.
    intros S [I1 I2]. destruct S as [t o sh th E A|t o r sh th E|t o p sh th E|t o p p' sh sh' th E T]; cbn in *.
    - split; [assumption|]. intros t1 o1 p1. cbn. destruct (fupd_case th t t1 (Running o (progOf o))) as [[<- ->]|[_ ->]]; [|apply I2].
      intros [= <- <-]. apply keeps_op. eapply noIS; eassumption.
    - split; [assumption|]. intros t1 o1 p1. cbn. destruct (fupd_case th t t1 Idle) as [[<- ->]|[_ ->]]; [discriminate|apply I2].
    - split; [assumption|]. intros t1 o1 p1. cbn. destruct (fupd_case th t t1 (Running o p)) as [[<- ->]|[_ ->]]; [|apply I2].
      intros [= <- <-]. apply (I2 t o _ E).
    - specialize (I2 t o p E) as W.
      assert (Hs : (forall s, keyed s (items sh' s)) /\ keeps p').
      { destruct T; cbn in W |- *; auto. destruct W as [W1 W2]. split; [|assumption].
        intros s'. destruct (fupd_case (items sh) s s' (f (items sh s))) as [[<- ->]|[_ ->]]; [|apply I1]. apply W1, I1. }
      destruct Hs as [H1 H2]. split; [assumption|]. intros t1 o1 p1. cbn.
      destruct (fupd_case th t t1 (Running o p')) as [[<- ->]|[_ ->]]; [|apply I2]. now intros [= <- <-].
  Qed.

  Definition good (c : config) : Prop := wInv eqb c /\ keyInv c.
  Lemma good_step c ev c' : cstep allow c ev c' -> good c -> good c'.
  Proof.
    intros S [G1 G2]. split; [|eapply keyInv_step; eassumption].
    eapply (wInv_step eqb zero nsh hash PE allow); [|eassumption..]. intros t o. apply noIS.
  Qed.
  Lemma good_reach tr c : reach allow tr c -> good c.
  Proof.
    induction 1 as [|tr c ev c' R IH S]; [|eapply good_step; eassumption].
    split; split; cbn; try discriminate; intros s; [exact I|intros k v []].
  Qed.
  Lemma good_during c evs cs c' : during allow c evs cs c' -> good c -> forall c2, In c2 cs -> good c2.
  Proof.
    induction 1 as [c|c ev c1 evs cs c' S _ IH]; intros G c2 [<-|Hi]; auto; [destruct Hi|].
    apply IH; [|assumption]. eapply good_step; eassumption.
  Qed.

  (** ** Calls that look at each shard once *)
  Fixpoint once (ss : list nat) (p : prog) : Prop :=
    match p with
    | Ret _ => True
    | RLock _ k | RUnlock _ k | Lock _ k | LockWait _ k | Unlock _ k | Call k => once ss k
    | Read s k => (In s ss /\ forall m, once (List.remove Nat.eq_dec s ss) (k m)) \/
                  (forall m, k m = k [] /\ once ss (k m))
    | Range s k => In s ss /\ forall l, once (List.remove Nat.eq_dec s ss) (k l)
    | Write _ _ _ => False
    end.

  Lemma once_mono p : forall ss ss', incl ss ss' -> once ss p -> once ss' p.
  Proof.
    assert (R : forall s ss ss', incl ss ss' -> incl (List.remove Nat.eq_dec s ss) (List.remove Nat.eq_dec s ss')).
    { intros s ss ss' H x Hx. apply in_remove in Hx as [H1 H2]. apply in_in_remove; auto. }
    induction p; cbn; intros ss ss' Hi; eauto.
    - intros [[H1 H2]|H2]; [left|right].
      + split; [auto|]. intros m. eapply H; [|apply H2]. now apply R.
      + intros m. destruct (H2 m). split; [assumption|]. eapply H; eassumption.
    - intros [H1 H2]. split; [auto|]. intros l. eapply H; [|apply H2]. now apply R.
  Qed.

  Lemma remove_cons s ss : ~ In s ss -> List.remove Nat.eq_dec s (s :: ss) = ss.
  Proof. intros H. cbn. destruct (Nat.eq_dec s s); [|congruence]. now apply notin_remove. Qed.

  Lemma once_len ss n : NoDup ss -> once ss (lenP ss n).
  Proof.
    intros N. revert n. induction N as [|s ss Hs N IH]; intros n; [exact I|]. cbn [lenP once]. left.
    rewrite remove_cons by assumption. split; [now left|]. intros m. apply IH.
  Qed.
  Lemma once_empty ss : NoDup ss -> once ss (emptyP ss).
  Proof.
    induction 1 as [|s ss Hs N IH]; [exact I|]. cbn [emptyP once]. left.
    rewrite remove_cons by assumption. split; [now left|]. intros m. destruct (glen m >? 0); [exact I|]. apply IH.
  Qed.
  Lemma once_readOnly {A} ss (step : A -> list (K * V) -> A) fin acc : NoDup ss -> once ss (readOnlyP ss step fin acc).
  Proof.
    intros N. revert acc. induction N as [|s ss Hs N IH]; intros acc; [exact I|]. cbn [readOnlyP once].
    rewrite remove_cons by assumption. split; [now left|]. intros m. apply IH.
  Qed.
  Lemma once_iterate ss fn seen : NoDup ss -> once ss (iterateP ss fn seen).
  Proof.
    intros N. revert seen. induction N as [|s ss Hs N IH]; intros seen; [exact I|]. cbn [iterateP once].
    rewrite remove_cons by assumption. split; [now left|]. intros l. revert seen.
    induction l as [|[k v] l IHl]; intros seen; [apply IH|]. cbn [iterLoop once]. right. intros _. split; [reflexivity|].
    destruct (fn k v); [apply IHl|exact I].
  Qed.

  Lemma once_op o : looks o -> once (allShards nsh) (progOf o).
  Proof.
    assert (N : NoDup (allShards nsh)) by apply seq_NoDup.
    destruct o; cbn [looks Sharded_Model.progOf]; try contradiction; intros _;
      auto using once_len, once_empty, once_readOnly, once_iterate.
  Qed.

  (** Such a call does what it would do alone on a map whose shards are as they
      were at moments of the call. *)
  Lemma views t c evs cs c' : during allow c evs cs c' ->
    forall o p ss, thr c t = Running o p -> once ss p ->
    forall r evs', evs = evs' ++ [ERet t o r] -> (forall o r', ~ In (ERet t o r') evs') ->
    forall M0 : maps, exists M : maps,
      (forall s, In s ss -> exists c2, In c2 cs /\ M s = items (shm c2) s) /\
      (forall s, ~ In s ss -> M s = M0 s) /\
      forall Q, swp p M Q -> Q r M.
  Proof.
    induction 1 as [c|c ev c1 evs cs c' S Du IH]; intros o p ss E On r evs' Ev Nr M0.
    { destruct evs'; discriminate. }
    (* the call goes on as [q] *)
    assert (Cont : forall q ss' (M1 : maps), thr c1 t = Running o q -> once ss' q -> incl ss' ss ->
              (forall s, In s ss -> ~ In s ss' -> M1 s = items (shm c) s) ->
              (forall s, ~ In s ss -> M1 s = M0 s) ->
              (forall o' r', ~ In (ERet t o' r') ev) ->
              (forall M Q, (forall s, ~ In s ss' -> M s = M1 s) -> swp p M Q -> swp q M Q) ->
              exists M : maps, (forall s, In s ss -> exists c2, In c2 (c :: cs) /\ M s = items (shm c2) s) /\
                (forall s, ~ In s ss -> M s = M0 s) /\ forall Q, swp p M Q -> Q r M).
    { intros q ss' M1 Eq Oq Hin H1 H2 Hni Hw.
      assert (exists evs2, evs' = ev ++ evs2 /\ evs = evs2 ++ [ERet t o r]) as (evs2 & -> & ->).
      { destruct S as [t1 o1 sh th E1 A|t1 o1 r1 sh th E1|t1 o1 p1 sh th E1|t1 o1 p1 p' sh sh' th E1 T]; cbn in Ev.
        - destruct evs' as [|e evs2]; cbn in Ev; [discriminate|]. injection Ev as <- ->. exists evs2. auto.
        - destruct evs' as [|e evs2]; cbn in Ev.
          + injection Ev as -> -> -> ->. exfalso. apply (Hni o r). now left.
          + injection Ev as <- ->. exists evs2. auto.
        - destruct evs' as [|e evs2]; cbn in Ev; [discriminate|]. injection Ev as <- ->. exists evs2. auto.
        - exists evs'. auto. }
      destruct (IH o q ss' Eq Oq r evs2 eq_refl) with (M0 := M1) as (M & HM1 & HM2 & HM3).
      { intros o' r' Hi. apply (Nr o' r'). apply in_or_app. now right. }
      exists M. split; [|split].
      - intros s Hs. destruct (in_dec Nat.eq_dec s ss') as [i|i].
        + destruct (HM1 s i) as (c2 & Hi & ->). exists c2. split; [now right|reflexivity].
        + exists c. split; [now left|]. rewrite HM2 by assumption. now apply H1.
      - intros s Hs. rewrite HM2 by (intros i; apply Hs; now apply Hin). now apply H2.
      - intros Q Sw. apply HM3. now apply Hw. }
    assert (Same : forall q, thr c1 t = Running o q -> once ss q -> (forall o' r', ~ In (ERet t o' r') ev) ->
              (forall M Q, swp p M Q -> swp q M Q) ->
              exists M : maps, (forall s, In s ss -> exists c2, In c2 (c :: cs) /\ M s = items (shm c2) s) /\
                (forall s, ~ In s ss -> M s = M0 s) /\ forall Q, swp p M Q -> Q r M).
    { intros q Eq Oq Hni Hw. apply (Cont q ss M0); auto; [apply incl_refl|]. intros s H1 H2. contradiction. }
    destruct S as [t1 o1 sh th E1 A|t1 o1 r1 sh th E1|t1 o1 p1 sh th E1|t1 o1 p1 p' sh sh' th E1 T]; cbn [thr shm] in *.
    - apply (Same p); auto; [|intros ? ? [Hi|[]]; discriminate].
      rewrite fupd_other; [assumption|]. intros ->. congruence.
    - destruct (Nat.eq_dec t1 t) as [->|Hn].
      + rewrite E in E1. injection E1 as <- ->.
        destruct evs' as [|e evs2]; cbn in Ev; [|injection Ev as <- ->; exfalso; apply (Nr o r1); now left].
        injection Ev as -> ->.
        exists (fun s => if in_dec Nat.eq_dec s ss then items sh s else M0 s). split; [|split].
        * intros s Hs. eexists. split; [now left|]. cbn. destruct (in_dec Nat.eq_dec s ss); [reflexivity|contradiction].
        * intros s Hs. destruct (in_dec Nat.eq_dec s ss); [contradiction|reflexivity].
        * cbn. auto.
      + apply (Same p); auto; [rewrite fupd_other by congruence; assumption|]. intros ? ? [Hi|[]]. congruence.
    - destruct (Nat.eq_dec t1 t) as [->|Hn].
      + rewrite E in E1. injection E1 as <- ->. apply (Same p1); [apply fupd_same|exact On| |auto].
        intros ? ? [Hi|[]]; discriminate.
      + apply (Same p); auto; [rewrite fupd_other by congruence; assumption|]. intros ? ? [Hi|[]]; discriminate.
    - destruct (Nat.eq_dec t1 t) as [->|Hn].
      + rewrite E in E1. injection E1 as <- <-. pose proof (fupd_same th t (Running o p')) as Ft.
        assert (Nil : forall (o' : op) (r' : res), ~ In (ERet t o' r') []) by (intros ? ? []).
        destruct T as [s k sh W|s k sh W|s k sh W|s k sh W R|s k sh W|s k sh|s k l sh Pm|s f k sh]; cbn [once] in On;
          try (apply (Same _ Ft On Nil); intros M Q Sw; exact Sw).
        * destruct On as [[Hs On]|On].
          -- apply (Cont _ (List.remove Nat.eq_dec s ss) (fupd M0 s (items sh s)) Ft (On _)); auto.
             ++ intros x Hx. now apply in_remove in Hx.
             ++ intros s' H1 H2. destruct (fupd_case M0 s s' (items sh s)) as [[<- ->]|[Hne _]]; [reflexivity|].
                exfalso. apply H2. apply in_in_remove; [congruence|assumption].
             ++ intros s' H1. apply fupd_other. congruence.
             ++ intros M Q HM Sw. cbn in Sw. rewrite HM in Sw by apply remove_In. now rewrite fupd_same in Sw.
          -- apply (Same _ Ft (proj2 (On _)) Nil). intros M Q Sw. cbn in Sw.
             rewrite (proj1 (On (M s))) in Sw. now rewrite (proj1 (On (items sh s))).
        * destruct On as [Hs On].
          apply (Cont _ (List.remove Nat.eq_dec s ss) (fupd M0 s (items sh s)) Ft (On _)); auto.
          -- intros x Hx. now apply in_remove in Hx.
          -- intros s' H1 H2. destruct (fupd_case M0 s s' (items sh s)) as [[<- ->]|[Hne _]]; [reflexivity|].
             exfalso. apply H2. apply in_in_remove; [congruence|assumption].
          -- intros s' H1. apply fupd_other. congruence.
          -- intros M Q HM Sw. cbn in Sw. apply Sw. rewrite HM by apply remove_In. now rewrite fupd_same.
        * contradiction.
      + apply (Same p); auto. rewrite fupd_other by congruence; assumption.
  Qed.

  (** ** What the calls tell of such a map *)
  Lemma tells_weaken (P P' : list (K * V) -> Prop) o r : (forall l, P l -> P' l) -> tells P o r -> tells P' o r.
  Proof.
    intros H. destruct o; cbn; auto; try (intros (l & A & B); exists l; auto).
    destruct B as (b & B1 & B2). exists A, b. auto.
  Qed.

  Lemma swp_looks o M : looks o -> (forall s, wfm eqb (M s)) -> (forall s, keyed s (M s)) ->
    swp (progOf o) M (fun r _ => tells (fun l => exists ls, orders M ls (allShards nsh) /\ l = List.concat ls) o r).
  Proof.
    intros Lo W Ky. destruct o; cbn [Sharded_Model.progOf looks] in *; try contradiction.
    - apply swp_len. eexists. split; [eexists; split; [apply orders_refl|reflexivity]|]. reflexivity.
    - apply (swp_empty nsh Hnsh). eexists. split; [eexists; split; [apply orders_refl|reflexivity]|]. reflexivity.
    - apply swp_readOnly. intros ls Ho. exists (List.concat ls). split; [eauto|].
      rewrite (fold_app_gen (map fst)); [reflexivity| |reflexivity]. intros; apply map_app.
    - apply swp_readOnly. intros ls Ho. exists (List.concat ls). split; [eauto|].
      rewrite (fold_app_gen (map snd)); [reflexivity| |reflexivity]. intros; apply map_app.
    - apply swp_readOnly. intros ls Ho. exists (List.concat ls). split; [eauto|].
      rewrite (fold_app_gen (fun l => l)); reflexivity.
    - apply swp_readOnly. intros ls Ho. exists (List.concat ls). split; [eauto|].
      rewrite fold_concat, (fold_gset eqb D); [reflexivity|].
      eapply (orders_entries eqb nsh hash D); [exact Ho|assumption|exact Ky|apply seq_NoDup].
    - apply swp_iterate; [intros k v []|]. intros ls r Ho (seen & rest & returned & Ha & Hr & Hd).
      exists seen, rest, returned. cbn in Ha. rewrite <- Ha. split; [eauto|]. auto.
    - apply swp_readOnly. intros ls Ho. exists ls. split; [eauto|]. f_equal.
      assert (G : forall acc, fold_left (fun (ms : list (list (K * V))) l => ms ++ [l]) ls acc = acc ++ ls).
      { clear. induction ls as [|l ls IH]; intros acc; cbn; [now rewrite app_nil_r|].
        rewrite IH, <- app_assoc. reflexivity. }
      apply G.
  Qed.

  (** ** The history *)
  Lemma during_lin c evs cs c1 tr0 h0 p0 : during allow c evs cs c1 -> forall tr h ph,
    lockInv true c -> linearizedFrom eqb zero tr0 h0 p0 tr h ph -> linInv eqb zero nsh hash c h ph ->
    exists new ph1, linearizedFrom eqb zero tr0 h0 p0 (tr ++ evs) (new ++ h) ph1 /\
      forall c2, In c2 cs -> exists h2, happened h new h2 /\
        forall k, value h2 k = gget eqb (items (shm c2) (shardOf k)) k.
  Proof.
    assert (HC : forall x y, eqb x y = true -> hash x = hash y) by (intros x y E; apply D in E; congruence).
    induction 1 as [c|c ev c1 evs cs c' S Du IH]; intros tr h ph LK L LV.
    - exists [], ph. rewrite app_nil_r. split; [assumption|]. intros c2 [<-|[]]. exists h. split; [now exists [], []|]. apply LV.
    - destruct (sim_step eqb zero nsh hash PE HC tr0 h0 p0 allow tr c ev c1 h ph HA S LK L LV) as (h' & ph' & L' & [n1 ->] & LV').
      assert (LK' : lockInv true c1).
      { eapply lockInv_step; [|exact S|exact LK]. right. now apply (notClear nsh (fun _ => PIdle)). }
      destruct (IH (tr ++ ev) (n1 ++ h) ph' LK' L' LV') as (n2 & ph1 & L1 & H1).
      exists (n2 ++ n1), ph1. rewrite <- !app_assoc in *. split; [exact L1|].
      intros c2 [<-|Hi].
      + exists h. split; [exists (n2 ++ n1), []; now rewrite app_nil_r|]. apply LV.
      + destruct (H1 c2 Hi) as (h2 & (la & ea & -> & ->) & H2). exists (ea ++ n1 ++ h). split; [|exact H2].
        exists la, (ea ++ n1). now rewrite <- !app_assoc.
  Qed.

  Lemma weak_tells c0 c c1 c' t o r tr evs cs :
    reach allow tr c0 -> cstep allow c0 [EInv t o] c -> looks o ->
    during allow c evs cs c1 -> (forall o' r', ~ In (ERet t o' r') evs) -> cstep allow c1 [ERet t o r] c' ->
    exists h0 p0 new p1, linearized eqb zero (tr ++ [EInv t o]) h0 p0 /\
      linearizedFrom eqb zero (tr ++ [EInv t o]) h0 p0 ((tr ++ [EInv t o]) ++ evs) (new ++ h0) p1 /\
      tells (weakEntries eqb h0 new) o r.
  Proof.
    assert (HC : forall x y, eqb x y = true -> hash x = hash y) by (intros x y E; apply D in E; congruence).
    intros R0 S0 Lo Du Nr S1.
    pose proof (reach_step _ _ _ _ allow _ _ _ _ R0 S0) as R.
    pose proof (good_reach _ _ R) as G.
    destruct (sim_reach eqb zero nsh hash PE HC allow _ _ HA R) as (h0 & p0 & L0 & LV0).
    assert (LK : lockInv true c) by (eapply lockInv_reach; [|exact R]; right; now apply (notClear nsh (fun _ => PIdle))).
    assert (E : thr c t = Running o (progOf o)) by (inversion S0; subst; cbn; apply fupd_same).
    pose proof (during_snoc eqb zero nsh hash allow _ _ _ _ _ _ Du S1) as Du'.
    destruct (during_lin c evs cs c1 (tr ++ [EInv t o]) h0 p0 Du (tr ++ [EInv t o]) h0 p0 LK (lin_init _ _ _ _ _) LV0) as (new & p1 & L1 & Hm).
    exists h0, p0, new, p1. split; [assumption|]. split; [assumption|].
    (* the return does not change the map *)
    assert (Hc' : forall c2, In c2 (cs ++ [c']) -> exists c3, In c3 cs /\ items (shm c3) = items (shm c2)).
    { intros c2 Hi. apply in_app_iff in Hi as [Hi|[<-|[]]]; [eauto|]. exists c1. split.
      - clear - Du. induction Du; [now left|now right].
      - inversion S1; subst; reflexivity. }
    destruct (views t c _ _ c' Du' o _ (allShards nsh) E (once_op o Lo) r evs eq_refl Nr (fun _ => [])) as (M & M1 & M2 & M3).
    assert (MG : forall s, wfm eqb (M s) /\ keyed s (M s)).
    { intros s. destruct (in_dec Nat.eq_dec s (allShards nsh)) as [i|i].
      - destruct (M1 s i) as (c2 & Hi & ->). destruct (Hc' c2 Hi) as (c3 & Hi3 & <-).
        destruct (good_during _ _ _ _ Du G c3 Hi3) as [[G1 _] [G2 _]]. auto.
      - rewrite M2 by assumption. split; [exact I|intros k v []]. }
    pose proof (M3 _ (swp_looks o M Lo (fun s => proj1 (MG s)) (fun s => proj2 (MG s)))) as T.
    revert T. apply tells_weaken. intros l (ls & Ho & ->).
    destruct (orders_entries eqb nsh hash D M ls _ Ho (fun s => proj1 (MG s)) (fun s => proj2 (MG s)) (seq_NoDup _ _)) as [H1 H2].
    assert (HM : forall s, In s (allShards nsh) -> exists c3 h3, In c3 cs /\ happened h0 new h3 /\ M s = items (shm c3) s /\
               forall k, value h3 k = gget eqb (items (shm c3) (shardOf k)) k).
    { intros s i. destruct (M1 s i) as (c2 & Hi & Es). destruct (Hc' c2 Hi) as (c3 & Hi3 & E3).
      destruct (Hm c3 Hi3) as (h3 & Hh & Hv). exists c3, h3. split; [assumption|]. split; [assumption|]. split; [now rewrite E3|assumption]. }
    split; [assumption|]. split.
    - intros k v Hk. apply H2 in Hk as (s & Hs & Hk). destruct (HM s Hs) as (c3 & h3 & Hi & Hh & Es & Hv).
      exists h3. split; [assumption|]. rewrite Hv. destruct (MG s) as [W Ky]. rewrite (Ky _ _ Hk), <- Es.
      now apply (gget_iff_in eqb D).
    - intros k Hk.
      assert (Hs : In (shardOf k) (allShards nsh)) by (apply in_seq; pose proof (shard_lt nsh hash Hnsh k); lia).
      destruct (HM _ Hs) as (c3 & h3 & Hi & Hh & Es & Hv). specialize (Hk _ Hh). rewrite Hv, <- Es in Hk.
      destruct (gget eqb (M (shardOf k)) k) as [v|] eqn:Ev; [|congruence].
      apply (gget_iff_in eqb D) in Ev; [|apply MG]. apply in_map_iff. exists (k, v). split; [reflexivity|].
      apply H2. eauto.
  Qed.
End Weak.
