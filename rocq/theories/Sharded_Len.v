(** Sharded.Len against concurrent changes. *)
From Coq Require Import Permutation.
From Verif Require Import Base Arr GoMap XMap_Spec Sharded_Model Sharded_Spec Sharded_Locks.

Section Len.
  Context {K V : Type} (eqb : K -> K -> bool) (zero : V) (nsh : nat) (hash : K -> Z).
  Hypothesis PE : partial_equiv eqb.
  Notation prog := (prog K V).
  Notation shared := (shared K V).
  Notation config := (config K V).
  Notation op := (op K V).
  Notation event := (event K V).
  Notation progOf := (progOf eqb zero nsh hash).
  Notation cstep := (cstep eqb zero nsh hash).
  Notation reach := (reach eqb zero nsh hash).

  (** Number of entries in the shards [ss]; of the whole map. *)
  Fixpoint sizeOf (c : config) (ss : list nat) : Z :=
    match ss with [] => 0 | s :: ss' => glen (items (shm c) s) + sizeOf c ss' end.
  Definition size (c : config) : Z := sizeOf c (allShards nsh).

  (** [during c evs cs c']: a stretch of execution from [c] to [c'] with events
      [evs], passing through the configurations [cs] (both ends included). *)
  Inductive during (allow : nat -> op -> Prop) : config -> list event -> list config -> config -> Prop :=
  | during_nil c : during allow c [] [c] c
  | during_cons c ev c1 evs cs c' : cstep allow c ev c1 -> during allow c1 evs cs c' ->
      during allow c (ev ++ evs) (c :: cs) c'.

  (** Calls that never remove, and calls that never add, an entry. *)
  Definition growing (o : op) : Prop := match o with ODelete _ | OClear | OIterateShards _ => False | _ => True end.
  Definition shrinking (o : op) : Prop :=
    match o with
    | OSet _ _ | OTrySet _ _ | OGetOrSetDefault _ _ | OGetOrSetFactory _ _ | OClear | OIterateShards _ => False
    | _ => True
    end.

  (** [okWrite o f]: the writes of call [o]. *)
  Definition okWrite (o : op) (f : gomap K V -> gomap K V) : Prop := forall m, wfm eqb m ->
    wfm eqb (f m) /\
    (growing o -> glen m <= glen (f m) <= glen m + 1) /\
    (shrinking o -> glen m - 1 <= glen (f m) <= glen m).

  Fixpoint allW (P : (gomap K V -> gomap K V) -> Prop) (p : prog) : Prop :=
    match p with
    | Ret _ => True
    | RLock _ k | RUnlock _ k | Lock _ k | LockWait _ k | Unlock _ k | Call k => allW P k
    | Read _ k => forall m, allW P (k m)
    | Range _ k => forall l, allW P (k l)
    | Write _ f k => P f /\ allW P k
    end.

  Lemma gdel_len (m : gomap K V) k : wfm eqb m -> glen m - 1 <= glen (gdel eqb m k) <= glen m.
  Proof.
    unfold glen. induction m as [|[k' v] m IH]; intros W; [cbn; lia|].
    destruct W as [W1 W2]. specialize (IH W2). cbn [gdel]. destruct (eqb k' k) eqn:E.
    - rewrite (gdel_none eqb).
      + rewrite zlen_cons. lia.
      + destruct (gget eqb m k) eqn:Eg; [|reflexivity]. apply gget_in in Eg as (k2 & Hin & E2).
        pose proof (gget_none_in eqb m k' W1 k2 v0 Hin) as F.
        rewrite (pe_trans _ PE _ _ _ E2 (pe_sym _ PE _ _ E)) in F. discriminate.
    - rewrite !zlen_cons. lia.
  Qed.

  Lemma okWrite_set o k v : ~ shrinking o -> okWrite o (fun m => gset eqb m k v).
  Proof.
    intros Hs m W. split; [now apply wfm_gset|]. split; [|tauto]. intros _.
    rewrite (gset_len eqb). destruct (gget eqb m k); lia.
  Qed.

  Lemma allW_len P ss n : allW P (lenP (K := K) (V := V) ss n).
  Proof. revert n. induction ss; cbn; auto. Qed.
  Lemma allW_empty P ss : allW P (emptyP (K := K) (V := V) ss).
  Proof. induction ss; cbn; auto. intros m. destruct (glen m >? 0); cbn; auto. Qed.
  Lemma allW_readOnly P {A} ss (step : A -> list (K * V) -> A) fin acc : allW P (readOnlyP ss step fin acc).
  Proof. revert acc. induction ss; cbn; auto. Qed.
  Lemma allW_iterate P ss fn seen : allW P (iterateP (K := K) (V := V) ss fn seen).
  Proof.
    revert seen. induction ss as [|s ss IH]; intros seen; cbn; auto. intros l. revert seen.
    induction l as [|[k v] l IHl]; intros seen; cbn; auto. intros _. destruct (fn k v); cbn; auto.
  Qed.

  Definition noIterateShards (o : op) : Prop := match o with OIterateShards _ => False | _ => True end.

  Lemma allW_op o : noIterateShards o -> allW (okWrite o) (progOf o).
  Proof.
    intros H. destruct o; cbn [Sharded_Model.progOf].
    - cbn. split; [|exact I]. apply okWrite_set. cbn. tauto.
    - cbn. intros m. destruct (has eqb m key); cbn; auto. split; [|exact I]. apply okWrite_set. cbn. tauto.
    - cbn. intros m. destruct (get2 eqb zero m key) as [? []]; cbn; auto.
    - cbn. intros m. destruct (get2 eqb zero m key) as [? []]; cbn; auto.
    - cbn. auto.
    - cbn. split; [|exact I]. intros m W. split; [now apply wfm_gdel|]. split; [cbn; tauto|]. intros _. now apply gdel_len.
    - cbn. intros m. destruct (get2 eqb zero m key) as [? []]; cbn; auto.
      intros m2. destruct (get2 eqb zero m2 key) as [? []]; cbn; auto. split; [|exact I]. apply okWrite_set. cbn. tauto.
    - cbn. intros m. destruct (get2 eqb zero m key) as [? []]; cbn; auto.
      intros m2. destruct (get2 eqb zero m2 key) as [? []]; cbn; auto. destruct factory; cbn; auto.
      split; [|exact I]. apply okWrite_set. cbn. tauto.
    - apply allW_len.
    - apply allW_empty.
    - apply allW_readOnly.
    - apply allW_readOnly.
    - apply allW_readOnly.
    - apply allW_readOnly.
    - cbn. generalize (allShards nsh). intros ss. induction ss; cbn; auto. split; [|assumption].
      intros m W. cbn. tauto.
    - apply allW_iterate.
    - apply allW_readOnly.
    - contradiction.
  Qed.

  Variable allow : nat -> op -> Prop.
  Hypothesis HA : forall t o, allow t o -> noIterateShards o.

  Definition wInv (c : config) : Prop :=
    (forall s, wfm eqb (items (shm c) s)) /\
    forall t o p, thr c t = Running o p -> allW (okWrite o) p.

  Lemma wInv_step c ev c' : cstep allow c ev c' -> wInv c -> wInv c'.
  Proof.
    intros S [I1 I2]. destruct S as [t o sh th E A|t o r sh th E|t o p sh th E|t o p p' sh sh' th E T]; cbn in *.
    - split; [assumption|]. intros t1 o1 p1. cbn. destruct (fupd_case th t t1 (Running o (progOf o))) as [[<- ->]|[_ ->]]; [|apply I2].
      intros [= <- <-]. apply allW_op. eauto.
    - split; [assumption|]. intros t1 o1 p1. cbn. destruct (fupd_case th t t1 Idle) as [[<- ->]|[_ ->]]; [discriminate|apply I2].
    - split; [assumption|]. intros t1 o1 p1. cbn. destruct (fupd_case th t t1 (Running o p)) as [[<- ->]|[_ ->]]; [|apply I2].
      intros [= <- <-]. apply (I2 t o _ E).
    - specialize (I2 t o p E) as W.
      assert (Hs : (forall s, wfm eqb (items sh' s)) /\ allW (okWrite o) p').
      { destruct T; cbn in W |- *; auto. destruct W as [W1 W2]. split; [|assumption].
        intros s'. destruct (fupd_case (items sh) s s' (f (items sh s))) as [[<- ->]|[_ ->]]; [|apply I1]. apply W1, I1. }
      destruct Hs as [H1 H2]. split; [assumption|]. intros t1 o1 p1. cbn.
      destruct (fupd_case th t t1 (Running o p')) as [[<- ->]|[_ ->]]; [|apply I2]. now intros [= <- <-].
  Qed.

  Lemma wInv_reach tr c : reach allow tr c -> wInv c.
  Proof.
    induction 1 as [|tr c ev c' R IH S]; [split; [intros s; exact I|discriminate]|]. eapply wInv_step; eassumption.
  Qed.

  (** One step changes one shard by at most one, in the direction [d]. *)
  Definition dir (d : Z) (o : op) : Prop := (d = 1 /\ growing o) \/ (d = -1 /\ shrinking o).
  Definition allDir (d : Z) (c : config) : Prop := forall t o p, thr c t = Running o p -> dir d o.

  Lemma step_shards d c ev c' : cstep allow c ev c' -> wInv c -> allDir d c ->
    exists s0, (forall s, s <> s0 -> items (shm c') s = items (shm c) s) /\
      0 <= d * (glen (items (shm c') s0) - glen (items (shm c) s0)) <= 1.
  Proof.
    intros S [I1 I2] HD. destruct S as [t o sh th E A|t o r sh th E|t o p sh th E|t o p p' sh sh' th E T]; cbn in *.
    - exists 0%nat. split; [auto|lia].
    - exists 0%nat. split; [auto|lia].
    - exists 0%nat. split; [auto|lia].
    - destruct T; try (exists 0%nat; split; [auto|cbn; lia]).
      specialize (I2 t o _ E) as [W _]. destruct (W (items sh s) (I1 s)) as (_ & W1 & W2).
      exists s. split; [intros s' Hs; apply fupd_other; congruence|]. cbn. rewrite fupd_same.
      destruct (HD t o _ E) as [[-> G]|[-> G]]; [specialize (W1 G)|specialize (W2 G)]; lia.
  Qed.

  Lemma sizeOf_step d c c' s0 : (forall s, s <> s0 -> items (shm c') s = items (shm c) s) ->
    0 <= d * (glen (items (shm c') s0) - glen (items (shm c) s0)) <= 1 ->
    forall ss, NoDup ss -> 0 <= d * (sizeOf c' ss - sizeOf c ss) <= 1.
  Proof.
    intros H1 H2 ss N. cut ((In s0 ss -> 0 <= d * (sizeOf c' ss - sizeOf c ss) <= 1) /\ (~ In s0 ss -> sizeOf c' ss = sizeOf c ss)).
    - intros [A B]. destruct (in_dec Nat.eq_dec s0 ss) as [i|i]; [auto|]. rewrite (B i). lia.
    - induction N as [|s ss Hs N [IH1 IH2]]; cbn; [tauto|]. split.
      + intros [->|Hi].
        * rewrite IH2 by assumption. lia.
        * rewrite (H1 s) by (intros ->; contradiction). specialize (IH1 Hi). lia.
      + intros Hn. rewrite (H1 s) by (intros ->; apply Hn; now left). rewrite IH2; [reflexivity|tauto].
  Qed.

  (** ** The call of Len *)
  Inductive lenState : prog -> list nat -> Z -> Prop :=
  | ls_start ss n : lenState (lenP ss n) ss n
  | ls_read s ss n : lenState (Read s (fun m => RUnlock s (lenP ss (n + glen m)))) (s :: ss) n
  | ls_unlock s ss n : lenState (RUnlock s (lenP ss n)) ss n.

  Lemma lenState_step t p ss n sh p' sh' : lenState p ss n -> tstep t p sh p' sh' ->
    items sh' = items sh /\
    (lenState p' ss n \/ exists s ss', ss = s :: ss' /\ lenState p' ss' (n + glen (items sh s))).
  Proof.
    intros L T. destruct L as [[|s ss] n|s ss n|s ss n]; cbn in T; inversion T; subst; cbn; (split; [reflexivity|]).
    - left. apply ls_read.
    - right. exists s, ss. split; [reflexivity|]. apply ls_unlock.
    - left. apply ls_start.
  Qed.

  Lemma sizeOf_app c ss ss' : sizeOf c (ss ++ ss') = sizeOf c ss + sizeOf c ss'.
  Proof. induction ss; cbn; lia. Qed.

  Lemma lenState_ret r ss n : lenState (Ret r) ss n -> ss = [] /\ r = RInt n.
  Proof.
    intros L. remember (Ret r) as p eqn:E. destruct L as [[|s ss] n|s ss n|s ss n]; cbn in E; try discriminate.
    injection E as <-. auto.
  Qed.
  Lemma lenState_call q ss n : ~ lenState (Call q) ss n.
  Proof.
    intros L. remember (Call q) as p eqn:E. destruct L as [[|s ss] n|s ss n|s ss n]; cbn in E; discriminate.
  Qed.

  Lemma NoDup_app_split {A} (l l' : list A) : NoDup (l ++ l') -> NoDup l /\ NoDup l'.
  Proof.
    induction l as [|x l IH]; cbn; [intros; split; [constructor|assumption]|]. intros N. inversion N; subst.
    destruct (IH H2). split; [|assumption]. constructor; [|assumption]. intros Hi. apply H1. apply in_or_app. auto.
  Qed.

  Lemma during_mono d c evs cs c' : during allow c evs cs c' -> wInv c ->
    (forall c1, In c1 cs -> allDir d c1) -> 0 <= d * (size c' - size c).
  Proof.
    induction 1 as [c|c ev c1 evs cs c' S D IH]; intros W HD; [lia|].
    destruct (step_shards d c ev c1 S W) as (s0 & Hs1 & Hs2); [apply HD; now left|].
    pose proof (sizeOf_step d c c1 s0 Hs1 Hs2 (allShards nsh) (seq_NoDup _ _)) as St.
    fold (size c1) in St. fold (size c) in St.
    specialize (IH (wInv_step c ev c1 S W) (fun c2 Hi => HD c2 (or_intror Hi))). lia.
  Qed.

  Lemma between_sizes d t c evs cs c' : during allow c evs cs c' -> (d = 1 \/ d = -1) ->
    wInv c -> (forall c1, In c1 cs -> allDir d c1) ->
    forall p ss n dn, thr c t = Running OLen p -> lenState p ss n -> allShards nsh = dn ++ ss ->
    forall lo, 0 <= d * (n - sizeOf lo dn) -> 0 <= d * (sizeOf c dn - n) -> (forall s, 0 <= d * (glen (items (shm c) s) - glen (items (shm lo) s))) ->
    forall r evs', evs = evs' ++ [ERet t OLen r] -> (forall o r', ~ In (ERet t o r') evs') ->
    exists m, r = RInt m /\ 0 <= d * (m - size lo) /\ 0 <= d * (size c' - m).
  Proof.
    induction 1 as [c|c ev c1 evs cs c' S D IH]; intros Hd W HD p ss n dn E LS Ess lo H1 H2 H3 r evs' Ev Nr.
    { destruct evs'; discriminate. }
    assert (HDc : allDir d c) by (apply HD; now left).
    destruct (step_shards d c ev c1 S W HDc) as (s0 & Hs1 & Hs2).
    pose proof (sizeOf_step d c c1 s0 Hs1 Hs2) as St.
    assert (Nd : NoDup (allShards nsh)) by apply seq_NoDup.
    assert (Ndn : NoDup dn /\ NoDup ss) by (rewrite Ess in Nd; now apply NoDup_app_split).
    destruct Ndn as [Nd1 Nd2]. pose proof (St dn Nd1) as Std. pose proof (St ss Nd2) as Sts.
    pose proof (wInv_step c ev c1 S W) as W1.
    assert (H3' : forall s, 0 <= d * (glen (items (shm c1) s) - glen (items (shm lo) s))).
    { intros s. specialize (H3 s). destruct (Nat.eq_dec s s0) as [->|Hn]; [lia|]. now rewrite Hs1. }
    assert (HD' : forall c1, In c1 cs -> allDir d c1) by (intros; apply HD; now right).
    (* the Len call continues unchanged *)
    assert (Cont : forall q, thr c1 t = Running OLen q -> lenState q ss n -> (forall r', ev <> [ERet t OLen r']) ->
              (forall o r', ~ In (ERet t o r') ev) ->
              exists m, r = RInt m /\ 0 <= d * (m - size lo) /\ 0 <= d * (size c' - m)).
    { intros q Eq LSq Hne Hni. assert (exists evs2, evs' = ev ++ evs2 /\ evs = evs2 ++ [ERet t OLen r]) as (evs2 & -> & ->).
      { destruct S as [t1 o1 sh th E1 A|t1 o1 r1 sh th E1|t1 o1 p1 sh th E1|t1 o1 p1 p' sh sh' th E1 T]; cbn in Ev.
        - destruct evs' as [|e evs2]; cbn in Ev; [discriminate|]. injection Ev as <- ->. exists evs2. auto.
        - destruct evs' as [|e evs2]; cbn in Ev.
          + injection Ev as -> -> -> ->. exfalso. apply (Hne r). reflexivity.
          + injection Ev as <- ->. exists evs2. auto.
        - destruct evs' as [|e evs2]; cbn in Ev; [discriminate|]. injection Ev as <- ->. exists evs2. auto.
        - exists evs'. auto. }
      eapply (IH Hd W1 HD' q ss n dn Eq LSq Ess lo H1); [lia|exact H3'|reflexivity|].
      - intros o r' Hi. apply (Nr o r'). apply in_or_app. now right. }
    destruct S as [t1 o1 sh th E1 A|t1 o1 r1 sh th E1|t1 o1 p1 sh th E1|t1 o1 p1 p' sh sh' th E1 T]; cbn [thr shm] in *.
    - apply (Cont p); [|assumption|discriminate|intros o r' [Hi|[]]; discriminate].
      rewrite fupd_other; [assumption|]. intros ->. congruence.
    - destruct (Nat.eq_dec t1 t) as [->|Hn].
      + rewrite E in E1. injection E1 as <- ->.
        destruct evs' as [|e evs2]; cbn in Ev; [|injection Ev as <- ->; exfalso; apply (Nr OLen r1); now left].
        injection Ev as -> ->. apply lenState_ret in LS as [-> ->]. rewrite app_nil_r in Ess. exists n. split; [reflexivity|].
        pose proof (during_mono d _ _ _ _ D W1 HD') as Mo.
        unfold size in *. rewrite Ess in *. split; [assumption|]. lia.
      + apply (Cont p); [rewrite fupd_other by congruence; assumption|assumption|congruence|].
        intros o r' [Hi|[]]. congruence.
    - apply (Cont p); [|assumption|discriminate|intros o r' [Hi|[]]; discriminate].
      rewrite fupd_other; [assumption|]. intros ->. rewrite E in E1. injection E1 as <- ->. now apply lenState_call in LS.
    - destruct (Nat.eq_dec t1 t) as [->|Hn].
      + rewrite E in E1. injection E1 as <- <-.
        destruct (lenState_step t p ss n sh p' sh' LS T) as [Hi [LS'|(s & ss' & -> & LS')]].
        * apply (Cont p'); [apply fupd_same|assumption|discriminate|intros o r' []].
        * assert (Ess' : allShards nsh = (dn ++ [s]) ++ ss') by (rewrite <- app_assoc; exact Ess).
          cbn [app] in Ev. cbn [sizeOf shm] in *.
          specialize (H3 s) as H3s.
          eapply (IH Hd W1 HD' p' ss' _ (dn ++ [s]) (fupd_same _ _ _) LS' Ess' lo); [| |exact H3'|exact Ev|exact Nr];
            rewrite ?sizeOf_app; cbn [sizeOf shm]; rewrite ?Hi; lia.
      + apply (Cont p); [rewrite fupd_other by congruence; assumption|assumption|discriminate|intros o r' []].
  Qed.

  (** Discrete intermediate values along the run. *)
  Lemma sizes_continuous d c evs cs c' : during allow c evs cs c' -> (d = 1 \/ d = -1) -> wInv c ->
    (forall c1, In c1 cs -> allDir d c1) ->
    forall m, 0 <= d * (m - size c) -> 0 <= d * (size c' - m) -> exists c1, In c1 cs /\ size c1 = m.
  Proof.
    induction 1 as [c|c ev c1 evs cs c' S D IH]; intros Hd W HD m H1 H2.
    - exists c. split; [now left|]. destruct Hd as [-> | ->]; lia.
    - destruct (Z.eq_dec (size c) m) as [E|Hne]; [exists c; split; [now left|assumption]|].
      destruct (step_shards d c ev c1 S W) as (s0 & Hs1 & Hs2); [apply HD; now left|].
      pose proof (sizeOf_step d c c1 s0 Hs1 Hs2 (allShards nsh) (seq_NoDup _ _)) as St.
      destruct (IH Hd (wInv_step c ev c1 S W)) with (m := m) as (c2 & Hi & Hc2).
      + intros c2 Hi. apply HD. now right.
      + fold (size c1) in St. fold (size c) in St. destruct Hd as [-> | ->]; lia.
      + assumption.
      + exists c2. split; [now right|assumption].
  Qed.

  Lemma during_snoc c evs cs c1 ev c2 : during allow c evs cs c1 -> cstep allow c1 ev c2 ->
    during allow c (evs ++ ev) (cs ++ [c2]) c2.
  Proof.
    induction 1 as [c|c ev0 c0 evs cs c' S D IH]; intros S2.
    - cbn. rewrite <- (app_nil_r ev). eapply during_cons; [eassumption|constructor].
    - rewrite <- app_assoc. cbn. econstructor; eauto.
  Qed.

  Lemma len_snapshot d t tr c evs cs c1 n c' : reach allow tr c -> (d = 1 \/ d = -1) ->
    thr c t = Running OLen (progOf OLen) ->
    during allow c evs cs c1 -> (forall o r, ~ In (ERet t o r) evs) ->
    cstep allow c1 [ERet t OLen (RInt n)] c' ->
    (forall c2, In c2 cs -> allDir d c2) ->
    exists c2, In c2 cs /\ size c2 = n.
  Proof.
    intros R Hd E D Nr S HD. pose proof (wInv_reach tr c R) as W.
    assert (HD' : forall c2, In c2 (cs ++ [c']) -> allDir d c2).
    { intros c2 Hi. apply in_app_iff in Hi as [Hi|[<-|[]]]; [auto|].
      assert (Hc1 : allDir d c1).
      { apply HD. clear - D. induction D; [now left|now right]. }
      inversion S; subst. intros t2 o2 p2. cbn. destruct (fupd_case th t t2 Idle) as [[_ ->]|[_ ->]]; [discriminate|].
      apply Hc1. }
    assert (Hsz : size c' = size c1) by (inversion S; subst; unfold size; induction (allShards nsh); cbn; congruence).
    destruct (between_sizes d t _ _ _ _ (during_snoc _ _ _ _ _ _ D S) Hd W HD' _ (allShards nsh) 0 [] E (ls_start _ _) eq_refl c) with
      (r := @RInt K V n) (evs' := evs) as (m & [= <-] & H1 & H2); cbn; try lia; auto.
    - rewrite Hsz in H2. eapply sizes_continuous; eassumption.
  Qed.
End Len.
