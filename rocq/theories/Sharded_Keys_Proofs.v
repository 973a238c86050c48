(** xmap.Sharded used by one goroutine refines one Go map, for every key type. *)
From Coq Require Import Permutation.
From Verif Require Import Base Arr GoMap XMap_Spec Sharded_Model Sharded_Spec Sharded_Locks Sharded_Seq Sharded_Keys_Spec.

Section GoMapPerm.
  Context {K V : Type} (eqb : K -> K -> bool) (PE : partial_equiv eqb).
  Notation gomap := (gomap K V).

  Lemma gget_none_iff (m : gomap) k : gget eqb m k = None <-> forall k' v, In (k', v) m -> eqb k' k = false.
  Proof.
    split; [intros H k' v; now apply gget_none_in|]. induction m as [|[k0 v0] m IH]; cbn; [reflexivity|].
    intros H. rewrite (H k0 v0 (or_introl eq_refl)). apply IH. intros k' v Hi. eapply H. eauto.
  Qed.

  Lemma wfm_perm (m m' : gomap) : Permutation m m' -> wfm eqb m -> wfm eqb m' /\ forall x, gget eqb m x = gget eqb m' x.
  Proof.
    induction 1 as [|[k v] m m' P IH|[k v] [k2 v2] m|m m' m'' P1 IH1 P2 IH2]; cbn [wfm gget].
    - auto.
    - intros [H1 H2]. destruct (IH H2) as [A B]. rewrite <- B. split; [auto|]. intros x. now rewrite B.
    - destruct (eqb k k2) eqn:E; [intros [? _]; discriminate|]. rewrite (eqb_comm _ PE k2 k), E.
      intros (H1 & H2 & H3). split; [auto|]. intros x.
      destruct (eqb k x) eqn:Ex, (eqb k2 x) eqn:Ex2; try reflexivity.
      rewrite (pe_trans _ PE k x k2) in E; [discriminate|assumption|now apply (pe_sym _ PE)].
    - intros H. destruct (IH1 H) as [A B]. destruct (IH2 A) as [A' B']. split; [assumption|].
      intros x. now rewrite B.
  Qed.

  Lemma gdel_perm (m m' : gomap) k : Permutation m m' -> Permutation (gdel eqb m k) (gdel eqb m' k).
  Proof.
    induction 1 as [|[k0 v0] m m' P IH|[k0 v0] [k1 v1] m|m m' m'' P1 IH1 P2 IH2]; cbn.
    - constructor.
    - destruct (eqb k0 k); auto.
    - destruct (eqb k0 k), (eqb k1 k); auto. apply perm_swap.
    - etransitivity; eassumption.
  Qed.

  Lemma gdel_app (m m' : gomap) k : gdel eqb (m ++ m') k = gdel eqb m k ++ gdel eqb m' k.
  Proof. induction m as [|[k0 v0] m IH]; cbn; [reflexivity|]. destruct (eqb k0 k); cbn; now rewrite IH. Qed.

  Lemma gset_perm (m : gomap) k v : wfm eqb m -> Permutation (gset eqb m k v) ((k, v) :: gdel eqb m k).
  Proof.
    induction m as [|[k0 v0] m IH]; cbn; [auto|]. intros [H1 H2]. destruct (eqb k0 k) eqn:E.
    - rewrite (gdel_none eqb m k); [reflexivity|]. now rewrite <- (gget_cong _ PE m _ _ E).
    - rewrite (IH H2). apply perm_swap.
  Qed.

  Lemma wfm_app_inv (m m' : gomap) : wfm eqb (m ++ m') -> wfm eqb m /\ wfm eqb m'.
  Proof.
    induction m as [|[k v] m IH]; cbn; [auto|]. intros [H1 H2]. destruct (IH H2). repeat split; auto.
    apply gget_none_iff. intros k' v' Hi. eapply gget_none_iff; [exact H1|]. apply in_or_app. eauto.
  Qed.

  Lemma entrywise_app g (m m' : gomap) : entrywise g (m ++ m') = entrywise g m ++ entrywise g m'.
  Proof. induction m as [|[k v] m IH]; cbn; [reflexivity|]. destruct (g k v); cbn; now rewrite IH. Qed.

  Lemma entrywise_perm g (m m' : gomap) : Permutation m m' -> Permutation (entrywise g m) (entrywise g m').
  Proof.
    induction 1 as [|[k0 v0] m m' P IH|[k0 v0] [k1 v1] m|m m' m'' P1 IH1 P2 IH2]; cbn.
    - constructor.
    - destruct (g k0 v0); auto.
    - destruct (g k0 v0), (g k1 v1); auto. apply perm_swap.
    - etransitivity; eassumption.
  Qed.

  Lemma entrywise_in g (m : gomap) k v : In (k, v) (entrywise g m) -> exists v', In (k, v') m.
  Proof.
    induction m as [|[k0 v0] m IH]; cbn; [tauto|]. destruct (g k0 v0); cbn.
    - intros [[= -> ->]|H]; [eauto|]. destruct (IH H). eauto.
    - intros H. destruct (IH H). eauto.
  Qed.

  Lemma wfm_entrywise g (m : gomap) : wfm eqb m -> wfm eqb (entrywise g m).
  Proof.
    induction m as [|[k v] m IH]; cbn; [auto|]. intros [H1 H2]. destruct (g k v); [|auto]. cbn. split; [|auto].
    apply gget_none_iff. intros k' v' Hi. apply entrywise_in in Hi as [v'' Hi]. eapply gget_none_iff; eassumption.
  Qed.
End GoMapPerm.

Section Keys.
  Context {K V : Type} (eqb : K -> K -> bool) (zero : V) (nsh : nat) (hash : K -> Z).
  Hypothesis PE : partial_equiv eqb.
  Hypothesis HR : hashRespects eqb hash.
  Hypothesis Hnsh : (0 < nsh)%nat.
  Notation op := (op K V).
  Notation res := (res K V).
  Notation config := (config K V).
  Notation progOf := (progOf eqb zero nsh hash).
  Notation reach := (reach eqb zero nsh hash).
  Notation shardOf := (GetShard nsh hash).
  Notation maps := (nat -> gomap K V).
  Notation oneMap := (oneMap eqb).
  Notation mapAnswer := (mapAnswer eqb zero).
  Notation all := (allShards nsh).

  Lemma shard_respects x y : eqb x y = true -> shardOf x = shardOf y.
  Proof. intros H. unfold GetShard. now rewrite (HR _ _ H). Qed.

  Lemma shard_in k : In (shardOf k) all.
  Proof. apply in_seq. pose proof (shard_lt nsh hash Hnsh k). lia. Qed.

  Record repG (h : list op) (M : maps) : Prop := {
    r_placed : forall s k v, In (k, v) (M s) -> shardOf k = s;
    r_wf : wfm eqb (oneMap h);
    r_all : Permutation (List.concat (map M all)) (oneMap h) }.

  Lemma split_all s : In s all -> exists l1 l2, all = l1 ++ s :: l2 /\ ~ In s l1 /\ ~ In s l2.
  Proof.
    intros Hi. destruct (in_split _ _ Hi) as (l1 & l2 & E). exists l1, l2. split; [assumption|].
    assert (N : NoDup all) by apply seq_NoDup. rewrite E in N. apply NoDup_remove_2 in N.
    rewrite in_app_iff in N. tauto.
  Qed.

  Lemma map_fupd (M : maps) s m l : ~ In s l -> map (fupd M s m) l = map M l.
  Proof.
    intros Hn. apply map_ext_in. intros s' Hi. apply fupd_other. congruence.
  Qed.

  Lemma concat_fupd (M : maps) s m : In s all -> exists a b,
    List.concat (map M all) = a ++ M s ++ b /\ List.concat (map (fupd M s m) all) = a ++ m ++ b /\
    forall k v, In (k, v) (a ++ b) -> exists s', s' <> s /\ In (k, v) (M s').
  Proof.
    intros Hi. destruct (split_all s Hi) as (l1 & l2 & E & N1 & N2).
    exists (List.concat (map M l1)), (List.concat (map M l2)). rewrite E, !map_app, !concat_app. cbn.
    rewrite !map_fupd, fupd_same by assumption. repeat split.
    intros k v Hk. rewrite in_app_iff, !in_concat in Hk.
    destruct Hk as [(x & Hx & Hk)|(x & Hx & Hk)]; apply in_map_iff in Hx as (s' & <- & Hx); exists s'; split; auto; congruence.
  Qed.

  Lemma rep_get h M x : repG h M -> gget eqb (oneMap h) x = gget eqb (M (shardOf x)) x.
  Proof.
    intros [P W A]. destruct (wfm_perm eqb PE _ _ (Permutation_sym A) W) as [W' G]. rewrite G.
    destruct (concat_fupd M (shardOf x) [] (shard_in x)) as (a & b & E & _ & O). rewrite E.
    assert (N : forall k v, In (k, v) (a ++ b) -> eqb k x = false).
    { intros k v Hi. destruct (O k v Hi) as (s' & Hs & Hi'). destruct (eqb k x) eqn:Ek; [|reflexivity].
      apply P in Hi'. apply shard_respects in Ek. congruence. }
    assert (forall m', gget eqb (a ++ m') x = gget eqb m' x) as ->.
    { intros m'. clear -N. induction a as [|[k v] a IH]; cbn; [reflexivity|].
      rewrite (N k v (or_introl eq_refl)). apply IH. intros k' v' Hi. eapply N. right. exact Hi. }
    destruct (gget eqb (M (shardOf x)) x) eqn:Eg.
    - clear -Eg. induction (M (shardOf x)) as [|[k0 v0] m IH]; cbn in *; [discriminate|].
      destruct (eqb k0 x); auto.
    - apply gget_none_iff. intros k v0 Hi. apply in_app_or in Hi as [Hi|Hi].
      + eapply gget_none_iff; eassumption.
      + eapply N. apply in_or_app. right. exact Hi.
  Qed.

  Lemma rep_wf h M s : repG h M -> In s all -> wfm eqb (M s).
  Proof.
    intros [P W A] Hi. destruct (wfm_perm eqb PE _ _ (Permutation_sym A) W) as [W' _].
    destruct (concat_fupd M s [] Hi) as (a & b & E & _ & _). rewrite E in W'.
    apply wfm_app_inv in W' as [_ W']. now apply wfm_app_inv in W' as [W' _].
  Qed.

  Lemma rep_same h o M : repG h M -> oneMap (o :: h) = oneMap h -> repG (o :: h) M.
  Proof. intros [P W A] E. split; rewrite ?E; assumption. Qed.

  Lemma in_gset' (m : gomap K V) k v k' v' : In (k', v') (gset eqb m k v) -> k' = k \/ In (k', v') m.
  Proof.
    induction m as [|[k0 v0] m IH]; cbn.
    - intros [[= -> ->]|[]]. auto.
    - destruct (eqb k0 k) eqn:E; cbn.
      + intros [[= -> ->]|H]; auto.
      + intros [[= -> ->]|H]; [auto|]. apply IH in H. tauto.
  Qed.

  Lemma in_gdel' (m : gomap K V) k e : In e (gdel eqb m k) -> In e m.
  Proof. induction m as [|[k0 v0] m IH]; cbn; [auto|]. destruct (eqb k0 k); cbn; tauto. Qed.

  Lemma placed_upd (M : maps) s m : (forall s k v, In (k, v) (M s) -> shardOf k = s) ->
    (forall k v, In (k, v) m -> shardOf k = s) ->
    forall s' k v, In (k, v) (fupd M s m s') -> shardOf k = s'.
  Proof.
    intros P H s' k v. destruct (fupd_case M s s' m) as [[E ->]|[Hn ->]]; [|apply P].
    intros Hi. rewrite <- E. eauto.
  Qed.

  Lemma others_kept (M : maps) k a b : (forall s k v, In (k, v) (M s) -> shardOf k = s) ->
    (forall k' v, In (k', v) (a ++ b) -> exists s', s' <> shardOf k /\ In (k', v) (M s')) ->
    gdel eqb a k = a /\ gdel eqb b k = b.
  Proof.
    intros P O. split; apply gdel_none, gget_none_iff; intros k' v' Hi;
      (destruct (O k' v') as (s' & Hs & Hi'); [apply in_or_app; auto|]);
      (destruct (eqb k' k) eqn:E; [|reflexivity]); apply P in Hi'; apply shard_respects in E; congruence.
  Qed.

  Lemma rep_set h o M k v : repG h M -> oneMap (o :: h) = gset eqb (oneMap h) k v ->
    repG (o :: h) (fupd M (shardOf k) (gset eqb (M (shardOf k)) k v)).
  Proof.
    intros R E. pose proof R as [P W A]. split; rewrite ?E.
    - apply placed_upd; [assumption|]. intros k' v' Hi. apply in_gset' in Hi as [->|Hi]; [reflexivity|]. eapply P; eassumption.
    - now apply (wfm_gset eqb PE).
    - destruct (concat_fupd M (shardOf k) (gset eqb (M (shardOf k)) k v) (shard_in k)) as (a & b & E1 & E2 & O).
      rewrite E2, (gset_perm eqb PE _ k v W), (gset_perm eqb PE _ k v (rep_wf h M _ R (shard_in k))).
      rewrite <- (gdel_perm eqb _ _ k A), E1, !gdel_app.
      destruct (others_kept M k a b P O) as [-> ->]. cbn. symmetry. apply Permutation_middle.
  Qed.

  Lemma rep_del h o M k : repG h M -> oneMap (o :: h) = gdel eqb (oneMap h) k ->
    repG (o :: h) (fupd M (shardOf k) (gdel eqb (M (shardOf k)) k)).
  Proof.
    intros R E. pose proof R as [P W A]. split; rewrite ?E.
    - apply placed_upd; [assumption|]. intros k' v' Hi. apply in_gdel' in Hi. eapply P; eassumption.
    - now apply wfm_gdel.
    - destruct (concat_fupd M (shardOf k) (gdel eqb (M (shardOf k)) k) (shard_in k)) as (a & b & E1 & E2 & O).
      rewrite E2, <- (gdel_perm eqb _ _ k A), E1, !gdel_app.
      destruct (others_kept M k a b P O) as [-> ->]. reflexivity.
  Qed.

  Lemma orders_perm (M : maps) ls ss : orders M ls ss -> Permutation (List.concat ls) (List.concat (map M ss)).
  Proof. induction 1 as [|l s ls ss P _ IH]; cbn; [constructor|]. now apply Permutation_app. Qed.

  Lemma rep_orders h M ls : repG h M -> orders M ls all -> Permutation (List.concat ls) (oneMap h).
  Proof. intros R Ho. rewrite (orders_perm _ _ _ Ho). apply R. Qed.

  Lemma fold_gset' (l acc : list (K * V)) : wfm eqb (acc ++ l) ->
    fold_left (fun ret e => gset eqb ret (fst e) (snd e)) l acc = acc ++ l.
  Proof.
    revert acc. induction l as [|[k v] l IH]; intros acc W; cbn; [now rewrite app_nil_r|].
    rewrite (gset_new eqb).
    - rewrite IH; rewrite <- app_assoc; [reflexivity|assumption].
    - apply gget_none_iff. intros k' v' Hi.
      apply in_split in Hi as (a & b & ->). rewrite <- app_assoc in W. apply wfm_app_inv in W as [_ W].
      cbn in W. destruct W as [W _]. rewrite (eqb_comm _ PE). eapply gget_none_iff; [exact W|].
      apply in_or_app. right. left. reflexivity.
  Qed.

  Lemma swp_iterateShards ss fn : forall M (Q : res -> maps -> Prop), NoDup ss ->
    (forall M', (forall s, In s ss -> M' s = fn (M s)) -> (forall s, ~ In s ss -> M' s = M s) -> Q RUnit M') ->
    swp (iterateShardsP ss fn) M Q.
  Proof.
    induction ss as [|s ss IH]; intros M Q N H; cbn.
    - apply H; [intros s []|auto].
    - inversion N; subst. apply IH; [assumption|]. intros M' H1 H0. apply H.
      + intros s' [<-|Hin].
        * rewrite H0 by assumption. apply fupd_same.
        * rewrite H1, fupd_other by congruence. reflexivity.
      + intros s' Hn. rewrite H0 by (intros Hi; apply Hn; now right). apply fupd_other.
        intros ->. apply Hn. now left.
  Qed.

  Lemma zlen_perm {A} (l l' : list A) : Permutation l l' -> zlen l = zlen l'.
  Proof. intros P. unfold zlen. now rewrite (Permutation_length P). Qed.

  Lemma nil_perm {A} (l l' : list A) : Permutation l l' ->
    match l with [] => true | _ => false end = match l' with [] => true | _ => false end.
  Proof. intros P. apply Permutation_length in P. destruct l, l'; try reflexivity; discriminate P. Qed.

  Lemma swp_opG h M o : ordinary o -> repG h M ->
    swp (progOf o) M (fun r M' => mapAnswer h o r /\ repG (o :: h) M').
  Proof.
    intros S R. pose proof (fun x => rep_get h M x R) as R1. destruct o; cbn [Sharded_Model.progOf].
    - cbn. split; [reflexivity|]. now apply rep_set.
    - unfold trySetP. cbn [swp]. unfold has. rewrite <- R1. destruct (gget eqb (oneMap h) key) eqn:E; cbn.
      + split; [cbn; now rewrite ?E|]. apply rep_same; [assumption|]. cbn. now rewrite ?E.
      + split; [cbn; now rewrite ?E|]. apply rep_set; [assumption|]. cbn. now rewrite ?E.
    - unfold getP, tryGetK. cbn [swp]. unfold get2. rewrite <- R1. destruct (gget eqb (oneMap h) key) eqn:E; cbn;
        (split; [cbn; now rewrite ?E|]); now apply rep_same.
    - unfold tryGetP, tryGetK. cbn [swp]. unfold get2. rewrite <- R1. destruct (gget eqb (oneMap h) key) eqn:E; cbn;
        (split; [cbn; now rewrite ?E|]); now apply rep_same.
    - cbn. unfold has. rewrite <- R1. split; [now destruct (gget eqb (oneMap h) key)|]. now apply rep_same.
    - cbn. split; [reflexivity|]. now apply rep_del.
    - unfold getOrSetDefaultP, tryGetK. cbn [swp]. unfold get2. rewrite <- R1. destruct (gget eqb (oneMap h) key) eqn:E; cbn.
      + split; [cbn; now rewrite ?E|]. apply rep_same; [assumption|]. cbn. now rewrite ?E.
      + unfold get2. rewrite <- R1, E. cbn. split; [cbn; now rewrite ?E|].
        apply rep_set; [assumption|]. cbn. now rewrite ?E.
    - unfold getOrSetFactoryP, tryGetK. cbn [swp]. unfold get2. rewrite <- R1. destruct (gget eqb (oneMap h) key) eqn:E; cbn.
      + split; [cbn; now rewrite ?E|]. apply rep_same; [assumption|]. cbn.
        destruct factory; [now rewrite E|reflexivity].
      + unfold get2. rewrite <- R1, E. cbn. destruct factory; cbn.
        * split; [cbn; now rewrite ?E|]. apply rep_set; [assumption|]. cbn. now rewrite ?E.
        * split; [cbn; now rewrite ?E|]. now apply rep_same.
    - apply swp_len. split; [|now apply rep_same]. cbn [Sharded_Keys_Spec.mapAnswer]. unfold glen. rewrite Z.add_0_l. f_equal. exact (zlen_perm _ _ (r_all _ _ R)).
    - apply (swp_empty nsh Hnsh). split; [|now apply rep_same]. cbn. f_equal. exact (nil_perm _ _ (r_all _ _ R)).
    - apply swp_readOnly. intros ls Ho. split; [|now apply rep_same].
      exists (List.concat ls). split; [eapply rep_orders; eassumption|].
      rewrite (fold_app_gen (map fst)); [reflexivity| |reflexivity]. intros; apply map_app.
    - apply swp_readOnly. intros ls Ho. split; [|now apply rep_same].
      exists (List.concat ls). split; [eapply rep_orders; eassumption|].
      rewrite (fold_app_gen (map snd)); [reflexivity| |reflexivity]. intros; apply map_app.
    - apply swp_readOnly. intros ls Ho. split; [|now apply rep_same].
      exists (List.concat ls). split; [eapply rep_orders; eassumption|].
      rewrite (fold_app_gen (fun l => l)); reflexivity.
    - apply swp_readOnly. intros ls Ho. split; [|now apply rep_same].
      pose proof (rep_orders h M ls R Ho) as A. exists (List.concat ls). split; [assumption|].
      rewrite fold_concat, fold_gset'; [reflexivity|]. cbn.
      apply (wfm_perm eqb PE _ _ (Permutation_sym A)). apply R.
    - apply swp_clear. intros M' H1 H2. split; [reflexivity|]. split; cbn.
      + intros s k v. destruct (in_dec Nat.eq_dec s all); [rewrite H1 by assumption; contradiction|].
        rewrite H2 by assumption. apply R.
      + exact I.
      + assert (forall ss, (forall s, In s ss -> M' s = []) -> List.concat (map M' ss) = []) as ->; auto.
        clear. induction ss as [|s ss IH]; intros H; cbn; [reflexivity|]. rewrite H by now left.
        apply IH. intros s' Hs. apply H. now right.
    - apply swp_iterate; [intros k v []|]. intros ls r Ho Hd. split; [|now apply rep_same].
      destruct Hd as (seen & rest & returned & Ha & Hr & Hd). exists seen, rest, returned.
      cbn in Ha. rewrite <- Ha. split; [eapply rep_orders; eassumption|]. auto.
    - apply swp_readOnly. intros ls Ho. split; [|now apply rep_same].
      exists ls. split; [eapply rep_orders; eassumption|]. f_equal.
      assert (G : forall acc, fold_left (fun (ms : list (list (K * V))) l => ms ++ [l]) ls acc = acc ++ ls).
      { clear. induction ls as [|l ls IH]; intros acc; cbn; [now rewrite app_nil_r|].
        rewrite IH, <- app_assoc. reflexivity. }
      apply G.
    - destruct S as [g Hg]. apply swp_iterateShards; [apply seq_NoDup|]. intros M' H1 H2. split; [reflexivity|].
      split; cbn [Sharded_Keys_Spec.oneMap]; rewrite ?Hg.
      + intros s k v. destruct (in_dec Nat.eq_dec s all); [|rewrite H2 by assumption; apply R].
        rewrite H1, Hg by assumption. intros Hi. apply entrywise_in in Hi as [v' Hi]. eapply R; eassumption.
      + apply wfm_entrywise, R.
      + rewrite <- (entrywise_perm g _ _ (r_all _ _ R)).
        assert (forall ss, (forall s, In s ss -> In s all) -> List.concat (map M' ss) = entrywise g (List.concat (map M ss))) as ->; [|reflexivity|auto].
        induction ss as [|s ss IH]; intros Hs; cbn; [reflexivity|].
        rewrite entrywise_app, H1, Hg by (apply Hs; now left). f_equal. apply IH. intros s' Hi. apply Hs. now right.
  Qed.

  Definition oneThreadG (t : nat) (o : op) : Prop := t = 0%nat /\ ordinary o.

  Lemma hist_snocG (h : list op) ops rs o r : hist mapAnswer h ops rs -> mapAnswer (rev ops ++ h) o r ->
    hist mapAnswer h (ops ++ [o]) (rs ++ [r]).
  Proof.
    induction 1 as [h|h o' r' ops rs A H IH]; cbn; intros Ho; [constructor; [assumption|constructor]|].
    rewrite <- app_assoc in Ho. constructor; auto.
  Qed.

  Definition seqInvG (tr : list (event K V)) (c : config) : Prop :=
    let ops := map fst (returns tr) in
    hist mapAnswer [] ops (map snd (returns tr)) /\
    (forall t, t <> 0%nat -> thr c t = Idle) /\
    match thr c 0%nat with
    | Idle => repG (rev ops) (items (shm c))
    | Running o p => swp p (items (shm c)) (fun r M' => mapAnswer (rev ops) o r /\ repG (o :: rev ops) M')
    end.

  Lemma rep_initial : repG [] (fun _ => []).
  Proof.
    split; cbn; [tauto|exact I|]. assert (forall ss : list nat, List.concat (map (fun _ => @nil (K * V)) ss) = []) as ->; auto.
    induction ss; cbn; auto.
  Qed.

  Lemma seq_reachG tr c : reach oneThreadG tr c -> seqInvG tr c.
  Proof.
    induction 1 as [|tr c ev c' _ IH S].
    - split; [constructor|]. split; [reflexivity|]. cbn. apply rep_initial.
    - destruct IH as (H & HI & HR'). unfold seqInvG. rewrite returns_app, !map_app.
      destruct S as [t o sh th E [-> A]|t o r sh th E|t o p sh th E|t o p p' sh sh' th E T];
        cbn [shm thr returns map app fst snd] in HI, HR' |- *; rewrite ?app_nil_r.
      + rewrite E in HR'. split; [assumption|]. split.
        * intros t Ht. rewrite fupd_other by congruence. auto.
        * rewrite fupd_same. now apply swp_opG.
      + assert (t = 0%nat) as -> by (destruct (Nat.eq_dec t 0); [assumption|]; rewrite HI in E by assumption; discriminate).
        rewrite E in HR'. cbn in HR'. destruct HR' as [HA HR']. split; [|split].
        * apply hist_snocG; [assumption|]. now rewrite app_nil_r.
        * intros t Ht. rewrite fupd_other by congruence. auto.
        * rewrite fupd_same, rev_app_distr. exact HR'.
      + assert (t = 0%nat) as -> by (destruct (Nat.eq_dec t 0); [assumption|]; rewrite HI in E by assumption; discriminate).
        rewrite E in HR'. split; [assumption|]. split.
        * intros t Ht. rewrite fupd_other by congruence. auto.
        * rewrite fupd_same. exact HR'.
      + assert (t = 0%nat) as -> by (destruct (Nat.eq_dec t 0); [assumption|]; rewrite HI in E by assumption; discriminate).
        rewrite E in HR'. split; [assumption|]. split.
        * intros t Ht. rewrite fupd_other by congruence. auto.
        * rewrite fupd_same. destruct T; cbn in HR' |- *; auto.
  Qed.
End Keys.

(** Float keys. *)
Lemma floatEq_pe : partial_equiv floatEq.
Proof.
  split; unfold floatEq; intros [a ta] [b tb]; cbn [fst].
  - destruct (isNaN64 a), (isNaN64 b); cbn; auto. rewrite (Z.eqb_sym b a), (andb_comm (isZero64 b)). auto.
  - intros [c tc]. cbn [fst]. destruct (isNaN64 a), (isNaN64 b); cbn; try discriminate.
    destruct (isNaN64 c); cbn; auto. intros H1 H2. apply orb_true_iff in H1, H2. apply orb_true_iff.
    destruct H1 as [H1|H1], H2 as [H2|H2]; rewrite ?Z.eqb_eq, ?andb_true_iff in *; subst; auto; intuition.
Qed.

Lemma floatHash_ok raw : hashRespects floatEq (floatHash raw).
Proof.
  intros [a ta] [b tb]. unfold floatEq, floatHash. cbn [fst snd].
  destruct (isNaN64 a), (isNaN64 b); cbn; try discriminate. intros H. apply orb_true_iff in H as [H|H].
  - apply Z.eqb_eq in H. subst. reflexivity.
  - apply andb_true_iff in H as [-> ->]. reflexivity.
Qed.
